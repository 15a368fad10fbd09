(** Lanczos's formula: one step of its logarithmic derivative, by polynomials with integer coefficients *)
From Coq Require Import List Arith ZArith Lia Reals Lra Psatz.
From Coquelicot Require Import Rcomplements Hierarchy Continuity Derive AutoDerive ElemFct.
From Verif Require Import EllipSpec.
Import ListNotations.
Open Scope R_scope.

(** ** Polynomials *)
Fixpoint ev (l : list Z) (x : R) : R := match l with [] => 0 | a :: l' => IZR a + x * ev l' x end.
Fixpoint padd (p q : list Z) : list Z := match p, q with [], _ => q | _, [] => p | a :: p', b :: q' => (a + b)%Z :: padd p' q' end.
Definition pscale (c : Z) (p : list Z) : list Z := map (Z.mul c) p.
Fixpoint pmul (p q : list Z) : list Z := match p with [] => [] | a :: p' => padd (pscale a q) (0%Z :: pmul p' q) end.
Fixpoint pder (p : list Z) : list Z := match p with [] => [] | _ :: p' => padd p' (0%Z :: pder p') end.
Fixpoint pshift (p : list Z) : list Z := match p with [] => [] | a :: p' => let s := pshift p' in padd [a] (padd s (0%Z :: s)) end.
Fixpoint phalf (p : list Z) : list Z := match p with [] => [] | a :: p' => (a * 2 ^ Z.of_nat (length p'))%Z :: phalf p' end.
Fixpoint ppow (p : list Z) (n : nat) : list Z := match n with O => [1%Z] | S n' => pmul p (ppow p n') end.
Definition nneg (p : list Z) : bool := forallb (Z.leb 0) p.
Definition ppos (p : list Z) : bool := match p with [] => false | _ :: _ => forallb (Z.ltb 0) p end.

Lemma ev_add p q x : ev (padd p q) x = ev p x + ev q x.
Proof. revert q. induction p as [|a p IH]; intros q; [cbn; ring|]. destruct q as [|b q]; cbn [padd ev]; [ring|]. rewrite IH, plus_IZR. ring. Qed.
Lemma ev_scale c p x : ev (pscale c p) x = IZR c * ev p x.
Proof. induction p as [|a p IH]; cbn [pscale map ev]; [ring|]. change (map (Z.mul c) p) with (pscale c p). rewrite IH, mult_IZR. ring. Qed.
Lemma ev_mul p q x : ev (pmul p q) x = ev p x * ev q x.
Proof. induction p as [|a p IH]; cbn [pmul ev]; [ring|]. rewrite ev_add, ev_scale. cbn [ev]. rewrite IH. ring. Qed.
Lemma ev_pow p n x : ev (ppow p n) x = ev p x ^ n.
Proof. induction n as [|n IH]; cbn [ppow]; [cbn; ring|]. rewrite ev_mul, IH. cbn [pow]. ring. Qed.
Lemma ev_shift p x : ev (pshift p) x = ev p (x + 1).
Proof. induction p as [|a p IH]; cbn [pshift]; [reflexivity|]. cbv zeta. rewrite !ev_add. cbn [ev]. rewrite IH. ring. Qed.
Lemma ev_der p x : is_derive (ev p) x (ev (pder p) x).
Proof.
  induction p as [|a p IH]; [apply (is_derive_const 0 x)|]. cbn [pder]. rewrite ev_add. cbn [ev].
  evar_last; [apply (is_derive_plus (fun _ => IZR a) (fun x => x * ev p x)); [apply is_derive_const|apply (is_derive_mult (fun x => x) (ev p)); [apply is_derive_id|exact IH|intros; apply Rmult_comm]]|].
  match goal with |- ?u = ?v => change (@eq R u v) end. unfold plus, mult, one, zero; cbn. unfold mult, one; cbn. ring.
Qed.
Lemma ev_half p x : ev (phalf p) (2 * x) * 2 = 2 ^ length p * ev p x.
Proof.
  induction p as [|a p IH]; cbn [phalf ev length pow]; [ring|]. rewrite mult_IZR. replace (IZR (2 ^ Z.of_nat (length p))) with (2 ^ length p) by (rewrite <- pow_IZR; reflexivity).
  rewrite Rmult_plus_distr_r. replace (2 * x * ev (phalf p) (2 * x) * 2) with (2 * x * (ev (phalf p) (2 * x) * 2)) by ring. rewrite IH. ring.
Qed.
Lemma nneg_ok p x : nneg p = true -> 0 <= x -> 0 <= ev p x.
Proof. intros H Hx. induction p as [|a p IH]; cbn [ev]; [lra|]. cbn [nneg forallb] in H. apply andb_prop in H as [A B]. apply Z.leb_le, IZR_le in A. specialize (IH B). nra. Qed.
Lemma ppos_ok p x : ppos p = true -> 0 <= x -> 0 < ev p x.
Proof.
  intros H Hx. destruct p as [|a p]; [discriminate|]. cbn [ppos forallb] in H. apply andb_prop in H as [A B]. apply Z.ltb_lt, IZR_lt in A. cbn [ev]. assert (0 <= ev p x); [|nra].
  apply nneg_ok; [|exact Hx]. unfold nneg. rewrite forallb_forall in *. intros y Hy. specialize (B y Hy). apply Z.ltb_lt in B. apply Z.leb_le. lia.
Qed.
Definition nneg_half (p : list Z) : bool := nneg (pshift (phalf p)).
Lemma nneg_half_ok p x : nneg_half p = true -> 1/2 <= x -> 0 <= ev p x.
Proof.
  intros H Hx. pose proof (nneg_ok _ (2 * x - 1) H ltac:(lra)) as N. rewrite ev_shift in N. replace (2 * x - 1 + 1) with (2 * x) in N by ring. pose proof (ev_half p x) as E. assert (0 < 2 ^ length p) by (apply pow_lt; lra).
  apply (Rmult_le_reg_l (2 ^ length p)); [assumption|]. lra.
Qed.

(** ** The logarithm *)
Fixpoint ath (m : nat) (t : R) : R := match m with O => 0 | S m' => ath m' t + 2 * t ^ (2 * m' + 1) / INR (2 * m' + 1) end.
Lemma incr_on (f df : R -> R) a b : a <= b -> (forall t, a <= t <= b -> is_derive f t (df t)) -> (forall t, a <= t <= b -> 0 <= df t) -> f a <= f b.
Proof.
  intros Hab D N. destruct (MVT_gen f a b df) as (c & Hc & E).
  - intros x Hx. rewrite Rmin_left, Rmax_right in Hx by lra. apply D. lra.
  - intros x Hx. rewrite Rmin_left, Rmax_right in Hx by lra. apply continuity_pt_filterlim. apply (ex_derive_continuous f). exists (df x). apply D. lra.
  - rewrite Rmin_left, Rmax_right in Hc by lra. specialize (N c Hc). nra.
Qed.
Fixpoint geo (m : nat) (t : R) : R := match m with O => 0 | S m' => geo m' t + 2 * t ^ (2 * m') end.
Lemma geo_eq m t : geo m t * (1 - t * t) = 2 - 2 * t ^ (2 * m).
Proof. induction m as [|m IH]; cbn [geo]; [cbn; ring|]. rewrite Rmult_plus_distr_r, IH. replace (2 * S m)%nat with (S (S (2 * m))) by lia. cbn [pow]. ring. Qed.
Lemma pow_int k n c t : n = S k -> c = INR n -> is_derive (fun t => 2 * t ^ n / c) t (2 * t ^ k).
Proof. intros -> ->. assert (N : INR (S k) <> 0) by (apply not_0_INR; lia). auto_derive; [exact I|]. cbn [Init.Nat.pred]. change (match k with O => 1 | S _ => INR k + 1 end) with (INR (S k)). field. exact N. Qed.
Lemma pow_der k n c t : n = S k -> is_derive (fun t => 2 * t ^ n * c) t (2 * INR n * t ^ k * c).
Proof. intros ->. auto_derive; [exact I|]. cbn [Init.Nat.pred]. change (match k with O => 1 | S _ => INR k + 1 end) with (INR (S k)). ring. Qed.
Lemma ath_derive m t : is_derive (ath m) t (geo m t).
Proof.
  induction m as [|m IH]; [apply (is_derive_const 0 t)|]. cbn [ath geo]. apply (is_derive_plus (ath m) (fun t => 2 * t ^ (2 * m + 1) / INR (2 * m + 1))); [exact IH|].
  apply pow_int; [lia|reflexivity].
Qed.
Lemma ath_0 m : ath m 0 = 0.
Proof. induction m as [|m IH]; cbn [ath]; [reflexivity|]. rewrite IH, pow_i by lia. unfold Rdiv. ring. Qed.
Lemma ath_bound m t : 0 <= t < 1 -> 0 <= ln ((1 + t) / (1 - t)) - ath m t <= 2 * t ^ (2 * m + 1) / (INR (2 * m + 1) * (1 - t * t)).
Proof.
  intros Ht. assert (N : 0 < INR (2 * m + 1)) by (apply lt_0_INR; lia).
  assert (D : forall s, 0 <= s <= t -> is_derive (fun s => ln ((1 + s) / (1 - s)) - ath m s) s (2 * s ^ (2 * m) / (1 - s * s))).
  { intros s Hs. replace (2 * s ^ (2 * m)) with (2 - geo m s * (1 - s * s)) by (rewrite geo_eq; ring). evar_last; [apply (is_derive_minus (fun s => ln ((1 + s) / (1 - s))) (ath m)); [|apply ath_derive]|].
    - auto_derive; [split; [lra|split; [apply Rdiv_lt_0_compat; lra|exact I]]|reflexivity].
    - match goal with |- ?u = ?v => change (@eq R u v) end. unfold minus, plus, opp; cbn. field. repeat split; nra. }
  assert (Z0 : ln ((1 + 0) / (1 - 0)) - ath m 0 = 0) by (replace ((1 + 0) / (1 - 0)) with 1 by field; rewrite ln_1, ath_0; ring).
  split.
  - rewrite <- Z0. apply (incr_on (fun s => ln ((1 + s) / (1 - s)) - ath m s) (fun s => 2 * s ^ (2 * m) / (1 - s * s))); [lra|exact D|]. intros s Hs. apply Rmult_le_pos; [apply Rmult_le_pos; [lra|apply pow_le; lra]|left; apply Rinv_0_lt_compat; nra].
  - set (c := / (INR (2 * m + 1) * (1 - t * t))). assert (H : (fun s => 2 * s ^ (2 * m + 1) * c - (ln ((1 + s) / (1 - s)) - ath m s)) 0 <= (fun s => 2 * s ^ (2 * m + 1) * c - (ln ((1 + s) / (1 - s)) - ath m s)) t); [|cbv beta in H; rewrite Z0, pow_i in H by lia; unfold Rdiv; fold c; lra].
    apply (incr_on (fun s => 2 * s ^ (2 * m + 1) * c - (ln ((1 + s) / (1 - s)) - ath m s)) (fun s => 2 * s ^ (2 * m) / (1 - t * t) - 2 * s ^ (2 * m) / (1 - s * s))); [lra| |].
    + intros s Hs. apply (is_derive_minus (fun s => 2 * s ^ (2 * m + 1) * c) (fun s => ln ((1 + s) / (1 - s)) - ath m s)); [|apply D, Hs]. evar_last; [apply (pow_der (2 * m)); lia|]. unfold c. field. split; [nra|lra].
    + intros s Hs. assert (P : 0 <= 2 * s ^ (2 * m)) by (apply Rmult_le_pos; [lra|apply pow_le; lra]). assert (/ (1 - s * s) <= / (1 - t * t)) by (apply Rinv_le_contravar; nra). unfold Rdiv. nra.
Qed.
