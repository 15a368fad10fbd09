(** Lanczos's formula: its logarithmic derivative is close to the digamma function *)
From Coq Require Import List Arith ZArith Lia Reals Lra Psatz.
From Coquelicot Require Import Rcomplements Hierarchy Continuity Derive AutoDerive ElemFct.
From Verif Require Import EllipSpec Improper GammaSpec GammaInt GammaFun Stirling Stirling2 LanczosPoly.
Import ListNotations.
Open Scope R_scope.

(** ** The digamma function *)
Definition psi (x : R) : R := Gv 1 x / Gam x.
Lemma lg_derive x : 0 < x -> is_derive lg x (psi x).
Proof.
  intros H. unfold lg, psi. pose proof (Gam_pos x H) as P. evar_last; [apply (is_derive_comp ln Gam x (/ Gam x) (Gv 1 x)); [apply is_derive_ln, P|apply Gam_derive, H]|]. match goal with |- ?u = ?v => change (@eq R u v) end. unfold scal; cbn. unfold mult; cbn. field. lra.
Qed.
Lemma right_derive (h : R -> R) l : is_derive h 0 l -> h 0 = 0 -> (forall s, 0 < s <= 1 -> 0 <= h s) -> 0 <= l.
Proof.
  intros D H0 N. destruct (Rle_lt_dec 0 l) as [|L]; [assumption|]. exfalso. apply is_derive_Reals in D. specialize (D (- l / 2) ltac:(lra)). destruct D as (d & D). pose proof (cond_pos d) as Pd. set (e := Rmin (d / 2) 1).
  assert (E : 0 < e <= 1) by (unfold e; split; [apply Rmin_glb_lt; lra|apply Rmin_r]). assert (Ed : e < d) by (unfold e; apply (Rle_lt_trans _ (d / 2)); [apply Rmin_l|lra]).
  specialize (D e ltac:(lra)). rewrite Rabs_pos_eq in D by lra. specialize (D Ed). rewrite Rplus_0_l, H0 in D. specialize (N e E). assert (0 <= (h e - 0) / e) by (apply Rmult_le_pos; [lra|left; apply Rinv_0_lt_compat; lra]). apply Rabs_lt_between in D. lra.
Qed.
Lemma psi_bounds x : 0 < x -> ln x - / x <= psi x <= ln x.
Proof.
  intros H. pose proof (lg_derive x H) as D. assert (D' : is_derive (fun s => lg (x + s)) 0 (psi x)).
  { evar_last; [apply (is_derive_comp lg (fun s => x + s) 0 (psi x) 1); [rewrite Rplus_0_r; exact D|auto_derive; [exact I|ring]]|]. match goal with |- ?u = ?v => change (@eq R u v) end. unfold scal; cbn. unfold mult; cbn. ring. }
  split.
  - assert (0 <= psi x - (ln x - / x)); [|lra]. apply (right_derive (fun s => lg (x + s) - (lg x + s * ln x - (1 - s) * (ln (x + s) - ln x)))).
    + apply (is_derive_minus (fun s => lg (x + s)) (fun s => lg x + s * ln x - (1 - s) * (ln (x + s) - ln x))); [exact D'|]. auto_derive; [rewrite Rplus_0_r; exact H|]. rewrite Rplus_0_r. field. lra.
    + rewrite Rplus_0_r. ring.
    + intros s Hs. pose proof (lg_between x s H ltac:(lra)). lra.
  - assert (0 <= ln x - psi x); [|lra]. apply (right_derive (fun s => lg x + s * ln x - lg (x + s))).
    + apply (is_derive_minus (fun s => lg x + s * ln x) (fun s => lg (x + s))); [auto_derive; [exact I|ring]|exact D'].
    + rewrite Rplus_0_r. ring.
    + intros s Hs. pose proof (lg_between x s H ltac:(lra)). lra.
Qed.
Lemma psi_rec x : 0 < x -> psi (x + 1) = psi x + / x.
Proof.
  intros H. assert (D1 : is_derive (fun x => lg (x + 1)) x (psi (x + 1))).
  { evar_last; [apply (is_derive_comp lg (fun x => x + 1) x (psi (x + 1)) 1); [apply lg_derive; lra|auto_derive; [exact I|ring]]|]. match goal with |- ?u = ?v => change (@eq R u v) end. unfold scal; cbn. unfold mult; cbn. ring. }
  assert (D2 : is_derive (fun x => lg (x + 1)) x (/ x + psi x)).
  { apply (is_derive_ext_loc (fun x => ln x + lg x)); [|apply (is_derive_plus ln lg); [apply is_derive_ln, H|apply lg_derive, H]]. exists (mkposreal x H). intros y Hy. symmetry. apply lg_rec. apply Rabs_lt_between in Hy. cbn in Hy. unfold minus, plus, opp in Hy; cbn in Hy. lra. }
  apply is_derive_unique in D1, D2. rewrite D1 in D2. lra.
Qed.

(** ** One step *)
Section Step.
Variables (N : list Z) (Sn Dn : Z) (K : nat) (Wn : list Z) (tau : R -> R) (Cn Cd : Z) (Rr : R) (chk : list Z -> bool) (x0 : R).
Hypothesis HD : (0 < Dn)%Z.
Hypothesis HS : (3 * Dn <= 2 * Sn)%Z.
Hypothesis HN : ppos N = true.
Hypothesis HC : (0 < Cd)%Z.
Hypothesis Hx0 : 0 <= x0.
Hypothesis chk_ok : forall p x, chk p = true -> x0 <= x -> 0 <= ev p x.
Definition ls : R := IZR Sn / IZR Dn.
Hypothesis Ht : 10 <= 2 * x0 + 2 * ls + 1.
Hypothesis HW : forall x, 0 < x -> 0 < ev Wn x /\ / ev Wn x = tau x - tau (x + 1) /\ 0 <= tau x.
Hypothesis HR : forall x, 0 < x -> x0 <= x -> ev Wn x * (/ (2 * x + 2 * ls + 1)) ^ 17 <= Rr.

Definition Lp : list Z := [Z.of_nat K; 1]%Z.
Definition Zp : list Z := [Sn; Dn].
Definition Zq : list Z := [Sn + Dn; Dn]%Z.
Definition Up : list Z := [2 * Sn + Dn; 2 * Dn]%Z.
Definition LG : list Z := fold_right padd [] (map (fun j => pscale (45045 / (2 * Z.of_nat j + 1) * Dn ^ (2 * Z.of_nat j + 1)) (ppow Up (14 - 2 * j))) [0; 1; 2; 3; 4; 5; 6; 7]%nat).
Definition NS : list Z := pshift N.
Definition W1 : list Z := pmul Lp (pmul Zp (pmul Zq (ppow Up 15))).
Definition W2 : list Z := pmul N NS.
Definition An : list Z :=
  padd (pscale 90090 (padd (pmul (padd (pmul (pshift (pder N)) N) (pscale (-1) (pmul (pder N) NS))) W1)
                           (pscale (-1) (pmul W2 (pmul Zp (pmul Zq (ppow Up 15)))))))
  (padd (pscale 45045 (pmul (pmul W2 (pmul Lp (ppow Up 15))) (padd (pmul [Dn; 2 * Dn]%Z Zp) (pscale (-1) (pmul [- Dn; 2 * Dn]%Z Zq)))))
        (pscale 4 (pmul LG (pmul W2 (pmul Lp (pmul Zp Zq)))))).
Definition Bn : list Z := pscale 90090 (pmul W2 W1).
(** The same two polynomials by successive multiplication with linear factors: the kernel's checker can evaluate these without its virtual machine *)
Definition Gn (w2 : list Z) : list Z := pmul Lp (pmul Zp (pmul Zq w2)).
Definition Fn (w2 : list Z) : list Z :=
  padd (pscale 90090 (pmul Zp (pmul Zq (padd (pmul Lp (padd (pmul (pshift (pder N)) N) (pscale (-1) (pmul (pder N) NS)))) (pscale (-1) w2)))))
       (pscale 45045 (pmul (padd (pmul [Dn; 2 * Dn]%Z Zp) (pscale (-1) (pmul [- Dn; 2 * Dn]%Z Zq))) (pmul Lp w2))).
Definition cj (j : nat) : Z := (4 * (45045 / (2 * Z.of_nat j + 1) * Dn ^ (2 * Z.of_nat j + 1)))%Z.
Definition An2 (w2 g : list Z) : list Z :=
  fold_left (fun h j => padd (pmul Up (pmul Up h)) (pscale (cj j) g)) [1; 2; 3; 4; 5; 6; 7]%nat (padd (pmul Up (Fn w2)) (pscale (cj 0) g)).
Fixpoint upn (n : nat) (g : list Z) : list Z := match n with O => g | S n' => pmul Up (upn n' g) end.
Definition both (a b : list Z) : bool := chk (padd (pscale Cn b) (pscale Cd a)) && chk (padd (pscale Cn b) (pscale (- Cd) a)).
Definition checks2 (w2 g : list Z) : bool := both (pmul Wn (An2 w2 g)) (pscale 90090 (upn 15 g)).
Definition checks1 (w2 : list Z) : bool := checks2 w2 (Gn w2).
Definition checks : bool := checks1 (pmul N NS).
Hypothesis check : checks = true.

Definition hs (x : R) : R := fold_right Rplus 0 (map (fun k => / (x + INR k)) (seq 0 K)).
Definition lf (x : R) : R := ln (x + ls) + (x - 1/2) / (x + ls) + ev (pder N) x / ev N x - hs x - 1.
Definition rtr (x : R) : R :=
  ath 8 (/ (2 * x + 2 * ls + 1)) + (x + 1/2) / (x + 1 + ls) - (x - 1/2) / (x + ls) + ev (pder N) (x + 1) / ev N (x + 1) - ev (pder N) x / ev N x - / (x + INR K).

Lemma D_pos : 0 < IZR Dn. Proof. apply IZR_lt. exact HD. Qed.
Lemma S_ls : IZR Sn = ls * IZR Dn. Proof. unfold ls. pose proof D_pos. field. lra. Qed.
Lemma ls_big : 3/2 <= ls.
Proof. pose proof D_pos as P. pose proof (IZR_le _ _ HS) as H. rewrite !mult_IZR in H. unfold ls. apply (Rmult_le_reg_r (IZR Dn)); [exact P|]. unfold Rdiv at 2. rewrite Rmult_assoc, Rinv_l by lra. lra. Qed.
Lemma LG_ok x : 0 <= x -> 2 * ev LG x = 45045 * ev Up x ^ 15 * ath 8 (/ (2 * x + 2 * ls + 1)).
Proof.
  intros Hx. pose proof D_pos as P. pose proof ls_big as B. unfold LG. cbn [map fold_right]. rewrite !ev_add, !ev_scale, !ev_pow.
  assert (EU : ev Up x = IZR Dn * (2 * x + 2 * ls + 1)). { unfold Up. cbn [ev]. rewrite plus_IZR, !mult_IZR, S_ls. ring. }
  rewrite EU. set (w := 2 * x + 2 * ls + 1). assert (Hw : w <> 0) by (unfold w; lra).
  change (14 - 2 * 0)%nat with 14%nat; change (14 - 2 * 1)%nat with 12%nat; change (14 - 2 * 2)%nat with 10%nat; change (14 - 2 * 3)%nat with 8%nat; change (14 - 2 * 4)%nat with 6%nat; change (14 - 2 * 5)%nat with 4%nat; change (14 - 2 * 6)%nat with 2%nat; change (14 - 2 * 7)%nat with 0%nat.
  rewrite !mult_IZR.
  repeat match goal with |- context [IZR (45045 / ?k)] => let v := eval vm_compute in (45045 / k)%Z in change (45045 / k)%Z with v end.
  repeat match goal with |- context [IZR (Dn ^ ?k)] => let v := eval vm_compute in k in let n := eval vm_compute in (Z.to_nat v) in replace (IZR (Dn ^ k)) with (IZR Dn ^ n) by (rewrite pow_IZR; reflexivity) end.
  unfold ath. repeat match goal with |- context [INR ?k] => let v := eval vm_compute in (Z.of_nat k) in replace (INR k) with (IZR v) by (rewrite INR_IZR_INZ; reflexivity) end.
  repeat match goal with |- context [(?a * ?b + 1)%nat] => let v := eval vm_compute in (a * b + 1)%nat in change (a * b + 1)%nat with v end.
  cbn [ev]. field. exact Hw.
Qed.
Lemma den_pos x : 0 <= x -> 0 < ev N x /\ 0 < ev N (x + 1).
Proof. intros H. split; apply ppos_ok; try exact HN; lra. Qed.
Lemma rtr_eq x : 0 < x -> rtr x * ev Bn x = ev An x.
Proof.
  intros Hx. pose proof D_pos as P. pose proof ls_big as B. destruct (den_pos x ltac:(lra)) as [N0 N1]. pose proof (LG_ok x ltac:(lra)) as EL. pose proof (pos_INR K) as PK.
  unfold An, Bn, W1, W2, NS. repeat (rewrite ?ev_add, ?ev_scale, ?ev_mul, ?ev_pow, ?ev_shift).
  assert (EU : ev Up x = IZR Dn * (2 * x + 2 * ls + 1)). { unfold Up. cbn [ev]. rewrite plus_IZR, !mult_IZR, S_ls. ring. }
  assert (EZ : ev Zp x = IZR Dn * (x + ls)). { unfold Zp. cbn [ev]. rewrite S_ls. ring. }
  assert (EQ : ev Zq x = IZR Dn * (x + 1 + ls)). { unfold Zq. cbn [ev]. rewrite plus_IZR, S_ls. ring. }
  assert (EK : ev Lp x = x + INR K). { unfold Lp. cbn [ev]. rewrite <- INR_IZR_INZ. ring. }
  assert (E1 : ev [Dn; 2 * Dn]%Z x = IZR Dn * (2 * x + 1)) by (cbn [ev]; rewrite mult_IZR; ring).
  assert (E2 : ev [- Dn; 2 * Dn]%Z x = IZR Dn * (2 * x - 1)) by (cbn [ev]; rewrite mult_IZR, opp_IZR; ring).
  rewrite E1, E2, EZ, EQ, EK. unfold rtr. set (u := ev Up x) in *. set (t := ath 8 _) in *. replace (4 * _) with (2 * (2 * ev LG x) * (ev N x * ev N (x + 1) * ((x + INR K) * (IZR Dn * (x + ls) * (IZR Dn * (x + 1 + ls)))))) by ring. rewrite EL. clearbody u t. clear EL EU.
  set (a := ev N x) in *. set (b := ev N (x + 1)) in *. set (a' := ev (pder N) x). set (b' := ev (pder N) (x + 1)). set (U := u ^ 15). clearbody a b a' b' U. field. repeat split; lra.
Qed.
Lemma Bn_pos x : 0 < x -> 0 < ev Bn x.
Proof.
  intros Hx. pose proof D_pos as P. pose proof ls_big as B. destruct (den_pos x ltac:(lra)) as [N0 N1]. pose proof (pos_INR K) as PK. unfold Bn, W1, W2, NS. rewrite !ev_scale, !ev_mul, ev_shift, ev_pow.
  assert (EU : ev Up x = IZR Dn * (2 * x + 2 * ls + 1)). { unfold Up. cbn [ev]. rewrite plus_IZR, !mult_IZR, S_ls. ring. }
  assert (EZ : ev Zp x = IZR Dn * (x + ls)). { unfold Zp. cbn [ev]. rewrite S_ls. ring. }
  assert (EQ : ev Zq x = IZR Dn * (x + 1 + ls)). { unfold Zq. cbn [ev]. rewrite plus_IZR, S_ls. ring. }
  assert (EK : ev Lp x = x + INR K). { unfold Lp. cbn [ev]. rewrite <- INR_IZR_INZ. ring. }
  rewrite EU, EZ, EQ, EK. repeat apply Rmult_lt_0_compat; try apply pow_lt; repeat apply Rmult_lt_0_compat; lra.
Qed.
Lemma ev_upn n g x : ev (upn n g) x = ev Up x ^ n * ev g x.
Proof. induction n as [|n IH]; cbn [upn pow]; [ring|]. rewrite ev_mul, IH. ring. Qed.
Lemma Bn2_eq x : ev (pscale 90090 (upn 15 (Gn (pmul N NS)))) x = ev Bn x.
Proof. unfold Gn, Bn, W1, W2. rewrite !ev_scale, ev_upn, !ev_mul, ev_pow. ring. Qed.
Lemma An2_eq x : ev (An2 (pmul N NS) (Gn (pmul N NS))) x = ev An x.
Proof.
  unfold An2. cbn [fold_left]. unfold An, Fn, Gn, LG, W1, W2. cbn [map fold_right]. repeat (rewrite ?ev_add, ?ev_scale, ?ev_mul, ?ev_pow). unfold cj. rewrite !(mult_IZR 4).
  change (14 - 2 * 0)%nat with 14%nat; change (14 - 2 * 1)%nat with 12%nat; change (14 - 2 * 2)%nat with 10%nat; change (14 - 2 * 3)%nat with 8%nat; change (14 - 2 * 4)%nat with 6%nat; change (14 - 2 * 5)%nat with 4%nat; change (14 - 2 * 6)%nat with 2%nat; change (14 - 2 * 7)%nat with 0%nat.
  repeat match goal with |- context [IZR (45045 / ?k * ?d)%Z] => generalize (IZR (45045 / k * d)%Z); intro end.
  generalize (ev Up x) (ev Lp x) (ev Zp x) (ev Zq x) (ev N x) (ev NS x) (ev (pder N) x) (ev (pshift (pder N)) x) (ev [Dn; (2 * Dn)%Z] x) (ev [(- Dn)%Z; (2 * Dn)%Z] x). intros. cbn [ev]. ring.
Qed.
Lemma check12 x : x0 <= x -> 0 <= IZR Cn * ev Bn x + IZR Cd * (ev Wn x * ev An x) /\ 0 <= IZR Cn * ev Bn x + IZR (- Cd) * (ev Wn x * ev An x).
Proof.
  intros H0. pose proof check as C. unfold checks, checks1, checks2, both in C. apply andb_prop in C as [C1 C2]. apply (chk_ok _ x) in C1, C2; try exact H0. rewrite ev_add, ev_scale, Bn2_eq, ev_scale, ev_mul, An2_eq in C1, C2. split; assumption.
Qed.
Lemma rtr_bound x : 0 < x -> x0 <= x -> Rabs (rtr x) * ev Wn x <= IZR Cn / IZR Cd.
Proof.
  intros Hx H0. pose proof (rtr_eq x Hx) as E. pose proof (Bn_pos x Hx) as PB. destruct (check12 x H0) as [C1 C2]. rewrite <- E in C1, C2. rewrite opp_IZR in C2.
  pose proof (proj1 (HW x Hx)) as PW. set (W := ev Wn x) in *. pose proof (IZR_lt _ _ HC) as PC. cbv beta in PC. set (c := IZR Cd) in *. set (n := IZR Cn) in *. set (B := ev Bn x) in *. set (r := rtr x) in *. clearbody c n B r W.
  assert (G1 : 0 <= n + c * (W * r)) by (apply (Rmult_le_reg_l B); [exact PB|]; rewrite Rmult_0_r; replace (B * (n + c * (W * r))) with (n * B + c * (W * (r * B))) by ring; exact C1). assert (G2 : 0 <= n - c * (W * r)) by (apply (Rmult_le_reg_l B); [exact PB|]; rewrite Rmult_0_r; replace (B * (n - c * (W * r))) with (n * B + - c * (W * (r * B))) by ring; exact C2).
  apply (Rmult_le_reg_r c); [exact PC|]. replace (n / c * c) with n by (field; lra). replace (Rabs r * W * c) with (Rabs (c * (W * r))) by (rewrite !Rabs_mult, (Rabs_pos_eq c), (Rabs_pos_eq W) by lra; ring). apply Rabs_le. lra.
Qed.
Lemma hs_shift x : 0 < x -> hs (x + 1) = hs x + / (x + INR K) - / x.
Proof.
  intros Hx. unfold hs. induction K as [|k IH]; [cbn; rewrite Rplus_0_r; ring|]. rewrite seq_S, !map_app, !fold_right_app. cbn [map fold_right].
  assert (FR : forall l a, fold_right Rplus a l = fold_right Rplus 0 l + a) by (induction l as [|b l IHl]; intros a; cbn; [ring|rewrite IHl; ring]).
  rewrite (FR _ (/ (x + 1 + _) + 0)), (FR _ (/ (x + _) + 0)), IH. rewrite S_INR. cbn [Nat.add]. replace (x + 1 + INR k) with (x + (INR k + 1)) by ring. ring.
Qed.
Lemma lf_step x : 0 < x -> x0 <= x -> Rabs (lf (x + 1) - lf x - / x) * ev Wn x <= IZR Cn / IZR Cd + Rr.
Proof.
  intros Hx H0. pose proof ls_big as B. set (t := / (2 * x + 2 * ls + 1)). assert (T : 0 < t <= 1/10). { unfold t. split; [apply Rinv_0_lt_compat; lra|]. replace (1/10) with (/ 10) by field. apply Rinv_le_contravar; lra. }
  assert (EL : ln (x + 1 + ls) - ln (x + ls) = ln ((1 + t) / (1 - t))). { rewrite <- ln_div by lra. f_equal. unfold t. field. lra. }
  pose proof (ath_bound 8 t ltac:(lra)) as AB. rewrite <- EL in AB. set (r := ln (x + 1 + ls) - ln (x + ls) - ath 8 t) in *.
  assert (ER : lf (x + 1) - lf x - / x = rtr x + r). { unfold lf, rtr. fold t. rewrite hs_shift by exact Hx. unfold r. replace (x + 1 - 1/2) with (x + 1/2) by field. ring. }
  rewrite ER. pose proof (rtr_bound x Hx H0) as RB. pose proof (proj1 (HW x Hx)) as PW. pose proof (HR x Hx H0) as R0. fold t in R0. set (W := ev Wn x) in *.
  apply (Rle_trans _ ((Rabs (rtr x) + Rabs r) * W)); [apply Rmult_le_compat_r; [lra|apply Rabs_triang]|]. rewrite Rmult_plus_distr_r. apply Rplus_le_compat; [exact RB|].
  rewrite (Rabs_pos_eq r) by lra. change (2 * 8 + 1)%nat with 17%nat in AB. replace (INR 17) with 17 in AB by (rewrite INR_IZR_INZ; reflexivity).
  assert (T17 : 0 <= t ^ 17) by (apply pow_le; lra). apply (Rle_trans _ (t ^ 17 * W)); [|lra]. apply Rmult_le_compat_r; [lra|]. eapply Rle_trans; [apply AB|]. set (q := t ^ 17) in *. assert (P2 : 2 <= 17 * (1 - t * t)) by nra. clearbody q. apply (Rmult_le_reg_r (17 * (1 - t * t))); [lra|]. unfold Rdiv. rewrite Rmult_assoc, Rinv_l by lra. rewrite Rmult_1_r, (Rmult_comm 2). apply Rmult_le_compat_l; lra.
Qed.
(** f is the logarithm up to a multiple of 1/x *)
Lemma der_le p x : nneg p = true -> 0 <= x -> 0 <= x * ev (pder p) x <= INR (length p) * ev p x.
Proof.
  intros H Hx. induction p as [|a p IH]; [cbn; lra|]. pose proof H as H'. cbn [nneg forallb] in H. apply andb_prop in H as [A Bq]. specialize (IH Bq). pose proof (nneg_ok _ x Bq Hx) as NP. cbn [pder]. rewrite ev_add. cbn [ev]. change (length (a :: p)) with (S (length p)). rewrite S_INR. apply Z.leb_le, IZR_le in A.
  set (e := ev p x) in *. set (d := ev (pder p) x) in *. set (n := INR (length p)) in *. assert (0 <= n) by apply pos_INR. clearbody e d n. rewrite Rplus_0_l. assert (x * (x * d) <= x * (n * e)) by (apply Rmult_le_compat_l; lra). assert (0 <= x * (x * d)) by (apply Rmult_le_pos; lra). assert (0 <= x * e) by (apply Rmult_le_pos; lra). assert (0 <= n * IZR a) by (apply Rmult_le_pos; lra). split; lra.
Qed.
Lemma N_nneg : nneg N = true.
Proof. pose proof HN as H. destruct N as [|a p]; [discriminate|]. unfold ppos in H. unfold nneg. rewrite forallb_forall in *. intros y Hy. specialize (H y Hy). apply Z.ltb_lt in H. apply Z.leb_le. lia. Qed.
Lemma hs_bound x : 0 < x -> 0 <= hs x <= INR K / x.
Proof.
  intros Hx. unfold hs. assert (G : forall l, 0 <= fold_right Rplus 0 (map (fun k => / (x + INR k)) l) <= INR (length l) / x).
  { induction l as [|k l IH]; cbn [map fold_right]; [cbn; unfold Rdiv; lra|]. change (length (k :: l)) with (S (length l)). rewrite S_INR. pose proof (pos_INR k). assert (0 < / (x + INR k) <= / x) by (split; [apply Rinv_0_lt_compat; lra|apply Rinv_le_contravar; lra]). unfold Rdiv in *. lra. }
  specialize (G (seq 0 K)). rewrite seq_length in G. exact G.
Qed.
Definition lM : R := ls + (ls + 1/2) + INR (length N) + INR K.
Lemma lf_ln x : 0 < x -> Rabs (lf x - ln x) <= lM / x.
Proof.
  intros Hx. pose proof ls_big as B. destruct (den_pos x ltac:(lra)) as [N0 _]. pose proof (ln_gen x ls Hx ltac:(lra)) as L. pose proof (hs_bound x Hx) as H. pose proof (der_le N x N_nneg ltac:(lra)) as Dl.
  assert (Q : 0 <= ev (pder N) x / ev N x <= INR (length N) / x). { split.
    - apply (Rmult_le_reg_l (x * ev N x)); [nra|]. rewrite Rmult_0_r. replace (x * ev N x * (ev (pder N) x / ev N x)) with (x * ev (pder N) x) by (field; lra). lra.
    - apply (Rmult_le_reg_l (x * ev N x)); [nra|]. replace (x * ev N x * (ev (pder N) x / ev N x)) with (x * ev (pder N) x) by (field; lra). replace (x * ev N x * (INR (length N) / x)) with (INR (length N) * ev N x) by (field; lra). lra. }
  assert (E : (x - 1/2) / (x + ls) - 1 = - ((ls + 1/2) / (x + ls))) by (field; lra). assert (F : 0 <= (ls + 1/2) / (x + ls) <= (ls + 1/2) / x). { split; [apply Rmult_le_pos; [lra|left; apply Rinv_0_lt_compat; lra]|]. apply Rmult_le_compat_l; [lra|apply Rinv_le_contravar; lra]. }
  assert (G : 0 <= ls / (x + ls)) by (apply Rmult_le_pos; [lra|left; apply Rinv_0_lt_compat; lra]). replace (lM / x) with (ls / x + (ls + 1/2) / x + INR (length N) / x + INR K / x) by (unfold lM; field; lra). unfold lf. apply Rabs_le. split; lra.
Qed.
Definition lC : R := IZR Cn / IZR Cd + Rr.
Lemma lC_pos : 0 <= lC.
Proof.
  pose proof (lf_step (x0 + 1) ltac:(lra) ltac:(lra)) as H. fold lC in H. eapply Rle_trans; [|exact H]. apply Rmult_le_pos; [apply Rabs_pos|left; apply HW; lra].
Qed.
Definition lD (x : R) : R := lf x - psi x.
Lemma lD_step x : 0 < x -> x0 <= x -> Rabs (lD (x + 1) - lD x) <= lC * (tau x - tau (x + 1)).
Proof.
  intros Hx H0. pose proof (lf_step x Hx H0) as H. fold lC in H. unfold lD. rewrite (psi_rec x Hx). replace (lf (x + 1) - (psi x + / x) - (lf x - psi x)) with (lf (x + 1) - lf x - / x) by ring.
  destruct (HW x Hx) as (PW & <- & _). apply (Rmult_le_reg_r (ev Wn x)); [exact PW|]. rewrite (Rmult_assoc lC), Rinv_l by lra. lra.
Qed.
Lemma lD_tele x n : 0 < x -> x0 <= x -> Rabs (lD (x + INR n) - lD x) <= lC * (tau x - tau (x + INR n)).
Proof.
  intros Hx H0. induction n as [|n IH]; [cbn [INR]; rewrite Rplus_0_r; unfold Rminus; rewrite !Rplus_opp_r, Rabs_R0; lra|]. rewrite S_INR. pose proof (pos_INR n). pose proof (lD_step (x + INR n) ltac:(lra) ltac:(lra)) as S. replace (x + (INR n + 1)) with (x + INR n + 1) by ring.
  replace (lD (x + INR n + 1) - lD x) with (lD (x + INR n + 1) - lD (x + INR n) + (lD (x + INR n) - lD x)) by ring. eapply Rle_trans; [apply Rabs_triang|]. lra.
Qed.
Lemma lD_far x : 0 < x -> Rabs (lD x) <= (lM + 1) / x.
Proof.
  intros Hx. pose proof (lf_ln x Hx) as A. pose proof (psi_bounds x Hx) as B. assert (0 < / x) by (apply Rinv_0_lt_compat, Hx). unfold lD, Rdiv in *. rewrite Rmult_plus_distr_r. apply Rabs_le_between in A. apply Rabs_le. lra.
Qed.
Theorem lf_psi x : 0 < x -> x0 <= x -> Rabs (lf x - psi x) <= lC * tau x.
Proof.
  intros Hx H0. fold (lD x). pose proof lC_pos as PC. assert (PM : 0 <= lM). { unfold lM. pose proof ls_big. pose proof (pos_INR (length N)). pose proof (pos_INR K). lra. }
  apply Rnot_lt_le. intros L. set (e := Rabs (lD x) - lC * tau x) in *. assert (E : 0 < e) by (unfold e; lra). destruct (archi ((lM + 1) / e)) as (n & Hn).
  assert (Pn : 0 < INR n) by (eapply Rle_lt_trans; [|exact Hn]; apply Rmult_le_pos; [lra|left; apply Rinv_0_lt_compat, E]). pose proof (lD_tele x n Hx H0) as T. pose proof (lD_far (x + INR n) ltac:(lra)) as F.
  assert (I : 0 <= tau (x + INR n)) by (apply HW; lra). assert (G : (lM + 1) / (x + INR n) < e). { apply Rlt_div_l; [lra|]. apply (Rlt_le_trans _ (e * INR n)); [|nra]. apply (Rmult_lt_compat_l e) in Hn; [|exact E]. replace (e * ((lM + 1) / e)) with (lM + 1) in Hn by (field; lra). exact Hn. }
  assert (Rabs (lD x) <= Rabs (lD (x + INR n)) + Rabs (lD (x + INR n) - lD x)). { replace (lD x) with (lD (x + INR n) - (lD (x + INR n) - lD x)) at 1 by ring. eapply Rle_trans; [apply Rabs_triang|]. rewrite Rabs_Ropp. lra. }
  assert (0 <= lC * tau (x + INR n)) by (apply Rmult_le_pos; lra). unfold e in *. lra.
Qed.
End Step.

(** ** Sums of partial fractions *)
Fixpoint Qp (i n : nat) : list Z := match n with O => [1%Z] | S n' => pmul [Z.of_nat i; 1%Z] (Qp (S i) n') end.
Fixpoint Pp (cs : list Z) (i : nat) : list Z := match cs with [] => [] | c :: cs' => padd (pscale c (Qp (S i) (length cs'))) (pmul [Z.of_nat i; 1%Z] (Pp cs' (S i))) end.
Fixpoint pf (cs : list R) (i : nat) (x : R) : R := match cs with [] => 0 | c :: cs' => c * / (x + INR i) + pf cs' (S i) x end.
Fixpoint pfd (cs : list R) (i : nat) (x : R) : R := match cs with [] => 0 | c :: cs' => - (c * (/ (x + INR i) * / (x + INR i))) + pfd cs' (S i) x end.
Lemma Qp_pos n i x : 0 < x -> 0 < ev (Qp i n) x.
Proof. intros Hx. revert i. induction n as [|n IH]; intros i; cbn [Qp]; [cbn; lra|]. rewrite ev_mul. cbn [ev]. rewrite <- INR_IZR_INZ. pose proof (pos_INR i). apply Rmult_lt_0_compat; [lra|apply IH]. Qed.
Lemma pf_eq cs i x : 0 < x -> pf (map IZR cs) i x * ev (Qp i (length cs)) x = ev (Pp cs i) x.
Proof.
  intros Hx. revert i. induction cs as [|c cs IH]; intros i; cbn [map pf Pp Qp length ev]; [ring|]. rewrite ev_add, ev_scale, !ev_mul, <- IH. cbn [ev]. rewrite <- INR_IZR_INZ. pose proof (pos_INR i). field. lra.
Qed.
Lemma pf_derive cs i x : 0 < x -> is_derive (pf cs i) x (pfd cs i x).
Proof.
  intros Hx. revert i. induction cs as [|c cs IH]; intros i; [apply (is_derive_const 0 x)|]. cbn [pf pfd]. apply (is_derive_plus (fun x => c * / (x + INR i)) (pf cs (S i))); [|apply IH]. pose proof (pos_INR i). set (r := INR i) in *. clearbody r. auto_derive; [lra|field; lra].
Qed.
Lemma Qp_log n i x : 0 < x -> ev (pder (Qp i n)) x = ev (Qp i n) x * fold_right Rplus 0 (map (fun k => / (x + INR k)) (seq i n)).
Proof.
  intros Hx. revert i. induction n as [|n IH]; intros i; [cbn; ring|]. cbn [seq map fold_right Qp].
  assert (D : is_derive (ev (pmul [Z.of_nat i; 1%Z] (Qp (S i) n))) x (ev (Qp (S i) n) x + (x + INR i) * ev (pder (Qp (S i) n)) x)).
  { apply (is_derive_ext (fun x => (x + INR i) * ev (Qp (S i) n) x)); [intros t; rewrite ev_mul; cbn [ev]; rewrite <- INR_IZR_INZ; match goal with |- ?u = ?v => change (@eq R u v) end; ring|]. evar_last; [apply (is_derive_mult (fun x => x + INR i) (ev (Qp (S i) n))); [set (r := INR i); auto_derive; [exact I|reflexivity]|apply ev_der|intros; apply Rmult_comm]|].
    match goal with |- ?u = ?v => change (@eq R u v) end. unfold plus, mult, one; cbn. ring. }
  apply is_derive_unique in D. pose proof (is_derive_unique _ _ _ (ev_der (pmul [Z.of_nat i; 1%Z] (Qp (S i) n)) x)) as D'. rewrite D in D'. rewrite <- D', IH, ev_mul. cbn [ev]. rewrite <- INR_IZR_INZ. pose proof (pos_INR i). field. lra.
Qed.
