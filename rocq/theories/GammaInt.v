(** Integrals of powers, logarithms and exponentials: existence, derivatives, the incomplete gamma functions *)
From Coq Require Import Reals Lra Lia Psatz.
From Coquelicot Require Import Rcomplements Hierarchy Continuity Derive RInt RInt_analysis AutoDerive ElemFct.
From Verif Require Import EllipSpec Improper CarlsonGrad GammaSpec.
Open Scope R_scope.

(** ** Growth *)
Lemma exp_mono x y : x <= y -> exp x <= exp y.
Proof. intros [H| ->]; [left; apply exp_increasing, H|right; reflexivity]. Qed.
Lemma ln_le_lin d s : 0 < d -> 0 < s -> ln s <= d * s - 1 - ln d.
Proof. intros Hd Hs. assert (0 < d * s) by (apply Rmult_lt_0_compat; assumption). pose proof (exp_ineq1_le (ln (d * s))) as H1. rewrite exp_ln in H1 by assumption. rewrite ln_mult in H1 by assumption. lra. Qed.
Lemma ln_nonneg s : 1 <= s -> 0 <= ln s.
Proof. intros H. rewrite <- ln_1. destruct H as [H| <-]; [left; apply ln_increasing; lra|right; reflexivity]. Qed.
Lemma power_exp_bound r c : 0 < c -> exists C, 0 < C /\ forall s, 1 <= s -> Rpower s r * exp (- c * s) <= C.
Proof.
  intros Hc. set (q := Rabs r + 1). assert (Q : 0 < q) by (unfold q; pose proof (Rabs_pos r); lra). exists (exp (q * (- 1 - ln (c / q)))). split; [apply exp_pos|]. intros s Hs. unfold Rpower. rewrite <- exp_plus. apply exp_mono.
  pose proof (ln_le_lin (c / q) s ltac:(apply Rdiv_lt_0_compat; lra) ltac:(lra)) as L. pose proof (ln_nonneg s Hs) as L0.
  assert (r * ln s <= q * ln s) by (apply Rmult_le_compat_r; [exact L0|unfold q; pose proof (Rle_abs r); lra]).
  assert (q * ln s <= q * (c / q * s - 1 - ln (c / q))) by (apply Rmult_le_compat_l; lra). replace (q * (c / q * s - 1 - ln (c / q))) with (c * s + q * (-1 - ln (c / q))) in H0 by (field; lra). lra.
Qed.
Lemma exp_rem x : Rabs (exp x - 1 - x) <= x ^ 2 * exp (Rabs x).
Proof.
  assert (L : forall y, 0 <= exp y - 1 - y) by (intros y; pose proof (exp_ineq1_le y); lra).
  rewrite Rabs_right by (apply Rle_ge, L).
  (* exp x - 1 <= x exp x *)
  assert (U : forall y, exp y - 1 <= y * exp y). { intros y. pose proof (exp_ineq1_le (- y)) as H. pose proof (exp_pos y). assert (exp y * exp (- y) = 1) by (rewrite <- exp_plus, Rplus_opp_r, exp_0; reflexivity). nra. }
  destruct (Rle_dec 0 x) as [P|N].
  - rewrite Rabs_right by lra. pose proof (U x). pose proof (L x). pose proof (exp_pos x). nra.
  - assert (x < 0) by lra. rewrite Rabs_left by assumption. pose proof (exp_ineq1_le (- x)). pose proof (U x). assert (exp x <= 1) by (pose proof (exp_ineq1_le (-x)); pose proof (exp_pos x); assert (exp x * exp (- x) = 1) by (rewrite <- exp_plus, Rplus_opp_r, exp_0; reflexivity); nra).
    pose proof (L x). assert (exp x - 1 - x <= x * (exp x - 1)) by lra. nra.
Qed.
Lemma Rpower_pos s r : 0 < Rpower s r.
Proof. apply exp_pos. Qed.
Lemma Rpower_derive r s : 0 < s -> is_derive (fun s => Rpower s r) s (r * Rpower s (r - 1)).
Proof. intros H. apply is_derive_Reals. apply derivable_pt_lim_power, H. Qed.

(** ** The integrals over (1, infinity), written over (0, infinity) with s = 1 + u *)
Definition jf (k : nat) (a z u : R) : R := ln (1 + u) ^ k * Rpower (1 + u) (a - 1) * exp (- z * (1 + u)).
Lemma jf_pos k a z u : 0 < u -> 0 <= jf k a z u.
Proof. intros H. unfold jf. apply Rmult_le_pos; [apply Rmult_le_pos; [apply pow_le, ln_nonneg; lra|left; apply Rpower_pos]|left; apply exp_pos]. Qed.
Lemma jf_ex k a z u : -1 < u -> ex_derive (jf k a z) u.
Proof. intros H. unfold jf, Rpower. auto_derive. repeat split; lra. Qed.
Lemma jf_cont k a z u : -1 < u -> continuous (jf k a z) u.
Proof. intros H. apply (ex_derive_continuous (jf k a z)), jf_ex, H. Qed.
Lemma ln_pow_le k s : 1 <= s -> ln s ^ k <= Rpower s (INR k).
Proof. intros H. rewrite Rpower_pow by lra. apply pow_incr. split; [apply ln_nonneg, H|]. pose proof (ln_le_lin 1 s ltac:(lra) ltac:(lra)) as L. rewrite ln_1 in L. lra. Qed.
Lemma jf_bound k a z r : 0 < z -> exists C, 0 < C /\ forall u, 0 <= u -> jf k a z u <= C * Rpower (1 + u) r.
Proof.
  intros Hz. destruct (power_exp_bound (INR k + (a - 1) - r) z Hz) as (C & HC & B). exists C. split; [exact HC|]. intros u Hu. specialize (B (1 + u) ltac:(lra)). unfold jf.
  apply Rle_trans with (Rpower (1 + u) (INR k + (a - 1) - r) * exp (- z * (1 + u)) * Rpower (1 + u) r); [|apply Rmult_le_compat_r; [left; apply Rpower_pos|exact B]].
  replace (Rpower (1 + u) (INR k + (a - 1) - r) * exp (- z * (1 + u)) * Rpower (1 + u) r) with (Rpower (1 + u) (INR k) * Rpower (1 + u) (a - 1) * exp (- z * (1 + u))).
  - apply Rmult_le_compat_r; [left; apply exp_pos|]. apply Rmult_le_compat_r; [left; apply Rpower_pos|]. apply ln_pow_le. lra.
  - rewrite (Rmult_comm _ (exp _)), (Rmult_comm _ (exp _)), Rmult_assoc. f_equal. rewrite <- !Rpower_plus. f_equal. ring.
Qed.
Lemma Rpower_m2 s : 0 < s -> Rpower s (-2) = / s ^ 2.
Proof. intros H. change (-2) with (- (2)). rewrite Rpower_Ropp. f_equal. change 2 with (INR 2). rewrite Rpower_pow by exact H. reflexivity. Qed.
Lemma j_exists k a z : 0 < z -> exists v, improper0 (jf k a z) v.
Proof.
  intros Hz. destruct (jf_bound k a z (-2) Hz) as (C & HC & B). apply (improper0_exists (jf k a z) (fun u => C * / (1 + u) ^ 2) (fun u => - C / (1 + u)) C).
  - intros t Ht. apply jf_cont. lra.
  - intros t Ht. split; [apply jf_pos, Ht|]. rewrite <- Rpower_m2 by lra. apply B. lra.
  - intros t Ht. auto_derive; [lra|]. field. lra.
  - intros t Ht. apply (ex_derive_continuous (fun u => C * / (1 + u) ^ 2)). auto_derive. nra.
  - intros t Ht. unfold Rdiv. rewrite Rabs_mult, Rabs_Ropp, (Rabs_right C) by lra. rewrite Rabs_right by (left; apply Rinv_0_lt_compat; lra). rewrite <- (Rmult_1_r C) at 2. apply Rmult_le_compat_l; [lra|]. rewrite <- Rinv_1. apply Rinv_le_contravar; lra.
Qed.
Lemma j_unique k a z v w : improper0 (jf k a z) v -> improper0 (jf k a z) w -> v = w.
Proof. apply improper0_unique. Qed.
(** derivative with respect to the exponent *)
Lemma j_derive_a k a z (F : R -> R) D : 0 < z -> (forall a, improper0 (jf k a z) (F a)) -> improper0 (jf (k + 1) a z) D -> is_derive F a D.
Proof.
  intros Hz HF HD. destruct (j_exists (k + 2) (a + 1) z Hz) as (Q & HQ). apply (improper0_param (fun a => jf k a z) F (jf (k + 1) a z) (jf (k + 2) (a + 1) z) a 1 D Q); [lra|intros; apply HF|exact HD|exact HQ|].
  intros b t Hb Ht. set (h := b - a) in *. replace b with (a + h) by (unfold h; ring). clearbody h. unfold jf. set (s := 1 + t). assert (Hs : 1 < s) by (unfold s; lra). pose proof (ln_nonneg s ltac:(lra)) as L. set (E := exp (- z * s)). assert (PE : 0 < E) by apply exp_pos.
  replace (Rpower s (a + h - 1)) with (Rpower s (a - 1) * exp (h * ln s)) by (unfold Rpower; rewrite <- exp_plus; f_equal; ring).
  replace (Rpower s (a + 1 - 1)) with (Rpower s (a - 1) * exp (ln s)) by (unfold Rpower; rewrite <- exp_plus; f_equal; ring). pose proof (Rpower_pos s (a - 1)) as PP. set (p := Rpower s (a - 1)) in *. set (l := ln s) in *. clearbody E p l. rewrite !pow_add. set (lk := l ^ k). assert (0 <= lk) by (apply pow_le, L). clearbody lk. cbn [pow].
  replace (lk * (p * exp (h * l)) * E - lk * p * E - h * (lk * (l * 1) * p * E)) with (lk * p * E * (exp (h * l) - 1 - h * l)) by ring.
  replace (h * (h * 1) * (lk * (l * (l * 1)) * (p * exp l) * E)) with (lk * p * E * ((h * l) ^ 2 * exp l)) by ring.
  rewrite Rabs_mult, (Rabs_right (lk * p * E)) by (apply Rle_ge; apply Rmult_le_pos; [apply Rmult_le_pos|]; lra). apply Rmult_le_compat_l; [apply Rmult_le_pos; [apply Rmult_le_pos|]; lra|].
  eapply Rle_trans; [apply exp_rem|]. apply Rmult_le_compat_l; [apply pow2_ge_0|]. apply exp_mono. rewrite Rabs_mult, (Rabs_right l) by lra. rewrite <- (Rmult_1_l l) at 2. apply Rmult_le_compat_r; lra.
Qed.
(** derivative with respect to the rate *)
Lemma j_derive_z k a z (F : R -> R) D : 0 < z -> (forall z, 0 < z -> improper0 (jf k a z) (F z)) -> improper0 (jf k (a + 1) z) D -> is_derive F z (- D).
Proof.
  intros Hz HF HD. destruct (j_exists k (a + 2) (z / 2) ltac:(lra)) as (Q & HQ). replace (- D) with (-1 * D) by ring. apply (improper0_param (fun z => jf k a z) F (fun u => -1 * jf k (a + 1) z u) (jf k (a + 2) (z / 2)) z (z / 2) (-1 * D) Q); [lra| |apply improper0_scal, HD|exact HQ|].
  - intros x Hx. apply HF. apply Rabs_def2 in Hx. lra.
  - intros b t Hb Ht. set (h := b - z) in *. replace b with (z + h) by (unfold h; ring). clearbody h. unfold jf. set (s := 1 + t). assert (Hs : 1 < s) by (unfold s; lra). pose proof (pow_le (ln s) k (ln_nonneg s ltac:(lra))) as L.
    replace (exp (- (z + h) * s)) with (exp (- z * s) * exp (- (h * s))) by (rewrite <- exp_plus; f_equal; ring).
    replace (Rpower s (a + 1 - 1)) with (Rpower s (a - 1) * s) by (rewrite <- (Rpower_1 s) at 2 by lra; rewrite <- Rpower_plus; f_equal; ring).
    replace (Rpower s (a + 2 - 1)) with (Rpower s (a - 1) * s ^ 2) by (replace (s ^ 2) with (Rpower s (INR 2)) by (rewrite Rpower_pow by lra; reflexivity); rewrite <- Rpower_plus; f_equal; cbn; ring).
    pose proof (Rpower_pos s (a - 1)) as PP. set (p := Rpower s (a - 1)) in *. set (lk := ln s ^ k) in *. pose proof (exp_pos (- z * s)) as PE. set (E := exp (- z * s)) in *.
    replace (exp (- (z / 2) * s)) with (E * exp (z / 2 * s)) by (unfold E; rewrite <- exp_plus; f_equal; field). clearbody p lk E.
    replace (lk * p * (E * exp (- (h * s))) - lk * p * E - h * (-1 * (lk * (p * s) * E))) with (lk * p * E * (exp (- (h * s)) - 1 - - (h * s))) by ring.
    replace (h ^ 2 * (lk * (p * s ^ 2) * (E * exp (z / 2 * s)))) with (lk * p * E * ((- (h * s)) ^ 2 * exp (z / 2 * s))) by ring.
    rewrite Rabs_mult, (Rabs_right (lk * p * E)) by (apply Rle_ge; apply Rmult_le_pos; [apply Rmult_le_pos|]; lra). apply Rmult_le_compat_l; [apply Rmult_le_pos; [apply Rmult_le_pos|]; lra|].
    eapply Rle_trans; [apply exp_rem|]. apply Rmult_le_compat_l; [apply pow2_ge_0|]. apply exp_mono. rewrite Rabs_Ropp, Rabs_mult, (Rabs_right s) by lra. apply Rmult_le_compat_r; lra.
Qed.
(** integration by parts *)
Lemma j_parts k a z Jm J Jp : 0 < z -> improper0 (jf (k - 1) a z) Jm -> improper0 (jf k a z) J -> improper0 (jf k (a + 1) z) Jp -> INR k * Jm + a * J - z * Jp = - (if Nat.eqb k 0 then exp (- z) else 0).
Proof.
  intros Hz VM V VP. eapply improper0_unique.
  - pose proof (improper0_minus _ _ _ _ (improper0_plus _ _ _ _ (improper0_scal _ (INR k) _ VM) (improper0_scal _ a _ V)) (improper0_scal _ z _ VP)) as VV. exact VV.
  - replace (- (if Nat.eqb k 0 then exp (- z) else 0)) with (0 - (if Nat.eqb k 0 then exp (- z) else 0)) by ring.
    apply (improper0_derive _ (jf k (a + 1) z)).
    + intros t Ht. unfold jf. evar_last; [apply (is_derive_mult (fun u => ln (1 + u) ^ k * Rpower (1 + u) (a + 1 - 1)) (fun u => exp (- z * (1 + u))) t (INR k * ln (1 + t) ^ (k - 1) / (1 + t) * Rpower (1 + t) (a + 1 - 1) + ln (1 + t) ^ k * (a * Rpower (1 + t) (a - 1))) (- z * exp (- z * (1 + t))))|].
      * evar_last; [apply (is_derive_mult (fun u => ln (1 + u) ^ k) (fun u => Rpower (1 + u) (a + 1 - 1)) t (INR k * ln (1 + t) ^ (k - 1) / (1 + t)) (a * Rpower (1 + t) (a - 1)))|].
        -- auto_derive; [lra|]. replace (pred k) with (k - 1)%nat by lia. field. lra.
        -- unfold Rpower. auto_derive; [lra|]. replace (exp ((a + 1 - 1) * ln (1 + t))) with (exp ((a - 1) * ln (1 + t)) * (1 + t)); [field; lra|]. rewrite <- (exp_ln (1 + t)) at 2 by lra. rewrite <- exp_plus. f_equal. ring.
        -- intros; apply Rmult_comm.
        -- reflexivity.
      * auto_derive; [exact I|ring].
      * intros; apply Rmult_comm.
      * unfold plus, mult; cbn. replace (Rpower (1 + t) (a + 1 - 1)) with (Rpower (1 + t) (a - 1) * (1 + t)) by (rewrite <- (Rpower_1 (1 + t)) at 2 by lra; rewrite <- Rpower_plus; f_equal; ring). match goal with |- ?x = ?y => change (@eq R x y) end. field. lra.
    + intros t Ht. assert (A : forall k a, ex_derive (jf k a z) t) by (intros; apply jf_ex; lra). apply (ex_derive_continuous (fun u => INR k * jf (k - 1) a z u + a * jf k a z u - z * jf k (a + 1) z u)). apply (ex_derive_minus (fun u => INR k * jf (k - 1) a z u + a * jf k a z u) (fun u => z * jf k (a + 1) z u)); [apply (ex_derive_plus (fun u => INR k * jf (k - 1) a z u) (fun u => a * jf k a z u))|]; apply (ex_derive_scal (jf _ _ z)), A.
    + replace (if Nat.eqb k 0 then exp (- z) else 0) with (jf k (a + 1) z 0).
      * apply lim0_cont. apply continuity_pt_filterlim. apply jf_cont. lra.
      * unfold jf. rewrite Rplus_0_r, ln_1, Rmult_1_r. unfold Rpower. rewrite ln_1, Rmult_0_r, exp_0. destruct k; cbn; ring.
    + destruct (jf_bound k (a + 1) z (-1) Hz) as (C & HC & B). apply (limoo_0 _ C). intros t Ht. specialize (B t ltac:(lra)). rewrite Rabs_right by (apply Rle_ge, jf_pos; lra). eapply Rle_trans; [exact B|]. unfold Rdiv. apply Rmult_le_compat_l; [lra|]. replace (-1) with (- (1)) by ring. rewrite Rpower_Ropp, Rpower_1 by lra. apply Rinv_le_contravar; [apply sqrt_lt_R0; lra|].
      rewrite <- (sqrt_square (1 + t)) by lra. apply sqrt_le_1_alt. nra.
Qed.
(** A total function with these values *)
From Verif Require Import ImproperLim.
Definition Jv (k : nat) (a z : R) : R := seq_improper (jf k a z).
Lemma Jv_ok k a z : 0 < z -> improper0 (jf k a z) (Jv k a z).
Proof. intros Hz. destruct (j_exists k a z Hz) as (v & V). unfold Jv. rewrite (seq_improper_ok _ _ V). exact V. Qed.
Lemma Jv_derive_a k a z : 0 < z -> is_derive (fun a => Jv k a z) a (Jv (k + 1) a z).
Proof. intros Hz. apply (j_derive_a k a z); [exact Hz|intros; apply Jv_ok, Hz|apply Jv_ok, Hz]. Qed.
Lemma Jv_derive_z k a z : 0 < z -> is_derive (fun z => Jv k a z) z (- (INR k * Jv (k - 1) a z + a * Jv k a z + (if Nat.eqb k 0 then exp (- z) else 0)) / z).
Proof.
  intros Hz. pose proof (j_parts k a z _ _ _ Hz (Jv_ok _ _ _ Hz) (Jv_ok _ _ _ Hz) (Jv_ok _ _ _ Hz)) as P. evar_last; [apply (j_derive_z k a z _ (Jv k (a + 1) z) Hz)|].
  - intros x Hx. apply Jv_ok, Hx.
  - apply Jv_ok, Hz.
  - match goal with |- ?x = ?y => change (@eq R x y) end. set (e := if Nat.eqb k 0 then _ else _) in *. clearbody e. assert (INR k * Jv (k - 1) a z + a * Jv k a z + e = z * Jv k (a + 1) z) as -> by lra. field. lra.
Qed.

(** ** Integrals from z to infinity and from 0 to x *)
Lemma from_unique z f v w : improper_from z f v -> improper_from z f w -> v = w.
Proof.
  intros V W. apply Rminus_diag_uniq. destruct (Req_dec (v - w) 0) as [E|N]; [exact E|exfalso]. assert (He : 0 < Rabs (v - w) / 2) by (pose proof (Rabs_pos_lt _ N); lra).
  destruct (V _ He) as (T1 & _ & H1). destruct (W _ He) as (T2 & _ & H2). set (b := Rmax T1 T2 + 1). destruct (H1 b) as (I1 & R1 & B1); [unfold b; pose proof (Rmax_l T1 T2); lra|]. destruct (H2 b) as (I2 & R2 & B2); [unfold b; pose proof (Rmax_r T1 T2); lra|].
  pose proof (is_RInt_unique _ _ _ _ R1) as U1. pose proof (is_RInt_unique _ _ _ _ R2) as U2. rewrite U1 in U2. subst I2. pose proof (Rabs_triang (v - I1) (I1 - w)) as Tr. replace (v - I1 + (I1 - w)) with (v - w) in Tr by ring. rewrite (Rabs_minus_sym v I1) in Tr. lra.
Qed.
Lemma to_unique x f v w : improper_to x f v -> improper_to x f w -> v = w.
Proof.
  intros V W. apply Rminus_diag_uniq. destruct (Req_dec (v - w) 0) as [E|N]; [exact E|exfalso]. assert (He : 0 < Rabs (v - w) / 2) by (pose proof (Rabs_pos_lt _ N); lra).
  destruct (V _ He) as (d1 & P1 & _ & H1). destruct (W _ He) as (d2 & P2 & _ & H2). assert (PM : 0 < Rmin d1 d2) by (apply Rmin_glb_lt; assumption). set (a := Rmin d1 d2 / 2). destruct (H1 a) as (I1 & R1 & B1); [unfold a; pose proof (Rmin_l d1 d2); lra|]. destruct (H2 a) as (I2 & R2 & B2); [unfold a; pose proof (Rmin_r d1 d2); lra|].
  pose proof (is_RInt_unique _ _ _ _ R1) as U1. pose proof (is_RInt_unique _ _ _ _ R2) as U2. rewrite U1 in U2. subst I2. pose proof (Rabs_triang (v - I1) (I1 - w)) as Tr. replace (v - I1 + (I1 - w)) with (v - w) in Tr by ring. rewrite (Rabs_minus_sym v I1) in Tr. lra.
Qed.
Lemma split_to x f v u : 0 < x -> improper0 f v -> improper_from x f u -> improper_to x f (v - u).
Proof.
  intros Hx V U e He. destruct (V (e / 2) ltac:(lra)) as (a0 & b0 & Pa & Hab & H1). destruct (U (e / 2) ltac:(lra)) as (T & HT & H2). exists (Rmin a0 x). split; [apply Rmin_glb_lt; assumption|]. split; [apply Rmin_r|].
  intros a Ha. pose proof (Rmin_l a0 x). pose proof (Rmin_r a0 x). set (b := Rmax b0 T + 1). assert (b0 < b) by (unfold b; pose proof (Rmax_l b0 T); lra). assert (T < b) by (unfold b; pose proof (Rmax_r b0 T); lra).
  destruct (H1 a b ltac:(lra) ltac:(lra)) as (I1 & R1 & B1). destruct (H2 b ltac:(lra)) as (I2 & R2 & B2). exists (I1 - I2). split.
  - pose proof (is_RInt_Chasles f a b x _ _ R1 (is_RInt_swap _ _ _ _ R2)) as Ch. exact Ch.
  - replace (I1 - I2 - (v - u)) with ((I1 - v) + - (I2 - u)) by ring. eapply Rle_lt_trans; [apply Rabs_triang|]. rewrite Rabs_Ropp. lra.
Qed.
Lemma subst_from z f v : 0 < z -> (forall t, 0 < t -> continuous f t) -> improper0 (fun u => z * f (z * (1 + u))) v -> improper_from z f v.
Proof.
  intros Hz Cf V e He. destruct (V (e / 2) ltac:(lra)) as (a0 & b0 & Pa & Hab & H1). exists (z * (1 + b0)). split; [nra|]. intros b Hb. set (g := fun u => z * f (z * (1 + u))) in *. set (B := b / z - 1). assert (EB : z * (1 + B) = b) by (unfold B; field; lra). assert (LB : b0 < B) by nra.
  assert (Cg : forall u, -1 < u -> continuous g u).
  { intros u Hu. apply (continuous_scal_r z (fun u => f (z * (1 + u)))). apply (continuous_comp (fun u => z * (1 + u)) f); [apply (ex_derive_continuous (fun u => z * (1 + u))); auto_derive; exact I|apply Cf; nra]. }
  assert (Ex : forall a c, -1 < a -> -1 < c -> ex_RInt g a c) by (intros a c Ha Hc; apply (ex_RInt_continuous g); intros t Ht; apply Cg; pose proof (Rmin_glb_lt a c (-1) Ha Hc); lra).
  exists (RInt g 0 B). split.
  - pose proof (is_RInt_comp f (fun u => z * (1 + u)) (fun _ => z) 0 B) as S. cbv beta in S. rewrite Rplus_0_r, Rmult_1_r, EB in S. assert (Ef : ex_RInt f z b) by (apply (ex_RInt_continuous f); intros t Ht; apply Cf; pose proof (Rmin_glb_lt z b 0 Hz ltac:(nra)); lra).
    assert (S' : is_RInt g 0 B (RInt f z b)) by (apply S; intros u Hu; pose proof (Rmin_left 0 B ltac:(lra)) as Q; rewrite Q in Hu; [apply Cf; nra|split; [auto_derive; [exact I|ring]|apply continuous_const]]).
    rewrite (is_RInt_unique _ _ _ _ S'). apply (RInt_correct f), Ef.
  - assert (Lim : filterlim (fun a => RInt g a B) (at_right 0) (locally (RInt g 0 B))).
    { assert (D : is_derive (fun a => RInt g a B) 0 (- g 0)) by (apply (is_derive_RInt' g (fun a => RInt g a B) 0 B); [exists (mkposreal (1/2) ltac:(lra)); intros a Ha; apply (RInt_correct g), Ex; [|lra]; apply Rabs_def2 in Ha; unfold minus, plus, opp in Ha; cbn in Ha; lra|apply Cg; lra]).
      pose proof (ex_derive_continuous (fun a => RInt g a B) 0 (ex_intro _ _ D)) as C. apply (filterlim_filter_le_1 (G := at_right 0) (F := locally 0)); [|exact C]. intros P HP. unfold at_right, within. apply (filter_imp P); [intros; assumption|exact HP]. }
    apply Rle_lt_trans with (e / 2); [|lra]. apply Rnot_lt_le. intros Hc. set (d := Rabs (RInt g 0 B - v) - e / 2) in *. assert (Hd : 0 < d) by (unfold d; lra).
    destruct (proj1 (filterlim_locally _ _) Lim (mkposreal d Hd)) as (r & Hr). set (a := Rmin (r / 2) (a0 / 2)). assert (0 < a) by (apply Rmin_glb_lt; [pose proof (cond_pos r); lra|lra]). assert (a < r) by (unfold a; pose proof (Rmin_l (r/2) (a0/2)); pose proof (cond_pos r); lra). assert (a < a0) by (unfold a; pose proof (Rmin_r (r/2) (a0/2)); lra).
    specialize (Hr a). assert (Ha : ball 0 r a) by (apply Rabs_def1; unfold minus, plus, opp; cbn; lra). specialize (Hr Ha ltac:(lra)). destruct (H1 a B ltac:(lra) ltac:(lra)) as (I1 & R1 & B1). pose proof (is_RInt_unique (V := R_CompleteNormedModule) _ _ _ _ R1) as U1. rewrite U1 in Hr.
    assert (Hr' : Rabs (I1 - RInt g 0 B) < d) by exact Hr. pose proof (Rabs_triang (RInt g 0 B - I1) (I1 - v)) as Tr. replace (RInt g 0 B - I1 + (I1 - v)) with (RInt g 0 B - v) in Tr by ring. rewrite (Rabs_minus_sym _ I1) in Tr. unfold d in Hr'. lra.
Qed.
(** ** The integrals of the specification in terms of [Jv] *)
Lemma tf_cont k a z t : 0 < z -> 0 < t -> continuous (fun t => ln (t / z) ^ k * gamma_density a t) t.
Proof. intros Hz Ht. apply (ex_derive_continuous (fun t => ln (t / z) ^ k * gamma_density a t)). unfold gamma_density, Rpower. auto_derive. repeat split; try lra. apply Rdiv_lt_0_compat; assumption. Qed.
Lemma from_Jv k a z : 0 < z -> improper_from z (fun t => ln (t / z) ^ k * gamma_density a t) (Rpower z a * Jv k a z).
Proof.
  intros Hz. apply subst_from; [exact Hz|intros t Ht; apply tf_cont; assumption|]. eapply improper0_ext; [|apply improper0_scal, (Jv_ok k a z Hz)]. intros u Hu. cbv beta. unfold jf, gamma_density.
  replace (z * (1 + u) / z) with (1 + u) by (field; lra). replace (- (z * (1 + u))) with (- z * (1 + u)) by ring. rewrite <- Rpower_mult_distr by lra. replace (Rpower z a) with (z * Rpower z (a - 1)) by (rewrite <- (Rpower_1 z) at 1 by lra; rewrite <- Rpower_plus; f_equal; ring). ring.
Qed.
Lemma T_value k a z v : 0 < z -> T_function (S (S k)) a z v -> v = Rpower z a * Jv k a z / (z * INR (fact k)).
Proof. intros Hz V. cbn [T_function] in V. pose proof (from_unique _ _ _ _ V (from_Jv k a z Hz)) as E. rewrite <- E. field. split; [apply INR_fact_neq_0|lra]. Qed.
Lemma upper_value a x u : 0 < x -> upper_gamma a x u -> u = Rpower x a * Jv 0 a x.
Proof.
  intros Hx U. refine (from_unique x (gamma_density a) _ _ U _). pose proof (from_Jv 0 a x Hx) as V. intros e He. destruct (V e He) as (T & HT & H). exists T. split; [exact HT|]. intros b Hb. destruct (H b Hb) as (I & HI & HB). exists I. split; [|exact HB]. apply (is_RInt_ext (fun t => ln (t / x) ^ 0 * gamma_density a t)); [|exact HI]. intros t _. cbn. apply Rmult_1_l.
Qed.
Lemma upper_exists a x : 0 < x -> upper_gamma a x (Rpower x a * Jv 0 a x).
Proof.
  intros Hx. pose proof (from_Jv 0 a x Hx) as V. intros e He. destruct (V e He) as (T & HT & H). exists T. split; [exact HT|]. intros b Hb. destruct (H b Hb) as (I & HI & HB). exists I. split; [|exact HB]. apply (is_RInt_ext (fun t => ln (t / x) ^ 0 * gamma_density a t)); [|exact HI]. intros t _. cbn. apply Rmult_1_l.
Qed.
Lemma lower_value a x g l : 0 < x -> euler_gamma a g -> lower_gamma a x l -> l = g - Rpower x a * Jv 0 a x.
Proof. intros Hx G L. apply (to_unique _ _ _ _ L). apply split_to; [exact Hx|exact G|apply upper_exists, Hx]. Qed.
