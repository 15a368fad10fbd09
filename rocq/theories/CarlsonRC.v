(** * R_C: its values at the ends and its principal value *)
From Coq Require Import Reals Lra Lia Psatz Bool.
From Coquelicot Require Import Rcomplements Rbar Hierarchy Continuity Derive RInt RInt_analysis AutoDerive ElemFct.
From Verif Require Import EllipSpec Improper Ellipr CarlsonDup CarlsonTail CarlsonLoop.
Open Scope R_scope.

Lemma limoo_shift F l : limoo (fun t => F t - l) 0 -> limoo F l.
Proof. intros H e He. destruct (H e He) as (T & HT). exists T. intros t Ht. specialize (HT t Ht). rewrite Rminus_0_r in HT. exact HT. Qed.
Lemma ln_1p a : -1 < a -> ln (1 + a) <= a.
Proof. intros Ha. rewrite <- (ln_exp a) at 2. apply ln_le; [lra|apply exp_ineq1_le]. Qed.
Lemma atan_le w : 0 < w -> 0 <= atan w <= w.
Proof.
  intros U. split; [left; rewrite <- atan_0; apply atan_increasing, U|]. destruct (MVT_gen atan 0 w (fun u => / (1 + u ^ 2))) as (c & Hc & E).
  - intros u _. apply is_derive_Reals. apply derivable_pt_lim_atan.
  - intros u _. apply derivable_continuous_pt. exists (/ (1 + u ^ 2)). apply derivable_pt_lim_atan.
  - rewrite atan_0, !Rminus_0_r in E. rewrite E. rewrite <- (Rmult_1_l w) at 2. apply Rmult_le_compat_r; [lra|]. rewrite <- Rinv_1. apply Rinv_le_contravar; nra.
Qed.
(** R_C(0, y) *)
Lemma RC_0 y : 0 < y -> carlson_RC 0 y (PI / 2 / sqrt y).
Proof.
  intros Hy. assert (SY : 0 < sqrt y) by (apply sqrt_lt_R0, Hy). replace (PI / 2 / sqrt y) with (PI / 2 / sqrt y - 0) by ring.
  apply improper0_derive with (F := fun t => atan (sqrt t / sqrt y) / sqrt y).
  - intros t Ht. assert (ST : 0 < sqrt t) by (apply sqrt_lt_R0, Ht). rewrite Rplus_0_r. auto_derive; [repeat split; try exact Ht; lra|]. assert (ET : t = sqrt t * sqrt t) by (symmetry; apply sqrt_sqrt; lra). assert (EY : y = sqrt y * sqrt y) by (symmetry; apply sqrt_sqrt; lra).
    replace (t + y) with (sqrt t * sqrt t + sqrt y * sqrt y) by lra. set (a := sqrt t) in *. set (b := sqrt y) in *. clearbody a b. field. repeat split; nra.
  - intros t Ht. assert (ST : 0 < sqrt (t + 0)) by (apply sqrt_lt_R0; lra). apply (ex_derive_continuous (fun t => 1 / (2 * (sqrt (t + 0) * (t + y)))) t). auto_derive. repeat split; [lra|]. apply Rgt_not_eq. apply Rmult_lt_0_compat; [lra|]. apply Rmult_lt_0_compat; lra.
  - replace 0 with ((fun t => atan (sqrt t / sqrt y) / sqrt y) 0) by (cbn beta; rewrite sqrt_0; unfold Rdiv; rewrite Rmult_0_l, atan_0; ring). apply (lim0_cont (fun t => atan (sqrt t / sqrt y) / sqrt y)). apply continuity_pt_filterlim.
    apply (continuous_mult (K := R_AbsRing) (fun t => atan (sqrt t / sqrt y)) (fun _ => / sqrt y)); [|apply continuous_const]. apply (continuous_comp (fun t => sqrt t / sqrt y) atan); [|apply continuity_pt_filterlim, derivable_continuous_pt; exists (/ (1 + (sqrt 0 / sqrt y) ^ 2)); apply derivable_pt_lim_atan].
    apply (continuous_mult (K := R_AbsRing) sqrt (fun _ => / sqrt y)); [apply continuous_sqrt|apply continuous_const].
  - apply limoo_shift, (limoo_0 _ 1). intros t Ht. assert (ST : 0 < sqrt t) by (apply sqrt_lt_R0; lra). assert (U : 0 < sqrt t / sqrt y) by (apply Rdiv_lt_0_compat; lra).
    replace (atan (sqrt t / sqrt y) / sqrt y - PI / 2 / sqrt y) with (- (atan (sqrt y / sqrt t) / sqrt y)).
    + assert (U2 : 0 < sqrt y / sqrt t) by (apply Rdiv_lt_0_compat; lra). pose proof (atan_le _ U2) as [A B]. rewrite Rabs_Ropp, Rabs_right by (apply Rle_ge, Rmult_le_pos; [exact A|left; apply Rinv_0_lt_compat, SY]).
      replace (1 / sqrt t) with (sqrt y / sqrt t / sqrt y) by (field; lra). apply Rmult_le_compat_r; [left; apply Rinv_0_lt_compat, SY|exact B].
    + replace (sqrt y / sqrt t) with (/ (sqrt t / sqrt y)) by (field; lra). rewrite (atan_inv _ U). unfold Rdiv. ring.
Qed.
(** the logarithm, on either side of the pole *)
Definition FL (x k t : R) : R := / (2 * k) * ln ((sqrt (t + x) - k) / (sqrt (t + x) + k)).
Definition FR (x k t : R) : R := / (2 * k) * ln ((k - sqrt (t + x)) / (k + sqrt (t + x))).
Lemma FL_derive x k t : 0 < k -> 0 < t + x -> k < sqrt (t + x) -> is_derive (FL x k) t (1 / (2 * (sqrt (t + x) * (t + (x - k * k))))).
Proof.
  intros Hk Ht Hu. unfold FL. assert (E : (t + (x - k * k)) = sqrt (t + x) * sqrt (t + x) - k * k) by (rewrite sqrt_sqrt; lra). rewrite E. auto_derive.
  - repeat split; try lra. apply Rdiv_lt_0_compat; lra.
  - set (w := sqrt (t + x)) in *. clearbody w. field. repeat split; nra.
Qed.
Lemma FR_derive x k t : 0 < t + x -> sqrt (t + x) < k -> is_derive (FR x k) t (1 / (2 * (sqrt (t + x) * (t + (x - k * k))))).
Proof.
  intros Ht Hu. assert (P : 0 < sqrt (t + x)) by (apply sqrt_lt_R0, Ht). unfold FR. assert (E : (t + (x - k * k)) = sqrt (t + x) * sqrt (t + x) - k * k) by (rewrite sqrt_sqrt; lra). rewrite E. auto_derive.
  - repeat split; try lra. apply Rdiv_lt_0_compat; lra.
  - set (w := sqrt (t + x)) in *. clearbody w. field. repeat split; nra.
Qed.
Lemma FL_small x k t : 0 < k -> k < sqrt (t + x) -> Rabs (FL x k t) <= 1 / (sqrt (t + x) - k).
Proof.
  intros Hk Hu. unfold FL. set (w := sqrt (t + x)) in *. clearbody w. replace ((w - k) / (w + k)) with (/ ((w + k) / (w - k))) by (field; lra). assert (P : 0 < (w + k) / (w - k)) by (apply Rdiv_lt_0_compat; lra).
  rewrite ln_Rinv by exact P. rewrite Ropp_mult_distr_r_reverse, Rabs_Ropp, Rabs_mult, (Rabs_right (/ (2 * k))) by (apply Rle_ge; left; apply Rinv_0_lt_compat; lra).
  assert (L : 0 <= ln ((w + k) / (w - k)) <= 2 * k / (w - k)).
  { split.
    - rewrite <- ln_1. apply ln_le; [lra|]. apply Rmult_le_reg_r with (w - k); [lra|]. unfold Rdiv. rewrite Rmult_assoc, Rinv_l by lra. lra.
    - replace ((w + k) / (w - k)) with (1 + 2 * k / (w - k)) by (field; lra). apply ln_1p. assert (0 < 2 * k / (w - k)) by (apply Rdiv_lt_0_compat; lra). lra. }
  rewrite Rabs_right by lra. replace (1 / (w - k)) with (/ (2 * k) * (2 * k / (w - k))) by (field; lra). apply Rmult_le_compat_l; [left; apply Rinv_0_lt_compat; lra|apply L].
Qed.

(** the value of R_C for 0 < b < a *)
Lemma RC_log a b : 0 < b -> b < a -> carlson_RC a b (/ (2 * sqrt (a - b)) * ln ((sqrt a + sqrt (a - b)) / (sqrt a - sqrt (a - b)))).
Proof.
  intros Hb Hab. set (k := sqrt (a - b)). assert (Hk : 0 < k) by (apply sqrt_lt_R0; lra). assert (K2 : k * k = a - b) by (apply sqrt_sqrt; lra).
  assert (Lk : forall t, 0 <= t -> k < sqrt (t + a)). { intros t Ht. apply sqrt_lt_1_alt. lra. } pose proof (Lk 0 (Rle_refl 0)) as L0. rewrite Rplus_0_l in L0.
  assert (V : improper0 (fun t => 1 / (2 * (sqrt (t + a) * (t + (a - k * k))))) (0 - FL a k 0)).
  { apply improper0_derive with (F := FL a k).
    - intros t Ht. apply FL_derive; [exact Hk|lra|apply Lk; lra].
    - intros t Ht. assert (ST : 0 < sqrt (t + a)) by (apply sqrt_lt_R0; lra). apply (ex_derive_continuous (fun t => 1 / (2 * (sqrt (t + a) * (t + (a - k * k))))) t). auto_derive. repeat split; [lra|]. apply Rgt_not_eq. apply Rmult_lt_0_compat; [lra|]. apply Rmult_lt_0_compat; lra.
    - apply lim0_cont, continuity_pt_filterlim. apply (ex_derive_continuous (FL a k) 0). eexists. apply FL_derive; [exact Hk|lra|rewrite Rplus_0_l; exact L0].
    - intros e He. exists ((k + 1 / e) ^ 2). intros t Ht. assert (E1 : 0 < 1 / e) by (apply Rdiv_lt_0_compat; lra). assert (T0 : 0 < t) by (apply Rle_lt_trans with ((k + 1 / e) ^ 2); [apply pow2_ge_0|exact Ht]). rewrite Rminus_0_r. eapply Rle_lt_trans; [apply FL_small; [exact Hk|apply Lk; lra]|].
      assert (St : k + 1 / e < sqrt (t + a)). { rewrite <- (sqrt_pow2 (k + 1 / e)) by lra. apply sqrt_lt_1_alt. split; [apply pow2_ge_0|lra]. }
      apply Rmult_lt_reg_r with (sqrt (t + a) - k); [lra|]. unfold Rdiv at 1. rewrite Rmult_assoc, Rinv_l by lra. apply Rmult_lt_reg_l with (/ e); [apply Rinv_0_lt_compat, He|]. replace (/ e * (e * (sqrt (t + a) - k))) with (sqrt (t + a) - k) by (field; lra). unfold Rdiv in St. lra. }
  replace (/ (2 * k) * ln ((sqrt a + k) / (sqrt a - k))) with (0 - FL a k 0).
  - eapply improper0_ext; [|exact V]. intros t Ht. cbn beta. replace (a - k * k) with b by lra. reflexivity.
  - unfold FL. rewrite Rplus_0_l. replace ((sqrt a - k) / (sqrt a + k)) with (/ ((sqrt a + k) / (sqrt a - k))) by (field; lra). rewrite ln_Rinv by (apply Rdiv_lt_0_compat; lra). ring.
Qed.
Lemma RC_pv x y w : 0 < x -> y < 0 -> carlson_RC (x - y) (- y) w -> carlson_RC_pv x y (sqrt (x / (x - y)) * w).
Proof.
  intros Hx Hy V. assert (Ev := improper0_unique _ _ _ V (RC_log (x - y) (- y) ltac:(lra) ltac:(lra))). replace (x - y - - y) with x in Ev by ring.
  set (k := sqrt (x - y)) in *. assert (Hk : 0 < k) by (apply sqrt_lt_R0; lra). assert (K2 : k * k = x - y) by (apply sqrt_sqrt; lra). assert (Sx : 0 < sqrt x) by (apply sqrt_lt_R0, Hx). assert (Lx : sqrt x < k) by (apply sqrt_lt_1_alt; lra).
  assert (EV : sqrt (x / (x - y)) * w = - FR x k 0).
  { rewrite Ev. rewrite sqrt_div_alt by lra. fold k. unfold FR. rewrite Rplus_0_l. replace ((k - sqrt x) / (k + sqrt x)) with (/ ((k + sqrt x) / (k - sqrt x))) by (field; lra). rewrite ln_Rinv by (apply Rdiv_lt_0_compat; lra). set (q := ln ((k + sqrt x) / (k - sqrt x))). clearbody q. set (g := sqrt x) in *. clearbody g. field. lra. }
  rewrite EV. clear V Ev EV w. intros e He. assert (K3 : 0 < k * k * k) by (repeat apply Rmult_lt_0_compat; assumption).
  set (d0 := Rmin (- y / 2) (k * k * k * e / 4)). assert (D1 : d0 <= - y / 2) by apply Rmin_l. assert (D2 : d0 <= k * k * k * e / 4) by apply Rmin_r.
  assert (D0 : 0 < d0) by (unfold d0; apply Rmin_glb_lt; [lra|]; apply Rdiv_lt_0_compat; [apply Rmult_lt_0_compat; lra|lra]). assert (E1 : 0 < 2 / e) by (apply Rdiv_lt_0_compat; lra).
  exists d0, (Rmax (- 2 * y) ((k + 2 / e) ^ 2)). split; [lra|]. intros d b Hd Hb. pose proof (Rmax_l (- 2 * y) ((k + 2 / e) ^ 2)). pose proof (Rmax_r (- 2 * y) ((k + 2 / e) ^ 2)).
  assert (Ek : x - k * k = y) by lra.
  assert (RR : forall t, 0 <= t <= - y - d -> sqrt (t + x) < k) by (intros t Ht; apply sqrt_lt_1_alt; lra). assert (RL : forall t, - y + d <= t -> k < sqrt (t + x)) by (intros t Ht; apply sqrt_lt_1_alt; lra).
  assert (Cf : forall t, 0 < t + x -> t <> - y -> continuous (fun t => 1 / (2 * (sqrt (t + x) * (t + y)))) t).
  { intros t Ht N. assert (ST : 0 < sqrt (t + x)) by (apply sqrt_lt_R0; lra). apply (ex_derive_continuous (fun t => 1 / (2 * (sqrt (t + x) * (t + y)))) t). auto_derive. repeat split; [lra|]. apply Rmult_integral_contrapositive_currified; [lra|]. apply Rmult_integral_contrapositive_currified; lra. }
  exists (FR x k (- y - d) - FR x k 0), (FL x k b - FL x k (- y + d)). split; [|split].
  - apply (is_RInt_derive (V := R_CompleteNormedModule) (FR x k)); intros t Ht; rewrite Rmin_left, Rmax_right in Ht by lra; [|apply Cf; lra]. pose proof (FR_derive x k t ltac:(lra) (RR t Ht)) as D. rewrite Ek in D. exact D.
  - apply (is_RInt_derive (V := R_CompleteNormedModule) (FL x k)); intros t Ht; rewrite Rmin_left, Rmax_right in Ht by lra; [|apply Cf; lra]. pose proof (FL_derive x k t Hk ltac:(lra) (RL t ltac:(lra))) as D. rewrite Ek in D. exact D.
  - replace (FR x k (- y - d) - FR x k 0 + (FL x k b - FL x k (- y + d)) - - FR x k 0) with ((FR x k (- y - d) - FL x k (- y + d)) + FL x k b) by ring.
    assert (B1 : Rabs (FL x k b) < e / 2).
    { eapply Rle_lt_trans; [apply FL_small; [exact Hk|apply RL; lra]|]. assert (St : k + 2 / e < sqrt (b + x)). { rewrite <- (sqrt_pow2 (k + 2 / e)) by lra. apply sqrt_lt_1_alt. split; [apply pow2_ge_0|lra]. }
      apply Rmult_lt_reg_r with (sqrt (b + x) - k); [lra|]. unfold Rdiv at 1. rewrite Rmult_assoc, Rinv_l by lra. apply Rmult_lt_reg_l with (/ e); [apply Rinv_0_lt_compat, He|]. replace (/ e * (e / 2 * (sqrt (b + x) - k))) with ((sqrt (b + x) - k) / 2) by (field; lra). unfold Rdiv in St |- *. lra. }
    assert (B2 : Rabs (FR x k (- y - d) - FL x k (- y + d)) <= e / 2).
    { unfold FR, FL. replace (- y - d + x) with (k * k - d) by lra. replace (- y + d + x) with (k * k + d) by lra. assert (Q1 : sqrt (k * k - d) * sqrt (k * k - d) = k * k - d) by (apply sqrt_sqrt; lra). assert (Q2 : sqrt (k * k + d) * sqrt (k * k + d) = k * k + d) by (apply sqrt_sqrt; lra).
      pose proof (sqrt_pos (k * k - d)) as P1. pose proof (sqrt_pos (k * k + d)) as P2. assert (S1 : sqrt (k * k - d) < k) by (pose proof (RR (- y - d) ltac:(lra)) as S1; replace (- y - d + x) with (k * k - d) in S1 by lra; exact S1). assert (S2 : k < sqrt (k * k + d)) by (pose proof (RL (- y + d) ltac:(lra)) as S2; replace (- y + d + x) with (k * k + d) in S2 by lra; exact S2).
      set (p := sqrt (k * k - d)) in *. set (q := sqrt (k * k + d)) in *. clearbody p q.
      replace ((k - p) / (k + p)) with (d / ((k + p) * (k + p))) by (replace d with ((k - p) * (k + p)) by lra; field; lra). replace ((q - k) / (q + k)) with (d / ((q + k) * (q + k))) by (replace d with ((q - k) * (q + k)) by lra; field; lra).
      assert (Pp : 0 < (k + p) * (k + p)) by nra. assert (Pq : 0 < (q + k) * (q + k)) by nra.
      rewrite !ln_div, !ln_mult by lra. replace (/ (2 * k) * (ln d - (ln (k + p) + ln (k + p))) - / (2 * k) * (ln d - (ln (q + k) + ln (q + k)))) with (/ k * (ln (q + k) - ln (k + p))) by (field; lra). rewrite <- ln_div by lra.
      assert (L : 0 <= ln ((q + k) / (k + p)) <= 2 * d / (k * k)).
      { split; [rewrite <- ln_1; apply ln_le; [lra|]; apply Rmult_le_reg_r with (k + p); [lra|]; unfold Rdiv; rewrite Rmult_assoc, Rinv_l by lra; lra|].
        replace ((q + k) / (k + p)) with (1 + (q - p) / (k + p)) by (field; lra). assert (G : 0 < (q - p) / (k + p)) by (apply Rdiv_lt_0_compat; lra). eapply Rle_trans; [apply ln_1p; lra|].
        replace (q - p) with (2 * d / (q + p)) by (replace (2 * d) with ((q - p) * (q + p)) by lra; field; lra). unfold Rdiv. rewrite Rmult_assoc. apply Rmult_le_compat_l; [lra|]. rewrite <- Rinv_mult. apply Rinv_le_contravar; nra. }
      rewrite Rabs_right by (apply Rle_ge, Rmult_le_pos; [left; apply Rinv_0_lt_compat, Hk|apply L]). apply Rle_trans with (/ k * (2 * d / (k * k))); [apply Rmult_le_compat_l; [left; apply Rinv_0_lt_compat, Hk|apply L]|].
      apply Rmult_le_reg_r with (k * k * k); [exact K3|]. replace (/ k * (2 * d / (k * k)) * (k * k * k)) with (2 * d) by (field; lra). lra. }
    eapply Rle_lt_trans; [apply Rabs_triang|]. lra.
Qed.
