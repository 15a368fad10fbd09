(** DiDonato and Morris's eq. (21): the starting value lies within a fifth below the root wherever it is used *)
From Coq Require Import List Arith ZArith Lia Bool Reals Lra Psatz.
From Coquelicot Require Import Hierarchy Rcomplements Continuity Derive RInt AutoDerive.
From Verif Require Import EllipSpec Improper GammaSpec GammaInt GammaFun GammaFnFacts HyperExp Stirling2 GammaIncSpec GammaIncFacts GammaIncCF GammaIncCF2 GammaIncFacts2 GammaIncInvFacts.
Open Scope R_scope.

Lemma exp_low z n : 0 <= z -> pexp n z - z ^ S n / INR (fact (S n)) <= exp (- z).
Proof. intros H. pose proof (exp_remainder n z H) as E. apply Rabs_le_between in E. lra. Qed.
Lemma exp_upp z n : 0 <= z -> exp (- z) <= pexp n z + z ^ S n / INR (fact (S n)).
Proof. intros H. pose proof (exp_remainder n z H) as E. apply Rabs_le_between in E. lra. Qed.
Lemma e813 : exp (8 / 13) <= 1.865.
Proof.
  pose proof (exp_low (8 / 13) 6 ltac:(lra)) as L. unfold pexp in L. cbn [psum] in L. unfold et in L. rewrite !fact_S_R in L. rewrite !INR_IZR_INZ in L. cbn in L. assert (B : 0.5363 <= exp (- (8 / 13))) by lra. rewrite exp_Ropp in B. pose proof (exp_pos (8 / 13)) as P.
  apply (Rmult_le_compat_l (exp (8 / 13))) in B; [|lra]. rewrite Rinv_r in B by lra. lra.
Qed.
Lemma e055 : exp (- (0.55)) <= 0.577.
Proof. pose proof (exp_upp 0.55 6 ltac:(lra)) as L. unfold pexp in L. cbn [psum] in L. unfold et in L. rewrite !fact_S_R in L. rewrite !INR_IZR_INZ in L. cbn in L. lra. Qed.
Lemma e080 : exp (- (0.8)) < 0.45.
Proof. pose proof (exp_upp 0.8 6 ltac:(lra)) as L. unfold pexp in L. cbn [psum] in L. unfold et in L. rewrite !fact_S_R in L. rewrite !INR_IZR_INZ in L. cbn in L. lra. Qed.
Lemma l055 : ln (1 + 1 / 0.55) <= 1.0395.
Proof.
  pose proof (exp_upp 1.0395 8 ltac:(lra)) as L. unfold pexp in L. cbn [psum] in L. unfold et in L. rewrite !fact_S_R in L. rewrite !INR_IZR_INZ in L. cbn in L. assert (B : exp (- (1.0395)) <= 0.3547) by lra. rewrite exp_Ropp in B. pose proof (exp_pos 1.0395) as P.
  apply (Rmult_le_compat_l (exp 1.0395)) in B; [|lra]. rewrite Rinv_r in B by lra. rewrite <- (ln_exp 1.0395). apply Rcomplements.ln_le; lra.
Qed.

(** ** The first form of eq. (21) *)
Definition y_of (a x : R) : R := x / (a + 1).
Lemma u_bounds a x : 0 < a -> 0 < x -> let y := y_of a x in let u := Rpower (a * Lg a x) (1 / a) in x * exp (- y) <= u <= x / (1 + y).
Proof.
  intros Ha Hx. cbv zeta. unfold y_of. pose proof (Lg_above a x Ha Hx) as A. pose proof (Lg_below a x Ha Hx) as B. pose proof (Lg_gt0 a x Ha Hx) as P. set (y := x / (a + 1)) in *. assert (Y : 0 < y) by (apply Rdiv_lt_0_compat; lra).
  assert (P' : 0 < a * Lg a x) by (apply Rmult_lt_0_compat; assumption). set (w := a * Lg a x) in *. unfold Rpower.
  assert (LA : ln w <= a * ln x - a * ln (1 + y)) by (rewrite <- (ln_exp (a * ln x - a * ln (1 + y))); apply Rcomplements.ln_le; assumption).
  assert (LB : a * ln x - a * y <= ln w) by (rewrite <- (ln_exp (a * ln x - a * y)); apply Rcomplements.ln_le; [apply exp_pos|assumption]).
  assert (Q : 1 / a * ln w = ln w / a) by (field; lra). rewrite Q. assert (HA : ln w / a <= ln x - ln (1 + y)) by (apply (Rmult_le_reg_r a); [exact Ha|]; unfold Rdiv; rewrite Rmult_assoc, Rinv_l by lra; lra).
  assert (HB : ln x - y <= ln w / a) by (apply (Rmult_le_reg_r a); [exact Ha|]; unfold Rdiv; rewrite Rmult_assoc, Rinv_l by lra; lra).
  split.
  - rewrite <- (exp_ln x) at 1 by exact Hx. rewrite <- exp_plus. apply exp_mono. lra.
  - apply (Rle_trans _ (exp (ln x - ln (1 + y)))); [apply exp_mono, HA|]. right. unfold Rminus, Rdiv. rewrite exp_plus, exp_Ropp, !exp_ln by lra. reflexivity.
Qed.
Lemma div_le_mul y v e : 0 < e -> y * / e <= v -> y <= v * e.
Proof. intros He H. apply (Rmult_le_compat_r e) in H; [|lra]. rewrite Rmult_assoc, Rinv_l, Rmult_1_r in H by lra. exact H. Qed.
Lemma fifth y v e : 0 <= v -> e - y <= 1.25 -> y <= v * e -> 0.8 * (y * (1 - v)) <= v.
Proof. intros Hv K V. assert (v * e <= v * (1.25 + y)) by (apply Rmult_le_compat_l; lra). lra. Qed.
Lemma start21_bounds a x : 0 < a -> 0 < x -> y_of a x <= 8 / 13 -> let u := Rpower (a * Lg a x) (1 / a) in 0.8 * x <= u / (1 - u / (a + 1)) <= x.
Proof.
  intros Ha Hx HY. cbv zeta. pose proof (u_bounds a x Ha Hx) as [L U]. cbv zeta in *. unfold y_of in *. set (y := x / (a + 1)) in *. set (u := Rpower (a * Lg a x) (1 / a)) in *. assert (Y : 0 < y) by (apply Rdiv_lt_0_compat; lra). assert (EX : x = y * (a + 1)) by (unfold y; field; lra).
  pose proof (exp_pos (- y)) as E0. set (v := u / (a + 1)). assert (Ev : u = v * (a + 1)) by (unfold v; field; lra). assert (V1 : v * (1 + y) <= y). { apply (Rmult_le_compat_r (1 + y)) in U; [|lra]. unfold Rdiv in U. rewrite Rmult_assoc, Rinv_l, Rmult_1_r in U by lra. apply (Rmult_le_reg_r (a + 1)); [lra|]. rewrite <- EX. replace (v * (1 + y) * (a + 1)) with (v * (a + 1) * (1 + y)) by ring. rewrite <- Ev. exact U. }
  assert (V0 : y * exp (- y) <= v). { apply (Rmult_le_reg_r (a + 1)); [lra|]. rewrite <- Ev. apply (Rle_trans _ (x * exp (- y))); [|exact L]. rewrite EX. right. ring. }
  assert (V : 0 < v) by (eapply Rlt_le_trans; [|exact V0]; apply Rmult_lt_0_compat; lra). assert (V2 : v < 1) by nra.
  split; apply (Rmult_le_reg_r (1 - v)); try lra; unfold Rdiv at 1; rewrite ?Rmult_assoc, ?Rinv_l by lra; rewrite ?Rmult_1_r, Ev.
  2: { rewrite EX. replace (y * (a + 1) * (1 - v)) with (y * (1 - v) * (a + 1)) by ring. apply Rmult_le_compat_r; [lra|]. lra. }
  rewrite EX. replace (0.8 * (y * (a + 1) * (1 - v))) with (0.8 * (y * (1 - v)) * (a + 1)) by ring. apply Rmult_le_compat_r; [lra|].
  (* 0.8 y (1 - v) <= v *)
  assert (K : exp y - y <= 1.25). { pose proof e813 as E. assert (exp y * (1 + (8 / 13 - y)) <= exp (8 / 13)). { replace (8 / 13) with (y + (8 / 13 - y)) at 2 by ring. rewrite exp_plus. apply Rmult_le_compat_l; [left; apply exp_pos|]. pose proof (exp_ineq1_le (8 / 13 - y)). lra. }
    pose proof (exp_ineq1_le y). assert (M : 0 <= (exp y - 1) * (8 / 13 - y)) by (apply Rmult_le_pos; lra). replace (exp y * (1 + (8 / 13 - y))) with (exp y + ((exp y - 1) * (8 / 13 - y) + (8 / 13 - y))) in * by ring. lra. }
  rewrite exp_Ropp in V0. pose proof (exp_pos y) as Ey. assert (V3 : y <= v * exp y) by exact (div_le_mul y v (exp y) Ey V0).
  apply (fifth y v (exp y)); [lra|exact K|exact V3].
Qed.
(** ** Where eq. (21) is used *)
Definition Hb (a x : R) : R := exp (- x) * ((1 - a) * ln (1 + 1 / x) + a).
Lemma dens_le a t : 0 < a <= 1 -> 0 < t -> gamma_density a t <= exp (- t) * ((1 - a) / t + a).
Proof.
  intros Ha Ht. unfold gamma_density. rewrite Rmult_comm. apply Rmult_le_compat_l; [left; apply exp_pos|]. pose proof (power_convex (1 - a) (- ln t) ltac:(lra)) as C. unfold Rpower. replace ((a - 1) * ln t) with ((1 - a) * - ln t) by ring. rewrite exp_Ropp, exp_ln in C by exact Ht. unfold Rdiv. lra.
Qed.
Lemma Hb_derive a t : 0 < t -> is_derive (Hb a) t (- (exp (- t) * ((1 - a) * (ln (1 + 1 / t) + / (t * (t + 1))) + a))).
Proof.
  intros Ht. unfold Hb. assert (0 < 1 / t) by (apply Rdiv_lt_0_compat; lra). auto_derive; [repeat split; lra|]. change (1 * / t) with (1 / t). field. repeat split; lra.
Qed.
Lemma Ug_small a t : 0 < a <= 1 -> 1 < t -> 0 <= Gam a - Lg a t <= 4 / t.
Proof.
  intros Ha Ht. assert (E : Gam a - Lg a t = DD0 a t * Vv a t). { unfold Lg, DD0, Vv. assert (E : exp (- t) * exp t = 1) by (rewrite <- exp_plus; replace (- t + t) with 0 by ring; apply exp_0). replace (Rpower t a * exp (- t) * (exp t * Jv 0 a t)) with (Rpower t a * (exp (- t) * exp t) * Jv 0 a t) by ring. rewrite E. ring. }
  rewrite E. pose proof (V_bounds a t ltac:(lra) Ht) as [V0 V1]. assert (VP : 0 <= Vv a t) by (apply (Rmult_le_reg_l (t + 1)); lra). pose proof (DD0_pos a t) as D. split; [apply Rmult_le_pos; lra|]. apply (Rle_trans _ (DD0 a t * 1)); [apply Rmult_le_compat_l; lra|]. rewrite Rmult_1_r.
  unfold DD0. assert (R1 : Rpower t a <= t) by (rewrite <- (Rpower_1 t) at 2 by lra; apply Rle_Rpower; lra). assert (X : t ^ 2 / 4 <= exp t). { pose proof (exp_ineq1_le (t / 2)) as Q. replace (exp t) with (exp (t / 2) * exp (t / 2)) by (rewrite <- exp_plus; f_equal; field). apply (Rle_trans _ ((1 + t / 2) * (1 + t / 2))); [nra|]. apply Rmult_le_compat; lra. }
  rewrite exp_Ropp. pose proof (exp_pos t). apply (Rle_trans _ (t * / exp t)); [apply Rmult_le_compat_r; [left; apply Rinv_0_lt_compat; lra|exact R1]|]. apply (Rmult_le_reg_r (exp t)); [lra|]. rewrite Rmult_assoc, Rinv_l by lra. apply (Rle_trans _ (4 / t * (t ^ 2 / 4))); [right; field; lra|]. apply Rmult_le_compat_l; [apply Rlt_le, Rdiv_lt_0_compat; lra|exact X].
Qed.
Lemma Ug_le a x : 0 < a <= 1 -> 0 < x -> Gam a - Lg a x <= Hb a x.
Proof.
  intros Ha Hx. set (W := fun t => Hb a t - (Gam a - Lg a t)). enough (0 <= W x) by (unfold W in *; lra). apply Rnot_lt_le. intros N.
  set (b := Rmax 2 (Rmax (x + 1) (8 / (- W x)))). assert (B1 : 2 <= b) by apply Rmax_l. assert (B2 : x + 1 <= b) by (eapply Rle_trans; [apply Rmax_l|apply Rmax_r]). assert (B3 : 8 / (- W x) <= b) by (eapply Rle_trans; [apply Rmax_r|apply Rmax_r]).
  pose proof (Ug_small a b Ha ltac:(lra)) as [_ U]. assert (Hp : 0 <= Hb a b). { unfold Hb. assert (0 < 1 / b) by (apply Rdiv_lt_0_compat; lra). apply Rmult_le_pos; [left; apply exp_pos|]. assert (0 <= (1 - a) * ln (1 + 1 / b)) by (apply Rmult_le_pos; [lra|apply ln_nonneg; lra]). lra. }
  assert (U2 : 4 / b <= - W x / 2). { apply (Rmult_le_compat_r (- W x)) in B3; [|lra]. unfold Rdiv at 1 in B3. rewrite Rmult_assoc, Rinv_l in B3 by lra. apply (Rmult_le_reg_r b); [lra|]. unfold Rdiv at 1. rewrite Rmult_assoc, Rinv_l by lra. lra. }
  assert (D : forall t, 0 < t -> is_derive W t (- (exp (- t) * ((1 - a) * (ln (1 + 1 / t) + / (t * (t + 1))) + a)) - (0 - gamma_density a t))).
  { intros t Ht. apply (is_derive_minus (Hb a) (fun t => Gam a - Lg a t)); [apply Hb_derive, Ht|]. apply (is_derive_minus (fun _ => Gam a) (Lg a)); [apply (is_derive_const (Gam a))|apply Lg_derive, Ht]. }
  destruct (MVT_gen W x b (fun t => - (exp (- t) * ((1 - a) * (ln (1 + 1 / t) + / (t * (t + 1))) + a)) - (0 - gamma_density a t))) as (c & Hc & E).
  - intros s Hs. rewrite Rmin_left, Rmax_right in Hs by lra. apply D. lra.
  - intros s Hs. rewrite Rmin_left, Rmax_right in Hs by lra. apply continuity_pt_filterlim. apply (ex_derive_continuous W). eexists. apply D. lra.
  - rewrite Rmin_left, Rmax_right in Hc by lra. pose proof (dens_le a c Ha ltac:(lra)) as G.
    assert (L : / (1 + c) <= ln (1 + 1 / c)). { assert (0 < 1 / c) by (apply Rdiv_lt_0_compat; lra). pose proof (ln_le_lin 1 (c / (1 + c)) ltac:(lra) ltac:(apply Rdiv_lt_0_compat; lra)) as Q. rewrite ln_1 in Q. assert (E1 : ln (c / (1 + c)) = - ln (1 + 1 / c)) by (replace (c / (1 + c)) with (/ (1 + 1 / c)) by (field; lra); apply ln_Rinv; lra). rewrite E1 in Q. replace (1 * (c / (1 + c)) - 1 - 0) with (- / (1 + c)) in Q by (field; lra). lra. }
    assert (L2 : 1 / c <= ln (1 + 1 / c) + / (c * (c + 1))) by (replace (1 / c) with (/ (1 + c) + / (c * (c + 1))) by (field; lra); replace (1 + / (1 + c) + / (c * (c + 1))) with (1 + (/ (1 + c) + / (c * (c + 1)))) by ring; replace (/ (1 + c) + / (c * (c + 1))) with (1 / c) by (field; lra); replace (1 / c) with (/ (1 + c) + / (c * (c + 1))) at 1 by (field; lra); lra).
    assert (G2 : exp (- c) * ((1 - a) / c + a) <= exp (- c) * ((1 - a) * (ln (1 + 1 / c) + / (c * (c + 1))) + a)). { apply Rmult_le_compat_l; [left; apply exp_pos|]. assert ((1 - a) * (1 / c) <= (1 - a) * (ln (1 + 1 / c) + / (c * (c + 1)))) by (apply Rmult_le_compat_l; lra). lra. }
    assert (W b - W x <= 0). { rewrite E. apply Rmult_le_0_r; lra. } unfold W at 1 in H. lra.
Qed.
(** in the branch of eq. (21) the root is below 4/5 and x / (a + 1) below 8/13 *)
Lemma Hb_dec a x X c : 0 < a <= 1 -> 0 < X <= x -> exp (- X) * ((1 - a) * ln (1 + 1 / X) + a) <= c -> Hb a x <= c.
Proof.
  intros Ha HX C. eapply Rle_trans; [|exact C]. unfold Hb. assert (0 < 1 / x) by (apply Rdiv_lt_0_compat; lra). assert (I : 1 / x <= 1 / X) by (unfold Rdiv; apply Rmult_le_compat_l; [lra|]; apply Rinv_le_contravar; lra).
  assert (0 <= (1 - a) * ln (1 + 1 / x)) by (apply Rmult_le_pos; [lra|apply ln_nonneg; lra]). apply Rmult_le_compat; [left; apply exp_pos|lra|apply exp_mono; lra|]. apply Rplus_le_compat_r. apply Rmult_le_compat_l; [lra|]. apply Rcomplements.ln_le; lra.
Qed.
Lemma branch21 a x : 0 < a < 1 -> 0 < x -> 0.6 < Gam a - Lg a x \/ 0.45 <= Gam a - Lg a x /\ 0.3 <= a -> (x < 0.55 \/ 0.3 <= a /\ x < 0.8) /\ y_of a x <= 8 / 13.
Proof.
  intros Ha Hx H. pose proof (Ug_le a x ltac:(lra) Hx) as U.
  assert (Q : x < 0.55 \/ 0.3 <= a /\ x < 0.8).
  { destruct H as [H|[H1 H2]].
    - left. apply Rnot_le_lt. intros N. assert (Hb a x <= 0.6); [|lra]. apply (Hb_dec a x 0.55 0.6); try lra. apply (Rle_trans _ (0.577 * 1.0395)); [|lra]. pose proof l055. pose proof e055. apply Rmult_le_compat; [left; apply exp_pos| |exact e055|].
      + assert (0 <= (1 - a) * ln (1 + 1 / 0.55)) by (apply Rmult_le_pos; [lra|apply ln_nonneg; lra]). lra.
      + assert ((1 - a) * ln (1 + 1 / 0.55) <= (1 - a) * 1.0395) by (apply Rmult_le_compat_l; lra). lra.
    - right. split; [exact H2|]. apply Rnot_le_lt. intros N. assert (Hb a x <= exp (- (0.8)) * 1); [|pose proof e080; lra]. apply (Hb_dec a x 0.8); try lra. apply Rmult_le_compat_l; [left; apply exp_pos|]. assert (L : ln (1 + 1 / 0.8) <= 1). { assert (E : 2.25 <= exp 1). { replace (exp 1) with (exp (1 / 2) * exp (1 / 2)) by (rewrite <- exp_plus; f_equal; field). pose proof (exp_ineq1_le (1 / 2)). apply (Rle_trans _ (1.5 * 1.5)); [lra|]. apply Rmult_le_compat; lra. } apply (Rle_trans _ (ln (exp 1))); [apply Rcomplements.ln_le; lra|rewrite ln_exp; lra]. }
      assert ((1 - a) * ln (1 + 1 / 0.8) <= (1 - a) * 1) by (apply Rmult_le_compat_l; lra). lra. }
  split; [exact Q|]. unfold y_of. apply (Rmult_le_reg_r (a + 1)); [lra|]. unfold Rdiv at 1. rewrite Rmult_assoc, Rinv_l by lra. destruct Q; lra.
Qed.
