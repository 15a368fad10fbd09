(** Newton's iteration for the inverse of the lower incomplete gamma function, for a at most 1, with the errors of the computed functions *)
From Coq Require Import List Arith ZArith Lia Bool Reals Lra Psatz.
From Coquelicot Require Import Hierarchy Rcomplements Continuity Derive RInt AutoDerive.
From Verif Require Import EllipSpec Improper GammaSpec GammaInt GammaFun GammaFnFacts HyperExp GammaIncSpec GammaIncFacts GammaIncFacts2 GammaIncInvFacts GammaIncInvStart.
Open Scope R_scope.

Lemma dens_gt0 a t : 0 < t -> 0 < gamma_density a t.
Proof. intros H. unfold gamma_density. apply Rmult_lt_0_compat; [apply Rpower_pos|apply exp_pos]. Qed.
Lemma Lg_mvt a u v : 0 < u -> u < v -> exists c, u <= c <= v /\ Lg a v - Lg a u = gamma_density a c * (v - u).
Proof.
  intros Hu Hv. destruct (MVT_gen (Lg a) u v (gamma_density a)) as (c & Hc & E).
  - intros s Hs. rewrite Rmin_left, Rmax_right in Hs by lra. apply Lg_derive. lra.
  - intros s Hs. rewrite Rmin_left, Rmax_right in Hs by lra. apply continuity_pt_filterlim. apply (ex_derive_continuous (Lg a)). eexists. apply Lg_derive. lra.
  - rewrite Rmin_left, Rmax_right in Hc by lra. exists c. split; [exact Hc|exact E].
Qed.
Lemma dens_dec a u v : a <= 1 -> 0 < u <= v -> gamma_density a v <= gamma_density a u.
Proof.
  intros Ha H. rewrite !dens_exp by lra. apply exp_mono. assert (ln u <= ln v) by (apply Rcomplements.ln_le; lra). assert (0 <= (1 - a) * (ln v - ln u)) by (apply Rmult_le_pos; lra). lra.
Qed.
Lemma dens_low a u v : 0 < a <= 1 -> 0 < u <= v -> gamma_density a u * (1 - ((1 - a) / u + 1) * (v - u)) <= gamma_density a v.
Proof.
  intros Ha H. assert (L : ln v - ln u <= v / u - 1). { pose proof (ln_le_lin 1 (v / u) ltac:(lra) ltac:(apply Rdiv_lt_0_compat; lra)) as Q. rewrite ln_1, ln_div in Q by lra. lra. }
  assert (E : gamma_density a v = gamma_density a u * exp (- ((1 - a) * (ln v - ln u)) - (v - u))) by (rewrite !dens_exp by lra; rewrite <- exp_plus; f_equal; ring). rewrite E. apply Rmult_le_compat_l; [left; apply dens_gt0; lra|].
  eapply Rle_trans; [|apply exp_ineq1_le]. assert ((1 - a) * (ln v - ln u) <= (1 - a) * (v / u - 1)) by (apply Rmult_le_compat_l; lra). replace (((1 - a) / u + 1) * (v - u)) with ((1 - a) * (v / u - 1) + (v - u)) by (field; lra). lra.
Qed.
Definition newton (a s x : R) : R := x - (Lg a x - Lg a s) / gamma_density a x.
(** Newton's step never passes the root *)
Lemma newton_le a s x : 0 < a <= 1 -> 0 < s -> 0 < x -> newton a s x <= s.
Proof.
  intros Ha Hs Hx. unfold newton. pose proof (dens_gt0 a x Hx) as D. assert (x - s <= (Lg a x - Lg a s) / gamma_density a x); [|lra]. apply (Rmult_le_reg_r (gamma_density a x)); [exact D|]. unfold Rdiv. rewrite Rmult_assoc, Rinv_l, Rmult_1_r by lra.
  destruct (Rtotal_order x s) as [H|[->|H]]; [|lra|].
  - destruct (Lg_mvt a x s Hx H) as (c & Hc & E). pose proof (dens_dec a x c ltac:(lra) ltac:(lra)) as DD. assert (gamma_density a c * (s - x) <= gamma_density a x * (s - x)) by (apply Rmult_le_compat_r; lra). lra.
  - destruct (Lg_mvt a s x Hs H) as (c & Hc & E). pose proof (dens_dec a c x ltac:(lra) ltac:(lra)) as DD. assert (gamma_density a x * (x - s) <= gamma_density a c * (x - s)) by (apply Rmult_le_compat_r; lra). lra.
Qed.
(** and from below the distance is squared *)
Lemma newton_quad a s x : 0 < a <= 1 -> 0 < x <= s -> s - newton a s x <= 1 / 2 * ((1 - a) / x + 1) * (s - x) ^ 2.
Proof.
  intros Ha Hx. set (K := (1 - a) / x + 1). assert (K0 : 0 <= (1 - a) / x) by (apply Rmult_le_pos; [lra|left; apply Rinv_0_lt_compat; lra]). pose proof (dens_gt0 a x ltac:(lra)) as D. unfold newton.
  set (R := fun t => Lg a t - Lg a x - gamma_density a x * (t - x) + 1 / 2 * K * gamma_density a x * (t - x) ^ 2).
  assert (RP : 0 <= R s).
  { destruct (Req_dec x s) as [<-|N]; [unfold R; right; ring|].
    assert (DR : forall t, 0 < t -> is_derive R t (gamma_density a t - gamma_density a x + K * gamma_density a x * (t - x))).
    { intros t Ht. evar_last; [apply (is_derive_plus (fun t => Lg a t - Lg a x - gamma_density a x * (t - x)) (fun t => 1 / 2 * K * gamma_density a x * (t - x) ^ 2) t); [apply (is_derive_minus (fun t => Lg a t - Lg a x) (fun t => gamma_density a x * (t - x)) t); [apply (is_derive_minus (Lg a) (fun _ => Lg a x) t); [apply Lg_derive, Ht|apply (is_derive_const (Lg a x))]|]|]; auto_derive; try exact I; reflexivity|].
      match goal with |- @eq _ ?u ?v => change (@eq Rdefinitions.R u v) end. unfold minus, plus, opp, zero; cbn. field. }
    destruct (MVT_gen R x s (fun t => gamma_density a t - gamma_density a x + K * gamma_density a x * (t - x))) as (c & Hc & E).
    - intros t Ht. rewrite Rmin_left, Rmax_right in Ht by lra. apply DR. lra.
    - intros t Ht. rewrite Rmin_left, Rmax_right in Ht by lra. apply continuity_pt_filterlim. apply (ex_derive_continuous R). eexists. apply DR. lra.
    - rewrite Rmin_left, Rmax_right in Hc by lra. pose proof (dens_low a x c Ha ltac:(lra)) as DL. fold K in DL. assert (Z : R x = 0) by (unfold R; ring). rewrite Z in E. assert (0 <= (gamma_density a c - gamma_density a x + K * gamma_density a x * (c - x)) * (s - x)) by (apply Rmult_le_pos; lra). lra. }
  unfold R in RP. apply (Rmult_le_reg_r (gamma_density a x)); [exact D|]. replace ((s - (x - (Lg a x - Lg a s) / gamma_density a x)) * gamma_density a x) with ((s - x) * gamma_density a x - (Lg a s - Lg a x)) by (field; lra). lra.
Qed.
(** from above it does not move further than it was *)
Lemma newton_above a s x : 0 < a <= 1 -> 0 < s <= x -> x / s * exp (x - s) <= 2 -> s - newton a s x <= x - s.
Proof.
  intros Ha Hx H. pose proof (dens_gt0 a x ltac:(lra)) as D. unfold newton. apply (Rmult_le_reg_r (gamma_density a x)); [exact D|]. replace ((s - (x - (Lg a x - Lg a s) / gamma_density a x)) * gamma_density a x) with (Lg a x - Lg a s - (x - s) * gamma_density a x) by (field; lra).
  destruct (Req_dec s x) as [<-|N]; [lra|]. destruct (Lg_mvt a s x ltac:(lra) ltac:(lra)) as (c & Hc & E). rewrite E. pose proof (dens_dec a s c ltac:(lra) ltac:(lra)) as DD.
  assert (R2 : gamma_density a s <= 2 * gamma_density a x). { assert (Eq : gamma_density a s = gamma_density a x * exp ((1 - a) * (ln x - ln s) + (x - s))) by (rewrite !dens_exp by lra; rewrite <- exp_plus; f_equal; ring). rewrite Eq. rewrite (Rmult_comm 2). apply Rmult_le_compat_l; [lra|]. eapply Rle_trans; [|exact H]. replace (x / s) with (exp (ln x - ln s)) by (unfold Rminus; rewrite exp_plus, exp_Ropp, !exp_ln by lra; reflexivity). rewrite <- exp_plus. apply exp_mono.
    assert (ln s <= ln x) by (apply Rcomplements.ln_le; lra). assert (0 <= a * (ln x - ln s)) by (apply Rmult_le_pos; lra). lra. }
  assert (gamma_density a c * (x - s) <= 2 * gamma_density a x * (x - s)) by (apply Rmult_le_compat_r; lra). lra.
Qed.

(** ** One computed step *)
(** P^ = w / (1 + th1), w <= P <= w (1 + e);  f^ = f / (1 + th2) *)
Lemma noise (D G x Lx Ls P f th1 th2 e dl : R) : 0 < D -> 0 < G -> 0 < x -> 0 < Lx -> 0 < Ls -> 0 <= e <= 0.01 -> 0 <= dl <= 0.01 -> Rabs th1 <= dl -> Rabs th2 <= dl ->
  f * (1 + th2) = D / G -> 0 < P * (1 + th1) <= Lx / G -> Lx / G <= P * (1 + th1) * (1 + e) ->
  Rabs ((P - Ls / G) * x / f - (Lx - Ls) / (D / x)) <= (1.1 * e + 4 * dl) * Rmax Lx Ls / (D / x).
Proof.
  intros HD HG Hx HL HS He Hd H1 H2 Ef [W0 W1] W2. apply Rabs_le_between in H1. apply Rabs_le_between in H2. set (M := Rmax Lx Ls). assert (M1 : Lx <= M) by apply Rmax_l. assert (M2 : Ls <= M) by apply Rmax_r.
  set (p := P * G). assert (EP : P = p / G) by (unfold p; field; lra). assert (V0 : 0 < p * (1 + th1)) by (unfold p; replace (P * G * (1 + th1)) with (P * (1 + th1) * G) by ring; apply Rmult_lt_0_compat; assumption).
  assert (V1 : p * (1 + th1) <= Lx). { apply (Rmult_le_compat_r G) in W1; [|lra]. unfold Rdiv in W1. rewrite (Rmult_assoc Lx), Rinv_l, Rmult_1_r in W1 by lra. unfold p. lra. }
  assert (V2 : Lx <= p * (1 + th1) * (1 + e)). { apply (Rmult_le_compat_r G) in W2; [|lra]. unfold Rdiv in W2. rewrite (Rmult_assoc Lx), Rinv_l, Rmult_1_r in W2 by lra. unfold p. lra. }
  assert (Nf : f <> 0). { intros ->. assert (0 < D / G) by (apply Rdiv_lt_0_compat; assumption). lra. }
  assert (Ei : / f = (1 + th2) * G / D). { apply (Rmult_eq_reg_l f); [|exact Nf]. rewrite Rinv_r by exact Nf. replace (f * ((1 + th2) * G / D)) with (f * (1 + th2) * G / D) by (field; lra). rewrite Ef. field. lra. }
  assert (Eq : (P - Ls / G) * x / f - (Lx - Ls) / (D / x) = ((p - Ls) * (1 + th2) - (Lx - Ls)) / (D / x)) by (replace ((P - Ls / G) * x / f) with ((P - Ls / G) * x * ((1 + th2) * G / D)) by (rewrite <- Ei; reflexivity); rewrite EP; field; lra). rewrite Eq. unfold Rdiv. rewrite Rabs_mult, (Rabs_right (/ (D * / x))). 2: { left. apply Rinv_0_lt_compat. apply Rmult_lt_0_compat; [assumption|apply Rinv_0_lt_compat, Hx]. }
  apply Rmult_le_compat_r. { left. apply Rinv_0_lt_compat. apply Rmult_lt_0_compat; [assumption|apply Rinv_0_lt_compat, Hx]. }
  clear Eq Ei Ef Nf EP W0 W1 W2. assert (Pp : 0 < p) by (apply (Rmult_lt_reg_r (1 + th1)); lra).
  assert (A1 : p <= Lx * (1 + 1.1 * dl)). { assert (p * (1 - dl) <= p * (1 + th1)) by (apply Rmult_le_compat_l; lra). assert (p * (1 - dl) <= Lx) by lra. assert (0 <= dl * (0.1 - 1.1 * dl)) by (apply Rmult_le_pos; lra). assert (1 <= (1 - dl) * (1 + 1.1 * dl)) by lra. apply (Rmult_le_reg_r (1 - dl)); [lra|]. assert (Lx * 1 <= Lx * ((1 - dl) * (1 + 1.1 * dl))) by (apply Rmult_le_compat_l; lra). lra. }
  assert (A2 : Lx * (1 - dl - e) <= p). { assert (p * (1 + th1) * (1 + e) <= p * ((1 + dl) * (1 + e))) by (rewrite Rmult_assoc; apply Rmult_le_compat_l; [lra|apply Rmult_le_compat_r; lra]). assert (Q : (1 + dl) * (1 + e) * (1 - dl - e) <= 1). { assert (0 <= dl * e) by (apply Rmult_le_pos; lra). assert (0 <= dl * e * (dl + e)) by (apply Rmult_le_pos; lra). nra. }
    apply (Rmult_le_reg_r ((1 + dl) * (1 + e))); [nra|]. apply (Rle_trans _ (Lx * 1)); [|lra]. replace (Lx * (1 - dl - e) * ((1 + dl) * (1 + e))) with (Lx * ((1 + dl) * (1 + e) * (1 - dl - e))) by ring. apply Rmult_le_compat_l; lra. }
  assert (B : Rabs (p - Lx) <= (e + 1.1 * dl) * M). { assert (0 <= (e + 1.1 * dl) * (M - Lx)) by (apply Rmult_le_pos; lra). assert (0 <= e * Lx) by (apply Rmult_le_pos; lra). assert (0 <= dl * Lx) by (apply Rmult_le_pos; lra). apply Rabs_le. lra. }
  replace ((p - Ls) * (1 + th2) - (Lx - Ls)) with ((p - Lx) * (1 + th2) + (Lx - Ls) * th2) by ring. apply (Rle_trans _ _ _ (Rabs_triang _ _)). rewrite !Rabs_mult.
  assert (T1 : Rabs (1 + th2) <= 1.01) by (apply Rabs_le; lra). assert (T2 : Rabs th2 <= dl) by (apply Rabs_le; lra). assert (T3 : Rabs (Lx - Ls) <= M) by (apply Rabs_le; lra).
  assert (E1 : 0 <= (e + 1.1 * dl) * M) by (eapply Rle_trans; [apply Rabs_pos|exact B]).
  assert (Rabs (p - Lx) * Rabs (1 + th2) <= (e + 1.1 * dl) * M * 1.01) by (apply Rmult_le_compat; try apply Rabs_pos; assumption). assert (Rabs (Lx - Ls) * Rabs th2 <= M * dl) by (apply Rmult_le_compat; try apply Rabs_pos; assumption).
  assert (0 <= e * M) by (apply Rmult_le_pos; lra). assert (0 <= dl * M) by (apply Rmult_le_pos; lra). lra.
Qed.
Lemma Lg_mono a u v : 0 < a -> 0 < u <= v -> Lg a u <= Lg a v.
Proof.
  intros Ha [H [H2| ->]]; [|lra]. destruct (Lg_mvt a u v H H2) as (c & Hc & E). pose proof (dens_gt0 a c ltac:(lra)). assert (0 <= gamma_density a c * (v - u)) by (apply Rmult_le_pos; lra). lra.
Qed.
Lemma cond_bound a s x : 0 < a <= 1 -> 0 < s -> 0 < x <= 0.81 -> 0.8 * s <= x -> Rmax (Lg a x) (Lg a s) / gamma_density a x <= 2.9 * x / a.
Proof.
  intros Ha Hs Hx Hr. pose proof (dens_gt0 a x ltac:(lra)) as D. apply (Rmult_le_reg_r (gamma_density a x)); [exact D|]. unfold Rdiv at 1. rewrite Rmult_assoc, Rinv_l, Rmult_1_r by lra. apply (Rmult_le_reg_l a); [lra|]. replace (a * (2.9 * x / a * gamma_density a x)) with (2.9 * (gamma_density a x * x)) by (field; lra). rewrite dens_DD by lra. replace (DD0 a x / x * x) with (DD0 a x) by (field; lra). unfold DD0.
  assert (EX : 1 <= 2.3 * exp (- x)). { assert (exp (- (0.81)) <= exp (- x)) by (apply exp_mono; lra). pose proof (exp_low 0.81 6 ltac:(lra)) as L. unfold pexp in L. cbn [psum] in L. unfold et in L. rewrite !fact_S_R in L. rewrite !INR_IZR_INZ in L. cbn in L. lra. }
  assert (UP : forall t, 0 < t -> a * Lg a t <= Rpower t a). { intros t Ht. apply (Rle_trans _ _ _ (Lg_above a t ltac:(lra) Ht)). apply pow_exp_le; [exact Ht|]. assert (0 < t / (a + 1)) by (apply Rdiv_lt_0_compat; lra). assert (0 <= a * ln (1 + t / (a + 1))) by (apply Rmult_le_pos; [lra|apply ln_nonneg; lra]). lra. }
  assert (PS : Rpower s a <= 1.25 * Rpower x a). { apply (Rle_trans _ (Rpower (1.25 * x) a)); [apply Rle_Rpower_l; lra|]. rewrite <- Rpower_mult_distr by lra. apply Rmult_le_compat_r; [left; apply Rpower_pos|]. rewrite <- (Rpower_1 1.25) at 2 by lra. apply Rle_Rpower; lra. }
  pose proof (Rpower_pos x a) as PX. assert (Q : a * Rmax (Lg a x) (Lg a s) <= 1.25 * Rpower x a) by (unfold Rmax; destruct (Rle_dec _ _); [eapply Rle_trans; [apply UP, Hs|exact PS]|specialize (UP x ltac:(lra)); lra]).
  apply (Rle_trans _ _ _ Q). assert (Rpower x a * 1 <= Rpower x a * (2.3 * exp (- x))) by (apply Rmult_le_compat_l; lra). assert (0 <= Rpower x a * exp (- x)) by (apply Rmult_le_pos; [lra|left; apply exp_pos]). lra.
Qed.
(** the error of one step: [r] before, [r2] after; [eta] from rounding *)
Lemma step_bound a s x M eta r B : 0 < a <= 1 -> 0 < s <= 0.8 -> 0 <= eta <= / 10 ^ 8 -> 0 <= r <= 0.2 -> (1 - r) * s <= x <= (1 + eta) * s -> (1 - a) / (1 - r) + s <= B ->
  Rabs (M - newton a s x) <= eta * s -> (1 - (B / 2 * r ^ 2 + 2 * eta)) * s <= M <= (1 + eta) * s.
Proof.
  intros Ha Hs He Hr Hx HB HM. assert (X : 0.8 * s <= x) by (assert (0.8 * s <= (1 - r) * s) by (apply Rmult_le_compat_r; lra); lra). pose proof (newton_le a s x Ha ltac:(lra) ltac:(lra)) as U. apply Rabs_le_between in HM. split; [|lra].
  assert (L : s - newton a s x <= (B / 2 * r ^ 2 + eta) * s).
  { assert (B0 : 0 <= B) by (assert (0 <= (1 - a) / (1 - r)) by (apply Rmult_le_pos; [lra|left; apply Rinv_0_lt_compat; lra]); lra). assert (R2 : 0 <= r ^ 2) by apply pow2_ge_0. assert (BR : 0 <= B / 2 * r ^ 2) by (apply Rmult_le_pos; lra). destruct (Rle_lt_dec x s) as [H|H].
    - apply (Rle_trans _ _ _ (newton_quad a s x Ha ltac:(lra))). assert (D0 : 0 <= s - x <= r * s) by lra. assert (D2 : (s - x) ^ 2 <= (r * s) ^ 2) by (apply pow_incr; exact D0).
      assert (Q : (1 - a) / x <= (1 - a) / (1 - r) / s). { unfold Rdiv. rewrite Rmult_assoc, <- Rinv_mult. apply Rmult_le_compat_l; [lra|]. apply Rinv_le_contravar; [apply Rmult_lt_0_compat; lra|lra]. }
      assert (K0 : 0 <= (1 - a) / x) by (apply Rmult_le_pos; [lra|left; apply Rinv_0_lt_compat; lra]). apply (Rle_trans _ (1 / 2 * ((1 - a) / (1 - r) / s + 1) * (r * s) ^ 2)). { apply Rmult_le_compat; [lra|apply pow2_ge_0|apply Rmult_le_compat_l; lra|exact D2]. }
      replace (1 / 2 * ((1 - a) / (1 - r) / s + 1) * (r * s) ^ 2) with (((1 - a) / (1 - r) + s) / 2 * r ^ 2 * s) by (field; lra). apply Rmult_le_compat_r; [lra|]. assert (((1 - a) / (1 - r) + s) / 2 * r ^ 2 <= B / 2 * r ^ 2) by (apply Rmult_le_compat_r; lra). lra.
    - assert (ES : eta * s <= / 10 ^ 8 * 0.8) by (apply Rmult_le_compat; lra). eapply Rle_trans; [apply (newton_above a s x Ha ltac:(lra))|].
      + assert (Q : x / s <= 1.1). { apply (Rmult_le_reg_r s); [lra|]. unfold Rdiv. rewrite Rmult_assoc, Rinv_l by lra. assert (eta * s <= 0.1 * s) by (apply Rmult_le_compat_r; lra). lra. }
        assert (E : exp (x - s) <= 1.1). { assert (exp (x - s) <= exp (0.01)) by (apply exp_mono; lra). assert (0.95 <= exp (- (0.01))) by (pose proof (exp_ineq1_le (- (0.01))); lra). rewrite exp_Ropp in *. pose proof (exp_pos 0.01). assert (0.95 * exp 0.01 <= / exp 0.01 * exp 0.01) by (apply Rmult_le_compat_r; lra). rewrite Rinv_l in * by lra. lra. }
        apply (Rle_trans _ (1.1 * 1.1)); [|lra]. apply Rmult_le_compat; try assumption; [apply Rlt_le, Rdiv_lt_0_compat; lra|left; apply exp_pos].
      + assert (0 <= B / 2 * r ^ 2 * s) by (apply Rmult_le_pos; lra). lra. }
  lra.
Qed.
