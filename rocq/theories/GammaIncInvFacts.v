(** The lower incomplete gamma function as a function of its argument; enclosure of DiDonato and Morris's starting value *)
From Coq Require Import List Arith ZArith Lia Bool Reals Lra Psatz.
From Coquelicot Require Import Hierarchy Rcomplements Continuity Derive RInt AutoDerive.
From Verif Require Import EllipSpec Improper GammaSpec GammaInt GammaFun GammaFnFacts GammaIncSpec GammaIncFacts GammaIncFacts2.
Open Scope R_scope.

Lemma dens_exp a t : 0 < t -> gamma_density a t = exp ((a - 1) * ln t - t).
Proof. intros H. unfold gamma_density, Rpower. rewrite <- exp_plus. f_equal. Qed.
Lemma dens_DD a t : 0 < t -> gamma_density a t = DD0 a t / t.
Proof. intros H. unfold gamma_density, DD0. replace a with (a - 1 + 1) at 2 by ring. rewrite Rpower_plus, Rpower_1 by exact H. field. lra. Qed.
Lemma Lg_derive a x : 0 < x -> is_derive (Lg a) x (gamma_density a x).
Proof.
  intros Hx. unfold Lg. pose proof (Jv_derive_z 0 a x Hx) as J. cbn [INR Nat.eqb] in J. pose proof (Rpower_derive a x Hx) as P.
  evar_last; [apply (is_derive_minus (fun _ => Gam a) (fun x => Rpower x a * Jv 0 a x) x 0 (a * Rpower x (a - 1) * Jv 0 a x + Rpower x a * (- (0 * Jv (0 - 1) a x + a * Jv 0 a x + exp (- x)) / x)));
    [apply (is_derive_const (Gam a) x)|exact (is_derive_mult _ _ x _ _ P J)]|].
  rewrite (dens_DD a x Hx). unfold DD0. assert (E : Rpower x a = Rpower x (a - 1) * x) by (replace a with (a - 1 + 1) at 1 by ring; rewrite Rpower_plus, Rpower_1 by exact Hx; reflexivity). rewrite E.
  match goal with |- @eq _ ?u ?v => change (@eq R u v) end. unfold minus, plus, opp; cbn. field. lra.
Qed.
Lemma Rpower_small a e : 0 < a -> 0 < e -> exists d, 0 < d /\ forall t, 0 < t < d -> Rpower t a < e.
Proof.
  intros Ha He. exists (exp (ln e / a)). split; [apply exp_pos|]. intros t [H0 H1]. unfold Rpower. rewrite <- (exp_ln e He) at 1. apply exp_increasing. assert (L : ln t < ln e / a) by (rewrite <- (ln_exp (ln e / a)); apply ln_increasing; assumption).
  apply (Rmult_lt_compat_l a) in L; [|exact Ha]. replace (a * (ln e / a)) with (ln e) in L by (field; lra). exact L.
Qed.
Lemma Lg_small a t : 0 < a -> 0 < t <= a / 2 -> 0 <= Lg a t <= 2 / a * Rpower t a.
Proof.
  intros Ha Ht. split; [apply Lg_pos; lra|]. apply (Rle_trans _ _ _ (Lg_bound a t ltac:(lra))). unfold DD0. pose proof (Rpower_pos t a) as P. assert (E : exp (- t) <= 1) by (rewrite <- exp_0; apply exp_mono; lra). pose proof (exp_pos (- t)).
  apply (Rmult_le_reg_r (a - t)); [lra|]. unfold Rdiv at 1. rewrite Rmult_assoc, Rinv_l by lra. rewrite Rmult_1_r. apply (Rle_trans _ (Rpower t a * 1)); [apply Rmult_le_compat_l; lra|]. replace (2 / a * Rpower t a * (a - t)) with (Rpower t a * (2 * (a - t) / a)) by (field; lra). apply Rmult_le_compat_l; [lra|].
  apply (Rmult_le_reg_r a); [lra|]. unfold Rdiv. rewrite Rmult_assoc, Rinv_l by lra. lra.
Qed.
(** a function vanishing at 0 like t^a, with a nonnegative derivative, is nonnegative *)
Lemma mono_from_0 (F dF : R -> R) a C delta x : 0 < a -> 0 < delta -> 0 <= C -> 0 < x -> (forall t, 0 < t <= x -> is_derive F t (dF t)) -> (forall t, 0 < t <= x -> 0 <= dF t) ->
  (forall t, 0 < t < delta -> Rabs (F t) <= C * Rpower t a) -> 0 <= F x.
Proof.
  intros Ha Hd HC Hx D P B. apply Rnot_lt_le. intros N. destruct (Rpower_small a (- F x / (C + 1)) Ha ltac:(apply Rdiv_lt_0_compat; lra)) as (d & Pd & Sd).
  assert (M : 0 < Rmin x (Rmin delta d)) by (repeat apply Rmin_glb_lt; assumption). set (t := Rmin x (Rmin delta d) / 2). assert (T : 0 < t /\ t < x /\ t < delta /\ t < d).
  { pose proof (Rmin_l x (Rmin delta d)). pose proof (Rmin_r x (Rmin delta d)). pose proof (Rmin_l delta d). pose proof (Rmin_r delta d). unfold t. repeat split; lra. }
  destruct T as (T0 & T1 & T2 & T3). specialize (B t ltac:(lra)). specialize (Sd t ltac:(lra)).
  destruct (MVT_gen F t x dF) as (c & Hc & E).
  - intros s Hs. rewrite Rmin_left, Rmax_right in Hs by lra. apply D. lra.
  - intros s Hs. rewrite Rmin_left, Rmax_right in Hs by lra. apply continuity_pt_filterlim. apply (ex_derive_continuous F). exists (dF s). apply D. lra.
  - rewrite Rmin_left, Rmax_right in Hc by lra. assert (0 <= dF c * (x - t)) by (apply Rmult_le_pos; [apply P; lra|lra]).
    assert (CB : C * Rpower t a <= (C + 1) * (- F x / (C + 1)) * (C / (C + 1))). { replace ((C + 1) * (- F x / (C + 1)) * (C / (C + 1))) with (C * (- F x / (C + 1))) by (field; lra). apply Rmult_le_compat_l; lra. }
    replace ((C + 1) * (- F x / (C + 1)) * (C / (C + 1))) with (- F x * (C / (C + 1))) in CB by (field; lra). assert (Q : C / (C + 1) < 1) by (apply (Rmult_lt_reg_r (C + 1)); [lra|]; unfold Rdiv; rewrite Rmult_assoc, Rinv_l by lra; lra).
    assert (- F x * (C / (C + 1)) < - F x * 1) by (apply Rmult_lt_compat_l; lra). apply Rabs_le_between in B. lra.
Qed.
Lemma pow_exp_le a t v : 0 < t -> v <= a * ln t -> exp v <= Rpower t a.
Proof. intros Ht H. unfold Rpower. apply exp_mono, H. Qed.
(** a P(a, x) Gamma(a) lies between x^a exp(-a y) and x^a (1 + y)^(-a), y = x / (a + 1) *)
Lemma Lg_above a x : 0 < a -> 0 < x -> a * Lg a x <= exp (a * ln x - a * ln (1 + x / (a + 1))).
Proof.
  intros Ha Hx. set (E := fun t => exp (a * ln t - a * ln (1 + t / (a + 1)))).
  assert (Y : forall t, 0 < t -> 0 < t / (a + 1)) by (intros t Ht; apply Rdiv_lt_0_compat; lra).
  enough (0 <= E x - a * Lg a x) by (fold (E x); lra).
  apply (mono_from_0 (fun t => E t - a * Lg a t) (fun t => E t * (a / t - a / (a + 1) / (1 + t / (a + 1))) - a * gamma_density a t) a 3 (a / 2) x); try lra.
  - intros t Ht. specialize (Y t ltac:(lra)). apply (is_derive_minus E (fun t => a * Lg a t) t); [|apply is_derive_scal, Lg_derive; lra]. unfold E. auto_derive; [repeat split; lra|]. change (a * ln t + - (a * ln (1 + t * / (a + 1)))) with (a * ln t - a * ln (1 + t / (a + 1))). field. repeat split; lra.
  - intros t Ht. specialize (Y t ltac:(lra)). assert (L : ln (1 + t / (a + 1)) <= t / (a + 1)) by (pose proof (ln_le_lin 1 (1 + t / (a + 1)) ltac:(lra) ltac:(lra)) as Q; rewrite ln_1 in Q; lra).
    assert (EQ : E t * (a / t - a / (a + 1) / (1 + t / (a + 1))) = a * exp ((a - 1) * ln t - (a + 1) * ln (1 + t / (a + 1)))).
    { replace ((a - 1) * ln t - (a + 1) * ln (1 + t / (a + 1))) with (a * ln t - a * ln (1 + t / (a + 1)) + (- ln t + - ln (1 + t / (a + 1)))) by ring. rewrite exp_plus. fold (E t). rewrite exp_plus, !exp_Ropp, !exp_ln by lra. field. repeat split; lra. }
    rewrite EQ, dens_exp by lra. assert (exp ((a - 1) * ln t - t) <= exp ((a - 1) * ln t - (a + 1) * ln (1 + t / (a + 1)))). { apply exp_mono. assert ((a + 1) * ln (1 + t / (a + 1)) <= (a + 1) * (t / (a + 1))) by (apply Rmult_le_compat_l; lra). replace ((a + 1) * (t / (a + 1))) with t in * by (field; lra). lra. }
    assert (a * exp ((a - 1) * ln t - t) <= a * exp ((a - 1) * ln t - (a + 1) * ln (1 + t / (a + 1)))) by (apply Rmult_le_compat_l; lra). lra.
  - intros t Ht. specialize (Y t ltac:(lra)). destruct (Lg_small a t Ha ltac:(lra)) as [L0 L1]. assert (E1 : E t <= Rpower t a). { unfold E. apply pow_exp_le; [lra|]. assert (0 <= a * ln (1 + t / (a + 1))) by (apply Rmult_le_pos; [lra|apply ln_nonneg; lra]). lra. }
    pose proof (exp_pos (a * ln t - a * ln (1 + t / (a + 1)))) as E0. fold (E t) in E0. assert (a * Lg a t <= 2 * Rpower t a). { apply (Rle_trans _ (a * (2 / a * Rpower t a))); [apply Rmult_le_compat_l; lra|]. right. field. lra. } assert (0 <= a * Lg a t) by (apply Rmult_le_pos; lra). pose proof (Rpower_pos t a). apply Rabs_le. lra.
Qed.
Lemma Lg_below a x : 0 < a -> 0 < x -> exp (a * ln x - a * (x / (a + 1))) <= a * Lg a x.
Proof.
  intros Ha Hx. set (E := fun t => exp (a * ln t - a * (t / (a + 1)))).
  enough (0 <= a * Lg a x - E x) by (fold (E x); lra).
  apply (mono_from_0 (fun t => a * Lg a t - E t) (fun t => a * gamma_density a t - E t * (a / t - a / (a + 1))) a 3 (a / 2) x); try lra.
  - intros t Ht. apply (is_derive_minus (fun t => a * Lg a t) E t); [apply is_derive_scal, Lg_derive; lra|]. unfold E. auto_derive; [repeat split; lra|]. change (a * ln t + - (a * (t * / (a + 1)))) with (a * ln t - a * (t / (a + 1))). field. repeat split; lra.
  - intros t Ht. set (y := t / (a + 1)). assert (EQ : E t * (a / t - a / (a + 1)) = a * (gamma_density a t * (exp y * (1 - y)))).
    { assert (Z : E t = exp ((a - 1) * ln t - t) * t * exp y). { replace (exp ((a - 1) * ln t - t) * t * exp y) with (exp ((a - 1) * ln t - t) * exp (ln t) * exp y) by (rewrite exp_ln by lra; reflexivity). rewrite <- !exp_plus. unfold E. f_equal. unfold y. field. lra. } rewrite Z, dens_exp by lra. unfold y. field. lra. }
    rewrite EQ. assert (exp y * (1 - y) <= 1). { pose proof (exp_ineq1_le (- y)) as Q. rewrite exp_Ropp in Q. pose proof (exp_pos y). apply (Rmult_le_compat_l (exp y)) in Q; [|lra]. rewrite Rinv_r in Q by lra. lra. }
    pose proof (dens_pos a t). assert (gamma_density a t * (exp y * (1 - y)) <= gamma_density a t * 1) by (apply Rmult_le_compat_l; lra). assert (a * (gamma_density a t * (exp y * (1 - y))) <= a * (gamma_density a t * 1)) by (apply Rmult_le_compat_l; lra). lra.
  - intros t Ht. destruct (Lg_small a t Ha ltac:(lra)) as [L0 L1]. assert (Y : 0 < t / (a + 1)) by (apply Rdiv_lt_0_compat; lra). assert (E1 : E t <= Rpower t a). { unfold E. apply pow_exp_le; [lra|]. assert (0 <= a * (t / (a + 1))) by (apply Rmult_le_pos; lra). lra. }
    pose proof (exp_pos (a * ln t - a * (t / (a + 1)))) as E0. fold (E t) in E0. assert (a * Lg a t <= 2 * Rpower t a). { apply (Rle_trans _ (a * (2 / a * Rpower t a))); [apply Rmult_le_compat_l; lra|]. right. field. lra. } assert (0 <= a * Lg a t) by (apply Rmult_le_pos; lra). pose proof (Rpower_pos t a). apply Rabs_le. lra.
Qed.
Lemma Lg_gt0 a x : 0 < a -> 0 < x -> 0 < Lg a x.
Proof. intros Ha Hx. pose proof (Lg_below a x Ha Hx) as B. pose proof (exp_pos (a * ln x - a * (x / (a + 1)))). apply (Rmult_lt_reg_l a); lra. Qed.
Lemma Lg_one x : 0 < x -> Lg 1 x = 1 - exp (- x).
Proof.
  intros Hx. assert (D : forall t, 0 < t -> is_derive (fun t => Lg 1 t - (1 - exp (- t))) t 0).
  { intros t Ht. evar_last; [apply (is_derive_minus (Lg 1) (fun t => 1 - exp (- t)) t); [apply Lg_derive, Ht|auto_derive; [exact I|reflexivity]]|]. rewrite dens_exp by exact Ht. replace ((1 - 1) * ln t - t) with (- t) by ring. match goal with |- @eq _ ?u ?v => change (@eq R u v) end. unfold minus, plus, opp; cbn. ring. }
  assert (B : forall t, 0 < t < 1 / 2 -> Rabs (Lg 1 t - (1 - exp (- t))) <= 3 * Rpower t 1).
  { intros t Ht. destruct (Lg_small 1 t ltac:(lra) ltac:(lra)) as [L0 L1]. rewrite Rpower_1 in * by lra. pose proof (exp_ineq1_le (- t)). assert (exp (- t) <= 1) by (rewrite <- exp_0; apply exp_mono; lra). apply Rabs_le. lra. }
  pose proof (mono_from_0 _ (fun _ => 0) 1 3 (1 / 2) x ltac:(lra) ltac:(lra) ltac:(lra) Hx (fun t Ht => D t (proj1 Ht)) (fun _ _ => Rle_refl 0) B) as P1.
  assert (P2 : 0 <= - (Lg 1 x - (1 - exp (- x)))).
  { apply (mono_from_0 (fun t => - (Lg 1 t - (1 - exp (- t)))) (fun _ => 0) 1 3 (1 / 2) x); try lra; [|intros; lra|intros t Ht; rewrite Rabs_Ropp; apply B, Ht]. intros t Ht. evar_last; [apply (is_derive_opp (fun t => Lg 1 t - (1 - exp (- t))) t 0), D; lra|]. apply Ropp_0. }
  cbv beta in P1. lra.
Qed.
