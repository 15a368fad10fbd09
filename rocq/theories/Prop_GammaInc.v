(** C72: the C++ regularised incomplete gamma functions *)
From Coq Require Import List Arith ZArith Lia Bool Reals Lra Psatz.
From Coquelicot Require Import Rcomplements.
From Verif Require Import EllipSpec Improper GammaSpec GammaInt GammaFun HyperExp GammaFnSpec GammaFnFacts GammaInc GammaIncSpec GammaIncFacts GammaIncCF GammaIncCF2 GammaIncFacts2 LanczosAcc2.
Open Scope R_scope.

Lemma div_opp u l : l <> 0 -> u / l * - l = - u.
Proof. intros H. field. exact H. Qed.
Lemma mul_div u l : l <> 0 -> u / l * l = u.
Proof. intros H. field. exact H. Qed.
Lemma transition_iff a x : in_asymptotic a x = true <-> near_transition a x.
Proof.
  unfold in_asymptotic, near_transition. cbv zeta. destruct (Rlt_dec 20 a), (Rlt_dec a 200), (Rlt_dec (Rabs (x - a) / a) 0.3), (Rlt_dec 200 a), (Rlt_dec (Rabs (x - a) / a) (4.5 / sqrt a)); cbn; split; intros K; try discriminate K; try reflexivity; try (left; lra); try (right; lra); exfalso; destruct K as [[[? ?] ?]|[? ?]]; contradiction.
Qed.
Lemma not_transition a x : ~ near_transition a x -> in_asymptotic a x = false.
Proof. intros N. destruct (in_asymptotic a x) eqn:E; [exfalso; apply N, transition_iff, E|reflexivity]. Qed.
Lemma fin_case (lower : bool) eps n lg erfc d a x : 0 < a -> 0 < x -> (if lower then gammainc else gammaincc) eps n lg erfc d (Fin a) (Fin x) =
  Fin (if in_asymptotic a x then asymptotic_series eps erfc d a x lower
       else let q := if Rlt_dec 1.1 x then (if Rlt_dec x a then 1 - igam_series eps n lg a x else igamc_continued_fraction eps n lg a x)
           else if Rle_dec x 0.5 then (if Rlt_dec (-0.4 / ln x) a then 1 - igam_series eps n lg a x else igamc_series eps n lg a x)
           else if Rlt_dec (x * 1.1) a then 1 - igam_series eps n lg a x else igamc_series eps n lg a x in
       if lower then (if Rlt_dec 1 x then (if Rlt_dec a x then 1 - q else igam_series eps n lg a x) else igam_series eps n lg a x) else q).
Proof.
  intros Ha Hx. destruct lower; unfold gammainc, gammaincc, lt0, eq0; (destruct (Rlt_dec x 0); [lra|]); (destruct (Rlt_dec a 0); [lra|]); (destruct (Req_EM_T a 0); [lra|]); (destruct (Req_EM_T x 0); [lra|]); cbn [orb isinf];
  destruct (in_asymptotic a x); try reflexivity. destruct (Rlt_dec 1 x); [|reflexivity]. destruct (Rlt_dec a x); reflexivity.
Qed.
Lemma under_d a x d : 0 < a -> no_underflow a x -> prefactor a x d -> 0.4 * a < Rabs (a - x) -> exp (- maxlog) <= d.
Proof. intros Ha U Hd F. destruct (U F) as (d' & P & B). rewrite (pref_DD0 a x d Ha Hd), <- (pref_DD0 a x d' Ha P). replace (- maxlog) with (-709.782712893383996843) by (unfold maxlog; lra). exact B. Qed.
Lemma pref_ex a x : 0 < a -> prefactor a x (DD0 a x / Gam a).
Proof. intros Ha. exists (Gam a). split; [apply Gam_ok, Ha|reflexivity]. Qed.

(** Lanczos's formula, as the code evaluates it, is the gamma function to a relative 1e-14 *)
Theorem C72_lanczos a : 0 < a -> lanczos_accurate lanczos_sum_expg_scaled lanczos_g (/ 10 ^ 14) a.
Proof. exact (lanczos_ok a). Qed.

Section C72.
Variables (eps : R) (lgamma erfc : R -> R) (dtab : nat -> nat -> R).
Let P a x := gammainc eps 2000 lgamma erfc dtab a x.
Let Q a x := gammaincc eps 2000 lgamma erfc dtab a x.

Lemma lower_gen a x delta p : / 2 ^ 53 <= eps -> log_of_gamma lgamma ->
  0 < a <= 1900 -> 0 < x -> x <= a \/ x <= 1 -> ~ near_transition a x -> no_underflow a x ->
  0 <= delta < 1 -> (Rabs (a - x) <= 0.4 * a -> lanczos_accurate lanczos_sum_expg_scaled lanczos_g delta a) ->
  regularised_lower a x p ->
  exists v theta, P (Fin a) (Fin x) = Fin v /\ prefactor_error a x delta theta /\
    0 < v * (1 + theta) <= p /\ p <= v * (1 + theta) * (1 + eps * Rmax 1 (a / 2)).
Proof.
  intros He LG Ha Hx Hr NT U Hd LA HP. exists (igam_series eps 2000 lgamma a x).
  assert (He' : / 2 ^ 60 <= eps) by (eapply Rle_trans; [|exact He]; apply Rinv_le_contravar; [apply pow_lt; lra|apply Rle_pow; [lra|lia]]).
  destruct (series_main eps lgamma a x delta p _ Ha Hx Hr He' LG Hd LA HP (pref_ex a x ltac:(lra)) (under_d a x _ ltac:(lra) U (pref_ex a x ltac:(lra)))) as (th & FE & V0 & V1 & V2). cbv zeta in *.
  exists th. split; [|split; [exact FE|split; [split; [exact V0|exact V1]|exact V2]]]. clear He He' V0 V1 V2 FE LA. unfold P. rewrite (fin_case true eps 2000 lgamma erfc dtab a x ltac:(lra) Hx), (not_transition a x NT). cbv zeta. destruct (Rlt_dec 1 x); [destruct (Rlt_dec a x); [destruct Hr; lra|]|]; reflexivity.
Qed.
(** The lower function where it is summed: below the diagonal, and for x at most 1. *)
Theorem C72_lower a x p : / 2 ^ 53 <= eps -> log_of_gamma lgamma ->
  0 < a <= 1900 -> 0 < x -> x <= a \/ x <= 1 -> ~ near_transition a x -> no_underflow a x ->
  regularised_lower a x p ->
  exists v theta, P (Fin a) (Fin x) = Fin v /\ prefactor_error a x (/ 10 ^ 14) theta /\
    0 < v * (1 + theta) <= p /\ p <= v * (1 + theta) * (1 + eps * Rmax 1 (a / 2)).
Proof. intros He LG Ha Hx Hr NT U. apply lower_gen; try assumption; [lra|]. intros _. apply lanczos_ok. lra. Qed.

Lemma upper_fraction_gen a x delta q : / 2 ^ 53 <= eps -> log_of_gamma lgamma ->
  0 < a <= x -> a <= 1900 -> 1.1 < x -> ~ near_transition a x -> no_underflow a x ->
  0 <= delta < 1 -> (Rabs (a - x) <= 0.4 * a -> lanczos_accurate lanczos_sum_expg_scaled lanczos_g delta a) ->
  regularised_upper a x q ->
  exists v theta, Q (Fin a) (Fin x) = Fin v /\ P (Fin a) (Fin x) = Fin (if Rlt_dec a x then 1 - v else igam_series eps 2000 lgamma a x) /\ prefactor_error a x delta theta /\ 0 < v * (1 + theta) /\
    Rabs (v * (1 + theta) - q) <= eps * Rmax 1 (2002 / (x + a - 1)) * Rmax (v * (1 + theta)) q.
Proof.
  intros He LG H Ha19 Hx NT U Hd LA HQ. assert (He0 : 0 < eps) by (eapply Rlt_le_trans; [|exact He]; apply Rinv_0_lt_compat, pow_lt; lra).
  destruct (cf_main eps lgamma a x delta q _ H ltac:(lra) He0 LG Hd LA HQ (pref_ex a x ltac:(lra)) (under_d a x _ ltac:(lra) U (pref_ex a x ltac:(lra)))) as (th & n & FE & Hn & Ev & Pr & Eq & Pd & C).
  exists (igamc_continued_fraction eps 2000 lgamma a x), th. unfold Q, P.
  split; [rewrite (fin_case false eps 2000 lgamma erfc dtab a x ltac:(lra) ltac:(lra)), (not_transition a x NT); cbv zeta; destruct (Rlt_dec 1.1 x); [|lra]; destruct (Rlt_dec x a); [lra|]; reflexivity|].
  split; [rewrite (fin_case true eps 2000 lgamma erfc dtab a x ltac:(lra) ltac:(lra)), (not_transition a x NT); cbv zeta; destruct (Rlt_dec 1.1 x); [|lra]; destruct (Rlt_dec x a); [lra|]; destruct (Rlt_dec 1 x); [|lra]; destruct (Rlt_dec a x); reflexivity|].
  split; [exact FE|]. rewrite Ev. set (d := DD0 a x / Gam a) in *. split; [apply Rmult_lt_0_compat; assumption|]. rewrite Eq. replace (d * rn a x n - d * Vv a x) with (d * (rn a x n - Vv a x)) by ring. rewrite Rabs_mult, (Rabs_right d) by lra.
  destruct (V_bounds a x H ltac:(lra)) as [V1 _]. assert (V0 : 0 < Vv a x) by (apply (Rmult_lt_reg_l (x + 1)); lra). pose proof (Rmax_l 1 (2002 / (x + a - 1))) as M. assert (0 <= eps * Rmax 1 (2002 / (x + a - 1))) by (apply Rmult_le_pos; lra).
  destruct C as [->|C].
  - pose proof (exhausted a x H ltac:(lra) Ha19) as E. apply (Rle_trans _ (eps * Rmax 1 (2002 / (x + a - 1)) * (d * Vv a x))); [|apply Rmult_le_compat_l; [assumption|apply Rmax_r]]. apply (Rle_trans _ (d * (/ 2 ^ 53 * Vv a x))); [apply Rmult_le_compat_l; lra|]. replace (eps * Rmax 1 (2002 / (x + a - 1)) * (d * Vv a x)) with (d * (eps * Rmax 1 (2002 / (x + a - 1)) * Vv a x)) by ring. apply Rmult_le_compat_l; [lra|]. apply Rmult_le_compat_r; [lra|]. apply (Rle_trans _ (eps * 1)); [lra|apply Rmult_le_compat_l; lra].
  - apply (Rle_trans _ (eps * Rmax 1 (2002 / (x + a - 1)) * (d * rn a x n))); [|apply Rmult_le_compat_l; [assumption|apply Rmax_l]]. replace (eps * Rmax 1 (2002 / (x + a - 1)) * (d * rn a x n)) with (d * (eps * Rmax 1 (2002 / (x + a - 1)) * rn a x n)) by ring. apply Rmult_le_compat_l; [lra|exact C].
Qed.
(** The upper function where the continued fraction is used: x at least a, above 1.1. *)
Theorem C72_upper_fraction a x q : / 2 ^ 53 <= eps -> log_of_gamma lgamma ->
  0 < a <= x -> a <= 1900 -> 1.1 < x -> ~ near_transition a x -> no_underflow a x ->
  regularised_upper a x q ->
  exists v theta, Q (Fin a) (Fin x) = Fin v /\ P (Fin a) (Fin x) = Fin (if Rlt_dec a x then 1 - v else igam_series eps 2000 lgamma a x) /\ prefactor_error a x (/ 10 ^ 14) theta /\ 0 < v * (1 + theta) /\
    Rabs (v * (1 + theta) - q) <= eps * Rmax 1 (2002 / (x + a - 1)) * Rmax (v * (1 + theta)) q.
Proof. intros He LG Ha H19 Hx NT U. apply upper_fraction_gen; try assumption; [lra|]. intros _. apply lanczos_ok. lra. Qed.

Lemma upper_complement_gen a x delta p : / 2 ^ 53 <= eps -> log_of_gamma lgamma ->
  0 < a <= 1900 -> 0 < x -> 1.1 < x < a \/ 0.5 < x <= 1.1 /\ 1.1 * x < a \/ x <= 0.5 /\ x < exp (-0.4 / a) -> ~ near_transition a x -> no_underflow a x ->
  0 <= delta < 1 -> (Rabs (a - x) <= 0.4 * a -> lanczos_accurate lanczos_sum_expg_scaled lanczos_g delta a) ->
  regularised_lower a x p ->
  exists v theta, Q (Fin a) (Fin x) = Fin (1 - v) /\ prefactor_error a x delta theta /\
    0 < v * (1 + theta) <= p /\ p <= v * (1 + theta) * (1 + eps * Rmax 1 (a / 2)).
Proof.
  intros He LG Ha Hx Hr NT U Hd LA HP. exists (igam_series eps 2000 lgamma a x).
  assert (He' : / 2 ^ 60 <= eps) by (eapply Rle_trans; [|exact He]; apply Rinv_le_contravar; [apply pow_lt; lra|apply Rle_pow; [lra|lia]]). clear He.
  assert (Hr' : x <= a \/ x <= 1) by (destruct Hr as [Hr|[Hr|Hr]]; [left|left|right]; lra).
  destruct (series_main eps lgamma a x delta p _ Ha Hx Hr' He' LG Hd LA HP (pref_ex a x ltac:(lra)) (under_d a x _ ltac:(lra) U (pref_ex a x ltac:(lra)))) as (th & FE & V0 & V1 & V2). cbv zeta in *.
  exists th. split; [|split; [exact FE|split; [split; [exact V0|exact V1]|exact V2]]]. clear He' V0 V1 V2 FE LA. unfold Q. rewrite (fin_case false eps 2000 lgamma erfc dtab a x ltac:(lra) Hx), (not_transition a x NT). cbv zeta.
  destruct Hr as [Hr|[Hr|[Hr1 Hr2]]].
  - destruct (Rlt_dec 1.1 x); [|lra]. destruct (Rlt_dec x a); [reflexivity|lra].
  - destruct (Rlt_dec 1.1 x); [lra|]. destruct (Rle_dec x 0.5); [lra|]. destruct (Rlt_dec (x * 1.1) a); [reflexivity|lra].
  - destruct (Rlt_dec 1.1 x); [lra|]. destruct (Rle_dec x 0.5); [|lra]. destruct (Rlt_dec (-0.4 / ln x) a) as [_|N]; [reflexivity|exfalso; apply N].
    assert (L : ln x < -0.4 / a) by (rewrite <- (ln_exp (-0.4 / a)); apply ln_increasing; [exact Hx|exact Hr2]). assert (L0 : ln x < 0) by (rewrite <- ln_1; apply ln_increasing; lra).
    assert (L2 : ln x * a < -0.4) by (apply (Rmult_lt_compat_r a) in L; [|lra]; rewrite (mul_div (-0.4) a) in L; lra).
    apply (Rmult_lt_reg_r (- ln x)); [lra|]. rewrite (div_opp (-0.4) (ln x)) by lra. lra.
Qed.
(** The upper function as the complement of the sum: below the diagonal for x above 1.1, and for a not too small below. *)
Theorem C72_upper_complement a x p : / 2 ^ 53 <= eps -> log_of_gamma lgamma ->
  0 < a <= 1900 -> 0 < x -> 1.1 < x < a \/ 0.5 < x <= 1.1 /\ 1.1 * x < a \/ x <= 0.5 /\ x < exp (-0.4 / a) -> ~ near_transition a x -> no_underflow a x ->
  regularised_lower a x p ->
  exists v theta, Q (Fin a) (Fin x) = Fin (1 - v) /\ prefactor_error a x (/ 10 ^ 14) theta /\
    0 < v * (1 + theta) <= p /\ p <= v * (1 + theta) * (1 + eps * Rmax 1 (a / 2)).
Proof. intros He LG Ha Hx Hr NT U. apply upper_complement_gen; try assumption; [lra|]. intros _. apply lanczos_ok. lra. Qed.

(** The upper function for small a and x. *)
Theorem C72_upper_small a x q g : / 2 ^ 53 <= eps -> log_of_gamma lgamma ->
  0 < a -> 0 < x -> 0.5 < x <= 1.1 /\ a <= 1.1 * x \/ x <= 0.5 /\ exp (-0.4 / a) <= x ->
  regularised_upper a x q -> euler_gamma a g ->
  exists v, Q (Fin a) (Fin x) = Fin v /\ Rabs (v - q) <= eps * (Rpower x a / g).
Proof.
  intros He LG Ha Hx Hr HQ Eg. assert (He' : / 2 ^ 60 <= eps) by (eapply Rle_trans; [|exact He]; apply Rinv_le_contravar; [apply pow_lt; lra|apply Rle_pow; [lra|lia]]). assert (He0 : 0 < eps) by (eapply Rlt_le_trans; [|exact He]; apply Rinv_0_lt_compat, pow_lt; lra).
  exists (igamc_series eps 2000 lgamma a x). split.
  - clear He He' He0. assert (A2 : x <= 0.5 -> exp (-0.4 / a) <= x -> a <= -0.4 / ln x). { intros H1 H2. assert (L : -0.4 / a <= ln x) by (rewrite <- (ln_exp (-0.4 / a)); apply Rcomplements.ln_le; [apply exp_pos|assumption]). assert (L0 : ln x < 0) by (rewrite <- ln_1; apply ln_increasing; lra).
      assert (L2 : -0.4 <= ln x * a) by (apply (Rmult_le_compat_r a) in L; [|lra]; rewrite (mul_div (-0.4) a) in L; lra). apply (Rmult_le_reg_r (- ln x)); [lra|]. rewrite (div_opp (-0.4) (ln x)) by lra. lra. }
    assert (A : a <= 1.21). { destruct Hr as [Hr|[H1 H2]]; [lra|]. specialize (A2 H1 H2). assert (L : ln x <= - 0.4). { apply (Rle_trans _ (ln 0.5)); [apply Rcomplements.ln_le; lra|]. assert (E : ln 0.5 = - ln 2) by (replace 0.5 with (/ 2) by lra; apply ln_Rinv; lra). pose proof ln_lt_2. lra. }
      apply (Rle_trans _ _ _ A2). apply (Rmult_le_reg_r (- ln x)); [lra|]. rewrite (div_opp (-0.4) (ln x)) by lra. lra. }
    unfold Q. rewrite (fin_case false eps 2000 lgamma erfc dtab a x Ha Hx), (not_transition a x) by (intros [[? _]|[? _]]; lra). cbv zeta.
    destruct (Rlt_dec 1.1 x); [lra|]. destruct Hr as [Hr|[H1 H2]]; (destruct (Rle_dec x 0.5); [|try lra]; try lra).
    + destruct (Rlt_dec (x * 1.1) a); [lra|reflexivity].
    + specialize (A2 H1 H2). destruct (Rlt_dec (-0.4 / ln x) a); [lra|reflexivity].
  - eapply Rle_trans; [apply (cseries_main eps lgamma a x q g Ha ltac:(lra) He' LG HQ Eg)|]. pose proof (Rpower_pos x a). pose proof (Gam_gt0 a Ha). rewrite (euler_Gam a g Ha Eg). assert (0 < Rpower x a / Gam a) by (apply Rdiv_lt_0_compat; assumption). assert (0 < eps * (Rpower x a / Gam a)) by (apply Rmult_lt_0_compat; assumption). lra.
Qed.

(** The two functions add up to exactly 1 wherever one is computed from the other or both come from the uniform expansion. *)
Theorem C72_complement a x : odd_about_one erfc -> 0 < a -> 0 < x ->
  near_transition a x \/ 1 < x /\ a < x \/ 1.1 < x < a ->
  exists p q, P (Fin a) (Fin x) = Fin p /\ Q (Fin a) (Fin x) = Fin q /\ p + q = 1.
Proof.
  intros Od Ha Hx H. unfold P, Q. rewrite (fin_case true eps 2000 lgamma erfc dtab a x Ha Hx), (fin_case false eps 2000 lgamma erfc dtab a x Ha Hx). eexists. eexists. split; [reflexivity|]. split; [reflexivity|].
  destruct (in_asymptotic a x) eqn:E.
  - unfold asymptotic_series. cbv zeta. set (eta := if Rlt_dec 1 (x / a) then _ else _). set (sm := sum_loop _ _ _ _ _ _ _ _ _).
    pose proof (Od (1 * eta * sqrt (a / 2))) as O. replace (- (1 * eta * sqrt (a / 2))) with (-1 * eta * sqrt (a / 2)) in O by ring. unfold Rdiv in *. lra.
  - destruct H as [H|H]; [apply transition_iff in H; congruence|]. cbv zeta. destruct (Rlt_dec 1 x); [|lra]. destruct (Rlt_dec a x); [lra|]. destruct H as [H|H]; [lra|]. destruct (Rlt_dec 1.1 x); [|lra]. destruct (Rlt_dec x a); [ring|lra].
Qed.

(** Limiting and invalid arguments; in all other cases both are finite. *)
Theorem C72_edges :
  (forall a x, lt0 a = true \/ lt0 x = true -> P a x = NaN /\ Q a x = NaN) /\
  (forall x, 0 < x -> P (Fin 0) (Fin x) = Fin 1 /\ Q (Fin 0) (Fin x) = Fin 0) /\ (P (Fin 0) PInf = Fin 1 /\ Q (Fin 0) PInf = Fin 0) /\
  (P (Fin 0) (Fin 0) = NaN /\ Q (Fin 0) (Fin 0) = NaN) /\
  (forall a, 0 < a -> P (Fin a) (Fin 0) = Fin 0 /\ Q (Fin a) (Fin 0) = Fin 1) /\ (P PInf (Fin 0) = Fin 0 /\ Q PInf (Fin 0) = Fin 1) /\
  (forall a, 0 < a -> P (Fin a) PInf = Fin 1 /\ Q (Fin a) PInf = Fin 0) /\
  (forall x, 0 < x -> P PInf (Fin x) = Fin 0 /\ Q PInf (Fin x) = Fin 1) /\ (P PInf PInf = NaN /\ Q PInf PInf = NaN) /\
  (forall x, x <> Fin 0 -> isinf x = false -> P NaN x = NaN /\ Q NaN x = NaN) /\ (forall a, 0 < a -> P (Fin a) NaN = NaN /\ Q (Fin a) NaN = NaN) /\
  (forall a x, 0 < a -> 0 < x -> exists p q, P (Fin a) (Fin x) = Fin p /\ Q (Fin a) (Fin x) = Fin q).
Proof.
  unfold P, Q.
  split. { intros a x [H|H]; unfold gammainc, gammaincc; rewrite H, ?orb_true_r, ?orb_true_l; split; reflexivity. }
  assert (T0 : forall r, 0 < r -> lt0 (Fin r) = false /\ eq0 (Fin r) = false /\ gt0 (Fin r) = true) by (intros r Hr; unfold lt0, eq0, gt0; destruct (Rlt_dec r 0); [lra|]; destruct (Req_EM_T r 0); [lra|]; destruct (Rlt_dec 0 r); [|lra]; split; [|split]; reflexivity).
  assert (Z0 : lt0 (Fin 0) = false /\ eq0 (Fin 0) = true /\ gt0 (Fin 0) = false) by (unfold lt0, eq0, gt0; destruct (Rlt_dec 0 0); [lra|]; destruct (Req_EM_T 0 0); [|lra]; split; [|split]; reflexivity).
  destruct Z0 as (Z1 & Z2 & Z3).
  split; [intros x Hx; destruct (T0 x Hx) as (X1 & X2 & X3); unfold gammainc, gammaincc; rewrite Z1, Z2, X1, X3; split; reflexivity|].
  split; [unfold gammainc, gammaincc; rewrite Z1, Z2; split; reflexivity|].
  split; [unfold gammainc, gammaincc; rewrite Z1, Z2, Z3; split; reflexivity|].
  split; [intros a Ha; destruct (T0 a Ha) as (X1 & X2 & X3); unfold gammainc, gammaincc; rewrite Z1, Z2, X1, X2; split; reflexivity|].
  split; [unfold gammainc, gammaincc; rewrite Z1, Z2; split; reflexivity|].
  split; [intros a Ha; destruct (T0 a Ha) as (X1 & X2 & X3); unfold gammainc, gammaincc; rewrite X1, X2; split; reflexivity|].
  split; [intros x Hx; destruct (T0 x Hx) as (X1 & X2 & X3); unfold gammainc, gammaincc; rewrite X1, X2; split; reflexivity|].
  split; [split; reflexivity|].
  split. { intros x Hx Hi. unfold gammainc, gammaincc. destruct (lt0 x) eqn:E1; [split; reflexivity|]. destruct (eq0 x) eqn:E2; [exfalso; destruct x as [r| | |]; try discriminate E2; unfold eq0 in E2; destruct (Req_EM_T r 0); [subst; apply Hx; reflexivity|discriminate E2]|]. cbn [orb lt0 eq0 isinf]. rewrite Hi. split; reflexivity. }
  split; [intros a Ha; destruct (T0 a Ha) as (X1 & X2 & X3); unfold gammainc, gammaincc; rewrite X1, X2; split; reflexivity|].
  intros a x Ha Hx. rewrite (fin_case true eps 2000 lgamma erfc dtab a x Ha Hx), (fin_case false eps 2000 lgamma erfc dtab a x Ha Hx). eexists. eexists. split; reflexivity.
Qed.
End C72.
