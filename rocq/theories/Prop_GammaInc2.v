(** C72: where the C++ incomplete gamma functions are wrong, and that the theorems are not vacuous *)
From Coq Require Import List Arith ZArith Lia Bool Reals Lra Psatz.
From Coquelicot Require Import Rcomplements.
From Verif Require Import EllipSpec Improper GammaSpec GammaInt GammaFun HyperExp GammaFnSpec GammaFnFacts GammaInc GammaIncSpec GammaIncFacts GammaIncCF GammaIncCF2 GammaIncFacts2 LanczosAcc LanczosAcc2 Prop_GammaInc.
Open Scope R_scope.
Lemma rpower_one a : Rpower 1 a = 1.
Proof. unfold Rpower. rewrite ln_1, Rmult_0_r. apply exp_0. Qed.
Lemma exp1_ub : exp 1 <= 2.75.
Proof.
  destruct (LanczosAcc.exp1_bounds 4) as [_ B]. cbn [LanczosAcc.et] in B. change (fact 5) with 120%nat in B. change (fact 4) with 24%nat in B. change (fact 3) with 6%nat in B. change (fact 2) with 2%nat in B. change (fact 1) with 1%nat in B.
  rewrite !pow1 in B. rewrite !INR_IZR_INZ in B. change (Z.of_nat 120) with 120%Z in B. change (Z.of_nat 24) with 24%Z in B. change (Z.of_nat 6) with 6%Z in B. change (Z.of_nat 2) with 2%Z in B. change (Z.of_nat 1) with 1%Z in B. lra.
Qed.
Lemma pow_step a b n m c : 0 <= a -> a <= b ^ n -> 0 <= c -> c <= a ^ m -> c <= b ^ (n * m).
Proof. intros Ha H Hc H2. rewrite pow_mult. apply (Rle_trans _ (a ^ m)); [exact H2|]. apply pow_incr. split; assumption. Qed.
Lemma p100 : 0.515 <= 0.9934 ^ 100.
Proof.
  assert (A1 : 0.96743 <= 0.9934 ^ 5) by lra. assert (A2 : 0.93592 <= 0.9934 ^ (5 * 2)) by (apply (pow_step 0.96743); lra). assert (A3 : 0.7181 <= 0.9934 ^ (10 * 5)) by (apply (pow_step 0.93592); [lra|exact A2|lra|lra]).
  change 100%nat with (50 * 2)%nat. apply (pow_step 0.7181); [lra|exact A3|lra|lra].
Qed.
Lemma p2001 : 1.1e-6 <= 0.9934 ^ 2001.
Proof.
  assert (B1 : 0.0362 <= 0.515 ^ 5) by lra. assert (B2 : 1.3e-3 <= 0.515 ^ (5 * 2)) by (apply (pow_step 0.0362); lra). assert (B3 : 1.6e-6 <= 0.515 ^ (10 * 2)) by (apply (pow_step 1.3e-3); [lra|exact B2|lra|lra]).
  assert (C : 1.6e-6 <= 0.9934 ^ (100 * 20)) by (apply (pow_step 0.515); [lra|exact p100|lra|exact B3]).
  replace 2001%nat with (S (100 * 20)) by lia. revert C. generalize (100 * 20)%nat. intros n C. rewrite <- tech_pow_Rmult. lra.
Qed.
(** ** Where the code is wrong *)
(** For a tiny positive [a] the prefactor underflows although it is divided by [a] afterwards: 0 is returned where the value is above 1/3. *)
Theorem C72_underflow_refuted eps lgamma erfc dtab : log_of_gamma lgamma ->
  exists a p, 0 < a /\ regularised_lower a 1 p /\ 1/3 < p /\ gammainc eps 2000 lgamma erfc dtab (Fin a) (Fin 1) = Fin 0.
Proof.
  intros LG. set (a := exp (-720)). assert (A0 : 0 < a) by apply exp_pos.
  assert (A9 : a <= 1e-9). { apply (Rle_trans _ (exp (- INR 60))); [left; apply exp_increasing; rewrite INR_IZR_INZ; change (Z.of_nat 60) with 60%Z; lra|]. apply (Rle_trans _ _ _ (exp_pow 60)). apply (Rle_trans _ (/ 1e9)); [|lra]. apply Rinv_le_contravar; [lra|]. apply (Rle_trans _ (2.7 ^ 30)); [lra|apply Rle_pow; [lra|lia]]. }
  exists a, (Lg a 1 / Gam a). split; [exact A0|]. split; [exists (Gam a), (Lg a 1); split; [apply Gam_ok, A0|split; [apply Lg_ok; lra|reflexivity]]|].
  pose proof (Gam_gt0 a A0) as G. pose proof (Gam_rec a A0) as GR. pose proof (Gam1_near a ltac:(rewrite Rabs_right; lra)) as GN. rewrite (Rabs_right a) in GN by lra. rewrite (Rplus_comm 1 a), GR in GN. apply Rabs_le_between in GN.
  assert (ED : DD0 a 1 = exp (-1)). { unfold DD0. rewrite rpower_one, Rmult_1_l. reflexivity. }
  assert (E1 : 0.35 <= exp (-1)). { replace (-1) with (- (1)) by lra. rewrite exp_Ropp. apply (Rmult_le_reg_r (exp 1)); [apply exp_pos|]. rewrite Rinv_l by (pose proof (exp_pos 1); lra). assert (exp 1 <= 2.75); [|lra]. apply exp1_ub. }
  split.
  - pose proof (series_enclosure a 1 0 A0 ltac:(lra) ltac:(cbn [INR]; lra)) as [L _]. cbn [ss] in L. rewrite ED in L. apply (Rmult_lt_reg_r (a * Gam a)); [apply Rmult_lt_0_compat; lra|]. replace (Lg a 1 / Gam a * (a * Gam a)) with (a * Lg a 1) by (field; lra). lra.
  - rewrite (fin_case true eps 2000 lgamma erfc dtab a 1 A0 ltac:(lra)), (not_transition a 1) by (intros [[? _]|[? _]]; lra). cbv zeta. destruct (Rlt_dec 1 1) as [C|_]; [lra|]. f_equal.
    unfold igam_series. cbv zeta. rewrite (fac_far lgamma a 1 A0 ltac:(lra) LG) by (rewrite Rabs_left; lra). destruct (Rlt_dec (DD0 a 1 / Gam a) (exp (- maxlog))) as [_|N]; [destruct (Req_EM_T 0 0); [reflexivity|congruence]|exfalso; apply N].
    rewrite ED. apply (Rmult_lt_reg_r (a * Gam a)); [apply Rmult_lt_0_compat; lra|]. replace (exp (-1) / Gam a * (a * Gam a)) with (exp (-1) * a) by (field; lra).
    assert (X1 : exp (-1) <= 1) by (apply (Rle_trans _ (exp 0)); [left; apply exp_increasing; lra|rewrite exp_0; lra]).
    assert (X2 : 2 * a <= exp (- maxlog)). { unfold a. replace (- maxlog) with (-720 + (720 - maxlog)) by ring. rewrite exp_plus, Rmult_comm. apply Rmult_le_compat_l; [left; apply exp_pos|]. pose proof (exp_ineq1_le (720 - maxlog)). unfold maxlog in *. lra. }
    pose proof (exp_pos (- maxlog)) as X3. assert (exp (-1) * a <= 1 * a) by (apply Rmult_le_compat_r; lra). assert (exp (- maxlog) * 0.9 <= exp (- maxlog) * (a * Gam a)) by (apply Rmult_le_compat_l; lra). lra.
Qed.

Lemma truncation_gen eps lgamma erfc dtab delta p : log_of_gamma lgamma -> 0 <= delta < 1 -> lanczos_accurate lanczos_sum_expg_scaled lanczos_g delta 1000000 ->
  regularised_lower 1000000 995400 p ->
  exists v theta, gammainc eps 2000 lgamma erfc dtab (Fin 1000000) (Fin 995400) = Fin v /\ Rabs theta <= delta /\ v * (1 + theta) * (1 + 5e-10) <= p.
Proof.
  intros LG Hd LA HP. set (a := 1000000) in *. set (x := 995400) in *. assert (A0 : 0 < a) by (unfold a; lra). assert (X0 : 0 < x) by (unfold x; lra). pose proof (Gam_gt0 a A0) as G. pose proof (DD0_pos a x) as D0.
  assert (AX : Rabs (a - x) = 4600) by (unfold a, x; rewrite Rabs_right; lra).
  destruct (fac_ok lgamma a x delta _ A0 X0 LG Hd (fun _ => LA) ltac:(rewrite AX; unfold a; intros; lra) eq_refl) as (th & [_ FE] & Ef & Pf).
  exists (igam_series eps 2000 lgamma a x), th. split; [|split; [exact FE|]].
  - rewrite (fin_case true eps 2000 lgamma erfc dtab a x A0 X0), (not_transition a x). { cbv zeta. unfold a, x. destruct (Rlt_dec 1 995400); [|lra]. destruct (Rlt_dec 1000000 995400); [lra|]. reflexivity. }
    intros [[[_ L] _]|[_ L]]; [unfold a in L; lra|]. assert (SQ : sqrt a = 1000) by (unfold a; replace 1000000 with (1000 * 1000) by lra; apply sqrt_square; lra). rewrite SQ, Rabs_minus_sym, AX in L. unfold a in L. lra.
  - rewrite (lower_Lg a x p A0 X0 HP). unfold igam_series. cbv zeta. destruct (Req_EM_T _ _) as [Z|_]; [lra|].
    destruct (sloop eps 2000 a x 0) as (n & Hn & En & _). cbn [INR ct ss] in En. rewrite Rplus_0_r in En. rewrite En.
    assert (MS : forall m k, ss a x m <= ss a x (m + k)). { intros m k. induction k as [|k IH]; [rewrite Nat.add_0_r; lra|]. rewrite Nat.add_succ_r. cbn [ss]. pose proof (ct_pos a x (S (m + k)) A0 X0). lra. }
    assert (M : ss a x n <= ss a x 2000) by (replace 2000%nat with (n + (2000 - n))%nat by lia; apply MS).
    assert (SB : forall m, ss a x m <= INR m + 1). { induction m as [|m IH]; [cbn; lra|]. cbn [ss]. rewrite S_INR. pose proof (ct_le1 a x (S m) A0 X0 ltac:(left; unfold a, x; lra)). lra. }
    assert (B2 : ss a x 2000 <= 2001) by (pose proof (SB 2000%nat) as B; rewrite (INR_IZR_INZ 2000) in B; change (Z.of_nat 2000) with 2000%Z in B; lra).
    assert (CB : forall m, (m <= 2001)%nat -> 0.9934 ^ m <= ct a x m). { induction m as [|m IH]; intros Hm; [cbn; lra|]. cbn [ct pow]. rewrite Rmult_comm. assert (Im : INR (S m) <= 2001) by (replace 2001 with (INR 2001) by (rewrite INR_IZR_INZ; reflexivity); apply le_INR; lia). pose proof (pos_INR (S m)) as Im0.
      apply Rmult_le_compat; [apply pow_le; lra|lra|apply IH; lia|]. apply (Rmult_le_reg_r (a + INR (S m))); [lra|]. unfold Rdiv. rewrite Rmult_assoc, Rinv_l by lra. unfold a, x in *. lra. }
    assert (C1 : 1.1e-6 <= ct a x 2001). { apply (Rle_trans _ (0.9934 ^ 2001)); [exact p2001|apply CB; lia]. }
    pose proof (series_enclosure a x 2001 A0 X0 ltac:(pose proof (pos_INR 2001); unfold a, x; lra)) as [L _]. change (ss a x 2001) with (ss a x 2000 + ct a x 2001) in L.
    apply (Rmult_le_reg_r (a * Gam a)); [apply Rmult_lt_0_compat; assumption|]. replace (Lg a x / Gam a * (a * Gam a)) with (a * Lg a x) by (field; lra).
    replace (ss a x n * igam_fac lgamma a x / a * (1 + th) * (1 + 5e-10) * (a * Gam a)) with (ss a x n * (igam_fac lgamma a x * (1 + th)) * (1 + 5e-10) * Gam a) by (field; lra). rewrite Ef.
    replace (ss a x n * (DD0 a x / Gam a) * (1 + 5e-10) * Gam a) with (DD0 a x * (ss a x n * (1 + 5e-10))) by (field; lra).
    apply (Rle_trans _ (DD0 a x * (ss a x 2000 + ct a x 2001))); [|lra]. apply Rmult_le_compat_l; lra.
Qed.
(** For large [a] the 2000 terms do not suffice: a relative error above 5e-10, however small [eps] is. *)
Theorem C72_truncation_refuted eps lgamma erfc dtab p : log_of_gamma lgamma -> regularised_lower 1000000 995400 p ->
  exists v, gammainc eps 2000 lgamma erfc dtab (Fin 1000000) (Fin 995400) = Fin v /\ v * (1 + 4e-10) <= p.
Proof.
  intros LG HP. destruct (truncation_gen eps lgamma erfc dtab (/ 10 ^ 14) p LG ltac:(lra) (lanczos_ok 1000000 ltac:(lra)) HP) as (v & th & E & T & B). exists v. split; [exact E|]. apply Rabs_le_between in T.
  assert (P0 : 0 <= p). { rewrite (lower_Lg 1000000 995400 p ltac:(lra) ltac:(lra) HP). apply Rmult_le_pos; [apply Lg_pos; lra|left; apply Rinv_0_lt_compat, Gam_pos; lra]. }
  destruct (Rle_lt_dec 0 v) as [V|V]; [|lra]. apply (Rle_trans _ (v * (1 + th) * (1 + 5e-10))); [|exact B]. rewrite Rmult_assoc. apply Rmult_le_compat_l; [exact V|]. lra.
Qed.

(** ** The hypotheses can be met *)
Definition lg_exact (a : R) : R := ln (Gam a).
Lemma lg_exact_ok : log_of_gamma lg_exact.
Proof. intros a g Ha Hg. unfold lg_exact. rewrite (euler_Gam a g Ha Hg). reflexivity. Qed.
Lemma Gam_one : Gam 1 = 1.
Proof. symmetry. apply (euler_Gam 1 1 ltac:(lra)). apply euler_one. Qed.
Lemma lower_ex a x : 0 < a -> 0 < x -> exists p, regularised_lower a x p.
Proof. intros Ha Hx. exists (Lg a x / Gam a), (Gam a), (Lg a x). split; [apply Gam_ok, Ha|split; [apply Lg_ok; assumption|reflexivity]]. Qed.
Lemma upper_ex a x : 0 < a -> 0 < x -> exists q, regularised_upper a x q.
Proof. intros Ha Hx. exists (Rpower x a * Jv 0 a x / Gam a), (Gam a), (Rpower x a * Jv 0 a x). split; [apply Gam_ok, Ha|split; [apply upper_exists; assumption|reflexivity]]. Qed.
Lemma fits_one x : 1/2 <= x <= 2 -> no_underflow 1 x.
Proof.
  intros Hx _. exists (DD0 1 x / Gam 1). split; [apply pref_ex; lra|]. rewrite Gam_one. unfold DD0, Rdiv. rewrite Rpower_1, Rinv_1, Rmult_1_r by lra. apply (Rle_trans _ (/ 2 * exp (- 2))).
  - rewrite <- (exp_ln (/ 2)) by lra. rewrite <- exp_plus. left. apply exp_increasing. rewrite ln_Rinv by lra. pose proof ln_lt_2. assert (ln 2 < 1); [|lra]. rewrite <- (ln_exp 1). apply ln_increasing; [lra|]. pose proof exp1_lb. lra.
  - apply Rmult_le_compat; [lra|left; apply exp_pos|lra|]. destruct (Req_dec x 2) as [->|N]; [right; f_equal; lra|left; apply exp_increasing; lra].
Qed.
Lemma small_no_transition a x : a <= 20 -> ~ near_transition a x.
Proof. intros H [[[L _] _]|[L _]]; lra. Qed.
Example C72_lower_far_ex : 0 < 1 <= 1900 /\ 0 < 1/2 /\ (1/2 <= 1 \/ 1/2 <= 1) /\ ~ near_transition 1 (1/2) /\ no_underflow 1 (1/2) /\ 0.4 * 1 < Rabs (1 - 1/2) /\ exists p, regularised_lower 1 (1/2) p.
Proof. split; [lra|]. split; [lra|]. split; [left; lra|]. split; [apply small_no_transition; lra|]. split; [apply fits_one; lra|]. split; [rewrite Rabs_right; lra|apply lower_ex; lra]. Qed.
Example C72_lower_lanczos_ex : exists v theta p, gammainc (/ 2 ^ 52) 2000 lg_exact (fun _ => 1) (fun _ _ => 0) (Fin 1) (Fin 1) = Fin v /\ regularised_lower 1 1 p /\ Rabs theta <= / 10 ^ 14 /\ 0 < v * (1 + theta) <= p.
Proof.
  destruct (lower_ex 1 1 ltac:(lra) ltac:(lra)) as (p & Hp). destruct (C72_lower (/ 2 ^ 52) lg_exact (fun _ => 1) (fun _ _ => 0) 1 1 p) as (v & th & E & [_ F] & B & _).
  - apply Rinv_le_contravar; [apply pow_lt; lra|apply Rle_pow; [lra|lia]].
  - apply lg_exact_ok.
  - lra.
  - lra.
  - left; lra.
  - apply small_no_transition; lra.
  - apply fits_one; lra.
  - exact Hp.
  - exists v, th, p. split; [exact E|]. split; [exact Hp|]. split; [exact F|exact B].
Qed.
Example C72_upper_fraction_ex : exists v q, gammaincc (/ 2 ^ 52) 2000 lg_exact (fun _ => 1) (fun _ _ => 0) (Fin 1) (Fin 2) = Fin v /\ regularised_upper 1 2 q /\ Rabs (v - q) <= / 2 ^ 52 * 1001 * Rmax v q.
Proof.
  destruct (upper_ex 1 2 ltac:(lra) ltac:(lra)) as (q & Hq). destruct (C72_upper_fraction (/ 2 ^ 52) lg_exact (fun _ => 1) (fun _ _ => 0) 1 2 q) as (v & th & E & _ & [T F] & P & B).
  - apply Rinv_le_contravar; [apply pow_lt; lra|apply Rle_pow; [lra|lia]].
  - apply lg_exact_ok.
  - lra.
  - lra.
  - lra.
  - apply small_no_transition; lra.
  - apply fits_one; lra.
  - exact Hq.
  - exists v, q. split; [exact E|]. split; [exact Hq|]. rewrite (T ltac:(rewrite Rabs_left; lra)) in B. rewrite Rplus_0_r, Rmult_1_r in B. replace (Rmax 1 (2002 / (2 + 1 - 1))) with 1001 in B; [exact B|]. rewrite Rmax_right; lra.
Qed.
Example C72_upper_complement_ex : 0 < 2 <= 1900 /\ 0 < 1 /\ (1.1 < 1 < 2 \/ 0.5 < 1 <= 1.1 /\ 1.1 * 1 < 2 \/ 1 <= 0.5 /\ 1 < exp (-0.4 / 2)) /\ ~ near_transition 2 1 /\ 0.4 * 2 < Rabs (2 - 1).
Proof. split; [lra|]. split; [lra|]. split; [right; left; lra|]. split; [apply small_no_transition; lra|rewrite Rabs_right; lra]. Qed.
Example C72_upper_small_ex : exists v q g, gammaincc (/ 2 ^ 52) 2000 lg_exact (fun _ => 1) (fun _ _ => 0) (Fin (1/2)) (Fin 1) = Fin v /\ regularised_upper (1/2) 1 q /\ euler_gamma (1/2) g /\ Rabs (v - q) <= / 2 ^ 52 * (1 / g).
Proof.
  destruct (upper_ex (1/2) 1 ltac:(lra) ltac:(lra)) as (q & Hq). destruct (C72_upper_small (/ 2 ^ 52) lg_exact (fun _ => 1) (fun _ _ => 0) (1/2) 1 q (Gam (1/2))) as (v & E & B).
  - apply Rinv_le_contravar; [apply pow_lt; lra|apply Rle_pow; [lra|lia]].
  - apply lg_exact_ok.
  - lra.
  - lra.
  - left; lra.
  - exact Hq.
  - apply Gam_ok; lra.
  - exists v, q, (Gam (1/2)). split; [exact E|]. split; [exact Hq|]. split; [apply Gam_ok; lra|]. rewrite rpower_one in B. exact B.
Qed.
Example C72_complement_ex : near_transition 100 100 /\ odd_about_one (fun _ => 1).
Proof. split; [left; split; [lra|]; replace (100 - 100) with 0 by ring; rewrite Rabs_R0; lra|intros t; lra]. Qed.
