(** Facts for the incomplete gamma functions: the prefactor and the three evaluations *)
From Coq Require Import List Arith ZArith Lia Bool Reals Lra Psatz.
From Coquelicot Require Import Rcomplements Hierarchy Continuity Derive ElemFct AutoDerive RInt Lim_seq Rbar.
From Verif Require Import EllipSpec Improper ImproperLim GammaSpec GammaInt GammaFun HyperFacts HyperExp Stirling Stirling2 GammaFnSpec GammaFnFacts GammaInc GammaIncSpec GammaIncFacts GammaIncCF.
Import ListNotations.
Open Scope R_scope.

Definition maxlog : R := 7.09782712893383996843e2.
Definition lanczos_gamma (a : R) : R := lanczos_sum_expg_scaled a * Rpower ((a + lanczos_g - 0.5) / exp 1) (a - 0.5).

Lemma Gam_gt0 a : 0 < a -> 0 < Gam a.
Proof. intros H. apply Gam_pos, H. Qed.
Lemma horner_pos x c l : 0 < x -> 0 < c -> List.Forall (fun e => 0 <= e) l -> 0 < fold_left (fun s e => e + x * s) l c.
Proof.
  intros Hx. revert c. induction l as [|e l IH]; intros c Hc F; cbn; [exact Hc|]. inversion F as [|? ? He Hl]; subst. apply IH; [|exact Hl]. assert (0 < x * c) by (apply Rmult_lt_0_compat; assumption). lra.
Qed.
Lemma lanczos_pos x : 0 < x -> 0 < lanczos_sum_expg_scaled x.
Proof. intros H. unfold lanczos_sum_expg_scaled, horner. apply Rdiv_lt_0_compat; apply horner_pos; try lra; repeat constructor; lra. Qed.
(** ** The prefactor *)
Lemma fac_far lgamma a x : 0 < a -> 0 < x -> log_of_gamma lgamma -> 0.4 * a < Rabs (a - x) ->
  igam_fac lgamma a x = if Rlt_dec (DD0 a x / Gam a) (exp (- maxlog)) then 0 else DD0 a x / Gam a.
Proof.
  intros Ha Hx LG F. unfold igam_fac. rewrite (Rabs_right a) by lra. destruct (Rlt_dec _ _) as [_|N]; [|contradiction]. cbv zeta. rewrite (LG a (Gam a) Ha (Gam_ok a Ha)).
  assert (E : exp (a * ln x - x - ln (Gam a)) = DD0 a x / Gam a). { unfold DD0, Rpower, Rdiv. replace (a * ln x - x - ln (Gam a)) with (a * ln x + - x + - ln (Gam a)) by ring. rewrite !exp_plus, exp_Ropp with (x := ln (Gam a)), exp_ln by (apply Gam_gt0, Ha). reflexivity. }
  rewrite E. replace (-7.09782712893383996843e2) with (- maxlog) by (unfold maxlog; lra). destruct (Rlt_dec (a * ln x - x - ln (Gam a)) (- maxlog)) as [L|L]; destruct (Rlt_dec (DD0 a x / Gam a) (exp (- maxlog))) as [L'|L']; try reflexivity; exfalso.
  - apply L'. rewrite <- E. apply exp_increasing, L.
  - apply L. rewrite <- E in L'. apply exp_lt_inv, L'.
Qed.
Lemma fac_near lgamma a x : 0 < a -> 0 < x -> Rabs (a - x) <= 0.4 * a -> igam_fac lgamma a x = DD0 a x / lanczos_gamma a.
Proof.
  intros Ha Hx F. unfold igam_fac. rewrite (Rabs_right a) by lra. destruct (Rlt_dec _ _) as [N|_]; [lra|]. cbv zeta. set (fac := a + lanczos_g - 0.5). assert (Hf : 0 < fac) by (unfold fac, lanczos_g; lra).
  assert (E2 : exp (a * log1pmx ((x - a - lanczos_g + 0.5) / fac) + x * (0.5 - lanczos_g) / fac) = exp (a - x) * Rpower (x / fac) a).
  { unfold log1pmx. replace (1 + (x - a - lanczos_g + 0.5) / fac) with (x / fac) by (unfold fac in *; field; lra). unfold Rpower. rewrite <- exp_plus. f_equal. unfold fac in *. field. lra. }
  assert (E3 : sqrt (fac / exp 1) / lanczos_sum_expg_scaled a * (exp (a - x) * Rpower (x / fac) a) = DD0 a x / lanczos_gamma a).
  { unfold lanczos_gamma, DD0. fold fac. pose proof (lanczos_pos a Ha). pose proof (exp_pos 1). assert (He : 0 < fac / exp 1) by (apply Rdiv_lt_0_compat; assumption). pose proof (Rpower_pos (fac / exp 1) (a - 0.5)).
    assert (T : sqrt (fac / exp 1) * Rpower (x / fac) a * exp (a - x) * Rpower (fac / exp 1) (a - 0.5) = Rpower x a * exp (- x)).
    { rewrite <- Rpower_sqrt by exact He. replace (Rpower (fac / exp 1) (/ 2) * Rpower (x / fac) a * exp (a - x) * Rpower (fac / exp 1) (a - 0.5)) with (Rpower (fac / exp 1) (/ 2) * Rpower (fac / exp 1) (a - 0.5) * (Rpower (x / fac) a * exp (a - x))) by ring. rewrite <- Rpower_plus. replace (/ 2 + (a - 0.5)) with a by lra.
      unfold Rpower, Rdiv. rewrite !ln_mult, !ln_Rinv, ln_exp; try assumption; try (apply Rinv_0_lt_compat; assumption). rewrite <- !exp_plus. f_equal. ring. }
    rewrite <- T. field. lra. }
  destruct (Rlt_dec a 200); [destruct (Rlt_dec x 200)|]; rewrite ?E2; exact E3.
Qed.

(** the prefactor as computed, with the relative error it carries *)
Notation fac_error := prefactor_error.
Lemma fac_ok lgamma a x delta D : 0 < a -> 0 < x -> log_of_gamma lgamma -> 0 <= delta < 1 -> (Rabs (a - x) <= 0.4 * a -> lanczos_accurate lanczos_sum_expg_scaled lanczos_g delta a) ->
  (0.4 * a < Rabs (a - x) -> exp (- maxlog) <= DD0 a x / Gam a) -> D = DD0 a x / Gam a ->
  exists theta, fac_error a x delta theta /\ igam_fac lgamma a x * (1 + theta) = D /\ 0 < igam_fac lgamma a x.
Proof.
  intros Ha Hx LG Hd LA Un ED. pose proof (Gam_gt0 a Ha) as G. pose proof (DD0_pos a x) as D0. destruct (Rlt_dec (0.4 * a) (Rabs (a - x))) as [F|F].
  - exists 0. rewrite (fac_far lgamma a x Ha Hx LG F). specialize (Un F). destruct (Rlt_dec _ _); [lra|]. split; [split; [reflexivity|rewrite Rabs_R0; lra]|]. rewrite ED. split; [ring|apply Rdiv_lt_0_compat; assumption].
  - rewrite (fac_near lgamma a x Ha Hx) by lra. specialize (LA ltac:(lra) (Gam a) (Gam_ok a Ha)). fold (lanczos_gamma a) in LA. exists (lanczos_gamma a / Gam a - 1).
    assert (L : 0 < lanczos_gamma a) by (unfold lanczos_gamma; apply Rmult_lt_0_compat; [apply lanczos_pos, Ha|apply Rpower_pos]).
    split; [split; [intros C; contradiction|]|split; [rewrite ED; field; lra|apply Rdiv_lt_0_compat; assumption]].
    replace (lanczos_gamma a / Gam a - 1) with ((lanczos_gamma a - Gam a) / Gam a) by (field; lra). unfold Rdiv. rewrite Rabs_mult, (Rabs_right (/ Gam a)) by (left; apply Rinv_0_lt_compat, G). apply (Rmult_le_reg_r (Gam a)); [exact G|]. rewrite Rmult_assoc, Rinv_l by lra. lra.
Qed.

(** ** The power series *)
Lemma ct_stop a x : 0 < a <= 1900 -> 0 < x -> (x <= a \/ x <= 1) -> exists n, (n <= 2000)%nat /\ ct a x n <= / 2 ^ 60.
Proof.
  intros Ha Hx H. assert (E : exists m, (m <= 1901)%nat /\ a <= INR m). { exists (Z.to_nat (up a)). destruct (archimed a) as [U1 U2]. assert (Z1 : (0 < up a)%Z) by (apply lt_IZR; lra). assert (Z2 : (up a <= 1901)%Z) by (apply le_IZR; lra). split; [lia|]. rewrite INR_IZR_INZ, Z2Nat.id by lia. lra. }
  destruct E as (m & Hm & Em). exists (m + 60)%nat. split; [lia|].
  assert (Q : ct a x (m + 60) <= ct a x m / 2 ^ 60). { apply ct_half; try lra. intros k Hk. assert (INR m + 1 <= INR k) by (rewrite <- S_INR; apply le_INR; lia). destruct H; [lra|]. assert (1 <= INR m) by (destruct m as [|m]; [cbn [INR] in *; lra|apply (le_INR 1); lia]). lra. }
  pose proof (ct_le1 a x m ltac:(lra) Hx H) as L. apply (Rle_trans _ _ _ Q). unfold Rdiv. rewrite <- (Rmult_1_l (/ 2 ^ 60)) at 2. apply Rmult_le_compat_r; [left; apply Rinv_0_lt_compat, pow_lt; lra|exact L].
Qed.

Lemma sloop_stops eps fuel a x k j : 0 < a -> 0 < x -> 0 < eps -> (k < j <= k + fuel)%nat -> ct a x j <= eps ->
  exists n, (k < n <= k + fuel)%nat /\ series_loop eps fuel x (a + INR k) (ct a x k) (ss a x k) = ss a x n /\ ct a x n <= eps * ss a x n.
Proof.
  intros Ha Hx He. revert k. induction fuel as [|fuel IH]; intros k Hj C; [lia|]. cbn [series_loop].
  replace (a + INR k + 1) with (a + INR (S k)) by (rewrite S_INR; ring). change (ct a x k * (x / (a + INR (S k)))) with (ct a x (S k)). change (ss a x k + ct a x (S k)) with (ss a x (S k)).
  destruct (Rle_dec _ _) as [L|L]; [exists (S k); split; [lia|split; [reflexivity|exact L]]|].
  destruct (Nat.eq_dec j (S k)) as [->|Nj]; [exfalso; apply L; apply (Rle_trans _ (eps * 1)); [lra|apply Rmult_le_compat_l; [lra|apply ss_pos; assumption]]|].
  destruct (IH (S k) ltac:(lia) C) as (n & B & E & T). exists n. split; [lia|split; assumption].
Qed.
(** the remainder in units of the sum *)
Lemma series_rel eps a x n : 0 < a -> 0 < x -> (x <= a \/ x <= 1) -> (1 <= n)%nat -> 0 <= eps -> ct a x n <= eps * ss a x n -> 0 <= a * Lg a x - DD0 a x * ss a x n <= eps * Rmax 1 (a / 2) * (DD0 a x * ss a x n).
Proof.
  intros Ha Hx H Hn He T. assert (N1 : 1 <= INR n) by (apply (le_INR 1); lia). pose proof (series_enclosure a x n Ha Hx ltac:(destruct H; lra)) as [L U]. split; [exact L|]. pose proof (DD0_pos a x) as D. pose proof (ct_pos a x n Ha Hx) as C. pose proof (ss_pos a x n Ha Hx) as S1.
  assert (B : x / (a + INR n + 1 - x) <= Rmax 1 (a / 2)). { assert (P : 0 < a + INR n + 1 - x) by (destruct H; lra). destruct H as [H|H]; [apply (Rle_trans _ (a / 2)); [|apply Rmax_r]|apply (Rle_trans _ 1); [|apply Rmax_l]]; apply (Rmult_le_reg_r (a + INR n + 1 - x)); try lra; unfold Rdiv; rewrite Rmult_assoc, Rinv_l by lra; nra. }
  apply (Rle_trans _ _ _ U). assert (0 < DD0 a x * ct a x n) by (apply Rmult_lt_0_compat; lra). apply (Rle_trans _ (DD0 a x * ct a x n * Rmax 1 (a / 2))); [apply Rmult_le_compat_l; lra|].
  pose proof (Rmax_l 1 (a / 2)). replace (eps * Rmax 1 (a / 2) * (DD0 a x * ss a x n)) with (DD0 a x * (eps * ss a x n) * Rmax 1 (a / 2)) by ring. apply Rmult_le_compat_r; [lra|]. apply Rmult_le_compat_l; lra.
Qed.
Lemma lower_Lg a x p : 0 < a -> 0 < x -> regularised_lower a x p -> p = Lg a x / Gam a.
Proof. intros Ha Hx (g & l & Eg & El & ->). rewrite (euler_Gam a g Ha Eg), (to_unique _ _ _ _ El (Lg_ok a x Ha Hx)). reflexivity. Qed.
Lemma upper_Lg a x q : 0 < a -> 0 < x -> regularised_upper a x q -> q = 1 - Lg a x / Gam a /\ q = DD0 a x / Gam a * Vv a x.
Proof.
  intros Ha Hx (g & u & Eg & Eu & ->). pose proof (Gam_gt0 a Ha). rewrite (euler_Gam a g Ha Eg), (from_unique _ _ _ _ Eu (upper_exists a x Hx)). split; [unfold Lg; field; lra|]. unfold DD0, Vv. assert (E : exp (- x) * exp x = 1) by (rewrite <- exp_plus; replace (- x + x) with 0 by ring; apply exp_0).
  replace (Rpower x a * exp (- x) / Gam a * (exp x * Jv 0 a x)) with (Rpower x a * (exp (- x) * exp x) * Jv 0 a x / Gam a) by (field; lra). rewrite E. field. lra.
Qed.
Lemma pref_DD0 a x d : 0 < a -> prefactor a x d -> d = DD0 a x / Gam a.
Proof. intros Ha (g & Eg & ->). rewrite (euler_Gam a g Ha Eg). reflexivity. Qed.

Lemma series_main eps lgamma a x delta p d : 0 < a <= 1900 -> 0 < x -> (x <= a \/ x <= 1) -> / 2 ^ 60 <= eps -> log_of_gamma lgamma -> 0 <= delta < 1 -> (Rabs (a - x) <= 0.4 * a -> lanczos_accurate lanczos_sum_expg_scaled lanczos_g delta a) ->
  regularised_lower a x p -> prefactor a x d -> (0.4 * a < Rabs (a - x) -> exp (- maxlog) <= d) ->
  exists theta, fac_error a x delta theta /\ let v := igam_series eps 2000 lgamma a x * (1 + theta) in 0 < v /\ v <= p <= v * (1 + eps * Rmax 1 (a / 2)).
Proof.
  intros Ha Hx H He LG Hd LA HP Hpr Un. rewrite (lower_Lg a x p ltac:(lra) Hx HP). pose proof (pref_DD0 a x d ltac:(lra) Hpr) as ED. rewrite ED in Un. pose proof (Gam_gt0 a ltac:(lra)) as G.
  destruct (fac_ok lgamma a x delta d ltac:(lra) Hx LG Hd LA Un ED) as (th & FE & Ef & Pf). exists th. split; [exact FE|]. intros v.
  assert (He0 : 0 < eps) by (eapply Rlt_le_trans; [|exact He]; apply Rinv_0_lt_compat, pow_lt; lra).
  destruct (ct_stop a x Ha Hx H) as (j & Hj & Cj). assert (J1 : exists j, (0 < j <= 0 + 2000)%nat /\ ct a x j <= eps). { destruct j as [|j]; [cbn [ct] in Cj; exfalso; assert (/ 2 ^ 60 < 1) by (rewrite <- Rinv_1; apply Rinv_lt_contravar; [|apply Rlt_pow_R1; [lra|lia]]; rewrite Rmult_1_l; apply pow_lt; lra); lra|exists (S j); split; [lia|lra]]. }
  destruct J1 as (j1 & Hj1 & Cj1). destruct (sloop_stops eps 2000 a x 0 j1 ltac:(lra) Hx He0 Hj1 Cj1) as (n & Bn & En & Tn). cbn [INR ct ss] in En. rewrite Rplus_0_r in En.
  destruct (series_rel eps a x n ltac:(lra) Hx H ltac:(lia) ltac:(lra) Tn) as [L U].
  assert (Ev : v * (a * Gam a) = DD0 a x * ss a x n). { unfold v, igam_series. destruct (Req_EM_T _ _) as [Z|_]; [lra|]. rewrite En. replace (ss a x n * igam_fac lgamma a x / a * (1 + th) * (a * Gam a)) with (ss a x n * (igam_fac lgamma a x * (1 + th)) * Gam a) by (field; lra). rewrite Ef, ED. field. lra. }
  assert (AG : 0 < a * Gam a) by (apply Rmult_lt_0_compat; lra). pose proof (ss_pos a x n ltac:(lra) Hx) as S1. pose proof (DD0_pos a x) as D0.
  split; [apply (Rmult_lt_reg_r (a * Gam a)); [exact AG|]; rewrite Rmult_0_l, Ev; apply Rmult_lt_0_compat; lra|].
  assert (EL : Lg a x / Gam a * (a * Gam a) = a * Lg a x) by (field; lra).
  split; apply (Rmult_le_reg_r (a * Gam a)); try exact AG; rewrite EL; [rewrite Ev; lra|]. replace (v * (1 + eps * Rmax 1 (a / 2)) * (a * Gam a)) with (v * (a * Gam a) * (1 + eps * Rmax 1 (a / 2))) by ring. rewrite Ev. lra.
Qed.

(** ** The alternating series *)
Definition ut (a x : R) (n : nat) : R := x ^ n / INR (fact n) / (a + INR n).
Fixpoint alt (a x : R) (m len : nat) : R := match len with O => 0 | S l => ut a x m - alt a x (S m) l end.
Lemma ut_pos a x n : 0 < a -> 0 < x -> 0 < ut a x n.
Proof. intros Ha Hx. unfold ut. pose proof (pos_INR n). apply Rdiv_lt_0_compat; [apply Rdiv_lt_0_compat; [apply pow_lt, Hx|apply INR_fact_lt_0]|lra]. Qed.
Lemma ut_step a x n : 0 < a -> 0 < x -> ut a x (S n) <= ut a x n * (x / INR (S n)).
Proof.
  intros Ha Hx. pose proof (ut_pos a x n Ha Hx) as P. unfold ut in *. rewrite fact_simpl, mult_INR. cbn [pow]. pose proof (pos_INR n). assert (0 < INR (S n)) by (apply lt_0_INR; lia). pose proof (INR_fact_lt_0 n) as F.
  replace (x * x ^ n / (INR (S n) * INR (fact n)) / (a + INR (S n))) with (x ^ n / INR (fact n) * (x / INR (S n)) * / (a + INR (S n))) by (field; repeat split; lra).
  replace (x ^ n / INR (fact n) / (a + INR n) * (x / INR (S n))) with (x ^ n / INR (fact n) * (x / INR (S n)) * / (a + INR n)) by (field; repeat split; lra).
  apply Rmult_le_compat_l; [apply Rmult_le_pos; left; [apply Rdiv_lt_0_compat; [apply pow_lt, Hx|exact F]|apply Rdiv_lt_0_compat; assumption]|]. apply Rinv_le_contravar; [lra|rewrite S_INR; lra].
Qed.
Lemma ut_dec a x n : 0 < a -> 0 < x <= 1.1 -> (1 <= n)%nat -> ut a x (S n) <= 0.55 * ut a x n.
Proof.
  intros Ha Hx Hn. apply (Rle_trans _ _ _ (ut_step a x n Ha ltac:(lra))). pose proof (ut_pos a x n Ha ltac:(lra)). rewrite Rmult_comm. apply Rmult_le_compat_r; [lra|]. assert (2 <= INR (S n)) by (apply (le_INR 2); lia). apply (Rmult_le_reg_r (INR (S n))); [lra|]. unfold Rdiv. rewrite Rmult_assoc, Rinv_l by lra. lra.
Qed.
Lemma alt_between a x m len : 0 < a -> 0 < x <= 1.1 -> (1 <= m)%nat -> 0 <= alt a x m len <= ut a x m.
Proof.
  intros Ha Hx. revert m. induction len as [|l IH]; intros m Hm; cbn [alt]; [pose proof (ut_pos a x m Ha ltac:(lra)); lra|]. specialize (IH (S m) ltac:(lia)). pose proof (ut_dec a x m Ha Hx Hm). pose proof (ut_pos a x m Ha ltac:(lra)). lra.
Qed.
Lemma cfac_abs x n : 0 < x -> Rabs (cfac x n) = x ^ n / INR (fact n).
Proof. intros Hx. unfold cfac, Rdiv. rewrite Rabs_mult, <- RPow_abs, Rabs_Ropp, (Rabs_right x), (Rabs_right (/ _)) by (try lra; left; apply Rinv_0_lt_compat, INR_fact_lt_0). reflexivity. Qed.
Lemma cfac_sign x n : cfac x n = (-1) ^ n * (x ^ n / INR (fact n)).
Proof. unfold cfac. replace (- x) with (-1 * x) by ring. rewrite Rpow_mult_distr. field. apply INR_fact_neq_0. Qed.
Lemma alt_snoc a x m len : alt a x m (S len) = alt a x m len + (-1) ^ len * ut a x (m + len).
Proof.
  revert m. induction len as [|l IH]; intros m; [cbn; rewrite Nat.add_0_r; ring|]. change (alt a x m (S (S l))) with (ut a x m - alt a x (S m) (S l)). rewrite IH. change (alt a x m (S l)) with (ut a x m - alt a x (S m) l). cbn [pow]. replace (m + S l)%nat with (S m + l)%nat by lia. ring.
Qed.
Lemma csum_alt a x n : csum a x n = - alt a x 1 n.
Proof. induction n as [|n IH]; [cbn; ring|]. rewrite alt_snoc. cbn [csum]. rewrite IH, cfac_sign. unfold ut. cbn [pow Nat.add]. unfold Rdiv. ring. Qed.
Lemma csum_bounds a x n : 0 < a -> 0 < x <= 1.1 -> (1 <= n)%nat -> 0.45 * ut a x 1 <= Rabs (csum a x n) <= ut a x 1.
Proof.
  intros Ha Hx Hn. rewrite csum_alt, Rabs_Ropp. pose proof (alt_between a x 1 n Ha Hx ltac:(lia)) as [L U]. rewrite Rabs_right by lra. split; [|exact U]. destruct n as [|n]; [lia|]. cbn [alt]. pose proof (alt_between a x 2 n Ha Hx ltac:(lia)). pose proof (ut_dec a x 1 Ha Hx ltac:(lia)). lra.
Qed.
Lemma ut_geo a x n : 0 < a -> 0 < x <= 1.1 -> ut a x (S n) <= 0.55 ^ n * ut a x 1.
Proof. intros Ha Hx. induction n as [|n IH]; [cbn [pow]; lra|]. pose proof (ut_dec a x (S n) Ha Hx ltac:(lia)). cbn [pow]. lra. Qed.
Lemma cloop_stops eps fuel a x k j : 0 < a -> 0 < x <= 1.1 -> (k < j <= k + fuel)%nat -> 0.55 ^ (pred j) <= 0.45 * eps ->
  exists n, (k < n <= k + fuel)%nat /\ cseries_loop eps fuel a x (INR (S k)) (cfac x k) (csum a x k) = csum a x n /\ ut a x n <= eps * Rabs (csum a x n).
Proof.
  intros Ha Hx. revert k. induction fuel as [|fuel IH]; intros k Hj C; [lia|]. cbn [cseries_loop]. rewrite <- cfac_S.
  change (csum a x k + cfac x (S k) / (a + INR (S k))) with (csum a x (S k)). assert (EU : Rabs (cfac x (S k) / (a + INR (S k))) = ut a x (S k)). { unfold Rdiv at 1. rewrite Rabs_mult, (cfac_abs x (S k)) by lra. pose proof (pos_INR (S k)). rewrite (Rabs_right (/ (a + INR (S k)))) by (left; apply Rinv_0_lt_compat; lra). reflexivity. }
  rewrite EU. destruct (Rle_dec _ _) as [L|L]; [exists (S k); split; [lia|split; [reflexivity|exact L]]|].
  replace (INR (S k) + 1) with (INR (S (S k))) by (rewrite (S_INR (S k)); reflexivity).
  destruct (Nat.eq_dec j (S k)) as [->|Nj].
  - exfalso. apply L. cbn [pred] in C. pose proof (csum_bounds a x (S k) Ha Hx ltac:(lia)) as [B _]. pose proof (ut_geo a x k Ha Hx) as G. pose proof (ut_pos a x 1 Ha ltac:(lra)) as U1. assert (0 <= 0.55 ^ k) by (apply pow_le; lra). assert (0 <= eps) by lra.
    apply (Rle_trans _ _ _ G). apply (Rle_trans _ (0.45 * eps * ut a x 1)); [apply Rmult_le_compat_r; lra|]. replace (0.45 * eps * ut a x 1) with (eps * (0.45 * ut a x 1)) by ring. apply Rmult_le_compat_l; assumption.
  - destruct (IH (S k) ltac:(lia) C) as (n & B & E & T). exists n. split; [lia|split; assumption].
Qed.
Lemma pow55 : 0.55 ^ 80 <= 0.45 * / 2 ^ 60.
Proof. replace 0.55 with (55 / 100) by lra. unfold Rdiv. rewrite Rpow_mult_distr, <- Rinv_pow by lra. apply (Rmult_le_reg_r (100 ^ 80 * 2 ^ 60)); [apply Rmult_lt_0_compat; apply pow_lt; lra|].
  replace (55 ^ 80 * / 100 ^ 80 * (100 ^ 80 * 2 ^ 60)) with (55 ^ 80 * 2 ^ 60) by (field; apply pow_nonzero; lra). replace (0.45 * / 2 ^ 60 * (100 ^ 80 * 2 ^ 60)) with (0.45 * 100 ^ 80) by (field; apply pow_nonzero; lra). lra. Qed.
Lemma cseries_main eps lgamma a x q g : 0 < a -> 0 < x <= 1.1 -> / 2 ^ 60 <= eps -> log_of_gamma lgamma -> regularised_upper a x q -> euler_gamma a g ->
  Rabs (igamc_series eps 2000 lgamma a x - q) <= eps * (Rpower x a / g) * 0.65.
Proof.
  intros Ha Hx He LG HQ Eg. destruct (upper_Lg a x q Ha ltac:(lra) HQ) as [-> _]. rewrite (euler_Gam a g Ha Eg). clear g Eg. pose proof (Gam_gt0 a Ha) as G. assert (Ha1 : 0 < 1 + a) by lra.
  assert (He0 : 0 < eps) by (eapply Rlt_le_trans; [|exact He]; apply Rinv_0_lt_compat, pow_lt; lra).
  destruct (cloop_stops eps (2000 - 1) a x 0 81 Ha Hx ltac:(lia)) as (n & Bn & En & Tn). { cbn [pred]. pose proof pow55. lra. }
  unfold igamc_series. cbv zeta. replace (cfac x 0) with 1 in En by (unfold cfac; cbn; lra). cbn [csum INR] in En. rewrite En. rewrite (LG a (Gam a) Ha (Gam_ok a Ha)), (LG (1 + a) (Gam (1 + a)) Ha1 (Gam_ok _ Ha1)).
  assert (E1 : forall b, 0 < b -> exp (a * ln x - ln (Gam b)) = Rpower x a / Gam b). { intros b Hb. unfold Rpower, Rdiv, Rminus. rewrite exp_plus, exp_Ropp, exp_ln by (apply Gam_gt0, Hb). reflexivity. }
  rewrite !E1 by lra. replace (1 + a) with (a + 1) by ring. rewrite (Gam_rec a Ha).
  replace (- (Rpower x a / (a * Gam a) - 1) - Rpower x a / Gam a * csum a x n - (1 - Lg a x / Gam a)) with ((Lg a x - psum (lt_ a x) n) / Gam a) by (rewrite (psum_csum a x n Ha) by lra; field; lra).
  pose proof (lower_series a n x (Lg a x) Ha ltac:(lra) (Lg_ok a x Ha ltac:(lra))) as B. unfold Rdiv at 1. rewrite Rabs_mult, (Rabs_right (/ Gam a)) by (left; apply Rinv_0_lt_compat, G).
  replace (Rpower x (a + INR (S n)) / (INR (fact (S n)) * (a + INR (S n)))) with (Rpower x a * ut a x (S n)) in B. 2: { unfold ut. rewrite Rpower_plus, Rpower_pow by lra. pose proof (pos_INR (S n)). field. split; [lra|apply INR_fact_neq_0]. }
  assert (Hn : (1 <= n)%nat) by lia. pose proof (ut_dec a x n Ha Hx Hn) as U. pose proof (csum_bounds a x n Ha Hx Hn) as [_ CB].
  assert (U1 : ut a x 1 <= 1.1). { unfold ut. cbn [pow fact INR Nat.mul Nat.add]. apply (Rmult_le_reg_r (a + 1)); [lra|]. unfold Rdiv. rewrite Rinv_1, !Rmult_1_r, Rmult_assoc, Rinv_l by lra. nra. }
  assert (F : ut a x (S n) <= eps * 0.65). { apply (Rle_trans _ _ _ U). assert (eps * Rabs (csum a x n) <= eps * 1.1) by (apply Rmult_le_compat_l; lra). lra. }
  pose proof (Rpower_pos x a) as PX. apply (Rle_trans _ (Rpower x a * (eps * 0.65) * / Gam a)); [|right; unfold Rdiv; ring]. apply Rmult_le_compat_r; [left; apply Rinv_0_lt_compat, G|]. apply (Rle_trans _ _ _ B). apply Rmult_le_compat_l; lra.
Qed.

(** ** The continued fraction *)
Lemma cf_main eps lgamma a x delta q d : 0 < a <= x -> 1 < x -> 0 < eps -> log_of_gamma lgamma -> 0 <= delta < 1 -> (Rabs (a - x) <= 0.4 * a -> lanczos_accurate lanczos_sum_expg_scaled lanczos_g delta a) ->
  regularised_upper a x q -> prefactor a x d -> (0.4 * a < Rabs (a - x) -> exp (- maxlog) <= d) ->
  exists theta n, fac_error a x delta theta /\ (0 < n <= 2001)%nat /\ igamc_continued_fraction eps 2000 lgamma a x * (1 + theta) = d * rn a x n /\ 0 < rn a x n /\ q = d * Vv a x /\ 0 < d /\
    (n = 2001%nat \/ Rabs (rn a x n - Vv a x) <= eps * Rmax 1 (2002 / (x + a - 1)) * rn a x n).
Proof.
  intros H Hx He LG Hd LA HQ Hpr Un. destruct (upper_Lg a x q ltac:(lra) ltac:(lra) HQ) as [_ EQ]. pose proof (pref_DD0 a x d ltac:(lra) Hpr) as ED. rewrite ED in Un. pose proof (Gam_gt0 a ltac:(lra)) as G.
  destruct (fac_ok lgamma a x delta d ltac:(lra) ltac:(lra) LG Hd LA Un ED) as (th & FE & Ef & Pf).
  destruct (cfloop eps 2000 a x 0 1 H ltac:(lra) ltac:(lra)) as (n & Bn & En & Tn). exists th, n. split; [exact FE|]. split; [lia|].
  assert (Pr : 0 < rn a x n). { apply Rdiv_lt_0_compat; [apply (Pn_grow a x n H ltac:(lra))|apply (Qn_grow a x n H)]. }
  assert (Pd : 0 < d) by (rewrite ED; apply Rdiv_lt_0_compat; [apply DD0_pos|exact G]).
  split; [|split; [exact Pr|split; [rewrite ED; exact EQ|split; [exact Pd|]]]].
  - unfold igamc_continued_fraction. cbv zeta. destruct (Req_EM_T _ _) as [Z|_]; [lra|]. unfold Pn, Qn, rn in En. rewrite !cfs_S in En. cbn [cfs fst snd INR] in En. rewrite !Rmult_1_r, Rmult_0_r, !Rplus_0_r in En.
    replace (x + (1 - a) + 1) with (x + 2 - a) by ring. unfold rn, Pn, Qn in En. rewrite !cfs_S in En. cbn [cfs fst snd] in En. rewrite En. fold (Pn a x n) (Qn a x n) (rn a x n). rewrite Rmult_assoc, Ef. ring.
  - destruct Tn as [Tn|[Tn1 Tn2]]; [left; lia|right]. destruct n as [|[|k]]; [lia|lia|]. cbn [pred] in Tn2. rewrite (rn_en a x (S (S k)) H). apply (Rle_trans _ _ _ (en_bound a x k H Hx)).
    assert (M : Rmax 1 (INR (k + 3) / (x + a - 1)) <= Rmax 1 (2002 / (x + a - 1))). { apply Rle_max_compat_l. unfold Rdiv. apply Rmult_le_compat_r; [left; apply Rinv_0_lt_compat; lra|]. replace 2002 with (INR 2002) by (rewrite INR_IZR_INZ; reflexivity). apply le_INR. lia. }
    pose proof (Rmax_l 1 (INR (k + 3) / (x + a - 1))) as M1. rewrite (Rabs_minus_sym (rn a x (S (S k)))). replace (eps * Rmax 1 (2002 / (x + a - 1)) * rn a x (S (S k))) with (Rmax 1 (2002 / (x + a - 1)) * (eps * rn a x (S (S k)))) by ring. apply Rmult_le_compat; [lra|apply Rabs_pos|exact M|exact Tn2].
Qed.
