(** Facts about the loops of [loggamma] and [gamma] and about the continued gamma function *)
From Coq Require Import List Arith ZArith Lia Bool Reals Lra Psatz.
From Coquelicot Require Import Rcomplements Hierarchy Continuity Derive ElemFct AutoDerive Lim_seq Rbar.
From Verif Require Import EllipSpec Improper GammaSpec GammaInt GammaFun HyperExp Stirling Stirling2 Reflection GammaFn GammaFnSpec.
Import ListNotations.
Open Scope R_scope.

Definition nonpole (x : R) : Prop := forall k : nat, x <> - INR k.
Lemma nonpole_S x : nonpole x -> nonpole (x + 1).
Proof. intros H k E. apply (H (S k)). rewrite S_INR. lra. Qed.
Lemma nonpole_pos x : 0 < x -> nonpole x.
Proof. intros H k E. pose proof (pos_INR k). lra. Qed.
Lemma nonpole_0 x : nonpole x -> x <> 0.
Proof. intros H E. apply (H 0%nat). cbn. lra. Qed.
Lemma rising_nz x n : nonpole x -> rising x n <> 0.
Proof. revert x. induction n as [|n IH]; intros x H; cbn [rising]; [lra|]. apply Rmult_integral_contrapositive_currified; [apply nonpole_0, H|apply IH, nonpole_S, H]. Qed.
Lemma rising_snoc x n : rising x (S n) = rising x n * (x + INR n).
Proof. revert x. induction n as [|n IH]; intros x; [cbn; ring|]. change (rising x (S (S n))) with (x * rising (x + 1) (S n)). rewrite IH, (S_INR n). cbn [rising]. ring. Qed.
Lemma gam_up x n j : 0 < x + INR n -> Gam (x + INR (n + j)) * rising x n = Gam (x + INR n) * rising x (n + j).
Proof.
  intros H. induction j as [|j IH]; [rewrite Nat.add_0_r; ring|]. rewrite Nat.add_succ_r, rising_snoc, S_INR. assert (P : 0 < x + INR (n + j)) by (rewrite plus_INR; pose proof (pos_INR j); lra). replace (x + (INR (n + j) + 1)) with (x + INR (n + j) + 1) by ring. rewrite (Gam_rec _ P). transitivity ((x + INR (n + j)) * (Gam (x + INR (n + j)) * rising x n)); [ring|]. rewrite IH. ring.
Qed.
Lemma euler_Gam x G : 0 < x -> euler_gamma x G -> G = Gam x.
Proof. intros H E. apply (improper0_unique _ _ _ E (Gam_ok x H)). Qed.
Lemma cg_eq x g n : continued_gamma x g -> 0 < x + INR n -> g * rising x n = Gam (x + INR n).
Proof.
  intros (H & m & G & P & E & EG) Hn. rewrite (euler_Gam _ _ P E) in EG. pose proof (gam_up x m n P) as A. pose proof (gam_up x n m Hn) as B. rewrite (Nat.add_comm n m) in B. pose proof (rising_nz x m H) as N1. pose proof (rising_nz x (m + n) H) as N2. rewrite EG in A.
  assert (A' : Gam (x + INR (m + n)) = g * rising x (m + n)) by (apply (Rmult_eq_reg_r (rising x m)); [rewrite A; ring|exact N1]). rewrite A' in B. apply (Rmult_eq_reg_r (rising x (m + n))); [|exact N2]. rewrite <- B. ring.
Qed.
Lemma cg_pos x g : continued_gamma x g -> 0 < x -> g = Gam x.
Proof. intros C H. pose proof (cg_eq x g 0 C) as E. cbn in E. rewrite Rplus_0_r in E. specialize (E H). lra. Qed.
Lemma cg_nz x g : continued_gamma x g -> g <> 0.
Proof. intros (H & n & G & P & E & EG). rewrite (euler_Gam _ _ P E) in EG. pose proof (Gam_pos _ P). intros Z. rewrite Z in EG. lra. Qed.
Lemma cg_step x g : continued_gamma x g -> continued_gamma (x + 1) (x * g).
Proof.
  intros C. destruct C as (H & n & G & P & E & EG). split; [exact (nonpole_S x H)|]. exists n, (Gam (x + 1 + INR n)). assert (P1 : 0 < x + 1 + INR n) by lra. split; [exact P1|]. split; [apply Gam_ok, P1|].
  pose proof (cg_eq x g (S n) (conj H (ex_intro _ n (ex_intro _ G (conj P (conj E EG)))))) as A. rewrite S_INR in A. replace (x + 1 + INR n) with (x + (INR n + 1)) by ring. rewrite <- A by lra. cbn [rising]. ring.
Qed.
Lemma cg_down x g n : continued_gamma x g -> continued_gamma (x + INR n) (g * rising x n).
Proof.
  revert x g. induction n as [|n IH]; intros x g C; [cbn; rewrite Rplus_0_r, Rmult_1_r; exact C|]. rewrite S_INR. cbn [rising]. replace (x + (INR n + 1)) with (x + 1 + INR n) by ring. replace (g * (x * rising (x + 1) n)) with (x * g * rising (x + 1) n) by ring. apply IH, cg_step, C.
Qed.
Lemma cg_exists x : nonpole x -> exists g, continued_gamma x g.
Proof.
  intros H. destruct (archi (- x)) as [n Hn]. assert (P : 0 < x + INR n) by lra. exists (Gam (x + INR n) / rising x n). split; [exact H|]. exists n, (Gam (x + INR n)). split; [exact P|]. split; [apply Gam_ok, P|]. field. apply rising_nz, H.
Qed.
(** ** Floor *)
Lemma floor_bounds x : rfloor x <= x < rfloor x + 1.
Proof. unfold rfloor. destruct (base_Int_part x). lra. Qed.
Lemma floor_unique x z : IZR z <= x < IZR z + 1 -> rfloor x = IZR z.
Proof. intros H. unfold rfloor, Int_part. f_equal. rewrite <- (up_tech x z); [lia|lra|rewrite plus_IZR; lra]. Qed.
Lemma floor_S x : rfloor (x + 1) = rfloor x + 1.
Proof. pose proof (floor_bounds x) as B. unfold rfloor at 2. unfold rfloor in B. rewrite (floor_unique (x + 1) (Int_part x + 1)); [rewrite plus_IZR; reflexivity|]. rewrite plus_IZR. lra. Qed.
Lemma round_close x : exists z : Z, rround x = IZR z.
Proof. unfold rround, rfloor. destruct (Rle_dec 0 x); [eexists; reflexivity|exists (- Int_part (- x + 1/2))%Z; rewrite opp_IZR; reflexivity]. Qed.
Lemma round_nearest x z : Rabs (x - IZR z) < 1/2 -> rround x = IZR z.
Proof.
  intros H. apply Rabs_lt_between in H. unfold rround. destruct (Rle_dec 0 x).
  - apply floor_unique. lra.
  - rewrite (floor_unique (- x + 1/2) (- z)); rewrite opp_IZR; lra.
Qed.
Lemma is_int_iff eps x : 0 < eps <= 1/1000 -> is_int eps x = true <-> exists z : Z, Rabs (x - IZR z) < 100 * eps.
Proof.
  intros He. unfold is_int. destruct (Rlt_dec _ _) as [H|H]; split; intros Q; [|reflexivity|discriminate|].
  - destruct (round_close x) as [z E]. exists z. rewrite E in H. rewrite Rabs_minus_sym. exact H.
  - exfalso. destruct Q as [z Q]. apply H. rewrite (round_nearest x z) by lra. rewrite Rabs_minus_sym. exact Q.
Qed.
Lemma stop_iff eps x : 0 < eps <= 1/1000 -> (is_int eps x && is_nonpositive x)%bool = true <-> x <= 0 /\ near_pole (100 * eps) x.
Proof.
  intros He. rewrite andb_true_iff, (is_int_iff eps x He). unfold is_nonpositive, near_pole. destruct (Rle_dec x 0) as [Hx|Hx]; split.
  - intros [[z Hz] _]. split; [exact Hx|]. exists (Z.to_nat (- z)). apply Rabs_lt_between in Hz. assert (z <= 0)%Z by (assert (z < 1)%Z; [apply lt_IZR; lra|lia]). rewrite INR_IZR_INZ, Z2Nat.id by lia. rewrite opp_IZR. apply Rabs_lt_between. lra.
  - intros [_ [k Hk]]. split; [|reflexivity]. exists (- Z.of_nat k)%Z. rewrite opp_IZR, <- INR_IZR_INZ. replace (x - - INR k) with (x + INR k) by ring. exact Hk.
  - intros [_ H]. discriminate.
  - intros [H _]. contradiction.
Qed.
Lemma go_on eps x : (is_int eps x && is_nonpositive x)%bool = false -> 0 < eps -> nonpole x.
Proof.
  intros H He k E. assert (T : (is_int eps x && is_nonpositive x)%bool = true); [|congruence]. pose proof (pos_INR k). apply andb_true_iff. split.
  - unfold is_int. rewrite (round_nearest x (- Z.of_nat k)); rewrite opp_IZR, <- INR_IZR_INZ, E; [|rewrite Rminus_eq_0, Rabs_R0; lra]. rewrite Rminus_eq_0, Rabs_R0. destruct (Rlt_dec 0 (100 * eps)); [reflexivity|exfalso; lra].
  - unfold is_nonpositive. destruct (Rle_dec x 0); [reflexivity|exfalso; lra].
Qed.
Lemma pos_goes_on eps x : 0 < x -> (is_int eps x && is_nonpositive x)%bool = false.
Proof. intros H. unfold is_nonpositive. destruct (Rle_dec x 0); [exfalso; lra|apply andb_false_r]. Qed.
(** ** The argument of the product *)
Fixpoint args (x : R) (n : nat) : R := match n with O => 0 | S n' => rarg x + args (x + 1) n' end.
Lemma args_pos x n : 0 < x -> args x n = 0.
Proof. revert x. induction n as [|n IH]; intros x H; cbn [args]; [reflexivity|]. rewrite IH by lra. unfold rarg. destruct (Rlt_dec x 0); lra. Qed.
Lemma args_neg x n : nonpole x -> x < 0 -> 0 < x + INR n -> args x n = - (PI * rfloor x).
Proof.
  revert x. induction n as [|n IH]; intros x N H P; [cbn in P; lra|]. rewrite S_INR in P. cbn [args]. unfold rarg. destruct (Rlt_dec x 0); [|lra]. destruct (Rtotal_order (x + 1) 0) as [L|[E|L]].
  - rewrite IH; [|apply nonpole_S, N|exact L|lra]. rewrite floor_S. ring.
  - exfalso. apply (N 1%nat). cbn. lra.
  - rewrite args_pos by exact L. rewrite (floor_unique x (-1)); lra.
Qed.
Lemma rising_sign x n : rising x n = Rabs (rising x n) * cos (args x n).
Proof.
  revert x. induction n as [|n IH]; intros x; cbn [rising args]; [rewrite cos_0, Rabs_R1; ring|]. rewrite Rabs_mult. unfold rarg. destruct (Rlt_dec x 0) as [H|H].
  - rewrite (Rplus_comm PI), neg_cos, (Rabs_left x H). rewrite IH at 1. ring.
  - rewrite Rplus_0_l, (Rabs_pos_eq x) by lra. rewrite IH at 1. ring.
Qed.
(** ** The loops *)
Lemma lloop fuel z c a z' c' a' : loggamma_loop fuel z c a = Some (z', c', a') -> exists n, z' = z + INR n /\ c' = c * rising z n /\ a' = a + args z n /\ 14 <= z' /\ (n = 0%nat \/ z' < 15).
Proof.
  revert z c a. induction fuel as [|fuel IH]; intros z c a; cbn [loggamma_loop]; [discriminate|]. destruct (Rlt_dec z 14) as [H|H].
  - intros E. destruct (IH _ _ _ E) as (n & E1 & E2 & E3 & L & U). exists (S n). rewrite S_INR. split; [rewrite E1; ring|]. split; [rewrite E2; cbn [rising]; ring|]. split; [rewrite E3; cbn [args]; ring|]. split; [exact L|]. right. destruct U as [->|U]; [cbn in E1; lra|exact U].
  - intros E. injection E as <- <- <-. exists 0%nat. cbn. repeat split; [ring|ring|ring|lra|left; reflexivity].
Qed.
Lemma lloop_ends fuel z c a : 14 <= z + INR fuel -> loggamma_loop (S fuel) z c a <> None.
Proof.
  revert z c a. induction fuel as [|fuel IH]; intros z c a H; cbn [loggamma_loop].
  - cbn in H. destruct (Rlt_dec z 14); [lra|discriminate].
  - rewrite S_INR in H. destruct (Rlt_dec z 14); [|discriminate]. apply (IH (z + 1)). lra.
Qed.
Lemma gloop fuel z c v : gamma_loop fuel z c = Some v -> exists n, (forall k, (k < n)%nat -> z + INR k < 18 /\ 1e-9 <= Rabs (z + INR k)) /\ (z + INR n < 18 /\ Rabs (z + INR n) < 1e-9 /\ v = 1 / (((1 + 0.5772156649015329 * (z + INR n)) * (z + INR n)) * (c * rising z n)) \/ 18 <= z + INR n /\ v = stirling (z + INR n) / (c * rising z n)).
Proof.
  revert z c. induction fuel as [|fuel IH]; intros z c; cbn [gamma_loop]; [discriminate|]. destruct (Rlt_dec z 18) as [H|H]; [destruct (Rlt_dec (Rabs z) 1e-9) as [N|N]|].
  - intros E. injection E as <-. exists 0%nat. split; [lia|]. left. cbn [INR rising]. rewrite Rplus_0_r, Rmult_1_r. repeat split; assumption.
  - intros E. destruct (IH _ _ E) as (n & F & Q). exists (S n). split.
    + intros k Hk. destruct k as [|k]; [cbn; rewrite Rplus_0_r; split; [exact H|apply Rnot_lt_le, N]|]. rewrite S_INR. replace (z + (INR k + 1)) with (z + 1 + INR k) by ring. apply F. lia.
    + rewrite S_INR. replace (z + (INR n + 1)) with (z + 1 + INR n) by ring. cbn [rising]. replace (c * (z * rising (z + 1) n)) with (c * z * rising (z + 1) n) by ring. exact Q.
  - intros E. injection E as <-. exists 0%nat. split; [lia|]. right. cbn [INR rising]. rewrite Rplus_0_r, Rmult_1_r. split; [lra|reflexivity].
Qed.
Lemma gloop_ends fuel z c : 18 <= z + INR fuel -> gamma_loop (S fuel) z c <> None.
Proof.
  revert z c. induction fuel as [|fuel IH]; intros z c H; cbn [gamma_loop].
  - cbn in H. destruct (Rlt_dec z 18); [lra|discriminate].
  - rewrite S_INR in H. destruct (Rlt_dec z 18); [|discriminate]. destruct (Rlt_dec (Rabs z) 1e-9); [discriminate|]. apply (IH (z + 1)). lra.
Qed.
(** ** Reflection on the whole line *)
Lemma reflection_all x g : continued_gamma x g -> x < 0 -> sin (PI * x) <> 0 /\ g * Gam (1 - x) = PI / sin (PI * x).
Proof.
  intros C Hx. destruct (archi (- x)) as [n Hn]. revert x g C Hx Hn. induction n as [|n IH]; intros x g C Hx Hn; [cbn in Hn; lra|]. rewrite S_INR in Hn. pose proof (cg_step x g C) as C1. assert (N : nonpole x) by exact (proj1 C). pose proof PI_RGT_0 as P0.
  replace (1 - x) with (- x + 1) by ring. rewrite (Gam_rec (- x)) by lra. assert (ES : sin (PI * x) = - sin (PI * (x + 1))) by (rewrite Rmult_plus_distr_l, Rmult_1_r, neg_sin; ring). rewrite ES.
  destruct (Rtotal_order (x + 1) 0) as [L|[E|L]].
  - destruct (IH (x + 1) (x * g) C1 L ltac:(lra)) as [NZ E]. split; [lra|]. replace (1 - (x + 1)) with (- x) in E by ring. replace (g * (- x * Gam (- x))) with (- (x * g * Gam (- x))) by ring. rewrite E. field. exact NZ.
  - exfalso. apply (N 1%nat). cbn. lra.
  - assert (PS : 0 < sin (PI * (x + 1))) by (apply sin_gt_0; nra). split; [lra|]. pose proof (reflection (x + 1) ltac:(lra)) as R. rewrite <- (cg_pos _ _ C1 L) in R. replace (1 - (x + 1)) with (- x) in R by ring. replace (g * (- x * Gam (- x))) with (- (x * g * Gam (- x))) by ring. rewrite R. field. lra.
Qed.
(** ** Accuracy of the logarithm *)
Lemma series_close z : 14 <= z -> Rabs (loggamma_series z - Ss cs6 z) <= 1e-40.
Proof.
  intros Hz. set (w := / z). assert (W : 0 < w <= 1/14) by (unfold w; split; [apply Rinv_0_lt_compat; lra|replace (1/14) with (/ 14) by lra; apply Rinv_le_contravar; lra]).
  assert (E1 : loggamma_series z = (((((-1.9175269175269175269175269175269175269175e-3 * w^2 + 8.4175084175084175084175084175084175084175E-4) * w^2 + -5.9523809523809523809523809523809523809524e-4) * w^2 + 7.9365079365079365079365079365079365079365e-4) * w^2 + -2.7777777777777777777777777777777777777778e-3) * w^2 + 8.3333333333333333333333333333333333333333e-2) * w).
  { unfold loggamma_series, Rdiv at 1. cbv zeta. replace (1 / (z * z)) with (w^2) by (unfold w; field; lra). reflexivity. }
  assert (E2 : Ss cs6 z = 1/12 * w + (-1/360) * w^3 + 1/1260 * w^5 + (-1/1680) * w^7 + 1/1188 * w^9 + (-691/360360) * w^11).
  { cbn [Ss cs6]. rewrite <- !pow_inv. fold w. ring. }
  rewrite E1, E2.
  assert (PW : forall n, 0 <= w ^ n <= 1) by (intros n; split; [apply pow_le; lra|rewrite <- (pow1 n); apply pow_incr; lra]).
  pose proof (PW 3%nat). pose proof (PW 5%nat). pose proof (PW 7%nat). pose proof (PW 9%nat). pose proof (PW 11%nat). apply Rabs_le_between. split; lra.
Qed.
Lemma ln_sqrt2pi : ln (sqrt (2 * PI)) = ln (2 * PI) / 2.
Proof. pose proof PI_RGT_0. assert (P : 0 < 2 * PI) by lra. rewrite <- (sqrt_sqrt (2 * PI)) at 2 by lra. rewrite ln_mult by (apply sqrt_lt_R0, P). field. Qed.
Definition lgerr (z : R) : R := if Rlt_dec z 1e8 then 1e-17 else 1e-9.
Lemma lg_accuracy z : 14 <= z -> Rabs ((z - 0.5) * ln z - z + ln (sqrt (2 * PI)) + (if Rlt_dec (Rabs z) 1e8 then loggamma_series z else 0) - lg z) <= lgerr z.
Proof.
  intros Hz. rewrite ln_sqrt2pi. pose proof (stirling_enclosure z ltac:(lra)) as S. unfold DD, stirling_main, bb in S. rewrite (Rabs_pos_eq z) by lra. pose proof (series_close z Hz) as C.
  assert (B13 : 1 / 156 * / z ^ 13 <= 9e-18). { assert (P14 : 14 ^ 13 <= z ^ 13) by (apply pow_incr; lra). assert (/ z ^ 13 <= / 14 ^ 13) by (apply Rinv_le_contravar; [apply pow_lt; lra|exact P14]). apply Rle_trans with (1 / 156 * / 14 ^ 13); [apply Rmult_le_compat_l; lra|lra]. }
  replace (z - 0.5) with (z - 1/2) by lra. unfold lgerr. destruct (Rlt_dec z 1e8) as [L|L].
  - apply Rabs_le_between in C. apply Rabs_le_between. split; lra.
  - assert (W : 0 < / z <= 1e-8) by (split; [apply Rinv_0_lt_compat; lra|replace 1e-8 with (/ 1e8) by lra; apply Rinv_le_contravar; lra]). assert (E2 : Ss cs6 z = 1/12 * / z + (-1/360) * (/z)^3 + 1/1260 * (/z)^5 + (-1/1680) * (/z)^7 + 1/1188 * (/z)^9 + (-691/360360) * (/z)^11) by (cbn [Ss cs6]; rewrite <- !pow_inv; ring).
    rewrite E2 in S. assert (PW : forall n, (1 <= n)%nat -> 0 <= (/ z) ^ n <= 1e-8). { intros n Hn. destruct n as [|n]; [lia|]. cbn [pow]. assert (0 <= (/ z) ^ n <= 1) by (split; [apply pow_le; lra|rewrite <- (pow1 n); apply pow_incr; lra]). nra. }
    pose proof (PW 3%nat ltac:(lia)). pose proof (PW 5%nat ltac:(lia)). pose proof (PW 7%nat ltac:(lia)). pose proof (PW 9%nat ltac:(lia)). pose proof (PW 11%nat ltac:(lia)). apply Rabs_le_between. split; lra.
Qed.
(** ** Accuracy of Stirling's formula *)
Definition sigma (w : R) : R := 1/12 * w + (-1/360) * w^3 + 1/1260 * w^5 + (-1/1680) * w^7 + 1/1188 * w^9 + (-691/360360) * w^11.
Definition dsigma (w : R) : R := 1/12 + (-1/120) * w^2 + 1/252 * w^4 + (-1/240) * w^6 + 1/132 * w^8 + (-691/32760) * w^10.
Definition dpoly (w : R) : R := 7 * -5.92166437353693882865e-4 * w^6 + 6 * 6.97281375836585777429e-5 * w^5 + 5 * 7.84039221720066627474e-4 * w^4 + 4 * -2.29472093621399176955e-4 * w^3 + 3 * -2.68132716049382716049e-3 * w^2 + 2 * 3.47222222222222222222e-3 * w + 8.33333333333333333333E-2.
Definition FF (w : R) : R := ln (1 + stirling_polynomial w) - sigma w.
Lemma poly_pos w : 0 <= w <= 1/18 -> 0 <= stirling_polynomial w.
Proof.
  intros W. assert (PW : forall n, 0 <= w ^ n <= 1) by (intros n; split; [apply pow_le; lra|rewrite <- (pow1 n); apply pow_incr; lra]). unfold stirling_polynomial. apply Rmult_le_pos; [|lra].
  pose proof (PW 2%nat). pose proof (PW 3%nat). pose proof (PW 4%nat). pose proof (PW 5%nat). pose proof (PW 6%nat). lra.
Qed.
Lemma FF_derive w : 0 <= w <= 1/18 -> is_derive FF w (dpoly w / (1 + stirling_polynomial w) - dsigma w).
Proof.
  intros W. pose proof (poly_pos w W) as P. unfold FF, sigma, dsigma, dpoly. unfold stirling_polynomial in *. auto_derive; [lra|]. field. lra.
Qed.
Lemma key7 w : 0 <= w -> 8 * (144/7)^7 * w^7 - 7 * (144/7)^8 * w^8 <= 1.
Proof.
  intros W. set (u := 144/7 * w). replace (8 * (144/7)^7 * w^7 - 7 * (144/7)^8 * w^8) with (8 * u^7 - 7 * u^8) by (unfold u; rewrite !Rpow_mult_distr; ring). assert (U : 0 <= u) by (unfold u; lra).
  assert (E : 1 - (8 * u^7 - 7 * u^8) = (1 - u)^2 * (1 + 2*u + 3*u^2 + 4*u^3 + 5*u^4 + 6*u^5 + 7*u^6)) by ring.
  assert (0 <= 1 + 2*u + 3*u^2 + 4*u^3 + 5*u^4 + 6*u^5 + 7*u^6) by (pose proof (pow_le u 2 U); pose proof (pow_le u 3 U); pose proof (pow_le u 4 U); pose proof (pow_le u 5 U); pose proof (pow_le u 6 U); lra).
  assert (0 <= (1 - u)^2) by apply pow2_ge_0. assert (0 <= (1 - u)^2 * (1 + 2*u + 3*u^2 + 4*u^3 + 5*u^4 + 6*u^5 + 7*u^6)) by (apply Rmult_le_pos; assumption). lra.
Qed.
Lemma numer_small w : 0 <= w <= 1/18 -> Rabs (dpoly w - dsigma w * (1 + stirling_polynomial w)) <= 5e-14.
Proof.
  intros W. assert (PW : forall n, 0 <= w ^ n <= (1/18) ^ n) by (intros n; split; [apply pow_le; lra|apply pow_incr; lra]). assert (PS : forall n, w ^ S n <= w ^ n / 18) by (intros n; cbn [pow]; pose proof (proj1 (PW n)); nra). pose proof (key7 w (proj1 W)) as K. unfold dpoly, dsigma, stirling_polynomial.
  pose proof (PW 2%nat). pose proof (PW 3%nat). pose proof (PW 4%nat). pose proof (PW 5%nat). pose proof (PW 6%nat). pose proof (PW 7%nat). pose proof (PW 8%nat). pose proof (PW 9%nat). pose proof (PW 10%nat). pose proof (PW 11%nat). pose proof (PW 12%nat). pose proof (PW 13%nat). pose proof (PW 14%nat). pose proof (PW 15%nat). pose proof (PW 16%nat). pose proof (PW 17%nat). pose proof (PS 7%nat). clear PW PS.
  apply Rabs_le_between. split; lra.
Qed.
Lemma FF_small w : 0 <= w <= 1/18 -> Rabs (FF w) <= 3e-15.
Proof.
  intros W. assert (F0 : FF 0 = 0) by (unfold FF, stirling_polynomial, sigma; replace (1 + _) with 1 by ring; rewrite ln_1; ring).
  destruct (MVT_gen FF 0 w (fun w => dpoly w / (1 + stirling_polynomial w) - dsigma w)) as (c & Hc & E).
  - intros t Ht. rewrite Rmin_left, Rmax_right in Ht by lra. apply FF_derive. lra.
  - intros t Ht. rewrite Rmin_left, Rmax_right in Ht by lra. apply continuity_pt_filterlim. apply (ex_derive_continuous FF). eexists. apply FF_derive. lra.
  - rewrite Rmin_left, Rmax_right in Hc by lra. rewrite F0, !Rminus_0_r in E. rewrite E. pose proof (numer_small c ltac:(lra)) as N. pose proof (poly_pos c ltac:(lra)) as P.
    replace (dpoly c / (1 + stirling_polynomial c) - dsigma c) with ((dpoly c - dsigma c * (1 + stirling_polynomial c)) * / (1 + stirling_polynomial c)) by (field; lra). rewrite !Rabs_mult, (Rabs_pos_eq w) by lra.
    assert (I : 0 < / (1 + stirling_polynomial c) <= 1) by (split; [apply Rinv_0_lt_compat; lra|rewrite <- Rinv_1; apply Rinv_le_contravar; lra]). rewrite (Rabs_pos_eq (/ _)) by lra. set (n := Rabs (dpoly c - _)) in *. assert (0 <= n) by apply Rabs_pos. set (i := / _) in *. assert (n * i <= 5e-14) by nra. nra.
Qed.
Lemma exp_close y d : Rabs y <= d -> d <= 1e-3 -> Rabs (exp y - 1) <= 1.01 * d.
Proof.
  intros H D. apply Rabs_le_between in H. pose proof (exp_ineq1_le y) as A. pose proof (exp_ineq1_le (- y)) as B. pose proof (exp_pos y) as P. assert (E : exp y * exp (- y) = 1) by (rewrite <- exp_plus, Rplus_opp_r; apply exp_0). apply Rabs_le_between. split; [lra|].
  assert (exp y * (1 - d) <= 1) by (rewrite <- E; apply Rmult_le_compat_l; lra). nra.
Qed.
Lemma stirling_accuracy z : 18 <= z -> exists e, Rabs e <= 4e-15 /\ stirling z = Gam z * (1 + e).
Proof.
  intros Hz. pose proof (Gam_pos z ltac:(lra)) as G. set (w := / z). assert (W : 0 < w <= 1/18) by (unfold w; split; [apply Rinv_0_lt_compat; lra|replace (1/18) with (/ 18) by lra; apply Rinv_le_contravar; lra]).
  assert (ES : stirling z = exp (stirling_main z) * (1 + stirling_polynomial w)).
  { unfold stirling, stirling_main. cbv zeta. replace (1 / z) with w by (unfold w; field; lra). f_equal. rewrite <- (exp_ln (sqrt (2 * PI))) by (apply sqrt_lt_R0; pose proof PI_RGT_0; lra). unfold Rpower. rewrite <- !exp_plus, ln_sqrt2pi. f_equal. replace 0.5 with (1/2) by lra. ring. }
  pose proof (poly_pos w ltac:(lra)) as P. pose proof (FF_small w ltac:(lra)) as F. pose proof (stirling_enclosure z ltac:(lra)) as D.
  assert (B13 : bb z <= 1e-18). { unfold bb. assert (P18 : 18 ^ 13 <= z ^ 13) by (apply pow_incr; lra). assert (/ z ^ 13 <= / 18 ^ 13) by (apply Rinv_le_contravar; [apply pow_lt; lra|exact P18]). apply Rle_trans with (1 / 156 * / 18 ^ 13); [apply Rmult_le_compat_l; lra|lra]. }
  exists (exp (FF w - DD z) - 1). split.
  - apply Rle_trans with (1.01 * 3.1e-15); [|lra]. apply exp_close; [|lra]. apply Rabs_le_between in F. apply Rabs_le_between. split; lra.
  - rewrite ES. replace (1 + (exp (FF w - DD z) - 1)) with (exp (FF w - DD z)) by ring. rewrite <- (exp_ln (1 + stirling_polynomial w)) by lra. rewrite <- (exp_ln (Gam z)) by exact G. rewrite <- !exp_plus. f_equal. unfold DD, lg, FF. assert (E2 : Ss cs6 z = sigma w) by (unfold sigma; cbn [Ss cs6]; rewrite <- !pow_inv; fold w; ring). rewrite E2. ring.
Qed.
(** ** Near a pole *)
Lemma Gam1_near z : Rabs z <= 1e-9 -> Rabs (Gam (1 + z) - 1) <= 1.1 * Rabs z.
Proof.
  intros Hz. pose proof (Gam_pos (1 + z)) as P. assert (G1 : Gam 1 = 1) by (pose proof (Gam_fact 0) as F; cbn in F; rewrite Rplus_0_l in F; exact F). assert (G2 : Gam 2 = 1) by (replace 2 with (1 + 1) by lra; rewrite (Gam_rec 1), G1 by lra; ring).
  destruct (Rle_lt_dec 0 z) as [S|S].
  - rewrite (Rabs_pos_eq z S) in *. specialize (P ltac:(lra)). pose proof (Gam_between 1 z ltac:(lra) ltac:(lra)) as A. pose proof (Gam_between (1 + z) (1 - z) ltac:(lra) ltac:(lra)) as B. replace (1 + z + (1 - z)) with 2 in B by ring. rewrite G2 in B. rewrite G1 in A. unfold Rpower in A, B. rewrite ln_1, Rmult_0_r, exp_0 in A.
    assert (Q : exp ((1 - z) * ln (1 + z)) <= 1 + z). { rewrite <- (exp_ln (1 + z)) at 2 by lra. assert (0 <= ln (1 + z)) by (rewrite <- ln_1; apply ln_le; lra). assert ((1 - z) * ln (1 + z) <= ln (1 + z)) by nra. destruct H0 as [L|L]; [left; apply exp_increasing, L|rewrite L; lra]. }
    apply Rabs_le_between. split; [|lra]. assert (1 <= (1 + z) * Gam (1 + z)) by nra. nra.
  - rewrite (Rabs_left z S) in *. specialize (P ltac:(lra)). pose proof (Gam_between 1 (1 + z) ltac:(lra) ltac:(lra)) as A. rewrite G1 in A. unfold Rpower in A. rewrite ln_1, Rmult_0_r, exp_0 in A. replace (1 + (1 + z)) with (1 + z + 1) in A by ring. rewrite (Gam_rec (1 + z)) in A by lra.
    pose proof (Gam_between (1 + z) (- z) ltac:(lra) ltac:(lra)) as B. replace (1 + z + - z) with 1 in B by ring. rewrite G1 in B. unfold Rpower in B.
    assert (Q : exp (- z * ln (1 + z)) <= 1). { assert (ln (1 + z) <= 0) by (rewrite <- ln_1; apply ln_le; lra). assert (- z * ln (1 + z) <= 0) by nra. destruct H0 as [L|L]; [apply Rle_trans with (exp 0); [left; apply exp_increasing, L|rewrite exp_0; lra]|rewrite L, exp_0; lra]. }
    apply Rabs_le_between. split; nra.
Qed.
