(** Facts for the incomplete gamma functions: the power series, the alternating series, the continued fraction *)
From Coq Require Import List Arith ZArith Lia Bool Reals Lra Psatz.
From Coquelicot Require Import Rcomplements Hierarchy Continuity Derive ElemFct AutoDerive RInt Lim_seq Rbar.
From Verif Require Import EllipSpec Improper ImproperLim GammaSpec GammaInt GammaFun HyperFacts HyperExp Stirling Stirling2 GammaInc.
Import ListNotations.
Open Scope R_scope.

(** ** The lower function *)
Definition Lg (a x : R) : R := Gam a - Rpower x a * Jv 0 a x.
Definition DD0 (a x : R) : R := Rpower x a * exp (- x).
Lemma DD0_pos a x : 0 < DD0 a x.
Proof. apply Rmult_lt_0_compat; [apply Rpower_pos|apply exp_pos]. Qed.
Lemma DD0_S a x : 0 < x -> DD0 (a + 1) x = x * DD0 a x.
Proof. intros H. unfold DD0. rewrite Rpower_plus, Rpower_1 by exact H. ring. Qed.
Lemma Lg_ok a x : 0 < a -> 0 < x -> lower_gamma a x (Lg a x).
Proof. intros Ha Hx. apply split_to; [exact Hx|apply Gam_ok, Ha|apply upper_exists, Hx]. Qed.
Lemma Jv_S a x : 0 < x -> x * Jv 0 (a + 1) x = a * Jv 0 a x + exp (- x).
Proof. intros Hx. pose proof (j_parts 0 a x _ _ _ Hx (Jv_ok (0 - 1) a x Hx) (Jv_ok 0 a x Hx) (Jv_ok 0 (a + 1) x Hx)) as P. cbn [INR Nat.eqb] in P. lra. Qed.
Lemma Lg_S a x : 0 < a -> 0 < x -> Lg (a + 1) x = a * Lg a x - DD0 a x.
Proof. intros Ha Hx. unfold Lg, DD0. rewrite (Gam_rec a Ha), Rpower_plus, Rpower_1 by exact Hx. pose proof (Jv_S a x Hx) as J. replace (a * Gam a - Rpower x a * x * Jv 0 (a + 1) x) with (a * Gam a - Rpower x a * (x * Jv 0 (a + 1) x)) by ring. rewrite J. ring. Qed.
Lemma improper_to_le x f g v w : (forall t, 0 < t < x -> f t <= g t) -> improper_to x f v -> improper_to x g w -> v <= w.
Proof.
  intros H V W. apply le_epsilon. intros e He. destruct (V (e / 2) ltac:(lra)) as (d1 & P1 & Q1 & H1). destruct (W (e / 2) ltac:(lra)) as (d2 & P2 & Q2 & H2). set (u := Rmin d1 d2 / 2). assert (0 < Rmin d1 d2) by (apply Rmin_glb_lt; assumption). pose proof (Rmin_l d1 d2). pose proof (Rmin_r d1 d2).
  destruct (H1 u ltac:(unfold u; lra)) as (I1 & R1 & B1). destruct (H2 u ltac:(unfold u; lra)) as (I2 & R2 & B2). assert (I1 <= I2) by (apply (is_RInt_le f g u x I1 I2); [unfold u; lra|exact R1|exact R2|intros t Ht; apply H; unfold u in Ht; lra]). apply Rabs_lt_between in B1. apply Rabs_lt_between in B2. lra.
Qed.
Lemma improper_to_scal x f c v : improper_to x f v -> improper_to x (fun t => c * f t) (c * v).
Proof.
  intros V e He. assert (PC : 0 < Rabs c + 1) by (pose proof (Rabs_pos c); lra). destruct (V (e / (Rabs c + 1)) ltac:(apply Rdiv_lt_0_compat; lra)) as (d & P & Q & H). exists d. split; [exact P|]. split; [exact Q|]. intros u Hu. destruct (H u Hu) as (I & HI & B). exists (c * I). split; [apply (is_RInt_scal f), HI|]. replace (c * I - c * v) with (c * (I - v)) by ring. rewrite Rabs_mult. pose proof (Rabs_pos c). pose proof (Rabs_pos (I - v)).
  apply Rle_lt_trans with ((Rabs c) * (e / (Rabs c + 1))); [apply Rmult_le_compat_l; lra|]. apply (Rmult_lt_reg_r (Rabs c + 1)); [lra|]. replace (Rabs c * (e / (Rabs c + 1)) * (Rabs c + 1)) with (Rabs c * e) by (field; lra). nra.
Qed.
Lemma dens_pos a t : 0 <= gamma_density a t.
Proof. unfold gamma_density. left. apply Rmult_lt_0_compat; [apply Rpower_pos|apply exp_pos]. Qed.
Lemma Lg_pos a x : 0 < a -> 0 < x -> 0 <= Lg a x.
Proof.
  intros Ha Hx. pose proof (improper_to_scal x _ 0 _ (Lg_ok a x Ha Hx)) as Z. rewrite Rmult_0_l in Z. apply (improper_to_le x _ _ _ _ (fun t _ => Rle_trans _ _ _ (Req_le _ _ (Rmult_0_l _)) (dens_pos a t)) Z (Lg_ok a x Ha Hx)).
Qed.
Lemma Lg_le a x : 0 < a -> 0 < x -> Lg (a + 1) x <= x * Lg a x.
Proof.
  intros Ha Hx. apply (improper_to_le x (gamma_density (a + 1)) (fun t => x * gamma_density a t)); [|apply Lg_ok; lra|apply improper_to_scal, Lg_ok; assumption]. intros t Ht. unfold gamma_density. replace (a + 1 - 1) with (a - 1 + 1) by ring. rewrite Rpower_plus, Rpower_1 by lra. pose proof (Rpower_pos t (a - 1)). pose proof (exp_pos (- t)). replace (Rpower t (a - 1) * t * exp (- t)) with (t * (Rpower t (a - 1) * exp (- t))) by ring. apply Rmult_le_compat_r; [|lra]. left. apply Rmult_lt_0_compat; assumption.
Qed.
Lemma Lg_bound b x : 0 < x < b -> Lg b x <= DD0 b x / (b - x).
Proof. intros H. pose proof (Lg_S b x ltac:(lra) ltac:(lra)) as E. pose proof (Lg_le b x ltac:(lra) ltac:(lra)) as L. rewrite E in L. apply (Rmult_le_reg_r (b - x)); [lra|]. unfold Rdiv. rewrite Rmult_assoc, Rinv_l by lra. lra. Qed.

(** ** The power series *)
Fixpoint ct (a x : R) (n : nat) : R := match n with O => 1 | S n' => ct a x n' * (x / (a + INR n)) end.
Fixpoint ss (a x : R) (n : nat) : R := match n with O => 1 | S n' => ss a x n' + ct a x n end.
Lemma ct_pos a x n : 0 < a -> 0 < x -> 0 < ct a x n.
Proof. intros Ha Hx. induction n as [|n IH]; [cbn; lra|]. cbn [ct]. apply Rmult_lt_0_compat; [exact IH|]. apply Rdiv_lt_0_compat; [exact Hx|]. pose proof (pos_INR (S n)). lra. Qed.
Lemma ss_pos a x n : 0 < a -> 0 < x -> 1 <= ss a x n.
Proof. intros Ha Hx. induction n as [|n IH]; [cbn; lra|]. cbn [ss]. pose proof (ct_pos a x (S n) Ha Hx). lra. Qed.
Lemma series_identity a x n : 0 < a -> 0 < x -> a * Lg a x = DD0 a x * ss a x n + ct a x n / x ^ n * Lg (a + INR n + 1) x.
Proof.
  intros Ha Hx. induction n as [|n IH].
  - cbn [ss ct INR pow]. rewrite Rplus_0_r, (Lg_S a x Ha Hx). field.
  - rewrite IH. cbn [ss ct]. rewrite S_INR. set (b := a + INR n + 1). pose proof (pos_INR n). replace (a + (INR n + 1)) with b by (unfold b; ring). assert (Hb : 0 < b) by (unfold b; lra). rewrite (Lg_S b x Hb Hx). assert (ED : DD0 b x = DD0 a x * x ^ n * x). { unfold b. rewrite DD0_S by exact Hx. assert (G : DD0 (a + INR n) x = DD0 a x * x ^ n) by (unfold DD0; rewrite Rpower_plus, Rpower_pow by exact Hx; ring). rewrite G. ring. }
    rewrite ED. cbn [pow]. assert (x ^ n <> 0) by (apply pow_nonzero; lra). field. repeat split; lra.
Qed.
Lemma series_enclosure a x n : 0 < a -> 0 < x -> x < a + INR n + 1 -> 0 <= a * Lg a x - DD0 a x * ss a x n <= DD0 a x * ct a x n * (x / (a + INR n + 1 - x)).
Proof.
  intros Ha Hx Hn. rewrite (series_identity a x n Ha Hx). set (b := a + INR n + 1) in *. pose proof (pos_INR n). assert (Hb : 0 < b) by (unfold b; lra). pose proof (Lg_pos b x Hb Hx) as P. pose proof (Lg_bound b x ltac:(lra)) as B. pose proof (ct_pos a x n Ha Hx) as C. assert (X : 0 < x ^ n) by (apply pow_lt, Hx).
  assert (Q : 0 < ct a x n / x ^ n) by (apply Rdiv_lt_0_compat; assumption). split.
  - assert (0 <= ct a x n / x ^ n * Lg b x) by (apply Rmult_le_pos; lra). lra.
  - assert (ED : DD0 b x = DD0 a x * x ^ n * x). { unfold b. rewrite DD0_S by exact Hx. assert (G : DD0 (a + INR n) x = DD0 a x * x ^ n) by (unfold DD0; rewrite Rpower_plus, Rpower_pow by exact Hx; ring). rewrite G. ring. }
    rewrite ED in B. assert (M : ct a x n / x ^ n * Lg b x <= ct a x n / x ^ n * (DD0 a x * x ^ n * x / (b - x))) by (apply Rmult_le_compat_l; lra). replace (ct a x n / x ^ n * (DD0 a x * x ^ n * x / (b - x))) with (DD0 a x * ct a x n * (x / (b - x))) in M by (field; lra). lra.
Qed.
Lemma sloop eps fuel a x k : exists n, (k <= n <= k + fuel)%nat /\ series_loop eps fuel x (a + INR k) (ct a x k) (ss a x k) = ss a x n /\ (n = (k + fuel)%nat \/ (k < n)%nat /\ ct a x n <= eps * ss a x n).
Proof.
  revert k. induction fuel as [|fuel IH]; intros k; cbn [series_loop]; [exists k; split; [lia|]; split; [reflexivity|left; lia]|].
  replace (a + INR k + 1) with (a + INR (S k)) by (rewrite S_INR; ring). change (ct a x k * (x / (a + INR (S k)))) with (ct a x (S k)). change (ss a x k + ct a x (S k)) with (ss a x (S k)). destruct (Rle_dec _ _) as [H|H].
  - exists (S k). split; [lia|]. split; [reflexivity|]. right. split; [lia|exact H].
  - destruct (IH (S k)) as (n & N & E & D). exists n. split; [lia|]. split; [exact E|]. destruct D as [->|[D1 D2]]; [left; lia|right; split; [lia|exact D2]].
Qed.
(** the test succeeds early when x <= a <= 200 or x <= 1 *)
Lemma ct_half a x m n : 0 < a -> 0 < x -> (forall k, (m < k)%nat -> x <= (a + INR k) / 2) -> ct a x (m + n) <= ct a x m / 2 ^ n.
Proof.
  intros Ha Hx H. induction n as [|n IH]; [rewrite Nat.add_0_r; cbn; lra|]. rewrite Nat.add_succ_r. cbn [ct]. specialize (H (S (m + n)) ltac:(lia)). pose proof (pos_INR (S (m + n))). assert (Q : 0 < x / (a + INR (S (m + n))) <= 1 / 2) by (split; [apply Rdiv_lt_0_compat; lra|apply (Rmult_le_reg_r (a + INR (S (m + n)))); [lra|]; unfold Rdiv; rewrite Rmult_assoc, Rinv_l; lra]).
  pose proof (ct_pos a x (m + n) Ha Hx). cbn [pow]. replace (ct a x m / (2 * 2 ^ n)) with (ct a x m / 2 ^ n * (1 / 2)) by (field; apply pow_nonzero; lra). apply Rmult_le_compat; lra.
Qed.
Lemma ct_le1 a x n : 0 < a -> 0 < x -> (x <= a \/ x <= 1) -> ct a x n <= 1.
Proof.
  intros Ha Hx H. induction n as [|n IH]; [cbn; lra|]. cbn [ct]. pose proof (ct_pos a x n Ha Hx). assert (1 <= INR (S n)) by (apply (le_INR 1); lia). assert (Q : 0 < x / (a + INR (S n)) <= 1) by (split; [apply Rdiv_lt_0_compat; lra|apply (Rmult_le_reg_r (a + INR (S n))); [lra|]; unfold Rdiv; rewrite Rmult_assoc, (Rinv_l (a + INR (S n))) by lra; lra]). rewrite <- (Rmult_1_r 1). apply Rmult_le_compat; lra.
Qed.

(** ** The alternating series *)
Lemma cterm a x n : 0 < a -> 0 < x -> lt_ a x n = Rpower x a * ((- x) ^ n / INR (fact n) / (a + INR n)).
Proof.
  intros Ha Hx. unfold lt_. rewrite Rpower_plus, Rpower_pow by exact Hx. replace (- x) with (-1 * x) by ring. rewrite Rpow_mult_distr. pose proof (pos_INR n). field. repeat split; first [lra|apply INR_fact_neq_0|idtac].
Qed.
Definition cfac (x : R) (n : nat) : R := (- x) ^ n / INR (fact n).
Fixpoint csum (a x : R) (n : nat) : R := match n with O => 0 | S n' => csum a x n' + cfac x n / (a + INR n) end.
Lemma cfac_S x n : cfac x (S n) = cfac x n * (- x / INR (S n)).
Proof. unfold cfac. rewrite fact_simpl, mult_INR. cbn [pow]. field. split; [apply not_0_INR; lia|apply INR_fact_neq_0]. Qed.
Lemma psum_csum a x n : 0 < a -> 0 < x -> psum (lt_ a x) n = Rpower x a * (1 / a + csum a x n).
Proof.
  intros Ha Hx. induction n as [|n IH]; cbn [psum csum]; [rewrite cterm by assumption; cbn; field; lra|]. rewrite IH, cterm by assumption. unfold cfac. ring.
Qed.
Lemma cloop eps fuel a x k : exists n, (k <= n <= k + fuel)%nat /\ cseries_loop eps fuel a x (INR (S k)) (cfac x k) (csum a x k) = csum a x n /\ (n = (k + fuel)%nat \/ (k < n)%nat /\ Rabs (cfac x n / (a + INR n)) <= eps * Rabs (csum a x n)).
Proof.
  revert k. induction fuel as [|fuel IH]; intros k; cbn [cseries_loop]; [exists k; split; [lia|]; split; [reflexivity|left; lia]|].
  rewrite <- cfac_S. change (csum a x k + cfac x (S k) / (a + INR (S k))) with (csum a x (S k)). destruct (Rle_dec _ _) as [H|H].
  - exists (S k). split; [lia|]. split; [reflexivity|]. right. split; [lia|exact H].
  - rewrite <- (S_INR (S k)). destruct (IH (S k)) as (n & N & E & D). exists n. split; [lia|]. split; [exact E|]. destruct D as [->|[D1 D2]]; [left; lia|right; split; [lia|exact D2]].
Qed.
