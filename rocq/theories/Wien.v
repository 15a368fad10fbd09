(** * The maxima of Planck's law (used for the Wien displacement constants) *)
From Coq Require Import ZArith QArith Qreals Reals Lra Lia.
From Coquelicot Require Import Rcomplements Hierarchy Continuity Derive ElemFct AutoDerive.
Local Open Scope R_scope.

(** ** Bounds of the exponential by its series *)
Fixpoint qseries (n : nat) (k : Z) (x : Q) : Q :=   (* 1 + x/k (1 + x/(k+1) (1 + ...)) , n factors *)
  match n with
  | O => 1
  | S n' => 1 + x * (1 # Z.to_pos k) * qseries n' (k + 1) x
  end%Q.
Fixpoint rseries (n : nat) (k : Z) (x : R) : R :=
  match n with O => 1 | S n' => 1 + x / IZR k * rseries n' (k + 1) x end.
Lemma qseries_ok n : forall k x, (0 < k)%Z -> Q2R (qseries n k x) = rseries n k (Q2R x).
Proof.
  induction n as [|n IH]; intros k x Hk; cbn [qseries rseries].
  - apply RMicromega.Q2R_1.
  - rewrite Q2R_plus, Q2R_mult, Q2R_mult, IH by lia. rewrite RMicromega.Q2R_1.
    assert (E : Q2R (1 # Z.to_pos k) = / IZR k). { unfold Q2R. cbn [Qnum Qden]. rewrite Z2Pos.id by lia. lra. }
    rewrite E. unfold Rdiv. ring.
Qed.
(** the tail of the series, relative form *)
Lemma exp_series n : forall x, 0 <= x -> exists r, 0 <= r <= exp x /\
  exp x = rseries n 1 x + x ^ (S n) / INR (fact (S n)) * r.
Proof.
  intros x Hx. 
  assert (D : forall m y, is_derive_n exp m y (exp y)).
  { induction m as [|m IH]; intros y; [reflexivity|]. cbn [is_derive_n].
    apply (is_derive_ext exp); [intros t; symmetry; apply is_derive_n_unique, IH|]. auto_derive; [exact I|]. ring. }
  assert (Sm : forall m j, (sum_f_R0 (fun i => x ^ i / INR (fact (i + j)) * INR (fact j)) m) = rseries m (Z.of_nat j + 1) x).
  { induction m as [|m IH]; intros j.
    - cbn. field. apply INR_fact_neq_0.
    - rewrite decomp_sum by lia. cbn [rseries pred]. rewrite Nat.add_0_l. f_equal; [cbn [pow]; field; apply INR_fact_neq_0|].
      replace (Z.of_nat j + 1 + 1)%Z with (Z.of_nat (S j) + 1)%Z by lia. rewrite <- IH.
      rewrite scal_sum. apply sum_eq. intros i _.
      replace (S i + j)%nat with (i + S j)%nat by lia. rewrite fact_simpl, mult_INR. cbn [pow].
      replace (IZR (Z.of_nat j + 1)) with (INR (S j)) by (rewrite <- INR_IZR_INZ || rewrite INR_IZR_INZ; f_equal; lia).
      field. split; [apply not_0_INR; lia|apply INR_fact_neq_0]. }
  destruct (Rle_lt_or_eq_dec 0 x Hx) as [Hx'|<-].
  - destruct (Taylor_Lagrange exp n 0 x Hx') as (z & Hz & E).
    { intros t _ [|k] _; [exact I|]. exists (exp t). apply (D (S k)). }
    exists (exp z). split.
    + split; [left; apply exp_pos|left; apply exp_increasing; lra].
    + rewrite E. rewrite (is_derive_n_unique _ _ _ _ (D (S n) z)). rewrite Rminus_0_r. f_equal.
      change 1%Z with (Z.of_nat 0 + 1)%Z. rewrite <- (Sm n 0%nat). apply sum_eq. intros i _. rewrite (is_derive_n_unique _ _ _ _ (D i 0)), exp_0. rewrite Nat.add_0_r. cbn [fact]. cbn [INR]. field. apply INR_fact_neq_0.
  - exists 0. rewrite exp_0. split; [lra|]. destruct n; cbn [rseries]; lra.
Qed.
Lemma exp_lower n q : (0 <= q)%Q -> Q2R (qseries n 1 q) <= exp (Q2R q).
Proof.
  intros H. assert (H' : 0 <= Q2R q) by (rewrite <- RMicromega.Q2R_0; apply Qle_Rle; exact H).
  destruct (exp_series n (Q2R q) H') as (r & Hr & E). rewrite E, qseries_ok by lia.
  assert (0 <= Q2R q ^ S n / INR (fact (S n)) * r); [|lra].
  apply Rmult_le_pos; [|lra]. apply Rmult_le_pos; [apply pow_le; lra|]. left. apply Rinv_0_lt_compat, INR_fact_lt_0.
Qed.
Fixpoint qpf (n : nat) (q : Q) : Q := match n with O => 1 | S n' => qpf n' q * q * (1 # Pos.of_nat n) end%Q.
Lemma qpf_ok n q : Q2R (qpf n q) = Q2R q ^ n / INR (fact n).
Proof.
  induction n as [|n IH]; cbn [qpf]; [rewrite RMicromega.Q2R_1; cbn; field|].
  rewrite !Q2R_mult, IH. rewrite fact_simpl, mult_INR.
  assert (E : Q2R (1 # Pos.of_nat (S n)) = / INR (S n)).
  { unfold Q2R. cbn [Qnum Qden]. rewrite INR_IZR_INZ. rewrite Rmult_1_l. do 2 f_equal. rewrite <- (Nat2Pos.id (S n)) at 2 by lia. symmetry. apply positive_nat_Z. }
  rewrite E. cbn [pow]. field. split; [apply INR_fact_neq_0|apply not_0_INR; lia].
Qed.
(** if the remainder factor is at most e < 1 then exp q <= series / (1 - e) *)
Lemma exp_upper n q : (0 <= q)%Q -> (qpf (S n) q < 1)%Q -> exp (Q2R q) * (1 - Q2R (qpf (S n) q)) <= Q2R (qseries n 1 q).
Proof.
  intros H L. assert (H' : 0 <= Q2R q) by (rewrite <- RMicromega.Q2R_0; apply Qle_Rle; exact H).
  destruct (exp_series n (Q2R q) H') as (r & Hr & E). rewrite qseries_ok by lia. rewrite qpf_ok.
  set (a := Q2R q ^ S n / INR (fact (S n))) in *.
  assert (0 <= a) by (apply Rmult_le_pos; [apply pow_le; lra|left; apply Rinv_0_lt_compat, INR_fact_lt_0]).
  assert (a * r <= a * exp (Q2R q)) by (apply Rmult_le_compat_l; lra). lra.
Qed.

(** ** The stationary point of x^a / (e^x - 1) *)
Section Peak.
Variable a : R.
Hypothesis Ha : 1 < a.
Definition planck (x : R) : R := Rpower x a / (exp x - 1).
Definition w (x : R) : R := exp x * (a - x) - a.

Lemma w_der x : is_derive w x (exp x * (a - 1 - x)).
Proof. unfold w. auto_derive; [exact I|]. ring. Qed.
(** w rises on [0, a-1] and falls afterwards *)
Lemma w_up x y : 0 <= x -> x < y -> y <= a - 1 -> w x < w y.
Proof.
  intros H1 H2 H3. destruct (MVT_gen w x y (fun x => exp x * (a - 1 - x))) as (c & Hc & E).
  { intros z _. apply w_der. } { intros z _. apply continuity_pt_filterlim. apply (ex_derive_continuous w). eexists. apply w_der. }
  rewrite Rmin_left, Rmax_right in Hc by lra.
  destruct (Req_dec c (a - 1)) as [->|N].
  - (* the mean value point cannot be the end: use the midpoint *)
    exfalso. assert (y = a - 1) by lra. subst y.
    destruct (MVT_gen w x ((x + (a - 1)) / 2) (fun x => exp x * (a - 1 - x))) as (c1 & Hc1 & E1).
    { intros z _. apply w_der. } { intros z _. apply continuity_pt_filterlim. apply (ex_derive_continuous w). eexists. apply w_der. }
    destruct (MVT_gen w ((x + (a - 1)) / 2) (a - 1) (fun x => exp x * (a - 1 - x))) as (c2 & Hc2 & E2).
    { intros z _. apply w_der. } { intros z _. apply continuity_pt_filterlim. apply (ex_derive_continuous w). eexists. apply w_der. }
    rewrite Rmin_left, Rmax_right in Hc1 by lra. rewrite Rmin_left, Rmax_right in Hc2 by lra.
    assert (0 < exp c1 * (a - 1 - c1) * ((x + (a - 1)) / 2 - x)).
    { apply Rmult_lt_0_compat; [|lra]. apply Rmult_lt_0_compat; [apply exp_pos|lra]. }
    assert (0 <= exp c2 * (a - 1 - c2) * (a - 1 - (x + (a - 1)) / 2)).
    { apply Rmult_le_pos; [|lra]. apply Rmult_le_pos; [left; apply exp_pos|lra]. }
    assert (Z : exp (a - 1) * (a - 1 - (a - 1)) * (a - 1 - x) = 0) by ring. lra.
  - assert (0 < exp c * (a - 1 - c) * (y - x)); [|lra]. apply Rmult_lt_0_compat; [|lra]. apply Rmult_lt_0_compat; [apply exp_pos|lra].
Qed.
Lemma w_down x y : a - 1 < x -> x < y -> w y < w x.
Proof.
  intros H1 H2. destruct (MVT_gen w x y (fun x => exp x * (a - 1 - x))) as (c & Hc & E).
  { intros z _. apply w_der. } { intros z _. apply continuity_pt_filterlim. apply (ex_derive_continuous w). eexists. apply w_der. }
  rewrite Rmin_left, Rmax_right in Hc by lra.
  assert (0 < exp c * (c - (a - 1)) * (y - x)); [|lra]. apply Rmult_lt_0_compat; [|lra]. apply Rmult_lt_0_compat; [apply exp_pos|lra].
Qed.
Lemma w_0 : w 0 = 0. Proof. unfold w. rewrite exp_0. ring. Qed.
Lemma w_a : w a = - a. Proof. unfold w. ring. Qed.

(** a unique positive zero, after which w is negative and before which it is positive *)
Lemma w_root : exists x0, a - 1 < x0 < a /\ w x0 = 0 /\ (forall x, 0 < x < x0 -> 0 < w x) /\ (forall x, x0 < x -> w x < 0).
Proof.
  assert (P : 0 < w (a - 1)) by (rewrite <- w_0; apply w_up; lra).
  destruct (IVT_gen w (a - 1) a 0) as (x0 & Hx & E).
  { intros z. apply continuity_pt_filterlim. apply (ex_derive_continuous w). eexists. apply w_der. }
  { rewrite w_a. rewrite Rmin_right, Rmax_left by lra. lra. }
  rewrite Rmin_left, Rmax_right in Hx by lra.
  assert (x0 <> a - 1) by (intros ->; lra). assert (x0 <> a) by (intros ->; rewrite w_a in E; lra).
  exists x0. split; [lra|]. split; [exact E|]. split.
  - intros x Hx0. destruct (Rle_lt_dec x (a - 1)) as [L|L]; [rewrite <- w_0; apply w_up; lra|rewrite <- E; apply w_down; lra].
  - intros x Hx0. rewrite <- E. apply w_down; lra.
Qed.

Lemma planck_der x : 0 < x -> is_derive planck x (Rpower x (a - 1) / (exp x - 1) ^ 2 * w x).
Proof.
  intros H. assert (exp x - 1 <> 0) by (pose proof (exp_ineq1 x ltac:(lra)); lra).
  unfold planck, Rpower, w. auto_derive; [lra|].
  assert (E : exp (a * ln x) = exp ((a - 1) * ln x) * x) by (rewrite <- (exp_ln x) at 3 by exact H; rewrite <- exp_plus; f_equal; ring).
  rewrite E. field. lra.
Qed.
Lemma planck_max : exists x0, a - 1 < x0 < a /\ exp x0 * (a - x0) = a /\ (forall x, 0 < x -> x <> x0 -> planck x < planck x0).
Proof.
  destruct w_root as (x0 & Hx & E & Pos & Neg). exists x0. split; [exact Hx|]. split; [unfold w in E; lra|].
  assert (C : forall z, 0 < z -> continuity_pt planck z).
  { intros z Hz. apply continuity_pt_filterlim. apply (ex_derive_continuous planck). eexists. apply planck_der, Hz. }
  assert (F : forall z, 0 < z -> 0 < Rpower z (a - 1) / (exp z - 1) ^ 2).
  { intros z Hz. apply Rmult_lt_0_compat; [apply exp_pos|]. apply Rinv_0_lt_compat. apply pow_lt. pose proof (exp_ineq1 z ltac:(lra)). lra. }
  (* non-strict on both sides, then strict by splitting at a midpoint *)
  assert (U : forall x y, 0 < x -> x < y -> y <= x0 -> planck x < planck y).
  { intros x y H1 H2 H3. 
    assert (V : forall p q, 0 < p -> p < q -> q <= x0 -> exists c, p <= c <= q /\ planck q - planck p = Rpower c (a - 1) / (exp c - 1) ^ 2 * w c * (q - p)).
    { intros p q P1 P2 P3. destruct (MVT_gen planck p q (fun x => Rpower x (a - 1) / (exp x - 1) ^ 2 * w x)) as (c & Hc & Ec).
      - intros z Hz. rewrite Rmin_left in Hz by lra. apply planck_der. lra.
      - intros z Hz. rewrite Rmin_left in Hz by lra. apply C. lra.
      - rewrite Rmin_left, Rmax_right in Hc by lra. eauto. }
    destruct (V x ((x + y) / 2)) as (c1 & Hc1 & E1); [lra..|]. destruct (V ((x + y) / 2) y) as (c2 & Hc2 & E2); [lra..|].
    assert (0 < Rpower c1 (a - 1) / (exp c1 - 1) ^ 2 * w c1 * ((x + y) / 2 - x)).
    { apply Rmult_lt_0_compat; [|lra]. apply Rmult_lt_0_compat; [apply F; lra|apply Pos; lra]. }
    assert (0 <= Rpower c2 (a - 1) / (exp c2 - 1) ^ 2 * w c2 * (y - (x + y) / 2)).
    { apply Rmult_le_pos; [|lra]. apply Rmult_le_pos; [left; apply F; lra|].
      destruct (Req_dec c2 x0) as [->|N]; [rewrite E; lra|left; apply Pos; lra]. }
    lra. }
  assert (D : forall x y, x0 <= x -> x < y -> planck y < planck x).
  { intros x y H1 H2. 
    assert (V : forall p q, x0 <= p -> p < q -> exists c, p <= c <= q /\ planck q - planck p = Rpower c (a - 1) / (exp c - 1) ^ 2 * w c * (q - p)).
    { intros p q P1 P2. destruct (MVT_gen planck p q (fun x => Rpower x (a - 1) / (exp x - 1) ^ 2 * w x)) as (c & Hc & Ec).
      - intros z Hz. rewrite Rmin_left in Hz by lra. apply planck_der. lra.
      - intros z Hz. rewrite Rmin_left in Hz by lra. apply C. lra.
      - rewrite Rmin_left, Rmax_right in Hc by lra. eauto. }
    destruct (V x ((x + y) / 2)) as (c1 & Hc1 & E1); [lra..|]. destruct (V ((x + y) / 2) y) as (c2 & Hc2 & E2); [lra..|].
    assert (0 < Rpower c2 (a - 1) / (exp c2 - 1) ^ 2 * (- w c2) * (y - (x + y) / 2)).
    { apply Rmult_lt_0_compat; [|lra]. apply Rmult_lt_0_compat; [apply F; lra|]. assert (w c2 < 0) by (apply Neg; lra). lra. }
    assert (0 <= Rpower c1 (a - 1) / (exp c1 - 1) ^ 2 * (- w c1) * ((x + y) / 2 - x)).
    { apply Rmult_le_pos; [|lra]. apply Rmult_le_pos; [left; apply F; lra|].
      destruct (Req_dec c1 x0) as [->|N]; [rewrite E; lra|]. assert (w c1 < 0) by (apply Neg; lra). lra. }
    lra. }
  intros x H N. destruct (Rlt_le_dec x x0) as [L|L]; [apply U; lra|apply D; lra].
Qed.
End Peak.

(** ** Locating the two maxima to eighteen decimals *)
Lemma bracket (a : R) (x0 lo hi : R) : 1 < a -> a - 1 < x0 < a -> exp x0 * (a - x0) = a ->
  a - 1 < lo -> a <= exp lo * (a - lo) -> exp hi * (a - hi) <= a -> a - 1 < hi -> lo <= x0 <= hi.
Proof.
  intros Ha Hx E Hlo Elo Ehi Hhi. split.
  - destruct (Rle_lt_dec lo x0) as [L|L]; [exact L|]. pose proof (w_down a x0 lo ltac:(lra) L) as W. unfold w in W. lra.
  - destruct (Rle_lt_dec x0 hi) as [L|L]; [exact L|]. pose proof (w_down a hi x0 ltac:(lra) L) as W. unfold w in W. lra.
Qed.
Definition q18 (z : Z) : Q := z # 1000000000000000000.
Lemma q18_R z : Q2R (q18 z) = IZR z / 10 ^ 18.
Proof. unfold Q2R, q18. cbn [Qnum Qden]. lra. Qed.
Lemma bracket_q (a : Z) z x0 : (1 < a)%Z -> IZR a - 1 < x0 < IZR a -> exp x0 * (IZR a - x0) = IZR a ->
  (inject_Z a - 1 < q18 (z - 1))%Q -> (q18 (z - 1) < inject_Z a)%Q -> (q18 (z + 1) < inject_Z a)%Q ->
  (inject_Z a <= qseries 45 1 (q18 (z - 1)) * (inject_Z a - q18 (z - 1)))%Q ->
  (qpf 46 (q18 (z + 1)) < 1)%Q ->
  (qseries 45 1 (q18 (z + 1)) * (inject_Z a - q18 (z + 1)) <= inject_Z a * (1 - qpf 46 (q18 (z + 1))))%Q ->
  Rabs (x0 - IZR z / 10 ^ 18) <= 1 / 10 ^ 18.
Proof.
  intros Ha Hx E L1 L2 L3 B1 B2 B3.
  assert (Ha' : 1 < IZR a) by (apply IZR_lt; exact Ha).
  assert (QA : Q2R (inject_Z a) = IZR a) by (unfold Q2R, inject_Z; cbn [Qnum Qden]; lra).
  pose proof (Qlt_Rlt _ _ L1) as L1'. rewrite Q2R_minus, QA, RMicromega.Q2R_1, q18_R in L1'.
  pose proof (Qlt_Rlt _ _ L2) as L2'. rewrite QA, q18_R in L2'.
  pose proof (Qlt_Rlt _ _ L3) as L3'. rewrite QA, q18_R in L3'.
  pose proof (Qle_Rle _ _ B1) as B1'. rewrite Q2R_mult, Q2R_minus, QA in B1'.
  pose proof (Qle_Rle _ _ B3) as B3'. rewrite !Q2R_mult, !Q2R_minus, QA, RMicromega.Q2R_1 in B3'.
  pose proof (Qlt_Rlt _ _ B2) as B2'. rewrite RMicromega.Q2R_1 in B2'.
  assert (P1 : (0 <= q18 (z - 1))%Q). { apply Rle_Qle. rewrite RMicromega.Q2R_0, q18_R. lra. }
  assert (P2 : (0 <= q18 (z + 1))%Q). { apply Rle_Qle. rewrite RMicromega.Q2R_0, q18_R. rewrite plus_IZR. rewrite minus_IZR in L1'. lra. }
  pose proof (exp_lower 45 _ P1) as X1. pose proof (exp_upper 45 _ P2 B2) as X2.
  rewrite q18_R in *. rewrite minus_IZR in *. rewrite plus_IZR in *.
  destruct (bracket (IZR a) x0 ((IZR z - 1) / 10 ^ 18) ((IZR z + 1) / 10 ^ 18)) as [K1 K2]; auto.
  - eapply Rle_trans; [exact B1'|]. apply Rmult_le_compat_r; [lra|exact X1].
  - set (e := Q2R (qpf 46 (q18 (z + 1)))) in *. apply (Rmult_le_reg_r (1 - e)); [lra|].
    eapply Rle_trans; [|exact B3']. 
    replace (exp ((IZR z + 1) / 10 ^ 18) * (IZR a - (IZR z + 1) / 10 ^ 18) * (1 - e))
      with (exp ((IZR z + 1) / 10 ^ 18) * (1 - e) * (IZR a - (IZR z + 1) / 10 ^ 18)) by ring.
    apply Rmult_le_compat_r; [lra|exact X2].
  - lra.
  - apply Rabs_le. lra.
Qed.

Theorem wien_wavelength : exists x0, (forall x, 0 < x -> x <> x0 -> planck 5 x < planck 5 x0) /\
  Rabs (x0 - 4965114231744276303 / 10 ^ 18) <= 1 / 10 ^ 18.
Proof.
  destruct (planck_max 5 ltac:(lra)) as (x0 & Hx & E & M). exists x0. split; [exact M|].
  apply (bracket_q 5 4965114231744276303 x0); auto; [lia|..]; vm_compute; first [reflexivity|discriminate].
Qed.
Theorem wien_frequency : exists x0, (forall x, 0 < x -> x <> x0 -> planck 3 x < planck 3 x0) /\
  Rabs (x0 - 2821439372122078893 / 10 ^ 18) <= 1 / 10 ^ 18.
Proof.
  destruct (planck_max 3 ltac:(lra)) as (x0 & Hx & E & M). exists x0. split; [exact M|].
  apply (bracket_q 3 2821439372122078893 x0); auto; [lia|..]; vm_compute; first [reflexivity|discriminate].
Qed.
