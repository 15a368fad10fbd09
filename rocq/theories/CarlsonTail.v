(** * The truncated series at the end of the duplication algorithm: error bounds *)
From Coq Require Import Reals Lra Lia Psatz.
From Coquelicot Require Import Rcomplements Rbar Hierarchy Continuity Derive RInt RInt_analysis AutoDerive ElemFct.
From Verif Require Import EllipSpec Improper Ellipr CarlsonDup.
Open Scope R_scope.

Ltac req := match goal with |- ?a = ?b => change (@eq R a b) end.
(** ** (1 + w)^(-1/2) *)
Lemma isq2 w : -1 / 4 <= w -> Rabs (/ sqrt (1 + w) - (1 - w / 2 + 3 / 8 * w ^ 2)) <= 41 / 100 * Rabs w ^ 3.
Proof.
  intros Hw. set (y := sqrt (1 + w)). assert (Y2 : y * y = 1 + w) by (apply sqrt_sqrt; lra). assert (Y0 : 0 <= y) by apply sqrt_pos. assert (Y1 : 433 / 500 <= y) by (destruct (Rle_dec (433 / 500) y); [assumption|nra]).
  clearbody y. replace w with (y * y - 1) by lra. clear w Hw Y2.
  replace (/ y - (1 - (y * y - 1) / 2 + 3 / 8 * (y * y - 1) ^ 2)) with ((1 - y) ^ 3 * ((8 + 9 * y + 3 * (y * y)) / (8 * y))) by (field; lra).
  replace (y * y - 1) with (- ((1 - y) * (1 + y))) by ring. rewrite Rabs_Ropp, !Rabs_mult, <- RPow_abs, Rpow_mult_distr. rewrite (Rabs_right (1 + y)) by lra.
  assert (P : 0 < (8 + 9 * y + 3 * (y * y)) / (8 * y)) by (apply Rdiv_lt_0_compat; nra). rewrite (Rabs_right ((8 + 9 * y + 3 * (y * y)) / (8 * y))) by lra.
  replace (41 / 100 * (Rabs (1 - y) ^ 3 * (1 + y) ^ 3)) with (Rabs (1 - y) ^ 3 * (41 / 100 * (1 + y) ^ 3)) by ring. apply Rmult_le_compat_l; [apply pow_le, Rabs_pos|].
  apply Rmult_le_reg_r with (8 * y); [lra|]. unfold Rdiv at 1. rewrite Rmult_assoc, Rinv_l, Rmult_1_r by lra. assert (exists e, 0 <= e /\ y = 433 / 500 + e) as (e & He & ->) by (exists (y - 433 / 500); lra).
  apply Rminus_le_0. match goal with |- 0 <= ?a => ring_simplify a end. nra.
Qed.
Lemma isq3 w : -1 / 4 <= w -> Rabs (/ sqrt (1 + w) - (1 - w / 2 + 3 / 8 * w ^ 2 - 5 / 16 * w ^ 3)) <= 3 / 5 * w ^ 4.
Proof.
  intros Hw. set (y := sqrt (1 + w)). assert (Y2 : y * y = 1 + w) by (apply sqrt_sqrt; lra). assert (Y0 : 0 <= y) by apply sqrt_pos. assert (Y1 : 4 / 5 <= y) by (destruct (Rle_dec (4 / 5) y); [assumption|nra]).
  clearbody y. replace w with (y * y - 1) by lra. clear w Hw Y2.
  replace (/ y - (1 - (y * y - 1) / 2 + 3 / 8 * (y * y - 1) ^ 2 - 5 / 16 * (y * y - 1) ^ 3)) with ((1 - y) ^ 4 * ((16 + 29 * y + 20 * (y * y) + 5 * (y * y * y)) / (16 * y))) by (field; lra).
  replace ((y * y - 1) ^ 4) with ((1 - y) ^ 4 * (1 + y) ^ 4) by ring. rewrite Rabs_mult. assert (P4 : 0 <= (1 - y) ^ 4) by (replace ((1 - y) ^ 4) with (((1 - y) ^ 2) ^ 2) by ring; apply pow2_ge_0).
  rewrite (Rabs_right ((1 - y) ^ 4)) by lra. assert (P : 0 < (16 + 29 * y + 20 * (y * y) + 5 * (y * y * y)) / (16 * y)) by (apply Rdiv_lt_0_compat; nra). rewrite Rabs_right by lra.
  replace (3 / 5 * ((1 - y) ^ 4 * (1 + y) ^ 4)) with ((1 - y) ^ 4 * (3 / 5 * (1 + y) ^ 4)) by ring. apply Rmult_le_compat_l; [exact P4|].
  apply Rmult_le_reg_r with (16 * y); [lra|]. unfold Rdiv at 1. rewrite Rmult_assoc, Rinv_l, Rmult_1_r by lra. assert (exists e, 0 <= e /\ y = 4 / 5 + e) as (e & He & ->) by (exists (y - 4 / 5); lra).
  apply Rminus_le_0. match goal with |- 0 <= ?a => ring_simplify a end. assert (0 <= e ^ 2) by nra. assert (0 <= e ^ 3) by (replace (e ^ 3) with (e ^ 2 * e) by ring; nra).
  assert (0 <= e ^ 4) by nra. assert (0 <= e ^ 5) by (replace (e ^ 5) with (e ^ 4 * e) by ring; nra). lra.
Qed.

(** ** Monomials in 1/sqrt(t+A) and sigma = A/(t+A) *)
Definition u (A t : R) : R := / sqrt (t + A).
Definition sg (A t : R) : R := A / (t + A).
Lemma sg_u A t : 0 < A -> 0 < t -> sg A t = A * u A t ^ 2.
Proof.
  intros HA Ht. unfold sg, u. assert (0 < sqrt (t + A)) by (apply sqrt_lt_R0; lra). replace (t + A) with (sqrt (t + A) ^ 2) at 1 by (apply pow2_sqrt; lra). field. lra.
Qed.
Lemma sg_range A t : 0 < A -> 0 < t -> 0 <= sg A t <= 1.
Proof.
  intros HA Ht. unfold sg. split; [apply Rlt_le, Rdiv_lt_0_compat; lra|]. apply Rmult_le_reg_r with (t + A); [lra|]. unfold Rdiv. rewrite Rmult_assoc, Rinv_l by lra. lra.
Qed.
Lemma mono A n k : 0 < A -> (1 <= n)%nat -> improper0 (fun t => / 2 * u A t ^ (n + 2) * sg A t ^ k) (/ INR (n + 2 * k) / sqrt A ^ n).
Proof.
  intros HA Hn. assert (HN : 0 < INR (n + 2 * k)) by (apply lt_0_INR; lia). assert (SA : 0 < sqrt A) by (apply sqrt_lt_R0, HA).
  assert (V : improper0 (fun t => A ^ k * (/ 2 * u A t ^ (n + 2 * k + 2))) (0 - - (A ^ k * u A 0 ^ (n + 2 * k) / INR (n + 2 * k)))).
  { apply improper0_derive with (F := fun t => - (A ^ k * u A t ^ (n + 2 * k) / INR (n + 2 * k))).
    - intros t Ht. assert (ST : 0 < sqrt (t + A)) by (apply sqrt_lt_R0; lra).
      assert (D : is_derive (u A) t (- / 2 * u A t ^ 3)). { unfold u. auto_derive; [repeat split; lra|]. field. lra. }
      assert (D2 : is_derive (fun t => u A t ^ (n + 2 * k)) t (INR (n + 2 * k) * u A t ^ (pred (n + 2 * k)) * (- / 2 * u A t ^ 3))).
      { evar_last; [apply (is_derive_pow (u A) (n + 2 * k) t), D|]. ring. }
      apply is_derive_ext with (fun t => - (A ^ k / INR (n + 2 * k)) * u A t ^ (n + 2 * k)); [intros s; req; unfold Rdiv; ring|].
      evar_last; [apply (is_derive_scal (fun t => u A t ^ (n + 2 * k))), D2|]. unfold scal; cbn; unfold mult; cbn.
      change (n + (k + (k + 0)))%nat with (n + 2 * k)%nat. assert (EN : (n + 2 * k + 2 = pred (n + 2 * k) + 3)%nat) by lia. rewrite EN, pow_add. cbn [pow]. req. field. lra.
    - intros t Ht. assert (ST : 0 < sqrt (t + A)) by (apply sqrt_lt_R0; lra). apply (ex_derive_continuous (fun t => A ^ k * (/ 2 * u A t ^ (n + 2 * k + 2))) t). unfold u. auto_derive. repeat split; lra.
    - apply (lim0_cont (fun t => - (A ^ k * u A t ^ (n + 2 * k) / INR (n + 2 * k)))). apply continuity_pt_filterlim.
      apply (ex_derive_continuous (fun t => - (A ^ k * u A t ^ (n + 2 * k) / INR (n + 2 * k))) 0). unfold u. auto_derive. rewrite Rplus_0_l. repeat split; lra.
    - apply limoo_0 with (C := A ^ k / INR (n + 2 * k)). intros t Ht. rewrite Rabs_Ropp. assert (ST : 0 < sqrt t) by (apply sqrt_lt_R0; lra). assert (S1 : 1 <= sqrt t) by (rewrite <- sqrt_1; apply sqrt_le_1_alt; lra).
      assert (S2 : sqrt t <= sqrt (t + A)) by (apply sqrt_le_1_alt; lra). assert (U0 : 0 < u A t) by (unfold u; apply Rinv_0_lt_compat; lra). assert (AK : 0 < A ^ k) by (apply pow_lt, HA).
      rewrite Rabs_right; [|apply Rle_ge, Rlt_le, Rdiv_lt_0_compat; [apply Rmult_lt_0_compat; [exact AK|apply pow_lt, U0]|exact HN]].
      assert (U1 : u A t <= / sqrt t) by (unfold u; apply Rinv_le_contravar; lra). assert (U2 : u A t <= 1) by (apply Rle_trans with (/ sqrt t); [exact U1|rewrite <- Rinv_1; apply Rinv_le_contravar; lra]).
      assert (U3 : u A t ^ (n + 2 * k) <= / sqrt t). { replace (n + 2 * k)%nat with (S (pred (n + 2 * k))) by lia. cbn [pow]. apply Rle_trans with (u A t * 1); [apply Rmult_le_compat_l; [lra|]|lra]. rewrite <- (pow1 (pred (n + 2 * k))). apply pow_incr. lra. }
      unfold Rdiv. rewrite (Rmult_assoc (A ^ k)), (Rmult_assoc (A ^ k)). apply Rmult_le_compat_l; [lra|]. rewrite Rmult_comm. apply Rmult_le_compat_l; [left; apply Rinv_0_lt_compat, HN|exact U3]. }
  replace (/ INR (n + 2 * k) / sqrt A ^ n) with (0 - - (A ^ k * u A 0 ^ (n + 2 * k) / INR (n + 2 * k))).
  - eapply improper0_ext; [|exact V]. intros t Ht. cbn beta. rewrite sg_u by assumption. rewrite Rpow_mult_distr, <- pow_mult. replace (n + 2 * k + 2)%nat with (n + 2 + 2 * k)%nat by lia. rewrite (pow_add (u A t) (n + 2)). ring.
  - unfold u. rewrite Rplus_0_l, pow_add, pow_inv, pow_inv, (pow_mult (sqrt A)), pow2_sqrt by lra. assert (A ^ k <> 0) by (apply pow_nonzero; lra). assert (sqrt A ^ n <> 0) by (apply pow_nonzero; lra). field. repeat split; lra.
Qed.

Fixpoint ev (cs : list R) (k : nat) (s : R) : R := match cs with nil => 0 | cons c r => c * s ^ k + ev r (S k) s end.
Fixpoint iv (cs : list R) (k n : nat) : R := match cs with nil => 0 | cons c r => c / INR (n + 2 * k) + iv r (S k) n end.
Lemma mono_sum A n : 0 < A -> (1 <= n)%nat -> forall cs k, improper0 (fun t => / 2 * u A t ^ (n + 2) * ev cs k (sg A t)) (iv cs k n / sqrt A ^ n).
Proof.
  intros HA Hn. assert (SA : 0 < sqrt A) by (apply sqrt_lt_R0, HA). assert (sqrt A ^ n <> 0) by (apply pow_nonzero; lra).
  induction cs as [|c r IH]; intros k; cbn [ev iv].
  - pose proof (improper0_scal _ 0 _ (mono A n 0 HA Hn)) as H0. replace (0 / sqrt A ^ n) with (0 * (/ INR (n + 2 * 0) / sqrt A ^ n)) by (unfold Rdiv; ring). eapply improper0_ext; [|exact H0]. intros t _. cbn beta. ring.
  - pose proof (improper0_plus _ _ _ _ (improper0_scal _ c _ (mono A n k HA Hn)) (IH (S k))) as H1. replace ((c / INR (n + 2 * k) + iv r (S k) n) / sqrt A ^ n) with (c * (/ INR (n + 2 * k) / sqrt A ^ n) + iv r (S k) n / sqrt A ^ n) by (unfold Rdiv; ring).
    eapply improper0_ext; [|exact H1]. intros t _. cbn beta. ring.
Qed.

(** ** The integrand near equal arguments *)
Lemma sqrt_arg A X t : 0 < A -> 0 < t -> Rabs X <= 1 / 4 -> sqrt (t + A * (1 - X)) = sqrt (1 - sg A t * X) / u A t /\ 0 < 1 - sg A t * X /\ 0 < u A t.
Proof.
  intros HA Ht HX. pose proof (sg_range A t HA Ht) as S. apply Rabs_le_between in HX. assert (P : 0 < 1 - sg A t * X) by nra. assert (ST : 0 < sqrt (t + A)) by (apply sqrt_lt_R0; lra).
  split; [|split; [exact P|unfold u; apply Rinv_0_lt_compat, ST]]. replace (t + A * (1 - X)) with ((1 - sg A t * X) * (t + A)) by (unfold sg; field; lra). rewrite sqrt_mult_alt by lra. unfold u. field. lra.
Qed.
Lemma kern_arg A X Y Z t : 0 < A -> 0 < t -> Rabs X <= 1 / 4 -> Rabs Y <= 1 / 4 -> Rabs Z <= 1 / 4 ->
  kern (A * (1 - X)) (A * (1 - Y)) (A * (1 - Z)) t = u A t ^ 3 * / sqrt ((1 - sg A t * X) * (1 - sg A t * Y) * (1 - sg A t * Z)).
Proof.
  intros HA Ht HX HY HZ. destruct (sqrt_arg A X t HA Ht HX) as (EX & PX & U). destruct (sqrt_arg A Y t HA Ht HY) as (EY & PY & _). destruct (sqrt_arg A Z t HA Ht HZ) as (EZ & PZ & _).
  unfold kern. rewrite EX, EY, EZ. rewrite sqrt_mult_alt by (apply Rlt_le, Rmult_lt_0_compat; assumption). rewrite sqrt_mult_alt by lra.
  apply sqrt_lt_R0 in PX. apply sqrt_lt_R0 in PY. apply sqrt_lt_R0 in PZ. field. repeat split; lra.
Qed.
Lemma abs_le_pow a b : Rabs a <= b -> 0 <= b /\ - b <= a <= b.
Proof. intros H. pose proof (Rabs_pos a). apply Rabs_le_between in H. lra. Qed.
Lemma abs_mul a b A B : Rabs a <= A -> Rabs b <= B -> Rabs (a * b) <= A * B.
Proof. intros. rewrite Rabs_mult. apply Rmult_le_compat; try apply Rabs_pos; assumption. Qed.
Lemma abs_add a b A B : Rabs a <= A -> Rabs b <= B -> Rabs (a + b) <= A + B.
Proof. intros. eapply Rle_trans; [apply Rabs_triang|lra]. Qed.
Lemma abs_sub a b A B : Rabs a <= A -> Rabs b <= B -> Rabs (a - b) <= A + B.
Proof. intros. unfold Rminus. apply abs_add; [|rewrite Rabs_Ropp]; assumption. Qed.

Lemma core3 q2 q3 m : 0 <= m <= 1 / 4 -> Rabs q2 <= m ^ 2 -> Rabs q3 <= m ^ 3 ->
  Rabs (/ sqrt (1 + (q2 - q3)) - (1 - q2 / 2 + q3 / 2 + 3 / 8 * q2 ^ 2 - 3 / 4 * (q2 * q3))) <= 6 / 5 * m ^ 6.
Proof.
  intros Hm H2 H3. assert (M2 : 0 <= m ^ 2 <= 1 / 16) by nra. assert (M3 : m ^ 3 <= m ^ 2 / 4) by nra. assert (Hw : Rabs (q2 - q3) <= 5 / 4 * m ^ 2) by (eapply Rle_trans; [apply abs_sub; eassumption|lra]).
  assert (W : -1 / 4 <= q2 - q3) by (apply Rabs_le_between in Hw; lra). pose proof (isq2 _ W) as B.
  set (r := / sqrt (1 + (q2 - q3))) in *. clearbody r.
  replace (r - (1 - q2 / 2 + q3 / 2 + 3 / 8 * q2 ^ 2 - 3 / 4 * (q2 * q3))) with ((r - (1 - (q2 - q3) / 2 + 3 / 8 * (q2 - q3) ^ 2)) + 3 / 8 * (q3 * q3)) by field.
  assert (B3 : Rabs (3 / 8 * (q3 * q3)) <= 3 / 8 * (m ^ 3 * m ^ 3)) by (apply abs_mul; [rewrite Rabs_right; lra|apply abs_mul; assumption]).
  assert (Bw : Rabs (q2 - q3) ^ 3 <= (5 / 4 * m ^ 2) ^ 3) by (apply pow_incr; split; [apply Rabs_pos|exact Hw]).
  eapply Rle_trans; [apply abs_add; [exact B|exact B3]|]. assert (0 <= m ^ 6) by (apply pow_le; lra). apply Rle_trans with (41 / 100 * (5 / 4 * m ^ 2) ^ 3 + 3 / 8 * (m ^ 3 * m ^ 3)); [lra|].
  replace ((5 / 4 * m ^ 2) ^ 3) with (125 / 64 * m ^ 6) by field. replace (m ^ 3 * m ^ 3) with (m ^ 6) by ring. lra.
Qed.
Lemma E2_bound X Y M : Rabs X <= M -> Rabs Y <= M -> Rabs (X + Y) <= M -> X * X + X * Y + Y * Y <= M ^ 2.
Proof.
  intros HX HY HZ. apply abs_le_pow in HX as [HM HX]. apply Rabs_le_between in HY. apply Rabs_le_between in HZ.
  destruct (Rle_dec 0 X), (Rle_dec 0 Y), (Rle_dec 0 (X + Y)); nra.
Qed.
Lemma tail_RF A X Y Z M v : 0 < A -> X + Y + Z = 0 -> Rabs X <= M -> Rabs Y <= M -> Rabs Z <= M -> M <= 1 / 4 ->
  carlson_RF (A * (1 - X)) (A * (1 - Y)) (A * (1 - Z)) v -> Rabs (tail_rf X Y A - v) <= / 10 * M ^ 6 * v /\ 0 < v.
Proof.
  intros HA S0 HX HY HZ HM V. assert (M0 : 0 <= M) by (pose proof (Rabs_pos X); lra). assert (EZ : Z = - (X + Y)) by lra.
  set (E2 := X * Y - Z * Z). set (E3 := X * Y * Z).
  assert (B2 : Rabs E2 <= M ^ 2). { unfold E2. assert (X * X + X * Y + Y * Y <= M ^ 2) by (apply E2_bound; try assumption; rewrite <- Rabs_Ropp, <- EZ; exact HZ). rewrite EZ. apply Rabs_le. nra. }
  assert (B3 : Rabs E3 <= M ^ 3) by (unfold E3; replace (M ^ 3) with (M * M * M) by ring; repeat apply abs_mul; assumption).
  assert (SA : 0 < sqrt A) by (apply sqrt_lt_R0, HA).
  set (pt := 1 - E2 / 10 + E2 * E2 / 24 + E3 / 14 - E2 * E3 * (3 / 44)).
  assert (P : improper0 (fun t => / 2 * u A t ^ (1 + 2) * ev (cons 1 (cons 0 (cons (- E2 / 2) (cons (E3 / 2) (cons (3 / 8 * E2 ^ 2) (cons (- (3 / 4) * (E2 * E3)) nil)))))) 0 (sg A t)) (pt / sqrt A)).
  { pose proof (mono_sum A 1 HA (le_n 1) (cons 1 (cons 0 (cons (- E2 / 2) (cons (E3 / 2) (cons (3 / 8 * E2 ^ 2) (cons (- (3 / 4) * (E2 * E3)) nil)))))) 0) as V1.
    match type of V1 with improper0 _ ?a => replace (pt / sqrt A) with a by (unfold pt; cbn [iv INR Nat.add Nat.mul pow]; field; lra) end. exact V1. }
  assert (Qi : improper0 (fun t => 6 / 5 * M ^ 6 * (/ 2 * u A t ^ 3 * sg A t ^ 6)) (6 / 5 * M ^ 6 * (/ INR (1 + 2 * 6) / sqrt A ^ 1))) by (apply improper0_scal, (mono A 1 6); [exact HA|lia]).
  assert (B : Rabs (v - pt / sqrt A) <= 6 / 5 * M ^ 6 * (/ INR (1 + 2 * 6) / sqrt A ^ 1)).
  { refine (improper0_bound _ _ _ _ _ _ _ V P Qi). intros t Ht. pose proof (sg_range A t HA Ht) as Sr. pose proof (kern_arg A X Y Z t HA Ht ltac:(lra) ltac:(lra) ltac:(lra)) as K. unfold kern in K.
    destruct (sqrt_arg A X t HA Ht ltac:(lra)) as (_ & _ & U0).
    assert (Sx : forall a, Rabs a <= M -> sqrt (t + A * (1 - a)) <> 0). { intros a Ha. apply Rgt_not_eq, sqrt_lt_R0. apply abs_le_pow in Ha. nra. }
    replace (1 / (2 * (sqrt (t + A * (1 - X)) * sqrt (t + A * (1 - Y)) * sqrt (t + A * (1 - Z))))) with (/ 2 * / (sqrt (t + A * (1 - X)) * sqrt (t + A * (1 - Y)) * sqrt (t + A * (1 - Z)))) by (field; repeat split; apply Sx; assumption).
    rewrite K. cbn [ev]. change (1 + 2)%nat with 3%nat. set (s := sg A t) in *. set (U := u A t) in *.
    replace ((1 - s * X) * (1 - s * Y) * (1 - s * Z)) with (1 + (E2 * s ^ 2 - E3 * s ^ 3)) by (unfold E2, E3; rewrite EZ; ring).
    match goal with |- Rabs ?a <= _ => replace a with (/ 2 * U ^ 3 * (/ sqrt (1 + (E2 * s ^ 2 - E3 * s ^ 3)) - (1 - E2 * s ^ 2 / 2 + E3 * s ^ 3 / 2 + 3 / 8 * (E2 * s ^ 2) ^ 2 - 3 / 4 * ((E2 * s ^ 2) * (E3 * s ^ 3))))) by (field; apply Rgt_not_eq; apply sqrt_lt_R0;
      replace (1 + (E2 * s ^ 2 - E3 * s ^ 3)) with ((1 - s * X) * (1 - s * Y) * (1 - s * Z)) by (unfold E2, E3; rewrite EZ; ring); repeat apply Rmult_lt_0_compat; apply abs_le_pow in HX; apply abs_le_pow in HY; apply abs_le_pow in HZ; nra) end.
    rewrite Rabs_mult. assert (P3 : 0 < / 2 * U ^ 3) by (apply Rmult_lt_0_compat; [lra|apply pow_lt, U0]). rewrite (Rabs_right (/ 2 * U ^ 3)) by lra.
    replace (6 / 5 * M ^ 6 * (/ 2 * U ^ 3 * s ^ 6)) with (/ 2 * U ^ 3 * (6 / 5 * (M * s) ^ 6)) by ring. apply Rmult_le_compat_l; [lra|]. apply core3.
    - nra.
    - rewrite Rpow_mult_distr. apply abs_mul; [exact B2|]. rewrite Rabs_right; [lra|]. apply Rle_ge, pow_le; lra.
    - rewrite Rpow_mult_distr. apply abs_mul; [exact B3|]. rewrite Rabs_right; [lra|]. apply Rle_ge, pow_le; lra. }
  assert (Lp : 98 / 100 <= pt).
  { unfold pt. assert (M2 : M ^ 2 <= 1 / 16) by nra. assert (M3 : M ^ 3 <= 1 / 64) by nra. apply abs_le_pow in B2. apply abs_le_pow in B3.
    assert (Rabs (E2 * E3) <= 1 / 16 * (1 / 64)) as B23 by (apply abs_mul; apply Rabs_le; lra). apply abs_le_pow in B23. pose proof (Rle_0_sqr E2) as Sq. unfold Rsqr in Sq. lra. }
  assert (M6 : M ^ 6 <= / 4096). { replace (/ 4096) with ((1 / 4) ^ 6) by field. apply pow_incr. lra. } assert (M60 : 0 <= M ^ 6) by (apply pow_le, M0).
  replace (INR (1 + 2 * 6)) with 13 in B by (cbn; ring). rewrite pow_1 in B.
  assert (Lv : 97 / 100 / sqrt A <= v). { apply abs_le_pow in B as [_ B]. assert (0 < / sqrt A) by (apply Rinv_0_lt_compat, SA). unfold Rdiv in *. assert (6 * / 5 * M ^ 6 * (/ 13 * / sqrt A) <= 1 / 100 * / sqrt A) by nra. nra. }
  assert (IA : 0 < / sqrt A) by (apply Rinv_0_lt_compat, SA). split; [|unfold Rdiv in Lv; nra].
  change (tail_rf X Y A) with ((1 - (X * Y - - (X + Y) * - (X + Y)) / 10 + (X * Y - - (X + Y) * - (X + Y)) * (X * Y - - (X + Y) * - (X + Y)) / 24 + X * Y * - (X + Y) / 14 - (X * Y - - (X + Y) * - (X + Y)) * (X * Y * - (X + Y)) * (3 / 44)) / sqrt A).
  rewrite <- EZ. fold E2 E3. fold pt. rewrite Rabs_minus_sym. eapply Rle_trans; [exact B|]. replace (6 / 5 * M ^ 6 * (/ 13 / sqrt A)) with (M ^ 6 * (6 / 65 * / sqrt A)) by (field; lra).
  rewrite (Rmult_comm (/ 10)), Rmult_assoc. apply Rmult_le_compat_l; [exact M60|]. unfold Rdiv in *. lra.
Qed.

Lemma core5 q2 q3 q4 q5 m : 0 <= m <= 1 / 5 -> Rabs q2 <= 5 / 2 * m ^ 2 -> Rabs q3 <= 5 / 3 * m ^ 3 -> Rabs q4 <= 25 / 8 * m ^ 4 -> Rabs q5 <= m ^ 5 ->
  Rabs (/ sqrt (1 + (q2 - q3 + q4 - q5)) - (1 - q2 / 2 + q3 / 2 + (3 / 8 * q2 ^ 2 - q4 / 2) + (- (3 / 4) * (q2 * q3) + q5 / 2))) <= 39 / 2 * m ^ 6.
Proof.
  intros Hm H2 H3 H4 H5. assert (M2 : 0 <= m ^ 2 <= 1 / 25) by nra. assert (M3 : 0 <= m ^ 3 <= m ^ 2 / 5) by nra.
  assert (M4 : 0 <= m ^ 4 <= m ^ 3 / 5) by (replace (m ^ 4) with (m * m ^ 3) by ring; nra). assert (M5 : 0 <= m ^ 5 <= m ^ 4 / 5) by (replace (m ^ 5) with (m * m ^ 4) by ring; nra).
  set (h := q2 - q3). set (g := q4 - q5).
  assert (Hh : Rabs h <= 17 / 6 * m ^ 2) by (eapply Rle_trans; [apply abs_sub; eassumption|lra]). assert (Hg : Rabs g <= 133 / 40 * m ^ 4) by (eapply Rle_trans; [apply abs_sub; eassumption|lra]).
  assert (EW : h + q4 - q5 = h + g) by (unfold g; ring). rewrite EW.
  assert (Hw : Rabs (h + g) <= 3 * m ^ 2) by (eapply Rle_trans; [apply abs_add; eassumption|]; lra).
  assert (W : -1 / 4 <= h + g) by (apply Rabs_le_between in Hw; lra). pose proof (isq2 _ W) as B. set (r := / sqrt (1 + (h + g))) in *. clearbody r.
  replace (r - (1 - q2 / 2 + q3 / 2 + (3 / 8 * q2 ^ 2 - q4 / 2) + (- (3 / 4) * (q2 * q3) + q5 / 2))) with ((r - (1 - (h + g) / 2 + 3 / 8 * (h + g) ^ 2)) + 3 / 8 * (q3 * q3 + 2 * (g * h) + g * g)) by (unfold h, g; field).
  assert (B3 : Rabs (3 / 8 * (q3 * q3 + 2 * (g * h) + g * g)) <= 3 / 8 * ((5 / 3 * m ^ 3) * (5 / 3 * m ^ 3) + 2 * ((133 / 40 * m ^ 4) * (17 / 6 * m ^ 2)) + (133 / 40 * m ^ 4) * (133 / 40 * m ^ 4))).
  { apply abs_mul; [rewrite Rabs_right; lra|]. apply abs_add; [apply abs_add; [apply abs_mul; assumption|apply abs_mul; [rewrite Rabs_right; lra|apply abs_mul; assumption]]|apply abs_mul; assumption]. }
  assert (Bw : Rabs (h + g) ^ 3 <= (3 * m ^ 2) ^ 3) by (apply pow_incr; split; [apply Rabs_pos|exact Hw]).
  eapply Rle_trans; [apply abs_add; [exact B|exact B3]|]. assert (M6 : 0 <= m ^ 6) by (apply pow_le; lra).
  assert (M8 : m ^ 8 <= m ^ 6 / 25) by (replace (m ^ 8) with (m ^ 6 * m ^ 2) by ring; nra).
  apply Rle_trans with (41 / 100 * (3 * m ^ 2) ^ 3 + 3 / 8 * ((5 / 3 * m ^ 3) * (5 / 3 * m ^ 3) + 2 * ((133 / 40 * m ^ 4) * (17 / 6 * m ^ 2)) + (133 / 40 * m ^ 4) * (133 / 40 * m ^ 4))); [lra|].
  replace ((3 * m ^ 2) ^ 3) with (27 * m ^ 6) by ring. replace ((5 / 3 * m ^ 3) * (5 / 3 * m ^ 3)) with (25 / 9 * m ^ 6) by field. replace ((133 / 40 * m ^ 4) * (17 / 6 * m ^ 2)) with (133 / 40 * (17 / 6) * m ^ 6) by field.
  replace ((133 / 40 * m ^ 4) * (133 / 40 * m ^ 4)) with (133 / 40 * (133 / 40) * m ^ 8) by field. lra.
Qed.
Lemma pow_bound X M k : Rabs X <= M -> Rabs (X ^ k) <= M ^ k.
Proof. intros H. rewrite <- RPow_abs. apply pow_incr. split; [apply Rabs_pos|exact H]. Qed.
Lemma even_pow X k : 0 <= X ^ (2 * k).
Proof. rewrite pow_mult. apply pow_le, pow2_ge_0. Qed.
Lemma tail_RJ A X Y Z P M v : 0 < A -> P = (- X - Y - Z) / 2 -> Rabs X <= M -> Rabs Y <= M -> Rabs Z <= M -> Rabs P <= M -> M <= 1 / 5 ->
  carlson_RJ (A * (1 - X)) (A * (1 - Y)) (A * (1 - Z)) (A * (1 - P)) v -> Rabs (tail_rj X Y Z / A / sqrt A - v) <= 5 * M ^ 6 * v /\ 0 < v.
Proof.
  intros HA EP HX HY HZ HP HM V. assert (M0 : 0 <= M) by (pose proof (Rabs_pos X); lra).
  set (E2 := X * Y + X * Z + Y * Z - 3 * P * P). set (E3 := X * Y * Z + 2 * E2 * P + 4 * P * P * P). set (E4 := (2 * X * Y * Z + E2 * P + 3 * P * P * P) * P). set (E5 := X * Y * Z * P * P).
  assert (I2 : E2 = - (X ^ 2 + Y ^ 2 + Z ^ 2 + 2 * P ^ 2) / 2) by (unfold E2; rewrite EP; field). assert (I3 : E3 = (X ^ 3 + Y ^ 3 + Z ^ 3 + 2 * P ^ 3) / 3) by (unfold E3, E2; rewrite EP; field).
  assert (I4 : E4 = (2 * E2 ^ 2 - (X ^ 4 + Y ^ 4 + Z ^ 4 + 2 * P ^ 4)) / 4) by (unfold E4, E2; rewrite EP; field).
  pose proof (fun k => pow_bound X M k HX) as KX. pose proof (fun k => pow_bound Y M k HY) as KY. pose proof (fun k => pow_bound Z M k HZ) as KZ. pose proof (fun k => pow_bound P M k HP) as KP.
  assert (N2 : E2 <= 0). { rewrite I2. pose proof (even_pow X 1). pose proof (even_pow Y 1). pose proof (even_pow Z 1). pose proof (even_pow P 1). cbn [Nat.mul Nat.add] in *. lra. }
  assert (B2 : Rabs E2 <= 5 / 2 * M ^ 2). { pose proof (KX 2%nat) as a. pose proof (KY 2%nat) as b. pose proof (KZ 2%nat) as c. pose proof (KP 2%nat) as d. apply abs_le_pow in a. apply abs_le_pow in b. apply abs_le_pow in c. apply abs_le_pow in d. apply Rabs_le. rewrite I2. lra. }
  assert (B3 : Rabs E3 <= 5 / 3 * M ^ 3). { pose proof (KX 3%nat) as a. pose proof (KY 3%nat) as b. pose proof (KZ 3%nat) as c. pose proof (KP 3%nat) as d. apply abs_le_pow in a. apply abs_le_pow in b. apply abs_le_pow in c. apply abs_le_pow in d. apply Rabs_le. rewrite I3. lra. }
  assert (B4 : Rabs E4 <= 25 / 8 * M ^ 4). { pose proof (KX 4%nat) as a. pose proof (KY 4%nat) as b. pose proof (KZ 4%nat) as c. pose proof (KP 4%nat) as d. apply abs_le_pow in a. apply abs_le_pow in b. apply abs_le_pow in c. apply abs_le_pow in d.
    pose proof (even_pow X 2). pose proof (even_pow Y 2). pose proof (even_pow Z 2). pose proof (even_pow P 2). cbn [Nat.mul Nat.add] in *. pose proof (pow_bound _ _ 2 B2) as e. apply abs_le_pow in e. pose proof (pow2_ge_0 E2).
    replace ((5 / 2 * M ^ 2) ^ 2) with (25 / 4 * M ^ 4) in e by field. apply Rabs_le. rewrite I4. lra. }
  assert (B5 : Rabs E5 <= M ^ 5) by (unfold E5; replace (M ^ 5) with (M * M * M * M * M) by ring; repeat apply abs_mul; assumption).
  assert (SA : 0 < sqrt A) by (apply sqrt_lt_R0, HA).
  set (cs := cons 3 (cons 0 (cons (- 3 * E2 / 2) (cons (3 * E3 / 2) (cons (9 / 8 * E2 ^ 2 - 3 * E4 / 2) (cons (- (9 / 4) * (E2 * E3) + 3 * E5 / 2) nil)))))).
  set (pt := 1 - E2 * (3 / 14) + E3 / 6 + E2 * E2 * (9 / 88) - E4 * (3 / 22) - E2 * E3 * (9 / 52) + E5 * (3 / 26)).
  assert (A3 : A * sqrt A = sqrt A ^ 3) by (replace A with (sqrt A * sqrt A) at 1 by (apply sqrt_sqrt; lra); ring). assert (S3 : 0 < sqrt A ^ 3) by (apply pow_lt, SA).
  assert (Pi : improper0 (fun t => / 2 * u A t ^ (3 + 2) * ev cs 0 (sg A t)) (pt / sqrt A ^ 3)).
  { pose proof (mono_sum A 3 HA ltac:(lia) cs 0) as V1. match type of V1 with improper0 _ ?a => replace (pt / sqrt A ^ 3) with a; [exact V1|] end. f_equal. unfold pt, cs. cbn [iv INR Nat.add Nat.mul]. field. }
  assert (Qi : improper0 (fun t => 117 / 2 * M ^ 6 * (/ 2 * u A t ^ 5 * sg A t ^ 6)) (117 / 2 * M ^ 6 * (/ INR (3 + 2 * 6) / sqrt A ^ 3))) by (apply improper0_scal, (mono A 3 6); [exact HA|lia]).
  assert (B : Rabs (v - pt / sqrt A ^ 3) <= 117 / 2 * M ^ 6 * (/ INR (3 + 2 * 6) / sqrt A ^ 3)).
  { refine (improper0_bound _ _ _ _ _ _ _ V Pi Qi). intros t Ht. pose proof (sg_range A t HA Ht) as Sr. pose proof (kern_arg A X Y Z t HA Ht ltac:(lra) ltac:(lra) ltac:(lra)) as K. unfold kern in K.
    destruct (sqrt_arg A P t HA Ht ltac:(lra)) as (_ & QP & U0).
    assert (Sx : forall a, Rabs a <= M -> 0 < t + A * (1 - a)). { intros a Ha. apply abs_le_pow in Ha. nra. }
    assert (Sy : forall a, Rabs a <= M -> sqrt (t + A * (1 - a)) <> 0). { intros a Ha. apply Rgt_not_eq, sqrt_lt_R0, Sx, Ha. } pose proof (Sx P HP) as SP.
    replace (3 / (2 * (sqrt (t + A * (1 - X)) * sqrt (t + A * (1 - Y)) * sqrt (t + A * (1 - Z)) * (t + A * (1 - P))))) with
      (3 / 2 * / (sqrt (t + A * (1 - X)) * sqrt (t + A * (1 - Y)) * sqrt (t + A * (1 - Z))) * / (t + A * (1 - P))) by (field; repeat split; try lra; apply Sy; assumption).
    rewrite K. assert (TP : / (t + A * (1 - P)) = u A t ^ 2 * / (1 - sg A t * P)).
    { pose proof (sg_u A t HA Ht) as Su. replace (t + A * (1 - P)) with ((t + A) * (1 - sg A t * P)) by (unfold sg; field; lra). rewrite Rinv_mult. f_equal. unfold u. rewrite pow_inv, pow2_sqrt; lra. }
    rewrite TP. cbn [ev cs]. change (3 + 2)%nat with 5%nat. set (s := sg A t) in *. set (U := u A t) in *.
    assert (W : (1 - s * X) * (1 - s * Y) * (1 - s * Z) * (1 - s * P) ^ 2 = 1 + (E2 * s ^ 2 - E3 * s ^ 3 + E4 * s ^ 4 - E5 * s ^ 5)) by (unfold E5, E4, E3, E2; rewrite EP; field).
    assert (PX : forall a, Rabs a <= M -> 0 < 1 - s * a) by (intros a Ha; apply abs_le_pow in Ha; nra).
    assert (Q3 : 0 < (1 - s * X) * (1 - s * Y) * (1 - s * Z)) by (repeat apply Rmult_lt_0_compat; apply PX; assumption).
    assert (SW : sqrt ((1 - s * X) * (1 - s * Y) * (1 - s * Z)) * (1 - s * P) = sqrt (1 + (E2 * s ^ 2 - E3 * s ^ 3 + E4 * s ^ 4 - E5 * s ^ 5))).
    { rewrite <- W, (sqrt_mult_alt _ ((1 - s * P) ^ 2) (Rlt_le _ _ Q3)). rewrite sqrt_pow2 by (left; apply PX, HP). reflexivity. }
    assert (Q4 : 0 < sqrt ((1 - s * X) * (1 - s * Y) * (1 - s * Z))) by (apply sqrt_lt_R0, Q3).
    assert (TT : 3 / 2 * (U ^ 3 * / sqrt ((1 - s * X) * (1 - s * Y) * (1 - s * Z))) * (U ^ 2 * / (1 - s * P)) = 3 / 2 * U ^ 5 * / sqrt (1 + (E2 * s ^ 2 - E3 * s ^ 3 + E4 * s ^ 4 - E5 * s ^ 5))).
    { rewrite <- SW. field. lra. }
    rewrite TT. set (r := / sqrt (1 + (E2 * s ^ 2 - E3 * s ^ 3 + E4 * s ^ 4 - E5 * s ^ 5))).
    match goal with |- Rabs ?a <= _ => replace a with (3 / 2 * U ^ 5 * (r - (1 - E2 * s ^ 2 / 2 + E3 * s ^ 3 / 2 + (3 / 8 * (E2 * s ^ 2) ^ 2 - E4 * s ^ 4 / 2) + (- (3 / 4) * ((E2 * s ^ 2) * (E3 * s ^ 3)) + E5 * s ^ 5 / 2)))) by (unfold r; generalize (/ sqrt (1 + (E2 * s ^ 2 - E3 * s ^ 3 + E4 * s ^ 4 - E5 * s ^ 5))); intros; field) end.
    rewrite Rabs_mult. assert (P3 : 0 < 3 / 2 * U ^ 5) by (apply Rmult_lt_0_compat; [lra|apply pow_lt, U0]). rewrite (Rabs_right (3 / 2 * U ^ 5)) by lra.
    replace (117 / 2 * M ^ 6 * (/ 2 * U ^ 5 * s ^ 6)) with (3 / 2 * U ^ 5 * (39 / 2 * (M * s) ^ 6)) by field. apply Rmult_le_compat_l; [lra|].
    assert (KK : forall E c k, Rabs E <= c * M ^ k -> Rabs (E * s ^ k) <= c * (M * s) ^ k).
    { intros E c k HE. rewrite Rpow_mult_distr, <- Rmult_assoc. apply abs_mul; [exact HE|]. rewrite Rabs_right; [lra|]. apply Rle_ge, pow_le; lra. }
    unfold r. apply core5; [nra|apply KK, B2|apply KK, B3|apply KK, B4|]. rewrite <- (Rmult_1_l ((M * s) ^ 5)). apply KK. lra. }
  assert (Lp : 97 / 100 <= pt).
  { unfold pt. assert (M2 : 0 <= M ^ 2 <= 1 / 25) by nra. assert (M3 : 0 <= M ^ 3 <= M ^ 2 / 5) by nra.
    assert (M4 : 0 <= M ^ 4 <= M ^ 3 / 5) by (replace (M ^ 4) with (M * M ^ 3) by ring; nra). assert (M5 : 0 <= M ^ 5 <= M ^ 4 / 5) by (replace (M ^ 5) with (M * M ^ 4) by ring; nra).
    assert (Rabs (E2 * E3) <= 1 / 10 * (1 / 75)) as B23 by (apply abs_mul; lra). apply abs_le_pow in B23. apply abs_le_pow in B2. apply abs_le_pow in B3. apply abs_le_pow in B4. apply abs_le_pow in B5. pose proof (Rle_0_sqr E2) as Sq. unfold Rsqr in Sq. lra. }
  assert (M6 : M ^ 6 <= / 15625). { replace (/ 15625) with ((1 / 5) ^ 6) by field. apply pow_incr. lra. } assert (M60 : 0 <= M ^ 6) by (apply pow_le, M0).
  replace (INR (3 + 2 * 6)) with 15 in B by (cbn; ring). assert (IA : 0 < / sqrt A ^ 3) by (apply Rinv_0_lt_compat, S3).
  assert (Lv : 96 / 100 / sqrt A ^ 3 <= v). { apply abs_le_pow in B as [_ B]. unfold Rdiv in *. assert (117 * / 2 * M ^ 6 * (/ 15 * / sqrt A ^ 3) <= 1 / 100 * / sqrt A ^ 3) by nra. nra. }
  split; [|unfold Rdiv in Lv; nra].
  assert (TE : tail_rj X Y Z = pt). { unfold tail_rj. rewrite <- EP. reflexivity. }
  rewrite TE. replace (pt / A / sqrt A) with (pt / sqrt A ^ 3) by (rewrite <- A3; field; lra). rewrite Rabs_minus_sym. eapply Rle_trans; [exact B|].
  replace (117 / 2 * M ^ 6 * (/ 15 / sqrt A ^ 3)) with (M ^ 6 * (39 / 10 * / sqrt A ^ 3)) by (field; lra).
  rewrite (Rmult_comm 5), Rmult_assoc. apply Rmult_le_compat_l; [exact M60|]. unfold Rdiv in *. lra.
Qed.

(** ** R_C *)
Lemma coreC s : 0 <= Rabs s <= 1 / 8 -> Rabs (/ sqrt (1 + (- 3 * s ^ 2 - 2 * s ^ 3)) - (1 + 3 / 2 * s ^ 2 + s ^ 3 + 27 / 8 * s ^ 4 + 9 / 2 * s ^ 5 + (3 / 2 + 135 / 16) * s ^ 6 + 135 / 8 * s ^ 7)) <= 85 * s ^ 8.
Proof.
  intros Hs. set (w := - 3 * s ^ 2 - 2 * s ^ 3). apply proj2, abs_le_pow in Hs as [_ Hs].
  assert (S2 : 0 <= s ^ 2 <= 1 / 64) by nra. assert (W1 : Rabs w <= 13 / 4 * s ^ 2) by (unfold w; apply Rabs_le; nra).
  assert (W : -1 / 4 <= w) by (apply Rabs_le_between in W1; lra). pose proof (isq3 _ W) as B. set (r := / sqrt (1 + w)) in *. clearbody r.
  replace (r - (1 + 3 / 2 * s ^ 2 + s ^ 3 + 27 / 8 * s ^ 4 + 9 / 2 * s ^ 5 + (3 / 2 + 135 / 16) * s ^ 6 + 135 / 8 * s ^ 7)) with ((r - (1 - w / 2 + 3 / 8 * w ^ 2 - 5 / 16 * w ^ 3)) + s ^ 8 * (5 / 16 * (36 + 8 * s))) by (unfold w; field).
  assert (S8 : 0 <= s ^ 8) by apply (even_pow s 4). assert (W4 : w ^ 4 <= (13 / 4 * s ^ 2) ^ 4). { rewrite <- (Rabs_right (w ^ 4)) by (apply Rle_ge, (even_pow w 2)). rewrite <- RPow_abs. apply pow_incr. split; [apply Rabs_pos|exact W1]. }
  replace ((13 / 4 * s ^ 2) ^ 4) with (28561 / 256 * s ^ 8) in W4 by field.
  eapply Rle_trans; [apply abs_add; [exact B|apply Req_le, Rabs_right]|]; nra.
Qed.
Lemma tail_RC A s v : 0 < A -> Rabs s <= 1 / 8 -> carlson_RF (A * (1 - 2 * s)) (A * (1 + s)) (A * (1 + s)) v -> Rabs (tail_rc s A - v) <= 6 * s ^ 8 * v /\ 0 < v.
Proof.
  intros HA Hs V. assert (SA : 0 < sqrt A) by (apply sqrt_lt_R0, HA).
  set (cs := cons 1 (cons 0 (cons (3 / 2 * s ^ 2) (cons (s ^ 3) (cons (27 / 8 * s ^ 4) (cons (9 / 2 * s ^ 5) (cons ((3 / 2 + 135 / 16) * s ^ 6) (cons (135 / 8 * s ^ 7) nil)))))))).
  set (pt := 1 + s * s * (3 / 10) + s * s * s / 7 + s * s * s * s * (3 / 8) + s * s * s * s * s * (9 / 22) + s * s * s * s * s * s * (159 / 208) + s * s * s * s * s * s * s * (9 / 8)).
  assert (Pi : improper0 (fun t => / 2 * u A t ^ (1 + 2) * ev cs 0 (sg A t)) (pt / sqrt A)).
  { pose proof (mono_sum A 1 HA (le_n 1) cs 0) as V1. match type of V1 with improper0 _ ?a => replace (pt / sqrt A) with a; [exact V1|] end. rewrite pow_1. f_equal. unfold pt, cs. cbn [iv INR Nat.add Nat.mul]. field. }
  assert (Qi : improper0 (fun t => 85 * s ^ 8 * (/ 2 * u A t ^ 3 * sg A t ^ 8)) (85 * s ^ 8 * (/ INR (1 + 2 * 8) / sqrt A ^ 1))) by (apply improper0_scal, (mono A 1 8); [exact HA|lia]).
  pose proof (abs_le_pow _ _ Hs) as [_ Hs'].
  assert (B : Rabs (v - pt / sqrt A) <= 85 * s ^ 8 * (/ INR (1 + 2 * 8) / sqrt A ^ 1)).
  { refine (improper0_bound _ _ _ _ _ _ _ V Pi Qi). intros t Ht. pose proof (sg_range A t HA Ht) as Sr.
    assert (H2 : Rabs (2 * s) <= 1 / 4) by (apply Rabs_le; lra). assert (H1 : Rabs (- s) <= 1 / 4) by (rewrite Rabs_Ropp; lra).
    pose proof (kern_arg A (2 * s) (- s) (- s) t HA Ht H2 H1 H1) as K. unfold kern in K. replace (1 - - s) with (1 + s) in K by ring.
    destruct (sqrt_arg A (- s) t HA Ht H1) as (_ & _ & U0).
    assert (Sx : sqrt (t + A * (1 - 2 * s)) <> 0) by (apply Rgt_not_eq, sqrt_lt_R0; nra). assert (Sy : sqrt (t + A * (1 + s)) <> 0) by (apply Rgt_not_eq, sqrt_lt_R0; nra).
    replace (1 / (2 * (sqrt (t + A * (1 - 2 * s)) * sqrt (t + A * (1 + s)) * sqrt (t + A * (1 + s))))) with (/ 2 * / (sqrt (t + A * (1 - 2 * s)) * sqrt (t + A * (1 + s)) * sqrt (t + A * (1 + s)))) by (field; split; assumption).
    rewrite K. cbn [ev cs]. change (1 + 2)%nat with 3%nat. set (g := sg A t) in *. set (U := u A t) in *.
    replace ((1 - g * (2 * s)) * (1 - g * - s) * (1 - g * - s)) with (1 + (- 3 * (g * s) ^ 2 - 2 * (g * s) ^ 3)) by ring.
    assert (Cc : 0 <= Rabs (g * s) <= 1 / 8). { split; [apply Rabs_pos|]. replace (1 / 8) with (1 * (1 / 8)) by lra. apply abs_mul; [rewrite Rabs_right; lra|exact Hs]. }
    pose proof (coreC (g * s) Cc) as Cr. set (r := / sqrt (1 + (- 3 * (g * s) ^ 2 - 2 * (g * s) ^ 3))) in *. clearbody r.
    match goal with |- Rabs ?a <= _ => replace a with (/ 2 * U ^ 3 * (r - (1 + 3 / 2 * (g * s) ^ 2 + (g * s) ^ 3 + 27 / 8 * (g * s) ^ 4 + 9 / 2 * (g * s) ^ 5 + (3 / 2 + 135 / 16) * (g * s) ^ 6 + 135 / 8 * (g * s) ^ 7))) by field end.
    rewrite Rabs_mult. assert (P3 : 0 < / 2 * U ^ 3) by (apply Rmult_lt_0_compat; [lra|apply pow_lt, U0]). rewrite (Rabs_right (/ 2 * U ^ 3)) by lra.
    replace (85 * s ^ 8 * (/ 2 * U ^ 3 * g ^ 8)) with (/ 2 * U ^ 3 * (85 * (g * s) ^ 8)) by ring. apply Rmult_le_compat_l; [lra|exact Cr]. }
  assert (S2 : 0 <= s * s <= 1 / 64) by nra. assert (S8 : 0 <= s ^ 8) by apply (even_pow s 4).
  assert (Lp : 98 / 100 <= pt).
  { unfold pt. set (q := s * s) in *. replace (q * s / 7) with (q * (s / 7)) by field. replace (q * s * s * (3 / 8)) with (q * q * (3 / 8)) by (unfold q; ring). replace (q * s * s * s * (9 / 22)) with (q * q * (s * (9 / 22))) by (unfold q; ring).
    replace (q * s * s * s * s * (159 / 208)) with (q * q * q * (159 / 208)) by (unfold q; ring). replace (q * s * s * s * s * s * (9 / 8)) with (q * q * q * (s * (9 / 8))) by (unfold q; ring). clearbody q.
    assert (0 <= q * q) by nra. assert (0 <= q * q * q) by nra. nra. }
  assert (S8' : s ^ 8 <= / 10000). { assert (S4 : 0 <= (s * s) * (s * s) <= / 1000) by (clear - S2; nra). replace (s ^ 8) with ((s * s) * (s * s) * ((s * s) * (s * s))) by ring. set (q := s * s * (s * s)) in *. clearbody q. clear - S4. nra. }
  replace (INR (1 + 2 * 8)) with 17 in B by (cbn; ring). rewrite pow_1 in B. assert (IA : 0 < / sqrt A) by (apply Rinv_0_lt_compat, SA).
  assert (Lv : 97 / 100 / sqrt A <= v). { apply abs_le_pow in B as [_ B]. unfold Rdiv in *. assert (85 * s ^ 8 * (/ 17 * / sqrt A) <= 1 / 100 * / sqrt A) by nra. nra. }
  split; [|unfold Rdiv in Lv; nra]. change (tail_rc s A) with (pt / sqrt A). rewrite Rabs_minus_sym. eapply Rle_trans; [exact B|].
  replace (85 * s ^ 8 * (/ 17 / sqrt A)) with (s ^ 8 * (5 * / sqrt A)) by (field; lra). rewrite (Rmult_comm 6), Rmult_assoc. apply Rmult_le_compat_l; [exact S8|]. unfold Rdiv in *. lra.
Qed.
