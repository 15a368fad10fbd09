(** * elliprd and elliprj: invariants, termination, value of the result *)
From Coq Require Import Reals Lra Lia Psatz Bool.
From Coquelicot Require Import Rcomplements Rbar Hierarchy Continuity Derive RInt RInt_analysis AutoDerive ElemFct.
From Verif Require Import EllipSpec Improper Ellipr CarlsonDup CarlsonTail CarlsonLoop.
Open Scope R_scope.

Lemma nz_one0 x y z : one0 x y z -> Nat.ltb 1 (nz x y z) = false.
Proof.
  intros (X & Y & Z & XY & XZ & YZ). apply Nat.ltb_ge. unfold nz. destruct (isz x) eqn:A, (isz y) eqn:B, (isz z) eqn:C; cbn; try lia; try apply isz_true in A; try apply isz_true in B; try apply isz_true in C; lra.
Qed.
(** ** elliprd *)
Lemma rd_acc x y z A0 n v : one0 x y z -> 0 < z -> let s := at_ x y z A0 add_rd n in
  (carlson_RD (xm s) (ym s) (zm s) v -> carlson_RD x y z (3 * acc s + pow4 s * v)) /\ 0 <= acc s /\ 0 < zm s.
Proof.
  intros H1 Hz. cbv zeta. revert v. induction n as [|n IH]; intros v.
  - cbn. split; [|lra]. intros V. replace (3 * 0 + 1 * v) with v by ring. exact V.
  - pose proof (at_one0 x y z A0 add_rd H1 n) as (X & Y & Z & _). pose proof (at_pow x y z A0 add_rd n) as Pw. rewrite at_S. set (s := at_ x y z A0 add_rd n) in *. clearbody s.
    destruct (IH 0) as (_ & Pa & Pz). pose proof (lam_nonneg (xm s) (ym s) (zm s)) as Ln. assert (Sz : 0 < sqrt (zm s)) by (apply sqrt_lt_R0, Pz). assert (P4 : 0 < pow4 s) by (rewrite Pw; apply pow_lt; lra).
    unfold step; cbn [xm ym zm Am pow4 acc]. split; [|split; [|lra]].
    + intros V. unfold carlson_RD in V. pose proof (dup_RJ (xm s) (ym s) (zm s) X Y Z (zm s) Pz v V) as V1.
      destruct (IH (v / 4 + Hf (delta0 (xm s) (ym s) (zm s) (zm s)) (dt (xm s) (ym s) (zm s) (zm s) 0))) as (IV & _ & _). specialize (IV V1).
      match goal with |- carlson_RD _ _ _ ?a => match type of IV with carlson_RD _ _ _ ?b => replace a with b; [exact IV|] end end.
      assert (D0 : delta0 (xm s) (ym s) (zm s) (zm s) = 0) by (unfold delta0; ring). rewrite D0. unfold Hf. destruct (Rlt_dec 0 0) as [F|_]; [lra|]. unfold dt, add_rd. rewrite !Rplus_0_l.
      assert (E : (sqrt (zm s) + sqrt (xm s)) * (sqrt (zm s) + sqrt (ym s)) * (sqrt (zm s) + sqrt (zm s)) = 2 * sqrt (zm s) * (zm s + lam (xm s) (ym s) (zm s))).
      { unfold lam. replace (zm s + (sqrt (xm s) * sqrt (ym s) + sqrt (xm s) * sqrt (zm s) + sqrt (ym s) * sqrt (zm s))) with (sqrt (zm s) * sqrt (zm s) + (sqrt (xm s) * sqrt (ym s) + sqrt (xm s) * sqrt (zm s) + sqrt (ym s) * sqrt (zm s))) by (rewrite (sqrt_sqrt (zm s)) by lra; ring). ring. }
      rewrite E. field. lra.
    + assert (0 <= add_rd s); [|lra]. unfold add_rd. apply Rlt_le, Rdiv_lt_0_compat; [apply Rdiv_lt_0_compat; assumption|lra].
Qed.
Lemma tail_rd_rj X Y : tail_rd X Y = tail_rj X Y (- (X + Y) / 3).
Proof. unfold tail_rd, tail_rj. field. Qed.
Lemma rd_main eps x y z : 0 < eps <= 1 -> one0 x y z -> 0 < z ->
  exists r v, (exists N, forall fuel, (N <= fuel)%nat -> elliprd eps fuel x y z = Some (Num r)) /\ carlson_RD x y z v /\ 0 < v /\ Rabs (r - v) <= 5 / 4 * EPS eps * v.
Proof.
  intros He H1 Hz. set (A0 := (x + y + 3 * z) / 5). pose proof (EPS_range eps He) as Ee.
  destruct (loop_ends x y z A0 add_rd H1 (/ 5) (/ 5) (3 / 5) ltac:(lra) ltac:(unfold A0; field) (Q_of (EPS eps * (1 / 4)) A0 x y z) (Q_of_nonneg _ _ _ _ _)) as (N & n & W & E).
  assert (W' : exists N, forall fuel, (N <= fuel)%nat -> elliprd eps fuel x y z = Some (Num (let s := at_ x y z A0 add_rd n in 3 * acc s + pow4 s / Am s / sqrt (Am s) * tail_rd ((A0 - x) * (pow4 s / Am s)) ((A0 - y) * (pow4 s / Am s))))).
  { exists N. intros fuel Hf. unfold elliprd. rewrite (proj2 (isz_false z) ltac:(lra)), (nz_one0 x y z H1). cbn [orb]. fold A0. rewrite (W fuel Hf). reflexivity. }
  clear W. cbv zeta in W'.
  pose proof (at_Am_pos x y z A0 add_rd H1 (/ 5) (/ 5) (3 / 5) ltac:(lra) ltac:(unfold A0; field) n) as PA. pose proof (at_pow x y z A0 add_rd n) as Pw. destruct (at_dev x y z A0 add_rd n) as (DX & DY & DZ). pose proof (fun v => rd_acc x y z A0 n v H1 Hz) as Vn. cbv zeta in Vn.
  set (s := at_ x y z A0 add_rd n) in *. clearbody s. assert (P4 : 0 < pow4 s) by (rewrite Pw; apply pow_lt; lra). rewrite <- Pw in DX, DY, DZ.
  set (M := Rpower (EPS eps * (1 / 4)) (1 / 6)). assert (M4 : M <= 1 / 5) by (apply root6_le; lra). assert (M6 : M ^ 6 = EPS eps * (1 / 4)) by (apply root6; lra).
  assert (BX : Rabs ((A0 - x) * (pow4 s / Am s)) <= M) by (apply (fun a b d => exit_bound (EPS eps * (1 / 4)) (pow4 s) (Am s) _ d a PA b E); [lra|lra|]; apply Rmax3_1). assert (BY : Rabs ((A0 - y) * (pow4 s / Am s)) <= M) by (apply (fun a b d => exit_bound (EPS eps * (1 / 4)) (pow4 s) (Am s) _ d a PA b E); [lra|lra|]; apply Rmax3_2).
  assert (BZ : Rabs ((A0 - z) * (pow4 s / Am s)) <= M) by (apply (fun a b d => exit_bound (EPS eps * (1 / 4)) (pow4 s) (Am s) _ d a PA b E); [lra|lra|]; apply Rmax3_3).
  assert (SZ : (A0 - z) * (pow4 s / Am s) = - ((A0 - x) * (pow4 s / Am s) + (A0 - y) * (pow4 s / Am s)) / 3) by (unfold A0; field; lra).
  assert (RX : xm s = Am s * (1 - (A0 - x) * (pow4 s / Am s))) by (replace (xm s) with (Am s - (A0 - x) * pow4 s) by lra; field; lra). assert (RY : ym s = Am s * (1 - (A0 - y) * (pow4 s / Am s))) by (replace (ym s) with (Am s - (A0 - y) * pow4 s) by lra; field; lra).
  assert (RZ : zm s = Am s * (1 - (A0 - z) * (pow4 s / Am s))) by (replace (zm s) with (Am s - (A0 - z) * pow4 s) by lra; field; lra).
  set (X := (A0 - x) * (pow4 s / Am s)) in *. set (Y := (A0 - y) * (pow4 s / Am s)) in *. set (Z := (A0 - z) * (pow4 s / Am s)) in *. clearbody X Y Z.
  destruct (RJ_exists (xm s) (ym s) (zm s) (zm s)) as (v & V); [rewrite RX|rewrite RY|rewrite RZ|rewrite RZ|]; [apply Rmult_lt_0_compat; [exact PA|apply abs_le_pow in BX; apply abs_le_pow in BY; apply abs_le_pow in BZ; lra]..|].
  destruct (Vn v) as (V0 & Pa & Pz). specialize (V0 V). rewrite RX, RY, RZ in V. destruct (tail_RJ (Am s) X Y Z Z M v PA ltac:(rewrite SZ; field) BX BY BZ BZ M4 V) as [B Pv].
  eexists _, (3 * acc s + pow4 s * v). split; [exact W'|]. split; [exact V0|]. rewrite tail_rd_rj, <- SZ. assert (Pq : 0 < pow4 s * v) by (apply Rmult_lt_0_compat; assumption). split; [lra|].
  replace (3 * acc s + pow4 s / Am s / sqrt (Am s) * tail_rj X Y Z - (3 * acc s + pow4 s * v)) with (pow4 s * (tail_rj X Y Z / Am s / sqrt (Am s) - v)) by (unfold Rdiv; ring).
  rewrite Rabs_mult, (Rabs_right (pow4 s)) by lra. rewrite M6 in B. apply Rle_trans with (pow4 s * (5 * (EPS eps * (1 / 4)) * v)); [apply Rmult_le_compat_l; [lra|exact B]|].
  replace (pow4 s * (5 * (EPS eps * (1 / 4)) * v)) with (5 / 4 * EPS eps * (pow4 s * v)) by field. apply Rmult_le_compat_l; lra.
Qed.

(** ** elliprj *)
Lemma Hf_atan delta d : 0 < d -> 0 < d * d + delta -> delta <> 0 -> exists r, atan_ratio (delta / (d * d)) = Some r /\ 6 * (r / d) = Hf delta d /\ 0 < r.
Proof.
  intros Hd Hdd Hn. assert (D2 : 0 < d * d) by nra. unfold Hf, atan_ratio. destruct (Rlt_dec 0 delta) as [P|P].
  - assert (E : 0 < delta / (d * d)) by (apply Rdiv_lt_0_compat; assumption). destruct (Rlt_dec 0 (delta / (d * d))) as [_|F]; [|contradiction]. eexists. split; [reflexivity|].
    assert (S1 : sqrt (delta / (d * d)) = sqrt delta / d) by (rewrite sqrt_div_alt by exact D2; rewrite sqrt_square by lra; reflexivity). rewrite S1. assert (Sp : 0 < sqrt delta) by (apply sqrt_lt_R0, P).
    assert (U : 0 < sqrt delta / d) by (apply Rdiv_lt_0_compat; lra). split; [field; lra|]. apply Rdiv_lt_0_compat; [|exact U]. rewrite <- atan_0. apply atan_increasing, U.
  - assert (N : delta < 0) by lra. destruct (Rlt_dec delta 0) as [_|F]; [|contradiction]. assert (E : 0 < - delta / (d * d)) by (apply Rdiv_lt_0_compat; lra). assert (E1 : - (delta / (d * d)) = - delta / (d * d)) by (field; lra).
    destruct (Rlt_dec 0 (delta / (d * d))) as [F|_]; [lra|]. destruct (Rlt_dec (delta / (d * d)) 0) as [_|F]; [|lra].
    destruct (Rlt_dec (-1) (delta / (d * d))) as [_|F]; [|exfalso; apply F; apply Rmult_lt_reg_r with (d * d); [exact D2|]; unfold Rdiv; rewrite Rmult_assoc, Rinv_l by lra; lra].
    eexists. split; [reflexivity|]. rewrite E1. assert (S1 : sqrt (- delta / (d * d)) = sqrt (- delta) / d) by (rewrite sqrt_div_alt by exact D2; rewrite sqrt_square by lra; reflexivity). rewrite S1.
    assert (Sp : 0 < sqrt (- delta)) by (apply sqrt_lt_R0; lra). assert (Sl : sqrt (- delta) < d). { rewrite <- (sqrt_square d) by lra. apply sqrt_lt_1_alt. lra. }
    replace ((1 + sqrt (- delta) / d) / (1 - sqrt (- delta) / d)) with ((d + sqrt (- delta)) / (d - sqrt (- delta))) by (field; lra). set (g := sqrt (- delta)) in *. clearbody g. split; [field; lra|].
    assert (0 < ln ((d + g) / (d - g))); [|apply Rdiv_lt_0_compat; [lra|apply Rdiv_lt_0_compat; lra]]. rewrite <- ln_1. apply ln_increasing; [lra|]. apply Rmult_lt_reg_r with (d - g); [lra|]. unfold Rdiv. rewrite Rmult_assoc, Rinv_l by lra. lra.
Qed.
Section LoopJ.
Variables (x y z p A0 : R).
Hypothesis H1 : one0 x y z.
Hypothesis Hp : 0 < p.
Definition delta_ : R := (p - x) * (p - y) * (p - z).
Let s0 := mkstj x y z p A0 1 0 (Some 0).
Definition jat (n : nat) : stj := iter n (step_rj delta_) s0.
Lemma jat_S n : jat (S n) = step_rj delta_ (jat n).
Proof. unfold jat. apply iter_S. Qed.
Lemma jat_pow n : jpow4 (jat n) = (/ 4) ^ n /\ jm (jat n) = n.
Proof. induction n as [|n [IH IM]]; [split; reflexivity|]. rewrite jat_S. unfold step_rj; cbn [jpow4 jm]. rewrite IH, IM. split; [cbn [pow]; field|reflexivity]. Qed.
Lemma jat_dev n : jA (jat n) - jx (jat n) = (A0 - x) * (/ 4) ^ n /\ jA (jat n) - jy (jat n) = (A0 - y) * (/ 4) ^ n /\ jA (jat n) - jz (jat n) = (A0 - z) * (/ 4) ^ n /\ jA (jat n) - jp (jat n) = (A0 - p) * (/ 4) ^ n.
Proof.
  induction n as [|n (IX & IY & IZ & IP)]; [cbn; repeat split; ring|]. rewrite jat_S. unfold step_rj; cbn [jA jx jy jz jp pow]. repeat split; lra.
Qed.
Lemma jat_one0 n : one0 (jx (jat n)) (jy (jat n)) (jz (jat n)) /\ 0 < jp (jat n).
Proof.
  induction n as [|n [IH IP]]; [split; [exact H1|exact Hp]|]. rewrite jat_S. unfold step_rj; cbn [jx jy jz jp]. fold (lam (jx (jat n)) (jy (jat n)) (jz (jat n))). pose proof (lam_pos _ _ _ IH) as P. destruct IH as (X & Y & Z & _). unfold one0. repeat split; lra.
Qed.
Lemma jat_min n : (1 <= n)%nat -> lam x y z / 4 <= jx (jat n) /\ lam x y z / 4 <= jy (jat n) /\ lam x y z / 4 <= jz (jat n) /\ lam x y z / 4 <= jp (jat n).
Proof.
  intros Hn. destruct n as [|n]; [lia|]. clear Hn. pose proof (lam_pos _ _ _ H1) as P. induction n as [|n (IX & IY & IZ & IP)].
  - destruct H1 as (X & Y & Z & _). rewrite jat_S. unfold step_rj; cbn. fold (lam x y z). repeat split; lra.
  - rewrite jat_S. unfold step_rj; cbn [jx jy jz jp]. fold (lam (jx (jat (S n))) (jy (jat (S n))) (jz (jat (S n)))). pose proof (lam_ge (lam x y z / 4) _ _ _ ltac:(lra) IX IY IZ). repeat split; lra.
Qed.
Hypothesis HA0 : A0 = (x + y + z + p + p) / 5.
Lemma jat_mean n : 5 * jA (jat n) = jx (jat n) + jy (jat n) + jz (jat n) + 2 * jp (jat n).
Proof.
  destruct (jat_dev n) as (X & Y & Z & P). set (q := (/ 4) ^ n) in *. clearbody q. replace (jx (jat n)) with (jA (jat n) - (A0 - x) * q) by lra. replace (jy (jat n)) with (jA (jat n) - (A0 - y) * q) by lra. replace (jz (jat n)) with (jA (jat n) - (A0 - z) * q) by lra. replace (jp (jat n)) with (jA (jat n) - (A0 - p) * q) by lra.
  rewrite HA0. field.
Qed.
Lemma jat_A_pos n : 0 < jA (jat n).
Proof. pose proof (jat_mean n) as M. destruct (jat_one0 n) as [(X & Y & Z & _) P]. lra. Qed.
Lemma jat_delta n : (jp (jat n) - jx (jat n)) * (jp (jat n) - jy (jat n)) * (jp (jat n) - jz (jat n)) = delta_ * / 4 ^ (3 * n).
Proof.
  destruct (jat_dev n) as (X & Y & Z & P). replace (jp (jat n) - jx (jat n)) with ((p - x) * (/ 4) ^ n) by lra. replace (jp (jat n) - jy (jat n)) with ((p - y) * (/ 4) ^ n) by lra. replace (jp (jat n) - jz (jat n)) with ((p - z) * (/ 4) ^ n) by lra.
  rewrite <- pow_inv. replace (3 * n)%nat with (n + n + n)%nat by lia. rewrite !pow_add. unfold delta_. ring.
Qed.
Lemma loop_ends_j Q : 0 <= Q ->
  exists N n, (forall fuel, (N <= fuel)%nat -> while fuel (fun s => geb (jpow4 s * Q) (Rabs (jA s))) (step_rj delta_) s0 = Some (jat n)) /\ jpow4 (jat n) * Q <= jA (jat n) /\ (n = O -> Q < A0).
Proof.
  intros HQ. pose proof (lam_pos _ _ _ H1) as P. destruct (quarter_small Q (lam x y z / 4) ltac:(lra) HQ) as (N & HN).
  assert (E : (fun s => geb (jpow4 s * Q) (Rabs (jA s))) (jat (S N)) = false). { apply geb_false. destruct (jat_min (S N) ltac:(lia)) as (X & Y & Z & Pp). pose proof (jat_mean (S N)) as M. rewrite Rabs_right by lra. rewrite (proj1 (jat_pow (S N))). specialize (HN (S N) ltac:(lia)). lra. }
  destruct (while_ends (S N) _ (step_rj delta_) s0 E) as (s' & W). destruct (while_some _ _ _ _ _ (W _ (le_n _))) as (E' & n & _ & Es & _). exists (S N), n. fold (jat n) in Es. split; [intros fuel Hf; rewrite <- Es; apply W, Hf|].
  rewrite Es in E'. apply geb_false in E'. pose proof (jat_A_pos n). rewrite Rabs_right in E' by lra. split; [lra|]. intros ->. cbn in E'. lra.
Qed.
Lemma jat_acc n v : delta_ <> 0 -> exists a, jacc (jat n) = Some a /\ 0 <= a /\ (carlson_RJ (jx (jat n)) (jy (jat n)) (jz (jat n)) (jp (jat n)) v -> carlson_RJ x y z p (6 * a + jpow4 (jat n) * v)).
Proof.
  intros Hd. revert v. induction n as [|n IH]; intros v.
  - exists 0. cbn. split; [reflexivity|]. split; [lra|]. intros V. replace (6 * 0 + 1 * v) with v by ring. exact V.
  - destruct (jat_one0 n) as [(X & Y & Z & _) Pp]. destruct (jat_pow n) as [Pw Pm]. pose proof (jat_delta n) as Dn. rewrite jat_S. set (s := jat n) in *. clearbody s.
    assert (P4 : 0 < jpow4 s) by (rewrite Pw; apply pow_lt; lra).
    assert (Dd : dt (jx s) (jy s) (jz s) (jp s) 0 = (sqrt (jp s) + sqrt (jx s)) * (sqrt (jp s) + sqrt (jy s)) * (sqrt (jp s) + sqrt (jz s))) by (unfold dt; rewrite !Rplus_0_l; reflexivity).
    destruct (dt_facts (jx s) (jy s) (jz s) X Y Z (jp s) Pp 0 (Rle_refl 0)) as (_ & D0 & _). pose proof (dt_pos2 (jx s) (jy s) (jz s) X Y Z (jp s) Pp 0 (Rle_refl 0)) as D2.
    assert (Dl : delta0 (jx s) (jy s) (jz s) (jp s) = delta_ * / 4 ^ (3 * n)) by exact Dn. assert (Nd : delta0 (jx s) (jy s) (jz s) (jp s) <> 0).
    { rewrite Dl. apply Rmult_integral_contrapositive_currified; [exact Hd|]. apply Rinv_neq_0_compat, pow_nonzero. lra. }
    destruct (Hf_atan _ _ D0 D2 Nd) as (r & Er & Eh & Pr). pose proof (fun v => dup_RJ (jx s) (jy s) (jz s) X Y Z (jp s) Pp v) as V1.
    destruct (IH (v / 4 + Hf (delta0 (jx s) (jy s) (jz s) (jp s)) (dt (jx s) (jy s) (jz s) (jp s) 0))) as (a & Ea & Pa & IV).
    rewrite Dl in Er, Eh, V1, IV. rewrite Dd in *. unfold step_rj; cbn [jx jy jz jp jpow4 jacc]. rewrite Pm, Er, Ea. set (d := (sqrt (jp s) + sqrt (jx s)) * (sqrt (jp s) + sqrt (jy s)) * (sqrt (jp s) + sqrt (jz s))) in *. clearbody d.
    exists (a + r * jpow4 s / d). split; [reflexivity|]. split.
    + assert (0 < r * jpow4 s / d) by (apply Rdiv_lt_0_compat; [apply Rmult_lt_0_compat; assumption|exact D0]). lra.
    + intros V. specialize (IV (V1 v V)). rewrite <- Eh in IV. match goal with |- carlson_RJ _ _ _ _ ?a => match type of IV with carlson_RJ _ _ _ _ ?b => replace a with b; [exact IV|] end end. field. lra.
Qed.
(** once it is not a number, the sum stays so *)
Lemma jat_nan n : delta_ = 0 -> (1 <= n)%nat -> jacc (jat n) = None.
Proof.
  intros Hd Hn. destruct n as [|n]; [lia|]. rewrite jat_S. unfold step_rj; cbn [jacc]. rewrite Hd. unfold Rdiv. rewrite !Rmult_0_l. unfold atan_ratio. destruct (Rlt_dec 0 0) as [F|_]; [lra|]. destruct (jacc (jat n)); reflexivity.
Qed.
End LoopJ.
Lemma Rmax4_p a b c d : d <= Rmax (Rmax (Rmax a b) c) d. Proof. apply Rmax_r. Qed.
Lemma Rmax4_3 a b c d : Rmax (Rmax a b) c <= Rmax (Rmax (Rmax a b) c) d. Proof. apply Rmax_l. Qed.
Lemma Q_rj_nonneg eps A0 x y z p : 0 <= Q_rj eps A0 x y z p.
Proof. unfold Q_rj. apply Rmult_le_pos; [left; unfold Rpower; apply exp_pos|]. eapply Rle_trans; [apply (Rabs_pos (A0 - p))|apply Rmax4_p]. Qed.
Lemma rj_main eps x y z p : 0 < eps <= / 2 ^ 22 -> one0 x y z -> 0 < p -> p <> x -> p <> y -> p <> z ->
  exists r v, (exists N, forall fuel, (N <= fuel)%nat -> elliprj eps fuel x y z p = Some (Num r)) /\ carlson_RJ x y z p v /\ 0 < v /\ Rabs (r - v) <= 1280 * eps * v.
Proof.
  intros He H1 Hp PX PY PZ. set (A0 := (x + y + z + p + p) / 5). assert (Hd : delta_ x y z p <> 0) by (unfold delta_; repeat apply Rmult_integral_contrapositive_currified; lra).
  destruct (loop_ends_j x y z p A0 H1 Hp eq_refl (Q_rj eps A0 x y z p) (Q_rj_nonneg _ _ _ _ _ _)) as (N & n & W & E & _).
  assert (W' : exists N, forall fuel, (N <= fuel)%nat -> elliprj eps fuel x y z p = Some (let s := jat x y z p A0 n in match jacc s with Some a => Num (6 * a + jpow4 s / jA s / sqrt (jA s) * tail_rj ((A0 - x) * (jpow4 s / jA s)) ((A0 - y) * (jpow4 s / jA s)) ((A0 - z) * (jpow4 s / jA s))) | None => NaN end)).
  { exists N. intros fuel Hf. unfold elliprj. rewrite (proj2 (isz_false p) ltac:(lra)), (nz_one0 x y z H1). cbn [orb]. fold A0. fold (delta_ x y z p). rewrite (W fuel Hf). reflexivity. }
  clear W. cbv zeta in W'.
  pose proof (jat_A_pos x y z p A0 H1 Hp eq_refl n) as PA. destruct (jat_pow x y z p A0 n) as [Pw _]. destruct (jat_dev x y z p A0 n) as (DX & DY & DZ & DP). pose proof (fun v => jat_acc x y z p A0 H1 Hp n v Hd) as Vn.
  set (s := jat x y z p A0 n) in *. clearbody s. assert (P4 : 0 < jpow4 s) by (rewrite Pw; apply pow_lt; lra). rewrite <- Pw in DX, DY, DZ, DP.
  set (e := / 4 * eps * 2 ^ 10). assert (Ee : 0 < e <= (1 / 5) ^ 6) by (unfold e; lra). assert (E6 : e = 256 * eps) by (unfold e; field).
  set (M := Rpower e (1 / 6)). assert (M4 : M <= 1 / 5) by (apply root6_le; lra). assert (M6 : M ^ 6 = e) by (apply root6; lra).
  assert (EB : forall d, Rabs d <= Rmax (Rmax (Rmax (Rabs (A0 - x)) (Rabs (A0 - y))) (Rabs (A0 - z))) (Rabs (A0 - p)) -> Rabs (d * (jpow4 s / jA s)) <= M) by (intros d; apply exit_bound; [lra|exact PA|lra|exact E]).
  assert (BX : Rabs ((A0 - x) * (jpow4 s / jA s)) <= M) by (apply EB; eapply Rle_trans; [apply Rmax3_1|apply Rmax4_3]). assert (BY : Rabs ((A0 - y) * (jpow4 s / jA s)) <= M) by (apply EB; eapply Rle_trans; [apply Rmax3_2|apply Rmax4_3]).
  assert (BZ : Rabs ((A0 - z) * (jpow4 s / jA s)) <= M) by (apply EB; eapply Rle_trans; [apply Rmax3_3|apply Rmax4_3]). assert (BP : Rabs ((A0 - p) * (jpow4 s / jA s)) <= M) by (apply EB, Rmax4_p).
  assert (SZ : (A0 - p) * (jpow4 s / jA s) = (- ((A0 - x) * (jpow4 s / jA s)) - (A0 - y) * (jpow4 s / jA s) - (A0 - z) * (jpow4 s / jA s)) / 2) by (unfold A0; field; lra).
  assert (RR : forall a b, jA s - b = (A0 - a) * jpow4 s -> b = jA s * (1 - (A0 - a) * (jpow4 s / jA s))) by (intros a b Eb; replace b with (jA s - (A0 - a) * jpow4 s) by lra; field; lra).
  pose proof (RR _ _ DX) as RX. pose proof (RR _ _ DY) as RY. pose proof (RR _ _ DZ) as RZ. pose proof (RR _ _ DP) as RP. clear RR.
  set (X := (A0 - x) * (jpow4 s / jA s)) in *. set (Y := (A0 - y) * (jpow4 s / jA s)) in *. set (Z := (A0 - z) * (jpow4 s / jA s)) in *. set (P := (A0 - p) * (jpow4 s / jA s)) in *. clearbody X Y Z P.
  destruct (RJ_exists (jx s) (jy s) (jz s) (jp s)) as (v & V); [rewrite RX|rewrite RY|rewrite RZ|rewrite RP|]; [apply Rmult_lt_0_compat; [exact PA|apply abs_le_pow in BX; apply abs_le_pow in BY; apply abs_le_pow in BZ; apply abs_le_pow in BP; lra]..|].
  destruct (Vn v) as (a & Ea & Pa & V0). specialize (V0 V). rewrite RX, RY, RZ, RP in V. destruct (tail_RJ (jA s) X Y Z P M v PA SZ BX BY BZ BP M4 V) as [B Pv].
  rewrite Ea in W'. eexists _, (6 * a + jpow4 s * v). split; [exact W'|]. split; [exact V0|]. assert (Pq : 0 < jpow4 s * v) by (apply Rmult_lt_0_compat; assumption). split; [lra|].
  replace (6 * a + jpow4 s / jA s / sqrt (jA s) * tail_rj X Y Z - (6 * a + jpow4 s * v)) with (jpow4 s * (tail_rj X Y Z / jA s / sqrt (jA s) - v)) by (unfold Rdiv; ring).
  rewrite Rabs_mult, (Rabs_right (jpow4 s)) by lra. rewrite M6, E6 in B. apply Rle_trans with (jpow4 s * (5 * (256 * eps) * v)); [apply Rmult_le_compat_l; [lra|exact B]|].
  replace (jpow4 s * (5 * (256 * eps) * v)) with (1280 * eps * (jpow4 s * v)) by ring. apply Rmult_le_compat_l; lra.
Qed.
(** when the last argument equals one of the others: not a number, unless the loop is not entered *)
Lemma rj_nan eps x y z p : one0 x y z -> 0 < p -> p = x \/ p = y \/ p = z -> (x + y + z + p + p) / 5 <= Q_rj eps ((x + y + z + p + p) / 5) x y z p ->
  exists N, forall fuel, (N <= fuel)%nat -> elliprj eps fuel x y z p = Some NaN.
Proof.
  intros H1 Hp Eq HQ. set (A0 := (x + y + z + p + p) / 5) in *. assert (Hd : delta_ x y z p = 0) by (unfold delta_; destruct Eq as [<-|[<-|<-]]; ring).
  destruct (loop_ends_j x y z p A0 H1 Hp eq_refl (Q_rj eps A0 x y z p) (Q_rj_nonneg _ _ _ _ _ _)) as (N & n & W & E & E0).
  exists N. intros fuel Hf. unfold elliprj. rewrite (proj2 (isz_false p) ltac:(lra)), (nz_one0 x y z H1). cbn [orb]. fold A0. fold (delta_ x y z p). rewrite (W fuel Hf).
  destruct n as [|n]; [specialize (E0 eq_refl); lra|]. rewrite (jat_nan x y z p A0 (S n) Hd ltac:(lia)). reflexivity.
Qed.
