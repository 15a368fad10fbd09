From Coq Require Import List Bool Arith Lia Ring Permutation Reals Lra.
From Coquelicot Require Import Complex.
From Verif Require Import Roots RootsSpec RootsFacts.
Import ListNotations.
Open Scope R_scope.
Open Scope C_scope.

Lemma n2 : num 2 = 1 + 1. Proof. unfold num. rewrite <- RtoC_plus. f_equal. Qed.
Lemma n3 : num 3 = 1 + 1 + 1. Proof. unfold num. rewrite <- !RtoC_plus. f_equal; try lra. Qed.
Lemma n4 : num 4 = (1 + 1) * (1 + 1). Proof. unfold num. rewrite <- !RtoC_plus, <- !RtoC_mult. f_equal; try lra. Qed.
Lemma n8 : num 8 = (1 + 1) * (1 + 1) * (1 + 1). Proof. unfold num. rewrite <- !RtoC_plus, <- !RtoC_mult. f_equal; try lra. Qed.
Lemma n9 : num 9 = (1 + 1 + 1) * (1 + 1 + 1). Proof. unfold num. rewrite <- !RtoC_plus, <- !RtoC_mult. f_equal; try lra. Qed.
Lemma n16 : num 16 = (1 + 1) * (1 + 1) * (1 + 1) * (1 + 1). Proof. unfold num. rewrite <- !RtoC_plus, <- !RtoC_mult. f_equal; try lra. Qed.
Lemma n27 : num 27 = (1 + 1 + 1) * (1 + 1 + 1) * (1 + 1 + 1). Proof. unfold num. rewrite <- !RtoC_plus, <- !RtoC_mult. f_equal; try lra. Qed.
Lemma n54 : num 54 = (1 + 1) * ((1 + 1 + 1) * (1 + 1 + 1) * (1 + 1 + 1)). Proof. unfold num. rewrite <- !RtoC_plus, <- !RtoC_mult. f_equal; try lra. Qed.
Lemma n64 : num 64 = (1 + 1) * (1 + 1) * (1 + 1) * (1 + 1) * (1 + 1) * (1 + 1). Proof. unfold num. rewrite <- !RtoC_plus, <- !RtoC_mult. f_equal; try lra. Qed.
Lemma n256 : num 256 = (1 + 1) * (1 + 1) * (1 + 1) * (1 + 1) * (1 + 1) * (1 + 1) * (1 + 1) * (1 + 1). Proof. unfold num. rewrite <- !RtoC_plus, <- !RtoC_mult. f_equal; try lra. Qed.
Lemma nz2 : 1 + 1 <> 0. Proof. rewrite <- RtoC_plus. intros E. apply RtoC_inj in E. lra. Qed.
Lemma nz3 : 1 + 1 + 1 <> 0. Proof. rewrite <- !RtoC_plus. intros E. apply RtoC_inj in E. lra. Qed.
Lemma Copp_nz (a : C) : a <> 0 -> - a <> 0. Proof. intros H E. apply H. transitivity (- - a); [ring|rewrite E; ring]. Qed.
Ltac nz := repeat match goal with |- _ /\ _ => split end; first [assumption | apply Copp_nz; assumption | apply nz2 | apply nz3 | let E := fresh in intros E; apply (f_equal fst) in E; simpl in E; lra].
Ltac fld := field; nz.
#[global] Hint Resolve nz2 nz3 : core.
Ltac numerals := rewrite ?n2, ?n3, ?n4, ?n8, ?n9, ?n16, ?n27, ?n54, ?n64, ?n256 in *.
Lemma C_integral (a b : C) : a * b = 0 -> a = 0 \/ b = 0.
Proof. intros H. destruct (Ceq_dec a 0) as [|Na]; [auto|]. destruct (Ceq_dec b 0) as [|Nb]; [auto|]. exfalso. exact (Cmult_neq_0 a b Na Nb H). Qed.
Lemma C_eqb_spec a b : C_eqb a b = true <-> a = b.
Proof. unfold C_eqb. destruct (Ceq_dec a b); split; congruence. Qed.

Section S.
Variables csqrt ccbrt : C -> C.
Hypothesis Hsq : forall z, csqrt z * csqrt z = z.
Hypothesis Hcb : forall z, ccbrt z * ccbrt z * ccbrt z = z.

Lemma roots2_vieta b c x y : roots2 csqrt b c = (x, y) -> x + y = - b /\ x * y = c.
Proof.
  unfold roots2. destruct (C_eqb c 0) eqn:E0.
  - apply C_eqb_spec in E0. intros H. injection H as <- <-. subst. split; ring.
  - intros H. assert (Nc : c <> 0) by (intros ->; rewrite (proj2 (C_eqb_spec 0 0) eq_refl) in E0; discriminate).
    set (s := csqrt (b * b - num 4 * c)) in *. pose proof (Hsq (b * b - num 4 * c)) as Hs. fold s in Hs. set (e := if Rle_dec 0 (Re b) then b + s else b - s) in *.
    assert (He : e * e - (1 + 1) * b * e + num 4 * c = 0).
    { unfold e. destruct (Rle_dec 0 (Re b)); [transitivity (s * s - (b * b - num 4 * c)); [ring|rewrite Hs; ring]|transitivity (s * s - (b * b - num 4 * c)); [ring|rewrite Hs; ring]]. }
    assert (Ne : e <> 0).
    { intros Z. rewrite Z in He. apply Nc. assert (Y : num 4 * c = 0) by (rewrite <- He; ring). numerals. apply C_integral in Y. destruct Y as [Y|Y]; [|exact Y].
      exfalso. exact (Cmult_neq_0 _ _ nz2 nz2 Y). }
    injection H as <- <-. numerals. split; [|fld].
    assert (Y : c = ((1 + 1) * b * e - e * e) / ((1 + 1) * (1 + 1))).
    { assert (Z : c * ((1 + 1) * (1 + 1)) = (1 + 1) * b * e - e * e) by (transitivity (((1 + 1) * b * e - e * e) + (e * e - (1 + 1) * b * e + (1 + 1) * (1 + 1) * c)); [ring|rewrite He; ring]).
      rewrite <- Z. fld. }
    rewrite Y. fld.
Qed.
Definition cubic_N b c d := num 2 * b * b * b - num 9 * b * c + num 27 * d.
(** the branch taken by roots3 is fine unless b^2 = 3c and the chosen root cancels *)
Definition cubic_fine b c d : Prop := b * b <> num 3 * c \/
  let R := cubic_N b c d / num 54 in csqrt (R * R) = (if Rle_dec 0 (Re R) then R else - R).
Lemma w_sq : num (sqrt 3 / 2) * num (sqrt 3 / 2) = (1 + 1 + 1) / ((1 + 1) * (1 + 1)).
Proof.
  unfold num. rewrite <- !RtoC_plus, <- !RtoC_mult, <- RtoC_div by lra. f_equal. pose proof (sqrt_sqrt 3). nra.
Qed.
Lemma Ci_sq : Ci * Ci = - (1). Proof. apply injective_projections; simpl; ring. Qed.
Lemma roots3_vieta b c d x y z : roots3 csqrt ccbrt b c d = (x, y, z) -> cubic_fine b c d ->
  x + y + z = - b /\ x * y + x * z + y * z = c /\ x * y * z = - d.
Proof.
  unfold roots3. set (Q := (b * b - num 3 * c) / num 9). fold (cubic_N b c d). set (R := cubic_N b c d / num 54). set (s := csqrt (R * R - Q * Q * Q)).
  set (e := if Rle_dec 0 (Re R) then R + s else R - s). set (A := - ccbrt e). set (B := if C_eqb A 0 then RtoC 0 else Q / A). intros H Hf.
  pose proof (Hsq (R * R - Q * Q * Q)) as Hs. fold s in Hs.
  assert (HA : A * A * A = - e) by (unfold A; rewrite <- (Hcb e) at 4; ring).
  assert (He : e * e - (1 + 1) * R * e + Q * Q * Q = 0).
  { unfold e. destruct (Rle_dec 0 (Re R)); (transitivity (s * s - (R * R - Q * Q * Q)); [ring|rewrite Hs; ring]). }
  assert (G : A * B = Q /\ A * A * A + B * B * B = - (1 + 1) * R).
  { unfold B. destruct (C_eqb A 0) eqn:EA.
    - apply C_eqb_spec in EA. rewrite EA in *. assert (e0 : e = 0) by (transitivity (- (0 * 0 * 0)); [rewrite HA; ring|ring]).
      rewrite e0 in He. assert (Q3 : Q * Q * Q = 0) by (rewrite <- He; ring). assert (Q0 : Q = 0).
      { apply C_integral in Q3. destruct Q3 as [Q3|]; [|assumption]. apply C_integral in Q3. tauto. }
      assert (R0 : R = 0).
      { destruct Hf as [Hf|Hf].
        - exfalso. apply Hf. unfold Q in Q0. transitivity ((b * b - num 3 * c) / num 9 * num 9 + num 3 * c); [numerals; fld|rewrite Q0; ring].
        - fold R in Hf. cbv zeta in Hf. unfold e, s in e0. rewrite Q0 in e0. replace (R * R - 0 * 0 * 0) with (R * R) in e0 by ring. rewrite Hf in e0.
          destruct (Rle_dec 0 (Re R)).
          + assert (Y : (1 + 1) * R = 0) by (rewrite <- e0; ring). apply C_integral in Y. destruct Y as [Y|Y]; [exfalso; exact (nz2 Y)|exact Y].
          + assert (Y : (1 + 1) * R = 0) by (rewrite <- e0; ring). apply C_integral in Y. destruct Y as [Y|Y]; [exfalso; exact (nz2 Y)|exact Y]. }
      rewrite Q0, R0. split; ring.
    - assert (NA : A <> 0) by (intros Z; rewrite (proj2 (C_eqb_spec A 0) Z) in EA; discriminate). split; [fld|].
      assert (Ne : e <> 0) by (intros Z; rewrite Z in HA; assert (Y : A * A * A = 0) by (rewrite HA; ring); apply C_integral in Y; destruct Y as [Y|Y]; [apply C_integral in Y; tauto|tauto]).
      replace (Q / A * (Q / A) * (Q / A)) with (Q * Q * Q / (A * A * A)) by (fld). rewrite HA.
      assert (Q3 : Q * Q * Q = (1 + 1) * R * e - e * e) by (transitivity ((1 + 1) * R * e - e * e + (e * e - (1 + 1) * R * e + Q * Q * Q)); [ring|rewrite He; ring]).
      rewrite Q3. fld. }
  clearbody A B. destruct G as [G1 G2]. injection H as <- <- <-. set (w := num (sqrt 3 / 2)) in *. pose proof w_sq as Hw. fold w in Hw.
  assert (S1 : Ci * (w * (A - B)) * (Ci * (w * (A - B))) = - ((1 + 1 + 1) / ((1 + 1) * (1 + 1)) * ((A - B) * (A - B)))).
  { transitivity ((Ci * Ci) * (w * w) * ((A - B) * (A - B))); [ring|]. rewrite Hw, Ci_sq. ring. }
  set (j := Ci * (w * (A - B))) in *.
  assert (Hc : c = (b * b - num 9 * Q) / num 3) by (unfold Q; numerals; fld).
  assert (Hd : d = (num 54 * R - num 2 * b * b * b + num 9 * b * c) / num 27) by (unfold R, cubic_N; numerals; fld).
  assert (R_ : R = - (A * A * A + B * B * B) / (1 + 1)) by (rewrite G2; fld).
  split; [|split].
  - numerals. fld.
  - rewrite Hc. rewrite <- G1. numerals.
    match goal with |- ?l = _ => assert (L : l = (- (A + B) / (1 + 1) - b / (1 + 1 + 1)) * (- (A + B) / (1 + 1) - b / (1 + 1 + 1)) - j * j + ((A + B - b / (1 + 1 + 1)) * (1 + 1) * (- (A + B) / (1 + 1) - b / (1 + 1 + 1)))) by ring; rewrite L end.
    rewrite S1. fld.
  - rewrite Hd, R_, Hc, <- G1. numerals.
    match goal with |- ?l = _ => assert (L : l = (A + B - b / (1 + 1 + 1)) * ((- (A + B) / (1 + 1) - b / (1 + 1 + 1)) * (- (A + B) / (1 + 1) - b / (1 + 1 + 1)) - j * j)) by ring; rewrite L end.
    rewrite S1. fld.
Qed.
Lemma depressed b c d e : let p := (num 8 * c - num 3 * b * b) / num 8 in let q := (b * b * b - num 4 * b * c + num 8 * d) / num 8 in
  let r := (- num 3 * b * b * b * b + num 256 * e - num 64 * b * d + num 16 * b * b * c) / num 256 in
  forall x, (x + b / num 4) * (x + b / num 4) * (x + b / num 4) * (x + b / num 4) + p * ((x + b / num 4) * (x + b / num 4)) + q * (x + b / num 4) + r =
    x * x * x * x + b * (x * x * x) + c * (x * x) + d * x + e.
Proof. intros p q r x. unfold p, q, r. numerals. fld. Qed.
Lemma roots4_depressed_prod p q r a1 a2 a3 a4 : roots4_depressed csqrt ccbrt p q r = (a1, a2, a3, a4) ->
  (q <> 0 -> cubic_fine (num 2 * p) (p * p - num 4 * r) (- q * q)) ->
  forall x, (x - a1) * (x - a2) * (x - a3) * (x - a4) = x * x * x * x + p * (x * x) + q * x + r.
Proof.
  unfold roots4_depressed. destruct (C_eqb q 0) eqn:Eq; intros H Hf x.
  - apply C_eqb_spec in Eq. subst q. destruct (roots2 csqrt p r) as [r1 r2] eqn:E2. apply roots2_vieta in E2. destruct E2 as [E1 E2].
    injection H as <- <- <- <-. pose proof (Hsq r1) as S1. pose proof (Hsq r2) as S2.
    transitivity ((x * x - csqrt r1 * csqrt r1) * (x * x - csqrt r2 * csqrt r2)); [ring|]. rewrite S1, S2.
    transitivity (x * x * x * x - (r1 + r2) * (x * x) + r1 * r2); [ring|]. rewrite E1, E2. ring.
  - assert (Nq : q <> 0) by (intros Z; rewrite (proj2 (C_eqb_spec q 0) Z) in Eq; discriminate).
    destruct (roots3 csqrt ccbrt (num 2 * p) (p * p - num 4 * r) (- q * q)) as [[r1 r2] r3] eqn:E3.
    apply roots3_vieta in E3; [|apply Hf, Nq]. destruct E3 as (E1 & E2 & E3).
    pose proof (Hsq r2) as S1. pose proof (Hsq r3) as S2. set (s1 := csqrt r2) in *. set (s2 := csqrt r3) in *. set (s3 := - q / (s1 * s2)) in *.
    assert (N2 : r2 <> 0) by (intros Z; apply Nq; rewrite Z in E3; assert (Y : q * q = 0) by (transitivity (- (- q * q)); [ring|rewrite <- E3; ring]); apply C_integral in Y; tauto).
    assert (N3 : r3 <> 0) by (intros Z; apply Nq; rewrite Z in E3; assert (Y : q * q = 0) by (transitivity (- (- q * q)); [ring|rewrite <- E3; ring]); apply C_integral in Y; tauto).
    assert (Ns1 : s1 <> 0) by (intros Z; apply N2; rewrite <- S1, Z; ring).
    assert (Ns2 : s2 <> 0) by (intros Z; apply N3; rewrite <- S2, Z; ring).
    assert (Hq : q = - (s1 * s2 * s3)) by (unfold s3; fld).
    assert (S3 : s3 * s3 = r1).
    { unfold s3. transitivity (q * q / ((s1 * s1) * (s2 * s2))); [fld|]. rewrite S1, S2. transitivity (r1 * r2 * r3 / (r2 * r3)); [rewrite E3; fld|fld]. }
    clearbody s3. injection H as <- <- <- <-. rewrite <- S1, <- S2, <- S3 in E1, E2. clear E3.
    assert (Hp : p = - (s1 * s1 + s2 * s2 + s3 * s3) / (1 + 1)).
    { transitivity (- (- (num 2 * p)) / (1 + 1)); [numerals; fld|]. rewrite <- E1. fld. }
    assert (Hr : r = (p * p - (s1 * s1 * (s2 * s2) + s1 * s1 * (s3 * s3) + s2 * s2 * (s3 * s3))) / ((1 + 1) * (1 + 1))).
    { transitivity ((p * p - (p * p - num 4 * r)) / ((1 + 1) * (1 + 1))); [numerals; fld|]. rewrite <- E2. fld. }
    rewrite Hr, Hq, Hp. numerals. fld.
Qed.
End S.
