(** * C65: the analytic absorption distance *)
From Coq Require Import List Bool Arith Lia Reals Ranalysis5 Lra Psatz.
From Coquelicot Require Import Rcomplements Rbar Lim_seq Hierarchy Continuity Derive RInt RInt_analysis ElemFct AutoDerive Complex.
From Verif Require Import Cosmo CosmoSpec Roots RootsSpec RootsFacts RootsC RootsPrincipal Prop_Roots CarlsonSpec CarlsonC AnalyticFacts AnalyticC AnalyticAbs Analytic Prop_Analytic Prop_Lookback.
Import ListNotations.
Open Scope R_scope.
Open Scope C_scope.

Section Absorption.
Variables (csqrt ccbrt : C -> C) (eigvals : list (list C) -> list C).
Hypothesis Hs : principal_sqrt csqrt.
Hypothesis Hc : cube_root ccbrt.
Variables (elliprf elliprd : C -> C -> C -> C).
Hypothesis HF : computes_RF csqrt elliprf.
Hypothesis HD : computes_RD csqrt elliprd.
Notation absorption := (analytic_absorption_z1z2 csqrt ccbrt eigvals elliprf elliprd).
Notation dd := (d csqrt).

Definition inner (z1 z2 : R) (r1 r2 r3 : C) : C :=
  let dz := (z2 - z1)%R in let '(u1, u2, u3) := ellipr_params3 csqrt z1 z2 r1 r2 r3 in let dijdik := (r2 - r1) * (r3 - r1) in
  (dd z2 r1 * dd z2 r2 * dd z2 r3 - dd z1 r1 * dd z1 r2 * dd z1 r3) / RtoC dz + (RtoC 3 * square (r1 + RtoC 1) - dijdik) * elliprf u1 u2 u3
  + RtoC 2 * (r1 + r2 + r3 + RtoC 3) * (RtoC (dz ^ 2 / 3) * dijdik * elliprd u2 u3 u1 + dd z1 r1 * dd z2 r1 / csqrt u1).
Lemma real_part k la X H : (0 < H)%R -> (forall h, 0 <= h <= H -> 0 < P3 k la X h)%R ->
  let q := fun h => sqrt (P3 k la X h) in
  (q H - q 0 - k * (RInt (fun h => h / q h) 0 H + X * RInt (fun h => / q h) 0 H) = 3 / 2 * RInt (fun h => (X + h) ^ 2 / q h) 0 H)%R.
Proof.
  intros HH PP q. assert (Qp : forall h, (0 <= h <= H)%R -> (0 < q h)%R) by (intros h A; apply sqrt_lt_R0, PP, A).
  assert (Dq : forall h, (0 <= h <= H)%R -> is_derive q h ((3 * (X + h) ^ 2 + 2 * k * (X + h)) / (2 * q h))%R).
  { intros h A. unfold q. apply (is_derive_sqrt (P3 k la X) h (3 * (X + h) ^ 2 + 2 * k * (X + h))%R); [|apply PP, A]. apply (is_derive_ext (fun h => (X + h) ^ 3 + k * (X + h) ^ 2 + la)%R); [intros t; symmetry; apply P3_pos|]. auto_derive; [exact I|]. cbn [pow Nat.pred INR]. ring. }
  assert (Cq : forall h, (0 <= h <= H)%R -> continuous (fun h => / q h)%R h).
  { intros h A. apply continuity_pt_filterlim, continuity_pt_inv; [|pose proof (Qp h ltac:(lra)); lra]. apply continuity_pt_filterlim, (ex_derive_continuous q). eexists. apply Dq. lra. }
  assert (C0 : ex_RInt (fun h => / q h)%R 0 H) by (apply (cont_int H HH), Cq).
  assert (C1 : ex_RInt (fun h => h / q h)%R 0 H) by (apply (cont_int H HH); intros h A; apply (continuous_mult (fun h => h) (fun h => / q h)%R); [apply continuous_id|apply Cq, A]).
  assert (C2 : ex_RInt (fun h => (X + h) ^ 2 / q h)%R 0 H) by (apply (cont_int H HH); intros h A; apply (continuous_mult (fun h => (X + h) ^ 2)%R (fun h => / q h)%R); [apply (ex_derive_continuous (fun h => (X + h) ^ 2)%R); auto_derive; exact I|apply Cq, A]).
  assert (C3 : ex_RInt (fun h => 1 * (h / q h) + X * / q h)%R 0 H) by (apply (ex_RInt_plus (V := R_NormedModule) (fun h => 1 * (h / q h))%R (fun h => X * / q h)%R); [apply (ex_RInt_scal (V := R_NormedModule) (fun h => h / q h)%R), C1|apply (ex_RInt_scal (V := R_NormedModule) (fun h => / q h)%R), C0]).
  pose proof (RInt_lin H (fun h => h / q h)%R (fun h => / q h)%R 1 X C1 C0) as L1. rewrite Rmult_1_l in L1. rewrite <- L1.
  assert (F : (RInt (fun h => (3 / 2) * ((X + h) ^ 2 / q h) + k * (1 * (h / q h) + X * / q h)) 0 H = q H - q 0)%R).
  { apply is_RInt_unique. apply (is_RInt_derive (V := R_CompleteNormedModule) q).
    - intros x Hx. rewrite Rmin_left, Rmax_right in Hx by lra. evar_last; [apply Dq; lra|]. eqR. pose proof (Qp x ltac:(lra)). field. lra.
    - intros x Hx. rewrite Rmin_left, Rmax_right in Hx by lra. apply (continuous_plus (V := R_NormedModule) (fun h => (3 / 2) * ((X + h) ^ 2 / q h))%R (fun h => k * (1 * (h / q h) + X * / q h))%R).
      + apply (continuous_scal_r (V := R_NormedModule) (3 / 2)%R (fun h => (X + h) ^ 2 / q h)%R). apply (continuous_mult (fun h => (X + h) ^ 2)%R (fun h => / q h)%R); [apply (ex_derive_continuous (fun h => (X + h) ^ 2)%R); auto_derive; exact I|apply Cq, Hx].
      + apply (continuous_scal_r (V := R_NormedModule) k (fun h => 1 * (h / q h) + X * / q h)%R). apply (continuous_plus (V := R_NormedModule) (fun h => 1 * (h / q h))%R (fun h => X * / q h)%R).
        * apply (continuous_scal_r (V := R_NormedModule) 1%R (fun h => h / q h)%R). apply (continuous_mult (fun h => h) (fun h => / q h)%R); [apply continuous_id|apply Cq, Hx].
        * apply (continuous_scal_r (V := R_NormedModule) X (fun h => / q h)%R). apply Cq, Hx. }
  pose proof (RInt_lin H (fun h => (X + h) ^ 2 / q h)%R (fun h => 1 * (h / q h) + X * / q h)%R (3 / 2) k C2 C3) as L2. assert (L3 : (q H - q 0 = 3 / 2 * RInt (fun h => (X + h) ^ 2 / q h) 0 H + k * RInt (fun h => 1 * (h / q h) + X * / q h) 0 H)%R) by (rewrite <- F; exact L2). rewrite L3. ring.
Qed.
Lemma absorption_forward k la z1 z2 (R1 R2 R3 : C) : R1 + R2 + R3 = RtoC (- k) -> R1 * R2 + R1 * R3 + R2 * R3 = 0 -> R1 * R2 * R3 = RtoC (- la) -> (z1 < z2)%R ->
  (forall h, 0 <= h <= z2 - z1 -> 0 < P3 k la (1 + z1) h)%R -> forall sg,
  signed csqrt ((1 + z1) ^ 3 + k * (1 + z1) ^ 2 + la) (3 * (1 + z1) ^ 2 + 2 * k * (1 + z1)) (3 * (1 + z1) + k) (z2 - z1) (R1 - RtoC (1 + z1)) (R2 - RtoC (1 + z1)) (R3 - RtoC (1 + z1)) sg ->
  inner z1 z2 (R1 - RtoC 1) (R2 - RtoC 1) (R3 - RtoC 1) =
  RtoC ((3 / 2 * RInt (fun h => (1 + z1 + h) ^ 2 / sqrt (P3 k la (1 + z1) h)) 0 (z2 - z1) + (sg - 1) * (sqrt (P3 k la (1 + z1) (z2 - z1)) - sqrt (P3 k la (1 + z1) 0))) / (z2 - z1))%R.
Proof.
  intros S1 S2 S3 L PP sg (SG1 & SG2 & SG3). destruct (shift_cubic k la (1 + z1) R1 R2 R3 S1 S2 S3) as (F1 & F2 & F3). pose proof (cubic_forward csqrt Hs elliprf HF k la z1 z2 R1 R2 R3 S1 S2 S3 L PP) as CF. unfold inner. unfold ellipr_params3 in *. cbv zeta. cbv beta iota zeta in CF.
  match goal with |- context [elliprf ?a ?b ?c] => set (u1 := a) in *; set (u2 := b) in *; set (u3 := c) in * end. rewrite CF. clear CF.
  unfold u1, u2, u3. clear u1 u2 u3. rewrite !(d_from csqrt z1), !(d_to csqrt z1 z2).
  set (H := (z2 - z1)%R) in *. assert (HH : (0 < H)%R) by (unfold H; lra). set (X := (1 + z1)%R) in *. pose proof (real_part k la X H HH PP) as RP. cbv zeta in RP.
  set (R2v := RInt (fun h => (X + h) ^ 2 / sqrt (P3 k la X h))%R 0 H) in *. change R in (type of R2v). clearbody R2v. 
  unfold P3 in *. set (p0 := (X ^ 3 + k * X ^ 2 + la)%R) in *. set (p1 := (3 * X ^ 2 + 2 * k * X)%R) in *. set (p2 := (3 * X + k)%R) in *.
  set (o1 := R1 - RtoC X) in *. set (o2 := R2 - RtoC X) in *. set (o3 := R3 - RtoC X) in *.
  assert (HI : (0 < H <= H)%R) by lra. pose proof (cubic_prod csqrt Hs H HH p0 p1 p2 o1 o2 o3 F1 F2 F3 PP H HI) as PR.
  pose proof (cubic_arg csqrt Hs H p0 p1 p2) as CA. unfold square.
  pose proof (CA o1 o2 o3 H HI F1 F2 F3 PR) as U1.
  pose proof (CA o2 o1 o3 H HI ltac:(rewrite <- F1; ring) ltac:(rewrite <- F2; ring) ltac:(rewrite <- F3; ring) ltac:(rewrite <- PR; ring)) as U2.
  pose proof (CA o3 o1 o2 H HI ltac:(rewrite <- F1; ring) ltac:(rewrite <- F2; ring) ltac:(rewrite <- F3; ring) ltac:(rewrite <- PR; ring)) as U3. cbv zeta in U1, U2, U3. clear CA.
  pose proof (RD_path csqrt Hs p0 p1 p2 H o1 o2 o3 HH PP F1 F2 F3) as RD. unfold u_ in RD. rewrite <- U1, <- U2, <- U3 in RD. apply HD in RD.
  match type of RD with elliprd ?x ?y ?z = _ => match goal with |- context [elliprd ?a ?b ?c] => replace (elliprd a b c) with (elliprd x y z) by (apply f_equal3; ring) end end. rewrite RD. clear RD.
  clear U1 U2 U3. unfold w1 in SG3. rewrite SG2, SG1, SG3.
  pose proof (integral_A csqrt Hs p0 p1 p2 H o1 o2 o3 HH PP F1 F2 F3) as IA.
  set (W := IC H (wn p0 p1 p2 o1 o2 o3)) in *. clearbody W.
  set (bb := e1 o1 * B o1 H * / Dh p0 p1 p2 o1 H) in *. clearbody bb.
  change (RInt (fun h => / sqrt (P p0 p1 p2 1 0 h)) 0 H)%R with (I0 p0 p1 p2 H). change (sqrt (P p0 p1 p2 1 0 H)) with (q p0 p1 p2 1 0 H) in *. change (sqrt (P p0 p1 p2 1 0 0)) with (q p0 p1 p2 1 0 0) in *.
  change (RInt (fun h => h / sqrt (P p0 p1 p2 1 0 h)) 0 H)%R with (I1 p0 p1 p2 H) in RP. change (RInt (fun h => / sqrt (P p0 p1 p2 1 0 h)) 0 H)%R with (I0 p0 p1 p2 H) in RP. rewrite q0 in *.
  set (i0 := I0 p0 p1 p2 H) in *. set (i1 := I1 p0 p1 p2 H) in *. set (qh := q p0 p1 p2 1 0 H) in *. set (q0 := sqrt p0) in *. clearbody i0 i1 qh q0.
  assert (Hn : RtoC H <> 0) by (intros Z; apply RtoC_inj in Z; lra). assert (N2 : RtoC 2 <> 0) by (intros Z; apply RtoC_inj in Z; lra). assert (N3 : RtoC 3 <> 0) by (intros Z; apply RtoC_inj in Z; lra).
  assert (BV : bb = (RtoC i1 + e1 o1 * RtoC i0 - c12 o1 o2 o3 * W) / (RtoC 2 * RtoC H)) by (rewrite <- IA, RtoC_mult; field; split; assumption).
  assert (CV : (R2 - RtoC 1 - (R1 - RtoC 1)) * (R3 - RtoC 1 - (R1 - RtoC 1)) = c12 o1 o2 o3) by (unfold c12, o1, o2, o3; ring).
  assert (CR : c12 o1 o2 o3 = RtoC 3 * (R1 * R1) + RtoC 2 * RtoC k * R1).
  { transitivity (R2 * R3 - R1 * (R2 + R3) + R1 * R1); [unfold c12, o1, o2, o3; ring|]. assert (Z : R2 * R3 = - (R1 * (R2 + R3))) by (transitivity (R1 * R2 + R1 * R3 + R2 * R3 - R1 * (R2 + R3)); [ring|rewrite S2; ring]). rewrite Z. assert (Z2 : R2 + R3 = - RtoC k - R1) by (transitivity (R1 + R2 + R3 - R1); [ring|rewrite S1, RtoC_opp; ring]). rewrite Z2. replace (RtoC 3) with (1 + 1 + 1) by (rewrite <- !RtoC_plus; f_equal; ring). rewrite RtoC2. ring. }
  rewrite CV. replace (R1 - RtoC 1 + (R2 - RtoC 1) + (R3 - RtoC 1) + RtoC 3) with (- RtoC k) by (transitivity (R1 + R2 + R3); [rewrite S1, RtoC_opp; ring|replace (RtoC 3) with (1 + 1 + 1) by (rewrite <- !RtoC_plus; f_equal; ring); ring]).
  replace (R1 - RtoC 1 + RtoC 1) with R1 by ring. rewrite BV. set (c := c12 o1 o2 o3) in *.
  replace ((3 / 2 * R2v + (sg - 1) * (qh - q0)) / H)%R with ((sg * qh - sg * q0 - k * (i1 + X * i0)) / H)%R by (rewrite <- RP; field; lra).
  rewrite !RtoC_div, !RtoC_minus, ?RtoC_mult, ?RtoC_plus, ?RtoC_mult by (try lra; try (apply Rmult_integral_contrapositive_currified; lra); try (apply Rgt_not_eq, Rmult_lt_0_compat; [lra|apply pow_lt; lra])).
  replace (RtoC 3 * (R1 * R1) - c) with (- (RtoC 2 * RtoC k * R1)) by (rewrite CR; ring). clearbody c. unfold e1, o1. replace (H ^ 2)%R with (H * H)%R by ring. replace (H ^ 3)%R with (H * H * H)%R by ring. rewrite !RtoC_mult. field. repeat split; assumption.
Qed.
Lemma inner_swap z1 z2 r1 r2 r3 : (z1 <> z2)%R -> inner z2 z1 r1 r2 r3 = inner z1 z2 r1 r2 r3.
Proof.
  intros N. unfold inner. rewrite (params3_swap csqrt z2 z1). destruct (ellipr_params3 csqrt z1 z2 r1 r2 r3) as [[u1 u2] u3]. cbv zeta.
  replace ((z1 - z2) ^ 2 / 3)%R with ((z2 - z1) ^ 2 / 3)%R by field. replace (z1 - z2)%R with (- (z2 - z1))%R by ring. rewrite RtoC_opp. assert (Z : RtoC (z2 - z1) <> 0) by (intros Z; apply RtoC_inj in Z; lra).
  rewrite (Cmult_comm (dd z2 r1) (dd z1 r1)). f_equal. f_equal. fld.
Qed.
Open Scope R_scope.
Lemma absorption_signed c s z1 z2 l f sg : de_of c = CC -> rad c = false -> epoly_leading c s = Some l -> 0 < l -> z1 <> z2 ->
  (forall t, Rmin z1 z2 <= t <= Rmax z1 z2 -> exists e, e2func c s t = Some e /\ 0 < e /\ f t = (1 + t) ^ 2 / sqrt e) ->
  (sg = 1 /\ (forall t, Rmin z1 z2 <= t -> exists e, e2func c s t = Some e /\ 0 < e)) \/ (sg = -1 /\ exists t e, Rmax z1 z2 < t /\ e2func c s t = Some e /\ e <= 0) ->
  forall e1 e2, e2func c s z1 = Some e1 -> e2func c s z2 = Some e2 ->
  absorption c s z1 z2 = Some (RInt f z1 z2 + 2 / 3 * (sg - 1) * (sqrt e2 - sqrt e1) / l).
Proof.
  intros D Er L Pl Nz E2 SG e1 e2 V1 V2. unfold analytic_absorption_z1z2, epoly_roots, epoly_coeffs, epoly_coeffs_, roots_force_numeric, fix_dimless. rewrite L, Er. unfold epoly_leading in L. rewrite Er in L. cbn [bind].
  pose proof V1 as E0. rewrite (e2_analytic c s _ D) in E0. unfold bind in E0.
  destruct (s Om0) as [m|] eqn:Em; [|discriminate]. destruct (get_Ok0 c s) as [k|] eqn:Ek; [|discriminate]. destruct (get_Ode0 c s) as [d|] eqn:Ed; [|discriminate]. clear E0. cbn [bind]. injection L as ->.
  destruct (cubic_roots csqrt ccbrt eigvals Hs Hc l k d) as (r1 & r2 & r3 & E & S1 & S2 & S3). cbn [map] in E. cbn [map]. rewrite E. cbn [map bind]. clear E.
  assert (VAL : forall t e z, e2func c s t = Some e -> e = l * P3 (k / l) (d / l) (1 + z) (t - z)).
  { intros t e z H1. rewrite (e2_analytic c s t D), Em, Ek, Ed, Er in H1. cbn [bind] in H1. injection H1 as H1. rewrite P3_pos, <- H1. field. lra. }
  assert (POS : forall t e z, e2func c s t = Some e -> 0 < e -> 0 < P3 (k / l) (d / l) (1 + z) (t - z)) by (intros t e z H1 H2; pose proof (VAL t e z H1) as H3; apply (Rmult_lt_reg_l l); lra).
  pose proof (sqrt_lt_R0 l Pl) as Sl. pose proof (sqrt_sqrt l ltac:(lra)) as SSl.
  assert (FW : forall a b ea eb, a < b -> a = Rmin z1 z2 -> b = Rmax z1 z2 -> e2func c s a = Some ea -> e2func c s b = Some eb -> ex_RInt f a b /\
     RInt f a b + 2 / 3 * (sg - 1) * (sqrt eb - sqrt ea) / l = 2 / 3 * (b - a) * (Re (inner a b (r1 - 1)%C (r2 - 1)%C (r3 - 1)%C) / sqrt l)).
  { intros a b ea eb Lab Ea Eb Va Vb. assert (PA : forall h, 0 <= h <= b - a -> 0 < P3 (k / l) (d / l) (1 + a) h).
    { intros h Hh. destruct (E2 (a + h) ltac:(lra)) as (e & H1 & H2 & _). pose proof (POS _ _ a H1 H2) as Q1. replace (a + h - a) with h in Q1 by ring. exact Q1. }
    destruct (shift_cubic (k / l) (d / l) (1 + a) r1 r2 r3 S1 S2 S3) as (G1 & G2 & G3). assert (HH : 0 < b - a) by lra.
    assert (SGN : signed csqrt ((1 + a) ^ 3 + k / l * (1 + a) ^ 2 + d / l) (3 * (1 + a) ^ 2 + 2 * (k / l) * (1 + a)) (3 * (1 + a) + k / l) (b - a) (r1 - RtoC (1 + a))%C (r2 - RtoC (1 + a))%C (r3 - RtoC (1 + a))%C sg).
    { destruct SG as [[-> ALL]|[-> (t & e & T1 & T2 & T3)]].
      - apply (no_bounce csqrt Hs _ _ _ (b - a) _ _ _ HH PA G1 G2 G3). intros h Hh. destruct (ALL (a + h) ltac:(lra)) as (e & H1 & H2). pose proof (POS _ _ a H1 H2) as Q1. replace (a + h - a) with h in Q1 by ring. exact Q1.
      - apply (bounce csqrt Hs _ _ _ (b - a) _ _ _ HH PA G1 G2 G3 (t - a)); [lra|]. pose proof (VAL _ _ a T2) as Q1. change (P3 (k / l) (d / l) (1 + a) (t - a) <= 0). apply Rnot_lt_le. intros W. assert (0 < l * P3 (k / l) (d / l) (1 + a) (t - a)) by (apply Rmult_lt_0_compat; assumption). lra. }
    rewrite (absorption_forward (k / l) (d / l) a b r1 r2 r3 S1 S2 S3 Lab PA sg SGN).
    destruct (RInt_shift_div f (fun h => (1 + a + h) ^ 2 / sqrt (P3 (k / l) (d / l) (1 + a) h)) (sqrt l) a b Lab ltac:(lra)) as [EX EQ].
    - intros h Hh. destruct (E2 (a + h) ltac:(lra)) as (e & H1 & H2 & Q2). pose proof (PA h Hh) as Q1. rewrite (VAL _ _ a H1) in Q2. replace (a + h - a) with h in * by ring. pose proof (sqrt_lt_R0 _ Q1) as Sq. split.
      + apply (continuous_mult (fun h => (1 + a + h) ^ 2) (fun h => / sqrt (P3 (k / l) (d / l) (1 + a) h))); [apply (ex_derive_continuous (fun h => (1 + a + h) ^ 2)); auto_derive; exact I|]. apply inv_sqrt_cont; [apply P_continuous|exact Q1].
      + rewrite Q2, sqrt_mult by lra. replace (1 + (a + h)) with (1 + a + h) by ring. field. split; lra.
    - split; [exact EX|]. rewrite EQ. pose proof (VAL _ _ a Va) as Xa. pose proof (VAL _ _ a Vb) as Xb. replace (a - a) with 0 in Xa by ring. pose proof (PA 0 ltac:(lra)). pose proof (PA (b - a) ltac:(lra)). rewrite Xa, Xb, !sqrt_mult by lra. unfold Re. cbn [fst RtoC]. eqR.
      set (qa := sqrt (P3 (k / l) (d / l) (1 + a) 0)). set (qb := sqrt (P3 (k / l) (d / l) (1 + a) (b - a))). match goal with |- context [RInt ?g 0 (b - a)] => set (i := RInt g 0 (b - a) : R) end.
      change (i / sqrt l + 2 / 3 * (sg - 1) * (sqrt l * qb - sqrt l * qa) / l = 2 / 3 * (b - a) * ((3 / 2 * i + (sg - 1) * (qb - qa)) / (b - a) / sqrt l)). clearbody i qa qb. rewrite <- SSl at 4. field. split; lra. }
  assert (V : RInt f z1 z2 + 2 / 3 * (sg - 1) * (sqrt e2 - sqrt e1) / l = 2 / 3 * (z2 - z1) * (Re (inner z1 z2 (r1 - 1)%C (r2 - 1)%C (r3 - 1)%C) / sqrt l)).
  { destruct (Rtotal_order z1 z2) as [Lt|[Eq|Gt]]; [|contradiction|].
    - apply (FW z1 z2 e1 e2); [exact Lt|rewrite Rmin_left by lra; reflexivity|rewrite Rmax_right by lra; reflexivity|exact V1|exact V2].
    - destruct (FW z2 z1 e2 e1 Gt ltac:(rewrite Rmin_right by lra; reflexivity) ltac:(rewrite Rmax_left by lra; reflexivity) V2 V1) as [EX EQ]. pose proof (opp_RInt_swap f z2 z1 EX) as SW. change (- RInt f z2 z1 = RInt f z1 z2) in SW. rewrite <- SW, <- (inner_swap z1 z2) by exact Nz. eqR.
      replace (2 / 3 * (z2 - z1) * (Re (inner z2 z1 (r1 - 1)%C (r2 - 1)%C (r3 - 1)%C) / sqrt l)) with (- (2 / 3 * (z1 - z2) * (Re (inner z2 z1 (r1 - 1)%C (r2 - 1)%C (r3 - 1)%C) / sqrt l))) by (unfold Rdiv; ring). rewrite <- EQ. field. lra. }
  rewrite V. unfold inner. destruct (ellipr_params3 csqrt z1 z2 (r1 - 1)%C (r2 - 1)%C (r3 - 1)%C) as [[u1 u2] u3]. cbv zeta. destruct (Req_EM_T (z2 - z1) 0) as [Z|Z]; [exfalso; lra|]. reflexivity.
Qed.
(** ** C65: the absorption distance between two redshifts is the integral of (1+z)^2 / E, in either order, when E^2 is positive at the smaller redshift and everywhere above it. *)
Theorem C65_absorption c s z1 z2 l f : de_of c = CC -> rad c = false -> epoly_leading c s = Some l -> 0 < l -> z1 <> z2 ->
  (forall t, Rmin z1 z2 <= t -> exists e, e2func c s t = Some e /\ 0 < e /\ f t = (1 + t) ^ 2 / sqrt e) ->
  absorption c s z1 z2 = Some (RInt f z1 z2).
Proof.
  intros D Er L Pl Nz E2. destruct (E2 z1 (Rmin_l z1 z2)) as (e1 & V1 & _). destruct (E2 z2 (Rmin_r z1 z2)) as (e2 & V2 & _).
  rewrite (absorption_signed c s z1 z2 l f 1 D Er L Pl Nz) with (e1 := e1) (e2 := e2); [|intros t Ht; apply E2, Ht|left; split; [reflexivity|intros t Ht; destruct (E2 t Ht) as (e & H1 & H2 & _); exists e; split; assumption]|exact V1|exact V2].
  apply (f_equal (@Some R)). match goal with |- context [RInt f z1 z2] => set (i := RInt f z1 z2 : R) end. change (i + 2 / 3 * (1 - 1) * (sqrt e2 - sqrt e1) / l = i). field. lra.
Qed.
(** When E^2 vanishes somewhere above both redshifts (a universe that bounced) the result is wrong by 4/3 (E(z2) - E(z1)) / Om0. *)
Theorem C65_bounce_refuted c s z1 z2 l f t0 e0 : de_of c = CC -> rad c = false -> epoly_leading c s = Some l -> 0 < l -> z1 <> z2 ->
  (forall t, Rmin z1 z2 <= t <= Rmax z1 z2 -> exists e, e2func c s t = Some e /\ 0 < e /\ f t = (1 + t) ^ 2 / sqrt e) ->
  Rmax z1 z2 < t0 -> e2func c s t0 = Some e0 -> e0 <= 0 -> forall e1 e2, e2func c s z1 = Some e1 -> e2func c s z2 = Some e2 ->
  absorption c s z1 z2 = Some (RInt f z1 z2 - 4 / 3 * (sqrt e2 - sqrt e1) / l).
Proof.
  intros D Er L Pl Nz E2 T1 T2 T3 e1 e2 V1 V2. rewrite (absorption_signed c s z1 z2 l f (-1) D Er L Pl Nz E2) with (e1 := e1) (e2 := e2); [|right; split; [reflexivity|exists t0, e0; auto]|exact V1|exact V2].
  apply (f_equal (@Some R)). match goal with |- context [RInt f z1 z2] => set (i := RInt f z1 z2 : R) end. change (i + 2 / 3 * (-1 - 1) * (sqrt e2 - sqrt e1) / l = i - 4 / 3 * (sqrt e2 - sqrt e1) / l). field. lra.
Qed.
(** At equal redshifts the distance is zero, but the code does not return it: it divides zero by zero. *)
Theorem C65_zero_refuted c s z : absorption c s z z = None.
Proof.
  unfold analytic_absorption_z1z2. destruct (epoly_roots csqrt ccbrt eigvals c s) as [[|a [|b [|e [|? ?]]]]|]; cbn [bind]; try reflexivity. destruct (rad c); [reflexivity|].
  destruct (ellipr_params3 csqrt z z a b e) as [[u1 u2] u3]. destruct (Req_EM_T (z - z) 0) as [_|N]; [reflexivity|]. exfalso. lra.
Qed.
End Absorption.
(** For the method of the class, whose only argument is the redshift of the source *)
Theorem C65_distance csqrt ccbrt eigvals elliprf elliprd c s z l f : principal_sqrt csqrt -> cube_root ccbrt -> computes_RF csqrt elliprf -> computes_RD csqrt elliprd ->
  de_of c = CC -> rad c = false -> epoly_leading c s = Some l -> (0 < l)%R -> z <> 0%R ->
  (forall t, Rmin 0 z <= t -> exists e, e2func c s t = Some e /\ 0 < e /\ f t = (1 + t) ^ 2 / sqrt e)%R ->
  analytic_absorption csqrt ccbrt eigvals elliprf elliprd c s z = Some (RInt f 0 z).
Proof. intros Hs Hc HF HD D Er L Pl Nz E2. apply (C65_absorption csqrt ccbrt eigvals Hs Hc elliprf elliprd HF HD c s 0 z l f D Er L Pl); [lra|exact E2]. Qed.

Print Assumptions C65_absorption.
Print Assumptions C65_bounce_refuted.
Print Assumptions C65_zero_refuted.
Definition some_RD (csqrt : C -> C) (x y z : C) : C := some_RJ csqrt x y z z.
Open Scope R_scope.
Example C65_nonvacuous : let c := Cls CC false false in let s := ex_state c in principal_sqrt psqrt /\ cube_root pcbrt /\ computes_RF psqrt (some_RF psqrt) /\ computes_RD psqrt (some_RD psqrt) /\
  epoly_leading c s = Some 0.3 /\ forall t, -1/2 <= t -> exists e, e2func c s t = Some e /\ 0 < e.
Proof.
  intros c s. split; [apply psqrt_principal|]. split; [apply pcbrt_cube|]. split; [apply some_RF_ok|]. split; [intros x y z v A; apply lim_improper_ok, A|]. split; [reflexivity|].
  intros t Ht. rewrite (e2_analytic c s t eq_refl). unfold get_Ok0, get_Ode0, sum0_noDE, s, ex_state, c. simpl bind. eexists. split; [reflexivity|]. nra.
Qed.
(** A universe with 0.25 of matter and 1.9 of cosmological constant: E^2 is positive up to z = 1/10 and negative at z = 1, and the values of E differ. *)
Definition bounce_state : state := fun p => match p with Om0 => Some (1/4) | Ode0 => Some 1.9 | _ => None end.
Example C65_bounce_nonvacuous : let c := Cls CC false false in let s := bounce_state in epoly_leading c s = Some (1/4) /\
  (forall t, 0 <= t <= 1/10 -> exists e, e2func c s t = Some e /\ 0 < e) /\ (exists e0, e2func c s 1 = Some e0 /\ e0 <= 0) /\
  exists e1 e2, e2func c s 0 = Some e1 /\ e2func c s (1/10) = Some e2 /\ sqrt e1 <> sqrt e2.
Proof.
  intros c s. split; [reflexivity|]. assert (V : forall t, e2func c s t = Some ((1 + t) ^ 2 * (1/4 * (1 + t) + (1 - (1/4 + 1.9))) + 1.9)).
  { intros t. rewrite (e2_analytic c s t eq_refl). unfold get_Ok0, get_Ode0, sum0_noDE, s, bounce_state, c. simpl bind. f_equal. ring. }
  split; [intros t Ht; eexists; split; [apply V|nra]|]. split; [eexists; split; [apply V|lra]|]. do 2 eexists. split; [apply V|]. split; [apply V|]. intros E. apply sqrt_inj in E; lra.
Qed.
