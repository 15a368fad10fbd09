(** * C69: the differentiable analytic driver *)
From Coq Require Import List Bool Arith ZArith Lia Reals Lra.
From Coquelicot Require Import Rcomplements Rbar Lim_seq Hierarchy Continuity Derive RInt RInt_analysis Complex.
From Verif Require Import Cosmo CosmoSpec Roots RootsSpec RootsFacts RootsC RootsPrincipal Prop_Roots CarlsonSpec CarlsonC AnalyticFacts AnalyticC AnalyticAbs Analytic Prop_Analytic Prop_Lookback Prop_Absorption DiffDriver.
Import ListNotations.
Open Scope R_scope.
Open Scope C_scope.

Section Diff.
Variables (csqrt ccbrt : C -> C) (eigvals : list (list C) -> list C).
Hypothesis Hs : principal_sqrt csqrt.
Hypothesis Hc : cube_root ccbrt.
Variables (elliprc : C -> C -> C) (elliprd elliprf : C -> C -> C -> C) (elliprj : C -> C -> C -> C -> C).
Notation dd := (d csqrt).

Lemma fix_scale c s (k : R) (v : C) : fix_dimless c s (RtoC k * v) = bind (fix_dimless c s v) (fun f => Some (k * f)%R).
Proof. unfold fix_dimless, bind. destruct (epoly_leading c s); [|reflexivity]. f_equal. destruct v as [p q]. unfold Re. cbn. unfold Rdiv. ring. Qed.
Lemma opp_add r z : - r + RtoC z = RtoC z - r. Proof. ring. Qed.
Definition rev3 (f : C -> C -> C -> C) (u v w : C) : C := f w v u.
Definition rev4 (f : C -> C -> C -> C -> C) (u v w p : C) : C := f w v u p.
Ltac norm := cbv [cU2 cU2nu cS2 cQ2 cwithout cidx_set filter existsb map seq Nat.eqb Nat.add negb orb cX cY cXorY citem nth app cpow cd cd_up Nat.ltb Nat.leb cxmy cwith_U2xyz square rev3 rev4 d].
Lemma comoving3 fuel c s z1 z2 rts : rad c = false -> epoly_roots csqrt ccbrt eigvals c s = Some rts -> length rts = 3%nat ->
  diff_comoving csqrt ccbrt eigvals elliprc elliprd elliprf elliprj fuel c s z1 z2 = analytic_comoving csqrt ccbrt eigvals (rev3 elliprf) c s z1 z2.
Proof.
  intros Er E Len. unfold diff_comoving, analytic_comoving, elliptic_integral, epoly_degree. rewrite Er, E. cbn [bind]. destruct rts as [|r1 [|r2 [|r3 [|? ?]]]]; try discriminate Len.
  change (cIm csqrt z2 z1 (map Copp [r1; r2; r3]) 3 elliprc elliprd elliprf elliprj fuel (zeros 3)) with (Some (cIe_0 csqrt z2 z1 (map Copp [r1; r2; r3]) 3 elliprf)). cbn [bind]. unfold cIe_0, ellipr_params3. norm. rewrite !opp_add. cbn [bind].
  transitivity (bind (fix_dimless c s (RtoC (2 * (z2 - z1)) * elliprf (square (d csqrt z1 r1 * d csqrt z1 r2 * d csqrt z2 r3 + d csqrt z2 r1 * d csqrt z2 r2 * d csqrt z1 r3)) (square (d csqrt z1 r1 * d csqrt z2 r2 * d csqrt z1 r3 + d csqrt z2 r1 * d csqrt z1 r2 * d csqrt z2 r3)) (square (d csqrt z1 r1 * d csqrt z2 r2 * d csqrt z2 r3 + d csqrt z2 r1 * d csqrt z1 r2 * d csqrt z1 r3)))) Some).
  - unfold d. rewrite RtoC_mult, RtoC_minus. unfold square.
    match goal with |- fix_dimless _ _ ?a = bind (fix_dimless _ _ ?b) Some => replace a with b; [destruct (fix_dimless c s b); reflexivity|] end. f_equal. apply f_equal3; ring.
  - rewrite fix_scale. destruct (fix_dimless c s _); reflexivity.
Qed.
Lemma comoving4 fuel c s z1 z2 rts : rad c = true -> epoly_roots csqrt ccbrt eigvals c s = Some rts -> length rts = 4%nat ->
  diff_comoving csqrt ccbrt eigvals elliprc elliprd elliprf elliprj fuel c s z1 z2 = analytic_comoving csqrt ccbrt eigvals elliprf c s z1 z2.
Proof.
  intros Er E Len. unfold diff_comoving, analytic_comoving, elliptic_integral, epoly_degree. rewrite Er, E. cbn [bind]. destruct rts as [|r1 [|r2 [|r3 [|r4 [|? ?]]]]]; try discriminate Len. cbn [rev app].
  change (cIm csqrt z2 z1 (map Copp [r1; r2; r3; r4]) 4 elliprc elliprd elliprf elliprj fuel (zeros 4)) with (Some (cIe_0 csqrt z2 z1 (map Copp [r1; r2; r3; r4]) 4 elliprf)). cbn [bind]. unfold cIe_0, ellipr_params4. norm. rewrite !opp_add. cbn [bind].
  match goal with |- _ = bind (fix_dimless c s ?v) _ => transitivity (bind (fix_dimless c s (RtoC (2 * (z2 - z1)) * v)) Some) end.
  - rewrite RtoC_mult, RtoC_minus. unfold square.
    match goal with |- fix_dimless _ _ ?a = bind (fix_dimless _ _ ?b) Some => replace a with b; [destruct (fix_dimless c s b); reflexivity|] end. f_equal. apply f_equal3; ring.
  - rewrite fix_scale. destruct (fix_dimless c s _); reflexivity.
Qed.
Lemma lookback3 fuel c s z rts : rad c = false -> epoly_roots csqrt ccbrt eigvals c s = Some rts -> length rts = 3%nat ->
  diff_lookback csqrt ccbrt eigvals elliprc elliprd elliprf elliprj (S fuel) c s z = analytic_lookback csqrt ccbrt eigvals elliprc (rev4 elliprj) c s z.
Proof.
  intros Er E Len. unfold diff_lookback, analytic_lookback, elliptic_integral, epoly_degree. rewrite Er, E. cbn [bind]. destruct rts as [|r1 [|r2 [|r3 [|? ?]]]]; try discriminate Len.
  change (cIm csqrt z 0 (map Copp [r1; r2; r3] ++ [RtoC 1]) 3 elliprc elliprd elliprf elliprj (S fuel) (zeros 3 ++ [(-1)%Z])) with (Some (cIe_minus_nu csqrt z 0 (map Copp [r1; r2; r3] ++ [RtoC 1]) 3 elliprc elliprf elliprj 4)). cbn [bind]. unfold cIe_minus_nu, ellipr_params3. norm. rewrite !opp_add. cbn [bind].
  pose proof (CarlsonC.s_sq csqrt Hs (RtoC 1 + RtoC 0)) as Q0. pose proof (CarlsonC.s_sq csqrt Hs (RtoC 1 + RtoC z)) as Q1.
  set (y4 := csqrt (RtoC 1 + RtoC 0)) in *. set (x4 := csqrt (RtoC 1 + RtoC z)) in *. clearbody x4 y4.
  match goal with |- _ = bind (fix_dimless c s ?v) _ => transitivity (bind (fix_dimless c s (RtoC (2 * z) * v)) Some) end.
  - unfold square.
    match goal with |- fix_dimless _ _ ?a = bind (fix_dimless _ _ ?b) Some => replace a with b; [destruct (fix_dimless c s b); reflexivity|] end.
    assert (N1 : RtoC 1 <> 0) by (intros Z; apply RtoC_inj in Z; lra). assert (N3 : RtoC 3 <> 0) by (intros Z; apply RtoC_inj in Z; lra).
    match goal with |- _ = RtoC 2 * _ * (_ * elliprj ?a ?b ?e ?p + elliprc ?f ?g) / _ => set (J := elliprj a b e p); set (Q := elliprc f g) end.
    match goal with |- _ * (elliprc ?f ?g + _ * elliprj ?a ?b ?e ?p) = _ => replace (elliprj a b e p) with J; [replace (elliprc f g) with Q|] end.
    + clearbody J Q. rewrite RtoC_div by lra. replace (z ^ 2)%R with (z * z)%R by ring. rewrite !RtoC_mult. field. split; assumption.
    + unfold Q. apply f_equal2.
      * replace (x4 * (x4 * 1)) with (RtoC (z + 1)) by (rewrite Cmult_1_r, Q1, RtoC_plus; ring). replace (y4 * (y4 * 1)) with (RtoC 1) by (rewrite Cmult_1_r, Q0; ring). field. assumption.
      * replace (x4 * (x4 * 1)) with (RtoC (z + 1)) by (rewrite Cmult_1_r, Q1, RtoC_plus; ring). replace (y4 * (y4 * 1)) with (RtoC 1) by (rewrite Cmult_1_r, Q0; ring). replace (z ^ 2)%R with (z * z)%R by ring. rewrite RtoC_mult. field. assumption.
    + unfold J. replace (z ^ 2)%R with (z * z)%R by ring. rewrite RtoC_mult. f_equal; try ring. field. assumption.
  - rewrite fix_scale. destruct (fix_dimless c s _); reflexivity.
Qed.
Definition swap3 (f : C -> C -> C -> C) (u v w : C) : C := f v u w.
Definition diff_abs_value (z : R) (r1 r2 r3 : C) : C :=
  let X1 := dd z r1 in let X2 := dd z r2 in let X3 := dd z r3 in let Y1 := dd 0 r1 in let Y2 := dd 0 r2 in let Y3 := dd 0 r3 in
  let u1 := square (Y1 * X2 * X3 + X1 * Y2 * Y3) in let u2 := square (Y1 * X2 * Y3 + X1 * Y2 * X3) in let u3 := square (Y1 * Y2 * X3 + X1 * X2 * Y3) in
  let e0 := RtoC (2 * z) * elliprf u3 u2 u1 in let rho := r1 + r2 + r3 + RtoC 3 in let s2 := (r1 + RtoC 1) * (r2 + RtoC 1) + (r1 + RtoC 1) * (r3 + RtoC 1) + (r2 + RtoC 1) * (r3 + RtoC 1) in
  RtoC (2 / 3) * (X1 * X2 * X3 - Y1 * Y2 * Y3 - RtoC (1 / 2) * s2 * e0 + rho * ((r2 - r1) * (r3 - r1) * (RtoC (2 * z) * (RtoC (z * z / 3) * elliprd u3 u2 u1 + 1 / (X1 * Y1 * csqrt u1))) + RtoC 2 * (X1 * X2 * X3 / (RtoC z - r1) - Y1 * Y2 * Y3 / (RtoC 0 - r1)) + (r1 + RtoC 1) * e0)).
Lemma absorption_value fuel c s z r1 r2 r3 : rad c = false -> epoly_roots csqrt ccbrt eigvals c s = Some [r1; r2; r3] ->
  diff_absorption csqrt ccbrt eigvals elliprc elliprd elliprf elliprj (S (S fuel)) c s z = fix_dimless c s (diff_abs_value z r1 r2 r3).
Proof.
  intros Er E. unfold diff_absorption, elliptic_integral, epoly_degree. rewrite Er, E. cbn [bind].
  set (av := map Copp [r1; r2; r3] ++ [RtoC 1]).
  assert (V : cIm csqrt z 0 av 3 elliprc elliprd elliprf elliprj (S (S fuel)) (zeros 3 ++ [2%Z]) =
    Some ((cA csqrt z 0 av 3 [1; 1; 1; 0]%Z - (cIqe_pref av 3 (-1) 0 4 * cIe csqrt z 0 av 3 elliprc elliprd elliprf elliprj (-4) + (cIqe_pref av 3 (-1) 1 4 * cIe csqrt z 0 av 3 elliprc elliprd elliprf elliprj 0 + (cIqe_pref av 3 (-1) 2 4 * cIe csqrt z 0 av 3 elliprc elliprd elliprf elliprj 4 + RtoC 0)))) / cIqe_pref av 3 (-1) 3 4)) by reflexivity.
  rewrite V. clear V. cbn [bind]. f_equal.
  assert (P0 : cIqe_pref av 3 (-1) 0 4 = 0) by (unfold cIqe_pref; replace (IZR (-1) + INR 0 / 2 + 1)%R with 0%R by (simpl; field); ring).
  assert (P1 : cIqe_pref av 3 (-1) 1 4 = RtoC (1 / 2) * ((r1 + RtoC 1) * (r2 + RtoC 1) + (r1 + RtoC 1) * (r3 + RtoC 1) + (r2 + RtoC 1) * (r3 + RtoC 1))).
  { unfold cIqe_pref. replace (IZR (-1) + INR 1 / 2 + 1)%R with (1 / 2)%R by (simpl; field). f_equal. cbn. unfold cd_up. cbn. ring. }
  assert (P2 : cIqe_pref av 3 (-1) 2 4 = - (r1 + r2 + r3 + RtoC 3)).
  { unfold cIqe_pref. replace (IZR (-1) + INR 2 / 2 + 1)%R with 1%R by (simpl; field). cbn. unfold cd_up. cbn. replace (RtoC 3) with (1 + 1 + 1) by (rewrite <- !RtoC_plus; f_equal; ring). ring. }
  assert (P3 : cIqe_pref av 3 (-1) 3 4 = RtoC (3 / 2)) by (unfold cIqe_pref; replace (IZR (-1) + INR 3 / 2 + 1)%R with (3 / 2)%R by (simpl; field); cbn; ring).
  rewrite P0, P1, P2, P3.
  assert (E4 : cIe csqrt z 0 av 3 elliprc elliprd elliprf elliprj 4 = cIe_plus csqrt z 0 av 3 elliprc elliprd elliprf elliprj 1 + (r1 + RtoC 1) * cIe_0 csqrt z 0 av 3 elliprf).
  { transitivity (cIe_plus csqrt z 0 av 3 elliprc elliprd elliprf elliprj 1 + cd av 4 1 * cIe_0 csqrt z 0 av 3 elliprf); [reflexivity|]. f_equal. f_equal. cbn. unfold cd_up. cbn. ring. }
  rewrite E4. change (cIe csqrt z 0 av 3 elliprc elliprd elliprf elliprj 0) with (cIe_0 csqrt z 0 av 3 elliprf).
  assert (A0 : cA csqrt z 0 av 3 [1; 1; 1; 0]%Z = dd z r1 * dd z r2 * dd z r3 - dd 0 r1 * dd 0 r2 * dd 0 r3) by (unfold cA, cv, cprod, av; cbn; change (Pos.to_nat 1) with 1%nat; cbn [cpow]; rewrite !opp_add; unfold d; ring).
  assert (X0 : cIe_0 csqrt z 0 av 3 elliprf = RtoC (2 * z) * elliprf (square (dd 0 r1 * dd 0 r2 * dd z r3 + dd z r1 * dd z r2 * dd 0 r3)) (square (dd 0 r1 * dd z r2 * dd 0 r3 + dd z r1 * dd 0 r2 * dd z r3)) (square (dd 0 r1 * dd z r2 * dd z r3 + dd z r1 * dd 0 r2 * dd 0 r3))).
  { unfold cIe_0, av. cbn [map app]. norm. rewrite !opp_add. rewrite RtoC_mult. f_equal; [ring|]. apply f_equal3; ring. }
  assert (XM : cIe_minus csqrt z 0 av 3 elliprd elliprf 1 = RtoC (2 * z) * (RtoC (z * z / 3) * elliprd (square (dd 0 r1 * dd 0 r2 * dd z r3 + dd z r1 * dd z r2 * dd 0 r3)) (square (dd 0 r1 * dd z r2 * dd 0 r3 + dd z r1 * dd 0 r2 * dd z r3)) (square (dd 0 r1 * dd z r2 * dd z r3 + dd z r1 * dd 0 r2 * dd 0 r3)) + 1 / (dd z r1 * dd 0 r1 * csqrt (square (dd 0 r1 * dd z r2 * dd z r3 + dd z r1 * dd 0 r2 * dd 0 r3))))).
  { assert (N1 : RtoC 1 <> 0) by (intros Z; apply RtoC_inj in Z; lra).
    assert (A12 : cU2 csqrt z 0 av 3 1 2 = square (dd 0 r1 * dd 0 r2 * dd z r3 + dd z r1 * dd z r2 * dd 0 r3)) by (unfold av; cbn [map app]; norm; rewrite !opp_add; ring).
    assert (A02 : cU2 csqrt z 0 av 3 0 2 = square (dd 0 r1 * dd z r2 * dd 0 r3 + dd z r1 * dd 0 r2 * dd z r3)) by (unfold av; cbn [map app]; norm; rewrite !opp_add; ring).
    assert (A01 : cU2 csqrt z 0 av 3 1 0 = square (dd 0 r1 * dd z r2 * dd z r3 + dd z r1 * dd 0 r2 * dd 0 r3)) by (unfold av; cbn [map app]; norm; rewrite !opp_add; ring).
    unfold cIe_minus. cbn [cwithout cidx_set filter existsb map seq Nat.eqb Nat.add negb orb]. rewrite A12, A02, A01.
    set (RD := elliprd _ _ _). set (su := csqrt (square _)). clearbody RD su. unfold av. cbn [map app]. norm. rewrite !opp_add. rewrite RtoC_div, !RtoC_mult by lra. replace (RtoC z - RtoC 0) with (RtoC z) by ring.
    set (X := csqrt (RtoC z - r1) * csqrt (RtoC 0 - r1) * su). clearbody X. unfold Cdiv. rewrite !Cmult_1_r, !Cmult_1_l. 
    replace (RtoC 1 - - r1 * RtoC 0) with (RtoC 1) by ring. replace (/ RtoC 1) with (RtoC 1) by (field; assumption). ring. }
  assert (XP : cIe_plus csqrt z 0 av 3 elliprc elliprd elliprf elliprj 1 = (r2 - r1) * (r3 - r1) * cIe_minus csqrt z 0 av 3 elliprd elliprf 1 + RtoC 2 * (dd z r1 * dd z r2 * dd z r3 / (RtoC z - r1) - dd 0 r1 * dd 0 r2 * dd 0 r3 / (RtoC 0 - r1))).
  { unfold cIe_plus. cbn [Nat.eqb filter negb]. f_equal; [f_equal; unfold av; cbn; unfold cd_up; cbn; ring|]. unfold cs, cs_, cprod, av. cbn. rewrite !opp_add. reflexivity. }
  rewrite A0, XP, XM, X0. unfold diff_abs_value. cbv zeta.
  set (RFv := elliprf _ _ _). set (RDv := elliprd _ _ _). set (q1 := csqrt (square _)). set (i1 := _ / (RtoC z - r1)). set (i2 := _ / (RtoC 0 - r1)). set (i3 := 1 / _). clearbody RFv RDv i1 i2 i3.
  unfold Cdiv at 1. replace (/ RtoC (3 / 2)) with (RtoC (2 / 3)) by (rewrite <- RtoC_inv by lra; f_equal; field). ring.
Qed.

Lemma absorption3 fuel c s z r1 r2 r3 : rad c = false -> epoly_roots csqrt ccbrt eigvals c s = Some [r1; r2; r3] -> z <> 0%R ->
  (r1 + RtoC 1) * (r2 + RtoC 1) + (r1 + RtoC 1) * (r3 + RtoC 1) + (r2 + RtoC 1) * (r3 + RtoC 1) = 0 -> RtoC z - r1 <> 0 -> RtoC 0 - r1 <> 0 ->
  (let w := dd 0 r1 * dd z r2 * dd z r3 + dd z r1 * dd 0 r2 * dd 0 r3 in w <> 0 /\ csqrt (square w) = w) ->
  diff_absorption csqrt ccbrt eigvals elliprc elliprd elliprf elliprj (S (S fuel)) c s z = analytic_absorption csqrt ccbrt eigvals (rev3 elliprf) (swap3 elliprd) c s z.
Proof.
  intros Er E Nz S2 N1 N0 (Wn & Ws). rewrite (absorption_value fuel c s z r1 r2 r3 Er E). unfold analytic_absorption, analytic_absorption_z1z2. rewrite E, Er. cbn [bind]. unfold ellipr_params3. cbv zeta.
  destruct (Req_EM_T (z - 0) 0) as [Z|_]; [exfalso; lra|]. rewrite Rminus_0_r.
  match goal with |- _ = bind (fix_dimless c s ?v) _ => transitivity (bind (fix_dimless c s (RtoC (2 / 3 * z) * v)) Some); [|rewrite fix_scale; destruct (fix_dimless c s v); reflexivity] end.
  match goal with |- fix_dimless _ _ ?a = bind (fix_dimless _ _ ?b) Some => replace a with b; [destruct (fix_dimless c s b); reflexivity|] end.
  unfold diff_abs_value, rev3, swap3. cbv zeta. rewrite S2, Ws.
  set (RFv := elliprf _ _ _). set (RDv := elliprd _ _ _). clearbody RFv RDv.
  pose proof (CarlsonC.s_sq csqrt Hs (RtoC z - r1)) as Q1. pose proof (CarlsonC.s_sq csqrt Hs (RtoC z - r2)) as Q2. pose proof (CarlsonC.s_sq csqrt Hs (RtoC z - r3)) as Q3.
  pose proof (CarlsonC.s_sq csqrt Hs (RtoC 0 - r1)) as T1. pose proof (CarlsonC.s_sq csqrt Hs (RtoC 0 - r2)) as T2. pose proof (CarlsonC.s_sq csqrt Hs (RtoC 0 - r3)) as T3.
  rewrite <- Q1 in N1. rewrite <- T1 in N0. unfold square. replace (dd z r1 * dd z r2 * dd z r3 / (RtoC z - r1)) with (dd z r1 * dd z r2 * dd z r3 / (dd z r1 * dd z r1)) by (unfold d; rewrite Q1; reflexivity). replace (dd 0 r1 * dd 0 r2 * dd 0 r3 / (RtoC 0 - r1)) with (dd 0 r1 * dd 0 r2 * dd 0 r3 / (dd 0 r1 * dd 0 r1)) by (unfold d; rewrite T1; reflexivity). clear Ws. unfold d in *.
  set (X1 := csqrt (RtoC z - r1)) in *. set (X2 := csqrt (RtoC z - r2)) in *. set (X3 := csqrt (RtoC z - r3)) in *. set (Y1 := csqrt (RtoC 0 - r1)) in *. set (Y2 := csqrt (RtoC 0 - r2)) in *. set (Y3 := csqrt (RtoC 0 - r3)) in *. clearbody X1 X2 X3 Y1 Y2 Y3.
  assert (NX : X1 <> 0) by (intros Z; apply N1; rewrite Z; ring). assert (NY : Y1 <> 0) by (intros Z; apply N0; rewrite Z; ring). 
  assert (NZ : RtoC z <> 0) by (intros Z; apply RtoC_inj in Z; lra). assert (N3 : RtoC 3 <> 0) by (intros Z; apply RtoC_inj in Z; lra).
  set (rho := r1 + r2 + r3 + RtoC 3).
  assert (E2 : RtoC 3 * ((r1 + RtoC 1) * (r1 + RtoC 1)) - (r2 - r1) * (r3 - r1) = RtoC 2 * (r1 + RtoC 1) * rho).
  { unfold rho. transitivity (RtoC 2 * (r1 + RtoC 1) * (r1 + r2 + r3 + RtoC 3) - ((r1 + RtoC 1) * (r2 + RtoC 1) + (r1 + RtoC 1) * (r3 + RtoC 1) + (r2 + RtoC 1) * (r3 + RtoC 1))); [|rewrite S2; ring].
    replace (RtoC 3) with (1 + 1 + 1) by (rewrite <- !RtoC_plus; f_equal; ring). rewrite RtoC2. ring. }
  assert (AL : (r2 - r1) * (r3 - r1) * (RtoC (2 * z) * (1 / (X1 * Y1 * (Y1 * X2 * X3 + X1 * Y2 * Y3)))) + RtoC 2 * (X1 * X2 * X3 / (X1 * X1) - Y1 * Y2 * Y3 / (Y1 * Y1)) = RtoC (2 * z) * (Y1 * X1 / (Y1 * X2 * X3 + X1 * Y2 * Y3))).
  { assert (K : RtoC z * ((r2 - r1) * (r3 - r1)) + (X2 * X3 * Y1 - Y2 * Y3 * X1) * (Y1 * X2 * X3 + X1 * Y2 * Y3) = RtoC z * (X1 * X1) * (Y1 * Y1)).
    { transitivity (RtoC z * ((r2 - r1) * (r3 - r1)) + ((X2 * X2) * (X3 * X3) * (Y1 * Y1) - (Y2 * Y2) * (Y3 * Y3) * (X1 * X1))); [ring|]. rewrite Q1, Q2, Q3, T1, T2, T3. ring. }
    set (W := Y1 * X2 * X3 + X1 * Y2 * Y3) in *. rewrite RtoC_mult.
    transitivity (RtoC 2 * (RtoC z * ((r2 - r1) * (r3 - r1)) + (X2 * X3 * Y1 - Y2 * Y3 * X1) * W) / (X1 * Y1 * W)); [field; repeat split; assumption|]. rewrite K. field. repeat split; assumption. }
  transitivity (RtoC (2 / 3) * (X1 * X2 * X3 - Y1 * Y2 * Y3 + rho * (RtoC (2 * z) * (RtoC (z * z / 3) * ((r2 - r1) * (r3 - r1)) * RDv) + RtoC (2 * z) * (Y1 * X1 / (Y1 * X2 * X3 + X1 * Y2 * Y3)) + (r1 + RtoC 1) * (RtoC (2 * z) * RFv)))).
  - rewrite E2. replace (z ^ 2)%R with (z * z)%R by ring. rewrite !RtoC_mult. set (w := Y1 * X1 / _). field. assumption.
  - rewrite <- AL. set (i1 := 1 / _). set (i2 := _ / (X1 * X1)). set (i3 := _ / (Y1 * Y1)). ring.
Qed.
End Diff.

(** ** Symmetry of the integrals *)
Lemma improper_ext (f g : R -> C) v : (forall t, f t = g t) -> improper f v -> improper g v.
Proof. intros E [A B]. split; [apply (is_lim_ext (fun T => RInt (fun t => Re (f t)) 0 T)); [|exact A]|apply (is_lim_ext (fun T => RInt (fun t => Im (f t)) 0 T)); [|exact B]]; intros T; apply RInt_ext; intros x _; rewrite E; reflexivity. Qed.
Lemma rev3_RF csqrt f : computes_RF csqrt f -> computes_RF csqrt (rev3 f).
Proof. intros A x y z v H. unfold rev3. apply A. apply (improper_ext _ _ _ (fun t => f_equal (fun w => 1 / (RtoC 2 * w)) (eq_trans (Cmult_comm _ _) (eq_trans (f_equal (Cmult _) (Cmult_comm _ _)) (Cmult_assoc _ _ _)))) H). Qed.
Lemma rev4_RJ csqrt f : computes_RJ csqrt f -> computes_RJ csqrt (rev4 f).
Proof.
  intros A x y z p v H. unfold rev4. apply A. refine (improper_ext _ _ _ _ H). intros t. cbv beta. f_equal. f_equal. ring.
Qed.
Lemma swap3_RD csqrt f : computes_RD csqrt f -> computes_RD csqrt (swap3 f).
Proof.
  intros A x y z v H. unfold swap3. apply A. refine (improper_ext _ _ _ _ H). intros t. cbv beta. f_equal. f_equal. ring.
Qed.
Lemma e2_defined c s z z' e : de_of c = CC -> e2func c s z = Some e -> exists e', e2func c s z' = Some e'.
Proof.
  intros D E. rewrite (e2_analytic c s z D) in E. rewrite (e2_analytic c s z' D). unfold bind in *. destruct (s Om0); [|discriminate]. destruct (get_Ok0 c s); [|discriminate]. destruct (get_Ode0 c s); [|discriminate]. destruct (rad c); [destruct (s Or0); [|discriminate]|]; eauto.
Qed.

Section Theorems.
Variables (csqrt ccbrt : C -> C) (eigvals : list (list C) -> list C).
Hypothesis Hs : principal_sqrt csqrt.
Hypothesis Hc : cube_root ccbrt.
Variables (elliprc : C -> C -> C) (elliprd elliprf : C -> C -> C -> C) (elliprj : C -> C -> C -> C -> C).
Hypothesis HC : computes_RC csqrt elliprc.
Hypothesis HD : computes_RD csqrt elliprd.
Hypothesis HF : computes_RF csqrt elliprf.
Hypothesis HJ : computes_RJ csqrt elliprj.
Notation comoving := (diff_comoving csqrt ccbrt eigvals elliprc elliprd elliprf elliprj).
Notation lookback := (diff_lookback csqrt ccbrt eigvals elliprc elliprd elliprf elliprj).
Notation absorption := (diff_absorption csqrt ccbrt eigvals elliprc elliprd elliprf elliprj).
Open Scope R_scope.
(** ** C69: the comoving distance of the differentiable driver is the integral of 1/E, in the four classes *)
Theorem C69_comoving n c s z1 z2 l f : computes_eigenvalues eigvals c s -> de_of c = CC -> epoly_leading c s = Some l -> 0 < l ->
  (forall z, Rmin z1 z2 <= z <= Rmax z1 z2 -> exists e, e2func c s z = Some e /\ 0 < e /\ f z = / sqrt e) ->
  (rad c = true -> -1 <= z1 /\ -1 <= z2 /\ exists m, s Om0 = Some m /\ 0 <= m) -> comoving n c s z1 z2 = Some (RInt f z1 z2).
Proof.
  intros He D L Pl E2 Rd. destruct (E2 z1 (conj (Rmin_l z1 z2) (Rmax_l z1 z2))) as (e & E0 & _). destruct (C50_polynomial csqrt ccbrt eigvals Hs Hc c s l He D L ltac:(lra) (e2_defined c s z1 0 e D E0)) as (rts & Er & Len & _).
  destruct (rad c) eqn:Ra.
  - rewrite (comoving4 csqrt ccbrt eigvals elliprc elliprd elliprf elliprj n c s z1 z2 rts Ra Er Len). apply (C59_comoving csqrt ccbrt eigvals Hs Hc elliprf HF c s z1 z2 l f He D L Pl E2). rewrite Ra. exact Rd.
  - rewrite (comoving3 csqrt ccbrt eigvals elliprc elliprd elliprf elliprj n c s z1 z2 rts Ra Er Len). apply (C59_comoving csqrt ccbrt eigvals Hs Hc (rev3 elliprf) (rev3_RF csqrt elliprf HF) c s z1 z2 l f He D L Pl E2). rewrite Ra. exact Rd.
Qed.
Lemma roots3 c s l e : de_of c = CC -> rad c = false -> epoly_leading c s = Some l -> 0 < l -> e2func c s 0 = Some e ->
  exists k d r1 r2 r3, epoly_roots csqrt ccbrt eigvals c s = Some [r1 - RtoC 1; r2 - RtoC 1; r3 - RtoC 1]%C /\ (r1 + r2 + r3 = RtoC (- k))%C /\ (r1 * r2 + r1 * r3 + r2 * r3 = 0)%C /\ (r1 * r2 * r3 = RtoC (- d))%C /\
    forall t x z, e2func c s t = Some x -> x = l * P3 k d (1 + z) (t - z).
Proof.
  intros D Er L Pl E0. unfold epoly_roots, epoly_coeffs, epoly_coeffs_, roots_force_numeric. rewrite L, Er. unfold epoly_leading in L. rewrite Er in L. cbn [bind]. rewrite (e2_analytic c s _ D) in E0. unfold bind in E0.
  destruct (s Om0) as [m|] eqn:Em; [|discriminate]. destruct (get_Ok0 c s) as [k|] eqn:Ek; [|discriminate]. destruct (get_Ode0 c s) as [d|] eqn:Ed; [|discriminate]. clear E0. cbn [bind]. injection L as ->.
  destruct (cubic_roots csqrt ccbrt eigvals Hs Hc l k d) as (r1 & r2 & r3 & E & S1 & S2 & S3). cbn [map] in E. cbn [map]. rewrite E. exists (k / l), (d / l), r1, r2, r3. split; [reflexivity|]. split; [exact S1|]. split; [exact S2|]. split; [exact S3|].
  intros t e' z H1. rewrite (e2_analytic c s t D), Em, Ek, Ed, Er in H1. cbn [bind] in H1. injection H1 as H1. rewrite P3_pos, <- H1. field. lra.
Qed.
(** The lookback time of the classes without radiation is the integral of 1/((1+z) E). *)
Theorem C69_lookback n c s z l f : de_of c = CC -> rad c = false -> epoly_leading c s = Some l -> 0 < l -> -1 < z ->
  (forall t, Rmin 0 z <= t <= Rmax 0 z -> exists e, e2func c s t = Some e /\ 0 < e /\ f t = / ((1 + t) * sqrt e)) ->
  lookback (S n) c s z = Some (RInt f 0 z).
Proof.
  intros D Er L Pl Z1 E2. destruct (E2 0 (conj (Rmin_l 0 z) (Rmax_l 0 z))) as (e & E0 & _). destruct (roots3 c s l e D Er L Pl E0) as (k & d & r1 & r2 & r3 & E & _).
  rewrite (lookback3 csqrt ccbrt eigvals Hs elliprc elliprd elliprf elliprj n c s z _ Er E eq_refl). apply (C60_lookback csqrt ccbrt eigvals Hs Hc elliprc (rev4 elliprj) HC (rev4_RJ csqrt elliprj HJ) c s z l f D Er L Pl Z1 E2).
Qed.
(** The absorption distance of the classes without radiation is the integral of (1+z)^2 / E, when E^2 is positive at the smaller of 0 and z and everywhere above it; at z = 0 too. *)
Theorem C69_absorption n c s z l f : de_of c = CC -> rad c = false -> epoly_leading c s = Some l -> 0 < l ->
  (forall t, Rmin 0 z <= t -> exists e, e2func c s t = Some e /\ 0 < e /\ f t = (1 + t) ^ 2 / sqrt e) ->
  absorption (S (S n)) c s z = Some (RInt f 0 z).
Proof.
  intros D Er L Pl E2. destruct (E2 0 (Rmin_l 0 z)) as (e & E0 & P0 & _). destruct (E2 z (Rmin_r 0 z)) as (ez & Ez & Pz & _). destruct (roots3 c s l e D Er L Pl E0) as (k & d & r1 & r2 & r3 & E & S1 & S2 & S3 & VAL).
  destruct (Req_dec z 0) as [->|Nz].
  - rewrite (absorption_value csqrt ccbrt eigvals elliprc elliprd elliprf elliprj n c s 0 _ _ _ Er E). unfold fix_dimless. rewrite L. cbn [bind]. apply (f_equal Some). rewrite RInt_point. change zero with 0.
    assert (V0 : forall a b g, diff_abs_value csqrt elliprd elliprf 0 a b g = RtoC 0) by (intros a b g; unfold diff_abs_value; cbv zeta; rewrite Rmult_0_r; ring). rewrite V0. unfold Re. cbn [fst RtoC]. unfold Rdiv. ring.
  - set (a := Rmin 0 z) in *. set (b := Rmax 0 z). assert (HH : 0 < b - a) by (unfold a, b, Rmin, Rmax; destruct (Rle_dec 0 z); lra).
    assert (PA : forall h, 0 <= h -> 0 < P3 k d (1 + a) h).
    { intros h Hh. destruct (E2 (a + h) ltac:(lra)) as (x & H1 & H2 & _). rewrite (VAL _ _ a H1) in H2. replace (a + h - a) with h in H2 by ring. apply (Rmult_lt_reg_l l); lra. }
    destruct (shift_cubic k d (1 + a) r1 r2 r3 S1 S2 S3) as (G1 & G2 & G3).
    pose proof (w1_pos csqrt Hs _ _ _ (b - a) _ _ _ HH G1 G2 G3 PA) as WP. pose proof (w1_sqrt csqrt Hs _ _ _ (b - a) _ _ _ HH G1 G2 G3 PA) as WS.
    assert (WV : w1 csqrt (b - a) (r1 - RtoC (1 + a))%C (r2 - RtoC (1 + a))%C (r3 - RtoC (1 + a))%C = (Analytic.d csqrt 0 (r1 - RtoC 1) * Analytic.d csqrt z (r2 - RtoC 1) * Analytic.d csqrt z (r3 - RtoC 1) + Analytic.d csqrt z (r1 - RtoC 1) * Analytic.d csqrt 0 (r2 - RtoC 1) * Analytic.d csqrt 0 (r3 - RtoC 1))%C).
    { unfold w1. rewrite <- !(d_from csqrt a), <- !(d_to csqrt a b). unfold a, b, Rmin, Rmax. destruct (Rle_dec 0 z); ring. }
    rewrite WV in WP, WS.
    assert (NR : forall t x, e2func c s t = Some x -> 0 < x -> (RtoC t - (r1 - RtoC 1) <> 0)%C).
    { intros t x T1 T2 Z. rewrite (VAL t x a T1) in T2. assert (T3 : 0 < P3 k d (1 + a) (t - a)) by (apply (Rmult_lt_reg_l l); lra). pose proof (cubic_P _ _ _ _ _ _ G1 G2 G3 (t - a)) as CP. change (P3 k d (1 + a) (t - a)) with (P ((1 + a) ^ 3 + k * (1 + a) ^ 2 + d) (3 * (1 + a) ^ 2 + 2 * k * (1 + a)) (3 * (1 + a) + k) 1 0 (t - a)) in T3.
      replace (RtoC (t - a) - (r1 - RtoC (1 + a)))%C with (RtoC t - (r1 - RtoC 1))%C in CP by (rewrite RtoC_plus, RtoC_minus; ring). rewrite Z, !Cmult_0_l in CP. apply RtoC_inj in CP. lra. }
    rewrite (absorption3 csqrt ccbrt eigvals Hs elliprc elliprd elliprf elliprj n c s z _ _ _ Er E Nz).
    + apply (C65_distance csqrt ccbrt eigvals (rev3 elliprf) (swap3 elliprd) c s z l f Hs Hc (rev3_RF csqrt elliprf HF) (swap3_RD csqrt elliprd HD) D Er L Pl Nz E2).
    + rewrite <- S2. ring.
    + exact (NR z ez Ez Pz).
    + exact (NR 0 e E0 P0).
    + split; [|exact WS]. intros Z. rewrite Z in WP. unfold Re in WP. cbn in WP. lra.
Qed.
End Theorems.
Print Assumptions C69_comoving.
Print Assumptions C69_lookback.
Print Assumptions C69_absorption.
Open Scope R_scope.
Example C69_nonvacuous c : de_of c = CC -> flat c = false -> let s := ex_state c in principal_sqrt psqrt /\ cube_root pcbrt /\ computes_eigenvalues ex_eigvals c s /\
  computes_RC psqrt (some_RC psqrt) /\ computes_RD psqrt (some_RD psqrt) /\ computes_RF psqrt (some_RF psqrt) /\ computes_RJ psqrt (some_RJ psqrt) /\
  exists l, epoly_leading c s = Some l /\ 0 < l /\ (forall z, 0 <= z -> exists e, e2func c s z = Some e /\ 0 < e) /\ s Om0 <> None.
Proof.
  intros D F s. split; [apply psqrt_principal|]. split; [apply pcbrt_cube|]. split; [apply ex_eigvals_ok, F|]. split; [intros x y v A; apply lim_improper_ok, A|]. split; [intros x y z v A; apply lim_improper_ok, A|]. split; [apply some_RF_ok|]. split; [intros x y z p v A; apply lim_improper_ok, A|].
  exists (if rad c then 1/2 else 0.3). split; [unfold epoly_leading, s, ex_state; destruct (rad c); reflexivity|]. split; [destruct (rad c); lra|]. split; [|discriminate].
  intros z Hz. rewrite (e2_analytic c s z D). unfold get_Ok0, get_Ode0, sum0_noDE, s, ex_state. rewrite F. destruct (rad c); cbn [bind]; eexists; (split; [reflexivity|]); [assert (0 <= z * z) by nra; assert (0 <= z * z * z) by nra; assert (0 <= z * z * z * z) by nra|assert (0 <= z * z) by nra; assert (0 <= z * z * z) by nra]; nra.
Qed.
