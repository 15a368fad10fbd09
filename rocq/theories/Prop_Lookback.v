(** * C60: the analytic lookback time *)
From Coq Require Import List Bool Arith Lia Reals Ranalysis5 Lra Psatz.
From Coquelicot Require Import Rcomplements Rbar Lim_seq Hierarchy Continuity Derive RInt RInt_analysis ElemFct AutoDerive Complex.
From Verif Require Import Cosmo CosmoSpec Roots RootsSpec RootsFacts RootsC RootsPrincipal Prop_Roots CarlsonSpec CarlsonC AnalyticFacts AnalyticC AnalyticLookback Analytic Prop_Analytic.
Import ListNotations.
Open Scope R_scope.
Open Scope C_scope.

Section Lookback.
Variables (csqrt ccbrt : C -> C) (eigvals : list (list C) -> list C).
Hypothesis Hs : principal_sqrt csqrt.
Hypothesis Hc : cube_root ccbrt.
Variables (elliprc : C -> C -> C) (elliprj : C -> C -> C -> C -> C).
Hypothesis HC : computes_RC csqrt elliprc.
Hypothesis HJ : computes_RJ csqrt elliprj.
Notation lookback := (analytic_lookback csqrt ccbrt eigvals elliprc elliprj).
Notation dd := (d csqrt).

Lemma lookback_forward k la z1 z2 (R1 R2 R3 : C) : R1 + R2 + R3 = RtoC (- k) -> R1 * R2 + R1 * R3 + R2 * R3 = 0 -> R1 * R2 * R3 = RtoC (- la) -> (-1 < z1 < z2)%R ->
  (forall h, 0 <= h <= z2 - z1 -> 0 < P3 k la (1 + z1) h)%R ->
  let '(u1, u2, u3) := ellipr_params3 csqrt z1 z2 (R1 - RtoC 1) (R2 - RtoC 1) (R3 - RtoC 1) in
  let D1 := dd z1 (R1 - RtoC 1) * dd z1 (R2 - RtoC 1) * dd z1 (R3 - RtoC 1) in let D2 := dd z2 (R1 - RtoC 1) * dd z2 (R2 - RtoC 1) * dd z2 (R3 - RtoC 1) in
  let p := R1 * RtoC ((z2 - z1) ^ 2) + u1 in
  elliprc (square (D1 * RtoC (1 + z2) + D2 * RtoC (1 + z1))) (RtoC ((1 + z2) * (1 + z1)) * p) + RtoC ((z2 - z1) ^ 2 / 3) * elliprj u1 u2 u3 p
  = RtoC (RInt (fun h => / ((1 + z1 + h) * sqrt (P3 k la (1 + z1) h))) 0 (z2 - z1) / (2 * (z2 - z1)))%R.
Proof.
  intros S1 S2 S3 L PP. destruct (shift_cubic k la (1 + z1) R1 R2 R3 S1 S2 S3) as (F1 & F2 & F3). unfold ellipr_params3. cbv zeta. rewrite !(d_from csqrt z1), !(d_to csqrt z1 z2).
  set (H := (z2 - z1)%R) in *. assert (HH : (0 < H)%R) by (unfold H; lra). assert (Z2 : (1 + z2 = 1 + z1 + H)%R) by (unfold H; ring). rewrite Z2. clear Z2. assert (XP : (0 < 1 + z1)%R) by lra. set (X := (1 + z1)%R) in *.
  change (P3 k la X) with (P (l0 k la X) (l1 k X) (l2 k X) 1 0) in *.
  change (X ^ 3 + k * X ^ 2 + la)%R with (l0 k la X) in *. change (3 * X ^ 2 + 2 * k * X)%R with (l1 k X) in *. change (3 * X + k)%R with (l2 k X) in *.
  assert (RX : R1 = R1 - RtoC X + RtoC X) by ring. set (o1 := R1 - RtoC X) in *. set (o2 := R2 - RtoC X) in *. set (o3 := R3 - RtoC X) in *. clearbody o1 o2 o3. rewrite RX. clear RX S1 S2 S3.
  assert (HI : (0 < H <= H)%R) by lra. pose proof (cubic_prod csqrt Hs H HH _ _ _ o1 o2 o3 F1 F2 F3 PP H HI) as PR.
  pose proof (cubic_arg csqrt Hs H (l0 k la X) (l1 k X) (l2 k X)) as CA. unfold square.

  pose proof (CA o1 o2 o3 H HI F1 F2 F3 PR) as U1.
  pose proof (CA o2 o1 o3 H HI ltac:(rewrite <- F1; ring) ltac:(rewrite <- F2; ring) ltac:(rewrite <- F3; ring) ltac:(rewrite <- PR; ring)) as U2.
  pose proof (CA o3 o1 o2 H HI ltac:(rewrite <- F1; ring) ltac:(rewrite <- F2; ring) ltac:(rewrite <- F3; ring) ltac:(rewrite <- PR; ring)) as U3. cbv zeta in U1, U2, U3. clear CA.
  pose proof (cubic_P (l0 k la X) (l1 k X) (l2 k X) o1 o2 o3 F1 F2 F3) as CP.
  assert (P0 : P (l0 k la X) (l1 k X) (l2 k X) 1 0 0 = l0 k la X) by (unfold P; ring).
  assert (LP : (0 < l0 k la X)%R) by (rewrite <- P0; apply PP; lra).
  assert (DD : forall x : R, (csqrt (- o1) * csqrt (- o2) * csqrt (- o3) * RtoC (X + H) + csqrt (RtoC H - o1) * csqrt (RtoC H - o2) * csqrt (RtoC H - o3) * RtoC X) * (csqrt (- o1) * csqrt (- o2) * csqrt (- o3) * RtoC (X + H) + csqrt (RtoC H - o1) * csqrt (RtoC H - o2) * csqrt (RtoC H - o3) * RtoC X)
    = RtoC ((sqrt (l0 k la X) * (X + H) + q (l0 k la X) (l1 k X) (l2 k X) 1 0 H * X) ^ 2)).
  { intros _. set (D1 := csqrt (- o1) * csqrt (- o2) * csqrt (- o3)) in *. set (D2 := csqrt (RtoC H - o1) * csqrt (RtoC H - o2) * csqrt (RtoC H - o3)) in *.
    assert (Q1 : D1 * D1 = RtoC (l0 k la X)). { unfold D1. transitivity ((csqrt (- o1) * csqrt (- o1)) * (csqrt (- o2) * csqrt (- o2)) * (csqrt (- o3) * csqrt (- o3))); [ring|]. rewrite !(CarlsonC.s_sq csqrt Hs), <- P0, <- CP. ring. }
    assert (Q2 : D2 * D2 = RtoC (P (l0 k la X) (l1 k X) (l2 k X) 1 0 H)). { unfold D2. transitivity ((csqrt (RtoC H - o1) * csqrt (RtoC H - o1)) * (csqrt (RtoC H - o2) * csqrt (RtoC H - o2)) * (csqrt (RtoC H - o3) * csqrt (RtoC H - o3))); [ring|]. rewrite !(CarlsonC.s_sq csqrt Hs), <- CP. ring. }
    transitivity (D1 * D1 * RtoC ((X + H) * (X + H)) + D2 * D2 * RtoC (X * X) + (D1 * D2) * RtoC (2 * (X + H) * X)); [set (x := (X + H)%R); replace (2 * x * X)%R with (x * X + x * X)%R by ring; rewrite RtoC_plus, !RtoC_mult; ring|].
    rewrite Q1, Q2, PR, <- !RtoC_mult, <- !RtoC_plus. f_equal. pose proof (AnalyticFacts.s_sq _ _ _ _ _ H HH PP) as SS. pose proof (q_sq _ _ _ _ _ H PP H ltac:(lra)) as QQ. rewrite <- SS at 1. rewrite <- QQ. ring. }
  specialize (DD 0%R).
  assert (PE : forall u, u = RtoC (H * H) * (RtoC (G (l0 k la X) (l1 k X) (l2 k X) 1 0 H) + - o1) -> (o1 + RtoC X) * RtoC (H ^ 2) + u = RtoC (n k la X H)).
  { intros u ->. rewrite (n_G k la X H HH). replace (H ^ 2)%R with (H * H)%R by ring. rewrite (RtoC_mult (H * H)), RtoC_plus. ring. }
  rewrite (PE _ U1). rewrite DD. rewrite <- RtoC_mult.
  rewrite (HC _ _ _ (RC_path k la X H XP HH PP csqrt Hs)).
  match goal with |- _ + _ * elliprj ?a ?b ?c _ = _ => replace a with (RtoC (H * H) * (RtoC (G (l0 k la X) (l1 k X) (l2 k X) 1 0 H) + - o1)) by (rewrite <- U1; ring); replace b with (RtoC (H * H) * (RtoC (G (l0 k la X) (l1 k X) (l2 k X) 1 0 H) + - o2)) by (rewrite <- U2; ring); replace c with (RtoC (H * H) * (RtoC (G (l0 k la X) (l1 k X) (l2 k X) 1 0 H) + - o3)) by (rewrite <- U3; ring) end.
  rewrite (HJ _ _ _ _ _ (RJ_path k la X H XP HH PP csqrt Hs (- o1) (- o2) (- o3) 
     ltac:(assert (F1' : RtoC (l2 k X) = - (o1 + o2 + o3)) by (rewrite F1, RtoC_opp; ring); rewrite F1'; ring)
     ltac:(replace (l1 k X * 1 - 4 * l0 k la X * 0)%R with (l1 k X) by ring; rewrite <- F2; ring)
     ltac:(replace (l1 k X ^ 2 * 0 + 1 ^ 2 * l0 k la X - 4 * l0 k la X * l2 k X * 0)%R with (l0 k la X) by ring; assert (F3' : RtoC (l0 k la X) = - (o1 * o2 * o3)) by (rewrite F3, RtoC_opp; ring); rewrite F3'; ring)
     (cubic_nonzero csqrt Hs H HH _ _ _ o1 o2 o3 F1 F2 F3 PP))).
  rewrite <- RtoC_mult, <- RtoC_plus. f_equal. apply (lookback_sum k la X H XP HH PP).
Qed.


Open Scope R_scope.
Lemma RInt_shift_div f g c z1 z2 : z1 < z2 -> c <> 0 -> (forall h, 0 <= h <= z2 - z1 -> continuous g h /\ f (z1 + h) = g h / c) -> ex_RInt f z1 z2 /\ RInt f z1 z2 = RInt g 0 (z2 - z1) / c.
Proof.
  intros L Hc0 E.
  assert (X : ex_RInt g 0 (z2 - z1)) by (apply (ex_RInt_continuous g); intros z Hz; rewrite Rmin_left, Rmax_right in Hz by lra; apply E, Hz).
  assert (Xz : ex_RInt (fun z => / c * g (z - z1)) z1 z2).
  { apply (ex_RInt_continuous (fun z => / c * g (z - z1))). intros z Hz. rewrite Rmin_left, Rmax_right in Hz by lra. apply (continuous_mult (fun _ => / c) (fun z => g (z - z1))); [apply continuous_const|].
    apply (continuous_comp (fun z => z - z1) g); [apply (continuous_minus (fun z => z) (fun _ => z1)); [apply continuous_id|apply continuous_const]|]. apply E. lra. }
  assert (EX : forall z, Rmin z1 z2 < z < Rmax z1 z2 -> / c * g (z - z1) = f z).
  { intros z Hz. rewrite Rmin_left, Rmax_right in Hz by lra. destruct (E (z - z1) ltac:(lra)) as [_ Ez]. replace (z1 + (z - z1)) with z in Ez by ring. rewrite Ez. unfold Rdiv. apply Rmult_comm. }
  split; [apply (ex_RInt_ext _ _ _ _ EX), Xz|]. rewrite <- (RInt_ext _ _ _ _ EX).
  pose proof (RInt_comp_lin (fun z => / c * g (z - z1)) 1 z1 0 (z2 - z1)) as RL. replace (1 * 0 + z1) with z1 in RL by ring. replace (1 * (z2 - z1) + z1) with z2 in RL by ring. rewrite <- RL by exact Xz.
  pose proof (RInt_scal g 0 (z2 - z1) (/ c) X) as RS. change (RInt (fun h => / c * g h) 0 (z2 - z1) = / c * RInt g 0 (z2 - z1)) in RS.
  transitivity (RInt (fun h => / c * g h) 0 (z2 - z1)); [|rewrite RS; unfold Rdiv; apply Rmult_comm]. apply RInt_ext. intros x Hx. unfold scal; simpl; unfold mult; simpl. rewrite Rmult_1_l. replace (1 * x + z1 - z1) with x by ring. reflexivity.
Qed.
(** ** C60: the lookback time is the integral of 1/((1+z) E), for all redshifts greater than -1 *)
Theorem C60_lookback c s z l f : de_of c = CC -> rad c = false -> epoly_leading c s = Some l -> 0 < l -> -1 < z ->
  (forall t, Rmin 0 z <= t <= Rmax 0 z -> exists e, e2func c s t = Some e /\ 0 < e /\ f t = / ((1 + t) * sqrt e)) ->
  lookback c s z = Some (RInt f 0 z).
Proof.
  intros D Er L Pl Z1 E2. unfold analytic_lookback, epoly_roots, epoly_coeffs, epoly_coeffs_, roots_force_numeric, fix_dimless. rewrite L, Er. unfold epoly_leading in L. rewrite Er in L. cbn [bind].
  destruct (E2 0 ltac:(unfold Rmin, Rmax; destruct (Rle_dec 0 z); lra)) as (e0 & E0 & _). rewrite (e2_analytic c s 0 D) in E0. unfold bind in E0.
  destruct (s Om0) as [m|] eqn:Em; [|discriminate]. destruct (get_Ok0 c s) as [k|] eqn:Ek; [|discriminate]. destruct (get_Ode0 c s) as [d|] eqn:Ed; [|discriminate]. cbn [bind]. injection L as ->.
  destruct (cubic_roots csqrt ccbrt eigvals Hs Hc l k d) as (r1 & r2 & r3 & E & S1 & S2 & S3). cbn [map] in E. cbn [map]. rewrite E. cbn [map bind]. clear E.
  assert (Q : forall t, Rmin 0 z <= t <= Rmax 0 z -> forall z1, 0 < P3 (k / l) (d / l) (1 + z1) (t - z1) /\ f t = / ((1 + t) * sqrt (l * P3 (k / l) (d / l) (1 + z1) (t - z1)))).
  { intros t Ht z1. destruct (E2 t Ht) as (e & H1 & H2 & H3). rewrite (e2_analytic c s t D), Em, Ek, Ed, Er in H1. cbn [bind] in H1. injection H1 as H1. assert (E4 : e = l * P3 (k / l) (d / l) (1 + z1) (t - z1)) by (rewrite P3_pos, <- H1; field; lra).
    rewrite <- E4. split; [|exact H3]. apply (Rmult_lt_reg_l l); [exact Pl|]. rewrite <- E4. lra. }
  assert (SH : forall z1 z2, -1 < z1 < z2 -> (forall t, z1 <= t <= z2 -> Rmin 0 z <= t <= Rmax 0 z) -> ex_RInt f z1 z2 /\ RInt f z1 z2 = RInt (fun h => / ((1 + z1 + h) * sqrt (P3 (k / l) (d / l) (1 + z1) h))) 0 (z2 - z1) / sqrt l).
  { intros z1 z2 L12 B. pose proof (sqrt_lt_R0 l Pl) as Sl. apply RInt_shift_div; [lra|lra|]. intros h Hh. destruct (Q (z1 + h) ltac:(apply B; lra) z1) as [Q1 Q2]. replace (z1 + h - z1) with h in * by ring. pose proof (sqrt_lt_R0 _ Q1) as Sq. split.
    - apply (inv_cont (fun h => (1 + z1 + h) * sqrt (P3 (k / l) (d / l) (1 + z1) h))); [|apply Rmult_integral_contrapositive_currified; lra]. apply (continuous_mult (fun h => 1 + z1 + h) (fun h => sqrt (P3 (k / l) (d / l) (1 + z1) h))); [apply (ex_derive_continuous (fun h => 1 + z1 + h)); auto_derive; exact I|].
      apply continuity_pt_filterlim, (continuity_pt_comp (P3 (k / l) (d / l) (1 + z1)) sqrt); [apply continuity_pt_filterlim, P_continuous|apply continuity_pt_sqrt; lra].
    - rewrite Q2, sqrt_mult by lra. field. repeat split; lra. }
  pose proof (sqrt_lt_R0 l Pl) as Sl.
  destruct (Rtotal_order 0 z) as [Lt|[Eq|Gt]].
  - (* z > 0 *) assert (B : forall t, 0 <= t <= z -> Rmin 0 z <= t <= Rmax 0 z) by (intros t; rewrite Rmin_left, Rmax_right by lra; lra).
    pose proof (lookback_forward (k / l) (d / l) 0 z r1 r2 r3 S1 S2 S3 ltac:(lra)) as A. specialize (A ltac:(intros h Hh; destruct (Q h ltac:(apply B; lra) 0) as [Q1 _]; rewrite Rminus_0_r in Q1; exact Q1)).
    destruct (ellipr_params3 csqrt 0 z (r1 - 1)%C (r2 - 1)%C (r3 - 1)%C) as [[u1 u2] u3]. cbv zeta in A.
    match goal with |- Some (2 * z * (Re ?v / sqrt l)) = _ => match type of A with ?w = _ => replace v with w end end.
    + rewrite A. destruct (SH 0 z ltac:(lra) B) as [_ ->]. unfold Re. cbn [fst RtoC]. apply (f_equal Some). rewrite Rminus_0_r. field. split; lra.
    + rewrite Rminus_0_r, Rplus_0_r, Rmult_1_r, (Rplus_comm 1 z), Cmult_1_r. replace (r1 - 1 + 1)%C with r1 by ring. reflexivity.
  - subst z. destruct (ellipr_params3 _ _ _ _ _ _) as [[u1 u2] u3]. rewrite RInt_point. apply (f_equal Some). rewrite Rmult_0_r, Rmult_0_l. reflexivity.
  - (* z < 0 *) assert (B : forall t, z <= t <= 0 -> Rmin 0 z <= t <= Rmax 0 z) by (intros t; rewrite Rmin_right, Rmax_left by lra; lra).
    pose proof (lookback_forward (k / l) (d / l) z 0 r1 r2 r3 S1 S2 S3 ltac:(lra)) as A. specialize (A ltac:(intros h Hh; destruct (Q (z + h) ltac:(apply B; lra) z) as [Q1 _]; replace (z + h - z) with h in Q1 by ring; exact Q1)).
    rewrite params3_swap. destruct (ellipr_params3 csqrt z 0 (r1 - 1)%C (r2 - 1)%C (r3 - 1)%C) as [[u1 u2] u3]. cbv zeta in A.
    match goal with |- Some (2 * z * (Re ?v / sqrt l)) = _ => match type of A with ?w = _ => replace v with w end end.
    + rewrite A. destruct (SH z 0 ltac:(lra) B) as [EX EQ]. pose proof (opp_RInt_swap f z 0 EX) as SW. change (- RInt f z 0 = RInt f 0 z) in SW. apply (f_equal Some). rewrite <- SW, EQ. unfold Re. cbn [fst RtoC]. field. repeat split; lra.
    + replace (0 - z) with (- z) by ring. replace ((- z) ^ 2) with (z ^ 2) by ring. rewrite Rplus_0_r, Rmult_1_l, (Rplus_comm 1 z), Cmult_1_r. replace (r1 - 1 + 1)%C with r1 by ring. do 2 f_equal. unfold square. ring.
Qed.
End Lookback.

Print Assumptions C60_lookback.
Definition some_RC (csqrt : C -> C) (x y : C) : C := lim_improper (fun t => 1 / (RtoC 2 * (csqrt (RtoC t + x) * (RtoC t + y)))).
Definition some_RJ (csqrt : C -> C) (x y z p : C) : C := lim_improper (fun t => RtoC 3 / (RtoC 2 * (csqrt (RtoC t + x) * csqrt (RtoC t + y) * csqrt (RtoC t + z) * (RtoC t + p)))).
Open Scope R_scope.
Example C60_nonvacuous : let c := Cls CC false false in let s := ex_state c in principal_sqrt psqrt /\ cube_root pcbrt /\ computes_RC psqrt (some_RC psqrt) /\ computes_RJ psqrt (some_RJ psqrt) /\
  epoly_leading c s = Some 0.3 /\ forall t, -1/2 <= t <= 2 -> exists e, e2func c s t = Some e /\ 0 < e.
Proof.
  intros c s. split; [apply psqrt_principal|]. split; [apply pcbrt_cube|]. split; [intros x y v A; apply lim_improper_ok, A|]. split; [intros x y z p v A; apply lim_improper_ok, A|]. split; [reflexivity|].
  intros t Ht. rewrite (e2_analytic c s t eq_refl). unfold get_Ok0, get_Ode0, sum0_noDE, s, ex_state, c. simpl bind. eexists. split; [reflexivity|]. nra.
Qed.
