(** * C50, C59: the polynomial of the expansion rate and the analytic comoving distance *)
From Coq Require Import List Bool Arith Lia Reals Ranalysis5 Lra Psatz.
From Coquelicot Require Import Rcomplements Rbar Lim_seq Hierarchy Continuity Derive RInt RInt_analysis ElemFct AutoDerive Complex.
From Verif Require Import Cosmo CosmoSpec Roots RootsSpec RootsFacts RootsC RootsPrincipal Prop_Roots CarlsonSpec CarlsonC AnalyticFacts AnalyticC Analytic.
Import ListNotations.
Open Scope R_scope.
Open Scope C_scope.

(** The contract of torch.linalg.eigvals for the companion matrix of the coefficients (used with radiation only): as many eigenvalues as rows,
    the roots of the characteristic polynomial. *)
Definition computes_eigenvalues (eigvals : list (list C) -> list C) (c : cls) (s : state) : Prop :=
  rad c = true -> forall cs m, epoly_coeffs c s = Some cs -> companion_matrix C (RtoC 0) (RtoC 1) Copp (map RtoC cs) = Some m ->
  length (eigvals m) = length m /\ forall x, Cdet (length m) (Cchar_matrix m x) = Cfrom_roots (eigvals m) x.

Section Analytic.
Variables (csqrt ccbrt : C -> C) (eigvals : list (list C) -> list C).
Hypothesis Hs : principal_sqrt csqrt.
Hypothesis Hc : cube_root ccbrt.
Notation eroots := (epoly_roots csqrt ccbrt eigvals).

Lemma e2_analytic c s z : de_of c = CC -> e2func c s z =
  bind (s Om0) (fun m => bind (get_Ok0 c s) (fun k => bind (get_Ode0 c s) (fun d =>
  if rad c then bind (s Or0) (fun r => Some ((1 + z) ^ 2 * (m * (1 + z) + k) + d + r * (1 + z) ^ 4)%R) else Some ((1 + z) ^ 2 * (m * (1 + z) + k) + d)%R))).
Proof. intros D. unfold e2func, e2_zp1. rewrite D. unfold bind. destruct (s Om0); [|reflexivity]. destruct (get_Ok0 c s); [|reflexivity]. destruct (get_Ode0 c s); reflexivity. Qed.

Lemma Some_nth (l l' : list C) i : Some l = Some l' -> nth i l (RtoC 0) = nth i l' (RtoC 0).
Proof. intros E. injection E as ->. reflexivity. Qed.
Lemma cubic_roots m k d : exists r1 r2 r3, roots csqrt ccbrt eigvals false (map RtoC [k / m; 0 / m; d / m]%R) = inr [r1; r2; r3] /\
  r1 + r2 + r3 = RtoC (- (k / m)) /\ r1 * r2 + r1 * r3 + r2 * r3 = 0 /\ r1 * r2 * r3 = RtoC (- (d / m)).
Proof.
  destruct (C34_cubic csqrt ccbrt eigvals Hs Hc (RtoC (k / m)) (RtoC (0 / m)) (RtoC (d / m)) (C34_real _ _ _)) as (x & y & z & E & _ & V). exists x, y, z. split; [exact E|].
  pose proof (Some_nth _ _ 0 V) as V1. pose proof (Some_nth _ _ 1 V) as V2. pose proof (Some_nth _ _ 2 V) as V3. lazy -[Cplus Cmult Copp RtoC Rdiv IZR] in V1, V2, V3. replace (0 / m)%R with 0%R in V2 by (unfold Rdiv; ring). repeat split.
  - rewrite RtoC_opp, <- V1. ring.
  - rewrite <- V2. ring.
  - rewrite RtoC_opp, <- V3. ring.
Qed.
Lemma quartic_roots c s r m k d : computes_eigenvalues eigvals c s -> rad c = true -> epoly_coeffs c s = Some [m / r; k / r; 0 / r; d / r]%R -> exists r1 r2 r3 r4, roots csqrt ccbrt eigvals true (map RtoC [m / r; k / r; 0 / r; d / r]%R) = inr [r1; r2; r3; r4] /\
  r1 + r2 + r3 + r4 = RtoC (- (m / r)) /\ r1 * r2 + r1 * r3 + r1 * r4 + r2 * r3 + r2 * r4 + r3 * r4 = RtoC (k / r) /\
  r1 * r2 * r3 + r1 * r2 * r4 + r1 * r3 * r4 + r2 * r3 * r4 = 0 /\ r1 * r2 * r3 * r4 = RtoC (d / r).
Proof.
  intros He Hr HcS. destruct (C31_numeric csqrt ccbrt eigvals (map RtoC [m / r; k / r; 0 / r; d / r]%R) true ltac:(simpl; lia) ltac:(auto) (fun m => He Hr _ m HcS)) as (rs & E & L & _ & V).
  destruct rs as [|r1 [|r2 [|r3 [|r4 [|? ?]]]]]; try discriminate L. exists r1, r2, r3, r4. split; [exact E|].
  pose proof (Some_nth _ _ 0 V) as V1. pose proof (Some_nth _ _ 1 V) as V2. pose proof (Some_nth _ _ 2 V) as V3. pose proof (Some_nth _ _ 3 V) as V4. lazy -[Cplus Cmult Copp RtoC Rdiv IZR] in V1, V2, V3, V4. replace (0 / r)%R with 0%R in V3 by (unfold Rdiv; ring). repeat split.
  - rewrite RtoC_opp, <- V1. ring.
  - rewrite <- V2. ring.
  - transitivity (- RtoC 0); [rewrite <- V3|]; ring.
  - rewrite <- V4. ring.
Qed.
(** ** C50: E(z)^2 is the leading coefficient times the product of the distances to the stored roots. *)
Theorem C50_polynomial c s l : computes_eigenvalues eigvals c s -> de_of c = CC -> epoly_leading c s = Some l -> l <> 0%R -> (exists e, e2func c s 0 = Some e) ->
  exists rts, eroots c s = Some rts /\ length rts = (if rad c then 4 else 3)%nat /\
    forall z e, e2func c s z = Some e -> RtoC e = RtoC l * Cfrom_roots rts (RtoC z).
Proof.
  intros He D L NL (e0 & E0). assert (L0 := L). rewrite (e2_analytic c s 0 D) in E0. unfold bind in E0. unfold epoly_roots, epoly_coeffs, epoly_coeffs_, roots_force_numeric. rewrite L. unfold epoly_leading in L. cbn [bind].
  destruct (s Om0) as [m|] eqn:Em; [|discriminate]. destruct (get_Ok0 c s) as [k|] eqn:Ek; [|discriminate]. destruct (get_Ode0 c s) as [d|] eqn:Ed; [|discriminate]. cbn [bind].
  destruct (rad c) eqn:Er; cbn [map].
  - destruct (s Or0) as [r|] eqn:Eo; [|discriminate]. injection L as ->. destruct (quartic_roots c s l m k d He Er ltac:(unfold epoly_coeffs, epoly_coeffs_; rewrite L0, Em, Ek, Ed, Er; reflexivity)) as (r1 & r2 & r3 & r4 & E & S1 & S2 & S3 & S4). cbn [map] in E. rewrite E. eexists. split; [reflexivity|]. split; [reflexivity|].
    intros z e Ez. rewrite (e2_analytic c s z D), Em, Ek, Ed, Er, Eo in Ez. cbn [bind] in Ez. injection Ez as <-. unfold Cfrom_roots, from_roots. cbn [map prod].
    transitivity (RtoC l * (RtoC (1 + z) * RtoC (1 + z) * RtoC (1 + z) * RtoC (1 + z) - (r1 + r2 + r3 + r4) * (RtoC (1 + z) * RtoC (1 + z) * RtoC (1 + z)) + (r1 * r2 + r1 * r3 + r1 * r4 + r2 * r3 + r2 * r4 + r3 * r4) * (RtoC (1 + z) * RtoC (1 + z)) - (r1 * r2 * r3 + r1 * r2 * r4 + r1 * r3 * r4 + r2 * r3 * r4) * RtoC (1 + z) + r1 * r2 * r3 * r4)).
    + rewrite S1, S2, S3, S4, <- !RtoC_mult, <- !RtoC_minus, <- RtoC_plus, <- !RtoC_minus, <- RtoC_plus, <- RtoC_mult. f_equal. field. exact NL.
    + rewrite (RtoC_plus 1 z). ring.
  - injection L as ->. destruct (cubic_roots l k d) as (r1 & r2 & r3 & E & S1 & S2 & S3). cbn [map] in E. rewrite E. eexists. split; [reflexivity|]. split; [reflexivity|].
    intros z e Ez. rewrite (e2_analytic c s z D), Em, Ek, Ed, Er in Ez. cbn [bind] in Ez. injection Ez as <-. unfold Cfrom_roots, from_roots. cbn [map prod].
    transitivity (RtoC l * (RtoC (1 + z) * RtoC (1 + z) * RtoC (1 + z) - (r1 + r2 + r3) * (RtoC (1 + z) * RtoC (1 + z)) + (r1 * r2 + r1 * r3 + r2 * r3) * RtoC (1 + z) - r1 * r2 * r3)).
    + rewrite S1, S2, S3, <- !RtoC_mult, <- !RtoC_minus, <- RtoC_plus, <- !RtoC_minus, <- RtoC_mult. f_equal. field. exact NL.
    + rewrite (RtoC_plus 1 z). ring.
Qed.

(** ** The arguments of elliprf *)
Variables (elliprf : C -> C -> C -> C).
Hypothesis Hf : computes_RF csqrt elliprf.
Lemma shift_cubic k la X1 (R1 R2 R3 : C) : R1 + R2 + R3 = RtoC (- k) -> R1 * R2 + R1 * R3 + R2 * R3 = 0 -> R1 * R2 * R3 = RtoC (- la) ->
  let o r := r - RtoC X1 in o R1 + o R2 + o R3 = RtoC (- (3 * X1 + k)) /\ o R1 * o R2 + o R1 * o R3 + o R2 * o R3 = RtoC (3 * X1 ^ 2 + 2 * k * X1) /\ o R1 * o R2 * o R3 = RtoC (- (X1 ^ 3 + k * X1 ^ 2 + la)).
Proof.
  intros S1 S2 S3 o. unfold o. set (x := RtoC X1). assert (T3 : RtoC 3 = 1 + 1 + 1) by (rewrite <- !RtoC_plus; f_equal; ring). assert (T2 : RtoC 2 = 1 + 1) by (rewrite <- !RtoC_plus; f_equal; ring). repeat split.
  - transitivity (R1 + R2 + R3 - RtoC 3 * x); [rewrite T3; ring|]. rewrite S1. unfold x. rewrite <- RtoC_mult, <- RtoC_minus. f_equal. ring.
  - transitivity (R1 * R2 + R1 * R3 + R2 * R3 - RtoC 2 * x * (R1 + R2 + R3) + RtoC 3 * x * x); [rewrite T2, T3; ring|]. rewrite S1, S2. unfold x. rewrite <- !RtoC_mult, <- RtoC_minus, <- RtoC_plus. f_equal. ring.
  - transitivity (R1 * R2 * R3 - x * (R1 * R2 + R1 * R3 + R2 * R3) + x * x * (R1 + R2 + R3) - x * x * x); [ring|]. rewrite S1, S2, S3. unfold x. rewrite <- !RtoC_mult, <- RtoC_minus, <- RtoC_plus, <- RtoC_minus. f_equal. ring.
Qed.
Lemma shift_quartic a b la X1 (R1 R2 R3 R4 : C) : R1 + R2 + R3 + R4 = RtoC (- a) -> R1 * R2 + R1 * R3 + R1 * R4 + R2 * R3 + R2 * R4 + R3 * R4 = RtoC b ->
  R1 * R2 * R3 + R1 * R2 * R4 + R1 * R3 * R4 + R2 * R3 * R4 = 0 -> R1 * R2 * R3 * R4 = RtoC la ->
  let o r := r - RtoC X1 in o R1 + o R2 + o R3 + o R4 = RtoC (- (4 * X1 + a)) /\
   o R1 * o R2 + o R1 * o R3 + o R1 * o R4 + o R2 * o R3 + o R2 * o R4 + o R3 * o R4 = RtoC (6 * X1 ^ 2 + 3 * a * X1 + b) /\
   o R1 * o R2 * o R3 + o R1 * o R2 * o R4 + o R1 * o R3 * o R4 + o R2 * o R3 * o R4 = RtoC (- (4 * X1 ^ 3 + 3 * a * X1 ^ 2 + 2 * b * X1)) /\
   o R1 * o R2 * o R3 * o R4 = RtoC (X1 ^ 4 + a * X1 ^ 3 + b * X1 ^ 2 + la).
Proof.
  intros S1 S2 S3 S4 o. unfold o. set (x := RtoC X1). assert (T3 : RtoC 3 = 1 + 1 + 1) by (rewrite <- !RtoC_plus; f_equal; ring). assert (T2 : RtoC 2 = 1 + 1) by (rewrite <- !RtoC_plus; f_equal; ring).
  assert (T4 : RtoC 4 = 1 + 1 + 1 + 1) by (rewrite <- !RtoC_plus; f_equal; ring). assert (T6 : RtoC 6 = 1 + 1 + 1 + 1 + 1 + 1) by (rewrite <- !RtoC_plus; f_equal; ring).
  set (e1 := R1 + R2 + R3 + R4) in *. set (e2 := R1 * R2 + R1 * R3 + R1 * R4 + R2 * R3 + R2 * R4 + R3 * R4) in *. set (e3 := R1 * R2 * R3 + R1 * R2 * R4 + R1 * R3 * R4 + R2 * R3 * R4) in *. repeat split.
  - transitivity (e1 - RtoC 4 * x); [rewrite T4; unfold e1; ring|]. rewrite S1. unfold x. rewrite <- RtoC_mult, <- RtoC_minus. f_equal. ring.
  - transitivity (e2 - RtoC 3 * x * e1 + RtoC 6 * x * x); [rewrite T3, T6; unfold e1, e2; ring|]. rewrite S1, S2. unfold x. rewrite <- !RtoC_mult, <- RtoC_minus, <- RtoC_plus. f_equal. ring.
  - transitivity (e3 - RtoC 2 * x * e2 + RtoC 3 * x * x * e1 - RtoC 4 * x * x * x); [rewrite T2, T3, T4; unfold e1, e2, e3; ring|]. rewrite S1, S2, S3. unfold x. rewrite <- !RtoC_mult, <- RtoC_minus, <- RtoC_plus, <- RtoC_minus. f_equal. ring.
  - transitivity (R1 * R2 * R3 * R4 - x * e3 + x * x * e2 - x * x * x * e1 + x * x * x * x); [unfold e1, e2, e3; ring|]. rewrite S1, S2, S3, S4. unfold x. rewrite <- !RtoC_mult, <- RtoC_minus, <- RtoC_plus, <- RtoC_minus, <- RtoC_plus. f_equal. ring.
Qed.
(** the distance to a root after the shift *)
Lemma d_from z1 (R1 : C) : d csqrt z1 (R1 - RtoC 1) = csqrt (- (R1 - RtoC (1 + z1))).
Proof. unfold d. f_equal. rewrite RtoC_plus. ring. Qed.
Lemma d_to z1 z2 (R1 : C) : d csqrt z2 (R1 - RtoC 1) = csqrt (RtoC (z2 - z1) - (R1 - RtoC (1 + z1))).
Proof. unfold d. f_equal. rewrite RtoC_plus, RtoC_minus. ring. Qed.
Definition P3 (k la X1 : R) := P (X1 ^ 3 + k * X1 ^ 2 + la) (3 * X1 ^ 2 + 2 * k * X1) (3 * X1 + k) 1 0.
Definition P4 (a b la X1 : R) := P (X1 ^ 4 + a * X1 ^ 3 + b * X1 ^ 2 + la) (4 * X1 ^ 3 + 3 * a * X1 ^ 2 + 2 * b * X1) (6 * X1 ^ 2 + 3 * a * X1 + b) (4 * X1 + a) 1.
Lemma cubic_forward k la z1 z2 (R1 R2 R3 : C) : R1 + R2 + R3 = RtoC (- k) -> R1 * R2 + R1 * R3 + R2 * R3 = 0 -> R1 * R2 * R3 = RtoC (- la) -> (z1 < z2)%R ->
  (forall h, 0 <= h <= z2 - z1 -> 0 < P3 k la (1 + z1) h)%R ->
  let '(u1, u2, u3) := ellipr_params3 csqrt z1 z2 (R1 - RtoC 1) (R2 - RtoC 1) (R3 - RtoC 1) in
  elliprf u1 u2 u3 = RtoC (RInt (fun h => / sqrt (P3 k la (1 + z1) h)) 0 (z2 - z1) / (2 * (z2 - z1)))%R.
Proof.
  intros S1 S2 S3 L PP. destruct (shift_cubic k la (1 + z1) R1 R2 R3 S1 S2 S3) as (F1 & F2 & F3). unfold ellipr_params3. rewrite !(d_from z1), !(d_to z1 z2). apply Hf.
  set (H := (z2 - z1)%R) in *. assert (HH : (0 < H)%R) by (unfold H; lra). unfold P3 in *. set (p0 := ((1 + z1) ^ 3 + k * (1 + z1) ^ 2 + la)%R) in *. set (p1 := (3 * (1 + z1) ^ 2 + 2 * k * (1 + z1))%R) in *. set (p2 := (3 * (1 + z1) + k)%R) in *.
  set (o1 := R1 - RtoC (1 + z1)) in *. set (o2 := R2 - RtoC (1 + z1)) in *. set (o3 := R3 - RtoC (1 + z1)) in *. clearbody o1 o2 o3 p0 p1 p2.
  assert (HI : (0 < H <= H)%R) by lra. pose proof (cubic_prod csqrt Hs H HH p0 p1 p2 o1 o2 o3 F1 F2 F3 PP H HI) as PR.
  pose proof (cubic_arg csqrt Hs H p0 p1 p2) as CA. unfold square.
  pose proof (RF_path csqrt Hs p0 p1 p2 1 0 H HH PP (- o1) (- o2) (- o3)) as RF.
  rewrite <- (CA o1 o2 o3 H HI F1 F2 F3 PR) in RF.
  rewrite <- (CA o2 o1 o3 H HI ltac:(rewrite <- F1; ring) ltac:(rewrite <- F2; ring) ltac:(rewrite <- F3; ring) ltac:(rewrite <- PR; ring)) in RF.
  rewrite <- (CA o3 o1 o2 H HI ltac:(rewrite <- F1; ring) ltac:(rewrite <- F2; ring) ltac:(rewrite <- F3; ring) ltac:(rewrite <- PR; ring)) in RF.
  match goal with |- is_RF _ ?a ?b ?c _ => match type of RF with _ -> _ -> _ -> _ -> is_RF _ ?x ?y ?z _ => replace a with x by ring; replace b with y by ring; replace c with z by ring end end.
  apply RF.
  - assert (F1' : RtoC p2 = - (o1 + o2 + o3)) by (rewrite F1, RtoC_opp; ring). rewrite F1'. ring.
  - replace (p1 * 1 - 4 * p0 * 0)%R with p1 by ring. rewrite <- F2. ring.
  - replace (p1 ^ 2 * 0 + 1 ^ 2 * p0 - 4 * p0 * p2 * 0)%R with p0 by ring. assert (F3' : RtoC p0 = - (o1 * o2 * o3)) by (rewrite F3, RtoC_opp; ring). rewrite F3'. ring.
  - intros h k0 Hh Hk. apply (cubic_nonzero csqrt Hs H HH p0 p1 p2 o1 o2 o3 F1 F2 F3 PP h k0 Hh Hk).
Qed.
Lemma quartic_forward a b la z1 z2 (R1 R2 R3 R4 : C) : R1 + R2 + R3 + R4 = RtoC (- a) -> R1 * R2 + R1 * R3 + R1 * R4 + R2 * R3 + R2 * R4 + R3 * R4 = RtoC b ->
  R1 * R2 * R3 + R1 * R2 * R4 + R1 * R3 * R4 + R2 * R3 * R4 = 0 -> R1 * R2 * R3 * R4 = RtoC la -> (0 <= a)%R -> (-1 <= z1 < z2)%R ->
  (forall h, 0 <= h <= z2 - z1 -> 0 < P4 a b la (1 + z1) h)%R ->
  let '(u1, u2, u3) := ellipr_params4 csqrt z1 z2 (R1 - RtoC 1) (R2 - RtoC 1) (R3 - RtoC 1) (R4 - RtoC 1) in
  elliprf u1 u2 u3 = RtoC (RInt (fun h => / sqrt (P4 a b la (1 + z1) h)) 0 (z2 - z1) / (2 * (z2 - z1)))%R.
Proof.
  intros S1 S2 S3 S4 A L PP. destruct (shift_quartic a b la (1 + z1) R1 R2 R3 R4 S1 S2 S3 S4) as (F1 & F2 & F3 & F4). unfold ellipr_params4. rewrite !(d_from z1), !(d_to z1 z2). apply Hf.
  set (H := (z2 - z1)%R) in *. assert (HH : (0 < H)%R) by (unfold H; lra). assert (X1 : (0 <= 1 + z1)%R) by lra. set (X := (1 + z1)%R) in *.
  assert (PA : forall h v w, (0 < h <= H)%R -> (0 < Im v)%R -> (0 < Im w)%R -> v + Cconj v + w + Cconj w = RtoC (- (4 * X + a)) -> v * Cconj v + v * w + v * Cconj w + Cconj v * w + Cconj v * Cconj w + w * Cconj w = RtoC (6 * X ^ 2 + 3 * a * X + b) -> v * Cconj v * w + v * Cconj v * Cconj w + v * w * Cconj w + Cconj v * w * Cconj w = RtoC (- (4 * X ^ 3 + 3 * a * X ^ 2 + 2 * b * X)) -> Re (ratio csqrt h v * ratio csqrt h w) <> 0%R).
  { intros h v w Hh. apply (pairs_fine csqrt Hs a b X h v w A X1). lra. }
  unfold P4 in *. set (p0 := (X ^ 4 + a * X ^ 3 + b * X ^ 2 + la)%R) in *. set (p1 := (4 * X ^ 3 + 3 * a * X ^ 2 + 2 * b * X)%R) in *. set (p2 := (6 * X ^ 2 + 3 * a * X + b)%R) in *. set (p3 := (4 * X + a)%R) in *.
  set (o1 := R1 - RtoC X) in *. set (o2 := R2 - RtoC X) in *. set (o3 := R3 - RtoC X) in *. set (o4 := R4 - RtoC X) in *. clearbody o1 o2 o3 o4 p0 p1 p2 p3.
  assert (HI : (0 < H <= H)%R) by lra. pose proof (quartic_prod csqrt Hs H HH p0 p1 p2 p3 o1 o2 o3 o4 F1 F2 F3 F4 PP PA H HI) as PR.
  pose proof (quartic_arg csqrt Hs H p0 p1 p2 p3) as CA. unfold square.
  pose proof (RF_path csqrt Hs p0 p1 p2 p3 1 H HH PP (o1 * o2 + o3 * o4) (o1 * o3 + o2 * o4) (o1 * o4 + o2 * o3)) as RF.
  rewrite <- (CA o1 o2 o3 o4 H HI F3 F4 PR) in RF.
  rewrite <- (CA o1 o3 o2 o4 H HI ltac:(rewrite <- F3; ring) ltac:(rewrite <- F4; ring) ltac:(rewrite <- PR; ring)) in RF.
  rewrite <- (CA o1 o4 o2 o3 H HI ltac:(rewrite <- F3; ring) ltac:(rewrite <- F4; ring) ltac:(rewrite <- PR; ring)) in RF.
  match goal with |- is_RF _ ?a ?b ?c _ => match type of RF with _ -> _ -> _ -> _ -> is_RF _ ?x ?y ?z _ => replace a with x by ring; replace b with y by ring; replace c with z by ring end end.
  assert (T4 : RtoC 4 = 1 + 1 + 1 + 1) by (rewrite <- !RtoC_plus; f_equal; ring).
  assert (F1' : RtoC p3 = - (o1 + o2 + o3 + o4)) by (rewrite F1, RtoC_opp; ring). assert (F3' : RtoC p1 = - (o1 * o2 * o3 + o1 * o2 * o4 + o1 * o3 * o4 + o2 * o3 * o4)) by (rewrite F3, RtoC_opp; ring).
  apply RF.
  - rewrite <- F2. ring.
  - rewrite RtoC_minus, !RtoC_mult, F1', F3', <- F4, T4. ring.
  - replace (p1 ^ 2 * 1 + p3 ^ 2 * p0 - 4 * p0 * p2 * 1)%R with (p1 * p1 + p3 * p3 * p0 - 4 * p0 * p2)%R by ring. rewrite RtoC_minus, RtoC_plus, !RtoC_mult, F1', F3', <- F4, <- F2, T4. ring.
  - intros h k0 Hh Hk. apply (quartic_nonzero csqrt Hs H HH p0 p1 p2 p3 o1 o2 o3 o4 F1 F2 F3 F4 PP PA h k0 Hh Hk).
Qed.
(** ** C59: the analytic comoving distance is the integral of 1/E. *)
Lemma params3_swap z1 z2 r1 r2 r3 : ellipr_params3 csqrt z1 z2 r1 r2 r3 = ellipr_params3 csqrt z2 z1 r1 r2 r3.
Proof. unfold ellipr_params3, square. apply f_equal2; [apply f_equal2|]; ring. Qed.
Lemma params4_swap z1 z2 r1 r2 r3 r4 : ellipr_params4 csqrt z1 z2 r1 r2 r3 r4 = ellipr_params4 csqrt z2 z1 r1 r2 r3 r4.
Proof. unfold ellipr_params4, square. apply f_equal2; [apply f_equal2|]; ring. Qed.
Notation comoving := (analytic_comoving csqrt ccbrt eigvals elliprf).
Lemma comoving_swap c s z1 z2 : comoving c s z2 z1 = bind (comoving c s z1 z2) (fun v => Some (- v)%R).
Proof.
  unfold analytic_comoving. destruct (epoly_roots csqrt ccbrt eigvals c s) as [rts|]; [|reflexivity]. cbn [bind]. destruct (if rad c then rev rts else rts) as [|r1 [|r2 [|r3 [|r4 [|? ?]]]]]; try reflexivity; destruct (rad c); try reflexivity; cbn [bind].
  - rewrite params3_swap. destruct (ellipr_params3 csqrt z1 z2 r1 r2 r3) as [[u1 u2] u3]. destruct (fix_dimless c s (elliprf u1 u2 u3)); cbn [bind]; [|reflexivity]. f_equal. ring.
  - rewrite params4_swap. destruct (ellipr_params4 csqrt z1 z2 r1 r2 r3 r4) as [[u1 u2] u3]. destruct (fix_dimless c s (elliprf u1 u2 u3)); cbn [bind]; [|reflexivity]. f_equal. ring.
Qed.
Open Scope R_scope.
Lemma P3_pos k la X1 h : P3 k la X1 h = (X1 + h) ^ 3 + k * (X1 + h) ^ 2 + la. Proof. unfold P3, P. ring. Qed.
Lemma P4_pos a b la X1 h : P4 a b la X1 h = (X1 + h) ^ 4 + a * (X1 + h) ^ 3 + b * (X1 + h) ^ 2 + la. Proof. unfold P4, P. ring. Qed.
Lemma inv_sqrt_cont (Q : R -> R) z : continuous Q z -> 0 < Q z -> continuous (fun h => / sqrt (Q h)) z.
Proof. intros CQ Qp. apply continuity_pt_filterlim, continuity_pt_inv; [apply (continuity_pt_comp Q sqrt); [apply continuity_pt_filterlim, CQ|apply continuity_pt_sqrt; lra]|apply Rgt_not_eq, sqrt_lt_R0, Qp]. Qed.
Lemma RInt_shift f l Q z1 z2 : z1 < z2 -> 0 < l -> (forall h, continuous Q h) -> (forall h, 0 <= h <= z2 - z1 -> 0 < Q h /\ f (z1 + h) = / sqrt (l * Q h)) ->
  RInt f z1 z2 = RInt (fun h => / sqrt (Q h)) 0 (z2 - z1) / sqrt l.
Proof.
  intros L Hl CQ E. pose proof (sqrt_lt_R0 l Hl) as Sl.
  assert (C : forall h, 0 <= h <= z2 - z1 -> continuous (fun h => / sqrt (Q h)) h).
  { intros h Hh. destruct (E h Hh) as [Qp _]. apply inv_sqrt_cont; [apply CQ|exact Qp]. }
  assert (X : ex_RInt (fun h => / sqrt (Q h)) 0 (z2 - z1)) by (apply (ex_RInt_continuous (fun h => / sqrt (Q h))); intros z Hz; rewrite Rmin_left, Rmax_right in Hz by lra; apply C, Hz).
  assert (Xz : ex_RInt (fun z => / sqrt l * / sqrt (Q (z - z1))) z1 z2).
  { apply (ex_RInt_continuous (fun z => / sqrt l * / sqrt (Q (z - z1)))). intros z Hz. rewrite Rmin_left, Rmax_right in Hz by lra. apply (continuous_mult (fun _ => / sqrt l) (fun z => / sqrt (Q (z - z1)))); [apply continuous_const|].
    apply (continuous_comp (fun z => z - z1) (fun h => / sqrt (Q h))); [apply (continuous_minus (fun z => z) (fun _ => z1)); [apply continuous_id|apply continuous_const]|]. apply C. lra. }
  rewrite (RInt_ext f (fun z => / sqrt l * / sqrt (Q (z - z1)))).
  2:{ intros z Hz. rewrite Rmin_left, Rmax_right in Hz by lra. destruct (E (z - z1) ltac:(lra)) as [Qp Ez]. replace (z1 + (z - z1)) with z in Ez by ring. rewrite Ez, sqrt_mult by lra. apply Rinv_mult. }
  pose proof (RInt_comp_lin (fun z => / sqrt l * / sqrt (Q (z - z1))) 1 z1 0 (z2 - z1)) as RL. replace (1 * 0 + z1) with z1 in RL by ring. replace (1 * (z2 - z1) + z1) with z2 in RL by ring. rewrite <- RL by exact Xz.
  pose proof (RInt_scal (fun h => / sqrt (Q h)) 0 (z2 - z1) (/ sqrt l) X) as RS. change (RInt (fun h => / sqrt l * / sqrt (Q h)) 0 (z2 - z1) = / sqrt l * RInt (fun h => / sqrt (Q h)) 0 (z2 - z1)) in RS.
  transitivity (RInt (fun h => / sqrt l * / sqrt (Q h)) 0 (z2 - z1)); [|rewrite RS; unfold Rdiv; apply Rmult_comm]. apply RInt_ext. intros x Hx. unfold scal; simpl; unfold mult; simpl. rewrite Rmult_1_l. replace (1 * x + z1 - z1) with x by ring. reflexivity.
Qed.
Lemma P_continuous p0 p1 p2 p3 p4 h : continuous (P p0 p1 p2 p3 p4) h.
Proof. apply (ex_derive_continuous (P p0 p1 p2 p3 p4)). eexists. apply P_derive. Qed.
Lemma comoving_forward c s z1 z2 l f : computes_eigenvalues eigvals c s -> de_of c = CC -> epoly_leading c s = Some l -> 0 < l -> z1 < z2 ->
  (forall z, z1 <= z <= z2 -> exists e, e2func c s z = Some e /\ 0 < e /\ f z = / sqrt e) ->
  (rad c = true -> -1 <= z1 /\ exists m, s Om0 = Some m /\ 0 <= m) -> comoving c s z1 z2 = Some (RInt f z1 z2).
Proof.
  intros He D L Pl Lt E2 Rd. assert (L0 := L). unfold analytic_comoving, epoly_roots, epoly_coeffs, epoly_coeffs_, roots_force_numeric, fix_dimless. rewrite L. unfold epoly_leading in L. cbn [bind].
  destruct (E2 z1 ltac:(lra)) as (e0 & E0 & _). rewrite (e2_analytic c s z1 D) in E0. unfold bind in E0.
  assert (Ez : forall h, 0 <= h <= z2 - z1 -> exists e, e2func c s (z1 + h) = Some e /\ 0 < e /\ f (z1 + h) = / sqrt e) by (intros h Hh; apply E2; lra).
  destruct (s Om0) as [m|] eqn:Em; [|discriminate]. destruct (get_Ok0 c s) as [k|] eqn:Ek; [|discriminate]. destruct (get_Ode0 c s) as [d|] eqn:Ed; [|discriminate]. cbn [bind].
  destruct (rad c) eqn:Er; cbn [map].
  - destruct (s Or0) as [r|] eqn:Eo; [|discriminate]. injection L as ->. destruct (Rd eq_refl) as (Hz & m' & Hm & Pm). injection Hm as <-.
    destruct (quartic_roots c s l m k d He Er ltac:(unfold epoly_coeffs, epoly_coeffs_; rewrite L0, Em, Ek, Ed, Er; reflexivity)) as (r1 & r2 & r3 & r4 & E & S1 & S2 & S3 & S4). cbn [map] in E. rewrite E. cbn [map bind rev app].
    assert (Q : forall h, 0 <= h <= z2 - z1 -> 0 < P4 (m / l) (k / l) (d / l) (1 + z1) h /\ f (z1 + h) = / sqrt (l * P4 (m / l) (k / l) (d / l) (1 + z1) h)).
    { intros h Hh. destruct (Ez h Hh) as (e & H1 & H2 & H3). rewrite (e2_analytic c s (z1 + h) D), Em, Ek, Ed, Er, Eo in H1. cbn [bind] in H1. injection H1 as H1. assert (E4 : e = l * P4 (m / l) (k / l) (d / l) (1 + z1) h) by (rewrite P4_pos, <- H1; field; lra).
      rewrite <- E4. split; [|exact H3]. apply (Rmult_lt_reg_l l); [exact Pl|]. rewrite <- E4. lra. }
    assert (Pa : 0 <= m / l) by (apply Rmult_le_pos; [exact Pm|left; apply Rinv_0_lt_compat; exact Pl]).
    assert (A := quartic_forward (m / l) (k / l) (d / l) z1 z2 r4 r3 r2 r1 ltac:(rewrite <- S1; ring) ltac:(rewrite <- S2; ring) ltac:(rewrite <- S3; ring) ltac:(rewrite <- S4; ring) Pa (conj Hz Lt) (fun h Hh => proj1 (Q h Hh))).
    destruct (ellipr_params4 csqrt z1 z2 (r4 - 1)%C (r3 - 1)%C (r2 - 1)%C (r1 - 1)%C) as [[u1 u2] u3]. rewrite A. cbn [bind]. f_equal. rewrite (RInt_shift f l (P4 (m / l) (k / l) (d / l) (1 + z1)) z1 z2 Lt Pl (P_continuous _ _ _ _ _) Q).
    pose proof (sqrt_lt_R0 l Pl). unfold Re. simpl. unfold bind. f_equal. field. split; lra.
  - injection L as ->. destruct (cubic_roots l k d) as (r1 & r2 & r3 & E & S1 & S2 & S3). cbn [map] in E. rewrite E. cbn [map bind].
    assert (Q : forall h, 0 <= h <= z2 - z1 -> 0 < P3 (k / l) (d / l) (1 + z1) h /\ f (z1 + h) = / sqrt (l * P3 (k / l) (d / l) (1 + z1) h)).
    { intros h Hh. destruct (Ez h Hh) as (e & H1 & H2 & H3). rewrite (e2_analytic c s (z1 + h) D), Em, Ek, Ed, Er in H1. cbn [bind] in H1. injection H1 as H1. assert (E4 : e = l * P3 (k / l) (d / l) (1 + z1) h) by (rewrite P3_pos, <- H1; field; lra).
      rewrite <- E4. split; [|exact H3]. apply (Rmult_lt_reg_l l); [exact Pl|]. rewrite <- E4. lra. }
    assert (A := cubic_forward (k / l) (d / l) z1 z2 r1 r2 r3 S1 S2 S3 Lt (fun h Hh => proj1 (Q h Hh))).
    destruct (ellipr_params3 csqrt z1 z2 (r1 - 1)%C (r2 - 1)%C (r3 - 1)%C) as [[u1 u2] u3]. rewrite A. cbn [bind]. f_equal. rewrite (RInt_shift f l (P3 (k / l) (d / l) (1 + z1)) z1 z2 Lt Pl (P_continuous _ _ _ _ _) Q).
    pose proof (sqrt_lt_R0 l Pl). unfold Re. simpl. unfold bind. f_equal. field. split; lra.
Qed.
Theorem C59_comoving c s z1 z2 l f : computes_eigenvalues eigvals c s -> de_of c = CC -> epoly_leading c s = Some l -> 0 < l ->
  (forall z, Rmin z1 z2 <= z <= Rmax z1 z2 -> exists e, e2func c s z = Some e /\ 0 < e /\ f z = / sqrt e) ->
  (rad c = true -> -1 <= z1 /\ -1 <= z2 /\ exists m, s Om0 = Some m /\ 0 <= m) -> comoving c s z1 z2 = Some (RInt f z1 z2).
Proof.
  intros He D L Pl E2 Rd. destruct (Rtotal_order z1 z2) as [Lt|[Eq|Gt]].
  - apply (comoving_forward c s z1 z2 l f He D L Pl Lt); [intros z Hz; apply E2; rewrite Rmin_left, Rmax_right by lra; exact Hz|]. intros Er. destruct (Rd Er) as (A & _ & B). split; assumption.
  - subst z2. rewrite RInt_point. change zero with 0. destruct (E2 z1) as (e0 & E0 & P0 & _); [rewrite Rmin_left, Rmax_left; lra|].
    assert (X : exists e, e2func c s 0 = Some e) by (rewrite (e2_analytic c s z1 D) in E0; rewrite (e2_analytic c s 0 D); unfold bind in *; destruct (s Om0); [|discriminate]; destruct (get_Ok0 c s); [|discriminate]; destruct (get_Ode0 c s); [|discriminate]; destruct (rad c); [destruct (s Or0); [|discriminate]|]; eauto).
    destruct (C50_polynomial c s l He D L ltac:(lra) X) as (rts & Er & Len & _). unfold analytic_comoving, fix_dimless. rewrite Er, L. cbn [bind].
    destruct (rad c).
    + destruct rts as [|r1 [|r2 [|r3 [|r4 [|? ?]]]]]; try discriminate Len. cbn [rev app bind]. destruct (ellipr_params4 _ _ _ _ _ _ _) as [[u1 u2] u3]. cbn [bind]. apply (f_equal Some). unfold Rminus. rewrite Rplus_opp_r. ring.
    + destruct rts as [|r1 [|r2 [|r3 [|? ?]]]]; try discriminate Len. cbn [bind]. destruct (ellipr_params3 _ _ _ _ _ _) as [[u1 u2] u3]. cbn [bind]. apply (f_equal Some). unfold Rminus. rewrite Rplus_opp_r. ring.
  - rewrite comoving_swap, (comoving_forward c s z2 z1 l f He D L Pl Gt).
    + cbn [bind]. apply (f_equal Some). pose proof (opp_RInt_swap f z2 z1) as SW. apply SW.
      apply (ex_RInt_ext (fun z => / sqrt (match e2func c s z with Some e => e | None => 0 end))).
      * intros z Hz. rewrite Rmin_left, Rmax_right in Hz by lra. destruct (E2 z) as (e & E & _ & F); [rewrite Rmin_right, Rmax_left by lra; lra|]. rewrite E, F. reflexivity.
      * apply (ex_RInt_continuous (fun z => / sqrt (match e2func c s z with Some e => e | None => 0 end))). intros z Hz. rewrite Rmin_left, Rmax_right in Hz by lra. destruct (E2 z) as (e & E & Pe & _); [rewrite Rmin_right, Rmax_left by lra; lra|].
        rewrite (e2_analytic c s z D) in E. apply (continuous_ext (fun z => / sqrt (match bind (s Om0) (fun m => bind (get_Ok0 c s) (fun k => bind (get_Ode0 c s) (fun d => if rad c then bind (s Or0) (fun r => Some ((1 + z) ^ 2 * (m * (1 + z) + k) + d + r * (1 + z) ^ 4)) else Some ((1 + z) ^ 2 * (m * (1 + z) + k) + d)))) with Some e => e | None => 0 end))); [intros x; rewrite (e2_analytic c s x D); reflexivity|].
        unfold bind in *. destruct (s Om0) as [m|]; [|discriminate]. destruct (get_Ok0 c s) as [k|]; [|discriminate]. destruct (get_Ode0 c s) as [d|]; [|discriminate].
        destruct (rad c); [destruct (s Or0) as [r|]; [|discriminate]|]; injection E as E; rewrite <- E in Pe.
        -- apply (inv_sqrt_cont (fun z => (1 + z) ^ 2 * (m * (1 + z) + k) + d + r * (1 + z) ^ 4)); [|exact Pe]. apply (ex_derive_continuous (fun z => (1 + z) ^ 2 * (m * (1 + z) + k) + d + r * (1 + z) ^ 4)). auto_derive. exact I.
        -- apply (inv_sqrt_cont (fun z => (1 + z) ^ 2 * (m * (1 + z) + k) + d)); [|exact Pe]. apply (ex_derive_continuous (fun z => (1 + z) ^ 2 * (m * (1 + z) + k) + d)). auto_derive. exact I.
    + intros z Hz. apply E2. rewrite Rmin_right, Rmax_left by lra. exact Hz.
    + intros Er. destruct (Rd Er) as (_ & A & B). split; assumption.
Qed.
End Analytic.

(** ** Non-vacuity *)
Open Scope R_scope.
(** Functions that compute Carlson's integrals exist: the limits of Coquelicot. *)
Definition lim_improper (f : R -> C) : C := (real (Lim (fun T => RInt (fun t => Re (f t)) 0 T) p_infty), real (Lim (fun T => RInt (fun t => Im (f t)) 0 T) p_infty)).
Lemma lim_improper_ok f v : improper f v -> lim_improper f = v.
Proof. intros [A B]. unfold lim_improper. rewrite (is_lim_unique _ _ _ A), (is_lim_unique _ _ _ B). destruct v; reflexivity. Qed.
Definition some_RF (csqrt : C -> C) (x y z : C) : C := lim_improper (fun t => 1 / (RtoC 2 * (csqrt (RtoC t + x) * csqrt (RtoC t + y) * csqrt (RtoC t + z))))%C.
Lemma some_RF_ok csqrt : computes_RF csqrt (some_RF csqrt).
Proof. intros x y z v A. apply lim_improper_ok, A. Qed.
(** X^4 + X^3 - X^2/2 + 1/2 has the roots -1 (twice) and (1 +- i)/2. *)
Definition ex_state (c : cls) : state := fun p => match p with Om0 => Some (if rad c then 1/2 else 0.3) | Ode0 => Some (if rad c then 1/4 else 0.6) | Or0 => Some (1/2) | _ => None end.
Definition ex_eigvals (m : list (list C)) : list C := [- (1); - (1); (1/2, 1/2)%R; (1/2, - (1/2))%R]%C.
Lemma ex_eigvals_ok c : flat c = false -> computes_eigenvalues ex_eigvals c (ex_state c).
Proof.
  intros F Er cs m Hcs Hm. unfold epoly_coeffs, epoly_coeffs_, epoly_leading, get_Ok0, get_Ode0, sum0_noDE, ex_state in Hcs. rewrite Er, F in Hcs. cbn [bind map] in Hcs. injection Hcs as <-.
  destruct (C31_characteristic C (RtoC 0) (RtoC 1) Cplus Cmult Cminus Copp C_ring_theory (map RtoC [1 / 2 / (1 / 2); (1 - (1 / 2 + 1 / 2) - 1 / 4) / (1 / 2); 0 / (1 / 2); 1 / 4 / (1 / 2)]) ltac:(discriminate)) as (m' & Hm' & (Hl & _) & Hd).
  rewrite Hm in Hm'. injection Hm' as <-. split; [rewrite Hl; reflexivity|]. intros x. rewrite Hl. etransitivity; [apply Hd|]. unfold monic, Cfrom_roots, from_roots, ex_eigvals. destruct x as [a b]. apply C_ext; unfold Re, Im; simpl; field.
Qed.
Example C59_nonvacuous c : de_of c = CC -> flat c = false -> let s := ex_state c in principal_sqrt psqrt /\ cube_root pcbrt /\ computes_eigenvalues ex_eigvals c s /\ computes_RF psqrt (some_RF psqrt) /\
  exists l, epoly_leading c s = Some l /\ 0 < l /\ (forall z, 0 <= z <= 2 -> exists e, e2func c s z = Some e /\ 0 < e) /\ s Om0 <> None.
Proof.
  intros D F s. split; [apply psqrt_principal|]. split; [apply pcbrt_cube|]. split; [apply ex_eigvals_ok, F|]. split; [apply some_RF_ok|].
  exists (if rad c then 1/2 else 0.3). split; [unfold epoly_leading, s, ex_state; destruct (rad c); reflexivity|]. split; [destruct (rad c); lra|]. split; [|discriminate].
  intros z Hz. rewrite (e2_analytic c s z D). unfold get_Ok0, get_Ode0, sum0_noDE, s, ex_state. rewrite F. destruct (rad c); cbn [bind]; eexists; (split; [reflexivity|nra]).
Qed.
Print Assumptions C50_polynomial.
Print Assumptions C59_comoving.
