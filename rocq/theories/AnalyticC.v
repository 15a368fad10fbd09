(** Carlson's integrals along the path of the analytic distances. *)
From Coq Require Import Reals Ranalysis5 Lra Psatz.
From Coquelicot Require Import Rcomplements Rbar Lim_seq Hierarchy Continuity Derive RInt RInt_analysis ElemFct AutoDerive Complex.
From Verif Require Import Roots RootsC RootsPrincipal CarlsonSpec CarlsonC AnalyticFacts.
Open Scope R_scope.

Section Path.
Variable s : C -> C.
Hypothesis Hs : principal_sqrt s.
Variables (p0 p1 p2 p3 p4 H : R).
Notation P := (P p0 p1 p2 p3 p4). Notation G := (G p0 p1 p2 p3 p4). Notation q := (q p0 p1 p2 p3 p4). Notation Res := (Res p0 p1 p2 p3 p4).
Hypothesis HH : 0 < H.
Hypothesis Ppos : forall h, 0 <= h <= H -> 0 < P h.
Variables (k1 k2 k3 : C).
Hypothesis K1 : (k1 + k2 + k3)%C = RtoC p2.
Hypothesis K2 : (k1 * k2 + k1 * k3 + k2 * k3)%C = RtoC (p1 * p3 - 4 * p0 * p4).
Hypothesis K3 : (k1 * k2 * k3)%C = RtoC (p1 ^ 2 * p4 + p3 ^ 2 * p0 - 4 * p0 * p2 * p4).
Hypothesis NV : forall h k, 0 < h <= H -> k = k1 \/ k = k2 \/ k = k3 -> (RtoC (G h) + k)%C <> RtoC 0.
Lemma Res_product g : ((RtoC g + k1) * (RtoC g + k2) * (RtoC g + k3))%C = RtoC (Res g).
Proof.
  transitivity (RtoC g * RtoC g * RtoC g + (k1 + k2 + k3) * (RtoC g * RtoC g) + (k1 * k2 + k1 * k3 + k2 * k3) * RtoC g + k1 * k2 * k3)%C; [ring|]. rewrite K1, K2, K3, <- !RtoC_mult, <- !RtoC_plus. f_equal. unfold AnalyticFacts.Res. ring.
Qed.
Lemma path_nz h : 0 < h <= H -> Res (G h) <> 0.
Proof.
  intros A E. pose proof (Res_product (G h)) as Q. rewrite E in Q. apply C_integral in Q. destruct Q as [Q|Q]; [apply C_integral in Q; destruct Q as [Q|Q]|]; revert Q; apply NV; auto.
Qed.
Lemma G_cont h : 0 < h <= H -> continuity_pt G h.
Proof. intros A. apply continuity_pt_filterlim, (ex_derive_continuous G). eexists. apply G_derive with (H := H); assumption. Qed.
Lemma path_pos h k : 0 < h <= H -> k = k1 \/ k = k2 \/ k = k3 -> Im k = 0 -> 0 < G h + Re k.
Proof.
  intros A K I. destruct (Rlt_le_dec 0 (G h + Re k)) as [L|L]; [exact L|exfalso].
  destruct (G_infinite p0 p1 p2 p3 p4 H HH Ppos (- Re k)) as (d & Hd & Ld).
  assert (D : d < h). { destruct (Rlt_le_dec d h) as [X|X]; [exact X|]. pose proof (Ld h ltac:(lra)). lra. }
  destruct (f_interv_is_interv (fun t => - G t) d h (Re k) D) as (x & X1 & X2); [pose proof (Ld d ltac:(lra)); lra|intros c Hc; apply continuity_pt_opp, G_cont; lra|].
  apply (NV x k ltac:(lra) K). rewrite (real_RtoC k I), <- RtoC_plus. f_equal. lra.
Qed.
Lemma path_sqrt v : G H <= v -> 0 < Res v /\ (s (RtoC v + k1) * s (RtoC v + k2) * s (RtoC v + k3))%C = RtoC (sqrt (Res v)).
Proof.
  intros A. assert (I : forall k, Im (RtoC v + k)%C = Im k) by (intros k; simpl; unfold Im; ring). assert (J : forall k, Re (RtoC v + k)%C = v + Re k) by (intros k; simpl; unfold Re; ring).
  apply prod_sqrt; [exact Hs| | |apply Res_product| | |].
  - replace (RtoC v + k1 + (RtoC v + k2) + (RtoC v + k3))%C with (RtoC (3 * v) + (k1 + k2 + k3))%C; [rewrite K1; simpl; ring|]. replace (3 * v) with (v + v + v) by ring. rewrite !RtoC_plus. ring.
  - replace ((RtoC v + k1) * (RtoC v + k2) + (RtoC v + k1) * (RtoC v + k3) + (RtoC v + k2) * (RtoC v + k3))%C with (RtoC (3 * (v * v)) + RtoC (2 * v) * (k1 + k2 + k3) + (k1 * k2 + k1 * k3 + k2 * k3))%C.
    + rewrite K1, K2, <- RtoC_mult, <- !RtoC_plus. reflexivity.
    + replace (3 * (v * v)) with (v * v + v * v + v * v) by ring. replace (2 * v) with (v + v) by ring. rewrite !RtoC_plus, !RtoC_mult. ring.
  - rewrite I, J. intros E. pose proof (path_pos H k1 ltac:(lra) ltac:(auto) E). lra.
  - rewrite I, J. intros E. pose proof (path_pos H k2 ltac:(lra) ltac:(auto) E). lra.
  - rewrite I, J. intros E. pose proof (path_pos H k3 ltac:(lra) ltac:(auto) E). lra.
Qed.
Lemma Res_continuous v : continuous Res v.
Proof. apply (ex_derive_continuous Res). unfold AnalyticFacts.Res. auto_derive. exact I. Qed.
(** The integral of a function of the path variable *)
Lemma improper_path (g w : R -> R) (f : R -> C) :
  (forall h, 0 < h <= H -> continuous g (G h)) -> (forall h, 0 <= h <= H -> continuous w h) -> (forall h, 0 < h <= H -> w h * q h = g (G h)) ->
  (forall t, 0 <= t -> f t = RtoC (g (G H + t / (H * H)) / (H * H * sqrt (Res (G H + t / (H * H)))))) -> improper f (RtoC (RInt w 0 H)).
Proof.
  intros Cg Cw Ew Ef. set (F := fun v => g v / sqrt (Res v)). assert (H2 : 0 < H * H) by (apply Rmult_lt_0_compat; lra).
  assert (CF : forall h, 0 < h <= H -> continuous F (G h)).
  { intros h A. apply (continuous_mult g (fun v => / sqrt (Res v))); [apply Cg, A|]. pose proof (Res_pos p0 p1 p2 p3 p4 H HH Ppos path_nz h A) as RP.
    apply continuity_pt_filterlim, continuity_pt_inv; [apply (continuity_pt_comp Res sqrt)|]; [apply continuity_pt_filterlim, Res_continuous|apply continuity_pt_sqrt; lra|]. apply Rgt_not_eq, sqrt_lt_R0, RP. }
  pose proof (carlson p0 p1 p2 p3 p4 H HH Ppos F w path_nz CF Cw) as L. specialize (L ltac:(intros h A; pose proof (Res_pos p0 p1 p2 p3 p4 H HH Ppos path_nz h A) as RP; pose proof (sqrt_lt_R0 _ RP); rewrite Ew by exact A; unfold F; field; lra)).
  assert (EX : forall T, 0 <= T -> ex_RInt (fun t => F (G H + t)) 0 T).
  { intros T HT. apply (ex_RInt_continuous (fun t => F (G H + t))). intros z Hz. rewrite Rmin_left, Rmax_right in Hz by exact HT. apply (continuous_comp (fun t => G H + t) F); [apply (continuous_plus (fun _ => G H) (fun t => t)); [apply continuous_const|apply continuous_id]|].
    destruct (Req_dec z 0) as [->|NZ]; [rewrite Rplus_0_r; apply CF; lra|].
    destruct (G_infinite p0 p1 p2 p3 p4 H HH Ppos (G H + z)) as (d & Hd & Ld). assert (D : d < H). { destruct (Rlt_le_dec d H) as [X|X]; [exact X|]. pose proof (Ld H ltac:(lra)). lra. }
    destruct (f_interv_is_interv (fun t => - G t) d H (- (G H + z)) D) as (x & X1 & X2); [pose proof (Ld d ltac:(lra)); lra|intros c Hc; apply continuity_pt_opp, G_cont; lra|].
    replace (G H + z) with (G x) by lra. apply CF. lra. }
  assert (RT : forall T, 0 <= T -> RInt (fun t => Re (f t)) 0 T = RInt (fun t => F (G H + t)) 0 (T / (H * H))).
  { intros T HT. pose proof (RInt_comp_lin (fun t => F (G H + t)) (/ (H * H)) 0 0 T) as RL. replace (/ (H * H) * 0 + 0) with 0 in RL by ring. replace (/ (H * H) * T + 0) with (T / (H * H)) in RL by (unfold Rdiv; ring).
    assert (0 <= T / (H * H)) by (apply Rmult_le_pos; [exact HT|left; apply Rinv_0_lt_compat; exact H2]).
    rewrite <- RL by (apply EX; assumption). apply RInt_ext. intros x Hx. rewrite Rmin_left, Rmax_right in Hx by exact HT. rewrite Ef by lra. unfold scal; simpl; unfold mult; simpl. unfold F.
    replace (G H + (/ (H * H) * x + 0)) with (G H + x / (H * H)) by (unfold Rdiv; ring).
    assert (0 <= x / (H * H)) by (apply Rmult_le_pos; [lra|left; apply Rinv_0_lt_compat; exact H2]). destruct (path_sqrt (G H + x / (H * H)) ltac:(lra)) as [RP _]. pose proof (sqrt_lt_R0 _ RP). field. split; lra. }
  split.
  - change (Re (RtoC (RInt w 0 H))) with (RInt w 0 H). apply is_lim_spec. intros eps. apply is_lim_spec in L. destruct (L eps) as (M & HM). exists (Rmax 0 (M * (H * H))). intros T HT. pose proof (Rmax_l 0 (M * (H * H))). pose proof (Rmax_r 0 (M * (H * H))). rewrite RT by lra. apply HM.
    apply (Rmult_lt_reg_r (H * H)); [exact H2|]. replace (T / (H * H) * (H * H)) with T by (field; lra). lra.
  - change (Im (RtoC (RInt w 0 H))) with 0. apply is_lim_spec. intros [eps He]. exists 0. intros T HT. simpl. rewrite (RInt_ext _ (fun _ => 0)).
    + rewrite RInt_const. unfold scal; simpl; unfold mult; simpl. rewrite Rmult_0_r, Rminus_0_r, Rabs_R0. exact He.
    + intros x Hx. rewrite Rmin_left, Rmax_right in Hx by lra. rewrite Ef by lra. reflexivity.
Qed.
Lemma RtoC_sub t k : (RtoC t + RtoC (H * H) * (RtoC (G H) + k))%C = (RtoC (H * H) * (RtoC (G H + t / (H * H)) + k))%C.
Proof. replace t with (H * H * (t / (H * H))) at 1 by (field; lra). rewrite RtoC_mult, RtoC_plus. ring. Qed.
Lemma roots_path t : 0 <= t -> 0 < Res (G H + t / (H * H)) /\
  (s (RtoC t + RtoC (H * H) * (RtoC (G H) + k1)) * s (RtoC t + RtoC (H * H) * (RtoC (G H) + k2)) * s (RtoC t + RtoC (H * H) * (RtoC (G H) + k3)))%C = RtoC (H ^ 3 * sqrt (Res (G H + t / (H * H)))).
Proof.
  intros T. assert (0 <= t / (H * H)) by (apply Rmult_le_pos; [exact T|left; apply Rinv_0_lt_compat, Rmult_lt_0_compat; lra]). destruct (path_sqrt (G H + t / (H * H)) ltac:(lra)) as [RP E]. split; [exact RP|]. rewrite !RtoC_sub, !(sqrt_scale s Hs) by exact HH.
  set (v := (G H + t / (H * H))%R) in *. transitivity (RtoC H * RtoC H * RtoC H * (s (RtoC v + k1) * s (RtoC v + k2) * s (RtoC v + k3)))%C; [ring|]. rewrite E, <- !RtoC_mult. f_equal. ring.
Qed.
Lemma q_inv_cont h : 0 <= h <= H -> continuous (fun h => / q h) h.
Proof. intros A. apply continuity_pt_filterlim, continuity_pt_inv; [apply continuity_pt_filterlim, (q_cont p0 p1 p2 p3 p4 H Ppos h A)|]. pose proof (q_pos p0 p1 p2 p3 p4 H Ppos h A). lra. Qed.
Lemma RF_path : is_RF s (RtoC (H * H) * (RtoC (G H) + k1))%C (RtoC (H * H) * (RtoC (G H) + k2))%C (RtoC (H * H) * (RtoC (G H) + k3))%C (RtoC (RInt (fun h => / q h) 0 H / (2 * H))).
Proof.
  replace (RInt (fun h => / q h) 0 H / (2 * H)) with (RInt (fun h => / (2 * H) * / q h) 0 H).
  - apply (improper_path (fun _ => / (2 * H))).
    + intros h A. apply continuous_const.
    + intros h A. apply (continuous_mult (fun _ => / (2 * H)) (fun h => / q h)); [apply continuous_const|apply q_inv_cont, A].
    + intros h A. pose proof (q_pos p0 p1 p2 p3 p4 H Ppos h ltac:(lra)). field. lra.
    + intros t T. destruct (roots_path t T) as [RP E]. rewrite E, <- RtoC_mult. pose proof (sqrt_lt_R0 _ RP). rewrite <- RtoC_div by (apply Rgt_not_eq; apply Rmult_lt_0_compat; [lra|apply Rmult_lt_0_compat; [apply pow_lt; lra|assumption]]). f_equal. field. split; lra.
  - assert (X : ex_RInt (fun h => / q h) 0 H) by (apply (ex_RInt_continuous (fun h => / q h)); intros z Hz; rewrite Rmin_left, Rmax_right in Hz by lra; apply q_inv_cont, Hz).
    pose proof (RInt_scal (fun h => / q h) 0 H (/ (2 * H)) X) as RS. change (RInt (fun h => / (2 * H) * / q h) 0 H = / (2 * H) * RInt (fun h => / q h) 0 H) in RS. rewrite RS. unfold Rdiv. apply Rmult_comm.
Qed.
End Path.

Open Scope C_scope.
Section RootsOf.
Variable s : C -> C.
Hypothesis Hs : principal_sqrt s.
Variable H : R.
Hypothesis HH : (0 < H)%R.
(** ** Three roots *)
Section Cubic.
Variables (p0 p1 p2 : R) (r1 r2 r3 : C).
Hypothesis E1 : r1 + r2 + r3 = RtoC (- p2).
Hypothesis E2 : r1 * r2 + r1 * r3 + r2 * r3 = RtoC p1.
Hypothesis E3 : r1 * r2 * r3 = RtoC (- p0).
Notation P := (P p0 p1 p2 1 0). Notation G := (G p0 p1 p2 1 0). Notation q := (q p0 p1 p2 1 0).
Hypothesis Ppos : forall h, (0 <= h <= H)%R -> (0 < P h)%R.
Lemma cubic_P h : (RtoC h - r1) * (RtoC h - r2) * (RtoC h - r3) = RtoC (P h).
Proof.
  transitivity (RtoC h * RtoC h * RtoC h - (r1 + r2 + r3) * (RtoC h * RtoC h) + (r1 * r2 + r1 * r3 + r2 * r3) * RtoC h - r1 * r2 * r3); [ring|]. rewrite E1, E2, E3, <- !RtoC_mult, <- !RtoC_minus, <- RtoC_plus, <- RtoC_minus. f_equal. unfold AnalyticFacts.P. ring.
Qed.
Lemma cubic_outside r : r = r1 \/ r = r2 \/ r = r3 -> Im r = 0%R -> forall h, (0 < h <= H)%R -> (Re r < 0 \/ h < Re r)%R.
Proof.
  intros K I h A. destruct (Rlt_le_dec (Re r) 0) as [L|L]; [left; exact L|]. right. destruct (Rlt_le_dec h (Re r)) as [M|M]; [exact M|exfalso].
  pose proof (Ppos (Re r) ltac:(lra)) as PP. pose proof (cubic_P (Re r)) as Q. rewrite <- (real_RtoC r I) in Q. assert (Z : RtoC (P (Re r)) = 0) by (rewrite <- Q; destruct K as [->|[->| ->]]; ring). apply RtoC_inj in Z. lra.
Qed.
Lemma cubic_closed h : (0 < h <= H)%R -> closedc (ratio s h r1) (ratio s h r2) (ratio s h r3) 1.
Proof.
  intros A. assert (A0 : (0 < h)%R) by lra.
  assert (RR : forall r, r = r1 \/ r = r2 \/ r = r3 -> Im r = 0%R -> exists x, (0 < x)%R /\ ratio s h r = RtoC x).
  { intros r K I. destruct (ratio_real s Hs h (Re r) A0 (cubic_outside r K I h A)) as (x & X & E). exists x. rewrite (real_RtoC r I). split; assumption. }
  destruct (cubic_class r1 r2 r3) as [(I1 & I2 & I3)|[(I1 & I2 & EQ)|[(I2 & I1 & EQ)|(I3 & I1 & EQ)]]]; [rewrite E1; reflexivity|rewrite E2; reflexivity|rewrite E3; reflexivity| | | |].
  - destruct (RR r1 ltac:(auto) I1) as (x & X & ->). destruct (RR r2 ltac:(auto) I2) as (y & Y & ->). destruct (RR r3 ltac:(auto) I3) as (z & Z & ->). apply closed_real; try assumption. lra.
  - destruct (RR r1 ltac:(auto) I1) as (x & X & ->). rewrite EQ, (ratio_conj s Hs h r2 I2). apply closed_34, closed_23, closed_pair; [exact X|lra|apply (ratio_complex s Hs); assumption].
  - destruct (RR r2 ltac:(auto) I2) as (x & X & ->). rewrite EQ, (ratio_conj s Hs h r1 I1). apply closed_12, closed_34, closed_23, closed_pair; [exact X|lra|apply (ratio_complex s Hs); assumption].
  - destruct (RR r3 ltac:(auto) I3) as (x & X & ->). rewrite EQ, (ratio_conj s Hs h r1 I1). apply closed_23, closed_12, closed_34, closed_23. apply closed_pair; [exact X|lra|apply (ratio_complex s Hs); assumption].
Qed.
(** The product of all square roots, and the three arguments of the integral *)
Lemma cubic_prod h : (0 < h <= H)%R -> (s (- r1) * s (- r2) * s (- r3)) * (s (RtoC h - r1) * s (RtoC h - r2) * s (RtoC h - r3)) = RtoC (sqrt p0 * q h).
Proof.
  intros A. destruct (closedc_sums _ _ _ _ (cubic_closed h A)) as (_ & _ & _ & x & X & E). pose proof (cubic_P 0) as P0. assert (PZ : P 0 = p0) by (unfold AnalyticFacts.P; ring). rewrite PZ in P0. pose proof (Ppos 0 ltac:(lra)) as Pp. rewrite PZ in Pp.
  pose proof (Ppos h ltac:(lra)) as Ph. set (a := s (- r1) * s (- r2) * s (- r3)) in *. set (b := s (RtoC h - r1) * s (RtoC h - r2) * s (RtoC h - r3)) in *.
  assert (AA : a * a = RtoC p0) by (unfold a; transitivity ((s (- r1) * s (- r1)) * (s (- r2) * s (- r2)) * (s (- r3) * s (- r3))); [ring|rewrite !(CarlsonC.s_sq s Hs), <- P0; ring]).
  assert (BB : b * b = RtoC (P h)) by (unfold b; transitivity ((s (RtoC h - r1) * s (RtoC h - r1)) * (s (RtoC h - r2) * s (RtoC h - r2)) * (s (RtoC h - r3) * s (RtoC h - r3))); [ring|rewrite !(CarlsonC.s_sq s Hs), <- cubic_P; ring]).
  assert (Nz : a <> 0) by (intros Z; rewrite Z in AA; replace (RtoC 0 * RtoC 0) with (RtoC 0) in AA by ring; apply RtoC_inj in AA; lra).
  assert (N1 : s (- r1) <> 0) by (intros Z; apply Nz; unfold a; rewrite Z; ring). assert (N2 : s (- r2) <> 0) by (intros Z; apply Nz; unfold a; rewrite Z; ring). assert (N3 : s (- r3) <> 0) by (intros Z; apply Nz; unfold a; rewrite Z; ring).
  assert (BX : b = a * RtoC x) by (rewrite <- E; unfold ratio, a, b; field; repeat split; assumption).
  assert (AB : a * b = RtoC (p0 * x)) by (rewrite BX, RtoC_mult, <- AA; ring). rewrite AB. f_equal.
  assert (SQ : ((p0 * x) * (p0 * x) = p0 * P h)%R) by (apply RtoC_inj; rewrite !RtoC_mult, <- RtoC_mult, <- AB; transitivity (a * a * (b * b)); [ring|rewrite AA, BB; reflexivity]).
  assert (0 < p0 * x)%R by (apply Rmult_lt_0_compat; assumption). rewrite <- (sqrt_square (p0 * x)) by lra. rewrite SQ, sqrt_mult by lra. reflexivity.
Qed.
Lemma cubic_arg i j k h : (0 < h <= H)%R -> i + j + k = RtoC (- p2) -> i * j + i * k + j * k = RtoC p1 -> i * j * k = RtoC (- p0) ->
  (s (- i) * s (- j) * s (- k)) * (s (RtoC h - i) * s (RtoC h - j) * s (RtoC h - k)) = RtoC (sqrt p0 * q h) ->
  let u := s (- i) * s (RtoC h - j) * s (RtoC h - k) + s (RtoC h - i) * s (- j) * s (- k) in u * u = RtoC (h * h) * (RtoC (G h) + (- i)).
Proof.
  intros A F1 F2 F3 PR u. transitivity ((s (- i) * s (- i)) * (s (RtoC h - j) * s (RtoC h - j)) * (s (RtoC h - k) * s (RtoC h - k)) + (s (RtoC h - i) * s (RtoC h - i)) * (s (- j) * s (- j)) * (s (- k) * s (- k))
    + RtoC 2 * ((s (- i) * s (- j) * s (- k)) * (s (RtoC h - i) * s (RtoC h - j) * s (RtoC h - k)))).
  { unfold u. replace (RtoC 2) with (1 + 1) by (rewrite <- RtoC_plus; f_equal; ring). ring. }
  rewrite PR, !(CarlsonC.s_sq s Hs). assert (Z : (h <> 0)%R) by lra.
  assert (GE : RtoC (h * h) * RtoC (G h) = RtoC p1 * RtoC h + RtoC 2 * RtoC p0 + RtoC 2 * RtoC (sqrt p0 * q h)).
  { rewrite <- !RtoC_mult, <- !RtoC_plus. f_equal. unfold AnalyticFacts.G. field. exact Z. }
  transitivity (RtoC (h * h) * RtoC (G h) + RtoC (h * h) * (- i)); [|ring]. rewrite GE. rewrite <- F2. assert (F3' : RtoC p0 = - (i * j * k)) by (rewrite F3, RtoC_opp; ring). rewrite F3'. rewrite (RtoC_mult h h). replace (RtoC 2) with (1 + 1) by (rewrite <- RtoC_plus; f_equal; ring). ring.
Qed.
Lemma cubic_nonzero h k : (0 < h <= H)%R -> k = - r1 \/ k = - r2 \/ k = - r3 -> RtoC (G h) + k <> 0.
Proof.
  intros A K Z. destruct (closedc_sums _ _ _ _ (cubic_closed h A)) as (N12 & N13 & N14 & _). pose proof (cubic_prod h A) as PR.
  assert (P0 : (sqrt p0 * q h <> 0)%R) by (apply Rgt_not_eq, Rmult_lt_0_compat; [apply (AnalyticFacts.s_pos p0 p1 p2 1 0 H HH Ppos)|apply (q_pos p0 p1 p2 1 0 H Ppos); lra]).
  assert (NA : s (- r1) <> 0 /\ s (- r2) <> 0 /\ s (- r3) <> 0) by (repeat split; intros X; apply P0, RtoC_inj; rewrite <- PR, X; ring). destruct NA as (A1 & A2 & A3).
  assert (SQ : forall u : C, u * u = 0 -> u = 0) by (intros u U; apply C_integral in U; destruct U; assumption).
  destruct K as [->|[->| ->]].
  - pose proof (cubic_arg r1 r2 r3 h A E1 E2 E3 PR) as U. cbv zeta in U. rewrite Z, Cmult_0_r in U. apply SQ in U. apply N14. unfold ratio.
    transitivity ((s (- r1) * s (RtoC h - r2) * s (RtoC h - r3) + s (RtoC h - r1) * s (- r2) * s (- r3)) / (s (- r1) * s (- r2) * s (- r3))); [field; repeat split; assumption|rewrite U; field; repeat split; assumption].
  - pose proof (cubic_arg r2 r1 r3 h A ltac:(rewrite <- E1; ring) ltac:(rewrite <- E2; ring) ltac:(rewrite <- E3; ring) ltac:(rewrite <- PR; ring)) as U. cbv zeta in U. rewrite Z, Cmult_0_r in U. apply SQ in U. apply N13. unfold ratio.
    transitivity ((s (- r2) * s (RtoC h - r1) * s (RtoC h - r3) + s (RtoC h - r2) * s (- r1) * s (- r3)) / (s (- r1) * s (- r2) * s (- r3))); [field; repeat split; assumption|rewrite U; field; repeat split; assumption].
  - pose proof (cubic_arg r3 r1 r2 h A ltac:(rewrite <- E1; ring) ltac:(rewrite <- E2; ring) ltac:(rewrite <- E3; ring) ltac:(rewrite <- PR; ring)) as U. cbv zeta in U. rewrite Z, Cmult_0_r in U. apply SQ in U. apply N12. unfold ratio.
    transitivity ((s (- r3) * s (RtoC h - r1) * s (RtoC h - r2) + s (RtoC h - r3) * s (- r1) * s (- r2)) / (s (- r1) * s (- r2) * s (- r3))); [field; repeat split; assumption|rewrite U; field; repeat split; assumption].
Qed.
End Cubic.
(** ** Four roots *)
Section Quartic.
Variables (p0 p1 p2 p3 : R) (r1 r2 r3 r4 : C).
Hypothesis E1 : r1 + r2 + r3 + r4 = RtoC (- p3).
Hypothesis E2 : r1 * r2 + r1 * r3 + r1 * r4 + r2 * r3 + r2 * r4 + r3 * r4 = RtoC p2.
Hypothesis E3 : r1 * r2 * r3 + r1 * r2 * r4 + r1 * r3 * r4 + r2 * r3 * r4 = RtoC (- p1).
Hypothesis E4 : r1 * r2 * r3 * r4 = RtoC p0.
Notation P := (P p0 p1 p2 p3 1). Notation G := (G p0 p1 p2 p3 1). Notation q := (q p0 p1 p2 p3 1).
Hypothesis Ppos : forall h, (0 <= h <= H)%R -> (0 < P h)%R.
(** two conjugate pairs *)
Hypothesis Pairs : forall h v w, (0 < h <= H)%R -> (0 < Im v)%R -> (0 < Im w)%R -> v + Cconj v + w + Cconj w = RtoC (- p3) -> v * Cconj v + v * w + v * Cconj w + Cconj v * w + Cconj v * Cconj w + w * Cconj w = RtoC p2 -> v * Cconj v * w + v * Cconj v * Cconj w + v * w * Cconj w + Cconj v * w * Cconj w = RtoC (- p1) ->
  Re (ratio s h v * ratio s h w) <> 0%R.
Lemma quartic_P h : (RtoC h - r1) * (RtoC h - r2) * (RtoC h - r3) * (RtoC h - r4) = RtoC (P h).
Proof.
  transitivity (RtoC h * RtoC h * RtoC h * RtoC h - (r1 + r2 + r3 + r4) * (RtoC h * RtoC h * RtoC h) + (r1 * r2 + r1 * r3 + r1 * r4 + r2 * r3 + r2 * r4 + r3 * r4) * (RtoC h * RtoC h)
    - (r1 * r2 * r3 + r1 * r2 * r4 + r1 * r3 * r4 + r2 * r3 * r4) * RtoC h + r1 * r2 * r3 * r4); [ring|]. rewrite E1, E2, E3, E4, <- !RtoC_mult, <- !RtoC_minus, <- RtoC_plus, <- RtoC_minus, <- RtoC_plus. f_equal. unfold AnalyticFacts.P. ring.
Qed.
Lemma quartic_outside r : r = r1 \/ r = r2 \/ r = r3 \/ r = r4 -> Im r = 0%R -> forall h, (0 < h <= H)%R -> (Re r < 0 \/ h < Re r)%R.
Proof.
  intros K I h A. destruct (Rlt_le_dec (Re r) 0) as [L|L]; [left; exact L|]. right. destruct (Rlt_le_dec h (Re r)) as [M|M]; [exact M|exfalso].
  pose proof (Ppos (Re r) ltac:(lra)) as PP. pose proof (quartic_P (Re r)) as Q. rewrite <- (real_RtoC r I) in Q. assert (Z : RtoC (P (Re r)) = 0) by (rewrite <- Q; destruct K as [->|[->|[->| ->]]]; ring). apply RtoC_inj in Z. lra.
Qed.
(** any two pairs *)
Lemma two_pairs h v w : (0 < h <= H)%R -> Im v <> 0%R -> Im w <> 0%R -> v + Cconj v + w + Cconj w = RtoC (- p3) -> v * Cconj v + v * w + v * Cconj w + Cconj v * w + Cconj v * Cconj w + w * Cconj w = RtoC p2 -> v * Cconj v * w + v * Cconj v * Cconj w + v * w * Cconj w + Cconj v * w * Cconj w = RtoC (- p1) ->
  closedc (ratio s h v) (ratio s h (Cconj v)) (ratio s h w) (ratio s h (Cconj w)).
Proof.
  intros A V W F1 F2 F3. assert (A0 : (0 < h)%R) by lra.
  assert (Q : forall v w, (0 < Im v)%R -> (0 < Im w)%R -> v + Cconj v + w + Cconj w = RtoC (- p3) -> v * Cconj v + v * w + v * Cconj w + Cconj v * w + Cconj v * Cconj w + w * Cconj w = RtoC p2 -> v * Cconj v * w + v * Cconj v * Cconj w + v * w * Cconj w + Cconj v * w * Cconj w = RtoC (- p1) ->
    closedc (ratio s h v) (ratio s h (Cconj v)) (ratio s h w) (ratio s h (Cconj w))).
  { clear v w V W F1 F2 F3. intros v w V W F1 F2 F3. rewrite (ratio_conj s Hs h v), (ratio_conj s Hs h w) by lra. destruct (ratio_complex s Hs h v A0 ltac:(lra)) as [V1 V2]. destruct (ratio_complex s Hs h w A0 ltac:(lra)) as [W1 W2].
    assert (NZ : forall z : C, (0 < Re z)%R -> z <> 0) by (intros z Z E; rewrite E in Z; simpl in Z; lra). apply closed_pairs; [apply NZ, V1|apply NZ, W1|apply Pairs; assumption|].
    assert (0 < Im (ratio s h v))%R by (apply (Rmult_lt_reg_r (Im v)); lra). assert (0 < Im (ratio s h w))%R by (apply (Rmult_lt_reg_r (Im w)); lra). set (x := ratio s h v) in *. set (y := ratio s h w) in *.
    destruct (Cmult_real x (Cconj y)) as [-> _]. change (Re (Cconj y)) with (Re y). change (Im (Cconj y)) with (- Im y)%R. assert (0 < Re x * Re y)%R by (apply Rmult_lt_0_compat; assumption). assert (0 < Im x * Im y)%R by (apply Rmult_lt_0_compat; assumption). lra. }
  assert (IC : forall z, Im (Cconj z) = (- Im z)%R) by reflexivity.
  destruct (Rlt_le_dec 0 (Im v)) as [V1|V1]; destruct (Rlt_le_dec 0 (Im w)) as [W1|W1].
  - apply Q; assumption.
  - apply closed_34. rewrite <- (Cconj_conj w) at 2. apply Q; [assumption|rewrite IC; lra| | |]; rewrite !Cconj_conj; [rewrite <- F1|rewrite <- F2|rewrite <- F3]; ring.
  - apply closed_12. rewrite <- (Cconj_conj v) at 2. apply Q; [rewrite IC; lra|assumption| | |]; rewrite !Cconj_conj; [rewrite <- F1|rewrite <- F2|rewrite <- F3]; ring.
  - apply closed_12, closed_34. rewrite <- (Cconj_conj v) at 2. rewrite <- (Cconj_conj w) at 2. apply Q; [rewrite IC; lra|rewrite IC; lra| | |]; rewrite !Cconj_conj; [rewrite <- F1|rewrite <- F2|rewrite <- F3]; ring.
Qed.
(** one real root and three others *)
Lemma quartic_real h a b c d : (0 < h <= H)%R -> (forall r, r = a \/ r = b \/ r = c \/ r = d -> Im r = 0%R -> exists x, (0 < x)%R /\ ratio s h r = RtoC x) -> Im a = 0%R ->
  Im (b + c + d) = 0%R -> Im (b * c + b * d + c * d) = 0%R -> Im (b * c * d) = 0%R -> closedc (ratio s h a) (ratio s h b) (ratio s h c) (ratio s h d).
Proof.
  intros A RR Ia F1 F2 F3. assert (A0 : (0 < h)%R) by lra. destruct (RR a ltac:(auto) Ia) as (x & X & ->).
  destruct (cubic_class b c d F1 F2 F3) as [(I1 & I2 & I3)|[(I1 & I2 & EQ)|[(I2 & I1 & EQ)|(I3 & I1 & EQ)]]].
  - destruct (RR b ltac:(auto) I1) as (y & Y & ->). destruct (RR c ltac:(auto) I2) as (z & Z & ->). destruct (RR d ltac:(auto) I3) as (t & T & ->). apply closed_real; assumption.
  - destruct (RR b ltac:(auto) I1) as (y & Y & ->). rewrite EQ, (ratio_conj s Hs h c I2). apply closed_pair; [assumption|assumption|apply (ratio_complex s Hs); assumption].
  - destruct (RR c ltac:(auto) I2) as (y & Y & ->). rewrite EQ, (ratio_conj s Hs h b I1). apply closed_23, closed_pair; [assumption|assumption|apply (ratio_complex s Hs); assumption].
  - destruct (RR d ltac:(auto) I3) as (y & Y & ->). rewrite EQ, (ratio_conj s Hs h b I1). apply closed_34, closed_23, closed_pair; [assumption|assumption|apply (ratio_complex s Hs); assumption].
Qed.
Lemma quartic_conj : Im r1 <> 0%R -> r2 = Cconj r1 \/ r3 = Cconj r1 \/ r4 = Cconj r1.
Proof.
  intros N. assert (Poly : forall t, Cconj ((t - r1) * (t - r2) * (t - r3) * (t - r4)) = (Cconj t - r1) * (Cconj t - r2) * (Cconj t - r3) * (Cconj t - r4)).
  { assert (X : forall t, (t - r1) * (t - r2) * (t - r3) * (t - r4) = t * t * t * t - RtoC (- p3) * (t * t * t) + RtoC p2 * (t * t) - RtoC (- p1) * t + RtoC p0) by (intros t; rewrite <- E1, <- E2, <- E3, <- E4; ring).
    intros t. rewrite !X, Cconj_plus, Cconj_minus, Cconj_plus, Cconj_minus, !Cconj_mult, !Cconj_R. reflexivity. }
  pose proof (Poly r1) as Q. replace ((r1 - r1) * (r1 - r2) * (r1 - r3) * (r1 - r4)) with (RtoC 0) in Q by ring. replace (Cconj 0) with (RtoC 0) in Q by (apply injective_projections; simpl; ring). symmetry in Q.
  assert (S : Cconj r1 - r1 <> 0) by (intros E; apply N; apply (f_equal Im) in E; unfold Cminus in E; destruct r1; unfold Im in *; simpl in *; lra).
  assert (EQ : forall x y : C, x - y = 0 -> y = x) by (intros x y E; transitivity (x - (x - y)); [ring|rewrite E; ring]).
  apply C_integral in Q. destruct Q as [Q|Q]; [|right; right; apply EQ, Q]. apply C_integral in Q. destruct Q as [Q|Q]; [|right; left; apply EQ, Q]. apply C_integral in Q. destruct Q as [Q|Q]; [contradiction|left; apply EQ, Q].
Qed.
Lemma quartic_closed h : (0 < h <= H)%R -> closedc (ratio s h r1) (ratio s h r2) (ratio s h r3) (ratio s h r4).
Proof.
  intros A. assert (A0 : (0 < h)%R) by lra.
  assert (RR : forall r, r = r1 \/ r = r2 \/ r = r3 \/ r = r4 -> Im r = 0%R -> exists x, (0 < x)%R /\ ratio s h r = RtoC x).
  { intros r K I. destruct (ratio_real s Hs h (Re r) A0 (quartic_outside r K I h A)) as (x & X & E). exists x. rewrite (real_RtoC r I). split; assumption. }
  destruct (Req_dec (Im r1) 0) as [I1|I1].
  - apply quartic_real; [exact A|exact RR|exact I1| | |].
    + replace (r2 + r3 + r4) with (r1 + r2 + r3 + r4 - r1) by ring. rewrite E1, (real_RtoC r1 I1), <- RtoC_minus. reflexivity.
    + replace (r2 * r3 + r2 * r4 + r3 * r4) with ((r1 * r2 + r1 * r3 + r1 * r4 + r2 * r3 + r2 * r4 + r3 * r4) - r1 * (r1 + r2 + r3 + r4 - r1)) by ring. rewrite E1, E2, (real_RtoC r1 I1), <- !RtoC_minus, <- RtoC_mult, <- RtoC_minus. reflexivity.
    + replace (r2 * r3 * r4) with ((r1 * r2 * r3 + r1 * r2 * r4 + r1 * r3 * r4 + r2 * r3 * r4) - r1 * ((r1 * r2 + r1 * r3 + r1 * r4 + r2 * r3 + r2 * r4 + r3 * r4) - r1 * (r1 + r2 + r3 + r4 - r1))) by ring.
      rewrite E1, E2, E3, (real_RtoC r1 I1), <- !RtoC_minus, <- RtoC_mult, <- RtoC_minus, <- RtoC_mult, <- RtoC_minus. reflexivity.
  - (* a conjugate pair and a remaining pair *)
    assert (Rest : forall a b, (forall r, r = a \/ r = b -> r = r1 \/ r = r2 \/ r = r3 \/ r = r4) -> r1 + Cconj r1 + a + b = RtoC (- p3) ->
      r1 * Cconj r1 + r1 * a + r1 * b + Cconj r1 * a + Cconj r1 * b + a * b = RtoC p2 -> r1 * Cconj r1 * a + r1 * Cconj r1 * b + r1 * a * b + Cconj r1 * a * b = RtoC (- p1) ->
      closedc (ratio s h r1) (ratio s h (Cconj r1)) (ratio s h a) (ratio s h b)).
    { intros a b Sub F1 F2 F3. set (t := (r1 + Cconj r1)%C) in *. assert (T : t = RtoC (2 * Re r1)) by (unfold t; destruct r1; apply C_ext; unfold Re, Im; simpl; ring).
      assert (M : r1 * Cconj r1 = RtoC (Re r1 * Re r1 + Im r1 * Im r1)) by (destruct r1; apply C_ext; unfold Re, Im; simpl; ring).
      destruct (quadratic_class a b) as [(Ia & Ib)|(Ia & EQ)].
      - replace (a + b) with (t + a + b - t) by ring. rewrite F1, T, <- RtoC_minus. reflexivity.
      - replace (a * b) with ((r1 * Cconj r1 + r1 * a + r1 * b + Cconj r1 * a + Cconj r1 * b + a * b) - r1 * Cconj r1 - t * (t + a + b - t)) by (unfold t; ring). rewrite F2, F1, M, T, <- !RtoC_minus, <- RtoC_mult, <- RtoC_minus. reflexivity.
      - destruct (RR a (Sub a ltac:(auto)) Ia) as (x & X & ->). destruct (RR b (Sub b ltac:(auto)) Ib) as (y & Y & ->). rewrite (ratio_conj s Hs h r1 I1). apply closed_23, closed_12, closed_34, closed_23. apply closed_pair; [assumption|assumption|apply (ratio_complex s Hs); assumption].
      - subst b. apply two_pairs; assumption. }
    destruct (quartic_conj I1) as [E|[E|E]].
    + rewrite E. apply Rest; [intros r [->| ->]; auto| | |]; rewrite <- E; [exact E1|rewrite <- E2; ring|rewrite <- E3; ring].
    + rewrite E. apply closed_23. apply Rest; [intros r [->| ->]; auto| | |]; rewrite <- E; [rewrite <- E1; ring|rewrite <- E2; ring|rewrite <- E3; ring].
    + rewrite E. apply closed_34, closed_23. apply Rest; [intros r [->| ->]; auto| | |]; rewrite <- E; [rewrite <- E1; ring|rewrite <- E2; ring|rewrite <- E3; ring].
Qed.
Lemma quartic_prod h : (0 < h <= H)%R -> (s (- r1) * s (- r2) * s (- r3) * s (- r4)) * (s (RtoC h - r1) * s (RtoC h - r2) * s (RtoC h - r3) * s (RtoC h - r4)) = RtoC (sqrt p0 * q h).
Proof.
  intros A. destruct (closedc_sums _ _ _ _ (quartic_closed h A)) as (_ & _ & _ & x & X & E). pose proof (quartic_P 0) as P0. assert (PZ : P 0 = p0) by (unfold AnalyticFacts.P; ring). rewrite PZ in P0. pose proof (Ppos 0 ltac:(lra)) as Pp. rewrite PZ in Pp.
  pose proof (Ppos h ltac:(lra)) as Ph. set (a := s (- r1) * s (- r2) * s (- r3) * s (- r4)) in *. set (b := s (RtoC h - r1) * s (RtoC h - r2) * s (RtoC h - r3) * s (RtoC h - r4)) in *.
  assert (AA : a * a = RtoC p0) by (unfold a; transitivity ((s (- r1) * s (- r1)) * (s (- r2) * s (- r2)) * (s (- r3) * s (- r3)) * (s (- r4) * s (- r4))); [ring|rewrite !(CarlsonC.s_sq s Hs), <- P0; ring]).
  assert (BB : b * b = RtoC (P h)) by (unfold b; transitivity ((s (RtoC h - r1) * s (RtoC h - r1)) * (s (RtoC h - r2) * s (RtoC h - r2)) * (s (RtoC h - r3) * s (RtoC h - r3)) * (s (RtoC h - r4) * s (RtoC h - r4))); [ring|rewrite !(CarlsonC.s_sq s Hs), <- quartic_P; ring]).
  assert (Nz : a <> 0) by (intros Z; rewrite Z in AA; replace (RtoC 0 * RtoC 0) with (RtoC 0) in AA by ring; apply RtoC_inj in AA; lra).
  assert (N1 : s (- r1) <> 0) by (intros Z; apply Nz; unfold a; rewrite Z; ring). assert (N2 : s (- r2) <> 0) by (intros Z; apply Nz; unfold a; rewrite Z; ring). assert (N3 : s (- r3) <> 0) by (intros Z; apply Nz; unfold a; rewrite Z; ring). assert (N4 : s (- r4) <> 0) by (intros Z; apply Nz; unfold a; rewrite Z; ring).
  assert (BX : b = a * RtoC x) by (rewrite <- E; unfold ratio, a, b; field; repeat split; assumption).
  assert (AB : a * b = RtoC (p0 * x)) by (rewrite BX, RtoC_mult, <- AA; ring). rewrite AB. f_equal.
  assert (SQ : ((p0 * x) * (p0 * x) = p0 * P h)%R) by (apply RtoC_inj; rewrite !RtoC_mult, <- RtoC_mult, <- AB; transitivity (a * a * (b * b)); [ring|rewrite AA, BB; reflexivity]).
  assert (0 < p0 * x)%R by (apply Rmult_lt_0_compat; assumption). rewrite <- (sqrt_square (p0 * x)) by lra. rewrite SQ, sqrt_mult by lra. reflexivity.
Qed.
Lemma quartic_arg i j k l h : (0 < h <= H)%R -> i * j * k + i * j * l + i * k * l + j * k * l = RtoC (- p1) -> i * j * k * l = RtoC p0 ->
  (s (- i) * s (- j) * s (- k) * s (- l)) * (s (RtoC h - i) * s (RtoC h - j) * s (RtoC h - k) * s (RtoC h - l)) = RtoC (sqrt p0 * q h) ->
  let u := s (- i) * s (- j) * s (RtoC h - k) * s (RtoC h - l) + s (RtoC h - i) * s (RtoC h - j) * s (- k) * s (- l) in u * u = RtoC (h * h) * (RtoC (G h) + (i * j + k * l)).
Proof.
  intros A F3 F4 PR u. transitivity ((s (- i) * s (- i)) * (s (- j) * s (- j)) * (s (RtoC h - k) * s (RtoC h - k)) * (s (RtoC h - l) * s (RtoC h - l)) + (s (RtoC h - i) * s (RtoC h - i)) * (s (RtoC h - j) * s (RtoC h - j)) * (s (- k) * s (- k)) * (s (- l) * s (- l))
    + RtoC 2 * ((s (- i) * s (- j) * s (- k) * s (- l)) * (s (RtoC h - i) * s (RtoC h - j) * s (RtoC h - k) * s (RtoC h - l)))).
  { unfold u. replace (RtoC 2) with (1 + 1) by (rewrite <- RtoC_plus; f_equal; ring). ring. }
  rewrite PR, !(CarlsonC.s_sq s Hs). assert (Z : (h <> 0)%R) by lra.
  assert (GE : RtoC (h * h) * RtoC (G h) = RtoC p1 * RtoC h + RtoC 2 * RtoC p0 + RtoC 2 * RtoC (sqrt p0 * q h)).
  { rewrite <- !RtoC_mult, <- !RtoC_plus. f_equal. unfold AnalyticFacts.G. field. exact Z. }
  transitivity (RtoC (h * h) * RtoC (G h) + RtoC (h * h) * (i * j + k * l)); [|ring]. rewrite GE. rewrite <- F4. assert (F3' : RtoC p1 = - (i * j * k + i * j * l + i * k * l + j * k * l)) by (rewrite F3, RtoC_opp; ring). rewrite F3'. rewrite (RtoC_mult h h). replace (RtoC 2) with (1 + 1) by (rewrite <- RtoC_plus; f_equal; ring). ring.
Qed.
Lemma quartic_nonzero h k : (0 < h <= H)%R -> k = r1 * r2 + r3 * r4 \/ k = r1 * r3 + r2 * r4 \/ k = r1 * r4 + r2 * r3 -> RtoC (G h) + k <> 0.
Proof.
  intros A K Z. destruct (closedc_sums _ _ _ _ (quartic_closed h A)) as (N12 & N13 & N14 & _). pose proof (quartic_prod h A) as PR.
  assert (P0 : (sqrt p0 * q h <> 0)%R) by (apply Rgt_not_eq, Rmult_lt_0_compat; [apply (AnalyticFacts.s_pos p0 p1 p2 p3 1 H HH Ppos)|apply (q_pos p0 p1 p2 p3 1 H Ppos); lra]).
  assert (NA : s (- r1) <> 0 /\ s (- r2) <> 0 /\ s (- r3) <> 0 /\ s (- r4) <> 0) by (repeat split; intros X; apply P0, RtoC_inj; rewrite <- PR, X; ring). destruct NA as (A1 & A2 & A3 & A4).
  assert (SQ : forall u : C, u * u = 0 -> u = 0) by (intros u U; apply C_integral in U; destruct U; assumption).
  destruct K as [->|[->| ->]].
  - pose proof (quartic_arg r1 r2 r3 r4 h A E3 E4 PR) as U. cbv zeta in U. rewrite Z, Cmult_0_r in U. apply SQ in U. apply N12. unfold ratio.
    transitivity ((s (- r1) * s (- r2) * s (RtoC h - r3) * s (RtoC h - r4) + s (RtoC h - r1) * s (RtoC h - r2) * s (- r3) * s (- r4)) / (s (- r1) * s (- r2) * s (- r3) * s (- r4))); [field; repeat split; assumption|rewrite U; field; repeat split; assumption].
  - pose proof (quartic_arg r1 r3 r2 r4 h A ltac:(rewrite <- E3; ring) ltac:(rewrite <- E4; ring) ltac:(rewrite <- PR; ring)) as U. cbv zeta in U. rewrite Z, Cmult_0_r in U. apply SQ in U. apply N13. unfold ratio.
    transitivity ((s (- r1) * s (- r3) * s (RtoC h - r2) * s (RtoC h - r4) + s (RtoC h - r1) * s (RtoC h - r3) * s (- r2) * s (- r4)) / (s (- r1) * s (- r2) * s (- r3) * s (- r4))); [field; repeat split; assumption|rewrite U; field; repeat split; assumption].
  - pose proof (quartic_arg r1 r4 r2 r3 h A ltac:(rewrite <- E3; ring) ltac:(rewrite <- E4; ring) ltac:(rewrite <- PR; ring)) as U. cbv zeta in U. rewrite Z, Cmult_0_r in U. apply SQ in U. apply N14. unfold ratio.
    transitivity ((s (- r1) * s (- r4) * s (RtoC h - r2) * s (RtoC h - r3) + s (RtoC h - r1) * s (RtoC h - r4) * s (- r2) * s (- r3)) / (s (- r1) * s (- r2) * s (- r3) * s (- r4))); [field; repeat split; assumption|rewrite U; field; repeat split; assumption].
Qed.
End Quartic.
End RootsOf.

(** Two conjugate pairs of roots of X^4 + a X^3 + b X^2 + l with a >= 0, seen from X1 >= 0 *)
Lemma pairs_fine s (Hs : principal_sqrt s) a b X1 h v w : (0 <= a)%R -> (0 <= X1)%R -> (0 < h)%R -> (0 < Im v)%R -> (0 < Im w)%R ->
  v + Cconj v + w + Cconj w = RtoC (- (4 * X1 + a)) ->
  v * Cconj v + v * w + v * Cconj w + Cconj v * w + Cconj v * Cconj w + w * Cconj w = RtoC (6 * X1 ^ 2 + 3 * a * X1 + b) ->
  v * Cconj v * w + v * Cconj v * Cconj w + v * w * Cconj w + Cconj v * w * Cconj w = RtoC (- (4 * X1 ^ 3 + 3 * a * X1 ^ 2 + 2 * b * X1)) ->
  Re (ratio s h v * ratio s h w) <> 0%R.
Proof.
  intros Ha HX Hh Hv Hw F1 F2 F3 Z. assert (Nv : v <> 0) by (intros E; rewrite E in Hv; simpl in Hv; lra). assert (Nw : w <> 0) by (intros E; rewrite E in Hw; simpl in Hw; lra).
  set (c := ratio s h v * ratio s h w) in *. assert (CC : c * c * (v * w) = (RtoC h - v) * (RtoC h - w)).
  { transitivity ((ratio s h v * ratio s h v) * (ratio s h w * ratio s h w) * (v * w)); [unfold c; ring|]. rewrite !(ratio_sq s Hs) by assumption. fld. }
  assert (C2 : c * c = RtoC (- (Im c * Im c))) by (destruct c as [x y]; unfold Re, Im in *; simpl in *; subst x; apply C_ext; unfold Re, Im; simpl; ring). rewrite C2 in CC. set (k2 := (Im c * Im c)%R) in *.
  assert (K2 : (0 <= k2)%R) by (unfold k2; nra). clearbody k2. clear C2 Z c.
  destruct v as [v1 v2], w as [w1 w2]. unfold Im in Hv, Hw. simpl in Hv, Hw.
  assert (G1 : (2 * (v1 + w1) = - (4 * X1 + a))%R) by (apply (f_equal fst) in F1; simpl in F1; lra).
  assert (G2 : ((v1 * v1 + v2 * v2) + (w1 * w1 + w2 * w2) + 4 * (v1 * w1) = 6 * X1 ^ 2 + 3 * a * X1 + b)%R) by (apply (f_equal fst) in F2; simpl in F2; simpl; lra).
  assert (G3 : (2 * ((v1 * v1 + v2 * v2) * w1 + (w1 * w1 + w2 * w2) * v1) = - (4 * X1 ^ 3 + 3 * a * X1 ^ 2 + 2 * b * X1))%R) by (apply (f_equal fst) in F3; simpl in F3; simpl; lra).
  assert (D1 : (- k2 * (v1 * w1 - v2 * w2) = (h - v1) * (h - w1) - v2 * w2)%R) by (apply (f_equal fst) in CC; simpl in CC; lra).
  assert (D2 : (- k2 * (v1 * w2 + v2 * w1) = - (h - v1) * w2 - v2 * (h - w1))%R) by (apply (f_equal snd) in CC; simpl in CC; lra). clear F1 F2 F3 CC Nv Nw.
  (* the roots in X *)
  set (V := (v1 + X1)%R). set (W := (w1 + X1)%R). set (sg := (V + W)%R). set (ta := (v2 + w2)%R). set (m := (V * W - v2 * w2)%R). set (n := (V * w2 + v2 * W)%R). set (x := (X1 + h)%R).
  assert (Sg : (sg = - a / 2)%R) by (unfold sg, V, W; lra). assert (Ta : (0 < ta)%R) by (unfold ta; lra).
  assert (SN : (sg * m + ta * n = 0)%R).
  { assert (B : (b = (v1 * v1 + v2 * v2) + (w1 * w1 + w2 * w2) + 4 * (v1 * w1) - 6 * X1 ^ 2 - 3 * a * X1)%R) by lra. assert (Aa : (a = - 2 * (v1 + w1) - 4 * X1)%R) by lra. rewrite B, Aa in G3. unfold sg, ta, m, n, V, W. ring_simplify. ring_simplify in G3. lra. }
  assert (A1 : (x * x - sg * x + m = - k2 * (X1 * X1 - sg * X1 + m))%R) by (unfold x, sg, m, V, W; lra).
  assert (B1 : (- ta * x + n = - k2 * (- ta * X1 + n))%R) by (unfold x, ta, n, V, W; lra).
  assert (XS : (sg * x <= 0 /\ sg * X1 <= 0 /\ 0 <= x * X1 /\ 0 < x)%R) by (rewrite Sg; unfold x; repeat split; nra).
  destruct XS as (XS1 & XS2 & XX & XP).
  (* the cross product *)
  assert (CR : ((x - X1) * (ta * x * X1 - ta * m - n * (x + X1) + n * sg) = 0)%R).
  { transitivity ((- ta * x + n) * (X1 * X1 - sg * X1 + m) - (x * x - sg * x + m) * (- ta * X1 + n))%R; [ring|]. rewrite A1, B1. ring. }
  apply Rmult_integral in CR. destruct CR as [CR|CR]; [unfold x in CR; lra|].
  assert (CR2 : (ta * ta * (x * X1) = m * (ta * ta + sg * sg - sg * (x + X1)))%R).
  { assert (E : (ta * (ta * x * X1 - ta * m - n * (x + X1) + n * sg) = 0)%R) by (rewrite CR; ring). replace (ta * (ta * x * X1 - ta * m - n * (x + X1) + n * sg))%R with (ta * ta * (x * X1) - ta * ta * m - (ta * n) * (x + X1 - sg))%R in E by ring. replace (ta * n)%R with (- (sg * m))%R in E by lra. lra. }
  assert (BR : (0 < ta * ta + sg * sg - sg * (x + X1))%R) by nra.
  destruct (Rlt_le_dec 0 m) as [M|M].
  - assert (0 < x * x - sg * x + m)%R by nra. assert (0 <= X1 * X1 - sg * X1 + m)%R by nra. nra.
  - assert (0 <= ta * ta * (x * X1))%R by nra. assert (M0 : m = 0%R) by nra. assert (N0 : n = 0%R) by (rewrite M0 in SN; assert (E : (ta * n = 0)%R) by lra; apply Rmult_integral in E; destruct E; [lra|assumption]).
    (* V W = 0, impossible *)
    unfold m in M0. unfold n in N0. assert (E : ((V * V + v2 * v2) * (W * W + w2 * w2) = 0)%R) by (transitivity ((V * W - v2 * w2) * (V * W - v2 * w2) + (V * w2 + v2 * W) * (V * w2 + v2 * W))%R; [ring|rewrite M0, N0; ring]).
    apply Rmult_integral in E. destruct E as [E|E]; nra.
Qed.
