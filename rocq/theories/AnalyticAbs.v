(** Analysis behind the analytic absorption distance: complex functions of a real variable, Carlson's substitution for R_D. *)
From Coq Require Import Reals Ranalysis5 Lra Psatz.
From Coquelicot Require Import Rcomplements Rbar Lim_seq Hierarchy Continuity Derive RInt RInt_analysis ElemFct AutoDerive Complex.
From Verif Require Import Roots RootsC RootsPrincipal CarlsonSpec CarlsonC AnalyticFacts AnalyticC.
Open Scope R_scope.
Ltac eqR := match goal with |- ?a = ?b => change (@eq R a b) end; cbv beta.

(** ** Derivative of a complex function of a real variable *)
Definition is_dC (f : R -> C) (h : R) (l : C) : Prop := is_derive (fun x => Re (f x)) h (Re l) /\ is_derive (fun x => Im (f x)) h (Im l).
Lemma dC_ext_l f h l l' : is_dC f h l -> l = l' -> is_dC f h l'. Proof. intros A <-. exact A. Qed.
Lemma dC_const (c : C) h : is_dC (fun _ => c) h (RtoC 0).
Proof. split; [apply (is_derive_const (Re c) h)|apply (is_derive_const (Im c) h)]. Qed.
Lemma dC_real (f : R -> R) h l : is_derive f h l -> is_dC (fun x => RtoC (f x)) h (RtoC l).
Proof. intros A. split; [exact A|apply (is_derive_const 0 h)]. Qed.
Lemma dC_plus f g h a b : is_dC f h a -> is_dC g h b -> is_dC (fun x => f x + g x)%C h (a + b)%C.
Proof. intros [A1 A2] [B1 B2]. split; [exact (is_derive_plus _ _ _ _ _ A1 B1)|exact (is_derive_plus _ _ _ _ _ A2 B2)]. Qed.
Lemma dC_mult f g h a b : is_dC f h a -> is_dC g h b -> is_dC (fun x => f x * g x)%C h (a * g h + f h * b)%C.
Proof.
  intros [A1 A2] [B1 B2]. split.
  - pose proof (is_derive_minus _ _ _ _ _ (is_derive_mult _ _ _ _ _ A1 B1 Rmult_comm) (is_derive_mult _ _ _ _ _ A2 B2 Rmult_comm)) as D. evar_last; [exact D|]. unfold Re, Im. simpl. unfold minus, plus, opp, mult; simpl. ring.
  - pose proof (is_derive_plus _ _ _ _ _ (is_derive_mult _ _ _ _ _ A1 B2 Rmult_comm) (is_derive_mult _ _ _ _ _ A2 B1 Rmult_comm)) as D. evar_last; [exact D|]. unfold Re, Im. simpl. unfold plus, mult; simpl. ring.
Qed.
Lemma norm_pos (z : C) : z <> RtoC 0 -> 0 < Re z * Re z + Im z * Im z.
Proof.
  intros N. destruct (Req_dec (Re z) 0) as [E|E]; [|nra]. destruct (Req_dec (Im z) 0) as [E'|E']; [|nra]. exfalso. apply N. apply C_ext; assumption.
Qed.
Lemma dC_inv f h a : is_dC f h a -> f h <> RtoC 0 -> is_dC (fun x => / f x)%C h (- (a / (f h * f h)))%C.
Proof.
  intros [A1 A2] N. pose proof (norm_pos _ N) as NP. set (n := fun x => Re (f x) * Re (f x) + Im (f x) * Im (f x)).
  assert (Dn : is_derive n h (2 * (Re (f h) * Re a + Im (f h) * Im a))).
  { unfold n. evar_last; [exact (is_derive_plus _ _ _ _ _ (is_derive_mult _ _ _ _ _ A1 A1 Rmult_comm) (is_derive_mult _ _ _ _ _ A2 A2 Rmult_comm))|]. unfold plus, mult; simpl. ring. }
  assert (N0 : n h <> 0) by (unfold n; lra).
  assert (Rf : forall z : C, Re (/ z)%C = Re z / (Re z * Re z + Im z * Im z)) by (intros [x y]; unfold Re, Im; simpl; f_equal; ring).
  assert (If : forall z : C, Im (/ z)%C = - Im z / (Re z * Re z + Im z * Im z)) by (intros [x y]; unfold Re, Im; simpl; f_equal; ring).
  assert (NN : (f h * f h)%C <> RtoC 0) by (intros E; apply C_integral in E; destruct E; contradiction).
  assert (V : (- (a / (f h * f h)))%C = ((Re a * n h - Re (f h) * (2 * (Re (f h) * Re a + Im (f h) * Im a))) / (n h * n h), (- Im a * n h + Im (f h) * (2 * (Re (f h) * Re a + Im (f h) * Im a))) / (n h * n h))).
  { unfold n in *. clear - NP. destruct (f h) as [x y], a as [u v]. unfold Re, Im in *. simpl in NP. cbn [fst snd].
    assert (Nz : (x, y) <> RtoC 0) by (intros E; injection E as -> ->; lra).
    transitivity (((u * (x * x + y * y) - x * (2 * (x * u + y * v))) / ((x * x + y * y) * (x * x + y * y)), (- v * (x * x + y * y) + y * (2 * (x * u + y * v))) / ((x * x + y * y) * (x * x + y * y)))%R * ((x, y) * (x, y)) / ((x, y) * (x, y)))%C.
    - transitivity (- (u, v) / ((x, y) * (x, y)))%C; [field; exact Nz|]. unfold Cdiv. f_equal. apply injective_projections; simpl; field; lra.
    - field. exact Nz. }
  assert (VR := f_equal Re V). assert (VI := f_equal Im V). unfold Re at 2 in VR. unfold Im at 2 in VI. cbn [fst snd] in VR, VI. unfold is_dC. rewrite VR, VI. clear V VR VI. split.
  - apply (is_derive_ext (fun x => Re (f x) / n x)); [intros t; symmetry; apply Rf|]. evar_last; [exact (is_derive_div _ _ _ _ _ A1 Dn N0)|]. match goal with |- ?a = ?b => change (@eq R a b) end. cbv beta. field. exact N0.
  - apply (is_derive_ext (fun x => - Im (f x) / n x)); [intros t; symmetry; apply If|]. evar_last; [exact (is_derive_div _ _ _ _ _ (is_derive_opp _ _ _ A2) Dn N0)|]. match goal with |- ?a = ?b => change (@eq R a b) end. cbv beta. unfold opp; simpl. field. exact N0.
Qed.
Lemma dC_continuous f h a : is_dC f h a -> continuous (fun x => Re (f x)) h /\ continuous (fun x => Im (f x)) h.
Proof. intros [A B]. split; apply (ex_derive_continuous (V := R_NormedModule)); eexists; eassumption. Qed.

(** ** Integral of a complex function of a real variable *)
Section Integral.
Variable H : R.
Hypothesis HH : 0 < H.
Definition IC (f : R -> C) : C := (RInt (fun h => Re (f h)) 0 H, RInt (fun h => Im (f h)) 0 H).
Definition cC (f : R -> C) : Prop := forall h, 0 <= h <= H -> continuous (fun x => Re (f x)) h /\ continuous (fun x => Im (f x)) h.
Lemma cont_int (f : R -> R) : (forall h, 0 <= h <= H -> continuous f h) -> ex_RInt f 0 H.
Proof. intros A. apply (ex_RInt_continuous f). intros z Hz. rewrite Rmin_left, Rmax_right in Hz by lra. apply A, Hz. Qed.
Lemma cC_re f : cC f -> ex_RInt (fun h => Re (f h)) 0 H. Proof. intros A. apply cont_int. intros h Hh. exact (proj1 (A h Hh)). Qed.
Lemma cC_im f : cC f -> ex_RInt (fun h => Im (f h)) 0 H. Proof. intros A. apply cont_int. intros h Hh. exact (proj2 (A h Hh)). Qed.
Lemma cC_dC f : (forall h, 0 <= h <= H -> exists l, is_dC f h l) -> cC f.
Proof. intros A h Hh. destruct (A h Hh) as [l L]. exact (dC_continuous f h l L). Qed.
Lemma IC_ftc F f : cC f -> (forall h, 0 <= h <= H -> is_dC F h (f h)) -> IC f = (F H - F 0)%C.
Proof.
  intros Cf D. assert (B : forall x, Rmin 0 H <= x <= Rmax 0 H -> 0 <= x <= H) by (intros x; rewrite Rmin_left, Rmax_right by lra; tauto).
  apply C_ext.
  - apply is_RInt_unique. apply (is_RInt_derive (V := R_CompleteNormedModule) (fun x => Re (F x)) (fun x => Re (f x))); intros x Hx; [apply (D x (B x Hx))|apply (Cf x (B x Hx))].
  - apply is_RInt_unique. apply (is_RInt_derive (V := R_CompleteNormedModule) (fun x => Im (F x)) (fun x => Im (f x))); intros x Hx; [apply (D x (B x Hx))|apply (Cf x (B x Hx))].
Qed.
Lemma RInt_lin (f g : R -> R) a b : ex_RInt f 0 H -> ex_RInt g 0 H -> RInt (fun h => a * f h + b * g h) 0 H = a * RInt f 0 H + b * RInt g 0 H.
Proof.
  intros F G. apply is_RInt_unique. apply (is_RInt_plus (V := R_NormedModule) (fun h => a * f h) (fun h => b * g h) 0 H (a * RInt f 0 H) (b * RInt g 0 H)).
  - apply (is_RInt_scal (V := R_NormedModule) f 0 H a (RInt f 0 H)). apply (RInt_correct f), F.
  - apply (is_RInt_scal (V := R_NormedModule) g 0 H b (RInt g 0 H)). apply (RInt_correct g), G.
Qed.
Lemma IC_lin f g (a b : C) : cC f -> cC g -> IC (fun h => a * f h + b * g h)%C = (a * IC f + b * IC g)%C.
Proof.
  intros F G. pose proof (cC_re f F) as F1. pose proof (cC_im f F) as F2. pose proof (cC_re g G) as G1. pose proof (cC_im g G) as G2.
  assert (L4 : forall x y z t u v w k, ex_RInt x 0 H -> ex_RInt y 0 H -> ex_RInt z 0 H -> ex_RInt t 0 H ->
    RInt (fun h => (u * x h + v * y h) + (w * z h + k * t h)) 0 H = (u * RInt x 0 H + v * RInt y 0 H) + (w * RInt z 0 H + k * RInt t 0 H)).
  { intros x y z t u v w k X Y Z T. pose proof (RInt_lin x y u v X Y) as A. pose proof (RInt_lin z t w k Z T) as B. rewrite <- A, <- B.
    assert (XX : forall (x y : R -> R) u v, ex_RInt x 0 H -> ex_RInt y 0 H -> ex_RInt (fun h => u * x h + v * y h) 0 H) by (intros x' y' u' v' X' Y'; apply (ex_RInt_plus (V := R_NormedModule) (fun h => u' * x' h) (fun h => v' * y' h)); [apply (ex_RInt_scal (V := R_NormedModule) x'), X'|apply (ex_RInt_scal (V := R_NormedModule) y'), Y']).
    pose proof (RInt_lin (fun h => u * x h + v * y h) (fun h => w * z h + k * t h) 1 1 (XX _ _ _ _ X Y) (XX _ _ _ _ Z T)) as Q. rewrite !Rmult_1_l in Q. rewrite <- Q. apply RInt_ext. intros h _. eqR. ring. }
  apply C_ext.
  - transitivity (RInt (fun h => (Re a * Re (f h) + (- Im a) * Im (f h)) + (Re b * Re (g h) + (- Im b) * Im (g h))) 0 H); [apply RInt_ext; intros h _; eqR; unfold Re, Im; simpl; ring|]. rewrite (L4 (fun h => Re (f h)) (fun h => Im (f h)) (fun h => Re (g h)) (fun h => Im (g h))) by assumption. unfold IC, Re, Im. simpl. ring.
  - transitivity (RInt (fun h => (Re a * Im (f h) + Im a * Re (f h)) + (Re b * Im (g h) + Im b * Re (g h))) 0 H); [apply RInt_ext; intros h _; eqR; unfold Re, Im; simpl; ring|]. rewrite (L4 (fun h => Im (f h)) (fun h => Re (f h)) (fun h => Im (g h)) (fun h => Re (g h))) by assumption. unfold IC, Re, Im. simpl. ring.
Qed.
Lemma IC_real f : IC (fun h => RtoC (f h)) = RtoC (RInt f 0 H).
Proof. apply C_ext; [reflexivity|]. change (RInt (fun _ => 0) 0 H = 0). rewrite RInt_const. apply Rmult_0_r. Qed.
Lemma IC_ext f g : (forall h, 0 < h < H -> f h = g h) -> IC f = IC g.
Proof. intros A. apply C_ext; apply RInt_ext; intros h Hh; rewrite Rmin_left, Rmax_right in Hh by lra; rewrite A by lra; reflexivity. Qed.
End Integral.

Section Absorption.
Variable s : C -> C.
Hypothesis Hs : principal_sqrt s.
Variables (p0 p1 p2 H : R) (o1 o2 o3 : C).
Notation P := (P p0 p1 p2 1 0). Notation G := (G p0 p1 p2 1 0). Notation q := (q p0 p1 p2 1 0). Notation dP := (dP p1 p2 1 0). Notation Res := (Res p0 p1 p2 1 0).
Hypothesis HH : 0 < H.
Hypothesis Ppos : forall h, 0 <= h <= H -> 0 < P h.
Open Scope C_scope.
Hypothesis E1 : o1 + o2 + o3 = RtoC (- p2).
Hypothesis E2 : o1 * o2 + o1 * o3 + o2 * o3 = RtoC p1.
Hypothesis E3 : o1 * o2 * o3 = RtoC (- p0).
Lemma Qpos h (A : (0 <= h <= H)%R) : (0 < q h)%R. Proof. exact (sqrt_lt_R0 _ (Ppos h A)). Qed.
Lemma Qsq h (A : (0 <= h <= H)%R) : (q h * q h = P h)%R. Proof. exact (sqrt_sqrt _ (Rlt_le _ _ (Ppos h A))). Qed.
Lemma P0a : P 0 = p0. Proof. unfold AnalyticFacts.P. ring. Qed.
Lemma p0p : (0 < p0)%R. Proof. rewrite <- P0a. apply Ppos. lra. Qed.
Lemma q0 : q 0 = sqrt p0. Proof. unfold AnalyticFacts.q. rewrite P0a. reflexivity. Qed.
(** ** The antiderivative *)
Lemma Im_sub h o : Im (RtoC h - o) = (- Im o)%R. Proof. unfold Cminus. simpl. unfold Im. ring. Qed.
Lemma Re_sub h o : Re (RtoC h - o) = (h - Re o)%R. Proof. unfold Cminus. simpl. unfold Re. ring. Qed.
Definition w1 : C := s (- o1) * s (RtoC H - o2) * s (RtoC H - o3) + s (RtoC H - o1) * s (- o2) * s (- o3).
Definition e1 : C := - o1.
Definition B (h : R) : C := RtoC h - o1.
Definition c12 : C := (o2 - o1) * (o3 - o1).
Definition Dh (h : R) : C := e1 * RtoC (q h) + B h * RtoC (sqrt p0).
Definition N1 (h : R) : C := e1 * ((RtoC h - o2) * (RtoC h - o3)) + B h * (o2 * o3) + RtoC (2 * sqrt p0 * q h).
Lemma e1_nz : e1 <> 0.
Proof. intros Z. assert (W : RtoC (- p0) = 0) by (rewrite <- E3; replace o1 with (- e1) by (unfold e1; ring); rewrite Z; ring). apply RtoC_inj in W. pose proof p0p. lra. Qed.
Lemma B_nz h : (0 <= h <= H)%R -> B h <> 0.
Proof. intros A Z. pose proof (cubic_P p0 p1 p2 o1 o2 o3 E1 E2 E3 h) as Q. fold (B h) in Q. rewrite Z in Q. assert (W : RtoC (P h) = 0) by (rewrite <- Q; ring). apply RtoC_inj in W. pose proof (Ppos h A). lra. Qed.
Lemma BQ h : (0 <= h <= H)%R -> RtoC (q h) * RtoC (q h) = B h * ((RtoC h - o2) * (RtoC h - o3)).
Proof. intros A. rewrite <- RtoC_mult, Qsq by exact A. rewrite <- (cubic_P p0 p1 p2 o1 o2 o3 E1 E2 E3 h). unfold B. ring. Qed.
Lemma EQ0 : RtoC (sqrt p0) * RtoC (sqrt p0) = e1 * (o2 * o3).
Proof. rewrite <- RtoC_mult, sqrt_sqrt by (pose proof p0p; lra). assert (W : RtoC p0 = - (o1 * o2 * o3)) by (rewrite E3, RtoC_opp; ring). rewrite W. unfold e1. ring. Qed.
Lemma RtoC2 : RtoC 2 = 1 + 1. Proof. rewrite <- RtoC_plus. f_equal; ring. Qed.
Lemma N1_D h : (0 <= h <= H)%R -> N1 h * (e1 * B h) = Dh h * Dh h.
Proof.
  intros A. transitivity (e1 * e1 * (RtoC (q h) * RtoC (q h)) + B h * B h * (RtoC (sqrt p0) * RtoC (sqrt p0)) + RtoC (2 * sqrt p0 * q h) * (e1 * B h)).
  - rewrite (BQ h A), EQ0. unfold N1. ring.
  - rewrite !RtoC_mult, RtoC2. unfold Dh. ring.
Qed.
Lemma N1_G h : (0 < h)%R -> N1 h = RtoC (h * h) * (RtoC (G h) - o1).
Proof.
  intros A. assert (GE : RtoC (h * h) * RtoC (G h) = RtoC p1 * RtoC h + RtoC 2 * RtoC p0 + RtoC 2 * RtoC (sqrt p0 * q h)) by (rewrite <- !RtoC_mult, <- !RtoC_plus; f_equal; unfold AnalyticFacts.G; field; lra).
  transitivity (RtoC (h * h) * RtoC (G h) - RtoC (h * h) * o1); [|ring]. rewrite GE. assert (W : RtoC p0 = - (o1 * o2 * o3)) by (rewrite E3, RtoC_opp; ring). rewrite <- E2, W. unfold N1, e1, B. rewrite !RtoC_mult, RtoC2. ring.
Qed.
Lemma N1_nz h : (0 <= h <= H)%R -> N1 h <> 0.
Proof.
  intros A. destruct (Req_dec h 0) as [->|NZ].
  - assert (W : N1 0 = RtoC (4 * p0)). { assert (W : RtoC p0 = - (o1 * o2 * o3)) by (rewrite E3, RtoC_opp; ring). unfold N1, e1, B. rewrite q0. replace (2 * sqrt p0 * sqrt p0)%R with (2 * p0)%R by (rewrite Rmult_assoc, sqrt_sqrt; [reflexivity|pose proof p0p; lra]). replace (4 * p0)%R with (p0 + p0 + 2 * p0)%R by ring. rewrite !RtoC_plus, W. ring. }
    rewrite W. intros Z. apply RtoC_inj in Z. pose proof p0p. lra.
  - rewrite N1_G by lra. intros Z. apply C_integral in Z. destruct Z as [Z|Z]; [apply RtoC_inj in Z; nra|]. apply (cubic_nonzero s Hs H HH p0 p1 p2 o1 o2 o3 E1 E2 E3 Ppos h (- o1) ltac:(lra) ltac:(auto)). rewrite <- Z. ring.
Qed.
Lemma D_nz h : (0 <= h <= H)%R -> Dh h <> 0.
Proof.
  intros A Z. pose proof (N1_D h ltac:(lra)) as Q. rewrite Z, Cmult_0_r in Q. apply C_integral in Q. destruct Q as [Q|Q]; [exact (N1_nz h A Q)|]. apply C_integral in Q. destruct Q as [Q|Q]; [exact (e1_nz Q)|]. exact (B_nz h ltac:(lra) Q).
Qed.
Definition wn (h : R) : C := RtoC (h ^ 2) * (/ RtoC (q h) * / N1 h).
Definition Ah (h : R) : C := RtoC (2 * h) * (e1 * B h * / Dh h).
Lemma dq h : (0 <= h <= H)%R -> is_derive q h (dP h / (2 * q h))%R.
Proof. exact (q_derive p0 p1 p2 1 0 H Ppos h). Qed.
Lemma dB h : is_dC B h 1.
Proof.
  unfold B. apply (dC_ext_l _ _ (RtoC 1 + 0)); [|ring]. apply (dC_plus (fun h => RtoC h) (fun _ => - o1)); [|apply dC_const]. apply (dC_real (fun h => h) h 1). apply (is_derive_id h).
Qed.
Lemma dD h : (0 <= h <= H)%R -> is_dC Dh h (e1 * RtoC (dP h / (2 * q h)) + RtoC (sqrt p0)).
Proof.
  intros A. unfold Dh. apply dC_plus.
  - eapply dC_ext_l; [apply (dC_mult (fun _ => e1) (fun h => RtoC (q h))); [apply dC_const|apply dC_real, dq, A]|]. cbv beta. ring.
  - eapply dC_ext_l; [apply (dC_mult B (fun _ => RtoC (sqrt p0))); [apply dB|apply dC_const]|]. cbv beta. ring.
Qed.
Lemma dPe h : RtoC (dP h) = (RtoC h - o2) * (RtoC h - o3) + B h * ((RtoC h - o2) + (RtoC h - o3)).
Proof.
  assert (W : RtoC p2 = - (o1 + o2 + o3)) by (rewrite E1, RtoC_opp; ring). unfold B. transitivity (RtoC p1 + RtoC 2 * RtoC p2 * RtoC h + RtoC 3 * RtoC h * RtoC h).
  - rewrite <- !RtoC_mult, <- !RtoC_plus. f_equal. unfold AnalyticFacts.dP. ring.
  - rewrite <- E2, W. replace (RtoC 3) with (1 + 1 + 1) by (rewrite <- !RtoC_plus; f_equal; ring). rewrite RtoC2. ring.
Qed.
Lemma dA h : (0 <= h <= H)%R -> is_dC Ah h (B h * / RtoC (q h) - c12 * wn h).
Proof.
  intros A. assert (Qn : RtoC (q h) <> 0) by (intros Z; apply RtoC_inj in Z; pose proof (Qpos h ltac:(lra)); lra). pose proof (D_nz h A) as Dn. pose proof (N1_nz h A) as Nn. pose proof e1_nz as En. pose proof (B_nz h ltac:(lra)) as Bn.
  assert (N2 : RtoC 2 <> 0) by (intros Z; apply RtoC_inj in Z; lra).
  unfold Ah. eapply dC_ext_l.
  { apply (dC_mult (fun h => RtoC (2 * h)) (fun h => e1 * B h * / Dh h) h (RtoC 2)); [apply (dC_real (fun h => 2 * h)%R h 2); auto_derive; [exact I|ring]|].
    apply (dC_mult (fun h => e1 * B h) (fun h => / Dh h) h e1); [|apply dC_inv; [apply dD, A|exact Dn]].
    eapply dC_ext_l; [apply (dC_mult (fun _ => e1) B); [apply dC_const|apply dB]|]. cbv beta. ring. }
  cbv beta. unfold wn. replace (/ N1 h) with (e1 * B h / (Dh h * Dh h)) by (rewrite <- (N1_D h ltac:(lra)); field; repeat split; assumption).
  rewrite RtoC_div by (pose proof (Qpos h ltac:(lra)); lra). rewrite !RtoC_mult. replace (h ^ 2)%R with (h * h)%R by ring. rewrite RtoC_mult.
  assert (Bh : RtoC h = B h - e1) by (unfold B, e1; ring).
  assert (K : RtoC 2 * (e1 * (B h + RtoC h) * Dh h * RtoC (q h)) - RtoC h * e1 * B h * (e1 * RtoC (dP h) + RtoC 2 * RtoC (sqrt p0) * RtoC (q h)) = B h * (Dh h * Dh h) - c12 * (RtoC h * RtoC h) * (e1 * B h)).
  { transitivity (RtoC 2 * (e1 * e1 * (B h + RtoC h)) * (RtoC (q h) * RtoC (q h)) + RtoC 2 * (e1 * (B h + RtoC h) * B h - RtoC h * e1 * B h) * (RtoC (sqrt p0) * RtoC (q h)) - RtoC h * e1 * B h * e1 * RtoC (dP h)); [unfold Dh; ring|].
    transitivity (B h * (e1 * e1 * (RtoC (q h) * RtoC (q h)) + B h * B h * (RtoC (sqrt p0) * RtoC (sqrt p0)) + RtoC 2 * (e1 * B h * (RtoC (sqrt p0) * RtoC (q h)))) - c12 * (RtoC h * RtoC h) * (e1 * B h)); [|unfold Dh; rewrite RtoC2; ring].
    rewrite (BQ h ltac:(lra)), EQ0, dPe, RtoC2. unfold c12. set (sq := RtoC (sqrt p0) * RtoC (q h)). unfold B, e1. ring. }
  transitivity ((RtoC 2 * (e1 * (B h + RtoC h) * Dh h * RtoC (q h)) - RtoC h * e1 * B h * (e1 * RtoC (dP h) + RtoC 2 * RtoC (sqrt p0) * RtoC (q h))) / (RtoC (q h) * (Dh h * Dh h))).
  - field. repeat split; assumption.
  - rewrite K. field. repeat split; assumption.
Qed.
Lemma wn_dC h : (0 <= h <= H)%R -> exists l, is_dC wn h l.
Proof.
  intros A. assert (Qn : RtoC (q h) <> 0) by (intros Z; apply RtoC_inj in Z; pose proof (Qpos h ltac:(lra)); lra). pose proof (N1_nz h A) as Nn.
  assert (Dl : forall o, is_dC (fun h => RtoC h - o) h 1) by (intros o; apply (dC_ext_l _ _ (RtoC 1 + 0)); [|ring]; apply (dC_plus (fun h => RtoC h) (fun _ => - o)); [apply (dC_real (fun h => h) h 1), (is_derive_id h)|apply dC_const]).
  eexists. unfold wn. apply (dC_mult (fun h => RtoC (h ^ 2)) (fun h => / RtoC (q h) * / N1 h)); [apply (dC_real (fun h => h ^ 2)%R h (2 * h)%R); auto_derive; [exact I|ring]|].
  apply (dC_mult (fun h => / RtoC (q h)) (fun h => / N1 h)); [apply (dC_inv (fun h => RtoC (q h))); [apply dC_real, dq, A|exact Qn]|]. apply (dC_inv N1); [|exact Nn]. unfold N1.
  apply (dC_plus (fun h => e1 * ((RtoC h - o2) * (RtoC h - o3)) + B h * (o2 * o3)) (fun h => RtoC (2 * sqrt p0 * q h))).
  - apply (dC_plus (fun h => e1 * ((RtoC h - o2) * (RtoC h - o3))) (fun h => B h * (o2 * o3))).
    + apply (dC_mult (fun _ => e1) (fun h => (RtoC h - o2) * (RtoC h - o3))); [apply dC_const|]. apply (dC_mult (fun h => RtoC h - o2) (fun h => RtoC h - o3)); apply Dl.
    + apply (dC_mult B (fun _ => o2 * o3)); [apply dB|apply dC_const].
  - apply (dC_real (fun h => 2 * sqrt p0 * q h)%R). apply (is_derive_scal q h (2 * sqrt p0)%R). apply dq, A.
Qed.
Lemma iq_cont h : (0 <= h <= H)%R -> continuous (fun h => / q h)%R h.
Proof. exact (q_inv_cont p0 p1 p2 1 0 H Ppos h). Qed.
Definition I0 : R := RInt (fun h => / q h)%R 0 H.
Definition I1 : R := RInt (fun h => h / q h)%R 0 H.
Lemma hq_cont h : (0 <= h <= H)%R -> continuous (fun h => h / q h)%R h.
Proof. intros A. apply (continuous_mult (fun h => h) (fun h => / q h)%R); [apply continuous_id|apply iq_cont, A]. Qed.
Lemma cC_of (f : R -> R) : (forall h, (0 <= h <= H)%R -> continuous f h) -> cC H (fun h => RtoC (f h)).
Proof. intros A h Hh. split; [apply A, Hh|apply (continuous_const 0)]. Qed.
Lemma integral_A : RtoC (2 * H) * (e1 * B H * / Dh H) = RtoC I1 + e1 * RtoC I0 - c12 * IC H wn.
Proof.
  assert (Cw : cC H wn) by (apply cC_dC, wn_dC). assert (C1 : cC H (fun h => RtoC (h / q h)%R)) by (apply cC_of, hq_cont). assert (C0 : cC H (fun h => RtoC (/ q h)%R)) by (apply cC_of, iq_cont).
  assert (CB : cC H (fun h => 1 * RtoC (h / q h)%R + e1 * RtoC (/ q h)%R)).
  { apply cC_dC. intros h A. pose proof (Qpos h ltac:(lra)) as Qp. eexists. apply (dC_plus (fun h => 1 * RtoC (h / q h)%R) (fun h => e1 * RtoC (/ q h)%R)).
    - apply (dC_mult (fun _ => RtoC 1) (fun h => RtoC (h / q h)%R)); [apply dC_const|]. apply (dC_real (fun h => h / q h)%R). apply (is_derive_div (fun h => h) q); [apply (is_derive_id h)|apply dq, A|lra].
    - apply (dC_mult (fun _ => e1) (fun h => RtoC (/ q h)%R)); [apply dC_const|]. apply (dC_real (fun h => / q h)%R). apply (is_derive_inv q); [apply dq, A|lra]. }
  transitivity (Ah H - Ah 0); [unfold Ah; rewrite Rmult_0_r; ring|].
  assert (EE : forall h, (0 <= h <= H)%R -> B h * / RtoC (q h) - c12 * wn h = 1 * (1 * RtoC (h / q h)%R + e1 * RtoC (/ q h)%R) + - c12 * wn h).
  { intros h A. pose proof (Qpos h ltac:(lra)) as Qp. rewrite RtoC_div, RtoC_inv by lra. unfold B, e1. field. intros Z; apply RtoC_inj in Z; lra. }
  rewrite <- (IC_ftc H HH Ah (fun h => 1 * (1 * RtoC (h / q h)%R + e1 * RtoC (/ q h)%R) + - c12 * wn h)).
  - rewrite (IC_lin H HH (fun h => 1 * RtoC (h / q h)%R + e1 * RtoC (/ q h)%R) wn 1 (- c12) CB Cw), (IC_lin H HH (fun h => RtoC (h / q h)%R) (fun h => RtoC (/ q h)%R) 1 e1 C1 C0), !IC_real. unfold I1, I0. ring.
  - intros h A. destruct (CB h A) as [X1 X2]. destruct (Cw h A) as [Y1 Y2]. split.
    + apply (continuous_ext (fun h => (Re (1 * RtoC (h / q h)%R + e1 * RtoC (/ q h)%R)%C + ((- Re c12) * Re (wn h) + Im c12 * Im (wn h))))%R); [intros x; eqR; unfold Re, Im; simpl; ring|].
      apply (continuous_plus (V := R_NormedModule) (fun h => Re (1 * RtoC (h / q h)%R + e1 * RtoC (/ q h)%R)%C) (fun h => (- Re c12) * Re (wn h) + Im c12 * Im (wn h))%R); [exact X1|]. apply (continuous_plus (V := R_NormedModule) (fun h => (- Re c12) * Re (wn h))%R (fun h => Im c12 * Im (wn h))%R).
      * apply (continuous_scal_r (V := R_NormedModule) (- Re c12)%R (fun h => Re (wn h))). exact Y1.
      * apply (continuous_scal_r (V := R_NormedModule) (Im c12) (fun h => Im (wn h))). exact Y2.
    + apply (continuous_ext (fun h => (Im (1 * RtoC (h / q h)%R + e1 * RtoC (/ q h)%R)%C + ((- Re c12) * Im (wn h) + (- Im c12) * Re (wn h))))%R); [intros x; eqR; unfold Re, Im; simpl; ring|].
      apply (continuous_plus (V := R_NormedModule) (fun h => Im (1 * RtoC (h / q h)%R + e1 * RtoC (/ q h)%R)%C) (fun h => (- Re c12) * Im (wn h) + (- Im c12) * Re (wn h))%R); [exact X2|]. apply (continuous_plus (V := R_NormedModule) (fun h => (- Re c12) * Im (wn h))%R (fun h => (- Im c12) * Re (wn h))%R).
      * apply (continuous_scal_r (V := R_NormedModule) (- Re c12)%R (fun h => Im (wn h))). exact Y2.
      * apply (continuous_scal_r (V := R_NormedModule) (- Im c12)%R (fun h => Re (wn h))). exact Y1.
  - intros h A. rewrite <- (EE h A). apply dA, A.
Qed.
(** ** R_D *)
Definition gD (v : R) : C := RtoC (3 / (2 * H ^ 3)) * / (RtoC v - o1).
Definition u_ (o : C) : C := RtoC (H * H) * (RtoC (G H) + - o).
Lemma RD_path : is_RJ s (u_ o2) (u_ o3) (u_ o1) (u_ o1) (RtoC (3 / (2 * H ^ 3)) * IC H wn).
Proof.
  assert (K1 : - o2 + - o3 + - o1 = RtoC p2) by (assert (W : RtoC p2 = - (o1 + o2 + o3)) by (rewrite E1, RtoC_opp; ring); rewrite W; ring).
  assert (K2 : - o2 * - o3 + - o2 * - o1 + - o3 * - o1 = RtoC (p1 * 1 - 4 * p0 * 0)) by (replace (p1 * 1 - 4 * p0 * 0)%R with p1 by ring; rewrite <- E2; ring).
  assert (K3 : - o2 * - o3 * - o1 = RtoC (p1 ^ 2 * 0 + 1 ^ 2 * p0 - 4 * p0 * p2 * 0)) by (replace (p1 ^ 2 * 0 + 1 ^ 2 * p0 - 4 * p0 * p2 * 0)%R with p0 by ring; assert (W : RtoC p0 = - (o1 * o2 * o3)) by (rewrite E3, RtoC_opp; ring); rewrite W; ring).
  assert (NV : forall h k, (0 < h <= H)%R -> k = - o2 \/ k = - o3 \/ k = - o1 -> RtoC (G h) + k <> RtoC 0) by (intros h k A K; apply (cubic_nonzero s Hs H HH p0 p1 p2 o1 o2 o3 E1 E2 E3 Ppos h k A); tauto).
  assert (Vnz : forall h, (0 < h <= H)%R -> RtoC (G h) - o1 <> 0) by (intros h A Z; apply (NV h (- o1) A ltac:(auto)); rewrite <- Z; ring).
  assert (Cg : forall h, (0 < h <= H)%R -> continuous (fun v => Re (gD v)) (G h) /\ continuous (fun v => Im (gD v)) (G h)).
  { intros h A. eapply (dC_continuous gD). unfold gD. apply (dC_mult (fun _ => RtoC (3 / (2 * H ^ 3))) (fun v => / (RtoC v - o1))); [apply dC_const|]. apply (dC_inv (fun v => RtoC v - o1) (G h) (RtoC 1 + 0)); [|apply Vnz, A].
    apply (dC_plus (fun h => RtoC h) (fun _ => - o1)); [apply (dC_real (fun h => h) (G h) 1), (is_derive_id (G h))|apply dC_const]. }
  set (c3 := (3 / (2 * H ^ 3))%R). assert (H3 : (0 < H ^ 3)%R) by (apply pow_lt; lra). assert (H2 : (0 < H * H)%R) by nra.
  assert (Ew : forall h, (0 < h <= H)%R -> RtoC (q h) * (RtoC c3 * wn h) = gD (G h)).
  { intros h A. pose proof (Qpos h ltac:(lra)) as Qp. assert (Qn : RtoC (q h) <> 0) by (intros Z; apply RtoC_inj in Z; lra). assert (Hn : RtoC (h * h) <> 0) by (intros Z; apply RtoC_inj in Z; nra). unfold wn, gD. fold c3. rewrite N1_G by lra. replace (h ^ 2)%R with (h * h)%R by ring. pose proof (Vnz h A). field. repeat split; assumption. }
  pose proof (cC_dC H wn wn_dC) as Cw.
  set (f0 := fun t => RtoC 3 / (RtoC 2 * (s (RtoC t + u_ o2) * s (RtoC t + u_ o3) * s (RtoC t + u_ o1) * (RtoC t + u_ o1)))).
  assert (Ef : forall t, (0 <= t)%R -> let v := (G H + t / (H * H))%R in let Z := sqrt (Res v) in (0 < Z)%R /\ f0 t = RtoC (/ (H * H * Z)) * gD v).
  { intros t T v Z. destruct (roots_path s Hs p0 p1 p2 1 0 H HH Ppos (- o2) (- o3) (- o1) K1 K2 K3 NV t T) as [RP E]. fold v in RP, E. fold Z in E. pose proof (sqrt_lt_R0 _ RP) as SP. fold Z in SP. split; [exact SP|].
    unfold f0, u_. rewrite E. assert (TP : RtoC t + RtoC (H * H) * (RtoC (G H) + - o1) = RtoC (H * H) * (RtoC v - o1)). { unfold v. replace t with (H * H * (t / (H * H)))%R at 1 by (field; lra). rewrite RtoC_plus, (RtoC_mult (H * H)). ring. } rewrite TP.
    assert (Vn : RtoC v - o1 <> 0).
    { intros Q. assert (W := Q). apply (f_equal Im) in Q. rewrite Im_sub in Q. assert (I : Im o1 = 0%R) by (simpl in Q; lra). pose proof (path_pos p0 p1 p2 1 0 H HH Ppos (- o2) (- o3) (- o1) NV H (- o1) ltac:(lra) ltac:(auto) ltac:(rewrite Im_opp; lra)) as PP. rewrite Re_opp in PP. apply (f_equal Re) in W. rewrite Re_sub in W. change (Re 0) with 0%R in W. assert (0 <= t / (H * H))%R by (apply Rmult_le_pos; [exact T|left; apply Rinv_0_lt_compat; lra]). unfold v in W. lra. }
    unfold gD. rewrite RtoC_inv by (apply Rgt_not_eq; apply Rmult_lt_0_compat; lra). rewrite RtoC_div by lra. rewrite !RtoC_mult.
    assert (Hc : RtoC H <> 0) by (intros Q; apply RtoC_inj in Q; lra). assert (Hz : RtoC Z <> 0) by (intros Q; apply RtoC_inj in Q; lra). assert (H3c : RtoC (H ^ 3) <> 0) by (intros Q; apply RtoC_inj in Q; lra). assert (Z2 : RtoC 2 <> 0) by (intros Q; apply RtoC_inj in Q; lra). field. repeat split; assumption. }
  assert (IR : IC H (fun h => RtoC c3 * wn h) = RtoC c3 * IC H wn). { transitivity (IC H (fun h => RtoC c3 * wn h + 0 * wn h)); [apply (IC_ext H HH); intros h _; ring|]. rewrite (IC_lin H HH wn wn (RtoC c3) 0 Cw Cw). ring. }
  fold c3. rewrite <- IR. change (improper f0 (IC H (fun h => RtoC c3 * wn h))).
  assert (Sre : forall (x : R) (z : C), Re (RtoC x * z) = (x * Re z)%R) by (intros x z; unfold Re; simpl; ring). assert (Sim : forall (x : R) (z : C), Im (RtoC x * z) = (x * Im z)%R) by (intros x z; unfold Im; simpl; ring).
  assert (IPR : improper (fun t => RtoC (Re (f0 t))) (RtoC (RInt (fun h => Re (RtoC c3 * wn h)) 0 H))).
  { apply (improper_path s Hs p0 p1 p2 1 0 H HH Ppos (- o2) (- o3) (- o1) K1 K2 K3 NV (fun v => Re (gD v))).
    - intros h A. exact (proj1 (Cg h A)).
    - intros h A. apply (continuous_ext (fun h => c3 * Re (wn h))%R); [intros x; symmetry; apply Sre|]. apply (continuous_scal_r (V := R_NormedModule) c3 (fun h => Re (wn h))). exact (proj1 (Cw h A)).
    - intros h A. rewrite <- (Ew h A), (Sre (q h)). ring.
    - intros t T. destruct (Ef t T) as [ZP E]. f_equal. rewrite E, Sre. unfold Rdiv. ring. }
  assert (IPI : improper (fun t => RtoC (Im (f0 t))) (RtoC (RInt (fun h => Im (RtoC c3 * wn h)) 0 H))).
  { apply (improper_path s Hs p0 p1 p2 1 0 H HH Ppos (- o2) (- o3) (- o1) K1 K2 K3 NV (fun v => Im (gD v))).
    - intros h A. exact (proj2 (Cg h A)).
    - intros h A. apply (continuous_ext (fun h => c3 * Im (wn h))%R); [intros x; symmetry; apply Sim|]. apply (continuous_scal_r (V := R_NormedModule) c3 (fun h => Im (wn h))). exact (proj2 (Cw h A)).
    - intros h A. rewrite <- (Ew h A), (Sim (q h)). ring.
    - intros t T. destruct (Ef t T) as [ZP E]. f_equal. rewrite E, Sim. unfold Rdiv. ring. }
  split; [exact (proj1 IPR)|exact (proj1 IPI)].
Qed.
(** ** What the absorption distance needs: the sign of the product of the roots, and the last term *)
Definition signed (sg : R) : Prop := s (- o1) * s (- o2) * s (- o3) = RtoC (sg * sqrt p0) /\ s (RtoC H - o1) * s (RtoC H - o2) * s (RtoC H - o3) = RtoC (sg * q H) /\
  s (- o1) * s (RtoC H - o1) / s (w1 * w1) = e1 * B H * / Dh H.
Section NoBounce.
Hypothesis Pall : forall h, (0 <= h)%R -> (0 < P h)%R.
(** The real roots are negative *)
Lemma root_neg o : o = o1 \/ o = o2 \/ o = o3 -> Im o = 0%R -> (Re o < 0)%R.
Proof.
  intros K I. destruct (Rlt_le_dec (Re o) 0) as [L|L]; [exact L|exfalso]. pose proof (Pall (Re o) L) as PP. pose proof (cubic_P p0 p1 p2 o1 o2 o3 E1 E2 E3 (Re o)) as Q. rewrite <- (real_RtoC o I) in Q.
  assert (Z : RtoC (P (Re o)) = 0) by (rewrite <- Q; destruct K as [->|[->| ->]]; ring). apply RtoC_inj in Z. lra.
Qed.
(** The product of the three principal roots is the positive root *)
Lemma prod_q h : (0 <= h)%R -> s (RtoC h - o1) * s (RtoC h - o2) * s (RtoC h - o3) = RtoC (q h).
Proof.
  intros A. assert (T : forall o, o = o1 \/ o = o2 \/ o = o3 -> (Im (RtoC h - o)%C = 0 -> 0 < Re (RtoC h - o)%C)%R).
  { intros o K. rewrite Im_sub, Re_sub. intros I. pose proof (root_neg o K ltac:(lra)). lra. }
  apply (prod_sqrt s Hs _ _ _ (P h)).
  - replace (RtoC h - o1 + (RtoC h - o2) + (RtoC h - o3)) with (RtoC h + RtoC h + RtoC h - (o1 + o2 + o3)) by ring. rewrite E1, <- !RtoC_plus, <- RtoC_minus. reflexivity.
  - replace ((RtoC h - o1) * (RtoC h - o2) + (RtoC h - o1) * (RtoC h - o3) + (RtoC h - o2) * (RtoC h - o3)) with (RtoC h * RtoC h + RtoC h * RtoC h + RtoC h * RtoC h - (RtoC h + RtoC h) * (o1 + o2 + o3) + (o1 * o2 + o1 * o3 + o2 * o3)) by ring.
    rewrite E1, E2, <- !RtoC_mult, <- !RtoC_plus, <- RtoC_mult, <- RtoC_minus, <- RtoC_plus. reflexivity.
  - apply (cubic_P p0 p1 p2 o1 o2 o3 E1 E2 E3).
  - apply T. auto.
  - apply T. auto.
  - apply T. auto.
Qed.
Lemma prod_0 : s (- o1) * s (- o2) * s (- o3) = RtoC (sqrt p0).
Proof. rewrite <- q0, <- (prod_q 0%R (Rle_refl 0)). replace (RtoC 0 - o1) with (- o1) by ring. replace (RtoC 0 - o2) with (- o2) by ring. replace (RtoC 0 - o3) with (- o3) by ring. reflexivity. Qed.
(** The first argument of the integrals is the square of a number in the right half-plane *)
Lemma same_side a b : Im a <> 0%R -> Im b = Im a -> (0 < Re (s a * Cconj (s b))%C)%R.
Proof.
  intros Na E. assert (Nb : Im b <> 0%R) by (rewrite E; exact Na). destruct (sqrt_re_im s Hs a Na) as [A1 A2]. destruct (sqrt_re_im s Hs b Nb) as [B1 B2].
  destruct (s a) as [x y], (s b) as [u v]. unfold Re, Im in *. simpl in *. assert (0 < x * u)%R by (apply Rmult_lt_0_compat; assumption).
  assert (Q : (0 <= (x * u) * (y * v))%R) by (replace ((x * u) * (y * v))%R with ((x * y) * (u * v))%R by ring; replace (u * v)%R with (x * y)%R by lra; nra). assert (0 <= y * v)%R by nra. lra.
Qed.
Lemma w1_pos : (0 < Re w1)%R.
Proof.
  assert (RP : forall o, o = o1 \/ o = o2 \/ o = o3 -> Im o = 0%R -> forall h, (0 <= h)%R -> exists x, (0 < x)%R /\ s (RtoC h - o) = RtoC x).
  { intros o K I h A. pose proof (root_neg o K I) as N. exists (sqrt (h - Re o)). split; [apply sqrt_lt_R0; lra|]. rewrite (real_RtoC o I) at 1. rewrite <- RtoC_minus. apply (sqrt_pos_real s Hs). lra. }
  assert (M0 : forall o : C, - o = RtoC 0 - o) by (intros o; ring).
  assert (PR : forall a b : R, (0 < a -> 0 < b -> 0 < a * b)%R) by (intros a b; apply Rmult_lt_0_compat).
  assert (NP : forall z : C, Im z <> 0%R -> exists m, (0 < m)%R /\ s z * s (Cconj z) = RtoC m).
  { intros z N. exists (Re (s z) * Re (s z) + Im (s z) * Im (s z))%R. destruct (sqrt_re_im s Hs z N) as [A _]. split; [nra|]. rewrite (sqrt_conj s Hs z N). destruct (s z). apply C_ext; unfold Re, Im; simpl; ring. }
  assert (CJ : forall h o, RtoC h - Cconj o = Cconj (RtoC h - o)) by (intros h o; rewrite Cconj_minus, Cconj_R; reflexivity).
  unfold w1. rewrite !M0.
  destruct (cubic_class o1 o2 o3) as [(I1 & I2 & I3)|[(I1 & I2 & EQ)|[(I2 & I1 & EQ)|(I3 & I1 & EQ)]]]; [rewrite E1; reflexivity|rewrite E2; reflexivity|rewrite E3; reflexivity| | | |].
  - destruct (RP o1 ltac:(auto) I1 0%R ltac:(lra)) as (a1 & A1 & ->). destruct (RP o2 ltac:(auto) I2 0%R ltac:(lra)) as (a2 & A2 & ->). destruct (RP o3 ltac:(auto) I3 0%R ltac:(lra)) as (a3 & A3 & ->).
    destruct (RP o1 ltac:(auto) I1 H ltac:(lra)) as (b1 & B1 & ->). destruct (RP o2 ltac:(auto) I2 H ltac:(lra)) as (b2 & B2 & ->). destruct (RP o3 ltac:(auto) I3 H ltac:(lra)) as (b3 & B3 & ->).
    rewrite <- !RtoC_mult, <- RtoC_plus. change (0 < a1 * b2 * b3 + b1 * a2 * a3)%R. apply Rplus_lt_0_compat; auto.
  - destruct (RP o1 ltac:(auto) I1 0%R ltac:(lra)) as (a1 & A1 & ->). destruct (RP o1 ltac:(auto) I1 H ltac:(lra)) as (b1 & B1 & ->). rewrite EQ, !CJ, <- !Cmult_assoc.
    destruct (NP (RtoC H - o2)) as (m & M & ->); [rewrite Im_sub; lra|]. destruct (NP (RtoC 0 - o2)) as (k & K & ->); [rewrite Im_sub; lra|]. rewrite <- !RtoC_mult, <- RtoC_plus. change (0 < a1 * m + b1 * k)%R. apply Rplus_lt_0_compat; auto.
  - destruct (RP o2 ltac:(auto) I2 0%R ltac:(lra)) as (a2 & A2 & ->). destruct (RP o2 ltac:(auto) I2 H ltac:(lra)) as (b2 & B2 & ->). rewrite EQ, !CJ.
    rewrite !(sqrt_conj s Hs) by (rewrite Im_sub; lra). pose proof (same_side (RtoC 0 - o1) (RtoC H - o1) ltac:(rewrite Im_sub; lra) ltac:(rewrite !Im_sub; reflexivity)) as SS.
    set (al := s (RtoC 0 - o1)) in *. set (be := s (RtoC H - o1)) in *. assert (X : Re (al * RtoC b2 * Cconj be + be * RtoC a2 * Cconj al) = (Re (al * Cconj be)%C * (a2 + b2))%R) by (destruct al, be; unfold Re; simpl; ring). rewrite X. apply PR; lra.
  - destruct (RP o3 ltac:(auto) I3 0%R ltac:(lra)) as (a2 & A2 & ->). destruct (RP o3 ltac:(auto) I3 H ltac:(lra)) as (b2 & B2 & ->). rewrite EQ, !CJ.
    rewrite !(sqrt_conj s Hs) by (rewrite Im_sub; lra). pose proof (same_side (RtoC 0 - o1) (RtoC H - o1) ltac:(rewrite Im_sub; lra) ltac:(rewrite !Im_sub; reflexivity)) as SS.
    set (al := s (RtoC 0 - o1)) in *. set (be := s (RtoC H - o1)) in *. assert (X : Re (al * Cconj be * RtoC b2 + be * Cconj al * RtoC a2) = (Re (al * Cconj be)%C * (a2 + b2))%R) by (destruct al, be; unfold Re; simpl; ring). rewrite X. apply PR; lra.
Qed.
Lemma w1_sqrt : s (w1 * w1) = w1.
Proof. apply (sqrt_unique s Hs); [reflexivity|]. left. exact w1_pos. Qed.
Lemma no_bounce : signed 1.
Proof.
  pose proof (prod_q H ltac:(lra)) as Q1. pose proof prod_0 as Q0. split; [rewrite Rmult_1_l; exact Q0|]. split; [rewrite Rmult_1_l; exact Q1|]. rewrite w1_sqrt. unfold w1.
  pose proof (D_nz H ltac:(lra)) as Dn. pose proof (CarlsonC.s_sq s Hs (- o1)) as A1. pose proof (CarlsonC.s_sq s Hs (RtoC H - o1)) as A2.
  unfold Dh, e1, B in Dn |- *. rewrite <- Q1, <- Q0 in Dn |- *. set (a1 := s (- o1)) in *. set (a2 := s (- o2)) in *. set (a3 := s (- o3)) in *. set (b1 := s (RtoC H - o1)) in *. set (b2 := s (RtoC H - o2)) in *. set (b3 := s (RtoC H - o3)) in *. clearbody a1 a2 a3 b1 b2 b3. rewrite <- A1, <- A2 in Dn |- *.
  assert (Dn' : a1 * b1 * (a1 * b2 * b3 + b1 * a2 * a3) <> 0) by (intros Z; apply Dn; rewrite <- Z; ring). replace (a1 * a1 * (b1 * b2 * b3) + b1 * b1 * (a1 * a2 * a3)) with (a1 * b1 * (a1 * b2 * b3 + b1 * a2 * a3)) by ring.
  assert (NA : a1 <> 0) by (intros Z; apply Dn'; rewrite Z; ring). assert (NB : b1 <> 0) by (intros Z; apply Dn'; rewrite Z; ring). assert (NC : a1 * b2 * b3 + b1 * a2 * a3 <> 0) by (intros Z; apply Dn'; rewrite Z; ring). field. repeat split; assumption.
Qed.
End NoBounce.
Section Bounce.
Variable t0 : R.
Hypothesis T0 : (H < t0)%R.
Hypothesis Pt0 : (P t0 <= 0)%R.
Lemma P_cont h : continuity_pt P h.
Proof. apply continuity_pt_filterlim, (ex_derive_continuous P). eexists. apply P_derive. Qed.
Lemma root_above : exists z, (H < z)%R /\ (o1 = RtoC z \/ o2 = RtoC z \/ o3 = RtoC z).
Proof.
  destruct (f_interv_is_interv (fun t => - P t)%R H t0 0 T0) as (z & Z1 & Z2); [pose proof (Ppos H ltac:(lra)); cbv beta; lra|intros c _; apply continuity_pt_opp, P_cont|]. cbv beta in Z2.
  exists z. split; [destruct (Req_dec z H) as [->|N]; [pose proof (Ppos H ltac:(lra)); lra|lra]|]. pose proof (cubic_P p0 p1 p2 o1 o2 o3 E1 E2 E3 z) as Q. replace (P z) with 0%R in Q by lra.
  assert (EQ : forall x y : C, x - y = 0 -> y = x) by (intros x y E; transitivity (x - (x - y)); [ring|rewrite E; ring]).
  apply C_integral in Q. destruct Q as [Q|Q]; [apply C_integral in Q; destruct Q as [Q|Q]|]; apply EQ in Q; auto.
Qed.
(** All roots are real: two above the range, one below. *)
Lemma bounce_roots : exists a b c, o1 = RtoC a /\ o2 = RtoC b /\ o3 = RtoC c /\ ((a < 0 /\ H < b /\ H < c) \/ (H < a /\ b < 0 /\ H < c) \/ (H < a /\ H < b /\ c < 0))%R.
Proof.
  pose proof (cubic_P p0 p1 p2 o1 o2 o3 E1 E2 E3 0) as PZ. pose proof (Ppos 0 ltac:(lra)) as PP. destruct root_above as (z & Zz & K).
  assert (NOP : forall x w : C, x = RtoC z -> (RtoC 0 - x) * ((RtoC 0 - w) * (RtoC 0 - Cconj w)) = RtoC (P 0) -> False).
  { intros x w -> E. assert (M : (RtoC 0 - w) * (RtoC 0 - Cconj w) = RtoC (Re w * Re w + Im w * Im w)) by (destruct w; apply C_ext; unfold Re, Im; simpl; ring). rewrite M, <- RtoC_minus, <- RtoC_mult in E. apply RtoC_inj in E. assert (0 <= Re w * Re w + Im w * Im w)%R by nra. nra. }
  assert (RZ : forall y : C, Im y <> 0%R -> y = RtoC z -> False) by (intros y N ->; apply N; reflexivity).
  assert (CZ : forall y : C, Im y <> 0%R -> Cconj y = RtoC z -> False) by (intros y N E; apply N; apply (f_equal Im) in E; simpl in E; unfold Im; lra).
  destruct (cubic_class o1 o2 o3) as [(I1 & I2 & I3)|[(I1 & I2 & EQ)|[(I2 & I1 & EQ)|(I3 & I1 & EQ)]]]; [rewrite E1; reflexivity|rewrite E2; reflexivity|rewrite E3; reflexivity| | | |].
  - exists (Re o1), (Re o2), (Re o3). rewrite <- !real_RtoC by assumption. split; [reflexivity|]. split; [reflexivity|]. split; [reflexivity|].
    pose proof (cubic_outside H p0 p1 p2 o1 o2 o3 E1 E2 E3 Ppos) as OUT. pose proof (OUT o1 ltac:(auto) I1 H ltac:(lra)) as O1. pose proof (OUT o2 ltac:(auto) I2 H ltac:(lra)) as O2. pose proof (OUT o3 ltac:(auto) I3 H ltac:(lra)) as O3.
    rewrite (real_RtoC o1 I1), (real_RtoC o2 I2), (real_RtoC o3 I3), <- !RtoC_minus, <- !RtoC_mult in PZ. apply RtoC_inj in PZ.
    assert (KK : (Re o1 = z \/ Re o2 = z \/ Re o3 = z)%R) by (destruct K as [->|[->| ->]]; auto). set (x := Re o1) in *. set (y := Re o2) in *. set (v := Re o3) in *. clearbody x y v.
    assert (PS : (0 < (- x) * (- y) * (- v))%R) by (replace ((- x) * (- y) * (- v))%R with ((0 - x) * (0 - y) * (0 - v))%R by ring; rewrite PZ; exact PP). assert (SG3 : forall a b c, (0 < a -> 0 < b -> 0 < c -> 0 < a * b * c)%R) by (intros a b c A Bb Cc; apply Rmult_lt_0_compat; [apply Rmult_lt_0_compat; assumption|assumption]).
    destruct O1 as [O1|O1], O2 as [O2|O2], O3 as [O3|O3]; try (left; lra); try (right; left; lra); try (right; right; lra); exfalso; destruct KK as [KK|[KK|KK]]; try lra;
    first [pose proof (SG3 x y v ltac:(lra) ltac:(lra) ltac:(lra)); lra|pose proof (SG3 x (- y) (- v) ltac:(lra) ltac:(lra) ltac:(lra))%R; lra|pose proof (SG3 (- x) y (- v) ltac:(lra) ltac:(lra) ltac:(lra))%R; lra|pose proof (SG3 (- x) (- y) v ltac:(lra) ltac:(lra) ltac:(lra))%R; lra].
  - exfalso. rewrite EQ in *. destruct K as [K|[K|K]]; [|exact (RZ _ I2 K)|exact (CZ _ I2 K)]. apply (NOP o1 o2 K). rewrite <- PZ. ring.
  - exfalso. rewrite EQ in *. destruct K as [K|[K|K]]; [exact (RZ _ I1 K)| |exact (CZ _ I1 K)]. apply (NOP o2 o1 K). rewrite <- PZ. ring.
  - exfalso. rewrite EQ in *. destruct K as [K|[K|K]]; [exact (RZ _ I1 K)|exact (CZ _ I1 K)|]. apply (NOP o3 o1 K). rewrite <- PZ. ring.
Qed.
Lemma bounce : signed (-1).
Proof.
  destruct bounce_roots as (a & b & c & A & Bb & Cc & K). pose proof (Qpos H ltac:(lra)) as QP.
  set (m := fun x h => sqrt (Rabs (h - x))). assert (MP : forall x h, (0 <= h <= H)%R -> (x < 0 \/ H < x)%R -> (0 < m x h)%R) by (intros x h Hh O; unfold m; apply sqrt_lt_R0, Rabs_pos_lt; lra).
  assert (M2 : forall x h, (m x h * m x h = Rabs (h - x))%R) by (intros x h; apply sqrt_sqrt, Rabs_pos).
  assert (LO : forall x h, (0 <= h <= H)%R -> (x < 0)%R -> s (RtoC h - RtoC x) = RtoC (m x h)) by (intros x h Hh O; rewrite <- RtoC_minus, (sqrt_pos_real s Hs) by lra; unfold m; rewrite Rabs_pos_eq by lra; reflexivity).
  assert (HI : forall x h, (0 <= h <= H)%R -> (H < x)%R -> s (RtoC h - RtoC x) = Ci * RtoC (m x h)).
  { intros x h Hh O. rewrite <- RtoC_minus. replace (h - x)%R with (- (x - h))%R by ring. rewrite (sqrt_neg_real s Hs) by lra. unfold m. rewrite Rabs_left by lra. do 3 f_equal. ring. }
  assert (OO : ((a < 0 \/ H < a) /\ (b < 0 \/ H < b) /\ (c < 0 \/ H < c))%R) by lra. destruct OO as (Oa & Ob & Oc).
  assert (PQ : forall h, (0 <= h <= H)%R -> q h = (m a h * m b h * m c h)%R).
  { intros h Hh. pose proof (MP a h Hh Oa). pose proof (MP b h Hh Ob). pose proof (MP c h Hh Oc). assert (0 < m a h * m b h * m c h)%R by (repeat apply Rmult_lt_0_compat; assumption). rewrite <- (sqrt_square (m a h * m b h * m c h)) by lra. unfold AnalyticFacts.q. f_equal.
    transitivity (Rabs (P h)); [symmetry; apply Rabs_pos_eq; left; apply Ppos, Hh|]. transitivity ((m a h * m a h) * (m b h * m b h) * (m c h * m c h))%R; [|ring]. rewrite !M2, <- !Rabs_mult. f_equal. apply RtoC_inj. rewrite <- (cubic_P p0 p1 p2 o1 o2 o3 E1 E2 E3 h), A, Bb, Cc, !RtoC_mult, !RtoC_minus. reflexivity. }
  assert (IH : (0 <= H <= H)%R) by lra. assert (I0' : (0 <= 0 <= H)%R) by lra.
  pose proof (MP a H IH Oa) as b1p. pose proof (MP b H IH Ob) as b2p. pose proof (MP c H IH Oc) as b3p. pose proof (MP a 0%R I0' Oa) as a1p. pose proof (MP b 0%R I0' Ob) as a2p. pose proof (MP c 0%R I0' Oc) as a3p.
  assert (M0 : forall o : C, - o = RtoC 0 - o) by (intros o; ring).
  unfold signed. rewrite <- q0, (PQ 0%R I0'), (PQ H IH). unfold w1, Dh, e1, B. rewrite <- q0, (PQ 0%R I0'), (PQ H IH), !M0, A, Bb, Cc.
  assert (M2H := M2 a H). assert (M20 := M2 a 0%R).
  assert (WP : (0 < m a 0 * m b H * m c H + m a H * m b 0 * m c 0)%R) by (apply Rplus_lt_0_compat; repeat apply Rmult_lt_0_compat; assumption). 
  assert (WN : RtoC (m a 0%R * m b H * m c H + m a H * m b 0%R * m c 0%R)%R <> 0) by (intros Z; apply RtoC_inj in Z; lra).
  assert (N1' : RtoC (m a 0%R) <> 0) by (intros Z; apply RtoC_inj in Z; lra). assert (N2' : RtoC (m a H) <> 0) by (intros Z; apply RtoC_inj in Z; lra).
  assert (CI : Ci * Ci = - (1)) by (apply C_ext; unfold Re, Im; simpl; ring).
  assert (SW : forall w : C, w = - RtoC (m a 0%R * m b H * m c H + m a H * m b 0%R * m c 0%R)%R -> s (w * w) = RtoC (m a 0%R * m b H * m c H + m a H * m b 0%R * m c 0%R)%R) by (intros w ->; apply (sqrt_unique s Hs); [ring|left; exact WP]).
  assert (FAC : forall x y u v w t : C, x * x * (y * u * v) + y * y * (x * w * t) = x * y * (x * u * v + y * w * t)) by (intros; ring).
  assert (FNZ : forall x y u v w t : C, x <> 0 -> y <> 0 -> x * u * v + y * w * t <> 0 -> x * x * (y * u * v) + y * y * (x * w * t) <> 0) by (intros x y u v w t X Y W Z; rewrite FAC in Z; apply C_integral in Z; destruct Z as [Z|Z]; [apply C_integral in Z; tauto|tauto]).
  assert (FIN : forall x y u v w t : C, x <> 0 -> y <> 0 -> x * u * v + y * w * t <> 0 -> x * y / (x * u * v + y * w * t) = x * x * (y * y) * / (x * x * (y * u * v) + y * y * (x * w * t))) by (intros x y u v w t X Y W; rewrite FAC; field; repeat split; assumption).
  destruct K as [(Ka & Kb & Kc)|[(Ka & Kb & Kc)|(Ka & Kb & Kc)]].
  - rewrite !(LO a), !(HI b), !(HI c) by lra. rewrite Rabs_pos_eq in M2H, M20 by lra.
    split; [rewrite !RtoC_mult; transitivity (Ci * Ci * (RtoC (m a 0%R) * RtoC (m b 0%R) * RtoC (m c 0%R))); [ring|rewrite CI; change (IZR (-1)) with (- (1))%R; rewrite RtoC_opp; ring]|].
    split; [rewrite !RtoC_mult; transitivity (Ci * Ci * (RtoC (m a H) * RtoC (m b H) * RtoC (m c H))); [ring|rewrite CI; change (IZR (-1)) with (- (1))%R; rewrite RtoC_opp; ring]|].
    rewrite SW by (rewrite !RtoC_plus, !RtoC_mult; transitivity (Ci * Ci * (RtoC (m a 0%R) * RtoC (m b H) * RtoC (m c H) + RtoC (m a H) * RtoC (m b 0%R) * RtoC (m c 0%R))); [ring|rewrite CI; ring]).
    rewrite <- !RtoC_minus, <- M2H, <- M20. rewrite RtoC_plus, !RtoC_mult. rewrite RtoC_plus, !RtoC_mult in WN. apply FIN; assumption.
  - rewrite !(HI a), !(LO b), !(HI c) by lra. rewrite Rabs_left in M2H, M20 by lra.
    split; [rewrite !RtoC_mult; transitivity (Ci * Ci * (RtoC (m a 0%R) * RtoC (m b 0%R) * RtoC (m c 0%R))); [ring|rewrite CI; change (IZR (-1)) with (- (1))%R; rewrite RtoC_opp; ring]|].
    split; [rewrite !RtoC_mult; transitivity (Ci * Ci * (RtoC (m a H) * RtoC (m b H) * RtoC (m c H))); [ring|rewrite CI; change (IZR (-1)) with (- (1))%R; rewrite RtoC_opp; ring]|].
    rewrite SW by (rewrite !RtoC_plus, !RtoC_mult; transitivity (Ci * Ci * (RtoC (m a 0%R) * RtoC (m b H) * RtoC (m c H) + RtoC (m a H) * RtoC (m b 0%R) * RtoC (m c 0%R))); [ring|rewrite CI; ring]).
    rewrite <- !RtoC_minus. replace (0 - a)%R with (- (m a 0 * m a 0))%R by lra. replace (H - a)%R with (- (m a H * m a H))%R by lra. rewrite !RtoC_opp, RtoC_plus, !RtoC_mult. rewrite RtoC_plus, !RtoC_mult in WN.
    pose proof (FIN _ _ _ _ _ _ N1' N2' WN) as F. apply (f_equal Copp) in F. etransitivity; [|etransitivity; [exact F|]].
    + transitivity (Ci * Ci * (RtoC (m a 0%R) * RtoC (m a H) / (RtoC (m a 0%R) * RtoC (m b H) * RtoC (m c H) + RtoC (m a H) * RtoC (m b 0%R) * RtoC (m c 0%R)))); [unfold Cdiv; ring|rewrite CI; ring].
    + pose proof (FNZ _ _ _ _ _ _ N1' N2' WN) as FZ. pose proof (Copp_nz _ FZ) as FZ'. field. split; intros Z; [apply FZ'|apply FZ]; rewrite <- Z; ring.
  - rewrite !(HI a), !(LO c), !(HI b) by lra. rewrite Rabs_left in M2H, M20 by lra.
    split; [rewrite !RtoC_mult; transitivity (Ci * Ci * (RtoC (m a 0%R) * RtoC (m b 0%R) * RtoC (m c 0%R))); [ring|rewrite CI; change (IZR (-1)) with (- (1))%R; rewrite RtoC_opp; ring]|].
    split; [rewrite !RtoC_mult; transitivity (Ci * Ci * (RtoC (m a H) * RtoC (m b H) * RtoC (m c H))); [ring|rewrite CI; change (IZR (-1)) with (- (1))%R; rewrite RtoC_opp; ring]|].
    rewrite SW by (rewrite !RtoC_plus, !RtoC_mult; transitivity (Ci * Ci * (RtoC (m a 0%R) * RtoC (m b H) * RtoC (m c H) + RtoC (m a H) * RtoC (m b 0%R) * RtoC (m c 0%R))); [ring|rewrite CI; ring]).
    rewrite <- !RtoC_minus. replace (0 - a)%R with (- (m a 0 * m a 0))%R by lra. replace (H - a)%R with (- (m a H * m a H))%R by lra. rewrite !RtoC_opp, RtoC_plus, !RtoC_mult. rewrite RtoC_plus, !RtoC_mult in WN.
    pose proof (FIN _ _ _ _ _ _ N1' N2' WN) as F. apply (f_equal Copp) in F. etransitivity; [|etransitivity; [exact F|]].
    + transitivity (Ci * Ci * (RtoC (m a 0%R) * RtoC (m a H) / (RtoC (m a 0%R) * RtoC (m b H) * RtoC (m c H) + RtoC (m a H) * RtoC (m b 0%R) * RtoC (m c 0%R)))); [unfold Cdiv; ring|rewrite CI; ring].
    + pose proof (FNZ _ _ _ _ _ _ N1' N2' WN) as FZ. pose proof (Copp_nz _ FZ) as FZ'. field. split; intros Z; [apply FZ'|apply FZ]; rewrite <- Z; ring.
Qed.
End Bounce.
End Absorption.
