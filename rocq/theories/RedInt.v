(** The integrals of the first, second and third kind in Carlson's functions. *)
From Coq Require Import Reals Lra Psatz.
From Coquelicot Require Import Rcomplements Rbar Hierarchy Continuity Derive RInt RInt_analysis AutoDerive ElemFct.
From Verif Require AnalyticFacts.
From Verif Require Import EllipSpec Improper RedAlg.
Open Scope R_scope.

Ltac req := match goal with |- ?a = ?b => change (@eq R a b) end.
Lemma lim_improper0 (F : R -> R) (v : R) : (forall t, 0 <= t -> continuous F t) -> is_lim (fun T => RInt (fun t => F (0 + t)) 0 T) p_infty v -> improper0 F v.
Proof.
  intros C L e He. apply is_lim_spec in L. specialize (L (mkposreal (e / 2) ltac:(lra))). destruct L as (M & HM). simpl in HM.
  assert (X : forall p q, 0 <= p -> 0 <= q -> ex_RInt F p q) by (intros p q Hp Hq; apply (ex_RInt_continuous (V := R_CompleteNormedModule)); intros z Hz; apply C; pose proof (Rmin_glb p q 0 Hp Hq); lra).
  destruct (continuity_ab_maj (fun h => Rabs (F h)) 0 1) as (m & Hm & _); [lra|intros c Hc; apply (continuity_pt_comp F Rabs); [apply continuity_pt_filterlim, C; lra|apply Rcontinuity_abs]|].
  set (K := Rabs (F m)) in *. assert (K0 : 0 <= K) by apply Rabs_pos. assert (P : 0 < e / (2 * (K + 1))) by (apply Rdiv_lt_0_compat; lra).
  set (a0 := Rmin 1 (e / (2 * (K + 1)))). assert (A0 : 0 < a0) by (apply Rmin_glb_lt; lra). assert (A1 : a0 <= 1) by apply Rmin_l. assert (A2 : a0 <= e / (2 * (K + 1))) by apply Rmin_r.
  exists a0, (Rmax M 1). split; [exact A0|]. split; [apply Rle_trans with 1; [exact A1|apply Rmax_r]|]. intros a b Ha Hb. pose proof (Rmax_l M 1). pose proof (Rmax_r M 1).
  exists (RInt F a b). split; [apply (RInt_correct (V := R_CompleteNormedModule)), X; lra|].
  specialize (HM b ltac:(lra)). assert (E0 : RInt (fun t => F (0 + t)) 0 b = RInt F 0 b) by (apply RInt_ext; intros; rewrite Rplus_0_l; reflexivity). rewrite E0 in HM.
  assert (CH : RInt F 0 a + RInt F a b = RInt F 0 b) by (apply (RInt_Chasles F); apply X; lra).
  assert (B : Rabs (RInt F 0 a) <= (a - 0) * K) by (apply (abs_RInt_le_const F 0 a K); [lra|apply X; lra|]; intros t Ht; apply Hm; lra).
  assert (B2 : (a - 0) * K < e / 2). { apply Rle_lt_trans with (a * (K + 1)); [nra|]. apply Rlt_le_trans with (e / (2 * (K + 1)) * (K + 1)); [apply Rmult_lt_compat_r; lra|]. apply Req_le. field. lra. }
  replace (RInt F a b - v) with ((RInt F 0 b - v) - RInt F 0 a) by lra. unfold Rminus at 1. eapply Rle_lt_trans; [apply Rabs_triang|]. rewrite Rabs_Ropp. lra.
Qed.
Lemma subst0 (H : R) (phi dphi F w : R -> R) : 0 < H -> (forall h, 0 < h <= H -> is_derive phi h (dphi h) /\ continuous dphi h) -> (forall t, 0 <= t -> continuous F t) -> (forall h, 0 < h <= H -> continuous F (phi h)) -> phi H = 0 ->
  (forall h, 0 < h <= H -> dphi h * F (phi h) = - w h) -> (forall h, 0 <= h <= H -> continuous w h) -> (forall B, exists d, 0 < d <= H /\ forall h, 0 < h <= d -> B < phi h) -> improper0 F (RInt w 0 H).
Proof.
  intros HH D CF P0 PH E Cw Inf. apply lim_improper0; [exact CF|]. pose proof (AnalyticFacts.subst_improper H phi dphi F w HH D P0 E Cw Inf) as S. rewrite PH in S. exact S.
Qed.
(** A decreasing function *)
Lemma decr (f df : R -> R) a b : a <= b -> (forall t, a <= t <= b -> is_derive f t (df t)) -> (forall t, a <= t <= b -> df t <= 0) -> f b <= f a.
Proof.
  intros Hab D N. destruct (MVT_gen f a b df) as (c & Hc & E); [intros x Hx; apply D; rewrite Rmin_left, Rmax_right in Hx by exact Hab; lra|intros x Hx; apply continuity_pt_filterlim, (ex_derive_continuous f); exists (df x); apply D; rewrite Rmin_left, Rmax_right in Hx by exact Hab; lra|].
  rewrite Rmin_left, Rmax_right in Hc by exact Hab. specialize (N c Hc). nra.
Qed.
Lemma to_infinity (H m K : R) (f : R -> R) : 0 < H -> 0 < m -> (forall h, 0 < h <= H -> m <= f h) -> forall B, exists d, 0 < d <= H /\ forall h, 0 < h <= d -> B < H ^ 2 * (f h / h) ^ 2 - K.
Proof.
  intros HH Hm Lb B. set (T := Rabs B + Rabs K + 1). assert (T1 : 1 <= T) by (unfold T; pose proof (Rabs_pos B); pose proof (Rabs_pos K); lra). assert (P : 0 < m * H / T) by (apply Rdiv_lt_0_compat; [apply Rmult_lt_0_compat; assumption|lra]).
  exists (Rmin H (m * H / T)). split; [split; [apply Rmin_glb_lt; lra|apply Rmin_l]|]. intros h Hh. pose proof (Rmin_l H (m * H / T)). pose proof (Rmin_r H (m * H / T)). specialize (Lb h ltac:(lra)).
  assert (G : T <= H * (f h / h)). { apply Rmult_le_reg_r with h; [lra|]. replace (H * (f h / h) * h) with (H * f h) by (field; lra). apply Rle_trans with (T * (m * H / T)); [apply Rmult_le_compat_l; lra|]. replace (T * (m * H / T)) with (H * m) by (field; lra). apply Rmult_le_compat_l; lra. }
  replace (H ^ 2 * (f h / h) ^ 2) with ((H * (f h / h)) ^ 2) by ring. assert (T <= (H * (f h / h)) ^ 2) by nra. pose proof (Rle_abs B). pose proof (Rle_abs K). unfold T in *. lra.
Qed.

Lemma derive_sq_shift (U : R -> R) (K c h l : R) : is_derive U h l -> is_derive (fun t => K * U t ^ 2 - c) h (K * (2 * U h * l)).
Proof. intros DU. auto_derive; [eexists; exact DU|]. change (Derive (fun x => U x) h) with (Derive U h). rewrite (is_derive_unique _ _ _ DU). ring. Qed.

(** ** Linear forms, as functions of the distance [h] from the lower end: [fst] the value there, [snd] the slope *)
Definition L (A : R * R) (h : R) : R := fst A + snd A * h.
Definition Xf (A : R * R) (h : R) : R := sqrt (L A h).
Definition Yf (A : R * R) : R := sqrt (fst A).
Definition dd (A B : R * R) : R := fst A * snd B - fst B * snd A.
Definition posf (H : R) (A : R * R) : Prop := 0 < fst A /\ 0 < L A H.
Lemma L_low H A h : 0 < H -> posf H A -> 0 <= h <= H -> Rmin (fst A) (L A H) <= L A h.
Proof.
  intros HH (P0 & P1) Hh. unfold L in *. destruct (Rle_dec 0 (snd A)) as [S|S].
  - eapply Rle_trans; [apply Rmin_l|]. nra.
  - eapply Rle_trans; [apply Rmin_r|]. nra.
Qed.
Lemma L_pos H A h : 0 < H -> posf H A -> 0 <= h <= H -> 0 < L A h.
Proof. intros HH P Hh. eapply Rlt_le_trans; [|apply (L_low H A h HH P Hh)]. apply Rmin_glb_lt; apply P. Qed.
Lemma X_pos H A h : 0 < H -> posf H A -> 0 <= h <= H -> 0 < Xf A h.
Proof. intros HH P Hh. apply sqrt_lt_R0, (L_pos H); assumption. Qed.
Lemma Y_pos H A : posf H A -> 0 < Yf A.
Proof. intros P. apply sqrt_lt_R0, P. Qed.
Lemma X_sq H A h : 0 < H -> posf H A -> 0 <= h <= H -> Xf A h * Xf A h = L A h.
Proof. intros HH P Hh. apply sqrt_sqrt. left. apply (L_pos H); assumption. Qed.
Lemma Y_sq H A : posf H A -> Yf A * Yf A = fst A.
Proof. intros P. apply sqrt_sqrt. left. apply P. Qed.
Lemma X_derive H A h : 0 < H -> posf H A -> 0 <= h <= H -> is_derive (Xf A) h (snd A / (2 * Xf A h)).
Proof. intros HH P Hh. unfold Xf. apply (is_derive_sqrt (L A) h (snd A)); [unfold L; auto_derive; [exact I|ring]|apply (L_pos H); assumption]. Qed.
Lemma X_0 A : Xf A 0 = Yf A.
Proof. unfold Xf, Yf, L. f_equal. ring. Qed.
Lemma X_low H A : 0 < H -> posf H A -> exists m, 0 < m /\ forall h, 0 <= h <= H -> m <= Xf A h.
Proof.
  intros HH P. exists (sqrt (Rmin (fst A) (L A H))). split; [apply sqrt_lt_R0, Rmin_glb_lt; apply P|]. intros h Hh. apply sqrt_le_1_alt, (L_low H); assumption.
Qed.

Definition Nf (A B C D : R * R) (h : R) : R := Xf A h * Xf B h * Yf C * Yf D + Yf A * Yf B * Xf C h * Xf D h.
Definition sf (A B C D : R * R) (h : R) : R := Xf A h * Xf B h * Xf C h * Xf D h.
Section Four.
Variables (A B C D : R * R) (H : R).
Hypothesis HH : 0 < H.
Hypotheses (PA : posf H A) (PB : posf H B) (PC : posf H C) (PD : posf H D).
Ltac pos := repeat first [apply Rplus_lt_0_compat | apply Rmult_lt_0_compat]; first [apply (Y_pos H); assumption | apply (X_pos H); assumption | lra].
Lemma Nf_pos h : 0 <= h <= H -> 0 < Nf A B C D h.
Proof. intros Hh. unfold Nf. pos. Qed.
Lemma Nf_pos2 h : 0 <= h <= H -> 0 < Nf A C B D h.
Proof. intros Hh. unfold Nf. pos. Qed.
Lemma Nf_pos3 h : 0 <= h <= H -> 0 < Nf B C A D h.
Proof. intros Hh. unfold Nf. pos. Qed.
Lemma sf_pos h : 0 <= h <= H -> 0 < sf A B C D h.
Proof. intros Hh. unfold sf. pos. Qed.
Lemma X_sq' F h : posf H F -> 0 <= h <= H -> Xf F h * Xf F h = Yf F * Yf F + snd F * h.
Proof. intros P Hh. rewrite (X_sq H), (Y_sq H) by assumption. reflexivity. Qed.
Lemma ex_X F h : posf H F -> 0 <= h <= H -> ex_derive (Xf F) h.
Proof. intros P Hh. eexists. apply (X_derive H); assumption. Qed.
Lemma U_derive h : 0 < h <= H -> is_derive (fun t => Nf A B C D t / t) h (- (Nf A C B D h * Nf B C A D h) / (h * h * (2 * sf A B C D h))).
Proof.
  intros Hh. assert (Hh' : 0 <= h <= H) by lra. unfold Nf, sf.
  apply (derive_U (Xf A) (Xf B) (Xf C) (Xf D) (snd A) (snd B) (snd C) (snd D) (Yf A) (Yf B) (Yf C) (Yf D) h); try (apply (X_derive H); assumption); try (apply X_sq'; assumption); try (apply (X_pos H); assumption). lra.
Qed.
Lemma U_decr h : 0 < h <= H -> Nf A B C D H / H <= Nf A B C D h / h.
Proof.
  intros Hh. apply (decr (fun t => Nf A B C D t / t) (fun h => - (Nf A C B D h * Nf B C A D h) / (h * h * (2 * sf A B C D h)))); [lra|intros; apply U_derive; lra|]. intros t Ht. pose proof (Nf_pos2 t ltac:(lra)). pose proof (Nf_pos3 t ltac:(lra)). pose proof (sf_pos t ltac:(lra)).
  apply Rlt_le. unfold Rdiv. rewrite <- Ropp_mult_distr_l. apply Ropp_lt_gt_0_contravar. apply Rmult_lt_0_compat; [apply Rmult_lt_0_compat; assumption|]. apply Rinv_0_lt_compat. apply Rmult_lt_0_compat; [apply Rmult_lt_0_compat; lra|lra].
Qed.
Lemma UU h : 0 <= h <= H -> Nf A B C D h ^ 2 - Nf A C B D h ^ 2 = dd A D * dd B C * h ^ 2.
Proof.
  intros Hh. unfold Nf, dd. rewrite <- !(Y_sq H) by assumption. replace (h ^ 2) with (h * h) by ring.
  apply (U_minus_U (Xf A) (Xf B) (Xf C) (Xf D) (snd A) (snd B) (snd C) (snd D) (Yf A) (Yf B) (Yf C) (Yf D) h); apply X_sq'; assumption.
Qed.
Lemma UU3 h : 0 <= h <= H -> Nf A B C D h ^ 2 - Nf B C A D h ^ 2 = dd B D * dd A C * h ^ 2.
Proof.
  intros Hh. transitivity (Nf B A C D h ^ 2 - Nf B C A D h ^ 2); [unfold Nf; ring|]. unfold Nf, dd. rewrite <- !(Y_sq H) by assumption. replace (h ^ 2) with (h * h) by ring.
  apply (U_minus_U (Xf B) (Xf A) (Xf C) (Xf D) (snd B) (snd A) (snd C) (snd D) (Yf B) (Yf A) (Yf C) (Yf D) h); apply X_sq'; assumption.
Qed.
Lemma UU_shift h : 0 < h <= H -> H ^ 2 * (Nf A B C D h / h) ^ 2 - Nf A B C D H ^ 2 + Nf A C B D H ^ 2 = H ^ 2 * (Nf A C B D h / h) ^ 2.
Proof.
  intros Hh. pose proof (UU h ltac:(lra)) as E1. pose proof (UU H ltac:(lra)) as E2. replace (Nf A C B D H ^ 2) with (Nf A B C D H ^ 2 - dd A D * dd B C * H ^ 2) by lra.
  transitivity (H ^ 2 / h ^ 2 * (Nf A B C D h ^ 2 - dd A D * dd B C * h ^ 2)); [field; lra|]. rewrite <- E1. field. lra.
Qed.
Lemma UU_shift3 h : 0 < h <= H -> H ^ 2 * (Nf A B C D h / h) ^ 2 - Nf A B C D H ^ 2 + Nf B C A D H ^ 2 = H ^ 2 * (Nf B C A D h / h) ^ 2.
Proof.
  intros Hh. pose proof (UU3 h ltac:(lra)) as E1. pose proof (UU3 H ltac:(lra)) as E2. replace (Nf B C A D H ^ 2) with (Nf A B C D H ^ 2 - dd B D * dd A C * H ^ 2) by lra.
  transitivity (H ^ 2 / h ^ 2 * (Nf A B C D h ^ 2 - dd B D * dd A C * h ^ 2)); [field; lra|]. rewrite <- E1. field. lra.
Qed.
Lemma N_low : exists m, 0 < m /\ forall h, 0 < h <= H -> m <= Nf A B C D h.
Proof.
  destruct (X_low H A HH PA) as (mA & HA & LA). destruct (X_low H B HH PB) as (mB & HB & LB). exists (mA * mB * Yf C * Yf D). split; [pos|]. intros h Hh. specialize (LA h ltac:(lra)). specialize (LB h ltac:(lra)). unfold Nf.
  assert (0 < Yf A * Yf B * Xf C h * Xf D h) by (assert (Hh2 : 0 <= h <= H) by lra; clear Hh; pos). assert (mA * mB * Yf C * Yf D <= Xf A h * Xf B h * Yf C * Yf D); [|lra].
  pose proof (Y_pos H C PC). pose proof (Y_pos H D PD). apply Rmult_le_compat_r; [lra|]. apply Rmult_le_compat_r; [lra|]. apply Rmult_le_compat; lra.
Qed.
Lemma sqrt_sq_pos u : 0 < u -> sqrt (H ^ 2 * u ^ 2) = H * u.
Proof. intros P. replace (H ^ 2 * u ^ 2) with ((H * u) ^ 2) by ring. apply sqrt_pow2. apply Rmult_le_pos; lra. Qed.
(** The substitution with a weight *)
Lemma weighted (om W : R -> R) : (forall t, 0 <= t -> continuous om t) -> (forall h, 0 <= h <= H -> continuous W h) -> (forall h, 0 < h <= H -> om (H ^ 2 * (Nf A B C D h / h) ^ 2 - Nf A B C D H ^ 2) = W h) ->
  improper0 (fun t => 1 / (2 * (sqrt (t + Nf A B C D H ^ 2) * sqrt (t + Nf A C B D H ^ 2) * sqrt (t + Nf B C A D H ^ 2))) * om t) (RInt (fun h => W h / (2 * H * sf A B C D h)) 0 H).
Proof.
  intros Co CW E. set (phi := fun h => H ^ 2 * (Nf A B C D h / h) ^ 2 - Nf A B C D H ^ 2). pose proof (Nf_pos H ltac:(lra)) as N1. pose proof (Nf_pos2 H ltac:(lra)) as N2. pose proof (Nf_pos3 H ltac:(lra)) as N3.
  assert (Ph : forall h, 0 < h <= H -> 0 <= phi h).
  { intros h Hh. unfold phi. pose proof (U_decr h Hh) as U. pose proof (Nf_pos H ltac:(lra)). assert (0 < Nf A B C D H / H) by (apply Rdiv_lt_0_compat; lra). replace (Nf A B C D H ^ 2) with (H ^ 2 * (Nf A B C D H / H) ^ 2) by (field; lra). assert ((Nf A B C D H / H) ^ 2 <= (Nf A B C D h / h) ^ 2) by (apply pow_incr; lra). assert (0 < H ^ 2) by (apply pow_lt, HH). nra. }
  assert (CK : forall t, 0 <= t -> continuous (fun t => 1 / (2 * (sqrt (t + Nf A B C D H ^ 2) * sqrt (t + Nf A C B D H ^ 2) * sqrt (t + Nf B C A D H ^ 2))) * om t) t).
  { intros t Ht. apply (continuous_mult (fun t => 1 / (2 * (sqrt (t + Nf A B C D H ^ 2) * sqrt (t + Nf A C B D H ^ 2) * sqrt (t + Nf B C A D H ^ 2)))) om); [|apply Co, Ht].
    apply (ex_derive_continuous (fun t => 1 / (2 * (sqrt (t + Nf A B C D H ^ 2) * sqrt (t + Nf A C B D H ^ 2) * sqrt (t + Nf B C A D H ^ 2))))). assert (0 < t + Nf A B C D H ^ 2 /\ 0 < t + Nf A C B D H ^ 2 /\ 0 < t + Nf B C A D H ^ 2) as (p1 & p2 & p3) by (repeat split; apply Rplus_le_lt_0_compat; try lra; apply pow_lt; assumption).
    auto_derive. repeat split; try assumption. apply Rgt_not_eq. apply Rmult_lt_0_compat; [lra|]. repeat apply Rmult_lt_0_compat; apply sqrt_lt_R0; assumption. }
  apply (subst0 H phi (fun h => H ^ 2 * (2 * (Nf A B C D h / h) * (- (Nf A C B D h * Nf B C A D h) / (h * h * (2 * sf A B C D h)))))); try assumption.
  - intros h Hh. split.
    + apply (derive_sq_shift (fun t => Nf A B C D t / t)), U_derive, Hh.
    + apply (ex_derive_continuous (fun h => H ^ 2 * (2 * (Nf A B C D h / h) * (- (Nf A C B D h * Nf B C A D h) / (h * h * (2 * sf A B C D h)))))). pose proof (sf_pos h ltac:(lra)) as Ps. unfold Nf, sf in *. auto_derive. repeat split; try (apply ex_X; [assumption|lra]); try lra. apply Rgt_not_eq, Rmult_lt_0_compat; [apply Rmult_lt_0_compat; lra|]. apply Rmult_lt_0_compat; [lra|]. exact Ps.
  - intros h Hh. apply CK, Ph, Hh.
  - unfold phi. field. lra.
  - intros h Hh. unfold phi. cbv beta. rewrite (E h Hh). replace (H ^ 2 * (Nf A B C D h / h) ^ 2 - Nf A B C D H ^ 2 + Nf A B C D H ^ 2) with (H ^ 2 * (Nf A B C D h / h) ^ 2) by ring. rewrite (UU_shift h Hh), (UU_shift3 h Hh).
    pose proof (Nf_pos h ltac:(lra)) as M1. pose proof (Nf_pos2 h ltac:(lra)) as M2. pose proof (Nf_pos3 h ltac:(lra)) as M3. pose proof (sf_pos h ltac:(lra)) as Ps. rewrite !sqrt_sq_pos by (apply Rdiv_lt_0_compat; lra). field. repeat split; lra.
  - intros h Hh. apply (continuous_mult W (fun h => / (2 * H * sf A B C D h))); [apply CW, Hh|]. apply (ex_derive_continuous (fun h => / (2 * H * sf A B C D h))). pose proof (sf_pos h Hh) as Ps. unfold sf in *. auto_derive. repeat split; try (apply ex_X; assumption). apply Rgt_not_eq, Rmult_lt_0_compat; [lra|exact Ps].
  - destruct N_low as (m & Hm & Lm). apply (to_infinity H m (Nf A B C D H ^ 2) (Nf A B C D) HH Hm Lm).
Qed.
Lemma ex_int (f : R -> R) : (forall h, 0 <= h <= H -> continuous f h) -> ex_RInt f 0 H.
Proof. intros Cf. apply (ex_RInt_continuous (V := R_CompleteNormedModule)). intros z Hz. apply Cf. rewrite Rmin_left, Rmax_right in Hz by lra. exact Hz. Qed.
Lemma int_scal (f : R -> R) c : ex_RInt f 0 H -> RInt (fun h => c * f h) 0 H = c * RInt f 0 H.
Proof. intros E. apply (RInt_scal (V := R_CompleteNormedModule) f 0 H c E). Qed.
Lemma int_minus (f g : R -> R) : ex_RInt f 0 H -> ex_RInt g 0 H -> RInt (fun h => f h - g h) 0 H = RInt f 0 H - RInt g 0 H.
Proof. intros E1 E2. apply (RInt_minus (V := R_CompleteNormedModule) f g 0 H E1 E2). Qed.
Lemma int_plus (f g : R -> R) : ex_RInt f 0 H -> ex_RInt g 0 H -> RInt (fun h => f h + g h) 0 H = RInt f 0 H + RInt g 0 H.
Proof. intros E1 E2. apply (RInt_plus (V := R_CompleteNormedModule) f g 0 H E1 E2). Qed.
Lemma cont_X F h : posf H F -> 0 <= h <= H -> continuous (Xf F) h.
Proof. intros P Hh. apply (ex_derive_continuous (Xf F)), ex_X; assumption. Qed.
Lemma cont_s h : 0 <= h <= H -> continuous (fun h => / sf A B C D h) h.
Proof.
  intros Hh. apply (ex_derive_continuous (fun h => / sf A B C D h)). pose proof (sf_pos h Hh) as Ps. unfold sf in *. auto_derive. repeat split; try (apply ex_X; assumption). apply Rgt_not_eq, Ps.
Qed.
(** Integrals of the first kind *)
Lemma first_kind : carlson_RF (Nf A B C D H ^ 2) (Nf A C B D H ^ 2) (Nf B C A D H ^ 2) (RInt (fun h => / sf A B C D h) 0 H / (2 * H)).
Proof.
  unfold carlson_RF. replace (RInt (fun h => / sf A B C D h) 0 H / (2 * H)) with (RInt (fun h => 1 / (2 * H * sf A B C D h)) 0 H).
  - eapply improper0_ext; [|apply (weighted (fun _ => 1) (fun _ => 1)); [intros; apply continuous_const|intros; apply continuous_const|reflexivity]]. intros t Ht. cbv beta. ring.
  - transitivity (RInt (fun h => / (2 * H) * / sf A B C D h) 0 H); [|rewrite int_scal by (apply ex_int, cont_s); req; field; lra]. apply RInt_ext. intros h Hh. rewrite Rmin_left, Rmax_right in Hh by lra. pose proof (sf_pos h ltac:(lra)). req. field. split; lra.
Qed.
(** The weight [h^2/(N^2 + c h^2)] *)
Definition p_of (c h : R) : R := Nf A B C D h ^ 2 + c * h ^ 2.
Lemma p_pos c h : 0 < p_of c H -> 0 <= h <= H -> 0 < p_of c h.
Proof.
  intros P Hh. unfold p_of in *. destruct (Req_dec h 0) as [->|Nh]; [pose proof (Nf_pos 0 ltac:(lra)); assert (0 < Nf A B C D 0 ^ 2) by (apply pow_lt; lra); lra|].
  pose proof (U_decr h ltac:(lra)) as U. pose proof (Nf_pos H ltac:(lra)). assert (0 < Nf A B C D H / H) by (apply Rdiv_lt_0_compat; lra). assert ((Nf A B C D H / H) ^ 2 <= (Nf A B C D h / h) ^ 2) by (apply pow_incr; lra).
  assert (hh2 : 0 < h ^ 2) by (apply pow_lt; lra). assert (HH2 : 0 < H ^ 2) by (apply pow_lt; lra). replace (Nf A B C D h ^ 2 + c * h ^ 2) with (h ^ 2 * ((Nf A B C D h / h) ^ 2 + c)) by (field; lra). replace (Nf A B C D H ^ 2 + c * H ^ 2) with (H ^ 2 * ((Nf A B C D H / H) ^ 2 + c)) in P by (field; lra).
  apply Rmult_lt_0_compat; [exact hh2|]. assert (0 < (Nf A B C D H / H) ^ 2 + c) by (apply Rmult_lt_reg_l with (H ^ 2); lra). lra.
Qed.
Lemma cont_p c h : 0 < p_of c H -> 0 <= h <= H -> continuous (fun h => h ^ 2 / p_of c h) h.
Proof.
  intros P Hh. apply (ex_derive_continuous (fun h => h ^ 2 / p_of c h)). pose proof (p_pos c h P Hh) as Pp. unfold p_of, Nf in *. auto_derive. repeat split; try (apply ex_X; assumption). apply Rgt_not_eq, Pp.
Qed.
Lemma cont_sp c h : 0 < p_of c H -> 0 <= h <= H -> continuous (fun h => h ^ 2 / (sf A B C D h * p_of c h)) h.
Proof.
  intros P Hh. apply (ex_derive_continuous (fun h => h ^ 2 / (sf A B C D h * p_of c h))). pose proof (p_pos c h P Hh) as Pp. pose proof (sf_pos h Hh) as Ps. unfold p_of, Nf, sf in *. auto_derive. repeat split; try (apply ex_X; assumption). apply Rgt_not_eq, Rmult_lt_0_compat; assumption.
Qed.
Lemma third_kind c : 0 < p_of c H -> carlson_RJ (Nf A B C D H ^ 2) (Nf A C B D H ^ 2) (Nf B C A D H ^ 2) (p_of c H) (3 / (2 * H ^ 3) * RInt (fun h => h ^ 2 / (sf A B C D h * p_of c h)) 0 H).
Proof.
  intros P. unfold carlson_RJ. replace (3 / (2 * H ^ 3) * RInt (fun h => h ^ 2 / (sf A B C D h * p_of c h)) 0 H) with (RInt (fun h => 3 / H ^ 2 * (h ^ 2 / p_of c h) / (2 * H * sf A B C D h)) 0 H).
  - eapply improper0_ext; [|apply (weighted (fun t => 3 / (t + p_of c H)) (fun h => 3 / H ^ 2 * (h ^ 2 / p_of c h)))].
    + intros t Ht. cbv beta. pose proof (Nf_pos H ltac:(lra)) as N1. pose proof (Nf_pos2 H ltac:(lra)) as N2. pose proof (Nf_pos3 H ltac:(lra)) as N3.
      assert (0 < sqrt (t + Nf A B C D H ^ 2) /\ 0 < sqrt (t + Nf A C B D H ^ 2) /\ 0 < sqrt (t + Nf B C A D H ^ 2)) as (p1 & p2 & p3) by (repeat split; apply sqrt_lt_R0, Rplus_lt_0_compat; try lra; apply pow_lt; assumption). field. repeat split; lra.
    + intros t Ht. apply (ex_derive_continuous (fun t => 3 / (t + p_of c H))). auto_derive. lra.
    + intros h Hh. apply (continuous_mult (fun _ => 3 / H ^ 2) (fun h => h ^ 2 / p_of c h)); [apply continuous_const|apply cont_p; assumption].
    + intros h Hh. pose proof (p_pos c h P ltac:(lra)) as Pp. unfold p_of in *. assert (N : 0 < H ^ 2 * (Nf A B C D h / h) ^ 2 - Nf A B C D H ^ 2 + (Nf A B C D H ^ 2 + c * H ^ 2)).
      { replace (H ^ 2 * (Nf A B C D h / h) ^ 2 - Nf A B C D H ^ 2 + (Nf A B C D H ^ 2 + c * H ^ 2)) with (H ^ 2 * (Nf A B C D h ^ 2 + c * h ^ 2) / h ^ 2) by (field; lra). apply Rdiv_lt_0_compat; [apply Rmult_lt_0_compat; [apply pow_lt; lra|exact Pp]|apply pow_lt; lra]. }
      replace (H ^ 2 * (Nf A B C D h / h) ^ 2 - Nf A B C D H ^ 2 + (Nf A B C D H ^ 2 + c * H ^ 2)) with (H ^ 2 * (Nf A B C D h ^ 2 + c * h ^ 2) / h ^ 2) by (field; lra). field. repeat split; lra.
  - rewrite <- int_scal by (apply ex_int; intros; apply cont_sp; assumption). apply RInt_ext. intros h Hh. rewrite Rmin_left, Rmax_right in Hh by lra. pose proof (sf_pos h ltac:(lra)). pose proof (p_pos c h P ltac:(lra)). req. field. repeat split; lra.
Qed.
(** Integrals of the second kind *)
Lemma second_kind_RD : carlson_RD (Nf A C B D H ^ 2) (Nf B C A D H ^ 2) (Nf A B C D H ^ 2) (3 / (2 * H ^ 3) * RInt (fun h => h ^ 2 / (sf A B C D h * p_of 0 h)) 0 H).
Proof.
  assert (P0 : 0 < p_of 0 H) by (unfold p_of; rewrite Rmult_0_l, Rplus_0_r; apply pow_lt, Nf_pos; lra). pose proof (third_kind 0 P0) as T. unfold carlson_RD. unfold carlson_RJ in *. unfold p_of in T at 1. rewrite Rmult_0_l, Rplus_0_r in T. eapply improper0_ext; [|exact T]. intros t Ht. cbv beta. f_equal. ring.
Qed.
Lemma cont_LBA h : 0 <= h <= H -> continuous (fun h => L B h / (L A h * sf A B C D h)) h.
Proof.
  intros Hh. apply (ex_derive_continuous (fun h => L B h / (L A h * sf A B C D h))). pose proof (sf_pos h Hh) as Ps. pose proof (L_pos H A h HH PA Hh) as La. unfold sf, L in *. auto_derive. repeat split; try (apply ex_X; assumption). apply Rgt_not_eq, Rmult_lt_0_compat; assumption.
Qed.
Lemma second_kind : RInt (fun h => L B h / (L A h * sf A B C D h)) 0 H = dd B C * dd B D * RInt (fun h => h ^ 2 / (sf A B C D h * p_of 0 h)) 0 H + 2 * H * (Xf B H * Yf B / (Xf A H * Yf A * Nf A B C D H)).
Proof.
  assert (P0 : 0 < p_of 0 H) by (unfold p_of; rewrite Rmult_0_l, Rplus_0_r; apply pow_lt, Nf_pos; lra).
  assert (E : is_RInt (fun h => L B h / (L A h * sf A B C D h) - dd B C * dd B D * (h ^ 2 / (sf A B C D h * p_of 0 h))) 0 H (2 * Xf B H * Yf B * H / (Xf A H * Yf A * Nf A B C D H) - 2 * Xf B 0 * Yf B * 0 / (Xf A 0 * Yf A * Nf A B C D 0))).
  { apply (is_RInt_derive (fun t => 2 * Xf B t * Yf B * t / (Xf A t * Yf A * Nf A B C D t)) (fun h => L B h / (L A h * sf A B C D h) - dd B C * dd B D * (h ^ 2 / (sf A B C D h * p_of 0 h)))); intros h Hh; rewrite Rmin_left, Rmax_right in Hh by lra.
    - eapply der_eq; [unfold Nf; apply (derive_RD (Xf A) (Xf B) (Xf C) (Xf D) (snd A) (snd B) (snd C) (snd D) (Yf A) (Yf B) (Yf C) (Yf D) h); first [apply (X_derive H); assumption|apply X_sq'; assumption|apply (X_pos H); assumption|apply (Y_pos H); assumption]|].
      pose proof (Nf_pos h Hh) as Pn. pose proof (sf_pos h Hh) as Ps. pose proof (X_pos H A h HH PA Hh) as Pa. fold (Nf A B C D h). fold (sf A B C D h). rewrite <- (X_sq H A h), <- (X_sq H B h) by assumption. unfold dd, p_of. rewrite <- !(Y_sq H) by assumption. field. repeat split; lra.
    - apply (continuous_minus (fun h => L B h / (L A h * sf A B C D h)) (fun h => dd B C * dd B D * (h ^ 2 / (sf A B C D h * p_of 0 h)))); [apply cont_LBA, Hh|]. apply (continuous_mult (fun _ => dd B C * dd B D) (fun h => h ^ 2 / (sf A B C D h * p_of 0 h))); [apply continuous_const|apply cont_sp; assumption]. }
  apply (is_RInt_unique (V := R_CompleteNormedModule)) in E. rewrite (int_minus (fun h => L B h / (L A h * sf A B C D h)) (fun h => dd B C * dd B D * (h ^ 2 / (sf A B C D h * p_of 0 h)))) in E; [|apply ex_int, cont_LBA|apply ex_int; intros h Hh; apply (continuous_mult (fun _ => dd B C * dd B D) (fun h => h ^ 2 / (sf A B C D h * p_of 0 h))); [apply continuous_const|apply cont_sp; assumption]].
  rewrite int_scal in E by (apply ex_int; intros; apply cont_sp; assumption). pose proof (Nf_pos H ltac:(lra)). pose proof (X_pos H A H HH PA ltac:(lra)). pose proof (Y_pos H A PA).
  transitivity (dd B C * dd B D * RInt (fun h => h ^ 2 / (sf A B C D h * p_of 0 h)) 0 H + (2 * Xf B H * Yf B * H / (Xf A H * Yf A * Nf A B C D H) - 2 * Xf B 0 * Yf B * 0 / (Xf A 0 * Yf A * Nf A B C D 0))); [lra|]. f_equal. unfold Rdiv. rewrite Rmult_0_r, Rmult_0_l, Rminus_0_r. ring.
Qed.
End Four.

(** Integrals of the third kind *)
Section Five.
Variables (A B C D E : R * R) (H : R).
Hypothesis HH : 0 < H.
Hypotheses (PA : posf H A) (PB : posf H B) (PC : posf H C) (PD : posf H D) (PE : posf H E).
Hypothesis NE : dd A E <> 0.
Definition cc : R := - (dd A C * dd A D * dd B E / dd A E).
Definition pp (h : R) : R := p_of A B C D cc h.
Hypothesis PP : 0 < pp H.
Definition Sf (h : R) : R := Xf B h * Xf C h * Xf D h / Xf A h * (Yf E * Yf E) + Yf B * Yf C * Yf D / Yf A * (Xf E h * Xf E h).
Definition Qf (h : R) : R := Xf E h * Xf E h * (Yf E * Yf E) / (Xf A h * Xf A h * (Yf A * Yf A)) * pp h.
Ltac pos := repeat first [apply Rplus_lt_0_compat | apply Rmult_lt_0_compat | apply Rinv_0_lt_compat]; first [apply (Y_pos H); assumption | apply (X_pos H); assumption | lra].
Lemma Sf_pos h : 0 <= h <= H -> 0 < Sf h.
Proof. intros Hh. unfold Sf, Rdiv. pos. Qed.
Lemma pp_pos h : 0 <= h <= H -> 0 < pp h.
Proof. intros Hh. apply (p_pos A B C D H); assumption. Qed.
Lemma Qf_pos h : 0 <= h <= H -> 0 < Qf h.
Proof. intros Hh. unfold Qf. apply Rmult_lt_0_compat; [|apply pp_pos, Hh]. unfold Rdiv. pos. Qed.
Lemma S_Q h : 0 < h <= H -> (Sf h / h) ^ 2 - Qf h / h ^ 2 = dd B E * dd C E * dd D E / dd A E.
Proof.
  intros Hh. assert (Hh' : 0 <= h <= H) by lra. pose proof (X_pos H A h HH PA Hh') as Pa. pose proof (Y_pos H A PA) as Pya.
  assert (Ne : Yf A * Yf A * snd E - Yf E * Yf E * snd A <> 0) by (rewrite !(Y_sq H) by assumption; exact NE).
  rewrite <- (Rmult_1_r (dd B E * dd C E * dd D E / dd A E)). unfold dd. rewrite <- !(Y_sq H) by assumption. rewrite Rmult_1_r.
  rewrite <- (S_minus_Q (Xf A) (Xf B) (Xf C) (Xf D) (Xf E) (snd A) (snd B) (snd C) (snd D) (snd E) (Yf A) (Yf B) (Yf C) (Yf D) (Yf E) h); [|first [apply (X_derive H); assumption|apply (X_sq' H); assumption|apply (X_pos H); assumption|apply (Y_pos H); assumption|lra|exact Ne] ..].
  unfold Sf, Qf, pp, p_of, cc, dd, Nf. rewrite <- !(Y_sq H) by assumption. f_equal. field; repeat split; try lra; exact Ne.
Qed.
Lemma S_derive h : 0 < h <= H -> is_derive (fun t => Sf t / t) h (- / 2 * (Qf h / h ^ 2) * (L A h / (L E h * sf A B C D h) - dd A B * dd A C * dd A D / dd A E * (h ^ 2 / (sf A B C D h * pp h)))).
Proof.
  intros Hh. assert (Hh' : 0 <= h <= H) by lra. assert (Ne : Yf A * Yf A * snd E - Yf E * Yf E * snd A <> 0) by (rewrite !(Y_sq H) by assumption; exact NE).
  eapply der_eq; [unfold Sf; apply (derive_S (Xf A) (Xf B) (Xf C) (Xf D) (Xf E) (snd A) (snd B) (snd C) (snd D) (snd E) (Yf A) (Yf B) (Yf C) (Yf D) (Yf E) h); first [apply (X_derive H); assumption|apply (X_sq' H); assumption|apply (X_pos H); assumption|apply (Y_pos H); assumption|lra|exact Ne]|].
  pose proof (X_pos H A h HH PA Hh') as Pa. pose proof (X_pos H E h HH PE Hh') as Pe. pose proof (Y_pos H A PA) as Pya. pose proof (sf_pos A B C D H HH PA PB PC PD h Hh') as Ps. pose proof (pp_pos h Hh') as Pp.
  rewrite <- (X_sq H A h), <- (X_sq H E h) by assumption. unfold Qf. fold (Nf A B C D h). fold (sf A B C D h).
  replace ((Nf A B C D h) ^ 2 / (h * h) - (Yf A * Yf A * snd C - Yf C * Yf C * snd A) * (Yf A * Yf A * snd D - Yf D * Yf D * snd A) * (Yf B * Yf B * snd E - Yf E * Yf E * snd B) / (Yf A * Yf A * snd E - Yf E * Yf E * snd A)) with (pp h / h ^ 2).
  2: { unfold pp, p_of, cc, dd. rewrite <- !(Y_sq H) by assumption. field. split; [exact Ne|lra]. }
  unfold dd. rewrite <- !(Y_sq H) by assumption. generalize dependent (pp h). intros p Pp. generalize dependent (sf A B C D h). intros s Ps. field; repeat split; try lra; exact Ne.
Qed.
Definition w3 (h : R) : R := / (2 * H) * (L A h / (L E h * sf A B C D h) - dd A B * dd A C * dd A D / dd A E * (h ^ 2 / (sf A B C D h * pp h))).
Lemma cont_LAE h : 0 <= h <= H -> continuous (fun h => L A h / (L E h * sf A B C D h)) h.
Proof.
  intros Hh. apply (ex_derive_continuous (fun h => L A h / (L E h * sf A B C D h))). pose proof (sf_pos A B C D H HH PA PB PC PD h Hh) as Ps. pose proof (L_pos H E h HH PE Hh) as La. unfold sf, L in *. auto_derive. repeat split; try (apply (ex_X H); assumption). apply Rgt_not_eq, Rmult_lt_0_compat; assumption.
Qed.
Lemma cont_spp h : 0 <= h <= H -> continuous (fun h => dd A B * dd A C * dd A D / dd A E * (h ^ 2 / (sf A B C D h * pp h))) h.
Proof.
  intros Hh. apply (continuous_mult (fun _ => dd A B * dd A C * dd A D / dd A E) (fun h => h ^ 2 / (sf A B C D h * pp h))); [apply continuous_const|]. apply (cont_sp A B C D H); assumption.
Qed.
Lemma cont_w3 h : 0 <= h <= H -> continuous w3 h.
Proof.
  intros Hh. apply (continuous_mult (fun _ => / (2 * H)) (fun h => L A h / (L E h * sf A B C D h) - dd A B * dd A C * dd A D / dd A E * (h ^ 2 / (sf A B C D h * pp h)))); [apply continuous_const|].
  apply (continuous_minus (fun h => L A h / (L E h * sf A B C D h)) (fun h => dd A B * dd A C * dd A D / dd A E * (h ^ 2 / (sf A B C D h * pp h)))); [apply cont_LAE, Hh|apply cont_spp, Hh].
Qed.
Lemma S_low : exists m, 0 < m /\ forall h, 0 < h <= H -> m <= Sf h.
Proof.
  destruct (X_low H E HH PE) as (mE & HE & LE). exists (Yf B * Yf C * Yf D / Yf A * (mE * mE)). split; [unfold Rdiv; pos|]. intros h Hh. assert (Hh' : 0 <= h <= H) by lra. specialize (LE h Hh'). unfold Sf.
  assert (0 < Xf B h * Xf C h * Xf D h / Xf A h * (Yf E * Yf E)) by (clear Hh; unfold Rdiv; pos). assert (K : 0 < Yf B * Yf C * Yf D / Yf A) by (unfold Rdiv; pos). assert (Yf B * Yf C * Yf D / Yf A * (mE * mE) <= Yf B * Yf C * Yf D / Yf A * (Xf E h * Xf E h)); [|lra].
  apply Rmult_le_compat_l; [lra|]. apply Rmult_le_compat; lra.
Qed.
Lemma third_kind_RC : carlson_RC (Sf H ^ 2) (Qf H) (RInt w3 0 H).
Proof.
  unfold carlson_RC. pose proof (Sf_pos H ltac:(lra)) as S1. pose proof (Qf_pos H ltac:(lra)) as Q1. set (phi := fun h => H ^ 2 * (Sf h / h) ^ 2 - Sf H ^ 2).
  assert (SQ : forall h, 0 < h <= H -> phi h + Qf H = H ^ 2 * (Qf h / h ^ 2)).
  { intros h Hh. pose proof (S_Q h Hh) as E1. pose proof (S_Q H ltac:(lra)) as E2. unfold phi. assert (E3 : Sf H ^ 2 - Qf H = H ^ 2 * (dd B E * dd C E * dd D E / dd A E)) by (rewrite <- E2; field; lra). replace (Qf h / h ^ 2) with ((Sf h / h) ^ 2 - dd B E * dd C E * dd D E / dd A E) by lra. lra. }
  assert (CF : forall t, 0 < t + Sf H ^ 2 -> 0 < t + Qf H -> continuous (fun t => 1 / (2 * (sqrt (t + Sf H ^ 2) * (t + Qf H)))) t).
  { intros t p1 p2. apply (ex_derive_continuous (fun t => 1 / (2 * (sqrt (t + Sf H ^ 2) * (t + Qf H))))). auto_derive. split; [exact p1|]. split; [|exact I]. apply Rgt_not_eq, Rmult_lt_0_compat; [lra|]. apply Rmult_lt_0_compat; [apply sqrt_lt_R0, p1|exact p2]. }
  assert (Q2 : forall h, 0 < h <= H -> 0 < H ^ 2 * (Qf h / h ^ 2)) by (intros h Hh; pose proof (Qf_pos h ltac:(lra)); apply Rmult_lt_0_compat; [apply pow_lt, HH|]; apply Rdiv_lt_0_compat; [assumption|apply pow_lt; lra]).
  assert (S2 : forall h, 0 < h <= H -> 0 < Sf h / h) by (intros h Hh; apply Rdiv_lt_0_compat; [apply Sf_pos; lra|lra]).
  apply (subst0 H phi (fun h => H ^ 2 * (2 * (Sf h / h) * (- / 2 * (Qf h / h ^ 2) * (L A h / (L E h * sf A B C D h) - dd A B * dd A C * dd A D / dd A E * (h ^ 2 / (sf A B C D h * pp h))))))); try assumption.
  - intros h Hh. split; [apply (derive_sq_shift (fun t => Sf t / t)), S_derive, Hh|].
    pose proof (cont_LAE h ltac:(lra)) as C1. pose proof (cont_spp h ltac:(lra)) as C2.
    apply (continuous_mult (fun _ => H ^ 2) (fun h => 2 * (Sf h / h) * (- / 2 * (Qf h / h ^ 2) * (L A h / (L E h * sf A B C D h) - dd A B * dd A C * dd A D / dd A E * (h ^ 2 / (sf A B C D h * pp h)))))); [apply continuous_const|].
    apply (continuous_mult (fun h => 2 * (Sf h / h)) (fun h => - / 2 * (Qf h / h ^ 2) * (L A h / (L E h * sf A B C D h) - dd A B * dd A C * dd A D / dd A E * (h ^ 2 / (sf A B C D h * pp h))))).
    + apply (ex_derive_continuous (fun h => 2 * (Sf h / h))). pose proof (X_pos H A h HH PA ltac:(lra)). unfold Sf. auto_derive. repeat split; try (apply (ex_X H); first [assumption|lra]); lra.
    + apply (continuous_mult (fun h => - / 2 * (Qf h / h ^ 2)) (fun h => L A h / (L E h * sf A B C D h) - dd A B * dd A C * dd A D / dd A E * (h ^ 2 / (sf A B C D h * pp h)))).
      * apply (ex_derive_continuous (fun h => - / 2 * (Qf h / h ^ 2))). pose proof (X_pos H A h HH PA ltac:(lra)). pose proof (Y_pos H A PA). unfold Qf, pp, p_of, Nf. auto_derive. repeat split; try (apply (ex_X H); first [assumption|lra]).
        -- apply Rgt_not_eq. repeat apply Rmult_lt_0_compat; assumption.
        -- apply Rgt_not_eq. rewrite Rmult_1_r. apply Rmult_lt_0_compat; lra.
      * apply (continuous_minus (fun h => L A h / (L E h * sf A B C D h)) (fun h => dd A B * dd A C * dd A D / dd A E * (h ^ 2 / (sf A B C D h * pp h)))); assumption.
  - intros t Ht. apply CF; [apply Rplus_le_lt_0_compat; [exact Ht|apply pow_lt, S1]|lra].
  - intros h Hh. apply CF; [|rewrite SQ by exact Hh; apply Q2, Hh]. unfold phi. replace (H ^ 2 * (Sf h / h) ^ 2 - Sf H ^ 2 + Sf H ^ 2) with (H ^ 2 * (Sf h / h) ^ 2) by ring. apply Rmult_lt_0_compat; apply pow_lt; [exact HH|apply S2, Hh].
  - unfold phi. field. lra.
  - intros h Hh. cbv beta. rewrite (SQ h Hh). unfold phi. replace (H ^ 2 * (Sf h / h) ^ 2 - Sf H ^ 2 + Sf H ^ 2) with (H ^ 2 * (Sf h / h) ^ 2) by ring. rewrite sqrt_sq_pos by (assumption || apply S2, Hh). unfold w3. specialize (S2 h Hh). specialize (Q2 h Hh).
    assert (Q3 : 0 < Qf h / h ^ 2) by (apply Rmult_lt_reg_l with (H ^ 2); [apply pow_lt, HH|lra]). generalize dependent (Qf h / h ^ 2). intros qh _ Pq. generalize dependent (Sf h / h). intros sh Psh. set (br := L A h / _ - _). clearbody br. field. repeat split; lra.
  - apply cont_w3.
  - destruct S_low as (m & Hm & Lm). apply (to_infinity H m (Sf H ^ 2) Sf HH Hm Lm).
Qed.
Lemma third_kind_value : RInt (fun h => L A h / (L E h * sf A B C D h)) 0 H = 2 * H * RInt w3 0 H + dd A B * dd A C * dd A D / dd A E * RInt (fun h => h ^ 2 / (sf A B C D h * pp h)) 0 H.
Proof.
  pose proof (ex_int H HH _ cont_LAE) as X1. pose proof (ex_int H HH _ cont_spp) as X2. assert (X3 : ex_RInt (fun h => h ^ 2 / (sf A B C D h * pp h)) 0 H) by (apply (ex_int H HH); intros; apply (cont_sp A B C D H); assumption).
  unfold w3. rewrite int_scal by (try assumption; apply (ex_RInt_minus (V := R_NormedModule) (fun h => L A h / (L E h * sf A B C D h)) _ _ _ X1 X2)). rewrite (int_minus H (fun h => L A h / (L E h * sf A B C D h)) (fun h => dd A B * dd A C * dd A D / dd A E * (h ^ 2 / (sf A B C D h * pp h))) X1 X2).
  rewrite (int_scal H _ _ X3). assert (Al : forall x c y : R, x = 2 * H * (/ (2 * H) * (x - c * y)) + c * y) by (intros; field; lra). apply Al.
Qed.
End Five.
