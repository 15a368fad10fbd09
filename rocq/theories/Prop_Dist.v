(** Claims C41, C42. *)
From Coq Require Import Reals Lra.
From Coquelicot Require Import Hierarchy Continuity Derive AutoDerive Complex.
From Verif Require Import RootsPrincipal CosmoDist.
Open Scope R_scope.

(** ** The specification: the textbook distance and volume in a space of constant curvature *)
(** transverse distance for the radial distance d (both in units of the Hubble distance) *)
Definition spec_DM (k d : R) : R :=
  if Rlt_dec 0 k then sinh (sqrt k * d) / sqrt k else if Rlt_dec k 0 then sin (sqrt (- k) * d) / sqrt (- k) else d.

Lemma psqrt_nonneg k : 0 <= k -> psqrt (RtoC k) = RtoC (sqrt k).
Proof.
  intros K. assert (E : RtoC k = Cmult (RtoC (sqrt k)) (RtoC (sqrt k))) by (rewrite <- RtoC_mult, sqrt_sqrt by exact K; reflexivity). rewrite E. rewrite (principal_square psqrt _ psqrt_principal).
  - simpl. destruct (Rle_dec 0 (sqrt k)) as [|N]; [reflexivity|]. exfalso. apply N, sqrt_pos.
  - simpl. lra.
Qed.
Lemma psqrt_neg k : k < 0 -> psqrt (RtoC k) = (0, sqrt (- k)).
Proof.
  intros K. assert (E : RtoC k = Cmult (0, sqrt (- k)) (0, sqrt (- k))). { pose proof (sqrt_sqrt (- k) ltac:(lra)). apply injective_projections; simpl; lra. } rewrite E. rewrite (principal_square psqrt _ psqrt_principal).
  - simpl. destruct (Rle_dec 0 0) as [|N]; [reflexivity|lra].
  - simpl. pose proof (sqrt_pos (- k)). lra.
Qed.
Lemma PI_C : RtoC PI <> 0.
Proof. intros E. apply RtoC_inj in E. pose proof PI_RGT_0. lra. Qed.
Lemma arg_pi k t : Cmult (Cmult (isqrtOk0_pi k) (RtoC t)) (RtoC PI) = Cmult (Cmult Ci (sqrtOk0 k)) (RtoC t).
Proof. unfold isqrtOk0_pi. field. apply PI_C. Qed.
Lemma arg_pos k t : 0 <= k -> Cmult (Cmult Ci (sqrtOk0 k)) (RtoC t) = (0, sqrt k * t).
Proof. intros K. unfold sqrtOk0. rewrite psqrt_nonneg by exact K. apply injective_projections; simpl; ring. Qed.
Lemma arg_neg k t : k < 0 -> Cmult (Cmult Ci (sqrtOk0 k)) (RtoC t) = RtoC (- (sqrt (- k) * t)).
Proof. intros K. unfold sqrtOk0. rewrite psqrt_neg by exact K. apply injective_projections; simpl; ring. Qed.
Lemma pair_0 a b : (a, b) = RtoC 0 -> a = 0 /\ b = 0.
Proof. unfold RtoC. intros [= -> ->]. split; reflexivity. Qed.
(** The argument of sinc, the value of sinc. *)
Lemma sinc_pos k t : 0 <= k -> sinc (Cmult (isqrtOk0_pi k) (RtoC t)) = RtoC (if Req_EM_T (sqrt k * t) 0 then 1 else sinh (sqrt k * t) / (sqrt k * t)).
Proof.
  intros K. unfold sinc. rewrite arg_pi, arg_pos by exact K. set (y := sqrt k * t). clearbody y. destruct (Ceq_dec (0, y) 0) as [E|N]; destruct (Req_EM_T y 0) as [E'|N'].
  - reflexivity.
  - exfalso. apply N'. apply pair_0 in E. tauto.
  - exfalso. apply N. rewrite E'. reflexivity.
  - unfold csin. simpl. rewrite sin_0, cos_0. apply injective_projections; simpl; field; exact N'.
Qed.
Lemma sinc_neg k t : k < 0 -> sinc (Cmult (isqrtOk0_pi k) (RtoC t)) = RtoC (if Req_EM_T (sqrt (- k) * t) 0 then 1 else sin (sqrt (- k) * t) / (sqrt (- k) * t)).
Proof.
  intros K. unfold sinc. rewrite arg_pi, arg_neg by exact K. set (y := sqrt (- k) * t). destruct (Ceq_dec (RtoC (- y)) 0) as [E|N]; destruct (Req_EM_T y 0) as [E'|N'].
  - reflexivity.
  - exfalso. apply N'. apply RtoC_inj in E. lra.
  - exfalso. apply N. rewrite E'. f_equal. lra.
  - unfold csin. simpl. rewrite cosh_0, sinh_0, sin_neg. apply injective_projections; simpl; field; lra.
Qed.
(** ** C41 *)
(** The transverse distance is the textbook one, for every curvature. *)
Theorem C41_transverse k d : transform_curved k d = spec_DM k d.
Proof.
  unfold transform_curved, spec_DM. destruct (Rlt_dec 0 k) as [P|NP].
  - rewrite sinc_pos by lra. pose proof (sqrt_lt_R0 k P) as S. destruct (Req_EM_T (sqrt k * d) 0) as [E|N]; simpl.
    + apply Rmult_integral in E as [E|E]; [lra|]. subst d. rewrite Rmult_0_r, sinh_0. unfold Rdiv. ring.
    + field. split; [lra|]. intros ->. apply N. ring.
  - destruct (Rlt_dec k 0) as [Q|NQ].
    + rewrite sinc_neg by lra. pose proof (sqrt_lt_R0 (- k) ltac:(lra)) as S. destruct (Req_EM_T (sqrt (- k) * d) 0) as [E|N]; simpl.
      * apply Rmult_integral in E as [E|E]; [lra|]. subst d. rewrite Rmult_0_r, sin_0. unfold Rdiv. ring.
      * field. split; [lra|]. intros ->. apply N. ring.
    + assert (k = 0) as -> by lra. rewrite sinc_pos by lra. rewrite sqrt_0, Rmult_0_l. destruct (Req_EM_T 0 0) as [_|N]; [simpl; ring|congruence].
Qed.
(** Flat limit: at zero curvature it is the radial distance, as in the flat classes; and it is the limit of the curved ones. *)
Theorem C41_flat d : transform_curved 0 d = d /\ flat_transform_curved d = d.
Proof. split; [|reflexivity]. rewrite C41_transverse. unfold spec_DM. destruct (Rlt_dec 0 0); [lra|]. reflexivity. Qed.
Section Relations.
Variables (driver : comoving) (curvature : option R) (inv_e : R -> R) (dh pc10 : R).
Notation DM := (comoving_transverse_distance driver curvature dh).
Notation DA := (angular_diameter_distance driver curvature dh).
Notation DL := (luminosity_distance driver curvature dh).
Theorem C41_relations z : -1 < z -> DL z = (1 + z) * DM z /\ DL z = (1 + z) ^ 2 * DA z /\ DM z = (1 + z) * DA z.
Proof.
  intros Z. unfold luminosity_distance, comoving_transverse_distance, angular_diameter_distance, luminosity_distance_dimless, angular_diameter_distance_dimless. repeat split; [ring|field; lra|field; lra].
Qed.
(** In units of the Hubble distance the transverse distance is the textbook function of the radial one. *)
Theorem C41_curved z : DM z = dh * spec_DM (match curvature with Some k => k | None => 0 end) (comoving_distance_dimless driver z).
Proof. unfold comoving_transverse_distance, comoving_transverse_distance_dimless, transform. destruct curvature as [k|]; [rewrite C41_transverse; reflexivity|]. unfold spec_DM. destruct (Rlt_dec 0 0); [lra|]. reflexivity. Qed.
(** The two-redshift forms at z1 = 0. *)
Theorem C41_two_redshifts z : (forall f, driver = Own1 f -> f 0 = 0) ->
  comoving_distance_dimless_z1z2 driver 0 z = comoving_distance_dimless driver z
  /\ comoving_transverse_distance_z1z2 driver curvature dh 0 z = DM z /\ angular_diameter_distance_z1z2 driver curvature dh 0 z = DA z.
Proof.
  intros H. assert (E : comoving_distance_dimless_z1z2 driver 0 z = comoving_distance_dimless driver z). { unfold comoving_distance_dimless_z1z2, comoving_distance_dimless in *. destruct driver as [f|f]; [reflexivity|]. rewrite (H f eq_refl). ring. }
  split; [exact E|]. unfold comoving_transverse_distance_z1z2, angular_diameter_distance_z1z2, angular_diameter_distance_dimless_z1z2, comoving_transverse_distance_dimless_z1z2. rewrite E. split; reflexivity.
Qed.
(** Comoving distances from one redshift to another are additive for drivers that define the one-redshift form. *)
Theorem C41_additive z1 z2 z3 : (exists f, driver = Own1 f) -> comoving_distance_dimless_z1z2 driver z1 z2 + comoving_distance_dimless_z1z2 driver z2 z3 = comoving_distance_dimless_z1z2 driver z1 z3.
Proof. intros (f & E). rewrite E. simpl. ring. Qed.
(** The distance modulus. *)
Theorem C41_distmod z : 0 < pc10 -> 0 < dh -> DL z <> 0 -> distmod driver curvature dh pc10 z = 5 * log10 (Rabs (DL z / pc10)) /\ (0 < DL z -> distmod driver curvature dh pc10 z = 5 * log10 (DL z / pc10)).
Proof.
  intros P H N. assert (E : distmod driver curvature dh pc10 z = 5 * log10 (Rabs (DL z / pc10))).
  { unfold distmod, hubble_distance_in_10pc, luminosity_distance, log10 in *. set (l := luminosity_distance_dimless driver curvature z) in *. assert (Q : l * (dh / pc10) = dh * l / pc10) by (unfold Rdiv; ring). rewrite Q. set (x := dh * l / pc10). assert (X : x <> 0) by (unfold x, Rdiv; apply Rmult_integral_contrapositive_currified; [exact N|apply Rinv_neq_0_compat; lra]).
    rewrite <- Rsqr_pow2, Rsqr_abs. unfold Rsqr. rewrite ln_mult by (apply Rabs_pos_lt, X). assert (T : 0 < ln 10) by (rewrite <- ln_1; apply ln_increasing; lra). generalize (ln (Rabs x)). intros y. replace 2.5 with (5 / 2) by lra. field. lra. }
  split; [exact E|]. intros D. rewrite E, Rabs_pos_eq; [reflexivity|]. left. apply Rdiv_lt_0_compat; assumption.
Qed.
End Relations.

(** ** C42 *)
Lemma vol_arg k dc : Cmult (Cmult (RtoC 2) (isqrtOk0_pi k)) (RtoC dc) = Cmult (isqrtOk0_pi k) (RtoC (2 * dc)).
Proof. rewrite RtoC_mult. ring. Qed.
Lemma sq_pos k t : 0 <= k -> Cmult (Cmult (Cmult (isqrtOk0_pi k) (RtoC t)) (RtoC PI)) (Cmult (Cmult (isqrtOk0_pi k) (RtoC t)) (RtoC PI)) = RtoC (- (k * t ^ 2)).
Proof. intros K. rewrite arg_pi, arg_pos by exact K. pose proof (sqrt_sqrt k K) as S. apply injective_projections; simpl; [|ring]. transitivity (- (sqrt k * sqrt k) * (t * t)); [ring|rewrite S; ring]. Qed.
Lemma sq_neg k t : k < 0 -> Cmult (Cmult (Cmult (isqrtOk0_pi k) (RtoC t)) (RtoC PI)) (Cmult (Cmult (isqrtOk0_pi k) (RtoC t)) (RtoC PI)) = RtoC (- (k * t ^ 2)).
Proof. intros K. rewrite arg_pi, arg_neg by exact K. pose proof (sqrt_sqrt (- k) ltac:(lra)) as S. apply injective_projections; simpl; [|ring]. transitivity ((sqrt (- k) * sqrt (- k)) * (t * t)); [ring|rewrite S; ring]. Qed.
Lemma Cmod_arg k t : Cmod (Cmult (isqrtOk0_pi k) (RtoC t)) = sqrt (Rabs k) * Rabs t / PI.
Proof.
  rewrite Cmod_mult, Cmod_R. unfold isqrtOk0_pi. pose proof PI_RGT_0 as P. rewrite Cmod_div by apply PI_C. rewrite Cmod_mult, Cmod_R, (Rabs_pos_eq PI) by lra.
  assert (Cmod Ci = 1) as ->. { unfold Cmod, Ci; simpl. replace (0 * (0 * 1) + 1 * (1 * 1)) with 1 by ring. apply sqrt_1. }
  assert (Cmod (sqrtOk0 k) = sqrt (Rabs k)) as ->; [|field; lra]. unfold sqrtOk0. destruct (Rle_lt_dec 0 k) as [K|K].
  - rewrite psqrt_nonneg, Cmod_R by exact K. rewrite (Rabs_pos_eq k) by exact K. apply Rabs_pos_eq, sqrt_pos.
  - rewrite psqrt_neg by exact K. rewrite (Rabs_left k) by exact K. unfold Cmod; simpl. replace (0 * (0 * 1) + sqrt (- k) * (sqrt (- k) * 1)) with (sqrt (- k) * sqrt (- k)) by ring. apply sqrt_square, sqrt_pos.
Qed.
(** The closed form away from the small-argument branch. *)
Definition closed_volume (k d : R) : R :=
  if Rlt_dec 0 k then 2 * PI / k * (sinh (2 * (sqrt k * d)) / (2 * sqrt k) - d) else if Rlt_dec k 0 then 2 * PI / k * (sin (2 * (sqrt (- k) * d)) / (2 * sqrt (- k)) - d) else 4 * PI / 3 * d ^ 3.
Lemma volume_value tensor k d eps : 0 <= eps -> eps < 2 * (sqrt (Rabs k) * Rabs d) / PI -> comoving_volume_of tensor k d eps = Some (closed_volume k d).
Proof.
  intros E0 E. pose proof PI_RGT_0 as P. assert (Pos : 0 < sqrt (Rabs k) * Rabs d). { apply (Rmult_lt_reg_l (2 / PI)); [apply Rdiv_lt_0_compat; lra|]. rewrite Rmult_0_r. replace (2 / PI * (sqrt (Rabs k) * Rabs d)) with (2 * (sqrt (Rabs k) * Rabs d) / PI) by (field; lra). lra. }
  assert (K0 : k <> 0) by (intros ->; rewrite Rabs_R0, sqrt_0 in Pos; lra). assert (D0 : d <> 0) by (intros ->; rewrite Rabs_R0 in Pos; lra).
  unfold comoving_volume_of. rewrite vol_arg. unfold csinc. destruct (Rlt_dec eps (Cmod (Cmult (isqrtOk0_pi k) (RtoC (2 * d))))) as [_|N].
  2: { exfalso. apply N. rewrite Cmod_arg, Rabs_mult, (Rabs_pos_eq 2) by lra. replace (sqrt (Rabs k) * (2 * Rabs d) / PI) with (2 * (sqrt (Rabs k) * Rabs d) / PI) by (field; lra). exact E. }
  unfold closed_volume. destruct (Rlt_dec 0 k) as [K|NK]; [|destruct (Rlt_dec k 0) as [K|NK']; [|lra]].
  - rewrite sq_pos by lra. rewrite sinc_pos by lra. pose proof (sqrt_lt_R0 k K) as S. pose proof (sqrt_sqrt k ltac:(lra)) as SS. destruct (Req_EM_T (sqrt k * (2 * d)) 0) as [Z|N]; [apply Rmult_integral in Z as [Z|Z]; lra|]. rewrite <- !RtoC_minus, <- RtoC_div.
    2: { assert (0 < d ^ 2) by (destruct (Rdichotomy _ _ D0); nra). assert (0 < k * (2 * d) ^ 2) by (apply Rmult_lt_0_compat; nra). lra. }
    destruct (Ceq_dec _ 0) as [Z|_]. { apply RtoC_inj in Z. assert (0 < d ^ 2) by (destruct (Rdichotomy _ _ D0); nra). assert (0 < k * (2 * d) ^ 2) by (apply Rmult_lt_0_compat; nra). lra. }
    assert (V : 8 * PI * d ^ 3 * ((1 - sinh (sqrt k * (2 * d)) / (sqrt k * (2 * d))) / - (k * (2 * d) ^ 2)) = 2 * PI / k * (sinh (2 * (sqrt k * d)) / (2 * sqrt k) - d)). { replace (sqrt k * (2 * d)) with (2 * (sqrt k * d)) by ring. field. repeat split; lra. }
    destruct tensor; unfold Re, RtoC; cbn [fst]; rewrite V; reflexivity.
  - rewrite sq_neg by lra. rewrite sinc_neg by lra. pose proof (sqrt_lt_R0 (- k) ltac:(lra)) as S. pose proof (sqrt_sqrt (- k) ltac:(lra)) as SS. destruct (Req_EM_T (sqrt (- k) * (2 * d)) 0) as [Z|N]; [apply Rmult_integral in Z as [Z|Z]; lra|]. rewrite <- !RtoC_minus, <- RtoC_div.
    2: { assert (0 < d ^ 2) by (destruct (Rdichotomy _ _ D0); nra). assert (0 < - k * (2 * d) ^ 2) by (apply Rmult_lt_0_compat; nra). lra. }
    destruct (Ceq_dec _ 0) as [Z|_]. { apply RtoC_inj in Z. assert (0 < d ^ 2) by (destruct (Rdichotomy _ _ D0); nra). assert (0 < - k * (2 * d) ^ 2) by (apply Rmult_lt_0_compat; nra). lra. }
    assert (V : 8 * PI * d ^ 3 * ((1 - sin (sqrt (- k) * (2 * d)) / (sqrt (- k) * (2 * d))) / - (k * (2 * d) ^ 2)) = 2 * PI / k * (sin (2 * (sqrt (- k) * d)) / (2 * sqrt (- k)) - d)). { replace (sqrt (- k) * (2 * d)) with (2 * (sqrt (- k) * d)) by ring. field. repeat split; lra. }
    destruct tensor; unfold Re, RtoC; cbn [fst]; rewrite V; reflexivity.
Qed.
Lemma cosh_double x : cosh (2 * x) = 1 + 2 * (sinh x * sinh x).
Proof. unfold cosh, sinh. replace (2 * x) with (x + x) by ring. replace (- (x + x)) with (- x + - x) by ring. rewrite !exp_plus. pose proof (exp_plus x (- x)) as E. rewrite Rplus_opp_r, exp_0 in E. set (a := exp x) in *. set (b := exp (- x)) in *. transitivity ((a * a + b * b) / 2); [reflexivity|]. replace (1 + 2 * ((a - b) / 2 * ((a - b) / 2))) with (1 + (a * a + b * b) / 2 - a * b) by field. lra. Qed.
Lemma closed_derive k d : is_derive (closed_volume k) d (4 * PI * spec_DM k d ^ 2).
Proof.
  unfold closed_volume, spec_DM. destruct (Rlt_dec 0 k) as [K|NK]; [|destruct (Rlt_dec k 0) as [K|NK']].
  - pose proof (sqrt_lt_R0 k K) as S. pose proof (sqrt_sqrt k ltac:(lra)) as SS. set (q := sqrt k) in *. clearbody q. assert (Ds : is_derive (fun d => sinh (2 * (q * d))) d (cosh (2 * (q * d)) * (2 * q))).
    { pose proof (is_derive_comp sinh (fun d => 2 * (q * d)) d (cosh (2 * (q * d))) (2 * q)) as H. unfold scal in H; simpl in H; unfold mult in H; simpl in H. rewrite Rmult_comm. apply H; [apply is_derive_Reals, derivable_pt_lim_sinh|auto_derive; [exact I|ring]]. }
    apply is_derive_ext with (f := fun d => 2 * PI / k / (2 * q) * sinh (2 * (q * d)) - 2 * PI / k * d); [intros t; apply (eq_trans (y := 2 * PI / k * (sinh (2 * (q * t)) / (2 * q) - t))); [field; lra|reflexivity]|].
    replace (4 * PI * (sinh (q * d) / q) ^ 2) with (minus (2 * PI / k / (2 * q) * (cosh (2 * (q * d)) * (2 * q))) (2 * PI / k)).
    + apply (@is_derive_minus R_AbsRing R_NormedModule); [apply is_derive_scal, Ds|auto_derive; [exact I|ring]].
    + unfold minus, plus, opp; simpl. rewrite cosh_double, <- SS. field. lra.
  - pose proof (sqrt_lt_R0 (- k) ltac:(lra)) as S. pose proof (sqrt_sqrt (- k) ltac:(lra)) as SS. set (q := sqrt (- k)) in *. clearbody q. auto_derive; [exact I|]. assert (k = - (q * q)) as -> by lra. rewrite !Rmult_1_r, cos_2a_sin. field. lra.
  - auto_derive; [exact I|]. field.
Qed.
(** The volume of a curved class: away from the branch for small arguments its derivative with respect to the radial distance is 4 pi DM^2. *)
Theorem C42_volume tensor k d eps : 0 <= eps -> eps < 2 * (sqrt (Rabs k) * Rabs d) / PI ->
  exists V, (exists delta : posreal, forall t, Rabs (t - d) < delta -> comoving_volume_of tensor k t eps = Some (V t)) /\ is_derive V d (4 * PI * spec_DM k d ^ 2).
Proof.
  intros E0 E. exists (closed_volume k). split; [|apply closed_derive].
  pose proof PI_RGT_0 as P. assert (Q : 0 < sqrt (Rabs k)). { destruct (sqrt_pos (Rabs k)) as [Q|Q]; [exact Q|]. rewrite <- Q in E. unfold Rdiv in E. lra. }
  set (c := 2 * sqrt (Rabs k) / PI). assert (Cp : 0 < c) by (apply Rdiv_lt_0_compat; lra). assert (E' : eps < c * Rabs d) by (unfold c; replace (2 * sqrt (Rabs k) / PI * Rabs d) with (2 * (sqrt (Rabs k) * Rabs d) / PI) by (field; lra); exact E).
  set (dl := (c * Rabs d - eps) / c). assert (Dp : 0 < dl) by (apply Rdiv_lt_0_compat; lra). exists (mkposreal dl Dp). intros t T. simpl in T. apply volume_value; [exact E0|]. replace (2 * (sqrt (Rabs k) * Rabs t) / PI) with (c * Rabs t) by (unfold c; field; lra).
  assert (Rabs d - Rabs t <= Rabs (t - d)). { rewrite (Rabs_minus_sym t d). apply Rabs_triang_inv. } assert (c * (Rabs d - Rabs t) < c * dl) by (apply Rmult_lt_compat_l; lra). unfold dl in H0. replace (c * ((c * Rabs d - eps) / c)) with (c * Rabs d - eps) in H0 by (field; lra). lra.
Qed.
(** Zero curvature, and the flat classes: for every distance. *)
Theorem C42_flat eps d : 0 <= eps -> (forall t, comoving_volume_of true 0 t eps = Some (4 * PI / 3 * t ^ 3)) /\ flat_comoving_volume_of d = 4 * PI / 3 * d ^ 3 /\ is_derive flat_comoving_volume_of d (4 * PI * flat_transform_curved d ^ 2) /\ flat_transform_curved d = spec_DM 0 d.
Proof.
  intros E. split; [|split; [reflexivity|split]].
  - intros t. unfold comoving_volume_of, csinc. rewrite vol_arg. destruct (Rlt_dec eps _) as [L|_].
    + exfalso. rewrite Cmod_arg, Rabs_R0, sqrt_0 in L. unfold Rdiv in L. lra.
    + simpl. f_equal. field.
  - unfold flat_transform_curved. apply is_derive_ext with (f := fun d => 4 * PI / 3 * d ^ 3); [reflexivity|]. auto_derive; [exact I|]. field.
  - unfold flat_transform_curved, spec_DM. destruct (Rlt_dec 0 0); [lra|reflexivity].
Qed.
(** On the small-argument branch the value is that of flat space, for any curvature (for tensors). *)
Theorem C42_small k d eps : 2 * (sqrt (Rabs k) * Rabs d) / PI <= eps -> comoving_volume_of true k d eps = Some (4 * PI / 3 * d ^ 3).
Proof.
  intros E. pose proof PI_RGT_0 as P. unfold comoving_volume_of, csinc. rewrite vol_arg. destruct (Rlt_dec eps _) as [L|_].
  - exfalso. rewrite Cmod_arg, Rabs_mult, (Rabs_pos_eq 2) in L by lra. replace (sqrt (Rabs k) * (2 * Rabs d) / PI) with (2 * (sqrt (Rabs k) * Rabs d) / PI) in L by (field; lra). lra.
  - simpl. f_equal. field.
Qed.
(** On a Python number (not a tensor) the volume at zero distance or zero curvature is a ZeroDivisionError, although the limit 1/6 is provided. *)
Theorem C42_scalar_refuted k d eps : k = 0 \/ d = 0 -> comoving_volume_of false k d eps = None.
Proof.
  intros H. unfold comoving_volume_of, csinc. rewrite vol_arg. assert (Z : Cmult (Cmult (Cmult (isqrtOk0_pi k) (RtoC (2 * d))) (RtoC PI)) (Cmult (Cmult (isqrtOk0_pi k) (RtoC (2 * d))) (RtoC PI)) = RtoC 0).
  { destruct (Rle_lt_dec 0 k) as [K|K]; [rewrite sq_pos by exact K|rewrite sq_neg by exact K]; f_equal; destruct H as [->| ->]; ring. }
  rewrite Z. destruct (Ceq_dec 0 0) as [_|N]; [reflexivity|congruence].
Qed.
(** The redshift derivative of the volume is 4 pi times the differential volume, if the distance is the integral of 1/E. *)
Theorem C42_redshift driver k (inv_e : R -> R) z eps : 0 <= eps -> is_derive (comoving_distance_dimless driver) z (inv_e z) -> eps < 2 * (sqrt (Rabs k) * Rabs (comoving_distance_dimless driver z)) / PI ->
  exists V, (exists delta : posreal, forall t, Rabs (t - z) < delta -> comoving_volume_dimless driver (Some k) true eps t = Some (V t)) /\ is_derive V z (4 * PI * differential_comoving_volume_dimless driver (Some k) inv_e z).
Proof.
  intros E0 D E. set (dc := comoving_distance_dimless driver) in *. destruct (C42_volume true k (dc z) eps E0 E) as (V & (dl & L) & DV). exists (fun t => V (dc t)). split.
  - assert (Cn : continuous dc z) by (apply (ex_derive_continuous (V := R_NormedModule)); eexists; exact D). destruct (Cn (ball (dc z) dl)) as (r & Rr); [exists dl; intros y Hy; exact Hy|]. exists r. intros t T. apply L. apply (Rr t). exact T.
  - pose proof (is_derive_comp V dc z _ _ DV D) as C. unfold scal in C; simpl in C; unfold mult in C; simpl in C. unfold differential_comoving_volume_dimless, comoving_transverse_distance_dimless, transform. fold dc. rewrite C41_transverse. replace (4 * PI * (spec_DM k (dc z) ^ 2 * inv_e z)) with (inv_e z * (4 * PI * (spec_DM k (dc z) * (spec_DM k (dc z) * 1)))) by ring. exact C.
Qed.
Theorem C42_redshift_flat driver (inv_e : R -> R) z eps : is_derive (comoving_distance_dimless driver) z (inv_e z) ->
  exists V, (forall t, comoving_volume_dimless driver None true eps t = Some (V t)) /\ is_derive V z (4 * PI * differential_comoving_volume_dimless driver None inv_e z).
Proof.
  intros D. set (dc := comoving_distance_dimless driver) in *. exists (fun t => flat_comoving_volume_of (dc t)). split; [reflexivity|]. destruct (C42_flat 0 (dc z) ltac:(lra)) as (_ & _ & DV & _). pose proof (is_derive_comp _ dc z _ _ DV D) as C. unfold scal in C; simpl in C; unfold mult in C; simpl in C.
  unfold differential_comoving_volume_dimless, comoving_transverse_distance_dimless, transform. fold dc. replace (4 * PI * (flat_transform_curved (dc z) ^ 2 * inv_e z)) with (inv_e z * (4 * PI * (flat_transform_curved (dc z) * (flat_transform_curved (dc z) * 1)))) by ring. exact C.
Qed.

(** ** The error of the small-argument branch *)
Lemma grows g g' b : (forall t, 0 <= t <= b -> is_derive g t (g' t)) -> 0 <= g 0 -> (forall t, 0 <= t <= b -> 0 <= g' t) -> forall t, 0 <= t <= b -> 0 <= g t.
Proof.
  intros D G0 P t T. destruct (Req_dec t 0) as [->|N]; [exact G0|]. destruct (MVT_cor2 g g' 0 t ltac:(lra)) as (c & E & B).
  - intros c C. apply is_derive_Reals, D. lra.
  - assert (0 <= g' c * (t - 0)) by (apply Rmult_le_pos; [apply P; lra|lra]). lra.
Qed.
Lemma d_sinh x : is_derive sinh x (cosh x). Proof. apply is_derive_Reals, derivable_pt_lim_sinh. Qed.
Lemma d_cosh x : is_derive cosh x (sinh x). Proof. apply is_derive_Reals, derivable_pt_lim_cosh. Qed.
Lemma d_sin x : is_derive sin x (cos x). Proof. apply is_derive_Reals, derivable_pt_lim_sin. Qed.
Lemma d_cos x : is_derive cos x (- sin x). Proof. apply is_derive_Reals, derivable_pt_lim_cos. Qed.
Lemma d_minus f g x a b : is_derive f x a -> is_derive g x b -> is_derive (fun t => f t - g t) x (a - b).
Proof. apply (@is_derive_minus R_AbsRing R_NormedModule). Qed.
Ltac poly := auto_derive; [exact I|field].
Lemma cosh_le2 t : 0 <= t <= 1 -> cosh t <= 2.
Proof.
  intros T. unfold cosh. assert (exp t <= 3). { apply Rle_trans with (exp 1); [|apply exp_le_3]. destruct (proj2 T) as [L|L]; [left; apply exp_increasing, L|right; f_equal; exact L]. }
  assert (exp (- t) <= 1). { rewrite <- exp_0. destruct (proj1 T) as [L|L]; [left; apply exp_increasing; lra|right; f_equal; lra]. } lra.
Qed.
Lemma sinh_bounds y : 0 <= y <= 1 -> y + y ^ 3 / 6 <= sinh y <= y + y ^ 3 / 6 + y ^ 5 / 60.
Proof.
  intros Y. assert (S0 : forall t, 0 <= t <= 1 -> 0 <= sinh t) by (intros t T; destruct (proj1 T) as [L|L]; [left; rewrite <- sinh_0; apply sinh_lt, L|rewrite <- L, sinh_0; lra]). split.
  - assert (H1 : forall t, 0 <= t <= 1 -> 0 <= cosh t - 1). { apply (grows (fun t => cosh t - 1) sinh); [|rewrite cosh_0; lra|exact S0]. intros t _. replace (sinh t) with (sinh t - 0) by ring. apply (d_minus cosh (fun _ => 1)); [apply d_cosh|poly]. }
    assert (H2 : forall t, 0 <= t <= 1 -> 0 <= sinh t - t). { apply (grows _ (fun t => cosh t - 1)); [|rewrite sinh_0; lra|exact H1]. intros t _. apply (d_minus sinh (fun t => t)); [apply d_sinh|poly]. }
    assert (H3 : forall t, 0 <= t <= 1 -> 0 <= cosh t - (1 + t ^ 2 / 2)). { apply (grows _ (fun t => sinh t - t)); [|rewrite cosh_0; lra|exact H2]. intros t _. apply (d_minus cosh (fun t => 1 + t ^ 2 / 2)); [apply d_cosh|poly]. }
    assert (H4 : forall t, 0 <= t <= 1 -> 0 <= sinh t - (t + t ^ 3 / 6)). { apply (grows _ (fun t => cosh t - (1 + t ^ 2 / 2))); [|rewrite sinh_0; lra|exact H3]. intros t _. apply (d_minus sinh (fun t => t + t ^ 3 / 6)); [apply d_sinh|poly]. }
    specialize (H4 y Y). lra.
  - assert (H1 : forall t, 0 <= t <= 1 -> 0 <= 2 * t - sinh t). { apply (grows _ (fun t => 2 - cosh t)); [|rewrite sinh_0; lra|intros t T; pose proof (cosh_le2 t T); lra]. intros t _. apply (d_minus (fun t => 2 * t) sinh); [poly|apply d_sinh]. }
    assert (H2 : forall t, 0 <= t <= 1 -> 0 <= 1 + t ^ 2 - cosh t). { apply (grows _ (fun t => 2 * t - sinh t)); [|rewrite cosh_0; lra|exact H1]. intros t _. apply (d_minus (fun t => 1 + t ^ 2) cosh); [poly|apply d_cosh]. }
    assert (H3 : forall t, 0 <= t <= 1 -> 0 <= t + t ^ 3 / 3 - sinh t). { apply (grows _ (fun t => 1 + t ^ 2 - cosh t)); [|rewrite sinh_0; lra|exact H2]. intros t _. apply (d_minus (fun t => t + t ^ 3 / 3) sinh); [poly|apply d_sinh]. }
    assert (H4 : forall t, 0 <= t <= 1 -> 0 <= 1 + t ^ 2 / 2 + t ^ 4 / 12 - cosh t). { apply (grows _ (fun t => t + t ^ 3 / 3 - sinh t)); [|rewrite cosh_0; lra|exact H3]. intros t _. apply (d_minus (fun t => 1 + t ^ 2 / 2 + t ^ 4 / 12) cosh); [poly|apply d_cosh]. }
    assert (H5 : forall t, 0 <= t <= 1 -> 0 <= t + t ^ 3 / 6 + t ^ 5 / 60 - sinh t). { apply (grows _ (fun t => 1 + t ^ 2 / 2 + t ^ 4 / 12 - cosh t)); [|rewrite sinh_0; lra|exact H4]. intros t _. apply (d_minus (fun t => t + t ^ 3 / 6 + t ^ 5 / 60) sinh); [poly|apply d_sinh]. }
    specialize (H5 y Y). lra.
Qed.
Lemma sin_bounds y : 0 <= y <= 1 -> y - y ^ 3 / 6 <= sin y <= y - y ^ 3 / 6 + y ^ 5 / 60.
Proof.
  intros Y. assert (P : 1 <= PI) by (pose proof PI2_1; lra). assert (C0 : forall t, 0 <= t <= 1 -> 0 <= 1 - cos t) by (intros t T; pose proof (COS_bound t); lra).
  assert (H1 : forall t, 0 <= t <= 1 -> 0 <= t - sin t). { apply (grows _ (fun t => 1 - cos t)); [|rewrite sin_0; lra|exact C0]. intros t _. apply (d_minus (fun t => t) sin); [poly|apply d_sin]. }
  assert (H2 : forall t, 0 <= t <= 1 -> 0 <= cos t - (1 - t ^ 2 / 2)). { apply (grows _ (fun t => t - sin t)); [|rewrite cos_0; lra|exact H1]. intros t _. replace (t - sin t) with (- sin t - (- t)) by ring. apply (d_minus cos (fun t => 1 - t ^ 2 / 2)); [apply d_cos|poly]. }
  assert (H3 : forall t, 0 <= t <= 1 -> 0 <= sin t - (t - t ^ 3 / 6)). { apply (grows _ (fun t => cos t - (1 - t ^ 2 / 2))); [|rewrite sin_0; lra|exact H2]. intros t _. apply (d_minus sin (fun t => t - t ^ 3 / 6)); [apply d_sin|poly]. }
  assert (H4 : forall t, 0 <= t <= 1 -> 0 <= 1 - t ^ 2 / 2 + t ^ 4 / 24 - cos t). { apply (grows _ (fun t => sin t - (t - t ^ 3 / 6))); [|rewrite cos_0; lra|exact H3]. intros t _. replace (sin t - (t - t ^ 3 / 6)) with (- t + t ^ 3 / 6 - - sin t) by ring. apply (d_minus (fun t => 1 - t ^ 2 / 2 + t ^ 4 / 24) cos); [poly|apply d_cos]. }
  assert (H5 : forall t, 0 <= t <= 1 -> 0 <= t - t ^ 3 / 6 + t ^ 5 / 120 - sin t). { apply (grows _ (fun t => 1 - t ^ 2 / 2 + t ^ 4 / 24 - cos t)); [|rewrite sin_0; lra|exact H4]. intros t _. apply (d_minus (fun t => t - t ^ 3 / 6 + t ^ 5 / 120) sin); [poly|apply d_sin]. }
  specialize (H3 y Y). specialize (H5 y Y). assert (0 <= y ^ 5) by (apply pow_le; lra). lra.
Qed.
Lemma closed_odd k d : closed_volume k (- d) = - closed_volume k d.
Proof.
  unfold closed_volume. destruct (Rlt_dec 0 k); [|destruct (Rlt_dec k 0)].
  - replace (2 * (sqrt k * - d)) with (- (2 * (sqrt k * d))) by ring. assert (O : forall x, sinh (- x) = - sinh x) by (intros x; unfold sinh; rewrite Ropp_involutive; field). rewrite O. unfold Rdiv. ring.
  - replace (2 * (sqrt (- k) * - d)) with (- (2 * (sqrt (- k) * d))) by ring. rewrite sin_neg. unfold Rdiv. ring.
  - unfold Rdiv. ring.
Qed.
Lemma small_error_pos k d : 0 <= d -> 2 * (sqrt (Rabs k) * d) <= 1 -> Rabs (4 * PI / 3 * d ^ 3 - closed_volume k d) <= 4 * PI / 3 * d ^ 3 * ((2 * (sqrt (Rabs k) * d)) ^ 2 / 10).
Proof.
  intros D Y. pose proof PI_RGT_0 as P. unfold closed_volume. destruct (Req_dec d 0) as [->|D0].
  { destruct (Rlt_dec 0 k); [|destruct (Rlt_dec k 0)]; rewrite ?Rmult_0_r, ?sinh_0, ?sin_0; unfold Rdiv; rewrite ?Rmult_0_l; rewrite !Rabs_pos_eq; simpl; lra. }
  assert (Q : 0 <= sqrt (Rabs k)) by apply sqrt_pos. destruct (Rlt_dec 0 k) as [K|NK]; [|destruct (Rlt_dec k 0) as [K|NK']].
  - rewrite (Rabs_pos_eq k) in * by lra. pose proof (sqrt_sqrt k ltac:(lra)) as SS. pose proof (sqrt_lt_R0 k K) as S. set (q := sqrt k) in *. clearbody q. set (y := 2 * (q * d)) in *. assert (Y0 : 0 < y) by (unfold y; assert (0 < q * d) by (apply Rmult_lt_0_compat; lra); lra). destruct (sinh_bounds y ltac:(lra)) as [L U].
    assert (V : 4 * PI / 3 * d ^ 3 - 2 * PI / k * (sinh y / (2 * q) - d) = 8 * PI * d ^ 3 / y ^ 3 * (y + y ^ 3 / 6 - sinh y)). { rewrite <- SS. unfold y at 2 3 4 5. fold y. unfold y. field. split; lra. }
    rewrite V, Rabs_mult. assert (F : 0 < 8 * PI * d ^ 3 / y ^ 3) by (apply Rdiv_lt_0_compat; [apply Rmult_lt_0_compat; [lra|apply pow_lt; lra]|apply pow_lt; lra]). rewrite (Rabs_pos_eq (8 * PI * d ^ 3 / y ^ 3)) by lra. rewrite Rabs_left1 by lra.
    replace (4 * PI / 3 * d ^ 3 * (y ^ 2 / 10)) with (8 * PI * d ^ 3 / y ^ 3 * (y ^ 5 / 60)) by (field; lra). apply Rmult_le_compat_l; lra.
  - rewrite (Rabs_left k) in * by lra. pose proof (sqrt_sqrt (- k) ltac:(lra)) as SS. pose proof (sqrt_lt_R0 (- k) ltac:(lra)) as S. set (q := sqrt (- k)) in *. clearbody q. set (y := 2 * (q * d)) in *. assert (Y0 : 0 < y) by (unfold y; assert (0 < q * d) by (apply Rmult_lt_0_compat; lra); lra). destruct (sin_bounds y ltac:(lra)) as [L U].
    assert (V : 4 * PI / 3 * d ^ 3 - 2 * PI / k * (sin y / (2 * q) - d) = 8 * PI * d ^ 3 / y ^ 3 * (sin y - (y - y ^ 3 / 6))). { assert (k = - (q * q)) as -> by lra. unfold y. field. split; lra. }
    rewrite V, Rabs_mult. assert (F : 0 < 8 * PI * d ^ 3 / y ^ 3) by (apply Rdiv_lt_0_compat; [apply Rmult_lt_0_compat; [lra|apply pow_lt; lra]|apply pow_lt; lra]). rewrite (Rabs_pos_eq (8 * PI * d ^ 3 / y ^ 3)) by lra. rewrite Rabs_pos_eq by lra.
    replace (4 * PI / 3 * d ^ 3 * (y ^ 2 / 10)) with (8 * PI * d ^ 3 / y ^ 3 * (y ^ 5 / 60)) by (field; lra). apply Rmult_le_compat_l; lra.
  - replace (4 * PI / 3 * d ^ 3 - 4 * PI / 3 * d ^ 3) with 0 by ring. rewrite Rabs_R0. apply Rmult_le_pos; [apply Rmult_le_pos; [lra|apply pow_le; lra]|]. unfold Rdiv. apply Rmult_le_pos; [apply pow2_ge_0|lra].
Qed.
(** On the small-argument branch the value differs from the exact volume by at most a relative 2 eps^2. *)
Theorem C42_small_error k d eps : 0 <= eps <= 1 / 4 -> 2 * (sqrt (Rabs k) * Rabs d) / PI <= eps -> exists v, comoving_volume_of true k d eps = Some v
  /\ Rabs (v - closed_volume k d) <= 2 * eps ^ 2 * Rabs v.
Proof.
  intros E H. exists (4 * PI / 3 * d ^ 3). split; [apply C42_small, H|]. pose proof PI_RGT_0 as P. pose proof PI_4 as P4. set (y := 2 * (sqrt (Rabs k) * Rabs d)) in *.
  assert (Y : y <= PI * eps). { apply (Rmult_le_reg_r (/ PI)); [apply Rinv_0_lt_compat; lra|]. replace (PI * eps * / PI) with eps by (field; lra). exact H. }
  assert (Y0 : 0 <= y) by (unfold y; pose proof (sqrt_pos (Rabs k)); pose proof (Rabs_pos d); assert (0 <= sqrt (Rabs k) * Rabs d) by (apply Rmult_le_pos; assumption); lra). assert (PE : PI * eps <= 4 * eps) by (apply Rmult_le_compat_r; lra).
  assert (Bd : Rabs (4 * PI / 3 * d ^ 3 - closed_volume k d) <= 4 * PI / 3 * Rabs d ^ 3 * (y ^ 2 / 10)).
  { pose proof (small_error_pos k (Rabs d) (Rabs_pos d) ltac:(fold y; lra)) as G. fold y in G. destruct (Rle_lt_dec 0 d) as [D|D]; [rewrite (Rabs_pos_eq d) in G |- * by exact D; exact G|]. rewrite (Rabs_left d) in G |- * by exact D. rewrite closed_odd in G. rewrite <- Rabs_Ropp. replace (- (4 * PI / 3 * d ^ 3 - closed_volume k d)) with (4 * PI / 3 * (- d) ^ 3 - - closed_volume k d) by ring. exact G. }
  apply Rle_trans with (1 := Bd). rewrite Rabs_mult, (Rabs_pos_eq (4 * PI / 3)) by (unfold Rdiv; lra). rewrite <- RPow_abs. rewrite (Rmult_comm (2 * eps ^ 2)). apply Rmult_le_compat_l; [apply Rmult_le_pos; [lra|apply pow_le, Rabs_pos]|].
  assert (y ^ 2 <= (4 * eps) ^ 2) by (apply pow_incr; lra). pose proof (pow2_ge_0 eps). replace ((4 * eps) ^ 2) with (16 * eps ^ 2) in H0 by ring. lra.
Qed.
(** ** The hypotheses can be met *)
Example C41_nonvacuous : spec_DM 1 1 = sinh 1 / sqrt 1 /\ spec_DM (-1) 1 = sin (sqrt 1 * 1) / sqrt 1.
Proof. unfold spec_DM. split; [destruct (Rlt_dec 0 1); [rewrite sqrt_1, Rmult_1_l; reflexivity|lra]|]. destruct (Rlt_dec 0 (-1)); [lra|]. destruct (Rlt_dec (-1) 0); [|lra]. replace (- (-1)) with 1 by lra. reflexivity. Qed.
Example C42_nonvacuous : 0 <= 0.00000001 /\ 0.00000001 < 2 * (sqrt (Rabs (-1)) * Rabs 1) / PI.
Proof. split; [lra|]. replace (Rabs (-1)) with 1 by (rewrite Rabs_left; lra). rewrite sqrt_1, Rabs_R1. pose proof PI_RGT_0. pose proof PI_4. apply (Rmult_lt_reg_r PI); [lra|]. replace (2 * (1 * 1) / PI * PI) with 2 by (field; lra). lra. Qed.
Print Assumptions C42_small_error. Print Assumptions C41_relations.
