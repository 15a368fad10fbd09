(** * R_G and Legendre's integrals by R_F, R_D, R_J *)
From Coq Require Import Reals Lra Lia Psatz Bool.
From Coquelicot Require Import Rcomplements Rbar Hierarchy Continuity Derive RInt RInt_analysis AutoDerive ElemFct.
From Verif Require Import EllipSpec Improper Ellipr CarlsonDup CarlsonTail CarlsonLoop CarlsonRC.
Open Scope R_scope.

Lemma lim0_close F G l C : lim0 G l -> (forall t, 0 < t -> Rabs (F t - G t) <= C * t) -> lim0 F l.
Proof.
  intros L B e He. destruct (L (e / 2) ltac:(lra)) as (d & Hd & H). assert (Pc : 0 < Rabs C + 1) by (pose proof (Rabs_pos C); lra). assert (P2 : 0 < e / 2 / (Rabs C + 1)) by (apply Rdiv_lt_0_compat; lra).
  exists (Rmin d (e / 2 / (Rabs C + 1))). split; [apply Rmin_glb_lt; assumption|]. intros t Ht. pose proof (Rmin_l d (e / 2 / (Rabs C + 1))). pose proof (Rmin_r d (e / 2 / (Rabs C + 1))). specialize (H t ltac:(lra)). specialize (B t ltac:(lra)).
  replace (F t - l) with ((F t - G t) + (G t - l)) by ring. eapply Rle_lt_trans; [apply Rabs_triang|].
  assert (C * t <= e / 2). { apply Rle_trans with ((Rabs C + 1) * t); [apply Rmult_le_compat_r; [lra|pose proof (Rle_abs C); lra]|]. apply Rle_trans with ((Rabs C + 1) * (e / 2 / (Rabs C + 1))); [apply Rmult_le_compat_l; lra|]. apply Req_le. field. lra. }
  lra.
Qed.
Lemma RG_RF_RD x y z v w : one0 x y z -> 0 < z -> carlson_RF x y z v -> carlson_RD x y z w -> carlson_RG x y z ((z * v - (x - z) * (y - z) * w / 3 + sqrt x * sqrt y / sqrt z) / 2).
Proof.
  intros H1 Pz V W. pose proof H1 as (Hx & Hy & Hz & _). assert (SZ : 0 < sqrt z) by (apply sqrt_lt_R0, Pz).
  set (F := fun t => - (((x + y) * t + x * y) / (sqrt (t + x) * sqrt (t + y) * sqrt (t + z)))).
  set (f := fun t => kern x y z t / 2 * (x + y - x * x / (t + x) - y * y / (t + y) + (x * y - x * z - y * z) / (t + z))).
  assert (D : improper0 f (0 - - (sqrt x * sqrt y / sqrt z))).
  { apply improper0_derive with (F := F).
    - intros t Ht. pose proof (spos x t Hx Ht) as PX. pose proof (spos y t Hy Ht) as PY. pose proof (spos z t Hz Ht) as PZ. unfold F, f, kern. auto_derive.
      + repeat split; try lra. apply Rmult_integral_contrapositive_currified; [apply Rmult_integral_contrapositive_currified|]; lra.
      + assert (QX : t + x = sqrt (t + x) * sqrt (t + x)) by (symmetry; apply sqrt_sqrt; lra). assert (QY : t + y = sqrt (t + y) * sqrt (t + y)) by (symmetry; apply sqrt_sqrt; lra). assert (QZ : t + z = sqrt (t + z) * sqrt (t + z)) by (symmetry; apply sqrt_sqrt; lra).
        set (a := sqrt (t + x)) in *. set (b := sqrt (t + y)) in *. set (c := sqrt (t + z)) in *. clearbody a b c. rewrite QX, QY, QZ. assert (x = a * a - t) as -> by lra. assert (y = b * b - t) as -> by lra. assert (z = c * c - t) as -> by lra. field. repeat split; lra.
    - intros t Ht. unfold f, Rdiv. apply (continuous_mult (K := R_AbsRing) (fun t => kern x y z t * / 2)).
      + apply (continuous_mult (K := R_AbsRing) (kern x y z) (fun _ => / 2)); [apply kern_cont; assumption|apply continuous_const].
      + apply (ex_derive_continuous (fun t => x + y - x * x * / (t + x) - y * y * / (t + y) + (x * y - x * z - y * z) * / (t + z)) t). auto_derive. repeat split; lra.
    - apply lim0_close with (G := fun t => - (sqrt (t + x) * sqrt (t + y) / sqrt (t + z))) (C := / sqrt z).
      + replace (- (sqrt x * sqrt y / sqrt z)) with ((fun t => - (sqrt (t + x) * sqrt (t + y) / sqrt (t + z))) 0) by (cbn beta; rewrite !Rplus_0_l; reflexivity). apply (lim0_cont (fun t => - (sqrt (t + x) * sqrt (t + y) / sqrt (t + z)))), continuity_pt_filterlim.
        apply (continuous_opp (V := R_NormedModule) (fun t => sqrt (t + x) * sqrt (t + y) / sqrt (t + z))). unfold Rdiv. apply (continuous_mult (K := R_AbsRing) (fun t => sqrt (t + x) * sqrt (t + y)) (fun t => / sqrt (t + z))); [apply (continuous_mult (K := R_AbsRing) (fun t => sqrt (t + x)) (fun t => sqrt (t + y))); apply cont_sqrt_lin|].
        apply (ex_derive_continuous (fun t => / sqrt (t + z)) 0). auto_derive. rewrite Rplus_0_l. repeat split; lra.
      + intros t Ht. pose proof (spos x t Hx Ht) as PX. pose proof (spos y t Hy Ht) as PY. pose proof (spos z t Hz Ht) as PZ. unfold F.
        replace (- (((x + y) * t + x * y) / (sqrt (t + x) * sqrt (t + y) * sqrt (t + z))) - - (sqrt (t + x) * sqrt (t + y) / sqrt (t + z))) with (t * t / (sqrt (t + x) * sqrt (t + y) * sqrt (t + z))).
        * assert (ST : 0 < sqrt t) by (apply sqrt_lt_R0, Ht). assert (sqrt t <= sqrt (t + x)) by (apply sqrt_le_1_alt; lra). assert (sqrt t <= sqrt (t + y)) by (apply sqrt_le_1_alt; lra). assert (sqrt z <= sqrt (t + z)) by (apply sqrt_le_1_alt; lra).
          assert (TT : t <= sqrt (t + x) * sqrt (t + y)) by (rewrite <- (sqrt_sqrt t) at 1 by lra; apply Rmult_le_compat; lra).
          assert (Pq : 0 < sqrt (t + x) * sqrt (t + y)) by (apply Rmult_lt_0_compat; assumption). rewrite Rabs_right by (apply Rle_ge, Rlt_le, Rdiv_lt_0_compat; [nra|apply Rmult_lt_0_compat; assumption]).
          replace (t * t / (sqrt (t + x) * sqrt (t + y) * sqrt (t + z))) with (t / (sqrt (t + x) * sqrt (t + y)) * (/ sqrt (t + z) * t)) by (field; lra). rewrite <- (Rmult_1_l (/ sqrt z * t)). apply Rmult_le_compat.
          -- apply Rlt_le, Rdiv_lt_0_compat; assumption.
          -- apply Rmult_le_pos; [left; apply Rinv_0_lt_compat, PZ|lra].
          -- apply Rmult_le_reg_r with (sqrt (t + x) * sqrt (t + y)); [exact Pq|]. unfold Rdiv. rewrite Rmult_assoc, Rinv_l by lra. lra.
          -- apply Rmult_le_compat_r; [lra|]. apply Rinv_le_contravar; assumption.
        * replace (sqrt (t + x) * sqrt (t + y) / sqrt (t + z)) with ((t + x) * (t + y) / (sqrt (t + x) * sqrt (t + y) * sqrt (t + z))).
          -- field. lra.
          -- replace (t + x) with (sqrt (t + x) * sqrt (t + x)) at 1 by (apply sqrt_sqrt; lra). replace (t + y) with (sqrt (t + y) * sqrt (t + y)) at 1 by (apply sqrt_sqrt; lra). field. lra.
    - apply (limoo_0 F (x + y + x * y)). intros t Ht. assert (Ht0 : 0 < t) by lra. pose proof (spos x t Hx Ht0) as PX. pose proof (spos y t Hy Ht0) as PY. pose proof (spos z t Hz Ht0) as PZ. unfold F. rewrite Rabs_Ropp.
      assert (ST : 0 < sqrt t) by (apply sqrt_lt_R0, Ht0). assert (sqrt t <= sqrt (t + x)) by (apply sqrt_le_1_alt; lra). assert (sqrt t <= sqrt (t + y)) by (apply sqrt_le_1_alt; lra). assert (sqrt t <= sqrt (t + z)) by (apply sqrt_le_1_alt; lra).
      assert (TT : t <= sqrt (t + x) * sqrt (t + y)) by (rewrite <- (sqrt_sqrt t) at 1 by lra; apply Rmult_le_compat; lra). assert (XY : 0 <= x * y) by (apply Rmult_le_pos; assumption).
      assert (TS : t * sqrt t <= sqrt (t + x) * sqrt (t + y) * sqrt (t + z)) by (apply Rmult_le_compat; lra). assert (P3 : 0 < t * sqrt t) by (apply Rmult_lt_0_compat; assumption).
      assert (N0 : 0 <= (x + y) * t + x * y) by nra. rewrite Rabs_right by (apply Rle_ge, Rmult_le_pos; [exact N0|left; apply Rinv_0_lt_compat; lra]).
      apply Rle_trans with (((x + y) * t + x * y) / (t * sqrt t)); [apply Rmult_le_compat_l; [exact N0|apply Rinv_le_contravar; assumption]|].
      replace ((x + y + x * y) / sqrt t) with ((x + y + x * y) * t / (t * sqrt t)) by (field; lra). apply Rmult_le_compat_r; [left; apply Rinv_0_lt_compat, P3|]. nra. }
  pose proof (improper0_scal _ (/ 2 * z) _ V) as V1. pose proof (improper0_scal _ (- (x - z) * (y - z) / 6) _ W) as W1. pose proof (improper0_scal _ (/ 2) _ D) as D1. pose proof (improper0_plus _ _ _ _ (improper0_plus _ _ _ _ V1 W1) D1) as T.
  replace ((z * v - (x - z) * (y - z) * w / 3 + sqrt x * sqrt y / sqrt z) / 2) with (/ 2 * z * v + - (x - z) * (y - z) / 6 * w + / 2 * (0 - - (sqrt x * sqrt y / sqrt z))) by (field; lra).
  eapply improper0_ext; [|exact T]. intros t Ht. pose proof (spos x t Hx Ht) as PX. pose proof (spos y t Hy Ht) as PY. pose proof (spos z t Hz Ht) as PZ. unfold f, kern. cbn beta.
  set (a := sqrt (t + x)) in *. set (b := sqrt (t + y)) in *. set (c := sqrt (t + z)) in *. clearbody a b c. field. repeat split; lra.
Qed.

(** ** The substitution t = 1/sin(theta)^2 - c *)
Section Sub.
Variables (phi : R).
Hypothesis Hphi : 0 < phi <= PI / 2.
Definition csq : R := / (sin phi) ^ 2.
Definition thet (t : R) : R := PI / 2 - atan (sqrt (t + (csq - 1))).
Lemma sin_phi : 0 < sin phi <= 1.
Proof. pose proof PI_RGT_0. split; [apply sin_gt_0; lra|apply SIN_bound]. Qed.
Lemma csq_ge : 1 <= csq.
Proof. pose proof sin_phi. unfold csq. rewrite <- Rinv_1. apply Rinv_le_contravar; nra. Qed.
Lemma thet_0 : thet 0 = phi.
Proof.
  pose proof sin_phi as [P1 P2]. pose proof PI_RGT_0 as Pp. assert (C0 : 0 <= cos phi) by (apply cos_ge_0; lra). unfold thet, csq. rewrite Rplus_0_l.
  assert (E : / (sin phi) ^ 2 - 1 = (cos phi / sin phi) ^ 2). { pose proof (sin2_cos2 phi) as S2. unfold Rsqr in S2. replace ((cos phi / sin phi) ^ 2) with ((cos phi * cos phi) / (sin phi) ^ 2) by (field; lra). replace (cos phi * cos phi) with (1 - sin phi * sin phi) by lra. field. lra. }
  rewrite E, sqrt_pow2 by (apply Rmult_le_pos; [exact C0|left; apply Rinv_0_lt_compat, P1]).
  replace (cos phi / sin phi) with (tan (PI / 2 - phi)) by (unfold tan; rewrite sin_shift, cos_shift; reflexivity). rewrite atan_tan by lra. ring.
Qed.
Lemma thet_derive t : 0 < t -> is_derive thet t (- (1 / (2 * ((t + csq) * sqrt (t + (csq - 1)))))).
Proof.
  intros Ht. pose proof csq_ge as C. unfold thet. revert Ht C. generalize csq as c. clear. intros c Ht C. assert (S1 : 0 < sqrt (t + (c - 1))) by (apply sqrt_lt_R0; lra). assert (Q : t + c = 1 + sqrt (t + (c - 1)) * sqrt (t + (c - 1))) by (rewrite sqrt_sqrt; lra). rewrite Q.
  auto_derive; [repeat split; lra|]. set (w := sqrt (t + (c - 1))) in *. clearbody w. field. split; nra.
Qed.
Lemma thet_range t : 0 < t -> 0 < thet t < phi.
Proof.
  intros Ht. pose proof csq_ge as C. rewrite <- thet_0. unfold thet. pose proof (atan_bound (sqrt (t + (csq - 1)))) as B. split; [lra|]. apply Rplus_lt_compat_l, Ropp_lt_contravar, atan_increasing. apply sqrt_lt_1_alt. lra.
Qed.
Lemma sin_thet t : 0 < t -> (sin (thet t)) ^ 2 = / (t + csq).
Proof.
  intros Ht. pose proof csq_ge as C. unfold thet. rewrite sin_shift, cos_atan. assert (S1 : 0 <= 1 + (sqrt (t + (csq - 1)))²) by (pose proof (Rle_0_sqr (sqrt (t + (csq - 1)))); lra).
  unfold Rdiv. rewrite Rmult_1_l, pow_inv, pow2_sqrt by exact S1. unfold Rsqr. rewrite sqrt_sqrt by lra. f_equal. ring.
Qed.
Lemma thet_lim0 : lim0 thet phi.
Proof.
  rewrite <- thet_0. apply lim0_cont, continuity_pt_filterlim. unfold thet. apply (continuous_minus (V := R_NormedModule) (fun _ => PI / 2) (fun t => atan (sqrt (t + (csq - 1))))); [apply continuous_const|].
  apply (continuous_comp (fun t => sqrt (t + (csq - 1))) atan); [apply cont_sqrt_lin|]. apply continuity_pt_filterlim, derivable_continuous_pt. eexists. apply derivable_pt_lim_atan.
Qed.
Lemma thet_limoo : limoo thet 0.
Proof.
  apply (limoo_0 thet 1). intros t Ht. pose proof csq_ge as C. assert (ST : 0 < sqrt t) by (apply sqrt_lt_R0; lra). assert (SL : sqrt t <= sqrt (t + (csq - 1))) by (apply sqrt_le_1_alt; lra).
  unfold thet. rewrite <- atan_inv by lra. assert (P : 0 < / sqrt (t + (csq - 1))) by (apply Rinv_0_lt_compat; lra). pose proof (atan_le _ P) as [A B]. rewrite Rabs_right by lra. eapply Rle_trans; [exact B|]. unfold Rdiv. rewrite Rmult_1_l. apply Rinv_le_contravar; assumption.
Qed.
Lemma sub_integral (f : R -> R) (K : R) : (forall th, 0 <= th <= phi -> continuous f th) -> (forall th, 0 <= th <= phi -> Rabs (f th) <= K) ->
  exists v : R, is_RInt f 0 phi v /\ improper0 (fun t => f (thet t) * (1 / (2 * ((t + csq) * sqrt (t + (csq - 1)))))) v.
Proof.
  intros Cf Bf. assert (Ex : forall a b, 0 <= a -> a <= b -> b <= phi -> ex_RInt f a b). { intros a b Ha Hb Hc. apply (ex_RInt_continuous (V := R_CompleteNormedModule)). intros w Hw. rewrite Rmin_left, Rmax_right in Hw by lra. apply Cf. lra. }
  assert (K0 : 0 <= K) by (eapply Rle_trans; [apply Rabs_pos|apply (Bf 0); lra]).
  set (F := fun t => - RInt f 0 (thet t)). exists (RInt f 0 phi). split; [apply (RInt_correct (V := R_CompleteNormedModule)), Ex; lra|].
  assert (Bi : forall a b, 0 <= a -> a <= b -> b <= phi -> Rabs (RInt f a b) <= K * (b - a)).
  { intros a b Ha Hb Hc. rewrite (Rmult_comm K). apply (abs_RInt_le_const f a b K Hb (Ex a b Ha Hb Hc)). intros t Ht. apply Bf. lra. }
  replace (RInt f 0 phi) with (0 - - RInt f 0 phi) by ring. apply improper0_derive with (F := F).
  - intros t Ht. pose proof (thet_range t Ht) as Rg. unfold F.
    assert (D1 : is_derive (fun b => RInt f 0 b) (thet t) (f (thet t))).
    { apply (is_derive_RInt (V := R_NormedModule) f (fun b => RInt f 0 b) 0 (thet t)); [|apply Cf; lra]. assert (Pd : 0 < Rmin (thet t) (phi - thet t)) by (apply Rmin_glb_lt; lra). exists (mkposreal _ Pd). intros b Hb.
      pose proof (Rmin_l (thet t) (phi - thet t)). pose proof (Rmin_r (thet t) (phi - thet t)). change (Rabs (b - thet t) < Rmin (thet t) (phi - thet t)) in Hb. apply Rabs_lt_between in Hb. apply (RInt_correct (V := R_CompleteNormedModule)), Ex; lra. }
    evar_last; [apply (is_derive_opp (V := R_NormedModule) (fun t => RInt f 0 (thet t))), (is_derive_comp (V := R_NormedModule) (fun b => RInt f 0 b) thet t _ _ D1 (thet_derive t Ht))|]. unfold opp, scal; cbn; unfold mult; cbn. ring.
  - intros t Ht. pose proof (thet_range t Ht) as Rg. pose proof csq_ge as C. assert (S1 : 0 < sqrt (t + (csq - 1))) by (apply sqrt_lt_R0; lra). apply (continuous_mult (K := R_AbsRing) (fun t => f (thet t)) (fun t => 1 / (2 * ((t + csq) * sqrt (t + (csq - 1)))))).
    + apply (continuous_comp thet f); [|apply Cf; lra]. apply (ex_derive_continuous thet t). eexists. apply thet_derive, Ht.
    + assert (C1 : 0 < t + csq) by lra. assert (C2 : 0 < t + (csq - 1)) by lra. revert S1 C1 C2. generalize csq as c. intros c S1 C1 C2. apply (ex_derive_continuous (fun t => 1 / (2 * ((t + c) * sqrt (t + (c - 1))))) t). auto_derive. replace (c + - (1)) with (c - 1) by ring. split; [exact C2|]. split; [|trivial]. apply Rmult_integral_contrapositive_currified; [lra|]. apply Rmult_integral_contrapositive_currified; lra.
  - intros e He. assert (P : 0 < e / (K + 1)) by (apply Rdiv_lt_0_compat; lra). destruct (thet_lim0 _ P) as (d & Hd & H). exists d. split; [exact Hd|]. intros t Ht. specialize (H t Ht). pose proof (thet_range t ltac:(lra)) as Rg. unfold F.
    assert (Ch : RInt f 0 (thet t) + RInt f (thet t) phi = RInt f 0 phi) by (apply (RInt_Chasles (V := R_CompleteNormedModule) f 0 (thet t) phi); apply Ex; lra). replace (- RInt f 0 (thet t) - - RInt f 0 phi) with (RInt f (thet t) phi) by lra.
    eapply Rle_lt_trans; [apply Bi; lra|]. rewrite Rabs_left in H by lra. apply Rle_lt_trans with ((K + 1) * (phi - thet t)); [apply Rmult_le_compat_r; lra|]. apply Rlt_le_trans with ((K + 1) * (e / (K + 1))); [apply Rmult_lt_compat_l; lra|]. apply Req_le. field. lra.
  - intros e He. assert (P : 0 < e / (K + 1)) by (apply Rdiv_lt_0_compat; lra). destruct (thet_limoo _ P) as (T & H). exists (Rmax T 0). intros t Ht. pose proof (Rmax_l T 0). pose proof (Rmax_r T 0). specialize (H t ltac:(lra)). pose proof (thet_range t ltac:(lra)) as Rg. unfold F.
    rewrite Rminus_0_r, Rabs_Ropp. rewrite Rminus_0_r, Rabs_right in H by lra. eapply Rle_lt_trans; [apply Bi; lra|]. rewrite Rminus_0_r. apply Rle_lt_trans with ((K + 1) * thet t); [apply Rmult_le_compat_r; lra|]. apply Rlt_le_trans with ((K + 1) * (e / (K + 1))); [apply Rmult_lt_compat_l; lra|]. apply Req_le. field. lra.
Qed.
Lemma sin_le th : 0 <= th <= phi -> 0 <= (sin th) ^ 2 <= (sin phi) ^ 2.
Proof.
  intros Ht. pose proof PI_RGT_0. split; [apply pow2_ge_0|]. apply pow_incr. split; [apply sin_ge_0; lra|]. destruct (Req_dec th phi) as [->|N]; [lra|]. left. apply sin_increasing_1; lra.
Qed.
Lemma lin_ge m th : m * (sin phi) ^ 2 < 1 -> 0 <= th <= phi -> Rmin 1 (1 - m * (sin phi) ^ 2) <= 1 - m * (sin th) ^ 2.
Proof.
  intros Hm Ht. pose proof (sin_le th Ht) as Sl. destruct (Rle_dec 0 m) as [P|N]; [eapply Rle_trans; [apply Rmin_r|]|eapply Rle_trans; [apply Rmin_l|]]; nra.
Qed.
Lemma min_pos m : m * (sin phi) ^ 2 < 1 -> 0 < Rmin 1 (1 - m * (sin phi) ^ 2).
Proof. intros. apply Rmin_glb_lt; lra. Qed.
Lemma lin_csq m : m * (sin phi) ^ 2 < 1 <-> 0 < csq - m.
Proof.
  pose proof sin_phi as [S1 _]. assert (S2 : 0 < (sin phi) ^ 2) by (apply pow_lt, S1). unfold csq. split; intros L.
  - apply Rmult_lt_reg_r with ((sin phi) ^ 2); [exact S2|]. rewrite Rmult_0_l, Rmult_minus_distr_r, Rinv_l by lra. lra.
  - apply Rmult_lt_compat_r with (r := (sin phi) ^ 2) in L; [|exact S2]. rewrite Rmult_0_l, Rmult_minus_distr_r, Rinv_l in L by lra. lra.
Qed.
Section Par.
Variables (m : R).
Hypothesis Hm : m * (sin phi) ^ 2 < 1.
Lemma F_int v : carlson_RF (csq - 1) (csq - m) csq v -> legendre_F phi m v.
Proof.
  intros V. pose proof csq_ge as C1. pose proof (proj1 (lin_csq m) Hm) as C2. set (k := Rmin 1 (1 - m * (sin phi) ^ 2)). assert (Pk : 0 < k) by (apply min_pos, Hm). assert (Sk : 0 < sqrt k) by (apply sqrt_lt_R0, Pk).
  assert (Lk : forall th, 0 <= th <= phi -> k <= 1 - m * (sin th) ^ 2) by (intros th Ht; apply lin_ge; assumption).
  destruct (sub_integral (fun th => 1 / sqrt (1 - m * (sin th) ^ 2)) (/ sqrt k)) as (w & I1 & W).
  - intros th Ht. specialize (Lk th Ht). apply (ex_derive_continuous (fun th => 1 / sqrt (1 - m * (sin th) ^ 2)) th). auto_derive. replace (1 + - (m * (sin th * (sin th * 1)))) with (1 - m * sin th ^ 2) by ring. split; [lra|]. split; [|trivial]. apply Rgt_not_eq, sqrt_lt_R0. lra.
  - intros th Ht. specialize (Lk th Ht). assert (S1 : sqrt k <= sqrt (1 - m * (sin th) ^ 2)) by (apply sqrt_le_1_alt, Lk). assert (P : 0 < / sqrt (1 - m * (sin th) ^ 2)) by (apply Rinv_0_lt_compat; lra). unfold Rdiv. rewrite Rmult_1_l, Rabs_right by lra. apply Rinv_le_contravar; assumption.
  - replace v with w; [exact I1|]. eapply improper0_unique; [exact W|]. eapply improper0_ext; [|exact V]. intros t Ht. cbn beta. rewrite (sin_thet t Ht).
    replace (1 - m * / (t + csq)) with ((t + (csq - m)) / (t + csq)) by (field; lra). rewrite sqrt_div_alt by lra. assert (Q1 : 0 < sqrt (t + (csq - 1))) by (apply sqrt_lt_R0; lra). assert (Q2 : 0 < sqrt (t + (csq - m))) by (apply sqrt_lt_R0; lra). assert (Q3 : 0 < sqrt (t + csq)) by (apply sqrt_lt_R0; lra).
    assert (Q : t + csq = sqrt (t + csq) * sqrt (t + csq)) by (symmetry; apply sqrt_sqrt; lra). set (a := sqrt (t + (csq - 1))) in *. set (b := sqrt (t + (csq - m))) in *. set (d := sqrt (t + csq)) in *. clearbody a b. rewrite Q. clearbody d. field. lra.
Qed.
(** the integrals that R_D and R_J stand for *)
Lemma J_int n j : n * (sin phi) ^ 2 < 1 -> carlson_RJ (csq - 1) (csq - m) csq (csq - n) j -> is_RInt (fun th => (sin th) ^ 2 / ((1 - n * (sin th) ^ 2) * sqrt (1 - m * (sin th) ^ 2))) 0 phi (j / 3).
Proof.
  intros Hn V. pose proof csq_ge as C1. pose proof (proj1 (lin_csq m) Hm) as C2. pose proof (proj1 (lin_csq n) Hn) as C3. set (k := Rmin 1 (1 - m * (sin phi) ^ 2)). assert (Pk : 0 < k) by (apply min_pos, Hm). assert (Sk : 0 < sqrt k) by (apply sqrt_lt_R0, Pk). set (l := Rmin 1 (1 - n * (sin phi) ^ 2)). assert (Pl : 0 < l) by (apply min_pos, Hn).
  assert (Lk : forall th, 0 <= th <= phi -> k <= 1 - m * (sin th) ^ 2) by (intros th Ht; apply lin_ge; assumption). assert (Ll : forall th, 0 <= th <= phi -> l <= 1 - n * (sin th) ^ 2) by (intros th Ht; apply lin_ge; assumption).
  destruct (sub_integral (fun th => (sin th) ^ 2 / ((1 - n * (sin th) ^ 2) * sqrt (1 - m * (sin th) ^ 2))) (/ (l * sqrt k))) as (w & I1 & W).
  - intros th Ht. specialize (Lk th Ht). specialize (Ll th Ht). apply (ex_derive_continuous (fun th => (sin th) ^ 2 / ((1 - n * (sin th) ^ 2) * sqrt (1 - m * (sin th) ^ 2))) th). auto_derive. replace (1 + - (m * (sin th * (sin th * 1)))) with (1 - m * sin th ^ 2) by ring. replace (1 + - (n * (sin th * (sin th * 1)))) with (1 - n * sin th ^ 2) by ring. split; [lra|]. split; [|trivial].
    apply Rmult_integral_contrapositive_currified; [lra|]. apply Rgt_not_eq, sqrt_lt_R0. lra.
  - intros th Ht. specialize (Lk th Ht). specialize (Ll th Ht). assert (S1 : sqrt k <= sqrt (1 - m * (sin th) ^ 2)) by (apply sqrt_le_1_alt, Lk). assert (P : l * sqrt k <= (1 - n * (sin th) ^ 2) * sqrt (1 - m * (sin th) ^ 2)) by (apply Rmult_le_compat; lra). assert (Pls : 0 < l * sqrt k) by (apply Rmult_lt_0_compat; assumption).
    assert (Pi : 0 < / ((1 - n * (sin th) ^ 2) * sqrt (1 - m * (sin th) ^ 2))) by (apply Rinv_0_lt_compat; lra). pose proof (sin_le th Ht) as [Z0 Z1]. pose proof sin_phi as SP. assert (Z2 : (sin th) ^ 2 <= 1) by nra.
    unfold Rdiv. rewrite Rabs_right by (apply Rle_ge, Rmult_le_pos; lra). rewrite <- (Rmult_1_l (/ (l * sqrt k))). apply Rmult_le_compat; try lra. apply Rinv_le_contravar; assumption.
  - replace (j / 3) with w; [exact I1|]. eapply improper0_unique; [exact W|]. apply improper0_scal with (c := / 3) in V. replace (j / 3) with (/ 3 * j) by (unfold Rdiv; ring). eapply improper0_ext; [|exact V]. intros t Ht. cbn beta. rewrite (sin_thet t Ht).
    replace (1 - m * / (t + csq)) with ((t + (csq - m)) / (t + csq)) by (field; lra). rewrite sqrt_div_alt by lra. assert (Q1 : 0 < sqrt (t + (csq - 1))) by (apply sqrt_lt_R0; lra). assert (Q2 : 0 < sqrt (t + (csq - m))) by (apply sqrt_lt_R0; lra). assert (Q3 : 0 < sqrt (t + csq)) by (apply sqrt_lt_R0; lra).
    assert (Q : t + csq = sqrt (t + csq) * sqrt (t + csq)) by (symmetry; apply sqrt_sqrt; lra). set (a := sqrt (t + (csq - 1))) in *. set (b := sqrt (t + (csq - m))) in *. set (d := sqrt (t + csq)) in *. clearbody a b. replace (1 - n * / (t + csq)) with ((t + (csq - n)) / (t + csq)) by (field; lra).
    assert (Q4 : 0 < t + (csq - n)) by lra. set (g := t + (csq - n)) in *. clearbody g. rewrite Q. clearbody d. field. lra.
Qed.
Lemma D_int w : carlson_RD (csq - 1) (csq - m) csq w -> legendre_D phi m (w / 3).
Proof.
  intros V. unfold carlson_RD in V. unfold legendre_D. eapply is_RInt_ext; [|apply (J_int 0 w); [lra|rewrite Rminus_0_r; exact V]]. intros th _. cbn beta. replace (1 - 0 * (sin th) ^ 2) with 1 by ring. rewrite Rmult_1_l. reflexivity.
Qed.
Lemma E_int v d : legendre_F phi m v -> legendre_D phi m d -> legendre_E phi m (v - m * d).
Proof.
  intros V D. unfold legendre_E. pose proof (is_RInt_minus (V := R_NormedModule) _ _ 0 phi _ _ V (is_RInt_scal (V := R_NormedModule) _ 0 phi m _ D)) as T. unfold minus, plus, opp, scal in T; cbn in T; unfold mult in T; cbn in T.
  eapply is_RInt_ext; [|exact T]. intros th Ht. rewrite Rmin_left, Rmax_right in Ht by lra. cbn beta. pose proof (lin_ge m th Hm ltac:(lra)) as L. pose proof (min_pos m Hm) as P. assert (Pq : 0 < 1 - m * (sin th) ^ 2) by lra. assert (Sq : 0 < sqrt (1 - m * (sin th) ^ 2)) by (apply sqrt_lt_R0, Pq).
  assert (Q : 1 - m * (sin th) ^ 2 = sqrt (1 - m * (sin th) ^ 2) * sqrt (1 - m * (sin th) ^ 2)) by (symmetry; apply sqrt_sqrt; lra). change (sin th * (sin th * 1)) with ((sin th) ^ 2). set (a := sqrt (1 - m * (sin th) ^ 2)) in *. replace (m * ((sin th) ^ 2 / a)) with ((m * (sin th) ^ 2) / a) by (field; lra). replace (m * (sin th) ^ 2) with (1 - a * a) by lra. clearbody a. req. field. lra.
Qed.
Lemma Pi_int n v j : n * (sin phi) ^ 2 < 1 -> legendre_F phi m v -> carlson_RJ (csq - 1) (csq - m) csq (csq - n) j -> legendre_Pi n phi m (v + n / 3 * j).
Proof.
  intros Hn V J. pose proof (J_int n j Hn J) as D. unfold legendre_Pi. pose proof (is_RInt_plus (V := R_NormedModule) _ _ 0 phi _ _ V (is_RInt_scal (V := R_NormedModule) _ 0 phi n _ D)) as T. unfold plus, scal in T; cbn in T; unfold mult in T; cbn in T.
  replace (v + n / 3 * j) with (v + n * (j / 3)) by (unfold Rdiv; ring). eapply is_RInt_ext; [|exact T]. intros th Ht. rewrite Rmin_left, Rmax_right in Ht by lra. cbn beta. change (sin th * (sin th * 1)) with ((sin th) ^ 2).
  pose proof (lin_ge m th Hm ltac:(lra)) as L. pose proof (min_pos m Hm) as P. pose proof (lin_ge n th Hn ltac:(lra)) as Ln. pose proof (min_pos n Hn) as Pn. assert (Sq : 0 < sqrt (1 - m * (sin th) ^ 2)) by (apply sqrt_lt_R0; lra). set (a := sqrt (1 - m * (sin th) ^ 2)) in *. clearbody a. req. field. lra.
Qed.
End Par.
End Sub.
