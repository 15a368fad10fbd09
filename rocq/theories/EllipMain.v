(** * The functions of the elliptic extension, with all their cases *)
From Coq Require Import Reals Lra Lia Psatz Bool.
From Coquelicot Require Import Rcomplements Rbar Hierarchy Continuity Derive RInt RInt_analysis AutoDerive ElemFct.
From Verif Require Import EllipSpec Improper Ellipr CarlsonDup CarlsonTail CarlsonLoop CarlsonRC CarlsonRJ Legendre.
Open Scope R_scope.

(** With enough iterations allowed, the result is the number r *)
Definition gives (f : nat -> option fl) (r : R) : Prop := exists N, forall fuel, (N <= fuel)%nat -> f fuel = Some (Num r).
Lemma gives_map f g r r' : (forall fuel, f fuel = Some (Num r) -> g fuel = Some (Num r')) -> gives f r -> gives g r'.
Proof. intros H (N & HN). exists N. intros fuel Hf. apply H, HN, Hf. Qed.
Lemma gives_bind f g h r s : gives f r -> gives g s -> gives (fun fuel => bind2 (f fuel) (g fuel) h) (h r s).
Proof. intros (N & HN) (M & HM). exists (max N M). intros fuel Hf. rewrite HN, HM by lia. reflexivity. Qed.

(** ** elliprc *)
Lemma rc_pos eps x y : 0 < eps <= 1 -> 0 <= x -> 0 < y -> exists r v, gives (fun fuel => elliprc_pos eps fuel x y) r /\ carlson_RC x y v /\ 0 < v /\ Rabs (r - v) <= 3 / 10 * EPS eps * v.
Proof.
  intros He Hx Hy. destruct (Req_dec x 0) as [->|N].
  - assert (P : 0 < PI / 2 / sqrt y) by (apply Rdiv_lt_0_compat; [pose proof PI_RGT_0; lra|apply sqrt_lt_R0, Hy]). exists (PI / 2 / sqrt y), (PI / 2 / sqrt y). split; [|split; [apply RC_0, Hy|split; [exact P|]]].
    + exists O. intros fuel _. unfold elliprc_pos. rewrite (proj2 (isz_false y) ltac:(lra)), (proj2 (isz_true 0) eq_refl). reflexivity.
    + rewrite Rminus_eq_0, Rabs_R0. pose proof (EPS_range eps He). apply Rmult_le_pos; lra.
  - apply rc_main; lra.
Qed.
Lemma rc_full eps x y : 0 < eps <= 1 -> 0 <= x -> 0 < y -> exists r v, gives (fun fuel => elliprc eps fuel x y) r /\ carlson_RC x y v /\ 0 < v /\ Rabs (r - v) <= 3 / 10 * EPS eps * v.
Proof.
  intros He Hx Hy. destruct (rc_pos eps x y He Hx Hy) as (r & v & G & T). exists r, v. split; [|exact T]. apply (gives_map _ _ r r) with (2 := G). intros fuel E. unfold elliprc. rewrite (proj2 (gtb_false 0 y) ltac:(lra)). exact E.
Qed.
Lemma rc_pv eps x y : 0 < eps <= 1 -> 0 < x -> y < 0 -> exists r v, gives (fun fuel => elliprc eps fuel x y) r /\ carlson_RC_pv x y v /\ 0 < v /\ Rabs (r - v) <= 3 / 10 * EPS eps * v.
Proof.
  intros He Hx Hy. destruct (rc_pos eps (x - y) (- y) He ltac:(lra) ltac:(lra)) as (r & v & G & V & Pv & B). assert (Q : 0 < sqrt (x / (x - y))) by (apply sqrt_lt_R0, Rdiv_lt_0_compat; lra).
  exists (sqrt (x / (x - y)) * r), (sqrt (x / (x - y)) * v). split; [|split; [apply RC_pv; assumption|split; [apply Rmult_lt_0_compat; assumption|]]].
  - apply (gives_map _ _ r _) with (2 := G). intros fuel E. unfold elliprc. rewrite (proj2 (gtb_true 0 y) Hy), (proj2 (isz_false x) ltac:(lra)), E. reflexivity.
  - rewrite <- Rmult_minus_distr_l, Rabs_mult, (Rabs_right (sqrt (x / (x - y)))) by lra. replace (3 / 10 * EPS eps * (sqrt (x / (x - y)) * v)) with (sqrt (x / (x - y)) * (3 / 10 * EPS eps * v)) by ring. apply Rmult_le_compat_l; [lra|exact B].
Qed.
(** ** elliprf *)
Lemma RF_swap12 x y z v : carlson_RF x y z v -> carlson_RF y x z v.
Proof. intros V. eapply improper0_ext; [|exact V]. intros t _. cbn beta. rewrite (Rmult_comm (sqrt (t + x)) (sqrt (t + y))). reflexivity. Qed.
Lemma RF_swap23 x y z v : carlson_RF x y z v -> carlson_RF x z y v.
Proof. intros V. eapply improper0_ext; [|exact V]. intros t _. cbn beta. rewrite !Rmult_assoc, (Rmult_comm (sqrt (t + y)) (sqrt (t + z))). reflexivity. Qed.
Lemma rf_full eps x y z : 0 < eps <= 1 -> one0 x y z -> exists r v, gives (fun fuel => elliprf eps fuel x y z) r /\ carlson_RF x y z v /\ 0 < v /\ Rabs (r - v) <= 3 / 10 * EPS eps * v.
Proof.
  intros He H1. pose proof H1 as (X & Y & Z & XY & XZ & YZ). destruct (Req_dec y z) as [E|Nyz]; [|destruct (Req_dec x z) as [E|Nxz]; [|destruct (Req_dec x y) as [E|Nxy]]].
  - subst z. destruct (rc_full eps x y He X ltac:(lra)) as (r & v & G & V & T). exists r, v. split; [|split; [apply (proj1 (RC_RF x y v X ltac:(lra)) V)|exact T]]. apply (gives_map _ _ r r) with (2 := G). intros fuel Ef. unfold elliprf. rewrite (proj2 (eqb_true y y) eq_refl). exact Ef.
  - subst z. destruct (rc_full eps y x He Y ltac:(lra)) as (r & v & G & V & T). exists r, v. split; [|split; [apply RF_swap12, (proj1 (RC_RF y x v Y ltac:(lra)) V)|exact T]]. apply (gives_map _ _ r r) with (2 := G). intros fuel Ef. unfold elliprf. rewrite (proj2 (eqb_false y x) Nyz), (proj2 (eqb_true x x) eq_refl). exact Ef.
  - subst y. destruct (rc_full eps z x He Z ltac:(lra)) as (r & v & G & V & T). exists r, v. split; [|split; [apply RF_swap23, RF_swap12, (proj1 (RC_RF z x v Z ltac:(lra)) V)|exact T]]. apply (gives_map _ _ r r) with (2 := G). intros fuel Ef. unfold elliprf. rewrite (proj2 (eqb_false x z) Nxz), (proj2 (eqb_true x x) eq_refl). exact Ef.
  - destruct (rf_main eps x y z He H1 Nxy Nxz Nyz) as (r & v & (N & G) & V). exists r, v. split; [exists N; exact G|exact V].
Qed.
(** ** elliprg *)
Lemma RG_swap12 x y z v : carlson_RG x y z v -> carlson_RG y x z v.
Proof. intros V. eapply improper0_ext; [|exact V]. intros t _. cbn beta. rewrite (Rmult_comm (sqrt (t + x)) (sqrt (t + y))), (Rplus_comm (x / (t + x))). reflexivity. Qed.
Lemma RG_swap23 x y z v : carlson_RG x y z v -> carlson_RG x z y v.
Proof. intros V. eapply improper0_ext; [|exact V]. intros t _. cbn beta. rewrite !Rmult_assoc, (Rmult_comm (sqrt (t + y)) (sqrt (t + z))), !Rplus_assoc, (Rplus_comm (y / (t + y)) (z / (t + z))). reflexivity. Qed.
Lemma RG_swap13 x y z v : carlson_RG x y z v -> carlson_RG z y x v.
Proof. intros V. apply RG_swap12, RG_swap23, RG_swap12, V. Qed.
Lemma rg_main eps x y z : 0 < eps <= 1 -> one0 x y z -> 0 < z -> exists r F D v, gives (fun fuel => elliprg_main eps fuel x y z) r /\ carlson_RF x y z F /\ carlson_RD x y z D /\ carlson_RG x y z v /\
  0 < F /\ 0 < D /\ v = (z * F - (x - z) * (y - z) * D / 3 + sqrt x * sqrt y / sqrt z) / 2 /\ Rabs (r - v) <= EPS eps * (3 / 20 * (z * F) + 5 / 24 * (Rabs ((x - z) * (y - z)) * D)).
Proof.
  intros He H1 Hz. destruct (rf_full eps x y z He H1) as (rf & F & GF & VF & PF & BF). destruct (rd_main eps x y z He H1 Hz) as (rd & D & GD & VD & PD & BD).
  exists ((z * rf - (x - z) * (y - z) * rd / 3 + sqrt x * sqrt y / sqrt z) / 2), F, D, ((z * F - (x - z) * (y - z) * D / 3 + sqrt x * sqrt y / sqrt z) / 2). split; [exact (gives_bind _ _ (fun F D => (z * F - (x - z) * (y - z) * D / 3 + sqrt x * sqrt y / sqrt z) / 2) _ _ GF GD)|].
  split; [exact VF|]. split; [exact VD|]. split; [apply RG_RF_RD; assumption|]. split; [exact PF|]. split; [exact PD|]. split; [reflexivity|].
  replace ((z * rf - (x - z) * (y - z) * rd / 3 + sqrt x * sqrt y / sqrt z) / 2 - (z * F - (x - z) * (y - z) * D / 3 + sqrt x * sqrt y / sqrt z) / 2) with (z * (rf - F) / 2 - (x - z) * (y - z) * (rd - D) / 6) by (generalize (sqrt x * sqrt y / sqrt z); intros; field).
  set (g := (x - z) * (y - z)). apply Rle_trans with (z * (3 / 10 * EPS eps * F) / 2 + Rabs g * (5 / 4 * EPS eps * D) / 6); [apply abs_sub|].
  - unfold Rdiv. rewrite Rabs_mult, Rabs_mult, (Rabs_right z), (Rabs_right (/ 2)) by lra. apply Rmult_le_compat_r; [lra|]. apply Rmult_le_compat_l; [lra|exact BF].
  - unfold Rdiv. rewrite Rabs_mult, Rabs_mult, (Rabs_right (/ 6)) by lra. apply Rmult_le_compat_r; [lra|]. apply Rmult_le_compat_l; [apply Rabs_pos|exact BD].
  - apply Req_le. field.
Qed.
Lemma RG_one x : 0 < x -> carlson_RG x 0 0 (sqrt x / 2).
Proof.
  intros Hx. assert (SX : 0 < sqrt x) by (apply sqrt_lt_R0, Hx). replace (sqrt x / 2) with (0 - - (x / (2 * sqrt (0 + x)))).
  - apply (improper0_ext (fun t => x / (4 * ((t + x) * sqrt (t + x))))).
    + intros t Ht. assert (S1 : 0 < sqrt (t + x)) by (apply sqrt_lt_R0; lra). rewrite !Rplus_0_r, Rmult_assoc, sqrt_sqrt by lra. unfold Rdiv at 4 5. rewrite !Rmult_0_l, !Rplus_0_r. field. lra.
    + apply improper0_derive with (F := fun t => - (x / (2 * sqrt (t + x)))).
      * intros t Ht. assert (S1 : 0 < sqrt (t + x)) by (apply sqrt_lt_R0; lra). auto_derive; [repeat split; lra|]. assert (Q : t + x = sqrt (t + x) * sqrt (t + x)) by (symmetry; apply sqrt_sqrt; lra). set (w := sqrt (t + x)) in *. clearbody w. rewrite Q. field. lra.
      * intros t Ht. assert (S1 : 0 < sqrt (t + x)) by (apply sqrt_lt_R0; lra). apply (ex_derive_continuous (fun t => x / (4 * ((t + x) * sqrt (t + x)))) t). auto_derive. repeat split; [lra|]. apply Rmult_integral_contrapositive_currified; [lra|]. apply Rmult_integral_contrapositive_currified; lra.
      * apply (lim0_cont (fun t => - (x / (2 * sqrt (t + x))))), continuity_pt_filterlim. apply (ex_derive_continuous (fun t => - (x / (2 * sqrt (t + x)))) 0). auto_derive. rewrite Rplus_0_l. repeat split; lra.
      * apply (limoo_0 _ (x / 2)). intros t Ht. assert (S1 : 0 < sqrt t) by (apply sqrt_lt_R0; lra). assert (S2 : sqrt t <= sqrt (t + x)) by (apply sqrt_le_1_alt; lra). rewrite Rabs_Ropp, Rabs_right by (apply Rle_ge, Rlt_le, Rdiv_lt_0_compat; lra).
        replace (x / (2 * sqrt (t + x))) with (x / 2 * / sqrt (t + x)) by (field; lra). unfold Rdiv at 2. apply Rmult_le_compat_l; [lra|]. apply Rinv_le_contravar; assumption.
  - rewrite Rplus_0_l. assert (Q : x = sqrt x * sqrt x) by (symmetry; apply sqrt_sqrt; lra). rewrite Q at 1. field. lra.
Qed.
Lemma RG_zero : carlson_RG 0 0 0 0.
Proof.
  pose proof (improper0_scal _ 0 _ (mono 1 1 0 ltac:(lra) ltac:(lia))) as M. rewrite Rmult_0_l in M. eapply improper0_ext; [|exact M]. intros t Ht. cbn beta. unfold Rdiv. ring.
Qed.

(** ** Divergence *)
Lemma diverges f c : 0 < c -> (forall t, 0 < t -> 0 <= f t) -> (forall t, 0 < t < 1 -> c / t <= f t) -> ~ exists v, improper0 f v.
Proof.
  intros Hc F0 F1 (v & V). destruct (V 1 ltac:(lra)) as (a0 & b0 & Ha & Hab & H). set (a := Rmin (a0 / 2) (Rmin (/ 2) (exp (- ((Rabs v + 2) / c))))). set (b := Rmax (b0 + 1) 1).
  assert (A1 : a <= a0 / 2) by apply Rmin_l. assert (A2 : a <= / 2) by (eapply Rle_trans; [apply Rmin_r|apply Rmin_l]). assert (A3 : a <= exp (- ((Rabs v + 2) / c))) by (eapply Rle_trans; [apply Rmin_r|apply Rmin_r]). assert (A0 : 0 < a) by (unfold a; repeat apply Rmin_glb_lt; try lra; apply exp_pos).
  assert (B1 : b0 + 1 <= b) by apply Rmax_l. assert (B2 : 1 <= b) by apply Rmax_r. destruct (H a b ltac:(lra) ltac:(lra)) as (i & I1 & D). clearbody a b.
  assert (L : is_RInt (fun t => c / t) a 1 (c * ln 1 - c * ln a)).
  { apply (is_RInt_derive (V := R_CompleteNormedModule) (fun t => c * ln t)); intros t Ht; rewrite Rmin_left, Rmax_right in Ht by lra; [auto_derive; [lra|]; field; lra|]. apply (ex_derive_continuous (fun t => c / t) t). auto_derive. lra. }
  assert (E1 : ex_RInt f a b) by (exists i; exact I1). assert (E2 : ex_RInt f a 1) by (apply (ex_RInt_Chasles_1 (V := R_CompleteNormedModule) f a 1 b); [lra|exact E1]). assert (E3 : ex_RInt f 1 b) by (apply (ex_RInt_Chasles_2 (V := R_CompleteNormedModule) f a 1 b); [lra|exact E1]).
  destruct E2 as (i1 & E2). destruct E3 as (i2 & E3). pose proof (is_RInt_Chasles (V := R_NormedModule) f a 1 b i1 i2 E2 E3) as Ch. unfold plus in Ch; cbn in Ch. assert (Ei : i = i1 + i2). { apply (is_RInt_unique (V := R_CompleteNormedModule)) in Ch. apply (is_RInt_unique (V := R_CompleteNormedModule)) in I1. congruence. }
  assert (L1 : c * ln 1 - c * ln a <= i1). { apply (is_RInt_le (fun t => c / t) f a 1); [lra|exact L|exact E2|]. intros t Ht. apply F1. lra. }
  assert (L2 : 0 <= i2). { pose proof (is_RInt_const (V := R_NormedModule) 1 b 0) as Z. unfold scal in Z; cbn in Z; unfold mult in Z; cbn in Z. rewrite Rmult_0_r in Z. apply (is_RInt_le (fun _ => 0) f 1 b); [lra|exact Z|exact E3|]. intros t Ht. apply F0. lra. }
  rewrite ln_1, Rmult_0_r in L1. assert (La : ln a <= - ((Rabs v + 2) / c)) by (rewrite <- (ln_exp (- ((Rabs v + 2) / c))); apply ln_le; assumption).
  assert (c * ln a <= - (Rabs v + 2)). { apply Rle_trans with (c * - ((Rabs v + 2) / c)); [apply Rmult_le_compat_l; lra|]. apply Req_le. field. lra. }
  pose proof (Rle_abs v). apply Rabs_lt_between in D. lra.
Qed.
