(** * The duplication theorem for Carlson's integrals on real arguments *)
From Coq Require Import Reals Lra Lia Psatz.
From Coquelicot Require Import Rcomplements Rbar Hierarchy Continuity Derive RInt RInt_analysis AutoDerive ElemFct.
From Verif Require Import EllipSpec Improper Ellipr.
Open Scope R_scope.

Definition kern (x y z t : R) : R := / (sqrt (t + x) * sqrt (t + y) * sqrt (t + z)).
Lemma spos x t : 0 <= x -> 0 < t -> 0 < sqrt (t + x).
Proof. intros. apply sqrt_lt_R0. lra. Qed.
Lemma kern_pos x y z t : 0 <= x -> 0 <= y -> 0 <= z -> 0 < t -> 0 < kern x y z t.
Proof. intros. unfold kern. apply Rinv_0_lt_compat. repeat apply Rmult_lt_0_compat; apply spos; assumption. Qed.
Lemma kern_cont x y z t : 0 <= x -> 0 <= y -> 0 <= z -> 0 < t -> continuous (kern x y z) t.
Proof.
  intros Hx Hy Hz Ht. apply (ex_derive_continuous (kern x y z) t). unfold kern. pose proof (spos x t Hx Ht). pose proof (spos y t Hy Ht). pose proof (spos z t Hz Ht).
  auto_derive. repeat split; try lra. apply Rmult_integral_contrapositive_currified; [apply Rmult_integral_contrapositive_currified|]; lra.
Qed.
Lemma cont_inv_lin p t : 0 <= p -> 0 < t -> continuous (fun t => / (t + p)) t.
Proof. intros. apply (ex_derive_continuous (fun t => / (t + p)) t). auto_derive. lra. Qed.

Section Dup.
Variables (x y z : R).
Hypotheses (Hx : 0 <= x) (Hy : 0 <= y) (Hz : 0 <= z).
Let L0 := lam x y z.
Definition lamt (t : R) : R := lam (t + x) (t + y) (t + z).
Definition phi (t : R) : R := (t + lamt t - lam x y z) / 4.
Definition dphi (t : R) : R := (sqrt (t + x) + sqrt (t + y)) * (sqrt (t + y) + sqrt (t + z)) * (sqrt (t + z) + sqrt (t + x)) * kern x y z t / 8.

Lemma lamt_ge t : 0 < t -> lam x y z <= lamt t.
Proof.
  intros Ht. unfold lamt, lam. assert (sqrt x <= sqrt (t + x)) by (apply sqrt_le_1_alt; lra). assert (sqrt y <= sqrt (t + y)) by (apply sqrt_le_1_alt; lra).
  assert (sqrt z <= sqrt (t + z)) by (apply sqrt_le_1_alt; lra). pose proof (sqrt_pos x). pose proof (sqrt_pos y). pose proof (sqrt_pos z).
  repeat apply Rplus_le_compat; apply Rmult_le_compat; assumption.
Qed.
Lemma lam_nonneg a b c : 0 <= lam a b c.
Proof. unfold lam. pose proof (sqrt_pos a). pose proof (sqrt_pos b). pose proof (sqrt_pos c). repeat apply Rplus_le_le_0_compat; apply Rmult_le_pos; assumption. Qed.
Lemma phi_ge t : 0 < t -> t / 4 <= phi t.
Proof. intros Ht. pose proof (lamt_ge t Ht). unfold phi. lra. Qed.
Lemma phi_derive t : 0 < t -> is_derive phi t (dphi t).
Proof.
  intros Ht. unfold phi, dphi, kern, lamt, lam. pose proof (spos x t Hx Ht). pose proof (spos y t Hy Ht). pose proof (spos z t Hz Ht).
  auto_derive; [repeat split; lra|]. field. repeat split; lra.
Qed.
Lemma dphi_cont t : 0 < t -> continuous dphi t.
Proof.
  intros Ht. apply (ex_derive_continuous dphi t). unfold dphi, kern. pose proof (spos x t Hx Ht). pose proof (spos y t Hy Ht). pose proof (spos z t Hz Ht).
  auto_derive. repeat split; try lra. apply Rmult_integral_contrapositive_currified; [apply Rmult_integral_contrapositive_currified|]; lra.
Qed.
Lemma cont_sqrt_lin a t : continuous (fun t => sqrt (t + a)) t.
Proof. apply (continuous_comp (fun t => t + a) sqrt); [|apply continuous_sqrt]. apply (continuous_plus (V := R_NormedModule) (fun t => t) (fun _ => a)); [apply continuous_id|apply continuous_const]. Qed.
Lemma lamt_cont t : continuous lamt t.
Proof.
  unfold lamt, lam.
  assert (M : forall a b, continuous (fun t => sqrt (t + a) * sqrt (t + b)) t) by (intros a b; apply (continuous_mult (K := R_AbsRing)); apply cont_sqrt_lin).
  apply (continuous_plus (V := R_NormedModule) (fun t => sqrt (t + x) * sqrt (t + y) + sqrt (t + x) * sqrt (t + z)) (fun t => sqrt (t + y) * sqrt (t + z))); [|apply M].
  apply (continuous_plus (V := R_NormedModule) (fun t => sqrt (t + x) * sqrt (t + y)) (fun t => sqrt (t + x) * sqrt (t + z))); apply M.
Qed.
Lemma phi_lim0 : lim0 phi 0.
Proof.
  assert (E : phi 0 = 0) by (unfold phi, lamt; rewrite !Rplus_0_l; lra). rewrite <- E. apply lim0_cont. apply continuity_pt_filterlim. unfold phi, Rdiv.
  apply (continuous_mult (K := R_AbsRing) (fun t => t + lamt t - lam x y z) (fun _ => / 4)); [|apply continuous_const].
  apply (continuous_plus (V := R_NormedModule) (fun t => t + lamt t) (fun _ => - lam x y z)); [|apply continuous_const].
  apply (continuous_plus (V := R_NormedModule) (fun t => t) lamt); [apply continuous_id|apply lamt_cont].
Qed.
Lemma phi_limoo M : exists T, forall t, T < t -> M < phi t.
Proof. exists (Rmax 0 (4 * M)). intros t Ht. pose proof (Rmax_l 0 (4 * M)). pose proof (Rmax_r 0 (4 * M)). pose proof (phi_ge t ltac:(lra)). lra. Qed.
Lemma phi_plus a t : phi t + (a + lam x y z) / 4 = (t + a + lamt t) / 4.
Proof. unfold phi. field. Qed.
Lemma sqrt_quarter a b : 0 <= a -> 0 <= b -> sqrt (a * b / 4) = sqrt a * sqrt b / 2.
Proof.
  intros Ha Hb. replace (a * b / 4) with ((a * b) * (/ 2) ^ 2) by field. rewrite sqrt_mult_alt by (apply Rmult_le_pos; assumption). rewrite sqrt_pow2 by lra. rewrite sqrt_mult_alt by assumption. reflexivity.
Qed.
Lemma kern_phi t : 0 < t -> dphi t * kern ((x + lam x y z) / 4) ((y + lam x y z) / 4) ((z + lam x y z) / 4) (phi t) = kern x y z t.
Proof.
  intros Ht. unfold kern at 1. rewrite !phi_plus. unfold dphi, lamt, lam, kern.
  pose proof (spos x t Hx Ht) as PX. pose proof (spos y t Hy Ht) as PY. pose proof (spos z t Hz Ht) as PZ.
  assert (QX : t + x = sqrt (t + x) * sqrt (t + x)) by (symmetry; apply sqrt_sqrt; lra). assert (QY : t + y = sqrt (t + y) * sqrt (t + y)) by (symmetry; apply sqrt_sqrt; lra).
  assert (QZ : t + z = sqrt (t + z) * sqrt (t + z)) by (symmetry; apply sqrt_sqrt; lra).
  set (X := sqrt (t + x)) in *. set (Y := sqrt (t + y)) in *. set (Z := sqrt (t + z)) in *. rewrite QX, QY, QZ. clearbody X Y Z.
  replace ((X * X + (X * Y + X * Z + Y * Z)) / 4) with ((X + Y) * (X + Z) / 4) by field. replace ((Y * Y + (X * Y + X * Z + Y * Z)) / 4) with ((X + Y) * (Y + Z) / 4) by field.
  replace ((Z * Z + (X * Y + X * Z + Y * Z)) / 4) with ((X + Z) * (Y + Z) / 4) by field. rewrite !sqrt_quarter by lra.
  assert (P1 : 0 < sqrt (X + Y)) by (apply sqrt_lt_R0; lra). assert (P2 : 0 < sqrt (X + Z)) by (apply sqrt_lt_R0; lra). assert (P3 : 0 < sqrt (Y + Z)) by (apply sqrt_lt_R0; lra).
  assert (S1 : X + Y = sqrt (X + Y) * sqrt (X + Y)) by (symmetry; apply sqrt_sqrt; lra). assert (S2 : Z + X = sqrt (X + Z) * sqrt (X + Z)) by (rewrite sqrt_sqrt; lra).
  assert (S3 : Y + Z = sqrt (Y + Z) * sqrt (Y + Z)) by (symmetry; apply sqrt_sqrt; lra). rewrite S2. rewrite S1 at 1. rewrite S3 at 1. field. repeat split; lra.
Qed.
(** any integral with the kernel of the shifted arguments *)
Lemma dup_gen (w : R -> R) (v : R) : (forall s, 0 < s -> continuous w s) -> improper0 (fun s => kern ((x + lam x y z) / 4) ((y + lam x y z) / 4) ((z + lam x y z) / 4) s * w s) v ->
  improper0 (fun t => kern x y z t * w (phi t)) v.
Proof.
  intros Cw V. pose proof (lam_nonneg x y z) as Ln. assert (H : improper0 (fun t => dphi t * (fun s => kern ((x + lam x y z) / 4) ((y + lam x y z) / 4) ((z + lam x y z) / 4) s * w s) (phi t)) v).
  { apply (improper0_subst (fun s => kern ((x + lam x y z) / 4) ((y + lam x y z) / 4) ((z + lam x y z) / 4) s * w s) phi dphi v).
    - intros t Ht. apply (continuous_mult (K := R_AbsRing)); [apply kern_cont; lra|apply Cw, Ht].
    - apply phi_derive.
    - apply dphi_cont.
    - intros t Ht. pose proof (phi_ge t Ht). lra.
    - apply phi_lim0.
    - apply phi_limoo.
    - exact V. }
  eapply improper0_ext; [|exact H]. intros t Ht. cbn. rewrite <- Rmult_assoc, kern_phi by exact Ht. reflexivity.
Qed.
(** DLMF 19.26.18 *)
Lemma dup_RF v : carlson_RF ((x + lam x y z) / 4) ((y + lam x y z) / 4) ((z + lam x y z) / 4) v -> carlson_RF x y z v.
Proof.
  intros V. unfold carlson_RF in *. pose proof (lam_nonneg x y z) as Ln.
  assert (E : forall a b c t, 0 <= a -> 0 <= b -> 0 <= c -> 0 < t -> 1 / (2 * (sqrt (t + a) * sqrt (t + b) * sqrt (t + c))) = kern a b c t * / 2).
  { intros a b c t Ha Hb Hc Ht. unfold kern. pose proof (spos a t Ha Ht). pose proof (spos b t Hb Ht). pose proof (spos c t Hc Ht). field. repeat split; lra. }
  eapply improper0_ext; [intros t Ht; symmetry; apply E; assumption|]. apply (dup_gen (fun _ => / 2)); [intros; apply continuous_const|].
  eapply improper0_ext; [|exact V]. intros t Ht. apply E; lra.
Qed.

(** ** R_J *)
Variable p : R.
Hypothesis Hp : 0 < p.
(** the function of d and delta that is added: DLMF 19.26.21 with R_C written out *)
Definition Hf (delta d : R) : R :=
  if Rlt_dec 0 delta then 6 / sqrt delta * atan (sqrt delta / d)
  else if Rlt_dec delta 0 then 3 / sqrt (- delta) * ln ((d + sqrt (- delta)) / (d - sqrt (- delta)))
  else 6 / d.
Lemma Hf_derive delta d : 0 < d -> 0 < d * d + delta -> is_derive (Hf delta) d (- 6 / (d * d + delta)).
Proof.
  intros Hd Hdd. unfold Hf. destruct (Rlt_dec 0 delta) as [P|P]; [|destruct (Rlt_dec delta 0) as [N|N]].
  - assert (Sp : 0 < sqrt delta) by (apply sqrt_lt_R0, P). assert (Sq : sqrt delta * sqrt delta = delta) by (apply sqrt_sqrt; lra). set (a := sqrt delta) in *. clearbody a.
    rewrite <- Sq. auto_derive; [repeat split; lra|]. unfold Rsqr. field. repeat split; nra.
  - assert (Sp : 0 < sqrt (- delta)) by (apply sqrt_lt_R0; lra). assert (Sq : sqrt (- delta) * sqrt (- delta) = - delta) by (apply sqrt_sqrt; lra). set (a := sqrt (- delta)) in *. clearbody a.
    replace delta with (- (a * a)) in * by lra. assert (a < d) by nra. auto_derive.
    + repeat split; try lra. apply Rdiv_lt_0_compat; lra.
    + field. repeat split; lra.
  - replace delta with 0 in * by lra. auto_derive; [lra|]. field. lra.
Qed.
Lemma Hf_bound delta d : 0 < d -> 0 < d * d + delta -> Rabs (Hf delta d) <= 12 * d / (d * d + delta) \/ Rabs (Hf delta d) <= 6 / d.
Proof.
  intros Hd Hdd. unfold Hf. destruct (Rlt_dec 0 delta) as [P|P]; [|destruct (Rlt_dec delta 0) as [N|N]].
  - right. assert (Sp : 0 < sqrt delta) by (apply sqrt_lt_R0, P). set (a := sqrt delta) in *. clearbody a. assert (U : 0 < a / d) by (apply Rdiv_lt_0_compat; lra).
    assert (At : 0 <= atan (a / d) <= a / d).
    { split; [left; rewrite <- atan_0; apply atan_increasing, U|]. destruct (MVT_gen atan 0 (a / d) (fun u => / (1 + u ^ 2))) as (c & Hc & E).
      - intros u _. apply is_derive_Reals. apply derivable_pt_lim_atan.
      - intros u _. apply derivable_continuous_pt. exists (/ (1 + u ^ 2)). apply derivable_pt_lim_atan.
      - rewrite atan_0, !Rminus_0_r in E. rewrite E. rewrite <- (Rmult_1_l (a / d)) at 2. apply Rmult_le_compat_r; [lra|]. rewrite <- Rinv_1. apply Rinv_le_contravar; nra. }
    rewrite Rabs_right; [|apply Rle_ge, Rmult_le_pos; [apply Rlt_le, Rdiv_lt_0_compat; lra|lra]].
    apply Rle_trans with (6 / a * (a / d)); [apply Rmult_le_compat_l; [apply Rlt_le, Rdiv_lt_0_compat; lra|lra]|]. right. field. lra.
  - left. assert (Sp : 0 < sqrt (- delta)) by (apply sqrt_lt_R0; lra). assert (Sq : sqrt (- delta) * sqrt (- delta) = - delta) by (apply sqrt_sqrt; lra). set (a := sqrt (- delta)) in *. clearbody a.
    replace delta with (- (a * a)) in * by lra. assert (a < d) by nra. assert (U : 1 < (d + a) / (d - a)) by (apply Rmult_lt_reg_r with (d - a); [lra|]; unfold Rdiv; rewrite Rmult_assoc, Rinv_l; lra).
    assert (Ln : 0 <= ln ((d + a) / (d - a)) <= 2 * a / (d - a)).
    { split; [rewrite <- ln_1; apply Rlt_le, ln_increasing; lra|]. replace ((d + a) / (d - a)) with (1 + 2 * a / (d - a)) by (field; lra).
      assert (0 < 2 * a / (d - a)) by (apply Rdiv_lt_0_compat; lra). rewrite <- (ln_exp (2 * a / (d - a))) at 2. apply Rlt_le, ln_increasing; [lra|]. apply exp_ineq1. lra. }
    rewrite Rabs_right; [|apply Rle_ge, Rmult_le_pos; [apply Rlt_le, Rdiv_lt_0_compat; lra|lra]].
    apply Rle_trans with (3 / a * (2 * a / (d - a))); [apply Rmult_le_compat_l; [apply Rlt_le, Rdiv_lt_0_compat; lra|lra]|].
    replace (3 / a * (2 * a / (d - a))) with (6 / (d - a)) by (field; lra). replace (12 * d / (d * d + - (a * a))) with (6 / (d - a) * (2 * d / (d + a))) by (field; nra).
    rewrite <- (Rmult_1_r (6 / (d - a))) at 1. apply Rmult_le_compat_l; [apply Rlt_le, Rdiv_lt_0_compat; lra|]. apply Rmult_le_reg_r with (d + a); [lra|]. unfold Rdiv. rewrite Rmult_assoc, Rinv_l by lra. lra.
  - right. rewrite Rabs_right; [lra|]. apply Rle_ge, Rlt_le, Rdiv_lt_0_compat; lra.
Qed.
Definition dt (t : R) : R := (sqrt (t + p) + sqrt (t + x)) * (sqrt (t + p) + sqrt (t + y)) * (sqrt (t + p) + sqrt (t + z)).
Definition delta0 : R := (p - x) * (p - y) * (p - z).
(** the algebra of d *)
Lemma dt_facts t : 0 <= t -> 0 < sqrt (t + p) /\ 0 < dt t /\ dt t * dt t + delta0 = 2 * dt t * (sqrt (t + p) * (t + p + lamt t)).
Proof.
  intros Ht. assert (P1 : 0 < sqrt (t + p)) by (apply sqrt_lt_R0; lra). pose proof (sqrt_pos (t + x)) as PX. pose proof (sqrt_pos (t + y)) as PY. pose proof (sqrt_pos (t + z)) as PZ. split; [exact P1|]. split.
  - unfold dt. repeat apply Rmult_lt_0_compat; lra.
  - unfold dt, delta0, lamt, lam.
    assert (QX : t + x = sqrt (t + x) * sqrt (t + x)) by (symmetry; apply sqrt_sqrt; lra). assert (QY : t + y = sqrt (t + y) * sqrt (t + y)) by (symmetry; apply sqrt_sqrt; lra).
    assert (QZ : t + z = sqrt (t + z) * sqrt (t + z)) by (symmetry; apply sqrt_sqrt; lra). assert (QP : t + p = sqrt (t + p) * sqrt (t + p)) by (symmetry; apply sqrt_sqrt; lra).
    replace (p - x) with ((t + p) - (t + x)) by ring. replace (p - y) with ((t + p) - (t + y)) by ring. replace (p - z) with ((t + p) - (t + z)) by ring.
    set (X := sqrt (t + x)) in *. set (Y := sqrt (t + y)) in *. set (Z := sqrt (t + z)) in *. set (W := sqrt (t + p)) in *. rewrite QX, QY, QZ, QP. clearbody X Y Z W. ring.
Qed.
Lemma dt_pos2 t : 0 <= t -> 0 < dt t * dt t + delta0.
Proof.
  intros Ht. destruct (dt_facts t Ht) as (P1 & P2 & ->). pose proof (lam_nonneg (t + x) (t + y) (t + z)) as Ln. unfold lamt. apply Rmult_lt_0_compat; [|apply Rmult_lt_0_compat]; lra.
Qed.
Lemma dt_derive t : 0 < t -> is_derive dt t (/ 2 * lamt t * dt t * kern x y z t / sqrt (t + p)).
Proof.
  intros Ht. unfold dt, kern, lamt, lam. pose proof (spos x t Hx Ht). pose proof (spos y t Hy Ht). pose proof (spos z t Hz Ht). pose proof (spos p t ltac:(lra) Ht).
  auto_derive; [repeat split; lra|]. field. repeat split; lra.
Qed.
Lemma dt_cont t : continuous dt t.
Proof.
  unfold dt. assert (M : forall a, continuous (fun t => sqrt (t + p) + sqrt (t + a)) t) by (intros a; apply (continuous_plus (V := R_NormedModule)); apply cont_sqrt_lin).
  apply (continuous_mult (K := R_AbsRing) (fun t => (sqrt (t + p) + sqrt (t + x)) * (sqrt (t + p) + sqrt (t + y)))); [|apply M]. apply (continuous_mult (K := R_AbsRing)); apply M.
Qed.
Lemma dup_RJ v : carlson_RJ ((x + lam x y z) / 4) ((y + lam x y z) / 4) ((z + lam x y z) / 4) ((p + lam x y z) / 4) v ->
  carlson_RJ x y z p (v / 4 + Hf delta0 (dt 0)).
Proof.
  intros V. unfold carlson_RJ in *. pose proof (lam_nonneg x y z) as Ln.
  assert (E : forall a b c q t, 0 <= a -> 0 <= b -> 0 <= c -> 0 < q -> 0 < t -> 3 / (2 * (sqrt (t + a) * sqrt (t + b) * sqrt (t + c) * (t + q))) = kern a b c t * (3 / 2 * / (t + q))).
  { intros a b c q t Ha Hb Hc Hq Ht. unfold kern. pose proof (spos a t Ha Ht). pose proof (spos b t Hb Ht). pose proof (spos c t Hc Ht). field. repeat split; lra. }
  assert (V1 : improper0 (fun t => kern x y z t * (3 / 2 * / (phi t + (p + lam x y z) / 4))) v).
  { apply (dup_gen (fun s => 3 / 2 * / (s + (p + lam x y z) / 4))).
    - intros s Hs. apply (continuous_mult (K := R_AbsRing) (fun _ => 3 / 2) (fun s => / (s + (p + lam x y z) / 4))); [apply continuous_const|apply cont_inv_lin; lra].
    - eapply improper0_ext; [|exact V]. intros t Ht. apply E; lra. }
  apply improper0_scal with (c := / 4) in V1.
  assert (Lt : forall t, 0 <= lamt t) by (intros t; apply lam_nonneg).
  assert (V2 : improper0 (fun t => 3 / 2 * lamt t * kern x y z t / ((t + p) * (t + p + lamt t))) (0 - - Hf delta0 (dt 0))).
  { apply improper0_derive with (F := fun t => - Hf delta0 (dt t)).
    - intros t Ht. destruct (dt_facts t ltac:(lra)) as (P1 & P2 & Q). pose proof (dt_pos2 t ltac:(lra)) as P3. pose proof (Hf_derive delta0 (dt t) P2 P3) as D1. pose proof (dt_derive t Ht) as D2.
      pose proof (is_derive_comp (Hf delta0) dt t _ _ D1 D2) as D. apply (is_derive_opp (V := R_NormedModule)) in D. eapply is_derive_ext; [reflexivity|].
      evar_last; [exact D|]. unfold opp, scal; cbn; unfold mult; cbn. rewrite Q. specialize (Lt t).
      assert (Qp : sqrt (t + p) * sqrt (t + p) = t + p) by (apply sqrt_sqrt; lra). set (W := sqrt (t + p)) in *. clearbody W. change (- (/ 2 * lamt t * dt t * kern x y z t / W * (- 6 / (2 * dt t * (W * (t + p + lamt t))))) = 3 / 2 * lamt t * kern x y z t / ((t + p) * (t + p + lamt t))). rewrite <- Qp. field. repeat split; lra.
    - intros t Ht. apply (ex_derive_continuous (fun t => 3 / 2 * lamt t * kern x y z t / ((t + p) * (t + p + lamt t))) t). specialize (Lt t). unfold kern, lamt, lam in *. pose proof (spos x t Hx Ht). pose proof (spos y t Hy Ht). pose proof (spos z t Hz Ht).
      auto_derive. repeat split; try lra; apply Rmult_integral_contrapositive_currified; try apply Rmult_integral_contrapositive_currified; lra.
    - apply (lim0_cont (fun t => - Hf delta0 (dt t))). apply continuity_pt_filterlim. apply (continuous_opp (V := R_NormedModule) (fun t => Hf delta0 (dt t))). apply (continuous_comp dt (Hf delta0)); [apply dt_cont|].
      apply (ex_derive_continuous (Hf delta0)). eexists. apply Hf_derive; [apply dt_facts; lra|apply dt_pos2; lra].
    - apply limoo_0 with (C := 6). intros t Ht. rewrite Rabs_Ropp. destruct (dt_facts t ltac:(lra)) as (P1 & P2 & Q). pose proof (dt_pos2 t ltac:(lra)) as P3.
      assert (Sp : 1 <= sqrt (t + p)) by (rewrite <- sqrt_1; apply sqrt_le_1_alt; lra). assert (St : sqrt t <= sqrt (t + p)) by (apply sqrt_le_1_alt; lra). assert (S0 : 0 < sqrt t) by (apply sqrt_lt_R0; lra).
      destruct (Hf_bound delta0 (dt t) P2 P3) as [B|B]; (eapply Rle_trans; [exact B|]).
      + rewrite Q. replace (12 * dt t / (2 * dt t * (sqrt (t + p) * (t + p + lamt t)))) with (6 * / (sqrt (t + p) * (t + p + lamt t))) by (specialize (Lt t); field; repeat split; lra).
        unfold Rdiv. apply Rmult_le_compat_l; [lra|]. apply Rinv_le_contravar; [exact S0|]. specialize (Lt t). apply Rle_trans with (sqrt (t + p) * 1); [lra|]. apply Rmult_le_compat_l; lra.
      + unfold Rdiv. apply Rmult_le_compat_l; [lra|]. apply Rinv_le_contravar; [exact S0|]. unfold dt. pose proof (sqrt_pos (t + x)). pose proof (sqrt_pos (t + y)). pose proof (sqrt_pos (t + z)).
        apply Rle_trans with (sqrt (t + p) * 1 * 1); [lra|]. apply Rmult_le_compat; [lra|lra| |lra]. apply Rmult_le_compat; lra. }
  replace (0 - - Hf delta0 (dt 0)) with (Hf delta0 (dt 0)) in V2 by ring. replace (v / 4 + Hf delta0 (dt 0)) with (/ 4 * v + Hf delta0 (dt 0)) by field.
  eapply improper0_ext; [|exact (improper0_plus _ _ _ _ V1 V2)]. intros t Ht. cbn beta. rewrite E by assumption. rewrite phi_plus. specialize (Lt t). field. repeat split; lra.
Qed.
End Dup.
