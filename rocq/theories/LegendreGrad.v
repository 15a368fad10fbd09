(** * Derivatives of Legendre's integrals with respect to the parameter and the characteristic *)
From Coq Require Import Reals Lra Lia Psatz.
From Coquelicot Require Import Rbar Rcomplements Hierarchy Continuity Derive Derive_2d RInt RInt_analysis AutoDerive ElemFct.
From Verif Require Import EllipSpec EllipGradSpec RedInt.
Open Scope R_scope.

Definition Q (m th : R) : R := 1 - m * (sin th) ^ 2.
Lemma sin_between th phi : 0 <= th <= phi -> phi <= PI / 2 -> 0 <= (sin th) ^ 2 <= (sin phi) ^ 2.
Proof.
  intros Ht Hp. pose proof PI_RGT_0. assert (A : 0 <= sin th) by (apply sin_ge_0; lra). assert (B : sin th <= sin phi) by (apply sin_incr_1; lra). split; [apply pow_le, A|apply pow_incr; lra].
Qed.
Lemma Q_pos m th phi : 0 <= th <= phi -> phi <= PI / 2 -> m * (sin phi) ^ 2 < 1 -> 0 < Q m th.
Proof. intros Ht Hp Hm. unfold Q. pose proof (sin_between th phi Ht Hp). destruct (Rle_dec m 0) as [L|G]; nra. Qed.
Lemma Q_cont m th : continuous (Q m) th.
Proof. apply (ex_derive_continuous (Q m)). unfold Q. auto_derive. exact I. Qed.

Lemma param_Q (g g' w V : R -> R) (phi m K : R) : 0 <= phi <= PI / 2 -> m * (sin phi) ^ 2 < 1 ->
  (forall q, 0 < q -> is_derive g q (g' q)) -> (forall q, 0 < q -> continuity_pt g' q) -> (forall th, 0 <= th <= phi -> continuity_pt w th) ->
  (forall n, n * (sin phi) ^ 2 < 1 -> is_RInt (fun th => g (Q n th) * w th) 0 phi (V n)) ->
  is_RInt (fun th => - (sin th) ^ 2 * g' (Q m th) * w th) 0 phi K -> is_derive V m K.
Proof.
  intros Hp Hm Dg Cg Cw HV HK.
  assert (Near : locally m (fun n => n * (sin phi) ^ 2 < 1)).
  { assert (C : continuous (fun n => n * (sin phi) ^ 2) m) by (apply (ex_derive_continuous (fun n => n * (sin phi) ^ 2)); auto_derive; exact I).
    apply (C (fun q => q < 1)). apply (open_lt 1). exact Hm. }
  assert (Mm : forall t, Rmin 0 phi <= t <= Rmax 0 phi -> 0 <= t <= phi) by (intros t; rewrite Rmin_left, Rmax_right by lra; intros; lra).
  assert (Id : forall n t, 0 < Q n t -> is_derive (fun u => g (Q u t) * w t) n (- (sin t) ^ 2 * g' (Q n t) * w t)).
  { intros n t Pq. evar_last; [apply (is_derive_scal_l (fun u => g (Q u t)) n (- (sin t) ^ 2 * g' (Q n t)) (w t))|reflexivity]. apply (is_derive_comp g (fun u => Q u t) n (g' (Q n t)) (- (sin t) ^ 2)); [apply Dg, Pq|]. unfold Q. auto_derive; [exact I|ring]. }
  apply (is_derive_ext_loc (fun n => RInt (fun th => g (Q n th) * w th) 0 phi)).
  { apply (filter_imp (fun n => n * (sin phi) ^ 2 < 1)); [|exact Near]. intros n Hn. apply (is_RInt_unique (V := R_CompleteNormedModule)), HV, Hn. }
  apply (is_RInt_unique (V := R_CompleteNormedModule)) in HK. rewrite <- HK.
  replace (RInt _ 0 phi) with (RInt (fun t => Derive (fun u => g (Q u t) * w t) m) 0 phi).
  2: { apply (RInt_ext (V := R_CompleteNormedModule)). intros t Ht. apply is_derive_unique, Id. apply (Q_pos m t phi); [apply Mm; lra|lra|exact Hm]. }
  apply (is_derive_RInt_param (fun u t => g (Q u t) * w t) 0 phi m).
  - apply (filter_imp (fun n => n * (sin phi) ^ 2 < 1)); [|exact Near]. intros n Hn t Ht. eexists. apply Id, (Q_pos n t phi); [apply Mm, Ht|lra|exact Hn].
  - intros t Ht. pose proof (Q_pos m t phi (Mm t Ht) ltac:(lra) Hm) as Pq.
    assert (C2 : continuity_2d_pt Q m t).
    { unfold Q. apply continuity_2d_pt_minus; [apply continuity_2d_pt_const|]. apply continuity_2d_pt_mult; [apply continuity_2d_pt_id1|]. apply (continuity_1d_2d_pt_comp (fun v => (sin v) ^ 2) (fun _ v => v)); [|apply continuity_2d_pt_id2]. apply continuity_pt_filterlim, (ex_derive_continuous (fun v => (sin v) ^ 2)). auto_derive. exact I. }
    apply continuity_2d_pt_ext_loc with (f := fun u v => - (sin v) ^ 2 * g' (Q u v) * w v).
    + destruct (C2 (mkposreal _ Pq)) as (d & Hd). exists d. intros u v Hu Hv. symmetry. apply is_derive_unique, Id. specialize (Hd u v Hu Hv). cbn in Hd. apply Rabs_def2 in Hd. lra.
    + apply continuity_2d_pt_mult; [apply continuity_2d_pt_mult|].
      * apply (continuity_1d_2d_pt_comp (fun v => - (sin v) ^ 2) (fun _ v => v)); [|apply continuity_2d_pt_id2]. apply continuity_pt_filterlim, (ex_derive_continuous (fun v => - (sin v) ^ 2)). auto_derive. exact I.
      * apply (continuity_1d_2d_pt_comp g' Q); [apply Cg, Pq|exact C2].
      * apply (continuity_1d_2d_pt_comp w (fun _ v => v)); [apply Cw, Mm, Ht|apply continuity_2d_pt_id2].
  - apply (filter_imp (fun n => n * (sin phi) ^ 2 < 1)); [|exact Near]. intros n Hn. eexists. apply HV, Hn.
Qed.

(** The integrands *)
Definition iQ (m th : R) : R := / sqrt (Q m th).
Lemma iQ_cont m th : 0 < Q m th -> continuous (iQ m) th.
Proof.
  intros P. apply (ex_derive_continuous (iQ m)). unfold iQ. pose proof (sqrt_lt_R0 _ P) as Ps. unfold Q in *. cbn [pow] in *. rewrite !Rmult_1_r in *. unfold Rminus in *. auto_derive. rewrite ?Rmult_1_r. split; [exact P|]. split; [apply Rgt_not_eq; exact Ps|exact I].
Qed.
Lemma sqrt_iQ m th : 0 < Q m th -> sqrt (Q m th) = Q m th * iQ m th.
Proof. intros P. pose proof (sqrt_lt_R0 _ P). unfold iQ. rewrite <- (sqrt_sqrt (Q m th)) at 2 by lra. field. lra. Qed.
Section Ints.
Variables (phi m : R).
Hypothesis Hp : 0 <= phi <= PI / 2.
Hypothesis Hm : m * (sin phi) ^ 2 < 1.
Lemma Qp th : 0 <= th <= phi -> 0 < Q m th.
Proof. intros Ht. apply (Q_pos m th phi); [exact Ht|lra|exact Hm]. Qed.
(** integrals of [iQ] times a continuous function exist *)
Lemma ex_int (r : R -> R) : (forall th, 0 <= th <= phi -> continuous r th) -> ex_RInt (fun th => iQ m th * r th) 0 phi.
Proof.
  intros C. apply (ex_RInt_continuous (V := R_CompleteNormedModule)). intros t Ht. rewrite Rmin_left, Rmax_right in Ht by lra. apply (continuous_mult (iQ m) r); [apply iQ_cont, Qp, Ht|apply C, Ht].
Qed.
Lemma int_F v : legendre_F phi m v <-> is_RInt (fun th => iQ m th * 1) 0 phi v.
Proof. split; apply (is_RInt_ext (V := R_NormedModule)); intros th _; req; unfold iQ, Q; unfold Rdiv; ring. Qed.
Lemma int_D v : legendre_D phi m v <-> is_RInt (fun th => iQ m th * (sin th) ^ 2) 0 phi v.
Proof. split; apply (is_RInt_ext (V := R_NormedModule)); intros th _; req; unfold iQ, Q; unfold Rdiv; ring. Qed.
Lemma int_E v : legendre_E phi m v <-> is_RInt (fun th => iQ m th * Q m th) 0 phi v.
Proof.
  split; apply (is_RInt_ext (V := R_NormedModule)); intros th Ht; rewrite Rmin_left, Rmax_right in Ht by lra; assert (P : 0 < Q m th) by (apply Qp; lra); pose proof (sqrt_iQ m th P) as E; req; unfold Q in *; rewrite E; ring.
Qed.
Lemma int_Pi n v : n * (sin phi) ^ 2 < 1 -> legendre_Pi n phi m v <-> is_RInt (fun th => iQ m th * / Q n th) 0 phi v.
Proof.
  intros Hn. split; apply (is_RInt_ext (V := R_NormedModule)); intros th Ht; rewrite Rmin_left, Rmax_right in Ht by lra; assert (P : 0 < Q n th) by (apply (Q_pos n th phi); lra); assert (P' : 0 < sqrt (Q m th)) by (apply sqrt_lt_R0, Qp; lra); req; unfold iQ, Q in *; field; split; lra.
Qed.
(** the boundary terms *)
Definition B (th : R) : R := sin th * cos th * iQ m th.
Definition B' (th : R) : R := (1 - 2 * (sin th) ^ 2 + m * (sin th) ^ 4) / Q m th.
Lemma cos2 th : (cos th) ^ 2 = 1 - (sin th) ^ 2.
Proof. pose proof (sin2_cos2 th). unfold Rsqr in *. lra. Qed.
Lemma B_derive th : 0 < Q m th -> is_derive B th (iQ m th * B' th).
Proof.
  intros P. unfold B. evar_last; [apply (is_derive_mult (fun th => sin th * cos th) (iQ m) th (cos th * cos th - sin th * sin th) (m * sin th * cos th * (iQ m th * / Q m th)))|].
  - evar_last; [apply (is_derive_mult sin cos th (cos th) (- sin th)); [apply is_derive_sin|apply is_derive_cos|intros; apply Rmult_comm]|]. unfold plus, mult; cbn. ring.
  - unfold iQ. pose proof (sqrt_lt_R0 _ P) as Ps. pose proof (sqrt_sqrt (Q m th) ltac:(lra)) as E. unfold Q in *. cbn [pow] in *. rewrite !Rmult_1_r in *. unfold Rminus in *. auto_derive; rewrite ?Rmult_1_r; [split; [exact P|split; [apply Rgt_not_eq; exact Ps|exact I]]|]. unfold Rminus in *. set (s := sqrt _) in *. clearbody s. rewrite <- E. field. lra.
  - intros; apply Rmult_comm.
  - unfold plus, mult; cbn. unfold B'. replace (cos th * cos th) with (1 - (sin th) ^ 2) by (rewrite <- cos2; ring). 
    replace (sin th * cos th * (m * sin th * cos th * (iQ m th * / Q m th))) with (m * (sin th) ^ 2 * (cos th) ^ 2 * (iQ m th * / Q m th)) by ring. rewrite cos2. unfold Q in *. field. lra.
Qed.
Lemma int_B : is_RInt (fun th => iQ m th * B' th) 0 phi (B phi).
Proof.
  replace (B phi) with (minus (B phi) (B 0)). 2: { unfold minus, plus, opp; cbn. unfold B. rewrite sin_0. ring. }
  apply (is_RInt_derive (V := R_CompleteNormedModule) B (fun th => iQ m th * B' th)); intros t Ht; rewrite Rmin_left, Rmax_right in Ht by lra.
  - apply B_derive, Qp, Ht.
  - apply (continuous_mult (iQ m) B'); [apply iQ_cont, Qp, Ht|]. apply (ex_derive_continuous B'). unfold B', Q. auto_derive. pose proof (Qp t Ht). unfold Q in *. lra.
Qed.
Variable n : R.
Hypothesis Hn : n * (sin phi) ^ 2 < 1.
Lemma Np th : 0 <= th <= phi -> 0 < Q n th.
Proof. intros Ht. apply (Q_pos n th phi); [exact Ht|lra|exact Hn]. Qed.
Definition Bn (th : R) : R := sin th * cos th * (iQ m th * (Q m th / Q n th)).
Definition Bn' (th : R) : R := ((1 - 2 * (sin th) ^ 2) * Q m th * Q n th - m * (sin th) ^ 2 * (1 - (sin th) ^ 2) * Q n th + 2 * n * (sin th) ^ 2 * (1 - (sin th) ^ 2) * Q m th) / (Q n th) ^ 2.
Lemma Bn_derive th : 0 < Q m th -> 0 < Q n th -> is_derive Bn th (iQ m th * Bn' th).
Proof.
  intros P Pn. unfold Bn.
  apply (is_derive_ext (fun th => B th * (Q m th / Q n th))); [intros t; req; unfold B; ring|].
  evar_last; [apply (is_derive_mult B (fun th => Q m th / Q n th) th (iQ m th * B' th) (2 * (n - m) * sin th * cos th / (Q n th) ^ 2))|].
  - apply B_derive, P.
  - unfold Q in *. auto_derive; [cbn [pow] in *; lra|]. field. cbn [pow] in *. lra.
  - intros; apply Rmult_comm.
  - unfold plus, mult; cbn. unfold B', Bn', B.
    replace (sin th * cos th * iQ m th * (2 * (n - m) * sin th * cos th / (Q n th * (Q n th * 1)))) with (iQ m th * (2 * (n - m) * (sin th) ^ 2 * (cos th) ^ 2 / (Q n th) ^ 2)) by (unfold Rdiv; cbn [pow]; ring). rewrite cos2. unfold Q in *. field. split; lra.
Qed.
Lemma int_Bn : is_RInt (fun th => iQ m th * Bn' th) 0 phi (Bn phi).
Proof.
  replace (Bn phi) with (minus (Bn phi) (Bn 0)). 2: { unfold minus, plus, opp; cbn. unfold Bn. rewrite sin_0. ring. }
  apply (is_RInt_derive (V := R_CompleteNormedModule) Bn (fun th => iQ m th * Bn' th)); intros t Ht; rewrite Rmin_left, Rmax_right in Ht by lra.
  - apply Bn_derive; [apply Qp, Ht|apply Np, Ht].
  - apply (continuous_mult (iQ m) Bn'); [apply iQ_cont, Qp, Ht|]. apply (ex_derive_continuous Bn'). pose proof (Np t Ht) as N. unfold Bn', Q in *. auto_derive. cbn [pow] in *. apply Rgt_not_eq. apply Rmult_lt_0_compat; [lra|]. apply Rmult_lt_0_compat; lra.
Qed.
(** linear combinations *)
Lemma lin4 f1 f2 f3 f4 f v1 v2 v3 v4 v a b c d : is_RInt (fun th => iQ m th * f1 th) 0 phi v1 -> is_RInt (fun th => iQ m th * f2 th) 0 phi v2 -> is_RInt (fun th => iQ m th * f3 th) 0 phi v3 -> is_RInt (fun th => iQ m th * f4 th) 0 phi v4 ->
  (forall th, 0 <= th <= phi -> f th = a * f1 th + b * f2 th + c * f3 th + d * f4 th) -> v = a * v1 + b * v2 + c * v3 + d * v4 -> is_RInt (fun th => iQ m th * f th) 0 phi v.
Proof.
  intros I1 I2 I3 I4 E ->. apply (is_RInt_ext (V := R_NormedModule) (fun th => plus (plus (plus (scal a (iQ m th * f1 th)) (scal b (iQ m th * f2 th))) (scal c (iQ m th * f3 th))) (scal d (iQ m th * f4 th)))).
  - intros th Ht. rewrite Rmin_left, Rmax_right in Ht by lra. rewrite E by lra. unfold plus, scal; cbn; unfold mult; cbn. ring.
  - exact (is_RInt_plus (V := R_NormedModule) _ _ _ _ _ _ (is_RInt_plus (V := R_NormedModule) _ _ _ _ _ _ (is_RInt_plus (V := R_NormedModule) _ _ _ _ _ _ (is_RInt_scal (V := R_NormedModule) _ _ _ a _ I1) (is_RInt_scal (V := R_NormedModule) _ _ _ b _ I2)) (is_RInt_scal (V := R_NormedModule) _ _ _ c _ I3)) (is_RInt_scal (V := R_NormedModule) _ _ _ d _ I4)).
Qed.
End Ints.
