(** * C66: the gradients of the incomplete gamma functions are their derivatives *)
From Coq Require Import Reals Lra Lia Psatz.
From Coquelicot Require Import Rcomplements Hierarchy Continuity Derive RInt RInt_analysis AutoDerive ElemFct.
From Verif Require Import EllipSpec Improper ImproperLim CarlsonGrad GammaSpec GammaGrad GammaInt GammaFun.
Open Scope R_scope.
Ltac reql := match goal with |- ?x = ?y => change (@eq R x y) end.

Section Gradients.
Variables gammaln digamma : R -> R.
Hypothesis HG : log_gamma_function gammaln.
Hypothesis HD : digamma_function gammaln digamma.
Variable Tgamma : nat -> R -> R -> option R.
Hypothesis HT : computes_T Tgamma.

Definition Uv (a x : R) : R := Rpower x a * Jv 0 a x.
Lemma U_derive_a a x : 0 < x -> is_derive (fun a => Uv a x) a (ln x * Uv a x + Rpower x a * Jv 1 a x).
Proof.
  intros Hx. unfold Uv. evar_last; [apply (is_derive_mult (fun a => Rpower x a) (fun a => Jv 0 a x) a (ln x * Rpower x a) (Jv 1 a x))|].
  - unfold Rpower. auto_derive; [exact I|ring].
  - exact (Jv_derive_a 0 a x Hx).
  - intros; apply Rmult_comm.
  - unfold plus, mult; cbn. reql. ring.
Qed.
Lemma U_derive_x a x : 0 < x -> is_derive (fun x => Uv a x) x (- (Rpower x (a - 1) * exp (- x))).
Proof.
  intros Hx. unfold Uv. evar_last; [apply (is_derive_mult (fun x => Rpower x a) (fun x => Jv 0 a x) x _ _ (Rpower_derive a x Hx) (Jv_derive_z 0 a x Hx)); intros; apply Rmult_comm|].
  unfold plus, mult; cbn. reql. replace (Rpower x a) with (Rpower x (a - 1) * x) by (rewrite <- (Rpower_1 x) at 2 by lra; rewrite <- Rpower_plus; f_equal; ring). field. lra.
Qed.
Lemma T_call m a z : 0 < z -> exists v, Tgamma (S (S m)) a z = Some v /\ v = Rpower z a * Jv m a z / (z * INR (fact m)).
Proof. intros Hz. destruct (proj1 HT (S (S m)) a z ltac:(lia) Hz) as (v & E & V). exists v. split; [exact E|apply T_value; assumption]. Qed.
Lemma P_value a x p : 0 < a -> 0 < x -> regularised_P a x p -> p = 1 - Uv a x / exp (gammaln a).
Proof. intros Ha Hx (g & l & G & L & ->). rewrite (euler_unique _ _ _ G (HG a Ha)) in *. rewrite (lower_value a x _ l Hx (HG a Ha) L). unfold Uv. pose proof (exp_pos (gammaln a)). field. lra. Qed.
Lemma Q_value a x q : 0 < a -> 0 < x -> regularised_Q a x q -> q = Uv a x / exp (gammaln a).
Proof. intros Ha Hx (g & u & G & U & ->). rewrite (euler_unique _ _ _ G (HG a Ha)), (upper_value a x u Hx U). reflexivity. Qed.
Lemma near_pos (a : R) : 0 < a -> locally a (fun b => 0 < b).
Proof. intros Ha. exists (mkposreal a Ha). intros b Hb. apply Rabs_def2 in Hb. unfold minus, plus, opp in Hb. cbn in Hb. lra. Qed.
Lemma Q_derive_a a x : 0 < a -> 0 < x -> exists T3, Tgamma 3 a x = Some T3 /\
  is_derive (fun a => Uv a x / exp (gammaln a)) a (- (Uv a x / exp (gammaln a) * (digamma a - ln x) - x * T3 / exp (gammaln a))).
Proof.
  intros Ha Hx. destruct (T_call 1 a x Hx) as (T3 & E & V). exists T3. split; [exact E|]. pose proof (exp_pos (gammaln a)) as Pg.
  evar_last; [apply (is_derive_div (fun a => Uv a x) (fun a => exp (gammaln a)) a (ln x * Uv a x + Rpower x a * Jv 1 a x) (scal (digamma a) (exp (gammaln a)))); [exact (U_derive_a a x Hx)|apply (is_derive_comp exp gammaln a (exp (gammaln a)) (digamma a)); [apply is_derive_Reals, derivable_pt_lim_exp|apply HD, Ha]|lra]|].
  reql. unfold scal; cbn [AbsRing.sort]; unfold mult; cbn. rewrite V. cbn [fact INR Nat.mul Nat.add]. field. split; lra.
Qed.
Lemma Q_derive_x a x : 0 < x -> is_derive (fun x => Uv a x / exp (gammaln a)) x (- (Rpower x (a - 1) * exp (- x - gammaln a))).
Proof.
  intros Hx. pose proof (exp_pos (gammaln a)) as Pg. apply (is_derive_ext (fun x => / exp (gammaln a) * Uv a x)); [intros t; reql; field; lra|]. evar_last; [exact (is_derive_scal (fun x => Uv a x) x (/ exp (gammaln a)) _ (U_derive_x a x Hx))|].
  reql. unfold scal; cbn [AbsRing.sort]; unfold mult; cbn. unfold Rminus at 3. rewrite exp_plus, exp_Ropp with (x := gammaln a). ring.
Qed.

(** ** The lower regularised function *)
Section Lower.
Variable P : R -> R -> R.
Hypothesis HP : forall a x, 0 < a -> 0 < x -> regularised_P a x (P a x).
Theorem C66_gammainc_a a x : 0 < a -> 0 < x -> exists d, Gammainc_grad_a gammaln digamma Tgamma a x (Some (P a x)) None = Some d /\ is_derive (fun a => P a x) a d.
Proof.
  intros Ha Hx. destruct (Q_derive_a a x Ha Hx) as (T3 & E & D). unfold Gammainc_grad_a, obind. rewrite E. eexists. split; [reflexivity|].
  apply (is_derive_ext_loc (fun a => 1 - Uv a x / exp (gammaln a))); [eapply filter_imp; [|apply (near_pos a Ha)]; intros b Hb; symmetry; apply P_value; [exact Hb|exact Hx|apply HP; assumption]|].
  rewrite (P_value a x _ Ha Hx (HP a x Ha Hx)). evar_last; [apply (is_derive_minus (fun _ => 1) (fun a => Uv a x / exp (gammaln a)) a 0 _ (is_derive_const 1 a) D)|]. reql. unfold minus, plus, opp; cbn. ring.
Qed.
Theorem C66_gammainc_x a x : 0 < a -> 0 < x -> is_derive (fun x => P a x) x (Gammainc_grad_z gammaln a x (Some (P a x))).
Proof.
  intros Ha Hx. apply (is_derive_ext_loc (fun x => 1 - Uv a x / exp (gammaln a))); [eapply filter_imp; [|apply (near_pos x Hx)]; intros b Hb; symmetry; apply P_value; [exact Ha|exact Hb|apply HP; assumption]|].
  evar_last; [apply (is_derive_minus (fun _ => 1) (fun x => Uv a x / exp (gammaln a)) x 0 _ (is_derive_const 1 x) (Q_derive_x a x Hx))|]. reql. unfold minus, plus, opp, Gammainc_grad_z; cbn. ring.
Qed.
End Lower.
(** ** The upper regularised function *)
Section Upper.
Variable Q : R -> R -> R.
Hypothesis HQ : forall a x, 0 < a -> 0 < x -> regularised_Q a x (Q a x).
Theorem C66_gammaincc_a a x : 0 < a -> 0 < x -> exists d, Gammaincc_grad_a gammaln digamma Tgamma a x (Q a x) = Some d /\ is_derive (fun a => Q a x) a d.
Proof.
  intros Ha Hx. destruct (Q_derive_a a x Ha Hx) as (T3 & E & D). unfold Gammaincc_grad_a, Gammainc_grad_a, obind. rewrite E. eexists. split; [reflexivity|]. rewrite (Q_value a x _ Ha Hx (HQ a x Ha Hx)).
  apply (is_derive_ext_loc (fun a => Uv a x / exp (gammaln a))); [eapply filter_imp; [|apply (near_pos a Ha)]; intros b Hb; symmetry; apply Q_value; [exact Hb|exact Hx|apply HQ; assumption]|]. exact D.
Qed.
Theorem C66_gammaincc_x a x : 0 < a -> 0 < x -> is_derive (fun x => Q a x) x (Gammaincc_grad_z gammaln a x (Q a x)).
Proof.
  intros Ha Hx. apply (is_derive_ext_loc (fun x => Uv a x / exp (gammaln a))); [eapply filter_imp; [|apply (near_pos x Hx)]; intros b Hb; symmetry; apply Q_value; [exact Ha|exact Hb|apply HQ; assumption]|]. exact (Q_derive_x a x Hx).
Qed.
End Upper.
(** ** The functions T *)
Section TFun.
Variable T : nat -> R -> R -> R.
Hypothesis HTT : forall m a z, (0 < m)%nat -> 0 < z -> Tgamma m a z = Some (T m a z).
Lemma T_val k a z : 0 < z -> T (S (S k)) a z = Rpower z a * Jv k a z / (z * INR (fact k)).
Proof. intros Hz. destruct (T_call k a z Hz) as (v & E & V). rewrite HTT in E by (lia || assumption). injection E as ->. exact V. Qed.
Lemma T_one a z : 0 < z -> T 1 a z = Rpower z (a - 1) * exp (- z).
Proof. intros Hz. destruct (proj1 HT 1%nat a z ltac:(lia) Hz) as (v & E & V). rewrite HTT in E by (lia || assumption). injection E as ->. exact V. Qed.
Theorem C66_Tgamma_a m a z : (0 < m)%nat -> 0 < z -> exists d, TGamma_grad_a Tgamma m a z (T m a z) = Some d /\ is_derive (fun a => T m a z) a d.
Proof.
  intros Hm Hz. unfold TGamma_grad_a, obind. rewrite HTT by (lia || assumption). eexists. split; [reflexivity|]. destruct m as [|[|k]]; [lia| |].
  - apply (is_derive_ext (fun a => Rpower z (a - 1) * exp (- z))); [intros t; symmetry; apply T_one, Hz|]. rewrite T_one by exact Hz. unfold Rpower. auto_derive; [exact I|]. cbn [INR]. change (a + - (1)) with (a - 1). ring.
  - replace (S (S k) + 1)%nat with (S (S (k + 1))) by lia. rewrite !T_val by exact Hz.
    apply (is_derive_ext (fun a => / (z * INR (fact k)) * (Rpower z a * Jv k a z))); [intros t; rewrite T_val by exact Hz; reql; unfold Rdiv; ring|]. pose proof (INR_fact_neq_0 k).
    evar_last; [apply is_derive_scal, (is_derive_mult (fun a => Rpower z a) (fun a => Jv k a z) a (ln z * Rpower z a) (Jv (k + 1) a z)); [unfold Rpower; auto_derive; [exact I|ring]|exact (Jv_derive_a k a z Hz)|intros; apply Rmult_comm]|].
    reql. unfold plus, mult; cbn [Hierarchy.AbelianGroup.sort]; cbn -[fact INR]. replace (k + 1)%nat with (S k) by lia. rewrite fact_simpl, mult_INR, !S_INR. pose proof (pos_INR k). field. repeat split; lra.
Qed.
Theorem C66_Tgamma_z m a z : (1 < m)%nat -> 0 < z -> exists d, TGamma_grad_z Tgamma m a z (T m a z) = Some d /\ is_derive (fun z => T m a z) z d.
Proof.
  intros Hm Hz. unfold TGamma_grad_z, obind. rewrite HTT by (lia || assumption). eexists. split; [reflexivity|]. destruct m as [|[|k]]; [lia|lia|]. pose proof (INR_fact_neq_0 k) as Fk.
  apply (is_derive_ext_loc (fun z => / INR (fact k) * (Rpower z (a - 1) * Jv k a z))).
  { eapply filter_imp; [|apply (near_pos z Hz)]. intros b Hb. cbv beta. rewrite T_val by exact Hb. replace (Rpower b a) with (Rpower b (a - 1) * b) by (rewrite <- (Rpower_1 b) at 2 by lra; rewrite <- Rpower_plus; f_equal; ring). reql. field. split; lra. }
  evar_last; [apply is_derive_scal, (is_derive_mult (fun z => Rpower z (a - 1)) (fun z => Jv k a z) z _ _ (Rpower_derive (a - 1) z Hz) (Jv_derive_z k a z Hz)); intros; apply Rmult_comm|].
  reql. unfold plus, mult; cbn [Hierarchy.AbelianGroup.sort]; cbn -[fact INR Nat.sub Nat.eqb]. rewrite T_val by exact Hz.
  replace (Rpower z a) with (Rpower z (a - 1 - 1) * z * z) by (rewrite <- (Rpower_1 z) at 2 3 by lra; rewrite <- !Rpower_plus; f_equal; ring). replace (Rpower z (a - 1)) with (Rpower z (a - 1 - 1) * z) by (rewrite <- (Rpower_1 z) at 2 by lra; rewrite <- !Rpower_plus; f_equal; ring).
  destruct k as [|k].
  - cbn [Nat.sub Nat.eqb fact INR]. rewrite T_one by exact Hz. replace (Rpower z (a - 1)) with (Rpower z (a - 1 - 1) * z) by (rewrite <- (Rpower_1 z) at 2 by lra; rewrite <- !Rpower_plus; f_equal; ring). field. lra.
  - replace (S (S (S k)) - 1)%nat with (S (S k)) by lia. replace (S k - 1)%nat with k by lia. cbn [Nat.eqb]. rewrite T_val by exact Hz. replace (Rpower z a) with (Rpower z (a - 1 - 1) * z * z) by (rewrite <- (Rpower_1 z) at 2 3 by lra; rewrite <- !Rpower_plus; f_equal; ring). pose proof (INR_fact_neq_0 k). rewrite fact_simpl, mult_INR, S_INR in *. pose proof (pos_INR k). field. repeat split; lra.
Qed.
(** For m = 1 the derivative with respect to z exists but its rule raises. *)
Theorem C66_Tgamma_one_refuted a z : 0 < z -> (exists d, is_derive (fun z => T 1 a z) z d) /\ TGamma_grad_z Tgamma 1 a z (T 1 a z) = None.
Proof.
  intros Hz. split; [|unfold TGamma_grad_z; cbn [Nat.sub]; rewrite (proj2 HT); reflexivity]. eexists. apply (is_derive_ext_loc (fun z => Rpower z (a - 1) * exp (- z))); [eapply filter_imp; [|apply (near_pos z Hz)]; intros b Hb; symmetry; apply T_one, Hb|]. unfold Rpower. auto_derive; [exact Hz|reflexivity].
Qed.
End TFun.
End Gradients.
Print Assumptions C66_gammainc_a.
Print Assumptions C66_gammainc_x.
Print Assumptions C66_gammaincc_a.
Print Assumptions C66_gammaincc_x.
Print Assumptions C66_Tgamma_a.
Print Assumptions C66_Tgamma_z.
Print Assumptions C66_Tgamma_one_refuted.
