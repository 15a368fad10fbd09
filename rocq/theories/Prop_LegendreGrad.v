(** * C64: the gradient rules of Legendre's functions are the partial derivatives *)
From Coq Require Import Reals Lra Lia Psatz Bool List.
From Coquelicot Require Import Rbar Rcomplements Hierarchy Continuity Derive RInt RInt_analysis AutoDerive ElemFct.
From Verif Require Import EllipSpec EllipGradSpec RedInt LegendreGrad EllipGrad Ellipr.
Open Scope R_scope.

(** The squared cosecant *)
Section C.
Variable phi : R.
Hypothesis Hp : 0 < phi <= PI / 2.
Lemma sp : 0 < sin phi.
Proof. pose proof PI_RGT_0. apply sin_gt_0; lra. Qed.
Lemma cp : 0 <= cos phi.
Proof. apply cos_ge_0; lra. Qed.
Let c := / (sin phi) ^ 2.
Lemma c_amp : asin (1 / sqrt c) = phi.
Proof.
  pose proof sp. unfold c. replace (/ sin phi ^ 2) with ((/ sin phi) ^ 2) by (field; lra). rewrite sqrt_pow2 by (apply Rlt_le, Rinv_0_lt_compat; lra). replace (1 / / sin phi) with (sin phi) by (field; lra). apply asin_sin. pose proof PI_RGT_0. lra.
Qed.
Lemma c_m1 : sqrt (c - 1) = cos phi / sin phi.
Proof.
  pose proof sp. pose proof cp. unfold c. replace (/ sin phi ^ 2 - 1) with ((cos phi / sin phi) ^ 2). 2: { unfold Rdiv. rewrite Rpow_mult_distr, cos2. field. lra. }
  apply sqrt_pow2. apply Rmult_le_pos; [lra|apply Rlt_le, Rinv_0_lt_compat; lra].
Qed.
Lemma c_cot : sqrt (c - 1) / c = sin phi * cos phi.
Proof. pose proof sp. rewrite c_m1. unfold c. field. lra. Qed.
Variable m : R.
Hypothesis Hm : m * (sin phi) ^ 2 < 1.
Lemma c_Q : 1 - m / c = Q m phi.
Proof. pose proof sp. unfold c, Q. field. lra. Qed.
Lemma c_B : sqrt ((c - 1) / (c - m) / c) = B m phi.
Proof.
  pose proof sp. pose proof cp. assert (P : 0 < Q m phi) by (unfold Q; lra). pose proof (sqrt_lt_R0 _ P) as Ps. assert (Pi : 0 < iQ m phi) by (apply Rinv_0_lt_compat, Ps).
  replace ((c - 1) / (c - m) / c) with ((B m phi) ^ 2).
  - apply sqrt_pow2. unfold B. apply Rmult_le_pos; [apply Rmult_le_pos; lra|lra].
  - unfold B. rewrite !Rpow_mult_distr, cos2. unfold iQ. rewrite pow_inv. replace (sqrt (Q m phi) ^ 2) with (Q m phi) by (symmetry; apply pow2_sqrt; lra). unfold c, Q in *. field. repeat split; lra.
Qed.
Lemma c_Bn n : n * (sin phi) ^ 2 < 1 -> sqrt ((c - 1) * (c - m) / (c - n) ^ 2 / c) = Bn m n phi.
Proof.
  intros Hn. pose proof sp. pose proof cp. assert (P : 0 < Q m phi) by (unfold Q; lra). assert (Pn : 0 < Q n phi) by (unfold Q; lra). pose proof (sqrt_lt_R0 _ P) as Ps. assert (Pi : 0 < iQ m phi) by (apply Rinv_0_lt_compat, Ps).
  replace ((c - 1) * (c - m) / (c - n) ^ 2 / c) with ((Bn m n phi) ^ 2).
  - apply sqrt_pow2. unfold Bn. apply Rmult_le_pos; [apply Rmult_le_pos; lra|]. apply Rmult_le_pos; [lra|]. apply Rmult_le_pos; [lra|apply Rlt_le, Rinv_0_lt_compat; lra].
  - unfold Bn. rewrite !Rpow_mult_distr, cos2. unfold iQ. rewrite pow_inv. replace (sqrt (Q m phi) ^ 2) with (Q m phi) by (symmetry; apply pow2_sqrt; lra). unfold c, Q in *. field. repeat split; lra.
Qed.
End C.
Lemma rpow_m12 q : 0 < q -> Rpower q (- (1 / 2)) = / sqrt q.
Proof. intros Hx. rewrite Rpower_Ropp. f_equal. rewrite <- (Rpower_sqrt q Hx). f_equal. field. Qed.
Lemma cosec2_pos phi : 0 < phi -> cosec2 phi = Some (/ (sin phi) ^ 2).
Proof. intros Hp. unfold cosec2. destruct (Req_EM_T phi 0); [lra|reflexivity]. Qed.
Lemma cosec2_0 : cosec2 0 = None.
Proof. unfold cosec2. destruct (Req_EM_T 0 0); [reflexivity|congruence]. Qed.
Lemma same_no m : m <> 0 -> same m 0 = false.
Proof. intros N. unfold same. destruct (Req_EM_T m 0); [contradiction|reflexivity]. Qed.
Lemma same_0 : same 0 0 = true.
Proof. unfold same. destruct (Req_EM_T 0 0); [reflexivity|congruence]. Qed.
Lemma iQ_0 th : iQ 0 th = 1.
Proof. unfold iQ, Q. rewrite Rmult_0_l, Rminus_0_r, sqrt_1. field. Qed.

Section C64.
Variables (F E D : R -> R -> R) (Pi : R -> R -> R -> R).
Hypothesis H : legendre_functions F E D Pi.
Section Values.
Variables (phi m : R).
Hypothesis Hp : 0 <= phi <= PI / 2.
Hypothesis Hm : m * (sin phi) ^ 2 < 1.
Lemma VF : is_RInt (fun th => iQ m th * 1) 0 phi (F phi m).
Proof. destruct (ex_int phi m Hp Hm (fun _ => 1) ltac:(intros; apply continuous_const)) as (v & Iv). rewrite (F_is _ _ _ _ H phi m v); [exact Iv|apply (int_F phi m), Iv]. Qed.
Lemma VE : is_RInt (fun th => iQ m th * Q m th) 0 phi (E phi m).
Proof. destruct (ex_int phi m Hp Hm (Q m) ltac:(intros; apply Q_cont)) as (v & Iv). rewrite (E_is _ _ _ _ H phi m v); [exact Iv|apply (int_E phi m Hp Hm), Iv]. Qed.
Lemma VD : is_RInt (fun th => iQ m th * (sin th) ^ 2) 0 phi (D phi m).
Proof. destruct (ex_int phi m Hp Hm (fun th => (sin th) ^ 2)) as (v & Iv); [intros th _; apply (ex_derive_continuous (fun th => (sin th) ^ 2)); auto_derive; exact I|]. rewrite (D_is _ _ _ _ H phi m v); [exact Iv|apply (int_D phi m), Iv]. Qed.
Lemma VPi n : n * (sin phi) ^ 2 < 1 -> is_RInt (fun th => iQ m th * / Q n th) 0 phi (Pi n phi m).
Proof.
  intros Hn. destruct (ex_int phi m Hp Hm (fun th => / Q n th)) as (v & Iv).
  - intros th Ht. pose proof (Q_pos n th phi Ht ltac:(lra) Hn) as P. apply (ex_derive_continuous (fun th => / Q n th)). unfold Q in *. auto_derive. cbn [pow] in *. lra.
  - rewrite (Pi_is _ _ _ _ H n phi m v); [exact Iv|apply (int_Pi phi m Hp Hm n v Hn), Iv].
Qed.
End Values.
Lemma at0 (f : R -> R) v : is_RInt f 0 0 v -> v = 0.
Proof. intros Iv. apply (is_RInt_unique (V := R_CompleteNormedModule)) in Iv. rewrite <- Iv. apply (RInt_point (V := R_CompleteNormedModule)). Qed.
Lemma zero_derive (V : R -> R) m : (forall n, V n = 0) -> is_derive V m 0.
Proof. intros Z. apply (is_derive_ext (fun _ => 0)); [intros n; symmetry; apply Z|]. apply (is_derive_const (V := R_NormedModule)). Qed.

(** The derivatives as integrals *)
Definition gi' (q : R) : R := - / 2 * (/ sqrt q * / q).
Lemma gi_derive q : 0 < q -> is_derive (fun q => / sqrt q) q (gi' q).
Proof.
  intros P. pose proof (sqrt_lt_R0 _ P) as Ps. unfold gi'. auto_derive; [split; [exact P|split; [lra|exact I]]|]. pose proof (sqrt_sqrt q ltac:(lra)) as Es. set (s := sqrt q) in *. clearbody s. rewrite <- Es. field. lra.
Qed.
Lemma gi_cont q : 0 < q -> continuity_pt gi' q.
Proof. intros P. pose proof (sqrt_lt_R0 _ P) as Ps. apply continuity_pt_filterlim, (ex_derive_continuous gi'). unfold gi'. auto_derive. repeat split; lra. Qed.
Section M.
Variables (phi m : R).
Hypothesis Hp : 0 <= phi <= PI / 2.
Hypothesis Hm : m * (sin phi) ^ 2 < 1.
Lemma dF K : is_RInt (fun th => iQ m th * ((sin th) ^ 2 / (2 * Q m th))) 0 phi K -> is_derive (F phi) m K.
Proof.
  intros HK. apply (param_Q (fun q => / sqrt q) gi' (fun _ => 1) (F phi) phi m K Hp Hm gi_derive gi_cont).
  - intros th _. apply continuity_pt_const. intros a b. reflexivity.
  - intros n Hn. apply (VF phi n Hp Hn).
  - eapply (is_RInt_ext (V := R_NormedModule)); [|exact HK]. intros th Ht. rewrite Rmin_left, Rmax_right in Ht by lra. pose proof (Qp phi m Hp Hm th ltac:(lra)) as P. pose proof (sqrt_lt_R0 _ P). req. unfold gi', iQ. field. repeat split; lra.
Qed.
Lemma dE K : is_RInt (fun th => iQ m th * (- (sin th) ^ 2 / 2)) 0 phi K -> is_derive (E phi) m K.
Proof.
  intros HK. apply (param_Q sqrt (fun q => / 2 * / sqrt q) (fun _ => 1) (E phi) phi m K Hp Hm).
  - intros q P. pose proof (sqrt_lt_R0 _ P). auto_derive; [exact P|]. field. lra.
  - intros q P. pose proof (sqrt_lt_R0 _ P). apply continuity_pt_filterlim, (ex_derive_continuous (fun q => / 2 * / sqrt q)). auto_derive. repeat split; lra.
  - intros th _. apply continuity_pt_const. intros a b. reflexivity.
  - intros n Hn. eapply (is_RInt_ext (V := R_NormedModule)); [|apply (VE phi n Hp Hn)]. intros th Ht. rewrite Rmin_left, Rmax_right in Ht by lra. pose proof (Qp phi n Hp Hn th ltac:(lra)) as P. cbv beta. rewrite (sqrt_iQ n th P). req. ring.
  - eapply (is_RInt_ext (V := R_NormedModule)); [|exact HK]. intros th Ht. req. unfold iQ, Rdiv. ring.
Qed.
Lemma dD K : is_RInt (fun th => iQ m th * ((sin th) ^ 4 / (2 * Q m th))) 0 phi K -> is_derive (D phi) m K.
Proof.
  intros HK. apply (param_Q (fun q => / sqrt q) gi' (fun th => (sin th) ^ 2) (D phi) phi m K Hp Hm gi_derive gi_cont).
  - intros th _. apply continuity_pt_filterlim, (ex_derive_continuous (fun th => (sin th) ^ 2)). auto_derive. exact I.
  - intros n Hn. apply (VD phi n Hp Hn).
  - eapply (is_RInt_ext (V := R_NormedModule)); [|exact HK]. intros th Ht. rewrite Rmin_left, Rmax_right in Ht by lra. pose proof (Qp phi m Hp Hm th ltac:(lra)) as P. pose proof (sqrt_lt_R0 _ P). req. unfold gi', iQ. field. repeat split; lra.
Qed.
Variable n : R.
Hypothesis Hn : n * (sin phi) ^ 2 < 1.
Lemma dPi_m K : is_RInt (fun th => iQ m th * ((sin th) ^ 2 / (2 * Q m th * Q n th))) 0 phi K -> is_derive (Pi n phi) m K.
Proof.
  intros HK. apply (param_Q (fun q => / sqrt q) gi' (fun th => / Q n th) (Pi n phi) phi m K Hp Hm gi_derive gi_cont).
  - intros th Ht. pose proof (Q_pos n th phi Ht ltac:(lra) Hn) as P. apply continuity_pt_filterlim, (ex_derive_continuous (fun th => / Q n th)). unfold Q in *. auto_derive. cbn [pow] in *. lra.
  - intros m' Hm'. apply (VPi phi m' Hp Hm' n Hn).
  - eapply (is_RInt_ext (V := R_NormedModule)); [|exact HK]. intros th Ht. rewrite Rmin_left, Rmax_right in Ht by lra. pose proof (Qp phi m Hp Hm th ltac:(lra)) as P. pose proof (Qp phi n Hp Hn th ltac:(lra)) as Pn. pose proof (sqrt_lt_R0 _ P). req. unfold gi', iQ. field. repeat split; lra.
Qed.
Lemma dPi_n K : is_RInt (fun th => iQ m th * ((sin th) ^ 2 / (Q n th) ^ 2)) 0 phi K -> is_derive (fun n => Pi n phi m) n K.
Proof.
  intros HK. apply (param_Q (fun q => / q) (fun q => - / q ^ 2) (iQ m) (fun n => Pi n phi m) phi n K Hp Hn).
  - intros q P. auto_derive; [lra|]. field. lra.
  - intros q P. apply continuity_pt_filterlim, (ex_derive_continuous (fun q => - / q ^ 2)). auto_derive. nra.
  - intros th Ht. apply continuity_pt_filterlim, iQ_cont, (Qp phi m Hp Hm), Ht.
  - intros n' Hn'. eapply (is_RInt_ext (V := R_NormedModule)); [|apply (VPi phi m Hp Hm n' Hn')]. intros th Ht. req. cbv beta. ring.
  - eapply (is_RInt_ext (V := R_NormedModule)); [|exact HK]. intros th Ht. rewrite Rmin_left, Rmax_right in Ht by lra. pose proof (Qp phi n Hp Hn th ltac:(lra)) as Pn. req. cbv beta. field. lra.
Qed.
(** ... and in closed form *)
Lemma dF_val : m <> 0 -> m <> 1 -> is_derive (F phi) m (((E phi m - (1 - m) * F phi m) / m - B m phi) / (2 * (1 - m))).
Proof.
  intros N0 N1. apply dF. eapply (lin4 phi m Hp) with (a := / (2 * m * (1 - m))) (b := - / (2 * m)) (c := - / (2 * (1 - m))) (d := 0); [exact (VE phi m Hp Hm)|exact (VF phi m Hp Hm)|exact (int_B phi m Hp Hm)|exact (VF phi m Hp Hm)| |field; lra].
  intros th Ht. pose proof (Qp phi m Hp Hm th Ht) as P. unfold B', Q in *. field. repeat split; lra.
Qed.
Lemma dE_val : m <> 0 -> is_derive (E phi) m ((E phi m - F phi m) / m / 2).
Proof.
  intros N0. apply dE. eapply (lin4 phi m Hp) with (a := / (2 * m)) (b := - / (2 * m)) (c := 0) (d := 0); [exact (VE phi m Hp Hm)|exact (VF phi m Hp Hm)|exact (VF phi m Hp Hm)|exact (VF phi m Hp Hm)| |field; lra].
  intros th Ht. unfold Q. field. lra.
Qed.
Lemma dD_val : m <> 0 -> m <> 1 -> is_derive (D phi) m (((m - 2) * D phi m + F phi m - B m phi) / (2 * m * (1 - m))).
Proof.
  intros N0 N1. apply dD. eapply (lin4 phi m Hp) with (a := (m - 2) / (2 * m * (1 - m))) (b := / (2 * m * (1 - m))) (c := - / (2 * m * (1 - m))) (d := 0); [exact (VD phi m Hp Hm)|exact (VF phi m Hp Hm)|exact (int_B phi m Hp Hm)|exact (VF phi m Hp Hm)| |field; lra].
  intros th Ht. pose proof (Qp phi m Hp Hm th Ht) as P. unfold B', Q in *. field. repeat split; lra.
Qed.
Lemma dPi_m_val : n <> m -> m <> 1 -> is_derive (Pi n phi) m ((E phi m + (m - 1) * Pi n phi m - m * B m phi) / (2 * (n - m) * (m - 1))).
Proof.
  intros N0 N1. apply dPi_m. eapply (lin4 phi m Hp) with (a := / (2 * (n - m) * (m - 1))) (b := / (2 * (n - m))) (c := - m / (2 * (n - m) * (m - 1))) (d := 0); [exact (VE phi m Hp Hm)|exact (VPi phi m Hp Hm n Hn)|exact (int_B phi m Hp Hm)|exact (VF phi m Hp Hm)| |field; lra].
  intros th Ht. pose proof (Qp phi m Hp Hm th Ht) as P. pose proof (Qp phi n Hp Hn th Ht) as Pn. unfold B', Q in *. field. repeat split; lra.
Qed.
Lemma dPi_n_val : n <> m -> n <> 0 -> n <> 1 -> is_derive (fun n => Pi n phi m) n ((E phi m + (m - n) / n * F phi m + (n - m / n) * Pi n phi m - n * Bn m n phi) / (2 * (m - n) * (n - 1))).
Proof.
  intros N0 N1 N2. apply dPi_n. eapply (lin4 phi m Hp) with (a := / (2 * (m - n) * (n - 1))) (b := / (2 * n * (n - 1))) (c := (n - m / n) / (2 * (m - n) * (n - 1))) (d := - n / (2 * (m - n) * (n - 1))); [exact (VE phi m Hp Hm)|exact (VF phi m Hp Hm)|exact (VPi phi m Hp Hm n Hn)|exact (int_Bn phi m Hp Hm n Hn)| |field; repeat split; lra].
  intros th Ht. pose proof (Qp phi m Hp Hm th Ht) as P. pose proof (Qp phi n Hp Hn th Ht) as Pn. unfold Bn', Q in *. field. repeat split; lra.
Qed.
End M.
(** The values at m = 0 *)
Section M0.
Variables (phi : R).
Hypothesis Hp : 0 <= phi <= PI / 2.
Lemma anti (f g : R -> R) : (forall th, is_derive g th (f th)) -> (forall th, continuous f th) -> g 0 = 0 -> is_RInt (fun th => iQ 0 th * f th) 0 phi (g phi).
Proof.
  intros Dg Cf G0. apply (is_RInt_ext (V := R_NormedModule) f); [intros th _; rewrite iQ_0; symmetry; apply Rmult_1_l|].
  replace (g phi) with (minus (g phi) (g 0)) by (unfold minus, plus, opp; cbn; rewrite G0; ring). apply (is_RInt_derive (V := R_CompleteNormedModule) g f); intros; [apply Dg|apply Cf].
Qed.
Lemma dF_0 : is_derive (F phi) 0 ((phi - sin phi * cos phi) / 4).
Proof.
  apply (dF phi 0 Hp ltac:(lra)). apply (anti (fun th => (sin th) ^ 2 / (2 * Q 0 th)) (fun th => (th - sin th * cos th) / 4)); [| |rewrite sin_0; field].
  - intros th. auto_derive; [exact I|]. replace (Q 0 th) with 1 by (unfold Q; ring). pose proof (cos2 th) as C. cbn [pow] in *. lra.
  - intros th. apply (ex_derive_continuous (fun th => (sin th) ^ 2 / (2 * Q 0 th))). unfold Q. auto_derive. lra.
Qed.
Lemma dE_0 : is_derive (E phi) 0 ((sin phi * cos phi - phi) / 4).
Proof.
  apply (dE phi 0 Hp ltac:(lra)). apply (anti (fun th => - (sin th) ^ 2 / 2) (fun th => (sin th * cos th - th) / 4)); [| |rewrite sin_0; field].
  - intros th. auto_derive; [exact I|]. pose proof (cos2 th) as C. cbn [pow] in *. lra.
  - intros th. apply (ex_derive_continuous (fun th => - (sin th) ^ 2 / 2)). auto_derive. exact I.
Qed.
Lemma dD_0 : is_derive (D phi) 0 ((3 * phi - (3 + 2 * (sin phi) ^ 2) * (sin phi * cos phi)) / 16).
Proof.
  apply (dD phi 0 Hp ltac:(lra)). apply (anti (fun th => (sin th) ^ 4 / (2 * Q 0 th)) (fun th => (3 * th - (3 + 2 * (sin th) ^ 2) * (sin th * cos th)) / 16)); [| |rewrite sin_0; field].
  - intros th. auto_derive; [exact I|]. replace (Q 0 th) with 1 by (unfold Q; ring). pose proof (cos2 th) as C. pose proof (f_equal (Rmult ((sin th) ^ 2)) C) as C'. cbn [pow] in *. lra.
  - intros th. apply (ex_derive_continuous (fun th => (sin th) ^ 4 / (2 * Q 0 th))). unfold Q. auto_derive. lra.
Qed.
End M0.

(** The incomplete functions *)
Theorem C64_ellipkinc phi m : 0 <= phi <= PI / 2 -> m * (sin phi) ^ 2 < 1 -> m <> 1 -> is_derive (F phi) m (kinc_grad_m (of_c E) (cosec2 phi) m (F phi m)).
Proof.
  intros Hp Hm N1. destruct (Req_dec phi 0) as [->|N]; [rewrite cosec2_0; cbn; apply zero_derive; intros n; apply (at0 _ _ (VF 0 n Hp ltac:(rewrite sin_0; lra)))|].
  assert (Hp' : 0 < phi <= PI / 2) by lra. rewrite cosec2_pos by lra. unfold kinc_grad_m, grad_at_phi_zero, of_c, amplitude. rewrite (c_amp phi Hp'), (c_cot phi Hp'), (c_B phi Hp' m Hm).
  destruct (Req_dec m 0) as [->|N0]; [rewrite same_0|rewrite (same_no m N0)]; cbn [negb where_]; [apply (dF_0 phi Hp)|apply (dF_val phi m Hp Hm N0 N1)].
Qed.
Theorem C64_ellipeinc phi m : 0 <= phi <= PI / 2 -> m * (sin phi) ^ 2 < 1 -> is_derive (E phi) m (einc_grad_m (of_c F) (cosec2 phi) m (E phi m)).
Proof.
  intros Hp Hm. destruct (Req_dec phi 0) as [->|N]; [rewrite cosec2_0; cbn; apply zero_derive; intros n; apply (at0 _ _ (VE 0 n Hp ltac:(rewrite sin_0; lra)))|].
  assert (Hp' : 0 < phi <= PI / 2) by lra. rewrite cosec2_pos by lra. unfold einc_grad_m, grad_at_phi_zero, of_c, amplitude. rewrite (c_amp phi Hp'), (c_cot phi Hp').
  destruct (Req_dec m 0) as [->|N0]; [rewrite same_0|rewrite (same_no m N0)]; cbn [negb where_]; [apply (dE_0 phi Hp)|apply (dE_val phi m Hp Hm N0)].
Qed.
Theorem C64_ellipdinc phi m : 0 <= phi <= PI / 2 -> m * (sin phi) ^ 2 < 1 -> m <> 1 -> is_derive (D phi) m (dinc_grad_m (of_c F) (cosec2 phi) m (D phi m)).
Proof.
  intros Hp Hm N1. destruct (Req_dec phi 0) as [->|N]; [rewrite cosec2_0; cbn; apply zero_derive; intros n; apply (at0 _ _ (VD 0 n Hp ltac:(rewrite sin_0; lra)))|].
  assert (Hp' : 0 < phi <= PI / 2) by lra. rewrite cosec2_pos by lra. unfold dinc_grad_m, grad_at_phi_zero, of_c, amplitude. rewrite (c_amp phi Hp'), (c_B phi Hp' m Hm).
  destruct (Req_dec m 0) as [->|N0]; [rewrite same_0|rewrite (same_no m N0)]; cbn [negb where_]; [|apply (dD_val phi m Hp Hm N0 N1)].
  evar_last; [apply (dD_0 phi Hp)|]. req. pose proof (sp phi Hp') as S. rewrite <- (c_cot phi Hp'). field. lra.
Qed.
Theorem C64_ellippiinc_m n phi m : 0 <= phi <= PI / 2 -> m * (sin phi) ^ 2 < 1 -> n * (sin phi) ^ 2 < 1 -> n <> m -> m <> 1 -> is_derive (Pi n phi) m (piinc_grad_m (of_c E) n (cosec2 phi) m (Pi n phi m)).
Proof.
  intros Hp Hm Hn N0 N1. destruct (Req_dec phi 0) as [->|N]; [rewrite cosec2_0; cbn; apply zero_derive; intros m'; apply (at0 _ _ (VPi 0 m' Hp ltac:(rewrite sin_0; lra) n Hn))|].
  assert (Hp' : 0 < phi <= PI / 2) by lra. rewrite cosec2_pos by lra. unfold piinc_grad_m, grad_at_phi_zero, of_c. rewrite (c_amp phi Hp'), (c_B phi Hp' m Hm). apply (dPi_m_val phi m Hp Hm n Hn N0 N1).
Qed.
Theorem C64_ellippiinc_n n phi m : 0 <= phi <= PI / 2 -> m * (sin phi) ^ 2 < 1 -> n * (sin phi) ^ 2 < 1 -> n <> m -> n <> 0 -> n <> 1 ->
  is_derive (fun n => Pi n phi m) n (piinc_grad_n (of_c F) (of_c E) n (cosec2 phi) m (Pi n phi m)).
Proof.
  intros Hp Hm Hn N0 N1 N2. destruct (Req_dec phi 0) as [->|N]; [rewrite cosec2_0; cbn; apply zero_derive; intros n'; apply (at0 _ _ (VPi 0 m Hp Hm n' ltac:(rewrite sin_0; lra)))|].
  assert (Hp' : 0 < phi <= PI / 2) by lra. rewrite cosec2_pos by lra. unfold piinc_grad_n, grad_at_phi_zero, of_c. rewrite (c_amp phi Hp'), (c_Bn phi Hp' m Hm n Hn). apply (dPi_n_val phi m Hp Hm n Hn N0 N1 N2).
Qed.
(** The complete functions *)
Lemma half_pi : 0 <= PI / 2 <= PI / 2.
Proof. pose proof PI_RGT_0. lra. Qed.
Lemma sin_half m : m < 1 -> m * (sin (PI / 2)) ^ 2 < 1.
Proof. intros Hm. rewrite sin_PI2. lra. Qed.
Lemma B_half m : B m (PI / 2) = 0.
Proof. unfold B. rewrite cos_PI2. ring. Qed.
Lemma Bn_half m n : Bn m n (PI / 2) = 0.
Proof. unfold Bn. rewrite cos_PI2. ring. Qed.
Theorem C64_complete m : m < 1 -> let K m := F (PI / 2) m in let E m := E (PI / 2) m in let D m := D (PI / 2) m in
  is_derive K m (k_grad_m E m (K m)) /\ is_derive E m (e_grad_m K m (E m)) /\ is_derive D m (d_grad_m K m (D m)).
Proof.
  intros Hm K1 E1 D1. unfold k_grad_m, e_grad_m, d_grad_m. pose proof (sin_half m Hm) as Hs. destruct (Req_dec m 0) as [->|N0]; [rewrite same_0|rewrite (same_no m N0)]; cbn [negb where_].
  - split; [evar_last; [apply (dF_0 _ half_pi)|]|split; [evar_last; [apply (dE_0 _ half_pi)|]|evar_last; [apply (dD_0 _ half_pi)|]]]; req; rewrite cos_PI2; field.
  - split; [evar_last; [apply (dF_val _ m half_pi Hs N0)|]|split; [evar_last; [apply (dE_val _ m half_pi Hs N0)|]|evar_last; [apply (dD_val _ m half_pi Hs N0)|]]]; try lra; req; rewrite ?B_half; unfold K1, E1, D1; field; lra.
Qed.
Theorem C64_ellippi n m : m < 1 -> n < 1 -> n <> m -> let K m := F (PI / 2) m in let E m := E (PI / 2) m in
  is_derive (fun m => Pi n (PI / 2) m) m (pi_grad_m E n m (Pi n (PI / 2) m)) /\ (n <> 0 -> is_derive (fun n => Pi n (PI / 2) m) n (pi_grad_n K E n m (Pi n (PI / 2) m))).
Proof.
  intros Hm Hn N K1 E1. unfold pi_grad_m, pi_grad_n. pose proof (sin_half m Hm) as Hs. pose proof (sin_half n Hn) as Hs'. split.
  - evar_last; [apply (dPi_m_val _ m half_pi Hs n Hs' N); lra|]. req. rewrite B_half. unfold E1. field. lra.
  - intros N0. evar_last; [apply (dPi_n_val _ m half_pi Hs n Hs' N N0); lra|]. req. rewrite Bn_half. unfold E1, K1. field. lra.
Qed.

(** The amplitude: the chain of the rules for c and for the squared cosecant *)
Lemma amp (f : R -> R) (V : R -> R) phi m : 0 < phi < PI / 2 -> m * (sin phi) ^ 2 < 1 -> (forall th, 0 < Q m th -> 0 <= th <= PI / 2 -> continuous f th) ->
  (forall p, 0 <= p <= PI / 2 -> m * (sin p) ^ 2 < 1 -> is_RInt f 0 p (V p)) -> is_derive V phi (f phi).
Proof.
  intros Hp Hm Cf HV. apply (is_derive_RInt f V 0 phi); [|apply Cf; [apply (Q_pos m phi phi); lra|lra]].
  assert (C : continuous (fun p => m * (sin p) ^ 2) phi) by (apply (ex_derive_continuous (fun p => m * (sin p) ^ 2)); auto_derive; exact I).
  apply (filter_imp (fun p => m * (sin p) ^ 2 < 1 /\ (0 < p /\ p < PI / 2))); [intros p (A & B1 & B2); apply HV; [lra|exact A]|].
  apply filter_and; [apply (C (fun q => q < 1)), (open_lt 1), Hm|]. apply filter_and; [apply (open_gt 0); lra|apply (open_lt (PI / 2)); lra].
Qed.
Lemma chain phi g : 0 < phi < PI / 2 -> inc_grad_c (/ (sin phi) ^ 2) g * csc2_grad_phi phi (/ (sin phi) ^ 2) = g.
Proof.
  intros Hp. pose proof (sp phi ltac:(lra)) as S1. assert (C1 : 0 < cos phi) by (apply cos_gt_0; lra). unfold inc_grad_c, csc2_grad_phi. rewrite (c_m1 phi ltac:(lra)). unfold tan. field. repeat split; lra.
Qed.
Theorem C64_amplitude phi m : 0 < phi < PI / 2 -> m * (sin phi) ^ 2 < 1 -> let c := / (sin phi) ^ 2 in
  is_derive (fun p => F p m) phi (inc_grad_c c (kinc_grad_phi c m) * csc2_grad_phi phi c) /\
  is_derive (fun p => E p m) phi (inc_grad_c c (einc_grad_phi c m) * csc2_grad_phi phi c) /\
  is_derive (fun p => D p m) phi (inc_grad_c c (dinc_grad_phi c m) * csc2_grad_phi phi c) /\
  forall n, n * (sin phi) ^ 2 < 1 -> is_derive (fun p => Pi n p m) phi (inc_grad_c c (piinc_grad_phi n c m) * csc2_grad_phi phi c).
Proof.
  intros Hp Hm c. pose proof (sp phi ltac:(lra)) as S1. assert (P : 0 < Q m phi) by (apply (Q_pos m phi phi); lra). unfold c. rewrite !(chain phi _ Hp). unfold kinc_grad_phi, einc_grad_phi, dinc_grad_phi, piinc_grad_phi. rewrite !(c_Q phi ltac:(lra) m), (rpow_m12 _ P).
  split; [|split; [|split]].
  - evar_last; [apply (amp (fun th => iQ m th * 1) (fun p => F p m) phi m Hp Hm)|req; unfold iQ; ring].
    + intros th Pt _. apply (continuous_mult (iQ m) (fun _ => 1)); [apply iQ_cont, Pt|apply continuous_const].
    + intros p Hq Hmq. apply (VF p m Hq Hmq).
  - evar_last; [apply (amp (fun th => iQ m th * Q m th) (fun p => E p m) phi m Hp Hm)|req; rewrite (sqrt_iQ m phi P); ring].
    + intros th Pt _. apply (continuous_mult (iQ m) (Q m)); [apply iQ_cont, Pt|apply Q_cont].
    + intros p Hq Hmq. apply (VE p m Hq Hmq).
  - evar_last; [apply (amp (fun th => iQ m th * (sin th) ^ 2) (fun p => D p m) phi m Hp Hm)|req; unfold iQ; pose proof (sqrt_lt_R0 _ P); field; split; lra].
    + intros th Pt _. apply (continuous_mult (iQ m) (fun th => (sin th) ^ 2)); [apply iQ_cont, Pt|]. apply (ex_derive_continuous (fun th => (sin th) ^ 2)). auto_derive. exact I.
    + intros p Hq Hmq. apply (VD p m Hq Hmq).
  - intros n Hn. assert (Pn : 0 < Q n phi) by (apply (Q_pos n phi phi); lra). rewrite (chain phi _ Hp), (c_Q phi ltac:(lra) n).
    assert (L : locally phi (fun p => (m * (sin p) ^ 2 < 1 /\ n * (sin p) ^ 2 < 1) /\ (0 < p /\ p < PI / 2))).
    { assert (C : forall k, continuous (fun p => k * (sin p) ^ 2) phi) by (intros k; apply (ex_derive_continuous (fun p => k * (sin p) ^ 2)); auto_derive; exact I).
      apply filter_and; [apply filter_and; [apply (C m (fun q => q < 1)), (open_lt 1), Hm|apply (C n (fun q => q < 1)), (open_lt 1), Hn]|]. apply filter_and; [apply (open_gt 0); lra|apply (open_lt (PI / 2)); lra]. }
    apply (is_derive_RInt (fun th => iQ m th * / Q n th) (fun p => Pi n p m) 0 phi).
    + apply (filter_imp (fun p => (m * (sin p) ^ 2 < 1 /\ n * (sin p) ^ 2 < 1) /\ (0 < p /\ p < PI / 2))); [|exact L]. intros p ((A & B1) & B2). apply (VPi p m ltac:(lra) A n B1).
    + apply (continuous_mult (iQ m) (fun th => / Q n th)); [apply iQ_cont, P|]. apply (ex_derive_continuous (fun th => / Q n th)). unfold Q in *. auto_derive. cbn [pow] in *. lra.
Qed.
End C64.

(** ** Non-vacuity *)
Definition ex_F phi m := RInt (fun th => 1 / sqrt (1 - m * (sin th) ^ 2)) 0 phi.
Definition ex_E phi m := RInt (fun th => sqrt (1 - m * (sin th) ^ 2)) 0 phi.
Definition ex_D phi m := RInt (fun th => (sin th) ^ 2 / sqrt (1 - m * (sin th) ^ 2)) 0 phi.
Definition ex_Pi n phi m := RInt (fun th => 1 / ((1 - n * (sin th) ^ 2) * sqrt (1 - m * (sin th) ^ 2))) 0 phi.
Lemma ex_legendre : legendre_functions ex_F ex_E ex_D ex_Pi.
Proof. split; intros; apply (is_RInt_unique (V := R_CompleteNormedModule)); assumption. Qed.
(** Amplitude PI/6 with the parameter 2 (allowed, as 2 sin(PI/6)^2 = 1/2) and the characteristic -1 *)
Example C64_nonvacuous :
  is_derive (ex_F (PI / 6)) 2 (kinc_grad_m (of_c ex_E) (cosec2 (PI / 6)) 2 (ex_F (PI / 6) 2)) /\
  is_derive (ex_Pi (-1) (PI / 6)) 2 (piinc_grad_m (of_c ex_E) (-1) (cosec2 (PI / 6)) 2 (ex_Pi (-1) (PI / 6) 2)) /\
  is_derive (fun n => ex_Pi n (PI / 6) 2) (-1) (piinc_grad_n (of_c ex_F) (of_c ex_E) (-1) (cosec2 (PI / 6)) 2 (ex_Pi (-1) (PI / 6) 2)) /\
  is_derive (ex_D (PI / 2)) 0 (dinc_grad_m (of_c ex_F) (cosec2 (PI / 2)) 0 (ex_D (PI / 2) 0)).
Proof.
  pose proof PI_RGT_0. assert (S : sin (PI / 6) ^ 2 = 1 / 4) by (rewrite sin_PI6; field). split; [|split; [|split]].
  - apply (C64_ellipkinc _ _ _ _ ex_legendre); try lra; rewrite S; lra.
  - apply (C64_ellippiinc_m _ _ _ _ ex_legendre); try lra; rewrite S; lra.
  - apply (C64_ellippiinc_n _ _ _ _ ex_legendre); try lra; rewrite S; lra.
  - apply (C64_ellipdinc _ _ _ _ ex_legendre); lra.
Qed.
