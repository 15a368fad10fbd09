(** Partial sums of the exponential series at negative arguments and of the series of the lower incomplete gamma function *)
From Coq Require Import List Bool Arith ZArith Lia Reals Lra Psatz.
From Coquelicot Require Import Rcomplements Hierarchy Continuity Derive RInt RInt_analysis AutoDerive ElemFct.
From Verif Require Import EllipSpec GammaSpec GammaInt GammaFun.
Open Scope R_scope.

Fixpoint psum (f : nat -> R) (n : nat) : R := match n with O => f 0%nat | S n' => psum f n' + f (S n') end.
Definition et (z : R) (k : nat) : R := (- z) ^ k / INR (fact k).
Definition pexp (n : nat) (z : R) : R := psum (et z) n.
Lemma et_0 z : et z 0 = 1. Proof. unfold et. cbn. field. Qed.
Lemma fact_pos n : 0 < INR (fact n). Proof. apply INR_fact_lt_0. Qed.
Lemma fact_S_R n : INR (fact (S n)) = (INR n + 1) * INR (fact n).
Proof. change (fact (S n)) with (S n * fact n)%nat. rewrite mult_INR, S_INR. reflexivity. Qed.
Lemma et_derive k z : is_derive (fun z => et z (S k)) z (- et z k).
Proof.
  unfold et. pose proof (fact_S_R k) as F. remember (INR (fact (S k))) as c eqn:Ec. clear Ec. pose proof (fact_pos k). pose proof (pos_INR k). auto_derive; [exact I|]. change (Init.Nat.pred (S k)) with k. rewrite F. change (match k with O => 1 | S _ => INR k + 1 end) with (INR (S k)). rewrite S_INR. field. split; lra.
Qed.
Lemma pexp_derive n z : is_derive (pexp (S n)) z (- pexp n z).
Proof.
  induction n as [|n IH]; unfold pexp in *; cbn [psum] in *.
  - evar_last; [apply (is_derive_plus (fun z => et z 0) (fun z => et z 1)); [apply (is_derive_ext (fun _ => 1)); [intros t; symmetry; apply et_0|apply (is_derive_const 1)]|apply et_derive]|]. cbn. ring.
  - evar_last; [apply (is_derive_plus (fun z => psum (et z) n + et z (S n)) (fun z => et z (S (S n)))); [exact IH|apply et_derive]|]. cbn. ring.
Qed.
Lemma pexp_0 n : pexp n 0 = 1.
Proof. induction n as [|n IH]; unfold pexp in *; cbn [psum]; [apply et_0|]. rewrite IH. unfold et. rewrite Ropp_0, pow_i by lia. unfold Rdiv. ring. Qed.
Lemma mono_from0 (f df : R -> R) z : 0 <= z -> (forall t, is_derive f t (df t)) -> (forall t, 0 <= t -> 0 <= df t) -> f 0 <= f z.
Proof.
  intros Hz D P. destruct (MVT_gen f 0 z df) as (c & Hc & E); [intros t _; apply D|intros t _; apply continuity_pt_filterlim, (ex_derive_continuous f); eexists; apply D|]. rewrite Rmin_left, Rmax_right in Hc by lra. specialize (P c ltac:(lra)). nra.
Qed.
Definition en (n : nat) (z : R) : R := (-1) ^ S n * (exp (- z) - pexp n z).
Lemma en_derive n z : is_derive (en (S n)) z (en n z).
Proof.
  unfold en. evar_last; [apply (is_derive_scal (fun z => exp (- z) - pexp (S n) z) z ((-1) ^ S (S n))); apply (is_derive_minus (fun z => exp (- z)) (pexp (S n))); [auto_derive; [exact I|reflexivity]|apply pexp_derive]|]. unfold minus, plus, opp, scal. cbn. unfold mult. cbn. ring.
Qed.
Lemma en_zero n : en n 0 = 0. Proof. unfold en. rewrite pexp_0, Ropp_0, exp_0. ring. Qed.
Lemma en_bound n : forall z, 0 <= z -> 0 <= en n z <= z ^ S n / INR (fact (S n)).
Proof.
  induction n as [|n IH]; intros z Hz.
  - unfold en, pexp. cbn [psum]. rewrite et_0. cbn [pow fact]. rewrite Nat.mul_1_l. cbn [INR]. assert (E1 : exp (- z) <= 1) by (rewrite <- exp_0; destruct Hz as [Hz|<-]; [left; apply exp_increasing; lra|right; f_equal; ring]).
    pose proof (exp_ineq1_le (- z)). lra.
  - split.
    + rewrite <- (en_zero (S n)). apply (mono_from0 (en (S n)) (en n)); [exact Hz|apply en_derive|intros t Ht; apply IH, Ht].
    + assert (Q : z ^ S (S n) / INR (fact (S (S n))) - en (S n) z >= 0); [|lra]. apply Rle_ge.
      assert (D : forall t, is_derive (fun t => t ^ S (S n) / INR (fact (S (S n))) - en (S n) t) t (t ^ S n / INR (fact (S n)) - en n t)).
      { intros t. apply (is_derive_minus (fun t => t ^ S (S n) / INR (fact (S (S n)))) (en (S n))); [|apply en_derive]. pose proof (fact_S_R (S n)) as F. remember (INR (fact (S (S n)))) as c eqn:Ec. clear Ec. pose proof (fact_pos (S n)). pose proof (pos_INR (S n)). auto_derive; [exact I|]. change (Init.Nat.pred (S (S n))) with (S n). rewrite F. rewrite S_INR in *. change (match n with O => 1 | S _ => INR n + 1 end) with (INR (S n)). rewrite S_INR. change (t * t ^ n) with (t ^ S n). field. split; lra. }
      pose proof (mono_from0 _ _ z Hz D) as M. cbv beta in M. rewrite en_zero in M. rewrite pow_i in M by lia. replace (0 / INR (fact (S (S n))) - 0) with 0 in M by (unfold Rdiv; ring). apply M. intros t Ht. specialize (IH t Ht). lra.
Qed.
Lemma exp_remainder n z : 0 <= z -> Rabs (exp (- z) - pexp n z) <= z ^ S n / INR (fact (S n)).
Proof.
  intros Hz. pose proof (en_bound n z Hz) as B. unfold en in B. assert (A : Rabs ((-1) ^ S n * (exp (- z) - pexp n z)) = Rabs (exp (- z) - pexp n z)) by (rewrite Rabs_mult, pow_1_abs; ring). rewrite <- A. rewrite Rabs_pos_eq; lra.
Qed.
Lemma pow_fact_large z i : INR i <= z -> 1 <= z ^ i / INR (fact i).
Proof.
  intros H. pose proof (fact_pos i). apply Rmult_le_reg_r with (INR (fact i)); [assumption|]. replace (z ^ i / INR (fact i) * INR (fact i)) with (z ^ i) by (field; lra). rewrite Rmult_1_l. apply Rle_trans with (INR i ^ i); [|apply pow_incr; split; [apply pos_INR|exact H]].
  clear. assert (forall j, (j <= i)%nat -> INR (fact j) <= INR i ^ j) as G; [|apply G; lia]. intros j. induction j as [|j IH]; intros Hj; [cbn; lra|]. rewrite fact_S_R. cbn [pow]. specialize (IH ltac:(lia)). pose proof (fact_pos j). apply Rmult_le_compat; [pose proof (pos_INR j); lra|lra| |exact IH]. rewrite <- S_INR. apply le_INR. exact Hj.
Qed.
(** ** The lower incomplete gamma function *)
Definition lt_ (a z : R) (k : nat) : R := (-1) ^ k * Rpower z (a + INR k) / (INR (fact k) * (a + INR k)).
Lemma lt_derive a k z : 0 < a -> 0 < z -> is_derive (fun z => lt_ a z k) z (Rpower z (a - 1) * et z k).
Proof.
  intros Ha Hz. unfold lt_. pose proof (fact_pos k). pose proof (pos_INR k). evar_last.
  - apply (is_derive_ext (fun z => ((-1) ^ k / (INR (fact k) * (a + INR k))) * Rpower z (a + INR k))); [intros t; change (@eq R ((-1) ^ k / (INR (fact k) * (a + INR k)) * Rpower t (a + INR k)) ((-1) ^ k * Rpower t (a + INR k) / (INR (fact k) * (a + INR k)))); unfold Rdiv; ring|]. apply (is_derive_scal (fun z => Rpower z (a + INR k))), (Rpower_derive (a + INR k) z Hz).
  - unfold et. replace (- z) with (-1 * z) by ring. rewrite Rpow_mult_distr, <- (Rpower_pow k z Hz). replace (a + INR k - 1) with (a - 1 + INR k) by ring. rewrite Rpower_plus. match goal with |- @eq _ ?x ?y => change (@eq R x y) end. field. split; lra.
Qed.
Lemma lts_derive a n z : 0 < a -> 0 < z -> is_derive (fun z => psum (lt_ a z) n) z (Rpower z (a - 1) * pexp n z).
Proof.
  intros Ha Hz. induction n as [|n IH]; unfold pexp in *; cbn [psum]; [apply lt_derive; assumption|]. rewrite Rmult_plus_distr_l. apply (is_derive_plus (fun z => psum (lt_ a z) n) (fun z => lt_ a z (S n))); [exact IH|apply lt_derive; assumption].
Qed.
Lemma pexp_cont n z : continuous (pexp n) z.
Proof. destruct n as [|n]; [apply (continuous_ext (fun _ => 1)); [intros t; unfold pexp; cbn; symmetry; apply et_0|apply continuous_const]|]. apply (ex_derive_continuous (pexp (S n))). eexists. apply pexp_derive. Qed.
Lemma Rpower_cont r z : 0 < z -> continuous (fun z => Rpower z r) z.
Proof. intros Hz. apply (ex_derive_continuous (fun z => Rpower z r)). eexists. apply Rpower_derive, Hz. Qed.
Lemma lower_piece a n u z I : 0 < a -> 0 < u < z -> is_RInt (gamma_density a) u z I ->
  Rabs (I - (psum (lt_ a z) n - psum (lt_ a u) n)) <= Rpower z (a + INR (S n)) / (INR (fact (S n)) * (a + INR (S n))).
Proof.
  intros Ha Hu HI. set (k := S n). pose proof (fact_pos k). pose proof (pos_INR k).
  assert (F : is_RInt (fun t => Rpower t (a - 1) * pexp n t) u z (psum (lt_ a z) n - psum (lt_ a u) n)).
  { apply (is_RInt_derive (fun z => psum (lt_ a z) n) (fun t => Rpower t (a - 1) * pexp n t)); intros t Ht; rewrite Rmin_left in Ht by lra; [apply lts_derive; lra|]. apply (continuous_mult (fun t => Rpower t (a - 1)) (pexp n)); [apply Rpower_cont; lra|apply pexp_cont]. }
  set (B := fun t => Rpower t (a + INR k) / (INR (fact k) * (a + INR k))).
  assert (G : is_RInt (fun t => Rpower t (a - 1) * (t ^ k / INR (fact k))) u z (B z - B u)).
  { apply (is_RInt_derive B (fun t => Rpower t (a - 1) * (t ^ k / INR (fact k)))); intros t Ht; rewrite Rmin_left in Ht by lra.
    - unfold B. evar_last; [apply (is_derive_ext (fun z => (/ (INR (fact k) * (a + INR k))) * Rpower z (a + INR k))); [intros s; change (@eq R (/ (INR (fact k) * (a + INR k)) * Rpower s (a + INR k)) (Rpower s (a + INR k) / (INR (fact k) * (a + INR k)))); unfold Rdiv; ring|]; apply (is_derive_scal (fun z => Rpower z (a + INR k))), (Rpower_derive (a + INR k) t); lra|]. rewrite <- (Rpower_pow k t) by lra. replace (a + INR k - 1) with (a - 1 + INR k) by ring. rewrite Rpower_plus. match goal with |- @eq _ ?x ?y => change (@eq R x y) end. field. split; lra.
    - apply (continuous_mult (fun t => Rpower t (a - 1)) (fun t => t ^ k / INR (fact k))); [apply Rpower_cont; lra|]. apply (ex_derive_continuous (fun t => t ^ k / INR (fact k))). auto_derive. exact Logic.I. }
  assert (Pt : forall t, 0 < t -> Rabs (gamma_density a t - Rpower t (a - 1) * pexp n t) <= Rpower t (a - 1) * (t ^ k / INR (fact k))).
  { intros t Ht. unfold gamma_density. replace (Rpower t (a - 1) * exp (- t) - Rpower t (a - 1) * pexp n t) with (Rpower t (a - 1) * (exp (- t) - pexp n t)) by ring. rewrite Rabs_mult, (Rabs_pos_eq (Rpower t (a - 1))) by (left; apply Rpower_pos). apply Rmult_le_compat_l; [left; apply Rpower_pos|]. apply exp_remainder. lra. }
  pose proof (is_RInt_minus _ _ _ _ _ _ HI F) as Df. pose proof (is_RInt_opp _ _ _ _ G) as Go.
  assert (U : I - (psum (lt_ a z) n - psum (lt_ a u) n) <= B z - B u) by (apply (is_RInt_le _ _ u z _ _ ltac:(lra) Df G); intros t Ht; specialize (Pt t ltac:(lra)); apply Rabs_le_between in Pt; exact (proj2 Pt)).
  assert (L : - (B z - B u) <= I - (psum (lt_ a z) n - psum (lt_ a u) n)) by (apply (is_RInt_le _ _ u z _ _ ltac:(lra) Go Df); intros t Ht; specialize (Pt t ltac:(lra)); apply Rabs_le_between in Pt; exact (proj1 Pt)).
  assert (Bu : 0 <= B u). { unfold B. apply Rlt_le, Rdiv_lt_0_compat; [apply Rpower_pos|apply Rmult_lt_0_compat; lra]. }
  fold (B z). apply Rabs_le_between. lra.
Qed.
Lemma lts_small a n : 0 < a -> forall e, 0 < e -> exists d, 0 < d /\ forall u, 0 < u < d -> Rabs (psum (lt_ a u) n) < e.
Proof.
  intros Ha. assert (P : forall r, 0 < r -> forall e, 0 < e -> exists d, 0 < d /\ forall u, 0 < u < d -> Rpower u r < e).
  { intros r Hr e He. exists (Rpower e (/ r)). split; [apply Rpower_pos|]. intros u Hu. replace e with (Rpower (Rpower e (/ r)) r); [|rewrite Rpower_mult, Rinv_l by lra; apply Rpower_1, He]. unfold Rpower at 1 2. apply exp_increasing, Rmult_lt_compat_l; [exact Hr|]. apply ln_increasing; lra. }
  assert (Q : forall k e, 0 < e -> exists d, 0 < d /\ forall u, 0 < u < d -> Rabs (lt_ a u k) < e).
  { intros k e He. pose proof (fact_pos k). pose proof (pos_INR k). assert (PD : 0 < INR (fact k) * (a + INR k)) by (apply Rmult_lt_0_compat; lra). destruct (P (a + INR k) ltac:(lra) (e * (INR (fact k) * (a + INR k))) ltac:(apply Rmult_lt_0_compat; lra)) as (d & Hd & HQ). exists d. split; [exact Hd|]. intros u Hu. specialize (HQ u Hu). unfold lt_, Rdiv.
    rewrite !Rabs_mult, pow_1_abs, Rmult_1_l, (Rabs_pos_eq (Rpower u _)) by (left; apply Rpower_pos). rewrite Rabs_pos_eq by (left; apply Rinv_0_lt_compat, PD). apply Rmult_lt_reg_r with (INR (fact k) * (a + INR k)); [exact PD|]. rewrite Rmult_assoc, Rinv_l by lra. lra. }
  induction n as [|n IH]; intros e He; cbn [psum]; [apply Q, He|]. destruct (IH (e / 2) ltac:(lra)) as (d1 & P1 & H1). destruct (Q (S n) (e / 2) ltac:(lra)) as (d2 & P2 & H2). exists (Rmin d1 d2). split; [apply Rmin_glb_lt; assumption|]. intros u Hu. pose proof (Rmin_l d1 d2). pose proof (Rmin_r d1 d2). specialize (H1 u ltac:(lra)). specialize (H2 u ltac:(lra)). eapply Rle_lt_trans; [apply Rabs_triang|]. lra.
Qed.
Lemma lower_series a n z l : 0 < a -> 0 < z -> lower_gamma a z l -> Rabs (l - psum (lt_ a z) n) <= Rpower z (a + INR (S n)) / (INR (fact (S n)) * (a + INR (S n))).
Proof.
  intros Ha Hz L. apply le_epsilon. intros e He. destruct (L (e / 2) ltac:(lra)) as (d1 & P1 & Q1 & H1). destruct (lts_small a n Ha (e / 2) ltac:(lra)) as (d2 & P2 & H2). set (u := Rmin d1 d2 / 2). assert (0 < Rmin d1 d2) by (apply Rmin_glb_lt; assumption). pose proof (Rmin_l d1 d2). pose proof (Rmin_r d1 d2).
  destruct (H1 u ltac:(unfold u; lra)) as (I & HI & BI). specialize (H2 u ltac:(unfold u; lra)). pose proof (lower_piece a n u z I Ha ltac:(unfold u; lra) HI) as B.
  replace (l - psum (lt_ a z) n) with (- (I - l) + ((I - (psum (lt_ a z) n - psum (lt_ a u) n)) + - psum (lt_ a u) n)) by ring. eapply Rle_trans; [apply Rabs_triang|]. rewrite Rabs_Ropp. pose proof (Rabs_triang (I - (psum (lt_ a z) n - psum (lt_ a u) n)) (- psum (lt_ a u) n)) as T. rewrite (Rabs_Ropp (psum (lt_ a u) n)) in T. lra.
Qed.
Lemma euler_one : euler_gamma 1 1.
Proof.
  intros e He. set (d := Rmin (e / 2) (1 / 2)). assert (Hd : 0 < d) by (apply Rmin_glb_lt; lra). pose proof (Rmin_l (e / 2) (1 / 2)). pose proof (Rmin_r (e / 2) (1 / 2)). fold d in H, H0.
  exists (d / 2), (1 + 2 / d). assert (0 < 2 / d) by (apply Rdiv_lt_0_compat; lra). split; [lra|]. split; [lra|]. intros a b Ha Hb. exists (exp (- a) - exp (- b)). split.
  - apply (is_RInt_ext (fun t => exp (- t))); [intros t Ht; unfold gamma_density; rewrite Rmin_left in Ht by lra; replace (1 - 1) with 0 by ring; rewrite Rpower_O by lra; symmetry; apply Rmult_1_l|].
    replace (exp (- a) - exp (- b)) with (- exp (- b) - - exp (- a)) by ring. apply (is_RInt_derive (fun t => - exp (- t)) (fun t => exp (- t))); intros t _; [auto_derive; [exact Logic.I|ring]|]. apply (ex_derive_continuous (fun t => exp (- t))). auto_derive. exact Logic.I.
  - assert (A1 : 1 - a <= exp (- a)) by (pose proof (exp_ineq1_le (- a)); lra). assert (A2 : exp (- a) < 1) by (rewrite <- exp_0; apply exp_increasing; lra). pose proof (exp_pos (- b)) as B1. assert (B2 : exp (- b) <= d / 2).
    { rewrite exp_Ropp. replace (d / 2) with (/ (2 / d)) by (field; lra). apply Rinv_le_contravar; [assumption|]. pose proof (exp_ineq1_le b). lra. }
    apply Rabs_def1; lra.
Qed.
