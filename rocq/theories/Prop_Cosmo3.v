(** Claim C46. *)
From Coq Require Import List Bool Arith Lia Reals Lra.
From Coquelicot Require Import Hierarchy Continuity Derive RInt RInt_analysis AutoDerive.
From Verif Require Import Cosmo CosmoSpec CosmoFacts Prop_Cosmo.
Import ListNotations.
Open Scope R_scope.

(** A class that defines the age: lookback time is the complement at every redshift. *)
Theorem C46_complement d f z a0 a n : own_age d = Some f -> own_lookback d = None -> f (Fin 0) = Some a0 -> f z = Some a ->
  exists t, age_dimless n d z = Some a /\ lookback_time_dimless (S n) d z = Some t /\ a + t = a0.
Proof. intros A L F0 F. exists (a0 - a). destruct n; cbn; rewrite ?A, L; cbn; rewrite ?A, F0, F; cbn; repeat split; ring. Qed.
(** A class that defines the lookback time only: the age does not depend on the redshift, so that the claim fails wherever the lookback
    time is not 0. *)
Theorem C46_lookback_only_refuted d g z t T n : own_age d = None -> own_lookback d = Some g -> g z = Some t -> g Inf = Some T ->
  exists a a0, age_dimless (S n) d z = Some a /\ age_dimless (S n) d (Fin 0) = Some a0 /\ a = T /\ a0 = T /\ (a + t = a0 <-> t = 0).
Proof. intros A L G I. exists T, T. assert (E : lookback_time_dimless n d Inf = Some T) by (destruct n; cbn; rewrite L; exact I). cbn. rewrite A, E. repeat split; intros; lra. Qed.
Theorem C46_neither d z : own_age d = None -> own_lookback d = None -> forall n, age_dimless n d z = None /\ lookback_time_dimless n d z = None.
Proof.
  intros A L n. revert z. assert (H : forall n z, age_dimless n d z = None /\ lookback_time_dimless n d z = None); [|intros z; apply H]. clear n. induction n as [|n IH]; intros z; cbn; rewrite A, L; [split; reflexivity|]. destruct (IH Inf) as [_ ->]. destruct (IH (Fin 0)) as [-> _]. split; reflexivity.
Qed.
(** The driver classes: only FlatLambdaCDM of the analytic and odeint modules has an age; the other odeint classes give the age today at
    every redshift, the others raise NotImplementedError. *)
Theorem C46_drivers m c s g n z : age_dimless (S n) (driver_of m c s g) z =
  if flat_lambda c && negb (rad c) then match m with AnalyticDiff => None | _ => flat_age s z end else match m with Odeint => g Inf | _ => None end.
Proof. unfold driver_of. cbn. destruct (flat_lambda c && negb (rad c)), m; try reflexivity; destruct n; reflexivity. Qed.

(** ** The closed form *)
Section Age.
Variables (m : R).
Hypothesis M : 0 < m < 1.
Let K := 1 / m - 1.
Let Ex (x : R) := m * x ^ 3 + (1 - m).
Let age (x : R) := (2 / 3) / sqrt (1 - m) * arcsinh (sqrt (K / x ^ 3)).
Lemma K_pos : 0 < K.
Proof. unfold K. assert (1 < 1 / m); [|lra]. apply (Rmult_lt_reg_l m); [lra|]. replace (m * (1 / m)) with 1 by (field; lra). lra. Qed.
Lemma Ex_pos x : 0 < x -> 0 < Ex x.
Proof. intros X. unfold Ex. pose proof (pow_lt x 3 X). assert (0 < m * x ^ 3) by (apply Rmult_lt_0_compat; lra). lra. Qed.
Lemma age_derive x : 0 < x -> is_derive age x (- / (sqrt (Ex x) * x)).
Proof.
  intros X. pose proof (pow_lt x 3 X) as X3. pose proof K_pos as KP. assert (Q : 0 < K / x ^ 3) by (apply Rdiv_lt_0_compat; lra). pose proof (sqrt_lt_R0 _ Q) as G. set (g := sqrt (K / x ^ 3)) in *. pose proof (Ex_pos x X) as EP. pose proof (sqrt_lt_R0 _ EP) as E. assert (A1 : 0 < 1 - m) by lra. pose proof (sqrt_lt_R0 _ A1) as A.
  assert (Dg : is_derive (fun x => sqrt (K / x ^ 3)) x ((- (3 * K) / x ^ 4) / (2 * g))).
  { auto_derive; [split; [cbn in X3; lra|split; [exact Q|exact I]]|]. change (sqrt (K * / (x * (x * (x * 1))))) with g. field. split; lra. }
  assert (Da : is_derive arcsinh g (/ sqrt (g ^ 2 + 1))). { apply is_derive_Reals. apply derivable_pt_lim_arcsinh. }
  pose proof (is_derive_comp arcsinh (fun x => sqrt (K / x ^ 3)) x _ _ Da Dg) as C. pose proof (is_derive_scal _ x ((2 / 3) / sqrt (1 - m)) _ C) as S'. unfold age. eapply is_derive_ext; [|].
  2: { replace (- / (sqrt (Ex x) * x)) with ((2 / 3) / sqrt (1 - m) * scal (- (3 * K) / x ^ 4 / (2 * g)) (/ sqrt (g ^ 2 + 1))); [exact S'|].
    unfold scal; simpl; unfold mult; simpl. assert (H1 : 0 < g ^ 2 + 1) by (pose proof (pow2_ge_0 g); lra). pose proof (sqrt_lt_R0 _ H1) as H2. set (h := sqrt (g ^ 2 + 1)) in *. set (a := sqrt (1 - m)) in *. set (e := sqrt (Ex x)) in *.
    assert (Key : K * e = a * h * g * x ^ 3).
    { apply Rsqr_inj; [apply Rmult_le_pos; lra|repeat (apply Rmult_le_pos; [|lra]); lra|]. unfold Rsqr. replace (K * e * (K * e)) with (K * K * (e * e)) by ring. replace (a * h * g * x ^ 3 * (a * h * g * x ^ 3)) with ((a * a) * (h * h) * (g * g) * (x ^ 3 * x ^ 3)) by ring.
      assert (gg : g * g = K / x ^ 3) by (apply sqrt_sqrt; lra). assert (hh : h * h = K / x ^ 3 + 1) by (unfold h; rewrite sqrt_sqrt by lra; rewrite <- gg; ring). assert (aa : a * a = 1 - m) by (apply sqrt_sqrt; lra). assert (ee : e * e = Ex x) by (apply sqrt_sqrt; lra).
      rewrite gg, hh, aa, ee. unfold Ex, K. field. split; lra. }
    apply (Rmult_eq_reg_l (a * h * g * x ^ 4 * e)). 2: { assert (0 < x ^ 4) by (apply pow_lt; lra). apply Rgt_not_eq. repeat apply Rmult_lt_0_compat; lra. }
    change (g * (g * 1) + 1) with (g ^ 2 + 1). fold h. transitivity (- (K * e)); [|rewrite Key; field; repeat split; lra]. field. repeat split; lra. }
  intros t. reflexivity.
Qed.
Lemma arcsinh_bound y : 0 < y -> 0 < arcsinh y <= y.
Proof.
  intros Y. split; [rewrite <- arcsinh_0; apply arcsinh_lt, Y|]. rewrite <- (arcsinh_sinh y) at 2. apply arcsinh_le. assert (G : forall t, 0 < t -> t <= sinh t). 2: apply G, Y.
  intros t T. destruct (Rle_lt_dec t (sinh t)) as [|N]; [assumption|exfalso]. assert (D : exists c, 0 < c < t /\ sinh t - sinh 0 = cosh c * (t - 0)).
  { destruct (MVT_cor2 sinh cosh 0 t T) as (c & E & B); [intros c _; apply derivable_pt_lim_sinh|]. exists c. split; assumption. }
  destruct D as (c & Bc & E). rewrite sinh_0 in E. assert (C1 : 1 <= cosh c). { unfold cosh. pose proof (exp_ineq1_le c). pose proof (exp_ineq1_le (- c)). lra. }
  assert (1 * t <= cosh c * t) by (apply Rmult_le_compat_r; lra). lra.
Qed.
Lemma age_pos x : 0 < x -> 0 < age x.
Proof.
  intros X. unfold age. apply Rmult_lt_0_compat; [apply Rdiv_lt_0_compat; [lra|apply sqrt_lt_R0; lra]|]. apply arcsinh_bound. apply sqrt_lt_R0. apply Rdiv_lt_0_compat; [apply K_pos|apply pow_lt, X].
Qed.
Lemma age_limit eps : 0 < eps -> exists X, 0 < X /\ forall x, X <= x -> age x < eps.
Proof.
  intros E. set (k := (2 / 3) / sqrt (1 - m)). assert (Kp : 0 < k) by (apply Rdiv_lt_0_compat; [lra|apply sqrt_lt_R0; lra]). pose proof K_pos as KP. set (q := eps / k). assert (Q : 0 < q) by (apply Rdiv_lt_0_compat; lra).
  exists (1 + K / (q * q)). assert (P : 0 < K / (q * q)) by (apply Rdiv_lt_0_compat; [lra|apply Rmult_lt_0_compat; lra]). split; [lra|]. intros x X. unfold age. fold k.
  assert (X3 : 0 < x ^ 3) by (apply pow_lt; lra). assert (L : sqrt (K / x ^ 3) < q).
  { rewrite <- (sqrt_square q) by lra. apply sqrt_lt_1; [left; apply Rdiv_lt_0_compat; lra|left; apply Rmult_lt_0_compat; lra|]. apply (Rmult_lt_reg_r (x ^ 3)); [lra|]. replace (K / x ^ 3 * x ^ 3) with K by (field; lra).
    assert (X1 : x <= x ^ 3). { replace (x ^ 3) with (x * x ^ 2) by ring. rewrite <- (Rmult_1_r x) at 1. apply Rmult_le_compat_l; [lra|]. replace 1 with (1 ^ 2) by ring. apply pow_incr. lra. }
    assert (K < q * q * x). { apply (Rmult_lt_reg_r (/ (q * q))); [apply Rinv_0_lt_compat, Rmult_lt_0_compat; lra|]. replace (q * q * x * / (q * q)) with x by (field; lra). unfold Rdiv in X. lra. }
    assert (0 < q * q) by (apply Rmult_lt_0_compat; lra). assert (q * q * x <= q * q * x ^ 3) by (apply Rmult_le_compat_l; lra). lra. }
  assert (S0 : 0 < sqrt (K / x ^ 3)) by (apply sqrt_lt_R0, Rdiv_lt_0_compat; lra). pose proof (arcsinh_bound _ S0). apply Rlt_le_trans with (k * q).
  - apply Rmult_lt_compat_l; lra.
  - unfold q. right. field. lra.
Qed.
Lemma integrand_continuous x : 0 < x -> continuous (fun x => - / (sqrt (Ex x) * x)) x.
Proof.
  intros X. pose proof (Ex_pos x X) as EP. apply (ex_derive_continuous (V := R_NormedModule)). unfold Ex in *. auto_derive. repeat split; try exact I; [exact EP|]. pose proof (sqrt_lt_R0 _ EP). apply Rgt_not_eq, Rmult_lt_0_compat; assumption.
Qed.
End Age.

(** The age of FlatLambdaCDM: positive, decreasing at the rate of the lookback-time integrand, 0 in the limit, and its drop since redshift z
    is the lookback time, the integral of the integrand from 0 to z. *)
Theorem C46_flat H100 cdens raddens c s m : instance H100 cdens raddens c s -> flat c = true -> de_of c = CC -> rad c = false -> get cdens raddens c s Om0 = Some m -> 0 < m < 1 -> exists age f,
  (forall z, -1 < z -> flat_age s (Fin z) = Some (age z) /\ lookback_time_integrand c s z = Some (f z) /\ 0 < age z /\ is_derive age z (- f z) /\ is_RInt f 0 z (age 0 - age z))
  /\ (forall eps, 0 < eps -> exists Z, -1 < Z /\ forall z, Z <= z -> age z < eps) /\ flat_age s Inf = Some 0.
Proof.
  intros I Fl De Rc Gm M. cbn in Gm. set (A := fun x => (2 / 3) / sqrt (1 - m) * arcsinh (sqrt ((1 / m - 1) / x ^ 3))). exists (fun z => A (1 + z)), (fun z => / (sqrt (m * (1 + z) ^ 3 + (1 - m)) * (1 + z))).
  assert (D : forall z, -1 < z -> is_derive (fun z => A (1 + z)) z (- / (sqrt (m * (1 + z) ^ 3 + (1 - m)) * (1 + z)))).
  { intros z Z. pose proof (age_derive m M (1 + z) ltac:(lra)) as D. pose proof (is_derive_comp _ (fun z => 1 + z) z _ 1 D ltac:(auto_derive; [exact Logic.I|ring])) as D'. unfold scal in D'; simpl in D'; unfold mult in D'; simpl in D'. rewrite Rmult_1_l in D'. exact D'. }
  split; [|split].
  - intros z Z. unfold flat_age. rewrite Gm. cbn [bind]. split; [reflexivity|]. split; [|split; [|split]].
    + assert (Sc : de_scale c s (1 + z) = Some 1) by (unfold de_scale; rewrite De; reflexivity). destruct (e2_value H100 cdens raddens c s 1 (1 + z) I Sc) as (m' & r & d & M' & R' & _ & _ & L & V). rewrite Gm in M'. injection M' as <-. rewrite Rc in R'. subst r. specialize (L Fl De). rewrite Fl in V. unfold lookback_time_integrand, inv_efunc, e2func. rewrite V. cbn [bind]. f_equal. rewrite (Rplus_comm z 1). unfold Rdiv.
      replace (m * (1 + z) ^ 3 + 0 * (1 + z) ^ 2 + d * 1 + 0 * (1 + z) ^ 4) with (m * (1 + z) ^ 3 + (1 - m)) by (rewrite L; ring). rewrite <- Rinv_mult. reflexivity.
    + apply (age_pos m M). lra.
    + apply D, Z.
    + pose proof (is_RInt_derive (fun z => - A (1 + z)) (fun z => / (sqrt (m * (1 + z) ^ 3 + (1 - m)) * (1 + z))) 0 z) as R. unfold minus, plus, opp in R; simpl in R. replace (A (1 + 0) - A (1 + z)) with (- A (1 + z) + - - A (1 + 0)) by ring. apply R.
      * intros x [X1 X2]. assert (-1 < x) by (revert X1; unfold Rmin; destruct (Rle_dec 0 z); lra). pose proof (is_derive_opp _ _ _ (D x H)) as P. unfold opp in P; simpl in P. rewrite Ropp_involutive in P. exact P.
      * intros x [X1 X2]. assert (-1 < x) by (revert X1; unfold Rmin; destruct (Rle_dec 0 z); lra). pose proof (Ex_pos m M (1 + x) ltac:(lra)) as EP. apply (ex_derive_continuous (V := R_NormedModule)). auto_derive. repeat split; try exact Logic.I; [exact EP|]. pose proof (sqrt_lt_R0 _ EP). apply Rgt_not_eq, Rmult_lt_0_compat; [assumption|lra].
  - intros eps E. destruct (age_limit m M eps E) as (X & X0 & L). exists (X - 1). split; [lra|]. intros z Z. apply L. lra.
  - unfold flat_age. rewrite Gm. cbn [bind]. rewrite arcsinh_0, Rmult_0_r. reflexivity.
Qed.

(** ** The hypotheses can be met *)
Lemma some_instance H100 cdens raddens c : exists s, instance H100 cdens raddens c s /\ get cdens raddens c s Om0 = Some 0.3.
Proof.
  pose (kw := fun p => match p with Om0 => Some 0.3 | Ode0 => Some 0.6 | _ => None end). assert (A : acceptable c kw) by (split; intros p; destruct p; cbn; try congruence; auto).
  apply (construct_iff H100 cdens raddens) in A as (s & H). exists s. split; [econstructor; exact H|]. apply (C44_constructor_readback H100 cdens raddens c kw s Om0 0.3 H); [reflexivity|unfold replaced; intuition discriminate|left; reflexivity].
Qed.
Example C43_nonvacuous : exists s, instance 100 1 1 (Cls WpWa true false) s /\ get 1 1 (Cls WpWa true false) s wp = Some (-0.9) /\ get 1 1 (Cls WpWa true false) s wa = Some 0.2 /\ get 1 1 (Cls WpWa true false) s zp = Some 0.4.
Proof.
  pose (kw := fun p => match p with Om0 => Some 0.3 | Ode0 => Some 0.6 | wp => Some (-0.9) | wa => Some 0.2 | zp => Some 0.4 | _ => None end). assert (A : acceptable (Cls WpWa true false) kw) by (split; intros p; destruct p; cbn; try congruence; auto).
  apply (construct_iff 100 1 1) in A as (s & H). exists s. split; [econstructor; exact H|]. repeat split; apply (C44_constructor_readback 100 1 1 _ kw s _ _ H); try reflexivity; try (left; reflexivity); unfold replaced; cbn; intuition discriminate.
Qed.
(** A history with a constructor call and two assignments, one through the temperature. *)
Example C44_nonvacuous : exists s s1 s2, instance 100 1 1 (Cls W true false) s /\ set 1 1 (Cls W true false) s Ode0 0.5 = Some s1 /\ set 1 1 (Cls W true false) s1 Tcmb0 2 = Some s2 /\ instance 100 1 1 (Cls W true false) s2.
Proof.
  destruct (some_instance 100 1 1 (Cls W true false)) as (s & I & _). destruct (C44_no_error 100 1 1 _ s Ode0 0.5 I eq_refl) as (s1 & E1 & I1). destruct (C44_no_error 100 1 1 _ s1 Tcmb0 2 I1 eq_refl) as (s2 & E2 & I2). exists s, s1, s2. repeat split; assumption.
Qed.
Example C45_nonvacuous : exists s s1, instance 100 1 1 (Cls CC true true) s /\ set 1 1 (Cls CC true true) s Ode0 0.5 = Some s1 /\ instance 100 1 1 (Cls CC true true) s1.
Proof. destruct (some_instance 100 1 1 (Cls CC true true)) as (s & I & _). destruct (C44_no_error 100 1 1 _ s Ode0 0.5 I eq_refl) as (s1 & E1 & I1). exists s, s1. repeat split; assumption. Qed.
Example C46_nonvacuous : exists s, instance 100 1 1 (Cls CC false true) s /\ get 1 1 (Cls CC false true) s Om0 = Some 0.3 /\ 0 < 0.3 < 1.
Proof. destruct (some_instance 100 1 1 (Cls CC false true)) as (s & I & G). exists s. repeat split; [exact I|exact G|lra|lra]. Qed.
Example C47_nonvacuous : exists s, instance 100 1 1 (Cls CC false false) s /\ get 1 1 (Cls CC false false) s H0 = Some 100.
Proof.
  pose (kw := fun p => match p with Om0 => Some 0.3 | Ode0 => Some 0.6 | _ => None end). assert (A : acceptable (Cls CC false false) kw) by (split; intros p; destruct p; cbn; try congruence; auto).
  apply (construct_iff 100 1 1) in A as (s & H). exists s. split; [econstructor; exact H|]. apply (C44_constructor_readback 100 1 1 _ kw s H0 100 H); [reflexivity|unfold replaced; intuition discriminate|right; split; reflexivity].
Qed.
Example C48_nonvacuous : exists s, set_params 1 1 (Cls CC true true) (initial 100 (Cls CC true true)) [(Neff, 3); (Tcmb0, 2)] = Some s /\ s Neff = Some 3 /\ s H0 = Some 100.
Proof. eexists. split; [reflexivity|split; reflexivity]. Qed.
Example C49_nonvacuous : exists s, instance 100 1 1 (Cls CC true false) s /\ e2func (Cls CC true false) s 0 = Some 1 /\ 1 <> 0.
Proof. destruct (some_instance 100 1 1 (Cls CC true false)) as (s & I & _). exists s. split; [exact I|]. split; [|lra]. apply (C44_expansion 100 1 1); [exact I|left; reflexivity|discriminate]. Qed.
Print Assumptions C46_flat. Print Assumptions C43_law. Print Assumptions C44_frame. Print Assumptions C47_rebuild. Print Assumptions C48_order_refuted.
