(** Claims C43, C44, C45, C47, C48, C49. *)
From Coq Require Import List Bool Arith Lia Reals Lra.
From Coquelicot Require Import Hierarchy Derive ElemFct AutoDerive.
From Verif Require Import Cosmo CosmoSpec CosmoFacts.
Import ListNotations.
Open Scope R_scope.

Ltac slots c s R p := let v := fresh "v" in let E := fresh "E" in destruct (ready_get c s p R) as (v & E); [unfold stored; simpl; try reflexivity|].
Ltac ne := repeat split; first [assumption | lra | apply Rgt_not_eq; lra].
Section Constants.
Variables (H100 cdens raddens : R).
Notation set := (set cdens raddens).
Notation get := (get cdens raddens).
Notation set_params := (set_params cdens raddens).
Notation construct := (construct H100 cdens raddens).
Notation instance := (instance H100 cdens raddens).


(** ** C43 *)
Lemma Rpower_1_l y : Rpower 1 y = 1.
Proof. unfold Rpower. rewrite ln_1, Rmult_0_r, exp_0. reflexivity. Qed.
Lemma ln_Rpower x y : ln (Rpower x y) = y * ln x.
Proof. unfold Rpower. apply ln_exp. Qed.

(** The documented equation of state.  (For LambdaCDM w0 is not a parameter.) *)
Theorem C43_w c s z : instance c s -> -1 < z -> exists v0 va vp vz vzp,
  (has c w0 = true -> get c s w0 = Some v0) /\ (has c wa = true -> get c s wa = Some va) /\ (has c wp = true -> get c s wp = Some vp) /\
  (has c wz = true -> get c s wz = Some vz) /\ (has c zp = true -> get c s zp = Some vzp) /\
  w_of c s (1 + z) = Some (documented_w (de_of c) v0 va vp vz vzp z).
Proof.
  intros I Z. pose proof (instance_ready _ _ _ _ _ I) as Rd. destruct c as [d r f].
  destruct d; [exists 0, 0, 0, 0, 0 | | | |].
  - cbn. unfold w_of, w0_of. destruct Rd as [_ [_ Rd]]. rewrite Rd by reflexivity. cbn. repeat split; discriminate.
  - slots (Cls W r f) s Rd w0. exists v, 0, 0, 0, 0. cbn. unfold w_of, w0_of. rewrite E. cbn. repeat split; congruence.
  - slots (Cls W0Wa r f) s Rd w0. slots (Cls W0Wa r f) s Rd wa. exists v, v0, 0, 0, 0. cbn. unfold w_of, w0_of. rewrite E. cbn. rewrite E0. cbn. repeat split; try congruence. f_equal. replace (1 + z) with (z + 1) by ring. reflexivity.
  - slots (Cls WpWa r f) s Rd w0. slots (Cls WpWa r f) s Rd wa. slots (Cls WpWa r f) s Rd zp. exists v, v0, v, 0, v1. cbn. unfold w_of, w0_of. rewrite E. cbn. rewrite E0, E1. cbn. repeat split; try congruence. f_equal. rewrite (Rplus_comm 1 z), (Rplus_comm 1 v1). reflexivity.
  - slots (Cls W0Wz r f) s Rd w0. slots (Cls W0Wz r f) s Rd wz. exists v, 0, 0, v0, 0. cbn. unfold w_of, w0_of. rewrite E. cbn. rewrite E0. cbn. repeat split; try congruence. f_equal. ring.
Qed.

(** The density scale is 1 today and its logarithmic slope is 3(1+w(z)); u = ln(1+z). *)
Theorem C43_law c s : instance c s -> de_of c <> W0Wz -> exists f, (forall z, -1 < z -> de_scale c s (1 + z) = Some (f z) /\ 0 < f z) /\ f 0 = 1
  /\ forall z, -1 < z -> exists w, w_of c s (1 + z) = Some w /\ is_derive (fun u => ln (f (exp u - 1))) (ln (1 + z)) (3 * (1 + w)).
Proof.
  intros I D. pose proof (instance_ready _ _ _ _ _ I) as Rd. destruct c as [d r fl]. cbn in D. destruct d; [| | | |congruence].
  - exists (fun _ => 1). unfold de_scale, w_of, w0_of. cbn. destruct Rd as [_ [_ Rd]]. rewrite Rd by reflexivity. repeat split; try lra. intros z _. exists (-1). split; [reflexivity|].
    apply is_derive_ext with (f := fun _ : R => ln 1); [reflexivity|]. replace (3 * (1 + -1)) with 0 by ring. apply (@is_derive_const R_AbsRing R_NormedModule).
  - slots (Cls W r fl) s Rd w0. exists (fun z => Rpower (1 + z) (3 * (1 + v))). unfold de_scale, w_of, w0_of. cbn. rewrite E. cbn. repeat split.
    + unfold Rpower. apply exp_pos.
    + rewrite Rplus_0_r. apply Rpower_1_l.
    + intros z Z. exists v. split; [reflexivity|]. apply is_derive_ext with (f := fun u => 3 * (1 + v) * u).
      { intros u. rewrite ln_Rpower. replace (1 + (exp u - 1)) with (exp u) by ring. rewrite ln_exp. reflexivity. }
      auto_derive; [exact Logic.I|ring].
  - slots (Cls W0Wa r fl) s Rd w0. slots (Cls W0Wa r fl) s Rd wa. rename v into v0', v0 into va'. exists (fun z => Rpower (1 + z) (3 * (1 + v0' + va')) * exp (-3 * va' * (1 - 1 / (1 + z)))). unfold de_scale, w_of, w0_of. cbn. rewrite E. cbn. rewrite E0. cbn. repeat split.
    + apply Rmult_lt_0_compat; unfold Rpower; apply exp_pos.
    + rewrite Rplus_0_r, Rpower_1_l. replace (-3 * va' * (1 - 1 / 1)) with 0 by field. rewrite exp_0. ring.
    + intros z Z. eexists. split; [reflexivity|]. apply is_derive_ext with (f := fun u => 3 * (1 + v0' + va') * u + -3 * va' * (1 - 1 / exp u)).
      { intros u. replace (1 + (exp u - 1)) with (exp u) by ring. rewrite ln_mult by (unfold Rpower; apply exp_pos). rewrite ln_Rpower, !ln_exp. reflexivity. }
      auto_derive; [pose proof (exp_pos (ln (1 + z))); lra|]. rewrite exp_ln by lra. field. lra.
  - slots (Cls WpWa r fl) s Rd w0. slots (Cls WpWa r fl) s Rd wa. slots (Cls WpWa r fl) s Rd zp. rename v into v0', v0 into va', v1 into vz'. exists (fun z => Rpower (1 + z) (3 * (1 + v0' + 1 / (1 + vz') * va')) * exp (-3 * va' * (1 - 1 / (1 + z)))). unfold de_scale, w_of, w0_of. cbn. rewrite E. cbn. rewrite E0, E1. cbn. repeat split.
    + apply Rmult_lt_0_compat; unfold Rpower; apply exp_pos.
    + rewrite Rplus_0_r, Rpower_1_l. replace (-3 * va' * (1 - 1 / 1)) with 0 by field. rewrite exp_0. ring.
    + intros z Z. eexists. split; [reflexivity|]. set (ap := 1 / (1 + vz')). apply is_derive_ext with (f := fun u => 3 * (1 + v0' + ap * va') * u + -3 * va' * (1 - 1 / exp u)).
      { intros u. replace (1 + (exp u - 1)) with (exp u) by ring. rewrite ln_mult by (unfold Rpower; apply exp_pos). rewrite ln_Rpower, !ln_exp. reflexivity. }
      auto_derive; [pose proof (exp_pos (ln (1 + z))); lra|]. rewrite exp_ln by lra. field. lra.
Qed.
(** w0wzCDM: the code's density scale, its value today and its logarithmic slope.  Both claims fail unless wz = 0. *)
Theorem C43_w0wz_refuted c s : instance c s -> de_of c = W0Wz -> exists f v0 vz, get c s w0 = Some v0 /\ get c s wz = Some vz
  /\ (forall z, -1 < z -> de_scale c s (1 + z) = Some (f z)) /\ f 0 = exp (-6 * vz)
  /\ (forall z, -1 < z -> exists w, w_of c s (1 + z) = Some w /\ is_derive (fun u => ln (f (exp u - 1))) (ln (1 + z)) (3 * (1 + w) - 6 * vz * (1 + z)))
  /\ (vz <> 0 -> f 0 <> 1 /\ forall z w, -1 < z -> w_of c s (1 + z) = Some w -> ~ is_derive (fun u => ln (f (exp u - 1))) (ln (1 + z)) (3 * (1 + w))).
Proof.
  intros I D. pose proof (instance_ready _ _ _ _ _ I) as Rd. destruct c as [d r fl]. cbn in D. subst d. slots (Cls W0Wz r fl) s Rd w0. slots (Cls W0Wz r fl) s Rd wz. rename v into v0', v0 into vz'.
  set (f := fun z => Rpower (1 + z) (3 * (1 + v0' - vz')) * exp (-3 * vz' * (1 + z) - 3 * vz')). exists f, v0', vz'.
  assert (F0 : f 0 = exp (-6 * vz')). { unfold f. rewrite Rplus_0_r, Rpower_1_l, Rmult_1_l. f_equal. ring. }
  assert (Dv : forall z, -1 < z -> exists w, w_of (Cls W0Wz r fl) s (1 + z) = Some w /\ is_derive (fun u => ln (f (exp u - 1))) (ln (1 + z)) (3 * (1 + w) - 6 * vz' * (1 + z))).
  { intros z Z. unfold w_of, w0_of. rewrite E. cbn. rewrite E0. cbn. eexists. split; [reflexivity|]. apply is_derive_ext with (f := fun u => 3 * (1 + v0' - vz') * u + (-3 * vz' * exp u - 3 * vz')).
    { intros u. unfold f. replace (1 + (exp u - 1)) with (exp u) by ring. rewrite ln_mult by (unfold Rpower; apply exp_pos). rewrite ln_Rpower, !ln_exp. reflexivity. }
    auto_derive; [exact Logic.I|]. rewrite exp_ln by lra. ring. }
  split; [exact E|]. split; [exact E0|]. split; [|split; [exact F0|split; [exact Dv|]]].
  - intros z _. unfold de_scale. cbn. rewrite E. cbn. rewrite E0. reflexivity.
  - intros N. split.
    + rewrite F0. rewrite <- exp_0. intros X. apply exp_inv in X. lra.
    + intros z w Z Hw Hd. destruct (Dv z Z) as (w' & Hw' & Hd'). rewrite Hw in Hw'. injection Hw' as <-. pose proof (is_derive_unique _ _ _ Hd) as U1. pose proof (is_derive_unique _ _ _ Hd') as U2. rewrite U1 in U2.
      assert (vz' * (1 + z) = 0) by lra. apply Rmult_integral in H as [H|H]; lra.
Qed.

(** ** C44 *)
Theorem C44_constructor c kw : (exists s, construct c kw = Some s) <-> acceptable c kw.
Proof. apply construct_iff. Qed.
Theorem C44_no_error c s p v : instance c s -> has c p = true -> exists s', set c s p v = Some s' /\ instance c s'.
Proof.
  intros I P. destruct (set_total H100 cdens raddens c s p v P) as (s' & E).
  - apply (ready_filled H100). apply (instance_ready _ _ _ _ _ I).
  - exists s'. split; [exact E|]. apply (assigned _ _ _ c s p v s' I P E).
Qed.
(** Every present-day density can be read, in every class. *)
Lemma densities c s : instance c s -> exists m r d, s Om0 = Some m /\ (if rad c then s Or0 = Some r else r = 0) /\ sum0_noDE c s = Some (m + r) /\ get_Ode0 c s = Some d /\ get_Ok0 c s = Some (if flat c then 0 else 1 - (m + r) - d) /\ (flat c = true -> de_of c = CC -> d = 1 - (m + r)).
Proof.
  intros I. pose proof (instance_ready _ _ _ _ _ I) as Rd. slots c s Rd Om0. assert (Hr : exists r, (if rad c then s Or0 = Some r else r = 0) /\ sum0_noDE c s = Some (v + r)).
  { destruct (rad c) eqn:Rc. - slots c s Rd Or0. + unfold stored. simpl. rewrite Rc. reflexivity. + exists v0. split; [exact E0|]. unfold sum0_noDE. rewrite E, Rc. cbn. rewrite E0. reflexivity.
    - exists 0. split; [reflexivity|]. unfold sum0_noDE. rewrite E, Rc. cbn. rewrite Rplus_0_r. reflexivity. }
  destruct Hr as (r & R1 & R2). destruct (flat_lambda c) eqn:F.
  - assert (F' := F). apply flat_lambda_iff in F' as [F1 F2]. destruct Rd as [_ [Rd _]]. exists v, r, (1 - 0 - (v + r)). unfold get_Ok0, get_Ode0. rewrite (Rd F), F2, R2. cbn. repeat split; try assumption. intros _ _. ring.
  - slots c s Rd Ode0. { rewrite F. reflexivity. } exists v, r, v0. unfold get_Ok0, get_Ode0. rewrite E0, R2. cbn. split; [exact E|]. split; [exact R1|]. split; [reflexivity|]. split; [reflexivity|]. split; [destruct (flat c); reflexivity|]. intros A B. assert (flat_lambda c = true) by (apply flat_lambda_iff; split; assumption). congruence.
Qed.
(** The closure relation, after any history. *)
Theorem C44_closure c s : instance c s -> flat c = false \/ de_of c = CC -> exists m r k d,
  get c s Om0 = Some m /\ (if rad c then get c s Or0 = Some r else r = 0) /\ get_Ok0 c s = Some k /\ get c s Ode0 = Some d /\ m + r + k + d = 1.
Proof.
  intros I H. destruct (densities c s I) as (m & r & d & M & Rr & _ & D & K & L). exists m, r, (if flat c then 0 else 1 - (m + r) - d), d. repeat split; try assumption. destruct (flat c); [|ring]. destruct H as [H|H]; [discriminate H|]. rewrite (L eq_refl H). ring.
Qed.
Lemma e2_value c s f zp1 : instance c s -> de_scale c s zp1 = Some f -> exists m r d, s Om0 = Some m /\ (if rad c then s Or0 = Some r else r = 0) /\ get_Ode0 c s = Some d
  /\ get_Ok0 c s = Some (if flat c then 0 else 1 - (m + r) - d) /\ (flat c = true -> de_of c = CC -> d = 1 - (m + r))
  /\ e2_zp1 c s zp1 = Some (m * zp1 ^ 3 + (if flat c then 0 else 1 - (m + r) - d) * zp1 ^ 2 + d * f + r * zp1 ^ 4).
Proof.
  intros I F. destruct (densities c s I) as (m & r & d & M & Rr & _ & D & K & L). exists m, r, d. repeat split; try assumption. unfold e2_zp1. rewrite M, D, K. cbn [bind].
  assert (B : (match de_of c with CC => Some (zp1 ^ 2 * (m * zp1 + (if flat c then 0 else 1 - (m + r) - d)) + d) | _ => bind (de_scale c s zp1) (fun f => Some (zp1 ^ 2 * (m * zp1 + (if flat c then 0 else 1 - (m + r) - d)) + d * f)) end) = Some (zp1 ^ 2 * (m * zp1 + (if flat c then 0 else 1 - (m + r) - d)) + d * f)).
  { rewrite F. cbn [bind]. destruct (de_of c) eqn:De; try reflexivity. unfold de_scale in F. rewrite De in F. injection F as <-. f_equal. ring. }
  rewrite B. cbn [bind]. destruct (rad c); [rewrite Rr; cbn [bind]|subst r]; f_equal; ring.
Qed.
Lemma scale_today c s : instance c s -> exists f, de_scale c s 1 = Some f /\ (de_of c <> W0Wz -> f = 1) /\ (de_of c = W0Wz -> exists b, s wz = Some b /\ f = exp (-6 * b)).
Proof.
  intros I. destruct (de_of c) eqn:De.
  5: { destruct (C43_w0wz_refuted c s I De) as (f & v0 & vz & _ & V & F & F0 & _). specialize (F 0 ltac:(lra)). rewrite Rplus_0_r in F. exists (f 0). split; [exact F|]. split; [congruence|]. intros _. exists vz. split; [exact V|exact F0]. }
  all: destruct (C43_law c s I ltac:(rewrite De; discriminate)) as (f & F & F0 & _); specialize (F 0 ltac:(lra)); rewrite Rplus_0_r in F; destruct F as [F _]; exists (f 0); (split; [exact F|]); (split; [intros _; exact F0|discriminate]).
Qed.
(** The expansion rate today. *)
Theorem C44_expansion c s : instance c s -> flat c = false \/ de_of c = CC -> de_of c <> W0Wz -> e2func c s 0 = Some 1.
Proof.
  intros I H N. destruct (scale_today c s I) as (f & F & F1 & _). unfold e2func. rewrite Rplus_0_r. destruct (e2_value c s f 1 I F) as (m & r & d & _ & _ & _ & _ & L & ->). rewrite (F1 N). f_equal. destruct (flat c); [|ring]. destruct H as [H|H]; [discriminate H|]. rewrite (L eq_refl H). ring.
Qed.
(** For w0wzCDM the expansion rate today is not 1 unless wz = 0 or there is no dark energy. *)
Theorem C44_w0wz_refuted c s : instance c s -> flat c = false -> de_of c = W0Wz -> exists b d, get c s wz = Some b /\ get c s Ode0 = Some d
  /\ e2func c s 0 = Some (1 + d * (exp (-6 * b) - 1)) /\ (e2func c s 0 = Some 1 -> b = 0 \/ d = 0).
Proof.
  intros I H N. destruct (scale_today c s I) as (f & F & _ & F1). destruct (F1 N) as (b & B & Fb). destruct (e2_value c s f 1 I F) as (m & r & d & _ & _ & D & _ & _ & Ev). exists b, d. split; [exact B|]. split; [exact D|].
  assert (V : e2func c s 0 = Some (1 + d * (exp (-6 * b) - 1))). { unfold e2func. rewrite Rplus_0_r, Ev. rewrite H, Fb. f_equal. ring. }
  split; [exact V|]. rewrite V. intros [= X]. assert (Y : d * (exp (-6 * b) - 1) = 0) by lra. apply Rmult_integral in Y as [Y|Y]; [right; exact Y|left]. assert (Z : exp (-6 * b) = exp 0) by (rewrite exp_0; lra). apply exp_inv in Z. lra.
Qed.
(** A parameter reads back as it was set (the temperature is claim C48). *)
Theorem C44_readback c s p v s' : instance c s -> has c p = true -> p <> Tcmb0 -> set c s p v = Some s' -> get c s' p = Some v.
Proof.
  intros I P N H. pose proof (assigned H100 cdens raddens c s p v s' I P H) as I'. pose proof (set_slot _ _ _ _ _ _ _ H) as W. pose proof (set_frame _ _ _ _ _ _ _ Or0 H) as Fr. destruct p; try congruence; try exact W. clear H. simpl in *. unfold get_Ode0.
  destruct (flat_lambda c) eqn:F.
  - pose proof (instance_ready _ _ _ _ _ I') as [_ [Rd _]]. rewrite (Rd F). assert (F' := F). apply flat_lambda_iff in F' as [F1 F2]. rewrite F2. unfold sum0_noDE. rewrite W. destruct (rad c) eqn:Rc.
    + destruct (ready_get c s Or0 (instance_ready _ _ _ _ _ I)) as (r & Er); [unfold stored; simpl; rewrite Rc; reflexivity|]. rewrite Er. cbn. rewrite Fr, Er by discriminate. cbn. f_equal. ring.
    + cbn. f_equal. ring.
  - rewrite W. reflexivity.
Qed.
(** Nothing else changes. *)
Theorem C44_frame c s p v s' q : instance c s -> has c p = true -> has c q = true -> ~ tied c p q -> set c s p v = Some s' -> get c s' q = get c s q.
Proof.
  intros I P Q T H. assert (Fr : forall x, x <> slot c p -> s' x = s x) by (intros x; apply (set_frame _ _ _ _ _ _ _ x H)). pose proof (instance_ready _ _ _ _ _ I) as Rd. pose proof (instance_ready _ _ _ _ _ (assigned H100 cdens raddens c s p v s' I P H)) as Rd'.
  assert (S0 : forall x, slot c p = x -> p = x \/ (p = Tcmb0 /\ x = Or0) \/ (p = wp /\ x = w0) \/ (p = Ode0 /\ x = Om0 /\ flat_lambda c = true)).
  { intros x <-. destruct p; simpl; try (left; reflexivity); try (right; tauto). destruct (flat_lambda c); tauto. }
  assert (Q1 : forall x, p <> x -> ~ (p = Tcmb0 /\ x = Or0) -> ~ (p = wp /\ x = w0) -> ~ (p = Ode0 /\ x = Om0 /\ flat_lambda c = true) -> s' x = s x).
  { intros x A B C D. apply Fr. intros E. symmetry in E. destruct (S0 x E) as [K|[K|[K|K]]]; tauto. }
  unfold tied in T. pose proof (flat_lambda_iff c) as FL.
  destruct q; simpl; try (apply Q1; intros X; intuition congruence).
  - (* Ode0 *) unfold get_Ode0. destruct (flat_lambda c) eqn:F.
    + destruct Rd as [_ [Rd _]], Rd' as [_ [Rd' _]]. rewrite (Rd F), (Rd' F). destruct FL as [FL _]. specialize (FL eq_refl) as [FL1 FL2]. assert (TT : p <> Om0 /\ p <> Or0 /\ p <> Tcmb0 /\ p <> Ode0) by (repeat split; intros ->; apply T; simpl; tauto). clear T. assert (sum0_noDE c s' = sum0_noDE c s) as ->; [|reflexivity]. unfold sum0_noDE. rewrite (Q1 Om0), (Q1 Or0) by (intros X; intuition congruence). reflexivity.
    + rewrite (Q1 Ode0) by (intros X; intuition congruence). slots c s Rd Ode0. { rewrite F. reflexivity. } rewrite E. reflexivity.
  - (* Tcmb0 *) unfold critical_density0. assert (TT : p <> Or0 /\ p <> Neff /\ p <> H0 /\ p <> Tcmb0) by (repeat split; intros ->; apply T; simpl; tauto). clear T. rewrite (Q1 Or0), (Q1 Neff), (Q1 H0) by (intros X; intuition congruence). reflexivity.
Qed.
(** Constructor arguments and defaults read back, unless a later argument is another name for the same slot. *)
Definition replaced (c : cls) (kw : pname -> option R) (p : pname) : Prop :=
  (p = Or0 /\ kw Tcmb0 <> None) \/ (p = w0 /\ kw wp <> None) \/ (p = Ode0 /\ de_of c = CC /\ flat c = true) \/ p = Tcmb0.
Lemma after_slot c kw p p' : acceptable c kw -> has c p = true -> ~ replaced c kw p -> In p' (after p (parameters_of c)) -> slot c p' = slot c p -> kwval H100 c kw p' = None.
Proof.
  intros [A1 _] P N I E. pose proof (A1 Tcmb0) as AT. pose proof (A1 wp) as AW. clear A1. destruct c as [d r f]. unfold replaced in N. cbn in N, P.
  destruct p; try (exfalso; tauto); cbn in E; destruct d, r, f; cbn in I, P; try discriminate P; cbn in E;
    repeat (destruct I as [<-|I]; [cbn in E; try discriminate E|]); try contradiction; unfold kwval; cbn; try (destruct (kw Tcmb0); [exfalso; apply N; left; split; [reflexivity|discriminate]|reflexivity]); try (destruct (kw wp); [exfalso; apply N; right; left; split; [reflexivity|discriminate]|reflexivity]); exfalso; tauto.
Qed.
Theorem C44_constructor_readback c kw s p v : construct c kw = Some s -> has c p = true -> ~ replaced c kw p ->
  kw p = Some v \/ (kw p = None /\ documented_default H100 p = Some v) -> get c s p = Some v.
Proof.
  intros H P N V. assert (A : acceptable c kw) by (apply (construct_iff H100 cdens raddens); eexists; exact H).
  assert (K : kwval H100 c kw p = Some v). { unfold kwval. destruct V as [->|[-> D]]; [reflexivity|]. destruct p; cbn in D; try discriminate D; injection D as <-; reflexivity. }
  destruct (construct_split _ _ _ _ _ _ _ _ H P K) as (s0 & s1 & _ & S1 & S2). pose proof (later_kwargs _ _ _ _ _ _ _ _ (slot c p) S2 (fun p' => after_slot c kw p p' A P N)) as L. rewrite (set_slot _ _ _ _ _ _ _ S1) in L.
  destruct p; try (exfalso; apply N; unfold replaced; tauto); try exact L. simpl in L. cbn. unfold get_Ode0. destruct (flat_lambda c) eqn:F; [|rewrite L; reflexivity]. exfalso. apply flat_lambda_iff in F. apply N. unfold replaced. tauto.
Qed.

(** ** C45 *)
Theorem C45_zero_curvature c s : flat c = true -> get_Ok0 c s = Some 0.
Proof. intros F. unfold get_Ok0. rewrite F. reflexivity. Qed.
Theorem C45_flat_lambda c s : instance c s -> flat c = true -> de_of c = CC -> get_Ok0 c s = Some 0 /\ e2func c s 0 = Some 1
  /\ exists m r d, get c s Om0 = Some m /\ (if rad c then get c s Or0 = Some r else r = 0) /\ get c s Ode0 = Some d /\ m + r + d = 1.
Proof.
  intros I F D. split; [apply C45_zero_curvature, F|]. split; [apply C44_expansion; [exact I|right; exact D|congruence]|]. destruct (C44_closure c s I (or_intror D)) as (m & r & k & d & A & B & K & Dd & X). exists m, r, d. rewrite (C45_zero_curvature c s F) in K. injection K as <-. repeat split; try assumption. lra.
Qed.
(** The other flat classes: the expansion rate today is the sum of the densities the user gave, which is not constrained. *)
Theorem C45_expansion c s : instance c s -> flat c = true -> de_of c <> W0Wz -> exists m r d, get c s Om0 = Some m /\ (if rad c then get c s Or0 = Some r else r = 0) /\ get c s Ode0 = Some d /\ e2func c s 0 = Some (m + r + d).
Proof.
  intros I F D. destruct (scale_today c s I) as (f & Hf & F1 & _). destruct (e2_value c s f 1 I Hf) as (m & r & d & M & Rr & Dd & _ & _ & V). exists m, r, d. repeat split; try assumption. unfold e2func. rewrite Rplus_0_r, V, F, (F1 D). f_equal. ring.
Qed.
Theorem C45_refuted c : flat c = true -> de_of c <> CC -> exists kw s, construct c kw = Some s /\ get_Ok0 c s = Some 0 /\ e2func c s 0 = Some 0.8.
Proof.
  intros F D. pose (kw := fun p => match p with Om0 => Some 0.3 | Ode0 => Some 0.5 | _ => None end). exists kw.
  assert (A : acceptable c kw). { split; intros p; destruct p; cbn; try congruence; auto. }
  apply (construct_iff H100 cdens raddens) in A as (s & H). exists s. split; [exact H|]. split; [apply C45_zero_curvature, F|].
  assert (I : instance c s) by (econstructor; exact H). assert (FL : flat_lambda c = false) by (unfold flat_lambda; destruct (de_of c); [congruence|rewrite andb_false_r; reflexivity..]).
  destruct (scale_today c s I) as (f & Hf & F1 & F2). destruct (e2_value c s f 1 I Hf) as (m & r & d & M & Rr & Dd & _ & _ & V).
  assert (f = 1) as ->. { destruct (de_of c) eqn:De; try (apply F1; discriminate). destruct (F2 eq_refl) as (b & B & ->). assert (X : get c s wz = Some 0). { apply (C44_constructor_readback c kw s wz 0 H); [cbn; rewrite De; reflexivity|unfold replaced; cbn; intuition congruence|right; split; reflexivity]. } cbn in X. rewrite B in X. injection X as ->. rewrite Rmult_0_r. apply exp_0. }
  assert (Xm : get c s Om0 = Some 0.3) by (apply (C44_constructor_readback c kw s Om0 _ H); [reflexivity|unfold replaced; intuition congruence|left; reflexivity]). cbn in Xm. rewrite M in Xm. injection Xm as ->.
  assert (Xd : get c s Ode0 = Some 0.5) by (apply (C44_constructor_readback c kw s Ode0 _ H); [reflexivity|unfold replaced; intuition congruence|left; reflexivity]). cbn in Xd. rewrite Dd in Xd. injection Xd as ->.
  assert (r = 0) as ->. { destruct (rad c) eqn:Rc; [|exact Rr]. assert (Xr : get c s Or0 = Some 0) by (apply (C44_constructor_readback c kw s Or0 _ H); [exact Rc|unfold replaced; cbn; intuition congruence|right; split; reflexivity]). cbn in Xr. rewrite Rr in Xr. injection Xr as ->. reflexivity. }
  unfold e2func. rewrite Rplus_0_r, V, F. f_equal. lra.
Qed.
(** These classes cannot be built without Ode0, although their stubs (flat.pyi) omit it. *)
Theorem C45_Ode0_required_refuted c kw : flat c = true -> de_of c <> CC -> kw Ode0 = None -> construct c kw = None.
Proof.
  intros F D N. destruct (construct c kw) as [s|] eqn:E; [|reflexivity]. exfalso. assert (A : acceptable c kw) by (apply (construct_iff H100 cdens raddens); eexists; exact E). destruct A as [_ A]. specialize (A Ode0 eq_refl N). cbn in A. tauto.
Qed.
(** FlatLambdaCDM(R) silently ignores Ode0. *)
Lemma set_ext c s t p v : (forall q, s q = t q) -> match set c s p v, set c t p v with Some s', Some t' => forall q, s' q = t' q | None, None => True | _, _ => False end.
Proof.
  intros E. rewrite !set_written. assert (written cdens raddens c t p v = written cdens raddens c s p v) as ->. { destruct p; cbn; unfold critical_density0; rewrite ?E; reflexivity. }
  destruct (written cdens raddens c s p v); cbn; [|exact I]. intros q. unfold upd. destruct (pname_eq _ q); [reflexivity|apply E].
Qed.
Lemma set_params_ext c kw : forall s t, (forall q, s q = t q) -> match set_params c s kw, set_params c t kw with Some s', Some t' => forall q, s' q = t' q | None, None => True | _, _ => False end.
Proof.
  induction kw as [|[p v] kw IH]; intros s t E; cbn; [exact E|]. pose proof (set_ext c s t p v E) as X. destruct (set c s p v), (set c t p v); try contradiction; cbn; [apply IH, X|exact I].
Qed.
Theorem C45_Ode0_ignored_refuted c kw kw' s s' : flat c = true -> de_of c = CC -> (forall p, p <> Ode0 -> kw' p = kw p) -> construct c kw = Some s -> construct c kw' = Some s' -> forall p, s p = s' p.
Proof.
  intros F D K H1 H2. assert (A : acceptable c kw) by (apply (construct_iff H100 cdens raddens); eexists; exact H1). assert (KM : exists m, kwarg H100 c kw Om0 = [(Om0, m)]). { destruct A as [_ A]. specialize (A Om0 eq_refl). unfold kwarg. destruct (kw Om0) as [m|]; [exists m; reflexivity|destruct (A eq_refl)]. }
  destruct KM as (m & KM). unfold construct in H1, H2. destruct (forallb _ all_names); [|discriminate H1]. destruct (forallb _ all_names) in H2; [|discriminate H2].
  assert (Q : forall l, ~ In Ode0 l -> flat_map (kwarg H100 c kw') l = flat_map (kwarg H100 c kw) l). { induction l as [|q l IH]; intros N; [reflexivity|]. cbn. f_equal; [unfold kwarg; rewrite K; [reflexivity|intros ->; apply N; left; reflexivity]|apply IH; intros X; apply N; right; exact X]. }
  assert (Sp : exists l1 l2, parameters_of c = l1 ++ Ode0 :: Om0 :: l2 /\ ~ In Ode0 l1 /\ ~ In Ode0 l2). { destruct c as [d r f]. cbn in F, D. subst. destruct r; [exists [H0; Neff; Ob0], [Or0; Tcmb0]|exists [H0; Ob0], []]; (split; [reflexivity|]); split; cbn; intuition discriminate. }
  destruct Sp as (l1 & l2 & E & N1 & N2). rewrite E, !flat_map_app in H1, H2. cbn [flat_map] in H1, H2. rewrite (Q l1 N1), (Q l2 N2) in H2. assert (KO : kwarg H100 c kw' Om0 = kwarg H100 c kw Om0) by (unfold kwarg; rewrite K by discriminate; reflexivity). rewrite KO in H2. rewrite !set_params_app in H1, H2.
  destruct (set_params c (initial H100 c) (flat_map (kwarg H100 c kw) l1)) as [s0|]; [|discriminate H1]. cbn [bind] in H1, H2. rewrite !set_params_app in H1, H2.
  assert (G : forall k t, set_params c s0 (kwarg H100 c k Ode0) = Some t -> forall q, q <> Om0 -> t q = s0 q). { intros k t X q Nq. apply (set_params_frame _ _ _ _ _ _ _ X). intros p v I. pose proof (kwarg_In _ _ _ _ _ _ I) as ->. cbn. assert (flat_lambda c = true) as -> by (apply flat_lambda_iff; tauto). congruence. }
  destruct (set_params c s0 (kwarg H100 c kw Ode0)) as [s1|] eqn:E1; [|discriminate H1]. destruct (set_params c s0 (kwarg H100 c kw' Ode0)) as [s2|] eqn:E2; [|discriminate H2]. cbn [bind] in H1, H2. rewrite set_params_app in H1, H2.
  pose proof (G _ _ E1) as G1. pose proof (G _ _ E2) as G2. rewrite KM in H1, H2. cbn [Cosmo.set_params Cosmo.set bind] in H1, H2.
  assert (X : forall q, upd s1 Om0 m q = upd s2 Om0 m q). { intros q. unfold upd. destruct (pname_eq Om0 q) as [_|Nq]; [reflexivity|]. rewrite G1, G2 by congruence. reflexivity. }
  pose proof (set_params_ext c (flat_map (kwarg H100 c kw) l2) _ _ X) as Y. rewrite H1, H2 in Y. exact Y.
Qed.
(** ** C48 *)
Lemma nu_scale_pos : 0 < nu_scale.
Proof. unfold nu_scale. apply Rmult_lt_0_compat; [lra|]. unfold Rpower. apply exp_pos. Qed.
Lemma root4 v : 0 <= v -> sqrt (sqrt (v ^ 4)) = v.
Proof. intros V. replace (v ^ 4) with ((v ^ 2) ^ 2) by ring. rewrite (sqrt_pow2 (v ^ 2)) by apply pow2_ge_0. apply sqrt_pow2, V. Qed.
Lemma pow4_root v : 0 <= v -> sqrt (sqrt v) ^ 4 = v.
Proof. intros V. replace (sqrt (sqrt v) ^ 4) with ((sqrt (sqrt v) ^ 2) ^ 2) by ring. rewrite pow2_sqrt by apply sqrt_pos. apply pow2_sqrt, V. Qed.
Section Temperature.
Hypotheses (Hc : 0 < cdens) (Hr : 0 < raddens).
Lemma T_value c s r n h : s Or0 = Some r -> s Neff = Some n -> s H0 = Some h -> get c s Tcmb0 = Some (sqrt (sqrt (r / (1 + n * nu_scale) * (cdens * h ^ 2) / raddens))).
Proof. intros A B C. cbn. rewrite A, B. unfold critical_density0. rewrite C. reflexivity. Qed.
Lemma pos_factors n h : 0 <= n -> h <> 0 -> 0 < 1 + n * nu_scale /\ 0 < cdens * h ^ 2.
Proof. intros N Hh. split; [pose proof (Rmult_le_pos n nu_scale N (Rlt_le _ _ nu_scale_pos)); lra|]. apply Rmult_lt_0_compat; [exact Hc|]. destruct (Rdichotomy _ _ Hh); nra. Qed.
(** Setting the temperature: it reads back, and the radiation density is that of photons and Neff neutrino species at this temperature. *)
Theorem C48_temperature c s v h n s' : rad c = true -> get c s H0 = Some h -> h <> 0 -> get c s Neff = Some n -> 0 <= n -> 0 <= v -> set c s Tcmb0 v = Some s' ->
  get c s' Tcmb0 = Some v /\ get c s' Neff = Some n /\ get c s' H0 = Some h /\ get c s' Or0 = Some (raddens * v ^ 4 / (cdens * h ^ 2) * (1 + n * (7 / 8 * Rpower (4 / 11) (4 / 3)))).
Proof.
  intros Rc Gh Hh Gn Hn Hv H. cbn in Gh, Gn. destruct (pos_factors n h Hn Hh) as [P1 P2]. pose proof (set_slot _ _ _ _ _ _ _ H) as W. cbn in W. rewrite Gn in W. unfold critical_density0 in W. rewrite Gh in W. cbn [bind] in W.
  assert (Fn : s' Neff = Some n) by (rewrite (set_frame _ _ _ _ _ _ _ Neff H) by discriminate; exact Gn). assert (Fh : s' H0 = Some h) by (rewrite (set_frame _ _ _ _ _ _ _ H0 H) by discriminate; exact Gh).
  split; [|split; [exact Fn|split; [exact Fh|]]].
  - rewrite (T_value c s' _ n h W Fn Fh). f_equal. transitivity (sqrt (sqrt (v ^ 4))); [|apply root4, Hv]. do 2 f_equal. field. ne.
  - cbn. change (v * (v * (v * (v * 1)))) with (v ^ 4) in W. rewrite W. f_equal. unfold nu_scale. field. ne.
Qed.
(** Setting the density: the temperature read afterwards gives the same density when it is assigned. *)
Theorem C48_density c s r h n s' s'' t : rad c = true -> get c s H0 = Some h -> h <> 0 -> get c s Neff = Some n -> 0 <= n -> 0 <= r ->
  set c s Or0 r = Some s' -> get c s' Tcmb0 = Some t -> set c s' Tcmb0 t = Some s'' -> 0 <= t /\ get c s'' Or0 = Some r /\ get c s'' Tcmb0 = Some t.
Proof.
  intros Rc Gh Hh Gn Hn Hr0 H T H2. cbn in Gh, Gn. destruct (pos_factors n h Hn Hh) as [P1 P2]. pose proof (set_slot _ _ _ _ _ _ _ H) as W. cbn [slot written] in W.
  assert (Fn : s' Neff = Some n) by (rewrite (set_frame _ _ _ _ _ _ _ Neff H) by discriminate; exact Gn). assert (Fh : s' H0 = Some h) by (rewrite (set_frame _ _ _ _ _ _ _ H0 H) by discriminate; exact Gh).
  rewrite (T_value c s' r n h W Fn Fh) in T. injection T as T. assert (Tp : 0 <= t) by (rewrite <- T; apply sqrt_pos). split; [exact Tp|].
  destruct (C48_temperature c s' t h n s'' Rc Fh Hh Fn Hn Tp H2) as (A & _ & _ & B). split; [|exact A]. rewrite B. f_equal. rewrite <- T. rewrite pow4_root.
  - fold nu_scale. field. ne.
  - apply Rmult_le_pos; [|left; apply Rinv_0_lt_compat, Hr]. apply Rmult_le_pos; [|left; exact P2]. apply Rmult_le_pos; [exact Hr0|left; apply Rinv_0_lt_compat, P1].
Qed.
Lemma construct_T c kw s v : construct c kw = Some s -> rad c = true -> kw Tcmb0 = Some v -> s Or0 = written cdens raddens c s Tcmb0 v.
Proof.
  intros H Rc K. assert (KV : kwval H100 c kw Tcmb0 = Some v) by (unfold kwval; rewrite K; reflexivity). destruct (construct_split H100 cdens raddens c kw s Tcmb0 v H Rc KV) as (s0 & s1 & _ & S1 & S2).
  assert (L : forall q, In q [Or0; Neff; H0] -> s q = s1 q). { intros q I. apply (later_kwargs _ _ _ _ _ _ _ _ q S2). intros p P E. exfalso. destruct c as [d r f]. cbn in Rc. subst r. destruct d, f; cbn in P; repeat (destruct P as [<-|P]; [cbn in E; subst q; cbn in I; intuition discriminate|]); contradiction. }
  rewrite (L Or0) by (cbn; tauto). rewrite (set_slot _ _ _ _ _ _ _ S1 : s1 Or0 = _). cbn [written]. unfold critical_density0. rewrite (L Neff), (L H0) by (cbn; tauto).
  rewrite (set_frame _ _ _ _ _ _ _ Neff S1), (set_frame _ _ _ _ _ _ _ H0 S1) by discriminate. reflexivity.
Qed.
(** The constructor: temperature, neutrino number and Hubble constant all read back. *)
Theorem C48_constructor c kw s v n h : construct c kw = Some s -> rad c = true -> kw Tcmb0 = Some v -> 0 <= v ->
  kw Neff = Some n \/ (kw Neff = None /\ n = 0) -> 0 <= n -> kw H0 = Some h \/ (kw H0 = None /\ h = H100) -> h <> 0 ->
  get c s Tcmb0 = Some v /\ get c s Neff = Some n /\ get c s H0 = Some h.
Proof.
  intros H Rc K Hv Kn Hn Kh Hh. destruct (pos_factors n h Hn Hh) as [P1 P2].
  assert (Gn : get c s Neff = Some n) by (apply (C44_constructor_readback c kw s Neff n H Rc); [unfold replaced; intuition discriminate|destruct Kn as [X|[X ->]]; [left; exact X|right; split; [exact X|reflexivity]]]).
  assert (Gh : get c s H0 = Some h) by (apply (C44_constructor_readback c kw s H0 h H eq_refl); [unfold replaced; intuition discriminate|destruct Kh as [X|[X ->]]; [left; exact X|right; split; [exact X|reflexivity]]]).
  split; [|split; assumption]. cbn in Gn, Gh. pose proof (construct_T c kw s v H Rc K) as W. cbn [written] in W. unfold critical_density0 in W. rewrite Gn, Gh in W. cbn [bind] in W. rewrite (T_value c s _ n h W Gn Gh). f_equal. transitivity (sqrt (sqrt (v ^ 4))); [|apply root4, Hv]. do 2 f_equal. field. ne.
Qed.
(** The order of assignments matters: Neff after the temperature changes the temperature. *)
Theorem C48_order_refuted c s v h n n' s1 s2 : rad c = true -> get c s H0 = Some h -> h <> 0 -> get c s Neff = Some n -> 0 <= n -> 0 <= n' -> 0 < v ->
  set c s Tcmb0 v = Some s1 -> set c s1 Neff n' = Some s2 -> (get c s2 Tcmb0 = Some v <-> n' = n).
Proof.
  intros Rc Gh Hh Gn Hn Hn' Hv H1 H2. cbn in Gh, Gn. destruct (pos_factors n h Hn Hh) as [P1 P2]. destruct (pos_factors n' h Hn' Hh) as [P1' _]. destruct (C48_temperature c s v h n s1 Rc Gh Hh Gn Hn (Rlt_le _ _ Hv) H1) as (_ & _ & Fh & Fr). cbn in Fh. cbn [Cosmo.get] in Fr.
  pose proof (set_slot _ _ _ _ _ _ _ H2) as W. cbn [slot written] in W. assert (Fh2 : s2 H0 = Some h) by (rewrite (set_frame _ _ _ _ _ _ _ H0 H2) by discriminate; exact Fh). assert (Fr2 : s2 Or0 = s1 Or0) by (apply (set_frame _ _ _ _ _ _ _ Or0 H2); discriminate). rewrite Fr in Fr2.
  rewrite (T_value c s2 _ n' h Fr2 W Fh2). fold nu_scale. set (x := raddens * v ^ 4 / (cdens * h ^ 2) * (1 + n * nu_scale) / (1 + n' * nu_scale) * (cdens * h ^ 2) / raddens).
  assert (X : x = v ^ 4 * ((1 + n * nu_scale) / (1 + n' * nu_scale))). { unfold x. field. ne. }
  assert (V4 : 0 < v ^ 4) by (apply pow_lt; exact Hv). assert (Xp : 0 <= x). { rewrite X. apply Rmult_le_pos; [lra|]. apply Rmult_le_pos; [lra|]. left. apply Rinv_0_lt_compat. exact P1'. }
  split.
  - intros [= E]. pose proof (pow4_root x Xp) as Y. rewrite E, X in Y. assert (Z : (1 + n * nu_scale) / (1 + n' * nu_scale) = 1). { apply (Rmult_eq_reg_l (v ^ 4)); [lra|lra]. }
    assert (Z' : 1 + n * nu_scale = 1 + n' * nu_scale). { apply (Rmult_eq_reg_r (/ (1 + n' * nu_scale))); [|apply Rinv_neq_0_compat; lra]. rewrite Rinv_r by lra. exact Z. }
    apply (Rmult_eq_reg_r nu_scale); [lra|]. pose proof nu_scale_pos. lra.
  - intros ->. f_equal. rewrite X. unfold Rdiv. rewrite Rinv_r by lra. rewrite Rmult_1_r. apply root4. lra.
Qed.
(** CosmologyModule.set_params assigns in the order of the keyword arguments (module.py:20-25): the two orders disagree. *)
Theorem C48_module_refuted c v n s1 s2 : rad c = true -> H100 <> 0 -> 0 < v -> 0 < n ->
  set_params c (initial H100 c) [(Neff, n); (Tcmb0, v)] = Some s1 -> set_params c (initial H100 c) [(Tcmb0, v); (Neff, n)] = Some s2 ->
  get c s1 Tcmb0 = Some v /\ get c s2 Tcmb0 <> Some v.
Proof.
  intros Rc Hh Hv Hn E1 E2. assert (I0 : initial H100 c Neff = Some 0 /\ initial H100 c H0 = Some H100) by (destruct c as [d r f]; cbn in Rc; subst r; destruct d, f; split; reflexivity). destruct I0 as [I1 I2]. split.
  - cbn [Cosmo.set_params] in E1. destruct (set c (initial H100 c) Neff n) as [t|] eqn:A; [|discriminate E1]. cbn [bind] in E1. destruct (set c t Tcmb0 v) as [t'|] eqn:B; [|discriminate E1]. injection E1 as <-.
    pose proof (set_slot _ _ _ _ _ _ _ A) as W. apply (C48_temperature c t v H100 n t' Rc); try assumption; try lra. cbn. rewrite (set_frame _ _ _ _ _ _ _ H0 A) by discriminate. exact I2.
  - cbn [Cosmo.set_params] in E2. destruct (set c (initial H100 c) Tcmb0 v) as [t|] eqn:A; [|discriminate E2]. cbn [bind] in E2. destruct (set c t Neff n) as [t'|] eqn:B; [|discriminate E2]. injection E2 as <-. intros X. apply (C48_order_refuted c (initial H100 c) v H100 0 n t t' Rc) in X; try assumption; lra.
Qed.
Theorem C48_redshift c s z t : get c s Tcmb0 = Some t -> Tcmb cdens raddens c s z = Some (t * (1 + z)).
Proof. intros H. unfold Tcmb. rewrite H. reflexivity. Qed.

(** ** C47 *)
(** The listing has every parameter of the class once, with the value it reads. *)
Theorem C47_listing c s : NoDup (map fst (parameters cdens raddens c s)) /\ (forall p x, In (p, x) (parameters cdens raddens c s) <-> has c p = true /\ x = get c s p).
Proof.
  unfold parameters. rewrite map_map. cbn [fst]. rewrite map_id. assert (F : filter (fun p => negb (isinstance_pair_property p)) (parameters_of c) = parameters_of c). { induction (parameters_of c) as [|a l IH]; [reflexivity|]. simpl in *. f_equal. exact IH. }
  rewrite F. split.
  - unfold parameters_of. apply NoDup_filter. unfold all_names. repeat (constructor; [cbn; intuition discriminate|]). constructor.
  - intros p x. rewrite in_map_iff. split; [intros (q & [= -> <-] & I); split; [apply parameters_of_In, I|reflexivity]|intros [H ->]; exists p; split; [reflexivity|apply parameters_of_In, H]].
Qed.
(** Every listed value is present in an instance (getattr's default None is never used). *)
Theorem C47_values c s p x : instance c s -> In (p, x) (parameters cdens raddens c s) -> x <> None.
Proof.
  intros I H. apply C47_listing in H as [P ->]. pose proof (instance_ready _ _ _ _ _ I) as Rd. destruct p; try (cbn; destruct Rd as [Rd _]; apply Rd; unfold stored; cbn in *; rewrite ?P; reflexivity).
  - destruct (densities c s I) as (m & r & d & _ & _ & _ & D & _). cbn. rewrite D. discriminate.
  - cbn. destruct Rd as [Rd _]. pose proof (Rd Or0) as A. pose proof (Rd Neff) as B. pose proof (Rd H0) as C. unfold stored in A, B, C. cbn in A, B, C, P. rewrite P in A, B. specialize (A eq_refl). specialize (B eq_refl). specialize (C eq_refl). unfold critical_density0. destruct (s Or0), (s Neff), (s H0); try congruence. discriminate.
  - cbn. destruct Rd as [Rd _]. apply Rd. unfold stored. cbn in *. destruct (de_of c); try discriminate P; reflexivity.
Qed.
(** But derived parameters are listed too: the test in [parameters] is never true. *)
Theorem C47_derived_refuted c s : (rad c = true -> In (Tcmb0, get c s Tcmb0) (parameters cdens raddens c s)) /\ (de_of c = WpWa -> In (wp, get c s wp) (parameters cdens raddens c s)) /\ (flat c = true -> de_of c = CC -> In (Ode0, get c s Ode0) (parameters cdens raddens c s)).
Proof. repeat split; intros; apply C47_listing; split; try reflexivity; cbn; try assumption. rewrite H. reflexivity. Qed.
(** Building a new instance from the listing gives the same cosmology. *)
Theorem C47_rebuild c s h n r : instance c s -> get c s H0 = Some h -> h <> 0 -> (rad c = true -> get c s Neff = Some n /\ 0 <= n /\ get c s Or0 = Some r /\ 0 <= r) ->
  exists s', construct c (fun p => if has c p then get c s p else None) = Some s' /\ forall p, has c p = true -> get c s' p = get c s p.
Proof.
  intros I Gh Hh Hrad. set (kw := fun p => if has c p then get c s p else None).
  assert (V : forall p, has c p = true -> exists x, kw p = Some x /\ get c s p = Some x). { intros p P. unfold kw. rewrite P. destruct (get c s p) as [x|] eqn:E; [exists x; split; reflexivity|]. exfalso. apply (C47_values c s p None I); [|reflexivity]. apply C47_listing. split; [exact P|symmetry; exact E]. }
  assert (A : acceptable c kw). { split; intros p; [unfold kw; destruct (has c p); congruence|]. intros P N. destruct (V p P) as (x & X & _). congruence. }
  apply (construct_iff H100 cdens raddens) in A as (s' & H). exists s'. split; [exact H|].
  assert (B : forall p, has c p = true -> ~ replaced c kw p -> get c s' p = get c s p). { intros p P N. destruct (V p P) as (x & X & ->). apply (C44_constructor_readback c kw s' p x H P N). left; exact X. }
  assert (KW : has c wp = false -> kw wp = None) by (intros X; unfold kw; rewrite X; reflexivity).
  assert (BOr : rad c = true -> s' Or0 = s Or0 /\ s' Neff = s Neff /\ s' H0 = s H0).
  { intros Rc. destruct (Hrad Rc) as (Gn & Hn & Gr & Hr0). assert (N' : s' Neff = s Neff) by (apply (B Neff Rc); unfold replaced; intuition discriminate). assert (H' : s' H0 = s H0) by (apply (B H0 eq_refl); unfold replaced; intuition discriminate). split; [|split; assumption].
    destruct (V Tcmb0 Rc) as (t & Kt & Gt). rewrite (construct_T c kw s' t H Rc Kt). cbn [written]. unfold critical_density0. rewrite N', H'. cbn in Gn, Gh, Gr. rewrite (T_value c s r n h Gr Gn Gh) in Gt. injection Gt as <-. rewrite Gn, Gh, Gr. cbn [bind]. f_equal. destruct (pos_factors n h Hn Hh) as [P1 P2].
    rewrite pow4_root; [field; ne|]. apply Rmult_le_pos; [|left; apply Rinv_0_lt_compat, Hr]. apply Rmult_le_pos; [|left; exact P2]. apply Rmult_le_pos; [exact Hr0|left; apply Rinv_0_lt_compat, P1]. }
  assert (BOm : s' Om0 = s Om0) by (apply (B Om0 eq_refl); unfold replaced; intuition discriminate).
  intros p P. destruct p; try (apply B; [exact P|unfold replaced; intuition discriminate]).
  - destruct (flat_lambda c) eqn:F; [|apply B; [exact P|unfold replaced; intros X; assert (de_of c = CC /\ flat c = true) as Y by (intuition discriminate); apply flat_lambda_iff in Y; congruence]].
    assert (I' : instance c s') by (econstructor; exact H). cbn. unfold get_Ode0. destruct (instance_ready _ _ _ _ _ I) as [_ [R1 _]], (instance_ready _ _ _ _ _ I') as [_ [R2 _]]. rewrite (R1 F), (R2 F). assert (sum0_noDE c s' = sum0_noDE c s) as ->; [|reflexivity]. unfold sum0_noDE. rewrite BOm. destruct (rad c) eqn:Rc; [|reflexivity]. destruct (BOr eq_refl) as (-> & _). reflexivity.
  - apply (BOr P).
  - cbn. unfold critical_density0. destruct (BOr P) as (-> & -> & ->). reflexivity.
  - destruct (has c wp) eqn:Hwp; [|apply B; [exact P|unfold replaced; rewrite (KW eq_refl); intuition congruence]]. apply (B wp Hwp). unfold replaced. intuition discriminate.
Qed.
End Temperature.
End Constants.
