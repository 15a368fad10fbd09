(** Claim C49. *)
From Coq Require Import List Bool Arith Lia Reals Lra.
From Verif Require Import Cosmo CosmoSpec CosmoFacts Prop_Cosmo.
Import ListNotations.
Open Scope R_scope.

Section Constants.
Variables (H100 cdens raddens : R).
Notation set := (set cdens raddens).
Notation get := (get cdens raddens).
Notation construct := (construct H100 cdens raddens).
Notation instance := (instance H100 cdens raddens).

Lemma scale_defined c s zp1 : instance c s -> exists f, de_scale c s zp1 = Some f.
Proof.
  intros I. pose proof (instance_ready _ _ _ _ _ I) as Rd. destruct c as [d r fl]. unfold de_scale. destruct d; cbn.
  - eexists; reflexivity.
  - slots (Cls W r fl) s Rd w0. rewrite E. eexists; reflexivity.
  - slots (Cls W0Wa r fl) s Rd w0. slots (Cls W0Wa r fl) s Rd wa. rewrite E, E0. eexists; reflexivity.
  - slots (Cls WpWa r fl) s Rd w0. slots (Cls WpWa r fl) s Rd wa. slots (Cls WpWa r fl) s Rd zp. rewrite E, E0, E1. eexists; reflexivity.
  - slots (Cls W0Wz r fl) s Rd w0. slots (Cls W0Wz r fl) s Rd wz. rewrite E, E0. eexists; reflexivity.
Qed.
(** E(z)^2 is the sum of the densities scaled to redshift z, for every instance of every class. *)
Theorem C49_expansion c s z : instance c s -> exists m k d f r, get c s Om0 = Some m /\ get_Ok0 c s = Some k /\ get c s Ode0 = Some d /\ de_scale c s (1 + z) = Some f /\ (if rad c then get c s Or0 = Some r else r = 0)
  /\ e2func c s z = Some (m * (1 + z) ^ 3 + k * (1 + z) ^ 2 + d * f + r * (1 + z) ^ 4).
Proof.
  intros I. destruct (scale_defined c s (1 + z) I) as (f & F). destruct (e2_value H100 cdens raddens c s f (1 + z) I F) as (m & r & d & M & Rr & D & K & _ & V). eexists m, _, d, f, r. repeat split; try eassumption.
Qed.
(** The fractions at any redshift sum to one. *)
Theorem C49_sum c s z e : instance c s -> e2func c s z = Some e -> e <> 0 -> exists om ok ode or,
  Om c s z = Some om /\ Ok c s z = Some ok /\ Ode c s z = Some ode /\ (if rad c then Or c s z = Some or else or = 0) /\ om + ok + ode + or = 1.
Proof.
  intros I He N. destruct (C49_expansion c s z I) as (m & k & d & f & r & M & K & D & F & Rr & V). rewrite He in V. injection V as V. cbn in M, D. unfold Om, Ok, Ode, Or, fraction. rewrite M, K, D, He, F. cbn [bind].
  unfold e2func in He. assert (Od : (match de_of c with CC => bind (e2func c s z) (fun e => Some (d / e)) | _ => bind (Some f) (fun f => bind (e2_zp1 c s (1 + z)) (fun e => Some (d * f / e))) end) = Some (d * f / e)).
  { unfold e2func. rewrite He. cbn [bind]. destruct (de_of c) eqn:De; try reflexivity. unfold de_scale in F. rewrite De in F. injection F as <-. f_equal. rewrite Rmult_1_r. reflexivity. }
  unfold e2func in Od. rewrite He in Od. rewrite He. cbn [bind] in *. rewrite Od. exists (m * (z + 1) ^ 3 / e), (k * (z + 1) ^ 2 / e), (d * f / e), (r * (z + 1) ^ 4 / e). repeat split.
  - destruct (rad c); [cbn in Rr; rewrite Rr; reflexivity|subst r; unfold Rdiv; ring].
  - transitivity (e / e); [rewrite V at 5; rewrite (Rplus_comm z 1); unfold Rdiv; ring|field; exact N].
Qed.
(** They reduce to the present ones. *)
Theorem C49_today c s : instance c s -> flat c = false \/ de_of c = CC -> de_of c <> W0Wz ->
  Om c s 0 = get c s Om0 /\ Ob c s 0 = get c s Ob0 /\ Ok c s 0 = get_Ok0 c s /\ Ode c s 0 = get c s Ode0 /\ (rad c = true -> Or c s 0 = get c s Or0).
Proof.
  intros I H N. pose proof (C44_expansion H100 cdens raddens c s I H N) as E. destruct (C49_expansion c s 0 I) as (m & k & d & f & r & M & K & D & F & Rr & V). destruct (scale_today H100 cdens raddens c s I) as (f' & F' & F1 & _). rewrite Rplus_0_r in F. rewrite F in F'. injection F' as <-. specialize (F1 N). subst f.
  pose proof (instance_ready _ _ _ _ _ I) as Rd. slots c s Rd Ob0. cbn in M, D. unfold Om, Ob, Ok, Ode, Or, fraction. rewrite M, K, D, E0, E. cbn [bind Cosmo.get]. rewrite E0, M, D, (Rplus_0_l 1), Rplus_0_r, F. repeat split.
  - f_equal. field.
  - f_equal. field.
  - f_equal. field.
  - destruct (de_of c); cbn [bind]; unfold e2func in E; rewrite Rplus_0_r in E; rewrite ?E; cbn [bind]; f_equal; field.
  - intros Rc. rewrite Rc in Rr. cbn in Rr. rewrite Rr. cbn [bind]. f_equal. field.
Qed.
(** Baryons and dark matter make up matter. *)
Theorem C49_matter c s z a b : instance c s -> Ob c s z = Some a -> Odm c s z = Some b -> Om c s z = Some (a + b).
Proof.
  intros I A B. pose proof (instance_ready _ _ _ _ _ I) as Rd. slots c s Rd Ob0. slots c s Rd Om0. unfold Om, Ob, Odm, fraction in *. rewrite E in A, B. rewrite E0 in B |- *. cbn [bind] in *. destruct (e2func c s z) as [e|]; [|discriminate A]. cbn [bind] in *. injection A as <-. injection B as <-. f_equal. unfold Rdiv. ring.
Qed.
(** A fraction is the density over the critical density at that redshift: matter, radiation, curvature and dark energy dilute with their laws. *)
Theorem C49_density c s z e : instance c s -> e2func c s z = Some e -> e <> 0 -> exists rho0 rho m om, critical_density0 cdens s = Some rho0 /\ critical_density cdens c s z = Some rho /\ get c s Om0 = Some m /\ Om c s z = Some om
  /\ rho = rho0 * e /\ om * rho = rho0 * m * (1 + z) ^ 3 /\ (rad c = true -> exists r or, get c s Or0 = Some r /\ Or c s z = Some or /\ or * rho = rho0 * r * (1 + z) ^ 4)
  /\ exists d f od, get c s Ode0 = Some d /\ de_scale c s (1 + z) = Some f /\ Ode c s z = Some od /\ od * rho = rho0 * d * f.
Proof.
  intros I He N. pose proof (instance_ready _ _ _ _ _ I) as Rd. slots c s Rd H0. destruct (C49_expansion c s z I) as (m & k & d & f & r & M & K & D & F & Rr & V). assert (HV := He). rewrite HV in V. injection V as V.
  exists (cdens * v ^ 2), (cdens * v ^ 2 * e), m, (m * (z + 1) ^ 3 / e). unfold critical_density, critical_density0, Om, Or, Ode, fraction. rewrite E, He, F. cbn in M, D. rewrite M, D. cbn [bind]. repeat split.
  - exact M.
  - field. exact N.
  - intros Rc. rewrite Rc in Rr. cbn in Rr. exists r, (r * (z + 1) ^ 4 / e). cbn [Cosmo.get]. rewrite Rr. repeat split. field. exact N.
  - exists d, f, (d * f / e). cbn [Cosmo.get]. rewrite D. repeat split; [|field; exact N]. unfold e2func in He. rewrite He. cbn [bind]. destruct (de_of c) eqn:De; try reflexivity. unfold de_scale in F. rewrite De in F. injection F as <-. f_equal. unfold Rdiv; ring.
Qed.
End Constants.

(** ** components.py *)
Lemma fold_sum l a : fold_left Rplus l a = a + fold_left Rplus l 0.
Proof. revert a; induction l as [|x l IH]; intros a; cbn; [ring|]. rewrite IH, (IH (0 + x)). ring. Qed.
(** What [Omega] gives for one component, and the correct law: multiplied by the present densities the values sum to one. *)
Theorem C49_components_sum cs z : components_e2 cs z <> 0 -> exists om, (forall k, In k cs -> Omega cs z [k] = Some (inr [om k])) /\ fold_left Rplus (map (fun k => O0 k * om k) cs) 0 = 1.
Proof.
  intros N. exists (fun k => redshift k z * (1 / components_e2 cs z)). split; [reflexivity|].
  assert (G : forall l q, fold_left Rplus (map (fun k => O0 k * (redshift k z * q)) l) 0 = fold_left Rplus (map (fun k => O0 k * redshift k z) l) 0 * q).
  { induction l as [|k l IH]; intros q; cbn; [ring|]. rewrite fold_sum, IH, (fold_sum _ (0 + _)). ring. }
  rewrite G. fold (components_e2 cs z). field. exact N.
Qed.
(** [Omega] is not the fraction: it lacks the present density, and it returns an iterator for one component and only the first value for several. *)
Theorem C49_components_refuted : exists cs z k k', In k cs /\ In k' cs /\ components_e2 cs z = 1 /\ O0 k * redshift k z / components_e2 cs z = 0.3
  /\ Omega cs z [k] = Some (inr [1]) /\ Omega cs z [k; k'] = Some (inl 1).
Proof.
  exists [matter_component 0.3; lambda_component 0.7], 0, (matter_component 0.3), (lambda_component 0.7). assert (M1 : redshift (matter_component 0.3) 0 = 1) by (cbn; rewrite Rplus_0_l; apply Rpower_1_l).
  assert (E : components_e2 [matter_component 0.3; lambda_component 0.7] 0 = 1). { unfold components_e2. cbn [map fold_left]. rewrite M1. cbn. lra. }
  unfold Omega. rewrite E. repeat split.
  - left; reflexivity.
  - right; left; reflexivity.
  - rewrite M1. cbn. lra.
  - cbn [map length Nat.ltb Nat.leb]. rewrite M1. do 3 f_equal. field.
  - cbn [map length Nat.ltb Nat.leb]. rewrite M1. do 2 f_equal. field.
Qed.
(** The componentwise expansion rate agrees with that of the classes: LambdaCDM, wCDM and w0waCDM, with or without radiation. *)
Definition de_component (c : cls) (s : state) (d : R) : option component :=
  match de_of c with
  | CC => Some (lambda_component d)
  | W => match s w0 with Some w => Some (w0_component d w) | None => None end
  | W0Wa => match s w0, s wa with Some w, Some a => Some (w0wa_component d w a) | _, _ => None end
  | _ => None
  end.
Theorem C49_components_e2 H100 cdens raddens c s z : instance H100 cdens raddens c s -> In (de_of c) [CC; W; W0Wa] -> -1 < z ->
  exists m k d r dc, get cdens raddens c s Om0 = Some m /\ get_Ok0 c s = Some k /\ get cdens raddens c s Ode0 = Some d /\ (if rad c then get cdens raddens c s Or0 = Some r else r = 0) /\ de_component c s d = Some dc
  /\ e2func c s z = Some (components_e2 [matter_component m; powerlaw k 2; dc; radiation_component r] z).
Proof.
  intros I D Z. destruct (C49_expansion H100 cdens raddens c s z I) as (m & k & d & f & r & M & K & Dd & F & Rr & V).
  assert (P : forall n x, (0 < x) -> Rpower x (INR n) = x ^ n) by (intros; apply Rpower_pow; assumption). pose proof (P 2%nat (z + 1) ltac:(lra)) as P2. pose proof (P 3%nat (z + 1) ltac:(lra)) as P3. pose proof (P 4%nat (z + 1) ltac:(lra)) as P4. replace (INR 2) with 2 in P2 by (cbn; ring). replace (INR 3) with 3 in P3 by (cbn; ring). replace (INR 4) with 4 in P4 by (cbn; ring).
  assert (G : forall dc, O0 dc = d -> redshift dc z = f -> e2func c s z = Some (components_e2 [matter_component m; powerlaw k 2; dc; radiation_component r] z)).
  { intros dc A B. rewrite V. unfold components_e2, matter_component, radiation_component, powerlaw. cbn [map fold_left O0 redshift]. rewrite A, B, P2, P3, P4. f_equal. ring. }
  unfold de_component. pose proof (instance_ready _ _ _ _ _ I) as Rd. unfold de_scale in F. destruct (de_of c) eqn:De; cbn in D; try (exfalso; intuition discriminate).
  - exists m, k, d, r. eexists. repeat split; try eassumption. apply G; [reflexivity|]. injection F as <-. reflexivity.
  - slots c s Rd w0. { rewrite De. reflexivity. } rewrite E in F |- *. cbn in F. injection F as <-. exists m, k, d, r. eexists. repeat split; try eassumption. apply G; [reflexivity|]. cbn. rewrite (Rplus_comm z 1). reflexivity.
  - slots c s Rd w0. { rewrite De. reflexivity. } slots c s Rd wa. { rewrite De. reflexivity. } rewrite E, E0 in F |- *. cbn [bind] in F. injection F as <-. exists m, k, d, r. eexists. repeat split; try eassumption. apply G; [reflexivity|]. cbn [redshift w0wa_component]. rewrite (Rplus_comm z 1). f_equal; [f_equal; ring|]. f_equal. field. lra.
Qed.
