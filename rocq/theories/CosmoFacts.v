(** Facts about Cosmo.v. *)
From Coq Require Import List Bool Arith Lia Reals Lra.
Import ListNotations.
From Verif Require Import Cosmo CosmoSpec.
Open Scope R_scope.

Section Constants.
Variables (H100 cdens raddens : R).
Notation set := (set cdens raddens).
Notation get := (get cdens raddens).
Notation set_params := (set_params cdens raddens).
Notation default_of := (default_of H100).
Notation initial := (initial H100).
Notation construct := (construct H100 cdens raddens).
Notation kwarg := (kwarg H100).
Notation instance := (instance H100 cdens raddens).

(** The slot of the instance dictionary that an assignment writes. *)
Definition slot (c : cls) (p : pname) : pname :=
  match p with Tcmb0 => Or0 | wp => w0 | Ode0 => if flat_lambda c then Om0 else Ode0 | _ => p end.
(** Slots filled by the constructor. *)
Definition stored (c : cls) (p : pname) : bool := has c p && negb (is_property c p).
Definition written (c : cls) (s : state) (p : pname) (v : R) : option R :=
  match p with
  | Ode0 => if flat_lambda c then if rad c then bind (s Or0) (fun r => Some (1 - r - v)) else Some (1 - v) else Some v
  | Tcmb0 => bind (s Neff) (fun n => bind (critical_density0 cdens s) (fun cd => Some ((1 + n * nu_scale) * (v ^ 4 * raddens / cd))))
  | _ => Some v
  end.
Lemma set_written c s p v : set c s p v = bind (written c s p v) (fun x => Some (upd s (slot c p) x)).
Proof.
  destruct p; try reflexivity; simpl.
  - destruct (flat_lambda c); simpl; [|reflexivity]. destruct (rad c); simpl; [|reflexivity]. destruct (s Or0); reflexivity.
  - destruct (s Neff); simpl; [|reflexivity]. destruct (critical_density0 cdens s); reflexivity.
Qed.
Lemma set_frame c s p v s' q : set c s p v = Some s' -> q <> slot c p -> s' q = s q.
Proof.
  rewrite set_written. destruct (written c s p v); [|discriminate]. intros [= <-] N. unfold upd. destruct (pname_eq _ q); [congruence|reflexivity].
Qed.
Lemma set_slot c s p v s' : set c s p v = Some s' -> s' (slot c p) = written c s p v.
Proof.
  rewrite set_written. destruct (written c s p v) as [x|]; [|discriminate]. intros [= <-]. unfold upd. destruct (pname_eq _ _); [reflexivity|congruence].
Qed.
Lemma set_grows c s p v s' q : set c s p v = Some s' -> s q <> None -> s' q <> None.
Proof.
  intros H N. destruct (pname_eq q (slot c p)) as [->|D].
  - rewrite (set_slot _ _ _ _ _ H). rewrite set_written in H. destruct (written c s p v); [discriminate|discriminate H].
  - rewrite (set_frame _ _ _ _ _ q H D). exact N.
Qed.
Lemma set_total c s p v : has c p = true -> (forall q, stored c q = true -> (exists x, default_of c q = Value x) -> s q <> None) -> exists s', set c s p v = Some s'.
Proof.
  intros H D. rewrite set_written.
  assert (A : forall q, has c q = true -> (q = H0 \/ q = Neff \/ q = Or0) -> s q <> None).
  { intros q Hq [-> | [-> | ->]]; apply D; try (unfold stored; rewrite Hq; reflexivity); eexists; reflexivity. }
  destruct p; simpl; try (eexists; reflexivity).
  - destruct (flat_lambda c); [|eexists; reflexivity]. destruct (rad c) eqn:Rd; [|eexists; reflexivity]. specialize (A Or0 Rd (or_intror (or_intror eq_refl))). destruct (s Or0); [eexists; reflexivity|congruence].
  - pose proof (A Neff H (or_intror (or_introl eq_refl))) as N1. pose proof (A H0 eq_refl (or_introl eq_refl)) as N2. unfold critical_density0. destruct (s Neff); [|congruence]. destruct (s H0); [|congruence]. eexists; reflexivity.
Qed.
Definition filled (c : cls) (s : state) : Prop := forall q, stored c q = true -> (exists x, default_of c q = Value x) -> s q <> None.
Lemma set_filled c s p v s' : set c s p v = Some s' -> filled c s -> filled c s'.
Proof. intros H F q Q X. apply (set_grows _ _ _ _ _ _ H). apply F; assumption. Qed.
Lemma initial_filled c : filled c (initial c).
Proof. intros q Q (x & D). destruct c as [d r f]. unfold stored in Q. destruct q, d, r, f; vm_compute in Q; try discriminate Q; vm_compute in D; try discriminate D; vm_compute; discriminate. Qed.
Lemma set_params_total c kw : forall s, Forall (fun pv => has c (fst pv) = true) kw -> filled c s -> exists s', set_params c s kw = Some s'.
Proof.
  induction kw as [|[p v] kw IH]; intros s H F; simpl; [eexists; reflexivity|]. inversion H as [|a b H1 H2]; subst. destruct (set_total c s p v H1 F) as (s' & E). rewrite E. simpl. apply IH; [exact H2|]. apply (set_filled _ _ _ _ _ E F).
Qed.
Lemma set_params_frame c kw : forall s s' q, set_params c s kw = Some s' -> (forall p v, In (p, v) kw -> slot c p <> q) -> s' q = s q.
Proof.
  induction kw as [|[p v] kw IH]; intros s s' q H N; simpl in H; [congruence|]. destruct (set c s p v) as [s1|] eqn:E; [|discriminate H]. simpl in H. rewrite (IH s1 s' q H).
  - apply (set_frame _ _ _ _ _ q E). intros ->. apply (N p v); [left; reflexivity|reflexivity].
  - intros p' v' I. apply (N p' v'). right; exact I.
Qed.
Lemma set_params_grows c kw : forall s s' q, set_params c s kw = Some s' -> s q <> None -> s' q <> None.
Proof.
  induction kw as [|[p v] kw IH]; intros s s' q H N; simpl in H; [congruence|]. destruct (set c s p v) as [s1|] eqn:E; [|discriminate H]. apply (IH s1 s' q H). apply (set_grows _ _ _ _ _ _ E N).
Qed.
Lemma set_params_app c kw1 kw2 s : set_params c s (kw1 ++ kw2) = bind (set_params c s kw1) (fun s' => set_params c s' kw2).
Proof. revert s; induction kw1 as [|[p v] kw IH]; intros s; simpl; [reflexivity|]. destruct (set c s p v); simpl; [apply IH|reflexivity]. Qed.
Lemma set_params_gives c kw : forall s s' p v, set_params c s kw = Some s' -> In (p, v) kw -> s' (slot c p) <> None.
Proof.
  induction kw as [|[p' v'] kw IH]; intros s s' p v H I; [destruct I|]. simpl in H. destruct (set c s p' v') as [s1|] eqn:E; [|discriminate H]. simpl in H. destruct I as [[= -> ->]|I].
  - apply (set_params_grows c kw s1 s' _ H). rewrite (set_slot _ _ _ _ _ E). rewrite set_written in E. destruct (written c s p v); [discriminate|discriminate E].
  - apply (IH s1 s' p v H I).
Qed.
(** ** Constructor *)
Lemma all_names_all p : In p all_names.
Proof. destruct p; simpl; tauto. Qed.
Lemma parameters_of_In c p : In p (parameters_of c) <-> has c p = true.
Proof. unfold parameters_of. rewrite filter_In. split; [tauto|]. intros H; split; [apply all_names_all|exact H]. Qed.
Lemma flat_lambda_iff c : flat_lambda c = true <-> de_of c = CC /\ flat c = true.
Proof. unfold flat_lambda. destruct (de_of c), (flat c); simpl; split; try tauto; try discriminate; try (intros [? ?]; discriminate); intros; split; reflexivity. Qed.
Lemma accepted_iff c kw : forallb (fun p => implb (given kw p) (has c p) && implb (has c p && is_required H100 c p) (given kw p)) all_names = true <-> acceptable c kw.
Proof.
  rewrite forallb_forall. unfold acceptable. split.
  - intros H. split; intros p.
    + intros N. specialize (H p (all_names_all p)). apply andb_prop in H as [H _]. unfold given in H. destruct (kw p); [exact H|congruence].
    + intros Hp N. specialize (H p (all_names_all p)). apply andb_prop in H as [_ H]. unfold given in H. rewrite N, Hp in H. simpl in H. unfold is_required in H. destruct p; simpl in *; try exact I; try discriminate H. apply flat_lambda_iff. destruct (flat_lambda c); [reflexivity|discriminate H].
  - intros [A B] p _. apply andb_true_intro; split.
    + specialize (A p). unfold given. destruct (kw p); [|reflexivity]. simpl. apply A; discriminate.
    + specialize (B p). unfold given. destruct (kw p); [destruct (has c p && _)%bool; reflexivity|]. destruct (has c p); [|reflexivity]. simpl. specialize (B eq_refl eq_refl). unfold is_required. destruct p; simpl in *; try reflexivity; try contradiction. apply flat_lambda_iff in B. rewrite B. reflexivity.
Qed.
Lemma kwarg_In c kw p q v : In (q, v) (kwarg c kw p) -> q = p.
Proof. unfold kwarg. destruct (kw p); [intros [[= <- <-]|[]]; reflexivity|]. destruct (default_of c p); simpl; intros I; try contradiction; destruct I as [[= <- <-]|[]]; reflexivity. Qed.
Lemma construct_iff c kw : (exists s, construct c kw = Some s) <-> acceptable c kw.
Proof.
  unfold construct. rewrite <- accepted_iff. destruct (forallb _ all_names); [|split; [intros (s & H); discriminate H|discriminate]]. split; [reflexivity|]. intros _.
  apply set_params_total; [|apply initial_filled]. apply Forall_forall. intros [q v] I. apply in_flat_map in I as (p & P & I). rewrite (kwarg_In _ _ _ _ _ I). apply parameters_of_In. exact P.
Qed.
Definition kwval (c : cls) (kw : pname -> option R) (p : pname) : option R :=
  match kw p with Some v => Some v | None => match default_of c p with Value v => Some v | _ => None end end.
Lemma kwarg_kwval c kw p : kwarg c kw p = match kwval c kw p with Some v => [(p, v)] | None => [] end.
Proof. unfold kwarg, kwval. destruct (kw p); [reflexivity|]. destruct (default_of c p); reflexivity. Qed.
Fixpoint after (p : pname) (l : list pname) : list pname := match l with [] => [] | q :: l' => if pname_eq q p then l' else after p l' end.
Lemma after_split p l : In p l -> exists l1, l = l1 ++ p :: after p l.
Proof. induction l as [|q l IH]; intros H; [destruct H|]. simpl. destruct (pname_eq q p) as [->|N]; [exists []; reflexivity|]. destruct H as [H|H]; [congruence|]. destruct (IH H) as (l1 & E). exists (q :: l1). simpl. rewrite <- E. reflexivity. Qed.
(** The value given to [p] is assigned in some state [s0] and afterwards only the parameters after [p] are assigned. *)
Lemma construct_split c kw s p v : construct c kw = Some s -> has c p = true -> kwval c kw p = Some v ->
  exists s0 s1, filled c s0 /\ set c s0 p v = Some s1 /\ set_params c s1 (flat_map (kwarg c kw) (after p (parameters_of c))) = Some s.
Proof.
  unfold construct. destruct (forallb _ all_names); [|discriminate]. intros H P V. destruct (after_split p (parameters_of c)) as (l1 & E); [apply parameters_of_In, P|]. rewrite E, flat_map_app, set_params_app in H.
  destruct (set_params c (initial c) (flat_map (kwarg c kw) l1)) as [s0|] eqn:E0; [|discriminate H]. cbn [bind flat_map] in H. rewrite kwarg_kwval, V in H. cbn [app] in H. simpl in H. destruct (set c s0 p v) as [s1|] eqn:E1; [|discriminate H]. exists s0, s1. split; [|split; [exact E1|exact H]].
  intros q Q X. apply (set_params_grows _ _ _ _ q E0). apply (initial_filled c q Q X).
Qed.
Lemma later_kwargs c kw l s s' q : set_params c s (flat_map (kwarg c kw) l) = Some s' -> (forall p, In p l -> slot c p = q -> kwval c kw p = None) -> s' q = s q.
Proof.
  intros H N. apply (set_params_frame _ _ _ _ _ H). intros p v I. apply in_flat_map in I as (p' & P' & I). pose proof (kwarg_In _ _ _ _ _ I) as ->. intros E. specialize (N p' P' E). rewrite kwarg_kwval, N in I. destruct I.
Qed.
(** ** What every instance satisfies *)
Definition ready (c : cls) (s : state) : Prop := (forall q, stored c q = true -> s q <> None) /\ (flat_lambda c = true -> s Ode0 = None) /\ (de_of c = CC -> s w0 = None).
Lemma set_ready c s p v s' : has c p = true -> ready c s -> set c s p v = Some s' -> ready c s'.
Proof.
  intros P [A [B C]] H. repeat split.
  - intros q Q. apply (set_grows _ _ _ _ _ _ H). apply A, Q.
  - intros F. rewrite (set_frame _ _ _ _ _ Ode0 H); [apply B, F|]. destruct p; simpl; try discriminate. rewrite F. discriminate.
  - intros F. rewrite (set_frame _ _ _ _ _ w0 H); [apply C, F|]. destruct p; simpl in *; try discriminate; try rewrite F in P; try discriminate P. destruct (flat_lambda c); discriminate.
Qed.
Lemma instance_ready c s : instance c s -> ready c s.
Proof.
  induction 1 as [kw s H|s p v s' _ IH P H]; [|apply (set_ready c s p v s' P IH H)].
  assert (A : acceptable c kw) by (apply construct_iff; eexists; exact H). repeat split.
  - intros q Q. assert (Hq : has c q = true) by (unfold stored in Q; destruct (has c q); [reflexivity|discriminate Q]). destruct (kwval c kw q) as [v|] eqn:V.
    + destruct (construct_split c kw s q v H Hq V) as (s0 & s1 & _ & S1 & S2). apply (set_params_grows _ _ _ _ _ S2). assert (Sl : slot c q = q) by (unfold stored in Q; destruct q; simpl in *; try reflexivity; rewrite ?andb_false_r in Q; try discriminate Q; destruct (flat_lambda c); [discriminate Q|reflexivity]).
      pose proof (set_slot _ _ _ _ _ S1) as W. rewrite Sl in W. rewrite W. rewrite set_written in S1. destruct (written c s0 q v); [discriminate|discriminate S1].
    + exfalso. destruct A as [_ A]. specialize (A q Hq). unfold kwval in V. destruct (kw q); [discriminate V|]. specialize (A eq_refl). unfold stored in Q. destruct q; simpl in *; try discriminate V; try contradiction; rewrite ?andb_false_r in Q; try discriminate Q. apply flat_lambda_iff in A. rewrite A in Q. discriminate Q.
  - intros F. unfold construct in H. destruct (forallb _ all_names); [|discriminate H]. rewrite (set_params_frame _ _ _ _ Ode0 H).
    + apply flat_lambda_iff in F as [F1 F2]. destruct c as [d r f]. simpl in *. subst. destruct r; reflexivity.
    + intros p v I. destruct p; simpl; try discriminate. rewrite F. discriminate.
  - intros F. unfold construct in H. destruct (forallb _ all_names); [|discriminate H]. rewrite (set_params_frame _ _ _ _ w0 H).
    + destruct c as [d r f]. simpl in *. subst. destruct r, f; reflexivity.
    + intros p v I. apply in_flat_map in I as (p' & P' & I). pose proof (kwarg_In _ _ _ _ _ I) as ->. apply parameters_of_In in P'. destruct p'; simpl in *; try discriminate; try rewrite F in P'; try discriminate P'. destruct (flat_lambda c); discriminate.
Qed.
Lemma ready_filled c s : ready c s -> filled c s.
Proof. intros [A _] q Q _. apply A, Q. Qed.
(** The slots of a ready state, by class. *)
Lemma ready_get c s p : ready c s -> stored c p = true -> exists v, s p = Some v.
Proof. intros [A _] P. specialize (A p P). destruct (s p) as [v|]; [exists v; reflexivity|congruence]. Qed.
Lemma stored_has c p : stored c p = true -> has c p = true.
Proof. unfold stored. destruct (has c p); [reflexivity|discriminate]. Qed.
End Constants.
