(** * Properties C13-C17: nested structures (phytorch/utils/pytree.py)
    [leaves], [replace_leaves], [supported], [prefix_of], [leaf_above], [leaf_paths] are in PyTreeSpec.v.
    Every statement is for all leaf types, key types, subclass relations and tuple-subclass constructors. *)
From Coq Require Import List Bool Arith Lia.
From Verif Require Import PyTree PyTreeSpec PyTreeFacts.
Import ListNotations.

Definition decides {K} (eqb : K -> K -> bool) : Prop := forall a b, eqb a b = true <-> a = b.

(** ** C13 *)
Theorem C13_flatten_gives_leaves : forall A K (o : obj A K), no_named o ->
  exists s, tree_flatten o = Ok (map OLeaf (leaves o), s).
Proof. intros. apply flatten_leaves. assumption. Qed.
Print Assumptions C13_flatten_gives_leaves.

Theorem C13_unflatten_flatten : forall A K (eqb : K -> K -> bool) ctor (o : obj A K), decides eqb -> supported ctor o ->
  exists vs s, tree_flatten o = Ok (vs, s) /\ tree_unflatten A K eqb ctor vs s = Ok o.
Proof.
  intros A K eqb ctor o He Ho. destruct (supported_roundtrip eqb ctor He o Ho) as [[vs s] (H1 & _ & _ & H4)].
  exists vs, s. split; [exact H1|]. specialize (H4 (fun x => x)). simpl in H4. rewrite map_id, replace_id in H4. exact H4.
Qed.
Print Assumptions C13_unflatten_flatten.

Theorem C13_flatten_unflatten : forall A K (eqb : K -> K -> bool) ctor (s : spec K) (vs : list (obj A K)), decides eqb ->
  wf_spec ctor s -> length vs = num_leaves s -> Forall is_leaf_obj vs ->
  exists o, tree_unflatten A K eqb ctor vs s = Ok o /\ tree_flatten o = Ok (vs, s).
Proof.
  intros A K eqb ctor s vs He Hw Hl Hf. destruct (wf_builds eqb ctor He s Hw vs Hl) as [o [H1 H2]].
  exists o. auto.
Qed.
Print Assumptions C13_flatten_unflatten.

(** the specs in question are exactly what flattening a supported structure produces *)
Theorem C13_specs_of_structures : forall A K (eqb : K -> K -> bool) ctor (a : A) (s : spec K), decides eqb ->
  wf_spec ctor s <-> exists o : obj A K, supported ctor o /\ exists vs, tree_flatten o = Ok (vs, s).
Proof.
  intros A K eqb ctor a s He. split.
  - intros Hw. induction s as [|t ctx cs IH] using spec_ind'.
    + exists (OLeaf a). split; [constructor|]. exists [OLeaf a]. reflexivity.
    + assert (Hcs : Forall (wf_spec ctor) cs) by (inversion Hw; assumption).
      assert (X : exists (os : list (obj A K)) vss, Forall (supported ctor) os /\ Forall2 flat_ok os (combine vss cs) /\ length vss = length cs /\ length os = length cs).
      { clear -IH Hcs. induction IH as [|c cs Hc HF IH]; [exists [], []; repeat constructor|].
        inversion Hcs as [|? ? W1 W2]; subst. destruct (Hc W1) as (o & Ho & vs & E).
        destruct (IH W2) as (os & vss & P1 & P2 & P3 & P4).
        exists (o :: os), (vs :: vss). simpl. repeat split; try constructor; auto. }
      destruct X as (os & vss & P1 & P2 & P3 & P4). pose proof (flatten_children _ _ P2) as E.
      assert (S2 : map snd (combine vss cs) = cs) by (apply combine_snd_len; lia).
      inversion Hw; subst.
      * exists (OList os). split; [constructor; assumption|]. simpl. rewrite E. simpl. unfold flatten_node. rewrite S2. eauto.
      * exists (OTuple os). split; [constructor; assumption|]. simpl. rewrite E. simpl. unfold flatten_node. rewrite S2. eauto.
      * exists (OSub c os). split; [constructor; assumption|]. simpl. rewrite E. simpl. unfold flatten_node. rewrite S2. eauto.
      * exists (ODict (combine keys os)). split.
        -- constructor; [rewrite combine_fst_len by lia; assumption|].
           rewrite <- (combine_snd_len keys os) in P1 by lia. rewrite Forall_map in P1. exact P1.
        -- simpl. rewrite <- (map_map snd tree_flatten), combine_snd_len by lia. rewrite E. simpl.
           unfold flatten_node. rewrite S2, (combine_fst_len keys os) by lia. eauto.
  - intros (o & Ho & vs & E). exact (flatten_wf ctor o Ho _ E).
Qed.
Print Assumptions C13_specs_of_structures.

Definition tree_ex : obj nat nat :=
  ODict [(7, OList [OLeaf 1; OTuple [OLeaf 2; OList []]]); (3, OSub 0 [OLeaf 5; OLeaf 6])].
Example C13_nonvacuous : supported (fun _ => true) tree_ex /\ leaves tree_ex = [1; 2; 5; 6] /\
  decides Nat.eqb /\ exists s, tree_flatten tree_ex = Ok (map OLeaf [1; 2; 5; 6], s) /\ num_leaves s = 4.
Proof.
  split; [|split; [reflexivity|split; [exact Nat.eqb_eq|eexists; split; reflexivity]]].
  repeat (constructor; simpl; auto); intuition discriminate.
Qed.

(** ** C14 *)
Theorem C14_unflatten_length : forall A K (eqb : K -> K -> bool) ctor (s : spec K) (vs : list (obj A K)), decides eqb ->
  wf_spec ctor s ->
  (length vs <> num_leaves s -> tree_unflatten A K eqb ctor vs s = ValueError) /\
  (length vs = num_leaves s -> exists o, tree_unflatten A K eqb ctor vs s = Ok o).
Proof.
  intros A K eqb ctor s vs He Hw. split.
  - apply unflatten_wrong_length.
  - intros Hl. destruct (wf_builds eqb ctor He s Hw vs Hl) as [o [H1 H2]]. eauto.
Qed.
Print Assumptions C14_unflatten_length.

(** no leaf is dropped, duplicated or reordered: the leaves of the result are the given values *)
Theorem C14_no_leaf_lost : forall A K (eqb : K -> K -> bool) ctor (s : spec K) (xs : list A) o, decides eqb ->
  wf_spec ctor s -> tree_unflatten A K eqb ctor (map OLeaf xs) s = Ok o -> leaves o = xs.
Proof.
  intros A K eqb ctor s xs o He Hw E.
  destruct (Nat.eq_dec (length (map (@OLeaf A K) xs)) (num_leaves s)) as [Hl|Hl];
    [|rewrite unflatten_wrong_length in E by exact Hl; discriminate].
  assert (HL : Forall is_leaf_obj (map (@OLeaf A K) xs)).
  { clear. induction xs; simpl; constructor; [eexists; reflexivity|assumption]. }
  destruct (wf_builds eqb ctor He s Hw _ Hl) as [o' [H1 H2]]. rewrite E in H1. inversion H1; subst o'.
  assert (Hn : no_named o).
  { specialize (H2 HL). clear -H2. remember (map OLeaf xs, s) as p eqn:Ep. clear Ep xs s. revert p H2.
    induction o as [a|l IH|l IH|c l IH|items IH|c l IH] using obj_ind'; intros p E; simpl in E.
    - constructor.
    - constructor. destruct (sequence (map tree_flatten l)) as [rs| |] eqn:Es; try discriminate. apply sequence_ok in Es.
      clear E. revert rs Es. induction IH as [|x l Hx HF IH]; intros [|r rs] Es; try discriminate; constructor; inversion Es; subst; eauto.
    - constructor. destruct (sequence (map tree_flatten l)) as [rs| |] eqn:Es; try discriminate. apply sequence_ok in Es.
      clear E. revert rs Es. induction IH as [|x l Hx HF IH]; intros [|r rs] Es; try discriminate; constructor; inversion Es; subst; eauto.
    - constructor. destruct (sequence (map tree_flatten l)) as [rs| |] eqn:Es; try discriminate. apply sequence_ok in Es.
      clear E. revert rs Es. induction IH as [|x l Hx HF IH]; intros [|r rs] Es; try discriminate; constructor; inversion Es; subst; eauto.
    - constructor. destruct (sequence _) as [rs| |] eqn:Es; try discriminate. apply sequence_ok in Es.
      clear E. revert rs Es. induction IH as [|x l Hx HF IH]; intros [|r rs] Es; try discriminate; constructor; inversion Es; subst; eauto.
    - discriminate. }
  destruct (flatten_leaves o Hn) as [s' Es]. rewrite (H2 HL) in Es. inversion Es as [[X Y]].
  clear -X. revert xs X. induction (leaves o) as [|x l IH]; intros [|y xs] X; try discriminate; [reflexivity|].
  simpl in X. inversion X. f_equal. apply IH. assumption.
Qed.
Print Assumptions C14_no_leaf_lost.

Example C14_nonvacuous : exists s, tree_flatten tree_ex = Ok (map OLeaf [1; 2; 5; 6], s) /\
  tree_unflatten nat nat Nat.eqb (fun _ => true) (map OLeaf [1; 2; 5]) s = ValueError /\
  tree_unflatten nat nat Nat.eqb (fun _ => true) (map OLeaf [9; 8; 7; 6]) s =
    Ok (ODict [(7, OList [OLeaf 9; OTuple [OLeaf 8; OList []]]); (3, OSub 0 [OLeaf 7; OLeaf 6])]).
Proof. eexists. repeat split; reflexivity. Qed.

(** ** C15 *)
Theorem C15_tree_map : forall A K (eqb : K -> K -> bool) ctor (fn : obj A K -> obj A K) o, decides eqb -> supported ctor o ->
  tree_map A K eqb ctor fn o = Ok (replace_leaves fn o).
Proof.
  intros A K eqb ctor fn o He Ho. destruct (supported_roundtrip eqb ctor He o Ho) as [[vs s] (H1 & _ & _ & H4)].
  unfold tree_map. rewrite H1. apply H4.
Qed.
Print Assumptions C15_tree_map.

Theorem C15_identity : forall A K (eqb : K -> K -> bool) ctor (o : obj A K), decides eqb -> supported ctor o ->
  tree_map A K eqb ctor (fun x => x) o = Ok o.
Proof. intros. rewrite C15_tree_map by assumption. rewrite replace_id. reflexivity. Qed.
Print Assumptions C15_identity.

(** mapping twice is mapping the composition, for functions from leaves to leaves *)
Theorem C15_composition : forall A K (eqb : K -> K -> bool) ctor (f g : obj A K -> obj A K) o, decides eqb -> supported ctor o ->
  (forall a, is_leaf_obj (f (OLeaf a))) ->
  rbind (tree_map A K eqb ctor f o) (tree_map A K eqb ctor g) = tree_map A K eqb ctor (fun x => g (f x)) o.
Proof.
  intros A K eqb ctor f g o He Ho Hf. rewrite !(C15_tree_map A K) by assumption. simpl.
  rewrite C15_tree_map by (try assumption; apply replace_supported; assumption).
  rewrite replace_comp by exact Hf. reflexivity.
Qed.
Print Assumptions C15_composition.

(** the structure is kept and the function is applied to each leaf, in order *)
Theorem C15_structure_and_leaves : forall A K (eqb : K -> K -> bool) ctor (f : A -> A) (o : obj A K), decides eqb -> supported ctor o ->
  exists o' s, tree_map A K eqb ctor (fun x => match x with OLeaf a => OLeaf (f a) | _ => x end) o = Ok o' /\
    leaves o' = map f (leaves o) /\
    tree_flatten o = Ok (map OLeaf (leaves o), s) /\ tree_flatten o' = Ok (map OLeaf (leaves o'), s).
Proof.
  intros A K eqb ctor f o He Ho.
  pose proof (C15_tree_map A K eqb ctor (fun x => match x with OLeaf a => OLeaf (f a) | _ => x end) o He Ho) as Em.
  destruct (supported_roundtrip eqb ctor He o Ho) as [[vs s] (H1 & H2 & H3 & H4)]. simpl in *.
  exists (replace_leaves (fun x => match x with OLeaf a => OLeaf (f a) | _ => x end) o), s.
  split; [exact Em|]. split; [apply replace_leaves_leaves|]. split; [rewrite H1, H2; reflexivity|].
  pose proof (flatten_wf ctor o Ho _ H1) as Hw. simpl in Hw.
  set (vs' := map (fun x => match x with OLeaf a => OLeaf (f a) | _ => x end) vs).
  assert (E' : vs' = map OLeaf (map f (leaves o))) by (unfold vs'; rewrite H2, !map_map; reflexivity).
  destruct (C13_flatten_unflatten A K eqb ctor s vs' He Hw) as (o'' & U1 & U2).
  - unfold vs'. rewrite map_length. exact H3.
  - rewrite E'. clear. induction (leaves o); simpl; constructor; [eexists; reflexivity|assumption].
  - unfold vs' in U1. rewrite H4 in U1. inversion U1; subst o''. rewrite U2, replace_leaves_leaves, E'. reflexivity.
Qed.
Print Assumptions C15_structure_and_leaves.

Example C15_nonvacuous :
  tree_map nat nat Nat.eqb (fun _ => true) (fun x => match x with OLeaf a => OLeaf (10 * a) | _ => x end) tree_ex =
  Ok (ODict [(7, OList [OLeaf 10; OTuple [OLeaf 20; OList []]]); (3, OSub 0 [OLeaf 50; OLeaf 60])]).
Proof. reflexivity. Qed.

(** ** C16 *)
(** a value is returned exactly for structural prefixes ... *)
Theorem C16_broadcast_iff_prefix : forall A K (eqb : K -> K -> bool) sub (o : obj A K) s, decides eqb ->
  (exists vs, broadcast A K eqb sub o s = Ok (Some vs)) <-> prefix_of sub o s.
Proof.
  intros A K eqb sub o s He. split.
  - intros [vs E]. eapply bc_ok_all; eassumption.
  - apply bc_complete_all, He.
Qed.
Print Assumptions C16_broadcast_iff_prefix.

(** ... otherwise None (never an exception) *)
Theorem C16_otherwise_none : forall A K (eqb : K -> K -> bool) sub (o : obj A K) s, decides eqb -> no_named o ->
  broadcast A K eqb sub o s = Ok None <-> ~ prefix_of sub o s.
Proof.
  intros A K eqb sub o s He Hn. rewrite <- (C16_broadcast_iff_prefix A K eqb sub o s He).
  destruct (bc_total eqb sub s o Hn) as [[vs|] E]; rewrite E; split; try congruence.
  - intros H. exfalso. apply H. eauto.
  - intros _ [vs' E']. discriminate.
Qed.
Print Assumptions C16_otherwise_none.

(** one value per leaf of the spec, namely the leaf of the prefix above it *)
Theorem C16_values : forall A K (eqb : K -> K -> bool) sub (o : obj A K) s vs, decides eqb ->
  broadcast A K eqb sub o s = Ok (Some vs) ->
  length vs = num_leaves s /\ map Some vs = map (leaf_above o) (leaf_paths s).
Proof.
  intros A K eqb sub o s vs He E. destruct (bc_ok_all eqb sub He s o vs E) as [H _]. split; [|exact H].
  apply (f_equal (@length _)) in H. rewrite !map_length, leaf_paths_length in H. exact H.
Qed.
Print Assumptions C16_values.

(** broadcasting a structure to its own spec returns its leaves *)
Theorem C16_self : forall A K (eqb : K -> K -> bool) sub (o : obj A K) vs s, decides eqb ->
  tree_flatten o = Ok (vs, s) -> broadcast A K eqb sub o s = Ok (Some vs).
Proof.
  intros A K eqb sub o vs s He E.
  assert (X : forall o : obj A K, forall p, tree_flatten o = Ok p ->
     broadcast A K eqb sub o (snd p) = Ok (Some (fst p))).
  { clear o vs s E.
    assert (L : forall l, Forall (fun o : obj A K => forall p, tree_flatten o = Ok p -> broadcast A K eqb sub o (snd p) = Ok (Some (fst p))) l ->
      forall rs, map tree_flatten l = map Ok rs ->
        length l = length (map snd rs) /\ bgo eqb sub l (map snd rs) = Ok (Some (concat (map fst rs)))).
    { induction 1 as [|x l Hx HF IH]; intros [|r rs] Es; try discriminate; [split; reflexivity|].
      simpl in Es. inversion Es as [[E1 E2]]. destruct (IH rs E2) as [I1 I2]. split; [simpl; congruence|].
      simpl map. cbn [bgo]. rewrite (Hx r E1). simpl. fold (bgo (A:=A) eqb sub). rewrite I2. reflexivity. }
    assert (N : forall (o : obj A K) t l ctx rs, node_of o = Some (t, l, ctx) ->
      length l = length (map snd rs) -> bgo eqb sub l (map snd rs) = Ok (Some (concat (map fst rs))) ->
      broadcast A K eqb sub o (snd (flatten_node A K t ctx rs)) = Ok (Some (fst (flatten_node A K t ctx rs)))).
    { intros o t l ctx rs En Hl Hb. unfold flatten_node. cbn [fst snd]. rewrite (broadcast_node eqb sub o t l ctx) by exact En.
      replace (ntype_eqb t t) with true by (symmetry; apply ntype_eqb_spec; reflexivity).
      replace (ctx_eqb K eqb ctx ctx) with true by (symmetry; apply (ctx_eqb_spec eqb He); reflexivity).
      rewrite Hl, Nat.eqb_refl. exact Hb. }
    induction o as [a|l IH|l IH|c l IH|items IH|c l IH] using obj_ind'; intros p E; simpl in E.
    - inversion E; reflexivity.
    - destruct (sequence (map tree_flatten l)) as [rs| |] eqn:Es; try discriminate. apply sequence_ok in Es.
      destruct (L l IH rs Es). inversion E; subst. eapply N; [reflexivity| |]; assumption.
    - destruct (sequence (map tree_flatten l)) as [rs| |] eqn:Es; try discriminate. apply sequence_ok in Es.
      destruct (L l IH rs Es). inversion E; subst. eapply N; [reflexivity| |]; assumption.
    - destruct (sequence (map tree_flatten l)) as [rs| |] eqn:Es; try discriminate. apply sequence_ok in Es.
      destruct (L l IH rs Es). inversion E; subst. eapply N; [reflexivity| |]; assumption.
    - destruct (sequence _) as [rs| |] eqn:Es; try discriminate. apply sequence_ok in Es.
      rewrite <- (map_map snd tree_flatten) in Es. rewrite <- (Forall_map snd (fun o => forall p, tree_flatten o = Ok p -> broadcast A K eqb sub o (snd p) = Ok (Some (fst p)))) in IH.
      destruct (L _ IH rs Es). inversion E; subst. eapply N; [reflexivity| |]; assumption.
    - discriminate. }
  exact (X o (vs, s) E).
Qed.
Print Assumptions C16_self.

Example C16_nonvacuous : exists s, tree_flatten tree_ex = Ok (map OLeaf [1; 2; 5; 6], s) /\
  broadcast nat nat Nat.eqb (fun _ _ => false) (ODict [(7, OLeaf 0); (3, OTuple [OLeaf 1; OLeaf 2])]) s
    = Ok (Some [OLeaf 0; OLeaf 0; OLeaf 1; OLeaf 2]) /\
  broadcast nat nat Nat.eqb (fun _ _ => false) (ODict [(3, OLeaf 0); (7, OLeaf 1)]) s = Ok None.
Proof. eexists. repeat split; reflexivity. Qed.

(** ** C17: named tuples are NOT supported: any structure that contains one raises TypeError *)
Theorem C17_namedtuple_refuted : forall A K c (l : list (obj A K)), tree_flatten (ONamed c l) = TypeError.
Proof. reflexivity. Qed.
Print Assumptions C17_namedtuple_refuted.

Theorem C17_any_namedtuple_inside_refuted : forall A K (o : obj A K), ~ no_named o -> tree_flatten o = TypeError.
Proof.
  intros A K o.
  assert (S : forall l : list (obj A K), Forall (fun o => ~ no_named o -> tree_flatten o = TypeError) l -> 
    ~ Forall no_named l -> sequence (map tree_flatten l) = TypeError).
  { induction 1 as [|x l Hx HF IH]; intros H; [exfalso; apply H; constructor|]. simpl.
    destruct (tree_flatten x) as [p| |] eqn:E; simpl.
    - rewrite IH; [reflexivity|]. intros Hl. apply H. constructor; [|exact Hl].
      clear -E. revert p E. induction x as [a|l IH|l IH|c l IH|items IH|c l IH] using obj_ind'; intros p E; simpl in E.
      + constructor.
      + constructor. destruct (sequence (map tree_flatten l)) as [rs| |] eqn:Es; try discriminate. apply sequence_ok in Es.
        clear E. revert rs Es. induction IH as [|x l Hx HF IH]; intros [|r rs] Es; try discriminate; constructor; inversion Es; subst; eauto.
      + constructor. destruct (sequence (map tree_flatten l)) as [rs| |] eqn:Es; try discriminate. apply sequence_ok in Es.
        clear E. revert rs Es. induction IH as [|x l Hx HF IH]; intros [|r rs] Es; try discriminate; constructor; inversion Es; subst; eauto.
      + constructor. destruct (sequence (map tree_flatten l)) as [rs| |] eqn:Es; try discriminate. apply sequence_ok in Es.
        clear E. revert rs Es. induction IH as [|x l Hx HF IH]; intros [|r rs] Es; try discriminate; constructor; inversion Es; subst; eauto.
      + constructor. destruct (sequence _) as [rs| |] eqn:Es; try discriminate. apply sequence_ok in Es.
        clear E. revert rs Es. induction IH as [|x l Hx HF IH]; intros [|r rs] Es; try discriminate; constructor; inversion Es; subst; eauto.
      + discriminate.
    - exfalso. assert (V : forall o : obj A K, tree_flatten o <> ValueError).
      { clear. assert (Q : forall l : list (obj A K), Forall (fun o => tree_flatten o <> ValueError) l -> sequence (map tree_flatten l) <> ValueError).
        { induction 1 as [|x l Hx HF IH]; simpl; [discriminate|]. destruct (tree_flatten x); simpl; try congruence.
          destruct (sequence (map tree_flatten l)); simpl; congruence. }
        induction o as [a|l IH|l IH|c l IH|items IH|c l IH] using obj_ind'; simpl; try discriminate.
        1-3: apply Q in IH; destruct (sequence (map tree_flatten l)); simpl; congruence.
        rewrite <- (map_map snd tree_flatten). rewrite <- (Forall_map snd (fun o => tree_flatten o <> ValueError)) in IH. apply Q in IH.
        destruct (sequence (map tree_flatten (map snd items))); simpl; congruence. }
      exact (V x E).
    - reflexivity. }
  induction o as [a|l IH|l IH|c l IH|items IH|c l IH] using obj_ind'; intros H; simpl.
  - exfalso. apply H. constructor.
  - rewrite S; [reflexivity|exact IH|]. intros X. apply H. constructor. exact X.
  - rewrite S; [reflexivity|exact IH|]. intros X. apply H. constructor. exact X.
  - rewrite S; [reflexivity|exact IH|]. intros X. apply H. constructor. exact X.
  - rewrite <- (map_map snd tree_flatten). rewrite S; [reflexivity| |].
    + rewrite Forall_map. exact IH.
    + intros X. apply H. constructor. rewrite Forall_map in X. exact X.
  - reflexivity.
Qed.
Print Assumptions C17_any_namedtuple_inside_refuted.

(** a tuple subclass whose constructor does not take one iterable (a class derived from a named tuple)
    is flattened but cannot be rebuilt *)
Theorem C17_namedtuple_subclass_refuted : forall A K (eqb : K -> K -> bool) ctor c (l : list A), ctor c = false ->
  exists vs s, tree_flatten (OSub c (map OLeaf l) : obj A K) = Ok (vs, s) /\ tree_unflatten A K eqb ctor vs s = TypeError.
Proof.
  intros A K eqb ctor c l Hc.
  assert (E : sequence (map tree_flatten (map (@OLeaf A K) l)) = Ok (map (fun a => ([OLeaf a], SLeaf)) l)).
  { apply sequence_ok. rewrite !map_map. reflexivity. }
  simpl. rewrite E. simpl. unfold flatten_node. do 2 eexists. split; [reflexivity|].
  rewrite map_map. cbn [fst]. rewrite (unflatten_concat eqb ctor (TSub c) None).
  - rewrite map_map. cbn [snd].
    assert (X : sequence (map (fun p : spec K * list (obj A K) => tree_unflatten A K eqb ctor (snd p) (fst p))
       (combine (map (fun _ : A => SLeaf) l) (map (fun x => [OLeaf x]) l))) = Ok (map OLeaf l)).
    { apply sequence_ok. induction l; simpl; [reflexivity|]. f_equal. apply IHl.
      apply sequence_ok. rewrite !map_map. reflexivity. }
    rewrite X. simpl. rewrite Hc. reflexivity.
  - rewrite map_map. cbn [snd]. clear. induction l; simpl; constructor; auto.
Qed.
Print Assumptions C17_namedtuple_subclass_refuted.

(** Other tuple subclasses (such as those in torch.return_types) do come back as the same class. *)
Theorem C17_tuple_subclass : forall A K (eqb : K -> K -> bool) ctor c (l : list (obj A K)), decides eqb -> ctor c = true ->
  Forall (supported ctor) l ->
  exists vs s, tree_flatten (OSub c l) = Ok (vs, s) /\ tree_unflatten A K eqb ctor vs s = Ok (OSub c l).
Proof. intros. apply C13_unflatten_flatten; [assumption|]. constructor; assumption. Qed.
Print Assumptions C17_tuple_subclass.
