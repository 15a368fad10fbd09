(** Claims C25-C28. *)
From Coq Require Import List Bool Arith Lia FinFun.
From Verif Require Import Ragged RaggedSpec RaggedFacts.
Import ListNotations.

(** ** C25 *)
Theorem C25_sizes : forall d t, uniform d t -> let s := make_shape (levels d t) in
  lens s = levels d t /\ ndim s = d /\
  sizes s = map (fun i => map (fun p => leaves (at_path t p)) (paths i t)) (seq 1 d) /\
  size s = length (elements d t) /\ (0 < d -> size s = leaves t).
Proof.
  intros d t H s. unfold s. split; [apply lens_make|]. split; [apply ndim_levels|]. rewrite (size_elements d d t H) by lia. split; [|split; [reflexivity|]].
  - rewrite make_shape_levels by exact H. simpl. apply map_ext_in. intros i Hi. apply in_seq in Hi. unfold S_. rewrite <- (nodes_paths d) by (auto; lia). apply map_map.
  - intros Hd. destruct d; [lia|]. apply (paths_leaves (S d)), H.
Qed.
Print Assumptions C25_sizes.
(** every well-formed family of lengths is the one of a tree, so C25_sizes is about all of them *)
Lemma levels_forest ls : ls <> [] -> well_formed ls -> uniform (length ls) (Lst (forest ls)) /\ levels (length ls) (Lst (forest ls)) = ls.
Proof.
  intros Hne Hw. destruct (forest_ok ls Hne Hw) as [U N].
  assert (U' : uniform (length ls) (Lst (forest ls))) by (destruct ls; [congruence|]; simpl in *; rewrite Nat.sub_0_r in U; exact U).
  split; [exact U'|]. rewrite levels_L by exact U'.
  apply (nth_ext _ _ [] []); [rewrite map_length, seq_length; reflexivity|]. intros i Hi. rewrite map_length, seq_length in Hi.
  rewrite (nth_indep _ [] (L (Lst (forest ls)) 0)) by (rewrite map_length, seq_length; exact Hi). rewrite map_nth, seq_nth by exact Hi. rewrite <- (N i Hi).
  unfold L. cbn [Nat.add nodes kids_of]. apply map_flat_map.
Qed.
Theorem C25_every_shape : forall ls, well_formed ls -> exists t, uniform (length ls) t /\ levels (length ls) t = ls.
Proof.
  intros ls Hw. destruct ls as [|l ls]; [exists (Num 0); split; [exact I|reflexivity]|]. exists (Lst (forest (l :: ls))). apply levels_forest; [discriminate|exact Hw].
Qed.
Print Assumptions C25_every_shape.
Example C25_nonvacuous : let t := Lst [Lst [Num 2; Num 0]; Lst []; Lst [Num 3]] in
  uniform 2 t /\ make_shape (levels 2 t) = {| lens := [[2; 0; 1]; [2; 0; 3]]; sizes := [[2; 0; 3]; [2; 0; 3]]; ndim := 2; size := 5 |}.
Proof. split; [repeat constructor|reflexivity]. Qed.
(** Nothing checks that the lengths fit: here the shape counts 5 leaves, but only 2 below its only top node. *)
Theorem C25_unvalidated_refuted : ~ well_formed [[1]; [2; 3]] /\ size (make_shape [[1]; [2; 3]]) = 5 /\ sizes (make_shape [[1]; [2; 3]]) = [[2]; [2; 3]].
Proof. split; [intros [H _]; discriminate|split; reflexivity]. Qed.
Print Assumptions C25_unvalidated_refuted.

(** ** C26 *)
Lemma tensor_on_trunc {A} d m n t (vs : list (list nat -> A)) : uniform d t -> m <= d -> n <= m -> tensor_on n (trunc m t) vs = tensor_on n t vs.
Proof.
  intros H Hm Hn. unfold tensor_on, elements. rewrite (trunc_paths d) by (auto; destruct n; simpl; lia). f_equal. f_equal.
  rewrite <- (levels_firstn m n (trunc m t)), <- (levels_firstn m n t), (trunc_levels d) by auto. reflexivity.
Qed.
(** [t] is a tree of [d] levels; [n] < [m] <= [d]; every value is repeated for every element below it, in order *)
Theorem C26_values : forall A d t n m (vs : list (list nat -> A)), uniform d t -> n < m -> m <= d ->
  broadcast_to (tensor_on n t vs) (make_shape (levels m t)) = ROk (tensor_on m t (map (fun v p => v (firstn (element_depth n) p)) vs)).
Proof.
  intros A d t n m vs H Hn Hm. rewrite <- (tensor_on_trunc d m n) by (auto; lia). rewrite <- (trunc_levels d m) by auto.
  pose proof (broadcast_last A m n (trunc m t) vs (trunc_uniform d m t H Hm) Hn) as E. unfold from_tree in E. unfold tensor_on at 1. rewrite E. f_equal.
  unfold tensor_on. rewrite (trunc_levels d) by auto. unfold elements. rewrite (trunc_paths d) by (auto; destruct m; simpl; lia). rewrite map_map. reflexivity.
Qed.
Print Assumptions C26_values.
(** every tensor that fits a tree is [tensor_on] some values *)
Lemma NoDup_app' {A} (l l' : list A) : NoDup l -> NoDup l' -> (forall x, In x l -> In x l' -> False) -> NoDup (l ++ l').
Proof.
  induction l as [|x l IH]; intros H H' D; [exact H'|]. inversion H; subst. simpl. constructor.
  - intros Hi. apply in_app_or in Hi. destruct Hi as [Hi|Hi]; [auto|]. apply (D x); [left; reflexivity|exact Hi].
  - apply IH; auto. intros y Hy Hy'. apply (D y); [right; exact Hy|exact Hy'].
Qed.
Lemma paths_nodup m : forall t, NoDup (paths m t).
Proof.
  induction m as [|m IH]; intros t; [constructor; [intros []|constructor]|]. destruct t as [n|l]; cbn [paths].
  - destruct m; [|constructor]. apply Injective_map_NoDup; [intros a b E; injection E; auto|apply seq_NoDup].
  - unfold numbered. assert (G : forall s, NoDup (flat_map (fun ix => map (cons (fst ix)) (paths m (snd ix))) (combine (seq s (length l)) l)) /\
      forall i p, In (i :: p) (flat_map (fun ix => map (cons (fst ix)) (paths m (snd ix))) (combine (seq s (length l)) l)) -> s <= i).
    { induction l as [|x l IHl]; intros s; simpl; [split; [constructor|intros ? ? []]|]. destruct (IHl (S s)) as [N G]. split.
      - assert (M : NoDup (map (cons s) (paths m x))) by (apply Injective_map_NoDup; [intros a b E; injection E; auto|apply IH]).
        apply NoDup_app'; auto. intros p Hp Hq. apply in_map_iff in Hp. destruct Hp as (q & <- & _). apply G in Hq. lia.
      - intros i p Hp. apply in_app_or in Hp. destruct Hp as [Hp|Hp]; [apply in_map_iff in Hp; destruct Hp as (q & E & _); injection E; intros; subst; lia|]. apply G in Hp. lia. }
    apply G.
Qed.
Fixpoint lookup {A} (ps : list (list nat)) (row : list A) (d : A) (p : list nat) : A :=
  match ps, row with q :: ps', x :: row' => if list_eq_dec Nat.eq_dec q p then x else lookup ps' row' d p | _, _ => d end.
Lemma lookup_map {A} (d : A) ps : forall row, NoDup ps -> length row = length ps -> map (lookup ps row d) ps = row.
Proof.
  induction ps as [|p ps IH]; intros [|x row] N Hl; try discriminate; [reflexivity|]. inversion N; subst. cbn [map lookup]. destruct list_eq_dec; [|congruence]. f_equal.
  transitivity (map (lookup ps row d) ps); [|apply IH; auto; simpl in Hl; lia]. apply map_ext_in. intros q Hq. destruct list_eq_dec as [E|]; [subst; contradiction|reflexivity].
Qed.
Lemma rows_on_tree {A} (a : A) n t (rs : list (list A)) : Forall (fun r => length r = length (elements n t)) rs ->
  rs = map (fun v => map v (elements n t)) (map (fun r => lookup (elements n t) r a) rs).
Proof.
  induction rs as [|r rs IH]; intros Hr; [reflexivity|]. inversion Hr; subst. cbn [map]. rewrite lookup_map by (auto; apply paths_nodup). rewrite <- IH by assumption. reflexivity.
Qed.
Lemma on_tree {A} (a : A) d n t (x : rtensor A) : uniform d t -> n <= d -> rshape x = make_shape (levels n t) -> consistent x -> exists vs, x = tensor_on n t vs.
Proof.
  intros H Hn Hs [Hl Hr]. rewrite Hs, (size_elements d n t H Hn) in Hl. rewrite Hl in Hr. exists (map (fun r => lookup (elements n t) r a) (rows x)).
  unfold tensor_on. rewrite <- rows_on_tree by exact Hr. rewrite <- Hl, <- Hs. destruct x; reflexivity.
Qed.
(** AssertionError exactly when the target is not deeper, or differs in a common level; otherwise the broadcast succeeds *)
Theorem C26_error : forall A (a : A) (x : rtensor A) ls0 ls, consistent x -> rshape x = make_shape ls0 -> well_formed ls ->
  let ok := length ls0 < length ls /\ firstn (length ls0) ls = ls0 in
  (broadcast_to x (make_shape ls) = RErr RAssertionError <-> ~ ok) /\ (ok -> exists y, broadcast_to x (make_shape ls) = ROk y).
Proof.
  intros A a x ls0 ls Hx Hs Hw ok.
  assert (Nd : forall l, ndim (make_shape l) = length l) by (intros l; unfold make_shape; destruct (rev l); reflexivity).
  assert (Suc : ok -> exists y, broadcast_to x (make_shape ls) = ROk y).
  { intros [Hl Hf]. destruct (C25_every_shape ls Hw) as (t & U & E). set (n := length ls0) in *.
    destruct (on_tree a (length ls) n t x U) as (vs & Ex); auto; [lia|rewrite Hs, <- (levels_firstn (length ls)), E, Hf by lia; reflexivity|].
    rewrite Ex, <- E. rewrite (C26_values A (length ls) t n (length ls)) by (auto; lia). eauto. }
  split; [|exact Suc]. split.
  - intros E Hok. destruct (Suc Hok) as [y Ey]. congruence.
  - intros Hno. unfold broadcast_to. rewrite Hs, !Nd. destruct (Nat.ltb_spec (length ls0) (length ls)) as [Hl|Hl]; [|reflexivity]. cbn [rassert].
    unfold broadcastable. rewrite !Nd, !lens_make. rewrite Nat.min_l by lia. unfold lens_eqb. destruct list_eq_dec as [E|E]; [|reflexivity].
    exfalso. apply Hno. split; [exact Hl|]. rewrite <- E. apply firstn_all.
Qed.
Print Assumptions C26_error.
Lemma interleave_length {A} : forall (r : list A) ks, length r = length ks -> length (interleave r ks) = list_sum ks.
Proof. induction r as [|x r IH]; intros [|k ks] H; try discriminate; [reflexivity|]. simpl. rewrite app_length, repeat_length, IH by (simpl in H; lia). reflexivity. Qed.
(** whatever the shapes, a returned tensor has the length of the target shape *)
Theorem C26_length : forall A (x y : rtensor A) s, consistent x -> broadcast_to x s = ROk y -> rshape y = s /\ consistent y /\ length (rows y) = length (rows x).
Proof.
  intros A x y s [Hl Hr] E. unfold broadcast_to in E.
  destruct (Nat.ltb _ _); [|discriminate]. destruct (broadcastable _ _); [|discriminate]. cbn [rassert] in E.
  set (reps := nth (ndim (rshape x)) (sizes s) []) in *. set (m := length (nth (ndim (rshape x)) (lens s) [])) in *.
  destruct (expand (last x) m (rows x)) as [r1|] eqn:E1; [|discriminate]. cbn [rbnd] in E.
  destruct (repeat_interleave m r1 reps (size s)) as [r2|] eqn:E2; [|discriminate]. cbn [rbnd] in E.
  unfold make_rt in E. destruct (Nat.eqb_spec (list_sum reps) (size s)) as [Es|]; [|discriminate]. injection E as <-. cbn [rshape last rows]. split; [reflexivity|].
  unfold expand in E1. destruct (_ || _)%bool eqn:B; [|discriminate]. injection E1 as <-.
  unfold repeat_interleave in E2. destruct (Nat.eqb_spec (length reps) m) as [Em|]; [|discriminate]. cbn [andb] in E2. destruct (_ || _)%bool in E2; [|discriminate]. injection E2 as <-.
  split; [|rewrite !map_length; reflexivity]. split; [exact Es|]. cbn [last rows]. rewrite !Forall_map. eapply Forall_impl; [|exact Hr]. cbv beta. intros r Hlen.
  apply interleave_length. rewrite Em. unfold expand_row. destruct (Nat.eqb_spec (last x) m) as [e|ne]; [congruence|]. simpl in B. apply Nat.eqb_eq in B. rewrite B in Hlen.
  destruct r as [|c [|]]; try discriminate. simpl. rewrite app_nil_r. apply repeat_length.
Qed.
Print Assumptions C26_length.
Example C26_nonvacuous :
  broadcast_to (mkRT 3 [[10; 20; 30]] (make_shape [[2; 0; 1]])) (make_shape [[2; 0; 1]; [1; 2; 3]]) =
    ROk (mkRT 6 [[10; 20; 20; 30; 30; 30]] (make_shape [[2; 0; 1]; [1; 2; 3]])) /\
  well_formed [[2; 0; 1]; [1; 2; 3]] /\ consistent (mkRT 3 [[10; 20; 30]] (make_shape [[2; 0; 1]])).
Proof. repeat split; repeat constructor. Qed.
(** Ill-formed targets are not rejected when the source has one element: one element, announced one child, is given five *)
Theorem C26_illformed_refuted : exists (x : rtensor nat) y, consistent x /\ rshape x = make_shape [[1]] /\ ~ well_formed [[1]; [2; 3]] /\
  broadcast_to x (make_shape [[1]; [2; 3]]) = ROk y /\ rows y = [[7; 7; 7; 7; 7]].
Proof.
  exists (mkRT 1 [[7]] (make_shape [[1]])), (mkRT 5 [[7; 7; 7; 7; 7]] (make_shape [[1]; [2; 3]])). split; [repeat constructor|]. split; [reflexivity|].
  split; [intros [H _]; discriminate|]. split; reflexivity.
Qed.
Print Assumptions C26_illformed_refuted.

(** ** C27 *)
Theorem C27_compose : forall A (a : A) (x : rtensor A) ls n m, consistent x -> well_formed ls -> n < m -> m < length ls ->
  rshape x = make_shape (firstn n ls) ->
  exists y z, broadcast_to x (make_shape (firstn m ls)) = ROk y /\ broadcast_to y (make_shape ls) = ROk z /\ broadcast_to x (make_shape ls) = ROk z.
Proof.
  intros A a x ls n m Hx Hw Hn Hm Hs. destruct (C25_every_shape ls Hw) as (t & U & E). set (d := length ls) in *.
  destruct (on_tree a d n t x U) as (vs & Ex); auto; [lia|rewrite Hs, <- (levels_firstn d), E by lia; reflexivity|].
  rewrite Ex. rewrite <- E. rewrite levels_firstn by lia. do 2 eexists. split; [apply (C26_values A d); auto; lia|]. split; [apply (C26_values A d); auto; lia|].
  rewrite (C26_values A d) by (auto; lia). f_equal. unfold tensor_on. f_equal. rewrite !map_map. apply map_ext. intros v.
  assert (X : forall p : list nat, firstn (element_depth n) p = firstn (element_depth n) (firstn (element_depth m) p)).
  { intros p. rewrite firstn_firstn. f_equal. destruct n, m; simpl; lia. }
  apply map_ext. intros p. f_equal. apply X.
Qed.
Print Assumptions C27_compose.
Example C27_nonvacuous : let ls := [[2; 1]; [1; 0; 2]; [3; 1; 1]] in well_formed ls /\
  broadcast_to (mkRT 1 [[5]] (make_shape [])) (make_shape (firstn 1 ls)) = ROk (mkRT 3 [[5; 5; 5]] (make_shape [[2; 1]])).
Proof. split; [repeat split|reflexivity]. Qed.

(** ** C28 *)
Lemma passes_enough : forall fuel q, (forall x, In x q -> height x < fuel) -> passes fuel q <> None.
Proof.
  induction fuel as [|fuel IH]; intros [|x q] H; try discriminate; [specialize (H x (or_introl eq_refl)); lia|].
  cbn [passes]. destruct (passes fuel (flat_map kids_of (x :: q))) eqn:E; [discriminate|]. exfalso. revert E. apply IH. intros y Hy. apply in_flat_map in Hy.
  destruct Hy as (z & Hz & Hy). specialize (H z Hz). destruct z as [n|l]; [contradiction|]. cbn [kids_of] in Hy. cbn [height] in H.
  assert (height y <= list_max (map height l)); [|lia]. pose proof (proj1 (list_max_le (map height l) (list_max (map height l))) (Nat.le_refl _)) as F.
  rewrite Forall_forall in F. apply F. apply in_map. exact Hy.
Qed.
(** the loop ends, for every nesting *)
Theorem C28_terminates : forall l, exists s, from_nested_sizes l = Some s.
Proof.
  intros l. unfold from_nested_sizes. destruct (passes (height (Lst l)) l) as [ls|] eqn:E; [eauto|]. exfalso. revert E. apply passes_enough. intros x Hx. cbn [height].
  pose proof (proj1 (list_max_le (map height l) (list_max (map height l))) (Nat.le_refl _)) as F. rewrite Forall_forall in F. specialize (F (height x) (in_map _ _ _ Hx)). lia.
Qed.
Print Assumptions C28_terminates.
Lemma passes_levels d t : uniform d t -> forall r i fuel ls, i + r = S d -> passes fuel (nodes i t) = Some ls -> ls = until_empty (map (L t) (seq i r)).
Proof.
  intros H. induction r as [|r IH]; intros i fuel ls Hi E.
  - assert (Hn : nodes i t = []).
    { assert (i = S d) by lia. subst. rewrite nodes_kids. pose proof (nodes_uniform d 0 t) as U. rewrite Nat.add_0_r in U. specialize (U H).
      induction U as [|x l Hx _ IHU]; [reflexivity|]. simpl. destruct x; [exact IHU|contradiction]. }
    rewrite Hn in E. destruct fuel; injection E as <-; reflexivity.
  - cbn [seq map]. destruct (nodes i t) as [|x q] eqn:En.
    + destruct fuel; injection E as <-; unfold L; rewrite En; reflexivity.
    + destruct fuel as [|fuel]; [discriminate|]. cbn [passes] in E. destruct (passes fuel (flat_map kids_of (x :: q))) as [r'|] eqn:Er; [|discriminate]. injection E as <-.
      rewrite <- En, <- nodes_kids in Er. apply IH in Er; [|lia]. subst r'. unfold L at 2. rewrite En. reflexivity.
Qed.
Lemma until_prefix ls : exists k, k <= length ls /\ until_empty ls = firstn k ls /\ (k = length ls \/ nth k ls [] = []) /\ (hd [] ls <> [] -> 0 < k).
Proof.
  induction ls as [|l ls IH]; [exists 0; simpl; repeat split; auto; intros X; contradiction X; reflexivity|]. destruct l as [|n l].
  - exists 0. split; [lia|]. split; [reflexivity|]. split; [right; reflexivity|]. intros X. contradiction X; reflexivity.
  - destruct IH as (k & Hk & E & O & _). exists (S k). cbn [length until_empty firstn nth]. rewrite E. split; [lia|]. split; [reflexivity|]. split; [|intros _; lia].
    destruct O; [left; lia|right; assumption].
Qed.
(** a uniformly nested, nonempty list: the levels up to the first empty one, and all leaves counted *)
Theorem C28_faithful : forall d l, uniform d (Lst l) -> l <> [] ->
  exists s, from_nested_sizes l = Some s /\ lens s = until_empty (levels d (Lst l)) /\ size s = leaves (Lst l) /\ well_formed (lens s).
Proof.
  intros d l H Hne. destruct (C28_terminates l) as [s E]. exists s. split; [exact E|]. unfold from_nested_sizes in E.
  destruct (passes (height (Lst l)) l) as [ls|] eqn:Ep; [|discriminate]. injection E as <-. rewrite lens_make. set (t := Lst l) in *.
  assert (N1 : nodes 1 t = l) by (unfold t; cbn [nodes kids_of]; clear; induction l; simpl; congruence).
  rewrite <- N1 in Ep. rewrite <- (levels_L d t H) in * || idtac. apply (passes_levels d t H d) in Ep; [|lia]. rewrite <- levels_L in Ep by exact H. subst ls. split; [reflexivity|].
  destruct d as [|d]; [contradiction|].
  destruct (until_prefix (levels (S d) t)) as (k & Hk & Ek & O & Hp). rewrite Ek.
  assert (Ll : length (levels (S d) t) = S d) by (unfold levels; rewrite map_length, seq_length; reflexivity). rewrite Ll in Hk, O.
  assert (K0 : 0 < k).
  { apply Hp. rewrite levels_L by exact H. cbn [seq map hd]. unfold L. rewrite N1. destruct l; [congruence|discriminate]. }
  rewrite levels_firstn by exact Hk. split.
  - rewrite (size_elements (S d) k t H Hk). destruct O as [->|O]; [apply (paths_leaves (S d)), H|].
    destruct (Nat.eq_dec k (S d)) as [->|Hkd]; [apply (paths_leaves (S d)), H|].
    rewrite (nth_levels (S d)) in O by (auto; lia). unfold L in O. apply map_eq_nil in O.
    rewrite <- (sum_level (S d) t (S k)) by (auto; lia). unfold S_. rewrite O. unfold elements, element_depth. destruct k; [lia|].
    rewrite <- (nodes_len_paths (S d)) by (auto; lia). rewrite O. reflexivity.
  - (* consecutive levels fit *)
    assert (Uk : uniform k (trunc k t)) by (apply (trunc_uniform (S d)); auto). rewrite <- (trunc_levels (S d)) by auto. rewrite levels_L by exact Uk.
    generalize (trunc k t) Uk. clear. intros t U. enough (G : forall r i, i + r <= S k -> well_formed (map (L t) (seq i r))) by (apply G; lia).
    induction r as [|r IH]; intros i Hi; [exact I|]. cbn [seq map]. destruct r as [|r]; [exact I|]. specialize (IH (S i)). cbn [seq map] in *. split; [|apply IH; lia].
    unfold L at 2. rewrite map_length, nodes_kids, flat_map_length'. unfold L. f_equal. apply map_ext_in. intros x Hx.
    pose proof (nodes_uniform i (k - i) t) as V. replace (i + (k - i)) with k in V by lia. specialize (V U). rewrite Forall_forall in V. specialize (V x Hx).
    replace (k - i) with (S (k - i - 1)) in V by lia. destruct x; [contradiction|reflexivity].
Qed.
Print Assumptions C28_faithful.
Example C28_nonvacuous : uniform 2 (Lst [Lst [Num 2; Num 0]; Lst []; Lst [Num 3]]) /\
  from_nested_sizes [Lst [Num 2; Num 0]; Lst []; Lst [Num 3]] = Some (make_shape [[2; 0; 1]; [2; 0; 3]]).
Proof. split; [repeat constructor|reflexivity]. Qed.
(** Mixed nesting is not rejected and loses leaves: [2, [1, 1]] has 4 leaves, the shape counts 2. *)
Theorem C28_mixed_refuted : exists s, from_nested_sizes [Num 2; Lst [Num 1; Num 1]] = Some s /\ size s = 2 /\ leaves (Lst [Num 2; Lst [Num 1; Num 1]]) = 4 /\
  sizes s = [[2; 0]; [1; 1]].
Proof. eexists. split; [reflexivity|]. repeat split. Qed.
Print Assumptions C28_mixed_refuted.
(** Without entries there are no leaves, but the shape counts one. *)
Theorem C28_empty_refuted : exists s, from_nested_sizes [] = Some s /\ size s = 1 /\ leaves (Lst []) = 0.
Proof. eexists. split; [reflexivity|]. split; reflexivity. Qed.
Print Assumptions C28_empty_refuted.
(** A level without entries is forgotten: [[], []] has two levels, the shape one. *)
Theorem C28_depth_refuted : exists s, from_nested_sizes [Lst []; Lst []] = Some s /\ uniform 2 (Lst [Lst []; Lst []]) /\ ndim s = 1.
Proof. eexists. split; [reflexivity|]. split; [repeat constructor|reflexivity]. Qed.
Print Assumptions C28_depth_refuted.
