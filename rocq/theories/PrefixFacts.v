From Coq Require Import ZArith QArith Qcanon String List Bool Reals Lra Lia.
From Verif Require Import Frac FracFacts Units UnitSpec UnitsFacts UnitsThms Scope ScopeSpec ScopeFacts Prefixes PrefixSpec.
Import ListNotations.
Open Scope string_scope.
Open Scope list_scope.

Lemma in_join_product a b k : In k (join_product a b) <-> exists x y, In x a /\ In y b /\ k = (x ++ y)%string.
Proof.
  unfold join_product. rewrite in_flat_map. split.
  - intros (x & Hx & H). apply in_map_iff in H as (y & <- & Hy). exists x, y. auto.
  - intros (x & y & Hx & Hy & ->). exists x. split; [exact Hx|]. apply in_map_iff. exists y. auto.
Qed.

Definition punit (pabbrevs : list string) (expon : Z) (u : nunit) : nunit :=
  mkN (hd "" pabbrevs ++ nu_name u)%string (pow10_times expon (nu_unit u)).

(** One cell of the comprehension: the bindings of one unit entry and one prefix entry. *)
Definition cell (um : outformat * nunit) (pm : outformat * Z) : list (string * nunit) :=
  map (fun name => (name, punit (snd (fst pm)) (snd pm) (snd um)))
    (join_product (fst (fst pm)) (fst (fst um)) ++ join_product (snd (fst pm)) (snd (fst um))).
Definition row (pmap : list (outformat * Z)) (except_ : list string) (um : outformat * nunit) : list (string * nunit) :=
  if existsb (String.eqb (nu_name (snd um))) except_ then [] else flat_map (cell um) pmap.

Lemma prefix_items_rows um pm ex : prefix_items um pm ex = flat_map (row pm ex) um.
Proof.
  unfold prefix_items. apply flat_map_ext. intros [[names abbrevs] u]. unfold row. cbn [fst snd].
  destruct (existsb (String.eqb (nu_name u)) ex); [reflexivity|].
  apply flat_map_ext. intros [[ps pas] e]. reflexivity.
Qed.

Lemma in_cell_key key um pm : In key (map fst (cell um pm)) <-> combines key (fst pm) (fst um).
Proof.
  unfold cell. rewrite map_map. cbn [fst]. rewrite map_id, in_app_iff, !in_join_product. unfold combines. tauto.
Qed.

Lemma in_cell key v um pm : In (key, v) (cell um pm) <->
  combines key (fst pm) (fst um) /\ v = punit (snd (fst pm)) (snd pm) (snd um).
Proof.
  rewrite <- in_cell_key. unfold cell. rewrite map_map. cbn [fst]. rewrite map_id, in_map_iff. split.
  - intros (x & E & H). inversion E; subst. auto.
  - intros [H ->]. exists key. auto.
Qed.

Lemma not_excluded ex n : existsb (String.eqb n) ex = false <-> ~ In n ex.
Proof. rewrite <- existsb_eqb. destruct (existsb (String.eqb n) ex); intuition congruence. Qed.

Lemma in_prefix_items key v um pm ex : In (key, v) (prefix_items um pm ex) <->
  exists ue pe, In ue um /\ ~ In (nu_name (snd ue)) ex /\ In pe pm /\ combines key (fst pe) (fst ue) /\
    v = punit (snd (fst pe)) (snd pe) (snd ue).
Proof.
  rewrite prefix_items_rows, in_flat_map. split.
  - intros (ue & Hu & H). unfold row in H. destruct (existsb _ ex) eqn:E; [destruct H|].
    apply in_flat_map in H as (pe & Hp & H). apply in_cell in H as [H1 H2].
    exists ue, pe. rewrite <- not_excluded. auto.
  - intros (ue & pe & Hu & Hx & Hp & H1 & H2). exists ue. split; [exact Hu|].
    apply not_excluded in Hx. unfold row. rewrite Hx. apply in_flat_map. exists pe.
    split; [exact Hp|]. apply in_cell. auto.
Qed.

Lemma dict_fold_keys {V} (l : list (string * V)) : forall d k,
  In k (dict_keys (fold_left (fun d kv => dict_set d (fst kv) (snd kv)) l d)) <-> In k (dict_keys d) \/ In k (map fst l).
Proof.
  induction l as [|[k0 v0] l IH]; intros d k; simpl; [tauto|].
  rewrite IH, dict_keys_set. intuition.
Qed.
Lemma dict_of_items_keys {V} (l : list (string * V)) k : In k (dict_keys (dict_of_items l)) <-> In k (map fst l).
Proof. unfold dict_of_items. rewrite dict_fold_keys. simpl. tauto. Qed.

Lemma last_binding_app {V} (a b : list (string * V)) k :
  last_binding (a ++ b) k = match last_binding b k with Some v => Some v | None => last_binding a k end.
Proof.
  induction a as [|[k0 v0] a IH]; simpl; [destruct (last_binding b k); reflexivity|].
  rewrite IH. destruct (last_binding b k); reflexivity.
Qed.
Lemma last_binding_none {V} (l : list (string * V)) k : last_binding l k = None <-> ~ In k (map fst l).
Proof.
  induction l as [|[k0 v0] l IH]; simpl; [tauto|].
  destruct (last_binding l k) as [w|] eqn:E.
  - split; [discriminate|]. intros H. exfalso. apply H. right.
    destruct (in_dec string_dec k (map fst l)) as [Hi|Hi]; [exact Hi|]. apply IH in Hi. discriminate.
  - destruct IH as [IH _]. specialize (IH eq_refl). destruct (String.eqb_spec k k0) as [->|Hk].
    + split; [discriminate|tauto].
    + split; [intros _ [H|H]; congruence || tauto|reflexivity].
Qed.
Lemma last_binding_const {V} (l : list string) (v : V) k : In k l -> last_binding (map (fun n => (n, v)) l) k = Some v.
Proof.
  induction l as [|a l IH]; simpl; [tauto|].
  intros H. destruct (last_binding (map _ l) k) as [w|] eqn:E.
  - apply last_binding_in in E. apply in_map_iff in E as (x & E & _). congruence.
  - destruct (String.eqb_spec k a) as [->|Hk]; [reflexivity|].
    destruct H as [H|H]; [congruence|]. apply IH in H. congruence.
Qed.

Lemma row_keys pm ex ue key : In key (map fst (row pm ex ue)) <->
  ~ In (nu_name (snd ue)) ex /\ exists pe, In pe pm /\ combines key (fst pe) (fst ue).
Proof.
  unfold row. destruct (existsb _ ex) eqn:E.
  - simpl. rewrite <- not_excluded. intuition congruence.
  - rewrite <- not_excluded. rewrite in_map_iff. split.
    + intros ([k v] & <- & H). split; [exact E|]. apply in_flat_map in H as (pe & Hp & H).
      apply in_cell in H as [H _]. exists pe. auto.
    + intros [_ (pe & Hp & H)]. exists (key, punit (snd (fst pe)) (snd pe) (snd ue)). split; [reflexivity|].
      apply in_flat_map. exists pe. split; [exact Hp|]. apply in_cell. auto.
Qed.

Lemma last_wins (um1 : list (outformat * nunit)) (ue : outformat * nunit) um2 (pm1 : list (outformat * Z)) (pe : outformat * Z) pm2 ex key :
  ~ In (nu_name (snd ue)) ex -> combines key (fst pe) (fst ue) ->
  (forall pe', In pe' pm2 -> ~ combines key (fst pe') (fst ue)) ->
  (forall ue' pe', In ue' um2 -> ~ In (nu_name (snd ue')) ex -> In pe' (pm1 ++ pe :: pm2) -> ~ combines key (fst pe') (fst ue')) ->
  dict_get (prefix_many_to_many (um1 ++ ue :: um2) (pm1 ++ pe :: pm2) ex) key
  = Some (punit (snd (fst pe)) (snd pe) (snd ue)).
Proof.
  intros Hx Hc H2 H3. unfold prefix_many_to_many. rewrite dict_of_items_get, prefix_items_rows, flat_map_app.
  cbn [flat_map]. rewrite !last_binding_app.
  replace (last_binding (flat_map (row (pm1 ++ pe :: pm2) ex) um2) key) with (@None nunit).
  2:{ symmetry. apply last_binding_none. intros H. apply in_map_iff in H as ([k v] & <- & H).
      apply in_flat_map in H as (ue' & Hu & H).
      assert (Hk : In k (map fst (row (pm1 ++ pe :: pm2) ex ue'))) by (apply in_map_iff; exists (k, v); auto).
      apply row_keys in Hk as (Hx' & pe' & Hp & Hc'). exact (H3 ue' pe' Hu Hx' Hp Hc'). }
  apply not_excluded in Hx. replace (row (pm1 ++ pe :: pm2) ex ue) with (flat_map (cell ue) (pm1 ++ pe :: pm2)) by (unfold row; rewrite Hx; reflexivity).
  rewrite flat_map_app. cbn [flat_map].
  rewrite !last_binding_app.
  replace (last_binding (flat_map (cell ue) pm2) key) with (@None nunit).
  2:{ symmetry. apply last_binding_none. intros H. apply in_map_iff in H as ([k v] & <- & H).
      apply in_flat_map in H as (pe' & Hp & H). apply in_cell in H as [H _]. exact (H2 pe' Hp H). }
  replace (last_binding (cell ue pe) key) with (Some (punit (snd (fst pe)) (snd pe) (snd ue))); [reflexivity|].
  symmetry. unfold cell. apply last_binding_const.
  rewrite in_app_iff, !in_join_product. exact Hc.
Qed.

(** ** Prefixing *)
Lemma pow10_scaled k u : canonical (udim u) -> scaled_by_ten k u (pow10_times k u).
Proof.
  intros H. split; [simpl; apply Rmult_comm|]. intros d. apply exp_mulnum, H.
Qed.

Lemma ten_neq : (10 <> 0)%R. Proof. lra. Qed.

Lemma pow10_compose i j u : canonical (udim u) ->
  unit_eqb (pow10_times i (pow10_times j u)) (pow10_times (i + j) u) = true.
Proof.
  intros H. unfold pow10_times. ueq. split.
  - simpl. rewrite powerRZ_add by exact ten_neq. ring.
  - intros k. rewrite !exp_mulnum by cano. reflexivity.
Qed.

Lemma NoDup_app_remove_r {A} (a b : list A) : NoDup (a ++ b) -> NoDup a.
Proof.
  induction a as [|x a IH]; simpl; intros H; [constructor|]. inversion H; subst. constructor; [|auto].
  intros Hi. apply H2. apply in_or_app. auto.
Qed.
Lemma NoDup_app_remove_l {A} (a b : list A) : NoDup (a ++ b) -> NoDup b.
Proof. induction a as [|x a IH]; simpl; intros H; [exact H|]. inversion H; auto. Qed.

(** ** Names only *)
Definition strip (um : list (outformat * nunit)) : list (outformat * string) := map (fun x => (fst x, nu_name (snd x))) um.
Definition prefix_keys (um : list (outformat * string)) (pmap : list (outformat * Z)) (except_ : list string) : list string :=
  flat_map (fun um => if existsb (String.eqb (snd um)) except_ then []
    else flat_map (fun pm : outformat * Z => join_product (fst (fst pm)) (fst (fst um)) ++ join_product (snd (fst pm)) (snd (fst um))) pmap) um.

Lemma map_flat_map {A B C} (f : B -> C) (g : A -> list B) l : map f (flat_map g l) = flat_map (fun x => map f (g x)) l.
Proof. induction l as [|a l IH]; simpl; [reflexivity|]. rewrite map_app, IH. reflexivity. Qed.
Lemma flat_map_map {A B C} (f : A -> B) (g : B -> list C) l : flat_map g (map f l) = flat_map (fun x => g (f x)) l.
Proof. induction l as [|a l IH]; simpl; [reflexivity|]. rewrite IH. reflexivity. Qed.

Lemma prefix_items_keys um pm ex : map fst (prefix_items um pm ex) = prefix_keys (strip um) pm ex.
Proof.
  rewrite prefix_items_rows, map_flat_map. unfold prefix_keys, strip. rewrite flat_map_map. apply flat_map_ext.
  intros ue. unfold row. cbn [fst snd]. destruct (existsb _ ex); [reflexivity|].
  rewrite map_flat_map. apply flat_map_ext. intros pe. unfold cell. rewrite map_map. cbn [fst]. apply map_id.
Qed.

Definition collapse_keys (um : list (outformat * string)) : list string :=
  flat_map (fun kv => unique_everseen [] (fst (fst kv) ++ snd (fst kv))) um.
Lemma collapse_items_keys (um : list (outformat * nunit)) : map fst (collapse_names_items um) = collapse_keys (strip um).
Proof.
  unfold collapse_names_items, collapse_keys, strip. rewrite map_flat_map, flat_map_map. apply flat_map_ext.
  intros kv. rewrite map_map. cbn [fst]. apply map_id.
Qed.

Lemma in_unique_everseen l : forall seen x, In x (unique_everseen seen l) <-> In x l /\ ~ In x seen.
Proof.
  induction l as [|a l IH]; intros seen x; simpl; [tauto|].
  destruct (existsb (String.eqb a) seen) eqn:E.
  - apply existsb_eqb in E. rewrite IH. split; [tauto|]. intros [[->|H] Hn]; tauto.
  - assert (Hn : ~ In a seen) by (rewrite <- existsb_eqb; congruence).
    simpl. rewrite IH. simpl. destruct (string_dec a x) as [->|Hne]; intuition.
Qed.
Lemma in_collapse_items {V} (um : list (outformat * V)) k v : In (k, v) (collapse_names_items um) <->
  exists names abbrevs, In ((names, abbrevs), v) um /\ In k (names ++ abbrevs).
Proof.
  unfold collapse_names_items. rewrite in_flat_map. split.
  - intros ([[ns abs] v'] & H & Hk). cbn [fst snd] in Hk. apply in_map_iff in Hk as (x & E & Hx). inversion E; subst.
    apply in_unique_everseen in Hx as [Hx _]. exists ns, abs. auto.
  - intros (ns & abs & H & Hk). exists ((ns, abs), v). split; [exact H|]. cbn [fst snd]. apply in_map_iff.
    exists k. split; [reflexivity|]. apply in_unique_everseen. auto.
Qed.

(** A quick duplicate check for concrete tables. *)
Fixpoint nodupb (l : list string) : bool :=
  match l with [] => true | a :: l' => negb (existsb (String.eqb a) l') && nodupb l' end.
Lemma nodupb_spec l : nodupb l = true -> NoDup l.
Proof.
  induction l as [|a l IH]; simpl; intros H; [constructor|].
  apply andb_prop in H as [H1 H2]. constructor; [|auto].
  rewrite <- existsb_eqb. destruct (existsb (String.eqb a) l); [discriminate|congruence].
Qed.

Lemma collapse_get (um : list (outformat * nunit)) names abbrevs u k :
  nodupb (collapse_keys (strip um)) = true -> In ((names, abbrevs), u) um -> In k (names ++ abbrevs) ->
  dict_get (collapse_names um) k = Some u.
Proof.
  intros Hn Hi Hk. apply nodupb_spec in Hn. rewrite <- collapse_items_keys in Hn.
  unfold collapse_names. rewrite dict_of_items_id by exact Hn. apply in_dict_get; [exact Hn|].
  apply in_collapse_items. eauto.
Qed.
Lemma collapse_get_none (um : list (outformat * nunit)) k :
  ~ In k (collapse_keys (strip um)) -> dict_get (collapse_names um) k = None.
Proof.
  intros H. apply dict_get_none. unfold collapse_names. rewrite dict_of_items_keys, collapse_items_keys. exact H.
Qed.

Lemma register_fresh (s : scope nunit) ig kw : NoDup (map fst (sc_data s ++ kw)) ->
  sc_data (register_many s ig kw) = sc_data s ++ kw.
Proof.
  revert s. induction kw as [|[k v] kw IH]; intros s H; simpl; [symmetry; apply app_nil_r|].
  assert (Hk : ~ In k (map fst (sc_data s))).
  { rewrite map_app in H. simpl in H. apply NoDup_remove_2 in H. intros Hi. apply H. apply in_or_app. left. exact Hi. }
  assert (E : sc_data (fst (register s k v ig)) = sc_data s ++ [(k, v)]).
  { unfold register. replace (dict_has (sc_data s) k) with false.
    - simpl. apply dict_set_fresh. exact Hk.
    - symmetry. rewrite <- dict_has_in in Hk. destruct (dict_has (sc_data s) k); congruence. }
  rewrite IH; rewrite E, <- app_assoc; [reflexivity|exact H].
Qed.

(** ** The SI tables, names only *)
Definition additional_names := ltac:(let t := eval lazy in (strip additional_unit_map) in exact t).
Definition coherent_names := ltac:(let t := eval lazy in (fun so => strip (coherent_unit_map so)) in
  match t with fun _ => ?x => exact x end).
Definition base_names := ltac:(let t := eval lazy in (strip base_unit_map) in exact t).
Definition gram_names := ltac:(let t := eval lazy in (strip gram_map) in exact t).
Lemma additional_names_eq : strip additional_unit_map = additional_names. Proof. lazy. reflexivity. Qed.
Lemma coherent_names_eq so : strip (coherent_unit_map so) = coherent_names. Proof. lazy. reflexivity. Qed.
Lemma base_names_eq : strip base_unit_map = base_names. Proof. lazy. reflexivity. Qed.
Lemma gram_names_eq : strip gram_map = gram_names. Proof. lazy. reflexivity. Qed.

Lemma strip_app a b : strip (a ++ b) = strip a ++ strip b.
Proof. apply map_app. Qed.
Definition prefixable_names := gram_names ++ coherent_names ++ base_names.
Lemma prefixable_names_eq so : strip (si_prefixable so) = prefixable_names.
Proof. unfold si_prefixable. rewrite !strip_app, gram_names_eq, coherent_names_eq, base_names_eq. reflexivity. Qed.

Definition si_prefix_keys := prefix_keys prefixable_names prefix_map ["kg"].
Lemma si_keys_nodup : nodupb (collapse_keys gram_names ++ si_prefix_keys) = true.
Proof. vm_compute. reflexivity. Qed.

Lemma prefixed_module_eq so : prefixed_module so = collapse_names gram_map ++ prefix_items (si_prefixable so) prefix_map ["kg"].
Proof.
  pose proof (nodupb_spec _ si_keys_nodup) as H.
  assert (Hk : map fst (collapse_names_items gram_map ++ prefix_items (si_prefixable so) prefix_map ["kg"])
               = collapse_keys gram_names ++ si_prefix_keys).
  { rewrite map_app, collapse_items_keys, gram_names_eq, prefix_items_keys, prefixable_names_eq. reflexivity. }
  assert (H1 : NoDup (map fst (collapse_names_items gram_map))).
  { rewrite map_app in Hk. rewrite <- Hk in H. eapply NoDup_app_remove_r. exact H. }
  assert (H2 : NoDup (map fst (prefix_items (si_prefixable so) prefix_map ["kg"]))).
  { rewrite map_app in Hk. rewrite <- Hk in H. eapply NoDup_app_remove_l. exact H. }
  unfold prefixed_module, si_prefixed, prefix_many_to_many, collapse_names.
  rewrite !dict_of_items_id by assumption.
  assert (E1 : sc_data (register_many (scope_new []) false (collapse_names_items gram_map)) = collapse_names_items gram_map)
    by (rewrite register_fresh; [reflexivity|exact H1]).
  rewrite register_fresh; rewrite E1; [reflexivity|]. rewrite Hk. exact H.
Qed.

Lemma collapse_nodup (um : list (outformat * nunit)) : NoDup (map fst (collapse_names um)).
Proof. apply dict_of_items_nodup. Qed.

Lemma si_lookup so k : dict_get (si_namespace so) k =
  match dict_get (collapse_names base_unit_map) k with Some v => Some v | None =>
  match dict_get (collapse_names (coherent_unit_map so)) k with Some v => Some v | None =>
  match dict_get (collapse_names additional_unit_map) k with Some v => Some v | None =>
  dict_get (prefixed_module so) k end end end.
Proof.
  unfold si_namespace, star_imports. cbn [fold_left].
  assert (Hm : NoDup (map fst (prefixed_module so))).
  { rewrite prefixed_module_eq. pose proof (nodupb_spec _ si_keys_nodup) as H.
    rewrite map_app. replace (map fst (collapse_names gram_map)) with (collapse_keys gram_names).
    - rewrite prefix_items_keys, prefixable_names_eq. exact H.
    - unfold collapse_names. rewrite dict_of_items_id.
      + rewrite collapse_items_keys, gram_names_eq. reflexivity.
      + unfold dict_keys. rewrite collapse_items_keys, gram_names_eq. eapply NoDup_app_remove_r. exact H. }
  pose proof (collapse_nodup base_unit_map) as Hb. pose proof (collapse_nodup (coherent_unit_map so)) as Hc.
  pose proof (collapse_nodup additional_unit_map) as Ha. revert Hm Hb Hc Ha.
  generalize (collapse_names base_unit_map) (collapse_names (coherent_unit_map so))
    (collapse_names additional_unit_map) (prefixed_module so).
  intros mb mc ma mp Hm Hb Hc Ha. rewrite !dict_get_update by assumption.
  destruct (dict_get mb k); [reflexivity|]. destruct (dict_get mc k); [reflexivity|].
  destruct (dict_get ma k); [reflexivity|]. destruct (dict_get mp k); reflexivity.
Qed.
