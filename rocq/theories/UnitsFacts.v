From Coq Require Import ZArith QArith Qcanon Qabs String List Bool Reals Lia Lra Permutation Sorted OrderedTypeEx.
From Verif Require Import Frac FracFacts Units UnitSpec.
Import ListNotations.
Open Scope list_scope.

(** ** Dicts *)
Lemma dict_get_set {V} (d : list (string * V)) k v k' :
  dict_get (dict_set d k v) k' = if String.eqb k' k then Some v else dict_get d k'.
Proof.
  induction d as [|[k0 v0] d IH]; simpl.
  - reflexivity.
  - destruct (String.eqb_spec k k0) as [->|Hk]; simpl.
    + destruct (String.eqb_spec k' k0); reflexivity.
    + destruct (String.eqb_spec k' k0) as [->|Hk'].
      * destruct (String.eqb_spec k0 k); [congruence|reflexivity].
      * exact IH.
Qed.

Lemma dict_set_fresh {V} (d : list (string * V)) k v :
  ~ In k (dict_keys d) -> dict_set d k v = d ++ [(k, v)].
Proof.
  induction d as [|[k0 v0] d IH]; simpl; intros H; [reflexivity|].
  destruct (String.eqb_spec k k0) as [->|Hk]; [tauto|]. rewrite IH by tauto. reflexivity.
Qed.

Lemma dict_keys_set {V} (d : list (string * V)) k v x :
  In x (dict_keys (dict_set d k v)) <-> x = k \/ In x (dict_keys d).
Proof.
  induction d as [|[k0 v0] d IH]; simpl; [intuition|].
  destruct (String.eqb_spec k k0) as [->|Hk]; simpl; [intuition|].
  rewrite IH. intuition.
Qed.

Lemma dict_set_nodup {V} (d : list (string * V)) k v :
  NoDup (dict_keys d) -> NoDup (dict_keys (dict_set d k v)).
Proof.
  induction d as [|[k0 v0] d IH]; simpl; intros H.
  - constructor; [simpl; tauto|constructor].
  - inversion H as [|? ? Hn Hd]; subst. destruct (String.eqb_spec k k0) as [->|Hk]; simpl.
    + constructor; assumption.
    + constructor; [|apply IH; assumption].
      rewrite dict_keys_set. intros [E|E]; congruence || tauto.
Qed.

Lemma dict_fold_app {V} (l : list (string * V)) : forall d,
  NoDup (dict_keys (d ++ l)) ->
  fold_left (fun d kv => dict_set d (fst kv) (snd kv)) l d = d ++ l.
Proof.
  induction l as [|[k v] l IH]; intros d H; simpl; [symmetry; apply app_nil_r|].
  assert (Hk : ~ In k (dict_keys d)).
  { unfold dict_keys in *. rewrite map_app in H. simpl in H. apply NoDup_remove_2 in H.
    intros Hi. apply H. apply in_or_app. left. exact Hi. }
  rewrite dict_set_fresh by exact Hk.
  rewrite IH; [rewrite <- app_assoc; reflexivity|]. rewrite <- app_assoc. exact H.
Qed.

(** Rebuilding a dict from its own (unique-key) items changes nothing. *)
Lemma dict_of_items_id {V} (l : list (string * V)) : NoDup (dict_keys l) -> dict_of_items l = l.
Proof. intros H. apply (dict_fold_app l []). exact H. Qed.

Lemma dict_fold_nodup {V} (l : list (string * V)) : forall d, NoDup (dict_keys d) ->
  NoDup (dict_keys (fold_left (fun d kv => dict_set d (fst kv) (snd kv)) l d)).
Proof. induction l as [|[k v] l IH]; intros d H; simpl; [exact H|]. apply IH, dict_set_nodup, H. Qed.

Lemma dict_of_items_nodup {V} (l : list (string * V)) : NoDup (dict_keys (dict_of_items l)).
Proof. apply dict_fold_nodup. constructor. Qed.

Lemma dict_fold_get {V} (l : list (string * V)) : forall d k,
  dict_get (fold_left (fun d kv => dict_set d (fst kv) (snd kv)) l d) k =
  match last_binding l k with Some w => Some w | None => dict_get d k end.
Proof.
  induction l as [|[k0 v0] l IH]; intros d k; simpl; [reflexivity|].
  rewrite IH. destruct (last_binding l k); [reflexivity|].
  rewrite dict_get_set. destruct (String.eqb k k0); reflexivity.
Qed.

Lemma dict_of_items_get {V} (l : list (string * V)) k : dict_get (dict_of_items l) k = last_binding l k.
Proof. unfold dict_of_items. rewrite dict_fold_get. destruct (last_binding l k); reflexivity. Qed.

Lemma dict_get_in {V} (d : list (string * V)) k v : dict_get d k = Some v -> In (k, v) d.
Proof.
  induction d as [|[k0 v0] d IH]; simpl; [discriminate|].
  destruct (String.eqb_spec k k0) as [->|]; intros H; [left; congruence|right; auto].
Qed.

Lemma in_dict_get {V} (d : list (string * V)) k v : NoDup (dict_keys d) -> In (k, v) d -> dict_get d k = Some v.
Proof.
  induction d as [|[k0 v0] d IH]; simpl; [tauto|]. intros H [E|E].
  - injection E as -> ->. rewrite String.eqb_refl. reflexivity.
  - inversion H as [|? ? Hn Hd]; subst. destruct (String.eqb_spec k k0) as [->|].
    + exfalso. apply Hn. apply in_map with (f := fst) in E. exact E.
    + apply IH; assumption.
Qed.

Lemma dict_get_none {V} (d : list (string * V)) k : dict_get d k = None <-> ~ In k (dict_keys d).
Proof.
  induction d as [|[k0 v0] d IH]; simpl; [intuition|].
  destruct (String.eqb_spec k k0) as [->|]; [split; [discriminate|intuition]|]. rewrite IH. intuition.
Qed.

(** ** Canonical dimensions *)
Lemma qc_eqb_true a b : Qc_eq_bool a b = true <-> a = b.
Proof.
  split; [apply Qc_eq_bool_correct|]. intros ->. unfold Qc_eq_bool. destruct (Qc_eq_dec b b); tauto.
Qed.

Lemma qc_eqb_false a b : Qc_eq_bool a b = false <-> a <> b.
Proof. rewrite <- qc_eqb_true. destruct (Qc_eq_bool a b); intuition congruence. Qed.

Lemma nodup_map_filter {A B} (f : A -> B) (p : A -> bool) l : NoDup (map f l) -> NoDup (map f (filter p l)).
Proof.
  induction l as [|a l IH]; simpl; intros H; [constructor|].
  inversion H as [|? ? Hn Hd]; subst. destruct (p a); simpl; [|auto].
  constructor; [|auto]. intros Hi. apply Hn. apply in_map_iff in Hi as (x & E & Hx).
  apply filter_In in Hx. apply in_map_iff. exists x. tauto.
Qed.

Definition norm_items (d : list (string * Qc)) : dims :=
  filter (fun kv => negb (Qc_eq_bool (snd kv) 0)) (map (fun kv => (fst kv, limit (snd kv))) d).

Lemma keys_map_snd (f : Qc -> Qc) (d : dims) : dict_keys (map (fun kv => (fst kv, f (snd kv))) d) = dict_keys d.
Proof. unfold dict_keys. rewrite map_map. reflexivity. Qed.

Lemma norm_items_nodup d : NoDup (dict_keys d) -> NoDup (dict_keys (norm_items d)).
Proof.
  intros H. unfold norm_items, dict_keys. apply nodup_map_filter.
  fold (dict_keys (map (fun kv : string * Qc => (fst kv, limit (snd kv))) d)).
  rewrite keys_map_snd. exact H.
Qed.

Lemma unitbase_init_eq items : unitbase_init items = norm_items (dict_of_items items).
Proof. unfold unitbase_init. apply dict_of_items_id. apply norm_items_nodup, dict_of_items_nodup. Qed.

Lemma max_den_pos : (1 <= max_den)%Z. Proof. unfold max_den; lia. Qed.

Lemma unitbase_init_canonical items : canonical (unitbase_init items).
Proof.
  rewrite unitbase_init_eq. split; [apply norm_items_nodup, dict_of_items_nodup|].
  apply Forall_forall. intros [k v] Hi. unfold norm_items in Hi. apply filter_In in Hi as [Hi Hn].
  apply in_map_iff in Hi as ([k' v'] & E & _). simpl in *. injection E as -> <-.
  split; [|apply limit_den, max_den_pos].
  apply negb_true_iff, qc_eqb_false in Hn. exact Hn.
Qed.

Lemma limit_0 : limit 0 = 0%Qc.
Proof. apply limit_id. unfold fden, max_den; simpl; lia. Qed.

Lemma getd_norm d k : NoDup (dict_keys d) -> getd (norm_items d) k = limit (getd d k).
Proof.
  induction d as [|[k0 v0] d IH]; intros H; [unfold getd; simpl; symmetry; apply limit_0|].
  inversion H as [|? ? Hn Hd]; subst. specialize (IH Hd).
  unfold norm_items. simpl. destruct (Qc_eq_bool (limit v0) 0) eqn:E; simpl.
  - fold (norm_items d). unfold getd at 2. simpl. destruct (String.eqb_spec k k0) as [->|Hk].
    + apply qc_eqb_true in E. rewrite E.
      unfold getd. replace (dict_get (norm_items d) k0) with (@None Qc); [reflexivity|].
      symmetry. apply dict_get_none. intros Hi. apply Hn.
      unfold norm_items, dict_keys in Hi. apply in_map_iff in Hi as (x & Ex & Hx).
      apply filter_In in Hx as [Hx _]. apply in_map_iff in Hx as (y & Ey & Hy).
      subst. apply in_map_iff. exists y. split; [reflexivity|exact Hy].
    + fold (getd d k). exact IH.
  - fold (norm_items d). unfold getd in *. simpl. destruct (String.eqb_spec k k0); [reflexivity|exact IH].
Qed.

Lemma getd_init items k :
  getd (unitbase_init items) k = limit (match last_binding items k with Some v => v | None => 0%Qc end).
Proof.
  rewrite unitbase_init_eq, getd_norm by apply dict_of_items_nodup.
  unfold getd. rewrite dict_of_items_get. destruct (last_binding items k); reflexivity.
Qed.

Lemma getd_init_nodup items k : NoDup (dict_keys items) ->
  getd (unitbase_init items) k = limit (getd items k).
Proof.
  intros H. rewrite unitbase_init_eq, (dict_of_items_id items H). apply getd_norm, H.
Qed.

Lemma getd_den d k : canonical d -> (fden (getd d k) <= max_den)%Z.
Proof.
  intros [_ H]. unfold getd. destruct (dict_get d k) as [v|] eqn:E.
  - apply dict_get_in in E. rewrite Forall_forall in H. apply (H _ E).
  - unfold fden, max_den; simpl; lia.
Qed.

Lemma limit_getd d k : canonical d -> limit (getd d k) = getd d k.
Proof. intros H. apply limit_id, getd_den, H. Qed.

Lemma getd_none d k : ~ In k (dict_keys d) -> getd d k = 0%Qc.
Proof. intros H. apply dict_get_none in H. unfold getd. rewrite H. reflexivity. Qed.

Lemma getd_nonzero d k : canonical d -> (getd d k <> 0%Qc <-> In k (dict_keys d)).
Proof.
  intros [_ H]. unfold getd. destruct (dict_get d k) as [v|] eqn:E.
  - apply dict_get_in in E. rewrite Forall_forall in H. destruct (H _ E) as [Hv _].
    split; [|intros _; exact Hv]. intros _. apply in_map with (f := fst) in E. exact E.
  - apply dict_get_none in E. split; [intros X; exfalso; apply X; reflexivity|tauto].
Qed.

Lemma dict_get_keyed (f : string -> Qc) l k :
  dict_get (map (fun k => (k, f k)) l) k = if in_dec string_dec k l then Some (f k) else None.
Proof.
  induction l as [|a l IH]; simpl; [reflexivity|].
  destruct (String.eqb_spec k a) as [->|Hk].
  - destruct (string_dec a a); [reflexivity|congruence].
  - rewrite IH. destruct (string_dec a k); [congruence|]. destruct (in_dec string_dec k l); reflexivity.
Qed.

Lemma getd_operate_other so op u v k : op 0%Qc 0%Qc = 0%Qc ->
  getd (operate_other so op u v) k = limit (op (getd u k) (getd v k)).
Proof.
  intros H0. unfold operate_other. rewrite getd_init_nodup.
  - f_equal. unfold getd at 1. rewrite dict_get_keyed.
    destruct (in_dec string_dec k (so_iter so (dict_keys u ++ dict_keys v))) as [Hi|Hi]; [reflexivity|].
    rewrite so_elems, in_app_iff in Hi.
    rewrite !getd_none by tauto. symmetry. exact H0.
  - unfold dict_keys at 1. rewrite map_map. simpl. rewrite map_id. apply so_nodup.
Qed.

Lemma getd_map_snd (f : Qc -> Qc) d k : f 0%Qc = 0%Qc ->
  getd (map (fun kv => (fst kv, f (snd kv))) d) k = f (getd d k).
Proof.
  intros H0. induction d as [|[k0 v0] d IH]; [unfold getd; simpl; symmetry; exact H0|].
  unfold getd in *. simpl. destruct (String.eqb k k0); [reflexivity|exact IH].
Qed.

Lemma getd_operate_self op u k : NoDup (dict_keys u) -> op 0%Qc = 0%Qc ->
  getd (operate_self op u) k = limit (op (getd u k)).
Proof.
  intros Hn H0. unfold operate_self. rewrite getd_init_nodup.
  - rewrite getd_map_snd by exact H0. reflexivity.
  - unfold dict_keys. rewrite map_map. exact Hn.
Qed.

Lemma getd_dmul so u v k : getd (dmul so u v) k = limit (getd u k + getd v k)%Qc.
Proof. apply (getd_operate_other so Qcplus). reflexivity. Qed.

Lemma getd_dpow u p k : canonical u -> getd (dpow u p) k = limit (getd u k * p)%Qc.
Proof. intros [H _]. apply (getd_operate_self (fun v => Qcmult v p)); [exact H|ring]. Qed.

Lemma getd_dinv u k : canonical u -> getd (dinv u) k = (- getd u k)%Qc.
Proof.
  intros H. unfold dinv. rewrite getd_operate_self; [|apply H|reflexivity].
  apply limit_id. rewrite fden_opp. apply getd_den, H.
Qed.

Lemma fint_m1 x : (x * fint (-1) = - x)%Qc.
Proof. replace (fint (-1)) with (- (1))%Qc by (apply Qc_is_canon; reflexivity). ring. Qed.

Lemma getd_dpow_m1 u k : canonical u -> getd (dpow u (fint (-1))) k = (- getd u k)%Qc.
Proof.
  intros H. rewrite getd_dpow, fint_m1 by exact H.
  apply limit_id. rewrite fden_opp. apply getd_den, H.
Qed.

Lemma canonical_dmul so u v : canonical (dmul so u v). Proof. apply unitbase_init_canonical. Qed.
Lemma canonical_dpow u p : canonical (dpow u p). Proof. apply unitbase_init_canonical. Qed.
Lemma canonical_dinv u : canonical (dinv u). Proof. apply unitbase_init_canonical. Qed.

Lemma ueval_canonical so e : canonical (udim (ueval so e)).
Proof. destruct e; apply unitbase_init_canonical. Qed.

Lemma unitbase_init_idem d : canonical d -> unitbase_init d = d.
Proof.
  intros [Hn Hf]. rewrite unitbase_init_eq, dict_of_items_id by exact Hn.
  clear Hn. induction Hf as [|[k v] d [Hv Hd] Hf IH]; [reflexivity|]. simpl in *.
  unfold norm_items in *. simpl. rewrite (limit_small v Hd).
  replace (Qc_eq_bool v 0) with false by (symmetry; apply qc_eqb_false, Hv). simpl. f_equal. exact IH.
Qed.

(** ** Equality *)
Lemma dict_eqb_spec d1 d2 : canonical d1 -> canonical d2 ->
  (dict_eqb d1 d2 = true <-> forall k, getd d1 k = getd d2 k).
Proof.
  intros H1 H2. unfold dict_eqb. rewrite andb_true_iff, Nat.eqb_eq, forallb_forall. split.
  - intros [Hl Hall] k.
    assert (Hk1 : incl (dict_keys d1) (dict_keys d2)).
    { intros x Hx. apply in_map_iff in Hx as ([k' v] & <- & Hx). specialize (Hall _ Hx). simpl in *.
      destruct (dict_get d2 k') eqn:E; [|discriminate].
      apply dict_get_in in E. apply in_map with (f := fst) in E. exact E. }
    assert (Hk2 : incl (dict_keys d2) (dict_keys d1)).
    { apply NoDup_length_incl; [apply H1| |exact Hk1]. unfold dict_keys. rewrite !map_length. lia. }
    destruct (in_dec string_dec k (dict_keys d1)) as [Hi|Hi].
    + apply in_map_iff in Hi as ([k' v] & E & Hx). simpl in E. subst k'.
      specialize (Hall _ Hx). simpl in Hall. unfold getd.
      rewrite (in_dict_get d1 k v (proj1 H1) Hx).
      destruct (dict_get d2 k); [|discriminate]. apply qc_eqb_true in Hall. exact Hall.
    + rewrite !getd_none; auto.
  - intros H.
    assert (Hkeys : forall k, In k (dict_keys d1) <-> In k (dict_keys d2)).
    { intros k. rewrite <- !getd_nonzero by assumption. rewrite H. reflexivity. }
    split.
    + rewrite <- (map_length fst d1), <- (map_length fst d2).
      apply Permutation_length. apply NoDup_Permutation; [apply H1|apply H2|exact Hkeys].
    + intros [k v] Hx. simpl.
      pose proof (in_dict_get d1 k v (proj1 H1) Hx) as E.
      assert (Hk : In k (dict_keys d2)) by (apply Hkeys; apply in_map with (f := fst) in Hx; exact Hx).
      specialize (H k). unfold getd in H. rewrite E in H.
      destruct (dict_get d2 k) eqn:E2; [apply qc_eqb_true; exact H|].
      apply dict_get_none in E2. tauto.
Qed.

Lemma unit_eqb_spec u v : canonical (udim u) -> canonical (udim v) ->
  (unit_eqb u v = true <-> uval u = uval v /\ forall k, getd (udim u) k = getd (udim v) k).
Proof.
  intros H1 H2. unfold unit_eqb. rewrite andb_true_iff, dict_eqb_spec by assumption.
  destruct (Req_EM_T (uval u) (uval v)); intuition congruence.
Qed.

(** ** Sorting of items *)
Definition key_lt (a b : string * Qc) : Prop := String_as_OT.lt (fst a) (fst b).

Lemma insert_item_perm a l : Permutation (a :: l) (insert_item a l).
Proof.
  induction l as [|b l IH]; simpl; [constructor; constructor|].
  destruct (item_leb a b); [reflexivity|].
  etransitivity; [apply perm_swap|]. constructor. exact IH.
Qed.

Lemma sorted_items_perm l : Permutation l (sorted_items l).
Proof.
  induction l as [|a l IH]; simpl; [constructor|].
  etransitivity; [|apply insert_item_perm]. constructor. exact IH.
Qed.

Lemma insert_item_sorted a l :
  ~ In (fst a) (dict_keys l) -> StronglySorted key_lt l -> StronglySorted key_lt (insert_item a l).
Proof.
  intros Hn Hs. induction l as [|b l IH]; simpl.
  - constructor; constructor.
  - inversion Hs as [|? ? Hs' Hf]; subst.
    assert (Hneq : fst a <> fst b) by (intros E; apply Hn; left; congruence).
    unfold item_leb. destruct (String.compare (fst a) (fst b)) eqn:E.
    + apply String.compare_eq_iff in E. congruence.
    + assert (Hlt : key_lt a b) by (apply String_as_OT.cmp_lt; exact E).
      constructor; [exact Hs|]. constructor; [exact Hlt|].
      eapply Forall_impl; [|exact Hf]. intros c Hc. eapply String_as_OT.lt_trans; eassumption.
    + constructor; [apply IH; [intros X; apply Hn; right; exact X|exact Hs']|].
      assert (Hlt : key_lt b a).
      { apply String_as_OT.cmp_lt. unfold String_as_OT.cmp. rewrite String.compare_antisym, E. reflexivity. }
      apply Forall_forall. intros c Hc.
      apply (Permutation_in _ (Permutation_sym (insert_item_perm a l))) in Hc.
      destruct Hc as [<-|Hc]; [exact Hlt|]. rewrite Forall_forall in Hf. apply Hf, Hc.
Qed.

Lemma sorted_items_sorted l : NoDup (dict_keys l) -> StronglySorted key_lt (sorted_items l).
Proof.
  induction l as [|a l IH]; simpl; intros H; [constructor|].
  inversion H as [|? ? Hn Hd]; subst. apply insert_item_sorted; [|auto].
  intros Hi. apply Hn. unfold dict_keys in *.
  eapply Permutation_in; [|exact Hi]. apply Permutation_map, Permutation_sym, sorted_items_perm.
Qed.

Lemma key_lt_irrefl a : ~ key_lt a a.
Proof. intros H. exact (String_as_OT.lt_not_eq _ _ H eq_refl). Qed.

Lemma sorted_unique (l1 : dims) : forall l2, StronglySorted key_lt l1 -> StronglySorted key_lt l2 ->
  Permutation l1 l2 -> l1 = l2.
Proof.
  induction l1 as [|a l1 IH]; intros l2 S1 S2 P.
  - apply Permutation_nil in P. congruence.
  - destruct l2 as [|b l2]; [apply Permutation_sym, Permutation_nil in P; discriminate|].
    inversion S1 as [|? ? S1' F1]; inversion S2 as [|? ? S2' F2]; subst.
    assert (E : a = b).
    { assert (Ha : In a (b :: l2)) by (eapply Permutation_in; [exact P|left; reflexivity]).
      assert (Hb : In b (a :: l1)) by (eapply Permutation_in; [apply Permutation_sym, P|left; reflexivity]).
      destruct Ha as [Ha|Ha]; [congruence|]. destruct Hb as [Hb|Hb]; [congruence|].
      rewrite Forall_forall in F1, F2. specialize (F1 _ Hb). specialize (F2 _ Ha).
      exfalso. apply (key_lt_irrefl a). eapply String_as_OT.lt_trans; eassumption. }
    subst b. f_equal. apply IH; try assumption. eapply Permutation_cons_inv. exact P.
Qed.

Lemma canonical_items_perm d1 d2 : canonical d1 -> canonical d2 ->
  (forall k, getd d1 k = getd d2 k) -> Permutation d1 d2.
Proof.
  intros H1 H2 H. apply NoDup_Permutation.
  - destruct H1 as [Hn _]. unfold dict_keys in Hn. eapply NoDup_map_inv. exact Hn.
  - destruct H2 as [Hn _]. unfold dict_keys in Hn. eapply NoDup_map_inv. exact Hn.
  - assert (X : forall d d', canonical d -> canonical d' -> (forall k, getd d k = getd d' k) ->
        forall kv, In kv d -> In kv d').
    { intros d d' Hd Hd' He [k v] Hi. pose proof (in_dict_get d k v (proj1 Hd) Hi) as E.
      specialize (He k). unfold getd in He. rewrite E in He.
      destruct Hd as [_ Hf]. rewrite Forall_forall in Hf. destruct (Hf _ Hi) as [Hv _]. simpl in Hv.
      destruct (dict_get d' k) eqn:E2; [|congruence]. apply dict_get_in in E2. congruence. }
    intros kv. split; apply X; auto.
Qed.

Lemma hash_key_eq d1 d2 : canonical d1 -> canonical d2 ->
  (forall k, getd d1 k = getd d2 k) -> base_hash_key d1 = base_hash_key d2.
Proof.
  intros H1 H2 H. apply sorted_unique; try (apply sorted_items_sorted; [apply H1 || apply H2]).
  rewrite <- !sorted_items_perm. apply canonical_items_perm; assumption.
Qed.

(** ** Real powers *)
Lemma rpow_int v n : rpow v (fint n) = powerRZ v n.
Proof.
  unfold rpow. assert (E1 : fden (fint n) = 1%Z) by (apply frac_den_coprime; [lia|apply Z.gcd_1_r]).
  rewrite E1. simpl. f_equal. pose proof (frac_spec n 1 ltac:(lia)) as E. fold (fint n) in E. rewrite E1 in E. lia.
Qed.

Lemma fint_mul m n : (fint m * fint n)%Qc = fint (m * n).
Proof.
  apply Qc_is_canon. unfold Qcmult, fint. cbn [this Q2Qc]. rewrite Qred_correct.
  rewrite !frac_Qeq by lia. unfold Qeq. simpl. ring.
Qed.

Lemma fint_plus m n : (fint m + fint n)%Qc = fint (m + n).
Proof. unfold fint. apply frac_plus. lia. Qed.

Definition Qc2R (p : Qc) : R := (IZR (fnum p) / IZR (fden p))%R.

Lemma rpow_pos v p : (0 < v)%R -> rpow v p = Rpower v (Qc2R p).
Proof.
  intros Hv. unfold rpow, Qc2R. destruct (Z.eqb_spec (fden p) 1) as [E|E]; [|reflexivity].
  rewrite E. unfold Rdiv. rewrite Rinv_1, Rmult_1_r. rewrite powerRZ_Rpower by exact Hv. reflexivity.
Qed.

Lemma Qc2R_mul p q : (Qc2R (p * q)%Qc = Qc2R p * Qc2R q)%R.
Proof.
  rewrite frac_mul_num. set (P := (fnum p * fnum q)%Z). set (Q := (fden p * fden q)%Z).
  assert (HQ : (0 < Q)%Z) by (pose proof (fden_pos p); pose proof (fden_pos q); unfold Q; nia).
  pose proof (frac_spec P Q HQ) as E. apply (f_equal IZR) in E. rewrite !mult_IZR in E.
  unfold Qc2R at 1.
  assert (Hd : forall z, IZR (fden z) <> 0%R) by (intros z; apply IZR_neq; pose proof (fden_pos z); lia).
  assert (HQ' : IZR Q <> 0%R) by (apply IZR_neq; lia).
  apply Rmult_eq_reg_r with (IZR (fden (frac P Q)) * IZR Q)%R; [|apply Rmult_integral_contrapositive; auto].
  transitivity (IZR (fnum (frac P Q)) * IZR Q)%R; [field; apply Hd|]. rewrite E.
  unfold P, Q, Qc2R. rewrite !mult_IZR. field. split; apply Hd.
Qed.

Lemma Qc2R_int n : Qc2R (fint n) = IZR n.
Proof.
  assert (E1 : fden (fint n) = 1%Z) by (apply frac_den_coprime; [lia|apply Z.gcd_1_r]).
  pose proof (frac_spec n 1 ltac:(lia)) as E. fold (fint n) in E. rewrite E1 in E.
  unfold Qc2R. rewrite E1. replace (fnum (fint n)) with n by lia. field.
Qed.

(** ** Summary lemmas used by the property files *)
Lemma exponent_getd u k : exponent u k = getd (udim u) k.
Proof.
  unfold exponent, getd. induction (udim u) as [|[k0 v0] d IH]; [reflexivity|]. cbn [List.find dict_get fst].
  rewrite String.eqb_sym. destruct (String.eqb k k0); [reflexivity|exact IH].
Qed.

Lemma eqb_exponents u v : canonical (udim u) -> canonical (udim v) ->
  (unit_eqb u v = true <-> uval u = uval v /\ forall k, exponent u k = exponent v k).
Proof.
  intros H1 H2. rewrite unit_eqb_spec by assumption.
  split; intros [A B]; (split; [exact A|]); intros k; specialize (B k); rewrite ?exponent_getd in *; exact B.
Qed.

Lemma exp_mul so u v k : exponent (umul so u v) k = limit (exponent u k + exponent v k)%Qc.
Proof. rewrite !exponent_getd. apply getd_dmul. Qed.
Lemma exp_pow u p k : canonical (udim u) -> exponent (upow u p) k = limit (exponent u k * p)%Qc.
Proof. intros H. rewrite !exponent_getd. apply getd_dpow, H. Qed.
Lemma exp_inv u k : canonical (udim u) -> exponent (uinv u) k = (- exponent u k)%Qc.
Proof. intros H. rewrite !exponent_getd. apply getd_dinv, H. Qed.
Lemma exp_div so u v k : canonical (udim v) -> exponent (udiv so u v) k = limit (exponent u k - exponent v k)%Qc.
Proof.
  intros H. unfold udiv. rewrite exp_mul, exp_pow by exact H. rewrite fint_m1.
  rewrite (limit_small (- exponent v k)%Qc); [reflexivity|].
  rewrite fden_opp, exponent_getd. apply getd_den, H.
Qed.
Lemma exp_mulnum u r k : canonical (udim u) -> exponent (umulnum u r) k = exponent u k.
Proof. intros H. rewrite !exponent_getd. simpl. rewrite unitbase_init_idem by exact H. reflexivity. Qed.
Lemma exp_one k : exponent unit_one k = 0%Qc.
Proof. reflexivity. Qed.
Lemma exp_limit u k : canonical (udim u) -> limit (exponent u k) = exponent u k.
Proof. intros H. rewrite exponent_getd. apply limit_getd, H. Qed.
Lemma exp_den u k : canonical (udim u) -> (fden (exponent u k) <= max_den)%Z.
Proof. intros H. rewrite exponent_getd. apply getd_den, H. Qed.
Lemma exp_zmul u k n : canonical (udim u) -> limit (exponent u k * fint n)%Qc = (exponent u k * fint n)%Qc.
Proof.
  intros H. apply (limit_on_grid max_den (fden (exponent u k))).
  - split; [apply fden_pos|apply exp_den, H].
  - apply on_grid_zmul, on_grid_self.
Qed.

Lemma last_binding_in {V} (l : list (string * V)) k v : last_binding l k = Some v -> In (k, v) l.
Proof.
  induction l as [|[k0 v0] l IH]; simpl; [discriminate|].
  destruct (last_binding l k) as [w|]; [intros E; right; auto|].
  destruct (String.eqb_spec k k0) as [->|]; [intros E; left; congruence|discriminate].
Qed.

Lemma paper_on_grid N e k : (0 < N)%Z -> on_paper_grid N e -> on_grid N (paper_exponent e k).
Proof.
  intros HN. induction e as [items v|a IHa b IHb|a IHa b IHb|a IHa|a IHa p|a IHa r|a IHa r|r a IHa]; simpl; intros H.
  - destruct (last_binding items k) as [w|] eqn:E; [|apply on_grid_0].
    apply last_binding_in in E. rewrite Forall_forall in H. apply (H _ E).
  - apply on_grid_add; tauto.
  - apply on_grid_add; [exact HN|tauto|apply on_grid_opp; tauto].
  - apply on_grid_opp; auto.
  - destruct H as [Hp H]. replace p with (fint (fnum p)); [apply on_grid_zmul; auto|].
    unfold fint. rewrite <- Hp. apply frac_id.
  - auto.
  - auto.
  - apply on_grid_opp; auto.
Qed.

Lemma grid_exact_lemma so N e k : (0 < N <= max_den)%Z -> on_paper_grid N e ->
  exponent (ueval so e) k = paper_exponent e k.
Proof.
  intros HN H. pose proof (paper_on_grid N e k (proj1 HN) H) as Hg.
  revert H Hg. induction e as [items v|a IHa b IHb|a IHa b IHb|a IHa|a IHa p|a IHa r|a IHa r|r a IHa]; cbn [ueval on_paper_grid]; intros H Hg;
    pose proof (fun a => paper_on_grid N a k (proj1 HN)) as HP.
  - rewrite exponent_getd. simpl. rewrite getd_init. apply (limit_on_grid max_den N); [exact HN|]. exact Hg.
  - rewrite exp_mul. rewrite IHa, IHb by (try apply HP; tauto). apply (limit_on_grid max_den N); [exact HN|]. exact Hg.
  - rewrite exp_div by apply ueval_canonical. rewrite IHa, IHb by (try apply HP; tauto). apply (limit_on_grid max_den N); [exact HN|]. exact Hg.
  - rewrite exp_inv by apply ueval_canonical. rewrite IHa by (try apply HP; tauto). reflexivity.
  - rewrite exp_pow by apply ueval_canonical. rewrite IHa by (try apply HP; tauto). apply (limit_on_grid max_den N); [exact HN|]. exact Hg.
  - rewrite exp_mulnum by apply ueval_canonical. rewrite IHa by (try apply HP; tauto). reflexivity.
  - unfold udivnum. rewrite exp_mulnum by apply ueval_canonical. rewrite IHa by (try apply HP; tauto). reflexivity.
  - unfold urdiv. rewrite exp_mulnum by apply canonical_dinv. rewrite exp_inv by apply ueval_canonical.
    rewrite IHa by (try apply HP; tauto). reflexivity.
Qed.
