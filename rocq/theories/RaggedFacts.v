From Coq Require Import List Bool Arith Lia.
From Verif Require Import Ragged RaggedSpec.
Import ListNotations.

Lemma nested_ind' (P : nested -> Prop) : (forall n, P (Num n)) -> (forall l, Forall P l -> P (Lst l)) -> forall t, P t.
Proof. intros H1 H2. fix IH 1. intros [n|l]; [apply H1|]. apply H2. induction l; constructor; auto. Qed.

Fixpoint nodes (m : nat) (t : nested) : list nested := match m with O => [t] | S m' => flat_map (nodes m') (kids_of t) end.

(** ** lists *)
Lemma flat_map_ext_in' {A B} (f g : A -> list B) l : (forall x, In x l -> f x = g x) -> flat_map f l = flat_map g l.
Proof. induction l; simpl; intros; [reflexivity|]. rewrite H, IHl; auto. Qed.
Lemma flat_map_flat_map {A B C} (f : A -> list B) (g : B -> list C) l : flat_map g (flat_map f l) = flat_map (fun x => flat_map g (f x)) l.
Proof. induction l; simpl; [reflexivity|]. rewrite flat_map_app, IHl. reflexivity. Qed.
Lemma map_flat_map {A B C} (f : A -> list B) (g : B -> C) l : map g (flat_map f l) = flat_map (fun x => map g (f x)) l.
Proof. induction l; simpl; [reflexivity|]. rewrite map_app, IHl. reflexivity. Qed.
Lemma flat_map_length' {A B} (f : A -> list B) l : length (flat_map f l) = list_sum (map (fun x => length (f x)) l).
Proof. induction l; simpl; [reflexivity|]. rewrite app_length, IHl. reflexivity. Qed.
Lemma numbered_snd {X} (l : list X) : map snd (numbered l) = l.
Proof.
  unfold numbered. generalize 0. induction l; simpl; intros; [reflexivity|]. rewrite IHl. reflexivity.
Qed.
Lemma in_numbered {X} (l : list X) i x d : In (i, x) (numbered l) -> nth i l d = x /\ In x l /\ i < length l.
Proof.
  unfold numbered. assert (G : forall s, In (i, x) (combine (seq s (length l)) l) -> s <= i /\ nth (i - s) l d = x /\ In x l /\ i < s + length l).
  { induction l as [|y l IH]; simpl; intros s H; [contradiction|]. destruct H as [H|H].
    - inversion H; subst. rewrite Nat.sub_diag. split; [lia|]. split; [reflexivity|]. split; [auto|lia].
    - destruct (IH (S s) H) as (A & B & C & D). split; [lia|]. replace (i - s) with (S (i - S s)) by lia. split; [exact B|]. split; [auto|lia]. }
  intros H. destruct (G 0 H) as (_ & A & B & C). rewrite Nat.sub_0_r in A. auto.
Qed.
Lemma flat_map_numbered {X B} (f : X -> list B) (l : list X) : flat_map (fun ix => f (snd ix)) (numbered l) = flat_map f l.
Proof. rewrite <- (numbered_snd l) at 2. rewrite !flat_map_concat_map, map_map. reflexivity. Qed.

(** ** nodes *)
Lemma nodes_kids m : forall t, nodes (S m) t = flat_map kids_of (nodes m t).
Proof.
  induction m as [|m IH]; intros t.
  - simpl. rewrite app_nil_r. induction (kids_of t); simpl; congruence.
  - change (nodes (S (S m)) t) with (flat_map (nodes (S m)) (kids_of t)). change (nodes (S m) t) with (flat_map (nodes m) (kids_of t)).
    rewrite flat_map_flat_map. apply flat_map_ext_in'. intros x _. apply IH.
Qed.
Lemma uniform_kids d t : uniform (S d) t -> Forall (uniform d) (kids_of t).
Proof. destruct t; simpl; [contradiction|auto]. Qed.
Lemma nodes_paths d : forall m t, uniform d t -> m <= d -> map (at_path t) (paths m t) = nodes m t.
Proof.
  induction d as [|d IH]; intros m t H Hm.
  - destruct m; [reflexivity|lia].
  - destruct m as [|m]; [reflexivity|]. destruct t as [|l]; [contradiction|]. cbn [uniform] in H. cbn [paths nodes kids_of].
    rewrite map_flat_map. rewrite <- (flat_map_numbered (nodes m) l). apply flat_map_ext_in'. intros [i x] Hi. rewrite map_map. cbn [at_path fst snd].
    destruct (in_numbered l i x (Num 0) Hi) as (E & Hx & _). rewrite E. apply IH; [|lia]. rewrite Forall_forall in H. auto.
Qed.
Lemma nodes_uniform m : forall d t, uniform (m + d) t -> Forall (uniform d) (nodes m t).
Proof.
  induction m as [|m IH]; intros d t H; [constructor; auto|]. cbn [nodes]. apply uniform_kids in H. rewrite Forall_forall in *.
  intros x Hx. apply in_flat_map in Hx. destruct Hx as (y & Hy & Hx). specialize (IH d y (H y Hy)). rewrite Forall_forall in IH. auto.
Qed.
Lemma leaves_kids d t : uniform (S d) t -> leaves t = list_sum (map leaves (kids_of t)).
Proof. destruct t; simpl; [contradiction|reflexivity]. Qed.
Lemma degree_len t : degree t = len_of t. Proof. destruct t; reflexivity. Qed.

Lemma split_concat {A} (ls : list (list A)) (f : A -> nat) : split_into (map f (concat ls)) (map (@length A) ls) = map (map f) ls.
Proof.
  induction ls as [|l ls IH]; simpl; [reflexivity|]. rewrite map_app. rewrite <- (map_length f l).
  rewrite firstn_app, skipn_app, firstn_all, skipn_all, Nat.sub_diag, firstn_O, skipn_O, app_nil_r. simpl. rewrite IH. reflexivity.
Qed.

(** ** sizes *)
Definition L (t : nested) (i : nat) := map len_of (nodes i t).
Definition S_ (t : nested) (i : nat) := map leaves (nodes i t).
Lemma levels_L d t : uniform d t -> levels d t = map (L t) (seq 1 d).
Proof.
  intros H. unfold levels. apply map_ext_in. intros i Hi. apply in_seq in Hi. unfold L. rewrite <- (nodes_paths d i t) by (auto; lia). rewrite map_map.
  apply map_ext. intros. apply degree_len.
Qed.
Lemma last_level d t : uniform d t -> L t d = S_ t d.
Proof.
  intros H. unfold L, S_. apply map_ext_in. intros x Hx. pose proof (nodes_uniform d 0 t) as U. rewrite Nat.add_0_r in U. specialize (U H). rewrite Forall_forall in U.
  specialize (U x Hx). destruct x; [reflexivity|contradiction].
Qed.
Lemma sizes_up d t i : uniform d t -> i < d -> map list_sum (split_into (S_ t (S i)) (L t i)) = S_ t i.
Proof.
  intros H Hi. unfold S_ at 1, L. rewrite nodes_kids. rewrite flat_map_concat_map.
  pose proof (nodes_uniform i (S (d - S i)) t) as U. replace (i + S (d - S i)) with d in U by lia. specialize (U H). rewrite Forall_forall in U.
  replace (map len_of (nodes i t)) with (map (@length nested) (map kids_of (nodes i t))).
  - rewrite split_concat, !map_map. unfold S_. apply map_ext_in. intros x Hx. symmetry. apply (leaves_kids (d - S i)). auto.
  - rewrite map_map. apply map_ext_in. intros x Hx. specialize (U x Hx). destruct x; [contradiction|reflexivity].
Qed.
Lemma up_levels d t : uniform d t -> forall k r, k + r = d -> 0 < r ->
  up_sizes (map (S_ t) (seq (S k) r)) (S_ t (S k)) (rev (map (L t) (seq 1 k))) = map (S_ t) (seq 1 d).
Proof.
  intros H. induction k as [|k IH]; intros r E Hr.
  - simpl. f_equal. f_equal. lia.
  - rewrite seq_S, map_app, rev_app_distr. cbn [map rev app up_sizes]. change (1 + k) with (S k). rewrite (sizes_up d) by (auto; lia).
    change (S_ t (S k) :: map (S_ t) (seq (S (S k)) r)) with (map (S_ t) (seq (S k) (S r))). apply IH; lia.
Qed.
Lemma sum_level d : forall t m, uniform d t -> m <= d -> list_sum (S_ t m) = leaves t.
Proof.
  induction d as [|d IH]; intros t m H Hm.
  - assert (m = 0) by lia. subst. unfold S_. simpl. lia.
  - destruct m as [|m]; [unfold S_; simpl; lia|]. rewrite (leaves_kids d) by exact H. apply uniform_kids in H. unfold S_. cbn [nodes].
    induction (kids_of t) as [|x l IHl]; [reflexivity|]. inversion H; subst. cbn [flat_map map]. rewrite map_app, list_sum_app. simpl. rewrite IHl by assumption.
    f_equal. apply (IH x m); [assumption|lia].
Qed.
Lemma make_shape_levels d t : uniform d t ->
  make_shape (levels d t) = {| lens := levels d t; sizes := map (S_ t) (seq 1 d); ndim := d; size := match d with O => 1 | _ => leaves t end |}.
Proof.
  intros H. assert (Hl : length (levels d t) = d) by (unfold levels; rewrite map_length, seq_length; reflexivity).
  destruct d as [|d]; [reflexivity|].
  assert (R : rev (levels (S d) t) = S_ t (S d) :: rev (map (L t) (seq 1 d))).
  { rewrite levels_L by exact H. rewrite seq_S, map_app, rev_app_distr. cbn [map rev app]. change (1 + d) with (S d). rewrite (last_level (S d) t H). reflexivity. }
  unfold make_shape. rewrite Hl, R. rewrite <- (up_levels (S d) t H d 1) by lia. rewrite (sum_level (S d)) by auto. reflexivity.
Qed.

(** ** counting elements *)
Lemma paths_leaves d : forall t, uniform d t -> length (paths (S d) t) = leaves t.
Proof.
  induction d as [|d IH]; intros t H.
  - destruct t; [|contradiction]. simpl. rewrite map_length, seq_length. reflexivity.
  - destruct t as [|l]; [contradiction|]. cbn [uniform] in H. cbn [leaves]. change (paths (S (S d)) (Lst l)) with (flat_map (fun ix => map (cons (fst ix)) (paths (S d) (snd ix))) (numbered l)).
    rewrite flat_map_length'. rewrite <- (numbered_snd l) at 2. rewrite map_map. f_equal. apply map_ext_in. intros [i x] Hi. rewrite map_length. cbn [snd].
    destruct (in_numbered l i x (Num 0) Hi) as (_ & Hx & _). rewrite Forall_forall in H. apply IH; auto.
Qed.

(** ** truncation *)
Fixpoint trunc (m : nat) (t : nested) : nested :=
  match m with O => Num (len_of t) | S m' => match t with Num n => Num n | Lst l => Lst (map (trunc m') l) end end.
Lemma trunc_uniform d : forall m t, uniform d t -> m <= d -> uniform m (trunc m t).
Proof.
  induction d as [|d IH]; intros m t H Hm; destruct m as [|m]; try exact I; try lia.
  destruct t as [|l]; [contradiction|]. simpl in *. rewrite Forall_map. eapply Forall_impl; [|exact H]. simpl. intros x Hx. apply IH; auto; lia.
Qed.
Lemma numbered_map {X Y} (f : X -> Y) l : numbered (map f l) = map (fun ix => (fst ix, f (snd ix))) (numbered l).
Proof. unfold numbered. rewrite map_length. generalize 0. induction l; simpl; intros; [reflexivity|]. rewrite IHl. reflexivity. Qed.
Lemma trunc_paths d : forall m k t, uniform d t -> m <= d -> k <= S m -> paths k (trunc m t) = paths k t.
Proof.
  induction d as [|d IH]; intros m k t H Hm Hk.
  - assert (m = 0) by lia. subst. destruct t; [|contradiction]. reflexivity.
  - destruct k as [|k]; [reflexivity|]. destruct t as [|l]; [contradiction|]. destruct m as [|m].
    + assert (k = 0) by lia. subst. cbn [trunc len_of paths]. unfold numbered. clear. generalize 0. induction l; simpl; intros; [reflexivity|]. rewrite IHl. reflexivity.
    + cbn [trunc paths]. rewrite numbered_map, !flat_map_concat_map, map_map. f_equal. apply map_ext_in. intros [i x] Hi. cbn [fst snd]. f_equal.
      destruct (in_numbered l i x (Num 0) Hi) as (_ & Hx & _). simpl in H. rewrite Forall_forall in H. apply IH; auto; lia.
Qed.
Lemma trunc_nodes_len d : forall m k t, uniform d t -> m <= d -> k <= m -> map len_of (nodes k (trunc m t)) = map len_of (nodes k t).
Proof.
  induction d as [|d IH]; intros m k t H Hm Hk.
  - assert (m = 0) by lia. assert (k = 0) by lia. subst. reflexivity.
  - destruct t as [|l]; [contradiction|]. destruct m as [|m].
    + assert (k = 0) by lia. subst. reflexivity.
    + destruct k as [|k]; [simpl; rewrite map_length; reflexivity|]. simpl in *. rewrite !map_flat_map. rewrite flat_map_concat_map, map_map, <- flat_map_concat_map.
      apply flat_map_ext_in'. intros x Hx. rewrite Forall_forall in H. apply IH; auto; lia.
Qed.
Lemma trunc_levels d m t : uniform d t -> m <= d -> levels m (trunc m t) = levels m t.
Proof.
  intros H Hm. rewrite levels_L by (eapply trunc_uniform; eauto). unfold levels. apply map_ext_in. intros i Hi. apply in_seq in Hi.
  unfold L. rewrite (trunc_nodes_len d) by (auto; lia). rewrite <- (nodes_paths d) by (auto; lia). rewrite map_map. apply map_ext. intros. symmetry. apply degree_len.
Qed.
Lemma levels_firstn m n t : n <= m -> firstn n (levels m t) = levels n t.
Proof.
  intros H. unfold levels. rewrite firstn_map. f_equal. replace m with (n + (m - n)) by lia. rewrite seq_app. rewrite firstn_app, seq_length, Nat.sub_diag, firstn_O, app_nil_r.
  rewrite firstn_all2; [reflexivity|rewrite seq_length; lia].
Qed.

(** ** broadcasting *)
Section D.
Variable A : Type.
Lemma interleave_app : forall (r1 : list A) k1 r2 k2, length r1 = length k1 -> interleave (r1 ++ r2) (k1 ++ k2) = interleave r1 k1 ++ interleave r2 k2.
Proof. induction r1 as [|x r1 IH]; intros [|k k1] r2 k2 H; try discriminate; simpl; [reflexivity|]. rewrite IH by (simpl in H; lia). rewrite app_assoc. reflexivity. Qed.
Lemma interleave_flat {X} (f : X -> list A) (g : X -> list nat) l : (forall x, In x l -> length (f x) = length (g x)) ->
  interleave (flat_map f l) (flat_map g l) = flat_map (fun x => interleave (f x) (g x)) l.
Proof. induction l as [|x l IH]; intros H; simpl; [reflexivity|]. rewrite interleave_app by (apply H; left; reflexivity). rewrite IH; [reflexivity|]. intros. apply H. right; auto. Qed.
Lemma map_const {X} (c : A) (l : list X) : map (fun _ => c) l = repeat c (length l).
Proof. induction l; simpl; congruence. Qed.
Lemma nodes_len_paths d k t : uniform d t -> k <= d -> length (nodes k t) = length (paths k t).
Proof. intros H Hk. rewrite <- (nodes_paths d k t H Hk). apply map_length. Qed.
Lemma ancestors d : forall k t (v : list nat -> A), uniform d t -> k <= d ->
  map (fun p => v (firstn k p)) (paths (S d) t) = interleave (map v (paths k t)) (S_ t k).
Proof.
  induction d as [|d IH]; intros k t v H Hk.
  - assert (k = 0) by lia. subst. cbn [firstn]. rewrite map_const, paths_leaves by exact H. simpl. rewrite app_nil_r. reflexivity.
  - destruct k as [|k].
    + cbn [firstn]. rewrite map_const, paths_leaves by exact H. simpl. rewrite app_nil_r. reflexivity.
    + destruct t as [|l]; [contradiction|]. cbn [uniform] in H. unfold S_. cbn [nodes kids_of].
      change (paths (S (S d)) (Lst l)) with (flat_map (fun ix => map (cons (fst ix)) (paths (S d) (snd ix))) (numbered l)).
      change (paths (S k) (Lst l)) with (flat_map (fun ix => map (cons (fst ix)) (paths k (snd ix))) (numbered l)).
      rewrite !map_flat_map. rewrite <- (flat_map_numbered (fun x => map leaves (nodes k x)) l). rewrite interleave_flat.
      * apply flat_map_ext_in'. intros [i x] Hi. rewrite !map_map. cbn [fst snd firstn].
        destruct (in_numbered l i x (Num 0) Hi) as (_ & Hx & _). rewrite Forall_forall in H. apply (IH k x (fun p => v (i :: p))); auto; lia.
      * intros [i x] Hi. rewrite !map_length. cbn [snd]. destruct (in_numbered l i x (Num 0) Hi) as (_ & Hx & _). rewrite Forall_forall in H.
        symmetry. apply (nodes_len_paths d); auto; lia.
Qed.
Lemma nth_S_ d t n : n < d -> nth n (map (S_ t) (seq 1 d)) [] = S_ t (S n).
Proof. intros H. rewrite (nth_indep _ [] (S_ t 0)) by (rewrite map_length, seq_length; exact H). rewrite map_nth, seq_nth by exact H. reflexivity. Qed.
Lemma nth_levels d t n : uniform d t -> n < d -> nth n (levels d t) [] = L t (S n).
Proof. intros U H. rewrite levels_L by exact U. rewrite (nth_indep _ [] (L t 0)) by (rewrite map_length, seq_length; exact H). rewrite map_nth, seq_nth by exact H. reflexivity. Qed.

Definition from_tree (d : nat) (t : nested) (vs : list (list nat -> A)) : rtensor A :=
  mkRT (length (elements d t)) (map (fun v => map v (elements d t)) vs) (make_shape (levels d t)).
Lemma size_elements d n t : uniform d t -> n <= d -> size (make_shape (levels n t)) = length (elements n t).
Proof.
  intros H Hn. rewrite <- (trunc_levels d n) by auto. rewrite make_shape_levels by (eapply trunc_uniform; eauto). simpl size.
  destruct n as [|n]; [reflexivity|]. unfold elements, element_depth. rewrite <- (trunc_paths d (S n) (S (S n)) t) by (auto; lia).
  symmetry. apply paths_leaves. eapply trunc_uniform; eauto.
Qed.
Lemma ndim_levels n t : ndim (make_shape (levels n t)) = n.
Proof. unfold make_shape. destruct (rev _); simpl; unfold levels; rewrite map_length, seq_length; reflexivity. Qed.
Lemma lens_make ls : lens (make_shape ls) = ls. Proof. unfold make_shape. destruct (rev ls); reflexivity. Qed.

Lemma broadcast_last d n t vs : uniform d t -> n < d ->
  broadcast_to (from_tree n t vs) (make_shape (levels d t)) =
  ROk (mkRT (length (elements d t)) (map (fun v => map (fun p => v (firstn (element_depth n) p)) (elements d t)) vs) (make_shape (levels d t))).
Proof.
  intros H Hn. unfold broadcast_to, from_tree. cbn [rshape last rows]. rewrite !ndim_levels. rewrite (proj2 (Nat.ltb_lt n d) Hn). cbn [rassert].
  assert (Hb : broadcastable (make_shape (levels n t)) (make_shape (levels d t)) = true).
  { unfold broadcastable. rewrite !ndim_levels, !lens_make. rewrite Nat.min_l by lia. rewrite !levels_firstn by lia. unfold lens_eqb. destruct list_eq_dec; congruence. }
  rewrite Hb. cbn [rassert]. rewrite lens_make, (nth_levels d) by auto.
  assert (Hsz : nth n (sizes (make_shape (levels d t))) [] = S_ t (S n)) by (rewrite make_shape_levels by exact H; apply nth_S_, Hn).
  rewrite Hsz. assert (HL : length (L t (S n)) = length (paths (S n) t)) by (unfold L; rewrite map_length; apply (nodes_len_paths d); auto).
  rewrite HL.
  assert (He : expand (length (elements n t)) (length (paths (S n) t)) (map (fun v => map v (elements n t)) vs) =
    ROk (map (fun v => map (fun p => v (firstn (element_depth n) p)) (paths (S n) t)) vs)).
  { unfold expand. destruct n as [|n].
    - change (elements 0 t) with [@nil nat]. cbn [length]. rewrite Nat.eqb_refl, orb_true_r. rewrite map_map. f_equal. apply map_ext. intros v. cbn [map element_depth].
      unfold expand_row. destruct (Nat.eqb_spec 1 (length (paths 1 t))) as [E|E].
      + destruct (paths 1 t) as [|? [|]]; try discriminate. reflexivity.
      + simpl. rewrite app_nil_r. rewrite map_const. reflexivity.
    - unfold elements. cbn [element_depth]. rewrite Nat.eqb_refl. cbn [orb]. rewrite map_map. f_equal. apply map_ext. intros v. unfold expand_row. rewrite Nat.eqb_refl.
      apply map_ext_in. intros p Hp. f_equal. rewrite firstn_all2; [reflexivity|].
      assert (PL : forall m t p, In p (paths m t) -> length p = m).
      { clear. induction m as [|m IH]; intros t p Hp; [destruct Hp as [<-|[]]; reflexivity|]. destruct t as [k|l]; cbn [paths] in Hp.
        - destruct m; [|contradiction]. apply in_map_iff in Hp. destruct Hp as (i & <- & _). reflexivity.
        - apply in_flat_map in Hp. destruct Hp as (ix & _ & Hp). apply in_map_iff in Hp. destruct Hp as (q & <- & Hq). simpl. rewrite (IH _ _ Hq). reflexivity. }
      rewrite (PL _ _ _ Hp). lia. }
  rewrite He. cbn [rbnd]. unfold repeat_interleave.
  assert (Hlen : length (S_ t (S n)) = length (paths (S n) t)) by (unfold S_; rewrite map_length; apply (nodes_len_paths d); auto).
  rewrite Hlen, Nat.eqb_refl. rewrite (sum_level d) by auto. rewrite (size_elements d d t H) by lia.
  assert (El : length (elements d t) = leaves t) by (destruct d; [lia|]; apply (paths_leaves (S d)), H).
  rewrite El, Nat.eqb_refl, orb_true_r. cbn [andb rbnd]. unfold make_rt. rewrite (size_elements d d t H) by lia. rewrite El, Nat.eqb_refl. cbn [rassert]. f_equal. f_equal.
  rewrite map_map. apply map_ext. intros v. rewrite <- (ancestors d (S n) t (fun p => v (firstn (element_depth n) p))) by auto.
  unfold elements. replace (element_depth d) with (S d) by (destruct d; [lia|reflexivity]). apply map_ext. intros p. f_equal. rewrite firstn_firstn. f_equal. destruct n; simpl; lia.
Qed.
End D.
Arguments from_tree {A} d t vs.

(** ** every well-formed family of lengths is the one of a tree *)
Fixpoint forest (ls : list (list nat)) : list nested :=
  match ls with
  | [] => []
  | [l] => map Num l
  | l :: ls' => map Lst (split_into (forest ls') l)
  end.
Lemma split_length {A} (l : list A) ks : length (split_into l ks) = length ks.
Proof. revert l. induction ks; simpl; intros; [reflexivity|]. rewrite IHks. reflexivity. Qed.
Lemma split_lens {A} ks : forall (l : list A), list_sum ks = length l -> map (@length A) (split_into l ks) = ks /\ concat (split_into l ks) = l.
Proof.
  induction ks as [|k ks IH]; simpl; intros l H; [destruct l; [auto|discriminate]|].
  destruct (IH (skipn k l)) as [A1 A2]; [rewrite skipn_length; lia|]. rewrite A1, A2, firstn_skipn. split; [|reflexivity].
  f_equal. rewrite firstn_length. lia.
Qed.
Lemma forest_length ls : ls <> [] -> length (forest ls) = length (hd [] ls).
Proof. destruct ls as [|l [|l' ls]]; intros H; [congruence| |]; simpl; rewrite map_length; [reflexivity|]. apply split_length. Qed.
Lemma forest_ok ls : ls <> [] -> well_formed ls -> Forall (uniform (length ls - 1)) (forest ls) /\
  forall i, i < length ls -> flat_map (fun x => map len_of (nodes i x)) (forest ls) = nth i ls [].
Proof.
  induction ls as [|l ls IH]; intros Hne Hw; [congruence|]. destruct ls as [|l' ls].
  - simpl. split; [rewrite Forall_map; apply Forall_forall; intros; exact I|]. intros i Hi. assert (i = 0) by lia. subst. rewrite flat_map_concat_map, map_map. simpl.
    clear. induction l; simpl; congruence.
  - destruct Hw as [Hs Hw]. destruct (IH ltac:(discriminate) Hw) as [U N]. change (forest (l :: l' :: ls)) with (map Lst (split_into (forest (l' :: ls)) l)).
    assert (Hl : list_sum l = length (forest (l' :: ls))) by (rewrite forest_length by discriminate; exact Hs).
    destruct (split_lens l _ Hl) as [A1 A2]. split.
    + rewrite Forall_map. replace (length (l :: l' :: ls) - 1) with (S (length (l' :: ls) - 1)) by (simpl; lia). cbn [uniform].
      apply Forall_forall. intros x Hx. apply Forall_forall. intros y Hy. rewrite Forall_forall in U. apply U. rewrite <- A2. apply in_concat. eauto.
    + intros i Hi. rewrite flat_map_concat_map, map_map. destruct i as [|i].
      * cbn [nodes map len_of nth]. rewrite <- A1 at 2. clear. induction (split_into (forest (l' :: ls)) l); simpl; congruence.
      * change (nth (S i) (l :: l' :: ls) []) with (nth i (l' :: ls) []). rewrite <- N by (simpl in *; lia). rewrite <- A2 at 2. cbn [nodes kids_of].
        clear. induction (split_into (forest (l' :: ls)) l) as [|x xs IHx]; [reflexivity|]. cbn [map concat]. rewrite flat_map_app, IHx. f_equal. apply map_flat_map.
Qed.
