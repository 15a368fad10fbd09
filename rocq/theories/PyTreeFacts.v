From Coq Require Import List Bool Arith Lia.
From Verif Require Import PyTree PyTreeSpec.
Import ListNotations.

Section Ind.
Context {A K : Type}.
Notation obj := (obj A K).
Notation spec := (spec K).

Section ObjInd.
Variable P : obj -> Prop.
Hypothesis HL : forall a, P (OLeaf a).
Hypothesis Hl : forall l, Forall P l -> P (OList l).
Hypothesis Ht : forall l, Forall P l -> P (OTuple l).
Hypothesis Hs : forall c l, Forall P l -> P (OSub c l).
Hypothesis Hd : forall items, Forall (fun kv => P (snd kv)) items -> P (ODict items).
Hypothesis Hn : forall c l, Forall P l -> P (ONamed c l).
Fixpoint obj_ind' (o : obj) : P o :=
  let fix all (l : list obj) : Forall P l :=
    match l with [] => Forall_nil _ | x :: r => Forall_cons _ (obj_ind' x) (all r) end in
  let fix alld (l : list (K * obj)) : Forall (fun kv => P (snd kv)) l :=
    match l with [] => Forall_nil _ | x :: r => Forall_cons x (obj_ind' (snd x)) (alld r) end in
  match o with
  | OLeaf a => HL a
  | OList l => Hl l (all l)
  | OTuple l => Ht l (all l)
  | OSub c l => Hs c l (all l)
  | ODict items => Hd items (alld items)
  | ONamed c l => Hn c l (all l)
  end.
End ObjInd.

Section SpecInd.
Variable P : spec -> Prop.
Hypothesis HL : P SLeaf.
Hypothesis HN : forall t ctx cs, Forall P cs -> P (SNode t ctx cs).
Fixpoint spec_ind' (s : spec) : P s :=
  match s with
  | SLeaf => HL
  | SNode t ctx cs => HN t ctx cs ((fix all (l : list spec) : Forall P l :=
      match l with [] => Forall_nil _ | x :: r => Forall_cons _ (spec_ind' x) (all r) end) cs)
  end.
End SpecInd.
End Ind.

Lemma sequence_ok {X} (l : list (result X)) xs : sequence l = Ok xs <-> l = map Ok xs.
Proof.
  revert xs. induction l as [|r l IH]; intros xs; simpl.
  - split; [intros E; inversion E; reflexivity|destruct xs; [reflexivity|discriminate]].
  - destruct r as [x| |]; simpl.
    + destruct (sequence l) as [ys| |]; simpl.
      * split.
        -- intros E. inversion E; subst. simpl. f_equal. apply IH. reflexivity.
        -- destruct xs as [|z zs]; [discriminate|]. simpl. intros E. inversion E; subst.
           assert (E' : Ok ys = Ok zs) by (apply IH; reflexivity). congruence.
      * split; [discriminate|]. destruct xs as [|z zs]; [discriminate|]. simpl. intros E. inversion E; subst.
        assert (E' : @ValueError (list X) = Ok zs) by (apply IH; reflexivity). discriminate.
      * split; [discriminate|]. destruct xs as [|z zs]; [discriminate|]. simpl. intros E. inversion E; subst.
        assert (E' : @TypeError (list X) = Ok zs) by (apply IH; reflexivity). discriminate.
    + split; [discriminate|]. destruct xs; discriminate.
    + split; [discriminate|]. destruct xs; discriminate.
Qed.

Section Facts.
Context {A K : Type} (K_eqb : K -> K -> bool) (sub : nat -> nat -> bool) (ctor : nat -> bool).
Hypothesis K_spec : forall a b, K_eqb a b = true <-> a = b.
Notation obj := (obj A K).
Notation spec := (spec K).
Notation unflatten := (tree_unflatten A K K_eqb ctor).

(** ** The loop of unflatten *)
Definition ugo (values : list obj) : list spec -> nat -> list (result obj) :=
  fix go (cs : list spec) (start : nat) : list (result obj) :=
    match cs with
    | [] => []
    | c :: cs' => let stop := start + num_leaves c in unflatten (slice values start stop) c :: go cs' stop
    end.
Lemma unflatten_node_eq values t ctx cs : unflatten values (SNode t ctx cs) =
  if negb (length values =? num_leaves (SNode t ctx cs)) then ValueError
  else rbind (sequence (ugo values cs 0)) (unflatten_node A K K_eqb ctor t ctx).
Proof. reflexivity. Qed.

Lemma slice_mid {X} (a b c : list X) : slice (a ++ b ++ c) (length a) (length a + length b) = b.
Proof.
  unfold slice. rewrite skipn_app, skipn_all, Nat.sub_diag. simpl.
  replace (length a + length b - length a) with (length b) by lia.
  rewrite firstn_app, firstn_all, Nat.sub_diag. simpl. apply app_nil_r.
Qed.

Lemma ugo_eq cs : forall vss pre,
  Forall2 (fun c vs => length vs = num_leaves c) cs vss ->
  ugo (pre ++ concat vss) cs (length pre) = map (fun p => unflatten (snd p) (fst p)) (combine cs vss).
Proof.
  induction cs as [|c cs IH]; intros vss pre H; inversion H as [|? vs ? vss' H1 H2]; subst; simpl; [reflexivity|].
  f_equal.
  - rewrite <- H1. f_equal. apply slice_mid.
  - specialize (IH vss' (pre ++ vs) H2). rewrite app_length, H1 in IH. rewrite <- app_assoc in IH. exact IH.
Qed.

Lemma concat_length {X} (vss : list (list X)) : length (concat vss) = list_sum (map (@length X) vss).
Proof. induction vss; simpl; [reflexivity|]. rewrite app_length, IHvss. reflexivity. Qed.

Lemma lengths_sum cs vss : Forall2 (fun c (vs : list obj) => length vs = num_leaves c) cs vss ->
  length (concat vss) = list_sum (map (@num_leaves K) cs).
Proof.
  intros H. rewrite concat_length. f_equal. induction H as [|c vs cs vss H1 H2 IH]; simpl; [reflexivity|]. congruence.
Qed.

Lemma unflatten_concat t ctx cs vss :
  Forall2 (fun c vs => length vs = num_leaves c) cs vss ->
  unflatten (concat vss) (SNode t ctx cs) =
  rbind (sequence (map (fun p => unflatten (snd p) (fst p)) (combine cs vss))) (unflatten_node A K K_eqb ctor t ctx).
Proof.
  intros H. rewrite unflatten_node_eq. simpl num_leaves. rewrite (lengths_sum _ _ H), Nat.eqb_refl. simpl negb. cbv iota.
  rewrite <- (ugo_eq cs vss [] H). reflexivity.
Qed.

(** ** dict displays *)
Lemma kset_fresh (d : list (K * obj)) k v : ~ In k (map fst d) -> kset A K K_eqb d k v = d ++ [(k, v)].
Proof.
  induction d as [|[k' v'] d IH]; simpl; intros H; [reflexivity|].
  destruct (K_eqb k k') eqn:E; [apply K_spec in E; subst; tauto|]. rewrite IH by tauto. reflexivity.
Qed.
Lemma dict_comp_id_gen l : forall d, NoDup (map fst (d ++ l)) ->
  fold_left (fun d kv => kset A K K_eqb d (fst kv) (snd kv)) l d = d ++ l.
Proof.
  induction l as [|[k v] l IH]; intros d H; simpl; [symmetry; apply app_nil_r|].
  rewrite kset_fresh.
  - rewrite IH; rewrite <- app_assoc; [reflexivity|exact H].
  - rewrite map_app in H. simpl in H. apply NoDup_remove_2 in H. intros Hi. apply H, in_or_app. auto.
Qed.
Lemma dict_comp_id l : NoDup (map fst l) -> dict_comp A K K_eqb l = l.
Proof. intros H. apply (dict_comp_id_gen l []). exact H. Qed.

(** ** flatten *)
Definition flat_ok (o : obj) (p : list obj * spec) : Prop := tree_flatten o = Ok p.

Lemma flatten_children l ps : Forall2 flat_ok l ps -> sequence (map tree_flatten l) = Ok ps.
Proof.
  intros H. apply sequence_ok. induction H as [|o p l ps H1 H2 IH]; simpl; [reflexivity|].
  rewrite IH, H1. reflexivity.
Qed.
Lemma flatten_children_d (items : list (K * obj)) ps : Forall2 (fun kv => flat_ok (snd kv)) items ps ->
  sequence (map (fun kv => tree_flatten (snd kv)) items) = Ok ps.
Proof.
  intros H. apply sequence_ok. induction H as [|o p l ps H1 H2 IH]; simpl; [reflexivity|].
  rewrite IH, H1. reflexivity.
Qed.

Lemma forall_exists2 {X Y} (Q : X -> Prop) (R : X -> Y -> Prop) l :
  Forall (fun x => Q x -> exists y, R x y) l -> Forall Q l -> exists ys, Forall2 R l ys.
Proof.
  induction 1 as [|x l Hx Hl IH]; intros HQ; [exists []; constructor|].
  inversion HQ; subst. destruct Hx as [y Hy]; [assumption|]. destruct IH as [ys Hys]; [assumption|].
  exists (y :: ys). constructor; assumption.
Qed.
Lemma Forall2_impl {X Y} (R S : X -> Y -> Prop) l m : (forall x y, R x y -> S x y) -> Forall2 R l m -> Forall2 S l m.
Proof. intros H. induction 1; constructor; auto. Qed.
Lemma Forall2_length {X Y} {R : X -> Y -> Prop} {l m} : Forall2 R l m -> length l = length m.
Proof. induction 1; simpl; congruence. Qed.
Lemma Forall2_map_r {X Y Z} (R : X -> Z -> Prop) (f : Y -> Z) l m : Forall2 (fun x y => R x (f y)) l m -> Forall2 R l (map f m).
Proof. induction 1; simpl; constructor; auto. Qed.
Lemma Forall2_map_l {X Y Z} (R : Z -> Y -> Prop) (f : X -> Z) l m : Forall2 (fun x y => R (f x) y) l m -> Forall2 R (map f l) m.
Proof. induction 1; simpl; constructor; auto. Qed.

(** the central fact: unflattening the mapped leaves gives the structure with replaced leaves *)
Definition roundtrip (o : obj) (p : list obj * spec) : Prop :=
  flat_ok o p /\ fst p = map OLeaf (leaves o) /\ length (fst p) = num_leaves (snd p) /\
  forall fn, unflatten (map fn (fst p)) (snd p) = Ok (replace_leaves fn o).

Lemma roundtrip_children l ps : Forall2 roundtrip l ps ->
  Forall2 flat_ok l ps /\ concat (map fst ps) = map OLeaf (flat_map leaves l) /\
  length (concat (map fst ps)) = list_sum (map (@num_leaves K) (map snd ps)) /\
  forall fn, sequence (map (fun p => unflatten (snd p) (fst p)) (combine (map snd ps) (map (map fn) (map fst ps))))
             = Ok (map (replace_leaves fn) l) /\
    Forall2 (fun c vs => length vs = num_leaves c) (map snd ps) (map (map fn) (map fst ps)).
Proof.
  induction 1 as [|o p l ps (H1 & H2 & H3 & H4) HF (I1 & I2 & I3 & I4)]; simpl.
  - repeat split; constructor.
  - split; [constructor; assumption|]. split; [rewrite H2, I2, map_app; reflexivity|].
    split; [rewrite app_length, H3, I3; reflexivity|].
    intros fn. destruct (I4 fn) as [J1 J2]. split.
    + rewrite H4, J1. reflexivity.
    + constructor; [rewrite map_length; exact H3|exact J2].
Qed.

Lemma roundtrip_node t ctx l ps : Forall2 roundtrip l ps ->
  rbind (sequence (map tree_flatten l)) (fun rs => Ok (flatten_node A K t ctx rs)) = Ok (flatten_node A K t ctx ps) /\
  fst (flatten_node A K t ctx ps) = map OLeaf (flat_map leaves l) /\
  length (fst (flatten_node A K t ctx ps)) = num_leaves (snd (flatten_node A K t ctx ps)) /\
  forall fn, unflatten (map fn (fst (flatten_node A K t ctx ps))) (snd (flatten_node A K t ctx ps)) =
    unflatten_node A K K_eqb ctor t ctx (map (replace_leaves fn) l).
Proof.
  intros H. destruct (roundtrip_children l ps H) as (I1 & I2 & I3 & I4).
  rewrite (flatten_children _ _ I1). unfold flatten_node. cbn [fst snd].
  split; [reflexivity|]. split; [exact I2|]. split; [exact I3|].
  intros fn. destruct (I4 fn) as [J1 J2]. rewrite concat_map.
  rewrite unflatten_concat by exact J2. rewrite J1. reflexivity.
Qed.

Lemma combine_map_fst_snd {X Y Z} (f : Y -> Z) (l : list (X * Y)) : combine (map fst l) (map f (map snd l)) = map (fun kv => (fst kv, f (snd kv))) l.
Proof. induction l as [|[a b] l IH]; simpl; [reflexivity|]. rewrite IH. reflexivity. Qed.

Lemma supported_roundtrip o : supported ctor o -> exists p, roundtrip o p.
Proof.
  induction o as [a|l IH|l IH|c l IH|items IH|c l IH] using obj_ind'; intros H; inversion H; subst.
  - exists ([OLeaf a], SLeaf). repeat split. 
  - destruct (forall_exists2 _ _ _ IH) as [ps Hps]; [assumption|].
    destruct (roundtrip_node TList None l ps Hps) as (R1 & R2 & R3 & R4).
    exists (flatten_node A K TList None ps). split; [exact R1|]. split; [exact R2|]. split; [exact R3|].
    intros fn. rewrite R4. reflexivity.
  - destruct (forall_exists2 _ _ _ IH) as [ps Hps]; [assumption|].
    destruct (roundtrip_node TTuple None l ps Hps) as (R1 & R2 & R3 & R4).
    exists (flatten_node A K TTuple None ps). split; [exact R1|]. split; [exact R2|]. split; [exact R3|].
    intros fn. rewrite R4. reflexivity.
  - destruct (forall_exists2 _ _ _ IH) as [ps Hps]; [assumption|].
    destruct (roundtrip_node (TSub c) None l ps Hps) as (R1 & R2 & R3 & R4).
    exists (flatten_node A K (TSub c) None ps). split; [exact R1|]. split; [exact R2|]. split; [exact R3|].
    intros fn. rewrite R4. simpl. rewrite H2. reflexivity.
  - destruct (forall_exists2 _ _ _ IH) as [ps Hps]; [assumption|].
    assert (Hps' : Forall2 roundtrip (map snd items) ps) by (apply Forall2_map_l; exact Hps).
    destruct (roundtrip_node TDict (Some (map fst items)) (map snd items) ps Hps') as (R1 & R2 & R3 & R4).
    exists (flatten_node A K TDict (Some (map fst items)) ps).
    assert (E : flat_map leaves (map snd items) = flat_map (fun kv => leaves (snd kv)) items)
      by (clear; induction items as [|kv r IH]; simpl; [reflexivity|rewrite IH; reflexivity]).
    split; [|split; [|split]].
    + unfold flat_ok. simpl. rewrite map_map in R1. exact R1.
    + rewrite R2, E. reflexivity.
    + exact R3.
    + intros fn. rewrite R4. simpl. rewrite combine_map_fst_snd, dict_comp_id; [reflexivity|].
      rewrite map_map. simpl. assumption.
Qed.

(** flattening succeeds, with the leaves in order, whenever there is no named tuple *)
Lemma flatten_leaves (o : obj) : no_named o -> exists s, tree_flatten o = Ok (map OLeaf (leaves o), s).
Proof.
  intros H.
  assert (X : no_named o -> exists p, flat_ok o p /\ fst p = map OLeaf (leaves o)).
  { clear H. induction o as [a|l IH|l IH|c l IH|items IH|c l IH] using obj_ind'; intros H; inversion H; subst.
    - exists ([OLeaf a], SLeaf). split; reflexivity.
    - destruct (forall_exists2 _ _ _ IH) as [ps Hps]; [assumption|].
      exists (flatten_node A K TList None ps). unfold flat_ok. simpl.
      rewrite (flatten_children l ps) by (eapply Forall2_impl; [|exact Hps]; intros ? ? [? ?]; assumption).
      split; [reflexivity|]. clear -Hps. induction Hps as [|x y l ps [H1 H2] HF IH]; simpl; [reflexivity|].
      rewrite H2, IH, map_app. reflexivity.
    - destruct (forall_exists2 _ _ _ IH) as [ps Hps]; [assumption|].
      exists (flatten_node A K TTuple None ps). unfold flat_ok. simpl.
      rewrite (flatten_children l ps) by (eapply Forall2_impl; [|exact Hps]; intros ? ? [? ?]; assumption).
      split; [reflexivity|]. clear -Hps. induction Hps as [|x y l ps [H1 H2] HF IH]; simpl; [reflexivity|].
      rewrite H2, IH, map_app. reflexivity.
    - destruct (forall_exists2 _ _ _ IH) as [ps Hps]; [assumption|].
      exists (flatten_node A K (TSub c) None ps). unfold flat_ok. simpl.
      rewrite (flatten_children l ps) by (eapply Forall2_impl; [|exact Hps]; intros ? ? [? ?]; assumption).
      split; [reflexivity|]. clear -Hps. induction Hps as [|x y l ps [H1 H2] HF IH]; simpl; [reflexivity|].
      rewrite H2, IH, map_app. reflexivity.
    - destruct (forall_exists2 _ _ _ IH) as [ps Hps]; [assumption|].
      exists (flatten_node A K TDict (Some (map fst items)) ps). unfold flat_ok. simpl.
      rewrite (flatten_children_d items ps) by (eapply Forall2_impl; [|exact Hps]; intros ? ? [? ?]; assumption).
      split; [reflexivity|]. clear -Hps. induction Hps as [|x y l ps [H1 H2] HF IH]; simpl; [reflexivity|].
      rewrite H2, IH, map_app. reflexivity. }
  destruct (X H) as [[vs s] [E1 E2]]. simpl in E2. subst. exists s. exact E1.
Qed.

(** ** from specs *)
Lemma split_lengths (cs : list spec) : forall vs : list obj, length vs = list_sum (map (@num_leaves K) cs) ->
  exists vss, vs = concat vss /\ Forall2 (fun c v => length v = num_leaves c) cs vss.
Proof.
  induction cs as [|c cs IH]; simpl; intros vs H.
  - exists []. split; [destruct vs; [reflexivity|discriminate]|constructor].
  - destruct (IH (skipn (num_leaves c) vs)) as (vss & E & HF).
    + rewrite skipn_length. lia.
    + exists (firstn (num_leaves c) vs :: vss). split.
      * simpl. rewrite <- E. symmetry. apply firstn_skipn.
      * constructor; [|exact HF]. rewrite firstn_length. lia.
Qed.

Definition builds (s : spec) (vs : list obj) (o : obj) : Prop :=
  unflatten vs s = Ok o /\ (Forall is_leaf_obj vs -> tree_flatten o = Ok (vs, s)).

Lemma builds_children cs vss os : Forall2 (fun p o => builds (fst p) (snd p) o) (combine cs vss) os ->
  length cs = length vss ->
  sequence (map (fun p => unflatten (snd p) (fst p)) (combine cs vss)) = Ok os /\
  (Forall is_leaf_obj (concat vss) -> sequence (map tree_flatten os) = Ok (combine vss cs)).
Proof.
  revert vss os. induction cs as [|c cs IH]; intros [|v vss] os H Hl; try discriminate; simpl in *; inversion H; subst.
  - split; [reflexivity|]. intros _. reflexivity.
  - destruct H2 as [B1 B2]. cbn [fst snd] in B1, B2. destruct (IH vss l' H4) as [I1 I2]; [lia|]. split.
    + simpl. rewrite B1, I1. reflexivity.
    + intros HF. rewrite Forall_app in HF. destruct HF as [HF1 HF2]. simpl.
      rewrite B2 by exact HF1. rewrite I2 by exact HF2. reflexivity.
Qed.

Lemma combine_fst_len {X Y} (a : list X) (b : list Y) : length a = length b -> map fst (combine a b) = a.
Proof. revert b. induction a; intros [|y b] H; try discriminate; simpl; [reflexivity|]. rewrite IHa by (simpl in H; lia). reflexivity. Qed.
Lemma combine_snd_len {X Y} (a : list X) (b : list Y) : length a = length b -> map snd (combine a b) = b.
Proof. revert b. induction a; intros [|y b] H; try discriminate; simpl; [reflexivity|]. rewrite IHa by (simpl in H; lia). reflexivity. Qed.

Lemma wf_builds s : wf_spec ctor s -> forall vs, length vs = num_leaves s -> exists o, builds s vs o.
Proof.
  induction s as [|t ctx cs IH] using spec_ind'; intros Hw vs Hl.
  - destruct vs as [|v [|w vs]]; try discriminate. exists v. split; [reflexivity|].
    intros H. inversion H as [|? ? [a ->] ?]; subst. reflexivity.
  - simpl in Hl. destruct (split_lengths cs vs Hl) as (vss & -> & HF).
    assert (Hlen : length cs = length vss) by (clear -HF; induction HF; simpl; congruence).
    assert (Hcs : Forall (wf_spec ctor) cs) by (inversion Hw; assumption).
    assert (Hos : exists os, Forall2 (fun p o => builds (fst p) (snd p) o) (combine cs vss) os).
    { clear -IH HF Hcs. induction HF as [|c v cs vss H1 H2 IH2]; simpl; [exists []; constructor|].
      inversion IH; inversion Hcs; subst. destruct IH2 as [os Hos]; [assumption|assumption|].
      destruct (H3 ltac:(assumption) v H1) as [o Ho]. exists (o :: os). constructor; assumption. }
    destruct Hos as [os Hos]. destruct (builds_children cs vss os Hos Hlen) as [B1 B2].
    assert (Hcat : map fst (combine vss cs) = vss) by (apply combine_fst_len; congruence).
    assert (Hsnd : map snd (combine vss cs) = cs) by (apply combine_snd_len; congruence).
    assert (Hos_len : length os = length cs).
    { pose proof (Forall2_length Hos) as E. rewrite combine_length in E. lia. }
    assert (U : unflatten (concat vss) (SNode t ctx cs) = unflatten_node A K K_eqb ctor t ctx os)
      by (rewrite unflatten_concat by exact HF; rewrite B1; reflexivity).
    inversion Hw; subst.
    + exists (OList os). split; [exact U|]. intros HL. simpl. rewrite (B2 HL). simpl. unfold flatten_node. rewrite Hcat, Hsnd. reflexivity.
    + exists (OTuple os). split; [exact U|]. intros HL. simpl. rewrite (B2 HL). simpl. unfold flatten_node. rewrite Hcat, Hsnd. reflexivity.
    + exists (OSub c os). split; [rewrite U; simpl; match goal with H : ctor c = true |- _ => rewrite H end; reflexivity|]. intros HL. simpl. rewrite (B2 HL). simpl. unfold flatten_node. rewrite Hcat, Hsnd. reflexivity.
    + exists (ODict (combine keys os)). split.
      * rewrite U. simpl. rewrite dict_comp_id; [reflexivity|]. rewrite combine_fst_len by lia. assumption.
      * intros HL. simpl. rewrite <- (map_map snd tree_flatten). rewrite combine_snd_len by lia.
        rewrite (B2 HL). simpl. unfold flatten_node. rewrite Hcat, Hsnd, combine_fst_len by lia. reflexivity.
Qed.

Lemma wf_children (l : list obj) : forall rs,
  Forall (fun o => supported ctor o -> forall p, tree_flatten o = Ok p -> wf_spec ctor (snd p)) l ->
  Forall (supported ctor) l -> map tree_flatten l = map Ok rs -> Forall (wf_spec ctor) (map snd rs).
Proof.
  induction l as [|x l IH]; intros [|r rs] H1 H2 E; try discriminate; simpl; constructor; simpl in E; inversion E;
    inversion H1; inversion H2; subst; auto.
Qed.
Lemma flatten_wf (o : obj) : supported ctor o -> forall p, tree_flatten o = Ok p -> wf_spec ctor (snd p).
Proof.
  induction o as [a|l IH|l IH|c l IH|items IH|c l IH] using obj_ind'; intros H p E; simpl in E.
  - inversion E; constructor.
  - destruct (sequence (map tree_flatten l)) as [rs| |] eqn:Es; try discriminate. apply sequence_ok in Es.
    inversion E; subst. inversion H; subst. constructor. eapply wf_children; eassumption.
  - destruct (sequence (map tree_flatten l)) as [rs| |] eqn:Es; try discriminate. apply sequence_ok in Es.
    inversion E; subst. inversion H; subst. constructor. eapply wf_children; eassumption.
  - destruct (sequence (map tree_flatten l)) as [rs| |] eqn:Es; try discriminate. apply sequence_ok in Es.
    inversion E; subst. inversion H; subst. constructor; [assumption|]. eapply wf_children; eassumption.
  - destruct (sequence _) as [rs| |] eqn:Es; try discriminate. apply sequence_ok in Es.
    rewrite <- (map_map snd tree_flatten) in Es.
    inversion E; subst. inversion H; subst. constructor; [assumption| |].
    + apply (f_equal (@length _)) in Es. rewrite !map_length in *. lia.
    + eapply wf_children; [| |exact Es]; rewrite Forall_map; assumption.
  - discriminate.
Qed.

Lemma replace_id (o : obj) : replace_leaves (fun x => x) o = o.
Proof.
  induction o as [a|l IH|l IH|c l IH|items IH|c l IH] using obj_ind'; simpl; [reflexivity| | | | | ]; f_equal.
  all: induction IH as [|x r H HF IH]; simpl; [reflexivity|]; try (destruct x as [k x]; simpl in *); rewrite H, IH; reflexivity.
Qed.
Lemma replace_comp f g (o : obj) : (forall a, is_leaf_obj (f (OLeaf a))) ->
  replace_leaves g (replace_leaves f o) = replace_leaves (fun x => g (f x)) o.
Proof.
  intros Hf. induction o as [a|l IH|l IH|c l IH|items IH|c l IH] using obj_ind'; simpl.
  1: destruct (Hf a) as [b ->]; reflexivity.
  all: f_equal; rewrite map_map; apply map_ext_in; intros x Hx; rewrite Forall_forall in IH; simpl; rewrite (IH x Hx); reflexivity.
Qed.
Lemma replace_supported f (o : obj) : (forall a, is_leaf_obj (f (OLeaf a))) -> supported ctor o -> supported ctor (replace_leaves f o).
Proof.
  intros Hf. induction o as [a|l IH|l IH|c l IH|items IH|c l IH] using obj_ind'; intros H; inversion H; subst; simpl.
  1: destruct (Hf a) as [b ->]; constructor.
  1-3: constructor; try assumption; rewrite Forall_map; rewrite Forall_forall in *; auto.
  constructor.
  - rewrite map_map. assumption.
  - rewrite Forall_map. simpl. rewrite Forall_forall in *. auto.
Qed.
Lemma replace_leaves_leaves (f : A -> A) (o : obj) : 
  leaves (replace_leaves (fun x => match x with OLeaf a => OLeaf (f a) | _ => x end) o) = map f (leaves o).
Proof.
  induction o as [a|l IH|l IH|c l IH|items IH|c l IH] using obj_ind'; simpl; [reflexivity| | | | | ];
    induction IH as [|x r H HF IH]; simpl; try reflexivity; rewrite H, IH, map_app; reflexivity.
Qed.

(** ** wrong number of leaves *)
Lemma unflatten_wrong_length vs s : length vs <> num_leaves s -> unflatten vs s = ValueError.
Proof.
  intros H. destruct s; simpl in *; destruct (Nat.eqb_spec (length vs) 1); try (simpl; congruence);
    match goal with |- context [Nat.eqb ?a ?b] => destruct (Nat.eqb_spec a b) end; simpl; congruence.
Qed.

(** ** broadcast *)
Definition bgo := fix go (children : list obj) (cs : list spec) {struct cs} : result (option (list obj)) :=
  match children, cs with
  | child :: children', c :: cs' =>
      rbind (broadcast A K K_eqb sub child c) (fun flat =>
        match flat with
        | Some fl => rbind (go children' cs') (fun r =>
            match r with Some rest => Ok (Some (fl ++ rest)) | None => Ok None end)
        | None => Ok None
        end)
  | _, _ => Ok (Some [])
  end.
Lemma broadcast_node o t children ctx st sctx cs : node_of o = Some (t, children, ctx) ->
  broadcast A K K_eqb sub o (SNode st sctx cs) =
  if negb (ntype_eqb t st) && negb (issubclass sub st t) then Ok None
  else if negb (Nat.eqb (length children) (length cs)) || negb (ctx_eqb K K_eqb ctx sctx) then Ok None
  else bgo children cs.
Proof. destruct o; simpl; intros E; inversion E; subst; reflexivity. Qed.

Lemma ctx_eqb_spec a b : ctx_eqb K K_eqb a b = true <-> a = b.
Proof.
  destruct a as [l|], b as [m|]; simpl; try (split; congruence).
  rewrite andb_true_iff, Nat.eqb_eq. split.
  - intros [Hl HF]. f_equal. revert m Hl HF. induction l as [|x l IH]; intros [|y m] Hl HF; try discriminate; [reflexivity|].
    simpl in HF. apply andb_prop in HF as [H1 H2]. apply K_spec in H1. simpl in Hl. rewrite H1, (IH m) by (auto; lia). reflexivity.
  - intros E. inversion E; subst. split; [reflexivity|]. clear E. induction m; simpl; [reflexivity|].
    rewrite IHm, andb_true_r. apply K_spec. reflexivity.
Qed.
Lemma ntype_eqb_spec a b : ntype_eqb a b = true <-> a = b.
Proof. destruct a, b; simpl; try (split; congruence). rewrite Nat.eqb_eq. split; congruence. Qed.

Lemma paths_from_S (ps : list (list (list nat))) : forall i,
  paths_from ps (S i) = map (fun p => match p with j :: q => S j :: q | [] => [] end) (paths_from ps i).
Proof.
  induction ps as [|p ps IH]; intros i; simpl; [reflexivity|].
  rewrite IH, map_app, map_map. reflexivity.
Qed.

Lemma leaf_paths_length s : length (@leaf_paths K s) = num_leaves s.
Proof.
  induction s as [|t ctx cs IH] using spec_ind'; simpl; [reflexivity|].
  generalize 0 as i. induction IH as [|c cs H HF IH]; intros i; simpl; [reflexivity|].
  rewrite app_length, map_length, H, IH. reflexivity.
Qed.

(** value-level statement: children of a node read along paths *)
Definition child_leaf (children : list obj) (path : list nat) : option obj :=
  match path with
  | [] => None
  | i :: p => match nth_error children i with Some c => leaf_above c p | None => None end
  end.
Lemma leaf_above_node o t children ctx path : node_of o = Some (t, children, ctx) ->
  leaf_above o path = child_leaf children path.
Proof.
  destruct o; simpl; intros E; inversion E; subst; destruct path; simpl; try reflexivity.
  rewrite nth_error_map. destruct (nth_error items n); reflexivity.
Qed.

Definition bc_ok (s : spec) : Prop := forall o vs, broadcast A K K_eqb sub o s = Ok (Some vs) ->
  map Some vs = map (leaf_above o) (leaf_paths s) /\ prefix_of sub o s.
Definition bc_complete (s : spec) : Prop := forall o, prefix_of sub o s ->
  exists vs, broadcast A K K_eqb sub o s = Ok (Some vs).

Lemma bgo_ok cs : Forall bc_ok cs -> forall children vs, length children = length cs -> bgo children cs = Ok (Some vs) ->
  map Some vs = map (child_leaf children) (paths_from (map leaf_paths cs) 0) /\ Forall2 (prefix_of sub) children cs.
Proof.
  induction 1 as [|c cs Hc HF IH]; intros [|o children] vs Hl E; try discriminate.
  - simpl in E. inversion E. split; [reflexivity|constructor].
  - cbn [bgo] in E. destruct (broadcast A K K_eqb sub o c) as [[fl|]| |] eqn:Eb; simpl in E; try discriminate.
    fold bgo in E. destruct (bgo children cs) as [[rest|]| |] eqn:Eg; simpl in E; try discriminate.
    inversion E; subst. destruct (Hc _ _ Eb) as [H1 H2]. destruct (IH children rest) as [H3 H4]; [simpl in Hl; lia|exact Eg|].
    split; [|constructor; assumption].
    cbn [map paths_from]. rewrite !map_app, H1, paths_from_S, !map_map. f_equal. rewrite H3.
    assert (X : forall j, In j (paths_from (map leaf_paths cs) 0) -> j <> []).
    { clear. generalize 0 as i. induction cs as [|c cs IH]; simpl; [tauto|]. intros i j Hj. apply in_app_or in Hj as [Hj|Hj].
      - apply in_map_iff in Hj as (x & <- & _). discriminate.
      - eapply IH; eassumption. }
    apply map_ext_in. intros [|j p] Hin; [exfalso; eapply X; eauto|]. reflexivity.
Qed.

Lemma bc_ok_all s : bc_ok s.
Proof.
  induction s as [|st sctx cs IH] using spec_ind'; intros o vs E.
  - destruct o; simpl in E; inversion E; subst. split; [reflexivity|constructor].
  - destruct (node_of o) as [[[t children] ctx]|] eqn:En.
    + rewrite (broadcast_node o t children ctx) in E by exact En.
      destruct (negb (ntype_eqb t st) && negb (issubclass sub st t)) eqn:Et; [discriminate|].
      destruct (negb (length children =? length cs) || negb (ctx_eqb K K_eqb ctx sctx)) eqn:Ec; [discriminate|].
      apply orb_false_iff in Ec as [Ec1 Ec2]. apply negb_false_iff in Ec1, Ec2. apply Nat.eqb_eq in Ec1. apply ctx_eqb_spec in Ec2.
      destruct (bgo_ok cs IH children vs Ec1 E) as [H1 H2]. subst sctx. split.
      * rewrite H1. simpl leaf_paths. apply map_ext. intros p. symmetry. eapply leaf_above_node, En.
      * destruct o; simpl in En; inversion En; subst; destruct st; simpl in Et; try discriminate; try (constructor; assumption).
        -- constructor; [|assumption]. destruct (Nat.eqb_spec c c0) as [->|]; [left; reflexivity|right].
           simpl in Et. destruct (sub c0 c); [reflexivity|discriminate].
        -- constructor. clear -H2. remember (map snd items) as l eqn:El. revert items El. induction H2; intros items El.
           ++ destruct items; [constructor|discriminate].
           ++ destruct items; [discriminate|]. simpl in El. inversion El; subst. constructor; auto.
    + destruct o; simpl in En; try discriminate; simpl in E; try discriminate. inversion E; subst. split; [|constructor].
      change (list_sum (map num_leaves cs)) with (num_leaves (SNode st sctx cs)).
      rewrite <- (leaf_paths_length (SNode st sctx cs)). generalize (@leaf_paths K (SNode st sctx cs)). intros l.
      induction l; simpl; [reflexivity|]. f_equal; [destruct a0; reflexivity|exact IHl].
Qed.

Lemma bgo_complete cs : Forall bc_complete cs -> forall children, Forall2 (prefix_of sub) children cs ->
  exists vs, bgo children cs = Ok (Some vs).
Proof.
  induction 1 as [|c cs Hc HF IH]; intros children H2; inversion H2 as [|o ? os ? P1 P2]; subst.
  - exists []. reflexivity.
  - destruct (Hc _ P1) as [fl Hfl]. destruct (IH _ P2) as [rest Hr].
    exists (fl ++ rest). cbn [bgo]. rewrite Hfl. simpl. fold bgo. rewrite Hr. reflexivity.
Qed.

Lemma bc_complete_all s : bc_complete s.
Proof.
  induction s as [|st sctx cs IH] using spec_ind'; intros o H.
  - inversion H; subst. simpl. eauto.
  - destruct (node_of o) as [[[t children] ctx]|] eqn:En.
    + rewrite (broadcast_node o t children ctx) by exact En.
      assert (X : Forall2 (prefix_of sub) children cs /\ ctx = sctx /\
                  (ntype_eqb t st = true \/ issubclass sub st t = true)).
      { inversion H; subst; simpl in En; inversion En; subst; (split; [|split; [reflexivity|]]);
          try assumption; try (left; reflexivity); try (right; reflexivity).
        - match goal with H : _ \/ _ |- _ => destruct H as [->|Hs] end; [left; apply Nat.eqb_refl|right; exact Hs].
        - apply Forall2_map_l. assumption. }
      destruct X as (X1 & -> & X3).
      replace (negb (ntype_eqb t st) && negb (issubclass sub st t)) with false
        by (destruct X3 as [-> | ->]; [reflexivity|destruct (ntype_eqb t st); reflexivity]).
      rewrite (Forall2_length X1), Nat.eqb_refl. replace (ctx_eqb K K_eqb sctx sctx) with true by (symmetry; apply ctx_eqb_spec; reflexivity).
      simpl. apply bgo_complete; assumption.
    + inversion H; subst; simpl in En; try discriminate. simpl. eauto.
Qed.

(** without named tuples nothing raises *)
Lemma bc_total s : forall o, no_named o -> exists r, broadcast A K K_eqb sub o s = Ok r.
Proof.
  induction s as [|st sctx cs IH] using spec_ind'; intros o H.
  - destruct o; simpl; try (eexists; reflexivity). inversion H.
  - destruct (node_of o) as [[[t children] ctx]|] eqn:En.
    + rewrite (broadcast_node o t children ctx) by exact En.
      destruct (negb _ && negb _); [eexists; reflexivity|]. destruct (negb _ || negb _); [eexists; reflexivity|].
      assert (Hc : Forall no_named children).
      { inversion H; subst; simpl in En; inversion En; subst; try assumption. rewrite Forall_map. assumption. }
      clear -IH Hc. revert cs IH. induction Hc as [|x children Hx HF IHc]; intros cs IH; destruct cs as [|c cs]; try (eexists; reflexivity).
      inversion IH; subst. cbn [bgo]. destruct (H1 x Hx) as [r ->]. simpl. destruct r; [|eexists; reflexivity].
      fold bgo. destruct (IHc cs H2) as [r ->]. simpl. destruct r; eexists; reflexivity.
    + destruct o; simpl in En; try discriminate; [simpl; eexists; reflexivity|inversion H].
Qed.
End Facts.
