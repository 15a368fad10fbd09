From Coq Require Import String List Bool Lia.
From Verif Require Import Units UnitSpec UnitsFacts Scope ScopeSpec.
Import ListNotations.
Open Scope list_scope.

Section S.
Context {V : Type}.
Implicit Types (s : scope V) (d : pydict V).

(** ** Dict lemmas *)
Lemma dict_has_in d k : dict_has d k = true <-> In k (map fst d).
Proof.
  unfold dict_has. destruct (dict_get d k) eqn:E.
  - split; [intros _|reflexivity]. apply dict_get_in in E. apply in_map with (f := fst) in E. exact E.
  - apply dict_get_none in E. split; [discriminate|tauto].
Qed.

Lemma dict_get_pop d k k' : NoDup (map fst d) ->
  dict_get (dict_pop d k) k' = if String.eqb k' k then None else dict_get d k'.
Proof.
  induction d as [|[k0 v0] d IH]; simpl; intros Hn; [destruct (String.eqb k' k); reflexivity|].
  inversion Hn as [|? ? Hk Hd]; subst.
  destruct (String.eqb_spec k k0) as [->|H]; simpl.
  - destruct (String.eqb_spec k' k0) as [E|]; [|reflexivity]. rewrite E. apply dict_get_none. exact Hk.
  - rewrite (IH Hd). destruct (String.eqb_spec k' k0) as [E|]; [|reflexivity]. rewrite E.
    destruct (String.eqb_spec k0 k); [congruence|reflexivity].
Qed.

Lemma dict_pop_incl d k x : In x (map fst (dict_pop d k)) -> In x (map fst d).
Proof.
  induction d as [|[k0 v0] d IH]; simpl; [tauto|]. destruct (String.eqb k k0); simpl; tauto.
Qed.

Lemma dict_pop_nodup d k : NoDup (map fst d) -> NoDup (map fst (dict_pop d k)).
Proof.
  induction d as [|[k0 v0] d IH]; simpl; intros H; [constructor|].
  inversion H as [|? ? Hk Hd]; subst. destruct (String.eqb k k0); simpl; [assumption|].
  constructor; [|auto]. intros Hi. apply Hk. eapply dict_pop_incl; exact Hi.
Qed.

Lemma pops_nodup l : forall d, NoDup (map fst d) -> NoDup (map fst (fold_left dict_pop l d)).
Proof. induction l as [|k l IH]; intros d H; simpl; [exact H|]. apply IH, dict_pop_nodup, H. Qed.

Lemma dict_get_pops l : forall d k, NoDup (map fst d) ->
  dict_get (fold_left dict_pop l d) k = if existsb (String.eqb k) l then None else dict_get d k.
Proof.
  induction l as [|k0 l IH]; intros d k H; simpl; [reflexivity|].
  rewrite IH by (apply dict_pop_nodup, H). rewrite dict_get_pop by exact H.
  destruct (String.eqb k k0); simpl; [|reflexivity]. destruct (existsb (String.eqb k) l); reflexivity.
Qed.

Lemma dict_get_update (o : pydict V) : forall d k, NoDup (map fst o) ->
  dict_get (dict_update d o) k = match dict_get o k with Some v => Some v | None => dict_get d k end.
Proof.
  induction o as [|[k0 v0] o IH]; intros d k H; simpl; [reflexivity|].
  inversion H as [|? ? Hk Hd]; subst. unfold dict_update in *. simpl. rewrite IH by exact Hd.
  rewrite dict_get_set. destruct (String.eqb_spec k k0) as [->|].
  - replace (dict_get o k0) with (@None V); [reflexivity|]. symmetry. apply dict_get_none. exact Hk.
  - reflexivity.
Qed.

Lemma dict_update_nodup (o : pydict V) : forall d, NoDup (map fst d) -> NoDup (map fst (dict_update d o)).
Proof. intros d H. apply (dict_fold_nodup o d H). Qed.

(** ** Registrations *)
Lemma register_data s n v ig k :
  dict_get (sc_data (fst (register s n v ig))) k =
  if String.eqb k n then (if dict_has (sc_data s) n && ig then dict_get (sc_data s) n else Some v)
  else dict_get (sc_data s) k.
Proof.
  unfold register. destruct (dict_has (sc_data s) n) eqn:E; [destruct ig|]; simpl.
  - destruct (String.eqb_spec k n) as [->|]; reflexivity.
  - apply dict_get_set.
  - apply dict_get_set.
Qed.

Lemma register_keys s n v ig x :
  In x (map fst (sc_data (fst (register s n v ig)))) <-> x = n \/ In x (map fst (sc_data s)).
Proof.
  unfold register. destruct (dict_has (sc_data s) n) eqn:E; [destruct ig|]; simpl; try apply (dict_keys_set (sc_data s)).
  apply dict_has_in in E. split; [tauto|]. intros [->|H]; tauto.
Qed.

Definition reg1 s (r : string * V * bool) : scope V := fst (register s (fst (fst r)) (snd (fst r)) (snd r)).

Definition inv_reg s (l : list (string * V * bool)) : Prop :=
  NoDup (map fst (sc_data s)) /\
  (forall x, In x (map fst (sc_data s)) <-> In x (map rname l)) /\
  (forall k v, dict_get (sc_data s) k = Some v <-> effective l k v) /\
  sc_warnings s = clashes [] l.

Lemma clashes_app (l1 : list (string * V * bool)) : forall l2 seen, clashes seen (l1 ++ l2) = clashes seen l1 ++ clashes (rev (map rname l1) ++ seen) l2.
Proof.
  induction l1 as [|[[n v] ig] l1 IH]; intros l2 seen; simpl; [reflexivity|].
  rewrite IH, <- app_assoc. unfold rname at 2. simpl. rewrite <- app_assoc. reflexivity.
Qed.

Lemma existsb_eqb k l : existsb (String.eqb k) l = true <-> In k l.
Proof.
  rewrite existsb_exists. split.
  - intros (x & Hx & E). apply String.eqb_eq in E. subst. exact Hx.
  - intros H. exists k. split; [exact H|apply String.eqb_refl].
Qed.

Lemma register_nodup s n v ig : NoDup (map fst (sc_data s)) -> NoDup (map fst (sc_data (fst (register s n v ig)))).
Proof.
  intros H. unfold register. destruct (dict_has (sc_data s) n); [destruct ig|]; simpl; try exact H;
  apply (dict_set_nodup (sc_data s)); exact H.
Qed.

Lemma app_snoc_cases {A} (l : list A) a l1 x l2 : l ++ [a] = l1 ++ x :: l2 ->
  (l2 = [] /\ l1 = l /\ x = a) \/ (exists l2', l2 = l2' ++ [a] /\ l = l1 ++ x :: l2').
Proof.
  intros H. destruct l2 as [|b l2'] using rev_ind.
  - left. apply app_inj_tail in H. destruct H; subst. auto.
  - right. clear IHl2'. exists l2'. rewrite app_comm_cons, app_assoc in H. apply app_inj_tail in H.
    destruct H as [H1 H2]. subst. auto.
Qed.

Lemma reg1_inv s l r : inv_reg s l -> inv_reg (reg1 s r) (l ++ [r]).
Proof.
  destruct r as [[n v] ig]. intros (Hnd & Hk & He & Hw). unfold reg1; simpl.
  split; [apply register_nodup, Hnd|]. split; [|split].
  - intros x. rewrite register_keys, map_app, in_app_iff, Hk. simpl. unfold rname at 2. simpl. intuition.
  - intros k w. rewrite register_data.
    assert (Hhas : dict_has (sc_data s) n = true <-> In n (map rname l)) by (rewrite dict_has_in; apply Hk).
    destruct (String.eqb_spec k n) as [->|Hkn].
    + destruct (dict_has (sc_data s) n) eqn:Eh; simpl.
      * destruct ig.
        -- rewrite He. split.
           ++ intros (l1 & l2 & ig & -> & H1 & H2). exists l1, (l2 ++ [(n, v, true)]), ig.
              rewrite <- app_assoc. split; [reflexivity|]. split; [exact H1|].
              intros v' ig' Hi. apply in_app_iff in Hi as [Hi|[Hi|[]]]; [eauto|congruence].
           ++ intros (l1 & l2 & ig & E & H1 & H2). apply app_snoc_cases in E.
              destruct E as [(-> & -> & Ex)|(l2' & -> & ->)].
              ** exfalso. injection Ex as <- ->. destruct H1 as [H1|H1]; [discriminate|]. apply H1, Hhas. reflexivity.
              ** exists l1, l2', ig. split; [reflexivity|]. split; [exact H1|].
                 intros v' ig' Hi. apply (H2 v'). apply in_app_iff. tauto.
        -- split.
           ++ intros E. injection E as <-. exists l, [], false. split; [reflexivity|]. split; [tauto|]. intros ? ? [].
           ++ intros (l1 & l2 & ig & E & H1 & H2). apply app_snoc_cases in E.
              destruct E as [(-> & -> & Ex)|(l2' & -> & ->)]; [congruence|].
              exfalso. specialize (H2 v false). discriminate H2. apply in_app_iff. right. left. reflexivity.
      * assert (Hni : ~ In n (map rname l)) by (rewrite <- Hhas; congruence).
        split.
        -- intros E. injection E as <-. exists l, [], ig. split; [reflexivity|]. split; [tauto|]. intros ? ? [].
        -- intros (l1 & l2 & ig' & E & H1 & H2). apply app_snoc_cases in E.
           destruct E as [(-> & -> & Ex)|(l2' & -> & ->)]; [congruence|].
           exfalso. apply Hni. rewrite map_app, in_app_iff. right. left. reflexivity.
    + rewrite He. split.
      * intros (l1 & l2 & ig' & -> & H1 & H2). exists l1, (l2 ++ [(n, v, ig)]), ig'.
        rewrite <- app_assoc. split; [reflexivity|]. split; [exact H1|].
        intros v' ig'' Hi. apply in_app_iff in Hi as [Hi|[Hi|[]]]; [eauto|congruence].
      * intros (l1 & l2 & ig' & E & H1 & H2). apply app_snoc_cases in E.
        destruct E as [(-> & -> & Ex)|(l2' & -> & ->)]; [congruence|].
        exists l1, l2', ig'. split; [reflexivity|]. split; [exact H1|].
        intros v' ig'' Hi. apply (H2 v'). apply in_app_iff. tauto.
  - rewrite clashes_app. simpl. rewrite !app_nil_r. 
    assert (Hb : existsb (String.eqb n) (rev (map rname l)) = dict_has (sc_data s) n).
    { apply eq_true_iff_eq. rewrite existsb_eqb, <- in_rev, dict_has_in. symmetry. apply Hk. }
    rewrite Hb. unfold register. destruct (dict_has (sc_data s) n); [destruct ig|]; simpl;
      rewrite ?andb_false_r, ?app_nil_r; try (rewrite Hw; reflexivity); try exact Hw.
Qed.

Lemma regs_inv l : forall s l0, inv_reg s l0 -> inv_reg (fold_left reg1 l s) (l0 ++ l).
Proof.
  induction l as [|r l IH]; intros s l0 H; simpl; [rewrite app_nil_r; exact H|].
  replace (l0 ++ r :: l) with ((l0 ++ [r]) ++ l) by (rewrite <- app_assoc; reflexivity).
  apply IH, reg1_inv, H.
Qed.

Lemma register_many_reg1 ig kw : forall s,
  register_many s ig kw = fold_left reg1 (map (fun kv => (fst kv, snd kv, ig)) kw) s.
Proof. induction kw as [|[k v] kw IH]; intros s; [reflexivity|]. exact (IH (reg1 s (k, v, ig))). Qed.

Lemma step_inv s l o : inv_reg s l -> inv_reg (scope_step s o) (l ++ registrations [o]).
Proof.
  intros H. destruct o as [n v ig|ig kw|n v|n| |]; simpl; rewrite ?app_nil_r.
  - apply (reg1_inv s l (n, v, ig) H).
  - rewrite register_many_reg1. apply regs_inv, H.
  - exact H.
  - exact H.
  - unfold scope_exit, scope_del. destruct (sc_active s); exact H.
  - unfold scope_del. destruct (sc_active s); exact H.
Qed.

Lemma registrations_app (a : list (scope_op V)) : forall b, registrations (a ++ b) = registrations a ++ registrations b.
Proof.
  induction a as [|o a IH]; intros b; simpl; [reflexivity|].
  destruct o; simpl; rewrite ?IH, ?app_assoc; reflexivity.
Qed.

Lemma run_snoc c ops o : scope_run c (ops ++ [o]) = scope_step (@scope_run V c ops) o.
Proof. unfold scope_run. rewrite fold_left_app. reflexivity. Qed.

Lemma run_inv c ops : inv_reg (scope_run c ops) (registrations ops).
Proof.
  induction ops as [|o ops IH] using rev_ind.
  - split; [constructor|]. split; [|split].
    + simpl. tauto.
    + intros k v. simpl. split; [discriminate|]. intros (l1 & l2 & ig & E & _). destruct l1; discriminate.
    + reflexivity.
  - rewrite run_snoc, registrations_app. apply step_inv, IH.
Qed.

(** ** Context *)
Lemma rest_register s n v ig :
  sc_init_keys (fst (register s n v ig)) = sc_init_keys s /\ sc_active (fst (register s n v ig)) = sc_active s.
Proof. unfold register. destruct (dict_has (sc_data s) n); [destruct ig|]; split; reflexivity. Qed.

Lemma rest_register_many kw : forall s ig,
  sc_init_keys (register_many s ig kw) = sc_init_keys s /\ sc_active (register_many s ig kw) = sc_active s.
Proof.
  induction kw as [|[k v] kw IH]; intros s ig; [split; reflexivity|].
  unfold register_many in *. simpl. destruct (IH (fst (register s k v ig)) ig) as [A B].
  destruct (rest_register s k v ig) as [C D]. split; congruence.
Qed.

Lemma init_keys_const c ops : sc_init_keys (@scope_run V c ops) = map fst c.
Proof.
  induction ops as [|o ops IH] using rev_ind; [reflexivity|]. rewrite run_snoc, <- IH.
  set (s := scope_run c ops). destruct o as [n v ig|ig kw|n v|n| |]; simpl; try reflexivity.
  - apply rest_register.
  - apply rest_register_many.
  - unfold scope_exit, scope_del. destruct (sc_active s); reflexivity.
  - unfold scope_del. destruct (sc_active s); reflexivity.
Qed.

Lemma context_register s n v ig : sc_context (fst (register s n v ig)) = sc_context s.
Proof. unfold register. destruct (dict_has (sc_data s) n); [destruct ig|]; reflexivity. Qed.

Lemma context_register_many kw : forall s ig, sc_context (register_many s ig kw) = sc_context s.
Proof.
  induction kw as [|[k v] kw IH]; intros s ig; [reflexivity|].
  unfold register_many in *. simpl. rewrite IH. apply context_register.
Qed.

Lemma context_nodup c ops : NoDup (map fst c) -> NoDup (map fst (sc_context (@scope_run V c ops))).
Proof.
  intros Hc. induction ops as [|o ops IH] using rev_ind; [exact Hc|]. rewrite run_snoc.
  set (s := scope_run c ops) in *. destruct o as [n v ig|ig kw|n v|n| |]; simpl.
  - rewrite context_register. exact IH.
  - rewrite context_register_many. exact IH.
  - apply (dict_set_nodup (sc_context s)). exact IH.
  - apply dict_pop_nodup, IH.
  - unfold scope_exit, scope_del. destruct (sc_active s); simpl; [|exact IH]. apply dict_update_nodup, pops_nodup, IH.
  - unfold scope_del. destruct (sc_active s); simpl; [|exact IH]. apply dict_update_nodup, pops_nodup, IH.
Qed.

Lemma del_context s k : NoDup (map fst (sc_context s)) -> NoDup (map fst (sc_data s)) -> sc_active s = true ->
  dict_get (sc_context (scope_del s)) k =
  match dict_get (sc_data s) k with
  | Some v => Some v
  | None => if existsb (String.eqb k) (sc_init_keys s) && negb (String.prefix "__" k) then None
            else dict_get (sc_context s) k
  end.
Proof.
  intros Hc Hd Ha. unfold scope_del. rewrite Ha. simpl. rewrite dict_get_update by exact Hd.
  destruct (dict_get (sc_data s) k); [reflexivity|].
  rewrite dict_get_pops by exact Hc.
  replace (existsb (String.eqb k) (filter keyfilter (sc_init_keys s)))
    with (existsb (String.eqb k) (sc_init_keys s) && negb (String.prefix "__" k)); [reflexivity|].
  apply eq_true_iff_eq. rewrite andb_true_iff, !existsb_eqb, filter_In. unfold keyfilter. tauto.
Qed.

Lemma active_until_exit c ops : ~ In OpExit ops -> sc_active (@scope_run V c ops) = true.
Proof.
  induction ops as [|o ops IH] using rev_ind; [reflexivity|]. intros H.
  rewrite run_snoc. assert (Hi : sc_active (scope_run c ops) = true) by (apply IH; intros X; apply H, in_app_iff; tauto).
  set (s := scope_run c ops) in *. destruct o as [n v ig|ig kw|n v|n| |]; simpl; try exact Hi.
  - rewrite (proj2 (rest_register s n v ig)). exact Hi.
  - rewrite (proj2 (rest_register_many kw s ig)). exact Hi.
  - exfalso. apply H, in_app_iff. right. left. reflexivity.
  - unfold scope_del. rewrite Hi. exact Hi.
Qed.

Lemma inactive_after_exit s : sc_active (scope_exit s) = false.
Proof. reflexivity. Qed.

End S.
