(** * Facts about the constants model *)
From Coq Require Import ZArith QArith Qcanon String List Bool Reals Lra Lia.
From Verif Require Import Frac FracFacts Units UnitSpec UnitsFacts UnitsThms Prefixes PrefixSpec Constants.
Import ListNotations.
Open Scope string_scope.
Open Scope list_scope.

Lemma dget_set {V} (d : list (string * V)) k v k' :
  dict_get (dict_set d k v) k' = if String.eqb k' k then Some v else dict_get d k'.
Proof.
  induction d as [|[k0 v0] d IH]; cbn [dict_get dict_set].
  - destruct (String.eqb_spec k' k); subst; [reflexivity|]. reflexivity.
  - destruct (String.eqb_spec k k0) as [->|N]; cbn [dict_get].
    + destruct (String.eqb_spec k' k0); subst; reflexivity.
    + rewrite IH. destruct (String.eqb_spec k' k0) as [->|N'].
      * destruct (String.eqb_spec k0 k); [congruence|reflexivity].
      * reflexivity.
Qed.

(** ** Evaluation without a cache *)
Section Pure.
Variable so : set_order.
Variable vals : codata_vals.
Fixpoint peval (get : string -> option unit_) (e : cexpr) : option unit_ :=
  match e with
  | CAttr n => get n
  | CNumMul r a => option_map (fun u => umulnum u r) (peval get a)
  | CMul a b => match peval get a, peval get b with Some u, Some v => Some (umul so u v) | _, _ => None end
  | CDiv a b => match peval get a, peval get b with Some u, Some v => Some (udiv so u v) | _, _ => None end
  | CDivNum a r => option_map (fun u => udivnum u r) (peval get a)
  | CRDiv r a => option_map (fun u => urdiv r u) (peval get a)
  | CPow a n => option_map (fun u => upow u (fint n)) (peval get a)
  end.
Definition renew (u : unit_) : unit_ := unit_init (udim u) (uval u).
Fixpoint pure (n : nat) (name : string) : option unit_ :=
  match n with
  | O => None
  | S n' =>
    match dict_get class_props name with
    | None => None
    | Some PBasic => match field_of vals name, dict_get (cdvanns so) name with
                     | Some v, Some (unit, _) => Some (renew (umulnum unit v)) | _, _ => None end
    | Some (PAlias o) => pure n' o
    | Some (PDerived _ body) => option_map renew (peval (pure n') body)
    end
  end.

Lemma pure_eq n name : pure (S n) name =
    match dict_get class_props name with
    | None => None
    | Some PBasic => match field_of vals name, dict_get (cdvanns so) name with
                     | Some v, Some (unit, _) => Some (renew (umulnum unit v)) | _, _ => None end
    | Some (PAlias o) => pure n o
    | Some (PDerived _ body) => option_map renew (peval (pure n) body)
    end.
Proof. reflexivity. Qed.
Lemma peval_mono g g' : (forall n u, g n = Some u -> g' n = Some u) -> forall e u, peval g e = Some u -> peval g' e = Some u.
Proof.
  intros H. induction e as [n|r e IH|a IHa b IHb|a IHa b IHb|e IH r|r e IH|e IH n]; cbn [peval]; intros u E.
  - auto.
  - destruct (peval g e) as [w|]; [|discriminate]. rewrite (IH w) by reflexivity. exact E.
  - destruct (peval g a) as [w|]; [|discriminate]. rewrite (IHa w) by reflexivity.
    destruct (peval g b) as [w'|]; [|discriminate]. rewrite (IHb w') by reflexivity. exact E.
  - destruct (peval g a) as [w|]; [|discriminate]. rewrite (IHa w) by reflexivity.
    destruct (peval g b) as [w'|]; [|discriminate]. rewrite (IHb w') by reflexivity. exact E.
  - destruct (peval g e) as [w|]; [|discriminate]. rewrite (IH w) by reflexivity. exact E.
  - destruct (peval g e) as [w|]; [|discriminate]. rewrite (IH w) by reflexivity. exact E.
  - destruct (peval g e) as [w|]; [|discriminate]. rewrite (IH w) by reflexivity. exact E.
Qed.
Lemma pure_S n : forall name u, pure n name = Some u -> pure (S n) name = Some u.
Proof.
  induction n as [|n IH]; intros name u E; [discriminate|].
  rewrite pure_eq in E |- *. destruct (dict_get class_props name) as [[|o|d body]|]; try exact E.
  - apply IH. exact E.
  - destruct (peval (pure n) body) as [w|] eqn:Ew; [|discriminate].
    rewrite (peval_mono (pure n) (pure (S n)) IH body w Ew). exact E.
Qed.
Lemma pure_le n m name u : (n <= m)%nat -> pure n name = Some u -> pure m name = Some u.
Proof. intros L E. induction L as [|m L IH]; [exact E|]. apply pure_S, IH. Qed.
End Pure.

(** ** Names: aliases and definition order *)
Definition owner (n : string) : string :=
  match dict_get class_props n with Some (PAlias o) => o | _ => n end.
Fixpoint index_in {V} (d : list (string * V)) (k : string) : nat :=
  match d with [] => 0 | (k', _) :: r => if String.eqb k k' then 0 else S (index_in r k) end.
Definition idx := index_in class_props.
Fixpoint attrs (e : cexpr) : list string :=
  match e with
  | CAttr n => [n]
  | CNumMul _ a | CDivNum a _ | CRDiv _ a | CPow a _ => attrs a
  | CMul a b | CDiv a b => attrs a ++ attrs b
  end.
Definition prop_attrs (p : cprop) : list string :=
  match p with PBasic => [] | PAlias o => [o] | PDerived _ e => attrs e end.
Lemma dget_in {V} (d : list (string * V)) k v : dict_get d k = Some v -> In (k, v) d.
Proof.
  induction d as [|[k0 v0] d IH]; cbn [dict_get]; [discriminate|].
  destruct (String.eqb_spec k k0); intros E; [inversion E; subst; left; reflexivity|right; auto].
Qed.
Lemma props_check : forallb (fun kp => forallb (fun a => Nat.ltb (idx a) (idx (fst kp))) (prop_attrs (snd kp)) &&
    match snd kp with PAlias o => String.eqb (owner o) o | _ => true end) class_props = true.
Proof. vm_compute. reflexivity. Qed.
Lemma props_order n p a : dict_get class_props n = Some p -> In a (prop_attrs p) -> (idx a < idx n)%nat.
Proof.
  intros E H. apply dget_in in E. pose proof props_check as C. rewrite forallb_forall in C.
  specialize (C _ E). apply andb_prop in C as [C _]. cbn [fst snd] in C. rewrite forallb_forall in C.
  apply Nat.ltb_lt, C, H.
Qed.
Lemma alias_owner n o : dict_get class_props n = Some (PAlias o) -> owner o = o.
Proof.
  intros E. apply dget_in in E. pose proof props_check as C. rewrite forallb_forall in C.
  specialize (C _ E). apply andb_prop in C as [_ C]. cbn [snd] in C. apply String.eqb_eq, C.
Qed.

(** ** The cache is transparent *)
Section Cache.
Variable so : set_order.
Variable vals : codata_vals.
Notation pure := (pure so vals).
Notation get := (get_attr so vals).

Record CInv (s : cstate) : Prop := {
  ci_unit : forall n c, dict_get (snd s) n = Some c -> pure max_depth n = Some (k_unit c);
  ci_owner : forall n c, dict_get (snd s) n = Some c -> dict_get (snd s) (owner n) = Some c;
  ci_name : forall n c, dict_get (snd s) n = Some c -> k_name c = owner n;
  ci_id : forall n c, dict_get (snd s) n = Some c -> (k_id c < fst s)%nat;
  ci_inj : forall n n' c c', dict_get (snd s) n = Some c -> dict_get (snd s) n' = Some c' ->
             k_id c = k_id c' -> owner n = owner n' }.
Definition ext (m : nat) (s s' : cstate) : Prop :=
  (fst s <= fst s')%nat /\
  (forall n c, dict_get (snd s) n = Some c -> dict_get (snd s') n = Some c) /\
  (forall n c, dict_get (snd s') n = Some c -> dict_get (snd s) n = Some c \/ (idx n <= m)%nat) /\
  (forall n c, dict_get (snd s') n = Some c -> (k_id c < fst s)%nat -> exists n0, dict_get (snd s) n0 = Some c).

Lemma ext_refl m s : ext m s s.
Proof. repeat split; auto. intros n c H _. eauto. Qed.
Lemma ext_trans m s1 s2 s3 : ext m s1 s2 -> ext m s2 s3 -> ext m s1 s3.
Proof.
  intros (A1 & A2 & A3 & A4) (B1 & B2 & B3 & B4). repeat split.
  - lia.
  - auto.
  - intros n c H. destruct (B3 n c H) as [H'|H']; auto.
  - intros n c H L. destruct (B4 n c H) as [n0 H0]; [lia|]. eapply A4; eauto.
Qed.
Lemma ext_le m m' s s' : (m <= m')%nat -> ext m s s' -> ext m' s s'.
Proof. intros L (A1 & A2 & A3 & A4). repeat split; auto. intros n c H. destruct (A3 n c H); [auto|right; lia]. Qed.

(** storing a fresh object under a name that owns itself *)
Lemma store_fresh s n c : CInv s -> owner n = n -> dict_get (snd s) n = None -> k_id c = fst s -> k_name c = n ->
  pure max_depth n = Some (k_unit c) ->
  CInv (S (fst s), dict_set (snd s) n c) /\ ext (idx n) s (S (fst s), dict_set (snd s) n c).
Proof.
  intros I O N Hid Hn Hu. split.
  - split; cbn [fst snd]; intros n1 c1 H.
    + rewrite dget_set in H. destruct (String.eqb_spec n1 n) as [->|D]; [injection H as <-; exact Hu|eapply ci_unit; eauto].
    + rewrite dget_set in H. rewrite dget_set. destruct (String.eqb_spec n1 n) as [->|D].
      * injection H as <-. rewrite O, String.eqb_refl. reflexivity.
      * pose proof (ci_owner _ I _ _ H) as H1. destruct (String.eqb_spec (owner n1) n) as [E|E]; [|exact H1].
        rewrite E in H1. congruence.
    + rewrite dget_set in H. destruct (String.eqb_spec n1 n) as [->|D]; [injection H as <-; rewrite O; exact Hn|eapply ci_name; eauto].
    + rewrite dget_set in H. destruct (String.eqb_spec n1 n) as [->|D]; [injection H as <-; lia|].
      pose proof (ci_id _ I _ _ H). lia.
    + intros c' H1 H2 E. rewrite dget_set in H1, H2.
      destruct (String.eqb_spec n1 n) as [->|D]; destruct (String.eqb_spec c1 n) as [->|D'].
      * reflexivity.
      * injection H1 as <-. pose proof (ci_id _ I _ _ H2). lia.
      * injection H2 as <-. pose proof (ci_id _ I _ _ H1). lia.
      * eapply ci_inj; eauto.
  - repeat split; cbn [fst snd].
    + lia.
    + intros n1 c1 H. rewrite dget_set. destruct (String.eqb_spec n1 n) as [->|D]; [congruence|exact H].
    + intros n1 c1 H. rewrite dget_set in H. destruct (String.eqb_spec n1 n) as [->|D]; [right; lia|left; exact H].
    + intros n1 c1 H L. rewrite dget_set in H. destruct (String.eqb_spec n1 n) as [->|D]; [injection H as <-; lia|eauto].
Qed.

Lemma store_alias s n o c : CInv s -> owner n = o -> owner o = o -> dict_get (snd s) n = None -> dict_get (snd s) o = Some c ->
  pure max_depth n = Some (k_unit c) ->
  CInv (fst s, dict_set (snd s) n c) /\ ext (idx n) s (fst s, dict_set (snd s) n c).
Proof.
  intros I On Oo N Ho Hu. 
  assert (J : forall n1 c1, dict_get (dict_set (snd s) n c) n1 = Some c1 -> exists n2, owner n2 = owner n1 /\ dict_get (snd s) n2 = Some c1).
  { intros n1 c1 H. rewrite dget_set in H. destruct (String.eqb_spec n1 n) as [->|D].
    - injection H as <-. exists o. split; [congruence|exact Ho].
    - exists n1. auto. }
  split.
  - split; cbn [fst snd]; intros n1 c1 H.
    + rewrite dget_set in H. destruct (String.eqb_spec n1 n) as [->|D]; [injection H as <-; exact Hu|eapply ci_unit; eauto].
    + destruct (J _ _ H) as (n2 & E2 & H2). rewrite <- E2. rewrite dget_set.
      pose proof (ci_owner _ I _ _ H2) as H3. destruct (String.eqb_spec (owner n2) n) as [E|E]; [congruence|exact H3].
    + destruct (J _ _ H) as (n2 & E2 & H2). rewrite <- E2. eapply ci_name; eauto.
    + destruct (J _ _ H) as (n2 & E2 & H2). eapply ci_id; eauto.
    + intros c' H1 H2 E. destruct (J _ _ H1) as (n3 & E3 & H3). destruct (J _ _ H2) as (n4 & E4 & H4).
      rewrite <- E3, <- E4. eapply ci_inj; eauto.
  - repeat split; cbn [fst snd].
    + lia.
    + intros n1 c1 H. rewrite dget_set. destruct (String.eqb_spec n1 n) as [->|D]; [congruence|exact H].
    + intros n1 c1 H. rewrite dget_set in H. destruct (String.eqb_spec n1 n) as [->|D]; [right; lia|left; exact H].
    + intros n1 c1 H L. destruct (J _ _ H) as (n2 & E2 & H2). eauto.
Qed.

Definition get_ok (n : nat) (name : string) : Prop := forall s u, CInv s -> pure n name = Some u ->
  exists c s', get n name s = Some (c, s') /\ CInv s' /\ ext (idx name) s s' /\ dict_get (snd s') name = Some c /\ k_unit c = u.

Lemma ceval_ok n m : (forall a, get_ok n a) -> forall e, (forall a, In a (attrs e) -> (idx a <= m)%nat) ->
  forall s u, CInv s -> peval so (pure n) e = Some u ->
  exists s', ceval so (get n) e s = Some (u, s') /\ CInv s' /\ ext m s s'.
Proof.
  intros G. induction e as [a|r e IH|a IHa b IHb|a IHa b IHb|e IH r|r e IH|e IH z]; cbn [attrs peval ceval]; intros M s u I E.
  - destruct (G a s u I E) as (c & s' & E1 & I1 & X1 & _ & U). rewrite E1. exists s'. rewrite U.
    split; [reflexivity|]. split; [exact I1|]. eapply ext_le; [|exact X1]. apply M. left. reflexivity.
  - destruct (peval so (pure n) e) as [w|]; [|discriminate]. inversion E; subst.
    destruct (IH M s w I eq_refl) as (s' & -> & I1 & X1). exists s'. auto.
  - destruct (peval so (pure n) a) as [w|]; [|discriminate]. destruct (peval so (pure n) b) as [w'|]; [|discriminate]. inversion E; subst.
    destruct (IHa ltac:(intros; apply M, in_or_app; auto) s w I eq_refl) as (s1 & -> & I1 & X1).
    destruct (IHb ltac:(intros; apply M, in_or_app; auto) s1 w' I1 eq_refl) as (s2 & -> & I2 & X2).
    exists s2. split; [reflexivity|]. split; [exact I2|]. eapply ext_trans; eauto.
  - destruct (peval so (pure n) a) as [w|]; [|discriminate]. destruct (peval so (pure n) b) as [w'|]; [|discriminate]. inversion E; subst.
    destruct (IHa ltac:(intros; apply M, in_or_app; auto) s w I eq_refl) as (s1 & -> & I1 & X1).
    destruct (IHb ltac:(intros; apply M, in_or_app; auto) s1 w' I1 eq_refl) as (s2 & -> & I2 & X2).
    exists s2. split; [reflexivity|]. split; [exact I2|]. eapply ext_trans; eauto.
  - destruct (peval so (pure n) e) as [w|]; [|discriminate]. inversion E; subst.
    destruct (IH M s w I eq_refl) as (s' & -> & I1 & X1). exists s'. auto.
  - destruct (peval so (pure n) e) as [w|]; [|discriminate]. inversion E; subst.
    destruct (IH M s w I eq_refl) as (s' & -> & I1 & X1). exists s'. auto.
  - destruct (peval so (pure n) e) as [w|]; [|discriminate]. inversion E; subst.
    destruct (IH M s w I eq_refl) as (s' & -> & I1 & X1). exists s'. auto.
Qed.

Lemma get_attr_ok n : (n <= max_depth)%nat -> forall name, get_ok n name.
Proof.
  induction n as [|n IH]; intros L name s u I E; [discriminate|].
  cbn [get_attr]. destruct (dict_get (snd s) name) as [c|] eqn:Ec.
  { exists c, s. split; [reflexivity|]. split; [exact I|]. split; [apply ext_refl|]. split; [exact Ec|].
    pose proof (ci_unit _ I _ _ Ec) as H. apply (pure_le so vals _ _ _ _ L) in E. congruence. }
  pose proof E as E0. apply (pure_le so vals _ _ _ _ L) in E0.
  rewrite pure_eq in E. destruct (dict_get class_props name) as [[|o|d body]|] eqn:Ep; [| | |discriminate].
  - destruct (field_of vals name) as [v|]; [|discriminate]. destruct (dict_get (cdvanns so) name) as [[un de]|]; [|discriminate].
    inversion E; subst u. set (c := constant_new (fst s) name (umulnum un v) de).
    assert (O : owner name = name) by (unfold owner; rewrite Ep; reflexivity).
    destruct (store_fresh s name c I O Ec eq_refl eq_refl E0) as [I' X'].
    exists c, (S (fst s), dict_set (snd s) name c). split; [reflexivity|]. split; [exact I'|]. split; [exact X'|].
    split; [cbn [snd]; rewrite dget_set, String.eqb_refl; reflexivity|reflexivity].
  - destruct (IH ltac:(lia) o s u I E) as (c & s' & E1 & I1 & X1 & G1 & U1). rewrite E1.
    pose proof (props_order name _ o Ep (or_introl eq_refl)) as Lo.
    assert (N' : dict_get (snd s') name = None).
    { destruct (dict_get (snd s') name) as [c'|] eqn:E2; [|reflexivity].
      destruct X1 as (_ & _ & X3 & _). destruct (X3 _ _ E2); [congruence|lia]. }
    assert (O : owner name = o) by (unfold owner; rewrite Ep; reflexivity).
    destruct (store_alias s' name o c I1 O (alias_owner _ _ Ep) N' G1) as [I' X']; [rewrite E0, U1; reflexivity|].
    eexists c, _. split; [reflexivity|]. split; [exact I'|]. split; [eapply ext_trans; [eapply ext_le; [|exact X1]; lia|exact X']|].
    split; [cbn [snd]; rewrite dget_set, String.eqb_refl; reflexivity|exact U1].
  - destruct (peval so (pure n) body) as [w|] eqn:Ew; [|discriminate]. inversion E; subst u.
    assert (M : forall a, In a (attrs body) -> (idx a <= idx name - 1)%nat /\ (1 <= idx name)%nat).
    { intros a Ha. pose proof (props_order name _ a Ep Ha). lia. }
    destruct (ceval_ok n (idx name - 1) (IH ltac:(lia)) body ltac:(intros a Ha; apply M, Ha) s w I Ew) as (s' & E1 & I1 & X1).
    rewrite E1. set (c := constant_new (fst s') name w d).
    assert (N' : dict_get (snd s') name = None).
    { destruct (dict_get (snd s') name) as [c'|] eqn:E2; [|reflexivity].
      destruct X1 as (_ & _ & X3 & _). destruct (X3 _ _ E2) as [H|H]; [congruence|].
      destruct (attrs body) as [|a r] eqn:Ea; [|destruct (M a (or_introl eq_refl)); lia].
      exfalso. clear -Ea. induction body; cbn [attrs] in Ea; try discriminate; auto; apply app_eq_nil in Ea; tauto. }
    assert (O : owner name = name) by (unfold owner; rewrite Ep; reflexivity).
    destruct (store_fresh s' name c I1 O N' eq_refl eq_refl E0) as [I' X'].
    exists c, (S (fst s'), dict_set (snd s') name c). split; [reflexivity|]. split; [exact I'|].
    split; [eapply ext_trans; [eapply ext_le; [|exact X1]; lia|exact X']|].
    split; [cbn [snd]; rewrite dget_set, String.eqb_refl; reflexivity|reflexivity].
Qed.

(** names outside the class raise AttributeError *)
Lemma get_attr_none n name s : CInv s -> ~ In name codata_all -> get n name s = None.
Proof.
  intros I H. destruct n; [reflexivity|]. cbn [get_attr].
  assert (Ep : dict_get class_props name = None).
  { destruct (dict_get class_props name) eqn:E; [|reflexivity]. apply dget_in in E. exfalso. apply H.
    apply in_map_iff. exists (name, c). auto. }
  destruct (dict_get (snd s) name) as [c|] eqn:Ec; [|rewrite Ep; reflexivity].
  pose proof (ci_unit _ I _ _ Ec) as U. unfold max_depth in U; rewrite pure_eq in U. rewrite Ep in U. discriminate.
Qed.
End Cache.

(** ** Values and dimensions *)
Lemma renew_id u : canonical (udim u) -> renew u = u.
Proof. intros H. unfold renew, unit_init. rewrite (unitbase_init_idem _ H). destruct u; reflexivity. Qed.
