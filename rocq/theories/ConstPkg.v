(** * The constants package under any history of accesses *)
From Coq Require Import ZArith QArith Qcanon String List Bool Reals Lra Lia.
From Verif Require Import Frac FracFacts Units UnitSpec UnitsFacts UnitsThms Prefixes PrefixSpec PrefixFacts Constants ConstSpec ConstFacts.
Import ListNotations.
Open Scope string_scope.
Open Scope list_scope.

Definition astro_all : list string := List.concat astro_names.
Definition special : list string := codata_all ++ astro_all ++ ["default"; "astro"; "codata2014"; "codata2018"].
Definition inb (n : string) (l : list string) : bool := existsb (String.eqb n) l.
Lemma inb_spec n l : inb n l = true <-> In n l.
Proof. unfold inb. rewrite existsb_exists. split; [intros (x & H & E); apply String.eqb_eq in E; subst; exact H|intros H; exists n; split; [exact H|apply String.eqb_refl]]. Qed.
Lemma inb_false n l : inb n l = false <-> ~ In n l.
Proof. rewrite <- inb_spec. destruct (inb n l); intuition congruence. Qed.

Lemma special_nodup : NoDup special.
Proof. apply nodupb_spec. vm_compute. reflexivity. Qed.
Lemma special_unbound : forallb (fun n => match dict_get initial_globals n with None => true | Some _ => false end) special = true.
Proof. vm_compute. reflexivity. Qed.
Lemma special_init n : In n special -> dict_get initial_globals n = None.
Proof. intros H. pose proof special_unbound as C. rewrite forallb_forall in C. specialize (C n H). destruct (dict_get initial_globals n); [discriminate|reflexivity]. Qed.

(** the specification's names agree with the code's *)
Lemma canon_codata : forallb (fun n => match canonical_name codata_names n with Some m => String.eqb m (owner n) | None => false end) codata_all
   && forallb (fun n => inb n codata_all) (List.concat codata_names) && forallb (fun n => String.eqb (owner (owner n)) (owner n)) codata_all = true.
Proof. vm_compute. reflexivity. Qed.
Lemma canonical_some n : In n codata_all -> canonical_name codata_names n = Some (owner n).
Proof.
  intros H. pose proof canon_codata as C. apply andb_prop in C as [C _]. apply andb_prop in C as [C _]. rewrite forallb_forall in C.
  specialize (C n H). destruct (canonical_name codata_names n); [|discriminate]. apply String.eqb_eq in C. congruence.
Qed.
Lemma find_none names n : ~ In n (List.concat names) -> canonical_name names n = None.
Proof.
  intros H. unfold canonical_name. destruct (find (fun ns => existsb (String.eqb n) ns) names) as [ns|] eqn:E; [|reflexivity].
  apply find_some in E as [E1 E2]. exfalso. apply H. apply in_concat. exists ns. split; [exact E1|]. apply inb_spec. exact E2.
Qed.
Lemma canonical_none n : ~ In n codata_all -> canonical_name codata_names n = None.
Proof.
  intros H. apply find_none. intros Hc. apply H. pose proof canon_codata as C. apply andb_prop in C as [C _]. apply andb_prop in C as [_ C].
  rewrite forallb_forall in C. apply inb_spec, C, Hc.
Qed.
Lemma owner_idem n : In n codata_all -> owner (owner n) = owner n.
Proof.
  intros H. pose proof canon_codata as C. apply andb_prop in C as [_ C]. rewrite forallb_forall in C. apply String.eqb_eq, C, H.
Qed.

(** ** astro.py *)
Section Astro.
Variable so : set_order.
Definition acache b := astro_consts b (astro_table so).
Definition aindex (n : string) : nat := index_in (map (fun ns => (hd "" ns, tt)) astro_names) n.

Lemma acache_some b n : In n astro_all -> exists c m, dict_get (acache b) n = Some c /\ canonical_name astro_names n = Some m /\
  k_name c = m /\ dict_get (acache b) m = Some c /\ k_id c = (b + aindex m)%nat /\ (aindex m < 7)%nat.
Proof.
  intros H. unfold astro_all, astro_names in H. cbn [List.concat app] in H.
  repeat (destruct H as [<-|H]; [eexists _, _; split; [lazy -[udiv umul upow umulnum unit_init]; reflexivity|];
     split; [vm_compute; reflexivity|]; split; [reflexivity|]; split; [reflexivity|]; split; [cbn [k_id constant_new]; vm_compute (aindex _); lia|vm_compute; lia]|]).
  contradiction.
Qed.
Lemma acache_keys b : map fst (acache b) = astro_all.
Proof. reflexivity. Qed.
End Astro.

Lemma index_in_nth {V} (d : list (string * V)) k : (index_in d k < length d)%nat -> nth_error (map fst d) (index_in d k) = Some k.
Proof.
  induction d as [|[k0 v0] d IH]; cbn [index_in length map]; [lia|]. intros L.
  destruct (String.eqb_spec k k0) as [->|D]; [reflexivity|]. cbn. apply IH. lia.
Qed.
Lemma aindex_inj m m' : (aindex m < 7)%nat -> aindex m = aindex m' -> m = m'.
Proof.
  intros L E. pose proof (index_in_nth _ _ (L : (index_in _ m < length (map (fun ns => (hd "" ns, tt)) astro_names))%nat)) as H.
  assert (L' : (aindex m' < 7)%nat) by lia.
  pose proof (index_in_nth _ _ (L' : (index_in _ m' < length (map (fun ns => (hd "" ns, tt)) astro_names))%nat)) as H'.
  unfold aindex in E. rewrite E in H. congruence.
Qed.
Lemma aindex_lt_acache so b n c : dict_get (acache so b) n = Some c -> In n astro_all.
Proof. intros H. apply dget_in in H. rewrite <- (acache_keys so b). apply in_map_iff. exists (n, c). auto. Qed.

(** ** The abstract view of a state *)
Record view := mkView { w18 : option (nat * cache); w14 : option (nat * cache); wa : option nat }.

Definition ids_below (d : cache) (lo hi : nat) : Prop := forall n c, dict_get d n = Some c -> (lo <= k_id c < hi)%nat -> False.
Definition disjoint (d d' : cache) : Prop := forall n c n' c', dict_get d n = Some c -> dict_get d' n' = Some c' -> k_id c <> k_id c'.

Section Inv.
Variable so : set_order.

Record Good (p : pstate) (w : view) : Prop := {
  g18 : dict_get (p_globals p) "codata2018" = option_map (fun x => OModule "codata2018" (fst x)) (w18 w);
  g14 : dict_get (p_globals p) "codata2014" = option_map (fun x => OModule "codata2014" (fst x)) (w14 w);
  gm18 : forall i d, w18 w = Some (i, d) -> mods_get (p_mods p) i = Some (codata2018_vals, d) /\ CInv so codata2018_vals (p_next p, d);
  gm14 : forall i d, w14 w = Some (i, d) -> mods_get (p_mods p) i = Some (codata2014_vals, d) /\ CInv so codata2014_vals (p_next p, d);
  gneq : forall i d j d', w18 w = Some (i, d) -> w14 w = Some (j, d') -> i <> j /\ disjoint d d';
  gfresh : forall i x, mods_get (p_mods p) i = Some x -> (i < p_next p)%nat;
  ga : p_astro p = option_map (acache so) (wa w);
  gan : dict_get (p_globals p) "astro" = option_map (fun _ => OAstro) (wa w);
  gab : forall b, wa w = Some b -> (b + 7 <= p_next p)%nat /\
          (forall i d, w18 w = Some (i, d) -> ids_below d b (b + 7)) /\ (forall i d, w14 w = Some (i, d) -> ids_below d b (b + 7));
  gdef : forall o, dict_get (p_globals p) "default" = Some o -> exists i d, w18 w = Some (i, d) /\ o = OModule "codata2018" i;
  gconst : forall n o, In n codata_all -> dict_get (p_globals p) n = Some o ->
             exists i d c, w18 w = Some (i, d) /\ dict_get d n = Some c /\ o = OConst c;
  gastro : forall n o, In n astro_all -> dict_get (p_globals p) n = Some o ->
             exists b c, wa w = Some b /\ dict_get (acache so b) n = Some c /\ o = OConst c;
  grest : forall n, ~ In n special -> dict_get (p_globals p) n = dict_get initial_globals n }.

Definition wle (w w' : view) : Prop :=
  (forall i d, w18 w = Some (i, d) -> exists d', w18 w' = Some (i, d') /\ forall n c, dict_get d n = Some c -> dict_get d' n = Some c) /\
  (forall i d, w14 w = Some (i, d) -> exists d', w14 w' = Some (i, d') /\ forall n c, dict_get d n = Some c -> dict_get d' n = Some c) /\
  (forall b, wa w = Some b -> wa w' = Some b).
Lemma wle_refl w : wle w w.
Proof. repeat split; eauto. Qed.
Lemma wle_trans a b c : wle a b -> wle b c -> wle a c.
Proof.
  intros (A1 & A2 & A3) (B1 & B2 & B3). repeat split; auto.
  - intros i d H. destruct (A1 _ _ H) as (d1 & H1 & I1). destruct (B1 _ _ H1) as (d2 & H2 & I2). eauto 6.
  - intros i d H. destruct (A2 _ _ H) as (d1 & H1 & I1). destruct (B2 _ _ H1) as (d2 & H2 & I2). eauto 6.
Qed.

(** an object that is alive *)
Definition live (w : view) (k : source * string) (c : constant) : Prop :=
  match fst k with
  | CODATA2018 => exists i d, w18 w = Some (i, d) /\ dict_get d (snd k) = Some c /\ owner (snd k) = snd k
  | CODATA2014 => exists i d, w14 w = Some (i, d) /\ dict_get d (snd k) = Some c /\ owner (snd k) = snd k
  | Astro => exists b, wa w = Some b /\ dict_get (acache so b) (snd k) = Some c /\ canonical_name astro_names (snd k) = Some (snd k)
  end.
Lemma live_mono w w' k c : wle w w' -> live w k c -> live w' k c.
Proof.
  intros (A1 & A2 & A3). destruct k as [[| |] n]; unfold live; cbn [fst snd].
  - intros (i & d & H & G & O). destruct (A2 _ _ H) as (d' & H' & I'). eauto 6.
  - intros (i & d & H & G & O). destruct (A1 _ _ H) as (d' & H' & I'). eauto 6.
  - intros (b & H & G & O). eauto.
Qed.
Lemma live_fun w k c c' : live w k c -> live w k c' -> c = c'.
Proof.
  destruct k as [[| |] n]; unfold live; cbn [fst snd].
  - intros (i & d & H & G & O) (i' & d' & H' & G' & O'). congruence.
  - intros (i & d & H & G & O) (i' & d' & H' & G' & O'). congruence.
  - intros (i & H & G & O) (i' & H' & G' & O'). congruence.
Qed.
Lemma acache_range b n c : dict_get (acache so b) n = Some c -> (b <= k_id c < b + 7)%nat.
Proof.
  intros H. destruct (acache_some so b n (aindex_lt_acache _ _ _ _ H)) as (c' & m & E & _ & _ & _ & Hid & L). rewrite E in H. injection H as <-. lia.
Qed.
Lemma live_inj p w k k' c c' : Good p w -> live w k c -> live w k' c' -> k_id c = k_id c' -> k = k'.
Proof.
  intros G. destruct k as [[| |] n], k' as [[| |] n']; unfold live; cbn [fst snd].
  - intros (i & d & H & L & O) (i' & d' & H' & L' & O') E. rewrite H in H'. injection H' as <- <-.
    destruct (gm14 _ _ G _ _ H) as [_ I]. pose proof (ci_inj _ _ _ I _ _ _ _ L L' E). congruence.
  - intros (i & d & H & L & O) (i' & d' & H' & L' & O') E. destruct (gneq _ _ G _ _ _ _ H' H) as [_ D]. edestruct (D _ _ _ _ L' L); congruence.
  - intros (i & d & H & L & O) (b & H' & L' & O') E. destruct (gab _ _ G _ H') as (_ & _ & D). exfalso. eapply (D _ _ H _ _ L). rewrite E. eapply acache_range; eauto.
  - intros (i & d & H & L & O) (i' & d' & H' & L' & O') E. destruct (gneq _ _ G _ _ _ _ H H') as [_ D]. edestruct (D _ _ _ _ L L'); congruence.
  - intros (i & d & H & L & O) (i' & d' & H' & L' & O') E. rewrite H in H'. injection H' as <- <-.
    destruct (gm18 _ _ G _ _ H) as [_ I]. pose proof (ci_inj _ _ _ I _ _ _ _ L L' E). congruence.
  - intros (i & d & H & L & O) (b & H' & L' & O') E. destruct (gab _ _ G _ H') as (_ & D & _). exfalso. eapply (D _ _ H _ _ L). rewrite E. eapply acache_range; eauto.
  - intros (b & H' & L' & O') (i & d & H & L & O) E. destruct (gab _ _ G _ H') as (_ & _ & D). exfalso. eapply (D _ _ H _ _ L). rewrite <- E. eapply acache_range; eauto.
  - intros (b & H' & L' & O') (i & d & H & L & O) E. destruct (gab _ _ G _ H') as (_ & D & _). exfalso. eapply (D _ _ H _ _ L). rewrite <- E. eapply acache_range; eauto.
  - intros (b & H & L & O) (b' & H' & L' & O') E. rewrite H in H'. injection H' as <-.
    destruct (acache_some so b n (aindex_lt_acache _ _ _ _ L)) as (c1 & m & E1 & E2 & _ & _ & Hid & Lt).
    destruct (acache_some so b n' (aindex_lt_acache _ _ _ _ L')) as (c2 & m' & E1' & E2' & _ & _ & Hid' & Lt').
    assert (m = n) by congruence. assert (m' = n') by congruence. subst m m'.
    f_equal. apply aindex_inj; [exact Lt|]. assert (c1 = c) by congruence. assert (c2 = c') by congruence. subst. lia.
Qed.

(** ** Every step preserves the invariant *)
Lemma good_init : Good initial_state (mkView None None None).
Proof.
  assert (N : forall n, In n special -> dict_get (p_globals initial_state) n = None) by exact special_init.
  split; cbn [w18 w14 wa option_map]; try discriminate; try reflexivity.
  - intros n o Hn H. rewrite N in H; [discriminate|]. apply in_or_app. auto.
  - intros n o Hn H. rewrite N in H; [discriminate|]. apply in_or_app. right. apply in_or_app. auto.
Qed.

Lemma codata_not_special4 n : In n codata_all -> inb n (astro_all ++ ["default"; "astro"; "codata2014"; "codata2018"]) = false.
Proof.
  intros H. apply inb_false. intros H'. pose proof special_nodup as N. unfold special in N. clear -H H' N.
  induction codata_all as [|a r IH]; [contradiction|]. inversion N; subst. destruct H as [->|H]; [|auto].
  apply H2. apply in_or_app. auto.
Qed.
Lemma astro_not_special4 n : In n astro_all -> inb n (codata_all ++ ["default"; "astro"; "codata2014"; "codata2018"]) = false.
Proof.
  intros H. apply inb_false. intros H'. assert (C : forallb (fun n => negb (inb n (codata_all ++ ["default"; "astro"; "codata2014"; "codata2018"]))) astro_all = true) by (vm_compute; reflexivity).
  rewrite forallb_forall in C. specialize (C n H). apply inb_spec in H'. rewrite H' in C. discriminate.
Qed.
Lemma codata_neq n m : In n codata_all -> inb m (astro_all ++ ["default"; "astro"; "codata2014"; "codata2018"]) = true -> n <> m.
Proof. intros H E ->. rewrite (codata_not_special4 _ H) in E. discriminate. Qed.
Lemma astro_neq n m : In n astro_all -> inb m (codata_all ++ ["default"; "astro"; "codata2014"; "codata2018"]) = true -> n <> m.
Proof. intros H E ->. rewrite (astro_not_special4 _ H) in E. discriminate. Qed.

Lemma codata_astro n : In n codata_all -> In n astro_all -> False.
Proof. intros H H'. pose proof (codata_not_special4 _ H) as E. apply inb_false in E. apply E, in_or_app. auto. Qed.
Lemma codata_special n : In n codata_all -> In n special.
Proof. intros H. apply in_or_app. auto. Qed.
Lemma astro_special n : In n astro_all -> In n special.
Proof. intros H. apply in_or_app. right. apply in_or_app. auto. Qed.

Ltac absurd_names :=
  exfalso; subst;
  try congruence;
  match goal with
  | H : In ?x codata_all, H' : In ?x astro_all |- _ => exact (codata_astro _ H H')
  | H : In ?x codata_all, H' : ~ In ?x special |- _ => exact (H' (codata_special _ H))
  | H : In ?x astro_all, H' : ~ In ?x special |- _ => exact (H' (astro_special _ H))
  | H : In _ codata_all |- _ => apply inb_spec in H; vm_compute in H; discriminate H
  | H : In _ astro_all |- _ => apply inb_spec in H; vm_compute in H; discriminate H
  | H : ~ In _ special |- _ => apply H; apply inb_spec; vm_compute; reflexivity
  end.

Definition okg (w : view) (n : string) (o : pobj) : Prop :=
  (n = "default" /\ exists i d, w18 w = Some (i, d) /\ o = OModule "codata2018" i) \/
  (n = "astro" /\ o = OAstro /\ exists b, wa w = Some b) \/
  (n = "codata2018" /\ exists i d, w18 w = Some (i, d) /\ o = OModule "codata2018" i) \/
  (n = "codata2014" /\ exists i d, w14 w = Some (i, d) /\ o = OModule "codata2014" i) \/
  (In n codata_all /\ exists i d c, w18 w = Some (i, d) /\ dict_get d n = Some c /\ o = OConst c) \/
  (In n astro_all /\ exists b c, wa w = Some b /\ dict_get (acache so b) n = Some c /\ o = OConst c).

(** everything but the globals *)
Lemma good_globals p w g : Good p w ->
  (forall n o, okg w n o -> dict_get (p_globals p) n = Some o -> dict_get g n = Some o) ->
  (forall n o, dict_get g n = Some o -> dict_get (p_globals p) n = Some o \/ okg w n o) ->
  (forall n, ~ In n special -> dict_get g n = dict_get (p_globals p) n) ->
  Good (mkP (p_next p) (p_mods p) (p_astro p) g) w.
Proof.
  intros G K1 K2 K3. split; cbn [p_next p_mods p_astro p_globals]; try apply G.
  - pose proof (g18 _ _ G) as H. destruct (w18 w) as [[i d]|] eqn:E; cbn [option_map fst] in *.
    + apply K1; [|exact H]. right; right; left. eauto.
    + destruct (dict_get g "codata2018") as [o|] eqn:E2; [|reflexivity]. destruct (K2 _ _ E2) as [H2|O]; [congruence|].
      destruct O as [(A1 & _)|[(A1 & _)|[(A1 & i & d & A2 & _)|[(A1 & _)|[(A1 & _)|(A1 & _)]]]]]; absurd_names.
  - pose proof (g14 _ _ G) as H. destruct (w14 w) as [[i d]|] eqn:E; cbn [option_map fst] in *.
    + apply K1; [|exact H]. right; right; right; left. eauto.
    + destruct (dict_get g "codata2014") as [o|] eqn:E2; [|reflexivity]. destruct (K2 _ _ E2) as [H2|O]; [congruence|].
      destruct O as [(A1 & _)|[(A1 & _)|[(A1 & _)|[(A1 & i & d & A2 & _)|[(A1 & _)|(A1 & _)]]]]]; absurd_names.
  - pose proof (gan _ _ G) as H. destruct (wa w) as [b|] eqn:E; cbn [option_map fst] in *.
    + apply K1; [|exact H]. right; left. eauto.
    + destruct (dict_get g "astro") as [o|] eqn:E2; [|reflexivity]. destruct (K2 _ _ E2) as [H2|O]; [congruence|].
      destruct O as [(A1 & _)|[(A1 & A2 & b & A3)|[(A1 & _)|[(A1 & _)|[(A1 & _)|(A1 & _)]]]]]; absurd_names.
  - intros o H. destruct (K2 _ _ H) as [H2|O]; [apply (gdef _ _ G _ H2)|].
    destruct O as [(A1 & A2)|[(A1 & _)|[(A1 & _)|[(A1 & _)|[(A1 & _)|(A1 & _)]]]]]; try absurd_names. exact A2.
  - intros n o Hn H. destruct (K2 _ _ H) as [H2|O]; [apply (gconst _ _ G _ _ Hn H2)|].
    destruct O as [(A1 & A2)|[(A1 & _)|[(A1 & _)|[(A1 & _)|[(A1 & A2)|(A1 & _)]]]]]; try absurd_names. exact A2.
  - intros n o Hn H. destruct (K2 _ _ H) as [H2|O]; [apply (gastro _ _ G _ _ Hn H2)|].
    destruct O as [(A1 & A2)|[(A1 & _)|[(A1 & _)|[(A1 & _)|[(A1 & A2)|(A1 & A2)]]]]]; try absurd_names. exact A2.
  - intros n Hn. rewrite K3 by exact Hn. apply G, Hn.
Qed.

Lemma okg_special w n o : okg w n o -> In n special.
Proof.
  intros [(A1 & _)|[(A1 & _)|[(A1 & _)|[(A1 & _)|[(A1 & _)|(A1 & _)]]]]]; subst;
    first [apply codata_special; assumption|apply astro_special; assumption|apply inb_spec; vm_compute; reflexivity].
Qed.
Lemma okg_fun w n o o' : okg w n o -> okg w n o' -> o = o'.
Proof.
  intros [(A1 & A2)|[(A1 & A2)|[(A1 & A2)|[(A1 & A2)|[(A1 & A2)|(A1 & A2)]]]]]
         [(B1 & B2)|[(B1 & B2)|[(B1 & B2)|[(B1 & B2)|[(B1 & B2)|(B1 & B2)]]]]]; try absurd_names;
    repeat match goal with H : exists _, _ |- _ => destruct H | H : _ /\ _ |- _ => destruct H end; congruence.
Qed.

Lemma set_global_good p w n o : Good p w -> okg w n o -> Good (set_global p n o) w.
Proof.
  intros G O. apply good_globals; [exact G| | |].
  - intros n1 o1 O1 H. rewrite dget_set. destruct (String.eqb_spec n1 n) as [->|D]; [|exact H]. f_equal. eapply okg_fun; eauto.
  - intros n1 o1 H. rewrite dget_set in H. destruct (String.eqb_spec n1 n) as [->|D]; [|auto]. injection H as <-. auto.
  - intros n1 H. rewrite dget_set. destruct (String.eqb_spec n1 n) as [->|D]; [|reflexivity]. exfalso. apply H. eapply okg_special; eauto.
Qed.

Lemma mods_get_app ms x i : mods_get (ms ++ [x]) i = match mods_get ms i with Some y => Some y | None => if Nat.eqb (fst x) i then Some (snd x) else None end.
Proof.
  unfold mods_get. induction ms as [|m ms IH]; cbn [app find].
  - destruct (Nat.eqb (fst x) i); reflexivity.
  - destruct (Nat.eqb (fst m) i); [reflexivity|exact IH].
Qed.
Lemma mods_get_set ms i c j : mods_get (mods_set ms i c) j =
  if Nat.eqb j i then option_map (fun x => (fst x, c)) (mods_get ms j) else mods_get ms j.
Proof.
  unfold mods_get. induction ms as [|[k [v d]] ms IH]; cbn [mods_set find].
  - destruct (Nat.eqb j i); reflexivity.
  - destruct (Nat.eqb_spec k i) as [->|D]; cbn [find fst snd].
    + destruct (Nat.eqb_spec i j) as [->|D']; [rewrite Nat.eqb_refl; reflexivity|].
      destruct (Nat.eqb_spec j i); [congruence|reflexivity].
    + destruct (Nat.eqb_spec k j) as [->|D'].
      * destruct (Nat.eqb_spec j i); [congruence|reflexivity].
      * exact IH.
Qed.
Lemma cinv_empty v n : CInv so v (n, []).
Proof. split; cbn [snd dict_get]; discriminate. Qed.
Lemma cinv_next v n n' d : (n <= n')%nat -> CInv so v (n, d) -> CInv so v (n', d).
Proof.
  intros L I. split; cbn [snd]; try apply I. intros m c H. cbn [fst]. pose proof (ci_id _ _ _ I _ _ H). cbn [fst] in *. lia.
Qed.

Lemma new_good p w v (b : bool) : Good p w -> (if b then w18 w else w14 w) = None -> v = (if b then codata2018_vals else codata2014_vals) ->
  let name := if b then "codata2018" else "codata2014" in
  let w' := if b then mkView (Some (p_next p, [])) (w14 w) (wa w) else mkView (w18 w) (Some (p_next p, [])) (wa w) in
  Good (set_global (snd (new_module name v p)) name (OModule name (p_next p))) w' /\ wle w w'.
Proof.
  intros G Hn Hv. cbv zeta.
  assert (F : mods_get (p_mods p) (p_next p) = None).
  { destruct (mods_get (p_mods p) (p_next p)) eqn:E; [|reflexivity]. pose proof (gfresh _ _ G _ _ E). lia. }
  assert (D : forall n, In n codata_all -> (if b then "codata2018" else "codata2014") <> n) by (intros n H E; destruct b; absurd_names).
  assert (D' : forall n, In n astro_all -> (if b then "codata2018" else "codata2014") <> n) by (intros n H E; destruct b; absurd_names).
  split.
  - destruct b; split; cbn [w18 w14 wa]; cbn [set_global new_module snd p_next p_mods p_astro p_globals option_map fst].
    all: try (rewrite dget_set; cbn [String.eqb Ascii.eqb Bool.eqb]; apply G).
    all: try (rewrite dget_set; reflexivity).
    all: try apply G.
    all: try (intros i d H; rewrite mods_get_app;
      first [ injection H as <- <-; rewrite F; cbn [fst snd]; rewrite Nat.eqb_refl; subst v; split; [reflexivity|apply cinv_empty]
            | first [destruct (gm18 _ _ G _ _ H) as [E I]|destruct (gm14 _ _ G _ _ H) as [E I]]; rewrite E; split; [reflexivity|eapply cinv_next; [|exact I]; lia] ]).
    all: try (intros i x H; rewrite mods_get_app in H; destruct (mods_get (p_mods p) i) eqn:E;
      [pose proof (gfresh _ _ G _ _ E); lia| cbn [fst] in H; destruct (Nat.eqb_spec (p_next p) i); [lia|discriminate]]).
    all: try (intros i d j d' H1 H2;
      first [ injection H1 as <- <-; destruct (gm14 _ _ G _ _ H2) as [E _] | injection H2 as <- <-; destruct (gm18 _ _ G _ _ H1) as [E _] ];
      pose proof (gfresh _ _ G _ _ E); split; [lia|intros ? ? ? ? X Y; discriminate]).
    all: try (intros b H; destruct (gab _ _ G _ H) as (L & Q1 & Q2); split; [lia|]; split; intros i d Hi; 
      first [injection Hi as <- <-; intros ? ? X; discriminate|eauto]).
    all: try (intros o H; rewrite dget_set in H; cbn [String.eqb Ascii.eqb Bool.eqb] in H; destruct (gdef _ _ G _ H) as (i & d & X & Y); first [congruence|eauto]).
    all: try (intros n o Hi H; rewrite dget_set in H; lazymatch type of H with context[String.eqb ?x ?y] => destruct (String.eqb_spec x y) as [->|N] end;
      [absurd_names|first [eapply (gastro _ _ G); eassumption|destruct (gconst _ _ G _ _ Hi H) as (i & d & c & X & Y & Z); first [congruence|eauto 8]]]).
    all: intros n H; rewrite dget_set; lazymatch goal with |- context[String.eqb ?x ?y] => destruct (String.eqb_spec x y) as [->|N] end; [absurd_names|apply G, H].
  - destruct b; repeat split; cbn [w18 w14 wa]; intros; first [congruence|eauto].
Qed.

Lemma import_good p w : Good p w -> exists p' w' b, import_astro so p = (OAstro, p') /\ Good p' w' /\ wle w w' /\ wa w' = Some b /\
  p_astro p' = Some (acache so b).
Proof.
  intros G. unfold import_astro. rewrite (ga _ _ G). destruct (wa w) as [b|] eqn:E; cbn [option_map].
  { exists p, w, b. split; [reflexivity|]. split; [exact G|]. split; [apply wle_refl|]. split; [exact E|]. rewrite (ga _ _ G), E. reflexivity. }
  eexists _, (mkView (w18 w) (w14 w) (Some (p_next p))), (p_next p). split; [reflexivity|]. split; [|split; [|split; reflexivity]].
  - split; cbn [w18 w14 wa]; cbn [p_next p_mods p_astro p_globals option_map].
    + rewrite dget_set; cbn [String.eqb Ascii.eqb Bool.eqb]; apply G.
    + rewrite dget_set; cbn [String.eqb Ascii.eqb Bool.eqb]; apply G.
    + intros i d H. destruct (gm18 _ _ G _ _ H) as [X I]. split; [exact X|]. eapply cinv_next; [|exact I]. lia.
    + intros i d H. destruct (gm14 _ _ G _ _ H) as [X I]. split; [exact X|]. eapply cinv_next; [|exact I]. lia.
    + apply G.
    + intros i x H. pose proof (gfresh _ _ G _ _ H). lia.
    + reflexivity.
    + rewrite dget_set. reflexivity.
    + intros b H. injection H as <-. split; [cbn; lia|]. split; intros i d H n c X L.
      * destruct (gm18 _ _ G _ _ H) as [_ I]. pose proof (ci_id _ _ _ I _ _ X). cbn [fst] in *. lia.
      * destruct (gm14 _ _ G _ _ H) as [_ I]. pose proof (ci_id _ _ _ I _ _ X). cbn [fst] in *. lia.
    + intros o H. rewrite dget_set in H; cbn [String.eqb Ascii.eqb Bool.eqb] in H. apply (gdef _ _ G _ H).
    + intros n o Hn H. rewrite dget_set in H. destruct (String.eqb_spec n "astro") as [->|N]; [absurd_names|apply (gconst _ _ G _ _ Hn H)].
    + intros n o Hn H. rewrite dget_set in H. destruct (String.eqb_spec n "astro") as [->|N]; [absurd_names|].
      destruct (gastro _ _ G _ _ Hn H) as (b & c & X & _). congruence.
    + intros n Hn. rewrite dget_set. destruct (String.eqb_spec n "astro") as [->|N]; [absurd_names|]. apply G, Hn.
  - repeat split; cbn [w18 w14 wa]; intros; first [congruence|eauto].
Qed.

Variable ok18 : forall n, In n codata_all -> exists u, pure so codata2018_vals max_depth n = Some u.
Variable ok14 : forall n, In n codata_all -> exists u, pure so codata2014_vals max_depth n = Some u.

Lemma objget_good p w (b : bool) i d n name : Good p w -> (if b then w18 w else w14 w) = Some (i, d) -> In n codata_all ->
  exists c p' d', obj_get so (OModule name i) n p = Some (c, p') /\ p_astro p' = p_astro p /\
    let w' := if b then mkView (Some (i, d')) (w14 w) (wa w) else mkView (w18 w) (Some (i, d')) (wa w) in
    Good p' w' /\ wle w w' /\ dict_get d' n = Some c /\ dict_get d' (owner n) = Some c.
Proof.
  intros G Hw Hn.
  assert (E : mods_get (p_mods p) i = Some (if b then codata2018_vals else codata2014_vals, d) /\
              CInv so (if b then codata2018_vals else codata2014_vals) (p_next p, d)) by (destruct b; apply G; exact Hw).
  destruct E as [E I]. set (v := if b then codata2018_vals else codata2014_vals) in *.
  assert (U : exists u, pure so v max_depth n = Some u) by (destruct b; auto). destruct U as [u U].
  destruct (get_attr_ok so v max_depth (le_n _) n (p_next p, d) u I U) as (c & [n' d'] & E1 & I1 & X1 & G1 & _).
  unfold obj_get. rewrite E, E1. exists c. eexists _, d'. split; [reflexivity|]. split; [reflexivity|].
  destruct X1 as (L & M & _ & S4). cbn [fst snd] in *. cbv zeta.
  split; [|split].
  - assert (F : forall j x, mods_get (mods_set (p_mods p) i d') j = Some x -> (j < p_next p)%nat).
    { intros j x H. rewrite mods_get_set in H. destruct (Nat.eqb_spec j i) as [->|N]; [apply (gfresh _ _ G _ _ E)|apply (gfresh _ _ G _ _ H)]. }
    assert (O : forall n1 c1, dict_get d' n1 = Some c1 -> (k_id c1 < p_next p)%nat -> exists n0, dict_get d n0 = Some c1) by exact S4.
    destruct b; split; cbn [w18 w14 wa]; cbn [p_next p_mods p_astro p_globals option_map fst].
    all: try (apply G).
    all: try (rewrite (g18 _ _ G), Hw; reflexivity).
    all: try (rewrite (g14 _ _ G), Hw; reflexivity).
    all: try (intros j x H; pose proof (F _ _ H); lia).
    all: try (intros j e H; rewrite mods_get_set;
       first [ injection H as <- <-; rewrite Nat.eqb_refl, E; split; [reflexivity|exact I1]
             | first [destruct (gm14 _ _ G _ _ H) as [Y J]; destruct (gneq _ _ G _ _ _ _ Hw H) as [Nij _]|destruct (gm18 _ _ G _ _ H) as [Y J]; destruct (gneq _ _ G _ _ _ _ H Hw) as [Nij _]];
               destruct (Nat.eqb_spec j i); [congruence|]; rewrite Y; split; [reflexivity|eapply cinv_next; [|exact J]; exact L] ]).
    all: try (intros j e k f H1 H2; 
      first [ injection H1 as <- <-; destruct (gneq _ _ G _ _ _ _ Hw H2) as [Nij Dj]; destruct (gm14 _ _ G _ _ H2) as [_ J];
              split; [exact Nij|]; intros n1 c1 n2 c2 X Y Q; pose proof (ci_id _ _ _ J _ _ Y) as Lt; cbn [fst] in Lt;
              destruct (O _ _ X) as [n0 X0]; [lia|]; exact (Dj _ _ _ _ X0 Y Q)
            | injection H2 as <- <-; destruct (gneq _ _ G _ _ _ _ H1 Hw) as [Nij Dj]; destruct (gm18 _ _ G _ _ H1) as [_ J];
              split; [exact Nij|]; intros n1 c1 n2 c2 X Y Q; pose proof (ci_id _ _ _ J _ _ X) as Lt; cbn [fst] in Lt;
              destruct (O _ _ Y) as [n0 Y0]; [lia|]; exact (Dj _ _ _ _ X Y0 Q) ]).
    all: try (intros b0 H; destruct (gab _ _ G _ H) as (Lb & Q1 & Q2); split; [lia|]; split; intros j e Hj; first
       [ injection Hj as <- <-; intros n1 c1 X Lt; destruct (O _ _ X) as [n0 X0]; [lia|]; first [exact (Q1 _ _ Hw _ _ X0 Lt)|exact (Q2 _ _ Hw _ _ X0 Lt)]
       | eauto ]).
    all: try (intros o H; destruct (gdef _ _ G _ H) as (i1 & d1 & X & Y); first [rewrite Hw in X; injection X as <- <-; eauto|eauto]).
    all: try (intros n1 o H1 H; destruct (gconst _ _ G _ _ H1 H) as (i1 & d1 & c1 & X & Y & Z); first [rewrite Hw in X; injection X as <- <-; eauto 8|eauto 8]).
  - destruct b; (split; [|split]); cbn [w18 w14 wa]; first [intros i1 d1 H1; first [rewrite Hw in H1; injection H1 as <- <-; eauto|eauto]|auto].
  - split; [exact G1|]. exact (ci_owner _ _ _ I1 _ _ G1).
Qed.

(** the CODATA 2018 module, created on demand *)
Lemma get18 p w : Good p w -> exists i d p' w', get_codata "codata2018" codata2018_vals p = (OModule "codata2018" i, p') /\
  Good p' w' /\ wle w w' /\ w18 w' = Some (i, d).
Proof.
  intros G. unfold get_codata. rewrite (g18 _ _ G). destruct (w18 w) as [[i d]|] eqn:E; cbn [option_map].
  - exists i, d, p, w. split; [reflexivity|]. split; [exact G|]. split; [apply wle_refl|exact E].
  - destruct (new_good p w codata2018_vals true G E eq_refl) as [G' W']. cbv zeta in *.
    eexists (p_next p), [], _, _. split; [reflexivity|]. split; [exact G'|]. split; [exact W'|]. reflexivity.
Qed.

Definition pkg_res (w : view) (n : string) (r : option pobj) : Prop :=
  (In n codata_all -> exists c, r = Some (OConst c) /\ live w (CODATA2018, owner n) c) /\
  (In n astro_all -> exists c m, canonical_name astro_names n = Some m /\ r = Some (OConst c) /\ live w (Astro, m) c) /\
  (n = "default" \/ n = "codata2018" -> exists i d, w18 w = Some (i, d) /\ r = Some (OModule "codata2018" i)) /\
  (n = "codata2014" -> exists i d, w14 w = Some (i, d) /\ r = Some (OModule "codata2014" i)) /\
  (n = "astro" -> r = Some OAstro /\ exists b, wa w = Some b) /\
  (~ In n special -> r = None \/ r = Some OOther).

Ltac absurd_res := let H := fresh in intros H; try (destruct H as [H|H]); absurd_names.
Lemma initial_other n o : dict_get initial_globals n = Some o -> o = OOther.
Proof. intros H. apply dget_in in H. unfold initial_globals in H. apply in_map_iff in H as (x & E & _). congruence. Qed.
Lemma canonical_astro n b c : dict_get (acache so b) n = Some c -> exists m, canonical_name astro_names n = Some m /\
  dict_get (acache so b) m = Some c /\ canonical_name astro_names m = Some m.
Proof.
  intros H. destruct (acache_some so b n (aindex_lt_acache _ _ _ _ H)) as (c1 & m & E1 & E2 & _ & E3 & _).
  exists m. split; [exact E2|]. split; [congruence|].
  destruct (acache_some so b m (aindex_lt_acache _ _ _ _ E3)) as (c2 & m' & F1 & F2 & F3 & _).
  rewrite F2. f_equal. assert (c2 = c1) by congruence. subst.
  destruct (acache_some so b n (aindex_lt_acache _ _ _ _ H)) as (c3 & m3 & X1 & X2 & X3 & _). congruence.
Qed.
Lemma special_cases n : In n special -> In n codata_all \/ In n astro_all \/ n = "default" \/ n = "astro" \/ n = "codata2014" \/ n = "codata2018".
Proof. intros H. apply in_app_or in H as [H|H]; [auto|]. apply in_app_or in H as [H|H]; [auto|]. cbn in H. intuition. Qed.

(** what is already in globals() *)
Lemma bound_res p w n o : Good p w -> dict_get (p_globals p) n = Some o -> pkg_res w n (Some o).
Proof.
  intros G E. unfold pkg_res. repeat apply conj.
  - intros H. destruct (gconst _ _ G _ _ H E) as (i & d & c & A1 & A2 & ->). exists c. split; [reflexivity|]. exists i, d. cbn [fst snd].
    split; [exact A1|]. split; [|apply owner_idem, H]. destruct (gm18 _ _ G _ _ A1) as [_ I]. exact (ci_owner _ _ _ I _ _ A2).
  - intros H. destruct (gastro _ _ G _ _ H E) as (b & c & A1 & A2 & ->). destruct (canonical_astro _ _ _ A2) as (m & M1 & M2 & M3).
    exists c, m. split; [exact M1|]. split; [reflexivity|]. exists b. auto.
  - intros [->| ->].
    + destruct (gdef _ _ G _ E) as (i & d & A1 & ->). eauto.
    + rewrite (g18 _ _ G) in E. destruct (w18 w) as [[i d]|]; [|discriminate]. injection E as <-. eauto.
  - intros ->. rewrite (g14 _ _ G) in E. destruct (w14 w) as [[i d]|]; [|discriminate]. injection E as <-. eauto.
  - intros ->. rewrite (gan _ _ G) in E. destruct (wa w) as [b|]; [|discriminate]. injection E as <-. eauto.
  - intros H. rewrite (grest _ _ G _ H) in E. apply initial_other in E. subst. auto.
Qed.

Lemma astro_all_public : filter (fun n => negb (String.prefix "_" n)) astro_all = astro_all.
Proof. vm_compute. reflexivity. Qed.

Lemma pkg_get_ok p w n r p' : Good p w -> pkg_get so n p = (r, p') -> exists w', Good p' w' /\ wle w w' /\ pkg_res w' n r.
Proof.
  intros G E. unfold pkg_get in E. destruct (dict_get (p_globals p) n) as [o|] eqn:En.
  { injection E as <- <-. exists w. split; [exact G|]. split; [apply wle_refl|]. eapply bound_res; eauto. }
  (* once the name is bound, the previous lemma gives the result *)
  assert (fin : forall p1 w1 o, Good p1 w1 -> wle w w1 -> okg w1 n o -> r = Some o -> p' = set_global p1 n o ->
                exists w', Good p' w' /\ wle w w' /\ pkg_res w' n r).
  { intros p1 w1 o G1 W1 O -> ->. exists w1. pose proof (set_global_good _ _ _ _ G1 O) as G2. split; [exact G2|]. split; [exact W1|].
    eapply bound_res; [exact G2|]. unfold set_global. cbn [p_globals]. rewrite dget_set, String.eqb_refl. reflexivity. }
  destruct (String.eqb_spec n "default") as [->|N1].
  { cbn [factories dict_get String.eqb Ascii.eqb Bool.eqb run_factory] in E.
    destruct (get18 p w G) as (i & d & p1 & w1 & Eg & G1 & W1 & E1). rewrite Eg in E. injection E as <- <-.
    eapply (fin p1 w1); eauto. left. eauto. }
  destruct (String.eqb_spec n "astro") as [->|N2].
  { cbn [factories dict_get String.eqb Ascii.eqb Bool.eqb run_factory] in E.
    destruct (import_good p w G) as (p1 & w1 & b & Eg & G1 & W1 & E1 & _). rewrite Eg in E. injection E as <- <-.
    eapply (fin p1 w1); eauto. right; left. eauto. }
  destruct (String.eqb_spec n "codata2014") as [->|N3].
  { cbn [factories dict_get String.eqb Ascii.eqb Bool.eqb run_factory new_module] in E. injection E as <- <-.
    rewrite (g14 _ _ G) in En. destruct (w14 w) as [x|] eqn:Ew; [discriminate|].
    destruct (new_good p w codata2014_vals false G Ew eq_refl) as [G1 W1]. cbv zeta in *. cbn [new_module snd] in G1.
    eexists. split; [exact G1|]. split; [exact W1|]. eapply bound_res; [exact G1|].
    unfold set_global. cbn [p_globals]. rewrite dget_set, String.eqb_refl. reflexivity. }
  destruct (String.eqb_spec n "codata2018") as [->|N4].
  { cbn [factories dict_get String.eqb Ascii.eqb Bool.eqb run_factory new_module] in E. injection E as <- <-.
    rewrite (g18 _ _ G) in En. destruct (w18 w) as [x|] eqn:Ew; [discriminate|].
    destruct (new_good p w codata2018_vals true G Ew eq_refl) as [G1 W1]. cbv zeta in *. cbn [new_module snd] in G1.
    eexists. split; [exact G1|]. split; [exact W1|]. eapply bound_res; [exact G1|].
    unfold set_global. cbn [p_globals]. rewrite dget_set, String.eqb_refl. reflexivity. }
  assert (Ef : dict_get factories n = None).
  { unfold factories. cbn [dict_get]. destruct (String.eqb_spec n "default"); [congruence|]. destruct (String.eqb_spec n "astro"); [congruence|].
    destruct (String.eqb_spec n "codata2014"); [congruence|]. destruct (String.eqb_spec n "codata2018"); [congruence|]. reflexivity. }
  rewrite Ef in E. unfold default_keys in E. cbn [search] in E.
  change (dict_get factories "default") with (Some FDefault) in E. cbn [run_factory] in E.
  destruct (get18 p w G) as (i & d & p1 & w1 & Eg & G1 & W1 & E1). rewrite Eg in E. cbn [module_all] in E.
  destruct (existsb (String.eqb n) codata_all) eqn:Hc.
  { apply inb_spec in Hc. destruct (objget_good p1 w1 true i d n "codata2018" G1 E1 Hc) as (c & p2 & d' & Eo & _ & G2 & W2 & X & _).
    rewrite Eo in E. injection E as <- <-. eapply (fin p2); [exact G2|eapply wle_trans; eauto| |reflexivity|reflexivity].
    right; right; right; right; left. split; [exact Hc|]. cbn [w18]. eauto 8. }
  apply inb_false in Hc. change (dict_get factories "astro") with (Some FAstro) in E. cbn [run_factory] in E.
  destruct (import_good p1 w1 G1) as (p2 & w2 & b & Eg2 & G2 & W2 & E2 & Ea). rewrite Eg2 in E. cbn [module_all] in E.
  rewrite Ea, acache_keys, astro_all_public in E.
  destruct (existsb (String.eqb n) astro_all) eqn:Ha.
  { apply inb_spec in Ha. cbn [obj_get] in E. rewrite Ea in E. destruct (acache_some so b n Ha) as (c & m & X1 & _).
    rewrite X1 in E. injection E as <- <-. eapply (fin p2); [exact G2|eapply wle_trans; eauto| |reflexivity|reflexivity].
    right; right; right; right; right. split; [exact Ha|]. eauto. }
  apply inb_false in Ha. injection E as <- <-. exists w2. split; [exact G2|]. split; [eapply wle_trans; eauto|].
  unfold pkg_res. repeat apply conj; try tauto; intros H; exfalso; destruct H; congruence || (try tauto).
Qed.

Definition access_res (w : view) (x : access) (r : option pobj) : Prop :=
  match denotes x with Some k => exists c, r = Some (OConst c) /\ live w k c | None => forall c, r <> Some (OConst c) end.

Lemma module_get p w (b : bool) i d n name r p' : Good p w -> (if b then w18 w else w14 w) = Some (i, d) ->
  (match obj_get so (OModule name i) n p with Some (c, p2) => (Some (OConst c), p2) | None => (None, p) end) = (r, p') ->
  exists w', Good p' w' /\ wle w w' /\
   match tag (if b then CODATA2018 else CODATA2014) (canonical_name codata_names n) with
   | Some k => exists c, r = Some (OConst c) /\ live w' k c | None => forall c, r <> Some (OConst c) end.
Proof.
  intros G Hw E. destruct (inb n codata_all) eqn:Hn.
  - apply inb_spec in Hn. destruct (objget_good p w b i d n name G Hw Hn) as (c & p2 & d' & Eo & _ & G2 & W2 & X & Y).
    rewrite Eo in E. injection E as <- <-. eexists. split; [exact G2|]. split; [exact W2|]. rewrite (canonical_some _ Hn). cbn [tag].
    exists c. split; [reflexivity|]. pose proof (owner_idem _ Hn). destruct b; unfold live; cbn [fst snd w18 w14]; eauto 6.
  - apply inb_false in Hn. assert (Eo : obj_get so (OModule name i) n p = None).
    { unfold obj_get. destruct b; [destruct (gm18 _ _ G _ _ Hw) as [-> I]|destruct (gm14 _ _ G _ _ Hw) as [-> I]]; rewrite (get_attr_none _ _ _ _ _ I Hn); reflexivity. }
    rewrite Eo in E. injection E as <- <-. exists w. split; [exact G|]. split; [apply wle_refl|]. rewrite (canonical_none _ Hn). discriminate.
Qed.

Lemma astro_concat n : ~ In n astro_all -> canonical_name astro_names n = None.
Proof. apply find_none. Qed.

Lemma do_access_ok p w x r p' : Good p w -> do_access so x p = (r, p') -> exists w', Good p' w' /\ wle w w' /\ access_res w' x r.
Proof.
  intros G E. destruct x as [n|a n]; cbn [do_access] in E.
  - destruct (pkg_get_ok _ _ _ _ _ G E) as (w' & G' & W' & (R1 & R2 & R3 & R4 & R5 & R6)). exists w'. split; [exact G'|]. split; [exact W'|].
    unfold access_res, denotes. destruct (inb n codata_all) eqn:Hc.
    + apply inb_spec in Hc. rewrite (canonical_some _ Hc). apply R1, Hc.
    + apply inb_false in Hc. rewrite (canonical_none _ Hc). destruct (inb n astro_all) eqn:Ha.
      * apply inb_spec in Ha. destruct (R2 Ha) as (c & m & Em & -> & L). rewrite Em. cbn [tag]. eauto.
      * apply inb_false in Ha. rewrite (astro_concat _ Ha). cbn [tag]. intros c ->.
        destruct (inb n special) eqn:Hs.
        -- apply inb_spec in Hs. destruct (special_cases _ Hs) as [H|[H|[->|[->|[->| ->]]]]]; try tauto.
           ++ destruct (R3 (or_introl eq_refl)) as (i & d & _ & X). discriminate.
           ++ destruct (R5 eq_refl) as [X _]. discriminate.
           ++ destruct (R4 eq_refl) as (i & d & _ & X). discriminate.
           ++ destruct (R3 (or_intror eq_refl)) as (i & d & _ & X). discriminate.
        -- apply inb_false in Hs. destruct (R6 Hs); discriminate.
  - destruct (pkg_get so a p) as [ra p1] eqn:Ea. destruct (pkg_get_ok _ _ _ _ _ G Ea) as (w1 & G1 & W1 & (R1 & R2 & R3 & R4 & R5 & R6)).
    unfold access_res, denotes.
    destruct (String.eqb_spec a "default") as [->|N1]; [|destruct (String.eqb_spec a "codata2018") as [->|N2]]; cbn [orb].
    + destruct (R3 (or_introl eq_refl)) as (i & d & Hw & ->).
      destruct (module_get p1 w1 true i d n "codata2018" r p' G1 Hw E) as (w' & G' & W' & X). exists w'. split; [exact G'|]. split; [eapply wle_trans; eauto|exact X].
    + destruct (R3 (or_intror eq_refl)) as (i & d & Hw & ->).
      destruct (module_get p1 w1 true i d n "codata2018" r p' G1 Hw E) as (w' & G' & W' & X). exists w'. split; [exact G'|]. split; [eapply wle_trans; eauto|exact X].
    + destruct (String.eqb_spec a "codata2014") as [->|N3].
      { destruct (R4 eq_refl) as (i & d & Hw & ->).
        destruct (module_get p1 w1 false i d n "codata2014" r p' G1 Hw E) as (w' & G' & W' & X). exists w'. split; [exact G'|]. split; [eapply wle_trans; eauto|exact X]. }
      destruct (String.eqb_spec a "astro") as [->|N4].
      { destruct (R5 eq_refl) as (-> & b & Hw). cbn [obj_get] in E. rewrite (ga _ _ G1), Hw in E. cbn [option_map] in E.
        destruct (inb n astro_all) eqn:Ha.
        - apply inb_spec in Ha. destruct (acache_some so b n Ha) as (c & m & X1 & X2 & _). rewrite X1 in E. injection E as <- <-.
          exists w1. split; [exact G1|]. split; [exact W1|]. destruct (canonical_astro _ _ _ X1) as (m' & M1 & M2 & M3). rewrite M1. cbn [tag].
          exists c. split; [reflexivity|]. exists b. auto.
        - apply inb_false in Ha. destruct (dict_get (acache so b) n) as [c|] eqn:X1; [exfalso; apply Ha; eapply aindex_lt_acache; eauto|].
          injection E as <- <-. exists w1. split; [exact G1|]. split; [exact W1|]. rewrite (astro_concat _ Ha). discriminate. }
      assert (K : r = None /\ p' = p1).
      { destruct (inb a special) eqn:Hs.
        - apply inb_spec in Hs. destruct (special_cases _ Hs) as [H|[H|H]].
          + destruct (R1 H) as (c & -> & _). cbn [obj_get] in E. injection E as <- <-. auto.
          + destruct (R2 H) as (c & m & _ & -> & _). cbn [obj_get] in E. injection E as <- <-. auto.
          + exfalso. intuition congruence.
        - apply inb_false in Hs. destruct (R6 Hs) as [->| ->]; cbn [obj_get] in E; injection E as <- <-; auto. }
      destruct K as [-> ->]. exists w1. split; [exact G1|]. split; [exact W1|]. discriminate.
Qed.

Lemma run_ok xs : forall p w rs p', Good p w -> run so xs p = (rs, p') ->
  exists w', Good p' w' /\ wle w w' /\ Forall2 (fun x r => access_res w' x r) xs rs.
Proof.
  induction xs as [|x xs IH]; cbn [run]; intros p w rs p' G E.
  - injection E as <- <-. exists w. split; [exact G|]. split; [apply wle_refl|constructor].
  - destruct (do_access so x p) as [o p1] eqn:E1. destruct (run so xs p1) as [os p2] eqn:E2. injection E as <- <-.
    destruct (do_access_ok _ _ _ _ _ G E1) as (w1 & G1 & W1 & X1). destruct (IH _ _ _ _ G1 E2) as (w2 & G2 & W2 & F).
    exists w2. split; [exact G2|]. split; [eapply wle_trans; eauto|]. constructor; [|exact F].
    unfold access_res in *. destruct (denotes x) as [k|]; [|exact X1]. destruct X1 as (c & -> & L). exists c. split; [reflexivity|]. eapply live_mono; eauto.
Qed.
End Inv.
