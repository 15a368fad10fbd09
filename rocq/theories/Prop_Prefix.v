(** * Properties C09, C10, C57, C58: prefixes, name tables, derived units, Latexifier (phytorch/units)
    [SI_prefixes], [scaled_by_ten], [combines], [has_dimension] are in PrefixSpec.v. *)
From Coq Require Import ZArith QArith Qcanon String List Bool Reals Lra Lia.
From Verif Require Import Frac FracFacts Units UnitSpec UnitsFacts UnitsThms Scope ScopeFacts Prefixes PrefixSpec PrefixFacts LatexFacts.
Import ListNotations.
Open Scope string_scope.
Open Scope list_scope.

(** ** C09 *)

Definition si_functions : list (string * (string * Z)) :=
  flat_map (fun e => map (fun s => ((s ++ "_")%string, (hd "" (snd (fst e)), snd e))) (fst (fst e) :: snd (fst e))) SI_prefixes.
Lemma prefix_functions_eq : prefix_functions = si_functions.
Proof. vm_compute. reflexivity. Qed.
Lemma si_functions_nodup : nodupb (map fst si_functions) = true.
Proof. vm_compute. reflexivity. Qed.

Lemma append_inj_r a : forall b c, (a ++ c = b ++ c)%string -> a = b.
Proof.
  assert (len : forall x y, String.length (x ++ y) = (String.length x + String.length y)%nat)
    by (induction x; simpl; intros; [reflexivity|rewrite IHx; reflexivity]).
  induction a as [|x a IH]; intros [|y b] c H; simpl in H.
  - reflexivity.
  - apply (f_equal String.length) in H. simpl in H. rewrite len in H. lia.
  - apply (f_equal String.length) in H. simpl in H. rewrite len in H. lia.
  - inversion H. f_equal. eapply IH. eassumption.
Qed.

(** Exactly the SI prefixes, under their names and symbols, are exported as functions [kilo_], [k_], ...,
    each carrying the SI exponent. *)
Theorem C09_prefix_table_is_SI : forall s k,
  (exists d, dict_get prefix_functions (s ++ "_")%string = Some (d, k)) <->
  (exists name symbols, In (name, symbols, k) SI_prefixes /\ (s = name \/ In s symbols)).
Proof.
  intros s k. rewrite prefix_functions_eq. split.
  - intros [d H]. apply dict_get_in in H. apply in_flat_map in H as ([[n sy] k'] & Hi & H). cbn [fst snd] in H.
    apply in_map_iff in H as (x & E & Hx). inversion E; subst.
    match goal with H : (_ ++ "_" = _ ++ "_")%string |- _ => apply append_inj_r in H; subst end.
    exists n, sy. split; [exact Hi|]. simpl in Hx. intuition.
  - intros (n & sy & Hi & Hs). exists (hd "" sy). apply in_dict_get; [apply nodupb_spec, si_functions_nodup|].
    apply in_flat_map. exists (n, sy, k). split; [exact Hi|]. cbn [fst snd].
    apply in_map_iff. exists s. split; [reflexivity|]. simpl. intuition.
Qed.
Print Assumptions C09_prefix_table_is_SI.

(** No name or symbol is bound twice. *)
Theorem C09_no_duplicate_prefix : NoDup (map fst prefix_function_items).
Proof. apply nodupb_spec. vm_compute. reflexivity. Qed.
Print Assumptions C09_no_duplicate_prefix.

(** Applying any exported prefix function to any unit scales by the SI power of ten and keeps the dimension;
    the name is a symbol of the prefix followed by the name of the unit. *)
Theorem C09_apply : forall name symbols k s u,
  In (name, symbols, k) SI_prefixes -> s = name \/ In s symbols -> canonical (udim (nu_unit u)) ->
  exists d, dict_get prefix_functions (s ++ "_")%string = Some (d, k) /\ In d symbols /\
    nu_name (generic_prefix d k u) = (d ++ nu_name u)%string /\
    scaled_by_ten k (nu_unit u) (nu_unit (generic_prefix d k u)).
Proof.
  intros n sy k s u Hi Hs Hc. rewrite prefix_functions_eq. exists (hd "" sy). split; [|split; [|split]].
  - apply in_dict_get; [apply nodupb_spec, si_functions_nodup|].
    apply in_flat_map. exists (n, sy, k). split; [exact Hi|]. cbn [fst snd].
    apply in_map_iff. exists s. split; [reflexivity|]. simpl. intuition.
  - assert (A : forall e, In e SI_prefixes -> In (hd "" (snd (fst e))) (snd (fst e))).
    { apply Forall_forall. repeat constructor. }
    exact (A _ Hi).
  - reflexivity.
  - apply pow10_scaled, Hc.
Qed.
Print Assumptions C09_apply.

(** Prefix exponents add up, so e.g. kilo_(milli_(u)) equals u. *)
Theorem C09_prefixes_compose : forall d1 d2 i j u, canonical (udim (nu_unit u)) ->
  unit_eqb (nu_unit (generic_prefix d1 i (generic_prefix d2 j u))) (pow10_times (i + j) (nu_unit u)) = true.
Proof. intros. apply pow10_compose. assumption. Qed.
Print Assumptions C09_prefixes_compose.

Theorem C09_inverse_prefixes_cancel : forall d1 d2 i u, canonical (udim (nu_unit u)) ->
  unit_eqb (nu_unit (generic_prefix d1 i (generic_prefix d2 (- i) u))) (nu_unit u) = true.
Proof.
  intros d1 d2 i u Hu. cbn [generic_prefix nu_unit]. unfold pow10_times. ueq. split.
  - simpl. rewrite powerRZ_neg'. field. apply powerRZ_NOR. exact ten_neq.
  - intros k. rewrite !exp_mulnum by cano. reflexivity.
Qed.
Print Assumptions C09_inverse_prefixes_cancel.

Theorem C09_kilogram : unit_eqb (nu_unit (generic_prefix "k" 3 (mkN "g" u_g))) u_kg = true.
Proof.
  cbn [generic_prefix nu_unit]. unfold pow10_times, u_g, u_kg, dim1. ueq. split.
  - simpl. lra.
  - intros k. rewrite !exp_mulnum by cano. reflexivity.
Qed.
Print Assumptions C09_kilogram.

Example C09_nonvacuous : In ("micro", ["u"; "μ"], (-6)%Z) SI_prefixes /\ In "μ" ["u"; "μ"] /\
  canonical (udim u_m) /\ scaled_by_ten (-6) u_m (pow10_times (-6) u_m) /\ uval (pow10_times (-6) u_m) <> uval u_m.
Proof.
  split; [simpl; tauto|]. split; [simpl; tauto|]. split; [apply can_init|].
  split; [apply pow10_scaled, can_init|]. simpl. lra.
Qed.

(** ** C10 *)

(** exactly the combinations of a prefix with a unit that is not excluded are names *)
Theorem C10_names_exact : forall um pm ex key,
  In key (map fst (prefix_many_to_many um pm ex)) <->
  exists names abbrevs u ps pas k, In ((names, abbrevs), u) um /\ ~ In (nu_name u) ex /\
    In ((ps, pas), k) pm /\ combines key (ps, pas) (names, abbrevs).
Proof.
  intros um pm ex key. unfold prefix_many_to_many.
  change (map fst ?d) with (dict_keys d). rewrite dict_of_items_keys, in_map_iff. split.
  - intros ([k v] & <- & H). apply in_prefix_items in H as ([[ns abs] u] & [[ps pas] e] & H).
    exists ns, abs, u, ps, pas, e. simpl in *. tauto.
  - intros (ns & abs & u & ps & pas & e & H1 & H2 & H3 & H4).
    exists (key, punit pas e u). split; [reflexivity|]. apply in_prefix_items.
    exists ((ns, abs), u), ((ps, pas), e). simpl. auto.
Qed.
Print Assumptions C10_names_exact.

(** names are bound once, and only to a unit that the name describes *)
Theorem C10_binding_sound : forall um pm ex key v,
  Forall (fun e => canonical (udim (nu_unit (snd e)))) um ->
  NoDup (map fst (prefix_many_to_many um pm ex)) /\
  (In (key, v) (prefix_many_to_many um pm ex) ->
   exists names abbrevs u ps pas k, In ((names, abbrevs), u) um /\ ~ In (nu_name u) ex /\
     In ((ps, pas), k) pm /\ combines key (ps, pas) (names, abbrevs) /\
     scaled_by_ten k (nu_unit u) (nu_unit v) /\ nu_name v = (hd "" pas ++ nu_name u)%string).
Proof.
  intros um pm ex key v Hc.
  pose proof (dict_of_items_nodup (prefix_items um pm ex)) as Hn. split; [exact Hn|]. intros H.
  apply in_dict_get in H; [|exact Hn]. unfold prefix_many_to_many in H. rewrite dict_of_items_get in H.
  apply last_binding_in in H. apply in_prefix_items in H as ([[ns abs] u] & [[ps pas] e] & H1 & H2 & H3 & H4 & ->).
  exists ns, abs, u, ps, pas, e. simpl in *. repeat (split; [assumption || apply pow10_scaled|]).
  - rewrite Forall_forall in Hc. apply (Hc _ H1).
  - reflexivity.
Qed.
Print Assumptions C10_binding_sound.

(** when several combinations spell the same name, the last one (in unit order, then prefix order) counts *)
Theorem C10_last_wins : forall um1 names abbrevs u um2 pm1 ps pas k pm2 ex key,
  let pm := pm1 ++ ((ps, pas), k) :: pm2 in
  ~ In (nu_name u) ex -> combines key (ps, pas) (names, abbrevs) ->
  (forall p e, In (p, e) pm2 -> ~ combines key p (names, abbrevs)) ->
  (forall n u' p e, In (n, u') um2 -> ~ In (nu_name u') ex -> In (p, e) pm -> ~ combines key p n) ->
  dict_get (prefix_many_to_many (um1 ++ ((names, abbrevs), u) :: um2) pm ex) key
  = Some (mkN (hd "" pas ++ nu_name u)%string (pow10_times k (nu_unit u))).
Proof.
  intros um1 ns abs u um2 pm1 ps pas k pm2 ex key pm Hx Hc H2 H3.
  unfold pm. rewrite last_wins; [reflexivity|exact Hx|exact Hc| |].
  - intros [p e] Hp. exact (H2 p e Hp).
  - intros [n u'] [p e] Hu Hx' Hp. exact (H3 n u' p e Hu Hx' Hp).
Qed.
Print Assumptions C10_last_wins.

(** [names_and_abbrevs]: a lone string gives its lower-case form and its first character *)
Theorem C10_names_of_string : forall c s,
  names_and_abbrevs (IStr (String c s)) = Some ([lower (String c s)], [String c ""]).
Proof. reflexivity. Qed.
Print Assumptions C10_names_of_string.

(** In [phytorch.units.si], for every prefix and every SI unit other than the kilogram,
    the combined name or symbol denotes the unit scaled by the power of ten. *)
Lemma si_canonical so e : In e (gram_map ++ coherent_unit_map so ++ base_unit_map) -> canonical (udim (nu_unit (snd e))).
Proof.
  assert (H : Forall (fun e : outformat * nunit => canonical (udim (nu_unit (snd e)))) (gram_map ++ coherent_unit_map so ++ base_unit_map)).
  { rewrite !Forall_app. repeat split; repeat (apply Forall_cons || apply Forall_nil); cbn [snd nu_unit fst];
      apply unitbase_init_canonical. }
  rewrite Forall_forall in H. apply H.
Qed.

Definition si_other_keys : list string :=
  collapse_keys base_names ++ collapse_keys coherent_names ++ collapse_keys additional_names.
Lemma si_prefixed_clash : filter (fun k => existsb (String.eqb k) si_other_keys) si_prefix_keys = ["kilogram"; "kg"].
Proof. vm_compute. reflexivity. Qed.

Lemma prefixed_get so names abbrevs u ps pas k key :
  In ((names, abbrevs), u) (gram_map ++ coherent_unit_map so ++ base_unit_map) -> nu_name u <> "kg" ->
  In ((ps, pas), k) prefix_map -> combines key (ps, pas) (names, abbrevs) ->
  dict_get (prefixed_module so) key = Some (punit pas k u).
Proof.
  intros Hu Hx Hp Hc.
  assert (Hin : In (key, punit pas k u) (prefix_items (si_prefixable so) prefix_map ["kg"])).
  { apply in_prefix_items. exists ((names, abbrevs), u), ((ps, pas), k). cbn [fst snd].
    split; [exact Hu|]. split; [intros [E|[]]; congruence|]. auto. }
  rewrite prefixed_module_eq. apply in_dict_get; [|apply in_or_app; right; exact Hin].
  pose proof (nodupb_spec _ si_keys_nodup) as H. unfold dict_keys. rewrite map_app.
  rewrite prefix_items_keys, prefixable_names_eq.
  replace (map fst (collapse_names gram_map)) with (collapse_keys gram_names); [exact H|].
  vm_compute. reflexivity.
Qed.

Theorem C10_si_prefixed_names : forall so names abbrevs u ps pas k key,
  In ((names, abbrevs), u) (gram_map ++ coherent_unit_map so ++ base_unit_map) -> nu_name u <> "kg" ->
  In ((ps, pas), k) prefix_map -> combines key (ps, pas) (names, abbrevs) ->
  exists v, dict_get (si_namespace so) key = Some v /\ scaled_by_ten k (nu_unit u) (nu_unit v).
Proof.
  intros so ns abs u ps pas k key Hu Hx Hp Hc.
  pose proof (prefixed_get so ns abs u ps pas k key Hu Hx Hp Hc) as Hg.
  destruct (in_dec string_dec key ["kilogram"; "kg"]) as [Hk|Hk].
  - (* the base unit wins; it is the same unit *)
    assert (Hg' : dict_get (prefixed_module so) key = Some (punit ["k"] 3 (mkN "g" u_g))).
    { assert (A : forall key, In key ["kilogram"; "kg"] ->
        dict_get (prefixed_module so) key = Some (punit ["k"] 3 (mkN "g" u_g))).
      { intros ke Hke. apply (prefixed_get so ["gram"] ["g"] (mkN "g" u_g) ["kilo"] ["k"]).
        - left. reflexivity.
        - discriminate.
        - vm_compute. tauto.
        - simpl in Hke. destruct Hke as [<-|[<-|[]]]; [left; exists "kilo", "gram"|right; exists "k", "g"];
            (repeat split; left; reflexivity). }
      exact (A key Hk). }
    assert (E : punit ["k"] 3 (mkN "g" u_g) = punit pas k u) by congruence.
    exists (mkN "kg" u_kg). split.
    + rewrite si_lookup. simpl in Hk. destruct Hk as [<-|[<-|[]]]; reflexivity.
    + apply (f_equal nu_unit) in E. cbn [punit nu_unit] in E.
      destruct (pow10_scaled k (nu_unit u) (si_canonical so _ Hu)) as [Hv He]. rewrite <- E in Hv, He.
      unfold pow10_times, u_g in Hv, He. split.
      * cbn [nu_unit]. rewrite <- Hv. simpl. lra.
      * cbn [nu_unit]. intros d. rewrite <- He. rewrite !exp_mulnum by cano. reflexivity.
  - assert (Hkey : In key si_prefix_keys).
    { unfold si_prefix_keys. rewrite <- (prefixable_names_eq so), <- prefix_items_keys.
      apply in_map_iff. exists (key, punit pas k u). split; [reflexivity|]. apply in_prefix_items.
      exists ((ns, abs), u), ((ps, pas), k). cbn [fst snd].
      split; [exact Hu|]. split; [intros [E|[]]; congruence|]. auto. }
    assert (Hno : ~ In key si_other_keys).
    { intros Hi. apply Hk. rewrite <- si_prefixed_clash. apply filter_In. split; [exact Hkey|].
      apply existsb_eqb, Hi. }
    unfold si_other_keys in Hno. rewrite !in_app_iff in Hno.
    exists (punit pas k u). split.
    + rewrite si_lookup. rewrite collapse_get_none by (rewrite base_names_eq; tauto).
      rewrite collapse_get_none by (rewrite coherent_names_eq; tauto).
      rewrite collapse_get_none by (rewrite additional_names_eq; tauto). exact Hg.
    + apply pow10_scaled. apply (si_canonical so _ Hu).
Qed.
Print Assumptions C10_si_prefixed_names.

(** The unprefixed SI names denote their units ... *)
Theorem C10_si_plain_names : forall so names abbrevs u key,
  In ((names, abbrevs), u) (coherent_unit_map so ++ base_unit_map) -> In key (names ++ abbrevs) ->
  dict_get (si_namespace so) key = Some u.
Proof.
  intros so ns abs u key Hu Hk. rewrite si_lookup. apply in_app_or in Hu as [Hu|Hu].
  - rewrite collapse_get_none.
    + rewrite (collapse_get (coherent_unit_map so) ns abs u key); [reflexivity| |exact Hu|exact Hk].
      rewrite coherent_names_eq. vm_compute. reflexivity.
    + rewrite base_names_eq. intros Hi.
      assert (Hc : In key (collapse_keys coherent_names)).
      { rewrite <- (coherent_names_eq so), <- collapse_items_keys. apply in_map_iff. exists (key, u).
        split; [reflexivity|]. apply in_collapse_items. exists ns, abs. auto. }
      assert (D : forallb (fun k => negb (existsb (String.eqb k) (collapse_keys base_names))) (collapse_keys coherent_names) = true)
        by (vm_compute; reflexivity).
      rewrite forallb_forall in D. apply D in Hc. apply existsb_eqb in Hi. rewrite Hi in Hc. discriminate.
  - rewrite (collapse_get base_unit_map ns abs u key); [reflexivity|vm_compute; reflexivity|exact Hu|exact Hk].
Qed.
Print Assumptions C10_si_plain_names.

(** ... and so do the additional ones, except that the symbol A of the angstrom is the ampere. *)
Theorem C10_si_additional_names : forall so names abbrevs u key,
  In ((names, abbrevs), u) additional_unit_map -> In key (names ++ abbrevs) -> key <> "A" ->
  dict_get (si_namespace so) key = Some u.
Proof.
  intros so ns abs u key Hu Hk HA. rewrite si_lookup.
  assert (Hc : In key (collapse_keys additional_names)).
  { rewrite <- additional_names_eq, <- collapse_items_keys. apply in_map_iff. exists (key, u).
    split; [reflexivity|]. apply in_collapse_items. exists ns, abs. auto. }
  assert (D : forallb (fun k => String.eqb k "A" || negb (existsb (String.eqb k) (collapse_keys base_names ++ collapse_keys coherent_names)))
                (collapse_keys additional_names) = true) by (vm_compute; reflexivity).
  rewrite forallb_forall in D. apply D in Hc. apply orb_prop in Hc as [Hc|Hc]; [apply String.eqb_eq in Hc; congruence|].
  assert (Hno : ~ In key (collapse_keys base_names ++ collapse_keys coherent_names)).
  { intros Hi. apply existsb_eqb in Hi. rewrite Hi in Hc. discriminate. }
  rewrite in_app_iff in Hno.
  rewrite collapse_get_none by (rewrite base_names_eq; tauto).
  rewrite collapse_get_none by (rewrite coherent_names_eq; tauto).
  rewrite (collapse_get additional_unit_map ns abs u key); [reflexivity| |exact Hu|exact Hk].
  rewrite additional_names_eq. vm_compute. reflexivity.
Qed.
Print Assumptions C10_si_additional_names.

Theorem C10_angstrom_symbol_refuted : exists names abbrevs u,
  In ((names, abbrevs), u) additional_unit_map /\ In "A" abbrevs /\ In "angstrom" names /\
  forall so v, dict_get (si_namespace so) "A" = Some v -> ~ unit_eqb (nu_unit u) (nu_unit v) = true.
Proof.
  exists ["angstrom"; "ångström"], ["A"; "Å"], (mkN "A" (umulnum u_m (/ 10000000000))).
  split; [simpl; tauto|]. split; [simpl; tauto|]. split; [simpl; tauto|].
  intros so v H. rewrite si_lookup in H.
  rewrite (collapse_get base_unit_map ["ampere"] ["A"] (mkN "A" u_A)) in H;
    [|vm_compute; reflexivity|simpl; tauto|simpl; tauto].
  inversion H; subst. cbn [nu_unit]. intros E. apply eqb_exponents in E; [|apply can_mulnum|apply can_init].
  destruct E as [E _]. simpl in E. lra.
Qed.
Print Assumptions C10_angstrom_symbol_refuted.

Example C10_nonvacuous : forall so, exists v, dict_get (si_namespace so) "kPa" = Some v /\
  scaled_by_ten 3 (u_Pa so) (nu_unit v).
Proof.
  intros so. apply (C10_si_prefixed_names so ["pascal"] ["Pa"] (mkN "Pa" (u_Pa so)) ["kilo"] ["k"] 3 "kPa").
  - simpl. tauto.
  - discriminate.
  - vm_compute. tauto.
  - right. exists "k", "Pa". simpl. auto.
Qed.

(** ** C57: the derived units have their textbook dimension and scale *)
Fixpoint keys_in (l : list string) (e : uexpr) : bool :=
  match e with
  | UNew items _ => forallb (fun kv => existsb (String.eqb (fst kv)) l) items
  | UMul a b | UDiv a b => keys_in l a && keys_in l b
  | UInv a | UPow a _ | UMulNum a _ | UDivNum a _ | URDiv _ a => keys_in l a
  end.
Lemma fint_0 : fint 0 = 0%Qc. Proof. apply Qc_is_canon. reflexivity. Qed.
Lemma keys_in_zero l e d : keys_in l e = true -> ~ In d l -> paper_exponent e d = 0%Qc.
Proof.
  intros H Hd. induction e as [items v|a IHa b IHb|a IHa b IHb|a IHa|a IHa p|a IHa r|a IHa r|r a IHa]; simpl in *;
    try (apply andb_prop in H as [H1 H2]; rewrite IHa, IHb by assumption); try (rewrite IHa by assumption).
  - destruct (last_binding items d) as [w|] eqn:E; [|reflexivity].
    apply last_binding_in in E. rewrite forallb_forall in H. apply H in E. apply existsb_eqb in E. tauto.
  - ring.
  - ring.
  - ring.
  - ring.
  - reflexivity.
  - reflexivity.
  - ring.
Qed.
Fixpoint integral (e : uexpr) : bool :=
  match e with
  | UNew items _ => forallb (fun kv => Z.eqb (fden (snd kv)) 1) items
  | UMul a b | UDiv a b => integral a && integral b
  | UInv a | UMulNum a _ | UDivNum a _ | URDiv _ a => integral a
  | UPow a p => Z.eqb (fden p) 1 && integral a
  end.
Lemma integral_grid e : integral e = true -> on_paper_grid 1 e.
Proof.
  induction e as [items v|a IHa b IHb|a IHa b IHb|a IHa|a IHa p|a IHa r|a IHa r|r a IHa]; cbn [integral on_paper_grid]; intros H;
    try (apply andb_prop in H as [H1 H2]); auto.
  - apply Forall_forall. rewrite forallb_forall in H. intros kv Hi. apply H in Hi. apply Z.eqb_eq in Hi.
    rewrite Hi. apply Z.divide_refl.
  - apply Z.eqb_eq in H1. auto.
Qed.
Lemma dim_of_expr so e l t m i th :
  integral e && keys_in ["L"; "T"; "M"; "I"; "Θ"] e = true ->
  map (fun k => this (paper_exponent e k)) ["L"; "T"; "M"; "I"; "Θ"] = map (fun z => this (fint z)) [l; t; m; i; th] ->
  has_dimension (ueval so e) l t m i th.
Proof.
  intros H E. apply andb_prop in H as [H1 H2]. apply integral_grid in H1. simpl in E. inversion E.
  assert (X : forall k, exponent (ueval so e) k = paper_exponent e k)
    by (intros k; apply (grid_exact_lemma so 1); [unfold max_den; lia|exact H1]).
  unfold has_dimension. rewrite !X.
  repeat (split; [apply Qc_is_canon; match goal with H : this ?a = _ |- this ?a == _ => rewrite H end; reflexivity|]).
  intros d Hd. rewrite X, fint_0. eapply keys_in_zero; eassumption.
Qed.

Definition e_m := UNew [("L", fint 1)] 1. Definition e_s := UNew [("T", fint 1)] 1.
Definition e_kg := UNew [("M", fint 1)] 1. Definition e_A := UNew [("I", fint 1)] 1.
Definition e_K := UNew [("Θ", fint 1)] 1.
Definition e_N := UDiv (UMul e_kg e_m) (UPow e_s (fint 2)).
Definition e_J := UMul e_N e_m. Definition e_W := UDiv e_J e_s. Definition e_C := UMul e_A e_s.
Definition e_V := UDiv e_W e_A. Definition e_Ohm := UDiv e_V e_A. Definition e_Wb := UMul e_V e_s.

Fixpoint ones (e : uexpr) : Prop :=
  match e with
  | UNew _ v => v = 1%R
  | UMul a b | UDiv a b => ones a /\ ones b
  | UInv a | UPow a _ => ones a
  | UMulNum a r | UDivNum a r | URDiv r a => r = 1%R /\ ones a
  end.
Lemma rpow_1 p : rpow 1 p = 1%R.
Proof.
  unfold rpow. destruct (fden p =? 1)%Z; [apply powerRZ_R1|]. unfold Rpower. rewrite ln_1, Rmult_0_r. apply exp_0.
Qed.
Lemma ones_val so e : ones e -> uval (ueval so e) = 1%R.
Proof.
  induction e as [items v|a IHa b IHb|a IHa b IHb|a IHa|a IHa p|a IHa r|a IHa r|r a IHa]; cbn [ones]; intros H; simpl.
  - exact H.
  - rewrite IHa, IHb by tauto. ring.
  - rewrite IHa, IHb by tauto. rewrite rpow_1. ring.
  - rewrite IHa by tauto. field.
  - rewrite IHa by tauto. apply rpow_1.
  - destruct H as [-> H]. rewrite IHa by exact H. ring.
  - destruct H as [-> H]. rewrite IHa by exact H. field.
  - destruct H as [-> H]. rewrite IHa by exact H. field.
Qed.

Ltac coherent so e := split;
  [ lazymatch goal with |- uval ?u = _ => change u with (ueval so e) end; apply ones_val; simpl; tauto
  | lazymatch goal with |- has_dimension ?u _ _ _ _ _ => change u with (ueval so e) end;
    apply dim_of_expr; vm_compute; reflexivity ].

(** The coherent SI units have scale 1 and the dimension of the SI brochure (exponents of L, T, M, I, Theta). *)
Theorem C57_coherent_units : forall so,
  SI_coherent (u_Hz) 0 (-1) 0 0 0 /\ SI_coherent (u_N so) 1 (-2) 1 0 0 /\ SI_coherent (u_Pa so) (-1) (-2) 1 0 0 /\
  SI_coherent (u_J so) 2 (-2) 1 0 0 /\ SI_coherent (u_W so) 2 (-3) 1 0 0 /\ SI_coherent (u_C so) 0 1 0 1 0 /\
  SI_coherent (u_V so) 2 (-3) 1 (-1) 0 /\ SI_coherent (u_F so) (-2) 4 (-1) 2 0 /\ SI_coherent (u_Ohm so) 2 (-3) 1 (-2) 0 /\
  SI_coherent (u_S so) (-2) 3 (-1) 2 0 /\ SI_coherent (u_Wb so) 2 (-2) 1 (-1) 0 /\ SI_coherent (u_T so) 0 (-2) 1 (-1) 0 /\
  SI_coherent (u_H so) 2 (-2) 1 (-2) 0 /\ SI_coherent (u_Gy so) 2 (-2) 0 0 0.
Proof.
  intros so. unfold SI_coherent.
  split; [coherent so (URDiv 1 e_s)|].
  split; [coherent so e_N|]. split; [coherent so (UDiv e_N (UPow e_m (fint 2)))|].
  split; [coherent so e_J|]. split; [coherent so e_W|]. split; [coherent so e_C|].
  split; [coherent so e_V|]. split; [coherent so (UDiv e_C e_V)|]. split; [coherent so e_Ohm|].
  split; [coherent so (URDiv 1 e_Ohm)|]. split; [coherent so e_Wb|]. split; [coherent so (UDiv e_Wb (UPow e_m (fint 2)))|].
  split; [coherent so (UDiv e_Wb e_A)|]. coherent so (UDiv e_J e_kg).
Qed.
Print Assumptions C57_coherent_units.

(** cgs units against the SI: erg = 1e-7 J, dyn = 1e-5 N, Ba = 0.1 Pa, Gal = 0.01 m/s^2, P = 0.1 Pa s,
    St = 1e-4 m^2/s, kayser = 100 / m. *)
Definition e_cm := UMulNum e_m (powerRZ 10 (-2)). Definition e_g := UMulNum e_kg (1 / 1000).
Definition e_Gal := UDiv e_cm (UPow e_s (fint 2)).
Definition e_dyn := UMul e_g e_Gal. Definition e_Ba := UDiv e_dyn (UPow e_cm (fint 2)).

Ltac vals := cbv [u_Hz u_N u_Pa u_J u_W u_C u_V u_F u_Ohm u_S u_Wb u_T u_H u_Gy u_cm u_Gal u_dyn u_erg u_Ba u_P u_St u_kayser
    u_g u_kg u_m u_s u_A u_K u_dm u_hm dim1 pow10_times udivnum urdiv udiv umul upow uinv umulnum unit_init uval];
  rewrite ?rpow_int; simpl powerRZ.

Theorem C57_cgs_units : forall so,
  (uval (u_Gal so) = 1 / 100)%R /\ has_dimension (u_Gal so) 1 (-2) 0 0 0 /\
  (uval (u_dyn so) = uval (u_N so) / 100000)%R /\ has_dimension (u_dyn so) 1 (-2) 1 0 0 /\
  (uval (u_erg so) = uval (u_J so) / 10000000)%R /\ has_dimension (u_erg so) 2 (-2) 1 0 0 /\
  (uval (u_Ba so) = uval (u_Pa so) / 10)%R /\ has_dimension (u_Ba so) (-1) (-2) 1 0 0 /\
  (uval (u_P so) = uval (u_Pa so) / 10)%R /\ has_dimension (u_P so) (-1) (-1) 1 0 0 /\
  (uval (u_St so) = 1 / 10000)%R /\ has_dimension (u_St so) 2 (-1) 0 0 0 /\
  (uval u_kayser = 100)%R /\ has_dimension u_kayser (-1) 0 0 0 0.
Proof.
  intros so.
  split; [vals; field|]. split; [apply (dim_of_expr so e_Gal); vm_compute; reflexivity|].
  split; [vals; field|]. split; [apply (dim_of_expr so e_dyn); vm_compute; reflexivity|].
  split; [vals; field|]. split; [apply (dim_of_expr so (UMul e_dyn e_cm)); vm_compute; reflexivity|].
  split; [vals; field|]. split; [apply (dim_of_expr so e_Ba); vm_compute; reflexivity|].
  split; [vals; field|]. split; [apply (dim_of_expr so (UMul e_Ba e_s)); vm_compute; reflexivity|].
  split; [vals; field|]. split; [apply (dim_of_expr so (UDiv (UPow e_cm (fint 2)) e_s)); vm_compute; reflexivity|].
  split; [vals; field|]. apply (dim_of_expr so (UInv e_cm)); vm_compute; reflexivity.
Qed.
Print Assumptions C57_cgs_units.

(** Angles are dimensionless: 360 deg = 1 cycle = 2 pi rad, 3600 arcsec = 1 deg, 4 pi sr = 1 spat. *)
Theorem C57_angular_units : 
  (uval u_rad = 1)%R /\ (360 * uval u_deg = uval u_cycle)%R /\ (uval u_cycle = 2 * PI)%R /\
  (60 * uval u_arcmin = uval u_deg)%R /\ (3600 * uval u_arcsec = uval u_deg)%R /\
  (1000 * uval u_mas = uval u_arcsec)%R /\ (1000 * uval u_uas = uval u_mas)%R /\
  (uval u_sr = uval u_rad * uval u_rad)%R /\ (uval u_spat = 4 * PI * uval u_sr)%R /\
  Forall (fun u => has_dimension u 0 0 0 0 0) [u_rad; u_sr; u_deg; u_arcmin; u_arcsec; u_mas; u_uas; u_cycle; u_spat].
Proof.
  Ltac ang := cbv [u_rad u_sr u_deg u_arcmin u_arcsec u_mas u_uas u_cycle u_spat pow10_times udivnum umulnum upow unit_init uval];
    rewrite ?rpow_int; simpl powerRZ; try field.
  repeat (split; [ang|]).
  assert (R : has_dimension u_rad 0 0 0 0 0) by (apply (dim_of_expr so_std (UNew [] 1)); vm_compute; reflexivity).
  assert (M : forall u r, canonical (udim u) -> has_dimension u 0 0 0 0 0 -> has_dimension (umulnum u r) 0 0 0 0 0).
  { intros u r Hc H. unfold has_dimension in *. rewrite !exp_mulnum by exact Hc. destruct H as (?&?&?&?&?&H6).
    repeat (split; [assumption|]). intros d Hd. rewrite exp_mulnum by exact Hc. auto. }
  assert (S : has_dimension u_sr 0 0 0 0 0)
    by (apply (dim_of_expr so_std (UPow (UNew [] 1) (fint 2))); vm_compute; reflexivity).
  repeat (apply Forall_cons || apply Forall_nil); try assumption;
    repeat (apply M; [apply unitbase_init_canonical|]); assumption.
Qed.
Print Assumptions C57_angular_units.

(** ... and in the namespace [phytorch.units.si] every name below denotes such a unit. *)
Definition SI_brochure : list (string * (Z * Z * Z * Z * Z)) :=
  [("m", (1, 0, 0, 0, 0)); ("meter", (1, 0, 0, 0, 0)); ("metre", (1, 0, 0, 0, 0));
   ("s", (0, 1, 0, 0, 0)); ("second", (0, 1, 0, 0, 0)); ("kg", (0, 0, 1, 0, 0)); ("kilogram", (0, 0, 1, 0, 0));
   ("A", (0, 0, 0, 1, 0)); ("ampere", (0, 0, 0, 1, 0)); ("K", (0, 0, 0, 0, 1)); ("kelvin", (0, 0, 0, 0, 1));
   ("Hz", (0, -1, 0, 0, 0)); ("hertz", (0, -1, 0, 0, 0)); ("N", (1, -2, 1, 0, 0)); ("newton", (1, -2, 1, 0, 0));
   ("Pa", (-1, -2, 1, 0, 0)); ("pascal", (-1, -2, 1, 0, 0)); ("J", (2, -2, 1, 0, 0)); ("joule", (2, -2, 1, 0, 0));
   ("W", (2, -3, 1, 0, 0)); ("watt", (2, -3, 1, 0, 0)); ("C", (0, 1, 0, 1, 0)); ("coulomb", (0, 1, 0, 1, 0));
   ("V", (2, -3, 1, -1, 0)); ("volt", (2, -3, 1, -1, 0)); ("F", (-2, 4, -1, 2, 0)); ("farad", (-2, 4, -1, 2, 0));
   ("Ω", (2, -3, 1, -2, 0)); ("ohm", (2, -3, 1, -2, 0)); ("S", (-2, 3, -1, 2, 0)); ("siemens", (-2, 3, -1, 2, 0));
   ("Wb", (2, -2, 1, -1, 0)); ("weber", (2, -2, 1, -1, 0)); ("T", (0, -2, 1, -1, 0)); ("tesla", (0, -2, 1, -1, 0));
   ("H", (2, -2, 1, -2, 0)); ("henry", (2, -2, 1, -2, 0)); ("deg_C", (0, 0, 0, 0, 1)); ("Bq", (0, -1, 0, 0, 0));
   ("Gy", (2, -2, 0, 0, 0)); ("gray", (2, -2, 0, 0, 0)); ("Sv", (2, -2, 0, 0, 0)); ("sievert", (2, -2, 0, 0, 0))]%Z.

Definition denotes_coherent (so : set_order) (e : string * (Z * Z * Z * Z * Z)) : Prop :=
  let '(name, (l, t, m, i, th)) := e in
  exists v, dict_get (si_namespace so) name = Some v /\ SI_coherent (nu_unit v) l t m i th.

Lemma plain_lookup so key names abbrevs nm u :
  In key (names ++ abbrevs) -> In ((names, abbrevs), mkN nm u) (coherent_unit_map so ++ base_unit_map) ->
  forall l t m i th, SI_coherent u l t m i th -> denotes_coherent so (key, (l, t, m, i, th)).
Proof.
  intros H2 H1 l t m i th H3. exists (mkN nm u). split; [eapply C10_si_plain_names; eassumption|exact H3].
Qed.

Theorem C57_names_denote_their_unit : forall so e, In e SI_brochure -> denotes_coherent so e.
Proof.
  intros so. apply Forall_forall.
  destruct (C57_coherent_units so) as (cHz & cN & cPa & cJ & cW & cC & cV & cF & cOhm & cS & cWb & cT & cH & cGy).
  assert (cm : SI_coherent u_m 1 0 0 0 0) by (coherent so e_m).
  assert (cs : SI_coherent u_s 0 1 0 0 0) by (coherent so e_s).
  assert (ckg : SI_coherent u_kg 0 0 1 0 0) by (coherent so e_kg).
  assert (cA : SI_coherent u_A 0 0 0 1 0) by (coherent so e_A).
  assert (cK : SI_coherent u_K 0 0 0 0 1) by (coherent so e_K).
  Ltac look so n ns abs nm u := apply (plain_lookup so _ ns abs nm u);
    [|apply (nth_error_In _ n); reflexivity|assumption]; solve [simpl; tauto].
  repeat (apply Forall_cons || apply Forall_nil).
  all: first
    [ look so 17%nat ["meter"; "metre"] ["m"] "m" u_m | look so 18%nat ["second"] ["s"] "s" u_s | look so 19%nat ["kilogram"] ["kg"] "kg" u_kg
    | look so 20%nat ["ampere"] ["A"] "A" u_A | look so 21%nat ["kelvin"] ["K"] "K" u_K
    | look so 0%nat ["hertz"] ["Hz"] "Hz" u_Hz | look so 1%nat ["newton"] ["N"] "N" (u_N so) | look so 2%nat ["pascal"] ["Pa"] "Pa" (u_Pa so)
    | look so 3%nat ["joule"] ["J"] "J" (u_J so) | look so 4%nat ["watt"] ["W"] "W" (u_W so) | look so 5%nat ["coulomb"] ["C"] "C" (u_C so)
    | look so 6%nat ["volt"] ["V"] "V" (u_V so) | look so 7%nat ["farad"] ["F"] "F" (u_F so) | look so 8%nat ["ohm"] ["Ω"] "Ω" (u_Ohm so)
    | look so 9%nat ["siemens"] ["S"; "℧"] "S" (u_S so) | look so 10%nat ["weber"] ["Wb"] "Wb" (u_Wb so) | look so 11%nat ["tesla"] ["T"] "T" (u_T so)
    | look so 12%nat ["henry"] ["H"] "H" (u_H so) | look so 13%nat ["celsius"; "degree_celsius"] ["deg_C"; "°C"] "deg_C" u_K
    | look so 14%nat ["bequerel"] ["Bq"] "Bq" u_Hz | look so 15%nat ["gray"] ["Gy"] "Gy" (u_Gy so) | look so 16%nat ["sievert"] ["Sv"] "Sv" (u_Gy so) ].
Qed.
Print Assumptions C57_names_denote_their_unit.

(** The units accepted for use with the SI (additional.py): scale, and exponents of L, T, M. *)
Definition SI_accepted : list (string * (R * (Z * Z * Z))) :=
  [("min", (60%R, (0, 1, 0))); ("minute", (60%R, (0, 1, 0))); ("h", (3600%R, (0, 1, 0))); ("hour", (3600%R, (0, 1, 0)));
   ("d", (86400%R, (0, 1, 0))); ("day", (86400%R, (0, 1, 0)));
   ("au", (149597870700%R, (1, 0, 0))); ("AU", (149597870700%R, (1, 0, 0))); ("astronomical_unit", (149597870700%R, (1, 0, 0)));
   ("ha", (10000%R, (2, 0, 0))); ("hectare", (10000%R, (2, 0, 0)));
   ("L", ((1 / 1000)%R, (3, 0, 0))); ("l", ((1 / 1000)%R, (3, 0, 0))); ("litre", ((1 / 1000)%R, (3, 0, 0))); ("liter", ((1 / 1000)%R, (3, 0, 0)));
   ("t", (1000%R, (0, 0, 1))); ("tonne", (1000%R, (0, 0, 1)));
   ("angstrom", ((1 / 10000000000)%R, (1, 0, 0))); ("Å", ((1 / 10000000000)%R, (1, 0, 0)))]%Z.

Theorem C57_additional_units : forall so,
  Forall (fun e : string * (R * (Z * Z * Z)) => let '(name, (x, (l, t, m))) := e in
    exists v, dict_get (si_namespace so) name = Some v /\ uval (nu_unit v) = x /\ has_dimension (nu_unit v) l t m 0 0) SI_accepted.
Proof.
  intros so.
  Ltac addl so ns abs nm u e :=
    exists (mkN nm u); split;
    [ apply (C10_si_additional_names so ns abs (mkN nm u)); [cbn; repeat first [left; reflexivity|right]|cbn; tauto|discriminate]
    | cbn [nu_unit]; split; [vals; field|apply (dim_of_expr so e); vm_compute; reflexivity] ].
  repeat (apply Forall_cons || apply Forall_nil).
  all: first
    [ addl so ["minute"] ["min"] "min" (umulnum u_s 60) (UMulNum e_s 60)
    | addl so ["hour"] ["h"] "h" (umulnum u_s 3600) (UMulNum e_s 3600)
    | addl so ["day"] ["d"] "d" (umulnum u_s 86400) (UMulNum e_s 86400)
    | addl so ["astronomical_unit"] ["au"; "AU"] "au" (umulnum u_m 149597870700) (UMulNum e_m 149597870700)
    | addl so ["hectare"] ["ha"] "ha" (upow u_hm (fint 2)) (UPow (UMulNum e_m (powerRZ 10 2)) (fint 2))
    | addl so ["litre"; "liter"] ["L"; "l"] "L" (upow u_dm (fint 3)) (UPow (UMulNum e_m (powerRZ 10 (-1))) (fint 3))
    | addl so ["ton"; "tonne"] ["t"] "t" (umulnum u_kg 1000) (UMulNum e_kg 1000)
    | addl so ["angstrom"; "ångström"] ["A"; "Å"] "A" (umulnum u_m (/ 10000000000)) (UMulNum e_m (/ 10000000000)) ].
Qed.
Print Assumptions C57_additional_units.

(** ** C58: converting any unit to a table of base units (Latexifier.base_from, to_base) *)
Theorem C58_to_base : forall so base u, canonical (udim u) ->
  (forall d, exponent u d <> fint 0 -> exists b, dict_get base d = Some b /\ unit_of_dimension b d) ->
  exists b, base_from so base u = Some b /\ (forall d, exponent b d = exponent u d) /\
    uval b = base_scale base (udim u) /\
    to_base so base u = Some (ToOk (uval u / base_scale base (udim u))).
Proof.
  intros so base u Hc Hb.
  assert (Hi : forall d p, In (d, p) (udim u) -> exists b, dict_get base d = Some b /\ unit_of_dimension b d).
  { intros d p Hi. apply Hb. rewrite exponent_getd, fint_0. apply getd_nonzero; [exact Hc|].
    apply in_map_iff. exists (d, p). auto. }
  destruct Hc as [Hn Hf]. pose proof (conj Hn Hf : canonical (udim u)) as Hc.
  destruct (base_from_items_ok so base (udim u) unit_one) as (b & E & Hbc & Hv & He).
  - exact Hn.
  - apply can_one.
  - eapply Forall_impl; [|exact Hf]. simpl. intros [k v] [_ H]. exact H.
  - intros d p _. apply exp_one.
  - exact Hi.
  - assert (Hv' : uval b = base_scale base (udim u)) by (rewrite Hv; simpl; ring).
    assert (Hd : forall d, exponent b d = exponent u d).
    { intros d. rewrite He, (exponent_getd u). unfold getd. destruct (dict_get (udim u) d); [reflexivity|]. apply exp_one. }
    exists b. split; [exact E|]. split; [exact Hd|]. split; [exact Hv'|].
    unfold to_base. unfold base_from. rewrite E. simpl. f_equal. rewrite <- Hv'. apply to_ok_l; auto.
    + rewrite Hv'. pose proof (base_scale_pos base (udim u) Hi). lra.
    + intros d. symmetry. apply Hd.
Qed.
Print Assumptions C58_to_base.

(** A missing base unit is a KeyError. *)
Theorem C58_missing_base : forall so base u d, canonical (udim u) ->
  exponent u d <> fint 0 -> dict_get base d = None -> to_base so base u = None.
Proof.
  intros so base u d Hc He Hm. unfold to_base, base_from.
  rewrite exponent_getd, fint_0 in He. apply getd_nonzero in He; [|exact Hc].
  generalize unit_one. revert He. clear Hc. induction (udim u) as [|[k p] l IH]; simpl; [tauto|].
  intros [<-|Hi] acc; [rewrite Hm; reflexivity|]. destruct (dict_get base k); [apply IH, Hi|reflexivity].
Qed.
Print Assumptions C58_missing_base.

Definition base_mk : list (string * unit_) := [("L", pow10_times 3 u_m); ("T", u_s)].
Example C58_nonvacuous : let u := unit_init [("L", fint 2); ("T", fint (-1))] 5 in
  canonical (udim u) /\
  (forall d, exponent u d <> fint 0 -> exists b, dict_get base_mk d = Some b /\ unit_of_dimension b d).
Proof.
  intros u. split; [apply can_init|]. intros d Hd. unfold u in Hd. rewrite exponent_getd in Hd.
  destruct (string_dec d "L") as [->|HL]; [|destruct (string_dec d "T") as [->|HT]].
  - exists (pow10_times 3 u_m). split; [reflexivity|]. split; [apply can_mulnum|]. split; [simpl; lra|].
    split; [reflexivity|]. intros k Hk. unfold pow10_times, u_m, dim1. rewrite exp_mulnum by apply can_init.
    rewrite exponent_getd. unfold getd. vm_compute unit_init. simpl. 
    destruct (String.eqb_spec k "L"); [congruence|]. symmetry. apply fint_0.
  - exists u_s. split; [reflexivity|]. split; [apply can_init|]. split; [simpl; lra|].
    split; [reflexivity|]. intros k Hk. rewrite exponent_getd. unfold getd. vm_compute u_s. simpl.
    destruct (String.eqb_spec k "T"); [congruence|]. symmetry. apply fint_0.
  - exfalso. apply Hd. rewrite fint_0. apply getd_none. vm_compute. intuition congruence.
Qed.
