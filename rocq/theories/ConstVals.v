(** * Values and dimensions of the constants *)
From Coq Require Import ZArith QArith Qcanon String List Bool Reals Lra Lia.
From Verif Require Import Frac FracFacts Units UnitSpec UnitsFacts UnitsThms Prefixes PrefixSpec Prop_Prefix Constants ConstSpec ConstFacts.
Import ListNotations.
Open Scope string_scope.
Open Scope list_scope.

Definition cdv_table : list (string * (uexpr * string)) :=
  [("c", (UDiv e_m e_s, "speed of light in vacuum"));
   ("h", (UMul e_J e_s, "Planck constant"));
   ("k", (UDiv e_J e_K, "Boltzmann constant"));
   ("N_A", (UNew [] 1, "Avogadro constant"));
   ("e", (e_C, "elementary charge"));
   ("atm", (UDiv e_N (UPow e_m (fint 2)), "standard atmosphere"));
   ("g", (UDiv e_m (UPow e_s (fint 2)), "standard acceleration of gravity"));
   ("α", (UNew [] 1, "fine-structure constant"));
   ("G", (UDiv (UMul e_N (UPow e_m (fint 2))) (UPow e_kg (fint 2)), "Newtonian constant of gravitation"));
   ("m_p", (e_kg, "proton mass")); ("m_n", (e_kg, "neutron mass")); ("m_e", (e_kg, "electron mass"));
   ("u", (e_kg, "atomic mass constant"))].
Lemma cdv_table_eq so : cdvanns so = map (fun r => (fst r, (ueval so (fst (snd r)), snd (snd r)))) cdv_table.
Proof. reflexivity. Qed.
Lemma dget_map {V W} (f : V -> W) d k : dict_get (map (fun r : string * V => (fst r, f (snd r))) d) k = option_map f (dict_get d k).
Proof. induction d as [|[k0 v0] d IH]; cbn [map dict_get fst snd]; [reflexivity|]. destruct (String.eqb k k0); auto. Qed.

Section Sym.
Variable vals : codata_vals.
Fixpoint seval (get : string -> option uexpr) (e : cexpr) : option uexpr :=
  match e with
  | CAttr n => get n
  | CNumMul r a => option_map (fun u => UMulNum u r) (seval get a)
  | CMul a b => match seval get a, seval get b with Some u, Some v => Some (UMul u v) | _, _ => None end
  | CDiv a b => match seval get a, seval get b with Some u, Some v => Some (UDiv u v) | _, _ => None end
  | CDivNum a r => option_map (fun u => UDivNum u r) (seval get a)
  | CRDiv r a => option_map (fun u => URDiv r u) (seval get a)
  | CPow a n => option_map (fun u => UPow u (fint n)) (seval get a)
  end.
Fixpoint sym (n : nat) (name : string) : option uexpr :=
  match n with
  | O => None
  | S n' =>
    match dict_get class_props name with
    | None => None
    | Some PBasic => match field_of vals name, dict_get cdv_table name with
                     | Some v, Some (unit, _) => Some (UMulNum unit v) | _, _ => None end
    | Some (PAlias o) => sym n' o
    | Some (PDerived _ body) => seval (sym n') body
    end
  end.
Lemma seval_peval so g g' : (forall n, g' n = option_map (ueval so) (g n)) ->
  forall e, peval so g' e = option_map (ueval so) (seval g e).
Proof.
  intros H. induction e as [n|r e IH|a IHa b IHb|a IHa b IHb|e IH r|r e IH|e IH n]; cbn [peval seval].
  - apply H.
  - rewrite IH. destruct (seval g e); reflexivity.
  - rewrite IHa, IHb. destruct (seval g a), (seval g b); reflexivity.
  - rewrite IHa, IHb. destruct (seval g a), (seval g b); reflexivity.
  - rewrite IH. destruct (seval g e); reflexivity.
  - rewrite IH. destruct (seval g e); reflexivity.
  - rewrite IH. destruct (seval g e); reflexivity.
Qed.
Lemma sym_pure so n : forall name, pure so vals n name = option_map (ueval so) (sym n name).
Proof.
  induction n as [|n IH]; intros name; [reflexivity|]. rewrite pure_eq. cbn [sym].
  destruct (dict_get class_props name) as [[|o|d body]|]; [| | |reflexivity].
  - rewrite cdv_table_eq, (dget_map (fun r => (ueval so (fst r), snd r))).
    destruct (field_of vals name) as [v|]; [|reflexivity]. destruct (dict_get cdv_table name) as [[u d]|]; [|reflexivity].
    cbn [option_map fst snd]. rewrite renew_id by apply can_mulnum. reflexivity.
  - apply IH.
  - rewrite (seval_peval so (sym n) _ IH). destruct (seval (sym n) body) as [e|]; [|reflexivity].
    cbn [option_map]. rewrite renew_id by apply ueval_canonical. reflexivity.
Qed.
End Sym.

(** the real value of an expression *)
Fixpoint rval (e : uexpr) : R :=
  match e with
  | UNew _ v => v
  | UMul a b => rval a * rval b
  | UDiv a b => rval a * rpow (rval b) (fint (-1))
  | UInv a => 1 / rval a
  | UPow a p => rpow (rval a) p
  | UMulNum a r => rval a * r
  | UDivNum a r => rval a * powerRZ r (-1)
  | URDiv r a => 1 / rval a * r
  end%R.
Lemma rval_ok so e : uval (ueval so e) = rval e.
Proof.
  induction e as [items v|a IHa b IHb|a IHa b IHb|a IHa|a IHa p|a IHa r|a IHa r|r a IHa]; cbn [rval ueval];
    unfold udiv, urdiv, udivnum; unfold umul, uinv, upow, umulnum, unit_init; cbn [uval]; try rewrite IHa; try rewrite IHb; reflexivity.
Qed.
Lemma rpow_fint v n : rpow v (fint n) = powerRZ v n.
Proof. apply rpow_int. Qed.

Lemma PI_neq : (PI <> 0)%R. Proof. pose proof PI_RGT_0. lra. Qed.

Theorem constants_values so v : nonzero_vals v ->
  Forall (fun e => forall n, In n (fst e) -> exists u, pure so v max_depth n = Some u /\ canonical (udim u) /\ has_value u (fst (snd e)) (snd (snd e)))
         (textbook v).
Proof.
  intros (Hc & Hh & Hk & He & Ha & Hme & Hmp). pose proof PI_neq as Hpi.
  assert (K : forall n e x l t m i th, sym v max_depth n = Some e -> rval e = x ->
     integral e && keys_in ["L"; "T"; "M"; "I"; "Θ"] e = true ->
     map (fun k => this (paper_exponent e k)) ["L"; "T"; "M"; "I"; "Θ"] = map (fun z => this (fint z)) [l; t; m; i; th] ->
     exists u, pure so v max_depth n = Some u /\ canonical (udim u) /\ has_value u x (l, t, m, i, th)).
  { intros n e x l t m i th E Ev Ei Ek. exists (ueval so e). rewrite sym_pure, E. split; [reflexivity|].
    split; [apply ueval_canonical|]. split; [rewrite rval_ok; exact Ev|]. apply dim_of_expr; assumption. }
  unfold textbook, row.
  repeat apply Forall_cons; [..|apply Forall_nil]; cbn [fst snd]; intros n Hn; repeat (destruct Hn as [<-|Hn]); try contradiction.
  all: eapply K; [cbv [max_depth sym seval option_map dict_get class_props cdv_table field_of A String.eqb Ascii.eqb Bool.eqb]; reflexivity| |vm_compute; reflexivity|vm_compute; reflexivity].
  all: cbv [e_m e_s e_kg e_A e_K e_N e_J e_C rval]; rewrite ?rpow_fint; simpl powerRZ.
  all: try (field; repeat split; assumption).
Qed.
