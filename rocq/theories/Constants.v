(** * Model of phytorch.constants
    /repo/phytorch/constants/codata.py, constant.py, __init__.py, astro.py, and the units
    defined from constants in /repo/phytorch/units/_si/additional.py and units/astro.py.

    Simplifications: values are reals (Python mixes int, float and Fraction); the [repr] and the
    [name] strings Unit arithmetic builds are not modelled; import machinery is reduced to
    "importing phytorch.constants.astro binds [astro] in the package"; identifiers are the
    NFKC-normalised ones Python uses as attribute names (the source spells mu with U+00B5). *)
From Coq Require Import ZArith QArith Qcanon String List Bool Reals.
From Verif Require Import Frac Units Prefixes.
Import ListNotations.
Open Scope string_scope.
Open Scope list_scope.

(** ** codata.py *)

(** [CODATA_vals] (codata.py:24-40): the 13 defining numbers, as written by the user. *)
Record codata_vals := mkVals {
  v_c : R; v_h : R; v_k : R; v_N_A : R; v_e : R; v_atm : R; v_g : R; v_alpha : R; v_G : R;
  v_m_p : R; v_m_n : R; v_m_e : R; v_u : R }.

(** [getattr(instance._vals, self.attrname)] for the 13 field names. *)
Definition field_of (v : codata_vals) (name : string) : option R :=
  dict_get [("c", v_c v); ("h", v_h v); ("k", v_k v); ("N_A", v_N_A v); ("e", v_e v); ("atm", v_atm v);
            ("g", v_g v); ("α", v_alpha v); ("G", v_G v); ("m_p", v_m_p v); ("m_n", v_m_n v);
            ("m_e", v_m_e v); ("u", v_u v)] name.

(** [_cdvanns] (codata.py:43-46): unit and description annotated on each field (28-40). *)
Definition cdvanns (so : set_order) : list (string * (unit_ * string)) :=
  [("c", (udiv so u_m u_s, "speed of light in vacuum"));
   ("h", (umul so (u_J so) u_s, "Planck constant"));
   ("k", (udiv so (u_J so) u_K, "Boltzmann constant"));
   ("N_A", (unit_one, "Avogadro constant"));
   ("e", (u_C so, "elementary charge"));
   ("atm", (u_Pa so, "standard atmosphere"));
   ("g", (udiv so u_m (upow u_s (fint 2)), "standard acceleration of gravity"));
   ("α", (unit_one, "fine-structure constant"));
   ("G", (udiv so (umul so (u_N so) (upow u_m (fint 2))) (upow u_kg (fint 2)), "Newtonian constant of gravitation"));
   ("m_p", (u_kg, "proton mass")); ("m_n", (u_kg, "neutron mass")); ("m_e", (u_kg, "electron mass"));
   ("u", (u_kg, "atomic mass constant"))].

(** The bodies of the derived constants: arithmetic on attributes of [self] and numbers. *)
Inductive cexpr :=
  | CAttr (name : string)            (* self.name *)
  | CNumMul (r : R) (e : cexpr)      (* r * e *)
  | CMul (a b : cexpr)
  | CDiv (a b : cexpr)
  | CDivNum (e : cexpr) (r : R)      (* e / r *)
  | CRDiv (r : R) (e : cexpr)        (* r / e *)
  | CPow (e : cexpr) (n : Z).

(** The three kinds of [cached_constant_property_base] (57-95). *)
Inductive cprop :=
  | PBasic
  | PAlias (other : string)
  | PDerived (descr : string) (body : cexpr).

Definition A := CAttr.
(** The class body of [CODATA] (121-182), in definition order. *)
Definition class_props : list (string * cprop) :=
  [("c", PBasic); ("h", PBasic); ("k", PBasic); ("N_A", PBasic); ("e", PBasic); ("atm", PBasic); ("g", PBasic);
   ("α", PBasic); ("G", PBasic); ("m_p", PBasic); ("m_n", PBasic); ("m_e", PBasic); ("u", PBasic);
   ("alpha", PAlias "α");
   ("ħ", PDerived "reduced Planck constant" (CDivNum (A "h") (2 * PI)));
   ("hbar", PAlias "ħ");
   ("μ_0", PDerived "vacuum magnetic permeability"
      (CDiv (CDiv (CMul (CNumMul (4 * PI) (A "alpha")) (A "hbar")) (CPow (A "e") 2)) (A "c")));
   ("mu_0", PAlias "μ_0");
   ("ε_0", PDerived "vacuum electric permittivity" (CDiv (CRDiv 1 (A "mu_0")) (CPow (A "c") 2)));
   ("eps_0", PAlias "ε_0");
   ("μ_B", PDerived "Bohr magneton" (CDiv (CMul (A "e") (A "hbar")) (CNumMul 2 (A "m_e"))));
   ("mu_B", PAlias "μ_B");
   ("μ_N", PDerived "nuclear magneton" (CDiv (CMul (A "e") (A "hbar")) (CNumMul 2 (A "m_p"))));
   ("mu_N", PAlias "μ_N");
   ("Ryd", PDerived "Rydberg constant"
      (CDiv (CMul (CMul (CPow (A "alpha") 2) (A "m_e")) (A "c")) (CNumMul 2 (A "h"))));
   ("a_0", PDerived "Bohr radius" (CDiv (A "hbar") (CMul (CMul (A "alpha") (A "m_e")) (A "c"))));
   ("σ_e", PDerived "Thomson cross section"
      (CMul (CNumMul (8 * PI / 3) (CPow (A "alpha") 4)) (CPow (A "a_0") 2)));
   ("sigma_e", PAlias "σ_e");
   ("σ", PDerived "Stefan-Boltzmann constant"
      (CDiv (CNumMul (PI ^ 2 / 60) (CPow (A "k") 4)) (CMul (CPow (A "hbar") 3) (CPow (A "c") 2))));
   ("sigma", PAlias "σ");
   ("b", PDerived "Wien wavelength displacement law constant"
      (CDivNum (CDiv (CMul (A "h") (A "c")) (A "k")) (4965114231744276303 / 1000000000000000000)));
   ("b_prime", PDerived "Wien frequency displacement law constant"
      (CDiv (CNumMul (2821439372122078893 / 1000000000000000000) (A "k")) (A "h")))].

(** [CODATA.__all__] (107-111). *)
Definition codata_all : list string := map fst class_props.

(** A [Constant] object (constant.py:7-30): its identity, name, description, and as a [Unit].
    [Constant.__init__] (22-27) builds the Unit anew from the items and the value;
    arithmetic on Constants gives plain Units ([_make], 15-17). *)
Record constant := mkConst { k_id : nat; k_name : string; k_descr : string; k_unit : unit_ }.
Definition constant_new (id : nat) (name : string) (u : unit_) (descr : string) : constant :=
  mkConst id name descr (unit_init (udim u) (uval u)).

(** An instance: the counter of allocated objects and its [__dict__] (the cache of [cached_property]). *)
Definition cache := list (string * constant).
Definition cstate : Type := nat * cache.

Section Eval.
Variable so : set_order.
Variable vals : codata_vals.

(** Left-to-right evaluation of a body, where attribute access [get] may fill the cache. *)
Fixpoint ceval (get : string -> cstate -> option (constant * cstate)) (e : cexpr) (s : cstate) : option (unit_ * cstate) :=
  match e with
  | CAttr n => match get n s with Some (c, s') => Some (k_unit c, s') | None => None end
  | CNumMul r a => match ceval get a s with Some (u, s') => Some (umulnum u r, s') | None => None end
  | CMul a b => match ceval get a s with
                | Some (u, s1) => match ceval get b s1 with Some (v, s2) => Some (umul so u v, s2) | None => None end
                | None => None end
  | CDiv a b => match ceval get a s with
                | Some (u, s1) => match ceval get b s1 with Some (v, s2) => Some (udiv so u v, s2) | None => None end
                | None => None end
  | CDivNum a r => match ceval get a s with Some (u, s') => Some (udivnum u r, s') | None => None end
  | CRDiv r a => match ceval get a s with Some (u, s') => Some (urdiv r u, s') | None => None end
  | CPow a n => match ceval get a s with Some (u, s') => Some (upow u (fint n), s') | None => None end
  end.

(** [getattr(instance, name)]: the instance dictionary first ([cached_property] is a non-data
    descriptor), then the class; [cached_property.__get__] stores what it computed under its own
    [attrname].  [None] is [AttributeError]; [fuel] bounds the recursion between properties. *)
Fixpoint get_attr (fuel : nat) (name : string) (s : cstate) : option (constant * cstate) :=
  match fuel with
  | O => None
  | S n =>
    match dict_get (snd s) name with
    | Some c => Some (c, s)
    | None =>
      match dict_get class_props name with
      | None => None
      | Some PBasic =>
          match field_of vals name, dict_get (cdvanns so) name with
          | Some v, Some (unit, descr) =>
              let c := constant_new (fst s) name (umulnum unit v) descr in
              Some (c, (S (fst s), dict_set (snd s) name c))
          | _, _ => None
          end
      | Some (PAlias other) =>
          match get_attr n other s with
          | Some (c, s') => Some (c, (fst s', dict_set (snd s') name c))
          | None => None
          end
      | Some (PDerived descr body) =>
          match ceval (get_attr n) body s with
          | Some (u, s') =>
              let c := constant_new (fst s') name u descr in
              Some (c, (S (fst s'), dict_set (snd s') name c))
          | None => None
          end
      end
    end
  end.
End Eval.

(** Enough fuel for the deepest chain of properties (sigma_e -> sigma_e -> a_0 -> hbar -> hbar -> h). *)
Definition max_depth : nat := 20.

(** ** constants/__init__.py *)

(** The two sets of defining values (27-41 and 45-59). *)
Definition codata2014_vals : codata_vals := {|
  v_c := 299792458;
  v_h := 6626070040 / 10 ^ 43;
  v_k := 138064852 / 10 ^ 31;
  v_N_A := 6022140857 * 10 ^ 14;
  v_e := 16021766208 / 10 ^ 29;
  v_atm := 101325;
  v_g := 980665 / 10 ^ 5;
  v_alpha := 72973525664 / 10 ^ 13;
  v_G := 667408 / 10 ^ 16;
  v_m_p := 1672621898 / 10 ^ 36;
  v_m_n := 1674927471 / 10 ^ 36;
  v_m_e := 910938356 / 10 ^ 39;
  v_u := 1660539040 / 10 ^ 36 |}.
Definition codata2018_vals : codata_vals := {|
  v_c := 299792458;
  v_h := 662607015 / 10 ^ 42;
  v_k := 1380649 / 10 ^ 29;
  v_N_A := 602214076 * 10 ^ 15;
  v_e := 1602176634 / 10 ^ 28;
  v_atm := 101325;
  v_g := 980665 / 10 ^ 5;
  v_alpha := 72973525693 / 10 ^ 13;
  v_G := 667430 / 10 ^ 16;
  v_m_p := 167262192369 / 10 ^ 38;
  v_m_n := 167492749804 / 10 ^ 38;
  v_m_e := 91093837015 / 10 ^ 41;
  v_u := 166053906660 / 10 ^ 38 |}.

(** [_factories] (15-18 and [_codata_mod], 22-23): what each factory does. *)
Inductive factory := FDefault | FAstro | FCodata (v : codata_vals).
Definition factories : list (string * factory) :=
  [("default", FDefault); ("astro", FAstro);
   ("codata2014", FCodata codata2014_vals); ("codata2018", FCodata codata2018_vals)].
(** [_default_keys] (19). *)
Definition default_keys : list string := ["default"; "astro"].

(** constants/astro.py:10-24: one Constant per entry, bound to each of its names. *)
Definition astro_table (so : set_order) : list (list string * (unit_ * string)) :=
  [(["M_⊕"; "earthMass"; "M_earth"], (umulnum u_kg (597217 * 10 ^ 19), "Earth mass"));
   (["R_⊕"; "earthRadius"; "earthRad"; "R_earth"], (umulnum u_m (63781366 / 10), "Earth equatorial radius"));
   (["M_♃"; "jupiterMass"; "M_jupiter"], (umulnum u_kg (1898125 * 10 ^ 21), "Jupiter mass"));
   (["R_♃"; "jupiterRadius"; "jupiterRad"; "R_jupiter"], (umulnum u_m 71492000, "Jupiter equatorial radius"));
   (["M_☉"; "solarMass"; "solMass"; "M_sun"], (umulnum u_kg (198847 * 10 ^ 25), "solar mass"));
   (["R_☉"; "solarRadius"; "solRad"; "R_sun"], (umulnum u_m (6957 * 10 ^ 5), "solar radius"));
   (["L_☉"; "solarLuminosity"; "solLum"; "L_sun"], (umulnum (u_W so) (3828 * 10 ^ 23), "solar luminosity"))]%R.

(** Running the body of astro.py: allocate one Constant per entry. *)
Fixpoint astro_consts (next : nat) (t : list (list string * (unit_ * string))) : cache :=
  match t with
  | [] => []
  | (names, (u, descr)) :: r =>
      let c := constant_new next (hd "" names) u descr in map (fun n => (n, c)) names ++ astro_consts (S next) r
  end.

(** Objects reachable from the package. *)
Inductive pobj := OModule (name : string) (id : nat) | OAstro | OConst (c : constant) | OOther.

(** The state of the package: allocation counter, the CODATA instances created so far
    (identity, values, instance dictionary), the astro module if it was imported, and
    the package's [globals()]. *)
Record pstate := mkP {
  p_next : nat;
  p_mods : list (nat * (codata_vals * cache));
  p_astro : option cache;
  p_globals : list (string * pobj) }.

(** Names bound in [globals()] once constants/__init__.py has run (the annotated names
    [codata2014], [codata2018] and [default] get no value). *)
Definition initial_globals : list (string * pobj) :=
  map (fun n => (n, OOther))
    ["__name__"; "__doc__"; "__package__"; "__loader__"; "__spec__"; "__path__"; "__file__"; "__cached__"; "__builtins__";
     "__annotations__"; "sys"; "partial"; "import_module"; "chain"; "Annotated"; "Callable"; "cast"; "MutableMapping"; "Type";
     "TYPE_CHECKING"; "constant"; "codata"; "CODATA"; "CODATA_vals"; "_this_module"; "_factories"; "_default_keys";
     "_codata_mod"; "_module_all"; "__getattr__"; "__dir__"].
Definition initial_state : pstate := mkP 0 [] None initial_globals.

Section Package.
Variable so : set_order.

Definition mods_get (ms : list (nat * (codata_vals * cache))) (i : nat) : option (codata_vals * cache) :=
  match find (fun m => Nat.eqb (fst m) i) ms with Some m => Some (snd m) | None => None end.
Fixpoint mods_set (ms : list (nat * (codata_vals * cache))) (i : nat) (c : cache) : list (nat * (codata_vals * cache)) :=
  match ms with
  | [] => []
  | (j, (v, d)) :: r => if Nat.eqb j i then (j, (v, c)) :: r else (j, (v, d)) :: mods_set r i c
  end.

(** [CODATA(name, doc, vals)] (114-116). *)
Definition new_module (name : string) (v : codata_vals) (p : pstate) : pobj * pstate :=
  (OModule name (p_next p), mkP (S (p_next p)) (p_mods p ++ [(p_next p, (v, []))]) (p_astro p) (p_globals p)).
(** [import_module('.astro', __package__)]: runs the module body once and binds [astro] in the package. *)
Definition import_astro (p : pstate) : pobj * pstate :=
  match p_astro p with
  | Some _ => (OAstro, p)
  | None => (OAstro, mkP (p_next p + length (astro_table so)) (p_mods p) (Some (astro_consts (p_next p) (astro_table so)))
                         (dict_set (p_globals p) "astro" OAstro))
  end.
Definition set_global (p : pstate) (n : string) (o : pobj) : pstate :=
  mkP (p_next p) (p_mods p) (p_astro p) (dict_set (p_globals p) n o).

(** [getattr(_this_module, 'codata2018')] inside the [default] factory: [globals()] first, then
    [__getattr__], whose factory branch (76-77) creates the module and whose last lines (85-86) bind it. *)
Definition get_codata (name : string) (v : codata_vals) (p : pstate) : pobj * pstate :=
  match dict_get (p_globals p) name with
  | Some o => (o, p)
  | None => let (o, p') := new_module name v p in (o, set_global p' name o)
  end.
(** [_factories[name]()]. *)
Definition run_factory (f : factory) (name : string) (p : pstate) : pobj * pstate :=
  match f with
  | FDefault => get_codata "codata2018" codata2018_vals p
  | FAstro => import_astro p
  | FCodata v => new_module name v p
  end.

(** [getattr(obj, name)] for a module object. *)
Definition obj_get (o : pobj) (name : string) (p : pstate) : option (constant * pstate) :=
  match o with
  | OModule _ i =>
      match mods_get (p_mods p) i with
      | Some (v, d) =>
          match get_attr so v max_depth name (p_next p, d) with
          | Some (c, (n', d')) => Some (c, mkP n' (mods_set (p_mods p) i d') (p_astro p) (p_globals p))
          | None => None
          end
      | None => None
      end
  | OAstro => match p_astro p with
              | Some d => match dict_get d name with Some c => Some (c, p) | None => None end
              | None => None end
  | OConst _ | OOther => None
  end.
(** [_module_all(mod)] (71-72) for the two default modules; astro's [__all__] (26) filters the names
    bound by the table, none of which starts with an underscore. *)
Definition module_all (o : pobj) (p : pstate) : list string :=
  match o with
  | OModule _ _ => codata_all
  | OAstro => match p_astro p with Some d => filter (fun n => negb (String.prefix "_" n)) (map fst d) | None => [] end
  | OConst _ | OOther => []
  end.

(** The search loop (79-83). *)
Fixpoint search (keys : list string) (name : string) (p : pstate) : option pobj * pstate :=
  match keys with
  | [] => (None, p)
  | key :: r =>
      match dict_get factories key with
      | None => (None, p)
      | Some f =>
          let (o, p1) := run_factory f key p in
          if existsb (String.eqb name) (module_all o p1) then
            match obj_get o name p1 with Some (c, p2) => (Some (OConst c), p2) | None => (None, p1) end
          else search r name p1
      end
  end.

(** [getattr(phytorch.constants, name)]: [globals()], then the module's [__getattr__] (75-86);
    [None] is [AttributeError]. *)
Definition pkg_get (name : string) (p : pstate) : option pobj * pstate :=
  match dict_get (p_globals p) name with
  | Some o => (Some o, p)
  | None =>
      let (r, p1) := match dict_get factories name with
                     | Some f => let (o, p1) := run_factory f name p in (Some o, p1)
                     | None => search default_keys name p
                     end in
      match r with
      | Some o => (Some o, set_global p1 name o)
      | None => (None, p1)
      end
  end.

(** What a user does: [getattr(constants, a)], or [getattr(getattr(constants, a), b)]. *)
Inductive access := Top (a : string) | Dot (a b : string).
Definition do_access (x : access) (p : pstate) : option pobj * pstate :=
  match x with
  | Top a => pkg_get a p
  | Dot a b => match pkg_get a p with
               | (Some o, p1) => match obj_get o b p1 with
                                 | Some (c, p2) => (Some (OConst c), p2)
                                 | None => (None, p1) end
               | (None, p1) => (None, p1)
               end
  end.
(** Any history of accesses from a fresh import of the package: what each returned, and the final state. *)
Fixpoint run (xs : list access) (p : pstate) : list (option pobj) * pstate :=
  match xs with
  | [] => ([], p)
  | x :: r => let (o, p1) := do_access x p in let (os, p2) := run r p1 in (o :: os, p2)
  end.
End Package.

(** ** Units defined from constants *)
(** Reading a constant of a package from a fresh state, as the unit modules do at import time. *)
Definition default_constant (so : set_order) (name : string) : option unit_ :=
  match pkg_get so name initial_state with (Some (OConst c), _) => Some (k_unit c) | _ => None end.

(** additional.py:12: [e * V]. *)
Definition u_eV (so : set_order) : option unit_ := option_map (fun e => umul so e (u_V so)) (default_constant so "e").
(** units/astro.py:13-22. *)
Definition u_day : unit_ := umulnum u_s 86400.
Definition u_AU : unit_ := umulnum u_m 149597870700.
Definition u_bar (so : set_order) : unit_ := umulnum (u_Pa so) (10 ^ 5).
Definition u_barn : unit_ := umulnum (upow u_m (fint 2)) (powerRZ 10 (-28)).
Definition u_yr : unit_ := umulnum u_day (36525 / 100).
Definition u_Jy (so : set_order) : unit_ :=
  udiv so (udiv so (umulnum (u_W so) (powerRZ 10 (-26))) u_Hz) (upow u_m (fint 2)).
Definition u_lyr (so : set_order) : option unit_ := option_map (fun c => umul so c u_yr) (default_constant so "c").
Definition u_pc (so : set_order) : unit_ := udiv so u_AU u_arcsec.
Definition u_Ry (so : set_order) : option unit_ :=
  match default_constant so "Ryd", default_constant so "h", default_constant so "c" with
  | Some r, Some h, Some c => Some (umul so (umul so r h) c)
  | _, _, _ => None
  end.
Definition u_Torr (so : set_order) : option unit_ := option_map (fun a => udivnum a 760) (default_constant so "atm").

(** Reading attributes of one [CODATA] instance, in any order; an [AttributeError] changes nothing. *)
Definition attr_step (so : set_order) (v : codata_vals) (s : cstate) (n : string) : cstate :=
  match get_attr so v max_depth n s with Some (_, s') => s' | None => s end.
Definition instance_after (so : set_order) (v : codata_vals) (names : list string) (s : cstate) : cstate :=
  fold_left (attr_step so v) names s.
