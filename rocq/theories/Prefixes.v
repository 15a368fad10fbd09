(** * Model of unit names and metric prefixes (definitions only):
    /repo/phytorch/units/_utils.py:20-48, /repo/phytorch/units/_prefixes.py,
    /repo/phytorch/units/prefixes.py and the tables in /repo/phytorch/units/_si/.

    Strings are UTF-8 byte strings.  [str.lower] and [item[0]] are modelled
    bytewise, which agrees with Python on the ASCII-initial names that the code
    passes through them. *)
From Coq Require Import ZArith QArith Qcanon String Ascii List Bool Reals.
From Verif Require Import Frac Units Scope.
Import ListNotations.
Open Scope string_scope.
Open Scope list_scope.

(** ** Names *)

(** Arbitrarily nested iterables of strings ([more_itertools.collapse] flattens them). *)
Inductive nested := NStr (s : string) | NSeq (l : list nested).
Fixpoint collapse (n : nested) : list string :=
  match n with
  | NStr s => [s]
  | NSeq l => flat_map collapse l
  end.

Definition lower_ascii (c : ascii) : ascii :=
  let n := nat_of_ascii c in
  if Nat.leb 65 n && Nat.leb n 90 then ascii_of_nat (n + 32) else c.
Fixpoint lower (s : string) : string :=
  match s with EmptyString => EmptyString | String c s' => String (lower_ascii c) (lower s') end.

(** The accepted keys of the raw tables (_utils.py:16). *)
Inductive informat := IStr (s : string) | ITuple (l : list nested).

Definition outformat : Type := list string * list string.

(** [names_and_abbrevs] (_utils.py:20-26); [None] is the [IndexError] for an
    empty string or an empty tuple. *)
Definition names_and_abbrevs (item : informat) : option outformat :=
  match item with
  | IStr EmptyString => None
  | IStr (String c s) => Some ([lower (String c s)], [String c EmptyString])
  | ITuple [] => None
  | ITuple [a] => Some (map lower (collapse a), collapse a)
  | ITuple (a :: b :: _) => Some (map lower (collapse a), collapse b)
  end.

(** A unit together with its mutable [name]. *)
Record nunit := mkN { nu_name : string; nu_unit : unit_ }.

(** [more_itertools.unique_everseen]. *)
Fixpoint unique_everseen (seen : list string) (l : list string) : list string :=
  match l with
  | [] => []
  | x :: r => if existsb (String.eqb x) seen then unique_everseen seen r
              else x :: unique_everseen (x :: seen) r
  end.

(** [collapse_names] (_utils.py:37-41): the dict comprehension as the list of bindings it performs. *)
Definition collapse_names_items {V} (unit_map : list (outformat * V)) : list (string * V) :=
  flat_map (fun kv => map (fun name => (name, snd kv)) (unique_everseen [] (fst (fst kv) ++ snd (fst kv)))) unit_map.
Definition collapse_names {V} (unit_map : list (outformat * V)) : list (string * V) :=
  dict_of_items (collapse_names_items unit_map).

(** ** Prefixes *)

(** [range(1, 4)] followed by [range(6, 31, 3)] (_prefixes.py:14). *)
Definition eseq : list Z := [1; 2; 3; 6; 9; 12; 15; 18; 21; 24; 27; 30]%Z.

(** The raw prefix names, in the order of _prefixes.py:16-19 (U+03BC is the two bytes shown). *)
Definition raw_prefixes : list informat :=
  [IStr "quecto"; IStr "ronto"; IStr "yocto"; IStr "zepto"; IStr "atto"; IStr "femto"; IStr "pico"; IStr "nano";
   ITuple [NStr "micro"; NSeq [NStr "u"; NStr "μ"]]; IStr "milli"; IStr "centi"; IStr "deci";
   ITuple [NStr "deca"; NStr "da"]; IStr "hecto"; IStr "kilo"; IStr "Mega"; IStr "Giga";
   IStr "Tera"; IStr "Peta"; IStr "Exa"; IStr "Zetta"; IStr "Yotta"; IStr "Ronna"; IStr "Quetta"].

(** [_prefix_map] (_prefixes.py:12-22).  Keys are tuples; they are distinct, so
    the dict is the list of its items in order. *)
Definition prefix_map : list (outformat * Z) :=
  flat_map (fun p => match names_and_abbrevs (fst p) with Some o => [(o, snd p)] | None => [] end)
    (combine raw_prefixes (map Z.opp (rev eseq) ++ eseq)).

(** [Fraction(10)**expon * unit] (_prefixes.py:26, 36): the product goes through
    [Unit.__rmul__], i.e. [Unit.__mul__] with a number. *)
Definition pow10_times (expon : Z) (u : unit_) : unit_ := umulnum u (powerRZ 10 expon).

(** [_generic_prefix] (_prefixes.py:25-26). *)
Definition generic_prefix (name : string) (expon : Z) (u : nunit) : nunit :=
  mkN (name ++ nu_name u)%string (pow10_times expon (nu_unit u)).

(** [''.join] over [itertools.product(a, b)]. *)
Definition join_product (a b : list string) : list string :=
  flat_map (fun x => map (fun y => (x ++ y)%string) b) a.

(** The bindings performed by the comprehension of [_prefix_many_to_many] (_prefixes.py:29-38).
    [first(prefix_abbrevs)] is [hd] (the default only for an empty tuple, where Python raises). *)
Definition prefix_items (unit_map : list (outformat * nunit)) (pmap : list (outformat * Z)) (except_ : list string)
  : list (string * nunit) :=
  flat_map (fun um =>
    let '((names, abbrevs), unit) := um in
    if existsb (String.eqb (nu_name unit)) except_ then []
    else flat_map (fun pm =>
      let '((prefixes, prefix_abbrevs), expon) := pm in
      let punit := mkN (hd "" prefix_abbrevs ++ nu_name unit)%string (pow10_times expon (nu_unit unit)) in
      map (fun name => (name, punit)) (join_product prefixes names ++ join_product prefix_abbrevs abbrevs))
      pmap)
    unit_map.

Definition prefix_many_to_many (unit_map : list (outformat * nunit)) (pmap : list (outformat * Z)) (except_ : list string)
  : list (string * nunit) :=
  dict_of_items (prefix_items unit_map pmap except_).

(** [prefixes.py:11-13]: module globals [kilo_], [k_], ... bound to
    [partial(_generic_prefix, first(abbrevs), expon)], here the pair of arguments. *)
Definition prefix_function_items : list (string * (string * Z)) :=
  flat_map (fun pm => map (fun name => ((name ++ "_")%string, (hd "" (snd (fst pm)), snd pm)))
                        (unique_everseen [] (fst (fst pm) ++ snd (fst pm)))) prefix_map.
Definition prefix_functions : list (string * (string * Z)) := dict_of_items prefix_function_items.

(** ** The SI tables *)

Definition dim1 (d : string) : unit_ := unit_init [(d, fint 1)] 1.

(** [base_unit_map] (_si/_base_unit_map.py:7-16). The unit is named by its only abbreviation. *)
Definition base_unit_map : list (outformat * nunit) :=
  flat_map (fun p => match names_and_abbrevs (fst p) with
                     | Some o => [(o, mkN (hd "" (snd o)) (dim1 (snd p)))]
                     | None => [] end)
    [(ITuple [NSeq [NStr "meter"; NStr "metre"]; NStr "m"], "L"); (IStr "second", "T");
     (ITuple [NStr "kilogram"; NStr "kg"], "M"); (IStr "Ampere", "I"); (IStr "Kelvin", "Θ")].

Definition u_m := dim1 "L". Definition u_s := dim1 "T". Definition u_kg := dim1 "M".
Definition u_A := dim1 "I". Definition u_K := dim1 "Θ".

Section Tables.
Variable so : set_order.

(** The expressions of _si/_coherent_unit_map.py:7-16. *)
Definition u_Hz := urdiv 1 u_s.
Definition u_N := udiv so (umul so u_kg u_m) (upow u_s (fint 2)).
Definition u_Pa := udiv so u_N (upow u_m (fint 2)).
Definition u_J := umul so u_N u_m.
Definition u_W := udiv so u_J u_s.
Definition u_C := umul so u_A u_s.
Definition u_V := udiv so u_W u_A.
Definition u_F := udiv so u_C u_V.
Definition u_Ohm := udiv so u_V u_A.
Definition u_S := urdiv 1 u_Ohm.
Definition u_Wb := umul so u_V u_s.
Definition u_T := udiv so u_Wb (upow u_m (fint 2)).
Definition u_H := udiv so u_Wb u_A.
Definition u_Gy := udiv so u_J u_kg.

(** [unpack_and_name] (_utils.py:29-34): names the unit by its first abbreviation. *)
Definition unpack_and_name (raw : list (informat * unit_)) : list (outformat * nunit) :=
  flat_map (fun p => match names_and_abbrevs (fst p) with
                     | Some o => [(o, mkN (hd "" (snd o)) (snd p))]
                     | None => [] end) raw.

(** [coherent_unit_map] (_si/_coherent_unit_map.py:7-17). *)
Definition coherent_unit_map : list (outformat * nunit) := unpack_and_name
  [(ITuple [NStr "Hertz"; NStr "Hz"], u_Hz);
   (IStr "Newton", u_N); (ITuple [NStr "Pascal"; NStr "Pa"], u_Pa);
   (IStr "Joule", u_J); (IStr "Watt", u_W);
   (IStr "Coulomb", u_C); (IStr "Volt", u_V); (IStr "Farad", u_F);
   (ITuple [NStr "Ohm"; NStr "Ω"], u_Ohm); (ITuple [NStr "Siemens"; NSeq [NStr "S"; NStr "℧"]], u_S);
   (ITuple [NStr "Weber"; NStr "Wb"], u_Wb); (IStr "Tesla", u_T); (IStr "Henry", u_H);
   (ITuple [NSeq [NStr "Celsius"; NStr "degree_Celsius"]; NSeq [NStr "deg_C"; NStr "°C"]], u_K);
   (ITuple [NStr "Bequerel"; NStr "Bq"], urdiv 1 u_s);
   (ITuple [NStr "Gray"; NStr "Gy"], u_Gy); (ITuple [NStr "Sievert"; NStr "Sv"], u_Gy)].

(** [gramdef] (_si/prefixed.py:11). *)
Definition u_g := umulnum u_kg (1 / 1000).
Definition gram_map : list (outformat * nunit) := [((["gram"], ["g"]), mkN "g" u_g)].

(** The [ChainMap] of _si/prefixed.py:14 iterates its last mapping first. *)
Definition si_prefixable : list (outformat * nunit) := gram_map ++ coherent_unit_map ++ base_unit_map.
Definition si_prefixed : list (string * nunit) := prefix_many_to_many si_prefixable prefix_map ["kg"].

(** Units of _si/additional.py:14-20 (without the electronvolt, whose scale is a measured constant). *)
Definition u_dm := pow10_times (-1) u_m. Definition u_hm := pow10_times 2 u_m.
Definition additional_unit_map : list (outformat * nunit) := unpack_and_name
  [(ITuple [NStr "minute"; NStr "min"], umulnum u_s 60); (IStr "hour", umulnum u_s 3600); (IStr "day", umulnum u_s 86400);
   (ITuple [NStr "astronomical_unit"; NSeq [NStr "au"; NStr "AU"]], umulnum u_m 149597870700);
   (ITuple [NStr "hectare"; NStr "ha"], upow u_hm (fint 2));
   (ITuple [NSeq [NStr "litre"; NStr "liter"]; NSeq [NStr "L"; NStr "l"]], upow u_dm (fint 3));
   (ITuple [NSeq [NStr "ton"; NStr "tonne"]; NStr "t"], umulnum u_kg 1000);
   (ITuple [NSeq [NStr "angstrom"; NStr "ångström"]; NSeq [NStr "A"; NStr "Å"]], umulnum u_m (/ 10000000000))].

(** cgs units (/repo/phytorch/units/cgs/__init__.py:5-11). *)
Definition u_cm := pow10_times (-2) u_m.
Definition u_Gal := udiv so u_cm (upow u_s (fint 2)).
Definition u_dyn := umul so u_g u_Gal.
Definition u_erg := umul so u_dyn u_cm.
Definition u_Ba := udiv so u_dyn (upow u_cm (fint 2)).
Definition u_P := umul so u_Ba u_s.
Definition u_St := udiv so (upow u_cm (fint 2)) u_s.
Definition u_kayser := uinv u_cm.

(** Angular units (/repo/phytorch/units/angular.py:9-19). *)
Definition u_rad := unit_init [] 1.
Definition u_sr := upow u_rad (fint 2).
Definition u_deg := umulnum u_rad (PI / 180).
Definition u_arcmin := udivnum u_deg 60.
Definition u_arcsec := udivnum u_arcmin 60.
Definition u_mas := pow10_times (-3) u_arcsec.
Definition u_uas := pow10_times (-6) u_arcsec.
Definition u_cycle := umulnum u_rad (2 * PI).
Definition u_spat := umulnum u_sr (4 * PI).
End Tables.

(** The public names of _si/prefixed.py (13-14): [gramdef] is registered, then the prefixed
    units with [ignore_if_exists=True].  (The interplay of scopes with module globals is Scope.v.) *)
Definition prefixed_module (so : set_order) : list (string * nunit) :=
  sc_data (register_many (register_many (scope_new []) false (collapse_names gram_map)) true (si_prefixed so)).

(** The final [phytorch.units.si] namespace (si.py:3-6): star imports in this order, later ones
    override.  The electronvolt and its prefixes (additional.py:12, 21) are left out. *)
Definition star_imports {V} (mods : list (list (string * V))) : list (string * V) :=
  fold_left dict_update mods [].
Definition si_namespace (so : set_order) : list (string * nunit) :=
  star_imports [prefixed_module so; collapse_names additional_unit_map;
                collapse_names (coherent_unit_map so); collapse_names base_unit_map].

(** [Latexifier.base_from] and [to_base] (_utils.py:58-66): the product (utils/symmetry.py [product],
    a left fold starting from [Unit()]) of base units to the powers of [u]; [None] is the [KeyError]. *)
Fixpoint base_from_items (so : set_order) (base : list (string * unit_)) (items : dims) (acc : unit_) : option unit_ :=
  match items with
  | [] => Some acc
  | (d, p) :: r => match dict_get base d with
                   | Some b => base_from_items so base r (umul so acc (upow b p))
                   | None => None end
  end.
Definition base_from (so : set_order) (base : list (string * unit_)) (u : unit_) : option unit_ :=
  base_from_items so base (udim u) unit_one.
Definition to_base (so : set_order) (base : list (string * unit_)) (u : unit_) : option to_result :=
  option_map (unit_to u) (base_from so base u).
