(** * Specification vocabulary for prefixes and derived units *)
From Coq Require Import ZArith QArith Qcanon String List Reals.
From Verif Require Import Frac Units UnitSpec Prefixes.
Import ListNotations.
Open Scope string_scope.
Open Scope list_scope.

(** The 24 SI prefixes (BIPM brochure, 9th edition, table 7 and the 2022 additions):
    name, accepted symbols, decimal exponent. *)
Definition SI_prefixes : list (string * list string * Z) :=
  [("quecto", ["q"], -30); ("ronto", ["r"], -27); ("yocto", ["y"], -24); ("zepto", ["z"], -21);
   ("atto", ["a"], -18); ("femto", ["f"], -15); ("pico", ["p"], -12); ("nano", ["n"], -9);
   ("micro", ["u"; "μ"], -6); ("milli", ["m"], -3); ("centi", ["c"], -2); ("deci", ["d"], -1);
   ("deca", ["da"], 1); ("hecto", ["h"], 2); ("kilo", ["k"], 3); ("mega", ["M"], 6);
   ("giga", ["G"], 9); ("tera", ["T"], 12); ("peta", ["P"], 15); ("exa", ["E"], 18);
   ("zetta", ["Z"], 21); ("yotta", ["Y"], 24); ("ronna", ["R"], 27); ("quetta", ["Q"], 30)]%Z.

(** [v] is [u] scaled by 10^k: same dimension, scale multiplied. *)
Definition scaled_by_ten (k : Z) (u v : unit_) : Prop :=
  uval v = (powerRZ 10 k * uval u)%R /\ forall d, exponent v d = exponent u d.

(** Key [key] combines a prefix entry and a unit entry: name with name or symbol with symbol. *)
Definition combines (key : string) (ps us : list string * list string) : Prop :=
  (exists p n, In p (fst ps) /\ In n (fst us) /\ key = (p ++ n)%string) \/
  (exists p n, In p (snd ps) /\ In n (snd us) /\ key = (p ++ n)%string).

(** Dimension given by the exponents of length, time, mass, current and temperature (and nothing else). *)
Definition has_dimension (u : unit_) (l t m i th : Z) : Prop :=
  exponent u "L" = fint l /\ exponent u "T" = fint t /\ exponent u "M" = fint m /\
  exponent u "I" = fint i /\ exponent u "Θ" = fint th /\
  forall d, ~ In d ["L"; "T"; "M"; "I"; "Θ"] -> exponent u d = fint 0.
Definition SI_coherent (u : unit_) (l t m i th : Z) : Prop := uval u = 1%R /\ has_dimension u l t m i th.
