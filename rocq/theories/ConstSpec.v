(** * Specification vocabulary for constants: what each name denotes, independently of caching *)
From Coq Require Import ZArith QArith Qcanon String List Bool Reals.
From Verif Require Import Frac Units UnitSpec Prefixes PrefixSpec Constants.
Import ListNotations.
Open Scope string_scope.
Open Scope list_scope.
Local Open Scope R_scope.

Definition row (names : list string) (x : R) (l t m i th : Z) : list string * (R * (Z * Z * Z * Z * Z)) := (names, (x, (l, t, m, i, th))).
Arguments row names%list_scope x%R_scope l%Z_scope t%Z_scope m%Z_scope i%Z_scope th%Z_scope.
(** The textbook value of each constant in terms of the defining numbers, in coherent SI units, and
    its dimension (exponents of length, time, mass, current, temperature).  Symbols and their ASCII spellings. *)
Definition textbook (v : codata_vals) : list (list string * (R * (Z * Z * Z * Z * Z))) :=
  let c := v_c v in let h := v_h v in let k := v_k v in let e := v_e v in let al := v_alpha v in
  let me := v_m_e v in let mp := v_m_p v in let hbar := h / (2 * PI) in
  let mu0 := 4 * PI * al * hbar / (e ^ 2 * c) in       (* from alpha = mu0 e^2 c / (4 pi hbar) *)
  let eps0 := 1 / (mu0 * c ^ 2) in
  let a0 := 4 * PI * eps0 * hbar ^ 2 / (me * e ^ 2) in
  let re := e ^ 2 / (4 * PI * eps0 * me * c ^ 2) in     (* classical electron radius *)
  [row ["c"] (c) 1 (-1) 0 0 0;
   row ["h"] (h) 2 (-1) 1 0 0;
   row ["k"] (k) 2 (-2) 1 0 (-1);
   row ["N_A"] (v_N_A v) 0 0 0 0 0;
   row ["e"] (e) 0 1 0 1 0;
   row ["atm"] (v_atm v) (-1) (-2) 1 0 0;
   row ["g"] (v_g v) 1 (-2) 0 0 0;
   row ["α"; "alpha"] (al) 0 0 0 0 0;
   row ["G"] (v_G v) 3 (-2) (-1) 0 0;
   row ["m_p"] (mp) 0 0 1 0 0;
   row ["m_n"] (v_m_n v) 0 0 1 0 0;
   row ["m_e"] (me) 0 0 1 0 0;
   row ["u"] (v_u v) 0 0 1 0 0;
   row ["ħ"; "hbar"] (hbar) 2 (-1) 1 0 0;
   row ["μ_0"; "mu_0"] (mu0) 1 (-2) 1 (-2) 0;
   row ["ε_0"; "eps_0"] (eps0) (-3) 4 (-1) 2 0;
   row ["μ_B"; "mu_B"] (e * hbar / (2 * me)) 2 0 0 1 0;
   row ["μ_N"; "mu_N"] (e * hbar / (2 * mp)) 2 0 0 1 0;
   row ["Ryd"] (me * e ^ 4 / (8 * eps0 ^ 2 * h ^ 3 * c)) (-1) 0 0 0 0;
   row ["a_0"] (a0) 1 0 0 0 0;
   row ["σ_e"; "sigma_e"] (8 * PI / 3 * re ^ 2) 2 0 0 0 0;
   row ["σ"; "sigma"] (2 * PI ^ 5 * k ^ 4 / (15 * h ^ 3 * c ^ 2)) 0 (-3) 1 0 (-4);
   row ["b"] (h * c / (k * (4965114231744276303 / 10 ^ 18))) 1 0 0 0 1;
   row ["b_prime"] (2821439372122078893 / 10 ^ 18 * k / h) 0 (-1) 0 0 (-1)].

(** No defining number is zero (Python would raise [ZeroDivisionError] for some of them). *)
Definition nonzero_vals (v : codata_vals) : Prop :=
  v_c v <> 0 /\ v_h v <> 0 /\ v_k v <> 0 /\ v_e v <> 0 /\ v_alpha v <> 0 /\ v_m_e v <> 0 /\ v_m_p v <> 0.

(** [u] has value [x] and the five exponents [d]. *)
Definition has_value (u : unit_) (x : R) (d : Z * Z * Z * Z * Z) : Prop :=
  let '(l, t, m, i, th) := d in uval u = x /\ has_dimension u l t m i th.

(** The constants the package offers: which table, and the first of its names. *)
Inductive source := CODATA2014 | CODATA2018 | Astro.
Definition canonical_name (names : list (list string)) (n : string) : option string :=
  match find (fun ns => existsb (String.eqb n) ns) names with Some ns => Some (hd "" ns) | None => None end.
Definition codata_names : list (list string) := map fst (textbook codata2018_vals).
Definition astro_names : list (list string) :=
  [["M_⊕"; "earthMass"; "M_earth"]; ["R_⊕"; "earthRadius"; "earthRad"; "R_earth"];
   ["M_♃"; "jupiterMass"; "M_jupiter"]; ["R_♃"; "jupiterRadius"; "jupiterRad"; "R_jupiter"];
   ["M_☉"; "solarMass"; "solMass"; "M_sun"]; ["R_☉"; "solarRadius"; "solRad"; "R_sun"];
   ["L_☉"; "solarLuminosity"; "solLum"; "L_sun"]].
Definition tag (s : source) (o : option string) : option (source * string) :=
  match o with Some n => Some (s, n) | None => None end.

(** What an access denotes: [constants.x] is CODATA 2018's, or else the astronomical one. *)
Definition denotes (x : access) : option (source * string) :=
  match x with
  | Top n => match canonical_name codata_names n with
             | Some m => Some (CODATA2018, m)
             | None => tag Astro (canonical_name astro_names n) end
  | Dot a n =>
      if String.eqb a "default" || String.eqb a "codata2018" then tag CODATA2018 (canonical_name codata_names n)
      else if String.eqb a "codata2014" then tag CODATA2014 (canonical_name codata_names n)
      else if String.eqb a "astro" then tag Astro (canonical_name astro_names n)
      else None
  end.

(** The tabulated astronomical values, SI. *)
Definition astro_values : list (list string * (R * (Z * Z * Z * Z * Z))) :=
  [row ["M_⊕"] (5.97217 * 10 ^ 24) 0 0 1 0 0; row ["R_⊕"] 6378136.6 1 0 0 0 0;
   row ["M_♃"] (1.898125 * 10 ^ 27) 0 0 1 0 0; row ["R_♃"] 71492000 1 0 0 0 0;
   row ["M_☉"] (1.98847 * 10 ^ 30) 0 0 1 0 0; row ["R_☉"] (6.957 * 10 ^ 8) 1 0 0 0 0;
   row ["L_☉"] (3.828 * 10 ^ 26) 2 (-3) 1 0 0].

(** The table of values of a source. *)
Definition values_of (s : source) : list (list string * (R * (Z * Z * Z * Z * Z))) :=
  match s with CODATA2014 => textbook codata2014_vals | CODATA2018 => textbook codata2018_vals | Astro => astro_values end.

(** Recommended values of derived constants (CODATA 2018 and 2014 adjustments, NIST): value and standard
    uncertainty, or one unit in the last digit quoted for the exact ones.  The bound allows one such uncertainty;
    for the Rydberg constant (known to 12 digits, better than the masses and charges it is computed from here)
    and the 2014 Bohr radius it allows 3 and 5 parts in 10^10, what rounding of those inputs costs. *)
Definition recommended2018 : list (string * (R * R)) :=
  [("ħ", (1.054571817 * / 10 ^ 34, 1 * / 10 ^ 43));
   ("μ_0", (1.25663706212 * / 10 ^ 6, 19 * / 10 ^ 17));
   ("ε_0", (8.8541878128 * / 10 ^ 12, 13 * / 10 ^ 22));
   ("μ_B", (9.2740100783 * / 10 ^ 24, 28 * / 10 ^ 34));
   ("μ_N", (5.0507837461 * / 10 ^ 27, 15 * / 10 ^ 37));
   ("Ryd", (10973731.568160, 3 * / 10 ^ 3));
   ("a_0", (5.29177210903 * / 10 ^ 11, 80 * / 10 ^ 22));
   ("σ_e", (6.6524587321 * / 10 ^ 29, 60 * / 10 ^ 39));
   ("σ", (5.670374419 * / 10 ^ 8, 1 * / 10 ^ 17));
   ("b", (2.897771955 * / 10 ^ 3, 1 * / 10 ^ 12));
   ("b_prime", (5.878925757 * 10 ^ 10, 10))].
Definition recommended2014 : list (string * (R * R)) :=
  [("ħ", (1.054571800 * / 10 ^ 34, 13 * / 10 ^ 43));
   ("μ_B", (9.274009994 * / 10 ^ 24, 57 * / 10 ^ 33));
   ("μ_N", (5.050783699 * / 10 ^ 27, 31 * / 10 ^ 36));
   ("Ryd", (10973731.568508, 3 * / 10 ^ 3));
   ("a_0", (5.2917721067 * / 10 ^ 11, 25 * / 10 ^ 21));
   ("σ_e", (6.6524587158 * / 10 ^ 29, 91 * / 10 ^ 39));
   ("σ", (5.670367 * / 10 ^ 8, 13 * / 10 ^ 14));
   ("b", (2.8977729 * / 10 ^ 3, 17 * / 10 ^ 10));
   ("b_prime", (5.8789238 * 10 ^ 10, 34 * 10 ^ 3))].
