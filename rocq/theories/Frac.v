(** * Python [fractions.Fraction] as used by phytorch units (model only)

    A Python [Fraction] is always stored reduced with a positive denominator;
    that is exactly a canonical rational [Qc]. *)
From Coq Require Import ZArith QArith Qcanon Qabs List.
Import ListNotations.
Open Scope Z_scope.

(** [Fraction.numerator] / [Fraction.denominator]. *)
Definition fnum (x : Qc) : Z := Qnum (this x).
Definition fden (x : Qc) : Z := Zpos (Qden (this x)).

(** [Fraction(p, q)] for [q > 0] (reduces by the gcd). *)
Definition frac (p q : Z) : Qc := Q2Qc (p # Z.to_pos q).

(** The integer [n] as a Fraction. *)
Definition fint (n : Z) : Qc := frac n 1.

(** The [while True] loop of CPython's [Fraction.limit_denominator]
    (Lib/fractions.py; called in /repo/phytorch/units/unit.py:43 and :167):
<<
    p0, q0, p1, q1 = 0, 1, 1, 0
    n, d = self._numerator, self._denominator
    while True:
        a = n//d
        q2 = q0+a*q1
        if q2 > max_denominator: break
        p0, q0, p1, q1 = p1, q1, p0+a*p1, q2
        n, d = d, n-a*d
>>
    The loop is run with explicit fuel; [None] means that the fuel ran out
    (proved impossible in FracFacts.v for the fuel used below). *)
Fixpoint ld_loop (fuel : nat) (M p0 q0 p1 q1 n d : Z) : option (Z * Z * Z * Z) :=
  match fuel with
  | O => None
  | S fuel' =>
      let a := n / d in
      let q2 := q0 + a * q1 in
      if M <? q2 then Some (p0, q0, p1, q1)
      else ld_loop fuel' M p1 q1 (p0 + a * p1) q2 d (n - a * d)
  end.

Definition ld_fuel (d : Z) : nat := Z.to_nat (2 * Z.log2 d + 3).

(** [Fraction.limit_denominator(max_denominator=M)], M >= 1
    (the [ValueError] for M < 1 is not modelled: phytorch never passes M). *)
Definition limit_denominator (M : Z) (x : Qc) : Qc :=
  if fden x <=? M then x
  else
    match ld_loop (ld_fuel (fden x)) M 0 1 1 0 (fnum x) (fden x) with
    | None => x
    | Some (p0, q0, p1, q1) =>
        let k := (M - q0) / q1 in
        let bound1 := frac (p0 + k * p1) (q0 + k * q1) in
        let bound2 := frac p1 q1 in
        if Qle_bool (Qabs (bound2 - x)) (Qabs (bound1 - x)) then bound2 else bound1
    end.

(** The default [max_denominator] of [limit_denominator()]. *)
Definition max_den : Z := 1000000.
Definition limit : Qc -> Qc := limit_denominator max_den.
