(** The C++ functions [loggamma] and [gamma] at real arguments.
    Modelled: /repo/phytorch-extensions/special/loggamma.h:5-43, gamma.h:5-36, with phytorch-extensions/common/complex.h:18-26 and moremath.h.
    Simplifications: the arguments are real (imaginary part 0), the arithmetic is exact, the elementary functions and the
    constants M_PI, LOGPI, SQRT2PI, LOGSQRT2PI are the exact real numbers; every other literal is the literal of the code.
    [eps] is numeric_limits<scalar_t>::epsilon().  A loop or a recursion takes fuel; [Out] is running out of it. *)
From Coq Require Import ZArith Reals.
Open Scope R_scope.

Inductive result (A : Type) : Type := Ok (v : A) | Nan | Out.
Arguments Ok {A} v. Arguments Nan {A}. Arguments Out {A}.

(** std::floor and std::round (half away from zero) *)
Definition rfloor (x : R) : R := IZR (Int_part x).
Definition rround (x : R) : R := if Rle_dec 0 x then rfloor (x + 1/2) else - rfloor (- x + 1/2).
(** complex.h:26 is_int, complex.h:22 is_real_nonpositive *)
Definition is_int (eps x : R) : bool := if Rlt_dec (Rabs (rround x - x)) (100 * eps) then true else false.
Definition is_nonpositive (x : R) : bool := if Rle_dec x 0 then true else false.
(** std::arg of a real number *)
Definition rarg (x : R) : R := if Rlt_dec x 0 then PI else 0.
(** std::log of a complex number with imaginary part 0 *)
Definition rlog (x : R) : R * R := (ln (Rabs x), rarg x).

(** loggamma.h:24-29 *)
Fixpoint loggamma_loop (fuel : nat) (z c a : R) : option (R * R * R) :=
  match fuel with
  | O => None
  | S fuel' => if Rlt_dec z 14 then loggamma_loop fuel' (z + 1) (c * z) (a + rarg z) else Some (z, c, a)
  end.
(** loggamma.h:33-40 *)
Definition loggamma_series (z : R) : R :=
  let w := 1 / (z * z) in
  (((((-1.9175269175269175269175269175269175269175e-3 * w
      + 8.4175084175084175084175084175084175084175E-4) * w
      + -5.9523809523809523809523809523809523809524e-4) * w
      + 7.9365079365079365079365079365079365079365e-4) * w
      + -2.7777777777777777777777777777777777777778e-3) * w
      + 8.3333333333333333333333333333333333333333e-2) / z.
(** loggamma.h:5-43; with imaginary part 0 the conjugations (10-11, 43) and the large-imaginary-part branch (15-17) do nothing *)
Fixpoint loggamma (eps : R) (fuel : nat) (z : R) : result (R * R) :=
  match fuel with
  | O => Out
  | S fuel' =>
      if (is_int eps z && is_nonpositive z)%bool then Nan else
      if Rlt_dec z (-14) then
        match loggamma eps fuel' (1 - z) with
        | Ok (re, im) => let (lr, li) := rlog (sin (PI * (z - rfloor z))) in
                         Ok (ln PI - re - lr, 0 - im - (li - PI * rfloor z))
        | o => o
        end
      else
        match loggamma_loop fuel' z 1 0 with
        | None => Out
        | Some (z, c, a) =>
            let re := (z - 0.5) * ln z - z + ln (sqrt (2 * PI)) - ln (Rabs c) in
            let im := 0 - a in
            Ok (if Rlt_dec (Rabs z) 1e8 then re + loggamma_series z else re, im)
        end
  end.

(** gamma.h:5-17 *)
Definition stirling_polynomial (w : R) : R :=
  ((((((-5.92166437353693882865e-4 * w
     + 6.97281375836585777429e-5) * w
     + 7.84039221720066627474e-4) * w
     + -2.29472093621399176955e-4) * w
     + -2.68132716049382716049e-3) * w
     + 3.47222222222222222222e-3) * w
     + 8.33333333333333333333E-2) * w.
Definition stirling (z : R) : R := let w := 1 / z in sqrt (2 * PI) * Rpower z (z - 0.5) * exp (- z) * (1 + stirling_polynomial w).
(** gamma.h:28-35 *)
Fixpoint gamma_loop (fuel : nat) (z c : R) : option R :=
  match fuel with
  | O => None
  | S fuel' =>
      if Rlt_dec z 18 then
        if Rlt_dec (Rabs z) 1e-9 then Some (1 / (((1 + 0.5772156649015329 * z) * z) * c))
        else gamma_loop fuel' (z + 1) (c * z)
      else Some (stirling z / c)
  end.
(** gamma.h:20-36 *)
Fixpoint gamma (eps : R) (fuel : nat) (z : R) : result R :=
  match fuel with
  | O => Out
  | S fuel' =>
      if (is_int eps z && is_nonpositive z)%bool then Nan else
      if Rle_dec 18 (Rabs z) then
        if Rlt_dec z 0 then match gamma eps fuel' (1 - z) with Ok g => Ok (PI / sin (PI * z) / g) | o => o end
        else Ok (stirling z)
      else match gamma_loop fuel' z 1 with Some v => Ok v | None => Out end
  end.
