(** The C++ function [digamma] at real arguments.
    Modelled: /repo/phytorch-extensions/special/digamma.h:5-41, gammahead.h:6-7, with phytorch-extensions/common/complex.h:18-26.
    Simplifications: the arguments are real (imaginary part 0), the arithmetic is exact, the elementary functions and M_PI are the exact real
    numbers; every other literal is the literal of the code.  pi / tan(pi z) is written pi cos(pi z) / sin(pi z), which is 0 where the tangent
    is infinite.  [eps] is numeric_limits<scalar_t>::epsilon().  The recursion takes fuel; [Out] is running out of it. *)
From Coq Require Import List ZArith Reals.
From Verif Require Import GammaFn.
Import ListNotations.
Open Scope R_scope.
(** gammahead.h:6-7 *)
Definition polygamma_g : R := 607 / 128.
Definition polygamma_h : R := 0.5.
(** digamma.h:12-28 *)
Definition digamma_c : list R :=
  [0.99999999999999709182; 57.156235665862923517; -59.597960355475491248; 14.136097974741747174; -0.49191381609762019978;
   0.33994649984811888699e-4; 0.46523628927048575665e-4; -0.98374475304879564677e-4; 0.15808870322491248884e-3; -0.21026444172410488319e-3;
   0.21743961811521264320e-3; -0.16431810653676389022e-3; 0.84418223983852743293e-4; -0.26190838401581408670e-4; 0.36899182659531622704e-5].
(** digamma.h:31-36, the loop from k down to 1 *)
Fixpoint digamma_loop (k : nat) (z d n : R) : R * R :=
  match k with
  | O => (d, n)
  | S k' => let dz := 1 / (z + INR k - 1) in let dd := nth k digamma_c 0 * dz in digamma_loop k' z (d + dd) (n - dd * dz)
  end.
(** digamma.h:5-41 *)
Fixpoint digamma (eps : R) (fuel : nat) (z : R) : result R :=
  match fuel with
  | O => Out
  | S fuel' =>
      if (is_int eps z && is_nonpositive z)%bool then Nan else
      if Rlt_dec z 0.5 then
        match digamma eps fuel' (1 - z) with Ok v => Ok (v - PI * cos (PI * z) / sin (PI * z)) | o => o end
      else
        let (d, n) := digamma_loop 14 z 0 0 in
        let d := d + nth 0 digamma_c 0 in
        let zp := z + (polygamma_g - polygamma_h) in
        Ok (ln zp + (n / d - polygamma_g / zp))
  end.
