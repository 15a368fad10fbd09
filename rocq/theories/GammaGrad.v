(** Model of the gradient rules of /repo/phytorch/special/gammainc.py, on real arguments.
    Torch's digamma and gammaln and the extension's functions are parameters.  [Tgamma m a z] is [None] when the call raises. *)
From Coq Require Import Reals.
Open Scope R_scope.
Section Rules.
Variables gammaln digamma : R -> R.
(** phytorch-extensions/special/meijerg.h:69-79 through special.cpp:22-25 *)
Variable Tgamma : nat -> R -> R -> option R.

Definition obind {A B} (x : option A) (f : A -> option B) : option B := match x with Some a => f a | None => None end.

(** gammainc.py:26-27, TGamma.grad_a: [log(z) * T + (m-1) * Tgamma(m+1, a, z)] *)
Definition TGamma_grad_a (m : nat) (a z T : R) : option R := obind (Tgamma (m + 1) a z) (fun T1 => Some (ln z * T + (INR m - 1) * T1)).
(** gammainc.py:30-31, TGamma.grad_z: [-(Tgamma(m-1, a, z) + T) / z] *)
Definition TGamma_grad_z (m : nat) (a z T : R) : option R := obind (Tgamma (m - 1) a z) (fun T1 => Some (- (T1 + T) / z)).

(** gammainc.py:45-48, Gammainc.grad_a; the last argument is the keyword [q] *)
Definition Gammainc_grad_a (a x : R) (p : option R) (q : option R) : option R :=
  obind (match q with Some q => Some q | None => match p with Some p => Some (1 - p) | None => None end end) (fun q =>
  obind (Tgamma 3 a x) (fun T3 => Some (q * (digamma a - ln x) - x * T3 / exp (gammaln a)))).
(** gammainc.py:51-52, Gammainc.grad_z (the third argument is not used) *)
Definition Gammainc_grad_z (a x : R) (p : option R) : R := Rpower x (a - 1) * exp (- x - gammaln a).
(** gammainc.py:60-61 and 64-65, Gammaincc *)
Definition Gammaincc_grad_a (a x q : R) : option R := option_map Ropp (Gammainc_grad_a a x None (Some q)).
Definition Gammaincc_grad_z (a x q : R) : R := - Gammainc_grad_z a x None.
End Rules.
