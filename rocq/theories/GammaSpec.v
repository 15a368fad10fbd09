(** * Specification: the gamma function, the incomplete gamma functions and the integrals T(m, a, z) on real arguments *)
From Coq Require Import Reals.
From Coquelicot Require Import Hierarchy RInt Derive.
From Verif Require Import EllipSpec.
Open Scope R_scope.

(** The integral of [f] from [z] to infinity is [v]. *)
Definition improper_from (z : R) (f : R -> R) (v : R) : Prop := forall e, 0 < e -> exists T, z <= T /\ forall b, T < b -> exists I, is_RInt f z b I /\ Rabs (I - v) < e.
(** The integral of [f] from 0, where it may be unbounded, to [x] is [v]. *)
Definition improper_to (x : R) (f : R -> R) (v : R) : Prop := forall e, 0 < e -> exists d, 0 < d /\ d <= x /\ forall a, 0 < a < d -> exists I, is_RInt f a x I /\ Rabs (I - v) < e.

(** Euler's integral, DLMF 5.2.1, and the incomplete integrals, DLMF 8.2.1 and 8.2.2 *)
Definition gamma_density (a t : R) : R := Rpower t (a - 1) * exp (- t).
Definition euler_gamma (a v : R) : Prop := improper0 (gamma_density a) v.
Definition lower_gamma (a x v : R) : Prop := improper_to x (gamma_density a) v.
Definition upper_gamma (a x v : R) : Prop := improper_from x (gamma_density a) v.
(** The regularised functions P and Q, DLMF 8.2.4 *)
Definition regularised_P (a x p : R) : Prop := exists g l, euler_gamma a g /\ lower_gamma a x l /\ p = l / g.
Definition regularised_Q (a x q : R) : Prop := exists g u, euler_gamma a g /\ upper_gamma a x u /\ q = u / g.
(** The functions T(m, a, z) of Geddes, Glasser, Moore and Scott (1990), the Meijer functions G^(m,0)_(m-1,m) (0,...,0; a-1,-1,...,-1 | z):
    T(1, a, z) = z^(a-1) e^(-z), and T(m, a, z) = 1 / ((m-2)! z) times the integral of ln(t/z)^(m-2) t^(a-1) e^(-t) from z to infinity for m > 1. *)
Definition T_function (m : nat) (a z v : R) : Prop :=
  match m with
  | O => False
  | 1%nat => v = Rpower z (a - 1) * exp (- z)
  | S (S k) => improper_from z (fun t => ln (t / z) ^ k * gamma_density a t) (v * z * INR (fact k))
  end.
(** What the functions called by the gradient rules return: the logarithm of Euler's integral and its derivative *)
Definition log_gamma_function (gammaln : R -> R) : Prop := forall a, 0 < a -> euler_gamma a (exp (gammaln a)).
Definition digamma_function (gammaln digamma : R -> R) : Prop := forall a, 0 < a -> is_derive gammaln a (digamma a).
(** [Tgamma] of the extension: the function T for m > 0.  For m = 0 the C++ code asks for a vector of 2^64 - 1 entries (meijerg.h:73-74), which raises. *)
Definition computes_T (Tgamma : nat -> R -> R -> option R) : Prop :=
  (forall m a z, (0 < m)%nat -> 0 < z -> exists v, Tgamma m a z = Some v /\ T_function m a z v) /\ forall a z, Tgamma 0%nat a z = None.
