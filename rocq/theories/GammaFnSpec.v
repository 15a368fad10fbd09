(** What [loggamma] and [gamma] should compute: the gamma function continued to the real numbers that are not poles *)
From Coq Require Import ZArith Reals.
From Verif Require Import EllipSpec GammaSpec.
Open Scope R_scope.
(** x (x+1) ... (x+n-1) *)
Fixpoint rising (x : R) (n : nat) : R := match n with O => 1 | S n' => x * rising (x + 1) n' end.
(** g is the gamma function at x, continued by the functional equation from Euler's integral *)
Definition continued_gamma (x g : R) : Prop :=
  (forall k : nat, x <> - INR k) /\ exists n G, 0 < x + INR n /\ euler_gamma (x + INR n) G /\ G = g * rising x n.
(** x is within d of a nonpositive integer *)
Definition near_pole (d x : R) : Prop := exists k : nat, Rabs (x + INR k) < d.
