(** * Specification: improper integrals over (0, infinity), Carlson's and Legendre's elliptic integrals on real arguments *)
From Coq Require Import Reals.
From Coquelicot Require Import Hierarchy RInt.
Open Scope R_scope.

(** The integral of [f] from 0 to infinity is [v]: the integrals over [a, b] exist and tend to [v] when [a] tends to 0 from above and [b] to infinity. *)
Definition improper0 (f : R -> R) (v : R) : Prop :=
  forall e, 0 < e -> exists a0 b0, 0 < a0 /\ a0 <= b0 /\ forall a b, 0 < a < a0 -> b0 < b -> exists I, is_RInt f a b I /\ Rabs (I - v) < e.

(** Carlson's integrals: DLMF 19.16.1, 19.16.2, 19.16.5, 19.16.6, 19.23.7 *)
Definition carlson_RF (x y z v : R) : Prop := improper0 (fun t => 1 / (2 * (sqrt (t + x) * sqrt (t + y) * sqrt (t + z)))) v.
Definition carlson_RC (x y v : R) : Prop := improper0 (fun t => 1 / (2 * (sqrt (t + x) * (t + y)))) v.
Definition carlson_RJ (x y z p v : R) : Prop := improper0 (fun t => 3 / (2 * (sqrt (t + x) * sqrt (t + y) * sqrt (t + z) * (t + p)))) v.
Definition carlson_RD (x y z v : R) : Prop := carlson_RJ x y z z v.
Definition carlson_RG (x y z v : R) : Prop :=
  improper0 (fun t => t / (4 * (sqrt (t + x) * sqrt (t + y) * sqrt (t + z))) * (x / (t + x) + y / (t + y) + z / (t + z))) v.
(** The Cauchy principal value of R_C for y < 0 (DLMF 19.2.20): the part of the line closer than [d] to the pole is left out, and [d] tends to 0. *)
Definition carlson_RC_pv (x y v : R) : Prop :=
  forall e, 0 < e -> exists d0 b0, 0 < d0 < - y /\ forall d b, 0 < d < d0 -> b0 < b -> exists I J,
    is_RInt (fun t => 1 / (2 * (sqrt (t + x) * (t + y)))) 0 (- y - d) I /\ is_RInt (fun t => 1 / (2 * (sqrt (t + x) * (t + y)))) (- y + d) b J /\
    Rabs (I + J - v) < e.

(** Legendre's integrals, DLMF 19.2.4-19.2.7, with the parameter m = k^2 and, for the third kind, the characteristic n; 19.2.6 for D.  The complete ones have phi = PI/2. *)
Definition legendre_F (phi m v : R) : Prop := is_RInt (fun th => 1 / sqrt (1 - m * (sin th) ^ 2)) 0 phi v.
Definition legendre_E (phi m v : R) : Prop := is_RInt (fun th => sqrt (1 - m * (sin th) ^ 2)) 0 phi v.
Definition legendre_D (phi m v : R) : Prop := is_RInt (fun th => (sin th) ^ 2 / sqrt (1 - m * (sin th) ^ 2)) 0 phi v.
Definition legendre_Pi (n phi m v : R) : Prop := is_RInt (fun th => 1 / ((1 - n * (sin th) ^ 2) * sqrt (1 - m * (sin th) ^ 2))) 0 phi v.
