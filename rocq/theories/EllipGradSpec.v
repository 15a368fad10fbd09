(** * Specification for the gradients of the elliptic functions *)
From Coq Require Import Reals.
From Verif Require Import EllipSpec.
Open Scope R_scope.

(** Carlson's functions: the values of the integrals wherever these exist *)
Record carlson_functions (rc : R -> R -> R) (rd rf rg : R -> R -> R -> R) (rj : R -> R -> R -> R -> R) : Prop := {
  rc_is : forall x y v, carlson_RC x y v -> rc x y = v;
  rd_is : forall x y z v, carlson_RD x y z v -> rd x y z = v;
  rf_is : forall x y z v, carlson_RF x y z v -> rf x y z = v;
  rg_is : forall x y z v, carlson_RG x y z v -> rg x y z = v;
  rj_is : forall x y z p v, carlson_RJ x y z p v -> rj x y z p = v }.
(** Two arguments that the rules tell apart correctly: equal, or further apart than the tolerance; without the tests (devil_may_care) just different *)
Definition resolved (devil_may_care : bool) (tol a b : R) : Prop := if devil_may_care then a <> b else a = b \/ tol <= Rabs (a - b).

(** Legendre's functions of the amplitude and the parameter: the values of the integrals wherever these exist *)
Record legendre_functions (F E D : R -> R -> R) (Pi : R -> R -> R -> R) : Prop := {
  F_is : forall phi m v, legendre_F phi m v -> F phi m = v;
  E_is : forall phi m v, legendre_E phi m v -> E phi m = v;
  D_is : forall phi m v, legendre_D phi m v -> D phi m = v;
  Pi_is : forall n phi m v, legendre_Pi n phi m v -> Pi n phi m = v }.
(** The squared cosecant of an amplitude; [None] is the infinite value at 0 *)
Definition cosec2 (phi : R) : option R := if Req_EM_T phi 0 then None else Some (/ (sin phi) ^ 2).
(** A function of the amplitude and the parameter as function of the squared cosecant c and the parameter *)
Definition of_c (f : R -> R -> R) (c m : R) : R := f (asin (1 / sqrt c)) m.
