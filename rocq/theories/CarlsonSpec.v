(** * Carlson's integrals, as improper Riemann integrals (DLMF 19.16.1, 19.16.2, 19.16.6) *)
From Coq Require Import Reals.
From Coquelicot Require Import Rbar Lim_seq Hierarchy Continuity RInt Complex.
Open Scope R_scope.

(** The real and the imaginary part of the integral from 0 to infinity of a complex function of a real variable *)
Definition improper (f : R -> C) (v : C) : Prop :=
  is_lim (fun T => RInt (fun t => Re (f t)) 0 T) p_infty (Re v) /\ is_lim (fun T => RInt (fun t => Im (f t)) 0 T) p_infty (Im v).
Section Carlson.
Variable csqrt : C -> C.
Open Scope C_scope.
Definition is_RF (x y z v : C) : Prop := improper (fun t => 1 / (RtoC 2 * (csqrt (RtoC t + x) * csqrt (RtoC t + y) * csqrt (RtoC t + z)))) v.
Definition is_RC (x y v : C) : Prop := improper (fun t => 1 / (RtoC 2 * (csqrt (RtoC t + x) * (RtoC t + y)))) v.
Definition is_RJ (x y z p v : C) : Prop :=
  improper (fun t => RtoC 3 / (RtoC 2 * (csqrt (RtoC t + x) * csqrt (RtoC t + y) * csqrt (RtoC t + z) * (RtoC t + p)))) v.
End Carlson.
(** A function that returns the value of the integral wherever it exists: what is assumed of the functions of phytorch.special.elliptic. *)
Definition computes_RF (csqrt : C -> C) (f : C -> C -> C -> C) : Prop := forall x y z v, is_RF csqrt x y z v -> f x y z = v.
Definition computes_RC (csqrt : C -> C) (f : C -> C -> C) : Prop := forall x y v, is_RC csqrt x y v -> f x y = v.
Definition computes_RJ (csqrt : C -> C) (f : C -> C -> C -> C -> C) : Prop := forall x y z p v, is_RJ csqrt x y z p v -> f x y z p = v.
(** DLMF 19.16.5: R_D is R_J with the last argument repeated *)
Definition computes_RD (csqrt : C -> C) (f : C -> C -> C -> C) : Prop := forall x y z v, is_RJ csqrt x y z z v -> f x y z = v.
