(** What [digamma] should compute: the logarithmic derivative of the continued gamma function *)
From Coq Require Import Reals.
From Coquelicot Require Import Hierarchy Derive.
From Verif Require Import GammaFnSpec.
Open Scope R_scope.
(** G is the gamma function near x, and its derivative there is p times its value *)
Definition gamma_log_derivative (x p : R) : Prop :=
  exists G r, 0 < r /\ (forall y, Rabs (y - x) < r -> continued_gamma y (G y)) /\ is_derive G x (p * G x).
