(** What [gammainc] and [gammaincc] should compute: the normalised incomplete gamma functions, DLMF 8.2.4 *)
From Coq Require Import Reals.
From Verif Require Import EllipSpec GammaSpec.
Open Scope R_scope.
(** P(a, x) and Q(a, x) *)
Definition regularised_lower (a x p : R) : Prop := exists g l, euler_gamma a g /\ lower_gamma a x l /\ p = l / g.
Definition regularised_upper (a x q : R) : Prop := exists g u, euler_gamma a g /\ upper_gamma a x u /\ q = u / g.
(** x^a e^(-x) / Gamma(a) *)
Definition prefactor (a x d : R) : Prop := exists g, euler_gamma a g /\ d = Rpower x a * exp (- x) / g.
(** what is assumed of the C library *)
Definition log_of_gamma (lgamma : R -> R) : Prop := forall a g, 0 < a -> euler_gamma a g -> lgamma a = ln g.
Definition odd_about_one (erfc : R -> R) : Prop := forall t, erfc t + erfc (- t) = 2.
(** Lanczos's formula with the scaled sum [l]: (l, g) approximates the gamma function at [a] to a relative error [delta] *)
Definition lanczos_accurate (l : R -> R) (g delta a : R) : Prop :=
  forall G, euler_gamma a G -> Rabs (l a * Rpower ((a + g - 0.5) / exp 1) (a - 0.5) - G) <= delta * G.
(** the computed prefactor has the relative error [theta]: none where it is taken from log-gamma, at most [delta] where Lanczos's formula is used *)
Definition prefactor_error (a x delta theta : R) : Prop := (0.4 * a < Rabs (a - x) -> theta = 0) /\ Rabs theta <= delta.
(** the arguments for which the uniform expansion is used *)
Definition near_transition (a x : R) : Prop :=
  20 < a < 200 /\ Rabs (x - a) / a < 0.3 \/ 200 < a /\ Rabs (x - a) / a < 4.5 / sqrt a.
(** the prefactor does not underflow where it is taken from log-gamma *)
Definition no_underflow (a x : R) : Prop := 0.4 * a < Rabs (a - x) -> exists d, prefactor a x d /\ exp (-709.782712893383996843) <= d.
