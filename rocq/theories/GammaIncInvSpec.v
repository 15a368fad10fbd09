(** What the inverse incomplete gamma functions should compute *)
From Coq Require Import Reals.
From Verif Require Import EllipSpec GammaSpec GammaInc GammaIncSpec.
Open Scope R_scope.
(** what is assumed of the gamma function of the C library *)
Definition gamma_of_library (tgamma : R -> R) : Prop := forall a g, 0 < a -> euler_gamma a g -> tgamma a = g.
(** s is the inverse: P(a, s) = p *)
Definition inverse_lower (a p s : R) : Prop := 0 < s /\ regularised_lower a s p.
(** and of Q: Q(a, s) = q *)
Definition inverse_upper (a q s : R) : Prop := 0 < s /\ regularised_upper a s q.
(** [n] steps of Newton's method for F(x) = p from x, F being computed by [F] and x F'(x) by [xdF]; it stops where [xdF] vanishes *)
Fixpoint newton_steps (n : nat) (F : R -> num) (xdF : R -> R) (p x : R) : num :=
  match n with
  | O => Fin x
  | S m => if Rlt_dec x 0 then NaN else if Req_EM_T x 0 then Fin x else if Req_EM_T (xdF x) 0 then Fin x
           else match F x with Fin v => newton_steps m F xdF p (x - (v - p) / (xdF x / x)) | _ => NaN end
  end.
