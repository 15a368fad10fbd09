(** * Specification: the integrals that the reduction is about *)
From Coq Require Import Reals List ZArith.
From Coquelicot Require Import Hierarchy RInt.
From Verif Require Import EllipSpec.
Import ListNotations.
Open Scope R_scope.

(** The product of (a_i + t)^m_i over the list, and the square root of the product of the first [h] factors *)
Fixpoint numer (a : list R) (m : list Z) (t : R) : R := match a, m with u :: a', k :: m' => powerRZ (u + t) k * numer a' m' t | _, _ => 1 end.
Fixpoint root (a : list R) (t : R) : R := match a with [] => 1 | u :: a' => sqrt (u + t) * root a' t end.
(** Carlson (1999), (1.1): [m] with numbers a_1, ..., a_n, of which the first [h] are branch points *)
Definition integrand (h : nat) (a : list R) (m : list Z) (t : R) : R := numer a m t / root (firstn h a) t.
Definition elliptic_integral (h : nat) (a : list R) (m : list Z) (x y v : R) : Prop := is_RInt (integrand h a m) y x v.

(** Functions that return Carlson's integrals wherever these exist, except possibly R_J where the last argument is one of the others (special/ellipr.py returns NaN there) *)
Definition exact_carlson (elliprc : R -> R -> R) (elliprd elliprf : R -> R -> R -> R) (elliprj : R -> R -> R -> R -> R) : Prop :=
  (forall u v r, carlson_RC u v r -> elliprc u v = r) /\ (forall u v w r, carlson_RD u v w r -> elliprd u v w = r) /\ (forall u v w r, carlson_RF u v w r -> elliprf u v w = r) /\
  (forall u v w p r, p <> u -> p <> v -> p <> w -> carlson_RJ u v w p r -> elliprj u v w p = r).
(** The sequence with item [j], counted from 0, replaced *)
Fixpoint replace_nth (j : nat) (u : R) (a : list R) {struct a} : list R := match a, j with [], _ => [] | _ :: a', O => u :: a' | w :: a', S k => w :: replace_nth k u a' end.
