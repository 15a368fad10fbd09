(** What an interpolating natural spline is, for claim C40: polynomial pieces given by their coefficients, highest power first. *)
From Coq Require Import List Arith Reals.
From Coquelicot Require Import Derive.
Import ListNotations.
Open Scope R_scope.

(** the polynomial function *)
Fixpoint peval (p : list R) (x : R) : R := match p with [] => 0 | c :: p' => c * x ^ length p' + peval p' x end.

Section Spec.
Variables (x0 y0 : list R) (deg : nat) (ps : list (list R)).
Let n := (length x0 - 1)%nat.
Let X i := nth i x0 0.
Let Y i := nth i y0 0.
Let P i := peval (nth i ps []).
(** There is one piece of the given degree between each two consecutive knots, it takes the knots' values at its two ends, *)
Definition interpolates : Prop :=
  length ps = n /\ (forall i, (i < n)%nat -> length (nth i ps []) = S deg /\ P i (X i) = Y i /\ P i (X (S i)) = Y (S i)).
(** consecutive pieces have the same derivatives below the degree at their common knot, *)
Definition smooth : Prop :=
  forall i d, (S i < n)%nat -> (1 <= d < deg)%nat -> Derive_n (P i) d (X (S i)) = Derive_n (P (S i)) d (X (S i)).
(** and the derivatives from the second one up, below the degree, vanish at the two ends. *)
Definition natural : Prop :=
  forall d, (2 <= d < deg)%nat -> Derive_n (P 0) d (X 0) = 0 /\ Derive_n (P (n - 1)) d (X n) = 0.
Definition is_spline : Prop := interpolates /\ smooth /\ natural.
End Spec.

(** ** linear algebra *)
Definition dot (r c : list R) : R := fold_right Rplus 0 (map (fun p => fst p * snd p) (combine r c)).
(** matrix times vector *)
Definition mv (M : list (list R)) (c : list R) : list R := map (fun r => dot r c) M.
Definition square (M : list (list R)) : Prop := Forall (fun r => length r = length M) M.

(** What torch.linalg.solve is taken to be: it returns the solution when the matrix is square and there is exactly one solution, and raises otherwise. *)
Definition linear_solver (solve : list (list R) -> list R -> option (list R)) : Prop := forall A b c, solve A b = Some c <->
  square A /\ length b = length A /\ length c = length A /\ mv A c = b /\ (forall c', length c' = length A -> mv A c' = b -> c' = c).
(** What Tensor.inverse is taken to be: a two-sided inverse, or an exception. *)
Definition matrix_inverter (inverse : list (list R) -> option (list (list R))) : Prop := forall A B, inverse A = Some B ->
  square A /\ square B /\ length B = length A /\ forall c, length c = length A -> mv B (mv A c) = c /\ mv A (mv B c) = c.
