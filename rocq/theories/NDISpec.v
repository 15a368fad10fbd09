(** * Specification for C68: the cumulative distribution that a table of probabilities defines at the knots of one dimension *)
From Coq Require Import List Arith Reals.
From Verif Require Import InterpND.
Import ListNotations.
Open Scope R_scope.

Definition total {A} (f : A -> R) (l : list A) : R := fold_right Rplus 0 (map f l).
(** The weight of cell [k] of a dimension, given the indices [rest] of the later dimensions: the mean of the table at its two ends, summed over
    all indices of the earlier dimensions (sizes [pre]) *)
Definition cell_weight (pre : list nat) (F : list nat -> R) (rest : list nat) (k : nat) : R :=
  total (fun p => (F (p ++ k :: rest) + F (p ++ S k :: rest)) / 2) (multi_indices pre).
(** The probability of being below knot [a] of a dimension with [n] knots *)
Definition knot_cdf (pre : list nat) (n : nat) (F : list nat -> R) (rest : list nat) (a : nat) : R :=
  total (cell_weight pre F rest) (seq 0 a) / total (cell_weight pre F rest) (seq 0 (n - 1)).
(** Every cell of every dimension has a positive weight. *)
Definition positive_table (grids : list (list R)) (F : list nat -> R) : Prop := forall pre g post, grids = pre ++ g :: post ->
  forall rest, Forall2 lt rest (map (@length R) post) -> forall k, (k + 1 < length g)%nat -> 0 < cell_weight (map (@length R) pre) F rest k.
(** [blend grids f x v]: the multilinear interpolation at the point [x] of the values [f] at the knots of [grids] is [v]. *)
Inductive blend : list (list R) -> (list nat -> R) -> list R -> R -> Prop :=
| blend_nil f : blend [] f [] (f [])
| blend_cons g gs f k t xs v0 v1 : (k + 1 < length g)%nat -> 0 <= t <= 1 -> blend gs (fun r => f (k :: r)) xs v0 -> blend gs (fun r => f ((k + 1)%nat :: r)) xs v1 ->
    blend (g :: gs) f (((1 - t) * nth k g 0 + t * nth (k + 1) g 0) :: xs) ((1 - t) * v0 + t * v1).
(** The conditional distribution of the coordinate of grid [g] given the later coordinates, at the knots *)
Definition conditional_cdf (pre : list (list R)) (g : list R) (F : list nat -> R) (idx : list nat) : R :=
  match idx with a :: rest => knot_cdf (map (@length R) pre) (length g) F rest a | [] => 0 end.
(** The share of the volume under the multilinear interpolant of a table on two grids that lies below knot [a] of the second grid, by the trapezoid
    rule (exact for such interpolants) *)
Definition trapezoid (g : list R) (f : nat -> R) (a : nat) : R := total (fun k => (nth (S k) g 0 - nth k g 0) * ((f k + f (S k)) / 2)) (seq 0 a).
Definition volume_below (g h : list R) (F : list nat -> R) (a : nat) : R := trapezoid h (fun k => trapezoid g (fun i => F [i; k]) (length g - 1)) a.
