(** * Specification for C67: what an exact solver of y' = f(t) returns; indices of tensors *)
From Coq Require Import List Arith Reals.
From Coquelicot Require Import Hierarchy Continuity RInt.
Import ListNotations.
Open Scope R_scope.

(** A multi-index of a shape *)
Definition valid (s idx : list nat) : Prop := Forall2 (fun i n => (i < n)%nat) idx s.
(** The times are strictly increasing or strictly decreasing. *)
Definition monotone (ts : list R) : Prop :=
  (forall i, (S i < length ts)%nat -> nth i ts 0 < nth (S i) ts 0) \/ (forall i, (S i < length ts)%nat -> nth (S i) ts 0 < nth i ts 0).
(** [t] lies between the first time and some other *)
Definition within (ts : list R) (t : R) : Prop := exists k, (k < length ts)%nat /\ Rmin (nth 0 ts 0) (nth k ts 0) <= t <= Rmax (nth 0 ts 0) (nth k ts 0).
(** torchdiffeq's odeint (https://github.com/rtqichen/torchdiffeq): "t: 1-D Tensor holding a sequence of time points for which to solve for y,
    in either increasing or decreasing order. The first element of this sequence is taken to be the initial time point"; other sequences fail
    its assertion.  Exact integration of a right hand side that does not depend on y, from zero. *)
Definition exact_solver (odeint : (R -> list nat -> option R) -> list nat -> list R -> option (list (list nat -> R))) : Prop :=
  (forall f shape ts g, ts <> [] -> monotone ts ->
     (forall j, valid shape j -> forall t, within ts t -> f t j = Some (g j t) /\ continuous (g j) t) ->
     exists ys, odeint f shape ts = Some ys /\ length ys = length ts /\
       forall k j, (k < length ts)%nat -> valid shape j -> is_RInt (g j) (nth 0 ts 0) (nth k ts 0) (nth k ys (fun _ => 0) j)) /\
  (forall f shape ts, ~ monotone ts -> odeint f shape ts = None).
(** torch's broadcasting rule (https://pytorch.org/docs/stable/notes/broadcasting.html): shapes are aligned at their last dimension; in each dimension the sizes are equal, or 1, or missing.
    [size_at s k] is the size of the k-th dimension from the end, 1 when it is missing. *)
Definition size_at (s : list nat) (k : nat) : nat := nth k (rev s) 1%nat.
Definition broadcast_of (shapes : list nat -> Prop) (P : list nat) : Prop :=
  (forall s, shapes s -> (length s <= length P)%nat) /\ (length P = 0%nat \/ exists s, shapes s /\ length s = length P) /\
  forall k, (forall s, shapes s -> size_at s k = 1%nat \/ size_at s k = size_at P k) /\ (size_at P k = 1%nat \/ exists s, shapes s /\ size_at s k = size_at P k).
