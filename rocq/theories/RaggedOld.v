(** The older ragged tensors: /repo/phytorch/ragged/ragged_old.py:14-53 ([RaggedTensor.reduce_indices], [reduced_shape], [reduce_add]).
    Simplifications: a tensor is the list of its rows along the last axis (the leading axes, which the code never touches, are flattened into
    that list); the entries are real numbers with exact addition; [sizes] is a sequence of nonnegative integers, as repeat_interleave requires;
    the propagation of the attribute [sizes] through torch functions (18-27, meta.py) and devices are not modelled. *)
From Coq Require Import List Arith Reals.
Import ListNotations.
Open Scope R_scope.

(** torch.repeat_interleave(v, reps): the i-th entry of v repeated reps[i] times *)
Fixpoint repeat_interleave {A} (v : list A) (reps : list nat) : list A :=
  match v, reps with a :: v', r :: reps' => repeat a r ++ repeat_interleave v' reps' | _, _ => [] end.
(** torch.broadcast_to(v, (..., n)) for a vector v, one row of the result; None is the RuntimeError *)
Definition broadcast_row {A} (v : list A) (n : nat) : option (list A) :=
  if Nat.eqb (length v) n then Some v else match v with [a] => Some (repeat a n) | _ => None end.
(** ragged_old.py:29-33, [reduce_indices], for one row of length n *)
Definition reduce_indices (sizes : list nat) (n : nat) : option (list nat) := broadcast_row (repeat_interleave (seq 0 (length sizes)) sizes) n.
(** acc[i] += x *)
Fixpoint add_at (acc : list R) (i : nat) (x : R) : list R :=
  match acc, i with a :: acc', O => (a + x) :: acc' | a :: acc', S i' => a :: add_at acc' i' x | [], _ => [] end.
(** Tensor.scatter_add_(-1, index, src) for one row *)
Fixpoint scatter_add (acc : list R) (idx : list nat) (src : list R) : list R :=
  match idx, src with i :: idx', x :: src' => scatter_add (add_at acc i x) idx' src' | _, _ => acc end.
(** ragged_old.py:35-40: new_zeros(reduced_shape).scatter_add_(-1, reduce_indices, self) *)
Definition reduce_add (sizes : list nat) (n : nat) (rows : list (list R)) : option (list (list R)) :=
  match reduce_indices sizes n with
  | Some idx => Some (map (scatter_add (repeat 0 (length sizes)) idx) rows)
  | None => None
  end.
