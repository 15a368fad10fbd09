(** * Model of /repo/phytorch/ragged/__init__.py (definitions only)

    Lengths are natural numbers (negative lengths are not modelled).  A tensor with last dimension [n] is the list of its
    rows along the last dimension, all of length [n]: the batch dimensions only say how many rows there are and how they are arranged,
    and no operation of the file looks at them. *)
From Coq Require Import List Bool Arith.
Import ListNotations.

(** The exceptions of this file: AssertionError, and RuntimeError raised inside torch. *)
Inductive rerror := RAssertionError | RRuntimeError.
Inductive rres (A : Type) := ROk (a : A) | RErr (e : rerror).
Arguments ROk {A} a. Arguments RErr {A} e.
Definition rbnd {A B} (r : rres A) (f : A -> rres B) : rres B := match r with ROk a => f a | RErr e => RErr e end.
Definition rassert {A} (b : bool) (k : rres A) : rres A := if b then k else RErr RAssertionError.

(** more_itertools.split_into (23): consecutive chunks of the given sizes; when the iterable is exhausted the chunks are
    short or empty, and what is left over is dropped. *)
Fixpoint split_into {A} (l : list A) (sizes : list nat) : list (list A) :=
  match sizes with
  | [] => []
  | k :: sizes' => firstn k l :: split_into (skipn k l) sizes'
  end.

(** RaggedShape (12-17). *)
Record shape := mkShape { lens : list (list nat); sizes : list (list nat); ndim : nat; size : nat }.

(** RaggedShape.__post_init__ (19-28).  Python's [lens[-1]] is the head of the reversed list and the loop (22-23) walks the
    reversed list from its second entry; [acc] is Python's local [sizes], most recent entry first (so Python's [sizes[::-1]]). *)
Fixpoint up_sizes (acc : list (list nat)) (cur : list nat) (rlens : list (list nat)) : list (list nat) :=
  match rlens with
  | [] => acc
  | ls :: rlens' => let next := map list_sum (split_into cur ls) in up_sizes (next :: acc) next rlens'
  end.
Definition make_shape (ls : list (list nat)) : shape :=
  match rev ls with
  | [] => {| lens := ls; sizes := []; ndim := length ls; size := 1 |}
  | l0 :: rest => {| lens := ls; sizes := up_sizes [l0] l0 rest; ndim := length ls; size := list_sum l0 |}
  end.

(** The nested sizes given to [from_nested_sizes]: ints and lists. *)
Inductive nested := Num (n : nat) | Lst (l : list nested).

(** One pass of the inner loop (37-43) over the queue: the recorded lengths and what is appended to the queue. *)
Definition len_of (x : nested) : nat := match x with Num n => n | Lst l => length l end.
Definition kids_of (x : nested) : list nested := match x with Num _ => [] | Lst l => l end.
(** The outer loop (34-43); [fuel] bounds the passes, [None] is running out of it. *)
Fixpoint passes (fuel : nat) (q : list nested) : option (list (list nat)) :=
  match q with
  | [] => Some []
  | _ :: _ =>
      match fuel with
      | O => None
      | S fuel' => match passes fuel' (flat_map kids_of q) with
                   | Some r => Some (map len_of q :: r)
                   | None => None
                   end
      end
  end.
Fixpoint height (x : nested) : nat := match x with Num _ => 0 | Lst l => S (list_max (map height l)) end.
(** RaggedShape.from_nested_sizes (30-44); never [None] (theorem C28_terminates). *)
Definition from_nested_sizes (l : list nested) : option shape :=
  match passes (height (Lst l)) l with Some ls => Some (make_shape ls) | None => None end.

(** RaggedShape.broadcastable of two shapes (46-49). *)
Definition lens_eqb (a b : list (list nat)) : bool := if list_eq_dec (list_eq_dec Nat.eq_dec) a b then true else false.
Definition broadcastable (s t : shape) : bool :=
  let m := Nat.min (ndim s) (ndim t) in lens_eqb (firstn m (lens s)) (firstn m (lens t)).

Section Data.
Variable A : Type.
(** RaggedTensor (52-55). *)
Record rtensor := mkRT { last : nat; rows : list (list A); rshape : shape }.
(** __post_init__ (57-58). *)
Definition make_rt (last : nat) (rows : list (list A)) (s : shape) : rres rtensor :=
  rassert (Nat.eqb last (size s)) (ROk {| last := last; rows := rows; rshape := s |}).

(** Tensor.expand of the last dimension from [n] to [m] (65): equal sizes or size one. *)
Definition expand_row (n m : nat) (row : list A) : list A :=
  if Nat.eqb n m then row else flat_map (fun x => repeat x m) row.
Definition expand (n m : nat) (rs : list (list A)) : rres (list (list A)) :=
  if Nat.eqb n m || Nat.eqb n 1 then ROk (map (expand_row n m) rs) else RErr RRuntimeError.

(** Tensor.repeat_interleave along the last dimension (66-68): as many repeats as elements, and their sum is output_size. *)
Fixpoint interleave (row : list A) (reps : list nat) : list A :=
  match row, reps with x :: row', k :: reps' => repeat x k ++ interleave row' reps' | _, _ => [] end.
Definition repeat_interleave (n : nat) (rs : list (list A)) (reps : list nat) (output : nat) : rres (list (list A)) :=
  if Nat.eqb (length reps) n && (Nat.eqb (length reps) 0 || Nat.eqb (list_sum reps) output) then ROk (map (fun r => interleave r reps) rs)
  else RErr RRuntimeError.

(** RaggedTensor.broadcast_to (60-69).  [sizes] and [lens] have an entry at [self.shape.ndim] because of the first
    assertion. *)
Definition broadcast_to (self : rtensor) (s : shape) : rres rtensor :=
  rassert (Nat.ltb (ndim (rshape self)) (ndim s))
  (rassert (broadcastable (rshape self) s)
  (let d := ndim (rshape self) in
   let m := length (nth d (lens s) []) in
   let reps := nth d (sizes s) [] in
   rbnd (expand (last self) m (rows self)) (fun r1 =>
   rbnd (repeat_interleave m r1 reps (size s)) (fun r2 =>
   make_rt (list_sum reps) r2 s)))).
End Data.
Arguments last {A} _. Arguments rows {A} _. Arguments rshape {A} _. Arguments mkRT {A} last rows rshape.
Arguments make_rt {A} last rows s. Arguments broadcast_to {A} self s.
Arguments expand_row {A} n m row. Arguments expand {A} n m rs. Arguments interleave {A} row reps. Arguments repeat_interleave {A} n rs reps output.
