(** * Model of /repo/phytorch/distributions/__init__.py (definitions only)

    One batch element; the table of probabilities is a function of multi-indices.  [None] is an exception. *)
From Coq Require Import List Bool Arith Reals.
From Verif Require Import Interp InterpND.
Import ListNotations.
Open Scope R_scope.

(** torch.cumsum *)
Definition cumsum (l : list R) : list R := map (fun k => sumR (firstn (S k) l)) (seq 0 (length l)).
(** The mass given to cell [k] of a dimension for the indices [rest] of the later dimensions: midpoints (phytorchx.mid_many) along the dimension,
    summed over the earlier dimensions, whose sizes are [pre] (27-30) *)
Definition mass (pre : list nat) (F : list nat -> R) (rest : list nat) (k : nat) : R :=
  sumR (map (fun p => (F (p ++ k :: rest) + F (p ++ S k :: rest)) / 2) (multi_indices pre)).
(** marginal_cprobs (24-31), one row: zero followed by the normalised cumulative sums *)
Definition marginal_cprobs (pre : list nat) (n : nat) (F : list nat -> R) (rest : list nat) : list R :=
  let cprob := cumsum (map (mass pre F rest) (seq 0 (n - 1))) in 0 :: map (fun v => v / last cprob 0) cprob.
(** cinterps (32-35): one interpolated channel per knot of the dimension *)
Definition cinterp (pre : list nat) (n : nat) (F : list nat -> R) (later : list (list R)) (x : list R) : option (list R) :=
  let shape := map (@length R) later in
  all_some (map (fun a => linear_nd later shape (table shape (fun rest => nth a (marginal_cprobs pre n F rest) 0)) x) (seq 0 n)).
(** icdf (54-61): the last coordinate from value[0], then the others from last to first; [todo] are the grids still to do, last first; zip stops at the
    shortest *)
Fixpoint icdf_loop (F : list nat -> R) (todo later : list (list R)) (value : list R) (x : list R) : option (list R) :=
  match todo, value with
  | g :: todo', y :: value' =>
      match cinterp (map (@length R) (rev todo')) (length g) F later x with
      | Some c => match linear1d c g y with Some xi => icdf_loop F todo' (g :: later) value' (xi :: x) | None => None end
      | None => None
      end
  | _, _ => Some x
  end.
(** more_itertools.last raises when the generator is empty, that is when the inner loop (57) makes no pass: with one dimension or with one value *)
Definition icdf (grids : list (list R)) (F : list nat -> R) (value : list R) : option (list R) :=
  match rev grids, value with
  | g :: ((_ :: _) as todo), y :: ((_ :: _) as value') =>
      match linear1d (marginal_cprobs (map (@length R) (rev todo)) (length g) F []) g y with      (* interp0 (37) *)
      | Some x0 => icdf_loop F todo [g] value' [x0]
      | None => None
      end
  | _, _ => None
  end.
