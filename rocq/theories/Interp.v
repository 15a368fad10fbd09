(** * Model of /repo/phytorch/interpolate/abc.py, Linear1dInterpolator.py, LinearNDGridInterpolator.py (definitions only)

    One batch element and one channel at a time (batch and channel dimensions are broadcast elementwise by broadcast_gather,
    which is in the separate package phytorchx); numbers are exact reals, a division by zero is Coq's.
    [None] is the IndexError/RuntimeError of torch for an index outside the dimension or for sizes that do not fit. *)
From Coq Require Import List Bool Arith ZArith Reals.
Import ListNotations.
Open Scope R_scope.

Definition leb (a b : R) : bool := if Rle_dec a b then true else false.
Definition ltb (a b : R) : bool := if Rlt_dec a b then true else false.

(** torch.searchsorted on a sorted sequence: the first position whose element is greater (right=True) or not less
    (right=False) than the value. *)
Fixpoint searchsorted (right : bool) (grid : list R) (x : R) : nat :=
  match grid with
  | [] => O
  | g :: grid' => if (if right then leb g x else ltb g x) then S (searchsorted right grid' x) else O
  end.
(** torch.clamp: the upper bound wins. *)
Definition clamp (v lo hi : Z) : Z := Z.min (Z.max v lo) hi.
(** abc.py:39-43, project_one. *)
Definition project_one (x : R) (grid : list R) : Z :=
  (clamp (Z.of_nat (searchsorted true grid x)) 1 (Z.of_nat (length grid) - 1) - 1)%Z.
(** gather of one index along the last dimension *)
Definition gather {A} (l : list A) (i : Z) : option A := if (i <? 0)%Z then None else nth_error l (Z.to_nat i).
(** torch.diff *)
Fixpoint diff (l : list R) : list R :=
  match l with
  | a :: (b :: _) as l' => (b - a) :: diff l'
  | _ => []
  end.

(** ** Linear1dInterpolator *)
(** Constructor (27-30): the shape assertion of abc.py:19. *)
Definition linear1d_ok (x y : list R) : bool := Nat.eqb (length x) (length y).
(** dydx (36-38), by zipping the equally long differences *)
Definition dydx (x y : list R) : list R := map (fun p => fst p / snd p) (combine (diff y) (diff x)).
(** derivative (40-43) *)
Definition derivative (x y : list R) (q : R) : option R := gather (dydx x y) (project_one q x).
(** __call__ (45-49) *)
Definition linear1d (x y : list R) (q : R) : option R :=
  let idx := project_one q x in
  match gather (dydx x y) idx, gather x idx, gather y idx with
  | Some d, Some x0, Some y0 => Some (y0 + (q - x0) * d)
  | _, _, _ => None
  end.

(** merge_grids (15-24) without batch dimensions.  [set_true] is the boolean-mask assignment of line 19; grid[mask] = values
    (23) needs as many values as set positions. *)
Definition right_positions (left right : list R) : list nat :=
  map (fun p => (searchsorted false left (fst p) + snd p)%nat) (combine right (seq 0 (length right))).
Definition set_true (size : nat) (ps : list nat) : list bool := map (fun i => existsb (Nat.eqb i) ps) (seq 0 size).
(** walk the two masks at once: position i takes the next element of the sequence whose mask is set there *)
Fixpoint fill (mright : list bool) (left right : list R) : option (list R) :=
  match mright with
  | [] => match left, right with [], [] => Some [] | _, _ => None end
  | true :: m => match right with r :: right' => option_map (cons r) (fill m left right') | [] => None end
  | false :: m => match left with l :: left' => option_map (cons l) (fill m left' right) | [] => None end
  end.
Definition merge_grids (left right : list R) : option (list R * (list bool * list bool)) :=
  let mright := set_true (length left + length right) (right_positions left right) in
  match fill mright left right with
  | Some grid => Some (grid, (map negb mright, mright))
  | None => None
  end.

(** ** LinearNDGridInterpolator *)
(** itertools.product of n copies of (0, 1) (19) *)
Fixpoint product01 (n : nat) : list (list nat) :=
  match n with O => [[]] | S n' => map (cons 0%nat) (product01 n') ++ map (cons 1%nat) (product01 n') end.
(** strides (20-23): running products of the reversed shape, reversed *)
Fixpoint running (p : nat) (shape : list nat) : list nat := match shape with [] => [] | s :: shape' => p :: running (p * s) shape' end.
Definition strides (shape : list nat) : list nat := rev (running 1 (rev shape)).
(** index and weight along one dimension (32-36) *)
Definition idx_weight (grid : list R) (x : R) : option (nat * R) :=
  let idx := project_one x grid in
  match gather (diff grid) idx, gather grid idx with
  | Some dgrid, Some g => Some (Z.to_nat idx, 1 - (x - g) / dgrid)
  | _, _ => None
  end.
Fixpoint all_some {A} (l : list (option A)) : option (list A) :=
  match l with
  | [] => Some []
  | x :: l' => match x, all_some l' with Some a, Some r => Some (a :: r) | _, _ => None end
  end.
(** flat index of a corner (39) *)
Fixpoint flat_index (idxs di st : list nat) : nat :=
  match idxs, di, st with i :: idxs', d :: di', s :: st' => ((i + d) * s + flat_index idxs' di' st')%nat | _, _, _ => O end.
(** weight of a corner (40): |prod (di - w)| *)
Fixpoint diff_prod (di : list nat) (ws : list R) : R :=
  match di, ws with d :: di', w :: ws' => (INR d - w) * diff_prod di' ws' | _, _ => 1 end.
Definition sumR (l : list R) : R := fold_right Rplus 0 l.
(** __call__ (25-42); [values] is the table, flattened in row-major order, [shape] its shape. *)
Definition linear_nd (grids : list (list R)) (shape : list nat) (values : list R) (x : list R) : option R :=
  if negb (Nat.eqb (length x) (length grids)) then None    (* the assertion (26) *)
  else
  match all_some (map (fun p => idx_weight (fst p) (snd p)) (combine grids x)) with
  | None => None
  | Some iw =>
      let idxs := map fst iw in let ws := map snd iw in
      let di := product01 (length grids) in
      let weights := map (fun d => Rabs (diff_prod d ws)) di in
      match all_some (map (fun d => nth_error values (flat_index idxs d (strides shape))) di) with
      | None => None
      | Some vs => Some (sumR (map (fun p => fst p * snd p) (combine weights vs)) / sumR weights)
      end
  end.
