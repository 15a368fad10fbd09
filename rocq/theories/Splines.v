(** * Model of /repo/phytorch/interpolate/splines.py (definitions only)

    One batch element: [x0] is the list of the knots, tensors along the other dimensions are broadcast elementwise.  Exact reals.
    torch.linalg.solve and Tensor.inverse are the parameters [solve] and [inverse]; [None] is an exception of torch (a matrix that is
    not square, or singular). *)
From Coq Require Import List Bool Arith ZArith Reals.
From Verif Require Import Interp.
Import ListNotations.
Open Scope R_scope.

(** utils/symmetry.py:11, [reduce(mul, range(p, p - d, -1))]; never called with d = 0 (splines.py:16-17). *)
Fixpoint range_down (p d : nat) : list nat := match d with O => [] | S d' => p :: range_down (p - 1) d' end.
Definition polyderiv_coeff (polydegree derivdegree : nat) : R :=
  match range_down polydegree derivdegree with
  | [] => 0    (* reduce raises *)
  | a :: l => INR (fold_left Nat.mul l a)
  end.
(** torch.roll along dimension 0 by [s] (possibly negative) *)
Definition roll (s : Z) (l : list R) : list R :=
  let k := Z.to_nat ((- s) mod Z.of_nat (length l))%Z in skipn k l ++ firstn k l.
Definition zeros (n : nat) : list R := repeat 0 n.

Section Spline.
Variables (x0 : list R) (degree : nat).
(** __post_init__ (47-51) *)
Definition npoints : nat := length x0.
Definition npolys : nat := npoints - 1.
Definition nvarsp : nat := degree + 1.
Definition nvars : nat := nvarsp * npolys.
(** range(degree, -1, -1) *)
Definition degrees : list nat := rev (seq 0 (degree + 1)).
(** Python indexing x0p[.][i], with -1 the last *)
Definition knot (i : Z) : R := nth (Z.to_nat (if (i <? 0)%Z then (Z.of_nat npoints + i)%Z else i)) x0 0.

(** X0 (59-97): the values at both ends of every piece, *)
Definition value_rows : list (list R) :=
  flat_map (fun i => map (fun i' => roll (Z.of_nat (i * nvarsp)) (map (fun d => knot (Z.of_nat i') ^ d) degrees ++ zeros (nvars - nvarsp))) [i; S i]) (seq 0 npolys).
(** the derivatives at the interior knots, *)
Definition deriv_entries (m : R) (dd : nat) (i : Z) : list R :=
  map (fun d => if Nat.leb dd d then m * polyderiv_coeff d dd * knot i ^ (d - dd) else 0) degrees.
Definition smooth_rows : list (list R) :=
  flat_map (fun dd => map (fun i => roll (Z.of_nat ((i - 1) * nvarsp))
    ((deriv_entries 1 dd (Z.of_nat i) ++ deriv_entries (-1) dd (Z.of_nat i)) ++ zeros (nvars - 2 * nvarsp))) (seq 1 (npolys - 1))) (seq 1 (degree - 1)).
(** and the end conditions, for derivatives degree-1, ..., 2. *)
Definition end_rows : list (list R) :=
  flat_map (fun dd => map (fun i : Z => roll (i * Z.of_nat nvarsp) (deriv_entries 1 dd i ++ zeros (nvars - nvarsp))) [0%Z; (-1)%Z]) (rev (seq 2 (degree - 2))).
Definition X0 : list (list R) := value_rows ++ smooth_rows ++ end_rows.

(** Y0 (140-159): repeat_interleave(2)[1:-1], padded with zeros *)
Definition interleave2 (l : list R) : list R := flat_map (fun y => [y; y]) l.
Definition Y0 (y0 : list R) : list R := removelast (tl (interleave2 y0)) ++ zeros (nvars - 2 * npolys).

Variable solve : list (list R) -> list R -> option (list R).
(** unflatten(-1, (npolys, nvarsp)) *)
Fixpoint chunks (n size : nat) (l : list R) : list (list R) := match n with O => [] | S n' => firstn size l :: chunks n' size (skipn size l) end.
(** coeffs (161-175) *)
Definition coeffs (y0 : list R) : option (list (list R)) := option_map (chunks npolys nvarsp) (solve X0 (Y0 y0)).
(** pick_poly (120-138) *)
Definition pick_poly (x : R) : Z := clamp (Z.of_nat (searchsorted false x0 x) - 1) 0 (Z.of_nat npoints - 2).
(** phytorchx.polyval: highest power first *)
Definition polyval (p : list R) (x : R) : R := fold_left (fun acc c => acc * x + c) p 0.
(** pick_coeffs and evaluate (177-203, 227-244) *)
Definition evaluate (x : R) (y0 : list R) : option R :=
  match coeffs y0 with
  | Some ps => option_map (fun p => polyval p x) (gather ps (pick_poly x))
  | None => None
  end.

Variable inverse : list (list R) -> option (list (list R)).
(** A (99-118): pairs of columns of the inverse, added *)
Fixpoint add_pairs (l : list R) : list R := match l with a :: b :: l' => (a + b) :: add_pairs l' | _ => [] end.
Definition A_row (inv_row : list R) : list R :=
  let r := firstn (2 * npolys) inv_row in hd 0 r :: add_pairs (removelast (tl r)) ++ [last r 0].
Definition A : option (list (list R)) := option_map (map A_row) (inverse X0).
(** weights (205-225), one entry per knot *)
Definition weights (x : R) : option (list R) :=
  match A with
  | Some rows =>
      match (pick_poly x) with
      | Zneg _ => None
      | p => let block := firstn nvarsp (skipn (Z.to_nat p * nvarsp) rows) in
             Some (map (fun j => polyval (map (fun r => nth j r 0) block) x) (seq 0 npoints))
      end
  | None => None
  end.
End Spline.

(** SplineNd.evaluate (275-300): the einsum over all grid indices; [w] are the weights of each dimension, [y0] the table. *)
Fixpoint tensor_sum (w : list (list R)) (y0 : list nat -> R) : R :=
  match w with
  | [] => y0 []
  | wk :: w' => fold_right Rplus 0 (map (fun i => nth i wk 0 * tensor_sum w' (fun js => y0 (i :: js))) (seq 0 (length wk)))
  end.
Definition spline_nd (degree : nat) (inverse : list (list R) -> option (list (list R))) (x0s : list (list R)) (y0 : list nat -> R) (xs : list R) : option R :=
  match all_some (map (fun p => weights (fst p) degree inverse (snd p)) (combine x0s xs)) with
  | Some ws => Some (tensor_sum ws y0)
  | None => None
  end.
