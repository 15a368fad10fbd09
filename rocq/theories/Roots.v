(** * Model of /repo/phytorch/roots/__init__.py, /repo/phytorch/utils/symmetry.py and
    /repo/phytorch-extensions/roots/roots.h (definitions only)

    One element of the coefficient tensors at a time: broadcasting and batch dimensions are elementwise.
    Numbers are exact elements of a ring or exact complex numbers: rounding, NaN, infinities and signed zeros are not modelled
    (the [isfinite] guards, roots.h:12-13, 22-23, 128-129, never fire). *)
From Coq Require Import List Bool Arith Reals.
From Coquelicot Require Import Complex.
Import ListNotations.

(** itertools.combinations: the subsequences of length [k], in lexicographic order of positions. *)
Fixpoint combinations {A} (k : nat) (l : list A) : list (list A) :=
  match k with
  | O => [[]]
  | S k' => match l with
            | [] => []
            | x :: l' => map (cons x) (combinations k' l') ++ combinations k l'
            end
  end.

Fixpoint option_list {A} (l : list (option A)) : option (list A) :=
  match l with
  | [] => Some []
  | x :: l' => match x, option_list l' with Some a, Some r => Some (a :: r) | _, _ => None end
  end.

(** ** Python side, over any ring *)
Section Ring.
Variables (A : Type) (zero one : A) (add mul : A -> A -> A) (opp : A -> A).

(** symmetry.py:11, [partial(reduce, mul)]; [None] is the TypeError of [reduce] on an empty sequence. *)
Definition product (l : list A) : option A := match l with [] => None | x :: l' => Some (fold_left mul l' x) end.
(** symmetry.py:18-19: Python's [sum] starts from 0. *)
Definition elementary_symmetric (p : nat) (a : list A) : option A :=
  match option_list (map product (combinations p a)) with Some l => Some (fold_left add l zero) | None => None end.
(** [(-1)**k * x]: an integer power, then a product with an int. *)
Definition minus_one_pow (k : nat) : A := if Nat.even k then one else opp one.
(** roots/__init__.py:21-35. *)
Definition vieta (rts : list A) : option (list A) :=
  option_list (map (fun k => match elementary_symmetric k rts with Some e => Some (mul (minus_one_pow k) e) | None => None end) (seq 1 (length rts))).
(** torch.eye(n, m) (42). *)
Definition eye (n m : nat) : list (list A) := map (fun i => map (fun j => if Nat.eqb i j then one else zero) (seq 0 m)) (seq 0 n).
(** companion_matrix (38-43), as the list of its rows; [None] is the RuntimeError of stacking nothing. *)
Definition companion_matrix (coeffs : list A) : option (list (list A)) :=
  match coeffs with
  | [] => None
  | _ => Some (map opp coeffs :: eye (length coeffs - 1) (length coeffs))
  end.
(** The matrix inverted in Roots.backward (72-75): the rows are [prepend(1, vieta(r))] for the combinations [r] of [n-1] of the
    reversed roots (the ravelled list is cut into rows of length [n], which is what each row has). *)
Definition backward_matrix (rts : list A) : option (list (list A)) :=
  option_list (map (fun r => match vieta r with Some v => Some (one :: v) | None => None end) (combinations (length rts - 1) (rev rts))).
(** The gradients (72-76): [inv] is what [.inverse()] returned; [movedim] puts the row index first, [conj] is the
    conjugation, the sum is over the second index. *)
Variable conj : A -> A.
Definition dot (u v : list A) : A := fold_left add (map (fun p => mul (fst p) (snd p)) (combine u v)) zero.
Definition backward (inv : list (list A)) (grad_outputs : list A) : list A :=
  map (fun row => dot (map (fun x => conj (opp x)) row) grad_outputs) inv.
End Ring.

(** ** The extension, over the complex numbers *)
Section Closed.
(** [sqrt] of a complex number and [pow(., 1/3)]: std::sqrt and std::pow choose a square root and a cube root. *)
Variables (csqrt ccbrt : C -> C).
Open Scope C_scope.
Definition C_eqb (z w : C) : bool := if Ceq_dec z w then true else false.
Definition num (n : R) : C := RtoC n.

(** roots.h:11-18 *)
Definition roots2 (b c : C) : C * C :=
  if C_eqb c (RtoC 0) then (RtoC 0, - b)
  else let q := csqrt (b * b - num 4%R * c) in
       let q := - (if Rle_dec 0%R (Re b) then b + q else b - q) / num 2%R in
       (q, c / q).

(** roots.h:21-32 *)
Definition roots3 (b c d : C) : C * C * C :=
  let Q := (b * b - num 3%R * c) / num 9%R in
  let R := (num 2%R * b * b * b - num 9%R * b * c + num 27%R * d) / num 54%R in
  let A := csqrt (R * R - Q * Q * Q) in
  let A := - ccbrt (if Rle_dec 0%R (Re R) then R + A else R - A) in
  let B := if C_eqb A (RtoC 0) then RtoC 0 else Q / A in
  let AB := A + B in
  let Re_ := - AB / num 2%R - b / num 3%R in
  let Im_ := num (sqrt 3 / 2)%R * (A - B) in
  (AB - b / num 3%R, Re_ + Ci * Im_, Re_ - Ci * Im_).

(** roots.h:35-45 *)
Definition roots4_depressed (p q r : C) : C * C * C * C :=
  if C_eqb q (RtoC 0) then
    let '(r1, r2) := roots2 p r in
    let s1 := csqrt r1 in let s2 := csqrt r2 in (s1, - s1, s2, - s2)
  else
    let '(r1, r2, r3) := roots3 (num 2%R * p) (p * p - num 4%R * r) (- q * q) in
    let s1 := csqrt r2 in let s2 := csqrt r3 in let s3 := - q / (s1 * s2) in
    ((s1 + s2 + s3) / num 2%R, (s1 - s2 - s3) / num 2%R, (s2 - s1 - s3) / num 2%R, (s3 - s1 - s2) / num 2%R).

(** roots.h:48-125 *)
Definition gt (a b : R) : bool := if Rlt_dec b a then true else false.
Definition sort4 {T} (v1 : R) (r1 : T) (v2 : R) (r2 : T) (v3 : R) (r3 : T) (v4 : R) (r4 : T) : T * T * T * T :=
  if gt v1 v2 then
    if gt v2 v3 then
      if gt v4 v2 then if gt v4 v1 then (r4, r1, r2, r3) else (r1, r4, r2, r3)
      else if gt v4 v3 then (r1, r2, r4, r3) else (r1, r2, r3, r4)
    else
      if gt v1 v3 then
        if gt v4 v3 then if gt v4 v1 then (r4, r1, r3, r2) else (r1, r4, r3, r2)
        else if gt v4 v2 then (r1, r3, r4, r2) else (r1, r3, r2, r4)
      else
        if gt v4 v1 then if gt v4 v3 then (r4, r3, r1, r2) else (r3, r4, r1, r2)
        else if gt v4 v2 then (r3, r1, r4, r2) else (r3, r1, r2, r4)
  else
    if gt v1 v3 then
      if gt v4 v1 then if gt v4 v2 then (r4, r2, r1, r3) else (r2, r4, r1, r3)
      else if gt v4 v3 then (r2, r1, r4, r3) else (r2, r1, r3, r4)
    else
      if gt v2 v3 then
        if gt v4 v3 then if gt v4 v2 then (r4, r2, r3, r1) else (r2, r4, r3, r1)
        else if gt v4 v1 then (r2, r3, r4, r1) else (r2, r3, r1, r4)
      else
        if gt v4 v2 then if gt v4 v3 then (r4, r3, r2, r1) else (r3, r4, r2, r1)
        else if gt v4 v1 then (r3, r2, r4, r1) else (r3, r2, r1, r4).

(** roots.h:127-140 *)
Definition roots4 (b c d e : C) : C * C * C * C :=
  let '(r1, r2, r3, r4) := roots4_depressed
    ((num 8%R * c - num 3%R * b * b) / num 8%R)
    ((b * b * b - num 4%R * b * c + num 8%R * d) / num 8%R)
    ((- num 3%R * b * b * b * b + num 256%R * e - num 64%R * b * d + num 16%R * b * b * c) / num 256%R) in
  let r1 := r1 - b / num 4%R in let r2 := r2 - b / num 4%R in let r3 := r3 - b / num 4%R in let r4 := r4 - b / num 4%R in
  sort4 (Cmod r1) r1 (Cmod r2) r2 (Cmod r3) r3 (Cmod r4) r4.

(** Roots.forward (54-67) and roots (79-111); [eigvals] is torch.linalg.eigvals. *)
Inductive roots_error := NoCoefficients | OneCoefficient.   (* ValueError, NotImplementedError *)
Variable eigvals : list (list C) -> list C.
Definition via_companion (coeffs : list C) : list C :=
  match companion_matrix C (RtoC 0) (RtoC 1) Copp coeffs with Some m => eigvals m | None => [] end.
Definition roots (force_numeric : bool) (coeffs : list C) : roots_error + list C :=
  match coeffs with
  | [] => inl NoCoefficients
  | [_] => inl OneCoefficient
  | _ =>
      inr (if force_numeric then via_companion coeffs
           else match coeffs with
                | [b; c] => let '(x, y) := roots2 b c in [x; y]
                | [b; c; d] => let '(x, y, z) := roots3 b c d in [x; y; z]
                | [b; c; d; e] => let '(x, y, z, w) := roots4 b c d e in [x; y; z; w]
                | _ => via_companion coeffs
                end)
  end.
End Closed.
