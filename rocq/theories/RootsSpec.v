(** * Specification vocabulary for polynomial roots (C29-C36) *)
From Coq Require Import List Arith Reals.
From Coquelicot Require Import Complex.
Import ListNotations.

(** a list without its [i]-th element *)
Definition omit {X} (i : nat) (l : list X) : list X := firstn i l ++ skipn (S i) l.

Section Ring.
Variables (A : Type) (zero one : A) (add mul : A -> A -> A) (opp : A -> A).
Notation "0" := zero. Notation "1" := one. Infix "+" := add. Infix "*" := mul. Notation "- x" := (opp x).
Fixpoint pow (x : A) (n : nat) : A := match n with O => 1 | S n' => x * pow x n' end.
Fixpoint total (l : list A) : A := match l with [] => 0 | x :: l' => x + total l' end.
Fixpoint prod (l : list A) : A := match l with [] => 1 | x :: l' => x * prod l' end.
(** c0 x^(n-1) + ... + c(n-1) *)
Fixpoint lower (cs : list A) (x : A) : A := match cs with [] => 0 | c :: cs' => c * pow x (length cs') + lower cs' x end.
(** x^n + c0 x^(n-1) + ... + c(n-1): the polynomial with the coefficients [cs], leading coefficient one *)
Definition monic (cs : list A) (x : A) : A := pow x (length cs) + lower cs x.
(** the product of the (x - r) *)
Definition from_roots (rs : list A) (x : A) : A := prod (map (fun r => x + - r) rs).

(** matrices as functions; determinant by expansion along the first row *)
Fixpoint sum_to (n : nat) (f : nat -> A) : A := match n with O => 0 | S n' => sum_to n' f + f n' end.
Definition minor (j : nat) (a : nat -> nat -> A) (r c : nat) : A := a (S r) (if Nat.ltb c j then c else S c).
Fixpoint sign (j : nat) : A := match j with O => 1 | S j' => - sign j' end.
Fixpoint det (n : nat) (a : nat -> nat -> A) : A :=
  match n with O => 1 | S n' => sum_to n (fun j => sign j * a O j * det n' (minor j a)) end.
Definition entry (m : list (list A)) (i j : nat) : A := nth j (nth i m []) 0.
(** x I - m *)
Definition char_matrix (m : list (list A)) (x : A) (i j : nat) : A := (if Nat.eqb i j then x else 0) + - entry m i j.
End Ring.
Definition Cmonic := monic C (RtoC 0) (RtoC 1) Cplus Cmult.
Definition Cfrom_roots := from_roots C (RtoC 1) Cplus Cmult Copp.
Definition Cdet := det C (RtoC 0) (RtoC 1) Cplus Cmult Copp.
Definition Cchar_matrix := char_matrix C (RtoC 0) Cplus Copp.
