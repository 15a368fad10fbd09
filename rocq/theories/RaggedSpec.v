(** * Specification vocabulary for ragged shapes (C25-C28): trees and paths in them *)
From Coq Require Import List Arith.
From Verif Require Import Ragged.
Import ListNotations.

(** Nested lists of lists ... of ints, the ints all at depth [d]: [uniform 1 (Lst [Num 2; Num 3])]. *)
Fixpoint uniform (d : nat) (t : nested) : Prop :=
  match d, t with
  | O, Num _ => True
  | S d', Lst l => Forall (uniform d') l
  | _, _ => False
  end.
(** A number [n] stands for [n] leaves. *)
Fixpoint leaves (t : nested) : nat := match t with Num n => n | Lst l => list_sum (map leaves l) end.
(** The positions [m] steps below the root, in order: lists of child numbers. *)
Definition numbered {X} (l : list X) : list (nat * X) := combine (seq 0 (length l)) l.
Fixpoint paths (m : nat) (t : nested) : list (list nat) :=
  match m with
  | O => [[]]
  | S m' =>
      match t with
      | Num n => match m' with O => map (fun i => [i]) (seq 0 n) | S _ => [] end
      | Lst l => flat_map (fun ix => map (cons (fst ix)) (paths m' (snd ix))) (numbered l)
      end
  end.
(** The node at a position (a number stands for itself; a leaf is [Num 1]). *)
Fixpoint at_path (t : nested) (p : list nat) : nested :=
  match p with
  | [] => t
  | i :: p' => match t with Num _ => Num 1 | Lst l => at_path (nth i l (Num 0)) p' end
  end.
(** number of children of a node *)
Definition degree (t : nested) : nat := match t with Num n => n | Lst l => length l end.
(** The level lengths of the first [d] levels: for each node of level 1, ..., d its number of children. *)
Definition levels (d : nat) (t : nested) : list (list nat) := map (fun i => map (fun p => degree (at_path t p)) (paths i t)) (seq 1 d).
(** The elements of a ragged tensor of [d] levels: one per position below the last level; without levels, a single one. *)
Definition element_depth (d : nat) : nat := match d with O => 0 | S _ => S d end.
Definition elements (d : nat) (t : nested) : list (list nat) := paths (element_depth d) t.
(** Well-formed level lengths: each level has as many entries as the previous one announces. *)
Fixpoint well_formed (ls : list (list nat)) : Prop :=
  match ls with
  | l :: ((l' :: _) as ls') => list_sum l = length l' /\ well_formed ls'
  | _ => True
  end.
(** the levels before the first one without entries *)
Fixpoint until_empty (ls : list (list nat)) : list (list nat) :=
  match ls with
  | (_ :: _) as l :: ls' => l :: until_empty ls'
  | _ => []
  end.
(** A ragged tensor with [d] levels on the tree [t]; each row gives a value to each element. *)
Definition tensor_on {A} (d : nat) (t : nested) (vs : list (list nat -> A)) : rtensor A :=
  mkRT (length (elements d t)) (map (fun v => map v (elements d t)) vs) (make_shape (levels d t)).
(** A tensor as __post_init__ accepts it: every row is as long as the shape says. *)
Definition consistent {A} (x : rtensor A) : Prop := last x = size (rshape x) /\ Forall (fun r => length r = last x) (rows x).
