(** * Specification vocabulary for nested structures *)
From Coq Require Import List Bool Arith.
From Verif Require Import PyTree.
Import ListNotations.

Section Spec.
Context {A K : Type}.
Notation obj := (obj A K).
Notation spec := (spec K).

(** The leaves in reading order. *)
Fixpoint leaves (o : obj) : list A :=
  match o with
  | OLeaf a => [a]
  | OList l | OTuple l | OSub _ l | ONamed _ l => flat_map leaves l
  | ODict items => flat_map (fun kv => leaves (snd kv)) items
  end.

(** Replace every leaf by a function of it, keeping all containers. *)
Fixpoint replace_leaves (f : obj -> obj) (o : obj) : obj :=
  match o with
  | OLeaf a => f (OLeaf a)
  | OList l => OList (map (replace_leaves f) l)
  | OTuple l => OTuple (map (replace_leaves f) l)
  | OSub c l => OSub c (map (replace_leaves f) l)
  | ONamed c l => ONamed c (map (replace_leaves f) l)
  | ODict items => ODict (map (fun kv => (fst kv, replace_leaves f (snd kv))) items)
  end.

Definition is_leaf_obj (o : obj) : Prop := exists a, o = OLeaf a.

(** A structure of lists, tuples, constructible tuple subclasses and dicts with distinct keys; no named tuples. *)
Inductive supported (ctor : nat -> bool) : obj -> Prop :=
  | sup_leaf a : supported ctor (OLeaf a)
  | sup_list l : Forall (supported ctor) l -> supported ctor (OList l)
  | sup_tuple l : Forall (supported ctor) l -> supported ctor (OTuple l)
  | sup_sub c l : ctor c = true -> Forall (supported ctor) l -> supported ctor (OSub c l)
  | sup_dict items : NoDup (map fst items) -> Forall (fun kv => supported ctor (snd kv)) items -> supported ctor (ODict items).

(** The specs of supported structures: one child spec per dict key, keys distinct, no keys otherwise. *)
Inductive wf_spec (ctor : nat -> bool) : spec -> Prop :=
  | wf_leaf : wf_spec ctor SLeaf
  | wf_list cs : Forall (wf_spec ctor) cs -> wf_spec ctor (SNode TList None cs)
  | wf_tuple cs : Forall (wf_spec ctor) cs -> wf_spec ctor (SNode TTuple None cs)
  | wf_sub c cs : ctor c = true -> Forall (wf_spec ctor) cs -> wf_spec ctor (SNode (TSub c) None cs)
  | wf_dict keys cs : NoDup keys -> length keys = length cs -> Forall (wf_spec ctor) cs -> wf_spec ctor (SNode TDict (Some keys) cs).

(** Paths (child indices) to the leaves of a spec, in reading order. *)
Fixpoint paths_from (ps : list (list (list nat))) (i : nat) : list (list nat) :=
  match ps with
  | [] => []
  | p :: ps' => map (cons i) p ++ paths_from ps' (S i)
  end.
Fixpoint leaf_paths (s : spec) : list (list nat) :=
  match s with
  | SLeaf => [[]]
  | SNode _ _ cs => paths_from (map leaf_paths cs) 0
  end.

(** The leaf of [o] met when following a path from the root. *)
Fixpoint leaf_above (o : obj) (path : list nat) : option obj :=
  match o, path with
  | OLeaf a, _ => Some (OLeaf a)
  | OList l, i :: p | OTuple l, i :: p | OSub _ l, i :: p | ONamed _ l, i :: p =>
      match nth_error l i with Some c => leaf_above c p | None => None end
  | ODict items, i :: p => match nth_error items i with Some kv => leaf_above (snd kv) p | None => None end
  | _, [] => None
  end.

(** [o] is a structural prefix of [s]: leaves match anything; containers match containers of the same type (a tuple
    also matches any tuple subclass) with the same keys, child by child. *)
Inductive prefix_of (sub : nat -> nat -> bool) : obj -> spec -> Prop :=
  | px_leaf a s : prefix_of sub (OLeaf a) s
  | px_list l cs : Forall2 (prefix_of sub) l cs -> prefix_of sub (OList l) (SNode TList None cs)
  | px_tuple l cs : Forall2 (prefix_of sub) l cs -> prefix_of sub (OTuple l) (SNode TTuple None cs)
  | px_tuple_sub l c cs : Forall2 (prefix_of sub) l cs -> prefix_of sub (OTuple l) (SNode (TSub c) None cs)
  | px_sub c d l cs : c = d \/ sub d c = true -> Forall2 (prefix_of sub) l cs -> prefix_of sub (OSub c l) (SNode (TSub d) None cs)
  | px_dict items cs : Forall2 (fun kv => prefix_of sub (snd kv)) items cs ->
      prefix_of sub (ODict items) (SNode TDict (Some (map fst items)) cs).

(** No named tuple anywhere. *)
Inductive no_named : obj -> Prop :=
  | nn_leaf a : no_named (OLeaf a)
  | nn_list l : Forall no_named l -> no_named (OList l)
  | nn_tuple l : Forall no_named l -> no_named (OTuple l)
  | nn_sub c l : Forall no_named l -> no_named (OSub c l)
  | nn_dict items : Forall (fun kv => no_named (snd kv)) items -> no_named (ODict items).
End Spec.
