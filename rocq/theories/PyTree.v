(** * Model of /repo/phytorch/utils/pytree.py (definitions only)

    Python objects are trees: [OLeaf] is any object whose type is not a supported node type
    (numbers, tensors, units, subclasses of list and dict, ...).  Cyclic structures are excluded. *)
From Coq Require Import List Bool Arith.
Import ListNotations.

Inductive result (X : Type) : Type := Ok (x : X) | ValueError | TypeError.
Arguments Ok {X} x. Arguments ValueError {X}. Arguments TypeError {X}.

Definition rbind {X Y} (r : result X) (f : X -> result Y) : result Y :=
  match r with Ok x => f x | ValueError => ValueError | TypeError => TypeError end.

(** Evaluating a list of results in order: the first exception propagates. *)
Fixpoint sequence {X} (l : list (result X)) : result (list X) :=
  match l with
  | [] => Ok []
  | r :: l' => rbind r (fun x => rbind (sequence l') (fun xs => Ok (x :: xs)))
  end.

Section PyTree.
Variable A : Type.                          (* leaf objects *)
Variable K : Type.                          (* dict keys *)
Variable K_eqb : K -> K -> bool.            (* Python == on keys *)
Variable cls_sub : nat -> nat -> bool.      (* issubclass between tuple subclasses *)
Variable cls_from_iterable : nat -> bool.   (* does [cls(values)] build the instance with those elements? *)

(** Objects: [OSub c l] is an instance of the (non-namedtuple) tuple subclass [c], e.g. torch.return_types.max;
    [ONamed c l] is an instance of a class made by [collections.namedtuple]. *)
Inductive obj : Type :=
  | OLeaf (a : A)
  | OList (l : list obj)
  | OTuple (l : list obj)
  | OSub (c : nat) (l : list obj)
  | ODict (items : list (K * obj))
  | ONamed (c : nat) (l : list obj).

(** Node types that can occur in a [TreeSpec] made by [tree_flatten]. *)
Inductive ntype := TList | TTuple | TDict | TSub (c : nat).

(** [TreeSpec] and [LeafSpec] (114-140); the context is None or the list of dict keys. *)
Inductive spec : Type :=
  | SLeaf
  | SNode (t : ntype) (context : option (list K)) (children : list spec).

(** [TreeSpec.num_leaves] (119, 137). *)
Fixpoint num_leaves (s : spec) : nat :=
  match s with
  | SLeaf => 1
  | SNode _ _ cs => list_sum (map num_leaves cs)
  end.

(** [_is_leaf] with [_get_node_type] and [CustomDict.__contains__] (38-42, 89-106).  For a named tuple
    [_get_node_type] returns the function [collections.namedtuple], on which [issubclass] raises TypeError. *)
Definition is_leaf (o : obj) : result bool :=
  match o with
  | OLeaf _ => Ok true
  | OList _ | OTuple _ | OSub _ _ | ODict _ => Ok false
  | ONamed _ _ => TypeError
  end.

(** [SUPPORTED_NODES[node_type].flatten_fn(pytree)] (58-74, 151): node type, children, context. *)
Definition node_of (o : obj) : option (ntype * list obj * option (list K)) :=
  match o with
  | OList l => Some (TList, l, None)
  | OTuple l => Some (TTuple, l, None)
  | OSub c l => Some (TSub c, l, None)
  | ODict items => Some (TDict, map snd items, Some (map fst items))
  | OLeaf _ | ONamed _ _ => None
  end.

(** What the loop of [tree_flatten] (154-161) collects from the flattened children. *)
Definition flatten_node (t : ntype) (ctx : option (list K)) (rs : list (list obj * spec)) : list obj * spec :=
  (concat (map fst rs), SNode t ctx (map snd rs)).

(** [tree_flatten] (142-161). *)
Fixpoint tree_flatten (o : obj) : result (list obj * spec) :=
  match o with
  | OLeaf a => Ok ([OLeaf a], SLeaf)
  | OList l => rbind (sequence (map tree_flatten l)) (fun rs => Ok (flatten_node TList None rs))
  | OTuple l => rbind (sequence (map tree_flatten l)) (fun rs => Ok (flatten_node TTuple None rs))
  | OSub c l => rbind (sequence (map tree_flatten l)) (fun rs => Ok (flatten_node (TSub c) None rs))
  | ODict items =>
      rbind (sequence (map (fun kv => tree_flatten (snd kv)) items))
        (fun rs => Ok (flatten_node TDict (Some (map fst items)) rs))
  | ONamed _ _ => TypeError
  end.

(** Dict display: a repeated key keeps its position and takes the later value. *)
Fixpoint kset (d : list (K * obj)) (k : K) (v : obj) : list (K * obj) :=
  match d with
  | [] => [(k, v)]
  | (k', v') :: d' => if K_eqb k k' then (k', v) :: d' else (k', v') :: kset d' k v
  end.
Definition dict_comp (items : list (K * obj)) : list (K * obj) :=
  fold_left (fun d kv => kset d (fst kv) (snd kv)) items [].

(** [unflatten_fn(child_pytrees, context)] (44-50, 61-74); [zip(None, ...)] raises TypeError. *)
Definition unflatten_node (t : ntype) (ctx : option (list K)) (children : list obj) : result obj :=
  match t with
  | TList => Ok (OList children)
  | TTuple => Ok (OTuple children)
  | TSub c => if cls_from_iterable c then Ok (OSub c children) else TypeError
  | TDict => match ctx with
             | Some keys => Ok (ODict (dict_comp (combine keys children)))
             | None => TypeError end
  end.

(** [values[start:end]]. *)
Definition slice {X} (l : list X) (start stop : nat) : list X := firstn (stop - start) (skipn start l).

(** [tree_unflatten] (164-191), for a [spec] that is a [TreeSpec]. *)
Fixpoint tree_unflatten (values : list obj) (s : spec) {struct s} : result obj :=
  if negb (Nat.eqb (length values) (num_leaves s)) then ValueError
  else match s with
       | SLeaf => match values with v :: _ => Ok v | [] => ValueError end
       | SNode t ctx cs =>
           rbind (sequence ((fix go (cs : list spec) (start : nat) : list (result obj) :=
                               match cs with
                               | [] => []
                               | c :: cs' => let stop := start + num_leaves c in
                                             tree_unflatten (slice values start stop) c :: go cs' stop
                               end) cs 0))
             (unflatten_node t ctx)
       end.

(** [tree_map] (193-195). *)
Definition tree_map (fn : obj -> obj) (o : obj) : result obj :=
  rbind (tree_flatten o) (fun p => tree_unflatten (map fn (fst p)) (snd p)).

Definition ntype_eqb (a b : ntype) : bool :=
  match a, b with
  | TList, TList | TTuple, TTuple | TDict, TDict => true
  | TSub c, TSub d => Nat.eqb c d
  | _, _ => false
  end.
(** [issubclass(a, b)] (213). *)
Definition issubclass (a b : ntype) : bool :=
  match a, b with
  | TSub _, TTuple => true
  | TSub c, TSub d => cls_sub c d
  | a, b => ntype_eqb a b
  end.

Definition ctx_eqb (a b : option (list K)) : bool :=
  match a, b with
  | None, None => true
  | Some l, Some m => Nat.eqb (length l) (length m) && forallb (fun p => K_eqb (fst p) (snd p)) (combine l m)
  | _, _ => false
  end.

(** [_broadcast_to_and_flatten] (205-232).  [Ok None] is a returned None.  The recursion is on the spec; a child
    that fails stops the loop, so later children are not looked at. *)
Fixpoint broadcast (o : obj) (s : spec) {struct s} : result (option (list obj)) :=
  rbind (is_leaf o) (fun leaf =>
    if leaf then Ok (Some (repeat o (num_leaves s)))
    else match s, node_of o with
         | SNode st sctx cs, Some (t, children, ctx) =>
             if negb (ntype_eqb t st) && negb (issubclass st t) then Ok None
             else if negb (Nat.eqb (length children) (length cs)) || negb (ctx_eqb ctx sctx) then Ok None
             else (fix go (children : list obj) (cs : list spec) {struct cs} : result (option (list obj)) :=
                     match children, cs with
                     | child :: children', c :: cs' =>
                         rbind (broadcast child c) (fun flat =>
                           match flat with
                           | Some fl => rbind (go children' cs') (fun r =>
                               match r with Some rest => Ok (Some (fl ++ rest)) | None => Ok None end)
                           | None => Ok None
                           end)
                     | _, _ => Ok (Some [])
                     end) children cs
         | _, _ => Ok None
         end).

End PyTree.
Arguments OLeaf {A K} a. Arguments OList {A K} l. Arguments OTuple {A K} l. Arguments OSub {A K} c l.
Arguments ODict {A K} items. Arguments ONamed {A K} c l.
Arguments SLeaf {K}. Arguments SNode {K} t context children.
Arguments num_leaves {K} s. Arguments tree_flatten {A K} o.
Arguments node_of {A K} o. Arguments is_leaf {A K} o.
