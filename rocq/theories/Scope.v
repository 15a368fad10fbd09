(** * Model of /repo/phytorch/utils/scoping.py (definitions only)

    Values are of an arbitrary type [V].  Python dicts are ordered association
    lists (Units.v: [dict_get], [dict_set]). Warnings are recorded in a list.
    [inspect.stack] (finding the caller's namespace) is not modelled: the
    context is an explicit dict. *)
From Coq Require Import String List Bool.
From Verif Require Import Units.
Import ListNotations.
Open Scope list_scope.

Section Scope.
Context {V : Type}.

Definition pydict := list (string * V).

(** [dict.pop(key, None)]. *)
Fixpoint dict_pop (d : pydict) (k : string) : pydict :=
  match d with
  | [] => []
  | (k', v) :: d' => if String.eqb k k' then d' else (k', v) :: dict_pop d' k
  end.

(** [dict.update(other)]. *)
Definition dict_update (d other : pydict) : pydict :=
  fold_left (fun d kv => dict_set d (fst kv) (snd kv)) other d.

Definition dict_has (d : pydict) (k : string) : bool :=
  match dict_get d k with Some _ => true | None => false end.

(** [AbstractScope] (scoping.py:16-19), [GlobalScope.active] (23),
    [InitKeysScope.init_keys] (50-53) and the warnings emitted so far. *)
Record scope := mkScope {
  sc_data : pydict;
  sc_context : pydict;
  sc_init_keys : list string;
  sc_active : bool;
  sc_warnings : list string
}.

(** [AutoCleanupGlobalScope(context)] (50-53, 56): no keyword arguments, so [data] is empty. *)
Definition scope_new (context : pydict) : scope :=
  mkScope [] context (map fst context) true [].

(** What [register] returns. *)
Inductive reg_ret := RetSelf | RetNone.

(** [GlobalScope.register] (25-31). *)
Definition register (s : scope) (name : string) (val : V) (ignore_if_exists : bool) : scope * reg_ret :=
  if dict_has (sc_data s) name then
    if ignore_if_exists then (s, RetNone)
    else (mkScope (dict_set (sc_data s) name val) (sc_context s) (sc_init_keys s) (sc_active s)
            (sc_warnings s ++ [name]), RetSelf)
  else (mkScope (dict_set (sc_data s) name val) (sc_context s) (sc_init_keys s) (sc_active s)
          (sc_warnings s), RetSelf).

(** [GlobalScope.register_many] (33-35). *)
Definition register_many (s : scope) (ignore_if_exists : bool) (kwargs : pydict) : scope :=
  fold_left (fun s kv => fst (register s (fst kv) (snd kv) ignore_if_exists)) kwargs s.

(** [AutoCleanupGlobalScope.keyfilter] (57-59). *)
Definition keyfilter (k : string) : bool := negb (String.prefix "__" k).

(** [AutoCleanupGlobalScope._del] (61-63). *)
Definition auto_del (s : scope) : scope :=
  mkScope (sc_data s) (fold_left dict_pop (filter keyfilter (sc_init_keys s)) (sc_context s))
    (sc_init_keys s) (sc_active s) (sc_warnings s).

(** [GlobalScope.__del__] (44-47); called by [__exit__] and by the garbage collector. *)
Definition scope_del (s : scope) : scope :=
  if sc_active s then
    let s' := auto_del s in
    mkScope (sc_data s') (dict_update (sc_context s') (sc_data s')) (sc_init_keys s') (sc_active s') (sc_warnings s')
  else s.

(** [GlobalScope.__exit__] (37-39). *)
Definition scope_exit (s : scope) : scope :=
  let s' := scope_del s in
  mkScope (sc_data s') (sc_context s') (sc_init_keys s') false (sc_warnings s').

(** Things that can happen to a scope.  [OpBind]/[OpUnbind] are assignments and
    [del] statements executed in the host namespace while the scope is alive
    (as the body of the [with] block in /repo/phytorch/units/angular.py:8-19). *)
Inductive scope_op :=
  | OpRegister (name : string) (val : V) (ignore : bool)
  | OpRegisterMany (ignore : bool) (kwargs : pydict)
  | OpBind (name : string) (val : V)
  | OpUnbind (name : string)
  | OpExit
  | OpDel.

Definition scope_step (s : scope) (o : scope_op) : scope :=
  match o with
  | OpRegister n v ig => fst (register s n v ig)
  | OpRegisterMany ig kw => register_many s ig kw
  | OpBind n v => mkScope (sc_data s) (dict_set (sc_context s) n v) (sc_init_keys s) (sc_active s) (sc_warnings s)
  | OpUnbind n => mkScope (sc_data s) (dict_pop (sc_context s) n) (sc_init_keys s) (sc_active s) (sc_warnings s)
  | OpExit => scope_exit s
  | OpDel => scope_del s
  end.

Definition scope_run (context : pydict) (ops : list scope_op) : scope :=
  fold_left scope_step ops (scope_new context).

(** [AllScope.__all__] (66-69): keys added to the context since construction. *)
Definition all_names (init_keys : list string) (context : pydict) : list string :=
  filter (fun k => negb (existsb (String.eqb k) init_keys)) (map fst context).

End Scope.
Arguments pydict : clear implicits.
Arguments scope : clear implicits.
Arguments scope_op : clear implicits.
