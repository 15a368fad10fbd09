(** * Model of /repo/phytorch/units/unit.py (definitions only)

    Simplifications: unit names are not carried here (see Prefixes.v for
    names); the scale [Unit.value] (int, Fraction or float in Python) is an
    exact real; astropy interoperability is not modelled. *)
From Coq Require Import ZArith QArith Qcanon String List Bool Reals.
From Verif Require Import Frac.
Import ListNotations.
Open Scope list_scope.

(** [dict[Dimension, Fraction]] (unit.py:38): an insertion-ordered Python dict
    with string keys ([Dimension] is a [str] subclass, unit.py:24-25). *)
Definition dims := list (string * Qc).

Fixpoint dict_get {V : Type} (d : list (string * V)) (k : string) : option V :=
  match d with
  | [] => None
  | (k', v) :: d' => if String.eqb k k' then Some v else dict_get d' k
  end.

(** [d[k] = v]: replaces in place, or appends. *)
Fixpoint dict_set {V : Type} (d : list (string * V)) (k : string) (v : V) : list (string * V) :=
  match d with
  | [] => [(k, v)]
  | (k', v') :: d' => if String.eqb k k' then (k', v) :: d' else (k', v') :: dict_set d' k v
  end.

(** [dict(iterable_of_pairs)]. *)
Definition dict_of_items {V : Type} (items : list (string * V)) : list (string * V) :=
  fold_left (fun d kv => dict_set d (fst kv) (snd kv)) items [].

Definition dict_keys {V : Type} (d : list (string * V)) : list string := map fst d.

(** [UnitBase.__init__] (unit.py:39-45).  [items] are the items of
    [*args] followed by those of [**kwargs], in order. *)
Definition unitbase_init (items : list (string * Qc)) : dims :=
  dict_of_items
    (filter (fun kv => negb (Qc_eq_bool (snd kv) 0))
       (map (fun kv => (fst kv, limit (snd kv))) (dict_of_items items))).

(** [self[key]] with [__missing__] (unit.py:52-56), for a [Dimension] key. *)
Definition getd (d : dims) (k : string) : Qc :=
  match dict_get d k with Some v => v | None => Q2Qc 0 end.

(** Indexing with an arbitrary key: [AssertionError] for a key that is not a
    [Dimension] and is absent (unit.py:52-55). *)
Inductive key := KDimension (s : string) | KStr (s : string).
Definition key_str (k : key) : string := match k with KDimension s | KStr s => s end.
Inductive lookup_result := LValue (q : Qc) | LAssertionError.
Definition getitem (d : dims) (k : key) : lookup_result :=
  match dict_get d (key_str k) with
  | Some v => LValue v
  | None => match k with KDimension _ => LValue (Q2Qc 0) | KStr _ => LAssertionError end
  end.

(** The iteration order of a Python [set] of strings is unspecified: the model
    takes an arbitrary enumeration of the distinct elements as a parameter. *)
Record set_order := {
  so_iter : list string -> list string;
  so_nodup : forall l, NoDup (so_iter l);
  so_elems : forall l k, In k (so_iter l) <-> In k l
}.

(** [UnitBase._operate_other] (unit.py:64-65). *)
Definition operate_other (so : set_order) (op : Qc -> Qc -> Qc) (u v : dims) : dims :=
  unitbase_init (map (fun k => (k, op (getd u k) (getd v k))) (so_iter so (dict_keys u ++ dict_keys v))).

(** [UnitBase._operate_self] (unit.py:67-68). *)
Definition operate_self (op : Qc -> Qc) (u : dims) : dims :=
  unitbase_init (map (fun kv => (fst kv, op (snd kv))) u).

(** [UnitBase.__invert__] (unit.py:70-71), [__pow__] (73-76), [__mul__] (78-81). *)
Definition dinv (u : dims) : dims := operate_self Qcopp u.
Definition dpow (u : dims) (p : Qc) : dims := operate_self (fun v => Qcmult v p) u.
Definition dmul (so : set_order) (u v : dims) : dims := operate_other so Qcplus u v.
(** [UnitBase.__truediv__] (92-93). *)
Definition ddiv (so : set_order) (u v : dims) : dims := dmul so u (dpow v (fint (-1))).

(** Python dict equality (inherited by [UnitBase]). *)
Definition dict_eqb (d1 d2 : dims) : bool :=
  Nat.eqb (List.length d1) (List.length d2) &&
  forallb (fun kv => match dict_get d2 (fst kv) with Some v => Qc_eq_bool (snd kv) v | None => false end) d1.

(** [Unit] (unit.py:124-142). [Unit.dimension] (142) is a copy of the items as a [UnitBase]
    ([upcast], /repo/phytorch/utils/_typing.py:25-29), i.e. [udim]. *)
Record unit_ := mkUnit { udim : dims; uval : R }.

(** [Unit(items, value=v)] (136-142). *)
Definition unit_init (items : list (string * Qc)) (v : R) : unit_ :=
  {| udim := unitbase_init items; uval := v |}.
(** [Unit()] : value defaults to Fraction(1). *)
Definition unit_one : unit_ := unit_init [] 1.

(** [self.value ** power]: an integral power is exact; a fractional power is
    the real power (Python returns a complex number for a negative base: outside the model,
    theorems about fractional powers assume a positive scale). *)
Definition rpow (v : R) (p : Qc) : R :=
  if Z.eqb (fden p) 1 then powerRZ v (fnum p) else Rpower v (IZR (fnum p) / IZR (fden p)).

(** [Unit.__invert__] (163-164), [__pow__] (166-167), [__mul__] (169-173).
    [__pow__] with a float power computes [val*power] in floating point before
    [limit_denominator]; the model multiplies exactly. *)
Definition uinv (u : unit_) : unit_ := {| udim := dinv (udim u); uval := (1 / uval u)%R |}.
Definition upow (u : unit_) (p : Qc) : unit_ := {| udim := dpow (udim u) p; uval := rpow (uval u) p |}.
Definition umul (so : set_order) (u v : unit_) : unit_ :=
  {| udim := dmul so (udim u) (udim v); uval := (uval u * uval v)%R |}.
(** multiplication by a [Real] (172-173); [_make(self.items(), ...)] re-runs [__init__]. *)
Definition umulnum (u : unit_) (r : R) : unit_ :=
  {| udim := unitbase_init (udim u); uval := (uval u * r)%R |}.
(** [__truediv__] (92-93): [self * other**(-1)], for a Unit and for a number. *)
Definition udiv (so : set_order) (u v : unit_) : unit_ := umul so u (upow v (fint (-1))).
Definition udivnum (u : unit_) (r : R) : unit_ := umulnum u (powerRZ r (-1)).
(** [__rtruediv__] (95-96): [(~self) * other] with [other] a number. *)
Definition urdiv (r : R) (u : unit_) : unit_ := umulnum (uinv u) r.

(** [Unit.to] (148-151). Python raises [TypeError] on different dimensions and
    [ZeroDivisionError] when [other.value == 0]. *)
Inductive to_result := ToOk (r : R) | ToTypeError | ToZeroDivisionError.
Definition unit_to (u v : unit_) : to_result :=
  if negb (dict_eqb (udim u) (udim v)) then ToTypeError
  else if Req_EM_T (uval v) 0 then ToZeroDivisionError
  else ToOk (uval u / uval v).

(** [Unit.__eq__] (186-187) against a Unit, or a bare [UnitBase]. *)
Definition unit_eqb (u v : unit_) : bool :=
  (if Req_EM_T (uval u) (uval v) then true else false) && dict_eqb (udim u) (udim v).
Inductive pyobj := PUnit (u : unit_) | PBase (d : dims) | POther.
Definition unit_eq_obj (u : unit_) (o : pyobj) : bool :=
  match o with PUnit v => unit_eqb u v | PBase _ | POther => false end.

(** [sorted(self.items())]: tuples compare by key, then by exponent. *)
Definition item_leb (a b : string * Qc) : bool :=
  match String.compare (fst a) (fst b) with
  | Lt => true
  | Gt => false
  | Eq => match (this (snd a) ?= this (snd b))%Q with Gt => false | _ => true end
  end.
Fixpoint insert_item (a : string * Qc) (l : dims) : dims :=
  match l with
  | [] => [a]
  | b :: l' => if item_leb a b then a :: l else b :: insert_item a l'
  end.
Fixpoint sorted_items (l : dims) : dims :=
  match l with [] => [] | a :: l' => insert_item a (sorted_items l') end.

(** What [UnitBase.__hash__] (101-102) and [Unit.__hash__] (189-190) feed to Python's [hash]. *)
Definition base_hash_key (d : dims) : list (string * Qc) := sorted_items d.
Definition unit_hash_key (u : unit_) : R * list (string * Qc) := (uval u, base_hash_key (udim u)).

(** Every unit a user can build with the modelled operations. *)
Inductive uexpr :=
  | UNew (items : list (string * Qc)) (v : R)
  | UMul (a b : uexpr)
  | UDiv (a b : uexpr)
  | UInv (a : uexpr)
  | UPow (a : uexpr) (p : Qc)
  | UMulNum (a : uexpr) (r : R)
  | UDivNum (a : uexpr) (r : R)
  | URDiv (r : R) (a : uexpr).

Fixpoint ueval (so : set_order) (e : uexpr) : unit_ :=
  match e with
  | UNew items v => unit_init items v
  | UMul a b => umul so (ueval so a) (ueval so b)
  | UDiv a b => udiv so (ueval so a) (ueval so b)
  | UInv a => uinv (ueval so a)
  | UPow a p => upow (ueval so a) p
  | UMulNum a r => umulnum (ueval so a) r
  | UDivNum a r => udivnum (ueval so a) r
  | URDiv r a => urdiv r (ueval so a)
  end.
