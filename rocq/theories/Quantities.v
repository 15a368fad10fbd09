(** * Model of /repo/phytorch/quantities (definitions only)

    quantity.py (GenericQuantity.to), dimspec.py (the dimension rules and their table) and tensor_quantity.py
    (TensorQuantity.__torch_function__).

    Simplifications.  A tensor is its shape, its elements as exact reals, and a flag saying whether its dtype is
    floating (or complex); rounding, devices and autograd are not modelled.  The numerical function that torch
    provides (the backend) is a parameter [f]: it receives the arguments with their units stripped, as
    [super().__torch_function__] does (tensor_quantity.py:74-77), and the theorems say for which [f] the result is
    physically right.  Arguments are given in signature order with defaults filled in (tensor_quantity.py:61-69;
    the lookup of signatures in signatures.py is not modelled). *)
From Coq Require Import ZArith QArith Qcanon String List Bool Reals Cantor ClassicalDedekindReals.
From Verif Require Import Frac Units PyTree.
Import ListNotations.
Open Scope list_scope.
Open Scope string_scope.

Inductive exn := EUnitError | ETypeError | EValueError | ERuntimeError | EAttributeError | ENameError | EKeyError | EIndexError.
Inductive outcome (X : Type) : Type := Val (x : X) | Raise (e : exn).
Arguments Val {X} x. Arguments Raise {X} e.
Definition bind {X Y} (r : outcome X) (f : X -> outcome Y) : outcome Y :=
  match r with Val x => f x | Raise e => Raise e end.
Definition of_result {X} (r : result X) : outcome X :=
  match r with Ok x => Val x | ValueError => Raise EValueError | TypeError => Raise ETypeError end.
Definition mapM {X Y} (f : X -> outcome Y) : list X -> outcome (list Y) :=
  fix go (l : list X) := match l with
  | [] => Val []
  | x :: l' => bind (f x) (fun y => bind (go l') (fun ys => Val (y :: ys)))
  end.

Record tensor := mkT { tshape : list nat; tdata : list R; tfloat : bool }.
Definition tscale (c : R) (t : tensor) : tensor :=
  {| tshape := tshape t; tdata := map (Rmult c) (tdata t); tfloat := tfloat t |}.

(** ** GenericQuantity.to, with object identities (quantity.py:44-62, tensor_quantity.py:25-29)

    A state holds the storages (tensors) and the Python objects: each object refers to a storage and is either a plain
    [Tensor] or a quantity with its [unit] attribute (possibly None). *)
Inductive ocls := Plain | Quant (u : option unit_).
Record state := mkState { stores : list tensor; objs : list (nat * ocls) }.
Definition alloc (s : state) (t : tensor) (c : ocls) : state * nat :=
  ({| stores := stores s ++ [t]; objs := objs s ++ [(List.length (stores s), c)] |}, List.length (objs s)).
Definition alias (s : state) (a : nat) (c : ocls) : state * nat :=
  ({| stores := stores s; objs := objs s ++ [(a, c)] |}, List.length (objs s)).
Fixpoint set_nth {X} (l : list X) (i : nat) (x : X) : list X :=
  match l, i with
  | [], _ => []
  | _ :: l', O => x :: l'
  | y :: l', S i' => y :: set_nth l' i' x
  end.

(** The further arguments of [to] (dtype, device, ...): none or without effect ([Tensor.to] then returns [self]), or a
    conversion, for which [Tensor.to] under DisableTorchFunction returns a new plain [Tensor]. *)
Inductive to_extra := NoChange | Change (conv : tensor -> tensor).

(** [self.unit == unit] where either may be None. *)
Definition ounit_eqb (a b : option unit_) : bool :=
  match a, b with
  | Some u, Some v => unit_eqb u v
  | None, None => true
  | _, _ => false
  end.

(** [ret *= float(self.unit.to(unit))] (line 59) on a tensor: an integer tensor cannot hold the result. *)
Definition factor (u v : unit_) : outcome R :=
  match unit_to u v with
  | ToOk r => Val r
  | ToTypeError => Raise ETypeError
  | ToZeroDivisionError => Raise EValueError
  end.
Definition imul (t : tensor) (r : R) : outcome tensor :=
  if tfloat t then Val (tscale r t) else Raise ERuntimeError.

Definition q_to (s : state) (self : nat) (unit : option unit_) (extra : to_extra) : outcome (state * nat) :=
  match nth_error (objs s) self with
  | Some (a, Quant su) =>
      match nth_error (stores s) a with
      | None => Raise EAttributeError
      | Some t =>
          (* 45-49 *)
          let '(s1, ret) := match extra with NoChange => (s, self) | Change conv => alloc s (conv t) Plain end in
          (* 51-52 *)
          if ounit_eqb su unit then Val (s1, ret)
          else match unit with
               | Some u =>
                   match extra, su with
                   | Change _, _ => Raise EAttributeError           (* 55: [ret.unit] on a plain Tensor *)
                   | NoChange, None => Val (alias s1 a (Quant unit)) (* 62 *)
                   | NoChange, Some v =>
                       let '(s2, ret2) := alloc s1 t (Quant su) in   (* 56: clone *)
                       bind (factor v u) (fun r =>
                       bind (imul t r) (fun t' =>                    (* 57-59 *)
                         let s3 := {| stores := set_nth (stores s2) (List.length (stores s1)) t'; objs := objs s2 |} in
                         Val (alias s3 (List.length (stores s1)) (Quant unit))))  (* 62 *)
                   end
               | None => (* 61-62 *)
                   match extra with
                   | NoChange => Val (alias s1 a (Quant su))
                   | Change _ => Val (alias s1 (List.length (stores s)) (Quant su))
                   end
               end
      end
  | _ => Raise EAttributeError
  end.

(** The same without identities, for a quantity that has a unit and no further arguments. *)
Record quantity := mkQ { qt : tensor; qu : unit_ }.
Definition to_unit (q : quantity) (u : unit_) : outcome quantity :=
  if unit_eqb (qu q) u then Val q
  else bind (factor (qu q) u) (fun r => bind (imul (qt q) r) (fun t => Val {| qt := t; qu := u |})).

(** ** Arguments of torch functions *)
Inductive leaf :=
  | LQ (q : quantity)     (* TensorQuantity *)
  | LU (u : unit_)        (* a Unit object *)
  | LNum (r : R)          (* int or float *)
  | LTen (t : tensor)     (* plain Tensor *)
  | LBool (b : bool)
  | LOther.               (* None, strings, dtypes, ... *)

(** What the backend sees: quantities are plain tensors to it. *)
Inductive raw := RTen (t : tensor) | RNum (r : R) | RBool (b : bool) | RUnitObj | ROther.
Definition strip (x : leaf) : raw :=
  match x with
  | LQ q => RTen (qt q) | LTen t => RTen t | LNum r => RNum r | LBool b => RBool b | LU _ => RUnitObj | LOther => ROther
  end.
Fixpoint omap {A B K} (f : A -> B) (o : obj A K) : obj B K :=
  match o with
  | OLeaf a => OLeaf (f a)
  | OList l => OList (map (omap f) l)
  | OTuple l => OTuple (map (omap f) l)
  | OSub c l => OSub c (map (omap f) l)
  | ONamed c l => ONamed c (map (omap f) l)
  | ODict items => ODict (map (fun kv => (fst kv, omap f (snd kv))) items)
  end.

(** [isinstance(arg, _Unitful)] and [arg.unit] (dimspec.py:28). *)
Definition unit_of (x : leaf) : option unit_ :=
  match x with LQ q => Some (qu q) | LU u => Some u | _ => None end.

(** [arg.to(unit)] for a unitful [arg] (dimspec.py:181); [Unit.to] returns a float. *)
Definition leaf_to (x : leaf) (u : unit_) : outcome leaf :=
  match x with
  | LQ q => bind (to_unit q u) (fun q' => Val (LQ q'))
  | LU v => bind (factor v u) (fun r => Val (LNum r))
  | _ => Raise EAttributeError
  end.

(** Expressions over the names collected so far: the [Eval] strings and the bodies of the lambdas in the table. *)
Inductive uexp := EName (n : string) | EMul (a b : uexp) | EDiv (a b : uexp) | EPow (a : uexp) (p : Qc) | EInv (a : uexp).
Definition ctx := list (string * unit_).
Fixpoint eval_uexp (so : set_order) (c : ctx) (e : uexp) : outcome unit_ :=
  match e with
  | EName n => match dict_get c n with Some u => Val u | None => Raise ENameError end
  | EMul a b => bind (eval_uexp so c a) (fun u => bind (eval_uexp so c b) (fun v => Val (umul so u v)))
  | EDiv a b => bind (eval_uexp so c a) (fun u => bind (eval_uexp so c b) (fun v => Val (udiv so u v)))
  | EPow a p => bind (eval_uexp so c a) (fun u => Val (upow u p))
  | EInv a => bind (eval_uexp so c a) (fun u => Val (uinv u))
  end.

(** Input unit specifications (48-50): a name, a unit, an [Eval], or None/False (ignored). *)
Inductive pspec := PName (n : string) | PUnit (u : unit_) | PEval (e : uexp) | PNone.
(** Output specifications (51-52): a name, a unit, False, or a callable with named parameters (and [**kwargs] or not). *)
Inductive oret := OU (u : unit_) | OFalse.
Inductive rexp := XU (e : uexp) | XFalse.
Inductive rspec := RName (n : string) | RUnit (u : unit_) | RFalse | RFun (ps : list string) (kwargs : bool) (body : obj rexp string).

(** Parameters of the Python run: set iteration order, subclass relation and constructors of tuple subclasses. *)
Record pyenv := { pe_so : set_order; pe_sub : nat -> nat -> bool; pe_ctor : nat -> bool }.
Section Env.
Variable env : pyenv.
Let so := pe_so env.
Definition unflatten {A} (vs : list (obj A string)) (s : spec string) : outcome (obj A string) :=
  of_result (tree_unflatten A string String.eqb (pe_ctor env) vs s).
Definition bcast {A} (o : obj A string) (s : spec string) : outcome (option (list (obj A string))) :=
  of_result (broadcast A string String.eqb (pe_sub env) o s).
Definition flatten {A} (o : obj A string) : outcome (list (obj A string) * spec string) := of_result (tree_flatten o).

(** [DimSpec.__call__], lines 169-175: which unit is required of the argument, and the updated context. *)
Definition resolve (c : ctx) (p : pspec) (x : leaf) : outcome (option unit_ * ctx) :=
  match p with
  | PName n => match dict_get c n with
               | Some u => Val (Some u, c)
               | None => Val (None, dict_set c n (match unit_of x with Some u => u | None => unit_one end))
               end
  | PEval e => bind (eval_uexp so c e) (fun u => Val (Some u, c))
  | PUnit u => Val (Some u, c)
  | PNone => Val (None, c)
  end.

(** [if unit.dimension]: truth value of a dict. *)
Definition has_dims (u : unit_) : bool := match udim u with [] => false | _ => true end.
(** [arg / float(unit.value)] for a tensor: true division returns a floating tensor. *)
Definition tdiv (t : tensor) (r : R) : tensor := {| tshape := tshape t; tdata := map (fun x => (x / r)%R) (tdata t); tfloat := true |}.

(** Lines 177-188. *)
Definition convert (ou : option unit_) (x : leaf) : outcome leaf :=
  match ou with
  | None => Val x
  | Some u =>
      match unit_of x with
      | Some v => if negb (dict_eqb (udim v) (udim u)) then Raise EUnitError else leaf_to x u
      | None =>
          match x with
          | LNum r => if has_dims u then Raise EUnitError
                      else if Req_EM_T (uval u) 1 then Val x else Val (LNum (r / uval u))
          | LTen t => if has_dims u then Raise EUnitError
                      else if Req_EM_T (uval u) 1 then Val x else Val (LTen (tdiv t (uval u)))
          | _ => Val x
          end
      end
  end.

(** One leaf: lines 168-190. *)
Definition do_leaf (c : ctx) (p : pspec) (x : leaf) : outcome (leaf * ctx) :=
  bind (resolve c p x) (fun r => bind (convert (fst r) x) (fun y => Val (y, snd r))).
(** The loop over the leaves of one argument (167-190). *)
Fixpoint do_leaves (c : ctx) (xs : list (obj leaf string)) (ps : list (obj pspec string)) : outcome (list (obj leaf string) * ctx) :=
  match xs, ps with
  | OLeaf x :: xs', OLeaf p :: ps' =>
      bind (do_leaf c p x) (fun r => bind (do_leaves (snd r) xs' ps') (fun s => Val (OLeaf (fst r) :: fst s, snd s)))
  | [], _ | _, [] => Val ([], c)
  | _, _ => Raise ETypeError
  end.
(** One argument (164-191). *)
Definition do_arg (c : ctx) (p : pspec) (arg : obj leaf string) : outcome (obj leaf string * ctx) :=
  bind (flatten arg) (fun ft =>
  bind (bcast (OLeaf p) (snd ft)) (fun us =>
    match us with
    | None => Raise ETypeError
    | Some ps => bind (do_leaves c (fst ft) ps) (fun r => bind (unflatten (fst r) (snd ft)) (fun o => Val (o, snd r)))
    end)).
(** All arguments (163); [ps] is followed by [rest] for ever: None ([padded]) or 'unit' ([repeat('unit')]). *)
Fixpoint do_args (c : ctx) (ps : list pspec) (rest : pspec) (args : list (obj leaf string)) : outcome (list (obj leaf string) * ctx) :=
  match args with
  | [] => Val ([], c)
  | a :: args' =>
      bind (do_arg c (hd rest ps) a) (fun r =>
      bind (do_args (snd r) (tl ps) rest args') (fun s => Val (fst r :: fst s, snd s)))
  end.

(** ** Output side *)
(** What the backend returns: tensors (wrapped as quantities by [super().__torch_function__]) and other objects. *)
Inductive rout := OT (t : tensor) | OBool (b : bool).

(** [Postprocessor.process_spec] (203-207): a callable is called with the whole context as keyword arguments. *)
Definition call_ok (ps : list string) (kwargs : bool) (c : ctx) : bool :=
  forallb (fun p => existsb (String.eqb p) (map fst c)) ps &&
  (kwargs || forallb (fun k => existsb (String.eqb k) ps) (map fst c)).
Fixpoint omapM {A B K} (f : A -> outcome B) (o : obj A K) : outcome (obj B K) :=
  match o with
  | OLeaf a => bind (f a) (fun b => Val (OLeaf b))
  | OList l => bind (mapM (omapM f) l) (fun l' => Val (OList l'))
  | OTuple l => bind (mapM (omapM f) l) (fun l' => Val (OTuple l'))
  | OSub c l => bind (mapM (omapM f) l) (fun l' => Val (OSub c l'))
  | ONamed c l => bind (mapM (omapM f) l) (fun l' => Val (ONamed c l'))
  | ODict items => bind (mapM (fun kv => bind (omapM f (snd kv)) (fun o' => Val (fst kv, o'))) items) (fun l' => Val (ODict l'))
  end.
Definition eval_rexp (c : ctx) (x : rexp) : outcome oret :=
  match x with XU e => bind (eval_uexp so c e) (fun u => Val (OU u)) | XFalse => Val OFalse end.
Definition process_spec (c : ctx) (r : rspec) : outcome (obj oret string) :=
  match r with
  | RName n => match dict_get c n with Some u => Val (OLeaf (OU u)) | None => Raise EKeyError end
  | RUnit u => Val (OLeaf (OU u))
  | RFalse => Val (OLeaf OFalse)
  | RFun ps kw body => if call_ok ps kw c then omapM (eval_rexp c) body else Raise ETypeError
  end.
(** [pytree.tree_map(self.process_spec, self.ret)] (210). *)
Definition process_ret (c : ctx) (ret : obj rspec string) : outcome (obj oret string) :=
  bind (flatten ret) (fun ft =>
  bind (mapM (fun o => match o with OLeaf r => process_spec c r | _ => Raise ETypeError end) (fst ft)) (fun vs =>
    unflatten vs (snd ft))).

(** [BasePostprocessor.process] for one output (109-116); [dimless_to_value] is False (101).  A specification that is not a
    single unit or False is outside the model. *)
Definition finish (o : obj rout string) (s : obj oret string) : outcome (obj leaf string) :=
  match o, s with
  | OLeaf (OBool b), _ => Val (OLeaf (LBool b))
  | OLeaf (OT t), OLeaf OFalse => Val (OLeaf (LTen t))
  | OLeaf (OT t), OLeaf (OU u) => if tfloat t then Val (OLeaf (LQ {| qt := t; qu := u |})) else Val (OLeaf (LTen t))
  | _, _ => Raise ETypeError
  end.
Fixpoint zip_finish (os : list (obj rout string)) (ss : list (obj oret string)) : outcome (list (obj leaf string)) :=
  match os, ss with
  | o :: os', s :: ss' => bind (finish o s) (fun x => bind (zip_finish os' ss') (fun xs => Val (x :: xs)))
  | _, _ => Val []
  end.
Definition process (out : obj rout string) (s : obj oret string) : outcome (obj leaf string) :=
  bind (flatten out) (fun ft =>
  bind (bcast s (snd ft)) (fun b =>
  bind (match b with
        | Some l => Val l
        | None => match node_of s with Some (_, children, _) => Val children | None => Raise ETypeError end
        end) (fun l =>
  bind (zip_finish (fst ft) l) (fun xs => unflatten xs (snd ft))))).

(** ** The kinds of dimension rule *)
Inductive dimspec :=
  | Basic (ret : option (obj rspec string))              (* BasicDimSpec (70-84) *)
  | Det                                                   (* DetDimSpec (87-89) *)
  | Multi                                                 (* MultiproductDimSpec (125-134) *)
  | Power (flipped : bool)                                (* PowerDimSpec (137-150) *)
  | Spec (ps : list pspec) (rest : pspec) (ret : obj rspec string)  (* DimSpec (153-195) *)
  | Dispatch (i : nat) (if_int otherwise : dimspec).      (* DimSpecDispatcher (61-67) with specs ((int, _), (object, _)) *)

(** [float(x)] as an exact rational, for the exponents of units: every Python number is rational.  (Units.rpow and
    Units.upow take rational exponents; [0] stands for the irrational reals, which no Python number denotes.) *)
Definition enum_Qc (n : nat) : Qc :=
  let '(a, bc) := Cantor.of_nat n in let '(b, c) := Cantor.of_nat bc in frac (Z.of_nat a - Z.of_nat b) (Z.of_nat c + 1).
Definition Qc_R (p : Qc) : R := (IZR (fnum p) / IZR (fden p))%R.
Definition as_fraction (r : R) : Qc :=
  match sig_forall_dec (fun n => r <> Qc_R (enum_Qc n))
          (fun n => match Req_EM_T r (Qc_R (enum_Qc n)) with left e => right (fun h => h e) | right ne => left ne end) with
  | inleft (exist _ n _) => enum_Qc n
  | inright _ => Q2Qc 0
  end.
(** [exponent if isinstance(exponent, Number) else float(exponent)] (149): only one-element tensors convert. *)
Definition exponent_number (x : leaf) : outcome Qc :=
  match x with
  | LNum r => Val (as_fraction r)
  | LBool b => Val (fint (if b then 1 else 0))
  | LTen t => match tdata t with [r] => Val (as_fraction r) | _ => Raise EValueError end
  | _ => Raise ETypeError
  end.
(** [.value] of the result of [exponent.to(Unit())] (146): a plain tensor, or a float for a Unit. *)
Definition leaf_value (x : leaf) : leaf := match x with LQ q => LTen (qt q) | x => x end.

(** [args, post] computed by each rule; the second component is the unit specification of the outputs. *)
Definition default_ret (a : obj leaf string) : obj oret string :=
  omap (fun x => match unit_of x with Some u => OU u | None => OFalse end) a.

(** [reduce(operator.mul, units)] *)
Definition product_units (us : list unit_) : outcome unit_ :=
  match us with [] => Raise ETypeError | u :: us' => Val (fold_left (umul so) us' u) end.
Fixpoint oleaves {A} (o : obj A string) : list A :=
  match o with
  | OLeaf a => [a]
  | OList l | OTuple l | OSub _ l | ONamed _ l => flat_map oleaves l
  | ODict items => flat_map (fun kv => oleaves (snd kv)) items
  end.
(** Line 130: the [.value] of a Unit is its scale. *)
Definition multi_value (x : leaf) : leaf :=
  match x with LQ q => LTen (qt q) | LU u => LNum (uval u) | x => x end.

Definition is_int_leaf (ints : R -> bool) (x : leaf) : bool :=
  match x with LNum r => ints r | LBool _ => true | _ => false end.

Fixpoint apply_spec (ints : R -> bool) (d : dimspec) (args : list (obj leaf string)) : outcome (list (obj leaf string) * obj oret string) :=
  match d with
  | Basic None => match args with a :: _ => Val (args, default_ret a) | [] => Raise EIndexError end
  | Basic (Some ret) => bind (process_ret [] ret) (fun r => Val (args, r))
  | Det =>
      match args with
      | [OLeaf (LQ q)] => match rev (tshape (qt q)) with
                          | n :: _ => Val (args, OLeaf (OU (upow (qu q) (fint (Z.of_nat n)))))
                          | [] => Raise EIndexError
                          end
      | _ => Raise ETypeError
      end
  | Multi =>
      bind (product_units (flat_map (fun x => match unit_of x with Some u => [u] | None => [] end) (flat_map oleaves args)))
        (fun u => Val (map (omap multi_value) args, OLeaf (OU u)))
  | Power flipped =>
      match args with
      | OLeaf x :: OLeaf y :: _ =>
          let '(base, expo) := if flipped then (y, x) else (x, y) in
          bind (match unit_of expo with
                | Some u => if has_dims u then Raise EUnitError else bind (leaf_to expo unit_one) (fun e => Val (leaf_value e))
                | None => Val expo
                end) (fun expo' =>
          bind (match unit_of base with
                | Some u => bind (exponent_number expo') (fun p => Val (OU (upow u p)))
                | None => Val OFalse
                end) (fun r =>
          Val (if flipped then [OLeaf expo'; OLeaf base] else [OLeaf base; OLeaf expo'], OLeaf r)))
      | _ => Raise ETypeError
      end
  | Spec ps rest ret =>
      (* the output specification is evaluated after the call, see [torch_function] *)
      bind (do_args [] ps rest args) (fun r => bind (process_ret (snd r) ret) (fun o => Val (fst r, o)))
  | Dispatch i d1 d2 =>
      match nth_error args i with
      | Some (OLeaf x) => if is_int_leaf ints x then apply_spec ints d1 args else apply_spec ints d2 args
      | Some _ => apply_spec ints d2 args
      | None => Raise EIndexError
      end
  end.

(** ** The table (dimspec.py:213-358) *)
Definition L (r : rspec) : obj rspec string := OLeaf r.
Definition radian : unit_ := unit_one.                      (* units/angular.py:9: Unit(name='rad') *)
Definition dimless : unit_ := unit_one.
Definition P := PName.
Definition same := Spec [] (P "unit") (L (RName "unit")).
Definition same_to_nounit := Spec [] (P "unit") (L RFalse).
Definition rad_to_dimless := Spec [PUnit radian] PNone (L RFalse).
Definition trans_to_radian := Spec [PUnit dimless] PNone (L (RUnit radian)).
Definition trans := Spec [PUnit dimless] PNone (L RFalse).
Definition nounit := Basic (Some (L RFalse)).
Definition ret1 (e : uexp) := Spec [P "unit"] PNone (L (RFun ["unit"] false (OLeaf (XU e)))).
Definition u_ := EName "unit". Definition u1 := EName "unit1". Definition u2 := EName "unit2".
Definition fun12 (b : obj rexp string) := L (RFun ["unit1"; "unit2"] false b).
Definition X (e : uexp) : obj rexp string := OLeaf (XU e).
Definition XF : obj rexp string := OLeaf XFalse.
Definition rows (names : list string) (d : dimspec) : list (string * dimspec) := map (fun n => (n, d)) names.
Definition hist_ret : obj rspec string := OTuple [L RFalse; L (RName "unit")].

Definition dimspecs : list (string * dimspec) :=
  rows ["__setitem__"] (Spec [P "unit"; PNone; P "unit"] PNone (L RFalse)) ++
  rows ["eq"; "equal"; "ne"; "not_equal"; "gt"; "greater"; "ge"; "greater_equal"; "lt"; "less"; "le"; "less_equal"] same_to_nounit ++
  rows ["allclose"; "isclose"] (Spec [P "unit"; P "unit"; PNone; PNone] PNone (L RFalse)) ++
  rows ["add"; "sub"; "subtract"] (Spec [P "unit"; P "unit2"; PEval (EDiv u_ u2)] PNone (L (RName "unit"))) ++
  rows ["rsub"] (Spec [P "unit2"; P "unit"; PEval (EDiv u_ u2)] PNone (L (RName "unit"))) ++
  rows ["__rsub__"] same ++
  rows ["minimum"; "maximum"; "fmin"; "fmax"; "hypot"; "hardshrink"; "nextafter"] same ++
  rows ["dist"; "cdist"] (Spec [P "unit"; P "unit"] PNone (L (RName "unit"))) ++
  rows ["mul"; "multiply"; "matmul"; "__rmatmul__"; "cross"; "dot"; "mm"; "bmm"; "mv"; "inner"; "outer"; "ger"; "kron"; "vdot"; "tensordot"]
    (Spec [P "unit1"; P "unit2"] PNone (fun12 (X (EMul u1 u2)))) ++
  rows ["chain_matmul"; "einsum"; "trapz"; "trapezoid"; "cumulative_trapezoid"] Multi ++
  rows ["gradient"; "div"; "divide"; "true_divide"] (Spec [P "unit1"; P "unit2"] PNone (fun12 (X (EDiv u1 u2)))) ++
  rows ["__rdiv__"] (Spec [P "unit1"; P "unit2"] PNone (fun12 (X (EDiv u2 u1)))) ++
  rows ["__rmod__"; "fmod"; "remainder"] same ++
  rows ["__floordiv__"; "__rfloordiv__"; "floor_divide"] same_to_nounit ++
  rows ["pow"; "matrix_power"; "float_power"] (Power false) ++
  rows ["__rpow__"] (Power true) ++
  rows ["block_diag"; "cat"; "concat"; "concatenate"; "stack"; "hstack"; "dstack"; "vstack"; "row_stack"; "column_stack"; "cartesian_prod"]
    (Spec [P "unit"] PNone (L (RName "unit"))) ++
  rows ["clip"; "clamp"; "clamp_min"; "clamp_max"; "nan_to_num"; "complex"] same ++
  rows ["bucketize"; "isin"; "searchsorted"] same_to_nounit ++
  rows ["sign"; "sgn"; "corrcoef"] nounit ++
  rows ["angle"] (Basic (Some (L (RUnit radian)))) ++
  rows ["atan2"] (Spec [P "unit"; P "unit"] PNone (L (RUnit radian))) ++
  rows ["sin"; "cos"; "tan"; "sinc"] rad_to_dimless ++
  rows ["asin"; "arcsin"; "acos"; "arccos"; "atan"; "arctan"] trans_to_radian ++
  rows ["exp"; "exp2"; "expm1"; "matrix_exp";
        "log"; "log2"; "log10"; "log1p"; "logsumexp"; "special_logsumexp"; "logcumsumexp";
        "lgamma"; "digamma"; "mvlgamma"; "special_multigammaln";
        "erf"; "erfc"; "erfinv"; "logit"; "special_logit"; "sigmoid"; "i0";
        "sinh"; "asinh"; "arcsinh"; "cosh"; "acosh"; "arccosh"; "tanh"; "atanh"; "arctanh";
        "bernoulli"; "logdet"; "slogdet"; "softmax"; "special_softmax"; "log_softmax"; "special_log_softmax";
        "ceil"; "floor"; "round"; "special_round"; "fix"; "trunc"; "frac"; "special_airy_ai";
        "special_bessel_j0"; "special_bessel_j1"; "special_bessel_y0"; "special_bessel_y1"; "special_modified_bessel_i0";
        "special_modified_bessel_i1"; "special_modified_bessel_k0"; "special_modified_bessel_k1"; "special_scaled_modified_bessel_k0";
        "special_scaled_modified_bessel_k1"; "special_spherical_bessel_j0";
        "special_chebyshev_polynomial_t"; "special_chebyshev_polynomial_u"; "special_chebyshev_polynomial_v"; "special_chebyshev_polynomial_w";
        "special_shifted_chebyshev_polynomial_t"; "special_shifted_chebyshev_polynomial_u"; "special_shifted_chebyshev_polynomial_v";
        "special_shifted_chebyshev_polynomial_w"; "special_hermite_polynomial_h"; "special_hermite_polynomial_he";
        "special_laguerre_polynomial_l"; "special_legendre_polynomial_p"; "special_gammaln"; "special_digamma"; "special_psi";
        "special_entr"; "special_erf"; "special_erfc"; "special_erfcx"; "special_erfinv"; "special_exp2"; "special_expit"; "special_expm1";
        "special_i0"; "special_i0e"; "special_i1"; "special_i1e"; "special_log1p"; "special_log_ndtr"; "special_ndtr"; "special_ndtri";
        "special_sinc"] trans ++
  rows ["polygamma"; "special_polygamma"] (Dispatch 0 (Spec [PNone; PUnit dimless] PNone (L RFalse)) trans) ++
  rows ["logaddexp"; "logaddexp2"; "igamma"; "igammac"; "special_gammainc"; "special_gammaincc"; "special_zeta"]
    (Spec [PUnit dimless; PUnit dimless] PNone (L RFalse)) ++
  rows ["det"] Det ++
  rows ["histc"] (Spec [P "unit"; PNone; P "unit"; P "unit"] PNone (L RFalse)) ++
  rows ["histogram"] (Dispatch 1 (Spec [P "unit"] PNone hist_ret) (Spec [P "unit"; P "unit"] PNone hist_ret)) ++
  rows ["diff"] (Spec [P "unit"; PNone; PNone; P "unit"; P "unit"] PNone (L (RName "unit"))) ++
  rows ["polar"] (Spec [P "unit"; PUnit radian] PNone (L (RName "unit"))) ++
  rows ["where"; "masked_scatter"; "masked_fill"; "put"; "index_put"] (Spec [P "unit"; PNone; P "unit"] PNone (L (RName "unit"))) ++
  rows ["index_copy"; "index_fill"; "scatter"; "scatter_add"] (Spec [P "unit"; PNone; PNone; P "unit"] PNone (L (RName "unit"))) ++
  rows ["index_add"] (Spec [P "unit"; PNone; PNone; P "unit"; PUnit dimless] PNone (L (RName "unit"))) ++
  rows ["ldexp"; "xlogy"; "special_xlogy"; "special_xlog1py"; "prelu"] (Spec [P "unit"; PUnit dimless] PNone (L (RName "unit"))) ++
  rows ["lerp"] (Spec [P "unit"; P "unit"; PUnit dimless] PNone (L (RName "unit"))) ++
  rows ["heaviside"] (Spec [PNone; PUnit dimless] PNone (L RFalse)) ++
  rows ["sqrt"; "cholesky"] (ret1 (EPow u_ (frac 1 2))) ++
  rows ["rsqrt"] (ret1 (EPow u_ (frac (-1) 2))) ++
  rows ["square"; "var"; "cov"] (ret1 (EPow u_ (fint 2))) ++
  rows ["var_mean"] (Spec [P "unit"] PNone (L (RFun ["unit"] false (OTuple [X (EPow u_ (fint 2)); X u_])))) ++
  rows ["inverse"; "pinverse"; "reciprocal"] (ret1 (EInv u_)) ++
  rows ["lu"; "linalg_lu_factor"; "eig"; "linalg_eig"; "symeig"; "lobpcg"] (Spec [P "unit"] PNone (OTuple [L (RName "unit"); L RFalse])) ++
  rows ["triangular_solve"; "lstsq"] (Spec [P "unit1"; P "unit2"] PNone (fun12 (OTuple [X (EDiv u1 u2); X u2]))) ++
  rows ["linalg_solve"] (Spec [P "unit1"; P "unit2"] PNone (fun12 (X (EDiv u2 u1)))) ++
  rows ["linalg_lstsq"] (Spec [P "unit1"; P "unit2"] PNone (fun12 (OTuple [X (EDiv u2 u1); X (EPow u2 (fint 2)); XF; X u1]))) ++
  rows ["lu_solve"] (Spec [P "unit1"; P "unit2"; PUnit dimless] PNone (fun12 (X (EDiv u1 u2)))) ++
  rows ["linalg_lu_solve"] (Spec [P "unit2"; PUnit dimless; P "unit1"] PNone (fun12 (X (EDiv u1 u2)))) ++
  rows ["lu_unpack"] (Spec [P "unit"; PUnit dimless] PNone (OTuple [L RFalse; L RFalse; L (RName "unit")])) ++
  rows ["cholesky_inverse"] (ret1 (EPow u_ (fint (-2)))) ++
  rows ["cholesky_solve"] (Spec [P "unit1"; P "unit2"] PNone (fun12 (X (EMul u1 (EPow u2 (fint (-2))))))) ++
  rows ["qr"] (Spec [P "unit"] PNone (OTuple [L RFalse; L (RName "unit")])) ++
  rows ["svd"; "linalg_svd"; "pca_lowrank"] (Spec [P "unit"] PNone (OTuple [L RFalse; L (RName "unit"); L RFalse])) ++
  rows ["svd_lowrank"] (Spec [P "unit"; PNone; PNone; P "unit"] PNone (OTuple [L RFalse; L (RName "unit"); L RFalse])) ++
  rows ["addmm"; "addbmm"; "baddbmm"; "addmv"; "addr"]
    (Spec [P "a"; P "b1"; P "b2"; P "beta"; PEval (EDiv (EMul (EName "beta") (EName "a")) (EMul (EName "b1") (EName "b2")))] PNone
       (L (RFun ["a"; "beta"] true (X (EMul (EName "a") (EName "beta")))))) ++
  rows ["addcmul"] (Spec [P "unit"; P "unit1"; P "unit2"; PEval (EDiv u_ (EMul u1 u2))] PNone (L (RName "unit"))) ++
  rows ["addcdiv"] (Spec [P "unit"; P "unit1"; P "unit2"; PEval (EDiv (EMul u_ u2) u1)] PNone (L (RName "unit"))).

(** [dimspecs.get(func.__name__, default_dimspec)] (tensor_quantity.py:62).  [dimspecs] is the dict of a class body: the
    last assignment of a name wins. *)
Definition lookup_spec (name : string) : dimspec :=
  match dict_get (dict_of_items dimspecs) name with Some d => d | None => Basic None end.

(** The functions in [forbidden] (369-386), by name: [__torch_function__] returns NotImplemented and torch raises TypeError. *)
Definition forbidden : list string :=
  ["bincount"; "bitwise_not"; "bitwise_and"; "bitwise_or"; "bitwise_xor"; "bitwise_left_shift"; "bitwise_right_shift";
   "prod"; "cumprod"; "deg2rad"; "rad2deg"; "gcd"; "lcm"; "norm"; "renorm"; "frexp";
   "align_as"; "align_to"; "rename"; "refine_names";
   "fake_quantize_per_channel_affine"; "fake_quantize_per_tensor_affine"; "quantized_batch_norm"; "quantized_max_pool1d";
   "quantized_max_pool2d"; "dequantize"; "int_repr"; "q_per_channel_axis"; "q_per_channel_scales"; "q_per_channel_zero_points";
   "coalesce"; "is_coalesced"; "to_dense"; "to_sparse"; "col_indices"; "crow_indices"; "indices"; "values";
   "dense_dim"; "sparse_dim"; "sparse_mask"].

(** [TensorQuantity.__torch_function__] (tensor_quantity.py:43-79), for a function called [name] with numerical behaviour
    [f].  The special cases for gradient (52-57) and the argument swap for where (58-59) are left to the caller: [args] are the
    arguments as [sig.bind] orders them.  Arguments that the rule does not return stay as they were (69-71). *)
Definition torch_function (ints : R -> bool) (name : string) (f : list (obj raw string) -> outcome (obj rout string))
    (args : list (obj leaf string)) : outcome (obj leaf string) :=
  if existsb (String.eqb name) forbidden then Raise ETypeError
  else bind (apply_spec ints (lookup_spec name) args) (fun r =>
       bind (f (map (omap strip) (fst r ++ skipn (List.length (fst r)) args))) (fun out =>
       process out (snd r))).
End Env.
