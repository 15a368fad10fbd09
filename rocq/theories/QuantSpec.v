(** * Specification vocabulary for quantities: physical values and dimensions *)
From Coq Require Import ZArith QArith Qcanon String List Bool Reals.
From Verif Require Import Frac Units UnitSpec PyTree Quantities.
Import ListNotations.
Open Scope list_scope.

(** The scale a leaf is expressed in: that of its unit, 1 for bare objects. *)
Definition scale_of (x : leaf) : R := match x with LQ q => uval (qu q) | LU u => uval u | _ => 1%R end.
(** Multiply numbers and tensors by a scalar; other objects carry no number. *)
Definition rscale (c : R) (r : raw) : raw :=
  match r with RTen t => RTen (tscale c t) | RNum x => RNum (c * x) | RBool b => RBool b | RUnitObj => RUnitObj | ROther => ROther end.
(** The physical value: number times scale. *)
Definition phys (x : leaf) : raw := rscale (scale_of x) (strip x).
Definition phys_q (q : quantity) : tensor := tscale (uval (qu q)) (qt q).
(** The dimension: exponent of each base dimension; bare objects are dimensionless. *)
Definition dim_of (x : leaf) (k : string) : Qc := match x with LQ q => exponent (qu q) k | LU u => exponent u k | _ => Q2Qc 0 end.
Definition same_dimension (x y : leaf) : Prop := forall k, dim_of x k = dim_of y k.
Definition dimensionless (x : leaf) : Prop := forall k, dim_of x k = Q2Qc 0.

(** Units users have: canonical (C01) with positive scale. *)
Definition good_unit (u : unit_) : Prop := canonical (udim u) /\ (0 < uval u)%R.
Definition good_q (q : quantity) : Prop := good_unit (qu q) /\ tfloat (qt q) = true.
(** Operands: floating-point quantities and tensors, numbers, and arguments that carry no number (None, flags, ...). *)
Definition operand (x : leaf) : Prop :=
  match x with LQ q => good_q q | LTen t => tfloat t = true | LU _ => False | LNum _ | LBool _ | LOther => True end.
(** Operands that carry a number. *)
Definition numeric (x : leaf) : Prop :=
  match x with LQ q => good_q q | LTen t => tfloat t = true | LNum _ => True | _ => False end.
Definition bare (x : leaf) : Prop := match x with LQ _ | LU _ => False | _ => True end.

(** A backend function with one tensor result, lifted to the interface of [torch_function]. *)
Definition leaf_or_other (o : obj raw string) : raw := match o with OLeaf r => r | _ => ROther end.
Definition backend (g : list raw -> tensor) (args : list (obj raw string)) : outcome (obj rout string) :=
  Val (OLeaf (OT (g (map leaf_or_other args)))).
(** Call of the torch function [name] with numerical behaviour [g] on operands. *)
Definition call (env : pyenv) (name : string) (g : list raw -> tensor) (xs : list leaf) : outcome leaf :=
  match torch_function env (fun _ => false) name (backend g) (map OLeaf xs) with
  | Val (OLeaf y) => Val y
  | Val _ => Raise ETypeError
  | Raise e => Raise e
  end.

(** The scale an output or [Eval] expression has, given the scales of the names in it. *)
Fixpoint scale_exp (s : string -> R) (e : uexp) : R :=
  match e with
  | EName n => s n
  | EMul a b => (scale_exp s a * scale_exp s b)%R
  | EDiv a b => (scale_exp s a / scale_exp s b)%R
  | EPow a p => rpow (scale_exp s a) p
  | EInv a => (/ scale_exp s a)%R
  end.
Definition scale_spec (s : string -> R) (p : pspec) : R :=
  match p with PName n => s n | PUnit u => uval u | PEval e => scale_exp s e | PNone => 1%R end.
(** Express each operand in the unit its position asks for. *)
Fixpoint express (s : string -> R) (ps : list pspec) (rest : pspec) (rs : list raw) : list raw :=
  match rs with
  | [] => []
  | r :: rs' => rscale (/ scale_spec s (hd rest ps)) r :: express s (tl ps) rest rs'
  end.
(** The scaling law a row of the table presupposes of the function, at the operands [rs]: expressed in any positive scales [s],
    the function's value is expressed in the scale [out s]. *)
Definition scaling_law (ps : list pspec) (rest : pspec) (out : (string -> R) -> R) (g : list raw -> tensor) (rs : list raw) : Prop :=
  forall s, (forall n, (0 < s n)%R) -> g (express s ps rest rs) = tscale (/ out s) (g rs).

(** Dimension arithmetic on paper. *)
Fixpoint dim_exp (d : string -> string -> Qc) (e : uexp) (k : string) : Qc :=
  match e with
  | EName n => d n k
  | EMul a b => (dim_exp d a k + dim_exp d b k)%Qc
  | EDiv a b => (dim_exp d a k - dim_exp d b k)%Qc
  | EPow a p => (dim_exp d a k * p)%Qc
  | EInv a => (- dim_exp d a k)%Qc
  end.
(** Every intermediate exponent is representable (denominator at most 10^6), so no rounding takes place. *)
Fixpoint representable (d : string -> string -> Qc) (e : uexp) : Prop :=
  match e with
  | EName n => True
  | EMul a b | EDiv a b => representable d a /\ representable d b /\ forall k, (fden (dim_exp d e k) <= 1000000)%Z
  | EPow a _ | EInv a => representable d a /\ forall k, (fden (dim_exp d e k) <= 1000000)%Z
  end.
(** The dimension required by a position. *)
Definition dim_spec (d : string -> string -> Qc) (p : pspec) (k : string) : Qc :=
  match p with PName n => d n k | PUnit u => exponent u k | PEval e => dim_exp d e k | PNone => Q2Qc 0 end.

(** The i-th element of an operand; a number stands for a constant tensor. *)
Definition elem (i : nat) (r : raw) : R := match r with RTen t => nth i (tdata t) 0%R | RNum x => x | _ => 0%R end.
Fixpoint first_tensor (rs : list raw) : option tensor :=
  match rs with [] => None | RTen t :: _ => Some t | _ :: rs' => first_tensor rs' end.
(** Apply a function of numbers to corresponding elements of the operands. *)
Definition elementwise (float : bool) (h : list R -> R) (rs : list raw) : tensor :=
  match first_tensor rs with
  | Some t => {| tshape := tshape t; tdata := map (fun i => h (map (elem i) rs)) (seq 0 (length (tdata t))); tfloat := float |}
  | None => {| tshape := []; tdata := [h (map (elem 0) rs)]; tfloat := float |}
  end.
Fixpoint express_num (s : string -> R) (ps : list pspec) (rest : pspec) (vs : list R) : list R :=
  match vs with
  | [] => []
  | v :: vs' => (/ scale_spec s (hd rest ps) * v)%R :: express_num s (tl ps) rest vs'
  end.

(** Scale and dimension of a single output. *)
Definition out_scale (r : rspec) (s : string -> R) : R :=
  match r with RName n => s n | RUnit u => uval u | RFun _ _ (OLeaf (XU e)) => scale_exp s e | _ => 1%R end.
Definition out_dim (r : rspec) (d : string -> string -> Qc) (k : string) : Qc :=
  match r with RName n => d n k | RUnit u => exponent u k | RFun _ _ (OLeaf (XU e)) => dim_exp d e k | _ => Q2Qc 0 end.
Definition out_representable (r : rspec) (d : string -> string -> Qc) : Prop :=
  match r with RFun _ _ (OLeaf (XU e)) => representable d e | _ => True end.

(** The row of the table assigns dimensions consistently: each operand with a number has the dimension its position asks for. *)
Fixpoint agree (d : string -> string -> Qc) (ps : list pspec) (rest : pspec) (xs : list leaf) : Prop :=
  match xs with
  | [] => True
  | x :: xs' => (hd rest ps <> PNone -> numeric x -> forall k, dim_of x k = dim_spec d (hd rest ps) k) /\ agree d (tl ps) rest xs'
  end.

(** ** Textbook definitions of the functions, on numbers *)
Open Scope R_scope.
Definition arg2 (f : R -> R -> R) (vs : list R) : R := match vs with x :: y :: _ => f x y | _ => 0 end.
Definition arg1 (f : R -> R) (vs : list R) : R := match vs with x :: _ => f x | _ => 0 end.
Definition arg3 (f : R -> R -> R -> R) (vs : list R) : R := match vs with x :: y :: z :: _ => f x y z | _ => 0 end.
Definition arg4 (f : R -> R -> R -> R -> R) (vs : list R) : R := match vs with x :: y :: z :: w :: _ => f x y z w | _ => 0 end.
Definition floor (x : R) : R := IZR (Int_part x).
Definition trunc (x : R) : R := if Rle_dec 0 x then floor x else - floor (- x).
Definition hypot (x y : R) : R := sqrt (x * x + y * y).
(** modulo with the sign of the divisor (remainder) and of the dividend (fmod); 0 stands for the NaN of a zero divisor *)
Definition remainder (x y : R) : R := if Req_EM_T y 0 then 0 else x - y * floor (x / y).
Definition fmod (x y : R) : R := if Req_EM_T y 0 then 0 else x - y * trunc (x / y).
Definition floor_div (x y : R) : R := if Req_EM_T y 0 then 0 else floor (x / y).
Definition truth (b : bool) : R := if b then 1 else 0.
Definition lt_ (x y : R) : R := truth (if Rlt_dec x y then true else false).
Definition le_ (x y : R) : R := truth (if Rle_dec x y then true else false).
Definition eq_ (x y : R) : R := truth (if Req_EM_T x y then true else false).
Definition ne_ (x y : R) : R := truth (if Req_EM_T x y then false else true).
Definition clamp (x lo hi : R) : R := Rmin (Rmax x lo) hi.
Definition hardshrink (x l : R) : R := if Rlt_dec l (Rabs x) then x else 0.
Definition lerp (x y w : R) : R := x + w * (y - x).
Definition select (x c y : R) : R := if Req_EM_T c 0 then y else x.
(** the angle of the point (x, y), in (-pi, pi] *)
Definition atan2 (y x : R) : R :=
  if Rlt_dec 0 x then atan (y / x)
  else if Rlt_dec x 0 then (if Rle_dec 0 y then atan (y / x) + PI else atan (y / x) - PI)
  else if Rlt_dec 0 y then PI / 2 else if Rlt_dec y 0 then - (PI / 2) else 0.
Definition prelu (x w : R) : R := if Rle_dec 0 x then x else w * x.
Definition heaviside (x v : R) : R := if Rlt_dec x 0 then 0 else if Rlt_dec 0 x then 1 else v.
Definition sign (x : R) : R := if Rlt_dec x 0 then -1 else if Rlt_dec 0 x then 1 else 0.

Local Open Scope string_scope.
(** functions of operands of one common dimension, with a result of that dimension *)
Definition shared_functions : list (string * (list R -> R)) :=
  [("minimum", arg2 Rmin); ("maximum", arg2 Rmax); ("fmin", arg2 Rmin); ("fmax", arg2 Rmax); ("hypot", arg2 hypot);
   ("remainder", arg2 remainder); ("fmod", arg2 fmod); ("__rmod__", arg2 (fun x y => remainder y x)); ("__rsub__", arg2 (fun x y => y - x));
   ("hardshrink", arg2 hardshrink); ("clamp", arg3 clamp); ("clip", arg3 clamp); ("clamp_min", arg2 Rmax); ("clamp_max", arg2 Rmin)].
(** ... with a bare result *)
Definition shared_nounit_functions : list (string * (list R -> R)) :=
  [("eq", arg2 eq_); ("ne", arg2 ne_); ("not_equal", arg2 ne_); ("gt", arg2 (fun x y => lt_ y x)); ("greater", arg2 (fun x y => lt_ y x));
   ("ge", arg2 (fun x y => le_ y x)); ("greater_equal", arg2 (fun x y => le_ y x)); ("lt", arg2 lt_); ("less", arg2 lt_);
   ("le", arg2 le_); ("less_equal", arg2 le_);
   ("__floordiv__", arg2 floor_div); ("floor_divide", arg2 floor_div); ("__rfloordiv__", arg2 (fun x y => floor_div y x))].
(** functions of a dimensionless operand *)
Definition trans_functions : list (string * (list R -> R)) :=
  [("exp", arg1 exp); ("exp2", arg1 (fun x => Rpower 2 x)); ("expm1", arg1 (fun x => exp x - 1)); ("log", arg1 ln);
   ("log2", arg1 (fun x => ln x / ln 2)); ("log10", arg1 (fun x => ln x / ln 10)); ("log1p", arg1 (fun x => ln (1 + x)));
   ("sinh", arg1 sinh); ("cosh", arg1 cosh); ("tanh", arg1 tanh); ("sigmoid", arg1 (fun x => 1 / (1 + exp (- x))));
   ("floor", arg1 floor); ("trunc", arg1 trunc); ("fix", arg1 trunc); ("ceil", arg1 (fun x => - floor (- x))); ("frac", arg1 (fun x => x - trunc x));
   ("sin", arg1 sin); ("cos", arg1 cos); ("tan", arg1 tan);
   ("logaddexp", arg2 (fun x y => ln (exp x + exp y)))].
(** functions of a dimensionless operand returning an angle *)
Definition angle_functions : list (string * (list R -> R)) :=
  [("asin", arg1 asin); ("arcsin", arg1 asin); ("acos", arg1 acos); ("arccos", arg1 acos); ("atan", arg1 atan); ("arctan", arg1 atan)].
(** functions of one operand whose result has a power of its dimension *)
Definition power_functions : list (string * (list R -> R) * Qc) :=
  [("sqrt", arg1 sqrt, frac 1 2); ("rsqrt", arg1 (fun x => / sqrt x), frac (-1) 2); ("square", arg1 (fun x => x * x), fint 2);
   ("reciprocal", arg1 Rinv, fint (-1))].

(** the functions of two operands and a factor *)
Definition scaled_functions : list (string * (R -> R -> R -> R)) :=
  [("add", fun x y a => x + a * y); ("sub", fun x y a => x - a * y); ("subtract", fun x y a => x - a * y); ("rsub", fun x y a => y - a * x)].

(** ** Textbook products *)
Fixpoint sum_to (n : nat) (f : nat -> R) : R := match n with O => 0 | S n' => sum_to n' f + f n' end.
Definition empty : tensor := {| tshape := []; tdata := []; tfloat := true |}.
(** the element of a matrix with [m] columns, stored by rows *)
Definition entry (t : tensor) (m i j : nat) : R := nth (i * m + j) (tdata t) 0.
(** a matrix given by its entries *)
Definition matrix (n m : nat) (f : nat -> nat -> R) : tensor :=
  {| tshape := [n; m]; tdata := flat_map (fun i => map (f i) (seq 0 m)) (seq 0 n); tfloat := true |}.
Definition matrix_product (rs : list raw) : tensor :=
  match rs with
  | RTen a :: RTen b :: _ =>
      match tshape a, tshape b with
      | [n; m], [_; p] => matrix n p (fun i k => sum_to m (fun j => entry a m i j * entry b p j k))
      | _, _ => empty
      end
  | _ => empty
  end.
Definition dot_product (rs : list raw) : tensor :=
  match rs with
  | RTen a :: RTen b :: _ =>
      {| tshape := []; tdata := [sum_to (length (tdata a)) (fun i => nth i (tdata a) 0 * nth i (tdata b) 0)]; tfloat := true |}
  | _ => empty
  end.
Definition outer_product (rs : list raw) : tensor :=
  match rs with
  | RTen a :: RTen b :: _ => matrix (length (tdata a)) (length (tdata b)) (fun i j => nth i (tdata a) 0 * nth j (tdata b) 0)
  | _ => empty
  end.
Definition cross_product (rs : list raw) : tensor :=
  match rs with
  | RTen a :: RTen b :: _ =>
      match tdata a, tdata b with
      | [x; y; z], [u; v; w] => {| tshape := [3%nat]; tdata := [y * w - z * v; z * u - x * w; x * v - y * u]; tfloat := true |}
      | _, _ => empty
      end
  | _ => empty
  end.
(** beta * a + alpha * (b @ c) *)
Definition addmm (rs : list raw) : tensor :=
  match rs with
  | RTen a :: RTen b :: RTen c :: RNum beta :: RNum alpha :: _ =>
      match tshape b, tshape c with
      | [n; m], [_; p] => matrix n p (fun i k => beta * entry a p i k + alpha * sum_to m (fun j => entry b m i j * entry c p j k))
      | _, _ => empty
      end
  | _ => empty
  end.
(** the Euclidean distance of two vectors *)
Definition distance (rs : list raw) : tensor :=
  match rs with
  | RTen a :: RTen b :: _ =>
      {| tshape := []; tdata := [sqrt (sum_to (length (tdata a)) (fun i => (nth i (tdata a) 0 - nth i (tdata b) 0) ^ 2))]; tfloat := true |}
  | _ => empty
  end.

(** functions of two operands of arbitrary dimensions whose result is proportional to both *)
Definition product_names : list string :=
  ["mul"; "multiply"; "matmul"; "__rmatmul__"; "cross"; "dot"; "mm"; "bmm"; "mv"; "inner"; "outer"; "ger"; "kron"; "vdot"; "tensordot"].
Definition proportional (ea eb : Z) (g : list raw -> tensor) : Prop :=
  forall a b x y rs, 0 < a -> 0 < b -> g (rscale a x :: rscale b y :: rs) = tscale (powerRZ a ea * powerRZ b eb) (g (x :: y :: rs)).

(** functions of one operand whose result is proportional to a power of it *)
Definition degree_names : list (string * Qc) :=
  [("sqrt", frac 1 2); ("cholesky", frac 1 2); ("rsqrt", frac (-1) 2); ("square", fint 2); ("var", fint 2); ("cov", fint 2);
   ("inverse", fint (-1)); ("pinverse", fint (-1)); ("reciprocal", fint (-1)); ("cholesky_inverse", fint (-2))].
Definition degree (p : Qc) (g : list raw -> tensor) : Prop :=
  forall c x rs, 0 < c -> g (rscale c x :: rs) = tscale (rpow c p) (g (x :: rs)).

(** ** Roles of operands: the common dimension, dimensionless, or a parameter without units (index, mask, flag) *)
Inductive role := Same | Pure | Param.
(** functions with a fixed list of roles and the role of the result; further arguments are parameters *)
Definition role_table : list (string * list role * role) :=
  [("dist", [Same; Same], Same); ("cdist", [Same; Same], Same);
   ("diff", [Same; Param; Param; Same; Same], Same);
   ("where", [Same; Param; Same], Same); ("masked_scatter", [Same; Param; Same], Same); ("masked_fill", [Same; Param; Same], Same);
   ("put", [Same; Param; Same], Same); ("index_put", [Same; Param; Same], Same);
   ("index_copy", [Same; Param; Param; Same], Same); ("index_fill", [Same; Param; Param; Same], Same);
   ("scatter", [Same; Param; Param; Same], Same); ("scatter_add", [Same; Param; Param; Same], Same);
   ("index_add", [Same; Param; Param; Same; Pure], Same);
   ("ldexp", [Same; Pure], Same); ("xlogy", [Same; Pure], Same); ("special_xlogy", [Same; Pure], Same); ("special_xlog1py", [Same; Pure], Same);
   ("prelu", [Same; Pure], Same); ("polar", [Same; Pure], Same); ("lerp", [Same; Same; Pure], Same);
   ("atan2", [Same; Same], Pure); ("allclose", [Same; Same; Param; Param], Pure); ("isclose", [Same; Same; Param; Param], Pure);
   ("histc", [Same; Param; Same; Same], Pure);
   ("logaddexp", [Pure; Pure], Pure); ("logaddexp2", [Pure; Pure], Pure); ("igamma", [Pure; Pure], Pure); ("igammac", [Pure; Pure], Pure);
   ("special_gammainc", [Pure; Pure], Pure); ("special_gammaincc", [Pure; Pure], Pure); ("special_zeta", [Pure; Pure], Pure)] ++
  map (fun n => (n, [Pure], Pure))
   ["sin"; "cos"; "tan"; "sinc"; "asin"; "arcsin"; "acos"; "arccos"; "atan"; "arctan";
    "exp"; "exp2"; "expm1"; "matrix_exp"; "log"; "log2"; "log10"; "log1p"; "logsumexp"; "special_logsumexp"; "logcumsumexp";
    "lgamma"; "digamma"; "mvlgamma"; "special_multigammaln"; "erf"; "erfc"; "erfinv"; "logit"; "special_logit"; "sigmoid"; "i0";
    "sinh"; "asinh"; "arcsinh"; "cosh"; "acosh"; "arccosh"; "tanh"; "atanh"; "arctanh"; "bernoulli"; "logdet";
    "softmax"; "special_softmax"; "log_softmax"; "special_log_softmax"; "ceil"; "floor"; "round"; "special_round"; "fix"; "trunc"; "frac";
    "special_airy_ai"; "special_bessel_j0"; "special_bessel_j1"; "special_bessel_y0"; "special_bessel_y1";
    "special_gammaln"; "special_digamma"; "special_psi"; "special_entr"; "special_erf"; "special_erfc"; "special_erfcx"; "special_erfinv";
    "special_exp2"; "special_expit"; "special_expm1"; "special_i0"; "special_i0e"; "special_i1"; "special_i1e"; "special_log1p";
    "special_log_ndtr"; "special_ndtr"; "special_ndtri"; "special_sinc"].
(** multiply the operands of the common dimension by a number *)
Fixpoint rescale (c : R) (ros : list role) (rs : list raw) : list raw :=
  match ros, rs with
  | Same :: ros', r :: rs' => rscale c r :: rescale c ros' rs'
  | _ :: ros', r :: rs' => r :: rescale c ros' rs'
  | _, _ => rs
  end.
(** a unit-consistent function: it scales with the operands of the common dimension, or does not depend on their scale *)
Definition consistent (ros : list role) (out : role) (g : list raw -> tensor) (rs : list raw) : Prop :=
  forall c, 0 < c -> g (rescale c ros rs) = match out with Same => tscale c (g rs) | _ => g rs end.
(** operand [y] meets its role, [d] being the common dimension *)
Definition meets (d : string -> Qc) (ro : role) (y : leaf) : Prop :=
  match ro with
  | Same => numeric y -> forall k, dim_of y k = d k
  | Pure => numeric y -> dimensionless y
  | Param => bare y
  end.
Fixpoint meet_all (d : string -> Qc) (ros : list role) (xs : list leaf) : Prop :=
  match xs with [] => True | x :: xs' => meets d (hd Param ros) x /\ meet_all d (tl ros) xs' end.
(** the operands in parameter positions carry no unit *)
Fixpoint params_bare (ros : list role) (xs : list leaf) : Prop :=
  match xs with [] => True | x :: xs' => match hd Param ros with Param => bare x | _ => True end /\ params_bare (tl ros) xs' end.

(** elementwise functions with roles *)
Definition role_functions : list (string * list role * role * (list R -> R)) :=
  [("lerp", [Same; Same; Pure], Same, arg3 lerp); ("where", [Same; Param; Same], Same, arg3 select); ("masked_fill", [Same; Param; Same], Same, arg3 (fun x m v => select v m x));
   ("prelu", [Same; Pure], Same, arg2 prelu); ("xlogy", [Same; Pure], Same, arg2 (fun x y => x * ln y)); ("ldexp", [Same; Pure], Same, arg2 (fun x e => x * Rpower 2 e));
   ("atan2", [Same; Same], Pure, arg2 atan2)].

(** ** Functions of a list of tensors (cat, stack, ...) and functions with several results *)
Definition list_names : list string :=
  ["block_diag"; "cat"; "concat"; "concatenate"; "stack"; "hstack"; "dstack"; "vstack"; "row_stack"; "column_stack"; "cartesian_prod"].
(** call with a list of operands and one further parameter *)
Definition call_list (env : pyenv) (name : string) (g : list raw -> tensor) (xs : list leaf) (param : leaf) : outcome leaf :=
  match torch_function env (fun _ => false) name
          (fun args => match args with OList l :: _ => Val (OLeaf (OT (g (map leaf_or_other l)))) | _ => Raise ETypeError end)
          [OList (map OLeaf xs); OLeaf param] with
  | Val (OLeaf y) => Val y
  | Val _ => Raise ETypeError
  | Raise e => Raise e
  end.
(** concatenation of the elements *)
Definition concatenation (rs : list raw) : tensor :=
  let data := flat_map (fun r => match r with RTen t => tdata t | RNum x => [x] | _ => [] end) rs in
  {| tshape := [length data]; tdata := data; tfloat := true |}.

(** a tuple, or an instance of a tuple subclass *)
Definition tuple_like {A} (c : option nat) (l : list (obj A string)) : obj A string := match c with None => OTuple l | Some c => OSub c l end.
(** call of a function with several results, returned in a tuple (or a tuple subclass [c]) *)
Definition call_multi (env : pyenv) (name : string) (c : option nat) (gs : list (list raw -> tensor)) (xs : list leaf) : outcome (list leaf) :=
  match torch_function env (fun _ => false) name
          (fun args => Val (tuple_like c (map (fun g => OLeaf (OT (g (map leaf_or_other args)))) gs))) (map OLeaf xs) with
  | Val (OTuple l) | Val (OSub _ l) => mapM (fun o => match o with OLeaf y => Val y | _ => Raise ETypeError end) l
  | Val _ => Raise ETypeError
  | Raise e => Raise e
  end.
(** the results of functions of one operand, as powers of its dimension *)
Definition multi_names : list (string * list Qc) :=
  [("var_mean", [fint 2; fint 1]); ("lu", [fint 1; fint 0]); ("linalg_lu_factor", [fint 1; fint 0]); ("eig", [fint 1; fint 0]); ("linalg_eig", [fint 1; fint 0]);
   ("symeig", [fint 1; fint 0]); ("lobpcg", [fint 1; fint 0]); ("qr", [fint 0; fint 1]);
   ("svd", [fint 0; fint 1; fint 0]); ("linalg_svd", [fint 0; fint 1; fint 0]); ("pca_lowrank", [fint 0; fint 1; fint 0])].

(** ** Determinants: expansion along the first row *)
Definition minor (j : nat) (a : nat -> nat -> R) (r c : nat) : R := a (S r) (if (c <? j)%nat then c else S c).
Fixpoint det (n : nat) (a : nat -> nat -> R) : R :=
  match n with O => 1 | S n' => sum_to n (fun j => (-1) ^ j * a 0%nat j * det n' (minor j a)) end.
Definition determinant (rs : list raw) : tensor :=
  match rs with
  | RTen t :: _ => match tshape t with [n; _] => {| tshape := []; tdata := [det n (entry t n)]; tfloat := true |} | _ => empty end
  | _ => empty
  end.
(** the product of a chain of matrices *)
Definition chain_product (rs : list raw) : tensor :=
  match rs with
  | RTen t :: rs' => fold_left (fun a r => matrix_product [RTen a; r]) rs' t
  | _ => empty
  end.
(** scale the operands one by one *)
Fixpoint rescale_each (cs : list R) (rs : list raw) : list raw :=
  match cs, rs with c :: cs', r :: rs' => rscale c r :: rescale_each cs' rs' | _, _ => rs end.
Fixpoint product (cs : list R) : R := match cs with [] => 1 | c :: cs' => c * product cs' end.
