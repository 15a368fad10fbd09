(** Conversion of arguments to complex tensors: /repo/phytorch/utils/complex.py:1-36.
    A tensor is its data type, its shape and its elements in row-major order, each with a real and an imaginary part; elements of types that are
    not complex have imaginary part 0.  [cast d] is the rounding to numbers of type [d] of what torch converts.  Simplifications: devices, memory
    formats and gradients are left out; of what torch.as_tensor accepts, Python's numbers and tensors are modelled. *)
From Coq Require Import List Reals Bool.
Import ListNotations.
Local Open Scope R_scope.

Inductive dtype := BoolT | UInt8 | Int8 | Int16 | Int32 | Int64 | Float16 | BFloat16 | Float32 | Float64 | Complex32 | Complex64 | Complex128.
Record tensor := T { dt : dtype; shape : list nat; elems : list (R * R) }.
(** torch.is_complex, torch.is_floating_point *)
Definition is_complex (d : dtype) : bool := match d with Complex32 | Complex64 | Complex128 => true | _ => false end.
Definition is_floating (d : dtype) : bool := match d with Float16 | BFloat16 | Float32 | Float64 => true | _ => false end.

Section ComplexArgs.
(** torch.get_default_dtype(): a floating point type *)
Variable default : dtype.
(** whether torch.complex accepts float16, which depends on torch's version *)
Variable half : bool.
Variable cast : dtype -> R -> R.

(** the type torch.complex gives for two parts of a type, if it accepts it *)
Definition complex_of (d : dtype) : option dtype :=
  match d with Float32 => Some Complex64 | Float64 => Some Complex128 | Float16 => if half then Some Complex32 else None | _ => None end.
(** torch.complex(t, t.new_zeros(())): a 0-dimensional second argument does not change the shape *)
Definition torch_complex (t : tensor) : option tensor :=
  match complex_of (dt t) with Some c => Some (T c (shape t) (map (fun e => (fst e, 0)) (elems t))) | None => None end.
(** t.to(d) for a real type d *)
Definition to_real (d : dtype) (t : tensor) : tensor := T d (shape t) (map (fun e => (cast d (fst e), 0)) (elems t)).
(** complex.py:19-22; None is an exception *)
Definition to_complex (t : tensor) : option tensor :=
  if is_complex (dt t) then Some t else torch_complex (if is_floating (dt t) then t else to_real default t).
(** complex.py:8-16 *)
Definition default_complex : option dtype := match default with Float32 => Some Complex64 | Float64 => Some Complex128 | _ => None end.

(** what a caller passes *)
Inductive arg := ANone | ATensor (t : tensor) | ABool (b : bool) | AInt (n : Z) | AFloat (x : R) | AComplex (x y : R).
(** torch.as_tensor; a complex number gets the complex type of the default type *)
Definition as_tensor (a : arg) : option (option tensor) :=
  match a with
  | ANone => Some None
  | ATensor t => Some (Some t)
  | ABool b => Some (Some (T BoolT [] [(if b then 1 else 0, 0)]))
  | AInt n => Some (Some (T Int64 [] [(IZR n, 0)]))
  | AFloat x => Some (Some (T default [] [(cast default x, 0)]))
  | AComplex x y => match default with
      | Float32 => Some (Some (T Complex64 [] [(cast default x, cast default y)]))
      | Float64 => Some (Some (T Complex128 [] [(cast default x, cast default y)]))
      | Float16 => Some (Some (T Complex32 [] [(cast default x, cast default y)]))
      | _ => None
      end
  end.
(** complex.py:25-26, one argument: None stays None *)
Definition convert (a : arg) : option (option tensor) :=
  match as_tensor a with
  | None => None
  | Some None => Some None
  | Some (Some t) => match to_complex t with Some u => Some (Some u) | None => None end
  end.
Fixpoint convert_all (l : list arg) : option (list (option tensor)) :=
  match l with
  | [] => Some []
  | a :: l' => match convert a with
      | None => None
      | Some x => match convert_all l' with None => None | Some r => Some (x :: r) end
      end
  end.
(** complex.py:33-36: f is called with the converted arguments; None is an exception *)
Definition with_complex_args {B} (f : list (option tensor) -> option B) (l : list arg) : option B :=
  match convert_all l with Some x => f x | None => None end.
End ComplexArgs.
