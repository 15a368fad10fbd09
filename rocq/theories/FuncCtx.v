(** * Model of custom autograd functions
    /repo/phytorch/utils/function_context.py, and the classes built on it in
    /repo/phytorch/special/{ellip,ellipr,gamma,gammainc}.py.

    Simplifications: one batch element, so a tensor is a complex number (a real tensor has imaginary part 0,
    for which conjugation is the identity); the autograd context is reduced to the saved tensors, the mask
    [needs_input_grad] and [grad_inv_var]; a class is its namespace plus its method resolution order, which is
    given as a list (Python computes it); [torch.as_tensor], complexification and device placement of the
    arguments are not modelled. *)
From Coq Require Import String List Bool Arith Reals.
From Coquelicot Require Import Complex.
From Verif Require Import Units.
Import ListNotations.
Open Scope string_scope.
Open Scope list_scope.

(** ** Class objects *)

(** How a gradient rule is stored in a class body. *)
Inductive kind := Static | Classm | Plain.
(** A function object: the class whose body defines it, its name, its decorator. *)
Record rawfn := mkRaw { rf_owner : string; rf_name : string; rf_kind : kind }.
(** Entries of [gradfuncs]: [None], an object as it sits in a class namespace, what attribute access
    ([__get__(None, cls)]) makes of it, or [partial(cls._grad, rule)] of [InverseMixin]. *)
Inductive gradfn :=
  | GNone
  | GRaw (r : rawfn)
  | GFun (r : rawfn)                     (* a plain function *)
  | GMeth (r : rawfn) (receiver : string) (* a bound class method *)
  | GInv (rule : gradfn).

(** The namespace of a class, in definition order; [None] in an optional field means the class does not set it. *)
Record cdict := mkClass {
  cd_name : string;
  cd_vars : list (string * rawfn);
  cd_gradfuncs : option (option (list gradfn));
  cd_auto : option bool;
  cd_ninputs : option (option nat);
  cd_diff : option bool;
  cd_update : option (list gradfn -> list gradfn);   (* _update_gradfuncs *)
  cd_back : bool }.                                  (* defines backward or _backward *)

(** [cls.attr]: the first class of the MRO that sets it. *)
Fixpoint look {V} (f : cdict -> option V) (default : V) (mro : list cdict) : V :=
  match mro with
  | [] => default
  | k :: r => match f k with Some v => v | None => look f default r end
  end.

(** function_context.py:86-89: [{key: val for t in cls.mro()[::-1] for key, val in vars(t).items() if key.startswith('grad_')}]
    (a repeated key keeps its place and takes the later value). *)
Definition gradfuncs_dict (mro : list cdict) : list (string * rawfn) :=
  fold_left (fun d kv => if String.prefix "grad_" (fst kv) then dict_set d (fst kv) (snd kv) else d)
            (concat (map cd_vars (rev mro))) [].

(** 96-98: [gf.__get__(None, cls)] for staticmethod and classmethod objects. *)
Definition bind (cls : string) (gf : gradfn) : gradfn :=
  match gf with
  | GRaw r => match rf_kind r with Static => GFun r | Classm => GMeth r cls | Plain => GFun r end
  | _ => gf
  end.

(** [TorchFunction.__init_subclass__] (83-105) run on a new class, the rest of whose MRO is [rest]. *)
Definition init_subclass (own : cdict) (rest : list cdict) : cdict :=
  let mro := own :: rest in
  let gf := look cd_gradfuncs None mro in
  let auto := look cd_auto false mro in
  let ni := look cd_ninputs None mro in
  let upd := look cd_update (fun l => l) mro in
  let recompute := match gf with None => true | Some _ => auto end in
  let gf1 := if recompute
             then match map (fun kv => GRaw (snd kv)) (gradfuncs_dict mro) with [] => None | l => Some (upd l) end
             else gf in
  let ni1 := if recompute && (match ni with None => true | Some _ => false end || auto)
             then match gf1 with Some (g :: l) => Some (length (g :: l)) | _ => None end
             else ni in
  let auto1 := if recompute && match gf1 with Some (_ :: _) => true | _ => false end then true else auto in
  let gf2 := option_map (map (bind (cd_name own))) gf1 in
  let ni2 := match gf2, ni1 with Some l, None => Some (length l) | _, n => n end in
  let diff := look cd_diff false mro in
  let diff1 := match gf2 with Some _ => true | None => diff end in
  let diff2 := if existsb cd_back mro then true else diff1 in
  {| cd_name := cd_name own; cd_vars := cd_vars own; cd_gradfuncs := Some gf2; cd_auto := Some auto1;
     cd_ninputs := Some ni2; cd_diff := Some diff2; cd_update := cd_update own; cd_back := cd_back own |}.

(** The attributes of a finished class (it is first in its own MRO, and [init_subclass] set them all). *)
Definition gradfuncs (k : cdict) : option (list gradfn) := match cd_gradfuncs k with Some g => g | None => None end.
Definition ninputs (k : cdict) : option nat := match cd_ninputs k with Some n => n | None => None end.
Definition differentiable (k : cdict) : bool := match cd_diff k with Some b => b | None => false end.

(** ** Running *)
Section Run.
(** The body of a gradient rule as a function of the saved tensors. *)
Variable sem : gradfn -> list C -> C.

(** more_itertools.padded with [n] given: at least [n] items. *)
Definition padded {V} (l : list V) (v : V) (n : nat) : list V := l ++ repeat v (n - length l).
(** [TorchFunction._backward] (59-63): [zip] stops at the shorter of the two. *)
Definition backward_ (gfs : list gradfn) (mask : list bool) (saved : list C) : list (option C) :=
  map (fun nf => match nf with
                 | (true, GNone) => None
                 | (true, gf) => Some (sem gf saved)
                 | (false, _) => None
                 end) (combine mask gfs).
(** [sum(grad * grad_output for ...)] (69), from the integer 0. *)
Definition sum_grads (g : C) (gouts : list C) : C := fold_left (fun acc go => (acc + g * go)%C) gouts (RtoC 0).
Definition somes {V} (l : list (option V)) : list V := flat_map (fun o => match o with Some v => [v] | None => [] end) l.
(** [TorchFunction.backward] (65-76) given what [_backward] returned. [None]: no tuple is returned
    (padding to [ninputs = None] never ends; [None * (None,)] raises). *)
Definition backward (proc : C -> C) (ni : option nat) (grads : list (option C)) (grad_outputs : list (option C)) : option (list (option C)) :=
  match ni with
  | None => None
  | Some n =>
      match somes grad_outputs with
      | [] => Some (repeat None n)
      | gouts => Some (padded (map (option_map (fun g => sum_grads (proc g) gouts)) grads) None n)
      end
  end.
(** [process_grad] (55-57), and that of [CargsMixin] (119-121). *)
Definition process_plain (g : C) : C := g.
Definition process_cargs (g : C) : C := Cconj g.
End Run.

(** [CimplMixin._forward] (151-153) called by [forward] (32-37) with the saved tensors followed by the arguments. *)
Definition cimpl_forward {V W} (impl : list V -> W) (n : nat) (saved args : list V) : W := impl (firstn n (saved ++ args)).
(** What [forward] saves for the backward pass (38-41). *)
Definition saved_for_backward {V} (save_output : bool) (saved : list V) (out : V) : list V :=
  if save_output then saved ++ [out] else saved.

(** [SymmetricElliprMixin._backward] (ellipr.py:91-97): [circular_shifts] are the rotations of the saved
    tensors; each is reversed, its own variable moved to the end. *)
Fixpoint rotations_from {V} (n : nat) (l : list V) : list (list V) :=
  match n with
  | O => []
  | S n' => l :: rotations_from n' (match l with [] => [] | x :: r => r ++ [x] end)
  end.
Definition circular_shifts {V} (l : list V) : list (list V) := rotations_from (length l) l.
Definition symmetric_args {V} (args : list V) : list V :=
  removelast (rev args) ++ match args with [] => [] | x :: _ => [x] end.
Definition symmetric_backward_ {V W} (grad : list V -> W) (mask : list bool) (saved : list V) : list (option W) :=
  map (fun na => if fst na : bool then Some (grad (symmetric_args (snd na))) else None) (combine mask (circular_shifts saved)).

(** [AlternativeForwardMixin._backward] (164-173): [torch.autograd.grad] returns one gradient per requested
    argument, in the order requested; [None] (the method falls off its end) when none is requested. *)
Fixpoint deal {W} (mask : list bool) (grads : list W) : list (option W) :=
  match mask with
  | [] => []
  | true :: r => match grads with g :: gs => Some g :: deal r gs | [] => [] end  (* StopIteration: cannot happen *)
  | false :: r => None :: deal r grads
  end.
Definition select {V} (mask : list bool) (l : list V) : list V := map snd (filter fst (combine mask l)).
Definition alternative_backward_ {W} (autograd_grad : list nat -> list W) (mask : list bool) (saved : list C) : list (option W) :=
  match select mask (seq 0 (length saved)) with
  | [] => []
  | relevant => deal mask (autograd_grad relevant)
  end.

(** ** InverseMixin (183-210) *)
(** [_reorder_params_for_forward] (188-190), with Python's slices. *)
Definition reorder {V} (i : nat) (args : list V) : list V :=
  firstn i args ++ match rev args with [] => [] | y :: _ => [y] end
  ++ firstn (length args - 1 - (i + 1)) (skipn (i + 1) args) ++ match nth_error args i with Some v => [v] | None => [] end.

(** Python's [==] and [is] on gradient rules: attribute access gives the same function object every time,
    but a new bound method every time. *)
Definition kind_eqb (a b : kind) : bool :=
  match a, b with Static, Static | Classm, Classm | Plain, Plain => true | _, _ => false end.
Definition raw_eqb (a b : rawfn) : bool := String.eqb (rf_owner a) (rf_owner b) && String.eqb (rf_name a) (rf_name b) && kind_eqb (rf_kind a) (rf_kind b).
Definition gf_eqb (a b : gradfn) : bool :=
  match a, b with
  | GNone, GNone => true
  | GRaw r, GRaw s | GFun r, GFun s => raw_eqb r s
  | GMeth r k, GMeth s l => raw_eqb r s && String.eqb k l
  | _, _ => false
  end.
Definition gf_is (a b : gradfn) : bool :=
  match a, b with
  | GNone, GNone => true
  | GRaw r, GRaw s | GFun r, GFun s => raw_eqb r s
  | _, _ => false
  end.
Fixpoint index_of (gf : gradfn) (l : list gradfn) : option nat :=
  match l with
  | [] => None
  | g :: r => if gf_eqb gf g then Some O else option_map S (index_of gf r)
  end.
(** [InverseMixin.__init_subclass__] (199-202): the new class's [gradfuncs], then the base machinery. [None]: [ValueError]. *)
Definition inverse_init (own : cdict) (rest : list cdict) (fwd : list gradfn) (inv_var : gradfn) : option (nat * cdict) :=
  match index_of inv_var fwd with
  | None => None
  | Some i => Some (i, init_subclass (mkClass (cd_name own) (cd_vars own) (Some (Some (map GInv fwd))) (cd_auto own)
                                              (cd_ninputs own) (cd_diff own) (cd_update own) (cd_back own)) rest)
  end.
(** [InverseMixin._backward] and [_grad] (192-197, 204-207): the meaning of [partial(cls._grad, rule)] on the saved
    tensors, [semf] being the meaning of the forward class's rules. *)
Definition inverse_sem (semf : gradfn -> list C -> C) (i : nat) (inv_var : gradfn) (gf : gradfn) (saved : list C) : C :=
  let grad_inv_var := (RtoC 1 / semf inv_var (reorder i saved))%C in
  match gf with
  | GInv rule => if gf_is rule inv_var then grad_inv_var else (- semf rule (reorder i saved) * grad_inv_var)%C
  | _ => semf gf saved
  end.

(** ** The classes of the package *)
Definition stat (k n : string) : string * rawfn := (n, mkRaw k n Static).
Definition clsm (k n : string) : string * rawfn := (n, mkRaw k n Classm).
(** function_context.py:19-105 *)
Definition k_TorchFunction : cdict :=
  mkClass "TorchFunction" [] (Some None) (Some false) (Some None) (Some false) (Some (fun l => l)) false.
(** A class body that sets [vars], and possibly [gradfuncs] and [ninputs]. *)
Definition body (name : string) (vars : list (string * rawfn)) (gf : option (list gradfn)) (ni : option nat) : cdict :=
  mkClass name vars (option_map Some gf) None (option_map Some ni) None None false.
Definition k_TensorArgs := init_subclass (body "TensorArgsMixin" [] None None) [k_TorchFunction].
Definition k_Cargs := init_subclass (body "CargsMixin" [] None None) [k_TorchFunction].
Definition k_Cimpl := init_subclass (body "CimplMixin" [] None None) [k_TorchFunction].
Definition k_Inverse := init_subclass (mkClass "InverseMixin" [] None None None None None true) [k_TorchFunction].
Definition k_Alternative := init_subclass (mkClass "AlternativeForwardMixin" [] None None None (Some true) None true) [k_TorchFunction].
(** MRO of [class X(CimplMixin, CargsMixin)] after X. *)
Definition cimpl_cargs := [k_Cimpl; k_Cargs; k_TorchFunction].
(** ellip.py:16-60 *)
Definition k_CosecantSquared := init_subclass (body "CosecantSquared" [stat "CosecantSquared" "grad_phi"] None None) cimpl_cargs.
Definition k_EllipK := init_subclass (body "EllipK" [stat "EllipK" "grad_m"] None None) cimpl_cargs.
Definition k_EllipE := init_subclass (body "EllipE" [stat "EllipE" "grad_m"] None None) cimpl_cargs.
Definition k_EllipD := init_subclass (body "EllipD" [stat "EllipD" "grad_m"] None None) cimpl_cargs.
Definition k_EllipPi := init_subclass (body "EllipPi" [stat "EllipPi" "grad_n"; stat "EllipPi" "grad_m"] None None) cimpl_cargs.
(** ellip.py:63-167 *)
Definition k_BaseEllipinc := init_subclass
  (body "BaseEllipinc" [stat "BaseEllipinc" "_get_c"; stat "BaseEllipinc" "_grad_phi"; clsm "BaseEllipinc" "grad_c";
                        clsm "BaseEllipinc" "_grad_at_phi_zero"; stat "BaseEllipinc" "grad_m"] None None) cimpl_cargs.
Definition ellipinc := k_BaseEllipinc :: cimpl_cargs.
Definition k_EllipKinc := init_subclass (body "EllipKinc" [stat "EllipKinc" "_grad_phi"; clsm "EllipKinc" "grad_m"] None None) ellipinc.
Definition k_EllipEinc := init_subclass (body "EllipEinc" [stat "EllipEinc" "_grad_phi"; clsm "EllipEinc" "grad_m"] None None) ellipinc.
Definition k_EllipDinc := init_subclass (body "EllipDinc" [stat "EllipDinc" "_grad_phi"; clsm "EllipDinc" "grad_m"] None None) ellipinc.
(** [_update_gradfuncs] (165-167): [cls.gradfuncs[:0] = (cls.gradfuncs.pop(-1),)]. *)
Definition last_first {V} (l : list V) : list V := match rev l with [] => [] | x :: r => x :: rev r end.
Definition k_EllipPiinc := init_subclass
  (mkClass "EllipPiinc" [stat "EllipPiinc" "_grad_phi"; clsm "EllipPiinc" "grad_n"; clsm "EllipPiinc" "grad_m"]
           None None None None (Some last_first) false) ellipinc.
(** ellipr.py:17-173 *)
Definition k_Elliprc := init_subclass (body "Elliprc" [stat "Elliprc" "grad_x"; stat "Elliprc" "grad_y"] None (Some 2%nat)) cimpl_cargs.
Definition k_Elliprd := init_subclass (body "Elliprd" [stat "Elliprd" "grad_x"; clsm "Elliprd" "grad_y"; stat "Elliprd" "grad_z"] None (Some 3%nat)) cimpl_cargs.
Definition k_SymmetricEllipr : cdict := mkClass "SymmetricElliprMixin" [] None None None None None true.
Definition symmetric := k_SymmetricEllipr :: cimpl_cargs.
Definition k_Elliprf := init_subclass (body "Elliprf" [stat "Elliprf" "_grad"] None (Some 3%nat)) symmetric.
Definition k_Elliprg := init_subclass (body "Elliprg" [stat "Elliprg" "_grad"] None (Some 3%nat)) symmetric.
Definition k_Elliprj := init_subclass
  (body "Elliprj" [stat "Elliprj" "grad_x"; clsm "Elliprj" "grad_y"; clsm "Elliprj" "grad_z"; stat "Elliprj" "grad_p"] None (Some 4%nat)) cimpl_cargs.
(** gamma.py:10-79: explicit [gradfuncs] *)
Definition cargs := [k_Cargs; k_TorchFunction].
Definition k_Gamma := init_subclass (body "Gamma" [stat "Gamma" "grad_z"] (Some [GRaw (mkRaw "Gamma" "grad_z" Static)]) None) cargs.
Definition k_Loggamma := init_subclass (body "Loggamma" [stat "Loggamma" "grad_z"] (Some [GRaw (mkRaw "Loggamma" "grad_z" Static)]) None) cargs.
Definition k_Digamma := init_subclass (body "Digamma" [stat "Digamma" "grad_z"] (Some [GRaw (mkRaw "Digamma" "grad_z" Static)]) None) cargs.
Definition k_Polygamma := init_subclass
  (body "Polygamma" [stat "Polygamma" "grad_z"] (Some [GNone; GRaw (mkRaw "Polygamma" "grad_z" Static)]) None) cargs.
(** gammainc.py:9-81 *)
Definition k_TGamma := init_subclass
  (body "TGamma" [stat "TGamma" "grad_a"; stat "TGamma" "grad_z"]
        (Some [GNone; GRaw (mkRaw "TGamma" "grad_a" Static); GRaw (mkRaw "TGamma" "grad_z" Static)]) (Some 3%nat)) [k_Cimpl; k_TorchFunction].
Definition cimpl_tensor := [k_Cimpl; k_TensorArgs; k_TorchFunction].
Definition k_Gammainc := init_subclass (body "Gammainc" [stat "Gammainc" "grad_a"; stat "Gammainc" "grad_z"] None (Some 2%nat)) cimpl_tensor.
Definition k_Gammaincc := init_subclass (body "Gammaincc" [stat "Gammaincc" "grad_a"; stat "Gammaincc" "grad_z"] None (Some 2%nat)) cimpl_tensor.
Definition cimpl_inverse := [k_Cimpl; k_TensorArgs; k_Inverse; k_TorchFunction].
Definition gf_list (k : cdict) : list gradfn := match gradfuncs k with Some l => l | None => [] end.
Definition k_Gammaincinv := inverse_init (body "Gammaincinv" [] None None) cimpl_inverse (gf_list k_Gammainc) (GFun (mkRaw "Gammainc" "grad_z" Static)).
Definition k_Gammainccinv := inverse_init (body "Gammainccinv" [] None None) cimpl_inverse (gf_list k_Gammaincc) (GFun (mkRaw "Gammaincc" "grad_z" Static)).
