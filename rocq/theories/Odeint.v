(** * Model of /repo/phytorch/cosmology/drivers/odeint.py (definitions only), with the shapes of its tensors

    A tensor is a shape and a function of multi-indices; elementwise functions broadcast.  Numbers are exact reals; dtypes and devices
    (31-41) are not modelled.  [odeint f shape t] is torchdiffeq's odeint_adjoint for the right hand side [f] (which does not depend on the
    solution) from zeros of the given shape: the solution at every time, or [None] if it raises. *)
From Coq Require Import List Bool Arith Reals.
From Verif Require Import Cosmo CosmoDist InterpND.
Import ListNotations.
Open Scope R_scope.

Record tensor := Tensor { tshape : list nat; tat : list nat -> R }.
(** a parameter or redshift: a number or a tensor ([_TN]) *)
Inductive value := Num (x : R) | Ten (t : tensor).

(** torch.broadcast_shapes: aligned at the last dimension, equal sizes or 1 *)
Fixpoint bcr (a b : list nat) : option (list nat) :=
  match a, b with
  | [], l | l, [] => Some l
  | x :: a', y :: b' =>
      match bcr a' b' with
      | None => None
      | Some r => if Nat.eqb x y then Some (x :: r) else if Nat.eqb x 1 then Some (y :: r) else if Nat.eqb y 1 then Some (x :: r) else None
      end
  end.
Definition broadcast2 (a b : list nat) : option (list nat) := option_map (@rev nat) (bcr (rev a) (rev b)).
Definition broadcast_shapes (l : list (list nat)) : option (list nat) :=
  fold_left (fun acc s => match acc with Some a => broadcast2 a s | None => None end) l (Some []).
(** the element of a tensor that meets index [j] of a broadcast result *)
Fixpoint bidx (s j : list nat) : list nat := match s, j with n :: s', i :: j' => (if Nat.eqb n 1 then 0%nat else i) :: bidx s' j' | _, _ => [] end.
Definition bget (t : tensor) (j : list nat) : R := tat t (rev (bidx (rev (tshape t)) (rev j))).
(** elementwise product *)
Definition tmul (a b : tensor) : option tensor := option_map (fun s => Tensor s (fun j => bget a j * bget b j)) (broadcast2 (tshape a) (tshape b)).

Definition as_tensor (v : value) : tensor := match v with Num x => Tensor [] (fun _ => x) | Ten t => t end.
Definition numel (t : tensor) : nat := prodn (tshape t).
(** flatten and reshape, in row-major order *)
Definition flatten (t : tensor) : list R := map (tat t) (multi_indices (tshape t)).
Fixpoint row_major (s idx : list nat) : nat := match s, idx with _ :: s', i :: idx' => (i * prodn s' + row_major s' idx')%nat | _, _ => O end.
Definition reshape (l : list R) (s : list nat) : option tensor :=
  if Nat.eqb (length l) (prodn s) then Some (Tensor s (fun idx => nth (row_major s idx) l 0)) else None.

(** An instance whose attributes may be tensors; the instance that element [j] of an elementwise computation sees *)
Definition bstate := pname -> option value.
Definition state_at (bs : bstate) (j : list nat) : state := fun p => match bs p with Some (Num x) => Some x | Some (Ten t) => Some (bget t j) | None => None end.
(** _param_shape (23-27): the shapes of the tensors among the parameters.  The derived parameters (Tcmb0, wp, Ode0 of the flat classes) have a
    shape broadcast from those listed here, which does not change the result. *)
Definition param_shape (c : cls) (bs : bstate) : option (list nat) :=
  broadcast_shapes (flat_map (fun p => match bs p with Some (Ten t) => [tshape t] | _ => [] end) (parameters_of c)).

Section Driver.
Variable odeint : (R -> list nat -> option R) -> list nat -> list R -> option (list (list nat -> R)).
(** _integrate (29-52) *)
Definition integrate (c : cls) (bs : bstate) (func : cls -> state -> R -> option R) (z1 z2 : value) : option tensor :=
  match param_shape c bs with
  | None => None
  | Some P =>
      let z1 := as_tensor z1 in let z2 := as_tensor z2 in
      if Nat.eqb (numel z1) 1 then                                    (* the assertion (43) *)
        match odeint (fun z j => func c (state_at bs j) z) P (flatten z1 ++ flatten z2) with
        | Some ys => reshape (concat (map (fun y => map y (multi_indices P)) (tl ys))) (tshape z2 ++ P)
        | None => None
        end
      else None
  end.
(** __init_subclass__ (57-61) *)
Definition comoving_z1z2 (c : cls) (bs : bstate) := integrate c bs inv_efunc.
Definition lookback (c : cls) (bs : bstate) (z : value) := integrate c bs lookback_time_integrand (Num 0) z.
Definition absorption (c : cls) (bs : bstate) (z : value) := integrate c bs abs_distance_integrand (Num 0) z.
(** core.py:256-286 on the result: comoving_distance_dimless, comoving_transverse_distance_dimless, luminosity_distance_dimless.  The curvature
    is broadcast against the distance; in the flat classes the transformation is the identity (flat.py:17-18). *)
Definition comoving_at (c : cls) (bs : bstate) (z : value) := comoving_z1z2 c bs (Num 0) z.
Definition curvature (c : cls) (s : state) : option R := if flat c then None else get_Ok0 c s.
Definition transverse (c : cls) (bs : bstate) (z : value) : option tensor :=
  option_map (fun d => Tensor (tshape d) (fun idx => transform (curvature c (state_at bs idx)) (tat d idx))) (comoving_at c bs z).
Definition zp1 (z : value) : tensor := Tensor (tshape (as_tensor z)) (fun i => tat (as_tensor z) i + 1).
Definition luminosity (c : cls) (bs : bstate) (z : value) : option tensor :=
  match transverse c bs z with Some d => tmul d (zp1 z) | None => None end.
End Driver.
