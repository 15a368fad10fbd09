(** [interp2d]: /repo/phytorch/interpolate/__init__.py:9-32, with torch.broadcast_shapes, Tensor.expand and torch.nn.functional.grid_sample
    (mode "bilinear", padding "zeros", the defaults) written out after their documentation.
    Simplifications: real numbers, exact arithmetic; all dimensions are positive; a tensor is its shape and its entry at each multi-index;
    the flattening of the batch dimensions (26-27, 30) and the final reshape (32), which are inverse to each other, are left out, so that the
    result is given index by index; the extents are pairs of numbers; of the keyword arguments only align_corners is modelled. *)
From Coq Require Import List Arith ZArith Bool Reals.
Import ListNotations.
Open Scope R_scope.

Record tensor := Tensor { shape : list nat; at_ : list nat -> R }.
(** torch.broadcast_shapes on reversed shapes *)
Fixpoint bc (a b : list nat) : option (list nat) :=
  match a, b with
  | [], _ => Some b | _, [] => Some a
  | x :: a', y :: b' => match bc a' b' with
      | Some r => if Nat.eqb x y then Some (x :: r) else if Nat.eqb x 1 then Some (y :: r) else if Nat.eqb y 1 then Some (x :: r) else None
      | None => None end
  end.
Definition broadcast_shapes (a b : list nat) : option (list nat) := option_map (@rev nat) (bc (rev a) (rev b)).
(** Tensor.expand from shape a to shape b, reversed: each dimension equal or 1 *)
Fixpoint expandable (a b : list nat) : bool :=
  match a, b with [], _ => true | _, [] => false | x :: a', y :: b' => ((Nat.eqb x y || Nat.eqb x 1) && expandable a' b')%bool end.
(** the index into a tensor of shape s that a broadcast index goes to *)
Fixpoint bidx_rev (s idx : list nat) : list nat := match s, idx with d :: s', i :: idx' => (if Nat.eqb d 1 then O else i) :: bidx_rev s' idx' | _, _ => [] end.
Definition bidx (s idx : list nat) : list nat := rev (bidx_rev (rev s) (rev idx)).
Definition bget (t : tensor) (idx : list nat) : R := at_ t (bidx (shape t) idx).

(** grid_sample: from [-1, 1] to pixels *)
Definition unnormalise (align : bool) (n : nat) (g : R) : R := if align then (g + 1) / 2 * (INR n - 1) else ((g + 1) * INR n - 1) / 2.
(** a pixel, 0 outside *)
Definition pixel (H W : nat) (im : nat -> nat -> R) (h w : Z) : R :=
  if (Z.leb 0 h && Z.ltb h (Z.of_nat H) && Z.leb 0 w && Z.ltb w (Z.of_nat W))%bool then im (Z.to_nat h) (Z.to_nat w) else 0.
Definition grid_sample (align : bool) (H W : nat) (im : nat -> nat -> R) (gx gy : R) : R :=
  let ix := unnormalise align W gx in let iy := unnormalise align H gy in
  let w := Int_part ix in let h := Int_part iy in
  let s := ix - IZR w in let t := iy - IZR h in
  pixel H W im h w * ((1 - s) * (1 - t)) + pixel H W im h (w + 1) * (s * (1 - t))
  + pixel H W im (h + 1) w * ((1 - s) * t) + pixel H W im (h + 1) (w + 1) * (s * t).

(** 28-29 *)
Definition normalise (e : R * R) (x : R) : R := 2 * (x - fst e) / (snd e - fst e) - 1.
(** 25-32.  None is an exception. *)
Definition interp2d (align : bool) (x y z : tensor) (ex ey : R * R) : option tensor :=
  match broadcast_shapes (shape x) (shape y) with None => None | Some s =>
  (* x.shape[:-2] *)
  match broadcast_shapes s (firstn (length (shape x) - 2) (shape x)) with None => None | Some batch =>
  match rev (shape z) with
  | Ny :: Nx :: zb =>
      if expandable zb (rev batch) then
        (* flatten(end_dim=-4) needs at least four dimensions *)
        match batch with [] => None | _ :: _ =>
          Some (Tensor batch (fun idx =>
            grid_sample align Ny Nx (fun h w => at_ z (bidx (rev zb) idx ++ [w; h])) (normalise ex (bget x idx)) (normalise ey (bget y idx))))
        end
      else None
  | _ => None
  end end end.
