(** * Model of the distances and volumes of /repo/phytorch/cosmology/core.py, special/flat.py and of math.py (definitions only)

    One element of each tensor, exact arithmetic.  The comoving distance itself is what a driver provides. *)
From Coq Require Import Reals.
From Coquelicot Require Import Complex.
From Verif Require Import RootsPrincipal.
Open Scope R_scope.

(** ** math.py *)
(** sine of a complex number (cmath.sin, torch.sin) *)
Definition csin (z : C) : C := (sin (Re z) * cosh (Im z), cos (Re z) * sinh (Im z)).
(** sinc (math.py:27-31; torch.sinc is the same function) *)
Definition sinc (x : C) : C := let y := Cmult x (RtoC PI) in if Ceq_dec y 0 then RtoC 1 else Cdiv (csin y) y.
(** csinc (34-35) with where (21-24): for tensors both branches are computed and one is selected; for numbers the quotient is computed first
    and a division by zero is an exception. *)
Definition csinc (is_tensor : bool) (x : C) (eps : R) : option C :=
  let quotient := Cdiv (Cminus 1 (sinc x)) (Cmult (Cmult x (RtoC PI)) (Cmult x (RtoC PI))) in
  let selected := if Rlt_dec eps (Cmod x) then quotient else RtoC (1 / 6) in
  if is_tensor then Some selected else if Ceq_dec (Cmult (Cmult x (RtoC PI)) (Cmult x (RtoC PI))) 0 then None else Some selected.

(** ** core.py *)
(** sqrtOk0 (154-157), isqrtOk0_pi (159-162) *)
Definition sqrtOk0 (Ok0 : R) : C := psqrt (RtoC Ok0).
Definition isqrtOk0_pi (Ok0 : R) : C := Cdiv (Cmult Ci (sqrtOk0 Ok0)) (RtoC PI).
(** transform_curved (164-186) *)
Definition transform_curved (Ok0 d : R) : R := d * Re (sinc (Cmult (isqrtOk0_pi Ok0) (RtoC d))).
(** comoving_volume_dimless (288-291) as a function of the comoving distance; realise (math.py:9-10) *)
Definition comoving_volume_of (is_tensor : bool) (Ok0 dc eps : R) : option R :=
  match csinc is_tensor (Cmult (Cmult (RtoC 2) (isqrtOk0_pi Ok0)) (RtoC dc)) eps with Some c => Some (8 * PI * dc ^ 3 * Re c) | None => None end.
(** flat.py:17-21 *)
Definition flat_transform_curved (d : R) : R := d.
Definition flat_comoving_volume_of (dc : R) : R := 4 * PI / 3 * flat_transform_curved dc ^ 3.

Section Distances.
(** What the driver defines: one of the two comoving distances (core.py:255-262). *)
Inductive comoving := Own12 (f : R -> R -> R) | Own1 (f : R -> R).
Variable driver : comoving.
Definition comoving_distance_dimless (z : R) : R := match driver with Own1 f => f z | Own12 f => f 0 z end.
Definition comoving_distance_dimless_z1z2 (z1 z2 : R) : R := match driver with Own12 f => f z1 z2 | Own1 f => f z2 - f z1 end.
(** The class: transform_curved of core.py with the value of Ok0, or the one of FlatFLRWMixin; [inv_efunc] and the Hubble distance. *)
Variable curvature : option R.
Definition transform (d : R) : R := match curvature with Some k => transform_curved k d | None => flat_transform_curved d end.
Variable inv_efunc : R -> R.
(** Units: [hubble_distance] is c/H0 in some unit of length, [pc10] is 10 pc in that unit (core.py:332-345). *)
Variables (hubble_distance pc10 : R).
(** 264-286 *)
Definition comoving_transverse_distance_dimless (z : R) : R := transform (comoving_distance_dimless z).
Definition comoving_transverse_distance_dimless_z1z2 (z1 z2 : R) : R := transform (comoving_distance_dimless_z1z2 z1 z2).
Definition angular_diameter_distance_dimless (z : R) : R := comoving_transverse_distance_dimless z / (z + 1).
Definition angular_diameter_distance_dimless_z1z2 (z1 z2 : R) : R := comoving_transverse_distance_dimless_z1z2 z1 z2 / (z2 + 1).
Definition luminosity_distance_dimless (z : R) : R := comoving_transverse_distance_dimless z * (z + 1).
Definition differential_comoving_volume_dimless (z : R) : R := comoving_transverse_distance_dimless z ^ 2 * inv_efunc z.
Definition comoving_volume_dimless (is_tensor : bool) (eps z : R) : option R :=
  match curvature with Some k => comoving_volume_of is_tensor k (comoving_distance_dimless z) eps | None => Some (flat_comoving_volume_of (comoving_distance_dimless z)) end.
(** 425-520: each multiplied by the Hubble distance or its cube (347-350); the steradian is not modelled. *)
Definition comoving_distance (z : R) : R := hubble_distance * comoving_distance_dimless z.
Definition comoving_transverse_distance (z : R) : R := hubble_distance * comoving_transverse_distance_dimless z.
Definition comoving_transverse_distance_z1z2 (z1 z2 : R) : R := hubble_distance * comoving_transverse_distance_dimless_z1z2 z1 z2.
Definition angular_diameter_distance (z : R) : R := hubble_distance * angular_diameter_distance_dimless z.
Definition angular_diameter_distance_z1z2 (z1 z2 : R) : R := hubble_distance * angular_diameter_distance_dimless_z1z2 z1 z2.
Definition luminosity_distance (z : R) : R := hubble_distance * luminosity_distance_dimless z.
Definition differential_comoving_volume (z : R) : R := hubble_distance ^ 3 * differential_comoving_volume_dimless z.
Definition comoving_volume (is_tensor : bool) (eps z : R) : option R := match comoving_volume_dimless is_tensor eps z with Some v => Some (hubble_distance ^ 3 * v) | None => None end.
(** distmod (522-535) *)
Definition log10 (x : R) : R := ln x / ln 10.
Definition hubble_distance_in_10pc : R := hubble_distance / pc10.
Definition distmod (z : R) : R := 2.5 * log10 ((luminosity_distance_dimless z * hubble_distance_in_10pc) ^ 2).
End Distances.
