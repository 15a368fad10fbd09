(** * Model of /repo/phytorch/cosmology/drivers/_analytic_base.py and drivers/analytic.py (definitions only)

    Classes LambdaCDM, LambdaCDMR, FlatLambdaCDM, FlatLambdaCDMR: [de_of c = CC].  Exact arithmetic, one element of each tensor.
    [csqrt] is the power 0.5 of a complex number, the other parameters are those of [Roots.roots]; [elliprf], [elliprc], [elliprj] are the
    functions of phytorch/special/elliptic. [None] is an exception. *)
From Coq Require Import List Bool Reals.
From Coquelicot Require Import Complex.
From Verif Require Import Cosmo Roots.
Import ListNotations.
Open Scope R_scope.

Section Analytic.
Variables (csqrt ccbrt : C -> C) (eigvals : list (list C) -> list C).
(** _epoly_leading: _analytic_base.py:44-46, 56-58 *)
Definition epoly_leading (c : cls) (s : state) : option R := if rad c then s Or0 else s Om0.
(** _epoly_coeffs_: 48-50, 60-62 *)
Definition epoly_coeffs_ (c : cls) (s : state) : option (list R) :=
  bind (s Om0) (fun m => bind (get_Ok0 c s) (fun k => bind (get_Ode0 c s) (fun d =>
  Some (if rad c then [m; k; 0; d] else [k; 0; d])))).
(** _epoly_coeffs (24-27) *)
Definition epoly_coeffs (c : cls) (s : state) : option (list R) :=
  bind (epoly_leading c s) (fun l => bind (epoly_coeffs_ c s) (fun cs => Some (map (fun x => x / l) cs))).
(** _roots_force_numeric: 29, 42 *)
Definition roots_force_numeric (c : cls) : bool := rad c.
(** _epoly_roots (31-34) *)
Definition epoly_roots (c : cls) (s : state) : option (list C) :=
  bind (epoly_coeffs c s) (fun cs =>
  match roots csqrt ccbrt eigvals (roots_force_numeric c) (map RtoC cs) with inl _ => None | inr rs => Some (map (fun r => Cminus r (RtoC 1)) rs) end).
(** _fix_dimless (36-37) for a positive leading coefficient *)
Definition fix_dimless (c : cls) (s : state) (val : C) : option R := bind (epoly_leading c s) (fun l => Some (Re val / sqrt l)).

Variables (elliprf : C -> C -> C -> C) (elliprc : C -> C -> C) (elliprj : C -> C -> C -> C -> C).
(** LambdaCDM._get_ellipr_params (analytic.py:101-110): [d z r] is (z - r)**0.5 *)
Definition d (z : R) (r : C) : C := csqrt (Cminus (RtoC z) r).
Definition square (x : C) : C := Cmult x x.
Definition ellipr_params3 (z1 z2 : R) (r1 r2 r3 : C) : C * C * C :=
  let d11 := d z1 r1 in let d12 := d z1 r2 in let d13 := d z1 r3 in
  let d21 := d z2 r1 in let d22 := d z2 r2 in let d23 := d z2 r3 in
  (square (Cplus (Cmult (Cmult d11 d22) d23) (Cmult (Cmult d21 d12) d13)),
   square (Cplus (Cmult (Cmult d11 d22) d13) (Cmult (Cmult d21 d12) d23)),
   square (Cplus (Cmult (Cmult d11 d12) d23) (Cmult (Cmult d21 d22) d13))).
(** LambdaCDMR._get_ellipr_params (172-181), the roots already reversed *)
Definition ellipr_params4 (z1 z2 : R) (r1 r2 r3 r4 : C) : C * C * C :=
  let d11 := d z1 r1 in let d12 := d z1 r2 in let d13 := d z1 r3 in let d14 := d z1 r4 in
  let d21 := d z2 r1 in let d22 := d z2 r2 in let d23 := d z2 r3 in let d24 := d z2 r4 in
  (square (Cplus (Cmult (Cmult (Cmult d11 d12) d23) d24) (Cmult (Cmult (Cmult d21 d22) d13) d14)),
   square (Cplus (Cmult (Cmult (Cmult d11 d22) d13) d24) (Cmult (Cmult (Cmult d21 d12) d23) d14)),
   square (Cplus (Cmult (Cmult (Cmult d11 d22) d23) d14) (Cmult (Cmult (Cmult d21 d12) d13) d24))).
(** comoving_distance_dimless_z1z2: 112-113, 183-184.  Unpacking the wrong number of roots is an exception. *)
Definition analytic_comoving (c : cls) (s : state) (z1 z2 : R) : option R :=
  bind (epoly_roots c s) (fun rts =>
  bind (match (if rad c then rev rts else rts), rad c with
        | [r1; r2; r3], false => Some (ellipr_params3 z1 z2 r1 r2 r3)
        | [r1; r2; r3; r4], true => Some (ellipr_params4 z1 z2 r1 r2 r3 r4)
        | _, _ => None
        end) (fun u => let '(u1, u2, u3) := u in
  bind (fix_dimless c s (elliprf u1 u2 u3)) (fun f => Some (2 * (z2 - z1) * f)))).
(** lookback_time_dimless of LambdaCDM: 115-122 *)
Definition analytic_lookback (c : cls) (s : state) (z : R) : option R :=
  bind (epoly_roots c s) (fun rts =>
  match rts, rad c with
  | [r1; r2; r3], false =>
      let '(u1, u2, u3) := ellipr_params3 0 z r1 r2 r3 in
      let D1 := Cmult (Cmult (d 0 r1) (d 0 r2)) (d 0 r3) in let D2 := Cmult (Cmult (d z r1) (d z r2)) (d z r3) in
      let p := Cplus (Cmult (Cplus r1 (RtoC 1)) (RtoC (z ^ 2))) u1 in
      bind (fix_dimless c s (Cplus (elliprc (square (Cplus (Cmult D1 (RtoC (z + 1))) D2)) (Cmult (RtoC (z + 1)) p))
                                   (Cmult (RtoC (z ^ 2 / 3)) (elliprj u1 u2 u3 p)))) (fun f => Some (2 * z * f))
  | _, _ => None
  end).
Variable elliprd : C -> C -> C -> C.
(** LambdaCDM._ellipr_absorption_distance_dimless_z1z2: 124-137.  For dz = 0 the quotient by dz is 0 / 0: not a number, [None]. *)
Definition analytic_absorption_z1z2 (c : cls) (s : state) (z1 z2 : R) : option R :=
  let dz := z2 - z1 in
  bind (epoly_roots c s) (fun rts =>
  match rts, rad c with
  | [r1; r2; r3], false =>
      let '(u1, u2, u3) := ellipr_params3 z1 z2 r1 r2 r3 in
      let dijdik := Cmult (Cminus r2 r1) (Cminus r3 r1) in
      let D1 := Cmult (Cmult (d z1 r1) (d z1 r2)) (d z1 r3) in let D2 := Cmult (Cmult (d z2 r1) (d z2 r2)) (d z2 r3) in
      if Req_EM_T dz 0 then None else
      bind (fix_dimless c s (Cplus (Cplus (Cdiv (Cminus D2 D1) (RtoC dz))
                                          (Cmult (Cminus (Cmult (RtoC 3) (square (Cplus r1 (RtoC 1)))) dijdik) (elliprf u1 u2 u3)))
                                   (Cmult (Cmult (RtoC 2) (Cplus (Cplus (Cplus r1 r2) r3) (RtoC 3)))
                                          (Cplus (Cmult (Cmult (RtoC (dz ^ 2 / 3)) dijdik) (elliprd u2 u3 u1))
                                                 (Cdiv (Cmult (d z1 r1) (d z2 r1)) (csqrt u1)))))) (fun f => Some (2 / 3 * dz * f))
  | _, _ => None
  end).
(** absorption_distance_dimless: 139-140, 144 *)
Definition analytic_absorption (c : cls) (s : state) (z : R) : option R := analytic_absorption_z1z2 c s 0 z.
End Analytic.
