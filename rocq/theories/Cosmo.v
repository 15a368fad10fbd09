(** * Model of /repo/phytorch/cosmology (definitions only): parameters, expansion rate, densities

    Files core.py, utils.py, special/decdm.py, special/concrete.py, special/flat.py, module.py, components.py.
    Numbers are exact reals, one element of each tensor.  The Hubble constant and the temperature are the real values of the
    quantities in a fixed coherent system of units (claims C18-C24 are about quantities); [cdens] is 3/(8 pi G) (core.py:301),
    [raddens] is 4 sigma / c^3 (decdm.py:134).  [None] is an exception. *)
From Coq Require Import List Bool Arith Reals.
Import ListNotations.
Open Scope R_scope.

(** ** Classes *)
(** concrete.py: LambdaCDM, wCDM, w0waCDM, wpwaCDM, w0wzCDM; [rad]: the subclasses with RadiationFLRWMixin (name ending in R);
    [flat]: the classes generated in flat.py:61-67. *)
Inductive de := CC | W | W0Wa | WpWa | W0Wz.
Record cls := Cls { de_of : de; rad : bool; flat : bool }.
(** The names of all parameters, in the order of [dir] (core.py:51): alphabetical. *)
Inductive pname := H0 | Neff | Ob0 | Ode0 | Om0 | Or0 | Tcmb0 | w0 | wa | wp | wz | zp.
Definition all_names : list pname := [H0; Neff; Ob0; Ode0; Om0; Or0; Tcmb0; w0; wa; wp; wz; zp].
Definition pname_eq (p q : pname) : {p = q} + {p <> q}. Proof. decide equality. Defined.
(** Class attributes that are AbstractParameters: core.py:303 (Ok0 of core.py:140 is overridden by a property, decdm.py:102-104, or by a
    number, flat.py:15), decdm.py:22, 55, 68, 113, 126, 137; concrete.py:53 (79: a plain number in LambdaCDM), 106, 132, 140, 170. *)
Definition has (c : cls) (p : pname) : bool :=
  match p with
  | H0 | Ob0 | Ode0 | Om0 => true
  | Neff | Or0 | Tcmb0 => rad c
  | w0 => match de_of c with CC => false | _ => true end
  | wa => match de_of c with W0Wa | WpWa => true | _ => false end
  | wp | zp => match de_of c with WpWa => true | _ => false end
  | wz => match de_of c with W0Wz => true | _ => false end
  end.
(** cls._parameters (core.py:49-53) *)
Definition parameters_of (c : cls) : list pname := filter (has c) all_names.
(** flat.py:34-50: only these two flat classes override Ode0. *)
Definition flat_lambda (c : cls) : bool := flat c && match de_of c with CC => true | _ => false end.
(** Is the class attribute a PropertyParameter? (decdm.py:137, concrete.py:132, flat.py:36, 48) *)
Definition is_property (c : cls) (p : pname) : bool :=
  match p with Tcmb0 | wp => true | Ode0 => flat_lambda c | _ => false end.
(** Defaults: forge.empty (required), _no_value (utils.py:42), or a number; [H100] is core.py:23. *)
Inductive default := Required | NoValue | Value (v : R).
Section Constants.
Variables (H100 cdens raddens : R).
Definition default_of (c : cls) (p : pname) : default :=
  match p with
  | H0 => Value H100
  | Neff | Ob0 | Or0 | wa | wz | zp => Value 0
  | w0 => Value (-1)
  | Om0 => Required
  | Ode0 => if flat_lambda c then NoValue else Required
  | Tcmb0 | wp => NoValue
  end.

(** ** Instances: the instance dictionary; the entry of Ode0 is the attribute _Ode0. *)
Definition state := pname -> option R.
Definition upd (s : state) (p : pname) (v : R) : state := fun q => if pname_eq p q then Some v else s q.
Definition empty : state := fun _ => None.
Definition bind {A B} (x : option A) (f : A -> option B) : option B := match x with Some a => f a | None => None end.
Notation "'do' x <- a ; b" := (bind a (fun x => b)) (at level 200, x name, a at level 100, b at level 200).

(** _sum0_noDE (decdm.py:97-99, 158-160) *)
Definition sum0_noDE (c : cls) (s : state) : option R :=
  do m <- s Om0; if rad c then do r <- s Or0; Some (m + r) else Some m.
(** Ode0 (decdm.py:22-32): the attribute if it was assigned, otherwise 1 - Ok0 - sum.  In a class that is not flat Ok0 needs Ode0 again:
    RecursionError. *)
Definition get_Ode0 (c : cls) (s : state) : option R :=
  match s Ode0 with
  | Some v => Some v
  | None => if flat c then do t <- sum0_noDE c s; Some (1 - 0 - t) else None
  end.
(** Ok0 (decdm.py:101-104; flat.py:15) *)
Definition get_Ok0 (c : cls) (s : state) : option R :=
  if flat c then Some 0 else do t <- sum0_noDE c s; do d <- get_Ode0 c s; Some (1 - t - d).
(** decdm.py:135 *)
Definition nu_scale : R := 7 / 8 * Rpower (4 / 11) (4 / 3).
(** critical_density0 (core.py:352-362) *)
Definition critical_density0 (s : state) : option R := do h <- s H0; Some (cdens * h ^ 2).
(** Reading an attribute.  Tcmb0 (decdm.py:137-144): the power 0.25 of a nonnegative number. *)
Definition get (c : cls) (s : state) (p : pname) : option R :=
  match p with
  | Ode0 => get_Ode0 c s
  | Tcmb0 => do r <- s Or0; do n <- s Neff; do cd <- critical_density0 s; Some (sqrt (sqrt (r / (1 + n * nu_scale) * cd / raddens)))
  | wp => s w0
  | _ => s p
  end.
(** Assigning a parameter: setters decdm.py:34-36, 146-148; concrete.py:136-138; flat.py:38-40, 50-52; otherwise the instance dictionary. *)
Definition set (c : cls) (s : state) (p : pname) (v : R) : option state :=
  match p with
  | Ode0 => if flat_lambda c then
              if rad c then do r <- s Or0; Some (upd s Om0 (1 - r - v)) else Some (upd s Om0 (1 - v))
            else Some (upd s Ode0 v)
  | Tcmb0 => do n <- s Neff; do cd <- critical_density0 s; Some (upd s Or0 ((1 + n * nu_scale) * (v ^ 4 * raddens / cd)))
  | wp => Some (upd s w0 v)
  | _ => Some (upd s p v)
  end.
(** _set_params (core.py:38-42): in the order of the keyword arguments *)
Fixpoint set_params (c : cls) (s : state) (kw : list (pname * R)) : option state :=
  match kw with [] => Some s | (p, v) :: kw' => do s' <- set c s p v; set_params c s' kw' end.
(** The first loop of __init__ (core.py:62-64): Parameters that have a default value.  Run alone by module.py:17-18. *)
Definition initial (c : cls) : state :=
  fold_left (fun s p => match default_of c p with Value v => upd s p v | _ => s end) (parameters_of c) empty.
(** Calling the class (core.py:44-65).  forge.sign makes a keyword-only signature with the parameters in the order of [parameters_of], rejects
    unknown and missing arguments, and passes the arguments on in the order of the signature, with the defaults filled in. *)
Definition kwarg (c : cls) (kw : pname -> option R) (p : pname) : list (pname * R) :=
  match kw p with Some v => [(p, v)] | None => match default_of c p with Value v => [(p, v)] | _ => [] end end.
Definition is_required (c : cls) (p : pname) : bool := match default_of c p with Required => true | _ => false end.
Definition given (kw : pname -> option R) (p : pname) : bool := match kw p with Some _ => true | None => false end.
Definition construct (c : cls) (kw : pname -> option R) : option state :=
  if forallb (fun p => implb (given kw p) (has c p) && implb (has c p && is_required c p) (given kw p)) all_names
  then set_params c (initial c) (flat_map (kwarg c kw) (parameters_of c))
  else None.
(** Cosmology.parameters (core.py:68-71).  The values of _parameters are pairs (annotation, parameter), so that
    [not isinstance(val, PropertyParameter)] is always true; getattr(., ., None) gives None for an unset attribute. *)
Definition isinstance_pair_property (p : pname) : bool := false.
Definition parameters (c : cls) (s : state) : list (pname * option R) :=
  map (fun p => (p, get c s p)) (filter (fun p => negb (isinstance_pair_property p)) (parameters_of c)).

(** ** Dark energy (concrete.py); the argument is 1+z *)
Definition w0_of (c : cls) (s : state) : option R := match s w0 with Some v => Some v | None => match de_of c with CC => Some (-1) | _ => None end end.
(** _w: 55-56, 108-109, 146-147 (ap: 142-144), 172-173 *)
Definition w_of (c : cls) (s : state) (zp1 : R) : option R :=
  do w <- w0_of c s;
  match de_of c with
  | CC | W => Some w
  | W0Wa => do a <- s wa; Some (w + a * (1 - 1 / zp1))
  | WpWa => do a <- s wa; do z <- s zp; Some (w + a * (1 / (1 + z) - 1 / zp1))
  | W0Wz => do b <- s wz; Some (w - b + b * zp1)
  end.
(** _de_density_scale: 83-84, 58-59, 111-112, 149-150, 175-176.  The real power of a positive number. *)
Definition de_scale (c : cls) (s : state) (zp1 : R) : option R :=
  match de_of c with
  | CC => Some 1
  | W => do w <- s w0; Some (Rpower zp1 (3 * (1 + w)))
  | W0Wa => do w <- s w0; do a <- s wa; Some (Rpower zp1 (3 * (1 + w + a)) * exp (-3 * a * (1 - 1 / zp1)))
  | WpWa => do w <- s w0; do a <- s wa; do z <- s zp; Some (Rpower zp1 (3 * (1 + w + 1 / (1 + z) * a)) * exp (-3 * a * (1 - 1 / zp1)))
  | W0Wz => do w <- s w0; do b <- s wz; Some (Rpower zp1 (3 * (1 + w - b)) * exp (-3 * b * zp1 - 3 * b))
  end.
(** _e2func: decdm.py:106-107, 162-163, concrete.py:86-87 *)
Definition e2_zp1 (c : cls) (s : state) (zp1 : R) : option R :=
  do m <- s Om0; do k <- get_Ok0 c s; do d <- get_Ode0 c s;
  do base <- (match de_of c with
              | CC => Some (zp1 ^ 2 * (m * zp1 + k) + d)
              | _ => do f <- de_scale c s zp1; Some (zp1 ^ 2 * (m * zp1 + k) + d * f)
              end);
  if rad c then do r <- s Or0; Some (base + r * zp1 ^ 4) else Some base.
(** e2func (core.py:195-197) *)
Definition e2func (c : cls) (s : state) (z : R) : option R := e2_zp1 c s (1 + z).
(** ** Density fractions *)
(** _redshift_power (core.py:120-125, 147; decdm.py:61, 74, 90, 119); Odm0 = Om0 - Ob0 (decdm.py:81-88) *)
Definition fraction (c : cls) (s : state) (o : option R) (power : nat) (z : R) : option R := do v <- o; do e <- e2func c s z; Some (v * (z + 1) ^ power / e).
Definition Om (c : cls) (s : state) (z : R) := fraction c s (s Om0) 3 z.
Definition Ob (c : cls) (s : state) (z : R) := fraction c s (s Ob0) 3 z.
Definition Odm (c : cls) (s : state) (z : R) := fraction c s (do m <- s Om0; do b <- s Ob0; Some (m - b)) 3 z.
Definition Ok (c : cls) (s : state) (z : R) := fraction c s (get_Ok0 c s) 2 z.
Definition Or (c : cls) (s : state) (z : R) := fraction c s (s Or0) 4 z.
(** Ode (decdm.py:44-53; for LambdaCDM concrete.py:81 with core.py:127-128) *)
Definition Ode (c : cls) (s : state) (z : R) : option R :=
  do d <- get_Ode0 c s;
  match de_of c with
  | CC => do e <- e2func c s z; Some (d / e)
  | _ => do f <- de_scale c s (1 + z); do e <- e2_zp1 c s (1 + z); Some (d * f / e)
  end.
(** Tcmb(z) (decdm.py:150-156) *)
Definition Tcmb (c : cls) (s : state) (z : R) : option R := do t <- get c s Tcmb0; Some (t * (1 + z)).
(** critical_density (core.py:364-373) *)
Definition critical_density (c : cls) (s : state) (z : R) : option R := do r <- critical_density0 s; do e <- e2func c s z; Some (r * e).
End Constants.

(** ** components.py *)
(** A component is its present density and its dependence on redshift (9-55): *)
Record component := Component { O0 : R; redshift : R -> R }.
Definition powerlaw (o p : R) : component := Component o (fun z => Rpower (z + 1) p).
Definition radiation_component (o : R) := powerlaw o 4.
Definition matter_component (o : R) := powerlaw o 3.
Definition w0_component (o w : R) := powerlaw o (3 * (1 + w)).
Definition w0wa_component (o w a : R) : component := Component o (fun z => Rpower (z + 1) (3 * (1 + w) + 3 * a) * exp (-3 * a * z / (z + 1))).
Definition lambda_component (o : R) : component := Component o (fun _ => 1).
(** e2func (61-62) *)
Definition components_e2 (cs : list component) (z : R) : R := fold_left Rplus (map (fun k => O0 k * redshift k z) cs) 0.
(** Omega (70-73): a list stands for the generator; [inl] is a single number. *)
Definition Omega (cs : list component) (z : R) (comps : list component) : option (R + list R) :=
  let ie2 := 1 / components_e2 cs z in
  let ret := map (fun k => redshift k z * ie2) comps in
  if Nat.ltb 1 (length comps) then match ret with [] => None | x :: _ => Some (inl x) end else Some (inr ret).

(** ** Times (core.py:195-248, flat.py:42-43, drivers) *)
(** inv_efunc (core.py:207-213): the power -0.5 of a positive number *)
Definition inv_efunc (c : cls) (s : state) (z : R) : option R := bind (e2func c s z) (fun e => Some (/ sqrt e)).
(** lookback_time_integrand (215-225), abs_distance_integrand (227-238) *)
Definition lookback_time_integrand (c : cls) (s : state) (z : R) : option R := bind (inv_efunc c s z) (fun i => Some (i / (z + 1))).
Definition abs_distance_integrand (c : cls) (s : state) (z : R) : option R := bind (inv_efunc c s z) (fun i => Some ((z + 1) ^ 2 * i)).
(** A redshift, possibly math.inf. *)
Inductive zval := Fin (z : R) | Inf.
(** What a class defines itself, outside FLRWDriver. *)
Record driver := Driver { own_age : option (zval -> option R); own_lookback : option (zval -> option R) }.
(** age_dimless (core.py:246-248) and lookback_time_dimless (241-243); [fuel] is the recursion limit. *)
Fixpoint age_dimless (fuel : nat) (d : driver) (z : zval) : option R :=
  match own_age d with
  | Some f => f z
  | None => match fuel with O => None | S n => lookback_time_dimless n d Inf end
  end
with lookback_time_dimless (fuel : nat) (d : driver) (z : zval) : option R :=
  match own_lookback d with
  | Some f => f z
  | None => match fuel with O => None | S n => bind (age_dimless n d (Fin 0)) (fun a => bind (age_dimless n d z) (fun b => Some (a - b))) end
  end.
(** FlatLambdaCDM.age_dimless (flat.py:42-43) for 0 < Om0 < 1 *)
Definition flat_age (s : state) (z : zval) : option R :=
  bind (s Om0) (fun m => Some ((2 / 3) / sqrt (1 - m) * arcsinh (match z with Fin z => sqrt ((1 / m - 1) / (1 + z) ^ 3) | Inf => 0 end))).
(** Which age_dimless the classes of the driver modules have, by their method resolution orders: analytic.py:39-40, 253-266 (here
    special.FlatLambdaCDM comes first), analytic_diff.py:18-19, 42-47 (here it comes last), odeint.py:57-68 (it defines no age). [g] is the
    lookback time of the driver. *)
Inductive driver_module := Analytic | AnalyticDiff | Odeint.
Definition raises (z : zval) : option R := None.
Definition driver_of (m : driver_module) (c : cls) (s : state) (g : zval -> option R) : driver :=
  let closed_form := flat_lambda c && negb (rad c) in
  Driver (match m with
          | Analytic => Some (if closed_form then flat_age s else raises)
          | AnalyticDiff => Some raises
          | Odeint => if closed_form then Some (flat_age s) else None
          end) (Some g).
