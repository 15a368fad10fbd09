(** * What the claims about cosmological parameters mean

    Written without the model's helpers, except the names of classes and parameters. *)
From Coq Require Import List Bool Reals.
Import ListNotations.
From Verif Require Import Cosmo.
Open Scope R_scope.

Section Constants.
Variables (H100 cdens raddens : R).
(** An instance: the result of a constructor call and of any number of assignments to parameters of the class. *)
Inductive instance (c : cls) : state -> Prop :=
| constructed kw s : construct H100 cdens raddens c kw = Some s -> instance c s
| assigned s p v s' : instance c s -> has c p = true -> set cdens raddens c s p v = Some s' -> instance c s'.
End Constants.

(** The documented equations of state (docstrings of concrete.py) with a = 1/(1+z). *)
Definition documented_w (d : de) (w0 wa wp wz zp : R) (z : R) : R :=
  let a := 1 / (z + 1) in let a_p := 1 / (zp + 1) in
  match d with
  | CC => -1
  | W => w0
  | W0Wa => w0 + wa * (1 - a)
  | WpWa => wp + wa * (a_p - a)
  | W0Wz => w0 + wz * z
  end.

(** Constructor calls that are accepted: every required argument is given and nothing is given that the class does not have.
    Ode0 is optional only for the flat cosmological-constant classes. *)
Definition optional (c : cls) (p : pname) : Prop :=
  match p with Om0 => False | Ode0 => de_of c = CC /\ flat c = true | _ => True end.
Definition acceptable (c : cls) (kw : pname -> option R) : Prop :=
  (forall p, kw p <> None -> has c p = true) /\ (forall p, has c p = true -> kw p = None -> optional c p).

(** Which parameters a parameter is tied to: assigning the first may change the reading of the second. *)
Definition tied (c : cls) (p q : pname) : Prop :=
  p = q
  \/ (p = w0 /\ q = wp) \/ (p = wp /\ q = w0)
  \/ (In p [Or0; Neff; H0] /\ q = Tcmb0) \/ (p = Tcmb0 /\ q = Or0)
  \/ (de_of c = CC /\ flat c = true /\ ((p = Ode0 /\ q = Om0) \/ (In p [Om0; Or0; Tcmb0] /\ q = Ode0))).
(** Documented default values (core.py:303, decdm.py, concrete.py). *)
Definition documented_default (H100 : R) (p : pname) : option R :=
  match p with
  | H0 => Some H100
  | Neff | Ob0 | Or0 | wa | wz | zp => Some 0
  | w0 => Some (-1)
  | Om0 | Ode0 | Tcmb0 | wp => None
  end.
