(** * Specification vocabulary for units (independent of how the code computes) *)
From Coq Require Import ZArith QArith Qcanon String List Reals.
From Verif Require Import Frac Units.
Import ListNotations.

(** The exponent of base dimension [k] in a unit, 0 when the dimension is absent. *)
Definition exponent (u : unit_) (k : string) : Qc :=
  match List.find (fun kv => String.eqb (fst kv) k) (udim u) with
  | Some (_, v) => v
  | None => Q2Qc 0
  end.

(** Canonical form: one entry per base dimension, no zero exponent, denominators at most 10^6. *)
Definition canonical (d : dims) : Prop :=
  NoDup (map fst d) /\ Forall (fun kv => snd kv <> Q2Qc 0 /\ (fden (snd kv) <= 1000000)%Z) d.

(** The value a list of items gives to a key: the last occurrence counts. *)
Fixpoint last_binding {V} (l : list (string * V)) (k : string) : option V :=
  match l with
  | [] => None
  | (k', v) :: l' =>
      match last_binding l' k with
      | Some w => Some w
      | None => if String.eqb k k' then Some v else None
      end
  end.

(** The exponent an expression has on paper, with exact rational arithmetic. *)
Fixpoint paper_exponent (e : uexpr) (k : string) : Qc :=
  match e with
  | UNew items _ => match last_binding items k with Some v => v | None => Q2Qc 0 end
  | UMul a b => (paper_exponent a k + paper_exponent b k)%Qc
  | UDiv a b => (paper_exponent a k - paper_exponent b k)%Qc
  | UInv a => (- paper_exponent a k)%Qc
  | UPow a p => (paper_exponent a k * p)%Qc
  | UMulNum a _ => paper_exponent a k
  | UDivNum a _ => paper_exponent a k
  | URDiv _ a => (- paper_exponent a k)%Qc
  end.

(** All exponents written in the expression are multiples of 1/N, and powers are integers. *)
Fixpoint on_paper_grid (N : Z) (e : uexpr) : Prop :=
  match e with
  | UNew items _ => Forall (fun kv => (fden (snd kv) | N)%Z) items
  | UMul a b | UDiv a b => on_paper_grid N a /\ on_paper_grid N b
  | UInv a | UMulNum a _ | UDivNum a _ | URDiv _ a => on_paper_grid N a
  | UPow a p => fden p = 1%Z /\ on_paper_grid N a
  end.

(** n-fold product of a unit with itself. *)
Fixpoint repeated_product (so : set_order) (u : unit_) (n : nat) : unit_ :=
  match n with O => unit_one | S n' => umul so (repeated_product so u n') u end.
