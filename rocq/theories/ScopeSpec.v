(** * Specification vocabulary for scopes *)
From Coq Require Import String List Bool.
From Verif Require Import Units Scope.
Import ListNotations.
Open Scope list_scope.

Section S.
Context {V : Type}.

(** ** Specification: single registrations, in order *)
Fixpoint registrations (ops : list (scope_op V)) : list (string * V * bool) :=
  match ops with
  | [] => []
  | OpRegister n v ig :: r => (n, v, ig) :: registrations r
  | OpRegisterMany ig kw :: r => map (fun kv => (fst kv, snd kv, ig)) kw ++ registrations r
  | _ :: r => registrations r
  end.

Definition rname (r : string * V * bool) : string := fst (fst r).

(** The registration of [k] that counts: it either did not ask to be ignored or was the first for its name,
    and every later one for that name asked to be ignored. *)
Definition effective (l : list (string * V * bool)) (k : string) (v : V) : Prop :=
  exists l1 l2 ig, l = l1 ++ (k, v, ig) :: l2 /\
    (ig = false \/ ~ In k (map rname l1)) /\
    (forall v' ig', In (k, v', ig') l2 -> ig' = true).

(** The names that must be warned about, in order: registrations not asking to be ignored whose name is already taken. *)
Fixpoint clashes (seen : list string) (l : list (string * V * bool)) : list string :=
  match l with
  | [] => []
  | (n, _, ig) :: r =>
      (if negb ig && existsb (String.eqb n) seen then [n] else []) ++ clashes (n :: seen) r
  end.

End S.
