(** * Specification vocabulary for custom gradients *)
From Coq Require Import String List Bool Arith Reals.
From Coquelicot Require Import Complex.
From Verif Require Import FuncCtx.
Import ListNotations.
Open Scope string_scope.
Open Scope list_scope.

(** The gradient rules a class body defines, in order. *)
Definition defines (k : cdict) : list string := filter (String.prefix "grad_") (map fst (cd_vars k)).
(** One slot per rule: those of the base classes, then the ones this class adds, in order.  (Hierarchies are leaf first.) *)
Fixpoint slots (hier : list cdict) : list string :=
  match hier with
  | [] => []
  | k :: bases => slots bases ++ filter (fun n => negb (existsb (String.eqb n) (slots bases))) (defines k)
  end.
(** The most derived definition of a rule. *)
Fixpoint rule_of (hier : list cdict) (n : string) : option rawfn :=
  match hier with
  | [] => None
  | k :: bases => match find (fun kv => String.eqb n (fst kv)) (cd_vars k) with Some (_, r) => Some r | None => rule_of bases n end
  end.
(** A Python namespace has each name once. *)
Definition namespaces (hier : list cdict) : Prop := Forall (fun k => NoDup (map fst (cd_vars k))) hier.

(** The classes of phytorch.special that use gradient rules, with the parameters of the function they
    implement, in call order; [false] marks an integer parameter that has no gradient. *)
Definition package_classes : list (cdict * list (string * bool)) :=
  let p := map (fun s => (s, true)) in
  [(k_CosecantSquared, p ["phi"]); (k_EllipK, p ["m"]); (k_EllipE, p ["m"]); (k_EllipD, p ["m"]); (k_EllipPi, p ["n"; "m"]);
   (k_EllipKinc, p ["c"; "m"]); (k_EllipEinc, p ["c"; "m"]); (k_EllipDinc, p ["c"; "m"]); (k_EllipPiinc, p ["n"; "c"; "m"]);
   (k_Elliprc, p ["x"; "y"]); (k_Elliprd, p ["x"; "y"; "z"]); (k_Elliprj, p ["x"; "y"; "z"; "p"]);
   (k_Gamma, p ["z"]); (k_Loggamma, p ["z"]); (k_Digamma, p ["z"]); (k_Polygamma, [("n", false); ("z", true)]);
   (k_TGamma, [("m", false); ("a", true); ("z", true)]); (k_Gammainc, p ["a"; "z"]); (k_Gammaincc, p ["a"; "z"])].
(** [gf] is the rule [grad_q] as seen from class [cls]: a function, or a method bound to [cls] itself. *)
Definition is_rule (cls q : string) (gf : gradfn) : Prop :=
  match gf with
  | GFun r => rf_name r = ("grad_" ++ q)%string
  | GMeth r receiver => rf_name r = ("grad_" ++ q)%string /\ receiver = cls
  | _ => False
  end.
