(** * Specification: generalised hypergeometric series, DLMF 16.2.1 *)
From Coq Require Import List Reals.
From Coquelicot Require Import Complex.
From Verif Require Import GammaSpec.
Import ListNotations.
Open Scope R_scope.
Open Scope C_scope.

(** Pochhammer's symbol (a)_n = a (a+1) ... (a+n-1) *)
Fixpoint poch (a : C) (n : nat) : C := match n with O => RtoC 1 | S n' => poch a n' * (a + RtoC (INR n')) end.
Fixpoint Cpower (z : C) (n : nat) : C := match n with O => RtoC 1 | S n' => Cpower z n' * z end.
Definition Cprod (l : list C) : C := fold_right Cmult (RtoC 1) l.
(** The n-th term: (a1)_n ... (ap)_n / ((b1)_n ... (bq)_n) z^n / n! *)
Definition hyp_term (a b : list C) (z : C) (n : nat) : C :=
  Cprod (map (fun x => poch x n) a) / Cprod (map (fun x => poch x n) b) * Cpower z n / RtoC (INR (fact n)).
(** Sum of the terms 0, ..., n *)
Fixpoint hyp_sum (a b : list C) (z : C) (n : nat) : C := match n with O => hyp_term a b z 0 | S n' => hyp_sum a b z n' + hyp_term a b z (S n') end.
(** [v] is the sum of the series. *)
Definition is_hyper (a b : list C) (z v : C) : Prop := forall e, (0 < e)%R -> exists N, forall n, (N <= n)%nat -> (Cmod (hyp_sum a b z n - v)%C < e)%R.
(** The first [n] terms are defined: no lower parameter is one of 0, -1, ..., -(n-1). *)
Definition no_pole (b : list C) (n : nat) : Prop := forall x k, In x b -> (k < n)%nat -> x + RtoC (INR k) <> 0.
(** What the callers rely on from the gamma function: Euler's integral for positive arguments, the recurrence DLMF 5.5.1 and no zeros *)
Definition gamma_function (gamma : C -> C) : Prop :=
  (forall x, (0 < x)%R -> exists g, euler_gamma x g /\ gamma (RtoC x) = RtoC g) /\
  (forall x : R, (forall n : nat, x <> (- INR n)%R) -> gamma (RtoC (x + 1)) = RtoC x * gamma (RtoC x) /\ gamma (RtoC x) <> 0).
(** ... and from the power of a positive number *)
Definition power_function (cpowc : C -> C -> C) : Prop := forall x y : R, (0 < x)%R -> cpowc (RtoC x) (RtoC y) = RtoC (Rpower x y).
