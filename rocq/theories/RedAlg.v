(** Calculus of the reduction: square roots of linear forms and Carlson's U, S, Q. *)
From Coq Require Import Reals Lra.
From Coquelicot Require Import Hierarchy Derive AutoDerive Continuity RInt.
Open Scope R_scope.

Lemma der_eq (f : R -> R) (x l l' : R) : is_derive f x l -> l = l' -> is_derive f x l'.
Proof. intros H <-. exact H. Qed.

Section Alg.
(** X_i are the square roots of y_i^2 + b_i h *)
Variables (X1 X2 X3 X4 X5 : R -> R) (b1 b2 b3 b4 b5 y1 y2 y3 y4 y5 h : R).
Hypothesis (D1 : is_derive X1 h (b1 / (2 * X1 h))) (D2 : is_derive X2 h (b2 / (2 * X2 h))) (D3 : is_derive X3 h (b3 / (2 * X3 h))) (D4 : is_derive X4 h (b4 / (2 * X4 h))) (D5 : is_derive X5 h (b5 / (2 * X5 h))).
Hypothesis (Q1 : X1 h * X1 h = y1 * y1 + b1 * h) (Q2 : X2 h * X2 h = y2 * y2 + b2 * h) (Q3 : X3 h * X3 h = y3 * y3 + b3 * h) (Q4 : X4 h * X4 h = y4 * y4 + b4 * h) (Q5 : X5 h * X5 h = y5 * y5 + b5 * h).
Hypothesis (P1 : 0 < X1 h) (P2 : 0 < X2 h) (P3 : 0 < X3 h) (P4 : 0 < X4 h) (P5 : 0 < X5 h) (R1 : 0 < y1) (R2 : 0 < y2) (R3 : 0 < y3) (R4 : 0 < y4) (R5 : 0 < y5).

Let N (x1 x2 x3 x4 : R) := x1 * x2 * y3 * y4 + y1 * y2 * x3 * x4.
Lemma b_val (x y b k : R) : k <> 0 -> x * x = y * y + b * k -> b = (x * x - y * y) / k.
Proof. intros H E. rewrite E. field. exact H. Qed.

Ltac dv := change (Derive (fun x => X1 x) h) with (Derive X1 h); change (Derive (fun x => X2 x) h) with (Derive X2 h); change (Derive (fun x => X3 x) h) with (Derive X3 h); change (Derive (fun x => X4 x) h) with (Derive X4 h); change (Derive (fun x => X5 x) h) with (Derive X5 h);
  try rewrite (is_derive_unique _ _ _ D1); try rewrite (is_derive_unique _ _ _ D2); try rewrite (is_derive_unique _ _ _ D3); try rewrite (is_derive_unique _ _ _ D4); try rewrite (is_derive_unique _ _ _ D5).
Lemma derive_U : h <> 0 -> is_derive (fun t => (X1 t * X2 t * y3 * y4 + y1 * y2 * X3 t * X4 t) / t) h
  (- ((X1 h * X3 h * y2 * y4 + y1 * y3 * X2 h * X4 h) * (X2 h * X3 h * y1 * y4 + y2 * y3 * X1 h * X4 h)) / (h * h * (2 * (X1 h * X2 h * X3 h * X4 h)))).
Proof.
  intros Hh. auto_derive.
  - repeat split; try (eexists; eassumption). exact Hh.
  - dv. rewrite (b_val _ _ _ _ Hh Q1), (b_val _ _ _ _ Hh Q2), (b_val _ _ _ _ Hh Q3), (b_val _ _ _ _ Hh Q4).
    generalize dependent (X1 h). generalize dependent (X2 h). generalize dependent (X3 h). generalize dependent (X4 h). intros. field. repeat split; lra.
Qed.
(** the identity for R_D *)
Lemma derive_RD : is_derive (fun t => 2 * X2 t * y2 * t / (X1 t * y1 * (X1 t * X2 t * y3 * y4 + y1 * y2 * X3 t * X4 t))) h
  (X2 h * X2 h / (X1 h * X1 h * (X1 h * X2 h * X3 h * X4 h)) - (y2 * y2 * b3 - y3 * y3 * b2) * (y2 * y2 * b4 - y4 * y4 * b2) * (h * h) / (X1 h * X2 h * X3 h * X4 h * (X1 h * X2 h * y3 * y4 + y1 * y2 * X3 h * X4 h) ^ 2)).
Proof.
  assert (PN : 0 < X1 h * X2 h * y3 * y4 + y1 * y2 * X3 h * X4 h) by (apply Rplus_lt_0_compat; repeat apply Rmult_lt_0_compat; assumption). auto_derive.
  - repeat split; try (eexists; eassumption). apply Rgt_not_eq. repeat apply Rmult_lt_0_compat; assumption.
  - dv. destruct (Req_dec h 0) as [Hz|Hh].
    + assert (E : forall x y b, 0 < x -> 0 < y -> x * x = y * y + b * h -> x = y) by (intros x y b Px Py Q; rewrite Hz in Q; replace (y * y + b * 0) with (y * y) in Q by ring; apply Rsqr_inj; unfold Rsqr; lra).
      rewrite (E _ _ _ P1 R1 Q1), (E _ _ _ P2 R2 Q2), (E _ _ _ P3 R3 Q3), (E _ _ _ P4 R4 Q4). rewrite Hz. field. repeat split; try lra. assert (0 < y1 * y2 * y3 * y4) by (repeat apply Rmult_lt_0_compat; assumption). lra.
    + rewrite (b_val _ _ _ _ Hh Q1), (b_val _ _ _ _ Hh Q2), (b_val _ _ _ _ Hh Q3), (b_val _ _ _ _ Hh Q4).
    generalize dependent (X1 h). generalize dependent (X2 h). generalize dependent (X3 h). generalize dependent (X4 h). intros. field. repeat split; lra.
Qed.
(** the identities for R_C and R_J *)
Lemma derive_S : h <> 0 -> y1 * y1 * b5 - y5 * y5 * b1 <> 0 -> is_derive (fun t => (X2 t * X3 t * X4 t / X1 t * (y5 * y5) + y2 * y3 * y4 / y1 * (X5 t * X5 t)) / t) h
  (- / 2 * (X5 h * X5 h * (y5 * y5) / (X1 h * X1 h * (y1 * y1))) *
   (((X1 h * X2 h * y3 * y4 + y1 * y2 * X3 h * X4 h) ^ 2 / (h * h) - (y1 * y1 * b3 - y3 * y3 * b1) * (y1 * y1 * b4 - y4 * y4 * b1) * (y2 * y2 * b5 - y5 * y5 * b2) / (y1 * y1 * b5 - y5 * y5 * b1)) * (X1 h * X1 h) / (X5 h * X5 h * (X1 h * X2 h * X3 h * X4 h))
    - (y1 * y1 * b2 - y2 * y2 * b1) * (y1 * y1 * b3 - y3 * y3 * b1) * (y1 * y1 * b4 - y4 * y4 * b1) / ((y1 * y1 * b5 - y5 * y5 * b1) * (X1 h * X2 h * X3 h * X4 h)))).
Proof.
  intros Hh. intros Nd. auto_derive.
  - repeat split; try (eexists; eassumption). { lra. } exact Hh.
  - dv. rewrite (b_val _ _ _ _ Hh Q5) in Nd |- *. rewrite (b_val _ _ _ _ Hh Q1) in Nd |- *. rewrite (b_val _ _ _ _ Hh Q2), (b_val _ _ _ _ Hh Q3), (b_val _ _ _ _ Hh Q4).
    generalize dependent (X1 h). generalize dependent (X2 h). generalize dependent (X3 h). generalize dependent (X4 h). generalize dependent (X5 h). intros x5 _ q5 p5 x4 _ q4 p4 x3 _ q3 p3 x2 _ q2 p2 x1 _ q1 p1 Nd.
    assert (Nd' : y1 * y1 * (x5 * x5) - y5 * y5 * (x1 * x1) <> 0) by (intros Z; apply Nd; replace (y1 * y1 * ((x5 * x5 - y5 * y5) / h) - y5 * y5 * ((x1 * x1 - y1 * y1) / h)) with ((y1 * y1 * (x5 * x5) - y5 * y5 * (x1 * x1)) / h) by (field; exact Hh); rewrite Z; field; exact Hh).
    field. repeat split; lra.
Qed.
Lemma S_minus_Q : h <> 0 -> y1 * y1 * b5 - y5 * y5 * b1 <> 0 ->
  ((X2 h * X3 h * X4 h / X1 h * (y5 * y5) + y2 * y3 * y4 / y1 * (X5 h * X5 h)) / h) ^ 2 - X5 h * X5 h * (y5 * y5) / (X1 h * X1 h * (y1 * y1)) *
    ((X1 h * X2 h * y3 * y4 + y1 * y2 * X3 h * X4 h) ^ 2 / (h * h) - (y1 * y1 * b3 - y3 * y3 * b1) * (y1 * y1 * b4 - y4 * y4 * b1) * (y2 * y2 * b5 - y5 * y5 * b2) / (y1 * y1 * b5 - y5 * y5 * b1)) =
  (y2 * y2 * b5 - y5 * y5 * b2) * (y3 * y3 * b5 - y5 * y5 * b3) * (y4 * y4 * b5 - y5 * y5 * b4) / (y1 * y1 * b5 - y5 * y5 * b1).
Proof.
  intros Hh Nd. rewrite (b_val _ _ _ _ Hh Q5) in Nd |- *. rewrite (b_val _ _ _ _ Hh Q1) in Nd |- *. rewrite (b_val _ _ _ _ Hh Q2), (b_val _ _ _ _ Hh Q3), (b_val _ _ _ _ Hh Q4).
  generalize dependent (X1 h). generalize dependent (X2 h). generalize dependent (X3 h). generalize dependent (X4 h). generalize dependent (X5 h). intros x5 _ q5 p5 x4 _ q4 p4 x3 _ q3 p3 x2 _ q2 p2 x1 _ q1 p1 Nd.
  assert (Nd' : y1 * y1 * (x5 * x5) - y5 * y5 * (x1 * x1) <> 0) by (intros Z; apply Nd; replace (y1 * y1 * ((x5 * x5 - y5 * y5) / h) - y5 * y5 * ((x1 * x1 - y1 * y1) / h)) with ((y1 * y1 * (x5 * x5) - y5 * y5 * (x1 * x1)) / h) by (field; exact Hh); rewrite Z; field; exact Hh).
  field. repeat split; lra.
Qed.
Lemma U_minus_U : (X1 h * X2 h * y3 * y4 + y1 * y2 * X3 h * X4 h) ^ 2 - (X1 h * X3 h * y2 * y4 + y1 * y3 * X2 h * X4 h) ^ 2 = (y1 * y1 * b4 - y4 * y4 * b1) * (y2 * y2 * b3 - y3 * y3 * b2) * (h * h).
Proof.
  transitivity ((X1 h * X1 h * (y4 * y4) - y1 * y1 * (X4 h * X4 h)) * (X2 h * X2 h * (y3 * y3) - X3 h * X3 h * (y2 * y2))); [ring|]. rewrite Q1, Q2, Q3, Q4. ring.
Qed.
End Alg.
