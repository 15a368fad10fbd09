(** Principal square root and cube root of a complex number: the specification of std::sqrt, and concrete witnesses. *)
From Coq Require Import Reals Lra Lia.
From Coquelicot Require Import Complex.
From Verif Require Import Roots RootsC.
Open Scope R_scope.
Open Scope C_scope.

(** s(z) is the square root in the right half-plane, the upper imaginary axis included *)
Definition principal_sqrt (s : C -> C) : Prop :=
  forall z, s z * s z = z /\ (0 < Re (s z) \/ Re (s z) = 0 /\ 0 <= Im (s z))%R.
Definition cube_root (c : C -> C) : Prop := forall z, c z * c z * c z = z.

Lemma principal_of_square s z : principal_sqrt s -> s (z * z) = z \/ s (z * z) = - z.
Proof.
  intros H. destruct (H (z * z)) as [E _]. assert (F : (s (z * z) - z) * (s (z * z) + z) = 0) by (transitivity (s (z * z) * s (z * z) - z * z); [ring|rewrite E; ring]).
  apply C_integral in F. destruct F as [F|F]; [left|right]; [transitivity (s (z * z) - z + z); [ring|rewrite F; ring]|transitivity (s (z * z) + z - z); [ring|rewrite F; ring]].
Qed.
Lemma Re_opp z : Re (- z) = (- Re z)%R. Proof. reflexivity. Qed.
Lemma Im_opp z : Im (- z) = (- Im z)%R. Proof. reflexivity. Qed.
Lemma C_ext z w : Re z = Re w -> Im z = Im w -> z = w. Proof. intros. apply injective_projections; assumption. Qed.
Lemma principal_square s z : principal_sqrt s -> ~ (Re z = 0 /\ Im z < 0)%R -> s (z * z) = if Rle_dec 0 (Re z) then z else - z.
Proof.
  intros H N. destruct (H (z * z)) as [_ P]. destruct (principal_of_square s z H) as [E|E]; rewrite E in P; rewrite E; destruct (Rle_dec 0 (Re z)) as [L|L]; try reflexivity.
  - exfalso. lra.
  - rewrite Re_opp, Im_opp in P. assert (Z : Re z = 0%R) by lra. assert (Y : Im z = 0%R) by (destruct (Rlt_dec (Im z) 0); [exfalso; apply N; split; assumption|lra]).
    apply C_ext; rewrite ?Re_opp, ?Im_opp; lra.
Qed.
Lemma principal_exception s z : principal_sqrt s -> (Re z = 0 /\ Im z < 0)%R -> s (z * z) = - z.
Proof. intros H [A B]. destruct (H (z * z)) as [_ P]. destruct (principal_of_square s z H) as [E|E]; [|exact E]. rewrite E in P. exfalso. lra. Qed.

(** ** witnesses *)
Definition psqrt (z : C) : C :=
  (sqrt ((Cmod z + Re z) / 2), if Rle_dec 0 (Im z) then sqrt ((Cmod z - Re z) / 2) else - sqrt ((Cmod z - Re z) / 2))%R.
Lemma Cmod_sq z : (Cmod z * Cmod z = Re z * Re z + Im z * Im z)%R.
Proof. unfold Cmod. rewrite sqrt_sqrt; [unfold Re, Im; ring|]. nra. Qed.
Lemma Re_bounds z : (- Cmod z <= Re z <= Cmod z)%R.
Proof. pose proof (Cmod_sq z). pose proof (Cmod_ge_0 z). split; nra. Qed.
Lemma psqrt_principal : principal_sqrt psqrt.
Proof.
  intros z. pose proof (Re_bounds z) as B. pose proof (Cmod_sq z) as M. pose proof (Cmod_ge_0 z) as P. unfold psqrt.
  set (u := ((Cmod z + Re z) / 2)%R) in *. set (v := ((Cmod z - Re z) / 2)%R) in *. assert (Hu : (0 <= u)%R) by (unfold u; lra). assert (Hv : (0 <= v)%R) by (unfold v; lra).
  pose proof (sqrt_sqrt u Hu) as Su. pose proof (sqrt_sqrt v Hv) as Sv. pose proof (sqrt_pos u) as Pu. pose proof (sqrt_pos v) as Pv.
  assert (UV : (sqrt u * sqrt v = Rabs (Im z) / 2)%R).
  { rewrite <- sqrt_mult by assumption. replace (u * v)%R with ((Rabs (Im z) / 2) * (Rabs (Im z) / 2))%R; [apply sqrt_square; pose proof (Rabs_pos (Im z)); lra|].
    assert (AA : (Rabs (Im z) * Rabs (Im z) = Im z * Im z)%R) by (rewrite <- Rabs_mult; apply Rabs_pos_eq; nra). unfold u, v. nra. }
  split.
  - apply C_ext; unfold Re, Im in *; simpl; destruct (Rle_dec 0 (snd z)) as [L|L].
    + rewrite Su, Sv. unfold u, v. lra.
    + replace (sqrt u * sqrt u - - sqrt v * - sqrt v)%R with (sqrt u * sqrt u - sqrt v * sqrt v)%R by ring. rewrite Su, Sv. unfold u, v. lra.
    + replace (sqrt u * sqrt v + sqrt v * sqrt u)%R with (2 * (sqrt u * sqrt v))%R by ring. rewrite UV, Rabs_pos_eq by exact L. lra.
    + replace (sqrt u * - sqrt v + - sqrt v * sqrt u)%R with (- (2 * (sqrt u * sqrt v)))%R by ring. rewrite UV, Rabs_left by lra. lra.
  - unfold Re at 1 2. unfold Im at 1. cbn [fst snd]. destruct Pu as [Pu|Pu]; [left; exact Pu|]. right. split; [symmetry; exact Pu|]. destruct (Rle_dec 0 (Im z)) as [L|L]; [exact Pv|].
    exfalso. rewrite <- Pu in UV. rewrite Rabs_left in UV by lra. lra.
Qed.

Definition arg (z : C) : R := if Rle_dec 0 (Im z) then acos (Re z / Cmod z) else - acos (Re z / Cmod z).
Definition pcbrt (z : C) : C :=
  if Ceq_dec z 0 then RtoC 0 else (Rpower (Cmod z) (/ 3) * cos (arg z / 3), Rpower (Cmod z) (/ 3) * sin (arg z / 3))%R.
Lemma polar (z : C) : z <> 0 -> (Re z = Cmod z * cos (arg z) /\ Im z = Cmod z * sin (arg z))%R.
Proof.
  intros N. assert (P : (0 < Cmod z)%R) by (apply Cmod_gt_0; exact N). pose proof (Cmod_sq z) as M. pose proof (Re_bounds z) as B. set (q := (Re z / Cmod z)%R).
  assert (Hq : (-1 <= q <= 1)%R) by (unfold q; split; [apply Rmult_le_reg_r with (Cmod z); [exact P|]; replace (Re z / Cmod z * Cmod z)%R with (Re z) by (field; lra); lra|apply Rmult_le_reg_r with (Cmod z); [exact P|]; replace (Re z / Cmod z * Cmod z)%R with (Re z) by (field; lra); lra]).
  assert (C1 : cos (acos q) = q) by (apply cos_acos; exact Hq). assert (S1 : sin (acos q) = sqrt (1 - q²)) by (apply sin_acos; exact Hq).
  assert (S2 : (Cmod z * sqrt (1 - q²) = Rabs (Im z))%R).
  { assert (E : (1 - q² = (Rabs (Im z) / Cmod z) * (Rabs (Im z) / Cmod z))%R).
    { assert (AA : (Rabs (Im z) * Rabs (Im z) = Im z * Im z)%R) by (rewrite <- Rabs_mult; apply Rabs_pos_eq; nra).
      transitivity ((Rabs (Im z) * Rabs (Im z)) / (Cmod z * Cmod z))%R; [|field; lra]. rewrite AA. unfold Rsqr, q. replace (Im z * Im z)%R with (Cmod z * Cmod z - Re z * Re z)%R by lra. field. lra. }
    rewrite E, sqrt_square; [field; lra|]. apply Rmult_le_pos; [apply Rabs_pos|left; apply Rinv_0_lt_compat; exact P]. }
  unfold arg. fold q. destruct (Rle_dec 0 (Im z)) as [L|L].
  - rewrite C1, S1, S2, Rabs_pos_eq by exact L. split; [unfold q; field; lra|reflexivity].
  - rewrite cos_neg, sin_neg, C1, S1. replace (Cmod z * - sqrt (1 - q²))%R with (- (Cmod z * sqrt (1 - q²)))%R by ring. rewrite S2, Rabs_left by lra. split; [unfold q; field; lra|lra].
Qed.
Lemma pcbrt_cube : cube_root pcbrt.
Proof.
  intros z. unfold pcbrt. destruct (Ceq_dec z 0) as [->|N]; [ring|]. destruct (polar z N) as [PR PI]. set (a := (arg z / 3)%R). set (m := Rpower (Cmod z) (/ 3)).
  assert (M3 : (m * m * m = Cmod z)%R).
  { unfold m. rewrite <- !Rpower_plus. replace (/ 3 + / 3 + / 3)%R with 1%R by field. apply Rpower_1. apply Cmod_gt_0, N. }
  assert (A3 : arg z = (a + a + a)%R) by (unfold a; field). rewrite A3 in PR, PI. rewrite <- M3 in PR, PI.
  apply C_ext; [rewrite PR|rewrite PI]; unfold Re, Im; simpl.
  - rewrite !cos_plus, !sin_plus. ring.
  - rewrite !sin_plus, !cos_plus. ring.
Qed.
