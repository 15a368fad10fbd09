(** Limits of complex functions of a complex variable, by epsilon and delta (specification), and the limit laws used. *)
From Coq Require Import List Reals Lra Lia.
From Coquelicot Require Import Complex.
From Verif Require Import RootsSpec.
Import ListNotations.
Open Scope R_scope.
Open Scope C_scope.
Arguments Cmod x%C_scope.

(** f(t) -> l as t -> t0, t <> t0 *)
Definition Clim (f : C -> C) (t0 l : C) : Prop :=
  forall eps : R, (0 < eps)%R -> exists delta : R, (0 < delta)%R /\ forall t, t <> t0 -> (Cmod (t - t0) < delta)%R -> (Cmod (f t - l) < eps)%R.
Definition Ccontinuous (f : C -> C) (t0 : C) : Prop := Clim f t0 (f t0).
(** complex derivative *)
Definition Cderivative (f : C -> C) (t0 l : C) : Prop := Clim (fun t => (f t - f t0) / (t - t0)) t0 l.

Lemma Clim_const c t0 : Clim (fun _ => c) t0 c.
Proof. intros eps He. exists 1%R. split; [lra|]. intros t _ _. replace (c - c) with (RtoC 0) by ring. rewrite Cmod_0. exact He. Qed.
Lemma Clim_ext f g t0 l : (forall t, t <> t0 -> f t = g t) -> Clim f t0 l -> Clim g t0 l.
Proof. intros H L eps He. destruct (L eps He) as (d & Hd & Hl). exists d. split; [exact Hd|]. intros t N Ht. rewrite <- H by exact N. apply Hl; assumption. Qed.
Lemma Clim_plus f g t0 l m : Clim f t0 l -> Clim g t0 m -> Clim (fun t => f t + g t) t0 (l + m).
Proof.
  intros Lf Lg eps He. destruct (Lf (eps / 2)%R ltac:(lra)) as (d1 & H1 & L1). destruct (Lg (eps / 2)%R ltac:(lra)) as (d2 & H2 & L2).
  exists (Rmin d1 d2). split; [apply Rmin_pos; assumption|]. intros t N Ht. specialize (L1 t N (Rlt_le_trans _ _ _ Ht (Rmin_l _ _))). specialize (L2 t N (Rlt_le_trans _ _ _ Ht (Rmin_r _ _))).
  replace (f t + g t - (l + m)) with ((f t - l) + (g t - m)) by ring. eapply Rle_lt_trans; [apply Cmod_triangle|]. lra.
Qed.
Lemma Clim_mult f g t0 l m : Clim f t0 l -> Clim g t0 m -> Clim (fun t => f t * g t) t0 (l * m).
Proof.
  intros Lf Lg eps He. pose proof (Cmod_ge_0 l) as Pl. pose proof (Cmod_ge_0 m) as Pm.
  set (e1 := (eps / (2 * (Cmod m + 1)))%R). assert (E1 : (0 < e1)%R) by (apply Rdiv_lt_0_compat; lra).
  set (e2 := Rmin 1 (eps / (2 * (Cmod l + 1)))). assert (E2 : (0 < e2)%R) by (apply Rmin_pos; [lra|apply Rdiv_lt_0_compat; lra]).
  destruct (Lf e1 E1) as (d1 & H1 & L1). destruct (Lg e2 E2) as (d2 & H2 & L2).
  exists (Rmin d1 d2). split; [apply Rmin_pos; assumption|]. intros t N Ht. specialize (L1 t N (Rlt_le_trans _ _ _ Ht (Rmin_l _ _))). specialize (L2 t N (Rlt_le_trans _ _ _ Ht (Rmin_r _ _))).
  replace (f t * g t - l * m) with ((f t - l) * g t + l * (g t - m)) by ring. eapply Rle_lt_trans; [apply Cmod_triangle|]. rewrite !Cmod_mult.
  assert (G : (Cmod (g t) <= Cmod m + 1)%R).
  { replace (g t) with (m + (g t - m)) by ring. eapply Rle_trans; [apply Cmod_triangle|]. assert (e2 <= 1)%R by apply Rmin_l. lra. }
  assert (A : (Cmod (f t - l) * Cmod (g t) < eps / 2)%R).
  { apply Rle_lt_trans with (Cmod (f t - l) * (Cmod m + 1))%R; [apply Rmult_le_compat_l; [apply Cmod_ge_0|exact G]|].
    apply Rlt_le_trans with (e1 * (Cmod m + 1))%R; [apply Rmult_lt_compat_r; lra|]. unfold e1. right. field. lra. }
  assert (B : (Cmod l * Cmod (g t - m) <= eps / 2)%R).
  { assert (e2 <= eps / (2 * (Cmod l + 1)))%R by apply Rmin_r. apply Rle_trans with ((Cmod l + 1) * (eps / (2 * (Cmod l + 1))))%R.
    - apply Rmult_le_compat; [exact Pl|apply Cmod_ge_0|lra|lra].
    - right. field. lra. }
  lra.
Qed.
Lemma Clim_inv f t0 (l : C) : l <> 0 -> Clim f t0 l -> Clim (fun t => / f t) t0 (/ l).
Proof.
  intros Nl L eps He. assert (Pl : (0 < Cmod l)%R) by (apply Cmod_gt_0; exact Nl).
  set (e := Rmin (Cmod l / 2) (eps * Cmod l * Cmod l / 2)). assert (E : (0 < e)%R).
  { apply Rmin_pos; [lra|]. apply Rdiv_lt_0_compat; [|lra]. apply Rmult_lt_0_compat; [apply Rmult_lt_0_compat; assumption|assumption]. }
  destruct (L e E) as (d & Hd & Ld). exists d. split; [exact Hd|]. intros t N Ht. specialize (Ld t N Ht).
  assert (B : (Cmod l / 2 <= Cmod (f t))%R).
  { assert (e <= Cmod l / 2)%R by apply Rmin_l. assert (Cmod l <= Cmod (f t) + Cmod (f t - l))%R; [|lra].
    replace l with (f t + - (f t - l)) at 1 by ring. eapply Rle_trans; [apply Cmod_triangle|]. rewrite Cmod_opp. lra. }
  assert (Nf : f t <> 0) by (apply Cmod_gt_0; lra).
  replace (/ f t - / l) with (- (f t - l) * (/ f t * / l)) by (field; auto). rewrite Cmod_mult, Cmod_opp, Cmod_mult, !Cmod_inv by assumption.
  assert (e <= eps * Cmod l * Cmod l / 2)%R by apply Rmin_r.
  apply Rlt_le_trans with ((eps * Cmod l * Cmod l / 2) * (/ Cmod (f t) * / Cmod l))%R.
  - apply Rmult_lt_compat_r; [|lra]. apply Rmult_lt_0_compat; apply Rinv_0_lt_compat; lra.
  - apply Rle_trans with ((eps * Cmod l * Cmod l / 2) * (/ (Cmod l / 2) * / Cmod l))%R; [|right; field; lra].
    apply Rmult_le_compat_l; [apply Rmult_le_pos; [|lra]; apply Rmult_le_pos; [apply Rmult_le_pos|]; lra|].
    apply Rmult_le_compat_r; [left; apply Rinv_0_lt_compat; lra|]. apply Rinv_le_contravar; lra.
Qed.
Lemma Clim_unique f t0 (l m : C) : Clim f t0 l -> Clim f t0 m -> l = m.
Proof.
  intros L M. destruct (Ceq_dec l m) as [|N]; [assumption|]. exfalso. assert (P : (0 < Cmod (l - m))%R) by (apply Cmod_gt_0; intros E; apply N; replace l with (l - m + m) by ring; rewrite E; ring).
  destruct (L (Cmod (l - m) / 2)%R ltac:(lra)) as (d1 & H1 & L1). destruct (M (Cmod (l - m) / 2)%R ltac:(lra)) as (d2 & H2 & L2).
  pose proof (Rmin_l d1 d2). pose proof (Rmin_r d1 d2). assert (P2 : (0 < Rmin d1 d2)%R) by (apply Rmin_pos; assumption). set (t := t0 + RtoC (Rmin d1 d2 / 2)).
  assert (T : t - t0 = RtoC (Rmin d1 d2 / 2)) by (unfold t; ring).
  assert (Tm : Cmod (t - t0) = (Rmin d1 d2 / 2)%R) by (rewrite T, Cmod_R; apply Rabs_pos_eq; lra).
  assert (Nt : t <> t0) by (intros E; rewrite E in Tm; replace (t0 - t0) with (RtoC 0) in Tm by ring; rewrite Cmod_0 in Tm; lra).
  specialize (L1 t Nt ltac:(lra)). specialize (L2 t Nt ltac:(lra)).
  assert (Cmod (l - m) <= Cmod (f t - l) + Cmod (f t - m))%R; [|lra]. replace (l - m) with (- (f t - l) + (f t - m)) by ring. eapply Rle_trans; [apply Cmod_triangle|]. rewrite Cmod_opp. lra.
Qed.
Lemma Clim_sum (F : nat -> C -> C) (l : nat -> C) t0 n : (forall i, (i < n)%nat -> Clim (F i) t0 (l i)) ->
  Clim (fun t => sum_to C 0 Cplus n (fun i => F i t)) t0 (sum_to C 0 Cplus n l).
Proof. induction n as [|n IH]; intros H; [exact (Clim_const 0 t0)|]. simpl. apply Clim_plus; [apply IH; intros; apply H; lia|apply H; lia]. Qed.
Lemma Clim_pow f t0 l n : Clim f t0 l -> Clim (fun t => RootsSpec.pow C 1 Cmult (f t) n) t0 (RootsSpec.pow C 1 Cmult l n).
Proof. intros H. induction n as [|n IH]; [exact (Clim_const 1 t0)|]. simpl. apply Clim_mult; assumption. Qed.
Lemma Clim_from_roots f t0 l rs : Clim f t0 l -> Clim (fun t => Cfrom_roots rs (f t)) t0 (Cfrom_roots rs l).
Proof.
  intros H. unfold Cfrom_roots, from_roots. induction rs as [|r rs IH]; [exact (Clim_const 1 t0)|]. simpl. apply Clim_mult; [|exact IH]. apply Clim_plus; [exact H|exact (Clim_const (- r) t0)].
Qed.
