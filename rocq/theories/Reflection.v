(** Euler's reflection formula *)
From Coq Require Import List Arith ZArith Lia Reals Lra Psatz.
From Coquelicot Require Import Rcomplements Hierarchy Continuity Derive RInt RInt_analysis AutoDerive ElemFct Lim_seq Rbar.
From Verif Require Import EllipSpec Improper GammaSpec GammaInt GammaFun HyperExp Stirling Stirling2.
Open Scope R_scope.

Section Sine.
Variable s : R.
Hypothesis Hs : 0 < s < 1.
Definition ci (a : R) (n : nat) (t : R) : R := cos t ^ n * cos (2 * a * t).
Lemma ci_cont a n t : continuous (ci a n) t.
Proof. apply (ex_derive_continuous (ci a n)). unfold ci. auto_derive. exact I. Qed.
Definition J (a : R) (n : nat) : R := RInt (ci a n) 0 (PI / 2).
Lemma J_ok a n : is_RInt (ci a n) 0 (PI / 2) (J a n).
Proof. apply (RInt_correct (ci a n)), (ex_RInt_continuous (ci a n)). intros t _. apply ci_cont. Qed.
Lemma J_rec a n : ((INR n + 2) ^ 2 - 4 * a ^ 2) * J a (n + 2) = (INR n + 2) * (INR n + 1) * J a n.
Proof.
  set (F := fun t => (INR n + 2) * (cos t ^ (n + 1) * sin t * cos (2 * a * t)) - 2 * a * (cos t ^ (n + 2) * sin (2 * a * t))).
  assert (D : is_RInt (fun t => ((INR n + 2) ^ 2 - 4 * a ^ 2) * ci a (n + 2) t - (INR n + 2) * (INR n + 1) * ci a n t) 0 (PI / 2) (F (PI / 2) - F 0)).
  { apply (is_RInt_derive F (fun t => ((INR n + 2) ^ 2 - 4 * a ^ 2) * ci a (n + 2) t - (INR n + 2) * (INR n + 1) * ci a n t)); intros t _.
    - unfold F, ci. auto_derive; [exact I|]. replace (Init.Nat.pred (n + 1)) with n by lia. replace (Init.Nat.pred (n + 2)) with (n + 1)%nat by lia. rewrite !plus_INR, !pow_add. change (INR 1) with 1. change (INR 2) with 2. pose proof (sin2_cos2 t) as SC. unfold Rsqr in SC. cbn [pow]. set (si := sin t) in *. set (c := cos t) in *. set (P := c ^ n). set (C := cos (2 * a * t)). set (S := sin (2 * a * t)).
      assert (SS : si * si = 1 - c * c) by lra.
      transitivity ((INR n + 2) * (- (INR n + 1) * P * (si * si) * C + P * (c * c) * C) - 2 * a * (2 * a) * (P * (c * c)) * C); [ring|]. rewrite SS. ring.
    - apply (ex_derive_continuous (fun t => ((INR n + 2) ^ 2 - 4 * a ^ 2) * ci a (n + 2) t - (INR n + 2) * (INR n + 1) * ci a n t)). unfold ci. auto_derive. exact I. }
  assert (E : is_RInt (fun t => ((INR n + 2) ^ 2 - 4 * a ^ 2) * ci a (n + 2) t - (INR n + 2) * (INR n + 1) * ci a n t) 0 (PI / 2) (((INR n + 2) ^ 2 - 4 * a ^ 2) * J a (n + 2) - (INR n + 2) * (INR n + 1) * J a n)).
  { apply (is_RInt_minus (fun t => ((INR n + 2) ^ 2 - 4 * a ^ 2) * ci a (n + 2) t) (fun t => (INR n + 2) * (INR n + 1) * ci a n t)); [apply (is_RInt_scal (ci a (n + 2))), J_ok|apply (is_RInt_scal (ci a n)), J_ok]. }
  pose proof (is_RInt_unique _ _ _ _ D) as U1. rewrite (is_RInt_unique _ _ _ _ E) in U1. unfold F in U1. rewrite cos_PI2, sin_0, (Rmult_0_r (2 * a)), sin_0, !pow_i in U1 by lia. lra.
Qed.
Lemma J_0 : J s 0 = sin (PI * s) / (2 * s).
Proof.
  assert (D : is_RInt (ci s 0) 0 (PI / 2) (sin (2 * s * (PI / 2)) / (2 * s) - sin (2 * s * 0) / (2 * s))).
  { apply (is_RInt_derive (fun t => sin (2 * s * t) / (2 * s)) (ci s 0)); intros t _; [|apply ci_cont]. unfold ci. auto_derive; [lra|]. cbn [pow]. field. lra. }
  pose proof (is_RInt_unique _ _ _ _ D) as U. change (J s 0 = sin (2 * s * (PI / 2)) / (2 * s) - sin (2 * s * 0) / (2 * s)) in U. rewrite U, Rmult_0_r, sin_0. replace (2 * s * (PI / 2)) with (PI * s) by field. field. lra.
Qed.
Lemma J_00 : J 0 0 = PI / 2.
Proof. unfold J. rewrite (RInt_ext _ (fun _ => 1)) by (intros t _; unfold ci; rewrite Rmult_0_r, Rmult_0_l, cos_0; cbn; ring). rewrite RInt_const. unfold scal. cbn. unfold mult. cbn. lra. Qed.
Lemma K_pos m : 0 < J 0 (2 * m).
Proof.
  induction m as [|m IH]; [change (2 * 0)%nat with 0%nat; rewrite J_00; pose proof PI_RGT_0; lra|]. replace (2 * S m)%nat with (2 * m + 2)%nat by lia. pose proof (J_rec 0 (2 * m)) as R. pose proof (pos_INR (2 * m)). apply (Rmult_lt_reg_l ((INR (2 * m) + 2) ^ 2 - 4 * 0 ^ 2)); [nra|]. rewrite Rmult_0_r, R. apply Rmult_lt_0_compat; [nra|exact IH].
Qed.
Definition rho (m : nat) : R := J s (2 * m) / J 0 (2 * m).
Lemma rho_0 : rho 0 = sin (PI * s) / (PI * s).
Proof. unfold rho. change (2 * 0)%nat with 0%nat. rewrite J_0, J_00. pose proof PI_RGT_0. field. lra. Qed.
Lemma rho_S m : rho (S m) * ((INR m + 1) ^ 2 - s ^ 2) = rho m * (INR m + 1) ^ 2.
Proof.
  unfold rho. pose proof (K_pos m) as P1. pose proof (K_pos (S m)) as P2. replace (2 * S m)%nat with (2 * m + 2)%nat in * by lia. pose proof (J_rec s (2 * m)) as R1. pose proof (J_rec 0 (2 * m)) as R2. rewrite mult_INR in R1, R2. change (INR 2) with 2 in R1, R2. pose proof (pos_INR m).
  assert (E1 : J s (2 * m + 2) * ((INR m + 1) ^ 2 - s ^ 2) = (INR m + 1) * (2 * INR m + 1) / 2 * J s (2 * m)) by nra. assert (E2 : J 0 (2 * m + 2) * (INR m + 1) ^ 2 = (INR m + 1) * (2 * INR m + 1) / 2 * J 0 (2 * m)) by nra.
  apply (Rmult_eq_reg_r (J 0 (2 * m + 2) * J 0 (2 * m))); [|nra]. transitivity (J s (2 * m + 2) * ((INR m + 1) ^ 2 - s ^ 2) * J 0 (2 * m)); [field; lra|]. rewrite E1. transitivity (J s (2 * m) * (J 0 (2 * m + 2) * (INR m + 1) ^ 2)); [rewrite E2; ring|field; lra].
Qed.
Lemma rho_bound m : 1 - / (INR m + 1) <= rho m <= 1.
Proof.
  pose proof PI_RGT_0 as P0. pose proof (K_pos m) as PK. pose proof (pos_INR m) as PM.
  assert (U : J s (2 * m) <= J 0 (2 * m)). { apply (is_RInt_le (ci s (2 * m)) (ci 0 (2 * m)) 0 (PI / 2)); [lra|apply J_ok|apply J_ok|]. intros t Ht. unfold ci. rewrite Rmult_0_r, Rmult_0_l, cos_0. assert (0 <= cos t ^ (2 * m)) by (apply pow_le, cos_ge_0; lra). pose proof (COS_bound (2 * s * t)). apply Rmult_le_compat_l; lra. }
  assert (L : J 0 (2 * m) - 2 * (J 0 (2 * m) - J 0 (2 * m + 2)) <= J s (2 * m)).
  { apply (is_RInt_le (fun t => ci 0 (2 * m) t - 2 * (ci 0 (2 * m) t - ci 0 (2 * m + 2) t)) (ci s (2 * m)) 0 (PI / 2)); [lra| |apply J_ok|].
    - apply (is_RInt_minus (ci 0 (2 * m)) (fun t => 2 * (ci 0 (2 * m) t - ci 0 (2 * m + 2) t))); [apply J_ok|]. apply (is_RInt_scal (fun t => ci 0 (2 * m) t - ci 0 (2 * m + 2) t)). apply (is_RInt_minus (ci 0 (2 * m)) (ci 0 (2 * m + 2))); apply J_ok.
    - intros t Ht. unfold ci. rewrite !Rmult_0_r, !Rmult_0_l, cos_0. assert (Q : 0 <= cos t ^ (2 * m)) by (apply pow_le, cos_ge_0; lra). rewrite pow_add. pose proof (sin2_cos2 t) as SC. unfold Rsqr in SC. replace (2 * s * t) with (2 * (s * t)) by ring. rewrite cos_2a_sin. assert (S1 : 0 <= sin (s * t)) by (apply sin_ge_0; nra). assert (S2 : sin (s * t) <= sin t) by (apply sin_incr_1; nra). cbn [pow]. set (si := sin t) in *. set (c := cos t) in *. set (si' := sin (s * t)) in *. set (P := c ^ (2 * m)) in *.
      replace (P * 1 - 2 * (P * 1 - P * (c * (c * 1)) * 1)) with (P * (1 - 2 * (1 - c * c))) by ring. apply Rmult_le_compat_l; [exact Q|]. nra. }
  assert (R : J 0 (2 * m) - J 0 (2 * m + 2) = J 0 (2 * m) / (2 * (INR m + 1))). { pose proof (J_rec 0 (2 * m)) as R. rewrite mult_INR in R. change (INR 2) with 2 in R. assert (E : J 0 (2 * m + 2) = (2 * INR m + 1) / (2 * (INR m + 1)) * J 0 (2 * m)). { apply (Rmult_eq_reg_l ((2 * INR m + 2) ^ 2 - 4 * 0 ^ 2)); [|nra]. rewrite R. field. lra. } rewrite E. field. lra. }
  rewrite R in L. unfold rho. split.
  - apply (Rmult_le_reg_r (J 0 (2 * m))); [exact PK|]. replace (J s (2 * m) / J 0 (2 * m) * J 0 (2 * m)) with (J s (2 * m)) by (field; lra). replace ((1 - / (INR m + 1)) * J 0 (2 * m)) with (J 0 (2 * m) - 2 * (J 0 (2 * m) / (2 * (INR m + 1)))) by (field; lra). exact L.
  - apply (Rmult_le_reg_r (J 0 (2 * m))); [exact PK|]. replace (J s (2 * m) / J 0 (2 * m) * J 0 (2 * m)) with (J s (2 * m)) by (field; lra). lra.
Qed.
(** ** The product of gamma functions *)
Definition QQ (n : nat) : R := Gam (INR n + s) * Gam (INR n + 1 - s) / (Gam (INR n) ^ 2 * INR n).
Definition TT (n : nat) : R := QQ n * rho n * ((INR n + s) / INR n).
Lemma TT_S n : (1 <= n)%nat -> TT (S n) = TT n.
Proof.
  intros Hn. assert (N1 : 1 <= INR n) by (apply (le_INR 1); exact Hn). unfold TT, QQ. rewrite S_INR. set (N := INR n) in *. replace (N + 1 + s) with (N + s + 1) by ring. replace (N + 1 + 1 - s) with (N + 1 - s + 1) by ring. rewrite (Gam_rec (N + s)), (Gam_rec (N + 1 - s)), (Gam_rec N) by lra.
  pose proof (rho_S n) as R. fold N in R. replace ((N + 1) ^ 2 - s ^ 2) with ((N + 1 - s) * (N + 1 + s)) in R by ring. assert (E : rho (S n) = rho n * (N + 1) ^ 2 / ((N + 1 - s) * (N + 1 + s))) by (rewrite <- R; field; lra). rewrite E. pose proof (Gam_pos N ltac:(lra)). field. repeat split; lra.
Qed.
Lemma TT_const n : TT (S n) = TT 1.
Proof. induction n as [|n IH]; [reflexivity|]. rewrite TT_S by lia. exact IH. Qed.
Lemma TT_1 : TT 1 = Gam s * Gam (1 - s) * sin (PI * s) / PI.
Proof.
  unfold TT, QQ. change (INR 1) with 1. pose proof (rho_S 0) as R. cbn [INR] in R. rewrite rho_0 in R. assert (E : rho 1 = sin (PI * s) / (PI * s) / ((1 - s) * (1 + s))) by (rewrite Rplus_0_l in R; replace (1 ^ 2) with 1 in R by ring; rewrite Rmult_1_r in R; rewrite <- R; field; lra). rewrite E. assert (G1 : Gam 1 = 1) by (pose proof (Gam_fact 0) as F; cbn in F; rewrite Rplus_0_l in F; exact F). rewrite G1.
  replace (1 + s) with (s + 1) by ring. replace (1 + 1 - s) with (1 - s + 1) by ring. rewrite (Gam_rec s), (Gam_rec (1 - s)) by lra. pose proof PI_RGT_0. field. repeat split; lra.
Qed.
Lemma QQ_bound n : (1 <= n)%nat -> exp (- / INR n) <= QQ n <= 1.
Proof.
  intros Hn. assert (N1 : 1 <= INR n) by (apply (le_INR 1); exact Hn). unfold QQ. set (N := INR n) in *. replace (N + 1 - s) with (N + (1 - s)) by ring. pose proof (lg_between N s ltac:(lra) ltac:(lra)) as A. pose proof (lg_between N (1 - s) ltac:(lra) ltac:(lra)) as B. pose proof (Gam_pos N ltac:(lra)) as P0. pose proof (Gam_pos (N + s) ltac:(lra)) as P1. pose proof (Gam_pos (N + (1 - s)) ltac:(lra)) as P2.
  assert (PQ : 0 < Gam (N + s) * Gam (N + (1 - s)) / (Gam N ^ 2 * N)) by (apply Rdiv_lt_0_compat; [apply Rmult_lt_0_compat; assumption|apply Rmult_lt_0_compat; [apply pow_lt, P0|lra]]).
  assert (E : ln (Gam (N + s) * Gam (N + (1 - s)) / (Gam N ^ 2 * N)) = lg (N + s) + lg (N + (1 - s)) - 2 * lg N - ln N). { rewrite ln_div; [|apply Rmult_lt_0_compat; assumption|apply Rmult_lt_0_compat; [apply pow_lt, P0|lra]]. rewrite ln_mult by assumption. rewrite ln_mult; [|apply pow_lt, P0|lra]. rewrite ln_pow_nat by exact P0. unfold lg. change (INR 2) with 2. ring. }
  pose proof (ln_gen N s ltac:(lra) ltac:(lra)) as G1. pose proof (ln_gen N (1 - s) ltac:(lra) ltac:(lra)) as G2. assert (IN : 0 < / N) by (apply Rinv_0_lt_compat; lra). unfold Rdiv in G1, G2.
  assert (LB : - / N <= ln (Gam (N + s) * Gam (N + (1 - s)) / (Gam N ^ 2 * N)) <= 0). { rewrite E. set (g1 := ln (N + s) - ln N) in *. set (g2 := ln (N + (1 - s)) - ln N) in *. replace (1 - (1 - s)) with s in B by ring. assert ((1 - s) * g1 <= (1 - s) * (s * / N)) by (apply Rmult_le_compat_l; lra). assert (s * g2 <= s * ((1 - s) * / N)) by (apply Rmult_le_compat_l; lra). assert (2 * (s * (1 - s)) <= 1) by nra. assert (2 * (s * (1 - s)) * / N <= 1 * / N) by (apply Rmult_le_compat_r; lra). lra. }
  rewrite <- (exp_ln _ PQ). clearbody N. set (q := ln (Gam (N + s) * Gam (N + (1 - s)) / (Gam N ^ 2 * N))) in *. clearbody q. split.
  - destruct LB as [[L|L] _]; [left; apply exp_increasing, L|rewrite L; lra].
  - destruct LB as [_ [L|L]]; [left; rewrite <- exp_0; apply exp_increasing, L|rewrite L, exp_0; lra].
Qed.
Lemma reflection : Gam s * Gam (1 - s) = PI / sin (PI * s).
Proof.
  pose proof PI_RGT_0 as P0. assert (PS : 0 < sin (PI * s)) by (apply sin_gt_0; nra). assert (T1 : TT 1 = 1).
  { assert (L : is_lim_seq (fun n => TT (S n)) 1).
    { apply (is_lim_seq_ext (fun n => 1 + (TT (S n) - 1))); [intros n; ring|]. replace (Finite 1) with (Finite (1 + 0)) by (f_equal; ring). apply is_lim_seq_plus'; [apply is_lim_seq_const|]. apply (lim_small _ 4). intros n. assert (N1 : 1 <= INR (S n)) by (apply (le_INR 1); lia). pose proof (QQ_bound (S n) ltac:(lia)) as Q. pose proof (rho_bound (S n)) as R. unfold TT. set (N := INR (S n)) in *.
      assert (IN : 0 < / N <= 1) by (split; [apply Rinv_0_lt_compat; lra|rewrite <- Rinv_1; apply Rinv_le_contravar; lra]). pose proof (exp_ineq1_le (- / N)) as E. assert (I2 : / (N + 1) <= / N) by (apply Rinv_le_contravar; lra). replace ((N + s) / N) with (1 + s * / N) by (field; lra). set (u := / N) in *. set (q := QQ (S n)) in *. set (r := rho (S n)) in *.
      assert (A1 : 1 - u <= q <= 1) by lra. assert (A2 : 1 - u <= r <= 1) by lra. assert (A3 : 0 <= s * u <= u) by nra. assert (B1 : 1 - 2 * u <= q * r <= 1) by nra. apply Rabs_le_between. nra. }
    apply (is_lim_seq_ext _ (fun _ => TT 1)) in L; [|intros n; apply TT_const]. pose proof (is_lim_seq_unique _ _ L) as U. rewrite Lim_seq_const in U. apply (f_equal real) in U. exact U. }
  rewrite TT_1 in T1. apply (Rmult_eq_reg_r (sin (PI * s) / PI)); [|apply Rgt_not_eq, Rdiv_lt_0_compat; assumption]. replace (Gam s * Gam (1 - s) * (sin (PI * s) / PI)) with (Gam s * Gam (1 - s) * sin (PI * s) / PI) by (field; lra). rewrite T1. field. lra.
Qed.
End Sine.
