(** Stirling's series: the constant (Wallis) and the enclosure *)
From Coq Require Import List Arith ZArith Lia Reals Lra Psatz.
From Coquelicot Require Import Rcomplements Hierarchy Continuity Derive RInt RInt_analysis AutoDerive ElemFct Lim_seq Rbar.
From Verif Require Import EllipSpec Improper GammaSpec GammaInt GammaFun HyperExp Stirling.
Import ListNotations.
Open Scope R_scope.

(** ** Gamma between y and y + 1 *)
Lemma power_convex s L : 0 <= s <= 1 -> exp (s * L) <= 1 - s + s * exp L.
Proof.
  intros Hs. pose proof (exp_ineq1_le ((1 - s) * L)) as A. pose proof (exp_ineq1_le (- s * L)) as B. pose proof (exp_pos (s * L)) as P. assert (E1 : exp L = exp (s * L) * exp ((1 - s) * L)) by (rewrite <- exp_plus; f_equal; ring). assert (E2 : 1 = exp (s * L) * exp (- s * L)) by (rewrite <- exp_plus, <- exp_0; f_equal; ring).
  set (e := exp (s * L)) in *. set (u := exp ((1 - s) * L)) in *. set (v := exp (- s * L)) in *. rewrite E1. assert (e * (1 + (1 - s) * L) <= e * u) by (apply Rmult_le_compat_l; lra). assert (e * (1 + - s * L) <= e * v) by (apply Rmult_le_compat_l; lra). nra.
Qed.
Lemma Gam_between y s : 0 < y -> 0 <= s <= 1 -> Gam (y + s) <= Rpower y s * Gam y.
Proof.
  intros Hy Hs. pose proof (Gam_ok y Hy) as G0. pose proof (Gam_ok (y + 1) ltac:(lra)) as G1. pose proof (Gam_ok (y + s) ltac:(lra)) as Gs. rewrite (Gam_rec y Hy) in G1.
  replace (Rpower y s * Gam y) with ((1 - s) * Rpower y s * Gam y + s * Rpower y s / y * (y * Gam y)) by (field; lra).
  eapply improper0_le; [|exact Gs|apply improper0_plus; [apply improper0_scal, G0|apply improper0_scal, G1]]. intros t Ht. cbv beta. unfold gamma_density.
  replace (y + s - 1) with (y - 1 + s) by ring. replace (y + 1 - 1) with (y - 1 + 1) by ring. rewrite !Rpower_plus, (Rpower_1 t Ht). pose proof (Rpower_pos t (y - 1)) as P. pose proof (exp_pos (- t)) as E. pose proof (power_convex s (ln (t / y)) Hs) as PC. rewrite exp_ln in PC by (apply Rdiv_lt_0_compat; assumption). rewrite ln_div in PC by assumption.
  assert (ET : Rpower t s = Rpower y s * exp (s * (ln t - ln y))) by (unfold Rpower; rewrite <- exp_plus; f_equal; ring). rewrite ET. pose proof (Rpower_pos y s) as Q. set (Y := Rpower y s) in *. set (T := Rpower t (y - 1)) in *. set (e := exp (- t)) in *.
  replace ((1 - s) * Y * (T * e) + s * Y / y * (T * t * e)) with (T * e * Y * (1 - s + s * (t / y))) by (field; lra). replace (T * (Y * exp (s * (ln t - ln y))) * e) with (T * e * Y * exp (s * (ln t - ln y))) by ring. apply Rmult_le_compat_l; [|exact PC]. left. repeat apply Rmult_lt_0_compat; assumption.
Qed.
Definition lg (x : R) : R := ln (Gam x).
Lemma lg_rec x : 0 < x -> lg (x + 1) = ln x + lg x.
Proof. intros H. unfold lg. rewrite (Gam_rec x H), ln_mult; [reflexivity|exact H|apply Gam_pos, H]. Qed.
Lemma lg_between y s : 0 < y -> 0 <= s <= 1 -> lg y + s * ln y - (1 - s) * (ln (y + s) - ln y) <= lg (y + s) <= lg y + s * ln y.
Proof.
  intros Hy Hs. pose proof (Gam_pos y Hy) as P0. pose proof (Gam_pos (y + s) ltac:(lra)) as Ps. pose proof (Gam_pos (y + 1) ltac:(lra)) as P1. split.
  - pose proof (Gam_between (y + s) (1 - s) ltac:(lra) ltac:(lra)) as G. replace (y + s + (1 - s)) with (y + 1) in G by ring. apply ln_le in G; [|exact P1]. rewrite ln_mult in G; [|apply Rpower_pos|exact Ps]. unfold Rpower in G at 1. rewrite ln_exp in G. fold (lg (y + s)) (lg (y + 1)) in G. rewrite (lg_rec y Hy) in G. nra.
  - pose proof (Gam_between y s Hy Hs) as G. apply ln_le in G; [|exact Ps]. rewrite ln_mult in G; [|apply Rpower_pos|exact P0]. unfold Rpower in G at 1. rewrite ln_exp in G. fold (lg (y + s)) (lg y) in G. lra.
Qed.
(** ** The remainder *)
Fixpoint Ss (l : list (R * nat)) (x : R) : R := match l with [] => 0 | (c, n) :: l' => c * / x ^ n + Ss l' x end.
Lemma Ss_diff l x : Ss l (x + 1) - Ss l x = Sg l x.
Proof. induction l as [|[c n] l IH]; cbn [Ss Sg]; [ring|]. rewrite <- IH. ring. Qed.
Lemma Ss_small l x : (forall c n, In (c, n) l -> (1 <= n)%nat) -> 1 <= x -> Rabs (Ss l x) <= Sabs l / x.
Proof.
  intros H Hx. induction l as [|[c n] l IH]; cbn [Ss Sabs]; [rewrite Rabs_R0; unfold Rdiv; lra|]. specialize (IH (fun c n Hc => H c n (or_intror Hc))). specialize (H c n (or_introl eq_refl)).
  assert (P : 0 < / x <= 1) by (split; [apply Rinv_0_lt_compat; lra|rewrite <- Rinv_1; apply Rinv_le_contravar; lra]).
  assert (B : Rabs (/ x ^ n) <= / x). { rewrite <- pow_inv. destruct n as [|n]; [lia|]. cbn [pow]. assert (0 <= (/ x) ^ n <= 1) by (split; [apply pow_le; lra|rewrite <- (pow1 n); apply pow_incr; lra]). rewrite Rabs_pos_eq; nra. }
  eapply Rle_trans; [apply Rabs_triang|]. rewrite Rabs_mult. unfold Rdiv in *. rewrite Rmult_plus_distr_r. apply Rplus_le_compat; [apply Rmult_le_compat_l; [apply Rabs_pos|exact B]|exact IH].
Qed.
Definition stirling_main (x : R) : R := (x - 1/2) * ln x - x + ln (2 * PI) / 2.
Definition DD (x : R) : R := lg x - stirling_main x - Ss cs6 x.
Definition bb (x : R) : R := 1/156 * / x ^ 13.
Lemma DD_step x : 0 < x -> DD (x + 1) = DD x - rr cs6 x.
Proof. intros H. unfold DD, stirling_main, rr. rewrite (lg_rec x H), <- (Ss_diff cs6 x). field. Qed.
Lemma rr_bound x : 0 < x -> 0 <= rr cs6 x <= bb x - bb (x + 1).
Proof. intros H. split; [apply rr6_pos, H|]. pose proof (rr7_neg x H) as N. assert (E : rr cs7 x = rr cs6 x + (bb (x + 1) - bb x)). { unfold rr, cs7, bb, cs6. cbn [Sg app]. ring. } rewrite E in N. lra. Qed.
Lemma DD_tele x n : 0 < x -> DD (x + INR n) <= DD x <= DD (x + INR n) + bb x - bb (x + INR n).
Proof.
  intros Hx. induction n as [|n IH]; [cbn; rewrite Rplus_0_r; lra|]. rewrite S_INR, <- Rplus_assoc. pose proof (pos_INR n). pose proof (DD_step (x + INR n) ltac:(lra)) as E. pose proof (rr_bound (x + INR n) ltac:(lra)) as B. lra.
Qed.
Lemma bb_pos x : 0 < x -> 0 < bb x. Proof. intros H. unfold bb. apply Rmult_lt_0_compat; [lra|]. apply Rinv_0_lt_compat, pow_lt, H. Qed.
Lemma DD_lim x : 0 < x -> ex_finite_lim_seq (fun n => DD (x + INR n)).
Proof.
  intros Hx. apply (ex_finite_lim_seq_decr _ (DD x - bb x)).
  - intros n. rewrite S_INR, <- Rplus_assoc. pose proof (pos_INR n). rewrite (DD_step (x + INR n)) by lra. pose proof (rr_bound (x + INR n) ltac:(lra)). lra.
  - intros n. pose proof (DD_tele x n Hx). pose proof (pos_INR n). pose proof (bb_pos (x + INR n) ltac:(lra)). lra.
Qed.
(** ** Wallis *)
Definition W (n : nat) : R := RInt (fun t => sin t ^ n) 0 (PI / 2).
Lemma sinn_cont n t : continuous (fun t => sin t ^ n) t.
Proof. apply (ex_derive_continuous (fun t => sin t ^ n)). auto_derive. exact I. Qed.
Lemma W_ok n : is_RInt (fun t => sin t ^ n) 0 (PI / 2) (W n).
Proof. apply (RInt_correct (fun t => sin t ^ n)). apply (ex_RInt_continuous (fun t => sin t ^ n)). intros t _. apply sinn_cont. Qed.
Lemma W_rec n : INR (n + 2) * W (n + 2) = INR (n + 1) * W n.
Proof.
  assert (D : is_RInt (fun t => INR (n + 2) * sin t ^ (n + 2) - INR (n + 1) * sin t ^ n) 0 (PI / 2) ((- cos (PI / 2) * sin (PI / 2) ^ (n + 1)) - (- cos 0 * sin 0 ^ (n + 1)))).
  { apply (is_RInt_derive (fun t => - cos t * sin t ^ (n + 1)) (fun t => INR (n + 2) * sin t ^ (n + 2) - INR (n + 1) * sin t ^ n)); intros t _.
    - auto_derive; [exact I|]. replace (Init.Nat.pred (n + 1)) with n by lia. rewrite !pow_add. pose proof (sin2_cos2 t) as SC. unfold Rsqr in SC. rewrite !plus_INR. change (INR 1) with 1. change (INR 2) with 2. cbn [pow]. set (s := sin t) in *. set (c := cos t) in *. set (P := s ^ n). assert (CC : c * c = 1 - s * s) by lra. replace (- c * (1 * c * ((INR n + 1) * P))) with (- (c * c) * (INR n + 1) * P) by ring. rewrite CC. ring.
    - apply (ex_derive_continuous (fun t => INR (n + 2) * sin t ^ (n + 2) - INR (n + 1) * sin t ^ n)). auto_derive. exact I. }
  assert (E : is_RInt (fun t => INR (n + 2) * sin t ^ (n + 2) - INR (n + 1) * sin t ^ n) 0 (PI / 2) (INR (n + 2) * W (n + 2) - INR (n + 1) * W n)).
  { apply (is_RInt_minus (fun t => INR (n + 2) * sin t ^ (n + 2)) (fun t => INR (n + 1) * sin t ^ n)); [apply (is_RInt_scal (fun t => sin t ^ (n + 2))), W_ok|apply (is_RInt_scal (fun t => sin t ^ n)), W_ok]. }
  pose proof (is_RInt_unique _ _ _ _ D) as U1. rewrite (is_RInt_unique _ _ _ _ E) in U1. rewrite cos_PI2, sin_0, pow_i in U1 by lia. lra.
Qed.
Lemma W_0 : W 0 = PI / 2.
Proof. unfold W. rewrite (RInt_ext _ (fun _ => 1)) by (intros t _; reflexivity). rewrite RInt_const. unfold scal. cbn. unfold mult. cbn. lra. Qed.
Lemma W_1 : W 1 = 1.
Proof.
  assert (D : is_RInt (fun t => sin t ^ 1) 0 (PI / 2) (- cos (PI / 2) - - cos 0)). { apply (is_RInt_derive (fun t => - cos t) (fun t => sin t ^ 1)); intros t _; [auto_derive; [exact I|ring]|apply sinn_cont]. }
  pose proof (is_RInt_unique _ _ _ _ D) as U. fold (W 1) in U. change (W 1 = - cos (PI / 2) - - cos 0) in U. rewrite U, cos_PI2, cos_0. ring.
Qed.
Lemma W_pos n : 0 < W n.
Proof.
  assert (P : forall n, 0 < W n /\ 0 < W (n + 1)). { clear n. intros n. induction n as [|n [A B]]; [rewrite W_0; cbn [Nat.add]; rewrite W_1; pose proof PI_RGT_0; lra|]. replace (S n + 1)%nat with (n + 2)%nat by lia. replace (S n) with (n + 1)%nat by lia. split; [exact B|]. pose proof (W_rec n) as R. assert (0 < INR (n + 2)) by (rewrite plus_INR; pose proof (pos_INR n); cbn; lra). assert (0 < INR (n + 1)) by (rewrite plus_INR; pose proof (pos_INR n); cbn; lra). assert (0 < INR (n + 2) * W (n + 2)) by (rewrite R; apply Rmult_lt_0_compat; assumption). apply (Rmult_lt_reg_l (INR (n + 2))); lra. }
  exact (proj1 (P n)).
Qed.
Lemma W_dec n : W (n + 1) <= W n.
Proof.
  pose proof PI_RGT_0. apply (is_RInt_le (fun t => sin t ^ (n + 1)) (fun t => sin t ^ n) 0 (PI / 2)); [lra|apply W_ok|apply W_ok|]. intros t Ht. rewrite pow_add. assert (0 <= sin t) by (apply sin_ge_0; lra). pose proof (SIN_bound t). assert (0 <= sin t ^ n) by (apply pow_le; assumption). cbn [pow]. nra.
Qed.
Lemma W_prod n : INR (n + 1) * W n * W (n + 1) = PI / 2.
Proof.
  induction n as [|n IH]; [cbn [Nat.add INR]; rewrite W_0, W_1; ring|]. rewrite <- IH. replace (S n + 1)%nat with (n + 2)%nat by lia. replace (S n) with (n + 1)%nat by lia. replace (INR (n + 2) * W (n + 1) * W (n + 2)) with (W (n + 1) * (INR (n + 2) * W (n + 2))) by ring. rewrite W_rec. ring.
Qed.
Lemma W_even n : W (2 * n) = PI / 2 * (INR (fact (2 * n)) / (4 ^ n * (INR (fact n)) ^ 2)).
Proof.
  induction n as [|n IH]; [change (2 * 0)%nat with 0%nat; rewrite W_0; cbn [fact pow INR]; field|]. replace (2 * S n)%nat with (2 * n + 2)%nat by lia. pose proof (W_rec (2 * n)) as R. rewrite IH in R.
  replace (fact (2 * n + 2)) with (fact (S (S (2 * n)))) by (f_equal; lia). rewrite !fact_S_R. pose proof (fact_pos n). pose proof (fact_pos (2 * n)). pose proof (pos_INR n). assert (P4 : 0 < 4 ^ n) by (apply pow_lt; lra).
  rewrite !plus_INR, mult_INR in R. rewrite S_INR, mult_INR. change (INR 2) with 2 in *. change (INR 1) with 1 in *. apply (Rmult_eq_reg_l (2 * INR n + 2)); [|lra]. rewrite R. cbn [pow]. field. lra.
Qed.
Lemma W_square n : (1 <= n)%nat -> PI / (4 * INR n + 2) <= W (2 * n) ^ 2 <= PI / (4 * INR n).
Proof.
  intros Hn. pose proof (W_prod (2 * n)) as P. pose proof (W_dec (2 * n)) as D1. pose proof (W_dec (2 * n - 1)) as D2. replace (2 * n - 1 + 1)%nat with (2 * n)%nat in D2 by lia. pose proof (W_rec (2 * n - 1)) as R. replace (2 * n - 1 + 2)%nat with (2 * n + 1)%nat in R by lia. replace (2 * n - 1 + 1)%nat with (2 * n)%nat in R by lia.
  pose proof (W_pos (2 * n)). pose proof (W_pos (2 * n + 1)). pose proof (W_pos (2 * n - 1)). rewrite plus_INR, mult_INR in *. change (INR 2) with 2 in *. change (INR 1) with 1 in *. assert (N1 : 1 <= INR n) by (apply (le_INR 1); exact Hn).
  set (w := W (2 * n)) in *. set (v := W (2 * n + 1)) in *. set (u := W (2 * n - 1)) in *. split.
  - apply (Rmult_le_reg_r (4 * INR n + 2)); [lra|]. replace (PI / (4 * INR n + 2) * (4 * INR n + 2)) with PI by (field; lra). replace PI with (2 * ((2 * INR n + 1) * w * v)) by lra. cbn [pow]. assert (w * v <= w * w) by (apply Rmult_le_compat_l; lra). nra.
  - apply (Rmult_le_reg_r (4 * INR n)); [lra|]. replace (PI / (4 * INR n) * (4 * INR n)) with PI by (field; lra). replace PI with (2 * ((2 * INR n + 1) * w * v)) by lra. replace (2 * ((2 * INR n + 1) * w * v)) with (2 * w * ((2 * INR n + 1) * v)) by ring. rewrite R. cbn [pow]. assert (0 <= INR n * w * (u - w)) by (apply Rmult_le_pos; [apply Rmult_le_pos; lra|lra]). nra.
Qed.
Lemma Gam_fact n : Gam (INR n + 1) = INR (fact n).
Proof.
  induction n as [|n IH]; [cbn; rewrite Rplus_0_l; exact (euler_unique _ _ _ (Gam_ok 1 Rlt_0_1) euler_one)|]. rewrite S_INR, fact_S_R. pose proof (pos_INR n). rewrite (Gam_rec (INR n + 1)) by lra. rewrite IH. reflexivity.
Qed.
Lemma ln_pow_nat x n : 0 < x -> ln (x ^ n) = INR n * ln x.
Proof. intros H. induction n as [|n IH]; [cbn; rewrite ln_1; ring|]. rewrite S_INR. cbn [pow]. rewrite ln_mult, IH; [ring|exact H|apply pow_lt, H]. Qed.
Lemma wallis_DD n : (1 <= n)%nat -> Rabs (DD (INR (2 * n)) - 2 * DD (INR n) + (Ss cs6 (INR (2 * n)) - 2 * Ss cs6 (INR n))) <= / INR n.
Proof.
  intros Hn. assert (N1 : 1 <= INR n) by (apply (le_INR 1); exact Hn). pose proof PI_RGT_0 as PI0. pose proof (W_square n Hn) as [L U]. pose proof (W_pos (2 * n)) as WP. assert (E2 : INR (2 * n) = 2 * INR n) by (rewrite mult_INR; reflexivity).
  apply ln_le in L; [|apply Rdiv_lt_0_compat; lra]. apply ln_le in U; [|apply pow_lt, WP]. rewrite (ln_pow_nat _ 2 WP) in L, U. change (INR 2) with 2 in L, U. rewrite ln_div in L, U by lra.
  assert (EW : ln (W (2 * n)) = ln (PI / 2) + lg (INR (2 * n) + 1) - 2 * INR n * ln 2 - 2 * lg (INR n + 1)).
  { rewrite W_even. unfold lg. rewrite !Gam_fact. pose proof (fact_pos n). pose proof (fact_pos (2 * n)). assert (0 < 4 ^ n) by (apply pow_lt; lra). assert (0 < INR (fact n) ^ 2) by (apply pow_lt; assumption). rewrite ln_mult; [|lra|apply Rdiv_lt_0_compat; [assumption|apply Rmult_lt_0_compat; assumption]]. rewrite (ln_div (INR (fact (2 * n)))); [|assumption|apply Rmult_lt_0_compat; assumption]. rewrite ln_mult by assumption. rewrite !ln_pow_nat by lra. replace 4 with (2 * 2) by ring. rewrite ln_mult by lra. change (INR 2) with 2. ring. }
  rewrite (lg_rec (INR (2 * n))), (lg_rec (INR n)) in EW by lra. unfold DD, stirling_main. rewrite ln_mult by lra. rewrite ln_div in EW by lra. rewrite E2 in *. rewrite (ln_mult 2 (INR n)) in * by lra.
  assert (EL : ln (4 * INR n) = 2 * ln 2 + ln (INR n)) by (rewrite ln_mult by lra; replace 4 with (2 * 2) by ring; rewrite ln_mult by lra; ring). assert (EL2 : ln (4 * INR n + 2) = ln 2 + ln (2 * INR n + 1)) by (rewrite <- ln_mult by lra; f_equal; ring). pose proof (ln_bounds (2 * INR n) ltac:(lra)) as [_ LB]. rewrite (ln_mult 2 (INR n)) in LB by lra. assert (/ (2 * INR n) = / INR n / 2) as EI by (field; lra). rewrite EI in LB. rewrite EL in U. rewrite EL2 in L. assert (0 < / INR n) by (apply Rinv_0_lt_compat; lra).
  apply Rabs_le_between. lra.
Qed.
Lemma lim_inv : is_lim_seq (fun n => / INR (S n)) 0.
Proof. apply is_lim_seq_incr_1 with (u := fun n => / INR n). apply (is_lim_seq_inv INR p_infty is_lim_seq_INR). discriminate. Qed.
Lemma lim_small (u : nat -> R) C : (forall n, Rabs (u n) <= C * / INR (S n)) -> is_lim_seq u 0.
Proof.
  intros H. apply is_lim_seq_abs_0. apply (is_lim_seq_le_le (fun _ => 0) _ (fun n => C * / INR (S n))); [intros n; split; [apply Rabs_pos|apply H]|apply is_lim_seq_const|]. replace (Finite 0) with (Rbar_mult C 0) by (cbn; f_equal; ring). apply is_lim_seq_scal_l, lim_inv.
Qed.
Lemma DD_integers : is_lim_seq (fun n => DD (INR (S n))) 0.
Proof.
  destruct (DD_lim 1 ltac:(lra)) as (l & Hl). assert (Hd : is_lim_seq (fun n => DD (INR (S n))) l) by (eapply is_lim_seq_ext; [|exact Hl]; intros n; cbv beta; f_equal; rewrite S_INR; ring).
  assert (H2 : is_lim_seq (fun n => DD (INR (2 * S n))) l). { eapply is_lim_seq_ext; [|apply (is_lim_seq_subseq (fun n => DD (INR (S n))) l (fun n => 2 * n + 1)%nat); [|exact Hd]]; [intros n; cbv beta; do 2 f_equal; lia|]. intros P HP. destruct HP as (N & HN). exists N. intros n Hn. apply HN. lia. }
  assert (HS : is_lim_seq (fun n => Ss cs6 (INR (2 * S n)) - 2 * Ss cs6 (INR (S n))) 0).
  { apply (lim_small _ (3 * Sabs cs6)). intros n. assert (N1 : 1 <= INR (S n)) by (apply (le_INR 1); lia). assert (E2 : INR (2 * S n) = 2 * INR (S n)) by (rewrite mult_INR; reflexivity). pose proof (Ss_small cs6 (INR (S n)) cs6_ok N1) as A. pose proof (Ss_small cs6 (INR (2 * S n)) cs6_ok ltac:(lra)) as B. assert (SP : 0 <= Sabs cs6) by (unfold cs6; cbn [Sabs]; repeat (apply Rplus_le_le_0_compat; [apply Rabs_pos|]); lra). unfold Rdiv in A, B. assert (/ INR (2 * S n) <= / INR (S n)) by (apply Rinv_le_contravar; lra). assert (Sabs cs6 * / INR (2 * S n) <= Sabs cs6 * / INR (S n)) by (apply Rmult_le_compat_l; assumption). apply Rabs_le_between in A. apply Rabs_le_between in B. apply Rabs_le_between. lra. }
  assert (HW : is_lim_seq (fun n => DD (INR (2 * S n)) - 2 * DD (INR (S n)) + (Ss cs6 (INR (2 * S n)) - 2 * Ss cs6 (INR (S n)))) 0) by (apply (lim_small _ 1); intros n; rewrite Rmult_1_l; apply wallis_DD; lia).
  assert (HL : is_lim_seq (fun n => DD (INR (2 * S n)) - 2 * DD (INR (S n)) + (Ss cs6 (INR (2 * S n)) - 2 * Ss cs6 (INR (S n)))) (l - 2 * l + 0)).
  { apply is_lim_seq_plus'; [|exact HS]. apply is_lim_seq_minus'; [exact H2|]. apply (is_lim_seq_scal_l _ 2 l Hd). }
  pose proof (is_lim_seq_unique _ _ HW) as U1. rewrite (is_lim_seq_unique _ _ HL) in U1. assert (E : l - 2 * l + 0 = 0) by (apply (f_equal real) in U1; exact U1). replace l with 0 in Hd by lra. exact Hd.
Qed.
Lemma ln_gen m s : 0 < m -> 0 <= s -> s / (m + s) <= ln (m + s) - ln m <= s / m.
Proof.
  intros Hm Hs. rewrite <- ln_div by lra. split.
  - assert (E : ln ((m + s) / m) = - ln (m / (m + s))) by (rewrite <- ln_Rinv by (apply Rdiv_lt_0_compat; lra); f_equal; field; lra). rewrite E. assert (P : 0 < m / (m + s)) by (apply Rdiv_lt_0_compat; lra). pose proof (exp_ineq1_le (ln (m / (m + s)))) as Q. rewrite exp_ln in Q by exact P. replace (m / (m + s)) with (1 - s / (m + s)) in Q at 2 by (field; lra). lra.
  - pose proof (exp_ineq1_le (ln ((m + s) / m))) as Q. rewrite exp_ln in Q by (apply Rdiv_lt_0_compat; lra). replace ((m + s) / m) with (1 + s / m) in Q at 2 by (field; lra). lra.
Qed.
Lemma DD_shift m s : 1 <= m -> 0 <= s <= 1 -> Rabs (DD (m + s) - DD m) <= (4 + 2 * Sabs cs6) * / m.
Proof.
  intros Hm Hs. pose proof (lg_between m s ltac:(lra) Hs) as B. pose proof (ln_gen m s ltac:(lra) ltac:(lra)) as G. pose proof (Ss_small cs6 m cs6_ok Hm) as A1. pose proof (Ss_small cs6 (m + s) cs6_ok ltac:(lra)) as A2. assert (SP : 0 <= Sabs cs6) by (unfold cs6; cbn [Sabs]; repeat (apply Rplus_le_le_0_compat; [apply Rabs_pos|]); lra).
  assert (I1 : 0 < / (m + s) <= / m) by (split; [apply Rinv_0_lt_compat; lra|apply Rinv_le_contravar; lra]). unfold Rdiv in *. assert (Sabs cs6 * / (m + s) <= Sabs cs6 * / m) by (apply Rmult_le_compat_l; lra). apply Rabs_le_between in A1. apply Rabs_le_between in A2.
  unfold DD, stirling_main. set (g := ln (m + s) - ln m) in *. replace (ln (m + s)) with (ln m + g) by (unfold g; ring). assert (M1 : m * / m = 1) by (field; lra). assert (M2 : (m + s) * / (m + s) = 1) by (field; lra). assert (g1 : (m + s) * g <= s + / m). { assert ((m + s) * g <= (m + s) * (s * / m)) by (apply Rmult_le_compat_l; lra). assert ((m + s) * (s * / m) = s + s * s * / m) by (replace ((m + s) * (s * / m)) with (s * (m * / m) + s * s * / m) by ring; rewrite M1; ring). nra. }
  assert (g2 : s <= (m + s) * g). { assert ((m + s) * (s * / (m + s)) <= (m + s) * g) by (apply Rmult_le_compat_l; lra). replace ((m + s) * (s * / (m + s))) with (s * ((m + s) * / (m + s))) in H0 by ring. rewrite M2 in H0. lra. }
  assert (g3 : 0 <= g <= / m) by (split; nra). apply Rabs_le_between. assert ((1 - s) * g <= / m) by nra. nra.
Qed.
Lemma DD_zero x : 0 < x -> is_lim_seq (fun n => DD (x + INR n)) 0.
Proof.
  intros Hx. set (k := Z.to_nat (Int_part x)). set (s := x - INR k). assert (Hs : 0 <= s <= 1). { pose proof (base_Int_part x) as [A B]. assert (0 <= Int_part x)%Z by (assert (-1 < Int_part x)%Z by (apply lt_IZR; lra); lia). unfold s, k. rewrite INR_IZR_INZ, Z2Nat.id by assumption. lra. }
  assert (E : is_lim_seq (fun m => DD (INR (S m) + s)) 0).
  { apply (is_lim_seq_ext (fun m => DD (INR (S m)) + (DD (INR (S m) + s) - DD (INR (S m))))); [intros m; ring|]. replace 0 with (0 + 0) by ring. apply is_lim_seq_plus'; [apply DD_integers|]. apply (lim_small _ (4 + 2 * Sabs cs6)). intros m. apply DD_shift; [apply (le_INR 1); lia|exact Hs]. }
  apply is_lim_seq_incr_n with (N := 1%nat). apply (is_lim_seq_incr_n _ k) in E. eapply is_lim_seq_ext; [|exact E]. intros n. cbv beta. f_equal. replace x with (INR k + s) by (unfold s; ring). rewrite S_INR, !plus_INR. cbn [INR]. ring.
Qed.
(** The logarithm of the gamma function exceeds Stirling's series by at least 0 and at most the next term. *)
Lemma stirling_enclosure x : 0 < x -> 0 <= DD x <= bb x.
Proof.
  intros Hx. pose proof (DD_zero x Hx) as Z. split.
  - apply (is_lim_seq_le (fun n => DD (x + INR n)) (fun _ => DD x) 0 (DD x)); [intros n; apply DD_tele, Hx|exact Z|apply is_lim_seq_const].
  - assert (Q : DD x - bb x <= 0); [|lra]. apply (is_lim_seq_le (fun _ => DD x - bb x) (fun n => DD (x + INR n)) (DD x - bb x) 0); [|apply is_lim_seq_const|exact Z]. intros n. pose proof (DD_tele x n Hx). pose proof (pos_INR n). pose proof (bb_pos (x + INR n) ltac:(lra)). lra.
Qed.
