(** Lanczos's formula of gammainc.h: the relative error, from its logarithmic derivative *)
From Coq Require Import List Arith ZArith Lia Bool Reals Lra Psatz.
From Coquelicot Require Import Rcomplements Hierarchy Continuity Derive AutoDerive ElemFct.
From Verif Require Import EllipSpec Improper GammaSpec GammaInt GammaFun GammaFn GammaFnSpec GammaFnFacts Stirling Stirling2 GammaInc GammaIncSpec GammaIncFacts2 LanczosPoly Lanczos LanczosAcc.
Open Scope R_scope.

(** ** Lanczos's formula *)
Definition le (x : R) : R := ln (lanczos_gamma x) - lg x.
Lemma Qp12_log x : 0 < x -> is_derive (fun x => ln (ev (Qp 0 12) x)) x (hs 12 x).
Proof.
  intros Hx. pose proof (Qp_pos 12 0 x Hx) as P. evar_last; [apply (is_derive_comp ln (ev (Qp 0 12)) x (/ ev (Qp 0 12) x) (ev (pder (Qp 0 12)) x)); [apply is_derive_ln, P|apply ev_der]|].
  rewrite (Qp_log 12 0 x Hx). fold (hs 12 x). generalize dependent (ev (Qp 0 12) x). intros q P. match goal with |- ?u = ?v => change (@eq R u v) end. unfold scal; cbn - [hs]. unfold mult; cbn - [hs]. field. lra.
Qed.
Lemma le_eq x : 0 < x -> le x = ln (ev LN x) - ln (10 ^ 42) - ln (ev (Qp 0 12) x) + (x - 1/2) * (ln (x + (lanczos_g - 1/2)) - 1) - lg x.
Proof.
  intros Hx. unfold le, lanczos_gamma. assert (LG6 : 6 <= lanczos_g) by (unfold lanczos_g; lra). assert (NP : 0 < ev LN x) by (apply ppos_ok; [reflexivity|lra]). pose proof (Qp_pos 12 0 x Hx) as QP. assert (T : 0 < 10 ^ 42) by (apply pow_lt; lra).
  rewrite ln_mult; [|rewrite lanczos_sum_ev; apply Rdiv_lt_0_compat; [apply Rdiv_lt_0_compat; assumption|exact QP]|apply Rpower_pos]. unfold Rpower. rewrite ln_exp, lanczos_sum_ev. rewrite !ln_div; try assumption; [|lra|apply exp_pos|apply Rdiv_lt_0_compat; assumption]. rewrite ln_exp.
  replace (x + lanczos_g - 0.5) with (x + (lanczos_g - 1/2)) by lra. replace (x - 0.5) with (x - 1/2) by lra. ring.
Qed.
Lemma le_derive x : 0 < x -> is_derive le x (lf LN lS lDn 12 x - psi x).
Proof.
  intros Hx. assert (LG6 : 6 <= lanczos_g) by (unfold lanczos_g; lra). assert (NP : 0 < ev LN x) by (apply ppos_ok; [reflexivity|lra]).
  apply (is_derive_ext_loc (fun x => ln (ev LN x) - ln (10 ^ 42) - ln (ev (Qp 0 12) x) + (x - 1/2) * (ln (x + (lanczos_g - 1/2)) - 1) - lg x)).
  { exists (mkposreal x Hx). intros y Hy. symmetry. apply le_eq. apply Rabs_lt_between in Hy. cbn in Hy. unfold minus, plus, opp in Hy; cbn in Hy. lra. }
  apply (is_derive_minus (fun x => ln (ev LN x) - ln (10 ^ 42) - ln (ev (Qp 0 12) x) + (x - 1/2) * (ln (x + (lanczos_g - 1/2)) - 1)) lg); [|apply lg_derive, Hx].
  assert (D1 : is_derive (fun x => ln (ev LN x)) x (ev (pder LN) x / ev LN x)).
  { evar_last; [apply (is_derive_comp ln (ev LN) x (/ ev LN x) (ev (pder LN) x)); [apply is_derive_ln, NP|apply ev_der]|]. reflexivity. }
  assert (D2 : is_derive (fun x => ln (ev LN x) - ln (10 ^ 42) - ln (ev (Qp 0 12) x)) x (ev (pder LN) x / ev LN x - 0 - hs 12 x)).
  { apply (is_derive_minus (fun x => ln (ev LN x) - ln (10 ^ 42))); [|apply Qp12_log, Hx]. generalize (ln (10 ^ 42)). intros c. apply (is_derive_minus (fun x => ln (ev LN x)) (fun _ => c)); [exact D1|apply (is_derive_const c)]. }
  assert (D3 : is_derive (fun x => (x - 1/2) * (ln (x + (lanczos_g - 1/2)) - 1)) x (ln (x + (lanczos_g - 1/2)) - 1 + (x - 1/2) / (x + (lanczos_g - 1/2)))).
  { set (c := lanczos_g - 1/2). assert (0 < c) by (unfold c; lra). clearbody c. auto_derive; [lra|field; lra]. }
  evar_last; [apply (is_derive_plus _ _ _ _ _ D2 D3)|]. unfold lf. rewrite ls_l. generalize (ev (pder LN) x / ev LN x) (hs 12 x). intros p q. match goal with |- ?u = ?v => change (@eq R u v) end. unfold plus; cbn. ring.
Qed.

Lemma div_cancel u l : l <> 0 -> u / l * l = u.
Proof. intros H. field. exact H. Qed.
Lemma Gam_1 : Gam 1 = 1.
Proof. pose proof (Gam_fact 0) as H. cbn in H. rewrite Rplus_0_l in H. exact H. Qed.
Fixpoint zf (n : nat) : Z := match n with O => 1%Z | S n' => (Z.of_nat n * zf n')%Z end.
Fixpoint ze (n : nat) : Z := match n with O => 1%Z | S n' => (Z.of_nat n * ze n' + 1)%Z end.
Lemma zf_ok n : INR (fact n) = IZR (zf n).
Proof. induction n as [|n IH]; [reflexivity|]. change (fact (S n)) with (S n * fact n)%nat. cbn [zf]. rewrite mult_INR, IH, mult_IZR, <- INR_IZR_INZ. reflexivity. Qed.
Lemma ze_ok n : et n 1 * IZR (zf n) = IZR (ze n).
Proof.
  induction n as [|n IH]; [cbn; ring|]. cbn [et]. rewrite pow1, zf_ok. cbn [zf ze]. rewrite plus_IZR, !mult_IZR, <- IH. pose proof (INR_fact_lt_0 n) as P. rewrite zf_ok in P. assert (IZR (Z.of_nat (S n)) <> 0) by (rewrite <- INR_IZR_INZ; apply not_0_INR; lia). field. split; lra.
Qed.
Lemma e_digits : 2.71828182845904523536028 <= exp 1 <= 2.71828182845904523536029.
Proof.
  destruct (exp1_bounds 24) as [B1 B2]. rewrite zf_ok in B2. pose proof (ze_ok 24) as E. set (f24 := zf 24) in *. set (e24 := ze 24) in *. set (f25 := zf 25) in *. vm_compute in f24, e24, f25. unfold f24, e24, f25 in *. clear f24 e24 f25. set (t := et 24 1) in *. clearbody t. set (e := exp 1) in *. clearbody e. split; lra.
Qed.
(** at 1 the formula is right to 1e-40 *)
Lemma le_one : Rabs (le 1) <= / 10 ^ 20.
Proof.
  unfold le, lg. rewrite Gam_1, ln_1, Rminus_0_r. unfold lanczos_gamma. replace (1 - 0.5) with (/ 2) by lra. assert (LG6 : 0 < 1 + lanczos_g - 0.5) by (unfold lanczos_g; lra). pose proof (exp_pos 1) as EP.
  set (u := (1 + lanczos_g - 0.5) / exp 1). assert (U : 0 < u) by (apply Rdiv_lt_0_compat; assumption). set (l := lanczos_sum_expg_scaled 1). assert (L0 : 0 < l) by (apply lanczos_pos; lra). rewrite ln_mult; [|exact L0|apply Rpower_pos]. unfold Rpower. rewrite ln_exp.
  assert (E2 : ln l + / 2 * ln u = / 2 * ln (l * l * u)) by (rewrite ln_mult; [|apply Rmult_lt_0_compat; exact L0|exact U]; rewrite ln_mult by exact L0; field). rewrite E2.
  assert (B : 1 - / 10 ^ 21 <= l * l * u <= 1 + / 10 ^ 21).
  { pose proof e_digits as EE. assert (LV : 0.645457469819507116999010789340 <= l <= 0.645457469819507116999010789341).
    { unfold l, lanczos_sum_expg_scaled, horner. cbn [List.fold_left]. match goal with |- _ <= ?n / ?d <= _ => assert (D : 0 < d) by lra; split; apply (Rmult_le_reg_r d); try exact D; rewrite (div_cancel n d) by lra; lra end. }
    assert (UE : u * exp 1 = 6.524680040776729583740234375) by (unfold u, lanczos_g; field_simplify; [lra|lra]).
    assert (LL : 0.645457469819507116999010789340 * 0.645457469819507116999010789340 <= l * l <= 0.645457469819507116999010789341 * 0.645457469819507116999010789341) by (split; apply Rmult_le_compat; lra). set (q := l * l) in *. set (e := exp 1) in *. clearbody q e u.
    split; apply (Rmult_le_reg_r e); try exact EP; rewrite Rmult_assoc, UE; lra. }
  assert (B0 : 0 < l * l * u) by lra. assert (LU : ln (l * l * u) <= l * l * u - 1). { pose proof (exp_ineq1_le (ln (l * l * u))) as E. rewrite exp_ln in E by exact B0. lra. }
  assert (LL : 1 - / (l * l * u) <= ln (l * l * u)). { pose proof (exp_ineq1_le (- ln (l * l * u))) as E. rewrite exp_Ropp, exp_ln in E by exact B0. lra. }
  assert (I : / (l * l * u) <= 1 + 2 * / 10 ^ 21). { apply (Rmult_le_reg_l (l * l * u)); [exact B0|]. rewrite Rinv_r by lra. set (w := l * l * u) in *. clearbody w. nra. }
  apply Rabs_le. split; lra.
Qed.
Definition lw (x : R) : R := ln (x + 1) - ln (x + 2).
Lemma lw_derive x : 0 < x -> is_derive lw x (2 * ltau x).
Proof. intros Hx. unfold lw, ltau. auto_derive; [split; [lra|split; [lra|exact I]]|]. field. split; lra. Qed.
Lemma lw_range x : 0 < x -> -1/3 <= lw x - lw 1 <= 1/2.
Proof.
  intros Hx. unfold lw. assert (B : forall y, 0 < y -> ln y <= y - 1). { intros y Hy. pose proof (exp_ineq1_le (ln y)) as E. rewrite exp_ln in E by exact Hy. lra. }
  pose proof (B (3/2) ltac:(lra)) as B1. pose proof (B (4/3) ltac:(lra)) as B2. rewrite ln_div in B1, B2 by lra. replace (1 + 1) with 2 by ring. replace (1 + 2) with 3 by ring. assert (E4 : ln 4 = ln 2 + ln 2) by (rewrite <- ln_mult by lra; f_equal; ring).
  assert (M1 : ln (x + 1) < ln (x + 2)) by (apply ln_increasing; lra). assert (M2 : ln (x + 2) < ln (2 * (x + 1))) by (apply ln_increasing; lra). rewrite ln_mult in M2 by lra. lra.
Qed.
Lemma le_small a : 0 < a -> Rabs (le a) <= 95 / 10 ^ 16.
Proof.
  intros Ha. set (c := 189 / 10 ^ 16). assert (D : forall s x, Rabs s <= 1 -> 0 < x -> is_derive (fun x => c * lw x + s * le x) x (c * (2 * ltau x) + s * (lf LN lS lDn 12 x - psi x)) /\ 0 <= c * (2 * ltau x) + s * (lf LN lS lDn 12 x - psi x)).
  { intros s x Hs Hx. split; [apply (is_derive_plus (fun x => c * lw x) (fun x => s * le x)); apply is_derive_scal; [apply lw_derive, Hx|apply le_derive, Hx]|].
    pose proof (l_psi x Hx) as L. set (q := lf LN lS lDn 12 x - psi x) in *. assert (Rabs (s * q) <= 378 / 10 ^ 16 * ltau x). { rewrite Rabs_mult. pose proof (Rabs_pos s). pose proof (Rabs_pos q). nra. } apply Rabs_le_between in H. unfold c. lra. }
  assert (M : forall s, Rabs s <= 1 -> forall u v, 0 < u <= v -> c * lw u + s * le u <= c * lw v + s * le v).
  { intros s Hs u v Huv. apply (incr_on (fun x => c * lw x + s * le x) (fun x => c * (2 * ltau x) + s * (lf LN lS lDn 12 x - psi x))); [lra|intros t Ht; apply D; [exact Hs|lra]|intros t Ht; apply D; [exact Hs|lra]]. }
  assert (S1 : Rabs 1 <= 1) by (rewrite Rabs_R1; lra). assert (S2 : Rabs (-1) <= 1) by (rewrite Rabs_left by lra; lra).
  pose proof (lw_range a Ha) as W. assert (C0 : 0 < c) by (unfold c; lra). pose proof le_one as O. apply Rabs_le_between in O.
  assert (K : Rabs (le a - le 1) <= c * (1/2)).
  { apply Rabs_le. destruct (Rle_lt_dec a 1) as [L|L].
    - pose proof (M 1 S1 a 1 ltac:(lra)) as P. pose proof (M (-1) S2 a 1 ltac:(lra)) as Q. nra.
    - pose proof (M 1 S1 1 a ltac:(lra)) as P. pose proof (M (-1) S2 1 a ltac:(lra)) as Q. nra. }
  apply Rabs_le_between in K. unfold c in K. apply Rabs_le. lra.
Qed.
Theorem lanczos_ok a : 0 < a -> lanczos_accurate lanczos_sum_expg_scaled lanczos_g (/ 10 ^ 14) a.
Proof.
  intros Ha G HG. rewrite (euler_Gam a G Ha HG). fold (lanczos_gamma a). pose proof (Gam_pos a Ha) as P. pose proof (lanczos_pos a Ha) as LP. assert (L0 : 0 < lanczos_gamma a) by (unfold lanczos_gamma; apply Rmult_lt_0_compat; [exact LP|apply Rpower_pos]).
  pose proof (le_small a Ha) as E. set (e := le a) in *. assert (EQ : lanczos_gamma a = Gam a * exp e) by (unfold e, le, lg; unfold Rminus; rewrite exp_plus, exp_Ropp, !exp_ln by assumption; field; lra).
  rewrite EQ. replace (Gam a * exp e - Gam a) with ((exp e - 1) * Gam a) by ring. rewrite Rabs_mult, (Rabs_pos_eq (Gam a)) by lra. apply Rmult_le_compat_r; [lra|]. apply Rabs_le_between in E. pose proof (exp_ineq1_le e) as E1. pose proof (exp_ineq1_le (- e)) as E2. rewrite exp_Ropp in E2. pose proof (exp_pos e) as EP.
  assert (E3 : exp e * (1 - e) <= 1). { apply (Rmult_le_compat_l (exp e)) in E2; [|lra]. rewrite Rinv_r in E2 by lra. lra. } apply Rabs_le. split; [lra|]. assert (0 < 1 - e) by lra. apply (Rmult_le_reg_r (1 - e)); [assumption|]. nra.
Qed.
