(** C74: the C++ inverse incomplete gamma functions *)
From Coq Require Import List Arith ZArith Lia Bool Reals Lra Psatz.
From Coquelicot Require Import Rcomplements.
From Verif Require Import EllipSpec Improper GammaSpec GammaInt GammaFun GammaFnFacts GammaInc GammaIncSpec GammaIncFacts GammaIncCF2 GammaIncFacts2 LanczosAcc2 Prop_GammaInc GammaIncInv GammaIncInvSpec GammaIncInvFacts GammaIncInvStart GammaIncInvNewton Prop_GammaInc2.
Open Scope R_scope.

Lemma tiny : exp (- maxlog) <= / 10 ^ 290.
Proof.
  apply (Rle_trans _ (exp (- INR 707))).
  - apply exp_mono. rewrite (INR_IZR_INZ 707). change (Z.of_nat 707) with 707%Z. unfold maxlog. lra.
  - eapply Rle_trans; [apply exp_pow|]. apply Rinv_le_contravar; [apply pow_lt; lra|]. change 707%nat with (7 * 101)%nat. rewrite pow_mult. apply (Rle_trans _ ((10 ^ 3) ^ 101)).
    + rewrite <- pow_mult. apply Rle_pow; [lra|lia].
    + apply pow_incr. lra.
Qed.

Lemma find21 tgamma lgamma a p g : 0 < a < 1 -> tgamma a = g -> p <= 0.9 -> 0.6 < (1 - p) * g \/ 0.45 <= (1 - p) * g /\ 0.3 <= a ->
  find_inverse_gamma tgamma lgamma a p (1 - p) = Rpower (p * g * a) (1 / a) / (1 - Rpower (p * g * a) (1 / a) / (a + 1)).
Proof.
  intros Ha TG Hp Hb. unfold find_inverse_gamma. destruct (Req_EM_T a 1); [lra|]. destruct (Rlt_dec a 1); [|lra]. unfold start_small. rewrite TG.
  match goal with |- context [if (if Rlt_dec 0.6 ?b then true else ?c) then _ else _] => assert (EB : (if Rlt_dec 0.6 b then true else c) = true) end.
  { destruct (Rlt_dec _ _) as [_|N1]; [reflexivity|]. destruct Hb as [Hb|[Hb1 Hb2]]; [contradiction|]. destruct (Rle_dec _ _); [|contradiction]. destruct (Rle_dec 0.3 a); [reflexivity|contradiction]. }
  cbv zeta. rewrite EB. unfold eq21. rewrite TG. cbv zeta. assert (BQ : 1e-8 < (1 - p) * g * (1 - p)). { apply (Rlt_le_trans _ (0.45 * 0.1)); [lra|]. apply Rmult_le_compat; try lra; destruct Hb; lra. }
  destruct (Rlt_dec 1e-8 _); [|contradiction]. destruct (Rlt_dec 1e-5 (1 - p)); [reflexivity|lra].
Qed.
Section C74.
Variables (eps : R) (tgamma lgamma erfc : R -> R) (dtab : nat -> nat -> R) (ainf : R -> num).
Let P a x := gammainc eps 2000 lgamma erfc dtab a x.
Let Q a x := gammaincc eps 2000 lgamma erfc dtab a x.
Let Pinv a p := gammaincinv eps 2000 tgamma lgamma erfc dtab ainf a p.
Let Qinv a q := gammainccinv eps 2000 tgamma lgamma erfc dtab ainf a q.
Let loop n b a p x := inv_loop eps 2000 lgamma erfc dtab n b a p x.

Lemma tiny_arith u w pa v : 0 < u -> u * 10 ^ 6 = w -> w <= pa -> pa <= 2.9 * v -> u <= v.
Proof. intros. lra. Qed.
Lemma underflow_ok a s x : / 10 ^ 4 <= a <= 1 -> 0 < s -> 0 < x <= 0.81 -> 0.8 * s <= x -> / 10 ^ 280 <= Lg a s / Gam a -> / 10 ^ 290 <= DD0 a x / Gam a.
Proof.
  intros Ha Hs Hx Hr Hp. assert (A0 : 0 < a) by (assert (0 < / 10 ^ 4) by (apply Rinv_0_lt_compat, pow_lt; lra); lra). pose proof (Gam_gt0 a A0) as G. pose proof (cond_bound a s x ltac:(lra) Hs Hx Hr) as C. rewrite (dens_DD a x) in C by lra. pose proof (DD0_pos a x) as D. pose proof (Lg_gt0 a s A0 Hs) as L. pose proof (Rmax_r (Lg a x) (Lg a s)) as M.
  assert (E : Lg a s * a <= 2.9 * DD0 a x). { apply (Rmult_le_compat_r (DD0 a x / x)) in C; [|left; apply Rdiv_lt_0_compat; lra]. replace (Rmax (Lg a x) (Lg a s) / (DD0 a x / x) * (DD0 a x / x)) with (Rmax (Lg a x) (Lg a s)) in C by (field; lra). replace (2.9 * x / a * (DD0 a x / x)) with (2.9 * DD0 a x / a) in C by (field; lra).
    apply (Rmult_le_reg_r (/ a)); [apply Rinv_0_lt_compat, A0|]. replace (Lg a s * a * / a) with (Lg a s) by (field; lra). unfold Rdiv in C. lra. }
  set (p := Lg a s / Gam a) in *. set (v := DD0 a x / Gam a). assert (E2 : p * a <= 2.9 * v). { apply (Rmult_le_reg_r (Gam a)); [exact G|]. unfold p, v. replace (Lg a s / Gam a * a * Gam a) with (Lg a s * a) by (field; lra). replace (2.9 * (DD0 a x / Gam a) * Gam a) with (2.9 * DD0 a x) by (field; lra). exact E. }
  assert (E3 : / 10 ^ 280 * / 10 ^ 4 <= p * a) by (apply Rmult_le_compat; try lra; left; apply Rinv_0_lt_compat, pow_lt; lra). rewrite <- Rinv_mult, <- pow_add in E3. change (280 + 4)%nat with 284%nat in E3.
  assert (E4 : / 10 ^ 290 * 10 ^ 6 = / 10 ^ 284) by (change (10 ^ 290) with (10 ^ (284 + 6)); rewrite pow_add; field; split; apply pow_nonzero; lra). assert (0 < / 10 ^ 290) by (apply Rinv_0_lt_compat, pow_lt; lra). exact (tiny_arith _ _ _ _ H E4 E3 E2).
Qed.

Lemma loop_step n a s p x : / 2 ^ 53 <= eps <= / 10 ^ 14 -> log_of_gamma lgamma -> / 10 ^ 4 <= a <= 1 -> 0 < s -> 0 < x <= 0.81 -> 0.8 * s <= x <= 1.01 * s -> p = Lg a s / Gam a -> / 10 ^ 280 <= p ->
  exists M, loop (S n) true a p x = loop n true a p M /\ Rabs (M - newton a s x) <= 3 * (1.1 * eps + 4 * / 10 ^ 14) / a * s.
Proof.
  intros He LG Ha Hs Hx Hr Ep Hp. assert (T4 : 0 < / 10 ^ 4) by (apply Rinv_0_lt_compat, pow_lt; lra). assert (A0 : 0 < a) by lra. assert (T14 : 0 < / 10 ^ 14 <= 0.01) by (split; [apply Rinv_0_lt_compat, pow_lt; lra|lra]). assert (T53 : 0 < / 2 ^ 53) by (apply Rinv_0_lt_compat, pow_lt; lra).
  pose proof (Gam_gt0 a A0) as G. pose proof (underflow_ok a s x Ha Hs Hx ltac:(lra) ltac:(lra)) as Un. pose proof tiny as Tn.
  assert (LP : regularised_lower a x (Lg a x / Gam a)) by (exists (Gam a), (Lg a x); split; [apply Gam_ok, A0|split; [apply Lg_ok; lra|reflexivity]]).
  assert (NU : no_underflow a x). { intros _. exists (DD0 a x / Gam a). split; [apply pref_ex, A0|]. replace (-709.782712893383996843) with (- maxlog) by (unfold maxlog; lra). lra. }
  assert (NT : ~ near_transition a x) by (intros [[K _]|[K _]]; lra).
  destruct (C72_lower eps lgamma erfc dtab a x _ ltac:(lra) LG ltac:(lra) ltac:(lra) ltac:(right; lra) NT NU LP) as (v & th1 & EP & [_ B1] & V1 & V2).
  assert (RM : Rmax 1 (a / 2) = 1) by (apply Rmax_left; lra). rewrite RM, Rmult_1_r in V2.
  destruct (fac_ok lgamma a x (/ 10 ^ 14) (DD0 a x / Gam a) A0 ltac:(lra) LG ltac:(lra) ltac:(intros _; apply lanczos_ok, A0) ltac:(intros _; lra) eq_refl) as (th2 & [_ B2] & EF & PF).
  unfold loop. cbn [inv_loop]. destruct (Rlt_dec x 0); [lra|]. destruct (Req_EM_T x 0); [lra|]. destruct (Req_EM_T _ 0); [lra|]. rewrite EP. unfold ratio_finite. destruct (Req_EM_T x 0); [lra|]. eexists. split; [reflexivity|]. unfold newton. rewrite (dens_DD a x) by lra.
  pose proof (noise (DD0 a x) (Gam a) x (Lg a x) (Lg a s) v (igam_fac lgamma a x) th1 th2 eps (/ 10 ^ 14) (DD0_pos a x) G ltac:(lra) (Lg_gt0 a x A0 ltac:(lra)) (Lg_gt0 a s A0 Hs) ltac:(lra) ltac:(lra) B1 B2 EF V1 V2) as N. rewrite <- Ep in N.
  replace (x - (v - p) * x / igam_fac lgamma a x - (x - (Lg a x - Lg a s) / (DD0 a x / x))) with (- ((v - p) * x / igam_fac lgamma a x - (Lg a x - Lg a s) / (DD0 a x / x))) by ring. rewrite Rabs_Ropp. eapply Rle_trans; [exact N|].
  pose proof (cond_bound a s x ltac:(lra) Hs Hx ltac:(lra)) as C. rewrite (dens_DD a x) in C by lra. set (k := 1.1 * eps + 4 * / 10 ^ 14). assert (K : 0 < k) by (unfold k; lra). replace (k * Rmax (Lg a x) (Lg a s) / (DD0 a x / x)) with (k * (Rmax (Lg a x) (Lg a s) / (DD0 a x / x))) by (unfold Rdiv; ring).
  apply (Rle_trans _ (k * (2.9 * x / a))); [apply Rmult_le_compat_l; lra|]. replace (3 * k / a * s) with (k * (3 * s / a)) by (field; lra). apply Rmult_le_compat_l; [lra|]. unfold Rdiv. apply Rmult_le_compat_r; [left; apply Rinv_0_lt_compat, A0|]. lra.
Qed.
(** the same for the upper function, which is computed as the complement or by the alternating series *)
Lemma noise_abs (D G x Lx Ls v f th e dl : R) : 0 < D -> 0 < G -> 0 < x -> 0 < Lx -> 0 < Ls -> 0 <= e -> 0 <= dl <= 0.01 -> Rabs th <= dl -> 0 < f ->
  f * (1 + th) = D / G -> Rabs (v - Lx / G) <= e * (1.7 * Lx / G) -> Rabs ((v - Ls / G) * x / f - (Lx - Ls) / (D / x)) <= (1.72 * e + dl) * (Rmax Lx Ls / (D / x)).
Proof.
  intros HD HG Hx HL HS He Hd Ht Hf Ef Hv. set (M := Rmax Lx Ls). assert (M1 : Lx <= M) by apply Rmax_l. assert (M2 : Ls <= M) by apply Rmax_r.
  assert (T : 0 < 1 + th) by (apply Rabs_le_between in Ht; lra). assert (Ef2 : f = D / (G * (1 + th))). { apply (Rmult_eq_reg_r (1 + th)); [|lra]. rewrite Ef. field. split; lra. }
  set (dv := (v - Lx / G) * G). assert (DV : Rabs dv <= 1.7 * e * Lx). { unfold dv. rewrite Rabs_mult, (Rabs_right G) by lra. apply (Rmult_le_compat_r G) in Hv; [|lra]. replace (e * (1.7 * Lx / G) * G) with (1.7 * e * Lx) in Hv by (field; lra). exact Hv. }
  replace ((v - Ls / G) * x / f - (Lx - Ls) / (D / x)) with ((dv * (1 + th) + (Lx - Ls) * th) * (x / D)) by (rewrite Ef2; unfold dv; field; repeat split; lra).
  assert (XD : 0 < x / D) by (apply Rdiv_lt_0_compat; lra). rewrite Rabs_mult, (Rabs_right (x / D)) by lra. replace ((1.72 * e + dl) * (M / (D / x))) with ((1.72 * e * M + dl * M) * (x / D)) by (field; split; lra). apply Rmult_le_compat_r; [lra|].
  eapply Rle_trans; [apply Rabs_triang|]. rewrite !Rabs_mult. apply Rplus_le_compat.
  - assert (A : Rabs (1 + th) <= 1.01) by (rewrite Rabs_right by lra; apply Rabs_le_between in Ht; lra). apply (Rle_trans _ (1.7 * e * Lx * 1.01)); [apply Rmult_le_compat; try apply Rabs_pos; assumption|]. assert (e * Lx <= e * M) by (apply Rmult_le_compat_l; lra). assert (0 <= e * Lx) by (apply Rmult_le_pos; lra). lra.
  - rewrite (Rmult_comm dl). apply Rmult_le_compat; try apply Rabs_pos; [|exact Ht]. apply Rabs_le. lra.
Qed.
Lemma power_Lg a x : 0 < a <= 1 -> 0 < x <= 0.81 -> Rpower x a <= 1.7 * Lg a x.
Proof.
  intros Ha Hx. pose proof (Lg_below a x ltac:(lra) ltac:(lra)) as B. set (y := a * (x / (a + 1))) in *. assert (Y : y <= 0.405). { unfold y. apply (Rmult_le_reg_r (a + 1)); [lra|]. replace (a * (x / (a + 1)) * (a + 1)) with (a * x) by (field; lra). nra. }
  assert (L : 0 < Lg a x) by (apply Lg_gt0; lra). assert (AL : a * Lg a x <= Lg a x) by (rewrite <- (Rmult_1_l (Lg a x)) at 2; apply Rmult_le_compat_r; lra). unfold Rminus in B. rewrite exp_plus in B. change (exp (a * ln x)) with (Rpower x a) in B. pose proof (Rpower_pos x a) as R0. pose proof (exp_ineq1_le (- y)) as E.
  assert (Rpower x a * 0.595 <= Rpower x a * exp (- y)) by (apply Rmult_le_compat_l; lra). lra.
Qed.
Lemma loop_step_upper n a s p x : / 2 ^ 53 <= eps <= / 10 ^ 14 -> log_of_gamma lgamma -> / 10 ^ 4 <= a <= 1 -> 0 < s -> 0 < x <= 0.81 -> 0.8 * s <= x <= 1.01 * s -> p = Lg a s / Gam a -> / 10 ^ 280 <= p ->
  exists M, loop (S n) false a (1 - p) x = loop n false a (1 - p) M /\ Rabs (M - newton a s x) <= 3 * (1.1 * eps + 4 * / 10 ^ 14) / a * s.
Proof.
  intros He LG Ha Hs Hx Hr Ep Hp. assert (T4 : 0 < / 10 ^ 4) by (apply Rinv_0_lt_compat, pow_lt; lra). assert (A0 : 0 < a) by lra. assert (T14 : 0 < / 10 ^ 14 <= 0.01) by (split; [apply Rinv_0_lt_compat, pow_lt; lra|lra]). assert (T53 : 0 < / 2 ^ 53) by (apply Rinv_0_lt_compat, pow_lt; lra).
  pose proof (Gam_gt0 a A0) as G. pose proof (underflow_ok a s x Ha Hs Hx ltac:(lra) ltac:(lra)) as Un. pose proof tiny as Tn. assert (X0 : 0 < x) by lra.
  assert (LP : regularised_lower a x (Lg a x / Gam a)) by (exists (Gam a), (Lg a x); split; [apply Gam_ok, A0|split; [apply Lg_ok; lra|reflexivity]]).
  assert (NU : no_underflow a x). { intros _. exists (DD0 a x / Gam a). split; [apply pref_ex, A0|]. replace (-709.782712893383996843) with (- maxlog) by (unfold maxlog; lra). lra. }
  assert (NT : ~ near_transition a x) by (intros [[K _]|[K _]]; lra).
  destruct (C72_lower eps lgamma erfc dtab a x _ ltac:(lra) LG ltac:(lra) ltac:(lra) ltac:(right; lra) NT NU LP) as (v & th1 & EP & [_ B1] & V1 & V2).
  assert (RM : Rmax 1 (a / 2) = 1) by (apply Rmax_left; lra). rewrite RM, Rmult_1_r in V2.
  destruct (fac_ok lgamma a x (/ 10 ^ 14) (DD0 a x / Gam a) A0 ltac:(lra) LG ltac:(lra) ltac:(intros _; apply lanczos_ok, A0) ltac:(intros _; lra) eq_refl) as (th2 & [_ B2] & EF & PF).
  (* the value of the upper function *)
  assert (QV : exists w, gammaincc eps 2000 lgamma erfc dtab (Fin a) (Fin x) = Fin w /\ (1 - w = v \/ Rabs (1 - w - Lg a x / Gam a) <= eps * (1.7 * Lg a x / Gam a))).
  { assert (SM : 0.5 < x <= 1.1 /\ a <= 1.1 * x \/ x <= 0.5 /\ exp (-0.4 / a) <= x -> exists w, gammaincc eps 2000 lgamma erfc dtab (Fin a) (Fin x) = Fin w /\ (1 - w = v \/ Rabs (1 - w - Lg a x / Gam a) <= eps * (1.7 * Lg a x / Gam a))).
    { intros SM. destruct (upper_ex a x A0 X0) as (q & Hq). destruct (C72_upper_small eps lgamma erfc dtab a x q (Gam a) ltac:(lra) LG A0 X0 SM Hq (Gam_ok a A0)) as (w & Ew & Bw). exists w. split; [exact Ew|]. right. destruct (upper_Lg a x q A0 X0 Hq) as [Eq _]. rewrite Eq in Bw.
      replace (1 - w - Lg a x / Gam a) with (- (w - (1 - Lg a x / Gam a))) by ring. rewrite Rabs_Ropp. eapply Rle_trans; [exact Bw|]. apply Rmult_le_compat_l; [lra|]. unfold Rdiv. apply Rmult_le_compat_r; [left; apply Rinv_0_lt_compat, G|]. apply power_Lg; lra. }
    pose proof (fin_case true eps 2000 lgamma erfc dtab a x A0 X0) as F1. pose proof (fin_case false eps 2000 lgamma erfc dtab a x A0 X0) as F2. rewrite (not_transition a x NT) in F1, F2. cbv beta iota zeta in F1, F2. rewrite EP in F1. destruct (Rlt_dec 1 x); [lra|]. injection F1 as F1. destruct (Rlt_dec 1.1 x); [lra|].
    destruct (Rle_dec x 0.5) as [X5|X5].
    - destruct (Rlt_dec (-0.4 / ln x) a) as [C|C]; [exists (1 - v); split; [rewrite F2, F1; reflexivity|left; ring]|]. apply SM. right. split; [exact X5|]. assert (L : ln x < 0) by (rewrite <- ln_1; apply ln_increasing; lra). rewrite <- (exp_ln x X0). apply exp_mono. apply Rnot_lt_le in C.
      apply (Rmult_le_compat_r (- ln x)) in C; [|lra]. rewrite (div_opp (-0.4) (ln x)) in C by lra. apply (Rmult_le_reg_r a); [exact A0|]. rewrite (mul_div (-0.4) a) by lra. lra.
    - destruct (Rlt_dec (x * 1.1) a) as [C|C]; [exists (1 - v); split; [rewrite F2, F1; reflexivity|left; ring]|]. apply SM. left. lra. }
  destruct QV as (w & EQ & HW). unfold loop. cbn [inv_loop]. destruct (Rlt_dec x 0); [lra|]. destruct (Req_EM_T x 0); [lra|]. destruct (Req_EM_T _ 0); [lra|]. rewrite EQ. unfold ratio_finite. destruct (Req_EM_T x 0); [lra|]. eexists. split; [reflexivity|]. unfold newton. rewrite (dens_DD a x) by lra.
  set (f := igam_fac lgamma a x) in *. replace ((w - (1 - p)) * x / - f) with ((1 - w - p) * x / f) by (field; lra).
  replace (x - (1 - w - p) * x / f - (x - (Lg a x - Lg a s) / (DD0 a x / x))) with (- ((1 - w - p) * x / f - (Lg a x - Lg a s) / (DD0 a x / x))) by ring. rewrite Rabs_Ropp.
  pose proof (cond_bound a s x ltac:(lra) Hs Hx ltac:(lra)) as C. rewrite (dens_DD a x) in C by lra. set (k := 1.1 * eps + 4 * / 10 ^ 14). assert (K : 0 < k) by (unfold k; lra).
  assert (N : Rabs ((1 - w - p) * x / f - (Lg a x - Lg a s) / (DD0 a x / x)) <= k * (Rmax (Lg a x) (Lg a s) / (DD0 a x / x))).
  { rewrite Ep. destruct HW as [HW|HW].
    - rewrite HW. replace (k * (Rmax (Lg a x) (Lg a s) / (DD0 a x / x))) with (k * Rmax (Lg a x) (Lg a s) / (DD0 a x / x)) by (unfold Rdiv; ring).
      exact (noise (DD0 a x) (Gam a) x (Lg a x) (Lg a s) v f th1 th2 eps (/ 10 ^ 14) (DD0_pos a x) G ltac:(lra) (Lg_gt0 a x A0 ltac:(lra)) (Lg_gt0 a s A0 Hs) ltac:(lra) ltac:(lra) B1 B2 EF V1 V2).
    - eapply Rle_trans; [exact (noise_abs (DD0 a x) (Gam a) x (Lg a x) (Lg a s) (1 - w) f th2 eps (/ 10 ^ 14) (DD0_pos a x) G ltac:(lra) (Lg_gt0 a x A0 ltac:(lra)) (Lg_gt0 a s A0 Hs) ltac:(lra) ltac:(lra) B2 PF EF HW)|].
      apply Rmult_le_compat_r; [|unfold k; lra]. assert (0 < Lg a x) by (apply Lg_gt0; lra). pose proof (Rmax_l (Lg a x) (Lg a s)). pose proof (DD0_pos a x). apply Rlt_le, Rdiv_lt_0_compat; [lra|apply Rdiv_lt_0_compat; lra]. }
  eapply Rle_trans; [exact N|]. apply (Rle_trans _ (k * (2.9 * x / a))); [apply Rmult_le_compat_l; lra|]. replace (3 * k / a * s) with (k * (3 * s / a)) by (field; lra). apply Rmult_le_compat_l; [lra|]. unfold Rdiv. apply Rmult_le_compat_r; [left; apply Rinv_0_lt_compat, A0|]. lra.
Qed.
Lemma three_steps (b : bool) a s p x0 eta r0 r1 r2 r3 B0 B1 B2 : / 2 ^ 53 <= eps <= / 10 ^ 14 -> log_of_gamma lgamma -> / 10 ^ 4 <= a <= 1 -> 0 < s <= 0.8 -> p = Lg a s / Gam a -> / 10 ^ 280 <= p ->
  3 * (1.1 * eps + 4 * / 10 ^ 14) / a <= eta -> 0 <= eta <= / 10 ^ 8 -> 0 <= r0 <= 0.2 -> 0 <= r1 <= 0.2 -> 0 <= r2 <= 0.2 ->
  (1 - a) / (1 - r0) + s <= B0 -> (1 - a) / (1 - r1) + s <= B1 -> (1 - a) / (1 - r2) + s <= B2 ->
  B0 / 2 * r0 ^ 2 + 2 * eta <= r1 -> B1 / 2 * r1 ^ 2 + 2 * eta <= r2 -> B2 / 2 * r2 ^ 2 + 2 * eta <= r3 -> eta <= r3 ->
  (1 - r0) * s <= x0 <= (1 + eta) * s -> exists v, loop 3 b a (if b then p else 1 - p) x0 = Fin v /\ Rabs (v - s) <= r3 * s.
Proof.
  intros He LG Ha Hs Ep Hp Et Hy H0 H1 H2 HB0 HB1 HB2 K1 K2 K3 K4 Hx.
  assert (S : forall n x r rn B, 0 <= r <= 0.2 -> (1 - r) * s <= x <= (1 + eta) * s -> (1 - a) / (1 - r) + s <= B -> B / 2 * r ^ 2 + 2 * eta <= rn -> exists M, loop (S n) b a (if b then p else 1 - p) x = loop n b a (if b then p else 1 - p) M /\ (1 - rn) * s <= M <= (1 + eta) * s).
  { intros n x r rn B Hr Hxr HB Hn. assert (X0 : 0.8 * s <= x) by (assert (0.8 * s <= (1 - r) * s) by (apply Rmult_le_compat_r; lra); lra). assert (X1 : x <= 1.01 * s) by (assert ((1 + eta) * s <= 1.01 * s) by (apply Rmult_le_compat_r; lra); lra).
    assert (X2 : x <= 0.81). { assert (eta * s <= / 10 ^ 8 * 0.8) by (apply Rmult_le_compat; lra). lra. }
    assert (ST : exists M, loop (S n) b a (if b then p else 1 - p) x = loop n b a (if b then p else 1 - p) M /\ Rabs (M - newton a s x) <= 3 * (1.1 * eps + 4 * / 10 ^ 14) / a * s) by (destruct b; [apply loop_step|apply loop_step_upper]; try assumption; lra).
    destruct ST as (M & E & N). exists M. split; [exact E|].
    assert (N2 : Rabs (M - newton a s x) <= eta * s) by (eapply Rle_trans; [exact N|]; apply Rmult_le_compat_r; lra).
    assert (A0 : 0 < / 10 ^ 4) by (apply Rinv_0_lt_compat, pow_lt; lra). destruct (step_bound a s x M eta r B ltac:(lra) Hs Hy Hr Hxr HB N2) as [L U]. split; [|exact U]. eapply Rle_trans; [|exact L]. apply Rmult_le_compat_r; lra. }
  destruct (S 2%nat x0 r0 r1 B0 H0 Hx HB0 K1) as (M1 & E1 & I1). destruct (S 1%nat M1 r1 r2 B1 H1 I1 HB1 K2) as (M2 & E2 & I2). destruct (S 0%nat M2 r2 r3 B2 H2 I2 HB2 K3) as (M3 & E3 & I3). exists M3. split; [rewrite E1, E2, E3; reflexivity|].
  assert (eta * s <= r3 * s) by (apply Rmult_le_compat_r; lra). apply Rabs_le. lra.
Qed.
Lemma Pinv_main a p : 0 < a -> 0 < p <= 0.9 -> Pinv (Fin a) (Fin p) = loop 3 true a p (find_inverse_gamma tgamma lgamma a p (1 - p)).
Proof.
  intros Ha Hp. unfold Pinv, gammaincinv. cbn [inverse isnan lt0 gt1 orb]. destruct (Rlt_dec a 0); [lra|]. destruct (Rlt_dec p 0); [lra|]. destruct (Rlt_dec 1 p); [lra|]. cbn [orb]. destruct (Req_EM_T p 0); [lra|]. destruct (Req_EM_T p 1); [lra|]. destruct (Rlt_dec 0.9 p); [lra|].
  unfold inv_main. destruct (Req_EM_T a 0); [lra|]. reflexivity.
Qed.

Lemma inverse_gen (b : bool) a p s g : / 2 ^ 53 <= eps <= / 10 ^ 14 -> log_of_gamma lgamma -> gamma_of_library tgamma ->
  / 10 ^ 4 <= a < 1 -> / 10 ^ 280 <= p <= 0.9 -> euler_gamma a g -> 0.6 < (1 - p) * g \/ 0.45 <= (1 - p) * g /\ 0.3 <= a ->
  inverse_lower a p s -> exists v, loop 3 b a (if b then p else 1 - p) (find_inverse_gamma tgamma lgamma a p (1 - p)) = Fin v /\ Rabs (v - s) <= / 10 ^ 6 * s.
Proof.
  intros He LG TG Ha Hp Eg Hb [Hs HP]. assert (T4 : 0 < / 10 ^ 4) by (apply Rinv_0_lt_compat, pow_lt; lra). assert (T280 : 0 < / 10 ^ 280) by (apply Rinv_0_lt_compat, pow_lt; lra). assert (A0 : 0 < a) by lra.
  pose proof (lower_Lg a s p A0 Hs HP) as Ep. rewrite (euler_Gam a g A0 Eg) in Hb. pose proof (Gam_gt0 a A0) as G.
  assert (Eb : (1 - p) * Gam a = Gam a - Lg a s) by (rewrite Ep; field; lra).
  destruct (branch21 a s ltac:(lra) Hs ltac:(rewrite <- Eb; exact Hb)) as [R HY]. assert (S8 : s <= 0.8) by (destruct R; lra).
  assert (ES : find_inverse_gamma tgamma lgamma a p (1 - p) = Rpower (a * Lg a s) (1 / a) / (1 - Rpower (a * Lg a s) (1 / a) / (a + 1))).
  { rewrite (find21 tgamma lgamma a p (Gam a) ltac:(lra) (TG a (Gam a) A0 (Gam_ok a A0)) ltac:(lra) Hb). replace (p * Gam a * a) with (a * Lg a s) by (rewrite Ep; field; lra). reflexivity. }
  rewrite ES. pose proof (start21_bounds a s A0 Hs HY) as [S0 S1]. cbv zeta in S0, S1.
  assert (EE : 3 * (1.1 * eps + 4 * / 10 ^ 14) / a <= / 10 ^ 8). { apply (Rmult_le_reg_r a); [exact A0|]. unfold Rdiv. rewrite Rmult_assoc, Rinv_l by lra. assert (/ 10 ^ 8 * / 10 ^ 4 <= / 10 ^ 8 * a) by (apply Rmult_le_compat_l; lra). lra. }
  apply (three_steps b a s p _ (/ 10 ^ 8) 0.2 0.03601 0.00104 (/ 10 ^ 6) 1.8 1.588 1.5511); try exact He; try exact LG; try exact Ep; try lra.
Qed.
(** For a < 1, wherever the starting value is DiDonato and Morris's eq. (21), the three steps bring the result within a millionth of the inverse. *)
Theorem C74_inverse a p s g : / 2 ^ 53 <= eps <= / 10 ^ 14 -> log_of_gamma lgamma -> gamma_of_library tgamma ->
  / 10 ^ 4 <= a < 1 -> / 10 ^ 280 <= p <= 0.9 -> euler_gamma a g -> 0.6 < (1 - p) * g \/ 0.45 <= (1 - p) * g /\ 0.3 <= a ->
  inverse_lower a p s -> exists v, Pinv (Fin a) (Fin p) = Fin v /\ Rabs (v - s) <= / 10 ^ 6 * s.
Proof.
  intros He LG TG Ha Hp Eg Hb Hs. assert (T4 : 0 < / 10 ^ 4) by (apply Rinv_0_lt_compat, pow_lt; lra). assert (T280 : 0 < / 10 ^ 280) by (apply Rinv_0_lt_compat, pow_lt; lra). rewrite (Pinv_main a p) by lra. exact (inverse_gen true a p s g He LG TG Ha Hp Eg Hb Hs).
Qed.
Lemma exponential_gen (b : bool) p : / 2 ^ 53 <= eps <= / 10 ^ 14 -> log_of_gamma lgamma -> / 10 ^ 280 <= p <= 0.55 ->
  exists v, loop 3 b 1 (if b then p else 1 - p) (find_inverse_gamma tgamma lgamma 1 p (1 - p)) = Fin v /\ Rabs (v - - ln (1 - p)) <= / 10 ^ 12 * - ln (1 - p).
Proof.
  intros He LG Hp. assert (T280 : 0 < / 10 ^ 280) by (apply Rinv_0_lt_compat, pow_lt; lra). set (s := - ln (1 - p)).
  assert (E : find_inverse_gamma tgamma lgamma 1 p (1 - p) = s). { unfold find_inverse_gamma. destruct (Req_EM_T 1 1) as [_|N]; [|lra]. unfold s. destruct (Rlt_dec 0.9 (1 - p)); [|reflexivity]. f_equal. }
  assert (S0 : 0 < s). { unfold s. assert (ln (1 - p) < ln 1) by (apply ln_increasing; lra). rewrite ln_1 in *. lra. }
  assert (S1 : s <= 0.8). { unfold s. assert (- 0.8 <= ln (1 - p)); [|lra]. rewrite <- (ln_exp (- 0.8)). apply Rcomplements.ln_le; [apply exp_pos|]. pose proof e080. replace (- 0.8) with (- (0.8)) by lra. lra. }
  assert (EL : p = Lg 1 s / Gam 1). { rewrite Gam_1. rewrite (Lg_one s S0). unfold s. rewrite Ropp_involutive, exp_ln by lra. lra. }
  rewrite E. apply (three_steps b 1 s p s (2 * / 10 ^ 13) 0 (5 * / 10 ^ 13) (6 * / 10 ^ 13) (/ 10 ^ 12) 0.8 0.8 0.8); try exact He; try exact LG; try exact EL; try lra.
Qed.

(** The same for a = 1, where the starting value is exact: -log(1 - p) to twelve digits *)
Theorem C74_exponential p : / 2 ^ 53 <= eps <= / 10 ^ 14 -> log_of_gamma lgamma -> / 10 ^ 280 <= p <= 0.55 ->
  exists v, Pinv (Fin 1) (Fin p) = Fin v /\ Rabs (v - - ln (1 - p)) <= / 10 ^ 12 * - ln (1 - p).
Proof.
  intros He LG Hp. assert (T280 : 0 < / 10 ^ 280) by (apply Rinv_0_lt_compat, pow_lt; lra). rewrite (Pinv_main 1 p) by lra. exact (exponential_gen true p He LG Hp).
Qed.
Lemma inverse_main n b a p : 0 <= a -> 0 < p <= 0.9 -> inverse eps 2000 tgamma lgamma erfc dtab ainf n b (Fin a) (Fin p) = inv_main eps 2000 tgamma lgamma erfc dtab b a (if b then p else 1 - p) (if b then 1 - p else p).
Proof.
  clear. intros Ha Hp. destruct n; cbn [inverse isnan lt0 gt1 orb]; (destruct (Rlt_dec a 0); [lra|]); (destruct (Rlt_dec p 0); [lra|]); (destruct (Rlt_dec 1 p); [lra|]); cbn [orb]; (destruct (Req_EM_T p 0); [lra|]); (destruct (Req_EM_T p 1); [lra|]); (destruct (Rlt_dec 0.9 p); [lra|]); destruct b; reflexivity.
Qed.
Lemma inverse_deleg n b a p : 0 <= a -> 0.9 < p < 1 -> inverse eps 2000 tgamma lgamma erfc dtab ainf (S n) b (Fin a) (Fin p) = inverse eps 2000 tgamma lgamma erfc dtab ainf n (negb b) (Fin a) (Fin (1 - p)).
Proof.
  clear. intros Ha Hp. cbn [inverse isnan lt0 gt1 orb]; (destruct (Rlt_dec a 0); [lra|]); (destruct (Rlt_dec p 0); [lra|]); (destruct (Rlt_dec 1 p); [lra|]); cbn [orb]; (destruct (Req_EM_T p 0); [lra|]); (destruct (Req_EM_T p 1); [lra|]); (destruct (Rlt_dec 0.9 p); [|lra]); reflexivity.
Qed.
Lemma inverse_zero n (b : bool) a : 0 <= a -> inverse eps 2000 tgamma lgamma erfc dtab ainf n b (Fin a) (Fin 0) = if b then Fin 0 else PInf.
Proof. clear. intros Ha. destruct n; cbn [inverse isnan lt0 gt1 orb]; (destruct (Rlt_dec a 0); [lra|]); (destruct (Rlt_dec 0 0); [lra|]); (destruct (Rlt_dec 1 0); [lra|]); cbn [orb]; (destruct (Req_EM_T 0 0); [reflexivity|lra]). Qed.
Lemma inverse_one n (b : bool) a : 0 <= a -> inverse eps 2000 tgamma lgamma erfc dtab ainf n b (Fin a) (Fin 1) = if b then PInf else Fin 0.
Proof. clear. intros Ha. destruct n; cbn [inverse isnan lt0 gt1 orb]; (destruct (Rlt_dec a 0); [lra|]); (destruct (Rlt_dec 1 0); [lra|]); (destruct (Rlt_dec 1 1); [lra|]); cbn [orb]; (destruct (Req_EM_T 1 0); [lra|]); (destruct (Req_EM_T 1 1); [reflexivity|lra]). Qed.

(** Special values and invalid arguments.  For a = 0, where P(0, x) = 1 for every x > 0, both are NaN or 0. *)
Theorem C74_edges :
  (forall a p, a = NaN \/ p = NaN \/ lt0 a = true \/ lt0 p = true \/ gt1 p = true -> Pinv a p = NaN /\ Qinv a p = NaN) /\
  (forall a, 0 <= a -> Pinv (Fin a) (Fin 0) = Fin 0 /\ Pinv (Fin a) (Fin 1) = PInf /\ Qinv (Fin a) (Fin 0) = PInf /\ Qinv (Fin a) (Fin 1) = Fin 0) /\
  (forall p, 0 < p < 1 -> Pinv (Fin 0) (Fin p) = (if Rle_dec (1 - 1e-5) p then Fin 0 else NaN) /\ Qinv (Fin 0) (Fin p) = (if Rle_dec p 1e-5 then Fin 0 else NaN)).
Proof.
  unfold Pinv, Qinv, gammaincinv, gammainccinv. clear. split; [|split].
  - intros a p H. assert (E : (isnan a || isnan p || lt0 a || lt0 p || gt1 p)%bool = true) by (destruct H as [->|[->|[->|[->| ->]]]]; cbn; rewrite ?orb_true_r; reflexivity).
    cbn [inverse]. rewrite E. split; reflexivity.
  - intros a Ha. rewrite !inverse_zero, !inverse_one by exact Ha. repeat split; reflexivity.
  - intros p Hp.
    assert (Z : forall n q, 0 < q <= 0.9 -> inverse eps 2000 tgamma lgamma erfc dtab ainf n false (Fin 0) (Fin q) = if Rle_dec q 1e-5 then Fin 0 else NaN).
    { intros n q Hq. rewrite inverse_main by lra. unfold inv_main. destruct (Req_EM_T 0 0); [reflexivity|lra]. }
    assert (W : forall n q, 0 < q <= 0.9 -> inverse eps 2000 tgamma lgamma erfc dtab ainf n true (Fin 0) (Fin q) = NaN).
    { intros n q Hq. rewrite inverse_main by lra. unfold inv_main. destruct (Req_EM_T 0 0); [|lra]. destruct (Rle_dec (1 - q) 1e-5); [lra|reflexivity]. }
    split.
    + destruct (Rle_dec p 0.9) as [H|H].
      * rewrite W by lra. destruct (Rle_dec (1 - 1e-5) p); [lra|reflexivity].
      * rewrite inverse_deleg by lra. cbn [negb]. rewrite Z by lra. destruct (Rle_dec (1 - p) 1e-5), (Rle_dec (1 - 1e-5) p); try reflexivity; lra.
    + destruct (Rle_dec p 0.9) as [H|H].
      * apply Z. lra.
      * rewrite inverse_deleg by lra. cbn [negb]. rewrite W by lra. destruct (Rle_dec p 1e-5); [lra|reflexivity].
Qed.

Lemma sum_one a x : odd_about_one erfc -> 20 < a -> a <> 200 -> 0 < x -> exists v w, P (Fin a) (Fin x) = Fin v /\ Q (Fin a) (Fin x) = Fin w /\ v + w = 1.
Proof.
  intros Od Ha N2 Hx. destruct (Rlt_dec 1.1 x) as [X|X].
  - apply (C72_complement eps lgamma erfc dtab a x Od ltac:(lra) Hx). destruct (Rtotal_order a x) as [H|[<-|H]]; [right; left; lra| |right; right; lra]. left. unfold near_transition. replace (a - a) with 0 by ring. rewrite Rabs_R0. replace (0 / a) with 0 by (field; lra). destruct (Rlt_dec a 200); [left; lra|right]. split; [lra|]. apply Rdiv_lt_0_compat; [lra|apply sqrt_lt_R0; lra].
  - assert (NT : ~ near_transition a x). { assert (F : 0.9 < Rabs (x - a) / a) by (rewrite Rabs_left by lra; apply (Rmult_lt_reg_r a); [lra|]; unfold Rdiv; rewrite Rmult_assoc, Rinv_l by lra; lra). intros [[H1 H2]|[H1 H2]]; [lra|]. assert (S2 : 10 < sqrt a) by (rewrite <- (sqrt_square 10) by lra; apply sqrt_lt_1; lra). assert (4.5 / sqrt a < 0.9); [|lra]. apply (Rmult_lt_reg_r (sqrt a)); [lra|]. unfold Rdiv. rewrite Rmult_assoc, Rinv_l by lra. lra. }
    unfold P, Q. rewrite (fin_case true eps 2000 lgamma erfc dtab a x ltac:(lra) Hx), (fin_case false eps 2000 lgamma erfc dtab a x ltac:(lra) Hx), (not_transition a x NT). cbv zeta. eexists. eexists. split; [reflexivity|]. split; [reflexivity|].
    destruct (Rlt_dec 1.1 x); [lra|]. destruct (Rlt_dec a x); [lra|].
    assert (IT : forall u v : R, (if Rlt_dec 1 x then u else u) + (1 - u) = 1) by (intros u _; destruct (Rlt_dec 1 x); ring).
    destruct (Rle_dec x 0.5).
    + destruct (Rlt_dec (-0.4 / ln x) a) as [_|N]; [apply IT; exact 0|exfalso; apply N]. assert (L : ln x <= - (0.1)). { apply (Rle_trans _ (x - 1)); [|lra]. pose proof (ln_le_lin 1 x ltac:(lra) Hx) as L. rewrite ln_1 in L. lra. }
      apply (Rmult_lt_reg_r (- ln x)); [lra|]. rewrite (div_opp (-0.4) (ln x)) by lra. assert (20 * 0.1 <= a * - ln x) by (apply Rmult_le_compat; lra). lra.
    + destruct (Rlt_dec (x * 1.1) a); [apply IT; exact 0|lra].
Qed.
Lemma loops_agree n a p x : (forall x, 0 < x -> exists v w, P (Fin a) (Fin x) = Fin v /\ Q (Fin a) (Fin x) = Fin w /\ v + w = 1) -> loop n true a p x = loop n false a (1 - p) x.
Proof.
  intros H. unfold loop. revert x. induction n as [|n IH]; intros x; cbn [inv_loop]; [reflexivity|]. destruct (Rlt_dec x 0); [reflexivity|]. destruct (Req_EM_T x 0) as [E0|N0]; [destruct (Req_EM_T 0 0); [reflexivity|lra]|]. destruct (Req_EM_T (igam_fac lgamma a x) 0) as [|Nf]; [reflexivity|].
  destruct (H x ltac:(lra)) as (v & w & EP & EQ & S). unfold P, Q in EP, EQ. rewrite EP, EQ. rewrite IH. assert (E : (w - (1 - p)) * x / - igam_fac lgamma a x = (v - p) * x / igam_fac lgamma a x) by (replace w with (1 - v) by lra; field; exact Nf). rewrite E. reflexivity.
Qed.
(** The inverse of P at p and the inverse of Q at 1 - p are the same number: for p outside [0.1, 0.9], and for a above 20. *)
Theorem C74_mirror a p : 0 <= a -> 0 <= p <= 1 -> p < 0.1 \/ 0.9 < p \/ odd_about_one erfc /\ 20 < a /\ a <> 200 -> Pinv (Fin a) (Fin p) = Qinv (Fin a) (Fin (1 - p)).
Proof.
  intros Ha Hp H. unfold Pinv, Qinv, gammaincinv, gammainccinv. destruct (Req_dec p 0) as [->|N0]; [rewrite Rminus_0_r, inverse_zero, inverse_one by exact Ha; reflexivity|]. destruct (Req_dec p 1) as [->|N1]; [replace (1 - 1) with 0 by ring; rewrite inverse_zero, inverse_one by exact Ha; reflexivity|].
  assert (I : 1 - (1 - p) = p) by ring. destruct (Rlt_dec 0.9 p) as [B|B]; [rewrite inverse_deleg by lra; cbn [negb]; rewrite !inverse_main by lra; reflexivity|].
  destruct (Rlt_dec p 0.1) as [C|C]; [rewrite (inverse_deleg 1 false) by lra; cbn [negb]; rewrite I, !inverse_main by lra; reflexivity|].
  destruct H as [H|[H|(Od & A20 & A200)]]; [contradiction|contradiction|]. rewrite !inverse_main by lra. rewrite I. unfold inv_main. destruct (Req_EM_T a 0); [lra|]. apply (loops_agree 3 a p). intros x Hx. apply sum_one; assumption.
Qed.
(** The inverse of Q in the same ranges; above 0.9 it is the inverse of P at 1 - q. *)
Lemma Qinv_main a p : 0 < a -> 0.1 <= p <= 0.9 -> Qinv (Fin a) (Fin (1 - p)) = loop 3 false a (1 - p) (find_inverse_gamma tgamma lgamma a p (1 - p)).
Proof.
  intros Ha Hp. unfold Qinv, gammainccinv. rewrite inverse_main by lra. unfold inv_main. destruct (Req_EM_T a 0); [lra|]. replace (1 - (1 - p)) with p by ring. reflexivity.
Qed.
Theorem C74_inverse_upper a q s g : / 2 ^ 53 <= eps <= / 10 ^ 14 -> log_of_gamma lgamma -> gamma_of_library tgamma ->
  / 10 ^ 4 <= a < 1 -> 0.1 <= q <= 1 - / 10 ^ 280 -> euler_gamma a g -> 0.6 < q * g \/ 0.45 <= q * g /\ 0.3 <= a ->
  inverse_upper a q s -> exists v, Qinv (Fin a) (Fin q) = Fin v /\ Rabs (v - s) <= / 10 ^ 6 * s.
Proof.
  intros He LG TG Ha Hq Eg Hb [Hs HQ]. assert (T4 : 0 < / 10 ^ 4) by (apply Rinv_0_lt_compat, pow_lt; lra). assert (T280 : 0 < / 10 ^ 280) by (apply Rinv_0_lt_compat, pow_lt; lra). assert (A0 : 0 < a) by lra.
  destruct (upper_Lg a s q A0 Hs HQ) as [Eq _]. set (p := 1 - q). assert (EQ : q = 1 - p) by (unfold p; ring). assert (HP : inverse_lower a p s). { split; [exact Hs|]. exists (Gam a), (Lg a s). split; [apply Gam_ok, A0|split; [apply Lg_ok; assumption|unfold p; lra]]. }
  rewrite EQ in Hb. assert (Hp : / 10 ^ 280 <= p <= 0.9) by (unfold p; lra). rewrite EQ. destruct (Rlt_dec p 0.1) as [L|L].
  - rewrite <- (C74_mirror a p) by (try lra; left; exact L). exact (C74_inverse a p s g He LG TG Ha Hp Eg Hb HP).
  - rewrite (Qinv_main a p A0) by lra. exact (inverse_gen false a p s g He LG TG Ha Hp Eg Hb HP).
Qed.
Theorem C74_exponential_upper q : / 2 ^ 53 <= eps <= / 10 ^ 14 -> log_of_gamma lgamma -> 0.45 <= q <= 1 - / 10 ^ 280 ->
  exists v, Qinv (Fin 1) (Fin q) = Fin v /\ Rabs (v - - ln q) <= / 10 ^ 12 * - ln q.
Proof.
  intros He LG Hq. assert (T280 : 0 < / 10 ^ 280) by (apply Rinv_0_lt_compat, pow_lt; lra). set (p := 1 - q). assert (EQ : q = 1 - p) by (unfold p; ring). rewrite EQ. assert (Hp : / 10 ^ 280 <= p <= 0.55) by (unfold p; lra). destruct (Rlt_dec p 0.1) as [L|L].
  - rewrite <- (C74_mirror 1 p) by (try lra; left; exact L). exact (C74_exponential p He LG Hp).
  - rewrite (Qinv_main 1 p) by lra. exact (exponential_gen false p He LG Hp).
Qed.
(** Both results are three steps of Newton's method: the second-order correction of Halley's method, which the loop announces, is never applied. *)
Theorem C74_newton a p : 0 < a -> 0 < p <= 0.9 ->
  Pinv (Fin a) (Fin p) = newton_steps 3 (fun x => P (Fin a) (Fin x)) (igam_fac lgamma a) p (find_inverse_gamma tgamma lgamma a p (1 - p)) /\
  Qinv (Fin a) (Fin p) = newton_steps 3 (fun x => Q (Fin a) (Fin x)) (fun x => - igam_fac lgamma a x) p (find_inverse_gamma tgamma lgamma a (1 - p) p).
Proof.
  intros Ha Hp. unfold Pinv, Qinv, gammaincinv, gammainccinv. rewrite !inverse_main by lra. unfold inv_main. destruct (Req_EM_T a 0); [lra|].
  assert (G : forall n (b : bool) x, loop n b a p x = newton_steps n (fun x => (if b then P else Q) (Fin a) (Fin x)) (fun x => if b then igam_fac lgamma a x else - igam_fac lgamma a x) p x).
  { clear. intros n b. unfold loop. induction n as [|n IH]; intros x; cbn [inv_loop newton_steps]; [reflexivity|]. destruct (Rlt_dec x 0); [reflexivity|]. destruct (Req_EM_T x 0) as [E0|N0]; [destruct (Req_EM_T 0 0); [reflexivity|lra]|].
    unfold ratio_finite. destruct (Req_EM_T x 0); [contradiction|]. unfold P, Q. set (f := igam_fac lgamma a x). destruct b.
    - destruct (Req_EM_T f 0) as [|Nf]; [reflexivity|]. destruct (gammainc eps 2000 lgamma erfc dtab (Fin a) (Fin x)); try reflexivity. rewrite IH. f_equal. field. split; assumption.
    - destruct (Req_EM_T f 0) as [E|Nf]; [rewrite E; destruct (Req_EM_T (- 0) 0); [reflexivity|lra]|]. destruct (Req_EM_T (- f) 0); [lra|]. destruct (gammaincc eps 2000 lgamma erfc dtab (Fin a) (Fin x)); try reflexivity. rewrite IH. f_equal. field. split; assumption. }
  split; [apply (G 3%nat true)|apply (G 3%nat false)].
Qed.
End C74.

(** The inverse is unique. *)
Theorem C74_unique a p s t : 0 < a -> inverse_lower a p s -> inverse_lower a p t -> s = t.
Proof.
  intros Ha [Hs Ps] [Ht Pt]. pose proof (lower_Lg a s p Ha Hs Ps) as Es. rewrite (lower_Lg a t p Ha Ht Pt) in Es. pose proof (Gam_gt0 a Ha) as G.
  assert (E : Lg a t = Lg a s) by (apply (Rmult_eq_reg_r (/ Gam a)); [exact Es|apply Rinv_neq_0_compat; lra]).
  destruct (Rtotal_order s t) as [H|[H|H]]; [|exact H|]; exfalso.
  - destruct (Lg_mvt a s t Hs H) as (c & Hc & Ec). pose proof (dens_gt0 a c ltac:(lra)). assert (0 < gamma_density a c * (t - s)) by (apply Rmult_lt_0_compat; lra). lra.
  - destruct (Lg_mvt a t s Ht H) as (c & Hc & Ec). pose proof (dens_gt0 a c ltac:(lra)). assert (0 < gamma_density a c * (s - t)) by (apply Rmult_lt_0_compat; lra). lra.
Qed.
(** the hypotheses of C74_inverse are met, for example, by a = 1/2 and the p whose inverse is 1/100 *)
Example C74_example : exists p g, / 10 ^ 280 <= p <= 0.9 /\ euler_gamma (1 / 2) g /\ 0.6 < (1 - p) * g /\ inverse_lower (1 / 2) p (1 / 100).
Proof.
  exists (Lg (1 / 2) (1 / 100) / Gam (1 / 2)), (Gam (1 / 2)). assert (A : 0 < 1 / 2) by lra. pose proof (Gam_gt0 _ A) as G. pose proof (Ug_le (1 / 2) 1 ltac:(lra) ltac:(lra)) as U. pose proof (Lg_above (1 / 2) 1 A ltac:(lra)) as L1. pose proof (Lg_below (1 / 2) 1 A ltac:(lra)) as L2.
  pose proof (Lg_above (1 / 2) (1 / 100) A ltac:(lra)) as S1. pose proof (Lg_below (1 / 2) (1 / 100) A ltac:(lra)) as S2.
  assert (ET : exp (1 / 2 * ln (1 / 100)) = 0.1). { change (Rpower (1 / 100) (1 / 2) = 0.1). replace (1 / 2) with (/ 2) by lra. rewrite Rpower_sqrt by lra. replace (1 / 100) with (0.1 * 0.1) by lra. apply sqrt_square. lra. }
  assert (A1 : Lg (1 / 2) 1 <= 2). { assert (exp (1 / 2 * ln 1 - 1 / 2 * ln (1 + 1 / (1 / 2 + 1))) <= 1); [|lra]. apply (Rle_trans _ (exp 0)); [apply exp_mono; rewrite ln_1|rewrite exp_0; lra]. assert (0 <= ln (1 + 1 / (1 / 2 + 1))) by (apply ln_nonneg; lra). lra. }
  assert (A2 : 1.33 <= Lg (1 / 2) 1). { rewrite ln_1 in L2. replace (1 / 2 * 0 - 1 / 2 * (1 / (1 / 2 + 1))) with (- (1 / 3)) in L2 by field. pose proof (exp_ineq1_le (- (1 / 3))). lra. }
  assert (B1 : Lg (1 / 2) (1 / 100) <= 0.2). { assert (exp (1 / 2 * ln (1 / 100) - 1 / 2 * ln (1 + 1 / 100 / (1 / 2 + 1))) <= exp (1 / 2 * ln (1 / 100))); [|lra]. apply exp_mono. assert (0 <= ln (1 + 1 / 100 / (1 / 2 + 1))) by (apply ln_nonneg; lra). lra. }
  assert (B2 : 0.1 <= Lg (1 / 2) (1 / 100)). { unfold Rminus in S2. rewrite exp_plus, ET in S2. pose proof (exp_ineq1_le (- (1 / 2 * (1 / 100 / (1 / 2 + 1))))). lra. }
  assert (GL : 1.33 <= Gam (1 / 2)). { assert (Lg (1 / 2) 1 <= Gam (1 / 2)); [|lra]. unfold Lg. pose proof (Jv_nn (1 / 2) 1 ltac:(lra)). pose proof (Rpower_pos 1 (1 / 2)). assert (0 <= Rpower 1 (1 / 2) * Jv 0 (1 / 2) 1) by (apply Rmult_le_pos; lra). lra. }
  assert (GU : Gam (1 / 2) <= 10). { unfold Hb in U. assert (E : exp (- (1)) <= 1) by (apply (Rle_trans _ (exp 0)); [apply exp_mono; lra|rewrite exp_0; lra]). assert (L : ln (1 + 1 / 1) <= 1) by (pose proof (ln_le_lin 1 (1 + 1 / 1) ltac:(lra) ltac:(lra)) as Z; rewrite ln_1 in Z; lra). pose proof (exp_pos (- (1))). assert (exp (- (1)) * ((1 - 1 / 2) * ln (1 + 1 / 1) + 1 / 2) <= 1 * 1); [|lra]. apply Rmult_le_compat; try lra. assert (0 <= ln (1 + 1 / 1)) by (apply ln_nonneg; lra). lra. }
  set (l := Lg (1 / 2) (1 / 100)) in *. set (gg := Gam (1 / 2)) in *. split; [split|split; [apply Gam_ok, A|split]].
  - apply (Rle_trans _ (/ 100)); [apply Rinv_le_contravar; [lra|]; change 280%nat with (2 + 278)%nat; rewrite pow_add; assert (1 <= 10 ^ 278) by (apply pow_R1_Rle; lra); lra|]. apply (Rmult_le_reg_r gg); [exact G|]. unfold Rdiv. rewrite Rmult_assoc, Rinv_l by lra. lra.
  - apply (Rmult_le_reg_r gg); [exact G|]. unfold Rdiv. rewrite Rmult_assoc, Rinv_l by lra. lra.
  - replace ((1 - l / gg) * gg) with (gg - l) by (field; lra). lra.
  - split; [lra|]. exists gg, l. split; [apply Gam_ok, A|]. split; [apply Lg_ok; lra|reflexivity].
Qed.
(** and those of C74_inverse_upper by the same point *)
Example C74_example_upper : exists q g, 0.1 <= q <= 1 - / 10 ^ 280 /\ euler_gamma (1 / 2) g /\ 0.6 < q * g /\ inverse_upper (1 / 2) q (1 / 100).
Proof.
  destruct C74_example as (p & g & Hp & Eg & Hb & [Hs HP]). exists (1 - p), g. split; [lra|]. split; [exact Eg|]. split; [exact Hb|]. split; [exact Hs|].
  destruct (upper_ex (1 / 2) (1 / 100) ltac:(lra) ltac:(lra)) as (q & Hq). destruct (upper_Lg (1 / 2) (1 / 100) q ltac:(lra) ltac:(lra) Hq) as [E _]. rewrite <- (lower_Lg (1 / 2) (1 / 100) p ltac:(lra) ltac:(lra) HP) in E. rewrite <- E. exact Hq.
Qed.
