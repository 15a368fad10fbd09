(** Euler's gamma function for positive arguments: existence, derivatives, recurrence, positivity *)
From Coq Require Import Reals Lra Lia Psatz.
From Coquelicot Require Import Rcomplements Hierarchy Continuity Derive RInt RInt_analysis AutoDerive ElemFct.
From Verif Require Import EllipSpec Improper ImproperLim CarlsonGrad GammaSpec GammaInt.
Open Scope R_scope.

Lemma abs_exists (f g G : R -> R) (B : R) : (forall t, 0 < t -> continuous f t) -> (forall t, 0 < t -> Rabs (f t) <= g t) -> (forall t, 0 < t -> is_derive G t (g t)) -> (forall t, 0 < t -> continuous g t) ->
  (forall t, 0 < t -> Rabs (G t) <= B) -> exists v, improper0 f v.
Proof.
  intros Cf L D Cg Bd. assert (P : forall t, 0 < t -> - g t <= f t <= g t) by (intros t Ht; apply Rabs_le_between, L, Ht).
  destruct (improper0_exists (fun t => f t + g t) (fun t => 2 * g t) (fun t => 2 * G t) (2 * B)) as (v1 & V1).
  - intros t Ht. apply (continuous_plus f g); [apply Cf|apply Cg]; exact Ht.
  - intros t Ht. specialize (P t Ht). lra.
  - intros t Ht. apply (is_derive_scal G t 2 (g t)), D, Ht.
  - intros t Ht. apply (continuous_scal_r 2 g), Cg, Ht.
  - intros t Ht. rewrite Rabs_mult, (Rabs_right 2) by lra. apply Rmult_le_compat_l; [lra|apply Bd, Ht].
  - destruct (improper0_exists g g G B) as (v2 & V2); [exact Cg|intros t Ht; specialize (P t Ht); lra|exact D|exact Cg|exact Bd|].
    exists (v1 - v2). eapply improper0_ext; [|apply improper0_minus; [exact V1|exact V2]]. intros t Ht. cbv beta. ring.
Qed.
Lemma pow_exp_bound k c : 0 < c -> exists C, 0 < C /\ forall x, 0 <= x -> x ^ k <= C * exp (c * x).
Proof.
  intros Hc. destruct (power_exp_bound (INR k) c Hc) as (C & HC & B). exists (C * exp c). split; [apply Rmult_lt_0_compat; [exact HC|apply exp_pos]|]. intros x Hx. specialize (B (1 + x) ltac:(lra)). rewrite Rpower_pow in B by lra.
  apply Rle_trans with ((1 + x) ^ k); [apply pow_incr; lra|]. pose proof (exp_pos (- c * (1 + x))) as E. apply Rmult_le_reg_r with (exp (- c * (1 + x))); [exact E|]. eapply Rle_trans; [exact B|]. assert (E1 : exp c * exp (c * x) * exp (- c * (1 + x)) = 1) by (rewrite <- !exp_plus; replace (c + c * x + - c * (1 + x)) with 0 by ring; apply exp_0). replace (C * exp c * exp (c * x) * exp (- c * (1 + x))) with (C * (exp c * exp (c * x) * exp (- c * (1 + x)))) by ring. rewrite E1. lra.
Qed.
Definition gk (k : nat) (a t : R) : R := ln t ^ k * gamma_density a t.
Lemma gk_cont k a t : 0 < t -> continuous (gk k a) t.
Proof. intros H. apply (ex_derive_continuous (gk k a)). unfold gk, gamma_density, Rpower. auto_derive. repeat split; lra. Qed.
Lemma gk_exists k a : 0 < a -> exists v, improper0 (gk k a) v.
Proof.
  intros Ha. set (b := a / 2). assert (Hb : 0 < b) by (unfold b; lra). destruct (pow_exp_bound k b Hb) as (C1 & P1 & B1). destruct (power_exp_bound (b + a + 1) 1 ltac:(lra)) as (C2 & P2 & B2). set (C := C1 * (C2 * exp 1)). assert (HC : 0 < C) by (unfold C; repeat apply Rmult_lt_0_compat; try assumption; apply exp_pos).
  assert (W : forall t, 0 < t -> 0 < t / (1 + t) < 1) by (intros t Ht; split; [apply Rdiv_lt_0_compat; lra|apply Rlt_div_l; lra]).
  apply (abs_exists (gk k a) (fun t => C * (Rpower (t / (1 + t)) (b - 1) / (1 + t) ^ 2)) (fun t => C / b * Rpower (t / (1 + t)) b) (C / b)).
  - intros t Ht. apply gk_cont, Ht.
  - intros t Ht. specialize (W t Ht). unfold gk, gamma_density. set (w := t / (1 + t)) in *. set (s := 1 + t). assert (Es : s = 1 + t) by reflexivity. assert (Ew : t = w * s) by (unfold w, s; field; lra).
    assert (Lt : ln t = ln w + ln s) by (rewrite Ew at 1; apply ln_mult; lra). pose proof (ln_nonneg s ltac:(lra)) as Ls. assert (Lw : ln w < 0) by (rewrite <- ln_1; apply ln_increasing; lra).
    rewrite Rabs_mult, (Rabs_right (_ * exp _)) by (left; apply Rmult_lt_0_compat; [apply Rpower_pos|apply exp_pos]). rewrite <- RPow_abs.
    assert (AL : Rabs (ln t) <= - ln w + ln s) by (rewrite Lt; apply Rabs_le; lra).
    apply Rle_trans with (C1 * exp (b * (- ln w + ln s)) * (Rpower t (a - 1) * exp (- t))).
    { apply Rmult_le_compat_r; [left; apply Rmult_lt_0_compat; [apply Rpower_pos|apply exp_pos]|]. eapply Rle_trans; [apply B1, Rabs_pos|]. apply Rmult_le_compat_l; [lra|]. apply exp_mono. apply Rmult_le_compat_l; lra. }
    unfold C. rewrite !Rmult_assoc. apply Rmult_le_compat_l; [lra|]. specialize (B2 s ltac:(lra)).
    apply Rle_trans with (Rpower s (b + a + 1) * exp (- (1) * s) * (exp 1 * (Rpower w (b - 1) / s ^ 2))).
    + right. unfold Rdiv. rewrite <- Rpower_m2 by lra. unfold Rpower. rewrite Lt. rewrite <- !exp_plus. f_equal. assert (- t = 1 - s) as -> by lra. assert (Eb : a = 2 * b) by (unfold b; field). clearbody b. rewrite Eb. ring.
    + apply Rmult_le_compat_r; [|exact B2].
      all: try (apply Rmult_le_pos; [left; apply exp_pos|]; apply Rmult_le_pos; [left; apply Rpower_pos|left; apply Rinv_0_lt_compat; apply pow_lt; lra]).
  - intros t Ht. specialize (W t Ht). evar_last; [apply (is_derive_scal (fun t => Rpower (t / (1 + t)) b) t (C / b)); apply (is_derive_comp (fun w => Rpower w b) (fun t => t / (1 + t)) t (b * Rpower (t / (1 + t)) (b - 1)) (/ (1 + t) ^ 2)); [apply Rpower_derive; lra|auto_derive; [lra|field; lra]]|].
    match goal with |- ?x = ?y => change (@eq R x y) end. unfold scal; cbn [AbsRing.sort]. unfold mult; cbn. field. split; lra.
  - intros t Ht. specialize (W t Ht). apply (ex_derive_continuous (fun t => C * (Rpower (t / (1 + t)) (b - 1) / (1 + t) ^ 2))). unfold Rpower. auto_derive. repeat split; try lra. nra.
  - intros t Ht. specialize (W t Ht). rewrite Rabs_right by (apply Rle_ge; left; apply Rmult_lt_0_compat; [apply Rdiv_lt_0_compat; lra|apply Rpower_pos]). rewrite <- (Rmult_1_r (C / b)) at 2. apply Rmult_le_compat_l; [left; apply Rdiv_lt_0_compat; lra|]. unfold Rpower. assert (L0 : ln (t / (1 + t)) < 0) by (apply (Rlt_le_trans _ (ln 1)); [apply ln_increasing; lra|right; apply ln_1]). apply Rle_trans with (exp 0); [apply exp_mono; nra|right; apply exp_0].
Qed.
Definition Gv (k : nat) (a : R) : R := seq_improper (gk k a).
Lemma Gv_ok k a : 0 < a -> improper0 (gk k a) (Gv k a).
Proof. intros Ha. destruct (gk_exists k a Ha) as (v & V). unfold Gv. rewrite (seq_improper_ok _ _ V). exact V. Qed.
Definition Gam (a : R) : R := Gv 0 a.
Lemma Gam_ok a : 0 < a -> euler_gamma a (Gam a).
Proof. intros Ha. eapply improper0_ext; [|apply (Gv_ok 0 a Ha)]. intros t _. unfold gk. cbn. ring. Qed.
Lemma Gv_derive k a : 0 < a -> is_derive (Gv k) a (Gv (k + 1) a).
Proof.
  intros Ha. set (d := a / 2). assert (Hd : 0 < d) by (unfold d; lra).
  apply (improper0_param (gk k) (Gv k) (gk (k + 1) a) (fun t => Rabs (ln t) ^ (k + 2) * gamma_density (a + d) t + Rabs (ln t) ^ (k + 2) * gamma_density (a - d) t) a d (Gv (k + 1) a) (seq_improper (fun t => Rabs (ln t) ^ (k + 2) * gamma_density (a + d) t + Rabs (ln t) ^ (k + 2) * gamma_density (a - d) t))); [exact Hd| | | |].
  - intros x Hx. apply Gv_ok. apply Rabs_def2 in Hx. unfold d in Hx. lra.
  - apply Gv_ok, Ha.
  - (* |ln t|^(k+2) is at most 1 + ln(t)^(2(k+2)) *)
    assert (E : forall e, 0 < e -> exists v, improper0 (fun t => Rabs (ln t) ^ (k + 2) * gamma_density e t) v).
    { intros e He. destruct (gk_exists (2 * (k + 2)) e He) as (v1 & V1). destruct (gk_exists 0 e He) as (v0 & V0). set (n := (k + 2)%nat) in *. clearbody n.
      pose proof (improper0_plus _ _ _ _ V0 V1) as V. pose proof (improper0_exists) as IE. clear IE.
      (* domination by an integrable function *)
      assert (Dm : forall t, 0 < t -> 0 <= Rabs (ln t) ^ n * gamma_density e t <= gk 0 e t + gk (2 * n) e t).
      { intros t Ht. assert (Pg : 0 < gamma_density e t) by (apply Rmult_lt_0_compat; [apply Rpower_pos|apply exp_pos]). unfold gk. rewrite pow_O, Rmult_1_l. pose proof (pow_le (Rabs (ln t)) n (Rabs_pos _)) as Q. rewrite pow_mult. replace (ln t ^ 2) with (Rabs (ln t) ^ 2) by (rewrite pow2_abs; reflexivity). rewrite <- pow_mult, Nat.mul_comm, pow_mult. set (y := Rabs (ln t) ^ n) in *. clearbody y. split; [nra|]. assert (y <= 1 + y ^ 2) by nra. nra. }
      clear V1 V0. set (m := fun t => gk 0 e t + gk (2 * n) e t) in *. assert (Cm : forall t, 0 < t -> continuous m t) by (intros t Ht; apply (continuous_plus (gk 0 e) (gk (2 * n) e)); apply gk_cont, Ht).
      assert (Exm : forall p q, 0 < p -> 0 < q -> ex_RInt m p q) by (intros p q Hp Hq; apply (ex_RInt_continuous m); intros t Ht; apply Cm; pose proof (Rmin_glb_lt p q 0 Hp Hq); lra).
      assert (Bm : exists B, forall t, 0 < t -> Rabs (RInt m 1 t) <= B).
      { destruct (V 1 ltac:(lra)) as (a0 & b0 & Pa & Hab & H1). exists (Rabs (v0 + v1) + 1). intros t Ht. set (p := Rmin (Rmin (a0 / 2) t) (1 / 2)). set (q := Rmax (Rmax (b0 + 1) t) 2). assert (Pp : 0 < p < a0) by (unfold p; split; [repeat apply Rmin_glb_lt; lra|pose proof (Rmin_l (Rmin (a0 / 2) t) (1 / 2)); pose proof (Rmin_l (a0 / 2) t); lra]).
        assert (Pq : b0 < q) by (unfold q; pose proof (Rmax_l (Rmax (b0 + 1) t) 2); pose proof (Rmax_l (b0 + 1) t); lra). assert (p <= t <= q) by (unfold p, q; split; [pose proof (Rmin_l (Rmin (a0 / 2) t) (1 / 2)); pose proof (Rmin_r (a0 / 2) t); lra|pose proof (Rmax_l (Rmax (b0 + 1) t) 2); pose proof (Rmax_r (b0 + 1) t); lra]).
        assert (p <= 1 <= q) by (unfold p, q; split; [pose proof (Rmin_r (Rmin (a0 / 2) t) (1 / 2)); lra|pose proof (Rmax_r (Rmax (b0 + 1) t) 2); lra]).
        destruct (H1 p q Pp Pq) as (I1 & R1 & B1). assert (U1 : RInt m p q = I1) by (apply (is_RInt_unique (V := R_CompleteNormedModule)); exact R1).
        assert (Mp : forall x y, 0 < x -> x <= y -> 0 <= RInt m x y) by (intros x y Hx Hy; apply RInt_ge_0; [exact Hy|apply Exm; lra|intros z Hz; pose proof (Dm z ltac:(lra)); unfold m; lra]).
        assert (Ch : forall x y z, 0 < x -> 0 < y -> 0 < z -> RInt m x y + RInt m y z = RInt m x z) by (intros x y z Hx Hy Hz; apply (RInt_Chasles m); apply Exm; assumption).
        pose proof (Rle_abs (v0 + v1)). apply Rabs_def2 in B1.
        destruct (Rle_dec 1 t) as [Q|Q].
        - rewrite Rabs_right by (apply Rle_ge, Mp; lra). pose proof (Ch p 1 q ltac:(lra) ltac:(lra) ltac:(lra)). pose proof (Ch 1 t q ltac:(lra) ltac:(lra) ltac:(lra)). pose proof (Mp p 1 ltac:(lra) ltac:(lra)). pose proof (Mp t q ltac:(lra) ltac:(lra)). lra.
        - assert (S : RInt m 1 t = - RInt m t 1) by (pose proof (Ch 1 t 1 ltac:(lra) ltac:(lra) ltac:(lra)) as S; pose proof (RInt_point 1 m) as Z; change (RInt m 1 1 = 0) in Z; rewrite Z in S; lra). rewrite S, Rabs_Ropp, Rabs_right by (apply Rle_ge, Mp; lra). pose proof (Ch p 1 q ltac:(lra) ltac:(lra) ltac:(lra)). pose proof (Ch p t 1 ltac:(lra) ltac:(lra) ltac:(lra)). pose proof (Mp p t ltac:(lra) ltac:(lra)). pose proof (Mp 1 q ltac:(lra) ltac:(lra)). lra. }
      destruct Bm as (B & HB). apply (improper0_exists _ m (fun t => RInt m 1 t) B).
      - intros t Ht. apply (continuous_mult (fun t => Rabs (ln t) ^ n) (gamma_density e)).
        + apply (continuous_comp (fun t => Rabs (ln t)) (fun y => y ^ n)); [|apply (ex_derive_continuous (fun y => y ^ n)); auto_derive; exact I]. apply (continuous_comp ln Rabs); [apply (ex_derive_continuous ln); auto_derive; exact Ht|]. apply continuity_pt_filterlim. apply Rcontinuity_abs.
        + apply (ex_derive_continuous (gamma_density e)). unfold gamma_density, Rpower. auto_derive. lra.
      - exact Dm.
      - intros t Ht. apply (is_derive_RInt m (fun t => RInt m 1 t) 1 t); [|apply Cm, Ht]. exists (mkposreal (t / 2) ltac:(lra)). intros y Hy. apply (RInt_correct m), Exm; [lra|]. apply Rabs_def2 in Hy. unfold minus, plus, opp in Hy. cbn in Hy. lra.
      - exact Cm.
      - exact HB. }
    destruct (E (a + d) ltac:(lra)) as (v1 & V1). destruct (E (a - d) ltac:(unfold d; lra)) as (v2 & V2). pose proof (improper0_plus _ _ _ _ V1 V2) as V. rewrite (seq_improper_ok _ _ V). exact V.
  - intros x t Hx Ht. set (h := x - a) in *. replace x with (a + h) by (unfold h; ring). clearbody h. unfold gk, gamma_density. set (l := ln t).
    replace (Rpower t (a + h - 1)) with (Rpower t (a - 1) * exp (h * l)) by (unfold Rpower, l; rewrite <- exp_plus; f_equal; ring).
    replace (Rpower t (a + d - 1)) with (Rpower t (a - 1) * exp (d * l)) by (unfold Rpower, l; rewrite <- exp_plus; f_equal; ring).
    replace (Rpower t (a - d - 1)) with (Rpower t (a - 1) * exp (- (d * l))) by (unfold Rpower, l; rewrite <- exp_plus; f_equal; ring).
    set (p := Rpower t (a - 1) * exp (- t)). assert (Pp : 0 < p) by (apply Rmult_lt_0_compat; [apply Rpower_pos|apply exp_pos]).
    replace (l ^ k * (Rpower t (a - 1) * exp (h * l) * exp (- t)) - l ^ k * p - h * (l ^ (k + 1) * p)) with (l ^ k * (p * (exp (h * l) - 1 - h * l))) by (unfold p; rewrite pow_add; cbn [pow]; ring).
    replace (h ^ 2 * (Rabs l ^ (k + 2) * (Rpower t (a - 1) * exp (d * l) * exp (- t)) + Rabs l ^ (k + 2) * (Rpower t (a - 1) * exp (- (d * l)) * exp (- t)))) with (Rabs l ^ k * (p * ((h * l) ^ 2 * (exp (d * l) + exp (- (d * l)))))).
    2:{ unfold p. rewrite pow_add. replace (Rabs l ^ 2) with (l ^ 2) by (rewrite pow2_abs; reflexivity). ring. }
    rewrite !Rabs_mult, (Rabs_right p) by lra. rewrite <- RPow_abs. apply Rmult_le_compat_l; [apply pow_le, Rabs_pos|]. apply Rmult_le_compat_l; [lra|]. eapply Rle_trans; [apply exp_rem|]. apply Rmult_le_compat_l; [apply pow2_ge_0|].
    rewrite Rabs_mult. apply Rle_trans with (exp (d * Rabs l)); [apply exp_mono, Rmult_le_compat_r; [apply Rabs_pos|lra]|]. pose proof (exp_pos (d * l)). pose proof (exp_pos (- (d * l))). unfold Rabs. destruct (Rcase_abs l); [replace (d * - l) with (- (d * l)) by ring|]; lra.
Qed.
Lemma improper0_pos (f : R -> R) (v : R) : (forall t, 0 < t -> continuous f t) -> (forall t, 0 < t -> 0 < f t) -> improper0 f v -> 0 < v.
Proof.
  intros Cf Pf V. assert (Ex : forall a b, 0 < a -> 0 < b -> ex_RInt f a b) by (intros a b Ha Hb; apply (ex_RInt_continuous f); intros t Ht; apply Cf; pose proof (Rmin_glb_lt a b 0 Ha Hb); lra).
  assert (P : 0 < RInt f 1 2) by (apply RInt_gt_0; [lra|intros; apply Pf; lra|intros t Ht; apply Cf; lra]). destruct (V _ P) as (a0 & b0 & Pa & Hab & H). set (a := Rmin (a0 / 2) 1). set (b := Rmax (b0 + 1) 2).
  assert (0 < a) by (apply Rmin_glb_lt; lra). assert (a < a0) by (unfold a; pose proof (Rmin_l (a0/2) 1); lra). assert (a <= 1) by apply Rmin_r. assert (b0 < b) by (unfold b; pose proof (Rmax_l (b0 + 1) 2); lra). assert (2 <= b) by apply Rmax_r.
  destruct (H a b ltac:(lra) ltac:(lra)) as (I1 & R1 & B1). assert (U1 : RInt f a b = I1) by (apply (is_RInt_unique (V := R_CompleteNormedModule)); exact R1).
  assert (Mp : forall x y, 0 < x -> x <= y -> 0 <= RInt f x y) by (intros x y Hx Hy; apply RInt_ge_0; [exact Hy|apply Ex; lra|intros z Hz; pose proof (Pf z ltac:(lra)); lra]).
  pose proof (RInt_Chasles f a 1 b (Ex a 1 ltac:(lra) ltac:(lra)) (Ex 1 b ltac:(lra) ltac:(lra))) as C1. pose proof (RInt_Chasles f 1 2 b (Ex 1 2 ltac:(lra) ltac:(lra)) (Ex 2 b ltac:(lra) ltac:(lra))) as C2. change (RInt f a 1 + RInt f 1 b = RInt f a b) in C1. change (RInt f 1 2 + RInt f 2 b = RInt f 1 b) in C2.
  pose proof (Mp a 1 ltac:(lra) ltac:(lra)). pose proof (Mp 2 b ltac:(lra) ltac:(lra)). apply Rabs_def2 in B1. lra.
Qed.
Lemma Gam_pos a : 0 < a -> 0 < Gam a.
Proof. intros Ha. apply (improper0_pos (gamma_density a)); [|intros t Ht; apply Rmult_lt_0_compat; [apply Rpower_pos|apply exp_pos]|apply Gam_ok, Ha]. intros t Ht. apply (ex_derive_continuous (gamma_density a)). unfold gamma_density, Rpower. auto_derive. lra. Qed.
Lemma Gam_derive a : 0 < a -> is_derive Gam a (Gv 1 a).
Proof. intros Ha. apply (Gv_derive 0 a Ha). Qed.
Lemma euler_unique a v w : euler_gamma a v -> euler_gamma a w -> v = w.
Proof. apply improper0_unique. Qed.
(** the recurrence *)
Lemma Gam_rec a : 0 < a -> Gam (a + 1) = a * Gam a.
Proof.
  intros Ha. assert (V : improper0 (fun t => a * gamma_density a t - gamma_density (a + 1) t) (0 - 0)).
  { apply (improper0_derive _ (fun t => Rpower t a * exp (- t))).
    - intros t Ht. unfold gamma_density, Rpower. auto_derive; [lra|]. replace (a + 1 - 1) with a by ring. replace (exp (a * ln t)) with (exp ((a - 1) * ln t) * t); [field; lra|]. rewrite <- (exp_ln t) at 2 by lra. rewrite <- exp_plus. f_equal. ring.
    - intros t Ht. apply (ex_derive_continuous (fun t => a * gamma_density a t - gamma_density (a + 1) t)). unfold gamma_density, Rpower. auto_derive. repeat split; lra.
    - intros e He. exists (Rpower e (/ a)). split; [apply Rpower_pos|]. intros t Ht. rewrite Rminus_0_r, Rabs_right by (left; apply Rmult_lt_0_compat; [apply Rpower_pos|apply exp_pos]).
      apply Rle_lt_trans with (Rpower t a); [rewrite <- (Rmult_1_r (Rpower t a)) at 2; apply Rmult_le_compat_l; [left; apply Rpower_pos|]; rewrite <- exp_0; apply exp_mono; lra|]. replace e with (Rpower (Rpower e (/ a)) a) by (rewrite Rpower_mult, Rinv_l, Rpower_1 by lra; reflexivity). apply Rlt_Rpower_l; lra.
    - destruct (power_exp_bound (a + 1) 1 ltac:(lra)) as (C & HC & B). apply (limoo_0 _ C). intros t Ht. rewrite Rabs_right by (left; apply Rmult_lt_0_compat; [apply Rpower_pos|apply exp_pos]). specialize (B t ltac:(lra)).
      assert (S : 0 < sqrt t) by (apply sqrt_lt_R0; lra). apply Rmult_le_reg_r with (sqrt t); [exact S|]. unfold Rdiv. rewrite Rmult_assoc, Rmult_assoc, Rinv_l, Rmult_1_r by lra. eapply Rle_trans; [|exact B]. rewrite Rpower_plus, Rpower_1 by lra. replace (- (1) * t) with (- t) by ring. pose proof (Rpower_pos t a). pose proof (exp_pos (- t)). assert (sqrt t <= t) by (rewrite <- (sqrt_square t) at 2 by lra; apply sqrt_le_1_alt; nra). rewrite Rmult_assoc. apply Rmult_le_compat_l; [lra|]. nra. }
  pose proof (improper0_minus _ _ _ _ (improper0_scal _ a _ (Gam_ok a Ha)) (Gam_ok (a + 1) ltac:(lra))) as V2. pose proof (improper0_unique _ _ _ V V2). lra.
Qed.
