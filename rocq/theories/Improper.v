(** * Facts about improper integrals over (0, infinity) *)
From Coq Require Import Reals Lra.
From Coquelicot Require Import Rcomplements Rbar Hierarchy Continuity Derive RInt RInt_analysis AutoDerive ElemFct.
From Verif Require Import EllipSpec.
Open Scope R_scope.

Definition lim0 (F : R -> R) (l : R) : Prop := forall e, 0 < e -> exists d, 0 < d /\ forall t, 0 < t < d -> Rabs (F t - l) < e.
Definition limoo (F : R -> R) (l : R) : Prop := forall e, 0 < e -> exists T, forall t, T < t -> Rabs (F t - l) < e.

Lemma lim0_cont F : continuity_pt F 0 -> lim0 F (F 0).
Proof.
  intros C e He. destruct (C e He) as (d & Hd & H). exists d. split; [exact Hd|]. intros t Ht.
  apply (H t). split; [split; [exact I|lra]|]. unfold dist; cbn; unfold R_dist. rewrite Rabs_right; lra.
Qed.
Lemma lim0_ext F G l : (forall t, 0 < t -> F t = G t) -> lim0 F l -> lim0 G l.
Proof. intros E L e He. destruct (L e He) as (d & Hd & H). exists d. split; [exact Hd|]. intros t Ht. rewrite <- E by lra. apply H, Ht. Qed.
Lemma limoo_ext F G l : (forall t, 0 < t -> F t = G t) -> limoo F l -> limoo G l.
Proof. intros E L e He. destruct (L e He) as (T & H). exists (Rmax T 1). intros t Ht. pose proof (Rmax_l T 1). pose proof (Rmax_r T 1). rewrite <- E by lra. apply H; lra. Qed.
(** squeezed between 0 and something that goes to 0 *)
Lemma limoo_0 F C : (forall t, 1 < t -> Rabs (F t) <= C / sqrt t) -> limoo F 0.
Proof.
  intros B e He. exists (Rmax 1 ((C / e) ^ 2)). intros t Ht. pose proof (Rmax_l 1 ((C / e) ^ 2)). pose proof (Rmax_r 1 ((C / e) ^ 2)).
  rewrite Rminus_0_r. eapply Rle_lt_trans; [apply B; lra|]. assert (0 < sqrt t) by (apply sqrt_lt_R0; lra).
  apply Rmult_lt_reg_r with (sqrt t); [assumption|]. unfold Rdiv at 1. rewrite Rmult_assoc, Rinv_l, Rmult_1_r by lra.
  destruct (Rlt_dec C 0) as [Hc|Hc]; [apply Rlt_trans with 0; [exact Hc|apply Rmult_lt_0_compat; lra]|].
  assert (S : C / e < sqrt t).
  { rewrite <- (sqrt_pow2 (C / e)) by (apply Rmult_le_pos; [lra|left; apply Rinv_0_lt_compat; exact He]). apply sqrt_lt_1; [apply pow2_ge_0|lra|lra]. }
  apply Rmult_lt_compat_l with (r := e) in S; [|exact He]. replace (e * (C / e)) with C in S by (field; lra). exact S.
Qed.

Lemma is_RInt_ex_cont (f : R -> R) (a b : R) : 0 < a -> a <= b -> (forall t, 0 < t -> continuous f t) -> ex_RInt f a b.
Proof. intros Ha Hb C. apply (ex_RInt_continuous (V := R_CompleteNormedModule)). intros z Hz. apply C. rewrite Rmin_left in Hz; lra. Qed.

Lemma improper0_unique f v w : improper0 f v -> improper0 f w -> v = w.
Proof.
  intros V W. destruct (Req_dec v w) as [E|N]; [exact E|]. exfalso.
  assert (P : 0 < Rabs (v - w) / 2) by (pose proof (Rabs_pos_lt (v - w)); lra).
  destruct (V _ P) as (a & b & Ha & Hab & H). destruct (W _ P) as (a' & b' & Ha' & Hab' & H').
  pose proof (Rmin_l a a'). pose proof (Rmin_r a a'). pose proof (Rmax_l b b'). pose proof (Rmax_r b b'). assert (0 < Rmin a a') by (apply Rmin_glb_lt; assumption).
  destruct (H (Rmin a a' / 2) (Rmax b b' + 1)) as (i & I1 & D1); [lra|lra|]. destruct (H' (Rmin a a' / 2) (Rmax b b' + 1)) as (j & I2 & D2); [lra|lra|].
  assert (i = j). { apply (is_RInt_unique (V := R_CompleteNormedModule)) in I1. apply (is_RInt_unique (V := R_CompleteNormedModule)) in I2. congruence. } subst j.
  revert D1 D2. unfold Rabs. repeat destruct (Rcase_abs _); lra.
Qed.
Lemma improper0_ext f g v : (forall t, 0 < t -> f t = g t) -> improper0 f v -> improper0 g v.
Proof.
  intros E V e He. destruct (V e He) as (a0 & b0 & Ha & Hab & H). exists a0, b0. repeat split; try assumption. intros a b A B. destruct (H a b A B) as (i & I1 & D).
  exists i. split; [|exact D]. apply is_RInt_ext with f; [|exact I1]. intros x Hx. rewrite Rmin_left in Hx by lra. apply E. lra.
Qed.
Lemma improper0_scal f c v : improper0 f v -> improper0 (fun t => c * f t) (c * v).
Proof.
  intros V e He. assert (P : 0 < e / (Rabs c + 1)) by (apply Rdiv_lt_0_compat; [exact He|pose proof (Rabs_pos c); lra]).
  destruct (V _ P) as (a0 & b0 & Ha & Hab & H). exists a0, b0. repeat split; try assumption. intros a b A B. destruct (H a b A B) as (i & I1 & D).
  exists (c * i). split; [apply (is_RInt_scal f a b c i), I1|]. replace (c * i - c * v) with (c * (i - v)) by ring. rewrite Rabs_mult.
  apply Rle_lt_trans with (Rabs c * (e / (Rabs c + 1))); [apply Rmult_le_compat_l; [apply Rabs_pos|lra]|].
  pose proof (Rabs_pos c). apply Rmult_lt_reg_r with (Rabs c + 1); [lra|]. replace (Rabs c * (e / (Rabs c + 1)) * (Rabs c + 1)) with (Rabs c * e) by (field; lra). nra.
Qed.
Lemma improper0_plus f g v w : improper0 f v -> improper0 g w -> improper0 (fun t => f t + g t) (v + w).
Proof.
  intros V W e He. destruct (V (e / 2) ltac:(lra)) as (a & b & Ha & Hab & H). destruct (W (e / 2) ltac:(lra)) as (a' & b' & Ha' & Hab' & H').
  pose proof (Rmin_l a a'). pose proof (Rmin_r a a'). pose proof (Rmax_l b b'). pose proof (Rmax_r b b'). assert (0 < Rmin a a') by (apply Rmin_glb_lt; assumption).
  exists (Rmin a a'), (Rmax b b'). repeat split; [assumption|lra|]. intros x y X Y. destruct (H x y) as (i & I1 & D1); [lra|lra|]. destruct (H' x y) as (j & I2 & D2); [lra|lra|].
  exists (i + j). split; [apply (is_RInt_plus f g x y i j); assumption|]. replace (i + j - (v + w)) with ((i - v) + (j - w)) by ring. eapply Rle_lt_trans; [apply Rabs_triang|lra].
Qed.
Lemma improper0_minus f g v w : improper0 f v -> improper0 g w -> improper0 (fun t => f t - g t) (v - w).
Proof.
  intros V W. apply improper0_scal with (c := -1) in W. pose proof (improper0_plus _ _ _ _ V W) as P. replace (v - w) with (v + -1 * w) by ring.
  eapply improper0_ext; [|exact P]. intros t _. cbn. ring.
Qed.
(** the fundamental theorem *)
Lemma improper0_derive (f F : R -> R) (l0 l1 : R) : (forall t, 0 < t -> is_derive F t (f t)) -> (forall t, 0 < t -> continuous f t) -> lim0 F l0 -> limoo F l1 -> improper0 f (l1 - l0).
Proof.
  intros D C L0 L1 e He. destruct (L0 (e / 2) ltac:(lra)) as (d & Hd & H0). destruct (L1 (e / 2) ltac:(lra)) as (T & H1).
  exists d, (Rmax T d). repeat split; [exact Hd|apply Rmax_r|]. intros a b A B. pose proof (Rmax_l T d). pose proof (Rmax_r T d). exists (F b - F a). split.
  - apply (is_RInt_derive F f); intros x Hx; rewrite Rmin_left in Hx by lra; [apply D; lra|apply C; lra].
  - specialize (H0 a A). specialize (H1 b ltac:(lra)). replace (F b - F a - (l1 - l0)) with ((F b - l1) + - (F a - l0)) by ring. eapply Rle_lt_trans; [apply Rabs_triang|]. rewrite Rabs_Ropp. lra.
Qed.
(** change of variable *)
Lemma improper0_subst (g phi dphi : R -> R) (v : R) : (forall t, 0 < t -> continuous g t) -> (forall t, 0 < t -> is_derive phi t (dphi t)) -> (forall t, 0 < t -> continuous dphi t) ->
  (forall t, 0 < t -> 0 < phi t) -> lim0 phi 0 -> (forall M, exists T, forall t, T < t -> M < phi t) -> improper0 g v -> improper0 (fun t => dphi t * g (phi t)) v.
Proof.
  intros Cg D Cd Pp L0 L1 V e He. destruct (V e He) as (a0 & b0 & Ha & Hab & H). destruct (L0 a0 Ha) as (d & Hd & H0). destruct (L1 b0) as (T & H1).
  exists d, (Rmax T d). repeat split; [exact Hd|apply Rmax_r|]. intros a b A B. pose proof (Rmax_l T d). pose proof (Rmax_r T d).
  assert (Pa : 0 < phi a < a0). { specialize (H0 a A). rewrite Rminus_0_r in H0. specialize (Pp a ltac:(lra)). rewrite Rabs_right in H0 by lra. lra. }
  assert (Pb : b0 < phi b) by (apply H1; lra). destruct (H (phi a) (phi b) Pa Pb) as (i & I1 & Di). exists i. split; [|exact Di].
  apply (is_RInt_unique (V := R_CompleteNormedModule)) in I1. rewrite <- I1. apply (is_RInt_comp (V := R_CompleteNormedModule) g phi dphi a b); intros x Hx; rewrite Rmin_left in Hx by lra.
  - apply Cg, Pp. lra.
  - split; [apply D|apply Cd]; lra.
Qed.
(** comparison *)
Lemma improper0_le f g v w : (forall t, 0 < t -> f t <= g t) -> improper0 f v -> improper0 g w -> v <= w.
Proof.
  intros L V W. destruct (Rle_dec v w) as [E|N]; [exact E|]. exfalso. assert (P : 0 < (v - w) / 2) by lra.
  destruct (V _ P) as (a & b & Ha & Hab & H). destruct (W _ P) as (a' & b' & Ha' & Hab' & H').
  pose proof (Rmin_l a a'). pose proof (Rmin_r a a'). pose proof (Rmax_l b b'). pose proof (Rmax_r b b'). assert (0 < Rmin a a') by (apply Rmin_glb_lt; assumption).
  destruct (H (Rmin a a' / 2) (Rmax b b' + 1)) as (i & I1 & D1); [lra|lra|]. destruct (H' (Rmin a a' / 2) (Rmax b b' + 1)) as (j & I2 & D2); [lra|lra|].
  assert (i <= j). { apply (is_RInt_le f g (Rmin a a' / 2) (Rmax b b' + 1)); [lra|exact I1|exact I2|]. intros x Hx. apply L. lra. }
  revert D1 D2. unfold Rabs. repeat destruct (Rcase_abs _); lra.
Qed.
Lemma improper0_bound f p q v vp vq : (forall t, 0 < t -> Rabs (f t - p t) <= q t) -> improper0 f v -> improper0 p vp -> improper0 q vq -> Rabs (v - vp) <= vq.
Proof.
  intros B V P Qq. pose proof (improper0_minus _ _ _ _ V P) as D. apply Rabs_le. split.
  - apply improper0_scal with (c := -1) in Qq. replace (- vq) with (-1 * vq) by ring. refine (improper0_le _ _ _ _ _ Qq D). intros t Ht. cbn. specialize (B t Ht). apply Rabs_le_between in B. lra.
  - refine (improper0_le _ _ _ _ _ D Qq). intros t Ht. cbn. specialize (B t Ht). apply Rabs_le_between in B. lra.
Qed.
(** existence by domination *)
Lemma improper0_exists (f g G : R -> R) (B : R) : (forall t, 0 < t -> continuous f t) -> (forall t, 0 < t -> 0 <= f t <= g t) -> (forall t, 0 < t -> is_derive G t (g t)) -> (forall t, 0 < t -> continuous g t) ->
  (forall t, 0 < t -> Rabs (G t) <= B) -> exists v, improper0 f v.
Proof.
  intros Cf L D Cg Bd.
  assert (Ex : forall a b, 0 < a -> a <= b -> ex_RInt f a b) by (intros; apply is_RInt_ex_cont; assumption).
  assert (Mono : forall a b a' b', 0 < a' -> a' <= a -> a <= b -> b <= b' -> RInt f a b <= RInt f a' b').
  { intros a b a' b' H1 H2 H3 H4. rewrite <- (RInt_Chasles f a' a b') by (apply Ex; lra). rewrite <- (RInt_Chasles f a b b') by (apply Ex; lra). change (RInt f a b <= RInt f a' a + (RInt f a b + RInt f b b')).
    assert (0 <= RInt f a' a) by (apply RInt_ge_0; [lra|apply Ex; lra|intros; apply L; lra]). assert (0 <= RInt f b b') by (apply RInt_ge_0; [lra|apply Ex; lra|intros; apply L; lra]). lra. }
  assert (Ub : forall a b, 0 < a -> a <= b -> RInt f a b <= 2 * B).
  { intros a b H1 H2. apply Rle_trans with (G b - G a).
    - assert (Ig : is_RInt g a b (G b - G a)) by (apply (is_RInt_derive G g); intros x Hx; rewrite Rmin_left in Hx by lra; [apply D|apply Cg]; lra).
      rewrite <- (is_RInt_unique _ _ _ _ Ig). apply RInt_le; [lra|apply Ex; lra|exists (G b - G a); exact Ig|intros; apply L; lra].
    - pose proof (Bd a H1) as Ba. pose proof (Bd b ltac:(lra)) as Bb. apply Rabs_le_between in Ba. apply Rabs_le_between in Bb. lra. }
  destruct (completeness (fun i => exists a b, 0 < a /\ a <= b /\ i = RInt f a b)) as (v & Hv & Hl).
  - exists (2 * B). intros i (a & b & H1 & H2 & ->). apply Ub; assumption.
  - exists (RInt f 1 1), 1, 1. repeat split; lra.
  - exists v. intros e He. destruct (Classical_Prop.classic (exists a b, 0 < a /\ a <= b /\ v - e < RInt f a b)) as [(a0 & b0 & H1 & H2 & H3)|N].
    + exists a0, b0. repeat split; try assumption. intros a b A B'. exists (RInt f a b). split; [apply (RInt_correct f), Ex; lra|].
      assert (RInt f a b <= v) by (apply Hv; exists a, b; repeat split; lra). pose proof (Mono a0 b0 a b ltac:(lra) ltac:(lra) ltac:(lra) ltac:(lra)). apply Rabs_lt_between. change (-e < RInt f a b - v < e). lra.
    + exfalso. assert (v <= v - e); [|lra]. apply Hl. intros i (a & b & H1 & H2 & ->). apply Rnot_lt_le. intros H3. apply N. exists a, b. repeat split; assumption.
Qed.
