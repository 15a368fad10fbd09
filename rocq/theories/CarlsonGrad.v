(** Derivatives of Carlson's integrals with respect to their arguments *)
From Coq Require Import Reals Lra Lia Psatz.
From Coquelicot Require Import Rcomplements Hierarchy Continuity Derive RInt RInt_analysis AutoDerive ElemFct.
From Verif Require Import EllipSpec Improper CarlsonDup CarlsonTail CarlsonLoop CarlsonRC Legendre EllipMain.
Open Scope R_scope.

(** ** Differentiation under the improper integral, by a bound on the second order remainder *)
Lemma improper0_param (f : R -> R -> R) (F : R -> R) (f' q : R -> R) (x0 d D Q : R) : 0 < d -> (forall x, Rabs (x - x0) < d -> improper0 (f x) (F x)) -> improper0 f' D -> improper0 q Q ->
  (forall x t, Rabs (x - x0) < d -> 0 < t -> Rabs (f x t - f x0 t - (x - x0) * f' t) <= (x - x0) ^ 2 * q t) -> is_derive F x0 D.
Proof.
  intros Hd HF HD HQ B. apply is_derive_Reals. intros e He. assert (Q0 : 0 < Rabs Q + 1) by (pose proof (Rabs_pos Q); lra). assert (Hm : 0 < Rmin d (e / (Rabs Q + 1))) by (apply Rmin_glb_lt; [exact Hd|apply Rdiv_lt_0_compat; assumption]).
  exists (mkposreal _ Hm). intros h Hh Hlt. cbn in Hlt. assert (H1 : Rabs h < d) by (eapply Rlt_le_trans; [exact Hlt|apply Rmin_l]). assert (H2 : Rabs h < e / (Rabs Q + 1)) by (eapply Rlt_le_trans; [exact Hlt|apply Rmin_r]).
  assert (E0 : x0 + h - x0 = h) by ring. pose proof (HF (x0 + h) ltac:(rewrite E0; exact H1)) as V1. pose proof (HF x0 ltac:(rewrite Rminus_diag_eq by reflexivity; rewrite Rabs_R0; exact Hd)) as V0.
  assert (Bd : Rabs (F (x0 + h) - F x0 - h * D) <= h ^ 2 * Q).
  { apply (improper0_bound (fun t => f (x0 + h) t - f x0 t) (fun t => h * f' t) (fun t => h ^ 2 * q t)); [|apply improper0_minus; assumption|apply improper0_scal, HD|apply improper0_scal, HQ]. intros t Ht. pose proof (B (x0 + h) t) as B0. rewrite E0 in B0. apply B0; assumption. }
  replace ((F (x0 + h) - F x0) / h - D) with ((F (x0 + h) - F x0 - h * D) / h) by (field; exact Hh). unfold Rdiv. rewrite Rabs_mult, Rabs_inv. assert (Ph : 0 < Rabs h) by (apply Rabs_pos_lt, Hh).
  apply Rmult_lt_reg_r with (Rabs h); [exact Ph|]. rewrite Rmult_assoc, Rinv_l by lra. rewrite Rmult_1_r. eapply Rle_lt_trans; [exact Bd|]. replace (h ^ 2) with (Rabs h * Rabs h) by (rewrite <- Rabs_mult, Rabs_right; [ring|apply Rle_ge; nra]).
  rewrite Rmult_assoc, (Rmult_comm e). apply Rmult_lt_compat_l; [exact Ph|]. apply Rle_lt_trans with (Rabs h * (Rabs Q + 1)); [apply Rmult_le_compat_l; [lra|]; pose proof (Rle_abs Q); lra|].
  apply Rmult_lt_reg_r with (/ (Rabs Q + 1)); [apply Rinv_0_lt_compat, Q0|]. rewrite Rmult_assoc, Rinv_r by lra. unfold Rdiv in H2. lra.
Qed.

(** ** Negative powers of square roots *)
Lemma sq_range x0 x t : 0 < x0 -> Rabs (x - x0) < x0 / 2 -> 0 < t -> let s := sqrt (t + x0) in let r := sqrt (t + x) in 0 < s /\ 0 < r /\ s * s = t + x0 /\ r * r - s * s = x - x0 /\ s <= 2 * r /\ s / r * (s / r) <= 2.
Proof.
  intros H0 Hx Ht s r. apply Rabs_def2 in Hx. assert (Ps : 0 < s) by (apply sqrt_lt_R0; lra). assert (Pr : 0 < r) by (apply sqrt_lt_R0; lra). assert (Es : s * s = t + x0) by (apply sqrt_sqrt; lra). assert (Er : r * r = t + x) by (apply sqrt_sqrt; lra).
  repeat split; try assumption; [lra|nra|]. replace (s / r * (s / r)) with (s * s / (r * r)) by (field; lra). apply Rmult_le_reg_r with (r * r); [nra|]. unfold Rdiv. rewrite Rmult_assoc, Rinv_l by nra. nra.
Qed.
Definition rem3 (k : nat) : Prop := k = 1%nat \/ k = 2%nat \/ k = 3%nat.
Lemma remainder k x0 x t : rem3 k -> 0 < x0 -> Rabs (x - x0) < x0 / 2 -> 0 < t ->
  Rabs (u x t ^ k - u x0 t ^ k - (x - x0) * (- (INR k / 2) * u x0 t ^ (k + 2))) <= (x - x0) ^ 2 * (13 / x0 * u x0 t ^ (k + 2)).
Proof.
  intros Hk H0 Hx Ht. pose proof (sq_range x0 x t H0 Hx Ht) as H. cbv zeta in H. unfold u. set (s := sqrt (t + x0)) in *. set (r := sqrt (t + x)) in *. clearbody s r. destruct H as (Ps & Pr & Es & Eh & L1 & L2).
  set (h := x - x0) in *. clearbody h. set (w := s / r) in *. assert (Pw : 0 < w) by (apply Rdiv_lt_0_compat; assumption). assert (W2 : w <= 3 / 2) by (clearbody w; nra).
  assert (Er : r = s / w) by (unfold w; field; lra). assert (Bs : / (s * s) <= / x0) by (apply Rinv_le_contravar; lra). assert (Is : 0 < / s) by (apply Rinv_0_lt_compat, Ps).
  assert (Key : forall c N, 0 <= c <= 13 -> N = h ^ 2 * (c / (s * s) * (/ s) ^ (k + 2)) -> Rabs N <= h ^ 2 * (13 / x0 * (/ s) ^ (k + 2))).
  { intros c N Hc ->. assert (P2 : 0 < (/ s) ^ (k + 2)) by (apply pow_lt, Is). assert (Pi : 0 < / (s * s)) by (apply Rinv_0_lt_compat; nra). assert (0 <= h ^ 2) by nra. assert (Px : 0 < / x0) by (apply Rinv_0_lt_compat, H0). rewrite Rabs_right; [|apply Rle_ge, Rmult_le_pos; [assumption|apply Rmult_le_pos; [apply Rmult_le_pos|]; lra]].
    apply Rmult_le_compat_l; [assumption|]. apply Rmult_le_compat_r; [lra|]. unfold Rdiv. apply Rmult_le_compat; lra. }
  assert (Sum : 0 < r + s) by lra. assert (Pp : 0 < s * s / ((r + s) * (r + s)) <= 1). { split; [apply Rdiv_lt_0_compat; nra|]. apply Rmult_le_reg_r with ((r + s) * (r + s)); [nra|]. unfold Rdiv. rewrite Rmult_assoc, Rinv_l by nra. nra. }
  assert (Eh' : h = (r - s) * (r + s)) by lra. clear Hx Es Bs Eh. set (y := s * s / ((r + s) * (r + s))) in *. assert (W3 : w * w * w <= 3) by nra.
  destruct Hk as [E|[E|E]]; subst k; cbn [Nat.add INR].
  - apply (Key (y * (1 / 2 + w))); [split; nra|]. unfold y, w. rewrite Eh'. cbn [Nat.add pow]. field. lra.
  - apply (Key (w * w)); [split; nra|]. unfold w. rewrite Eh'. cbn [Nat.add pow]. field. lra.
  - apply (Key (y * (3 / 2 + 3 * w + 2 * (w * w) + w * w * w))); [split; [apply Rmult_le_pos; nra|]; assert (3 / 2 + 3 * w + 2 * (w * w) + w * w * w <= 13) by nra; nra|]. unfold y, w. rewrite Eh'. cbn [Nat.add pow]. field. lra.
Qed.
Lemma param_u k (rest F : R -> R) x0 D : rem3 k -> 0 < x0 -> (forall t, 0 < t -> 0 <= rest t) -> (forall x, 0 < x -> improper0 (fun t => u x t ^ k * rest t) (F x)) -> improper0 (fun t => u x0 t ^ (k + 2) * rest t) D ->
  is_derive F x0 (- (INR k / 2) * D).
Proof.
  intros Hk H0 Hr HF HD. apply (improper0_param (fun x t => u x t ^ k * rest t) F (fun t => - (INR k / 2) * (u x0 t ^ (k + 2) * rest t)) (fun t => 13 / x0 * (u x0 t ^ (k + 2) * rest t)) x0 (x0 / 2) (- (INR k / 2) * D) (13 / x0 * D)); [lra| | | |].
  - intros x Hx. apply HF. apply Rabs_def2 in Hx. lra.
  - apply improper0_scal, HD.
  - apply improper0_scal, HD.
  - intros x t Hx Ht. pose proof (remainder k x0 x t Hk H0 Hx Ht) as B.
    replace (u x t ^ k * rest t - u x0 t ^ k * rest t - (x - x0) * (- (INR k / 2) * (u x0 t ^ (k + 2) * rest t))) with ((u x t ^ k - u x0 t ^ k - (x - x0) * (- (INR k / 2) * u x0 t ^ (k + 2))) * rest t) by ring.
    rewrite Rabs_mult, (Rabs_right (rest t)) by (apply Rle_ge, Hr, Ht). replace ((x - x0) ^ 2 * (13 / x0 * (u x0 t ^ (k + 2) * rest t))) with ((x - x0) ^ 2 * (13 / x0 * u x0 t ^ (k + 2)) * rest t) by ring. apply Rmult_le_compat_r; [apply Hr, Ht|exact B].
Qed.

(** ** Boundary terms *)
Lemma sqrt_le_t y t : 0 <= y -> 1 < t -> sqrt (t + y) <= sqrt (1 + y) * sqrt t.
Proof. intros Hy Ht. rewrite <- sqrt_mult by lra. apply sqrt_le_1_alt. nra. Qed.
Lemma u_le_t y t : 0 <= y -> 1 < t -> 0 < u y t <= / sqrt t.
Proof. intros Hy Ht. unfold u. split; [apply Rinv_0_lt_compat, sqrt_lt_R0; lra|]. apply Rinv_le_contravar; [apply sqrt_lt_R0; lra|apply sqrt_le_1_alt; lra]. Qed.
Lemma u_derive a t : 0 < t + a -> is_derive (u a) t (- / 2 * u a t ^ 3).
Proof. intros H. assert (0 < sqrt (t + a)) by (apply sqrt_lt_R0, H). unfold u. auto_derive; [repeat split; lra|]. field. lra. Qed.
Lemma u_pow_derive a n t : 0 < t + a -> is_derive (fun t => u a t ^ n) t (- (INR n / 2) * u a t ^ (n + 2)).
Proof.
  intros H. evar_last; [apply (is_derive_pow (u a) n t _ (u_derive a t H))|]. destruct n as [|n]; [cbn; req; field|]. replace (S n + 2)%nat with (n + 3)%nat by lia. rewrite pow_add. cbn [pred]. req. field.
Qed.
Lemma sqrt_derive a t : 0 < t + a -> is_derive (fun t => sqrt (t + a)) t (/ 2 * u a t).
Proof. intros H. assert (0 < sqrt (t + a)) by (apply sqrt_lt_R0, H). unfold u. auto_derive; [lra|]. field. lra. Qed.
Section Boundary.
Variables (a b c d : R) (i j : nat).
Hypothesis Ha : 0 <= a. Hypothesis Hb : 0 <= b. Hypothesis Hc : 0 < c. Hypothesis Hd : 0 < d. Hypothesis Hij : (3 <= i + j)%nat.
Definition bf (t : R) : R := sqrt (t + a) * sqrt (t + b) * (u c t ^ i * u d t ^ j).
Definition bf' (t : R) : R := / 2 * (u a t ^ 2 + u b t ^ 2 - INR i * u c t ^ 2 - INR j * u d t ^ 2) * bf t.
Lemma u_cont e t : 0 < t + e -> continuous (u e) t.
Proof. intros H. apply (ex_derive_continuous (u e)). eexists. apply u_derive, H. Qed.
Lemma bf_derive t : 0 < t -> is_derive bf t (bf' t).
Proof.
  intros Ht. unfold bf', bf. pose proof (sqrt_derive a t ltac:(lra)) as DA. pose proof (sqrt_derive b t ltac:(lra)) as DB. pose proof (u_pow_derive c i t ltac:(lra)) as DC. pose proof (u_pow_derive d j t ltac:(lra)) as DD.
  evar_last; [apply (is_derive_mult (fun t => sqrt (t + a) * sqrt (t + b)) (fun t => u c t ^ i * u d t ^ j) t); [apply (is_derive_mult (fun t => sqrt (t + a)) (fun t => sqrt (t + b)) t _ _ DA DB); intros; apply Rmult_comm|apply (is_derive_mult (fun t => u c t ^ i) (fun t => u d t ^ j) t _ _ DC DD); intros; apply Rmult_comm|intros; apply Rmult_comm]|].
  unfold plus, mult; cbn -[pow INR]. rewrite !(pow_add _ _ 2). pose proof (sqrt_lt_R0 (t + a) ltac:(lra)). pose proof (sqrt_lt_R0 (t + b) ltac:(lra)). set (C := u c t ^ i). set (D := u d t ^ j). set (E := u c t ^ 2). set (G := u d t ^ 2). unfold u at 1 2 3 4. clearbody C D E G. req. field. lra.
Qed.
Lemma pow_cont (f : R -> R) n t : continuous f t -> continuous (fun t => f t ^ n) t.
Proof. intros H. induction n as [|n IH]; cbn [pow]; [apply continuous_const|]. apply (continuous_mult f (fun t => f t ^ n)); assumption. Qed.
Lemma bf_cont t : 0 <= t -> continuous bf t.
Proof.
  intros Ht. unfold bf. apply (continuous_mult (fun t => sqrt (t + a) * sqrt (t + b)) (fun t => u c t ^ i * u d t ^ j)).
  - apply (continuous_mult (fun t => sqrt (t + a)) (fun t => sqrt (t + b))); apply cont_sqrt_lin.
  - apply (continuous_mult (fun t => u c t ^ i) (fun t => u d t ^ j)); apply pow_cont, u_cont; lra.
Qed.
Lemma bf'_cont t : 0 < t -> continuous bf' t.
Proof.
  intros Ht. unfold bf'. apply (continuous_mult (fun t => / 2 * (u a t ^ 2 + u b t ^ 2 - INR i * u c t ^ 2 - INR j * u d t ^ 2)) bf); [|apply bf_cont; lra]. apply (ex_derive_continuous (fun t => / 2 * (u a t ^ 2 + u b t ^ 2 - INR i * u c t ^ 2 - INR j * u d t ^ 2))).
  unfold u. auto_derive. repeat split; try lra; apply Rgt_not_eq, sqrt_lt_R0; lra.
Qed.
Lemma bf_lim : limoo bf 0.
Proof.
  apply (limoo_0 bf (sqrt (1 + a) * sqrt (1 + b))). intros t Ht. unfold bf. pose proof (sqrt_le_t a t Ha Ht) as LA. pose proof (sqrt_le_t b t Hb Ht) as LB. pose proof (u_le_t c t ltac:(lra) Ht) as (PC & LC). pose proof (u_le_t d t ltac:(lra) Ht) as (PD & LD).
  assert (ST : 1 <= sqrt t) by (rewrite <- sqrt_1; apply sqrt_le_1_alt; lra). assert (I1 : 0 < / sqrt t <= 1) by (split; [apply Rinv_0_lt_compat; lra|rewrite <- Rinv_1; apply Rinv_le_contravar; lra]).
  pose proof (sqrt_pos (t + a)). pose proof (sqrt_pos (t + b)). assert (P1 : 0 <= u c t ^ i) by (apply pow_le; lra). assert (P2 : 0 <= u d t ^ j) by (apply pow_le; lra). rewrite Rabs_right by (apply Rle_ge; repeat apply Rmult_le_pos; assumption).
  assert (B : u c t ^ i * u d t ^ j <= (/ sqrt t) ^ 3). { apply Rle_trans with ((/ sqrt t) ^ i * (/ sqrt t) ^ j); [apply Rmult_le_compat; try assumption; apply pow_incr; lra|]. rewrite <- pow_add. replace (i + j)%nat with ((i + j - 3) + 3)%nat by lia. rewrite pow_add. rewrite <- (Rmult_1_l ((/ sqrt t) ^ 3)) at 2. apply Rmult_le_compat_r; [apply pow_le; lra|]. rewrite <- (pow1 (i + j - 3)). apply pow_incr. lra. }
  apply Rle_trans with (sqrt (1 + a) * sqrt t * (sqrt (1 + b) * sqrt t) * (/ sqrt t) ^ 3).
  - apply Rmult_le_compat; [apply Rmult_le_pos; assumption|apply Rmult_le_pos; assumption| |exact B]. apply Rmult_le_compat; assumption.
  - apply Req_le. field. lra.
Qed.
Lemma boundary : improper0 bf' (- (sqrt a * sqrt b * ((/ sqrt c) ^ i * (/ sqrt d) ^ j))).
Proof.
  replace (- _) with (0 - bf 0) by (unfold bf, u; rewrite !Rplus_0_l; ring). apply improper0_derive with (F := bf); [exact bf_derive|exact bf'_cont| |exact bf_lim]. apply lim0_cont, continuity_pt_filterlim, bf_cont. lra.
Qed.
End Boundary.

(** ** Carlson's kernels *)
Ltac rt x t H := let P := fresh "P" in let Q := fresh "Q" in assert (P : 0 < sqrt (t + x)) by (apply sqrt_lt_R0; lra); assert (Q : t + x = sqrt (t + x) * sqrt (t + x)) by (symmetry; apply sqrt_sqrt; lra).
Lemma k_RF x y z v : 0 <= x -> 0 <= y -> 0 <= z -> carlson_RF x y z v <-> improper0 (fun t => / 2 * (u x t * u y t * u z t)) v.
Proof. intros Hx Hy Hz. split; intros V; (eapply improper0_ext; [|exact V]); intros t Ht; cbv beta; unfold u; rt x t Hx; rt y t Hy; rt z t Hz; field; lra. Qed.
Lemma k_RC x y v : 0 <= x -> 0 < y -> carlson_RC x y v <-> improper0 (fun t => / 2 * (u x t * u y t ^ 2)) v.
Proof. intros Hx Hy. split; intros V; (eapply improper0_ext; [|exact V]); intros t Ht; cbv beta; unfold u; rt x t Hx; rt y t Hy; rewrite pow_inv, pow2_sqrt by lra; field; lra. Qed.
Lemma k_RJ x y z p v : 0 <= x -> 0 <= y -> 0 <= z -> 0 < p -> carlson_RJ x y z p v <-> improper0 (fun t => 3 / 2 * (u x t * u y t * u z t * u p t ^ 2)) v.
Proof. intros Hx Hy Hz Hp. split; intros V; (eapply improper0_ext; [|exact V]); intros t Ht; cbv beta; unfold u; rt x t Hx; rt y t Hy; rt z t Hz; rewrite pow_inv, pow2_sqrt by lra; field; lra. Qed.
Lemma k_mono x n : 0 < x -> (1 <= n)%nat -> improper0 (fun t => u x t ^ (n + 2)) (2 / INR n * (/ sqrt x) ^ n).
Proof.
  intros Hx Hn. assert (HN : 0 < INR n) by (apply lt_0_INR; lia). pose proof (improper0_scal _ 2 _ (mono x n 0 Hx Hn)) as M. rewrite pow_inv. assert (sqrt x ^ n <> 0) by (apply pow_nonzero, Rgt_not_eq, sqrt_lt_R0, Hx).
  replace (2 / INR n * / sqrt x ^ n) with (2 * (/ INR (n + 2 * 0) / sqrt x ^ n)) by (replace (n + 2 * 0)%nat with n by lia; field; split; [assumption|lra]). eapply improper0_ext; [|exact M]. intros t Ht. cbv beta. cbn [pow]. field.
Qed.
(** All the integrals that occur are combinations of the known ones and of boundary terms. *)
Ltac comb3 H1 c1 H2 c2 H3 c3 := pose proof (improper0_plus _ _ _ _ (improper0_plus _ _ _ _ (improper0_scal _ c1 _ H1) (improper0_scal _ c2 _ H2)) (improper0_scal _ c3 _ H3)).
Lemma J5 x y z F D : 0 < x -> 0 <= y -> 0 <= z -> x <> y -> x <> z -> carlson_RF x y z F -> carlson_RD y z x D ->
  improper0 (fun t => u x t ^ 5 * (u y t * u z t)) (- (2 / 3) * (F + 2 / 3 * (y + z - 2 * x) * D - sqrt y * sqrt z * (/ sqrt x) ^ 3) / ((x - y) * (x - z))).
Proof.
  intros Hx Hy Hz Nxy Nxz VF VD. apply (proj1 (k_RF x y z F ltac:(lra) ltac:(lra) ltac:(lra))) in VF. apply (proj1 (k_RJ y z x x D ltac:(lra) ltac:(lra) ltac:(lra) ltac:(lra))) in VD. set (c := - (2 / 3) / ((x - y) * (x - z))). pose proof (boundary y z x x 3 0 Hy Hz Hx Hx ltac:(lia)) as VB.
  pose proof (improper0_plus _ _ _ _ (improper0_plus _ _ _ _ (improper0_scal _ c _ VF) (improper0_scal _ (c * (2 / 3 * (y + z - 2 * x))) _ VD)) (improper0_scal _ c _ VB)) as V.
  match type of V with improper0 ?f ?v => replace (- (2 / 3) * (F + 2 / 3 * (y + z - 2 * x) * D - sqrt y * sqrt z * (/ sqrt x) ^ 3) / ((x - y) * (x - z))) with v end.
  - eapply improper0_ext; [|exact V]. intros t Ht. cbv beta. unfold bf', bf, c, u. cbn [pow INR]. rt x t Hx. rt y t Hy. rt z t Hz. set (a := sqrt (t + x)) in *. set (b := sqrt (t + y)) in *. set (d := sqrt (t + z)) in *. clearbody a b d.
    assert (x = a * a - t) as Ex by lra. assert (y = b * b - t) as Ey by lra. assert (z = d * d - t) as Ez by lra. assert (N1 : a * a - t - (b * b - t) <> 0) by lra. assert (N2 : a * a - t - (d * d - t) <> 0) by lra. rewrite Ex, Ey, Ez. field. repeat split; lra.
  - unfold c. cbn [pow]. unfold Rdiv. ring.
Qed.
Lemma J6 x z C : 0 < x -> 0 <= z -> x <> z -> carlson_RC z x C ->
  improper0 (fun t => u x t ^ 6 * u z t) (- (1 / 4) * ((5 * x - 2 * z) * sqrt z / x ^ 2 - 3 * C) / (x - z) ^ 2).
Proof.
  intros Hx Hz N VC. apply (proj1 (k_RC z x C ltac:(lra) ltac:(lra))) in VC. set (c := - (1 / 4) / (x - z) ^ 2). pose proof (boundary x z x x 3 0 ltac:(lra) Hz Hx Hx ltac:(lia)) as V3. pose proof (boundary x z x x 5 0 ltac:(lra) Hz Hx Hx ltac:(lia)) as V5.
  pose proof (improper0_plus _ _ _ _ (improper0_plus _ _ _ _ (improper0_scal _ (c * - 3) _ VC) (improper0_scal _ (c * - 3) _ V3)) (improper0_scal _ (c * (- 2 * (x - z))) _ V5)) as V.
  match type of V with improper0 ?f ?v => replace (- (1 / 4) * ((5 * x - 2 * z) * sqrt z / x ^ 2 - 3 * C) / (x - z) ^ 2) with v end.
  - eapply improper0_ext; [|exact V]. intros t Ht. cbv beta. unfold bf', bf, c, u. cbn [pow INR]. rt x t Hx. rt z t Hz. set (a := sqrt (t + x)) in *. set (d := sqrt (t + z)) in *. clearbody a d.
    assert (x = a * a - t) as Ex by lra. assert (z = d * d - t) as Ez by lra. assert (N2 : a * a - t - (d * d - t) <> 0) by lra. rewrite Ex, Ez. field. repeat split; lra.
  - unfold c. assert (Ps : 0 < sqrt x) by (apply sqrt_lt_R0, Hx). assert (Qs : x = sqrt x * sqrt x) by (symmetry; apply sqrt_sqrt; lra). set (s := sqrt x) in *. clearbody s. set (w := sqrt z). clearbody w. assert (N2 : s * s - z <> 0) by lra. rewrite Qs. cbn [pow]. field. repeat split; lra.
Qed.
Lemma J7 x : 0 < x -> improper0 (fun t => u x t ^ 7) (2 / 5 * (/ sqrt x) ^ 5).
Proof. intros Hx. pose proof (k_mono x 5 Hx ltac:(lia)) as V. cbn [Nat.add INR] in V. replace (1 + 1 + 1 + 1 + 1) with 5 in V by ring. exact V. Qed.
Lemma J2 x y z p F D J : 0 <= x -> 0 <= y -> 0 < z -> 0 < p -> p <> x -> p <> y -> p <> z -> carlson_RF x y z F -> carlson_RD x y z D -> carlson_RJ x y z p J ->
  improper0 (fun t => u p t ^ 4 * (u x t * u y t * u z t))
    (- (1 / 3) * (3 * (/ (p - x) * / (p - y) * / (p - z)) * (p * F - (z * F - (x - z) * (y - z) * D / 3 + sqrt x * sqrt y / sqrt z) + sqrt x * sqrt y * sqrt z / p) - (/ (p - x) + / (p - y) + / (p - z)) * J)).
Proof.
  intros Hx Hy Hz Hp Nx Ny Nz VF VD VJ. apply (proj1 (k_RF x y z F ltac:(lra) ltac:(lra) ltac:(lra))) in VF. apply (proj1 (k_RJ x y z z D ltac:(lra) ltac:(lra) ltac:(lra) ltac:(lra))) in VD. apply (proj1 (k_RJ x y z p J ltac:(lra) ltac:(lra) ltac:(lra) ltac:(lra))) in VJ. set (q := / (p - x) * / (p - y) * / (p - z)). set (r := / (p - x) + / (p - y) + / (p - z)).
  pose proof (boundary x y z p 1 2 Hx Hy Hz Hp ltac:(lia)) as VB.
  pose proof (improper0_plus _ _ _ _ (improper0_plus _ _ _ _ (improper0_scal _ (- q * (p - z)) _ VF) (improper0_scal _ (- q * ((x - z) * (y - z) / 3)) _ VD)) (improper0_plus _ _ _ _ (improper0_scal _ (q * (z - p)) _ VB) (improper0_scal _ (r / 3) _ VJ))) as V.
  match type of V with improper0 ?f ?v => match goal with |- improper0 _ ?g => replace g with v end end.
  - eapply improper0_ext; [|exact V]. intros t Ht. cbv beta. unfold bf', bf, q, r, u. cbn [pow INR]. rt x t Hx. rt y t Hy. rt z t Hz. rt p t Hp. set (a := sqrt (t + x)) in *. set (b := sqrt (t + y)) in *. set (d := sqrt (t + z)) in *. set (e := sqrt (t + p)) in *. clearbody a b d e.
    assert (x = a * a - t) as Ex by lra. assert (y = b * b - t) as Ey by lra. assert (z = d * d - t) as Ez by lra. assert (p = e * e - t) as Ep by lra. assert (N1 : e * e - t - (a * a - t) <> 0) by lra. assert (N2 : e * e - t - (b * b - t) <> 0) by lra. assert (N3 : e * e - t - (d * d - t) <> 0) by lra.
    rewrite Ex, Ey, Ez, Ep. field. repeat split; lra.
  - fold q r. assert (Ps : 0 < sqrt z) by (apply sqrt_lt_R0, Hz). assert (Qs : z = sqrt z * sqrt z) by (symmetry; apply sqrt_sqrt; lra). assert (Pp : 0 < sqrt p) by (apply sqrt_lt_R0, Hp). assert (Qp : p = sqrt p * sqrt p) by (symmetry; apply sqrt_sqrt; lra).
    clearbody q r. set (s := sqrt z) in *. set (w := sqrt p) in *. set (a := sqrt x). set (b := sqrt y). clearbody s w a b. rewrite Qs, Qp. cbn [pow]. field. lra.
Qed.
Lemma JC4 x y C : 0 <= x -> 0 < y -> x <> y -> carlson_RC x y C -> improper0 (fun t => u y t ^ 4 * u x t) (- (C - sqrt x / y) / (x - y)).
Proof.
  intros Hx Hy N VC. apply (proj1 (k_RC x y C ltac:(lra) ltac:(lra))) in VC. pose proof (boundary x y y y 3 0 Hx ltac:(lra) Hy Hy ltac:(lia)) as VB. pose proof (improper0_plus _ _ _ _ (improper0_scal _ (- / (x - y)) _ VC) (improper0_scal _ (- / (x - y)) _ VB)) as V.
  match type of V with improper0 ?f ?v => match goal with |- improper0 _ ?g => replace g with v end end.
  - eapply improper0_ext; [|exact V]. intros t Ht. cbv beta. unfold bf', bf, u. cbn [pow INR]. rt x t Hx. rt y t Hy. set (a := sqrt (t + x)) in *. set (b := sqrt (t + y)) in *. clearbody a b.
    assert (x = a * a - t) as Ex by lra. assert (y = b * b - t) as Ey by lra. assert (N1 : a * a - t - (b * b - t) <> 0) by lra. rewrite Ex, Ey. field. repeat split; lra.
  - assert (Ps : 0 < sqrt y) by (apply sqrt_lt_R0, Hy). assert (Qs : y = sqrt y * sqrt y) by (symmetry; apply sqrt_sqrt; lra). set (s := sqrt y) in *. set (a := sqrt x). clearbody s a. assert (N1 : x - s * s <> 0) by lra. rewrite Qs. cbn [pow]. field. split; lra.
Qed.
Lemma JC3 x y C : 0 < x -> 0 < y -> x <> y -> carlson_RC x y C -> improper0 (fun t => u x t ^ 3 * u y t ^ 2) (2 * (/ sqrt x - C) / (y - x)).
Proof.
  intros Hx Hy N VC. apply (proj1 (k_RC x y C ltac:(lra) ltac:(lra))) in VC. pose proof (k_mono x 1 Hx ltac:(lia)) as VB. pose proof (improper0_plus _ _ _ _ (improper0_scal _ (- 2 / (y - x)) _ VC) (improper0_scal _ (/ (y - x)) _ VB)) as V.
  match type of V with improper0 ?f ?v => match goal with |- improper0 _ ?g => replace g with v end end.
  - eapply improper0_ext; [|exact V]. intros t Ht. cbv beta. unfold u. cbn [pow INR Nat.add]. rt x t Hx. rt y t Hy. set (a := sqrt (t + x)) in *. set (b := sqrt (t + y)) in *. clearbody a b.
    assert (x = a * a - t) as Ex by lra. assert (y = b * b - t) as Ey by lra. assert (N1 : b * b - t - (a * a - t) <> 0) by lra. rewrite Ex, Ey. field. repeat split; lra.
  - cbn [pow INR]. field. split; [apply Rgt_not_eq, sqrt_lt_R0, Hx|lra].
Qed.
(** 1/((t+x)(t+p)) by partial fractions *)
Lemma JPF x y z p D J : 0 < x -> 0 <= y -> 0 <= z -> 0 < p -> x <> p -> carlson_RD y z x D -> carlson_RJ x y z p J -> improper0 (fun t => u x t ^ 3 * (u y t * u z t * u p t ^ 2)) (2 / 3 * (D - J) / (p - x)).
Proof.
  intros Hx Hy Hz Hp N VD VJ. apply (proj1 (k_RJ y z x x D ltac:(lra) ltac:(lra) ltac:(lra) ltac:(lra))) in VD. apply (proj1 (k_RJ x y z p J ltac:(lra) ltac:(lra) ltac:(lra) ltac:(lra))) in VJ. pose proof (improper0_plus _ _ _ _ (improper0_scal _ (2 / 3 / (p - x)) _ VD) (improper0_scal _ (- (2 / 3) / (p - x)) _ VJ)) as V.
  match type of V with improper0 ?f ?v => match goal with |- improper0 _ ?g => replace g with v by (field; lra) end end.
  eapply improper0_ext; [|exact V]. intros t Ht. cbv beta. unfold u. cbn [pow]. rt x t Hx. rt y t Hy. rt z t Hz. rt p t Hp. set (a := sqrt (t + x)) in *. set (b := sqrt (t + y)) in *. set (d := sqrt (t + z)) in *. set (e := sqrt (t + p)) in *. clearbody a b d e.
  assert (x = a * a - t) as Ex by lra. assert (p = e * e - t) as Ep by lra. assert (N1 : e * e - t - (a * a - t) <> 0) by lra. rewrite Ex, Ep. field. repeat split; lra.
Qed.
(** ** R_G *)
Section RG.
Variables (x y : R).
Hypothesis Hx : 0 <= x. Hypothesis Hy : 0 <= y.
Definition r1 (t : R) : R := t / 4 * (u x t * u y t) * (x * u x t ^ 2 + y * u y t ^ 2).
Definition r2 (t : R) : R := t / 4 * (u x t * u y t).
Lemma txy t : 0 < t -> 0 <= t * (u x t * u y t) <= 1.
Proof.
  intros Ht. unfold u. rt x t Hx. rt y t Hy. assert (ST : 0 < sqrt t) by (apply sqrt_lt_R0, Ht). assert (L1 : sqrt t <= sqrt (t + x)) by (apply sqrt_le_1_alt; lra). assert (L2 : sqrt t <= sqrt (t + y)) by (apply sqrt_le_1_alt; lra).
  assert (L3 : t <= sqrt (t + x) * sqrt (t + y)) by (rewrite <- (sqrt_sqrt t) at 1 by lra; apply Rmult_le_compat; lra). rewrite <- Rinv_mult. assert (Pp : 0 < sqrt (t + x) * sqrt (t + y)) by (apply Rmult_lt_0_compat; assumption). split.
  - apply Rmult_le_pos; [lra|left; apply Rinv_0_lt_compat, Pp].
  - apply Rmult_le_reg_r with (sqrt (t + x) * sqrt (t + y)); [exact Pp|]. rewrite Rmult_assoc, Rinv_l by lra. lra.
Qed.
Lemma xu2 a t : 0 <= a -> 0 < t -> 0 <= a * u a t ^ 2 <= 1.
Proof.
  intros Ha Ht. unfold u. rewrite pow_inv, pow2_sqrt by lra. split; [apply Rmult_le_pos; [lra|left; apply Rinv_0_lt_compat; lra]|]. apply Rmult_le_reg_r with (t + a); [lra|]. rewrite Rmult_assoc, Rinv_l by lra. lra.
Qed.
Lemma r2_pos t : 0 < t -> 0 <= r2 t <= 1.
Proof. intros Ht. pose proof (txy t Ht). unfold r2. lra. Qed.
Lemma r1_pos t : 0 < t -> 0 <= r1 t <= 1.
Proof.
  intros Ht. pose proof (txy t Ht) as T. pose proof (xu2 x t Hx Ht) as X. pose proof (xu2 y t Hy Ht) as Y. unfold r1. set (w := t * (u x t * u y t)) in *. replace (t / 4 * (u x t * u y t)) with (w / 4) by (unfold w; field). set (b := x * u x t ^ 2) in *. set (c := y * u y t ^ 2) in *. clearbody w b c. nra.
Qed.
Lemma r_cont t : 0 < t -> continuous r1 t /\ continuous r2 t.
Proof.
  intros Ht. split; [apply (ex_derive_continuous r1)|apply (ex_derive_continuous r2)]; unfold r1, r2, u; auto_derive; repeat split; try lra; apply Rgt_not_eq, sqrt_lt_R0; lra.
Qed.
Lemma dom_r z n (r : R -> R) : 0 < z -> (1 <= n)%nat -> (forall t, 0 < t -> continuous r t) -> (forall t, 0 < t -> 0 <= r t <= 1) -> exists v, improper0 (fun t => u z t ^ (n + 2) * r t) v.
Proof.
  intros Hz Hn Cr Br. apply (dom_exists z n 1 _ Hz Hn ltac:(lra)).
  - intros t Ht. apply (continuous_mult (fun t => u z t ^ (n + 2)) r); [apply pow_cont, u_cont; lra|apply Cr, Ht].
  - intros t Ht. pose proof (u_pos z t Hz Ht) as P. assert (0 < u z t ^ (n + 2)) by (apply pow_lt, P). specialize (Br t Ht). nra.
Qed.
Lemma RG_boundary z : 0 < z -> improper0 (fun t => - (1 / 2) * (u z t ^ 3 * r1 t) + 1 / 2 * (u z t ^ 3 * r2 t) - 3 / 2 * z * (u z t ^ 5 * r2 t)) 0.
Proof.
  intros Hz. replace 0 with (0 - 0) by ring. apply improper0_derive with (F := fun t => - (t / 4 * (t * (u x t * u y t)) * u z t ^ 3)).
  - intros t Ht. rt x t Hx. rt y t Hy. rt z t Hz. unfold r1, r2, u. auto_derive.
    + repeat split; try lra.
    + set (a := sqrt (t + x)) in *. set (b := sqrt (t + y)) in *. set (d := sqrt (t + z)) in *. clearbody a b d. assert (x = a * a - t) as Ex by lra. assert (y = b * b - t) as Ey by lra. assert (z = d * d - t) as Ez by lra. rewrite Ex, Ey, Ez. field. repeat split; lra.
  - intros t Ht. destruct (r_cont t Ht) as (C1 & C2).
    apply (continuous_minus (fun t => - (1 / 2) * (u z t ^ 3 * r1 t) + 1 / 2 * (u z t ^ 3 * r2 t)) (fun t => 3 / 2 * z * (u z t ^ 5 * r2 t))); [apply (continuous_plus (fun t => - (1 / 2) * (u z t ^ 3 * r1 t)) (fun t => 1 / 2 * (u z t ^ 3 * r2 t)))|].
    + apply (continuous_scal_r (- (1 / 2)) (fun t => u z t ^ 3 * r1 t)), (continuous_mult (fun t => u z t ^ 3) r1); [apply pow_cont, u_cont; lra|exact C1].
    + apply (continuous_scal_r (1 / 2) (fun t => u z t ^ 3 * r2 t)), (continuous_mult (fun t => u z t ^ 3) r2); [apply pow_cont, u_cont; lra|exact C2].
    + apply (continuous_scal_r (3 / 2 * z) (fun t => u z t ^ 5 * r2 t)), (continuous_mult (fun t => u z t ^ 5) r2); [apply pow_cont, u_cont; lra|exact C2].
  - apply lim0_close with (G := fun _ => 0) (C := (/ sqrt z) ^ 3); [intros e He; exists 1; split; [lra|]; intros; rewrite Rminus_diag_eq, Rabs_R0 by reflexivity; exact He|].
    intros t Ht. pose proof (txy t Ht) as T. pose proof (u_pos z t Hz Ht) as P. assert (P3 : 0 < u z t ^ 3) by (apply pow_lt, P). assert (L : u z t ^ 3 <= (/ sqrt z) ^ 3). { apply pow_incr. split; [lra|]. unfold u. apply Rinv_le_contravar; [apply sqrt_lt_R0, Hz|apply sqrt_le_1_alt; lra]. }
    set (w := t * (u x t * u y t)) in *. rewrite Rminus_0_r, Rabs_Ropp, Rabs_right by (apply Rle_ge, Rmult_le_pos; [apply Rmult_le_pos|]; lra). replace (t / 4 * w * u z t ^ 3) with (u z t ^ 3 * (t * (w / 4))) by field. replace ((/ sqrt z) ^ 3 * t) with ((/ sqrt z) ^ 3 * (t * 1)) by ring.
    apply Rmult_le_compat; [lra|apply Rmult_le_pos; lra|exact L|apply Rmult_le_compat_l; lra].
  - apply (limoo_0 _ 1). intros t Ht. pose proof (txy t ltac:(lra)) as T. pose proof (u_le_t z t ltac:(lra) Ht) as (P & L). set (w := t * (u x t * u y t)) in *. assert (P3 : 0 < u z t ^ 3) by (apply pow_lt, P). assert (L3 : u z t ^ 3 <= (/ sqrt t) ^ 3) by (apply pow_incr; lra).
    rewrite Rabs_Ropp, Rabs_right by (apply Rle_ge, Rmult_le_pos; [apply Rmult_le_pos|]; lra). assert (ST : 0 < sqrt t) by (apply sqrt_lt_R0; lra). assert (E : t * (/ sqrt t) ^ 3 = / sqrt t) by (replace t with (sqrt t * sqrt t) at 1 by (apply sqrt_sqrt; lra); field; lra).
    apply Rle_trans with (1 * (t * (/ sqrt t) ^ 3)); [|rewrite E; lra]. replace (t / 4 * w * u z t ^ 3) with (w / 4 * (t * u z t ^ 3)) by field. apply Rmult_le_compat; [lra|apply Rmult_le_pos; lra|lra|]. apply Rmult_le_compat_l; lra.
Qed.
Lemma dRG (F D G : R -> R) z0 : 0 < z0 -> (forall z, 0 < z -> carlson_RF x y z (F z)) -> (forall z, 0 < z -> carlson_RD x y z (D z)) -> (forall z, 0 < z -> carlson_RG x y z (G z)) -> is_derive G z0 ((3 * F z0 - z0 * D z0) / 12).
Proof.
  intros Hz VF VD VG. set (I2 := fun z => F z / 2 - z * D z / 6).
  assert (V2 : forall z, 0 < z -> improper0 (fun t => u z t ^ 3 * r2 t) (I2 z)).
  { intros z Pz. pose proof (proj1 (k_RF x y z _ Hx Hy ltac:(lra)) (VF z Pz)) as A. pose proof (proj1 (k_RJ x y z z _ Hx Hy ltac:(lra) Pz) (VD z Pz)) as B. pose proof (improper0_plus _ _ _ _ (improper0_scal _ (/ 2) _ A) (improper0_scal _ (- z / 6) _ B)) as V.
    replace (I2 z) with (/ 2 * F z + - z / 6 * D z) by (unfold I2; field). eapply improper0_ext; [|exact V]. intros t Ht. cbv beta. unfold r2, u. rt x t Hx. rt y t Hy. rt z t Pz. set (a := sqrt (t + x)) in *. set (b := sqrt (t + y)) in *. set (d := sqrt (t + z)) in *. clearbody a b d. assert (z = d * d - t) as Ez by lra. rewrite Ez. field. repeat split; lra. }
  assert (V1 : forall z, 0 < z -> improper0 (fun t => u z t ^ 1 * r1 t) (G z - z * I2 z)).
  { intros z Pz. pose proof (improper0_plus _ _ _ _ (VG z Pz) (improper0_scal _ (- z) _ (V2 z Pz))) as V. replace (G z - z * I2 z) with (G z + - z * I2 z) by ring. eapply improper0_ext; [|exact V]. intros t Ht. cbv beta. unfold r1, r2, u. rt x t Hx. rt y t Hy. rt z t Pz.
    set (a := sqrt (t + x)) in *. set (b := sqrt (t + y)) in *. set (d := sqrt (t + z)) in *. clearbody a b d. rewrite Q, Q0, Q1. field. repeat split; lra. }
  destruct (dom_r z0 1 r1 Hz ltac:(lia) (fun t Ht => proj1 (r_cont t Ht)) r1_pos) as (A & VA). destruct (dom_r z0 3 r2 Hz ltac:(lia) (fun t Ht => proj2 (r_cont t Ht)) r2_pos) as (B & VB).
  pose proof (param_u 1 r1 _ z0 A (or_introl eq_refl) Hz (fun t Ht => proj1 (r1_pos t Ht)) V1 VA) as D1. pose proof (param_u 3 r2 _ z0 B (or_intror (or_intror eq_refl)) Hz (fun t Ht => proj1 (r2_pos t Ht)) V2 VB) as D2.
  assert (Rel : - (1 / 2) * A + 1 / 2 * I2 z0 + - (3 / 2 * z0) * B = 0).
  { eapply improper0_unique; [|apply (RG_boundary z0 Hz)]. eapply improper0_ext; [|apply improper0_plus; [apply improper0_plus; [apply improper0_scal, VA|apply improper0_scal, (V2 z0 Hz)]|apply improper0_scal, VB]]. intros t Ht. cbv beta. cbn [Nat.add]. ring. }
  apply (is_derive_ext (fun z => (G z - z * I2 z) + z * I2 z)); [intros; req; ring|]. assert (D3 : is_derive (fun z => z * I2 z) z0 (1 * I2 z0 + z0 * (- (INR 3 / 2) * B))) by (apply (is_derive_mult (fun z => z) I2 z0 1 (- (INR 3 / 2) * B)); [auto_derive; [exact I|reflexivity]|exact D2|intros; apply Rmult_comm]).
  evar_last; [apply (is_derive_plus (fun z => G z - z * I2 z) (fun z => z * I2 z) z0 _ _ D1 D3)|].
  unfold plus, mult; cbn. unfold I2 in *. req. replace ((3 * F z0 - z0 * D z0) / 12) with ((F z0 / 2 - z0 * D z0 / 6) / 2) by field. lra.
Qed.
End RG.
(** ** The other derivatives *)
Lemma prod_nonneg a b t : 0 <= a -> 0 <= b -> 0 < t -> 0 < u a t * u b t.
Proof. intros Ha Hb Ht. unfold u. apply Rmult_lt_0_compat; apply Rinv_0_lt_compat, sqrt_lt_R0; lra. Qed.
Lemma dRF y z (F : R -> R) x0 D : 0 < x0 -> 0 <= y -> 0 <= z -> (forall x, 0 < x -> carlson_RF x y z (F x)) -> carlson_RD y z x0 D -> is_derive F x0 (D / -6).
Proof.
  intros Hx Hy Hz VF VD. apply (proj1 (k_RJ y z x0 x0 D Hy Hz ltac:(lra) Hx)) in VD. evar_last; [apply (param_u 1 (fun t => / 2 * (u y t * u z t)) F x0 (/ 3 * D) (or_introl eq_refl) Hx)|].
  - intros t Ht. pose proof (prod_nonneg y z t Hy Hz Ht). lra.
  - intros x Px. eapply improper0_ext; [|apply (proj1 (k_RF x y z _ ltac:(lra) Hy Hz) (VF x Px))]. intros t Ht. cbv beta. ring.
  - eapply improper0_ext; [|apply improper0_scal, VD]. intros t Ht. cbv beta. cbn [Nat.add pow]. field.
  - cbn [INR]. req. field.
Qed.
Lemma dRC_x y (F : R -> R) x0 K : 0 < x0 -> 0 < y -> (forall x, 0 < x -> carlson_RC x y (F x)) -> improper0 (fun t => u x0 t ^ 3 * u y t ^ 2) K -> is_derive F x0 (- K / 4).
Proof.
  intros Hx Hy VF VK. evar_last; [apply (param_u 1 (fun t => / 2 * u y t ^ 2) F x0 (/ 2 * K) (or_introl eq_refl) Hx)|].
  - intros t Ht. pose proof (u_pos y t Hy Ht). nra.
  - intros x Px. eapply improper0_ext; [|apply (proj1 (k_RC x y _ ltac:(lra) Hy) (VF x Px))]. intros t Ht. cbv beta. ring.
  - eapply improper0_ext; [|apply improper0_scal, VK]. intros t Ht. cbv beta. cbn [Nat.add pow]. field.
  - cbn [INR]. req. field.
Qed.
Lemma dRC_y x (F : R -> R) y0 K : 0 <= x -> 0 < y0 -> (forall y, 0 < y -> carlson_RC x y (F y)) -> improper0 (fun t => u y0 t ^ 4 * u x t) K -> is_derive F y0 (- K / 2).
Proof.
  intros Hx Hy VF VK. evar_last; [apply (param_u 2 (fun t => / 2 * u x t) F y0 (/ 2 * K) (or_intror (or_introl eq_refl)) Hy)|].
  - intros t Ht. assert (0 < u x t) by (unfold u; apply Rinv_0_lt_compat, sqrt_lt_R0; lra). lra.
  - intros y Py. eapply improper0_ext; [|apply (proj1 (k_RC x y _ Hx Py) (VF y Py))]. intros t Ht. cbv beta. ring.
  - eapply improper0_ext; [|apply improper0_scal, VK]. intros t Ht. cbv beta. cbn [Nat.add pow]. field.
  - cbn [INR]. req. field.
Qed.
Lemma dRJ_x y z p (F : R -> R) x0 K : 0 < x0 -> 0 <= y -> 0 <= z -> 0 < p -> (forall x, 0 < x -> carlson_RJ x y z p (F x)) -> improper0 (fun t => u x0 t ^ 3 * (u y t * u z t * u p t ^ 2)) K -> is_derive F x0 (- (3 / 4) * K).
Proof.
  intros Hx Hy Hz Hp VF VK. evar_last; [apply (param_u 1 (fun t => 3 / 2 * (u y t * u z t * u p t ^ 2)) F x0 (3 / 2 * K) (or_introl eq_refl) Hx)|].
  - intros t Ht. pose proof (prod_nonneg y z t Hy Hz Ht). pose proof (u_pos p t Hp Ht). assert (0 < u p t ^ 2) by (apply pow_lt; assumption). nra.
  - intros x Px. eapply improper0_ext; [|apply (proj1 (k_RJ x y z p _ ltac:(lra) Hy Hz Hp) (VF x Px))]. intros t Ht. cbv beta. ring.
  - eapply improper0_ext; [|apply improper0_scal, VK]. intros t Ht. cbv beta. cbn [Nat.add]. ring.
  - cbn [INR]. req. field.
Qed.
Lemma dRJ_p x y z (F : R -> R) p0 K : 0 <= x -> 0 <= y -> 0 <= z -> 0 < p0 -> (forall p, 0 < p -> carlson_RJ x y z p (F p)) -> improper0 (fun t => u p0 t ^ 4 * (u x t * u y t * u z t)) K -> is_derive F p0 (- (3 / 2) * K).
Proof.
  intros Hx Hy Hz Hp VF VK. evar_last; [apply (param_u 2 (fun t => 3 / 2 * (u x t * u y t * u z t)) F p0 (3 / 2 * K) (or_intror (or_introl eq_refl)) Hp)|].
  - intros t Ht. pose proof (prod_nonneg x y t Hx Hy Ht). assert (0 < u z t) by (unfold u; apply Rinv_0_lt_compat, sqrt_lt_R0; lra). nra.
  - intros p Pp. eapply improper0_ext; [|apply (proj1 (k_RJ x y z p _ Hx Hy Hz Pp) (VF p Pp))]. intros t Ht. cbv beta. ring.
  - eapply improper0_ext; [|apply improper0_scal, VK]. intros t Ht. cbv beta. cbn [Nat.add]. ring.
  - cbn [INR]. req. field.
Qed.
Lemma dRD_z x y (F : R -> R) z0 K : 0 <= x -> 0 <= y -> 0 < z0 -> (forall z, 0 < z -> carlson_RD x y z (F z)) -> improper0 (fun t => u z0 t ^ 5 * (u x t * u y t)) K -> is_derive F z0 (- (9 / 4) * K).
Proof.
  intros Hx Hy Hz VF VK. evar_last; [apply (param_u 3 (fun t => 3 / 2 * (u x t * u y t)) F z0 (3 / 2 * K) (or_intror (or_intror eq_refl)) Hz)|].
  - intros t Ht. pose proof (prod_nonneg x y t Hx Hy Ht). lra.
  - intros z Pz. eapply improper0_ext; [|apply (proj1 (k_RJ x y z z _ Hx Hy ltac:(lra) Pz) (VF z Pz))]. intros t Ht. cbv beta. ring.
  - eapply improper0_ext; [|apply improper0_scal, VK]. intros t Ht. cbv beta. cbn [Nat.add]. ring.
  - cbn [INR]. req. field.
Qed.
(** Existence with a zero among the first three arguments *)
Lemma RJ_exists0 x y z p : one0 x y z -> 0 < p -> exists v, carlson_RJ x y z p v.
Proof.
  intros H Hp. pose proof (lam_pos x y z H) as L. destruct H as (Hx & Hy & Hz & Hxy & Hxz & Hyz). destruct (RJ_exists ((x + Ellipr.lam x y z) / 4) ((y + Ellipr.lam x y z) / 4) ((z + Ellipr.lam x y z) / 4) ((p + Ellipr.lam x y z) / 4) ltac:(lra) ltac:(lra) ltac:(lra) ltac:(lra)) as (v & V).
  eexists. eapply dup_RJ; try eassumption.
Qed.
