(** * The duplication loops: invariants, termination, value of the result *)
From Coq Require Import Reals Lra Lia Psatz Bool.
From Coquelicot Require Import Rcomplements Rbar Hierarchy Continuity Derive RInt RInt_analysis AutoDerive ElemFct.
From Verif Require Import EllipSpec Improper Ellipr CarlsonDup CarlsonTail.
Open Scope R_scope.

(** ** While loops *)
Fixpoint iter {St} (n : nat) (f : St -> St) (s : St) : St := match n with O => s | S k => iter k f (f s) end.
Lemma iter_S {St} n (f : St -> St) s : iter (S n) f s = f (iter n f s).
Proof. revert s. induction n as [|n IH]; intros s; [reflexivity|]. cbn [iter] in *. apply IH. Qed.
Lemma while_some {St} fuel (c : St -> bool) f s s' : while fuel c f s = Some s' -> c s' = false /\ exists n, (n <= fuel)%nat /\ s' = iter n f s /\ forall k, (k < n)%nat -> c (iter k f s) = true.
Proof.
  revert s. induction fuel as [|fuel IH]; intros s; cbn; destruct (c s) eqn:E; intros H; try discriminate.
  - injection H as <-. split; [exact E|]. exists O. split; [lia|]. split; [reflexivity|]. intros k Hk. lia.
  - apply IH in H as (H1 & n & Hn & -> & Hk). split; [exact H1|]. exists (S n). split; [lia|]. split; [reflexivity|]. intros [|k] Lk; [exact E|]. cbn. apply Hk. lia.
  - injection H as <-. split; [exact E|]. exists O. split; [lia|]. split; [reflexivity|]. intros k Hk. lia.
Qed.
Lemma while_ends {St} n (c : St -> bool) f s : c (iter n f s) = false -> exists s', forall fuel, (n <= fuel)%nat -> while fuel c f s = Some s'.
Proof.
  revert s. induction n as [|n IH]; intros s H; cbn in H.
  - exists s. intros fuel _. destruct fuel; cbn; rewrite H; reflexivity.
  - destruct (c s) eqn:E.
    + destruct (IH _ H) as (s' & Hs). exists s'. intros [|fuel] Hf; [lia|]. cbn. rewrite E. apply Hs. lia.
    + exists s. intros [|fuel] Hf; cbn; rewrite E; reflexivity.
Qed.
Lemma gtb_true a b : gtb a b = true <-> b < a.
Proof. unfold gtb. destruct (Rlt_dec b a); split; intros; try assumption; try reflexivity; [discriminate|contradiction]. Qed.
Lemma gtb_false a b : gtb a b = false <-> a <= b.
Proof. unfold gtb. destruct (Rlt_dec b a); split; intros; try reflexivity; try lra; discriminate. Qed.
Lemma geb_true a b : geb a b = true <-> b <= a.
Proof. unfold geb. destruct (Rle_dec b a); split; intros; try assumption; try reflexivity; [discriminate|contradiction]. Qed.
Lemma geb_false a b : geb a b = false <-> a < b.
Proof. unfold geb. destruct (Rle_dec b a); split; intros; try reflexivity; try lra; discriminate. Qed.
Lemma isz_false x : isz x = false <-> x <> 0.
Proof. unfold isz, eqb. destruct (Req_EM_T x 0); split; intros; try reflexivity; try assumption; [discriminate|contradiction]. Qed.
Lemma isz_true x : isz x = true <-> x = 0.
Proof. unfold isz, eqb. destruct (Req_EM_T x 0); split; intros; try reflexivity; try assumption; [discriminate|contradiction]. Qed.
Lemma eqb_true x y : eqb x y = true <-> x = y.
Proof. unfold eqb. destruct (Req_EM_T x y); split; intros; try reflexivity; try assumption; [discriminate|contradiction]. Qed.
Lemma eqb_false x y : eqb x y = false <-> x <> y.
Proof. unfold eqb. destruct (Req_EM_T x y); split; intros; try reflexivity; try assumption; [discriminate|contradiction]. Qed.

(** ** Existence of the integrals *)
Lemma kern_le m x y z t : 0 < m -> m <= x -> m <= y -> m <= z -> 0 < t -> kern x y z t <= u m t ^ 3.
Proof.
  intros Hm Hx Hy Hz Ht. unfold kern, u. rewrite pow_inv. assert (P : 0 < sqrt (t + m)) by (apply sqrt_lt_R0; lra).
  assert (L : forall a, m <= a -> sqrt (t + m) <= sqrt (t + a)) by (intros a Ha; apply sqrt_le_1_alt; lra).
  apply Rinv_le_contravar; [apply pow_lt, P|]. replace (sqrt (t + m) ^ 3) with (sqrt (t + m) * sqrt (t + m) * sqrt (t + m)) by ring.
  repeat apply Rmult_le_compat; try (apply Rlt_le, P); try (apply L; assumption). apply Rmult_le_pos; apply Rlt_le, P.
Qed.
Lemma u_pos m t : 0 < m -> 0 < t -> 0 < u m t.
Proof. intros. unfold u. apply Rinv_0_lt_compat, sqrt_lt_R0. lra. Qed.
Lemma dom_exists m n c (f : R -> R) : 0 < m -> (1 <= n)%nat -> 0 <= c -> (forall t, 0 < t -> continuous f t) -> (forall t, 0 < t -> 0 <= f t <= c * u m t ^ (n + 2)) -> exists v, improper0 f v.
Proof.
  intros Hm Hn Hc Cf Bf. assert (PN : 0 < INR n) by (apply lt_0_INR; lia). apply improper0_exists with (g := fun t => c * u m t ^ (n + 2)) (G := fun t => - (2 * c / INR n) * u m t ^ n) (B := 2 * c / INR n * (/ sqrt m) ^ n); try assumption.
  - intros t Ht. assert (ST : 0 < sqrt (t + m)) by (apply sqrt_lt_R0; lra).
    assert (D : is_derive (u m) t (- / 2 * u m t ^ 3)). { unfold u. auto_derive; [repeat split; lra|]. field. lra. }
    assert (D2 : is_derive (fun t => u m t ^ n) t (INR n * u m t ^ (pred n) * (- / 2 * u m t ^ 3))). { evar_last; [apply (is_derive_pow (u m) n t), D|]. ring. }
    evar_last; [apply (is_derive_scal (fun t => u m t ^ n)), D2|]. assert (EN : (n + 2 = pred n + 3)%nat) by lia. rewrite EN, pow_add. unfold scal; cbn; unfold mult; cbn. field. lra.
  - intros t Ht. assert (ST : 0 < sqrt (t + m)) by (apply sqrt_lt_R0; lra). apply (ex_derive_continuous (fun t => c * u m t ^ (n + 2)) t). unfold u. auto_derive. repeat split; lra.
  - intros t Ht. assert (SM : 0 < sqrt m) by (apply sqrt_lt_R0; lra). assert (S2 : sqrt m <= sqrt (t + m)) by (apply sqrt_le_1_alt; lra). assert (C0 : 0 <= 2 * c / INR n) by (apply Rmult_le_pos; [lra|left; apply Rinv_0_lt_compat, PN]).
    pose proof (u_pos m t Hm Ht) as U0. rewrite Rabs_mult, Rabs_Ropp, (Rabs_right (2 * c / INR n)) by lra. apply Rmult_le_compat_l; [exact C0|]. rewrite Rabs_right by (apply Rle_ge, pow_le; lra).
    apply pow_incr. split; [lra|]. unfold u. apply Rinv_le_contravar; assumption.
Qed.
Lemma RF_exists x y z : 0 < x -> 0 < y -> 0 < z -> exists v, carlson_RF x y z v.
Proof.
  intros Hx Hy Hz. set (m := Rmin x (Rmin y z)). assert (Hm : 0 < m) by (unfold m; repeat apply Rmin_glb_lt; assumption).
  assert (m <= x /\ m <= y /\ m <= z) as (A & B & C) by (unfold m; pose proof (Rmin_l x (Rmin y z)); pose proof (Rmin_r x (Rmin y z)); pose proof (Rmin_l y z); pose proof (Rmin_r y z); lra). clearbody m.
  destruct (dom_exists m 1 (/ 2) (fun t => kern x y z t * / 2) Hm ltac:(lia) ltac:(lra)) as (v & V).
  - intros t Ht. apply (continuous_mult (K := R_AbsRing) (kern x y z) (fun _ => / 2)); [apply kern_cont; lra|apply continuous_const].
  - intros t Ht. pose proof (kern_le m x y z t Hm A B C Ht) as L. pose proof (kern_pos x y z t ltac:(lra) ltac:(lra) ltac:(lra) Ht) as P. change (1 + 2)%nat with 3%nat. lra.
  - exists v. eapply improper0_ext; [|exact V]. intros t Ht. cbn beta. unfold kern. field. repeat split; apply Rgt_not_eq, sqrt_lt_R0; lra.
Qed.
Lemma RJ_exists x y z p : 0 < x -> 0 < y -> 0 < z -> 0 < p -> exists v, carlson_RJ x y z p v.
Proof.
  intros Hx Hy Hz Hp. set (m := Rmin (Rmin x p) (Rmin y z)). assert (Hm : 0 < m) by (unfold m; repeat apply Rmin_glb_lt; assumption).
  assert (m <= x /\ m <= y /\ m <= z /\ m <= p) as (A & B & C & D) by (unfold m; pose proof (Rmin_l (Rmin x p) (Rmin y z)); pose proof (Rmin_r (Rmin x p) (Rmin y z)); pose proof (Rmin_l y z); pose proof (Rmin_r y z); pose proof (Rmin_l x p); pose proof (Rmin_r x p); lra). clearbody m.
  destruct (dom_exists m 3 (3 / 2) (fun t => kern x y z t * (3 / 2 * / (t + p))) Hm ltac:(lia) ltac:(lra)) as (v & V).
  - intros t Ht. apply (continuous_mult (K := R_AbsRing) (kern x y z) (fun t => 3 / 2 * / (t + p))); [apply kern_cont; lra|]. apply (continuous_scal_r (3 / 2) (fun t => / (t + p))), cont_inv_lin; lra.
  - intros t Ht. pose proof (kern_le m x y z t Hm A B C Ht) as L. pose proof (kern_pos x y z t ltac:(lra) ltac:(lra) ltac:(lra) Ht) as P. assert (I0 : 0 < / (t + p)) by (apply Rinv_0_lt_compat; lra).
    assert (I1 : / (t + p) <= u m t ^ 2) by (unfold u; rewrite pow_inv, pow2_sqrt by lra; apply Rinv_le_contravar; lra). change (3 + 2)%nat with 5%nat. replace (u m t ^ 5) with (u m t ^ 3 * u m t ^ 2) by ring.
    assert (kern x y z t * / (t + p) <= u m t ^ 3 * u m t ^ 2) by (apply Rmult_le_compat; lra). split; [|lra]. apply Rmult_le_pos; lra.
  - exists v. eapply improper0_ext; [|exact V]. intros t Ht. cbn beta. unfold kern. field. repeat split; try lra; apply Rgt_not_eq, sqrt_lt_R0; lra.
Qed.
Lemma improper0_nonneg f v : (forall t, 0 < t -> 0 <= f t) -> improper0 f v -> 0 <= v.
Proof.
  intros F V. apply improper0_le with (f := fun t => 0 * f t) (g := f); [intros t Ht; rewrite Rmult_0_l; apply F, Ht| |exact V]. pose proof (improper0_scal f 0 v V) as W. rewrite Rmult_0_l in W. exact W.
Qed.

(** ** lambda *)
Lemma lam_ge m x y z : 0 <= m -> m <= x -> m <= y -> m <= z -> 3 * m <= lam x y z.
Proof.
  intros Hm Hx Hy Hz. unfold lam. assert (Q : sqrt m * sqrt m = m) by (apply sqrt_sqrt, Hm). pose proof (sqrt_pos m) as P. assert (A : sqrt m <= sqrt x) by (apply sqrt_le_1_alt, Hx). assert (B : sqrt m <= sqrt y) by (apply sqrt_le_1_alt, Hy). assert (C : sqrt m <= sqrt z) by (apply sqrt_le_1_alt, Hz).
  assert (m <= sqrt x * sqrt y) by (rewrite <- Q; apply Rmult_le_compat; lra). assert (m <= sqrt x * sqrt z) by (rewrite <- Q; apply Rmult_le_compat; lra). assert (m <= sqrt y * sqrt z) by (rewrite <- Q; apply Rmult_le_compat; lra). lra.
Qed.
(** at most one of three numbers that are not negative is zero *)
Definition one0 (x y z : R) : Prop := 0 <= x /\ 0 <= y /\ 0 <= z /\ 0 < x + y /\ 0 < x + z /\ 0 < y + z.
Lemma lam_pos x y z : one0 x y z -> 0 < lam x y z.
Proof.
  intros (X & Y & Z & XY & XZ & YZ). unfold lam. pose proof (sqrt_pos x). pose proof (sqrt_pos y). pose proof (sqrt_pos z).
  destruct (Rle_lt_or_eq_dec 0 x X) as [PX|<-]; [destruct (Rle_lt_or_eq_dec 0 y Y) as [PY|<-]|].
  - apply sqrt_lt_R0 in PX. apply sqrt_lt_R0 in PY. nra.
  - assert (PZ : 0 < z) by lra. apply sqrt_lt_R0 in PX. apply sqrt_lt_R0 in PZ. nra.
  - assert (PZ : 0 < z) by lra. assert (PY : 0 < y) by lra. apply sqrt_lt_R0 in PY. apply sqrt_lt_R0 in PZ. nra.
Qed.

(** ** The condition of the loops *)
Lemma exit_bound e pw A Mx d : 0 < e -> 0 < A -> 0 <= pw -> pw * (Rpower e (- 1 / 6) * Mx) <= A -> Rabs d <= Mx -> Rabs (d * (pw / A)) <= Rpower e (1 / 6) .
Proof.
  intros He HA Hp HQ Hd. rewrite Rabs_mult. assert (PA : 0 <= pw / A) by (apply Rmult_le_pos; [exact Hp|left; apply Rinv_0_lt_compat, HA]). rewrite (Rabs_right (pw / A)) by lra.
  apply Rle_trans with (Mx * (pw / A)); [apply Rmult_le_compat_r; assumption|]. assert (E : Rpower e (- 1 / 6) = / Rpower e (1 / 6)) by (rewrite <- Rpower_Ropp; f_equal; field). assert (PP : 0 < Rpower e (1 / 6)) by (unfold Rpower; apply exp_pos).
  rewrite E in HQ. apply Rmult_le_reg_r with (A * / Rpower e (1 / 6)); [apply Rmult_lt_0_compat; [exact HA|apply Rinv_0_lt_compat, PP]|].
  replace (Mx * (pw / A) * (A * / Rpower e (1 / 6))) with (pw * (/ Rpower e (1 / 6) * Mx)) by (field; lra). replace (Rpower e (1 / 6) * (A * / Rpower e (1 / 6))) with A by (field; lra). exact HQ.
Qed.
Lemma root6 e : 0 < e -> Rpower e (1 / 6) ^ 6 = e.
Proof. intros He. rewrite <- Rpower_pow by (unfold Rpower; apply exp_pos). rewrite Rpower_mult. replace (1 / 6 * INR 6) with 1 by (cbn; field). apply Rpower_1, He. Qed.
Lemma root6_le e c : 0 < e -> 0 < c -> e <= c ^ 6 -> Rpower e (1 / 6) <= c.
Proof.
  intros He Hc H. assert (P : 0 < Rpower e (1 / 6)) by (unfold Rpower; apply exp_pos). destruct (Rle_dec (Rpower e (1 / 6)) c) as [L|N]; [exact L|]. exfalso.
  assert (L : c < Rpower e (1 / 6)) by lra. pose proof (root6 e He) as E. set (r := Rpower e (1 / 6)) in *. clearbody r.
  assert (c ^ 6 < r ^ 6) by (apply Rlt_le_trans with (r * c ^ 5); [replace (c ^ 6) with (c * c ^ 5) by ring; apply Rmult_lt_compat_r; [apply pow_lt, Hc|exact L]|replace (r ^ 6) with (r * r ^ 5) by ring; apply Rmult_le_compat_l; [lra|apply pow_incr; lra]]). lra.
Qed.
Lemma quarter_small Q m : 0 < m -> 0 <= Q -> exists n, forall k, (n <= k)%nat -> (/ 4) ^ k * Q < m.
Proof.
  intros Hm HQ. assert (Pq : 0 < m / (Q + 1)) by (apply Rdiv_lt_0_compat; lra). destruct (pow_lt_1_zero (/ 4) ltac:(rewrite Rabs_right; lra) _ Pq) as (n & Hn). exists n. intros k Hk. specialize (Hn k Hk).
  assert (P4 : 0 < (/ 4) ^ k) by (apply pow_lt; lra). rewrite Rabs_right in Hn by lra. apply Rle_lt_trans with ((/ 4) ^ k * (Q + 1)); [apply Rmult_le_compat_l; lra|]. apply Rmult_lt_reg_r with (/ (Q + 1)); [apply Rinv_0_lt_compat; lra|].
  rewrite Rmult_assoc, Rinv_r, Rmult_1_r by lra. exact Hn.
Qed.

(** ** The loop of elliprf and elliprd *)
Section Loop.
Variables (x y z A0 : R) (add : st -> R).
Hypothesis H1 : one0 x y z.
Let s0 := mkst x y z A0 1 0.
Definition at_ (n : nat) : st := iter n (step add) s0.
Lemma at_S n : at_ (S n) = step add (at_ n).
Proof. unfold at_. apply iter_S. Qed.
Lemma at_pow n : pow4 (at_ n) = (/ 4) ^ n.
Proof. induction n as [|n IH]; [reflexivity|]. rewrite at_S. unfold step; cbn [pow4]. rewrite IH. cbn [pow]. field. Qed.
Lemma at_dev n : Am (at_ n) - xm (at_ n) = (A0 - x) * (/ 4) ^ n /\ Am (at_ n) - ym (at_ n) = (A0 - y) * (/ 4) ^ n /\ Am (at_ n) - zm (at_ n) = (A0 - z) * (/ 4) ^ n.
Proof.
  induction n as [|n (IX & IY & IZ)]; [cbn; repeat split; ring|]. rewrite at_S. unfold step; cbn [Am xm ym zm pow]. repeat split; lra.
Qed.
Lemma at_one0 n : one0 (xm (at_ n)) (ym (at_ n)) (zm (at_ n)).
Proof.
  induction n as [|n IH]; [exact H1|]. rewrite at_S. unfold step; cbn [xm ym zm]. pose proof (lam_pos _ _ _ IH) as P. destruct IH as (X & Y & Z & _). unfold one0. repeat split; lra.
Qed.
Lemma at_min n : (1 <= n)%nat -> lam x y z / 4 <= xm (at_ n) /\ lam x y z / 4 <= ym (at_ n) /\ lam x y z / 4 <= zm (at_ n).
Proof.
  intros Hn. destruct n as [|n]; [lia|]. clear Hn. pose proof (lam_pos _ _ _ H1) as P. induction n as [|n (IX & IY & IZ)].
  - destruct H1 as (X & Y & Z & _). rewrite at_S. unfold step; cbn. repeat split; lra.
  - rewrite at_S. unfold step; cbn [xm ym zm]. pose proof (lam_ge (lam x y z / 4) _ _ _ ltac:(lra) IX IY IZ). repeat split; lra.
Qed.
(** the mean of the arguments, with the weights of A0 *)
Variables (a b c : R).
Hypothesis Hw : 0 < a /\ 0 < b /\ 0 < c /\ a + b + c = 1.
Hypothesis HA0 : A0 = a * x + b * y + c * z.
Lemma at_mean n : Am (at_ n) = a * xm (at_ n) + b * ym (at_ n) + c * zm (at_ n).
Proof.
  destruct (at_dev n) as (X & Y & Z). destruct Hw as (_ & _ & _ & W). replace (xm (at_ n)) with (Am (at_ n) - (A0 - x) * (/ 4) ^ n) by lra. replace (ym (at_ n)) with (Am (at_ n) - (A0 - y) * (/ 4) ^ n) by lra. replace (zm (at_ n)) with (Am (at_ n) - (A0 - z) * (/ 4) ^ n) by lra.
  set (q := (/ 4) ^ n). set (m := Am (at_ n)). replace (a * (m - (A0 - x) * q) + b * (m - (A0 - y) * q) + c * (m - (A0 - z) * q)) with ((a + b + c) * m - ((a + b + c) * A0 - (a * x + b * y + c * z)) * q) by ring. rewrite W, <- HA0. ring.
Qed.
Lemma at_Am_pos n : 0 < Am (at_ n).
Proof. rewrite at_mean. destruct (at_one0 n) as (X & Y & Z & XY & XZ & YZ). destruct Hw as (A & B & C & _). pose proof (Rmult_le_pos _ _ (Rlt_le _ _ A) X). pose proof (Rmult_le_pos _ _ (Rlt_le _ _ B) Y). pose proof (Rmult_le_pos _ _ (Rlt_le _ _ C) Z).
  destruct (Rlt_dec 0 (xm (at_ n))) as [PX|NX]; [pose proof (Rmult_lt_0_compat _ _ A PX); lra|]. assert (PY : 0 < ym (at_ n)) by lra. pose proof (Rmult_lt_0_compat _ _ B PY). lra. Qed.
Lemma at_Am_ge n : (1 <= n)%nat -> lam x y z / 4 <= Am (at_ n).
Proof. intros Hn. rewrite at_mean. destruct (at_min n Hn) as (X & Y & Z). destruct Hw as (A & B & C & W). pose proof (lam_pos _ _ _ H1). assert (a = 1 - b - c) as -> by lra. nra. Qed.
(** the loop ends *)
Lemma loop_ends Q : 0 <= Q ->
  exists N n, (forall fuel, (N <= fuel)%nat -> while fuel (going Q) (step add) s0 = Some (at_ n)) /\ pow4 (at_ n) * Q <= Am (at_ n).
Proof.
  intros HQ. pose proof (lam_pos _ _ _ H1) as P. destruct (quarter_small Q (lam x y z / 4) ltac:(lra) HQ) as (N & HN).
  assert (E : going Q (at_ (S N)) = false). { unfold going. apply gtb_false. pose proof (at_Am_ge (S N) ltac:(lia)) as G. rewrite Rabs_right by lra. rewrite at_pow. specialize (HN (S N) ltac:(lia)). lra. }
  destruct (while_ends (S N) (going Q) (step add) s0 E) as (s' & W). destruct (while_some _ _ _ _ _ (W _ (le_n _))) as (E' & n & _ & Es & _). exists (S N), n. fold (at_ n) in Es. split; [intros fuel Hf; rewrite <- Es; apply W, Hf|].
  rewrite Es in E'. unfold going in E'. apply gtb_false in E'. pose proof (at_Am_pos n). rewrite Rabs_right in E' by lra. exact E'.
Qed.
End Loop.

(** ** elliprf on three different arguments *)
Lemma step_RF x y z A0 n v : one0 x y z -> carlson_RF (xm (at_ x y z A0 (fun _ => 0) n)) (ym (at_ x y z A0 (fun _ => 0) n)) (zm (at_ x y z A0 (fun _ => 0) n)) v -> carlson_RF x y z v.
Proof.
  intros H1. induction n as [|n IH]; [trivial|]. intros V. apply IH. pose proof (at_one0 x y z A0 (fun _ => 0) H1 n) as (X & Y & Z & _). rewrite at_S in V. unfold step in V; cbn [xm ym zm] in V. apply dup_RF; assumption.
Qed.
Lemma Rmax3 a b c d : Rabs a <= d -> Rabs b <= d -> Rabs c <= d -> Rmax (Rmax (Rabs a) (Rabs b)) (Rabs c) <= d.
Proof. intros. repeat apply Rmax_lub; assumption. Qed.
Lemma Rmax3_1 a b c : a <= Rmax (Rmax a b) c. Proof. eapply Rle_trans; [apply Rmax_l|apply Rmax_l]. Qed.
Lemma Rmax3_2 a b c : b <= Rmax (Rmax a b) c. Proof. eapply Rle_trans; [apply Rmax_r|apply Rmax_l]. Qed.
Lemma Rmax3_3 a b c : c <= Rmax (Rmax a b) c. Proof. apply Rmax_r. Qed.
Lemma Q_of_nonneg e A0 x y z : 0 <= Q_of e A0 x y z.
Proof. unfold Q_of. apply Rmult_le_pos; [left; unfold Rpower; apply exp_pos|]. eapply Rle_trans; [apply (Rabs_pos (A0 - x))|apply Rmax3_1]. Qed.
Lemma EPS_range eps : 0 < eps <= 1 -> 0 < EPS eps <= / 10 ^ 6.
Proof. intros H. unfold EPS. split; [apply Rmult_lt_0_compat; [lra|apply Rinv_0_lt_compat, pow_lt; lra]|]. rewrite <- (Rmult_1_l (/ 10 ^ 6)) at 2. apply Rmult_le_compat_r; [left; apply Rinv_0_lt_compat, pow_lt; lra|lra]. Qed.
Lemma rf_main eps x y z : 0 < eps <= 1 -> one0 x y z -> x <> y -> x <> z -> y <> z ->
  exists r v, (exists N, forall fuel, (N <= fuel)%nat -> elliprf eps fuel x y z = Some (Num r)) /\ carlson_RF x y z v /\ 0 < v /\ Rabs (r - v) <= 3 / 10 * EPS eps * v.
Proof.
  intros He H1 XY XZ YZ. set (A0 := (x + y + z) / 3). pose proof (EPS_range eps He) as Ee.
  destruct (loop_ends x y z A0 (fun _ => 0) H1 (/ 3) (/ 3) (/ 3) ltac:(lra) ltac:(unfold A0; field) (Q_of (EPS eps * 3) A0 x y z) (Q_of_nonneg _ _ _ _ _)) as (N & n & W & E).
  assert (W' : forall fuel, (N <= fuel)%nat -> elliprf eps fuel x y z = Some (Num (tail_rf ((A0 - x) * (pow4 (at_ x y z A0 (fun _ => 0) n) / Am (at_ x y z A0 (fun _ => 0) n))) ((A0 - y) * (pow4 (at_ x y z A0 (fun _ => 0) n) / Am (at_ x y z A0 (fun _ => 0) n))) (Am (at_ x y z A0 (fun _ => 0) n))))).
  { intros fuel Hf. unfold elliprf. rewrite (proj2 (eqb_false y z) YZ), (proj2 (eqb_false x z) XZ), (proj2 (eqb_false x y) XY). fold A0. rewrite (W fuel Hf). reflexivity. }
  clear W.
  pose proof (at_Am_pos x y z A0 (fun _ => 0) H1 (/ 3) (/ 3) (/ 3) ltac:(lra) ltac:(unfold A0; field) n) as PA. pose proof (at_pow x y z A0 (fun _ => 0) n) as Pw. destruct (at_dev x y z A0 (fun _ => 0) n) as (DX & DY & DZ). pose proof (fun v => step_RF x y z A0 n v H1) as Vn.
  set (s := at_ x y z A0 (fun _ => 0) n) in *. clearbody s. assert (P4 : 0 < pow4 s) by (rewrite Pw; apply pow_lt; lra). rewrite <- Pw in DX, DY, DZ.
  set (M := Rpower (EPS eps * 3) (1 / 6)). assert (M4 : M <= 1 / 4) by (apply root6_le; lra). assert (M6 : M ^ 6 = EPS eps * 3) by (apply root6; lra).
  assert (BX : Rabs ((A0 - x) * (pow4 s / Am s)) <= M) by (apply (fun a b d => exit_bound (EPS eps * 3) (pow4 s) (Am s) _ d a PA b E); [lra|lra|]; apply Rmax3_1). assert (BY : Rabs ((A0 - y) * (pow4 s / Am s)) <= M) by (apply (fun a b d => exit_bound (EPS eps * 3) (pow4 s) (Am s) _ d a PA b E); [lra|lra|]; apply Rmax3_2).
  assert (BZ : Rabs ((A0 - z) * (pow4 s / Am s)) <= M) by (apply (fun a b d => exit_bound (EPS eps * 3) (pow4 s) (Am s) _ d a PA b E); [lra|lra|]; apply Rmax3_3).
  assert (SZ : (A0 - x) * (pow4 s / Am s) + (A0 - y) * (pow4 s / Am s) + (A0 - z) * (pow4 s / Am s) = 0) by (unfold A0; field; lra).
  assert (RX : xm s = Am s * (1 - (A0 - x) * (pow4 s / Am s))) by (replace (xm s) with (Am s - (A0 - x) * pow4 s) by lra; field; lra). assert (RY : ym s = Am s * (1 - (A0 - y) * (pow4 s / Am s))) by (replace (ym s) with (Am s - (A0 - y) * pow4 s) by lra; field; lra).
  assert (RZ : zm s = Am s * (1 - (A0 - z) * (pow4 s / Am s))) by (replace (zm s) with (Am s - (A0 - z) * pow4 s) by lra; field; lra).
  set (X := (A0 - x) * (pow4 s / Am s)) in *. set (Y := (A0 - y) * (pow4 s / Am s)) in *. set (Z := (A0 - z) * (pow4 s / Am s)) in *. clearbody X Y Z.
  destruct (RF_exists (xm s) (ym s) (zm s)) as (v & V); [rewrite RX|rewrite RY|rewrite RZ|]; [apply Rmult_lt_0_compat; [exact PA|apply abs_le_pow in BX; apply abs_le_pow in BY; apply abs_le_pow in BZ; lra]..|].
  exists (tail_rf X Y (Am s)), v. split; [exists N; exact W'|]. split; [apply Vn, V|]. rewrite RX, RY, RZ in V. destruct (tail_RF _ _ _ _ M v PA SZ BX BY BZ M4 V) as [B Pv]. split; [exact Pv|]. rewrite M6 in B. eapply Rle_trans; [exact B|]. apply Req_le. field.
Qed.

(** ** elliprc *)
Definition same (s s' : st) : Prop := xm s = xm s' /\ ym s = ym s' /\ zm s' = ym s' /\ Am s = Am s' /\ pow4 s = pow4 s' /\ 0 <= ym s'.
Lemma same_step s s' : same s s' -> 0 <= xm s' -> same (step_rc s) (step (fun _ => 0) s').
Proof.
  intros (X & Y & Z & A & P & N) Hx. unfold same, step_rc, step; cbn [xm ym zm Am pow4]. rewrite X, Y, Z, A, P.
  assert (L : 2 * sqrt (xm s') * sqrt (ym s') + ym s' = lam (xm s') (ym s') (ym s')). { unfold lam. rewrite (sqrt_sqrt _ N). ring. } rewrite L. pose proof (lam_nonneg (xm s') (ym s') (ym s')). repeat split; try reflexivity. lra.
Qed.
Lemma same_while x y A0 Q : one0 x y y -> forall fuel n s, same s (at_ x y y A0 (fun _ => 0) n) ->
  match while fuel (going Q) step_rc s, while fuel (going Q) (step (fun _ => 0)) (at_ x y y A0 (fun _ => 0) n) with Some a, Some b => same a b | None, None => True | _, _ => False end.
Proof.
  intros H1. induction fuel as [|fuel IH]; intros n s E; cbn [while]; assert (G : going Q s = going Q (at_ x y y A0 (fun _ => 0) n)) by (destruct E as (_ & _ & _ & A & P & _); unfold going; rewrite A, P; reflexivity); rewrite G; destruct (going Q (at_ x y y A0 (fun _ => 0) n)); try exact I; try exact E.
  rewrite <- at_S. apply IH. rewrite at_S. apply same_step; [exact E|]. apply (at_one0 x y y A0 (fun _ => 0) H1 n).
Qed.
Lemma RC_RF x y v : 0 <= x -> 0 < y -> carlson_RC x y v <-> carlson_RF x y y v.
Proof.
  intros Hx Hy. assert (E : forall t, 0 < t -> 1 / (2 * (sqrt (t + x) * (t + y))) = 1 / (2 * (sqrt (t + x) * sqrt (t + y) * sqrt (t + y)))).
  { intros t Ht. rewrite (Rmult_assoc (sqrt (t + x))), sqrt_sqrt by lra. reflexivity. }
  split; intros V; (eapply improper0_ext; [|exact V]); intros t Ht; cbn beta; [apply E|symmetry; apply E]; exact Ht.
Qed.
Lemma rc_main eps x y : 0 < eps <= 1 -> 0 < x -> 0 < y ->
  exists r v, (exists N, forall fuel, (N <= fuel)%nat -> elliprc_pos eps fuel x y = Some (Num r)) /\ carlson_RC x y v /\ 0 < v /\ Rabs (r - v) <= 3 / 10 * EPS eps * v.
Proof.
  intros He Hx Hy. set (A0 := (x + y + y) / 3). pose proof (EPS_range eps He) as Ee. assert (H1 : one0 x y y) by (unfold one0; lra).
  set (Q := Rpower (3 * EPS eps) (- 1 / 6) * Rabs (A0 - x)). assert (HQ : 0 <= Q) by (apply Rmult_le_pos; [left; unfold Rpower; apply exp_pos|apply Rabs_pos]).
  destruct (loop_ends x y y A0 (fun _ => 0) H1 (/ 3) (/ 3) (/ 3) ltac:(lra) ltac:(unfold A0; field) Q HQ) as (N & n & W & E).
  assert (W' : forall fuel, (N <= fuel)%nat -> elliprc_pos eps fuel x y = Some (Num (tail_rc ((y - A0) * pow4 (at_ x y y A0 (fun _ => 0) n) / Am (at_ x y y A0 (fun _ => 0) n)) (Am (at_ x y y A0 (fun _ => 0) n))))).
  { intros fuel Hf. specialize (W fuel Hf). unfold elliprc_pos. rewrite (proj2 (isz_false y) ltac:(lra)), (proj2 (isz_false x) ltac:(lra)). fold A0. fold Q.
  assert (S0 : same (mkst x y 0 A0 1 0) (at_ x y y A0 (fun _ => 0) 0)) by (unfold same; cbn; repeat split; lra). pose proof (same_while x y A0 Q H1 fuel 0 _ S0) as Sm. change (at_ x y y A0 (fun _ => 0) 0) with (mkst x y y A0 1 0) in Sm. rewrite W in Sm.
  destruct (while fuel (going Q) step_rc (mkst x y 0 A0 1 0)) as [s1|]; [|contradiction]. destruct Sm as (_ & _ & _ & EA & EP & _). rewrite EA, EP. reflexivity. }
  clear W.
  pose proof (at_Am_pos x y y A0 (fun _ => 0) H1 (/ 3) (/ 3) (/ 3) ltac:(lra) ltac:(unfold A0; field) n) as PA. pose proof (at_pow x y y A0 (fun _ => 0) n) as Pw. destruct (at_dev x y y A0 (fun _ => 0) n) as (DX & DY & DZ). pose proof (fun v => step_RF x y y A0 n v H1) as Vn.
  set (s := at_ x y y A0 (fun _ => 0) n) in *. clearbody s. assert (P4 : 0 < pow4 s) by (rewrite Pw; apply pow_lt; lra). rewrite <- Pw in DX, DY, DZ.
  set (M := Rpower (3 * EPS eps) (1 / 6)). assert (M4 : M <= 1 / 4) by (apply root6_le; lra). assert (M6 : M ^ 6 = 3 * EPS eps) by (apply root6; lra).
  assert (BX : Rabs ((A0 - x) * (pow4 s / Am s)) <= M) by (apply (fun a b d => exit_bound (3 * EPS eps) (pow4 s) (Am s) _ d a PA b E); [lra|lra|]; apply Rle_refl).
  set (g := (y - A0) * pow4 s / Am s) in *. assert (EX : (A0 - x) * (pow4 s / Am s) = 2 * g) by (unfold g, A0; field; lra). rewrite EX in BX.
  assert (Bg : Rabs g <= M / 2) by (rewrite Rabs_mult, (Rabs_right 2) in BX by lra; lra).
  assert (RX : xm s = Am s * (1 - 2 * g)) by (rewrite <- EX; replace (xm s) with (Am s - (A0 - x) * pow4 s) by lra; field; lra). assert (RY : ym s = Am s * (1 + g)) by (replace (ym s) with (Am s - (A0 - y) * pow4 s) by lra; unfold g; field; lra).
  assert (RZ : zm s = Am s * (1 + g)) by (replace (zm s) with (Am s - (A0 - y) * pow4 s) by lra; unfold g; field; lra). clearbody g. pose proof (abs_le_pow _ _ Bg) as (M0 & Bg').
  destruct (RF_exists (xm s) (ym s) (zm s)) as (v & V); [rewrite RX|rewrite RY|rewrite RZ|]; [apply Rmult_lt_0_compat; lra..|].
  exists (tail_rc g (Am s)), v. split; [exists N; exact W'|]. split; [apply RC_RF; [lra|exact Hy|]; apply Vn, V|]. rewrite RX, RY, RZ in V. destruct (tail_RC (Am s) g v PA ltac:(lra) V) as [B Pv]. split; [exact Pv|]. eapply Rle_trans; [exact B|]. apply Rmult_le_compat_r; [lra|].
  assert (G6 : Rabs g ^ 6 <= 3 * EPS eps / 64). { replace (3 * EPS eps / 64) with ((M / 2) ^ 6) by (replace ((M / 2) ^ 6) with (M ^ 6 / 64) by field; rewrite M6; reflexivity). apply pow_incr. split; [apply Rabs_pos|exact Bg]. }
  assert (G2 : 0 <= Rabs g ^ 2 <= / 64) by (pose proof (Rabs_pos g); nra). assert (E8 : g ^ 8 = Rabs g ^ 6 * Rabs g ^ 2). { rewrite <- (Rabs_right (g ^ 8)) by (apply Rle_ge, (even_pow g 4)). rewrite <- RPow_abs. ring. }
  rewrite E8. assert (Rabs g ^ 6 * Rabs g ^ 2 <= 3 * EPS eps / 64 * / 64) by (apply Rmult_le_compat; try lra; apply pow_le, Rabs_pos). lra.
Qed.
