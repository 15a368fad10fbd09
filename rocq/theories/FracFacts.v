(** * Facts about [limit_denominator] *)
From Coq Require Import ZArith QArith Qcanon Qabs List Lia Znumtheory.
From Verif Require Import Frac.
Import ListNotations.
Open Scope Z_scope.

Lemma fden_pos x : 0 < fden x.
Proof. unfold fden; lia. Qed.

Lemma f_coprime x : Z.gcd (fnum x) (fden x) = 1.
Proof.
  unfold fnum, fden. destruct x as [[n d] H]; simpl in *.
  pose proof (Qred_identity2 (n # d) H) as Hg. exact Hg.
Qed.

Lemma qc_ext (x y : Qc) : fnum x * fden y = fnum y * fden x -> x = y.
Proof. intros H. apply Qc_is_canon. unfold Qeq. exact H. Qed.

(** Reduced form of [frac p q]. *)
Lemma frac_spec p q : 0 < q ->
  fnum (frac p q) * q = p * fden (frac p q).
Proof.
  intros Hq. unfold frac, fnum, fden. cbn [this Q2Qc].
  pose proof (Qred_correct (p # Z.to_pos q)) as H. unfold Qeq in H.
  cbn [Qnum Qden] in H. rewrite Z2Pos.id in H by exact Hq. exact H.
Qed.

Lemma frac_den_divides p q : 0 < q -> (fden (frac p q) | q).
Proof.
  intros Hq. apply Gauss with (b := fnum (frac p q)).
  - exists p. rewrite (frac_spec p q Hq). reflexivity.
  - apply Zgcd_1_rel_prime. rewrite Z.gcd_comm. apply f_coprime.
Qed.

Lemma frac_den_le p q : 0 < q -> fden (frac p q) <= q.
Proof. intros Hq. apply Z.divide_pos_le; [exact Hq|apply frac_den_divides, Hq]. Qed.

Lemma frac_Qeq p q : 0 < q -> (frac p q == p # Z.to_pos q)%Q.
Proof. intros Hq. unfold frac. cbn [this Q2Qc]. apply Qred_correct. Qed.

Lemma frac_id x : frac (fnum x) (fden x) = x.
Proof.
  apply qc_ext. rewrite frac_spec by apply fden_pos. reflexivity.
Qed.

Lemma frac_eq p q x : 0 < q -> fnum x * q = p * fden x -> frac p q = x.
Proof.
  intros Hq H. apply qc_ext.
  pose proof (frac_spec p q Hq) as Hs. pose proof (fden_pos x). pose proof (fden_pos (frac p q)).
  apply Z.mul_reg_r with q; [lia|].
  transitivity (fnum (frac p q) * q * fden x); [ring|]. rewrite Hs.
  transitivity (fnum x * q * fden (frac p q)); [rewrite H; ring|ring].
Qed.

(** ** Loop invariant *)

Record inv (N D M p0 q0 p1 q1 n d : Z) : Prop := {
  inv_N : N = p1 * n + p0 * d;
  inv_D : D = q1 * n + q0 * d;
  inv_det : Z.abs (p1 * q0 - p0 * q1) = 1;
  inv_q1 : 0 <= q1 <= M;
  inv_q0 : 0 <= q0 <= M;
  inv_q01 : 0 < q0 + q1;
  inv_d : 0 < d
}.

Lemma inv_step N D M p0 q0 p1 q1 n d :
  M < D -> Z.gcd N D = 1 ->
  inv N D M p0 q0 p1 q1 n d ->
  (0 <= n \/ q1 = 0) ->
  q0 + n / d * q1 <= M ->
  inv N D M p1 q1 (p0 + n / d * p1) (q0 + n / d * q1) d (n - n / d * d).
Proof.
  intros HM Hg [HN HD Hdet Hq1 Hq0 Hq01 Hd] Hsgn Hq2.
  assert (Hmod : 0 <= n - n / d * d < d)
    by (pose proof (Z.mod_pos_bound n d Hd); pose proof (Z.mod_eq n d); lia).
  assert (Haq : 0 <= n / d * q1).
  { destruct Hsgn as [Hn| ->]; [|lia]. apply Z.mul_nonneg_nonneg; [apply Z.div_pos; lia|lia]. }
  assert (Hpos : 0 < q1 + (q0 + n / d * q1)) by lia.
  constructor; try lia.
  - rewrite HD in HM. rewrite HN, HD in Hg.
    set (a := n / d) in *.
    assert (Hne : n - a * d <> 0).
    { intros H0. assert (Hn : n = a * d) by lia.
      rewrite Hn in Hg, HM.
      assert (HD' : q1 * (a * d) + q0 * d = (q0 + a * q1) * d) by ring.
      rewrite HD' in HM.
      assert (Hd1 : d = 1).
      { assert (Hdiv : (d | Z.gcd (p1 * (a * d) + p0 * d) (q1 * (a * d) + q0 * d))).
        { apply Z.gcd_greatest; [exists (p1 * a + p0); ring|exists (q1 * a + q0); ring]. }
        rewrite Hg in Hdiv. apply Z.divide_1_r_nonneg in Hdiv; lia. }
      rewrite Hd1 in HM. lia. }
    lia.
Qed.


Lemma ld_loop_inv fuel : forall N D M p0 q0 p1 q1 n d,
  1 <= M -> M < D -> Z.gcd N D = 1 ->
  inv N D M p0 q0 p1 q1 n d ->
  (d <= n \/ q1 = 0) ->
  forall r, ld_loop fuel M p0 q0 p1 q1 n d = Some r ->
  let '(p0', q0', p1', q1') := r in
  exists n' d', inv N D M p0' q0' p1' q1' n' d' /\ M < q0' + n' / d' * q1' /\ d' <= n' /\ 0 < q1'.
Proof.
  induction fuel as [|fuel IH]; intros N D M p0 q0 p1 q1 n d H1 HM Hg Hi Hs r Hr; [discriminate|].
  cbn [ld_loop] in Hr.
  destruct (M <? q0 + n / d * q1) eqn:E.
  - injection Hr as <-. apply Z.ltb_lt in E. exists n, d.
    split; [exact Hi|]. split; [exact E|].
    destruct Hi as [HN HD Hdet Hq1 Hq0 Hq01 Hd].
    assert (Hq : q1 <> 0) by (intros ->; lia).
    lia.
  - apply Z.ltb_ge in E.
    assert (Hi' := inv_step N D M p0 q0 p1 q1 n d HM Hg Hi). 
    assert (Hsg : 0 <= n \/ q1 = 0) by (destruct Hs; [left; destruct Hi; lia|right; assumption]).
    specialize (Hi' Hsg E).
    apply (IH N D M _ _ _ _ _ _ H1 HM Hg Hi') with (r := r); [|exact Hr].
    left. destruct Hi as [_ _ _ _ _ _ Hd].
    pose proof (Z.mod_pos_bound n d Hd); pose proof (Z.mod_eq n d); lia.
Qed.

Lemma log2_half a b : 0 < b -> 2 * b <= a -> Z.log2 b + 1 <= Z.log2 a.
Proof.
  intros Hb Hab.
  assert (H := Z.log2_double b Hb).
  assert (H2 := Z.log2_le_mono (2 * b) a Hab). lia.
Qed.

(** Fuel: every two iterations at least halve [d]. *)
Lemma ld_loop_total : forall fuel N D M p0 q0 p1 q1 n d,
  1 <= M -> M < D -> Z.gcd N D = 1 ->
  inv N D M p0 q0 p1 q1 n d ->
  (0 <= n \/ q1 = 0) ->
  (2 * Z.log2 d + 2 <= Z.of_nat fuel \/
   (0 < n - n / d * d -> 2 * Z.log2 (n - n / d * d) + 2 < Z.of_nat fuel) /\ (0 < Z.of_nat fuel)) ->
  ld_loop fuel M p0 q0 p1 q1 n d <> None.
Proof.
  induction fuel as [|fuel IH]; intros N D M p0 q0 p1 q1 n d H1 HM Hg Hi Hs Hf.
  { exfalso. pose proof (Z.log2_nonneg d). destruct Hf as [Hf|[_ Hf]]; lia. }
  cbn [ld_loop]. destruct (M <? q0 + n / d * q1) eqn:E; [discriminate|].
  apply Z.ltb_ge in E.
  pose proof (inv_step N D M p0 q0 p1 q1 n d HM Hg Hi Hs E) as Hi'.
  apply (IH N D M _ _ _ _ _ _ H1 HM Hg Hi').
  { left. destruct Hi; lia. }
  set (d' := n - n / d * d) in *.
  pose proof (inv_d _ _ _ _ _ _ _ _ _ Hi') as Hd'.
  pose proof (inv_d _ _ _ _ _ _ _ _ _ Hi) as Hd.
  assert (Hlt : d' < d) by (unfold d'; pose proof (Z.mod_pos_bound n d Hd); pose proof (Z.mod_eq n d); lia).
  destruct Hf as [Hf|[Hf Hf0]].
  - right. split; [|pose proof (Z.log2_nonneg d); lia]. intros Hd''.
    set (d2 := d - d / d' * d') in *.
    assert (H2 : 2 * d2 <= d).
    { unfold d2 in *. pose proof (Z.mod_pos_bound d d' Hd'). pose proof (Z.mod_eq d d').
      assert (1 <= d / d') by (apply Z.div_le_lower_bound; lia). nia. }
    pose proof (log2_half d d2 Hd'' H2). lia.
  - left. specialize (Hf Hd'). lia.
Qed.

Lemma inv_init N D M : 0 < D -> 1 <= M -> inv N D M 0 1 1 0 N D.
Proof. intros HD HM. constructor; lia. Qed.

Lemma ld_loop_some x M : 1 <= M -> M < fden x ->
  exists p0 q0 p1 q1 n d,
    ld_loop (ld_fuel (fden x)) M 0 1 1 0 (fnum x) (fden x) = Some (p0, q0, p1, q1) /\
    inv (fnum x) (fden x) M p0 q0 p1 q1 n d /\ M < q0 + n / d * q1 /\ d <= n /\ 0 < q1.
Proof.
  intros H1 HM.
  pose proof (inv_init (fnum x) (fden x) M (fden_pos x) H1) as Hi.
  destruct (ld_loop (ld_fuel (fden x)) M 0 1 1 0 (fnum x) (fden x)) as [[[[p0 q0] p1] q1]|] eqn:E.
  - pose proof (ld_loop_inv _ _ _ _ _ _ _ _ _ _ H1 HM (f_coprime x) Hi (or_intror eq_refl) _ E) as H.
    cbn in H. destruct H as (n & d & H). exists p0, q0, p1, q1, n, d. tauto.
  - exfalso. revert E. apply (ld_loop_total _ _ _ _ _ _ _ _ _ _ H1 HM (f_coprime x) Hi (or_intror eq_refl)).
    left. unfold ld_fuel. pose proof (Z.log2_nonneg (fden x)). lia.
Qed.

(** ** Distances, in integers *)

(** [closer N D p q a b]: p/q is at least as close to N/D as a/b. *)
Definition closer (N D p q a b : Z) : Prop := Z.abs (N * q - p * D) * b <= Z.abs (N * b - a * D) * q.

Lemma closer_Qle (x y z : Qc) :
  (Qabs (y - x) <= Qabs (z - x))%Q <-> closer (fnum x) (fden x) (fnum y) (fden y) (fnum z) (fden z).
Proof.
  destruct x as [[N D] Hx], y as [[p q] Hy], z as [[a b] Hz].
  unfold closer, fnum, fden, Qle; simpl.
  rewrite !Pos2Z.inj_mul.
  replace (Z.abs (p * Z.pos D + - N * Z.pos q)) with (Z.abs (N * Z.pos q - p * Z.pos D)) by (rewrite <- Z.abs_opp; f_equal; ring).
  replace (Z.abs (a * Z.pos D + - N * Z.pos b)) with (Z.abs (N * Z.pos b - a * Z.pos D)) by (rewrite <- Z.abs_opp; f_equal; ring).
  split; intros H; nia.
Qed.

Lemma closer_scale_l N D p q a b p' q' :
  0 < q -> 0 < q' -> p * q' = p' * q -> 
  closer N D p q a b -> closer N D p' q' a b.
Proof.
  unfold closer. intros Hq Hq' He H.
  apply Z.mul_le_mono_pos_r with (p := q); [exact Hq|].
  assert (E : Z.abs (N * q' - p' * D) * q = Z.abs (N * q - p * D) * q').
  { rewrite <- (Z.abs_eq q) at 1 by lia. rewrite <- (Z.abs_eq q') at 2 by lia.
    rewrite <- !Z.abs_mul. f_equal.
    replace ((N * q' - p' * D) * q) with (N * q' * q - (p' * q) * D) by ring. rewrite <- He. ring. }
  replace (Z.abs (N * q' - p' * D) * b * q) with (Z.abs (N * q' - p' * D) * q * b) by ring.
  rewrite E. nia.
Qed.

Lemma closer_scale_r N D p q a b a' b' :
  0 < b -> 0 < b' -> a * b' = a' * b -> 
  closer N D p q a b -> closer N D p q a' b'.
Proof.
  unfold closer. intros Hq Hq' He H.
  apply Z.mul_le_mono_pos_r with (p := b); [exact Hq|].
  assert (E : Z.abs (N * b' - a' * D) * b = Z.abs (N * b - a * D) * b').
  { rewrite <- (Z.abs_eq b) at 1 by lia. rewrite <- (Z.abs_eq b') at 2 by lia.
    rewrite <- !Z.abs_mul. f_equal.
    replace ((N * b' - a' * D) * b) with (N * b' * b - (a' * b) * D) by ring. rewrite <- He. ring. }
  replace (Z.abs (N * b' - a' * D) * q * b) with (Z.abs (N * b' - a' * D) * b * q) by ring.
  rewrite E. nia.
Qed.

(** The two final candidates, abstractly: neighbours (determinant +-1) with x = alpha*b2 (+) beta*b1,
    alpha >= beta > 0, and denominators summing to more than M. *)
Record pair (N D M P1 Q1 P2 Q2 al be : Z) : Prop := {
  pr_N : N = al * P2 + be * P1;
  pr_D : D = al * Q2 + be * Q1;
  pr_det : Z.abs (P2 * Q1 - P1 * Q2) = 1;
  pr_Q1 : 0 < Q1 <= M;
  pr_Q2 : 0 < Q2 <= M;
  pr_sum : M < Q1 + Q2;
  pr_be : 0 < be <= al
}.

Lemma exit_pair N D M p0 q0 p1 q1 n d :
  inv N D M p0 q0 p1 q1 n d -> M < q0 + n / d * q1 -> d <= n -> 0 < q1 ->
  let k := (M - q0) / q1 in
  pair N D M (p0 + k * p1) (q0 + k * q1) p1 q1 (n - k * d) d.
Proof.
  intros [HN HD Hdet Hq1 Hq0 Hq01 Hd] Hbr Hn Hq1p k.
  assert (Hk0 : 0 <= k) by (apply Z.div_pos; lia).
  pose proof (Z.mod_pos_bound (M - q0) q1 Hq1p) as Hm1. pose proof (Z.mod_eq (M - q0) q1 ltac:(lia)) as Hm2.
  fold k in Hm2.
  assert (Hka : k < n / d) by nia.
  pose proof (Z.mul_div_le n d Hd) as Hdiv.
  assert (HQ1 : 0 < q0 + k * q1).
  { destruct (Z.eq_dec q0 0) as [->|]; [|nia].
    assert (1 <= k); [|nia]. apply Z.div_le_lower_bound; lia. }
  constructor; try nia.
Qed.

Lemma pair_closest N D M P1 Q1 P2 Q2 al be a b :
  pair N D M P1 Q1 P2 Q2 al be -> 0 < b <= M ->
  closer N D P2 Q2 a b \/ closer N D P1 Q1 a b.
Proof.
  intros [HN HD Hdet HQ1 HQ2 Hsum Hbe] Hb.
  set (e := P2 * Q1 - P1 * Q2) in *.
  assert (He : e * e = 1) by (destruct (Z.abs_spec e) as [[_ H]|[_ H]]; nia).
  set (alpha := e * (a * Q1 - P1 * b)). set (beta := e * (P2 * b - a * Q2)).
  assert (Ha : a = alpha * P2 + beta * P1).
  { unfold alpha, beta. transitivity (e * e * a); [rewrite He; ring|unfold e; ring]. }
  assert (Hbb : b = alpha * Q2 + beta * Q1).
  { unfold alpha, beta. transitivity (e * e * b); [rewrite He; ring|unfold e; ring]. }
  assert (Habse : forall z, Z.abs (e * z) = Z.abs z) by (intros z; rewrite Z.abs_mul, Hdet; lia).
  assert (E2 : Z.abs (N * Q2 - P2 * D) = be).
  { replace (N * Q2 - P2 * D) with (e * (- be)) by (rewrite HN, HD; unfold e; ring).
    rewrite Habse. lia. }
  assert (E1 : Z.abs (N * Q1 - P1 * D) = al).
  { replace (N * Q1 - P1 * D) with (e * al) by (rewrite HN, HD; unfold e; ring).
    rewrite Habse. lia. }
  assert (Eab : Z.abs (N * b - a * D) = Z.abs (al * beta - be * alpha)).
  { replace (N * b - a * D) with (e * (be * alpha - al * beta) * -1).
    2:{ rewrite HN, HD. rewrite Ha, Hbb at 1. unfold e. ring. }
    rewrite Z.abs_mul, Habse. rewrite <- Z.abs_opp. rewrite Z.mul_1_r. f_equal. ring. }
  unfold closer. rewrite E1, E2, Eab.
  clearbody alpha beta. clear Ha E1 E2 Eab Habse HN HD.
  destruct (Z_le_gt_dec beta 0) as [Hbt|Hbt].
  - left. assert (0 < alpha) by nia.
    assert (T1 : al * beta <= 0) by nia. assert (T2 : 0 <= be * alpha) by nia.
    assert (T3 : be * beta * Q1 <= 0) by nia.
    assert (T4 : al * beta * Q2 <= 0) by nia.
    rewrite Z.abs_neq by lia. rewrite Hbb. lia.
  - destruct (Z_le_gt_dec alpha 0) as [Hat|Hat].
    + right.
      assert (T1 : 0 <= al * beta) by nia. assert (T2 : be * alpha <= 0) by nia.
      assert (T3 : be * alpha * Q1 <= 0) by nia.
      assert (T4 : al * alpha * Q2 <= 0) by nia.
      rewrite Z.abs_eq by lia. rewrite Hbb. lia.
    + exfalso. nia.
Qed.

Lemma frac_pos_facts p q : 0 < q -> 0 < fden (frac p q) /\ p * fden (frac p q) = fnum (frac p q) * q.
Proof. intros Hq. split; [apply fden_pos|symmetry; apply frac_spec, Hq]. Qed.

Lemma closer_total N D p q a b : closer N D p q a b \/ closer N D a b p q.
Proof. unfold closer. lia. Qed.

Lemma closer_trans N D p q a b u v : 0 < q -> 0 < b -> 0 < v ->
  closer N D p q a b -> closer N D a b u v -> closer N D p q u v.
Proof.
  unfold closer. intros Hq Hb Hv H1 H2.
  set (A := Z.abs (N * q - p * D)) in *. set (B := Z.abs (N * b - a * D)) in *. set (C := Z.abs (N * v - u * D)) in *.
  apply Z.mul_le_mono_pos_r with (p := b); [exact Hb|].
  apply Z.le_trans with (B * q * v); [nia|nia].
Qed.

(** ** The main facts *)

Lemma limit_id M x : fden x <= M -> limit_denominator M x = x.
Proof. intros H. unfold limit_denominator. apply Z.leb_le in H. rewrite H. reflexivity. Qed.

(** Everything about the rounding case in one place. *)
Lemma limit_round M x : 1 <= M -> M < fden x ->
  exists P1 Q1 P2 Q2 al be, pair (fnum x) (fden x) M P1 Q1 P2 Q2 al be /\
   ((limit_denominator M x = frac P2 Q2 /\ closer (fnum x) (fden x) P2 Q2 P1 Q1) \/
    (limit_denominator M x = frac P1 Q1 /\ closer (fnum x) (fden x) P1 Q1 P2 Q2 /\ ~ closer (fnum x) (fden x) P2 Q2 P1 Q1)).
Proof.
  intros H1 HM. destruct (ld_loop_some x M H1 HM) as (p0 & q0 & p1 & q1 & n & d & E & Hi & Hbr & Hn & Hq).
  pose proof (exit_pair _ _ _ _ _ _ _ _ _ Hi Hbr Hn Hq) as Hp. cbn zeta in Hp.
  do 6 eexists. split; [exact Hp|].
  unfold limit_denominator.
  replace (fden x <=? M) with false by (symmetry; apply Z.leb_gt; lia).
  rewrite E. set (k := (M - q0) / q1) in *.
  destruct (Qle_bool _ _) eqn:EQ.
  - left. split; [reflexivity|].
    apply Qle_bool_iff in EQ. apply closer_Qle in EQ.
    destruct Hp as [_ _ _ HQ1 HQ2 _ _].
    destruct (frac_pos_facts (p0 + k * p1) (q0 + k * q1)) as [A1 A2]; [lia|].
    destruct (frac_pos_facts p1 q1) as [B1 B2]; [lia|].
    eapply closer_scale_l; [exact B1| |symmetry; exact B2|]; [lia|].
    eapply closer_scale_r; [exact A1| |symmetry; exact A2|exact EQ]; lia.
  - right. split; [reflexivity|].
    assert (EQ' : ~ closer (fnum x) (fden x) p1 q1 (p0 + k * p1) (q0 + k * q1)).
    { intros Hc. assert (Hc' : Qle_bool (Qabs (frac p1 q1 - x)) (Qabs (frac (p0 + k * p1) (q0 + k * q1) - x)) = true).
      { apply Qle_bool_iff, closer_Qle. 
        destruct Hp as [_ _ _ HQ1 HQ2 _ _].
        destruct (frac_pos_facts (p0 + k * p1) (q0 + k * q1)) as [A1 A2]; [lia|].
        destruct (frac_pos_facts p1 q1) as [B1 B2]; [lia|].
        eapply closer_scale_l; [|exact B1|exact B2|]; [lia|].
        eapply closer_scale_r; [|exact A1|exact A2|exact Hc]; lia. }
      rewrite Hc' in EQ. discriminate. }
    split; [|exact EQ'].
    destruct (closer_total (fnum x) (fden x) p1 q1 (p0 + k * p1) (q0 + k * q1)); tauto.
Qed.

Lemma limit_den M x : 1 <= M -> fden (limit_denominator M x) <= M.
Proof.
  intros H1. destruct (Z_le_gt_dec (fden x) M) as [H|H].
  - rewrite limit_id; assumption.
  - destruct (limit_round M x H1 ltac:(lia)) as (P1 & Q1 & P2 & Q2 & al & be & Hp & [[-> _]|[-> _]]);
      destruct Hp as [_ _ _ HQ1 HQ2 _ _]; (etransitivity; [apply frac_den_le|]); lia.
Qed.

Lemma limit_closest M x y : 1 <= M -> fden y <= M ->
  (Qabs (limit_denominator M x - x) <= Qabs (y - x))%Q.
Proof.
  intros H1 Hy. apply closer_Qle. destruct (Z_le_gt_dec (fden x) M) as [H|H].
  - rewrite limit_id by assumption. unfold closer.
    replace (fnum x * fden x - fnum x * fden x) with 0 by ring. simpl.
    pose proof (fden_pos x). nia.
  - destruct (limit_round M x H1 ltac:(lia)) as (P1 & Q1 & P2 & Q2 & al & be & Hp & Hc).
    pose proof (pair_closest _ _ _ _ _ _ _ _ _ (fnum y) (fden y) Hp (conj (fden_pos y) Hy)) as Hcl.
    destruct Hp as [_ _ _ HQ1 HQ2 _ _].
    destruct (frac_pos_facts P1 Q1) as [A1 A2]; [lia|].
    destruct (frac_pos_facts P2 Q2) as [B1 B2]; [lia|].
    pose proof (fden_pos y) as Hy0.
    destruct Hc as [[-> Hc]|[-> [Hc _]]].
    + apply closer_scale_l with (p := P2) (q := Q2); [lia|exact B1|exact B2|].
      destruct Hcl as [Hcl|Hcl]; [exact Hcl|]. eapply closer_trans; [| | |exact Hc|exact Hcl]; lia.
    + apply closer_scale_l with (p := P1) (q := Q1); [lia|exact A1|exact A2|].
      destruct Hcl as [Hcl|Hcl]; [|exact Hcl]. eapply closer_trans; [| | |exact Hc|exact Hcl]; lia.
Qed.

(** ** Error bound *)
Lemma limit_error M x : 1 <= M ->
  (Qabs (limit_denominator M x - x) <= 1 # Z.to_pos (2 * M))%Q.
Proof.
  intros H1.
  set (N := fnum x). set (D := fden x). pose proof (fden_pos x) as HD. fold D in HD.
  set (r := (2 * N * M + D) / (2 * D)).
  assert (Hr : Z.abs (2 * D * r - 2 * N * M) <= D).
  { pose proof (Z.mul_div_le (2 * N * M + D) (2 * D) ltac:(lia)) as A.
    pose proof (Z.mod_pos_bound (2 * N * M + D) (2 * D) ltac:(lia)) as B.
    pose proof (Z.mod_eq (2 * N * M + D) (2 * D) ltac:(lia)) as C. fold r in A, C. lia. }
  eapply Qle_trans; [apply (limit_closest M x (frac r M) H1)|].
  - apply frac_den_le; lia.
  - setoid_replace (frac r M : Q) with (r # Z.to_pos M)%Q by (apply frac_Qeq; lia).
    destruct x as [[n d] Hx]. unfold N, D, fnum, fden in *. cbn [this Qnum Qden] in *.
    assert (E : Z.abs (2 * Z.pos d * r - 2 * n * M) = 2 * Z.abs (r * M * 0 + Z.pos d * r - n * M)).
    { replace (2 * Z.pos d * r - 2 * n * M) with (2 * (Z.pos d * r - n * M)) by ring.
      rewrite Z.abs_mul. f_equal. f_equal. ring. }
    rewrite E in Hr. clear E.
    unfold Qle, Qabs, Qminus, Qplus, Qopp. cbn [Qnum Qden].
    rewrite !Pos2Z.inj_mul, !Z2Pos.id by lia.
    replace (r * Z.pos d + - n * M) with (r * M * 0 + Z.pos d * r - n * M) by ring.
    nia.
Qed.

(** ** Ties *)
Lemma frac_den_coprime p q : 0 < q -> Z.gcd p q = 1 -> fden (frac p q) = q.
Proof.
  intros Hq Hg. apply Z.divide_antisym_nonneg; [pose proof (fden_pos (frac p q)); lia|lia|apply frac_den_divides, Hq|].
  apply Gauss with (b := p).
  - exists (fnum (frac p q)). rewrite frac_spec; [ring|exact Hq].
  - apply Zgcd_1_rel_prime. rewrite Z.gcd_comm. exact Hg.
Qed.

Lemma det_coprime P Q P' Q' : Z.abs (P * Q' - P' * Q) = 1 -> Z.gcd P Q = 1.
Proof.
  intros H. assert (Hd : (Z.gcd P Q | 1)).
  { rewrite <- H. apply Z.divide_abs_r. apply Z.divide_sub_r.
    - apply Z.divide_mul_l, Z.gcd_divide_l.
    - apply Z.divide_mul_r, Z.gcd_divide_r. }
  apply Z.divide_1_r_nonneg in Hd; [exact Hd|apply Z.gcd_nonneg].
Qed.

Lemma pair_coords N D M P1 Q1 P2 Q2 al be a b :
  pair N D M P1 Q1 P2 Q2 al be -> 0 < b <= M ->
  exists alpha beta, a = alpha * P2 + beta * P1 /\ b = alpha * Q2 + beta * Q1 /\
    Z.abs (N * b - a * D) = Z.abs (al * beta - be * alpha) /\
    Z.abs (N * Q2 - P2 * D) = be /\ Z.abs (N * Q1 - P1 * D) = al /\
    ((beta <= 0 /\ 0 < alpha) \/ (alpha <= 0 /\ 0 < beta)).
Proof.
  intros [HN HD Hdet HQ1 HQ2 Hsum Hbe] Hb.
  set (e := P2 * Q1 - P1 * Q2) in *.
  assert (He : e * e = 1) by (destruct (Z.abs_spec e) as [[_ H]|[_ H]]; nia).
  set (alpha := e * (a * Q1 - P1 * b)). set (beta := e * (P2 * b - a * Q2)).
  assert (Ha : a = alpha * P2 + beta * P1).
  { unfold alpha, beta. transitivity (e * e * a); [rewrite He; ring|unfold e; ring]. }
  assert (Hbb : b = alpha * Q2 + beta * Q1).
  { unfold alpha, beta. transitivity (e * e * b); [rewrite He; ring|unfold e; ring]. }
  assert (Habse : forall z, Z.abs (e * z) = Z.abs z) by (intros z; rewrite Z.abs_mul, Hdet; lia).
  exists alpha, beta. split; [exact Ha|]. split; [exact Hbb|].
  split; [|split; [|split]].
  - replace (N * b - a * D) with (e * (be * alpha - al * beta) * -1).
    2:{ rewrite HN, HD. rewrite Ha, Hbb at 1. unfold e. ring. }
    rewrite Z.abs_mul, Habse. rewrite <- Z.abs_opp. rewrite Z.mul_1_r. f_equal. ring.
  - replace (N * Q2 - P2 * D) with (e * (- be)) by (rewrite HN, HD; unfold e; ring).
    rewrite Habse. lia.
  - replace (N * Q1 - P1 * D) with (e * al) by (rewrite HN, HD; unfold e; ring).
    rewrite Habse. lia.
  - clearbody alpha beta. clear Ha HN HD Habse.
    destruct (Z_le_gt_dec beta 0) as [Hbt|Hbt]; [left; nia|].
    destruct (Z_le_gt_dec alpha 0) as [Hat|Hat]; [right; lia|exfalso; nia].
Qed.

Lemma tie_case2 al be al' be' Q1 Q2 b :
  0 < Q1 -> 0 < Q2 -> 0 < be -> be <= al -> b = al' * Q2 + be' * Q1 -> be * Q1 <= al * Q2 ->
  ((be' <= 0 /\ 0 < al') \/ (al' <= 0 /\ 0 < be')) ->
  Z.abs (al * be' - be * al') * Q2 <= be * b -> be' = 0 \/ (al' = 0 /\ al * Q2 = be * Q1).
Proof.
  intros H1 H2 H3 H4 -> H5 Hc Hle.
  assert (Hal : 0 < al) by lia.
  destruct Hc as [[Hb Ha]|[Ha Hb]].
  - left. assert (A : al * be' <= 0) by (apply Z.mul_nonneg_nonpos; lia).
    assert (B : 0 < be * al') by (apply Z.mul_pos_pos; lia).
    rewrite Z.abs_neq in Hle by lia.
    assert (C : 0 <= be' * (be * Q1 + al * Q2)) by lia.
    assert (D : 0 < be * Q1 + al * Q2) by (pose proof (Z.mul_pos_pos be Q1 H3 H1); pose proof (Z.mul_pos_pos al Q2 Hal H2); lia).
    destruct (Z.eq_dec be' 0) as [|E]; [assumption|].
    assert (be' * (be * Q1 + al * Q2) < 0) by (apply Z.mul_neg_pos; lia). lia.
  - right. assert (A : 0 < al * be') by (apply Z.mul_pos_pos; lia).
    assert (B : be * al' <= 0) by (apply Z.mul_nonneg_nonpos; lia).
    rewrite Z.abs_eq in Hle by lia.
    assert (C : be' * (al * Q2 - be * Q1) <= 2 * (be * al' * Q2)) by lia.
    assert (D : 0 <= be' * (al * Q2 - be * Q1)) by (apply Z.mul_nonneg_nonneg; lia).
    assert (E : be * al' * Q2 <= 0) by (apply Z.mul_nonpos_nonneg; lia).
    assert (F : be * al' * Q2 = 0) by lia.
    assert (G : be' * (al * Q2 - be * Q1) = 0) by lia.
    split.
    + apply Z.mul_eq_0 in F. destruct F as [F|F]; [apply Z.mul_eq_0 in F; lia|lia].
    + apply Z.mul_eq_0 in G. lia.
Qed.

Lemma tie_case1 al be al' be' Q1 Q2 b :
  0 < Q1 -> 0 < Q2 -> 0 < be -> be <= al -> b = al' * Q2 + be' * Q1 -> al * Q2 < be * Q1 ->
  ((be' <= 0 /\ 0 < al') \/ (al' <= 0 /\ 0 < be')) ->
  Z.abs (al * be' - be * al') * Q1 <= al * b -> al' = 0.
Proof.
  intros H1 H2 H3 H4 -> H5 Hc Hle.
  assert (Hal : 0 < al) by lia.
  destruct Hc as [[Hb Ha]|[Ha Hb]].
  - exfalso. assert (A : al * be' <= 0) by (apply Z.mul_nonneg_nonpos; lia).
    assert (B : 0 < be * al') by (apply Z.mul_pos_pos; lia).
    rewrite Z.abs_neq in Hle by lia.
    assert (C : al' * (be * Q1 - al * Q2) <= 2 * (al * be' * Q1)) by lia.
    assert (D : 0 < al' * (be * Q1 - al * Q2)) by (apply Z.mul_pos_pos; lia).
    assert (E : al * be' * Q1 <= 0) by (apply Z.mul_nonpos_nonneg; lia). lia.
  - assert (A : 0 < al * be') by (apply Z.mul_pos_pos; lia).
    assert (B : be * al' <= 0) by (apply Z.mul_nonneg_nonpos; lia).
    rewrite Z.abs_eq in Hle by lia.
    assert (C : 0 <= al' * (be * Q1 + al * Q2)) by lia.
    assert (D : 0 < be * Q1 + al * Q2) by (pose proof (Z.mul_pos_pos be Q1 H3 H1); pose proof (Z.mul_pos_pos al Q2 Hal H2); lia).
    destruct (Z.eq_dec al' 0) as [|E]; [assumption|].
    assert (al' * (be * Q1 + al * Q2) < 0) by (apply Z.mul_neg_pos; lia). lia.
Qed.

Lemma frac_num_coprime p q : 0 < q -> Z.gcd p q = 1 -> fnum (frac p q) = p.
Proof.
  intros Hq Hg. pose proof (frac_spec p q Hq) as E. rewrite (frac_den_coprime p q Hq Hg) in E.
  apply Z.mul_reg_r with q; lia.
Qed.

(** Among equally close fractions the one with the smaller denominator is returned. *)
Lemma limit_tie M x s : 2 <= M -> fden s <= M -> s <> limit_denominator M x ->
  (Qabs (s - x) <= Qabs (limit_denominator M x - x))%Q ->
  fden (limit_denominator M x) < fden s.
Proof.
  intros HM Hs Hne Hle.
  destruct (Z_le_gt_dec (fden x) M) as [H|H].
  { exfalso. apply Hne. rewrite limit_id in * by assumption.
    apply closer_Qle in Hle. unfold closer in Hle.
    replace (fnum x * fden x - fnum x * fden x) with 0 in Hle by ring. simpl in Hle.
    pose proof (fden_pos x). apply qc_ext.
    destruct (Z.eq_dec (fnum x * fden s - fnum s * fden x) 0) as [E|E]; [lia|].
    exfalso. assert (0 < Z.abs (fnum x * fden s - fnum s * fden x)) by lia. nia. }
  destruct (limit_round M x ltac:(lia) ltac:(lia)) as (P1 & Q1 & P2 & Q2 & al & be & Hp & Hc).
  pose proof (fden_pos s) as Hs0.
  destruct (pair_coords _ _ _ _ _ _ _ _ _ (fnum s) (fden s) Hp (conj Hs0 Hs))
    as (alpha & beta & Ha & Hb & Eab & E2 & E1 & Hcase).
  destruct Hp as [_ _ Hdet HQ1 HQ2 Hsum Hbe].
  assert (G2 : fden (frac P2 Q2) = Q2) by (apply frac_den_coprime; [lia|eapply det_coprime; exact Hdet]).
  assert (Hdet' : Z.abs (P1 * Q2 - P2 * Q1) = 1) by (rewrite <- Hdet, <- Z.abs_opp; f_equal; ring).
  assert (G1 : fden (frac P1 Q1) = Q1) by (apply frac_den_coprime; [lia|eapply det_coprime; exact Hdet']).
  assert (F2 : fnum (frac P2 Q2) = P2) by (apply frac_num_coprime; [lia|eapply det_coprime; exact Hdet]).
  assert (F1 : fnum (frac P1 Q1) = P1) by (apply frac_num_coprime; [lia|eapply det_coprime; exact Hdet']).
  apply closer_Qle in Hle. unfold closer in *.
  assert (S2 : beta = 0 -> s = frac P2 Q2).
  { intros ->. apply qc_ext. rewrite F2, G2, Ha, Hb. ring. }
  assert (S1 : alpha = 0 -> s = frac P1 Q1).
  { intros ->. apply qc_ext. rewrite F1, G1, Ha, Hb. ring. }
  rewrite E1, E2 in Hc.
  assert (HQ1' : 0 < Q1) by lia. assert (HQ2' : 0 < Q2) by lia.
  assert (Hbe1 : 0 < be) by lia. assert (Hbe2 : be <= al) by lia.
  destruct Hc as [[Hl Hc]|[Hl [Hc Hn]]]; rewrite Hl in *.
  - rewrite F2, G2, E2, Eab in Hle.
    destruct (tie_case2 al be alpha beta Q1 Q2 (fden s) HQ1' HQ2' Hbe1 Hbe2 Hb Hc Hcase Hle) as [B0|[A0 Eq]].
    { exfalso. apply Hne. auto. }
    rewrite (S1 A0), G1, G2.
    assert (Q2 <= Q1).
    { destruct (Z_le_gt_dec Q2 Q1) as [|Hgt]; [assumption|exfalso].
      assert (T : be * Q1 < be * Q2) by (apply Z.mul_lt_mono_pos_l; lia).
      assert (T' : be * Q2 <= al * Q2) by (apply Z.mul_le_mono_nonneg_r; lia). lia. }
    assert (Q1 <> Q2); [|lia]. intros E. rewrite E in Hdet.
    replace (P2 * Q2 - P1 * Q2) with ((P2 - P1) * Q2) in Hdet by ring.
    rewrite Z.abs_mul in Hdet. rewrite (Z.abs_eq Q2) in Hdet by lia.
    assert (HQ21 : (Q2 | 1)) by (rewrite <- Hdet; apply Z.divide_factor_r).
    apply Z.divide_1_r_nonneg in HQ21; lia.
  - exfalso. rewrite F1, G1, E1, Eab in Hle. apply Hne, S1.
    eapply (tie_case1 al be alpha beta Q1 Q2 (fden s)); try eassumption. lia.
Qed.

Lemma fden_opp x : fden (- x) = fden x.
Proof.
  assert (H : (- x)%Qc = frac (- fnum x) (fden x)).
  { symmetry. apply frac_eq; [apply fden_pos|].
    destruct x as [[n d] Hx]. unfold fnum, fden. 
    change (this (- {| this := n # d; canon := Hx |})%Qc) with (Qred (- (n # d))).
    pose proof (Qred_correct (- (n # d))) as E. unfold Qeq in E. simpl in E. simpl. exact E. }
  rewrite H. apply frac_den_coprime; [apply fden_pos|].
  rewrite Z.gcd_opp_l. apply f_coprime.
Qed.

Lemma Qabs_opp_diff (x y : Qc) : (Qabs ((- y)%Qc - x) == Qabs (y - (- x)%Qc))%Q.
Proof.
  assert (H : forall z : Qc, ((- z)%Qc == - z)%Q) by (intros z; unfold Qcopp; apply Qred_correct).
  rewrite !H. rewrite <- Qabs_opp. apply Qabs_wd. ring.
Qed.

Lemma limit_opp M x : 2 <= M -> limit_denominator M (- x) = (- limit_denominator M x)%Qc.
Proof.
  intros HM.
  destruct (Qc_eq_dec (- limit_denominator M (- x)) (limit_denominator M x)) as [E|E].
  - rewrite <- E. ring.
  - exfalso.
    assert (L1 : fden (limit_denominator M x) < fden (- limit_denominator M (- x))).
    { apply limit_tie; [lia|rewrite fden_opp; apply limit_den; lia|exact E|].
      rewrite Qabs_opp_diff. eapply Qle_trans; [apply (limit_closest M (- x) (- limit_denominator M x)); [lia|]|].
      - rewrite fden_opp. apply limit_den; lia.
      - rewrite Qabs_opp_diff. rewrite Qcopp_involutive. apply Qle_refl. }
    assert (L2 : fden (limit_denominator M (- x)) < fden (- limit_denominator M x)).
    { apply limit_tie; [lia|rewrite fden_opp; apply limit_den; lia| |].
      - intros E2. apply E. rewrite <- E2. ring.
      - rewrite Qabs_opp_diff, Qcopp_involutive.
        eapply Qle_trans; [apply (limit_closest M x (- limit_denominator M (- x))); [lia|]|].
        + rewrite fden_opp. apply limit_den; lia.
        + rewrite Qabs_opp_diff. apply Qle_refl. }
    rewrite fden_opp in L1, L2. lia.
Qed.

(** ** Denominators under arithmetic *)
Lemma frac_add_num (x y : Qc) : (x + y)%Qc = frac (fnum x * fden y + fnum y * fden x) (fden x * fden y).
Proof.
  symmetry. apply Qc_is_canon. rewrite frac_Qeq by (pose proof (fden_pos x); pose proof (fden_pos y); nia).
  unfold Qcplus. cbn [this Q2Qc]. rewrite Qred_correct.
  destruct x as [[n d] Hx], y as [[n' d'] Hy]. unfold fnum, fden, Qeq. cbn. reflexivity.
Qed.

Lemma frac_mul_num (x y : Qc) : (x * y)%Qc = frac (fnum x * fnum y) (fden x * fden y).
Proof.
  symmetry. apply Qc_is_canon. rewrite frac_Qeq by (pose proof (fden_pos x); pose proof (fden_pos y); nia).
  unfold Qcmult. cbn [this Q2Qc]. rewrite Qred_correct.
  destruct x as [[n d] Hx], y as [[n' d'] Hy]. unfold fnum, fden, Qeq. cbn. reflexivity.
Qed.

(** [x] is an integer multiple of 1/N. *)
Definition on_grid (N : Z) (x : Qc) : Prop := (fden x | N).

Lemma on_grid_frac N x : 0 < N -> on_grid N x <-> exists m, x = frac m N.
Proof.
  intros HN. split.
  - intros [c Hc]. exists (fnum x * c). symmetry. apply frac_eq; [exact HN|]. rewrite Hc. ring.
  - intros [m ->]. apply frac_den_divides, HN.
Qed.

Lemma frac_plus m n N : 0 < N -> (frac m N + frac n N)%Qc = frac (m + n) N.
Proof.
  intros HN. apply Qc_is_canon. unfold Qcplus. cbn [this Q2Qc]. rewrite Qred_correct.
  rewrite !frac_Qeq by exact HN. unfold Qeq. cbn. rewrite Pos2Z.inj_mul. ring.
Qed.

Lemma on_grid_add N x y : 0 < N -> on_grid N x -> on_grid N y -> on_grid N (x + y).
Proof.
  intros HN Hx Hy. apply on_grid_frac in Hx, Hy; try exact HN.
  destruct Hx as [m ->], Hy as [n ->]. rewrite frac_plus by exact HN.
  apply on_grid_frac; [exact HN|eexists; reflexivity].
Qed.

Lemma on_grid_opp N x : on_grid N x -> on_grid N (- x).
Proof. unfold on_grid. rewrite fden_opp. auto. Qed.

Lemma on_grid_zmul N x n : on_grid N x -> on_grid N (x * fint n).
Proof.
  unfold on_grid. intros H. rewrite frac_mul_num.
  assert (E1 : fden (fint n) = 1) by (apply frac_den_coprime; [lia|apply Z.gcd_1_r]).
  rewrite E1, Z.mul_1_r. eapply Z.divide_trans; [apply frac_den_divides, fden_pos|exact H].
Qed.

Lemma on_grid_0 N : on_grid N 0.
Proof. exists N. unfold fden. simpl. lia. Qed.

Lemma on_grid_le N x : 0 < N -> on_grid N x -> fden x <= N.
Proof. intros HN H. apply Z.divide_pos_le; assumption. Qed.

Lemma on_grid_self x : on_grid (fden x) x.
Proof. apply Z.divide_refl. Qed.

Lemma limit_on_grid M N x : 0 < N <= M -> on_grid N x -> limit_denominator M x = x.
Proof. intros HN H. apply limit_id. apply on_grid_le in H; lia. Qed.

(** A value close enough to a fraction with a small denominator is rounded to that fraction. *)
Lemma limit_recovers M (x r : Qc) : 2 <= M -> fden r <= M ->
  (Qabs (x - r) < 1 # Z.to_pos (2 * fden r * M))%Q -> limit_denominator M x = r.
Proof.
  intros HM Hr Hx.
  pose proof (limit_closest M x r ltac:(lia) Hr) as Hc.
  pose proof (limit_den M x ltac:(lia)) as Hd.
  set (y := limit_denominator M x) in *.
  assert (Hyr : (Qabs (y - r) < 1 # Z.to_pos (fden r * M))%Q).
  { setoid_replace (y - r)%Q with ((y - x) + (x - r))%Q by ring.
    eapply Qle_lt_trans; [apply Qabs_triangle|].
    setoid_replace (1 # Z.to_pos (fden r * M))%Q with ((1 # Z.to_pos (2 * fden r * M)) + (1 # Z.to_pos (2 * fden r * M)))%Q.
    2:{ pose proof (fden_pos r). unfold Qeq, Qplus. cbn [Qnum Qden]. rewrite !Pos2Z.inj_mul, !Z2Pos.id by nia. ring. }
    eapply Qle_lt_trans; [apply Qplus_le_compat; [|apply Qle_refl]|apply (proj2 (Qplus_lt_r _ _ (1 # Z.to_pos (2 * fden r * M)))); exact Hx].
    eapply Qle_trans; [exact Hc|]. 
    setoid_replace (Qabs (r - x)) with (Qabs (x - r)).
    - apply Qlt_le_weak. exact Hx.
    - rewrite <- Qabs_opp. apply Qabs_wd. ring. }
  clearbody y. apply qc_ext.
  assert (Hz : Z.abs (fnum y * fden r - fnum r * fden y) < 1).
  { pose proof (fden_pos r) as H1. pose proof (fden_pos y) as H2.
    destruct y as [[n d] Hy], r as [[n' d'] Hr']. unfold fnum, fden in *. cbn [this Qnum Qden] in *.
    unfold Qlt, Qabs, Qminus, Qplus, Qopp in Hyr. cbn [Qnum Qden] in Hyr.
    rewrite !Pos2Z.inj_mul, !Z2Pos.id in Hyr by nia.
    replace (n * Z.pos d' + - n' * Z.pos d) with (n * Z.pos d' - n' * Z.pos d) in Hyr by ring.
    set (A := Z.abs (n * Z.pos d' - n' * Z.pos d)) in *.
    assert (HA : 0 <= A) by apply Z.abs_nonneg.
    destruct (Z_lt_ge_dec A 1) as [|Hge]; [assumption|exfalso].
    assert (Z.pos d' * M <= A * (Z.pos d' * M)) by nia. nia. }
  lia.
Qed.

Lemma limit_small x : fden x <= max_den -> limit x = x.
Proof. apply limit_id. Qed.
Lemma limit_neg x : limit (- x) = (- limit x)%Qc.
Proof. apply limit_opp. unfold max_den; lia. Qed.
