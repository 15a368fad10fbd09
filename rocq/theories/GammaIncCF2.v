(** How fast the continued fraction converges: after 2000 steps nothing is left for a up to 1900 *)
From Coq Require Import List Arith ZArith Lia Bool Reals Lra Psatz.
From Verif Require Import GammaSpec GammaInt GammaFun HyperExp GammaFnSpec GammaFnFacts GammaInc GammaIncFacts GammaIncCF.
Open Scope R_scope.

(** ** Size of the value *)
Lemma Jv_mono a x : 0 < x -> Jv 0 (a - 1) x <= Jv 0 a x.
Proof. intros Hx. pose proof (K_pos 1 (a + 1) x Hx) as P. cbn [K] in P. replace (a + 1 - 1) with a in P by ring. lra. Qed.
Lemma Jv_nn a x : 0 < x -> 0 <= Jv 0 a x.
Proof. intros Hx. pose proof (K_pos 0 (a + 1) x Hx) as P. cbn [K] in P. replace (a + 1 - 1) with a in P by ring. exact P. Qed.
Lemma V_bounds a x : 0 < a <= x -> 1 < x -> 1 <= (x + 1) * Vv a x /\ Vv a x <= 1.
Proof.
  intros H Hx. unfold Vv. pose proof (Jv_S (a - 1) x ltac:(lra)) as J. replace (a - 1 + 1) with a in J by ring. pose proof (Jv_mono a x ltac:(lra)) as M. pose proof (Jv_nn (a - 1) x ltac:(lra)) as N. pose proof (Jv_nn a x ltac:(lra)) as N1. pose proof (exp_pos x) as E.
  assert (EE : exp x * exp (- x) = 1) by (rewrite <- exp_plus; replace (x + - x) with 0 by ring; apply exp_0). set (j := Jv 0 a x) in *. set (j1 := Jv 0 (a - 1) x) in *.
  assert (A : exp (- x) <= (x + 1) * j). { assert (0 <= a * j) by (apply Rmult_le_pos; lra). destruct (Rle_dec a 1); [assert (0 <= (1 - a) * (j - j1)) by (apply Rmult_le_pos; lra); lra|assert (0 <= (a - 1) * j1) by (apply Rmult_le_pos; lra); lra]. }
  assert (B : j <= exp (- x)). { assert (0 <= (x - 1) * j) by (apply Rmult_le_pos; lra). assert (0 <= (x - a) * j) by (apply Rmult_le_pos; lra). destruct (Rle_dec a 1); [assert (0 <= (1 - a) * j1) by (apply Rmult_le_pos; lra); lra|assert (0 <= (a - 1) * (j - j1)) by (apply Rmult_le_pos; lra); lra]. }
  split; [replace ((x + 1) * (exp x * j)) with (exp x * ((x + 1) * j)) by ring; apply (Rle_trans _ (exp x * exp (- x))); [lra|]|apply (Rle_trans _ (exp x * exp (- x))); [|lra]]; apply Rmult_le_compat_l; lra.
Qed.
Lemma growth1 a x u0 u1 k : 0 < a <= x -> 0 < u0 -> u0 <= u1 -> let u := fun k => fst (cfs a x u0 u1 k) in 0 < u k /\ (INR k + 1) * u k <= u (S k).
Proof.
  intros Ha H0 H1 u. induction k as [|k [IH1 IH2]].
  - unfold u. rewrite cfs_S. cbn [cfs fst snd INR]. split; [exact H0|lra].
  - pose proof (pos_INR k) as Hk. assert (P : 0 < u (S k)) by (eapply Rlt_le_trans; [|exact IH2]; apply Rmult_lt_0_compat; lra). split; [exact P|].
    unfold u at 2. rewrite cfs_SS. fold (u (S k)) (u k). rewrite S_INR.
    destruct (Rle_dec (1 - a + (INR k + 1)) 0) as [N|N].
    + assert (0 <= - ((1 - a + (INR k + 1)) * (INR k + 1) * u k)). { replace (- ((1 - a + (INR k + 1)) * (INR k + 1) * u k)) with ((- (1 - a + (INR k + 1))) * ((INR k + 1) * u k)) by ring. apply Rmult_le_pos; [lra|]. apply Rmult_le_pos; lra. }
      assert ((INR k + 1 + 1) * u (S k) <= (x + 2 - a + 2 * (INR k + 1)) * u (S k)) by (apply Rmult_le_compat_r; lra). lra.
    + assert (B1 : (1 - a + (INR k + 1)) * ((INR k + 1) * u k) <= (INR k + 2) * ((INR k + 1) * u k)) by (apply Rmult_le_compat_r; [apply Rmult_le_pos; lra|lra]).
      assert (B2 : (INR k + 2) * ((INR k + 1) * u k) <= (INR k + 2) * u (S k)) by (apply Rmult_le_compat_l; lra).
      assert (B3 : (INR k + 1 + 1) * u (S k) <= (x + 2 - a + 2 * (INR k + 1) - (INR k + 2)) * u (S k)) by (apply Rmult_le_compat_r; lra). lra.
Qed.
Lemma cfs_lin a x u0 u1 w0 w1 k : cfs a x (u0 - w0) (u1 - w1) k = (fst (cfs a x u0 u1 k) - fst (cfs a x w0 w1 k), snd (cfs a x u0 u1 k) - snd (cfs a x w0 w1 k)).
Proof. induction k as [|k IH]; [reflexivity|]. cbn [cfs]. rewrite IH. destruct (cfs a x u0 u1 k) as [u u']. destruct (cfs a x w0 w1 k) as [w w']. cbn [fst snd]. f_equal. ring. Qed.
Lemma rn_le1 a x k : 0 < a <= x -> 1 < x -> 0 < rn a x k <= 1.
Proof.
  intros H Hx. destruct (Qn_grow a x k H) as [Q _]. destruct (Pn_grow a x k H ltac:(lra)) as [P _]. split; [apply Rdiv_lt_0_compat; assumption|].
  destruct (growth1 a x (x - 1) ((x + 2 - a) * x - (x + 1)) k H ltac:(lra) ltac:(nra)) as [D _]. rewrite cfs_lin in D. cbn [fst] in D. fold (Qn a x k) (Pn a x k) in D. unfold rn. apply (Rmult_le_reg_r (Qn a x k)); [exact Q|]. unfold Rdiv. rewrite Rmult_assoc, Rinv_l; lra.
Qed.
Lemma en_le1 a x k : 0 < a <= x -> 1 < x -> Rabs (en a x k) <= 1.
Proof. intros H Hx. rewrite <- (rn_en a x k H). pose proof (rn_le1 a x k H Hx). pose proof (V_bounds a x H Hx) as [L U]. assert (0 <= Vv a x) by (apply (Rmult_le_reg_l (x + 1)); lra). apply Rabs_le. lra. Qed.

(** ** Denominators grow by a little more than k *)
Lemma Qn_root a x k : 0 < a <= x -> 1.1 <= x -> (INR (S k) + 0.8 * sqrt (INR (S k))) * Qn a x k <= Qn a x (S k).
Proof.
  intros H Hx. induction k as [|k IH].
  - destruct (Qn_grow a x 0 H) as [Q G]. cbn [INR] in *. rewrite sqrt_1. nra.
  - destruct (Qn_grow a x k H) as [Q _]. destruct (Qn_grow a x (S k) H) as [Q1 _]. set (s := sqrt (INR (S k))) in *. set (w := sqrt (INR (S (S k)))).
    assert (Hk : 1 <= INR (S k)) by (apply (le_INR 1); lia). assert (Es : s * s = INR (S k)) by (apply sqrt_sqrt; lra). assert (Ew : w * w = INR (S k) + 1) by (unfold w; rewrite sqrt_sqrt; [apply (S_INR (S k))|apply pos_INR]).
    assert (S1 : 1 <= s) by (unfold s; rewrite <- sqrt_1; apply sqrt_le_1; lra). assert (W0 : 0 <= w) by apply sqrt_pos.
    assert (W1 : s * w <= s * s + 1/2) by nra. assert (W2 : w <= s + 1/2) by nra.
    replace (INR (S (S k))) with (INR (S k) + 1) by (rewrite (S_INR (S k)); reflexivity). unfold Qn at 2. rewrite cfs_SS. fold (Qn a x (S k)) (Qn a x k). rewrite <- Es in *. set (q1 := Qn a x (S k)) in *. set (q0 := Qn a x k) in *.
    destruct (Rle_dec (1 - a + s * s) 0) as [N|N].
    + assert (0 <= (- (1 - a + s * s)) * (s * s * q0)) by (apply Rmult_le_pos; [lra|apply Rmult_le_pos; lra]). assert ((s * s + 1 + 0.8 * w) * q1 <= (x + 2 - a + 2 * (s * s)) * q1) by (apply Rmult_le_compat_r; [lra|nra]). lra.
    + assert (T : s * s * q0 * (s + 0.8) <= s * q1). { replace (s * s * q0 * (s + 0.8)) with (s * ((s * s + 0.8 * s) * q0)) by ring. apply Rmult_le_compat_l; lra. }
      apply (Rmult_le_reg_r (s + 0.8)); [lra|]. replace (((x + 2 - a + 2 * (s * s)) * q1 - (1 - a + s * s) * (s * s) * q0) * (s + 0.8)) with ((x + 2 - a + 2 * (s * s)) * (s + 0.8) * q1 - (1 - a + s * s) * (s * s * q0 * (s + 0.8))) by ring.
      assert ((1 - a + s * s) * (s * s * q0 * (s + 0.8)) <= (1 - a + s * s) * (s * q1)) by (apply Rmult_le_compat_l; lra).
      assert ((s * s + 1 + 0.8 * w) * (s + 0.8) * q1 <= ((x + 2 - a + 2 * (s * s)) * (s + 0.8) - (1 - a + s * s) * s) * q1) by (apply Rmult_le_compat_r; [lra|nra]). lra.
Qed.
Lemma en_dec a x k r : 0 < a <= x -> 0 <= 1 - a + INR (S k) -> 0 <= r -> (1 - a + INR (S k)) * Qn a x k <= r * Qn a x (S k) -> Rabs (en a x (S k)) <= r * Rabs (en a x k).
Proof.
  intros H N Hr G. destruct (en_ratio a x k H) as (h & Hh & E). destruct (Qn_grow a x k H) as [P _]. destruct (Qn_grow a x (S k) H) as [P1 _]. rewrite E, Rabs_mult. apply Rmult_le_compat_r; [apply Rabs_pos|].
  assert (Q0 : 0 < Qn a x k / Qn a x (S k)) by (apply Rdiv_lt_0_compat; assumption). rewrite Rabs_right by (apply Rle_ge; apply Rmult_le_pos; [apply Rmult_le_pos; lra|lra]).
  assert (B : (1 - a + INR (S k)) * (Qn a x k / Qn a x (S k)) <= r) by (apply (Rmult_le_reg_r (Qn a x (S k))); [exact P1|]; replace ((1 - a + INR (S k)) * (Qn a x k / Qn a x (S k)) * Qn a x (S k)) with ((1 - a + INR (S k)) * Qn a x k) by (field; lra); exact G).
  apply (Rle_trans _ ((1 - a + INR (S k)) * 1 * (Qn a x k / Qn a x (S k)))); [apply Rmult_le_compat_r; [lra|]; apply Rmult_le_compat_l; lra|lra].
Qed.
Lemma block a x m len d : 0 < a <= x -> (forall k, (m <= k < m + len)%nat -> Rabs (en a x (S k)) <= (1 - d) * Rabs (en a x k)) -> 0 <= d <= 1 -> Rabs (en a x (m + len)) <= exp (- (d * INR len)) * Rabs (en a x m).
Proof.
  intros H Hk Hd. induction len as [|len IH]; [rewrite Nat.add_0_r; cbn [INR]; rewrite Rmult_0_r, Ropp_0, exp_0; lra|]. rewrite Nat.add_succ_r. apply (Rle_trans _ _ _ (Hk (m + len)%nat ltac:(lia))). specialize (IH ltac:(intros; apply Hk; lia)).
  rewrite S_INR. replace (- (d * (INR len + 1))) with (- d + - (d * INR len)) by ring. rewrite exp_plus, Rmult_assoc. apply Rmult_le_compat; [lra|apply Rabs_pos| |exact IH]. pose proof (exp_ineq1_le (- d)). lra.
Qed.
(** small x *)
Lemma root_step a x k lo hi d : 0 < a <= x -> 1.1 <= x <= 100 -> (100 <= k)%nat -> 0 <= d <= 1 -> 0 <= lo -> 0 <= hi -> lo * lo <= INR (S k) <= hi * hi -> 0 <= 0.8 * (1 - d) * lo - d * (lo * lo) - 1 -> 0 <= 0.8 * (1 - d) * hi - d * (hi * hi) - 1 -> Rabs (en a x (S k)) <= (1 - d) * Rabs (en a x k).
Proof.
  intros H Hx Hk Hd Hl Hh B F1 F2. assert (K1 : 100 <= INR k) by (replace 100 with (INR 100) by (rewrite INR_IZR_INZ; reflexivity); apply le_INR, Hk). pose proof (Qn_root a x k H ltac:(lra)) as G. destruct (Qn_grow a x k H) as [P _]. set (s := sqrt (INR (S k))) in *. assert (Es : s * s = INR (S k)) by (apply sqrt_sqrt, pos_INR). assert (S0 : 0 <= s) by apply sqrt_pos.
  assert (L1 : lo <= s) by nra. assert (L2 : s <= hi) by nra.
  apply en_dec; [exact H|rewrite S_INR; lra|lra|]. apply (Rle_trans _ ((1 - d) * ((INR (S k) + 0.8 * s) * Qn a x k))); [|apply Rmult_le_compat_l; lra]. rewrite <- Rmult_assoc. apply Rmult_le_compat_r; [lra|]. rewrite <- Es.
  assert (F : 0 <= 0.8 * (1 - d) * s - d * (s * s) - 1). { assert (0 <= d * ((s - lo) * (hi - s))) by (apply Rmult_le_pos; [lra|apply Rmult_le_pos; lra]). destruct (Req_dec lo hi) as [Q|Q]; [assert (s = lo) by lra; subst; assumption|].
    assert (0 <= (hi - s) * (0.8 * (1 - d) * lo - d * (lo * lo) - 1)) by (apply Rmult_le_pos; lra). assert (0 <= (s - lo) * (0.8 * (1 - d) * hi - d * (hi * hi) - 1)) by (apply Rmult_le_pos; lra). apply (Rmult_le_reg_r (hi - lo)); [lra|]. nra. }
  lra.
Qed.
Lemma small_x a x : 0 < a <= x -> 1.1 <= x <= 100 -> Rabs (en a x 2001) <= exp (- 43).
Proof.
  intros H Hx. assert (I : forall n z, Z.of_nat n = z -> INR n = IZR z) by (intros n z <-; apply INR_IZR_INZ).
  assert (BK : forall m len lo hi d, (100 <= m)%nat -> 0 <= d <= 1 -> 0 <= lo -> 0 <= hi -> lo * lo <= INR (S m) -> INR (m + len) <= hi * hi -> 0 <= 0.8 * (1 - d) * lo - d * (lo * lo) - 1 -> 0 <= 0.8 * (1 - d) * hi - d * (hi * hi) - 1 -> Rabs (en a x (m + len)) <= exp (- (d * INR len)) * Rabs (en a x m)).
  { intros m len lo hi d Hm Hd Hl Hh B1 B2 F1 F2. apply block; [exact H| |exact Hd]. intros k Hk. apply (root_step a x k lo hi d); try assumption; try lia. split; [apply (Rle_trans _ _ _ B1), le_INR; lia|apply (Rle_trans _ (INR (m + len))); [apply le_INR; lia|exact B2]]. }
  pose proof (BK 100%nat 100%nat 10 14.15 0.048 ltac:(lia) ltac:(lra) ltac:(lra) ltac:(lra) ltac:(rewrite (I 101%nat 101%Z eq_refl); lra) ltac:(rewrite (I (100 + 100)%nat 200%Z eq_refl); lra) ltac:(lra) ltac:(lra)) as B1.
  pose proof (BK 200%nat 300%nat 14 22.37 0.032 ltac:(lia) ltac:(lra) ltac:(lra) ltac:(lra) ltac:(rewrite (I 201%nat 201%Z eq_refl); lra) ltac:(rewrite (I (200 + 300)%nat 500%Z eq_refl); lra) ltac:(lra) ltac:(lra)) as B2.
  pose proof (BK 500%nat 500%nat 22 31.63 0.0235 ltac:(lia) ltac:(lra) ltac:(lra) ltac:(lra) ltac:(rewrite (I 501%nat 501%Z eq_refl); lra) ltac:(rewrite (I (500 + 500)%nat 1000%Z eq_refl); lra) ltac:(lra) ltac:(lra)) as B3.
  pose proof (BK 1000%nat 1001%nat 31 44.74 0.017 ltac:(lia) ltac:(lra) ltac:(lra) ltac:(lra) ltac:(rewrite (I 1001%nat 1001%Z eq_refl); lra) ltac:(rewrite (I (1000 + 1001)%nat 2001%Z eq_refl); lra) ltac:(lra) ltac:(lra)) as B4.
  rewrite (I 100%nat 100%Z eq_refl) in B1. rewrite (I 300%nat 300%Z eq_refl) in B2. rewrite (I 500%nat 500%Z eq_refl) in B3. rewrite (I 1001%nat 1001%Z eq_refl) in B4.
  change (100 + 100)%nat with 200%nat in B1. change (200 + 300)%nat with 500%nat in B2. change (500 + 500)%nat with 1000%nat in B3. change (1000 + 1001)%nat with 2001%nat in B4.
  pose proof (en_le1 a x 100 H ltac:(lra)) as E0.
  assert (T : forall p q r s t, 0 <= p -> q <= p * r -> r <= s -> p * s <= t -> q <= t) by (intros p q r s t Hp A B C; apply (Rle_trans _ _ _ A); apply (Rle_trans _ (p * s)); [apply Rmult_le_compat_l; assumption|exact C]).
  assert (X : forall u v, exp u * exp v <= exp (u + v)) by (intros u v; rewrite exp_plus; lra).
  pose proof (T _ _ _ _ _ (Rlt_le _ _ (exp_pos _)) B1 E0 (Req_le _ _ (Rmult_1_r _))) as C1. pose proof (T _ _ _ _ _ (Rlt_le _ _ (exp_pos _)) B2 C1 (X _ _)) as C2. pose proof (T _ _ _ _ _ (Rlt_le _ _ (exp_pos _)) B3 C2 (X _ _)) as C3. pose proof (T _ _ _ _ _ (Rlt_le _ _ (exp_pos _)) B4 C3 (X _ _)) as C4.
  apply (Rle_trans _ _ _ C4). left. apply exp_increasing. lra.
Qed.
Lemma Rpower_exp_nat n y : exp y ^ n = exp (INR n * y).
Proof. induction n as [|n IH]; [cbn [pow INR]; rewrite Rmult_0_l, exp_0; reflexivity|]. cbn [pow]. rewrite IH, S_INR, <- exp_plus. f_equal. ring. Qed.
(** large x *)
Lemma large_x a x : 0 < a <= x -> 100 <= x <= 1000 -> Rabs (en a x 2001) <= exp (- (1001 * ((x - 1) / (x + 2001)))).
Proof.
  intros H Hx. set (d := (x - 1) / (x + 2001)). assert (Ed : d * (x + 2001) = x - 1) by (unfold d; field; lra). assert (D1 : 0 <= d) by (unfold d; left; apply Rdiv_lt_0_compat; lra). assert (D2 : d <= 1) by nra.
  pose proof (block a x 1000 1001 d H) as B. assert (I : INR 1001 = 1001) by (rewrite INR_IZR_INZ; reflexivity). rewrite I in B. change (1000 + 1001)%nat with 2001%nat in B. rewrite (Rmult_comm d) in B.
  assert (B' : Rabs (en a x 2001) <= exp (- (1001 * d)) * Rabs (en a x 1000)). { apply B; [|lra]. intros k Hk. destruct k as [|k]; [lia|]. assert (K1 : 999 <= INR k) by (replace 999 with (INR 999) by (rewrite INR_IZR_INZ; reflexivity); apply le_INR; lia). assert (K2 : INR k <= 1999) by (replace 1999 with (INR 1999) by (rewrite INR_IZR_INZ; reflexivity); apply le_INR; lia).
    destruct (Qn_grow a x (S k) H) as [P _]. pose proof (Qn_sharp a x k H ltac:(rewrite S_INR; lra)) as G. assert (IS : INR (S (S k)) = INR (S k) + 1) by apply (S_INR (S k)). pose proof (S_INR k) as I1.
    apply en_dec; [exact H|lra|lra|]. apply (Rle_trans _ ((1 - d) * ((x + 1 + INR (S k)) * Qn a x (S k)))); [|apply Rmult_le_compat_l; lra]. rewrite <- Rmult_assoc. apply Rmult_le_compat_r; [lra|]. assert (d * (x + 1 + INR (S k)) <= x - 1) by (rewrite <- Ed; apply Rmult_le_compat_l; lra). lra. }
  apply (Rle_trans _ _ _ B'). rewrite <- (Rmult_1_r (exp (- (1001 * d)))) at 2. apply Rmult_le_compat_l; [left; apply exp_pos|]. apply en_le1; [exact H|lra].
Qed.
Lemma exp1_lb : 2.7 <= exp 1.
Proof.
  replace 1 with (INR 128 * (1 / 128)) by (rewrite (INR_IZR_INZ 128); change (Z.of_nat 128) with 128%Z; lra). rewrite <- (Rpower_exp_nat 128). apply (Rle_trans _ ((1 + 1 / 128) ^ 128)); [|apply pow_incr; pose proof (exp_ineq1_le (1 / 128)); lra].
  replace (1 + 1 / 128) with (129 * / 128) by lra. rewrite Rpow_mult_distr, pow_inv. apply (Rmult_le_reg_r (128 ^ 128)); [apply pow_lt; lra|]. rewrite Rmult_assoc, Rinv_l by (apply pow_nonzero; lra). lra.
Qed.
Lemma exp_pow n : exp (- INR n) <= / 2.7 ^ n.
Proof.
  rewrite exp_Ropp. apply Rinv_le_contravar; [apply pow_lt; lra|]. induction n as [|n IH]; [cbn [pow INR]; rewrite exp_0; lra|]. rewrite S_INR, exp_plus. cbn [pow]. rewrite Rmult_comm. apply Rmult_le_compat; [apply pow_le; lra|lra|exact IH|]. pose proof exp1_lb. lra.
Qed.
(** x above 1000: the factors become small once k passes a *)
Lemma late_step a x k r : 0 < a <= x -> a <= INR (S k) -> 0 <= r -> 2 - a + INR (S k) <= r * (x + 1 + INR (S k)) -> Rabs (en a x (S (S k))) <= r * Rabs (en a x (S k)).
Proof.
  intros H Hk Hr Hb. destruct (Qn_grow a x (S k) H) as [P _]. pose proof (Qn_sharp a x k H ltac:(lra)) as G. assert (IS : INR (S (S k)) = INR (S k) + 1) by apply (S_INR (S k)).
  apply en_dec; [exact H|lra|exact Hr|]. apply (Rle_trans _ (r * ((x + 1 + INR (S k)) * Qn a x (S k)))); [|apply Rmult_le_compat_l; lra]. rewrite <- Rmult_assoc. apply Rmult_le_compat_r; [lra|]. lra.
Qed.
Lemma late a x m len : 0 < a <= x -> 1000 <= x -> a <= INR (S m) -> (S m + len = 2000)%nat -> Rabs (en a x 2001) <= 2002 / (x + 2001) * exp (- ((x + a - 1) / (x + 2001) * INR len)).
Proof.
  intros H Hx Ha E. assert (I0 : INR 2000 = 2000) by (rewrite INR_IZR_INZ; reflexivity). assert (Q : forall u, u <= x + 2001 -> u / (x + 2001) <= 1) by (intros u Hu; apply (Rmult_le_reg_r (x + 2001)); [lra|]; unfold Rdiv; rewrite Rmult_assoc, Rinv_l by lra; lra).
  assert (K2 : a <= 2000) by (apply (Rle_trans _ (INR (S m))); [exact Ha|]; rewrite <- I0; apply le_INR; lia).
  assert (L : Rabs (en a x 2001) <= 2002 / (x + 2001) * Rabs (en a x 2000)).
  { apply (late_step a x 1999); [exact H|rewrite I0; exact K2|left; apply Rdiv_lt_0_compat; lra|]. rewrite I0. replace (2002 / (x + 2001) * (x + 1 + 2000)) with 2002 by (field; lra). lra. }
  apply (Rle_trans _ _ _ L). apply Rmult_le_compat_l; [left; apply Rdiv_lt_0_compat; lra|]. set (d := (x + a - 1) / (x + 2001)).
  assert (Ed : d * (x + 2001) = x + a - 1) by (unfold d; field; lra). assert (D1 : 0 <= d) by (unfold d; left; apply Rdiv_lt_0_compat; lra). assert (D2 : d <= 1) by (apply Q; lra).
  pose proof (block a x (S m) len d H) as B. rewrite E in B. eapply Rle_trans; [apply B; [|lra]|].
  - intros k Hk. destruct k as [|k]; [lia|]. assert (K3 : INR (S k) <= 2000) by (rewrite <- I0; apply le_INR; lia). assert (K4 : INR (S m) <= INR (S k)) by (apply le_INR; lia).
    apply late_step; [exact H|lra|lra|]. assert (d * (x + 1 + INR (S k)) <= d * (x + 2001)) by (apply Rmult_le_compat_l; lra). lra.
  - rewrite <- (Rmult_1_r (exp _)) at 2. apply Rmult_le_compat_l; [left; apply exp_pos|]. apply en_le1; [exact H|lra].
Qed.
Lemma very_large_x a x : 0 < a <= x -> 1000 <= x -> a <= 1900 -> Rabs (en a x 2001) <= 2002 / (x + 2001) * / 2.7 ^ 50.
Proof.
  intros H Hx Ha.
  assert (T : forall len d, 50 <= d * INR len -> exp (- (d * INR len)) <= / 2.7 ^ 50).
  { intros len d Hd. eapply Rle_trans; [|apply exp_pow]. rewrite (INR_IZR_INZ 50). change (IZR (Z.of_nat 50)) with 50. destruct Hd as [Hd|Hd]; [left; apply exp_increasing; lra|right; rewrite <- Hd; reflexivity]. }
  assert (P : 0 <= 2002 / (x + 2001)) by (left; apply Rdiv_lt_0_compat; lra).
  assert (W : forall l c, 0 <= l -> c * (x + 2001) <= (x + a - 1) * l -> c <= (x + a - 1) / (x + 2001) * l) by (intros l c Hl Hc; apply (Rmult_le_reg_r (x + 2001)); [lra|]; replace ((x + a - 1) / (x + 2001) * l * (x + 2001)) with ((x + a - 1) * l) by (field; lra); exact Hc).
  destruct (Rle_dec a 1000) as [L|L].
  - eapply Rle_trans; [apply (late a x 999 1000 H Hx); [rewrite INR_IZR_INZ; change (Z.of_nat 1000) with 1000%Z; lra|reflexivity]|]. apply Rmult_le_compat_l; [exact P|]. apply T. rewrite (INR_IZR_INZ 1000). change (Z.of_nat 1000) with 1000%Z. apply W; lra.
  - eapply Rle_trans; [apply (late a x 1899 100 H Hx); [rewrite INR_IZR_INZ; change (Z.of_nat 1900) with 1900%Z; lra|reflexivity]|]. apply Rmult_le_compat_l; [exact P|]. apply T. rewrite (INR_IZR_INZ 100). change (Z.of_nat 100) with 100%Z. apply W; lra.
Qed.
(** after 2000 steps *)
Lemma exhausted a x : 0 < a <= x -> 1.1 <= x -> a <= 1900 -> Rabs (rn a x 2001 - Vv a x) <= / 2 ^ 53 * Vv a x.
Proof.
  intros H Hx Ha. rewrite (rn_en a x 2001 H). destruct (V_bounds a x H ltac:(lra)) as [V1 V2]. assert (V0 : 0 < Vv a x) by (apply (Rmult_lt_reg_l (x + 1)); lra).
  apply (Rle_trans _ (/ 2 ^ 53 * / (x + 1))); [|apply Rmult_le_compat_l; [left; apply Rinv_0_lt_compat, pow_lt; lra|apply (Rmult_le_reg_l (x + 1)); [lra|]; rewrite Rinv_r; lra]].
  destruct (Rle_dec x 1000) as [XL|XL].
  2:{ apply (Rle_trans _ _ _ (very_large_x a x H ltac:(lra) Ha)). apply (Rmult_le_reg_r ((x + 1) * (x + 2001) * (2 ^ 53 * 2.7 ^ 50))); [apply Rmult_lt_0_compat; [apply Rmult_lt_0_compat; lra|apply Rmult_lt_0_compat; apply pow_lt; lra]|].
    assert (N1 : 2.7 ^ 50 <> 0) by (apply pow_nonzero; lra). assert (N2 : 2 ^ 53 <> 0) by (apply pow_nonzero; lra).
    assert (B : 2002 * 2 ^ 53 <= 2.7 ^ 50) by lra.
    assert (P1 : 0 < 2.7 ^ 50) by (apply pow_lt; lra). assert (P2 : 0 < 2 ^ 53) by (apply pow_lt; lra). revert N1 N2 B P1 P2. generalize (2.7 ^ 50) (2 ^ 53). intros u w N1 N2 B P1 P2.
    replace (2002 / (x + 2001) * / u * ((x + 1) * (x + 2001) * (w * u))) with ((2002 * w) * (x + 1)) by (field; split; lra).
    replace (/ w * / (x + 1) * ((x + 1) * (x + 2001) * (w * u))) with (u * (x + 2001)) by (field; split; lra).
    apply Rmult_le_compat; lra. }
  assert (D : exists n, Rabs (en a x 2001) <= / 2.7 ^ n /\ 2 ^ 53 * (x + 1) <= 2.7 ^ n).
  { destruct (Rle_dec x 100) as [L|L].
    - exists 43%nat. split; [apply (Rle_trans _ _ _ (small_x a x H ltac:(lra))); pose proof (exp_pow 43) as X; rewrite (INR_IZR_INZ 43) in X; exact X|]. apply (Rle_trans _ (2 ^ 53 * 101)); [apply Rmult_le_compat_l; [apply pow_le|]; lra|]. lra.
    - exists 47%nat. split; [apply (Rle_trans _ _ _ (large_x a x H ltac:(lra)))|apply (Rle_trans _ (2 ^ 53 * 1001)); [apply Rmult_le_compat_l; [apply pow_le|]; lra|lra]].
      apply (Rle_trans _ (exp (- INR 47))); [|apply exp_pow]. assert (I : INR 47 = 47) by (rewrite INR_IZR_INZ; reflexivity). rewrite I. assert (B : 47 <= 1001 * ((x - 1) / (x + 2001))). { apply (Rmult_le_reg_r (x + 2001)); [lra|]. replace (1001 * ((x - 1) / (x + 2001)) * (x + 2001)) with (1001 * (x - 1)) by (field; lra). lra. }
      destruct B as [B|B]; [left; apply exp_increasing; lra|right; rewrite <- B; reflexivity]. }
  destruct D as (n & D1 & D2). apply (Rle_trans _ _ _ D1). rewrite <- Rinv_mult. apply Rinv_le_contravar; [apply Rmult_lt_0_compat; [apply pow_lt|]; lra|exact D2].
Qed.
