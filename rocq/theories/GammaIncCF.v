(** The continued fraction of the incomplete gamma function: its numerators and denominators, what they leave over, and how far a convergent is from the value *)
From Coq Require Import List Arith ZArith Lia Bool Reals Lra Psatz.
From Coquelicot Require Import Rcomplements Hierarchy Continuity Derive ElemFct AutoDerive RInt Lim_seq Rbar.
From Verif Require Import EllipSpec Improper ImproperLim GammaSpec GammaInt GammaFun HyperFacts HyperExp GammaFnSpec GammaFnFacts GammaInc GammaIncFacts.
Import ListNotations.
Open Scope R_scope.

(** ** The remainders as integrals *)
Fixpoint K (k : nat) (a x : R) : R := match k with O => Jv 0 (a - 1) x | S k' => K k' a x - K k' (a - 1) x end.
Definition kf (k : nat) (a x v : R) : R := (v / (1 + v)) ^ k * jf 0 (a - 1) x v.
Lemma jf_down a x v : 0 < v -> jf 0 a x v = (1 + v) * jf 0 (a - 1) x v.
Proof.
  intros H. unfold jf. cbn [pow]. replace (a - 1) with ((a - 1 - 1) + 1) at 1 by ring. rewrite Rpower_plus, Rpower_1 by lra. ring.
Qed.
Lemma K_ok k a x : 0 < x -> improper0 (kf k a x) (K k a x).
Proof.
  intros Hx. revert a. induction k as [|k IH]; intros a.
  - apply (improper0_ext (jf 0 (a - 1) x)); [intros t Ht; unfold kf; cbn [pow]; ring|apply Jv_ok, Hx].
  - cbn [K]. apply (improper0_ext (fun t => kf k a x t - kf k (a - 1) x t)); [|apply improper0_minus; apply IH].
    intros t Ht. unfold kf. rewrite (jf_down (a - 1) x t Ht). cbn [pow]. field. lra.
Qed.
Lemma kf_pos k a x v : 0 < v -> 0 <= kf k a x v.
Proof. intros H. unfold kf. apply Rmult_le_pos; [apply pow_le; left; apply Rdiv_lt_0_compat; lra|apply jf_pos, H]. Qed.
Lemma K_pos k a x : 0 < x -> 0 <= K k a x.
Proof. intros Hx. rewrite <- (Rmult_0_l (K k a x)). refine (improper0_le (fun t => 0 * kf k a x t) (kf k a x) _ _ _ _ (K_ok k a x Hx)); [intros t Ht; pose proof (kf_pos k a x t Ht); lra|]. apply improper0_scal, K_ok, Hx. Qed.
Lemma K_dec k a x : 0 < x -> K (S k) a x <= K k a x.
Proof. intros Hx. cbn [K]. pose proof (K_pos k (a - 1) x Hx). lra. Qed.
Lemma K_rec k a x : 0 < x -> (x + 2 * INR k + 2 - a) * K k a x - (INR k + 2 - a) * K (S k) a x - INR k * K (pred k) a x = if Nat.eqb k 0 then exp (- x) else 0.
Proof.
  intros Hx. revert a. induction k as [|k IH]; intros a.
  - cbn [K pred Nat.eqb INR]. pose proof (Jv_S (a - 2) x Hx) as J. replace (a - 2 + 1) with (a - 1) in J by ring. replace (a - 1 - 1) with (a - 2) by ring. lra.
  - cbn [Nat.eqb pred]. pose proof (IH a) as A. pose proof (IH (a - 1)) as B. rewrite S_INR. cbn [K] in *. destruct k as [|k]; cbn [pred K Nat.eqb INR] in *; try rewrite S_INR in *; lra.
Qed.

(** ** Numerators and denominators *)
Fixpoint cfs (a x u0 u1 : R) (k : nat) : R * R :=
  match k with O => (u0, u1) | S k' => let (u, w) := cfs a x u0 u1 k' in (w, (x + 2 - a + 2 * INR k) * w - (1 - a + INR k) * INR k * u) end.
Definition Pn (a x : R) (k : nat) : R := fst (cfs a x 1 (x + 1) k).
Definition Qn (a x : R) (k : nat) : R := fst (cfs a x x ((x + 2 - a) * x) k).
Lemma cfs_S a x u0 u1 k : fst (cfs a x u0 u1 (S k)) = snd (cfs a x u0 u1 k).
Proof. cbn [cfs]. destruct (cfs a x u0 u1 k). reflexivity. Qed.
Lemma cfs_SS a x u0 u1 k : fst (cfs a x u0 u1 (S (S k))) = (x + 2 - a + 2 * INR (S k)) * fst (cfs a x u0 u1 (S k)) - (1 - a + INR (S k)) * INR (S k) * fst (cfs a x u0 u1 k).
Proof. rewrite cfs_S. cbn [cfs]. destruct (cfs a x u0 u1 k). reflexivity. Qed.
Definition Vv (a x : R) : R := exp x * Jv 0 a x.
Lemma leftover a x k : 0 < x -> Pn a x k - Qn a x k * Vv a x = rising (1 - a) (S k) * exp x * K k a x /\ Pn a x (S k) - Qn a x (S k) * Vv a x = rising (1 - a) (S (S k)) * exp x * K (S k) a x.
Proof.
  intros Hx. assert (E : exp x * exp (- x) = 1) by (rewrite <- exp_plus; replace (x + - x) with 0 by ring; apply exp_0).
  assert (B : 1 - x * Vv a x = (1 - a) * exp x * Jv 0 (a - 1) x). { unfold Vv. pose proof (Jv_S (a - 1) x Hx) as J. replace (a - 1 + 1) with a in J by ring. replace (x * (exp x * Jv 0 a x)) with (exp x * (x * Jv 0 a x)) by ring. rewrite J, Rmult_plus_distr_l, E. ring. }
  induction k as [|k [IH1 IH2]].
  - split; [unfold Pn, Qn; cbn [cfs fst K rising]; lra|]. unfold Pn, Qn. rewrite !cfs_S. cbn [cfs snd rising].
    pose proof (K_rec 0 a x Hx) as R0. cbn [Nat.eqb INR pred] in R0. replace ((1 - a) * ((1 - a + 1) * 1) * exp x * K 1 a x) with ((1 - a) * exp x * ((0 + 2 - a) * K 1 a x)) by ring.
    replace ((0 + 2 - a) * K 1 a x) with ((x + 2 * 0 + 2 - a) * K 0 a x - 0 * K 0 a x - exp (- x)) by lra.
    replace ((1 - a) * exp x * ((x + 2 * 0 + 2 - a) * K 0 a x - 0 * K 0 a x - exp (- x))) with ((x + 2 - a) * ((1 - a) * exp x * K 0 a x) - (1 - a) * (exp x * exp (- x))) by ring. cbn [K]. rewrite <- B, E. ring.
  - split; [exact IH2|]. unfold Pn, Qn in *. rewrite !cfs_SS. set (z := x + 2 - a + 2 * INR (S k)). set (y := (1 - a + INR (S k)) * INR (S k)).
    match goal with |- z * ?p1 - y * ?p0 - (z * ?q1 - y * ?q0) * ?v = _ => replace (z * p1 - y * p0 - (z * q1 - y * q0) * v) with (z * (p1 - q1 * v) - y * (p0 - q0 * v)) by ring end.
    rewrite IH1, IH2. pose proof (K_rec (S k) a x Hx) as RR. cbn [Nat.eqb pred] in RR. rewrite (rising_snoc (1 - a) (S (S k))), (rising_snoc (1 - a) (S k)).
    replace (INR (S (S k))) with (INR (S k) + 1) by (rewrite (S_INR (S k)); reflexivity). unfold z, y.
    replace (rising (1 - a) (S k) * (1 - a + INR (S k)) * (1 - a + (INR (S k) + 1)) * exp x * K (S (S k)) a x) with (rising (1 - a) (S k) * (1 - a + INR (S k)) * exp x * ((INR (S k) + 2 - a) * K (S (S k)) a x)) by ring.
    replace ((INR (S k) + 2 - a) * K (S (S k)) a x) with ((x + 2 * INR (S k) + 2 - a) * K (S k) a x - INR (S k) * K k a x) by lra. ring.
Qed.

(** ** Growth *)
Lemma growth a x u0 u1 k : 0 < a <= x -> 0 < u0 -> 2 * u0 <= u1 -> let u := fun k => fst (cfs a x u0 u1 k) in 0 < u k /\ (INR k + 2) * u k <= u (S k).
Proof.
  intros Ha H0 H1 u. induction k as [|k [IH1 IH2]].
  - unfold u. rewrite cfs_S. cbn [cfs fst snd INR]. split; [exact H0|lra].
  - pose proof (pos_INR k) as Hk. assert (P : 0 < u (S k)) by (eapply Rlt_le_trans; [|exact IH2]; apply Rmult_lt_0_compat; lra). split; [exact P|].
    unfold u at 2. rewrite cfs_SS. fold (u (S k)) (u k). rewrite S_INR.
    destruct (Rle_dec (1 - a + (INR k + 1)) 0) as [N|N].
    + assert (0 <= - ((1 - a + (INR k + 1)) * (INR k + 1) * u k)). { replace (- ((1 - a + (INR k + 1)) * (INR k + 1) * u k)) with ((- (1 - a + (INR k + 1))) * ((INR k + 1) * u k)) by ring. apply Rmult_le_pos; [lra|]. apply Rmult_le_pos; lra. }
      assert ((INR k + 1 + 2) * u (S k) <= (x + 2 - a + 2 * (INR k + 1)) * u (S k)) by (apply Rmult_le_compat_r; lra). lra.
    + assert (B1 : (1 - a + (INR k + 1)) * ((INR k + 1) * u k) <= (INR k + 2) * ((INR k + 1) * u k)) by (apply Rmult_le_compat_r; [apply Rmult_le_pos; lra|lra]).
      assert (B2 : (INR k + 1) * ((INR k + 2) * u k) <= (INR k + 1) * u (S k)) by (apply Rmult_le_compat_l; lra).
      assert (B3 : (INR k + 1 + 2) * u (S k) <= (x + 2 - a + 2 * (INR k + 1) - (INR k + 1)) * u (S k)) by (apply Rmult_le_compat_r; lra). lra.
Qed.
Lemma Qn_grow a x k : 0 < a <= x -> 0 < Qn a x k /\ (INR k + 2) * Qn a x k <= Qn a x (S k).
Proof. intros H. apply (growth a x x ((x + 2 - a) * x) k H); [lra|]. apply Rmult_le_compat_r; lra. Qed.
Lemma Pn_grow a x k : 0 < a <= x -> 1 <= x -> 0 < Pn a x k /\ (INR k + 2) * Pn a x k <= Pn a x (S k).
Proof. intros H H1. apply (growth a x 1 (x + 1) k H); lra. Qed.
(** once the partial numerators are negative *)
Lemma Qn_sharp a x k : 0 < a <= x -> 0 <= 1 - a + INR (S k) -> (x + 1 + INR (S k)) * Qn a x (S k) <= Qn a x (S (S k)).
Proof.
  intros H N. destruct (Qn_grow a x k H) as [P G]. unfold Qn in *. rewrite cfs_SS. set (q1 := fst (cfs a x x ((x + 2 - a) * x) (S k))) in *. set (q0 := fst (cfs a x x ((x + 2 - a) * x) k)) in *. rewrite S_INR in *. pose proof (pos_INR k).
  assert ((1 - a + (INR k + 1)) * ((INR k + 1) * q0) <= (1 - a + (INR k + 1)) * q1) by (apply Rmult_le_compat_l; [lra|]; apply (Rle_trans _ ((INR k + 2) * q0)); [apply Rmult_le_compat_r; lra|exact G]). lra.
Qed.
Lemma Qn_blunt a x k : 0 < a <= x -> 1 - a + INR (S k) <= 0 -> (x + 2 - a + 2 * INR (S k)) * Qn a x (S k) <= Qn a x (S (S k)).
Proof.
  intros H N. destruct (Qn_grow a x k H) as [P _]. unfold Qn in *. rewrite cfs_SS. set (q1 := fst (cfs a x x ((x + 2 - a) * x) (S k))) in *. set (q0 := fst (cfs a x x ((x + 2 - a) * x) k)) in *. pose proof (pos_INR (S k)).
  assert (0 <= (- (1 - a + INR (S k))) * (INR (S k) * q0)) by (apply Rmult_le_pos; [lra|apply Rmult_le_pos; lra]). lra.
Qed.

(** ** Distance of a convergent from the value *)
Definition rn (a x : R) (k : nat) : R := Pn a x k / Qn a x k.
Definition en (a x : R) (k : nat) : R := rising (1 - a) (S k) * exp x * K k a x / Qn a x k.
Lemma rn_en a x k : 0 < a <= x -> rn a x k - Vv a x = en a x k.
Proof. intros H. destruct (Qn_grow a x k H) as [P _]. unfold rn, en. rewrite <- (proj1 (leftover a x k ltac:(lra))). field. lra. Qed.
(** the next error is a multiple of this one *)
Lemma en_step a x k : 0 < a <= x -> en a x (S k) * Qn a x (S k) * K k a x = (1 - a + INR (S k)) * K (S k) a x * (en a x k * Qn a x k).
Proof. intros H. destruct (Qn_grow a x k H) as [P _]. destruct (Qn_grow a x (S k) H) as [P1 _]. unfold en. rewrite (rising_snoc (1 - a) (S k)). field. lra. Qed.
Lemma en_ratio a x k : 0 < a <= x -> exists h, 0 <= h <= 1 /\ en a x (S k) = (1 - a + INR (S k)) * h * (Qn a x k / Qn a x (S k)) * en a x k.
Proof.
  intros H. destruct (Qn_grow a x k H) as [P _]. destruct (Qn_grow a x (S k) H) as [P1 _]. pose proof (K_pos k a x ltac:(lra)) as K0. pose proof (K_pos (S k) a x ltac:(lra)) as K1. pose proof (K_dec k a x ltac:(lra)) as D.
  destruct (Req_dec (K k a x) 0) as [Z|Z].
  - exists 0. split; [lra|]. assert (Z1 : K (S k) a x = 0) by lra. unfold en. rewrite Z1. unfold Rdiv. ring.
  - exists (K (S k) a x / K k a x). assert (0 < K k a x) by lra. split; [split; [apply Rdiv_le_0_compat; lra|apply (Rmult_le_reg_r (K k a x)); [lra|]; unfold Rdiv; rewrite Rmult_assoc, Rinv_l; lra]|].
    unfold en. rewrite (rising_snoc (1 - a) (S k)). field. repeat split; lra.
Qed.
Lemma en_bound a x k : 0 < a <= x -> 1 < x -> Rabs (en a x (S (S k))) <= Rmax 1 (INR (k + 3) / (x + a - 1)) * Rabs (rn a x (S (S k)) - rn a x (S k)).
Proof.
  intros H Hx. pose proof (rn_en a x (S k) H) as E1. pose proof (rn_en a x (S (S k)) H) as E2. replace (rn a x (S (S k)) - rn a x (S k)) with (en a x (S (S k)) - en a x (S k)) by lra.
  destruct (en_ratio a x (S k) H) as (h & Hh & E). destruct (Qn_grow a x (S k) H) as [P _]. destruct (Qn_grow a x (S (S k)) H) as [P1 _]. set (e1 := en a x (S k)) in *. set (e2 := en a x (S (S k))) in *.
  set (q := Qn a x (S k) / Qn a x (S (S k))) in *. assert (Hq : 0 < q) by (apply Rdiv_lt_0_compat; assumption). set (t := (1 - a + INR (S (S k))) * h * q) in *.
  assert (M1 := Rmax_l 1 (INR (k + 3) / (x + a - 1))). assert (M2 := Rmax_r 1 (INR (k + 3) / (x + a - 1))). set (M := Rmax 1 (INR (k + 3) / (x + a - 1))) in *.
  assert (IS : INR (S (S k)) = INR (S k) + 1) by (rewrite (S_INR (S k)); reflexivity). assert (I3 : INR (k + 3) = INR (S k) + 2) by (rewrite plus_INR, (S_INR k); cbn [INR]; ring). pose proof (pos_INR k) as Hk. assert (I1 : INR (S k) = INR k + 1) by apply S_INR.
  (* |e2| <= M |e2 - e1| whenever e2 = t e1 with t <= M (1 - t) or t <= 0 *)
  assert (F : t <= 0 \/ t < 1 /\ t <= M * (1 - t) -> Rabs e2 <= M * Rabs (e2 - e1)).
  { intros [Nt|[Lt Lm]].
    - replace (e2 - e1) with (- ((1 - t) * e1)) by (rewrite E; ring). rewrite Rabs_Ropp, Rabs_mult, E, Rabs_mult, (Rabs_left1 t Nt), (Rabs_right (1 - t)) by lra. pose proof (Rabs_pos e1). assert (- t <= M * (1 - t)) by (apply (Rle_trans _ (1 * (1 - t))); [lra|apply Rmult_le_compat_r; lra]). rewrite <- Rmult_assoc. apply Rmult_le_compat_r; assumption.
    - destruct (Rle_dec t 0) as [Nt|Nt].
      + replace (e2 - e1) with (- ((1 - t) * e1)) by (rewrite E; ring). rewrite Rabs_Ropp, Rabs_mult, E, Rabs_mult, (Rabs_left1 t Nt), (Rabs_right (1 - t)) by lra. pose proof (Rabs_pos e1). assert (- t <= M * (1 - t)) by (apply (Rle_trans _ (1 * (1 - t))); [lra|apply Rmult_le_compat_r; lra]). rewrite <- Rmult_assoc. apply Rmult_le_compat_r; assumption.
      + replace (e2 - e1) with (- ((1 - t) * e1)) by (rewrite E; ring). rewrite Rabs_Ropp, Rabs_mult, E, Rabs_mult, (Rabs_right t), (Rabs_right (1 - t)) by lra. pose proof (Rabs_pos e1). rewrite <- Rmult_assoc. apply Rmult_le_compat_r; assumption. }
  apply F. set (n := 1 - a + INR (S (S k))) in *. destruct (Rle_dec n 0) as [N|N]; [left; unfold t; rewrite Rmult_assoc; assert (0 <= h * q) by (apply Rmult_le_pos; lra); nra|]. right.
  assert (T1 : t <= n * q) by (unfold t; rewrite Rmult_assoc; apply Rmult_le_compat_l; [lra|]; rewrite <- (Rmult_1_l q) at 2; apply Rmult_le_compat_r; lra).
  destruct (Rle_dec 0 (1 - a + INR (S k))) as [N1|N1].
  - pose proof (Qn_sharp a x k H N1) as G. assert (B : q * (x + 1 + INR (S k)) <= 1) by (unfold q; apply (Rmult_le_reg_r (Qn a x (S (S k)))); [exact P1|]; replace (Qn a x (S k) / Qn a x (S (S k)) * (x + 1 + INR (S k)) * Qn a x (S (S k))) with ((x + 1 + INR (S k)) * Qn a x (S k)) by (field; lra); lra).
    assert (TB : n * q * (x + 1 + INR (S k)) <= n) by (rewrite Rmult_assoc; rewrite <- (Rmult_1_r n) at 2; apply Rmult_le_compat_l; lra).
    assert (L : n * q < 1) by (apply (Rmult_lt_reg_r (x + 1 + INR (S k))); [lra|]; unfold n in *; lra).
    assert (W : n <= M * (x + a - 1)). { apply (Rle_trans _ (INR (k + 3) / (x + a - 1) * (x + a - 1))); [unfold Rdiv; rewrite Rmult_assoc, Rinv_l by lra; unfold n; lra|apply Rmult_le_compat_r; lra]. }
    assert (L2 : n * q <= M * (1 - n * q)). { apply (Rmult_le_reg_r (x + 1 + INR (S k))); [lra|]. apply (Rle_trans _ n); [exact TB|]. apply (Rle_trans _ (M * (x + a - 1))); [exact W|]. rewrite Rmult_assoc. apply Rmult_le_compat_l; [lra|]. unfold n in *. lra. }
    split; [lra|]. apply (Rle_trans _ (n * q)); [exact T1|]. apply (Rle_trans _ _ _ L2). apply Rmult_le_compat_l; lra.
  - pose proof (Qn_blunt a x k H ltac:(lra)) as G. assert (B : q * (x + 2 - a + 2 * INR (S k)) <= 1) by (unfold q; apply (Rmult_le_reg_r (Qn a x (S (S k)))); [exact P1|]; replace (Qn a x (S k) / Qn a x (S (S k)) * (x + 2 - a + 2 * INR (S k)) * Qn a x (S (S k))) with ((x + 2 - a + 2 * INR (S k)) * Qn a x (S k)) by (field; lra); lra).
    assert (q * 2 <= 1) by (apply (Rle_trans _ (q * (x + 2 - a + 2 * INR (S k)))); [apply Rmult_le_compat_l; lra|exact B]). assert (n <= 1) by (unfold n; lra). assert (n * q <= 1/2) by (apply (Rle_trans _ (1 * q)); [apply Rmult_le_compat_r; lra|lra]).
    split; [lra|]. apply (Rle_trans _ (1/2)); [lra|]. apply (Rle_trans _ (1 * (1 - t))); [lra|apply Rmult_le_compat_r; lra].
Qed.

(** ** The loop *)
Lemma cfloop eps fuel a x k s : 0 < a <= x -> 1 <= x -> 0 < s ->
  exists n, (k < n <= k + fuel + 1)%nat /\ cf_loop eps fuel (1 - a + INR k) (x + 2 - a + 2 * INR k) (INR k) (Pn a x k * s) (Qn a x k * s) (Pn a x (S k) * s) (Qn a x (S k) * s) (rn a x (S k)) = rn a x n /\
  (n = (k + fuel + 1)%nat \/ (k + 1 < n)%nat /\ Rabs (rn a x (pred n) - rn a x n) <= eps * rn a x n).
Proof.
  intros H H1. revert k s. induction fuel as [|fuel IH]; intros k s Hs; cbn [cf_loop].
  - exists (S k). split; [lia|]. split; [reflexivity|left; lia].
  - replace (1 - a + INR k + 1) with (1 - a + INR (S k)) by (rewrite S_INR; ring). replace (x + 2 - a + 2 * INR k + 2) with (x + 2 - a + 2 * INR (S k)) by (rewrite S_INR; ring). replace (INR k + 1) with (INR (S k)) by apply S_INR.
    replace (Pn a x (S k) * s * (x + 2 - a + 2 * INR (S k)) - Pn a x k * s * ((1 - a + INR (S k)) * INR (S k))) with (Pn a x (S (S k)) * s) by (unfold Pn; rewrite cfs_SS; ring).
    replace (Qn a x (S k) * s * (x + 2 - a + 2 * INR (S k)) - Qn a x k * s * ((1 - a + INR (S k)) * INR (S k))) with (Qn a x (S (S k)) * s) by (unfold Qn; rewrite cfs_SS; ring).
    destruct (Qn_grow a x (S (S k)) H) as [Pq _]. destruct (Pn_grow a x (S (S k)) H H1) as [Pp _]. destruct (Req_EM_T (Qn a x (S (S k)) * s) 0) as [Z|_]; [exfalso; assert (0 < Qn a x (S (S k)) * s) by (apply Rmult_lt_0_compat; assumption); lra|].
    replace (Pn a x (S (S k)) * s / (Qn a x (S (S k)) * s)) with (rn a x (S (S k))) by (unfold rn; field; lra). assert (Pr : 0 < rn a x (S (S k))) by (apply Rdiv_lt_0_compat; assumption).
    destruct (Rle_dec (Rabs ((rn a x (S k) - rn a x (S (S k))) / rn a x (S (S k)))) eps) as [St|_].
    + exists (S (S k)). split; [lia|]. split; [reflexivity|right; split; [lia|]]. cbn [pred]. unfold Rdiv in St. rewrite Rabs_mult, (Rabs_right (/ rn a x (S (S k)))) in St by (left; apply Rinv_0_lt_compat; exact Pr).
      apply (Rmult_le_compat_r (rn a x (S (S k)))) in St; [|lra]. rewrite Rmult_assoc, Rinv_l, Rmult_1_r in St by lra. exact St.
    + set (c := if Rlt_dec BIG (Rabs (Pn a x (S (S k)) * s)) then BIGINV else 1). assert (Hc : 0 < c) by (unfold c, BIGINV; destruct (Rlt_dec _ _); lra). rewrite !Rmult_assoc.
      destruct (IH (S k) (s * c) ltac:(apply Rmult_lt_0_compat; assumption)) as (n & B & E & C). exists n. split; [lia|]. split; [exact E|]. destruct C as [C|[C1 C2]]; [left; lia|right; split; [lia|exact C2]].
Qed.
