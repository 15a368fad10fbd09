(** * C70: hypergeometric series and the function T *)
From Coq Require Import List Bool Arith ZArith Lia Reals Lra Psatz.
From Coquelicot Require Import Rcomplements Rbar Lim_seq Hierarchy Complex.
From Verif Require Import Cosmo Roots RootsC CarlsonC EllipSpec GammaSpec GammaInt GammaFun HyperSpec Hyper HyperFacts HyperExp.
Import ListNotations.
Open Scope R_scope.

(** ** C70: the value returned is the partial sum up to the first term, not counting the zeroth, that is smaller than the tolerance; it is not a number when
    there is none among the first [maxterms] terms or a denominator vanishes before. *)
Theorem C70_value eps a b z maxterms v : hypsum eps a b z maxterms = Some v <->
  exists n, (1 <= n <= maxterms)%nat /\ no_pole b n /\ Cmod (hyp_term a b z n) < eps /\ (forall i, (1 <= i < n)%nat -> eps <= Cmod (hyp_term a b z i)) /\ v = hyp_sum a b z n.
Proof.
  assert (N0 : no_pole b 0) by (intros x k _ Hk; lia). pose proof (loop_ok eps a b z maxterms 0 v N0) as L. cbn [hyp_sum] in L. rewrite hyp_term_0 in L. unfold hypsum. rewrite L. split; intros (n & H1 & H2 & H3 & H4 & H5); exists n; repeat split; try assumption; try lia; intros i Hi; apply H4; lia.
Qed.
(** The error: if from the N-th term on every term is at most r < 1 times the one before, and no earlier term is below the tolerance, the value returned is within eps r/(1-r) of the sum of the series. *)
Theorem C70_error eps a b z maxterms v S N r : hypsum eps a b z maxterms = Some v -> is_hyper a b z S -> 0 <= r < 1 ->
  (forall n, (N <= n)%nat -> Cmod (hyp_term a b z (n + 1)) <= r * Cmod (hyp_term a b z n)) -> (forall i, (1 <= i < N)%nat -> eps <= Cmod (hyp_term a b z i)) ->
  Cmod (v - S)%C <= eps * (r / (1 - r)).
Proof.
  intros H HS Hr R E. apply C70_value in H. destruct H as (j & Hj & _ & Lj & _ & ->).
  assert (Nj : (N <= j)%nat) by (destruct (le_lt_dec N j) as [A|A]; [exact A|]; specialize (E j ltac:(lia)); lra).
  assert (R' : forall n, (j <= n)%nat -> Cmod (hyp_term a b z (Datatypes.S n)) <= r * Cmod (hyp_term a b z n)) by (intros n Hn; rewrite <- Nat.add_1_r; apply R; lia).
  assert (T : forall n, Cmod (hyp_sum a b z (j + n) - hyp_sum a b z j)%C <= eps * (r / (1 - r))).
  { intros n. eapply Rle_trans; [apply (tail_sum a b z j r Hr R')|]. assert (0 <= r ^ n <= 1) by (split; [apply pow_le; lra|rewrite <- (pow1 n); apply pow_incr; lra]). assert (0 < / (1 - r)) by (apply Rinv_0_lt_compat; lra). pose proof (Cmod_ge_0 (hyp_term a b z j)).
    apply Rmult_le_compat; [lra| |lra|]; unfold Rdiv; [apply Rmult_le_pos; [apply Rmult_le_pos; lra|lra]|]. apply Rmult_le_compat_r; [lra|]. nra. }
  apply le_epsilon. intros d Hd. destruct (HS d Hd) as (M & HM). specialize (HM (j + M)%nat ltac:(lia)). specialize (T M).
  replace (hyp_sum a b z j - S)%C with (- (hyp_sum a b z (j + M) - hyp_sum a b z j) + (hyp_sum a b z (j + M) - S))%C by ring. eapply Rle_trans; [apply Cmod_triangle|]. rewrite Cmod_opp. lra.
Qed.
(** For at most as many upper as lower parameters, or one more and |z| < 1, the series has a sum, and enough terms give a value that is a number. *)
Theorem C70_converges a b z eps : 0 < eps -> (forall n, no_pole b n) -> (length a <= length b)%nat \/ (length a = S (length b) /\ Cmod z < 1) ->
  (exists v, is_hyper a b z v) /\ exists M, forall maxterms, (M <= maxterms)%nat -> exists v, hypsum eps a b z maxterms = Some v.
Proof.
  intros He NP H. destruct (terms_small a b z NP H) as (N & r & Hr & R). split; [exact (series_sum a b z N r Hr R)|].
  assert (S0 : exists n, (1 <= n)%nat /\ Cmod (hyp_term a b z n) < eps).
  { set (K := Cmod (hyp_term a b z N) + 1). pose proof (Cmod_ge_0 (hyp_term a b z N)) as K0. destruct (pow_lt_1_zero r ltac:(rewrite Rabs_pos_eq; lra) (eps / K) ltac:(apply Rdiv_lt_0_compat; unfold K; lra)) as (M & HM). specialize (HM (M + 1)%nat ltac:(lia)). rewrite Rabs_pos_eq in HM by (apply pow_le; lra).
    exists (N + (M + 1))%nat. split; [lia|]. eapply Rle_lt_trans; [apply (geometric a b z N r ltac:(lra) R)|]. apply (Rmult_lt_compat_r K) in HM; [|unfold K; lra]. replace (eps / K * K) with eps in HM by (field; unfold K; lra). eapply Rle_lt_trans; [|exact HM]. apply Rmult_le_compat_l; [apply pow_le; lra|unfold K; lra]. }
  destruct S0 as (n & Hn & Ln).
  assert (F : forall n, (1 <= n)%nat -> Cmod (hyp_term a b z n) < eps -> exists j, (1 <= j <= n)%nat /\ Cmod (hyp_term a b z j) < eps /\ forall i, (1 <= i < j)%nat -> eps <= Cmod (hyp_term a b z i)).
  { clear n Hn Ln. intros n. induction n as [n IH] using lt_wf_ind. intros Hn Ln.
    destruct (Exists_dec (fun i => Cmod (hyp_term a b z i) < eps) (seq 1 (n - 1)) (fun i => Rlt_dec _ _)) as [E|E].
    - apply Exists_exists in E. destruct E as (i & Hi & Li). apply in_seq in Hi. destruct (IH i ltac:(lia) ltac:(lia) Li) as (j & Hj & A). exists j. split; [lia|exact A].
    - exists n. split; [lia|]. split; [exact Ln|]. intros i Hi. destruct (Rle_or_lt eps (Cmod (hyp_term a b z i))) as [A|A]; [exact A|]. exfalso. apply E, Exists_exists. exists i. split; [apply in_seq; lia|exact A]. }
  destruct (F n Hn Ln) as (j & Hj & Lj & Aj). exists j. intros m Hm. exists (hyp_sum a b z j). apply C70_value. exists j. split; [lia|]. split; [apply NP|]. split; [exact Lj|]. split; [exact Aj|reflexivity].
Qed.
(** *** The stopping test is not a bound for the error. *)
(** For every tolerance and every bound K there is a confluent series 1F1(a; 1; z) whose value is reported as 1 + eps/2 although its sum exceeds K: the first term is small, the second is not. *)
Theorem C70_early_refuted eps K maxterms : 0 < eps -> 0 < K -> (1 <= maxterms)%nat -> exists a z, 0 < a /\ 0 < z /\
  hypsum eps [RtoC a] [RtoC 1] (RtoC z) maxterms = Some (RtoC (1 + eps / 2)) /\ (exists S, is_hyper [RtoC a] [RtoC 1] (RtoC z) S) /\ forall S, is_hyper [RtoC a] [RtoC 1] (RtoC z) S -> K <= Cmod S.
Proof.
  intros He HK Hm. set (z := 8 * K / eps). set (a := eps / (2 * z)). assert (Pz : 0 < z) by (apply Rdiv_lt_0_compat; lra). assert (Pa : 0 < a) by (apply Rdiv_lt_0_compat; lra). exists a, z. split; [exact Pa|]. split; [exact Pz|].
  assert (NP : forall n, no_pole (map RtoC [1]) n) by (intros n; apply no_pole_pos; intros x [<-|[]]; lra). assert (T1 : rterm [a] [1] z 1 = eps / 2) by (unfold rterm, a; cbn; field; lra).
  split.
  - change [RtoC a] with (map RtoC [a]). change [RtoC 1] with (map RtoC [1]). apply C70_value. exists 1%nat. split; [lia|]. split; [apply NP|]. rewrite (term_real [a] [1] z 1 (NP 1%nat)), (sum_real [a] [1] z 1 (NP 1%nat)). cbn [rsum]. rewrite T1. split; [rewrite Cmod_R, Rabs_pos_eq; lra|]. split; [intros i Hi; lia|].
    f_equal. unfold rterm. cbn. field.
  - assert (RS : forall n, K <= rsum [a] [1] z (2 + n)).
    { assert (PP : forall n, 0 < rterm [a] [1] z n). { intros n. unfold rterm. cbn [map Rprod fold_right]. assert (forall x, 0 < x -> forall n, 0 < rpoch x n) as RP by (intros x Hx k; induction k as [|k IH]; cbn [rpoch]; [lra|apply Rmult_lt_0_compat; [exact IH|pose proof (pos_INR k); lra]]). pose proof (RP a Pa n). pose proof (RP 1 ltac:(lra) n). pose proof (INR_fact_lt_0 n). assert (0 < z ^ n) by (apply pow_lt, Pz). apply Rdiv_lt_0_compat; [|assumption]. apply Rmult_lt_0_compat; [|assumption]. apply Rdiv_lt_0_compat; lra. }
      intros n. induction n as [|n IH].
      - cbn [rsum Nat.add]. pose proof (PP 0%nat). pose proof (PP 1%nat). assert (K <= rterm [a] [1] z 2); [|lra]. assert (E2 : rterm [a] [1] z 2 = (a * z) * z * (a + 1) / 4) by (unfold rterm; cbn; field). rewrite E2. replace (a * z) with (eps / 2) by (unfold a; field; lra). replace (eps / 2 * z) with (4 * K) by (unfold z; field; lra). nra.
      - rewrite Nat.add_succ_r. cbn [rsum]. pose proof (PP (S (2 + n))). lra. }
    destruct (C70_converges [RtoC a] [RtoC 1] (RtoC z) eps He NP ltac:(left; cbn; lia)) as [EX _]. split; [exact EX|]. intros S HS. apply le_epsilon. intros d Hd. destruct (HS d Hd) as (M & HM). specialize (HM (2 + M)%nat ltac:(lia)). change [RtoC a] with (map RtoC [a]) in HM. change [RtoC 1] with (map RtoC [1]) in HM. rewrite (sum_real [a] [1] z (2 + M) (NP _)) in HM. specialize (RS M).
    pose proof (Cmod_triangle (RtoC (rsum [a] [1] z (2 + M)) - S)%C S) as T. replace (RtoC (rsum [a] [1] z (2 + M)) - S + S)%C with (RtoC (rsum [a] [1] z (2 + M))) in T by ring. rewrite (Cmod_R (rsum [a] [1] z (2 + M))) in T. pose proof (Rle_abs (rsum [a] [1] z (2 + M))). lra.
Qed.
Lemma geometric_term z n : hyp_term [RtoC 1] [] (RtoC z) n = RtoC (z ^ n).
Proof.
  change [RtoC 1] with (map RtoC [1]). change (@nil C) with (map RtoC []). rewrite term_real by (intros x k []). f_equal. unfold rterm. cbn [map Rprod fold_right]. assert (E : rpoch 1 n = INR (fact n)) by (induction n as [|n IH]; [reflexivity|]; cbn [rpoch]; rewrite IH, fact_simpl, mult_INR, S_INR; ring). rewrite E. pose proof (INR_fact_neq_0 n). field. assumption.
Qed.
Lemma geometric_sum z n : z <> 1 -> hyp_sum [RtoC 1] [] (RtoC z) n = RtoC ((1 - z ^ (n + 1)) / (1 - z)).
Proof.
  intros Hz. induction n as [|n IH]; cbn [hyp_sum]; rewrite geometric_term.
  - f_equal. cbn. field. lra.
  - rewrite IH, <- RtoC_plus. f_equal. replace (S n + 1)%nat with (S (S n)) by lia. replace (n + 1)%nat with (S n) by lia. cbn [pow]. field. lra.
Qed.
(** Whatever the number of terms, the geometric series 1F0(1; ; z) is reported as not a number for some z in (0, 1), where its sum is 1/(1-z). *)
Theorem C70_maxterms_refuted eps maxterms : 0 < eps < 1 -> exists z, 0 < z < 1 /\ hypsum eps [RtoC 1] [] (RtoC z) maxterms = None /\ is_hyper [RtoC 1] [] (RtoC z) (RtoC (/ (1 - z))).
Proof.
  intros He. set (m := INR maxterms + 1). assert (Pm : 1 <= m) by (unfold m; pose proof (pos_INR maxterms); lra). set (d := (1 - eps) / m). assert (Pd : 0 < d) by (apply Rdiv_lt_0_compat; lra). assert (Dm : d * m = 1 - eps) by (unfold d; field; lra). assert (d <= d * m) by nra. exists (1 - d). split; [lra|]. split.
  - destruct (hypsum eps [RtoC 1] [] (RtoC (1 - d)) maxterms) as [v|] eqn:E; [|reflexivity]. exfalso. apply C70_value in E. destruct E as (n & Hn & _ & Ln & _). rewrite geometric_term, Cmod_R, Rabs_pos_eq in Ln by (apply pow_le; lra).
    assert (BE : forall k, 1 - INR k * d <= (1 - d) ^ k). { intros k. induction k as [|k IH]; [cbn; lra|]. rewrite S_INR. cbn [pow]. pose proof (pos_INR k). nra. }
    specialize (BE n). assert (INR n <= INR maxterms) by (apply le_INR; lia). unfold m in *. nra.
  - intros e He2. destruct (pow_lt_1_zero (1 - d) ltac:(rewrite Rabs_pos_eq; lra) (e * d) ltac:(apply Rmult_lt_0_compat; lra)) as (M & HM). exists M. intros n Hn. rewrite geometric_sum by lra. rewrite <- RtoC_minus, Cmod_R. specialize (HM (n + 1)%nat ltac:(lia)).
    replace ((1 - (1 - d) ^ (n + 1)) / (1 - (1 - d)) - / (1 - (1 - d))) with (- ((1 - d) ^ (n + 1) / d)) by (field; lra). rewrite Rabs_Ropp. unfold Rdiv. rewrite Rabs_mult, (Rabs_pos_eq (/ d)) by (left; apply Rinv_0_lt_compat, Pd). apply (Rmult_lt_reg_r d); [exact Pd|]. rewrite Rmult_assoc, Rinv_l by lra. lra.
Qed.

(** ** C70: the exponential, and the function T for m = 1 *)
Lemma exp_term z n : hyp_term [] [] (RtoC (- z)) n = RtoC (et z n).
Proof. assert (NP : no_pole (map RtoC []) n) by (intros x k []). eapply eq_trans; [exact (term_real [] [] (- z) n NP)|]. f_equal. unfold rterm, et. cbn [map Rprod fold_right]. field. apply INR_fact_neq_0. Qed.
Lemma exp_sum z n : hyp_sum [] [] (RtoC (- z)) n = RtoC (pexp n z).
Proof. induction n as [|n IH]; unfold pexp in *; cbn [hyp_sum psum]; rewrite exp_term; [reflexivity|]. rewrite IH, RtoC_plus. reflexivity. Qed.
Lemma et_abs z n : 0 <= z -> Rabs (et z n) = z ^ n / INR (fact n).
Proof. intros Hz. unfold et, Rdiv. rewrite Rabs_mult, <- RPow_abs, Rabs_Ropp, (Rabs_pos_eq z) by exact Hz. rewrite (Rabs_pos_eq (/ _)); [reflexivity|]. left. apply Rinv_0_lt_compat, fact_pos. Qed.
Lemma no_pole_nil n : no_pole [] n. Proof. intros x k []. Qed.
Lemma fact_next z n : z ^ S n / INR (fact (S n)) = z ^ n / INR (fact n) * (z / INR (S n)).
Proof. rewrite fact_S_R, S_INR. pose proof (fact_pos n). pose proof (pos_INR n). cbn [pow]. field. split; lra. Qed.
(** For a tolerance of at most 1 the series of the exponential at -z, z >= 0, is stopped at a value within the tolerance of exp(-z). *)
Theorem C70_exp eps z maxterms v : eps <= 1 -> 0 <= z -> hypsum eps [] [] (RtoC (- z)) maxterms = Some v -> exists r, v = RtoC r /\ Rabs (r - exp (- z)) < eps.
Proof.
  intros He Hz H. apply C70_value in H. destruct H as (n & Hn & _ & Ln & _ & ->). exists (pexp n z). split; [apply exp_sum|]. rewrite exp_term, Cmod_R, et_abs in Ln by exact Hz.
  assert (Zn : z < INR n) by (destruct (Rlt_or_le z (INR n)) as [A|A]; [exact A|]; pose proof (pow_fact_large z n A); lra).
  rewrite Rabs_minus_sym. eapply Rle_lt_trans; [apply exp_remainder, Hz|]. rewrite fact_next. assert (0 <= z ^ n / INR (fact n)) by (apply Rdiv_le_0_compat; [apply pow_le, Hz|apply fact_pos]). assert (z / INR (S n) < 1). { rewrite S_INR. apply (Rmult_lt_reg_r (INR n + 1)); [lra|]. unfold Rdiv. rewrite Rmult_assoc, Rinv_l by lra. lra. }
  assert (0 <= z / INR (S n)) by (apply Rdiv_le_0_compat; [exact Hz|rewrite S_INR; lra]). nra.
Qed.
Lemma hyp_first eps a b z j maxterms : (1 <= j <= maxterms)%nat -> no_pole b j -> Cmod (hyp_term a b z j) < eps -> exists v, hypsum eps a b z maxterms = Some v.
Proof.
  intros Hj NP L. assert (F : exists i, (1 <= i <= j)%nat /\ Cmod (hyp_term a b z i) < eps /\ forall l, (1 <= l < i)%nat -> eps <= Cmod (hyp_term a b z l)).
  { destruct Hj as [Hj _]. clear NP. revert Hj L. induction j as [j IH] using lt_wf_ind. intros Hj L.
    destruct (Exists_dec (fun i => Cmod (hyp_term a b z i) < eps) (seq 1 (j - 1)) (fun i => Rlt_dec _ _)) as [E|E].
    - apply Exists_exists in E. destruct E as (i & Hi & Li). apply in_seq in Hi. destruct (IH i ltac:(lia) ltac:(lia) Li) as (k & Hk & A). exists k. split; [lia|exact A].
    - exists j. split; [lia|]. split; [exact L|]. intros i Hi. destruct (Rle_or_lt eps (Cmod (hyp_term a b z i))) as [A|A]; [exact A|]. exfalso. apply E, Exists_exists. exists i. split; [apply in_seq; lia|exact A]. }
  destruct F as (i & Hi & Li & Ai). exists (hyp_sum a b z i). apply C70_value. exists i. split; [lia|]. split; [intros x k Hx Hk; apply NP; [exact Hx|lia]|]. split; [exact Li|]. split; [exact Ai|reflexivity].
Qed.
Section T.
Variables (eps : R) (digits : nat) (gamma : C -> C) (cpowc : C -> C -> C) (maxterms : nat).
Notation T_code := (Tgamma eps digits gamma cpowc maxterms).
Lemma weight_ok z c : 0 < eps -> 2 * eps <= z -> (rltb (Cmod (RtoC z)) (2 * eps) && (if Rle_dec (Re c) 0 then true else false) && negb (ceqb c (RtoC 0)))%bool = false.
Proof. intros He Hz. destruct (rltb _ _) eqn:E; [|reflexivity]. apply rltb_ok in E. rewrite Cmod_R, Rabs_pos_eq in E by lra. lra. Qed.
Lemma T1_terms a z : T_code 1 a z = hypercomb eps digits gamma cpowc (fun args => [{| w_s := [z]; c_s := [nth 0 args (RtoC 0) / RtoC 1]; alpha_s := []; beta_s := []; a_s := []; b_s := []; arg := - RtoC 1 * cpowc z (RtoC 1 / RtoC 1) |}])%C [(a - RtoC 1)%C] maxterms.
Proof. reflexivity. Qed.
Lemma T1_value a z : power_function cpowc -> 0 < eps -> 2 * eps <= z -> T_code 1 (RtoC a) (RtoC z) = match hypsum eps [] [] (RtoC (- z)) maxterms with Some s => Some (s * RtoC (Rpower z (a - 1)))%C | None => None end.
Proof.
  intros HP He Hz. rewrite T1_terms. unfold hypercomb. cbn [nth].
  assert (E1 : (RtoC 1 / RtoC 1)%C = RtoC 1) by (rewrite <- RtoC_div; [f_equal; field|lra]). assert (Ea : ((RtoC a - RtoC 1) / RtoC 1)%C = RtoC (a - 1)) by (rewrite <- RtoC_minus, <- RtoC_div by lra; f_equal; field).
  rewrite E1, Ea, (HP z 1) by lra. rewrite (Rpower_1 z) by lra. replace (- RtoC 1 * RtoC z)%C with (RtoC (- z)) by (rewrite RtoC_opp; ring).
  unfold need_perturb, discarded, check_term, singular_weight, pole_count. cbn [w_s c_s alpha_s beta_s a_s b_s existsb map combine filter length fst snd]. rewrite (weight_ok z (RtoC (a - 1)) He Hz). cbn [orb andb negb Nat.ltb Nat.leb fst snd Nat.add].
  cbn [nth map combine sum_terms]. unfold term_value, hyper. cbn [w_s c_s alpha_s beta_s a_s b_s arg fold_left combine fst snd]. rewrite (HP z (a - 1)) by lra. destruct (hypsum _ _ _ _ _) as [s|]; [|reflexivity]. f_equal. ring.
Qed.
Hypotheses (GF : gamma_function gamma) (PF : power_function cpowc) (He : 0 < eps).
(** T(1, a, z): within eps z^(a-1) of z^(a-1) e^(-z) when the value is a number, which it is when one of the terms z^j / j! allowed is below the tolerance. *)
Theorem C70_Tgamma1 a z v : eps <= 1 -> 2 * eps <= z -> T_code 1 (RtoC a) (RtoC z) = Some v -> exists r t, v = RtoC r /\ T_function 1 a z t /\ Rabs (r - t) < eps * Rpower z (a - 1).
Proof.
  intros H1 Hz H. rewrite (T1_value a z PF He Hz) in H. destruct (hypsum eps [] [] (RtoC (- z)) maxterms) as [s|] eqn:E; [|discriminate]. destruct (C70_exp eps z maxterms s H1 ltac:(lra) E) as (r & -> & B). exists (r * Rpower z (a - 1)), (Rpower z (a - 1) * exp (- z)). split; [rewrite RtoC_mult; congruence|]. split; [reflexivity|].
  replace (r * Rpower z (a - 1) - Rpower z (a - 1) * exp (- z)) with ((r - exp (- z)) * Rpower z (a - 1)) by ring. pose proof (Rpower_pos z (a - 1)) as P. rewrite Rabs_mult, (Rabs_pos_eq (Rpower _ _)) by lra. apply Rmult_lt_compat_r; assumption.
Qed.
Theorem C70_Tgamma1_defined a z j : 2 * eps <= z -> (1 <= j <= maxterms)%nat -> z ^ j / INR (fact j) < eps -> exists v, T_code 1 (RtoC a) (RtoC z) = Some v.
Proof.
  intros Hz Hj L. rewrite (T1_value a z PF He Hz). destruct (hyp_first eps [] [] (RtoC (- z)) j maxterms Hj) as (s & ->); [apply no_pole_nil|rewrite exp_term, Cmod_R, et_abs by lra; exact L|]. eexists. reflexivity.
Qed.
(** ** T(2, a, z) for a > 0 that is not an integer *)
Lemma rpoch_shift a n : rpoch a n * (a + INR n) = a * rpoch (1 + a) n.
Proof. induction n as [|n IH]; cbn [rpoch]; [cbn; ring|]. rewrite S_INR. rewrite IH. ring. Qed.
Lemma rpoch_pos a n : 0 < a -> 0 < rpoch a n.
Proof. intros Ha. induction n as [|n IH]; cbn [rpoch]; [lra|]. pose proof (pos_INR n). apply Rmult_lt_0_compat; lra. Qed.
Lemma kummer_term a z n : 0 < a -> hyp_term [RtoC a] [RtoC (1 + a)] (RtoC (- z)) n = RtoC (a / (a + INR n) * et z n).
Proof.
  intros Ha. assert (NP : no_pole (map RtoC [1 + a]) n) by (apply no_pole_pos; intros x [<-|[]]; lra). eapply eq_trans; [exact (term_real [a] [1 + a] (- z) n NP)|]. f_equal. unfold rterm, et. cbn [map Rprod fold_right]. pose proof (pos_INR n). pose proof (rpoch_pos (1 + a) n ltac:(lra)). replace (rpoch a n) with (a * rpoch (1 + a) n / (a + INR n)) by (rewrite <- rpoch_shift; field; lra). field. split; [apply INR_fact_neq_0|split; lra].
Qed.
Lemma kummer_sum a z n : 0 < a -> hyp_sum [RtoC a] [RtoC (1 + a)] (RtoC (- z)) n = RtoC (psum (fun k => a / (a + INR k) * et z k) n).
Proof. intros Ha. induction n as [|n IH]; cbn [hyp_sum psum]; rewrite kummer_term by exact Ha; [reflexivity|]. rewrite IH, RtoC_plus. reflexivity. Qed.
Lemma kummer_lower a z n : 0 < a -> 0 < z -> Rpower z a * psum (fun k => a / (a + INR k) * et z k) n = a * psum (lt_ a z) n.
Proof.
  intros Ha Hz. assert (Q : forall k, Rpower z a * (a / (a + INR k) * et z k) = a * lt_ a z k). { intros k. unfold lt_, et. replace (- z) with (-1 * z) by ring. rewrite Rpow_mult_distr, <- (Rpower_pow k z Hz), Rpower_plus. pose proof (pos_INR k). pose proof (fact_pos k). field. split; lra. }
  induction n as [|n IH]; cbn [psum]; [apply Q|]. rewrite !Rmult_plus_distr_l, IH, Q. reflexivity.
Qed.
Definition T2_terms (a z : R) : list term :=
  [{| w_s := [RtoC z]; c_s := [RtoC (a - 1)]; alpha_s := [RtoC (- a)]; beta_s := [RtoC (1 - a)]; a_s := [RtoC a]; b_s := [RtoC (1 + a)]; arg := RtoC (- z) |};
   {| w_s := [RtoC z]; c_s := [RtoC (- (1))]; alpha_s := [RtoC a]; beta_s := [RtoC 1]; a_s := [RtoC 0]; b_s := [RtoC (1 - a)]; arg := RtoC (- z) |}].
Lemma T2_ok a z : 0 < z -> meijerg_series1 cpowc 2 0 1 2 (RtoC z) (RtoC 1) (Tgamma_args 2 (RtoC a)) = T2_terms a z.
Proof.
  intros Hz. unfold meijerg_series1, Tgamma_args, T2_terms. cbn [firstn skipn app repeat Nat.sub map seq nth others Nat.add Nat.even sign_power]. unfold others, sign_power. cbn [firstn skipn app map Nat.even Nat.add].
  assert (E1 : (RtoC 1 / RtoC 1)%C = RtoC 1) by (rewrite <- RtoC_div; [f_equal; field|lra]). rewrite E1, (PF z 1 Hz), (Rpower_1 z Hz). assert (ED : forall x : C, (x / RtoC 1)%C = x) by (intros x; field; apply C1_nz || (intros E; apply RtoC_inj in E; lra)). rewrite !ED.
  repeat (f_equal; try (rewrite ?RtoC_minus, ?RtoC_plus, ?RtoC_opp; ring)).
Qed.
Lemma nonpos_int_none x : (forall n : nat, x <> - INR n) -> nonpos_int (RtoC x) = None.
Proof.
  intros H. unfold nonpos_int. change (fst (RtoC x)) with x. destruct (ceqb _ _) eqn:E; [|reflexivity]. apply ceqb_ok, RtoC_inj in E. destruct (_ <=? 0)%Z eqn:L; [|reflexivity]. apply Z.leb_le in L. exfalso. set (k := Int_part x) in *. apply (H (Z.to_nat (- k))). rewrite INR_IZR_INZ, Z2Nat.id by lia. rewrite opp_IZR. lra.
Qed.
Lemma T2_value a z : 0 < a -> (forall n : nat, a <> INR n) -> 2 * eps <= z -> T_code 2 (RtoC a) (RtoC z) =
  match term_value eps gamma cpowc (nth 0 (T2_terms a z) (Term [] [] [] [] [] [] (RtoC 0))) maxterms, term_value eps gamma cpowc (nth 1 (T2_terms a z) (Term [] [] [] [] [] [] (RtoC 0))) maxterms with Some v1, Some v2 => Some (v1 + (v2 + RtoC 0))%C | _, _ => None end.
Proof.
  intros Ha Na Hz. assert (Hz0 : 0 < z) by lra. unfold Tgamma. change (2 - 1)%nat with 1%nat. unfold meijerg_lt, hypercomb. rewrite (T2_ok a z Hz0).
  assert (NA : forall n : nat, a <> - INR n) by (intros n E; pose proof (pos_INR n); lra). assert (N1 : forall n : nat, 1 <> - INR n) by (intros n E; pose proof (pos_INR n); lra). assert (NM : forall n : nat, - a <> - INR n) by (intros n E; apply (Na n); lra). assert (NS : forall n : nat, 1 + a <> - INR n) by (intros n E; pose proof (pos_INR n); lra).
  assert (NO : forall n : nat, 1 - a <> - INR n) by (intros n E; apply (Na (S n)); rewrite S_INR; lra).
  assert (CT : map (check_term eps) (T2_terms a z) = [(false, false); (false, false)]).
  { unfold T2_terms, check_term, singular_weight, pole_count. cbn [map w_s c_s alpha_s beta_s a_s b_s existsb combine filter fst snd]. rewrite !weight_ok by assumption. rewrite !nonpos_int_none by assumption. reflexivity. }
  assert (CT1 : need_perturb eps (T2_terms a z) = false). { unfold need_perturb. replace (existsb (fun t => fst (check_term eps t)) (T2_terms a z)) with (existsb fst (map (check_term eps) (T2_terms a z))) by (unfold T2_terms; reflexivity). rewrite CT. reflexivity. }
  assert (CT2 : discarded eps (T2_terms a z) = [false; false]). { unfold discarded. rewrite <- (map_map (check_term eps) snd), CT. reflexivity. }
  rewrite CT1, CT2. unfold T2_terms. cbn [combine sum_terms nth]. destruct (term_value eps gamma cpowc _ maxterms) as [v1|]; [|reflexivity]. destruct (term_value eps gamma cpowc _ maxterms) as [v2|]; reflexivity.
Qed.
Lemma zero_term b z k : (1 <= k)%nat -> hyp_term [RtoC 0] b z k = 0%C.
Proof. intros Hk. unfold hyp_term. cbn [map]. rewrite !Cprod_cons, !Cprod_nil. assert (P0 : poch (RtoC 0) k = 0%C). { destruct k as [|k]; [lia|]. clear. induction k as [|k IH]; [cbn; ring|]. change (poch (RtoC 0) (S (S k))) with (poch (RtoC 0) (S k) * (RtoC 0 + RtoC (INR (S k))))%C. rewrite IH. ring. } rewrite P0. unfold Cdiv. ring. Qed.
Theorem C70_Tgamma2 a z v : 0 < a -> (forall n : nat, a <> INR n) -> 2 * eps <= z -> eps <= a / (a + z) -> T_code 2 (RtoC a) (RtoC z) = Some v ->
  exists r t, v = RtoC r /\ T_function 2 a z t /\ Rabs (r - t) < eps * Rpower z (a - 1) / a.
Proof.
  intros Ha Na Hz HA H. assert (Hz0 : 0 < z) by lra. rewrite (T2_value a z Ha Na Hz) in H. unfold T2_terms in H. cbn [nth] in H. assert (NM : forall n : nat, - a <> - INR n) by (intros n E; apply (Na n); lra).
  destruct (term_value eps gamma cpowc _ maxterms) as [v1|] eqn:E1 in H; [|discriminate]. destruct (term_value eps gamma cpowc _ maxterms) as [v2|] eqn:E2 in H; [|discriminate].
  unfold term_value in E1, E2. cbn [w_s c_s alpha_s beta_s a_s b_s arg combine fold_left fst snd] in E1, E2. unfold hyper in E1, E2.
  destruct (hypsum eps [RtoC a] [RtoC (1 + a)] (RtoC (- z)) maxterms) as [s1|] eqn:S1; [|discriminate]. destruct (hypsum eps [RtoC 0] [RtoC (1 - a)] (RtoC (- z)) maxterms) as [s2|] eqn:S2; [|discriminate].
  apply C70_value in S1. destruct S1 as (n & Hn & _ & Ln & _ & Es1). rewrite kummer_term, Cmod_R, Rabs_mult, et_abs in Ln by lra. rewrite kummer_sum in Es1 by exact Ha.
  assert (Es2 : s2 = RtoC 1).
  { pose proof (zero_term [RtoC (1 - a)] (RtoC (- z))) as Z1.
    apply C70_value in S2. destruct S2 as (k & Hk & _ & _ & Hi & ->). assert (k = 1%nat) as ->. { destruct (Nat.eq_dec k 1) as [E|N]; [exact E|]. specialize (Hi 1%nat ltac:(lia)). rewrite Z1, Cmod_0 in Hi by lia. exfalso. exact (Rlt_irrefl _ (Rlt_le_trans _ _ _ He Hi)). } cbn [hyp_sum]. rewrite (Z1 1%nat ltac:(lia)), hyp_term_0. ring. }
  destruct GF as [G1 G2]. destruct (G1 a Ha) as (g & Eg & Gg). destruct (G1 1 ltac:(lra)) as (g1 & Eg1 & Gg1). assert (g1 = 1) as ->. { exact (euler_unique _ _ _ Eg1 euler_one). }
  destruct (G2 (- a) NM) as (Rc & Nz). replace (- a + 1) with (1 - a) in Rc by ring.
  rewrite Gg, Gg1, (PF z (- (1)) Hz0) in E2. rewrite Rc, (PF z (a - 1) Hz0) in E1. rewrite Es1 in E1. rewrite Es2 in E2.
  set (q := psum (fun k => a / (a + INR k) * et z k) n) in *.
  assert (V1 : v1 = RtoC (- q / a * Rpower z (a - 1))). { assert (E1' : (RtoC q * gamma (RtoC (- a)) / (RtoC (- a) * gamma (RtoC (- a))) * RtoC (Rpower z (a - 1)))%C = v1) by congruence. rewrite <- E1'. clear - Nz Ha. set (G := gamma (RtoC (- a))) in *. clearbody G. rewrite RtoC_mult, RtoC_div, !RtoC_opp by lra. field. assert (RtoC a <> 0%C) by (intros E; apply RtoC_inj in E; lra). repeat split; try assumption. rewrite <- RtoC_opp. intros E; apply RtoC_inj in E; lra. }
  assert (V2 : v2 = RtoC (g / z)). { assert (E2' : (RtoC 1 * RtoC g / RtoC 1 * RtoC (Rpower z (- (1))))%C = v2) by congruence. rewrite <- E2'. rewrite (Rpower_Ropp z 1), (Rpower_1 z Hz0). unfold Rdiv. rewrite RtoC_mult. field. intros E. apply RtoC_inj in E. lra. }
  exists (- q / a * Rpower z (a - 1) + g / z), (Rpower z a * Jv 0 a z / z). split; [rewrite V1, V2 in H; assert (H' : (RtoC (- q / a * Rpower z (a - 1)) + (RtoC (g / z) + RtoC 0))%C = v) by congruence; rewrite <- H', RtoC_plus; ring|].
  split. { cbn [T_function]. replace (Rpower z a * Jv 0 a z / z * z * INR (fact 0)) with (Rpower z a * Jv 0 a z) by (cbn; field; lra). apply (from_Jv 0 a z Hz0). }
  pose proof (split_to z (gamma_density a) g _ Hz0 Eg (upper_exists a z Hz0)) as L. pose proof (lower_series a n z _ Ha Hz0 L) as B. pose proof (kummer_lower a z n Ha Hz0) as K. fold q in K.
  assert (EP : Rpower z a = z * Rpower z (a - 1)) by (rewrite <- (Rpower_1 z) at 2 by lra; rewrite <- Rpower_plus; f_equal; ring).
  assert (EQ : - q / a * Rpower z (a - 1) + g / z - Rpower z a * Jv 0 a z / z = (g - Rpower z a * Jv 0 a z - psum (lt_ a z) n) / z). { apply (Rmult_eq_reg_r (a * z)); [|nra]. replace ((g - Rpower z a * Jv 0 a z - psum (lt_ a z) n) / z * (a * z)) with (a * (g - Rpower z a * Jv 0 a z) - a * psum (lt_ a z) n) by (field; lra). rewrite <- K. rewrite EP. field. lra. }
  rewrite EQ. unfold Rdiv at 1. rewrite Rabs_mult, (Rabs_pos_eq (/ z)) by (left; apply Rinv_0_lt_compat, Hz0).
  assert (Zn : z <= INR n + 1). { destruct (Rle_or_lt z (INR n + 1)) as [A|A]; [exact A|]. exfalso. pose proof (pow_fact_large z n ltac:(lra)) as P. pose proof (pos_INR n). rewrite Rabs_pos_eq in Ln by (apply Rdiv_le_0_compat; lra). assert (a / (a + z) <= a / (a + INR n)) by (apply Rmult_le_compat_l; [lra|apply Rinv_le_contravar; lra]). assert (0 < a / (a + z)) by (apply Rdiv_lt_0_compat; lra). nra. }
  pose proof (pos_INR n) as Pn. rewrite Rabs_pos_eq in Ln by (apply Rdiv_le_0_compat; lra). set (T := z ^ n / INR (fact n)) in *. assert (T0 : 0 < T) by (apply Rdiv_lt_0_compat; [apply pow_lt, Hz0|apply fact_pos]).
  assert (EB : Rpower z (a + INR (S n)) / (INR (fact (S n)) * (a + INR (S n))) * / z = (a / (a + INR n) * T) * (Rpower z (a - 1) / a) * (z / (INR n + 1) * ((a + INR n) / (a + INR n + 1)))).
  { rewrite Rpower_plus, (Rpower_pow (S n) z Hz0), EP, fact_S_R, S_INR. unfold T. cbn [pow]. pose proof (fact_pos n). field. repeat split; lra. }
  apply Rle_lt_trans with (Rpower z (a + INR (S n)) / (INR (fact (S n)) * (a + INR (S n))) * / z); [apply Rmult_le_compat_r; [left; apply Rinv_0_lt_compat, Hz0|exact B]|]. rewrite EB. pose proof (Rpower_pos z (a - 1)) as PP. assert (W : 0 < Rpower z (a - 1) / a) by (apply Rdiv_lt_0_compat; lra).
  assert (U1 : 0 < z / (INR n + 1) <= 1) by (split; [apply Rdiv_lt_0_compat; lra|apply (Rmult_le_reg_r (INR n + 1)); [lra|]; unfold Rdiv; rewrite Rmult_assoc, Rinv_l by lra; lra]). assert (U2 : 0 < (a + INR n) / (a + INR n + 1) <= 1) by (split; [apply Rdiv_lt_0_compat; lra|apply (Rmult_le_reg_r (a + INR n + 1)); [lra|]; unfold Rdiv; rewrite Rmult_assoc, Rinv_l by lra; lra]).
  assert (X : 0 < a / (a + INR n) * T) by (apply Rmult_lt_0_compat; [apply Rdiv_lt_0_compat; lra|exact T0]). replace (eps * Rpower z (a - 1) / a) with (eps * (Rpower z (a - 1) / a)) by (unfold Rdiv; ring). set (X' := a / (a + INR n) * T) in *. set (W' := Rpower z (a - 1) / a) in *. set (u1 := z / (INR n + 1)) in *. set (u2 := (a + INR n) / (a + INR n + 1)) in *. assert (u1 * u2 <= 1) by nra. assert (X' * W' < eps * W') by (apply Rmult_lt_compat_r; assumption). assert (0 < X' * W') by (apply Rmult_lt_0_compat; assumption). nra.
Qed.
(** ... and the value is a number when one of the terms allowed is below the tolerance. *)
Theorem C70_Tgamma2_defined a z j : 0 < a -> (forall n : nat, a <> INR n) -> 2 * eps <= z -> (1 <= j <= maxterms)%nat -> a / (a + INR j) * (z ^ j / INR (fact j)) < eps -> exists v, T_code 2 (RtoC a) (RtoC z) = Some v.
Proof.
  intros Ha Na Hz Hj L. rewrite (T2_value a z Ha Na Hz). unfold T2_terms, term_value, hyper. cbn [nth w_s c_s alpha_s beta_s a_s b_s arg combine fold_left fst snd].
  destruct (hyp_first eps [RtoC a] [RtoC (1 + a)] (RtoC (- z)) j maxterms Hj) as (s1 & ->). { apply (no_pole_pos [1 + a]). intros x [<-|[]]. lra. } { rewrite kummer_term, Cmod_R, Rabs_mult, et_abs by lra. rewrite Rabs_pos_eq; [exact L|]. pose proof (pos_INR j). apply Rdiv_le_0_compat; lra. }
  destruct (hyp_first eps [RtoC 0] [RtoC (1 - a)] (RtoC (- z)) 1 maxterms ltac:(lia)) as (s2 & ->). { intros x k [<-|[]] Hk. rewrite <- RtoC_plus. intros E. apply RtoC_inj in E. apply (Na (S k)). rewrite S_INR. lra. } { rewrite zero_term, Cmod_0 by lia. exact He. }
  eexists. reflexivity.
Qed.
End T.
(** ** C70: the perturbation *)
(** The k-th parameter (from 0) is moved by (k+1) h. *)
Theorem C70_shift params h k : (k < length params)%nat -> nth k (perturbed 0 h params) (RtoC 0) = (nth k params (RtoC 0) + RtoC (INR (k + 1) * h))%C.
Proof.
  assert (G : forall params j k g, g = INR (j + 1) * h -> (k < length params)%nat -> nth k (perturbed j g params) (RtoC 0) = (nth k params (RtoC 0) + RtoC (INR (j + k + 1) * h))%C).
  { clear params k. induction params as [|p l IH]; intros j k g Hg Hk; [cbn in Hk; lia|]. cbn [perturbed]. destruct k as [|k]; cbn [nth]; [rewrite Nat.add_0_r, Hg; reflexivity|].
    rewrite (IH (S j) k); [f_equal; f_equal; f_equal; f_equal; lia| |cbn in Hk; lia]. rewrite Hg. rewrite !plus_INR, (S_INR j). pose proof (pos_INR j). change (INR 1) with 1. field. lra. }
  intros Hk. rewrite (G params 0%nat k h); [reflexivity|cbn; ring|exact Hk].
Qed.
Lemma nonpos_zero : nonpos_int (RtoC 0) = Some 0%Z.
Proof. unfold nonpos_int. change (fst (RtoC 0)) with (INR 0). rewrite (Int_part_INR 0). cbn [Z.of_nat]. replace (ceqb (RtoC 0) (RtoC (IZR 0))) with true; [reflexivity|]. symmetry. apply ceqb_ok. reflexivity. Qed.
Lemma pole_count_in x l : In x l -> nonpos_int x <> None -> (0 < pole_count l [])%nat.
Proof. intros Hx N. unfold pole_count. destruct (filter _ l) as [|y m] eqn:E; [|cbn; lia]. exfalso. assert (I : In x []) by (rewrite <- E; apply filter_In; split; [exact Hx|]; destruct (nonpos_int x); [reflexivity|congruence]). exact I. Qed.
Lemma pole_count_none l e : (forall x, In x l -> nonpos_int x = None) -> pole_count l e = 0%nat.
Proof. intros H. unfold pole_count. induction l as [|x l IH]; [reflexivity|]. cbn [filter]. rewrite (H x (or_introl eq_refl)). apply IH. intros y Hy. apply H. right. exact Hy. Qed.
(** For m >= 3 the parameters of T(m, a, z) are always judged degenerate, for every a and z: the value is computed at parameters moved by multiples of 2^-(3 digits / 10), that is 2^-15 in double precision. *)
Theorem C70_Tgamma_perturbed eps digits gamma cpowc maxterms m a z : (3 <= m)%nat ->
  need_perturb eps (meijerg_series1 cpowc m 0 (m - 1) m z (RtoC 1) (Tgamma_args m a)) = true /\
  exists flags, Tgamma eps digits gamma cpowc maxterms m a z = sum_terms eps gamma cpowc maxterms (combine flags (meijerg_series1 cpowc m 0 (m - 1) m z (RtoC 1) (perturbed 0 (h_start digits) (Tgamma_args m a)))).
Proof.
  intros Hm. assert (NP : need_perturb eps (meijerg_series1 cpowc m 0 (m - 1) m z (RtoC 1) (Tgamma_args m a)) = true).
  { unfold need_perturb. apply existsb_exists. destruct m as [|[|[|k]]]; try lia. eexists. split; [unfold meijerg_series1; apply in_map; apply in_seq with (n := 1%nat); lia|].
    set (args := Tgamma_args (S (S (S k))) a). assert (FA : firstn (S (S (S k)) - 1) args = repeat (RtoC 0) (S (S k))). { unfold args, Tgamma_args. change (S (S (S k)) - 1)%nat with (S (S k)). rewrite firstn_app, repeat_length, Nat.sub_diag, firstn_O, app_nil_r. apply firstn_all2. rewrite repeat_length. lia. }
    assert (SA : skipn (S (S (S k)) - 1) args = (a - RtoC 1)%C :: (- RtoC 1)%C :: (- RtoC 1)%C :: repeat (- RtoC 1)%C k). { unfold args, Tgamma_args. change (S (S (S k)) - 1)%nat with (S (S k)). rewrite skipn_app, repeat_length, Nat.sub_diag. rewrite skipn_all2 by (rewrite repeat_length; lia). reflexivity. }
    rewrite FA, SA. unfold check_term. cbn [alpha_s beta_s]. set (P0 := pole_count (map _ _ ++ _) []). set (P1 := pole_count _ []).
    assert (H0 : (0 < P0)%nat). { unfold P0. apply pole_count_in with (RtoC 0); [|rewrite nonpos_zero; discriminate]. apply in_or_app. left. unfold others. cbn [nth firstn skipn app map In]. right. left. ring. }
    assert (H1 : P1 = 0%nat). { unfold P1. apply pole_count_none. intros x Hx. apply in_app_or in Hx. destruct Hx as [Hx|Hx].
      - apply in_map_iff in Hx. destruct Hx as (y & <- & Hy). cbn [skipn] in Hy. apply repeat_spec in Hy. rewrite Hy. cbn [nth]. replace (RtoC 0 - - RtoC 1)%C with (RtoC 1) by ring. apply nonpos_int_none. intros n E. pose proof (pos_INR n). lra.
      - rewrite skipn_all2 in Hx by (rewrite firstn_length; lia). destruct Hx. }
    rewrite H1. assert (L0 : forall n, Nat.ltb n 0 = false) by (intros n; reflexivity). rewrite L0. cbn [andb fst]. apply Nat.ltb_lt in H0. rewrite H0. rewrite !orb_true_r. reflexivity. }
  split; [exact NP|]. exists (discarded eps (meijerg_series1 cpowc m 0 (m - 1) m z (RtoC 1) (Tgamma_args m a))). destruct m as [|m']; [lia|]. unfold Tgamma, meijerg_lt, hypercomb. cbv zeta. rewrite NP. reflexivity.
Qed.

(** In double precision (53 digits) the parameters are moved by 2^-15, 2 * 2^-15, 3 * 2^-15, ... *)
Theorem C70_Tgamma_moved eps gamma cpowc maxterms m a z : (3 <= m)%nat ->
  exists flags moved, length moved = (2 * m - 1)%nat /\
    (forall k, (k < 2 * m - 1)%nat -> nth k moved (RtoC 0) = (nth k (repeat (RtoC 0) (m - 1) ++ [a - RtoC 1] ++ repeat (- RtoC 1) (m - 1)) (RtoC 0) + RtoC (INR (k + 1) / 2 ^ 15))%C) /\
    Tgamma eps 53 gamma cpowc maxterms m a z = sum_terms eps gamma cpowc maxterms (combine flags (meijerg_series1 cpowc m 0 (m - 1) m z (RtoC 1) moved)).
Proof.
  intros Hm. destruct (C70_Tgamma_perturbed eps 53 gamma cpowc maxterms m a z Hm) as (_ & flags & E). exists flags, (perturbed 0 (h_start 53) (Tgamma_args m a)).
  assert (LA : length (Tgamma_args m a) = (2 * m - 1)%nat) by (unfold Tgamma_args; rewrite !app_length, !repeat_length; cbn [length]; lia).
  assert (LP : forall l k h, length (perturbed k h l) = length l) by (induction l as [|x l IH]; intros k h; cbn [perturbed length]; [reflexivity|rewrite IH; reflexivity]).
  split; [rewrite LP; exact LA|]. split; [|exact E]. intros k Hk. rewrite C70_shift by (rewrite LA; exact Hk). reflexivity.
Qed.
(** A term is left out exactly when a gamma function in its denominator has a pole, provided the gamma functions and lower parameters above have none and no base vanishes; nothing is moved then. *)
Definition nonpositive_integer (x : C) : Prop := exists n : nat, x = RtoC (- INR n).
Lemma nonpos_int_iff x : nonpos_int x <> None <-> nonpositive_integer x.
Proof.
  unfold nonpos_int, nonpositive_integer. split.
  - destruct (ceqb x (RtoC (IZR (Int_part (fst x))))) eqn:E; [|congruence]. apply ceqb_ok in E. destruct (Int_part (fst x) <=? 0)%Z eqn:L; [|congruence]. intros _. apply Z.leb_le in L. exists (Z.to_nat (- Int_part (fst x))). rewrite INR_IZR_INZ, Z2Nat.id by lia. rewrite opp_IZR, Ropp_involutive. exact E.
  - intros [n ->]. change (fst (RtoC (- INR n))) with (- INR n). assert (EI : Int_part (- INR n) = (- Z.of_nat n)%Z). { unfold Int_part. rewrite <- (up_tech (- INR n) (- Z.of_nat n)); [lia|rewrite opp_IZR, <- INR_IZR_INZ; lra|rewrite plus_IZR, opp_IZR, <- INR_IZR_INZ; lra]. }
    rewrite EI, opp_IZR, <- INR_IZR_INZ. assert (C : ceqb (RtoC (- INR n)) (RtoC (- INR n)) = true) by (apply ceqb_ok; reflexivity). rewrite C. destruct (- Z.of_nat n <=? 0)%Z eqn:L; [discriminate|]. apply Z.leb_gt in L. lia.
Qed.
Theorem C70_discard eps digits gamma cpowc function params maxterms (pole : term -> bool) :
  (forall t, In t (function params) -> (forall w, In w (w_s t) -> 2 * eps <= Cmod w) /\ (forall x, In x (alpha_s t) \/ In x (b_s t) -> ~ nonpositive_integer x) /\ (pole t = true <-> exists x, In x (beta_s t) /\ nonpositive_integer x)) ->
  hypercomb eps digits gamma cpowc function params maxterms = sum_terms eps gamma cpowc maxterms (map (pair false) (filter (fun t => negb (pole t)) (function params))).
Proof.
  intros H. assert (CT : forall t, In t (function params) -> check_term eps t = (false, pole t)).
  { intros t Ht. destruct (H t Ht) as (HW & HP & HB). assert (SW : singular_weight eps t = false). { unfold singular_weight. apply not_true_is_false. intros E. apply existsb_exists in E. destruct E as ([w c] & I & E). apply in_combine_l in I. specialize (HW w I). apply andb_true_iff in E. destruct E as [E _]. apply andb_true_iff in E. destruct E as [E _]. unfold rltb in E. cbn [fst] in E. destruct (Rlt_dec (Cmod w) (2 * eps)); [lra|discriminate]. }
    assert (NN : forall x, ~ nonpositive_integer x -> nonpos_int x = None) by (intros x N; destruct (nonpos_int x) eqn:E; [|reflexivity]; exfalso; apply N, nonpos_int_iff; congruence).
    unfold check_term. rewrite SW, (pole_count_none (alpha_s t) []), (pole_count_none (b_s t) (a_s t)) by (intros x Hx; apply NN, HP; auto). cbn [negb orb]. rewrite andb_true_r, orb_false_r. change (Nat.ltb 0 0) with false. cbn [orb]. rewrite Nat.add_0_r. destruct (Nat.ltb 0 (pole_count (beta_s t) [])) eqn:P.
    - apply Nat.ltb_lt in P. f_equal. symmetry. apply HB. unfold pole_count in P. destruct (filter _ (beta_s t)) as [|x l] eqn:F; [cbn in P; lia|]. assert (I : In x (x :: l)) by (left; reflexivity). rewrite <- F in I. apply filter_In in I. destruct I as [I E]. exists x. split; [exact I|]. apply nonpos_int_iff. destruct (nonpos_int x); [discriminate|discriminate E].
    - f_equal. apply Nat.ltb_ge in P. symmetry. apply not_true_is_false. intros T. apply HB in T. destruct T as (x & I & N). apply nonpos_int_iff in N. pose proof (pole_count_in x _ I N). lia. }
  unfold hypercomb. cbv zeta. assert (NP : need_perturb eps (function params) = false). { unfold need_perturb. apply not_true_is_false. intros E. apply existsb_exists in E. destruct E as (t & Ht & E). rewrite (CT t Ht) in E. discriminate. }
  rewrite NP. unfold discarded. clear NP H. induction (function params) as [|t l IH]; [reflexivity|]. cbn [map combine filter]. rewrite (CT t (or_introl eq_refl)). cbn [snd sum_terms]. specialize (IH (fun t Ht => CT t (or_intror Ht))). destruct (pole t); cbn [negb map sum_terms]; rewrite IH; reflexivity.
Qed.
Example C70_discard_ex : exists t : term, (forall w, In w (w_s t) -> 2 * (1/4) <= Cmod w) /\ (forall x, In x (alpha_s t) \/ In x (b_s t) -> ~ nonpositive_integer x) /\ exists x, In x (beta_s t) /\ nonpositive_integer x.
Proof.
  exists {| w_s := [RtoC 1]; c_s := [RtoC 1]; alpha_s := [RtoC 1]; beta_s := [RtoC (-2)]; a_s := []; b_s := [RtoC 1]; arg := RtoC 1 |}. cbn [w_s alpha_s b_s beta_s]. split; [intros w [<-|[]]; rewrite Cmod_R, Rabs_R1; lra|]. split.
  - intros x [[<-|[]]|[<-|[]]] [n E]; apply RtoC_inj in E; pose proof (pos_INR n); lra.
  - exists (RtoC (-2)). split; [left; reflexivity|]. exists 2%nat. reflexivity.
Qed.

(** ** The hypotheses are met *)
Definition big (x : R) : nat := Z.to_nat (up (Rabs x)).
Lemma big_ok x : 0 < x + INR (big x).
Proof. unfold big. destruct (archimed (Rabs x)) as [A _]. pose proof (Rabs_pos x). assert (0 <= up (Rabs x))%Z by (apply le_IZR; lra). rewrite INR_IZR_INZ, Z2Nat.id by assumption. pose proof (Rle_abs (- x)) as B. rewrite Rabs_Ropp in B. lra. Qed.
Definition gext (x : R) : R := Gam (x + INR (big x)) / rpoch x (big x).
Lemma rpoch_nz x n : (forall k : nat, x <> - INR k) -> rpoch x n <> 0.
Proof. intros H. induction n as [|n IH]; cbn [rpoch]; [lra|]. apply Rmult_integral_contrapositive_currified; [exact IH|]. specialize (H n). lra. Qed.
Lemma gext_any x n : (forall k : nat, x <> - INR k) -> 0 < x + INR n -> gext x = Gam (x + INR n) / rpoch x n.
Proof.
  intros H Hn. assert (St : forall n j, 0 < x + INR n -> Gam (x + INR (n + j)) / rpoch x (n + j) = Gam (x + INR n) / rpoch x n).
  { clear n Hn. intros n j Hn. induction j as [|j IH]; [rewrite Nat.add_0_r; reflexivity|]. rewrite <- IH, Nat.add_succ_r, S_INR. cbn [rpoch]. pose proof (pos_INR j). assert (P : 0 < x + INR (n + j)) by (rewrite plus_INR; lra). replace (x + (INR (n + j) + 1)) with (x + INR (n + j) + 1) by ring. rewrite (Gam_rec _ P). field. split; [apply rpoch_nz, H|lra]. }
  unfold gext. rewrite <- (St n (big x) Hn), <- (St (big x) n (big_ok x)), (Nat.add_comm n). reflexivity.
Qed.
Example gamma_exists : gamma_function (fun c => RtoC (gext (fst c))).
Proof.
  split.
  - intros x Hx. exists (Gam x). split; [apply Gam_ok, Hx|]. cbn [fst]. f_equal. change (fst (RtoC x)) with x. rewrite (gext_any x 0); [cbn; rewrite Rplus_0_r; field|intros k E; pose proof (pos_INR k); lra|cbn; lra].
  - intros x H. change (fst (RtoC (x + 1))) with (x + 1). change (fst (RtoC x)) with x. set (n := big x). assert (P : 0 < x + INR n) by apply big_ok. assert (H1 : forall k : nat, x + 1 <> - INR k) by (intros k E; apply (H (S k)); rewrite S_INR; lra).
    assert (E : x * gext x = gext (x + 1)). { rewrite (gext_any (x + 1) n H1) by lra. rewrite (gext_any x (S n) H) by (rewrite S_INR; lra). assert (SH : rpoch x (S n) = x * rpoch (1 + x) n) by (rewrite <- rpoch_shift; reflexivity). rewrite SH, S_INR. replace (x + (INR n + 1)) with (x + 1 + INR n) by ring. replace (1 + x) with (x + 1) by ring. field. split; [apply rpoch_nz, H1|]. specialize (H 0%nat). cbn in H. lra. }
    split; [rewrite <- E, RtoC_mult; reflexivity|]. intros Z. apply RtoC_inj in Z. rewrite (gext_any x n H P) in Z. pose proof (Gam_pos (x + INR n) P). pose proof (rpoch_nz x n H). apply (Rmult_integral_contrapositive_currified (Gam (x + INR n)) (/ rpoch x n)); [lra|apply Rinv_neq_0_compat; assumption|exact Z].
Qed.
Example power_exists : power_function (fun x y => RtoC (Rpower (fst x) (fst y))). Proof. intros x y Hx. reflexivity. Qed.
Example C70_Tgamma1_ex : exists v, Tgamma (1/4) 53 (fun c => RtoC (gext (fst c))) (fun x y => RtoC (Rpower (fst x) (fst y))) 6000 1 (RtoC 2) (RtoC 1) = Some v.
Proof. apply (C70_Tgamma1_defined (1/4) 53 _ _ 6000 power_exists ltac:(lra) 2 1 3); [lra|split; apply Nat.leb_le; reflexivity|cbn; lra]. Qed.
Example C70_Tgamma2_ex : (forall n : nat, 1 / 2 <> INR n) /\ 1 / 4 <= (1 / 2) / (1 / 2 + 1) /\ exists v, Tgamma (1/4) 53 (fun c => RtoC (gext (fst c))) (fun x y => RtoC (Rpower (fst x) (fst y))) 6000 2 (RtoC (1/2)) (RtoC 1) = Some v.
Proof.
  assert (N : forall n : nat, 1 / 2 <> INR n). { intros [|n] E; [cbn in E; lra|]. rewrite S_INR in E. pose proof (pos_INR n). lra. }
  split; [exact N|]. split; [lra|]. apply (C70_Tgamma2_defined (1/4) 53 _ _ 6000 power_exists ltac:(lra) (1/2) 1 3); [lra|exact N|lra|split; apply Nat.leb_le; reflexivity|cbn; lra].
Qed.
