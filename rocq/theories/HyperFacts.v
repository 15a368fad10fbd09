(** Facts about the summation loop of hypergeometric series *)
From Coq Require Import List Bool Arith Lia Reals Lra Psatz.
From Coquelicot Require Import Rbar Lim_seq Hierarchy Complex.
From Verif Require Import Cosmo Roots RootsC CarlsonC HyperSpec Hyper.
Import ListNotations.
Open Scope R_scope.
Open Scope C_scope.

Lemma ceqb_ok x y : ceqb x y = true <-> x = y.
Proof. unfold ceqb. destruct x as [x1 x2], y as [y1 y2]. cbn. destruct (Req_EM_T x1 y1) as [->|N]; [destruct (Req_EM_T x2 y2) as [->|N]|]; split; intros E; try reflexivity; try discriminate; injection E; congruence. Qed.
Lemma rltb_ok x y : rltb x y = true <-> (x < y)%R.
Proof. unfold rltb. destruct (Rlt_dec x y); split; intros; try reflexivity; try discriminate; tauto. Qed.
Lemma Cprod_cons x l : Cprod (x :: l) = x * Cprod l. Proof. reflexivity. Qed.
Lemma Cprod_nil : Cprod [] = RtoC 1. Proof. reflexivity. Qed.
Ltac cp := cbn [map fold_left]; rewrite ?Cprod_cons, ?Cprod_nil.
Lemma Cprod_nz (l : list C) : (forall x, In x l -> x <> 0) -> Cprod l <> 0.
Proof.
  induction l as [|x l IH]; intros H; [intros E; apply RtoC_inj in E; lra|]. cbn. intros E. apply C_integral in E. destruct E as [E|E]; [exact (H x (or_introl eq_refl) E)|]. apply IH; [|exact E]. intros y Hy. apply H. right. exact Hy.
Qed.
Lemma fold_mul (f : C -> C) l t : fold_left (fun t a => t * f a) l t = t * Cprod (map f l).
Proof. revert t. induction l as [|x l IH]; intros t; cp; [ring|]. rewrite IH. ring. Qed.
Lemma fold_div (f : C -> C) l t : (forall x, In x l -> f x <> 0) -> fold_left (fun t b => t / f b) l t = t / Cprod (map f l).
Proof.
  revert t. induction l as [|x l IH]; intros t H; cp; [field; intros E; apply RtoC_inj in E; lra|]. rewrite IH by (intros y Hy; apply H; right; exact Hy). field. split; [apply Cprod_nz|apply H; left; reflexivity].
  intros y Hy. apply in_map_iff in Hy. destruct Hy as (w & <- & Hw). apply H. right. exact Hw.
Qed.
Lemma Cprod_mult (f g : C -> C) l : Cprod (map (fun x => f x * g x) l) = Cprod (map f l) * Cprod (map g l).
Proof. induction l as [|x l IH]; cp; [ring|]. rewrite IH. ring. Qed.
Lemma poch_nz x n : (forall k, (k < n)%nat -> x + RtoC (INR k) <> 0) -> poch x n <> 0.
Proof. induction n as [|n IH]; intros H; cbn [poch]; [intros E; apply RtoC_inj in E; lra|]. intros E. apply C_integral in E. destruct E as [E|E]; [apply IH; [intros k Hk; apply H; lia|exact E]|]. exact (H n ltac:(lia) E). Qed.
Lemma pochs_nz b n : no_pole b n -> Cprod (map (fun x => poch x n) b) <> 0.
Proof. intros H. apply Cprod_nz. intros y Hy. apply in_map_iff in Hy. destruct Hy as (w & <- & Hw). apply poch_nz. intros k Hk. exact (H w k Hw Hk). Qed.
Lemma fact_nz n : RtoC (INR (fact n)) <> 0. Proof. intros E. apply RtoC_inj in E. exact (INR_fact_neq_0 n E). Qed.
Lemma cnat_S_nz k : cnat (k + 1) <> 0. Proof. unfold cnat. intros E. apply RtoC_inj in E. rewrite plus_INR in E. pose proof (pos_INR k). cbn in E. lra. Qed.

Lemma next_term_ok a b z k : no_pole b (S k) -> next_term a b z k (hyp_term a b z k) = hyp_term a b z (S k).
Proof.
  intros H. unfold next_term. rewrite (fold_mul (fun x => x + cnat k)), (fold_div (fun x => x + cnat k)); [|intros x Hx; exact (H x k Hx ltac:(lia))].
  assert (H0 : no_pole b k) by (intros x j Hx Hj; apply (H x j Hx); lia).
  unfold hyp_term. cbn [poch Cpower]. rewrite !(Cprod_mult (fun x => poch x k) (fun x => x + RtoC (INR k))). change (fun x : C => x + RtoC (INR k)) with (fun x : C => x + cnat k).
  assert (N : Cprod (map (fun x => x + cnat k) b) <> 0) by (apply Cprod_nz; intros y Hy; apply in_map_iff in Hy; destruct Hy as (w & <- & Hw); exact (H w k Hw ltac:(lia))).
  assert (F : RtoC (INR (fact (S k))) = cnat (k + 1) * RtoC (INR (fact k))) by (unfold cnat; rewrite <- RtoC_mult; f_equal; rewrite fact_simpl, mult_INR; f_equal; f_equal; lia). rewrite F.
  field. repeat split; first [exact N|apply fact_nz|apply cnat_S_nz|apply pochs_nz, H0].
Qed.
Lemma Cprod_ones (f : C -> C) l : (forall x, f x = RtoC 1) -> Cprod (map f l) = RtoC 1.
Proof. intros E. induction l as [|x l IH]; cp; [reflexivity|]. rewrite IH, E. ring. Qed.
Lemma hyp_term_0 a b z : hyp_term a b z 0 = RtoC 1.
Proof.
  unfold hyp_term. rewrite !(Cprod_ones (fun x => poch x 0)) by reflexivity. cbn [Cpower fact INR]. field. intros E; apply RtoC_inj in E; lra.
Qed.
Lemma pole_test b k : existsb (fun x => ceqb (x + cnat k) (RtoC 0)) b = true <-> exists x, In x b /\ x + RtoC (INR k) = 0.
Proof. rewrite existsb_exists. split; intros (x & Hx & E); exists x; (split; [exact Hx|]); apply ceqb_ok; exact E. Qed.
Lemma no_pole_S b k : no_pole b k -> (forall x, In x b -> x + RtoC (INR k) <> 0) -> no_pole b (S k).
Proof. intros A B x j Hx Hj. destruct (Nat.eq_dec j k) as [->|N]; [apply B, Hx|apply A; [exact Hx|lia]]. Qed.

Section Loop.
Variables (eps : R) (a b : list C) (z : C).
Notation t := (hyp_term a b z).
Notation s := (hyp_sum a b z).
Lemma loop_ok n : forall k v, no_pole b k ->
  (hypsum_loop eps a b z n k (s k) (t k) = Some v <->
   exists j, (k < j <= k + n)%nat /\ no_pole b j /\ (Cmod (t j) < eps)%R /\ (forall i, (k < i < j)%nat -> (eps <= Cmod (t i))%R) /\ v = s j).
Proof.
  induction n as [|n IH]; intros k v NP; cbn [hypsum_loop].
  - split; [discriminate|]. intros (j & Hj & _). lia.
  - destruct (existsb _ b) eqn:E.
    + apply pole_test in E. destruct E as (x & Hx & E). split; [discriminate|]. intros (j & Hj & NJ & _). exfalso. exact (NJ x k Hx ltac:(lia) E).
    + assert (NS : no_pole b (S k)). { apply no_pole_S; [exact NP|]. intros x Hx Z. assert (existsb (fun x => ceqb (x + cnat k) (RtoC 0)) b = true) by (apply pole_test; exists x; auto). congruence. }
      rewrite (next_term_ok a b z k NS). change (s k + t (S k)) with (s (S k)). destruct (rltb (Cmod (t (S k))) eps) eqn:L.
      * apply rltb_ok in L. split.
        { intros Ev. assert (Ev2 : s (S k) = v) by congruence. exists (S k). split; [lia|]. split; [exact NS|]. split; [exact L|]. split; [intros i Hi; lia|congruence]. }
        { intros (j & Hj & NJ & Lj & Hi & ->). destruct (Nat.eq_dec j (S k)) as [->|N]; [reflexivity|]. exfalso. specialize (Hi (S k) ltac:(lia)). lra. }
      * assert (L' : (eps <= Cmod (t (S k)))%R) by (destruct (Rle_or_lt eps (Cmod (t (S k)))) as [A|A]; [exact A|apply rltb_ok in A; congruence]).
        rewrite (IH (S k) v NS). split; intros (j & Hj & NJ & Lj & Hi & Ev); exists j.
        { split; [lia|]. split; [exact NJ|]. split; [exact Lj|]. split; [|exact Ev]. intros i Ii. destruct (Nat.eq_dec i (S k)) as [->|N]; [exact L'|apply Hi; lia]. }
        { assert (j <> S k) by (intros ->; lra). split; [lia|]. split; [exact NJ|]. split; [exact Lj|]. split; [|exact Ev]. intros i Ii. apply Hi. lia. }
Qed.
End Loop.

(** ** Size of the ratio of consecutive terms *)
Definition Rprod (l : list R) : R := fold_right Rmult 1%R l.
Lemma Cmod_Cprod l : Cmod (Cprod l) = Rprod (map Cmod l).
Proof. induction l as [|x l IH]; [cbn; rewrite Cmod_1; reflexivity|]. rewrite Cprod_cons, Cmod_mult, IH. reflexivity. Qed.
Open Scope R_scope.
Lemma Rprod_cons x l : Rprod (x :: l) = x * Rprod l. Proof. reflexivity. Qed.
Definition uu (n : nat) (x : C) : R := Cmod (x + RtoC (INR n))%C / INR (n + 1).
Lemma INR_S_pos n : 0 < INR (n + 1). Proof. rewrite plus_INR. pose proof (pos_INR n). cbn. lra. Qed.
Lemma lim_inv_n : is_lim_seq (fun n => / INR (n + 1)) 0.
Proof.
  replace (Finite 0) with (Rbar_inv p_infty) by reflexivity. apply is_lim_seq_inv; [|discriminate]. apply (is_lim_seq_ext (fun n => INR (S n))); [intros n; f_equal; lia|]. apply (is_lim_seq_incr_1 (fun n => INR n)). apply is_lim_seq_INR.
Qed.
Lemma uu_lim x : is_lim_seq (fun n => uu n x) 1.
Proof.
  assert (B : forall n, Rabs (uu n x - 1) <= Cmod (x - RtoC 1)%C * / INR (n + 1)).
  { intros n. unfold uu. pose proof (INR_S_pos n) as P. replace (Cmod (x + RtoC (INR n))%C / INR (n + 1) - 1) with ((Cmod (x + RtoC (INR n))%C - INR (n + 1)) * / INR (n + 1)) by (field; lra). rewrite Rabs_mult, (Rabs_pos_eq (/ INR (n + 1))) by (left; apply Rinv_0_lt_compat, P).
    apply Rmult_le_compat_r; [left; apply Rinv_0_lt_compat, P|]. assert (E : Cmod (RtoC (INR (n + 1))) = INR (n + 1)) by (rewrite Cmod_R; apply Rabs_pos_eq; lra).
    pose proof (Cmod_triangle (x - RtoC 1)%C (RtoC (INR (n + 1)))) as T1. pose proof (Cmod_triangle (x + RtoC (INR n))%C (- (x - RtoC 1))%C) as T2. rewrite Cmod_opp in T2.
    replace (x - RtoC 1 + RtoC (INR (n + 1)))%C with (x + RtoC (INR n))%C in T1 by (rewrite plus_INR, RtoC_plus; cbn [INR]; ring). replace (x + RtoC (INR n) + - (x - RtoC 1))%C with (RtoC (INR (n + 1))) in T2 by (rewrite plus_INR, RtoC_plus; cbn [INR]; ring). rewrite E in T1, T2. apply Rabs_le. lra. }
  apply (is_lim_seq_ext (fun n => (uu n x - 1) + 1)); [intros n; ring|]. replace (Finite 1) with (Finite (0 + 1)) by (f_equal; ring). apply is_lim_seq_plus'; [|apply is_lim_seq_const].
  apply is_lim_seq_abs_0. apply (is_lim_seq_le_le (fun _ => 0) _ (fun n => Cmod (x - RtoC 1)%C * / INR (n + 1))); [intros n; split; [apply Rabs_pos|apply B]|apply is_lim_seq_const|].
  replace (Finite 0) with (Rbar_mult (Finite (Cmod (x - RtoC 1)%C)) (Finite 0)) by (cbn; f_equal; ring). apply is_lim_seq_scal_l, lim_inv_n.
Qed.
Lemma uus_lim l : is_lim_seq (fun n => Rprod (map (uu n) l)) 1.
Proof. induction l as [|x l IH]; [apply is_lim_seq_const|]. cbn [map]. apply (is_lim_seq_ext (fun n => uu n x * Rprod (map (uu n) l))); [intros n; reflexivity|]. replace (Finite 1) with (Finite (1 * 1)) by (f_equal; ring). apply is_lim_seq_mult'; [apply uu_lim|exact IH]. Qed.
Lemma uus_value n l : Cmod (Cprod (map (fun x => x + cnat n)%C l)) = Rprod (map (uu n) l) * INR (n + 1) ^ length l.
Proof.
  induction l as [|x l IH]; [cbn; rewrite Cmod_1; ring|]. cbn [map length pow]. rewrite Cprod_cons, Cmod_mult, IH, Rprod_cons. unfold uu at 2. unfold cnat. pose proof (INR_S_pos n). field. lra.
Qed.
Definition growth (a b : list C) (z : C) (n : nat) : R := Rprod (map (uu n) a) * / Rprod (map (uu n) b) * Cmod z * (INR (n + 1) ^ length a * / INR (n + 1) ^ (length b + 1)).
Lemma growth_ok a b z n : no_pole b (S n) -> Cmod (hyp_term a b z (S n)) = growth a b z n * Cmod (hyp_term a b z n).
Proof.
  intros NP. rewrite <- (next_term_ok a b z n NP). unfold next_term. rewrite (fold_mul (fun x => x + cnat n)%C), (fold_div (fun x => x + cnat n)%C); [|intros x Hx; exact (NP x n Hx ltac:(lia))].
  assert (N : Cprod (map (fun x => x + cnat n)%C b) <> 0%C) by (apply Cprod_nz; intros y Hy; apply in_map_iff in Hy; destruct Hy as (w & <- & Hw); exact (NP w n Hw ltac:(lia))).
  rewrite Cmod_mult, !Cmod_div by (exact N || apply cnat_S_nz). rewrite Cmod_mult, !uus_value. pose proof (INR_S_pos n) as P. unfold cnat at 1. rewrite Cmod_R, (Rabs_pos_eq (INR (n + 1))) by lra.
  assert (NB : Rprod (map (uu n) b) <> 0). { intros Z. apply Cmod_gt_0 in N. rewrite uus_value, Z in N. lra. }
  unfold growth. rewrite pow_add, pow_1. field. repeat split; first [exact NB|lra|apply pow_nonzero; lra].
Qed.
Lemma growth_lim a b z : (length a <= length b)%nat \/ (length a = S (length b) /\ Cmod z < 1) -> exists N r, 0 <= r < 1 /\ forall n, (N <= n)%nat -> growth a b z n <= r.
Proof.
  intros H.
  assert (LB : is_lim_seq (fun n => / Rprod (map (uu n) b)) 1). { replace (Finite 1) with (Rbar_inv (Finite 1)) by (cbn; f_equal; apply Rinv_1). apply is_lim_seq_inv; [apply uus_lim|]. injection; lra. }
  assert (L1 : is_lim_seq (fun n => Rprod (map (uu n) a) * / Rprod (map (uu n) b) * Cmod z) (Cmod z)).
  { replace (Finite (Cmod z)) with (Finite (1 * 1 * Cmod z)) by (f_equal; ring). apply is_lim_seq_mult'; [|apply is_lim_seq_const]. apply is_lim_seq_mult'; [apply uus_lim|exact LB]. }
  assert (E : exists L, is_lim_seq (fun n => growth a b z n) (Finite L) /\ 0 <= L < 1).
  { destruct H as [H|[H Hz]].
    - exists 0. split; [|lra]. replace (Finite 0) with (Finite (Cmod z * 0)) by (f_equal; ring). apply is_lim_seq_mult'; [exact L1|].
      apply (is_lim_seq_le_le (fun _ => 0) _ (fun n => / INR (n + 1))); [|apply is_lim_seq_const|apply lim_inv_n]. intros n. pose proof (INR_S_pos n) as P. assert (G : 1 <= INR (n + 1)) by (rewrite plus_INR; pose proof (pos_INR n); cbn; lra).
      replace (length b + 1)%nat with (length a + (length b - length a) + 1)%nat by lia. rewrite !pow_add, pow_1. assert (0 < INR (n + 1) ^ length a) by (apply pow_lt, P). assert (1 <= INR (n + 1) ^ (length b - length a)) by (apply pow_R1_Rle, G).
      replace (INR (n + 1) ^ length a * / (INR (n + 1) ^ length a * INR (n + 1) ^ (length b - length a) * INR (n + 1))) with (/ INR (n + 1) ^ (length b - length a) * / INR (n + 1)) by (field; repeat split; lra).
      assert (0 < / INR (n + 1)) by (apply Rinv_0_lt_compat, P). assert (0 < / INR (n + 1) ^ (length b - length a) <= 1) by (split; [apply Rinv_0_lt_compat; lra|rewrite <- Rinv_1; apply Rinv_le_contravar; lra]). split; nra.
    - exists (Cmod z). split; [|split; [apply Cmod_ge_0|exact Hz]]. apply (is_lim_seq_ext (fun n => Rprod (map (uu n) a) * / Rprod (map (uu n) b) * Cmod z)); [|exact L1]. intros n. unfold growth. rewrite H. replace (length b + 1)%nat with (S (length b)) by lia. rewrite Rinv_r; [ring|]. apply pow_nonzero. pose proof (INR_S_pos n). lra. }
  destruct E as (L & LL & BL). apply is_lim_seq_spec in LL. destruct (LL (mkposreal ((1 - L) / 2) ltac:(lra))) as (N & HN). cbn in HN. exists N, ((1 + L) / 2). split; [lra|]. intros n Hn. specialize (HN n Hn). apply Rabs_def2 in HN. lra.
Qed.
Lemma geometric a b z N r : 0 <= r -> (forall n, (N <= n)%nat -> Cmod (hyp_term a b z (S n)) <= r * Cmod (hyp_term a b z n)) -> forall n, Cmod (hyp_term a b z (N + n)) <= r ^ n * Cmod (hyp_term a b z N).
Proof. intros Hr H n. induction n as [|n IH]; [rewrite Nat.add_0_r; cbn; lra|]. rewrite Nat.add_succ_r. eapply Rle_trans; [apply H; lia|]. cbn [pow]. rewrite Rmult_assoc. apply Rmult_le_compat_l; assumption. Qed.
Lemma tail_sum a b z N r : 0 <= r < 1 -> (forall n, (N <= n)%nat -> Cmod (hyp_term a b z (S n)) <= r * Cmod (hyp_term a b z n)) -> forall n, Cmod (hyp_sum a b z (N + n) - hyp_sum a b z N)%C <= Cmod (hyp_term a b z N) * (r * (1 - r ^ n) / (1 - r)).
Proof.
  intros Hr H n. induction n as [|n IH]; [rewrite Nat.add_0_r; replace (hyp_sum a b z N - hyp_sum a b z N)%C with (RtoC 0) by ring; rewrite Cmod_0; cbn; right; field; lra|].
  rewrite Nat.add_succ_r. cbn [hyp_sum]. pose proof (geometric a b z N r ltac:(lra) H (S n)) as G. rewrite Nat.add_succ_r in G.
  replace (hyp_sum a b z (N + n) + hyp_term a b z (S (N + n)) - hyp_sum a b z N)%C with (hyp_sum a b z (N + n) - hyp_sum a b z N + hyp_term a b z (S (N + n)))%C by ring.
  eapply Rle_trans; [apply Cmod_triangle|]. eapply Rle_trans; [apply Rplus_le_compat; [exact IH|exact G]|]. right. cbn [pow]. field. lra.
Qed.
(** The terms tend to zero, and the series converges. *)
Lemma terms_small a b z : (forall n, no_pole b n) -> (length a <= length b)%nat \/ (length a = S (length b) /\ Cmod z < 1) -> exists N r, 0 <= r < 1 /\ forall n, (N <= n)%nat -> Cmod (hyp_term a b z (S n)) <= r * Cmod (hyp_term a b z n).
Proof.
  intros NP H. destruct (growth_lim a b z H) as (N & r & Hr & HN). exists N, r. split; [exact Hr|]. intros n Hn. rewrite (growth_ok a b z n (NP _)). apply Rmult_le_compat_r; [apply Cmod_ge_0|apply HN, Hn].
Qed.
Lemma Rabs_Re (w : C) : Rabs (Re w) <= Cmod w.
Proof. unfold Cmod, Re. rewrite <- sqrt_Rsqr_abs. apply sqrt_le_1_alt. unfold Rsqr. nra. Qed.
Lemma Rabs_Im (w : C) : Rabs (Im w) <= Cmod w.
Proof. unfold Cmod, Im. rewrite <- sqrt_Rsqr_abs. apply sqrt_le_1_alt. unfold Rsqr. nra. Qed.
Lemma Cmod_I : Cmod Ci = 1. Proof. unfold Cmod, Ci. cbn [fst snd]. replace (0 ^ 2 + 1 ^ 2) with 1 by ring. apply sqrt_1. Qed.
Lemma Cmod_le_sum (w : C) : Cmod w <= Rabs (Re w) + Rabs (Im w).
Proof.
  destruct w as [x y]. unfold Re, Im. cbn [fst snd]. replace (x, y) with (RtoC x + Ci * RtoC y)%C by (apply injective_projections; cbn; ring). eapply Rle_trans; [apply Cmod_triangle|]. rewrite Cmod_mult, Cmod_I, !Cmod_R. lra.
Qed.
Lemma series_sum a b z N r : 0 <= r < 1 -> (forall n, (N <= n)%nat -> Cmod (hyp_term a b z (S n)) <= r * Cmod (hyp_term a b z n)) -> exists v, is_hyper a b z v.
Proof.
  intros Hr H.
  assert (CA : forall e, 0 < e -> exists M, forall n m, (M <= n)%nat -> (M <= m)%nat -> Cmod (hyp_sum a b z n - hyp_sum a b z m)%C < e).
  { intros e He. set (K := Cmod (hyp_term a b z N) / (1 - r) + 1). assert (KP : 0 < K) by (unfold K; assert (0 <= Cmod (hyp_term a b z N) / (1 - r)) by (apply Rcomplements.Rdiv_le_0_compat; [apply Cmod_ge_0|lra]); lra).
    assert (exists M, r ^ M * K < e / 2) as (M & HM).
    { destruct (pow_lt_1_zero r ltac:(rewrite Rabs_pos_eq; lra) (e / 2 / K) ltac:(apply Rdiv_lt_0_compat; lra)) as (M & HM). exists M. specialize (HM M (Nat.le_refl M)). rewrite Rabs_pos_eq in HM by (apply pow_le; lra). apply (Rmult_lt_compat_r K) in HM; [|exact KP]. unfold Rdiv in HM. rewrite Rmult_assoc, Rinv_l, Rmult_1_r in HM by lra. lra. }
    assert (B : forall n, (N + M <= n)%nat -> Cmod (hyp_sum a b z n - hyp_sum a b z (N + M))%C < e / 2).
    { intros n Hn. replace n with (N + M + (n - (N + M)))%nat by lia. set (q := (n - (N + M))%nat). eapply Rle_lt_trans; [apply (tail_sum a b z (N + M) r Hr)|].
      - intros i Hi. apply H. lia.
      - eapply Rle_lt_trans; [|exact HM]. pose proof (geometric a b z N r ltac:(lra) H M) as G. assert (0 <= r ^ q <= 1) by (split; [apply pow_le; lra|rewrite <- (pow1 q); apply pow_incr; lra]).
        assert (0 <= r * (1 - r ^ q) / (1 - r) <= / (1 - r)). { split; [apply Rcomplements.Rdiv_le_0_compat; [apply Rmult_le_pos; lra|lra]|]. unfold Rdiv. rewrite <- (Rmult_1_l (/ (1 - r))) at 2. apply Rmult_le_compat_r; [left; apply Rinv_0_lt_compat; lra|]. nra. }
        assert (0 <= r ^ M) by (apply pow_le; lra). eapply Rle_trans; [apply Rmult_le_compat; [apply Cmod_ge_0|lra|exact G|apply H1]|]. rewrite Rmult_assoc. apply Rmult_le_compat_l; [lra|]. unfold K, Rdiv. lra. }
    exists (N + M)%nat. intros n m Hn Hm. pose proof (B n Hn) as B1. pose proof (B m Hm) as B2. replace (hyp_sum a b z n - hyp_sum a b z m)%C with ((hyp_sum a b z n - hyp_sum a b z (N + M)) + - (hyp_sum a b z m - hyp_sum a b z (N + M)))%C by ring. eapply Rle_lt_trans; [apply Cmod_triangle|]. rewrite Cmod_opp. lra. }
  assert (CR : ex_finite_lim_seq (fun n => Re (hyp_sum a b z n))). { apply ex_lim_seq_cauchy_corr. intros e. destruct (CA e (cond_pos e)) as (M & HM). exists M. intros n m Hn Hm. eapply Rle_lt_trans; [|apply (HM n m Hn Hm)]. eapply Rle_trans; [|apply Rabs_Re]. right. f_equal. }
  assert (CI : ex_finite_lim_seq (fun n => Im (hyp_sum a b z n))). { apply ex_lim_seq_cauchy_corr. intros e. destruct (CA e (cond_pos e)) as (M & HM). exists M. intros n m Hn Hm. eapply Rle_lt_trans; [|apply (HM n m Hn Hm)]. eapply Rle_trans; [|apply Rabs_Im]. right. f_equal. }
  destruct CR as (x & Hx). destruct CI as (y & Hy). exists (x, y). intros e He. apply is_lim_seq_spec in Hx. apply is_lim_seq_spec in Hy. destruct (Hx (mkposreal (e / 2) ltac:(lra))) as (M1 & H1). destruct (Hy (mkposreal (e / 2) ltac:(lra))) as (M2 & H2). cbn in H1, H2.
  exists (Nat.max M1 M2). intros n Hn. eapply Rle_lt_trans; [apply Cmod_le_sum|]. specialize (H1 n ltac:(lia)). specialize (H2 n ltac:(lia)). change (Rabs (Re (hyp_sum a b z n) - x) + Rabs (Im (hyp_sum a b z n) - y) < e). lra.
Qed.
(** ** Real arguments *)
Fixpoint rpoch (a : R) (n : nat) : R := match n with O => 1 | S n' => rpoch a n' * (a + INR n') end.
Definition rterm (a b : list R) (z : R) (n : nat) : R := Rprod (map (fun x => rpoch x n) a) / Rprod (map (fun x => rpoch x n) b) * z ^ n / INR (fact n).
Fixpoint rsum (a b : list R) (z : R) (n : nat) : R := match n with O => rterm a b z 0 | S n' => rsum a b z n' + rterm a b z (S n') end.
Lemma poch_real x n : poch (RtoC x) n = RtoC (rpoch x n).
Proof. induction n as [|n IH]; [reflexivity|]. cbn [poch rpoch]. rewrite IH, RtoC_mult, RtoC_plus. reflexivity. Qed.
Lemma Cpower_real x n : Cpower (RtoC x) n = RtoC (x ^ n).
Proof. induction n as [|n IH]; [reflexivity|]. cbn [Cpower pow]. rewrite IH, RtoC_mult. ring. Qed.
Lemma Cprod_real (f : R -> R) l : Cprod (map (fun x => RtoC (f x)) l) = RtoC (Rprod (map f l)).
Proof. induction l as [|x l IH]; [reflexivity|]. cbn [map]. rewrite Cprod_cons, IH, Rprod_cons, RtoC_mult. reflexivity. Qed.
Lemma term_real a b z n : no_pole (map RtoC b) n -> hyp_term (map RtoC a) (map RtoC b) (RtoC z) n = RtoC (rterm a b z n).
Proof.
  intros NP. unfold hyp_term, rterm. assert (E : forall l, Cprod (map (fun x => poch x n) (map RtoC l)) = RtoC (Rprod (map (fun x => rpoch x n) l))). { intros l. rewrite map_map. rewrite <- (Cprod_real (fun x => rpoch x n)). f_equal. apply map_ext. intros x. apply poch_real. }
  pose proof (pochs_nz _ _ NP) as N. rewrite !E in *. rewrite Cpower_real, !RtoC_div, RtoC_mult, RtoC_div; [reflexivity| |apply INR_fact_neq_0]. intros Z. apply N. rewrite Z. reflexivity.
Qed.
Lemma sum_real a b z n : no_pole (map RtoC b) n -> hyp_sum (map RtoC a) (map RtoC b) (RtoC z) n = RtoC (rsum a b z n).
Proof.
  intros NP. induction n as [|n IH]; [apply term_real, NP|]. cbn [hyp_sum rsum]. rewrite IH, term_real, RtoC_plus; [reflexivity|exact NP|]. intros x k Hx Hk. apply NP; [exact Hx|lia].
Qed.
Lemma no_pole_pos b n : (forall x, In x b -> 0 < x) -> no_pole (map RtoC b) n.
Proof. intros H x k Hx Hk Z. apply in_map_iff in Hx. destruct Hx as (y & <- & Hy). rewrite <- RtoC_plus in Z. apply RtoC_inj in Z. specialize (H y Hy). pose proof (pos_INR k). lra. Qed.
