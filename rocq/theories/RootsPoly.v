(** Polynomials over the complex numbers: uniqueness of coefficients and of root lists; the inverse matrix of the gradient. *)
From Coq Require Import List Bool Arith Lia Ring Permutation Reals Lra.
From Coquelicot Require Import Complex.
From Verif Require Import Roots RootsSpec RootsFacts RootsC RootsLim.
Import ListNotations.
Open Scope R_scope.
Open Scope C_scope.
Notation Cpow := (RootsSpec.pow C (RtoC 1) Cmult).
Notation Clower := (RootsSpec.lower C (RtoC 0) (RtoC 1) Cplus Cmult).
Notation Csum := (RootsSpec.sum_to C (RtoC 0) Cplus).
Notation Cvieta := (Roots.vieta C (RtoC 0) (RtoC 1) Cplus Cmult Copp).
Notation Th := C_ring_theory.

Lemma Cvanish xs cs : NoDup xs -> (length cs <= length xs)%nat -> (forall x, In x xs -> Clower cs x = 0) -> Forall (eq (RtoC 0)) cs.
Proof. apply (vanish C 0 1 Cplus Cmult Cminus Copp Th C_integral). Qed.
Lemma lower_sub (as_ bs : list C) x : length as_ = length bs -> Clower (map (fun p => fst p - snd p) (combine as_ bs)) x = Clower as_ x - Clower bs x.
Proof.
  revert bs. induction as_ as [|a as_ IH]; intros [|b bs] H; try discriminate; [simpl; ring|]. injection H as H. cbn [combine map RootsSpec.lower fst snd].
  rewrite IH by exact H. rewrite map_length, combine_length, H, Nat.min_id. ring.
Qed.
Lemma coeffs_unique (as_ bs xs : list C) : length as_ = length bs -> NoDup xs -> (length as_ <= length xs)%nat -> (forall x, In x xs -> Clower as_ x = Clower bs x) -> as_ = bs.
Proof.
  intros L N B H. assert (Z : Forall (eq (RtoC 0)) (map (fun p => fst p - snd p) (combine as_ bs))).
  { apply (Cvanish xs); [exact N|rewrite map_length, combine_length; lia|]. intros x Hx. rewrite lower_sub by exact L. rewrite (H x Hx). ring. }
  clear - L Z. revert bs L Z. induction as_ as [|a as_ IH]; intros [|b bs] L Z; try discriminate; [reflexivity|]. injection L as L. cbn [combine map fst snd] in Z.
  inversion Z as [|? ? Z1 Z2]; subst. rewrite (IH bs L Z2). f_equal. transitivity (a - b + b); [ring|]. rewrite <- Z1. ring.
Qed.
(** enough points *)
Definition points (r : C) (n : nat) : list C := map (fun k => r + RtoC (INR (S k))) (seq 0 n).
Lemma points_length r n : length (points r n) = n. Proof. unfold points. rewrite map_length, seq_length. reflexivity. Qed.
Lemma points_nodup r n : NoDup (points r n).
Proof.
  apply FinFun.Injective_map_NoDup; [|apply seq_NoDup]. intros i j H. assert (E : RtoC (INR (S i)) = RtoC (INR (S j))).
  { transitivity (r + RtoC (INR (S i)) - r); [ring|]. rewrite H. ring. }
  apply RtoC_inj in E. apply INR_eq in E. lia.
Qed.
Lemma points_ne r n x : In x (points r n) -> x <> r.
Proof.
  intros H E. apply in_map_iff in H. destruct H as (k & Hk & _). assert (Z : RtoC (INR (S k)) = RtoC 0) by (transitivity (r + RtoC (INR (S k)) - r); [ring|rewrite Hk, E; ring]).
  apply RtoC_inj in Z. apply (not_0_INR (S k)); [lia|exact Z].
Qed.
Lemma Cvieta_monic l : exists cs, Cvieta l = Some cs /\ length cs = length l /\ forall x, Cmonic cs x = Cfrom_roots l x.
Proof.
  exists (map (coef C 0 1 Cplus Cmult Copp l) (seq 1 (length l))). assert (H := vieta_ok C 0 1 Cplus Cmult Cminus Copp Th l). split; [exact H|].
  exact (vieta_monic C 0 1 Cplus Cmult Cminus Copp Th l _ H).
Qed.
Lemma monic_unique cs ds : length cs = length ds -> (forall x, Cmonic cs x = Cmonic ds x) -> cs = ds.
Proof.
  intros L H. apply (coeffs_unique cs ds (points 0 (length cs))); [exact L|apply points_nodup|rewrite points_length; lia|].
  intros x _. specialize (H x). unfold Cmonic, monic in H. rewrite L in H. transitivity (Cpow x (length ds) + Clower cs x - Cpow x (length ds)); [ring|]. rewrite H. ring.
Qed.
Lemma from_roots_zero_iff rs x : Cfrom_roots rs x = 0 <-> In x rs.
Proof.
  split; [|intros H; exact (from_roots_zero C 0 1 Cplus Cmult Cminus Copp Th rs x H)]. unfold Cfrom_roots, from_roots. induction rs as [|r rs IH]; simpl; intros H; [exfalso; apply RtoC_inj in H; lra|].
  apply C_integral in H. destruct H as [H|H]; [left|right; auto]. transitivity (r + (x + - r)); [rewrite H; ring|ring].
Qed.
Lemma from_roots_cancel r rs ss : length rs = length ss -> (forall x, (x - r) * Cfrom_roots rs x = (x - r) * Cfrom_roots ss x) -> forall x, Cfrom_roots rs x = Cfrom_roots ss x.
Proof.
  intros L H x. destruct (Cvieta_monic rs) as (a & _ & La & Ha). destruct (Cvieta_monic ss) as (b & _ & Lb & Hb). rewrite <- Ha, <- Hb. f_equal.
  apply (coeffs_unique a b (points r (length a))); [congruence|apply points_nodup|rewrite points_length; lia|]. intros y Hy. apply points_ne in Hy. specialize (H y).
  rewrite <- Ha, <- Hb in H. assert (E : Cmonic a y = Cmonic b y).
  { assert (Z : (y - r) * (Cmonic a y - Cmonic b y) = 0) by (transitivity ((y - r) * Cmonic a y - (y - r) * Cmonic b y); [ring|rewrite H; ring]).
    apply C_integral in Z. destruct Z as [Z|Z]; [exfalso; apply Hy; transitivity (y - r + r); [ring|rewrite Z; ring]|]. transitivity (Cmonic a y - Cmonic b y + Cmonic b y); [ring|rewrite Z; ring]. }
  unfold Cmonic, monic in E. rewrite La, Lb, L in E. transitivity (Cpow y (length ss) + Clower a y - Cpow y (length ss)); [ring|]. rewrite E. ring.
Qed.
Lemma roots_unique rs : forall ss, length rs = length ss -> (forall x, Cfrom_roots rs x = Cfrom_roots ss x) -> Permutation rs ss.
Proof.
  induction rs as [|r rs IH]; intros ss L H; [destruct ss; [constructor|discriminate]|].
  assert (I : In r ss) by (apply from_roots_zero_iff; rewrite <- H; apply from_roots_zero_iff; left; reflexivity).
  apply in_split in I. destruct I as (s1 & s2 & ->). apply Permutation_cons_app. apply IH; [rewrite app_length in *; simpl in L; lia|].
  apply (from_roots_cancel r); [rewrite app_length in *; simpl in L; lia|]. intros x.
  assert (P : Cfrom_roots (s1 ++ r :: s2) x = Cfrom_roots (r :: s1 ++ s2) x) by (apply (from_roots_perm C 0 1 Cplus Cmult Cminus Copp Th); symmetry; apply Permutation_middle).
  specialize (H x). rewrite P in H. unfold Cfrom_roots, from_roots in *. cbn [map RootsSpec.prod] in H. exact H.
Qed.
Lemma from_roots_nz r rs : ~ In r rs -> Cfrom_roots rs r <> 0.
Proof. intros H E. apply H, from_roots_zero_iff, E. Qed.
Lemma from_roots_omit rs i x : (i < length rs)%nat -> Cfrom_roots rs x = (x - nth i rs 0) * Cfrom_roots (omit i rs) x.
Proof.
  intros H. transitivity (Cfrom_roots (nth i rs (RtoC 0) :: omit i rs) x); [apply (from_roots_perm C 0 1 Cplus Cmult Cminus Copp Th), omit_perm, H|]. reflexivity.
Qed.
Lemma nodup_omit (rs : list C) i : NoDup rs -> (i < length rs)%nat -> ~ In (nth i rs 0) (omit i rs).
Proof. intros N H. assert (P := omit_perm rs i 0 H). apply (Permutation_NoDup P) in N. inversion N; assumption. Qed.
(** rows of the matrix and Lagrange's basis *)
Definition Mrow (rs : list C) (i : nat) : list C := row C 0 1 Cplus Cmult Copp rs i.
Lemma Mrow_lower rs i x : (i < length rs)%nat -> Csum (length rs) (fun k => nth k (Mrow rs i) 0 * Cpow x (length rs - 1 - k)) = Cfrom_roots (omit i rs) x.
Proof.
  intros H. assert (Hne : rs <> []) by (intros ->; simpl in H; lia). assert (E := row_lower C 0 1 Cplus Cmult Cminus Copp Th rs i x H). unfold Cfrom_roots. rewrite <- E.
  rewrite (lower_sum C 0 1 Cplus Cmult Cminus Copp Th). unfold Mrow. rewrite (row_length C 0 1 Cplus Cmult Copp rs i Hne). reflexivity.
Qed.
Definition Lag (rs : list C) (k i : nat) : C := Cpow (nth i rs (RtoC 0)) (length rs - 1 - k) / Cfrom_roots (omit i rs) (nth i rs (RtoC 0)).
Definition delta_ (k k' : nat) : C := if Nat.eqb k k' then RtoC 1 else RtoC 0.
Lemma other_zero rs i j : (i < length rs)%nat -> (j < length rs)%nat -> i <> j -> Cfrom_roots (omit i rs) (nth j rs 0) = 0.
Proof. intros. apply from_roots_zero_iff, omit_nth_in; assumption. Qed.
Lemma left_inverse_unique rs (N : nat -> nat -> C) : NoDup rs ->
  (forall k k', (k < length rs)%nat -> (k' < length rs)%nat -> Csum (length rs) (fun i => N k i * nth k' (Mrow rs i) 0) = delta_ k k') ->
  forall k i, (k < length rs)%nat -> (i < length rs)%nat -> N k i = Lag rs k i.
Proof.
  intros ND H k i Hk Hi. set (n := length rs) in *. set (x := nth i rs (RtoC 0)).
  assert (E : Csum n (fun j => N k j * Cfrom_roots (omit j rs) x) = Cpow x (n - 1 - k)).
  { transitivity (Csum n (fun j => Csum n (fun k' => N k j * nth k' (Mrow rs j) 0 * Cpow x (n - 1 - k')))).
    - apply (sum_ext C 0 Cplus). intros j Hj. rewrite <- Mrow_lower by exact Hj. fold n. rewrite <- (sum_scale C 0 1 Cplus Cmult Cminus Copp Th). apply (sum_ext C 0 Cplus). intros. ring.
    - rewrite (sum_swap C 0 1 Cplus Cmult Cminus Copp Th). rewrite (sum_single C 0 1 Cplus Cmult Cminus Copp Th n k); [|exact Hk|].
      + transitivity (Csum n (fun j => Cpow x (n - 1 - k) * (N k j * nth k (Mrow rs j) 0))); [apply (sum_ext C 0 Cplus); intros; ring|].
        rewrite (sum_scale C 0 1 Cplus Cmult Cminus Copp Th), H by assumption. unfold delta_. rewrite Nat.eqb_refl. ring.
      + intros k' Hk' Nk. transitivity (Csum n (fun j => Cpow x (n - 1 - k') * (N k j * nth k' (Mrow rs j) 0))); [apply (sum_ext C 0 Cplus); intros; ring|].
        rewrite (sum_scale C 0 1 Cplus Cmult Cminus Copp Th), H by assumption. unfold delta_. rewrite (proj2 (Nat.eqb_neq k k')) by congruence. ring. }
  rewrite (sum_single C 0 1 Cplus Cmult Cminus Copp Th n i) in E; [|exact Hi|].
  - unfold Lag. fold n x. rewrite <- E. field. apply from_roots_nz, nodup_omit; assumption.
  - intros j Hj Nj. unfold x. rewrite other_zero by assumption. ring.
Qed.
Lemma left_inverse_exists rs : NoDup rs -> forall k k', (k < length rs)%nat -> (k' < length rs)%nat -> Csum (length rs) (fun i => Lag rs k i * nth k' (Mrow rs i) 0) = delta_ k k'.
Proof.
  intros ND k k' Hk Hk'. pose proof (fun i x H => Mrow_lower rs i x H) as ML. set (n := length rs) in *.
  assert (Eq : map (fun k' => Csum n (fun i => Lag rs k i * nth k' (Mrow rs i) 0)) (seq 0 n) = map (delta_ k) (seq 0 n)).
  { apply (coeffs_unique _ _ rs); [rewrite !map_length; reflexivity|exact ND|rewrite map_length, seq_length; unfold n; lia|].
    intros x Hx. apply (In_nth _ _ (RtoC 0)) in Hx. destruct Hx as (i & Hi & <-). fold n in Hi.
    rewrite !(lower_sum C 0 1 Cplus Cmult Cminus Copp Th), !map_length, seq_length.
    transitivity (Csum n (fun j => Csum n (fun l => Lag rs k l * (nth j (Mrow rs l) 0 * Cpow (nth i rs 0) (n - 1 - j))))).
    { apply (sum_ext C 0 Cplus). intros j Hj. rewrite (nth_map_seq C) by exact Hj.
      transitivity (Cpow (nth i rs 0) (n - 1 - j) * Csum n (fun i0 => Lag rs k i0 * nth j (Mrow rs i0) 0)); [ring|]. rewrite <- (sum_scale C 0 1 Cplus Cmult Cminus Copp Th). apply (sum_ext C 0 Cplus). intros. ring. }
    rewrite (sum_swap C 0 1 Cplus Cmult Cminus Copp Th). rewrite (sum_single C 0 1 Cplus Cmult Cminus Copp Th n i); [|exact Hi|].
    - rewrite (sum_scale C 0 1 Cplus Cmult Cminus Copp Th), ML by exact Hi. rewrite (sum_single C 0 1 Cplus Cmult Cminus Copp Th n k); [|exact Hk|].
      + rewrite (nth_map_seq C) by exact Hk. unfold delta_. rewrite Nat.eqb_refl. unfold Lag. fold n. field. apply from_roots_nz, nodup_omit; assumption.
      + intros j Hj Nj. rewrite (nth_map_seq C) by exact Hj. unfold delta_. rewrite (proj2 (Nat.eqb_neq k j)) by congruence. ring.
    - intros l Hl Nl. rewrite (sum_scale C 0 1 Cplus Cmult Cminus Copp Th), ML by exact Hl. rewrite other_zero by assumption. ring. }
  apply (f_equal (fun l => nth k' l (RtoC 0))) in Eq. rewrite !(nth_map_seq C) in Eq by exact Hk'. exact Eq.
Qed.
(** implicit differentiation of a simple root *)
Lemma simple_root_derivative (c : nat -> C -> C) (dc : nat -> C) (r : C -> C) t0 rs i n :
  length rs = n -> (i < n)%nat -> NoDup rs ->
  (forall k, (k < n)%nat -> Cderivative (c k) t0 (dc k)) -> Ccontinuous r t0 ->
  (forall t, Cmonic (map (fun k => c k t) (seq 0 n)) (r t) = 0) ->
  (forall x, Cmonic (map (fun k => c k t0) (seq 0 n)) x = Cfrom_roots rs x) -> r t0 = nth i rs 0 ->
  Cderivative r t0 (Csum n (fun k => - Lag rs k i * dc k)).
Proof.
  intros Hn Hi ND Hc Hr Hz H0 Ri. set (ri := nth i rs (RtoC 0)) in *. set (others := omit i rs).
  assert (NZ : Cfrom_roots others ri <> 0) by (apply from_roots_nz, nodup_omit; [exact ND|congruence]).
  (* (r t - ri) * others (r t) = - sum (c k t - c k t0) r(t)^(n-1-k) *)
  assert (K : forall t, (r t - ri) * Cfrom_roots others (r t) = - Csum n (fun k => (c k t - c k t0) * Cpow (r t) (n - 1 - k))).
  { intros t. unfold ri, others. rewrite <- (from_roots_omit rs i (r t)) by congruence. rewrite <- H0. specialize (Hz t). unfold Cmonic, monic in *. rewrite !map_length, !seq_length in *.
    rewrite !(lower_sum C 0 1 Cplus Cmult Cminus Copp Th), !map_length, !seq_length in *.
    assert (D : Csum n (fun k => (c k t - c k t0) * Cpow (r t) (n - 1 - k)) =
      Csum n (fun j => nth j (map (fun k => c k t) (seq 0 n)) 0 * Cpow (r t) (n - 1 - j)) - Csum n (fun j => nth j (map (fun k => c k t0) (seq 0 n)) 0 * Cpow (r t) (n - 1 - j))).
    { transitivity (Csum n (fun j => nth j (map (fun k => c k t) (seq 0 n)) 0 * Cpow (r t) (n - 1 - j) + (- (1)) * (nth j (map (fun k => c k t0) (seq 0 n)) 0 * Cpow (r t) (n - 1 - j)))).
      - apply (sum_ext C 0 Cplus). intros j Hj. rewrite !(nth_map_seq C) by exact Hj. ring.
      - rewrite (sum_add C 0 1 Cplus Cmult Cminus Copp Th), (sum_scale C 0 1 Cplus Cmult Cminus Copp Th). ring. }
    rewrite D. match goal with |- ?p + ?a = - (?b - ?a) => assert (Q : p + b = 0) by exact Hz; transitivity (p + b + a - b); [ring|rewrite Q; ring] end. }
  unfold Cderivative.
  assert (L1 : Clim (fun t => Csum n (fun k => (c k t - c k t0) / (t - t0) * Cpow (r t) (n - 1 - k))) t0 (Csum n (fun k => dc k * Cpow ri (n - 1 - k)))).
  { apply (Clim_sum (fun k t => (c k t - c k t0) / (t - t0) * Cpow (r t) (n - 1 - k))). intros k Hk. apply Clim_mult; [apply Hc, Hk|]. apply Clim_pow. rewrite <- Ri. exact Hr. }
  assert (L2 : Clim (fun t => / Cfrom_roots others (r t)) t0 (/ Cfrom_roots others ri)).
  { apply Clim_inv; [exact NZ|]. apply Clim_from_roots. rewrite <- Ri. exact Hr. }
  assert (L3 := Clim_mult _ _ _ _ _ (Clim_mult _ _ _ _ _ (Clim_const (- (1)) t0) L1) L2).
  replace (Csum n (fun k => - Lag rs k i * dc k)) with (- (1) * Csum n (fun k => dc k * Cpow ri (n - 1 - k)) * / Cfrom_roots others ri).
  2:{ transitivity ((- (1) * / Cfrom_roots others ri) * Csum n (fun k => dc k * Cpow ri (n - 1 - k))); [ring|]. rewrite <- (sum_scale C 0 1 Cplus Cmult Cminus Copp Th).
      apply (sum_ext C 0 Cplus). intros k _. unfold Lag. rewrite Hn. fold ri others. field. exact NZ. }
  (* near t0 the denominator does not vanish *)
  assert (NN : exists d : R, (0 < d)%R /\ forall t, t <> t0 -> (Cmod (t - t0)%C < d)%R -> Cfrom_roots others (r t) <> 0).
  { assert (LO : Clim (fun t => Cfrom_roots others (r t)) t0 (Cfrom_roots others ri)) by (apply Clim_from_roots; rewrite <- Ri; exact Hr).
    destruct (LO (Cmod (Cfrom_roots others ri)) ltac:(apply Cmod_gt_0; exact NZ)) as (d & Hd & LD). exists d. split; [exact Hd|]. intros t Nt Ht Z. specialize (LD t Nt Ht).
    rewrite Z in LD. replace (0 - Cfrom_roots others ri) with (- Cfrom_roots others ri) in LD by ring. rewrite Cmod_opp in LD. lra. }
  destruct NN as (d0 & Hd0 & NN). intros eps He. destruct (L3 eps He) as (d & Hd & LD). exists (Rmin d d0). split; [apply Rmin_pos; assumption|]. intros t Nt Ht.
  specialize (NN t Nt (Rlt_le_trans _ _ _ Ht (Rmin_r _ _))). specialize (LD t Nt (Rlt_le_trans _ _ _ Ht (Rmin_l _ _))).
  replace ((r t - r t0) / (t - t0)) with (- (1) * Csum n (fun k => (c k t - c k t0) / (t - t0) * Cpow (r t) (n - 1 - k)) * / Cfrom_roots others (r t)); [exact LD|].
  assert (Ntt : t - t0 <> 0) by (intros Z; apply Nt; transitivity (t - t0 + t0); [ring|rewrite Z; ring]).
  assert (S1 : Csum n (fun k => (c k t - c k t0) / (t - t0) * Cpow (r t) (n - 1 - k)) = / (t - t0) * Csum n (fun k => (c k t - c k t0) * Cpow (r t) (n - 1 - k))).
  { rewrite <- (sum_scale C 0 1 Cplus Cmult Cminus Copp Th). apply (sum_ext C 0 Cplus). intros. field. exact Ntt. }
  rewrite S1. assert (K' : Csum n (fun k => (c k t - c k t0) * Cpow (r t) (n - 1 - k)) = - ((r t - ri) * Cfrom_roots others (r t))) by (rewrite K; ring).
  rewrite K', Ri. fold ri. field. auto.
Qed.
