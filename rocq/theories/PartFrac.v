(** Partial fractions of a product of integer powers of linear factors; coefficients as sums over partitions. *)
From Coq Require Import Reals List Bool Arith ZArith Lia Lra Psatz.
Import ListNotations.
Open Scope R_scope.

(** ** Finite sums *)
Fixpoint bsum (n : nat) (f : nat -> R) : R := match n with O => 0 | S k => bsum k f + f k end.
Fixpoint lsum {A} (l : list A) (f : A -> R) : R := match l with [] => 0 | x :: l' => f x + lsum l' f end.
Lemma bsum_ext n f g : (forall i, (i < n)%nat -> f i = g i) -> bsum n f = bsum n g.
Proof. induction n as [|n IH]; intros H; cbn; [reflexivity|]. rewrite IH, H by (auto || lia). reflexivity. Qed.
Lemma bsum_plus n f g : bsum n (fun i => f i + g i) = bsum n f + bsum n g.
Proof. induction n as [|n IH]; cbn; [ring|]. rewrite IH. ring. Qed.
Lemma bsum_scal n c f : bsum n (fun i => c * f i) = c * bsum n f.
Proof. induction n as [|n IH]; cbn; [ring|]. rewrite IH. ring. Qed.
Lemma bsum_0 n : bsum n (fun _ => 0) = 0.
Proof. induction n as [|n IH]; cbn; [ring|]. rewrite IH. ring. Qed.
Lemma bsum_zero n f : (forall i, (i < n)%nat -> f i = 0) -> bsum n f = 0.
Proof. intros H. rewrite (bsum_ext n f (fun _ => 0) H). apply bsum_0. Qed.
Lemma bsum_first n f : bsum (S n) f = f O + bsum n (fun i => f (S i)).
Proof. induction n as [|n IH]; [cbn; ring|]. change (bsum (S (S n)) f) with (bsum (S n) f + f (S n)). rewrite IH. cbn [bsum]. ring. Qed.
Lemma bsum_swap n m f : bsum n (fun i => bsum m (fun j => f i j)) = bsum m (fun j => bsum n (fun i => f i j)).
Proof. induction n as [|n IH]; cbn; [rewrite bsum_0; reflexivity|]. rewrite IH, <- bsum_plus. reflexivity. Qed.
Lemma bsum_rev n f : bsum n f = bsum n (fun i => f (n - 1 - i)%nat).
Proof.
  induction n as [|n IH]; [reflexivity|]. rewrite (bsum_first n (fun i => f (S n - 1 - i)%nat)). cbn [bsum]. rewrite IH, Rplus_comm. f_equal; [f_equal; lia|]. apply bsum_ext. intros i Hi. f_equal. lia.
Qed.
Lemma bsum_extend n k f : (forall i, (n <= i < n + k)%nat -> f i = 0) -> bsum (n + k) f = bsum n f.
Proof. induction k as [|k IH]; intros H; [rewrite Nat.add_0_r; reflexivity|]. rewrite Nat.add_succ_r. cbn. rewrite IH, H by (intros; try apply H; lia). ring. Qed.
Lemma bsum_abs n f : Rabs (bsum n f) <= bsum n (fun i => Rabs (f i)).
Proof. induction n as [|n IH]; cbn; [rewrite Rabs_R0; lra|]. eapply Rle_trans; [apply Rabs_triang|]. lra. Qed.
Lemma lsum_ext {A} (l : list A) f g : (forall i, In i l -> f i = g i) -> lsum l f = lsum l g.
Proof. induction l as [|a l IH]; intros H; cbn; [reflexivity|]. rewrite IH, H by (try (intros; apply H); cbn; auto). reflexivity. Qed.
Lemma lsum_plus {A} (l : list A) f g : lsum l (fun i => f i + g i) = lsum l f + lsum l g.
Proof. induction l as [|a l IH]; cbn; [ring|]. rewrite IH. ring. Qed.
Lemma lsum_scal {A} (l : list A) c f : lsum l (fun i => c * f i) = c * lsum l f.
Proof. induction l as [|a l IH]; cbn; [ring|]. rewrite IH. ring. Qed.
Lemma lsum_zero {A} (l : list A) f : (forall i, In i l -> f i = 0) -> lsum l f = 0.
Proof. induction l as [|a l IH]; intros H; cbn; [reflexivity|]. rewrite IH, H by (try (intros; apply H); cbn; auto). ring. Qed.
Lemma lsum_app {A} (l l' : list A) f : lsum (l ++ l') f = lsum l f + lsum l' f.
Proof. induction l as [|a l IH]; cbn; [ring|]. rewrite IH. ring. Qed.
Lemma lsum_map {A B} (g : A -> B) l f : lsum (map g l) f = lsum l (fun i => f (g i)).
Proof. induction l as [|a l IH]; cbn; [ring|]. rewrite IH. ring. Qed.
Lemma lsum_flat_map {A B} (g : A -> list B) l f : lsum (flat_map g l) f = lsum l (fun i => lsum (g i) f).
Proof. induction l as [|a l IH]; cbn; [ring|]. rewrite lsum_app, IH. ring. Qed.
Lemma lsum_seq n k f : lsum (seq k n) f = bsum n (fun i => f (k + i)%nat).
Proof.
  revert k. induction n as [|n IH]; intros k; [reflexivity|]. rewrite bsum_first. cbn [seq lsum]. rewrite IH, Nat.add_0_r. f_equal. apply bsum_ext. intros i _. f_equal. lia.
Qed.
Lemma bsum_lsum {A} n (l : list A) f : bsum n (fun i => lsum l (fun j => f i j)) = lsum l (fun j => bsum n (fun i => f i j)).
Proof. induction n as [|n IH]; cbn; [symmetry; apply lsum_zero; reflexivity|]. rewrite IH, <- lsum_plus. reflexivity. Qed.

(** ** Recurrences: [rec c w] says that the power series [c] has logarithmic derivative sum w_v u^v *)
Definition rec (c w : nat -> R) : Prop := forall s, INR (S s) * c (S s) = bsum (S s) (fun v => w v * c (s - v)%nat).
Lemma rec_unique c c' w : rec c w -> rec c' w -> c O = c' O -> forall s, c s = c' s.
Proof.
  intros H H' H00 s. assert (G : forall s r, (r <= s)%nat -> c r = c' r); [|apply (G s s), le_n]. clear s.
  induction s as [|s IH]; intros r Hr; [replace r with O by lia; exact H00|]. destruct (Nat.eq_dec r (S s)) as [->|N]; [|apply IH; lia].
  apply (Rmult_eq_reg_l (INR (S s))); [|apply not_0_INR; lia]. rewrite H, H'. apply bsum_ext. intros v Hv. rewrite (IH (s - v)%nat) by lia. reflexivity.
Qed.
Definition mulc (e : R) (c : nat -> R) (s : nat) : R := match s with O => c O | S r => c (S r) - e * c r end.
Fixpoint divc (e : R) (c : nat -> R) (s : nat) : R := match s with O => c O | S r => c (S r) + e * divc e c r end.
Lemma mulc_divc e c s : mulc e (divc e c) s = c s.
Proof. destruct s; cbn; [reflexivity|ring]. Qed.
Lemma mul_tele e c s : bsum (S s) (fun v => e ^ S v * mulc e c (s - v)) = e * c s.
Proof.
  induction s as [|s IH]; [cbn; ring|]. rewrite bsum_first. transitivity (e ^ 1 * mulc e c (S s) + e * bsum (S s) (fun v => e ^ S v * mulc e c (s - v))).
  - rewrite Nat.sub_0_r. f_equal. rewrite <- bsum_scal. apply bsum_ext. intros i _. cbn [Nat.sub]. cbn [pow]. ring.
  - rewrite IH. cbn. ring.
Qed.
Lemma rec_mul e c w : rec c w -> rec (mulc e c) (fun v => w v - e ^ S v).
Proof.
  intros H s. transitivity (bsum (S s) (fun v => w v * mulc e c (s - v)) - e * c s).
  - cbn [mulc]. transitivity (INR (S s) * c (S s) - e * (INR (S s) * c s)); [ring|]. rewrite H.
    destruct s as [|s]; [cbn; ring|]. rewrite (S_INR (S s)), Rmult_plus_distr_r, H. cbn [bsum]. replace (S s - S s)%nat with O by lia. rewrite Nat.sub_diag. replace (S s - s)%nat with 1%nat by lia. cbn [mulc].
    assert (E : bsum s (fun v => w v * mulc e c (S s - v)) = bsum s (fun v => w v * c (S s - v)%nat) - e * bsum s (fun v => w v * c (s - v)%nat)).
    { rewrite <- bsum_scal. transitivity (bsum s (fun v => w v * c (S s - v)%nat + - 1 * (e * (w v * c (s - v)%nat)))); [|rewrite bsum_plus, bsum_scal; ring]. apply bsum_ext. intros v Hv. replace (S s - v)%nat with (S (s - v)) by lia. cbn [mulc]. ring. }
    rewrite E. ring.
  - rewrite <- (mul_tele e c s). transitivity (bsum (S s) (fun v => w v * mulc e c (s - v)) + - 1 * bsum (S s) (fun v => e ^ S v * mulc e c (s - v))); [ring|]. rewrite <- bsum_scal, <- bsum_plus. apply bsum_ext. intros v _. ring.
Qed.
Lemma rec_div e c w : rec c w -> rec (divc e c) (fun v => w v + e ^ S v).
Proof.
  intros H. set (c' := divc e c). intros s. induction s as [|s IH].
  - specialize (H O). cbn in *. unfold c'. cbn. rewrite Rmult_1_l in *. lra.
  - transitivity (INR (S (S s)) * c (S (S s)) + e * c' (S s) + e * (INR (S s) * c' (S s))); [rewrite (S_INR (S s)); unfold c'; cbn [divc]; ring|]. rewrite H, IH.
    assert (E1 : bsum (S (S s)) (fun v => w v * c (S s - v)%nat) = bsum (S (S s)) (fun v => w v * c' (S s - v)%nat) - e * bsum (S s) (fun v => w v * c' (s - v)%nat)).
    { cbn [bsum]. rewrite Nat.sub_diag. transitivity (bsum (S s) (fun v => w v * c' (S s - v)%nat - e * (w v * c' (s - v)%nat)) + w (S s) * c' O).
      - change (c' O) with (c O). f_equal. change (bsum s (fun v => w v * c (S s - v)%nat) + w s * c (S s - s)%nat) with (bsum (S s) (fun v => w v * c (S s - v)%nat)). apply bsum_ext. intros v Hv. replace (S s - v)%nat with (S (s - v)) by lia. rewrite <- (mulc_divc e c (S (s - v))). cbn [mulc]. fold c'. ring.
      - transitivity (bsum (S s) (fun v => w v * c' (S s - v)%nat) + - e * bsum (S s) (fun v => w v * c' (s - v)%nat) + w (S s) * c' O); [rewrite <- bsum_scal, <- bsum_plus; f_equal; apply bsum_ext; intros; ring|]. cbn [bsum]. ring. }
    rewrite E1. assert (E2 : bsum (S (S s)) (fun v => e ^ S v * c' (S s - v)%nat) = e * c' (S s) + e * bsum (S s) (fun v => e ^ S v * c' (s - v)%nat)).
    { rewrite bsum_first, Nat.sub_0_r, pow_1. f_equal. rewrite <- bsum_scal. apply bsum_ext. intros v _. cbn [Nat.sub pow]. ring. }
    transitivity (bsum (S (S s)) (fun v => w v * c' (S s - v)%nat) + bsum (S (S s)) (fun v => e ^ S v * c' (S s - v)%nat)); [|rewrite <- bsum_plus; apply bsum_ext; intros; ring]. rewrite E2.
    transitivity (bsum (S (S s)) (fun v => w v * c' (S s - v)%nat) - e * bsum (S s) (fun v => w v * c' (s - v)%nat) + e * c' (S s) + e * (bsum (S s) (fun v => w v * c' (s - v)%nat) + bsum (S s) (fun v => e ^ S v * c' (s - v)%nat))); [|ring].
    f_equal. f_equal. rewrite <- bsum_plus. apply bsum_ext. intros. ring.
Qed.

(** ** Sums over partitions *)
From Verif Require Import Roots Reduction.
Lemma fold_plus l : forall x, fold_left Rplus l x = x + lsum l (fun u => u).
Proof. induction l as [|u l IH]; intros x; cbn; [ring|]. rewrite IH. ring. Qed.
Lemma sum_lsum {A} (l : list A) f : sum (map f l) = lsum l f.
Proof. unfold sum. rewrite fold_plus, lsum_map. apply Rplus_0_l. Qed.
Fixpoint lprod {A} (l : list A) (f : A -> R) : R := match l with [] => 1 | x :: l' => f x * lprod l' f end.
Lemma fold_mult l : forall x, fold_left Rmult l x = x * lprod l (fun u => u).
Proof. induction l as [|u l IH]; intros x; cbn; [ring|]. rewrite IH. ring. Qed.
Lemma lprod_map {A B} (g : A -> B) l f : lprod (map g l) f = lprod l (fun i => f (g i)).
Proof. induction l as [|a l IH]; cbn; [reflexivity|]. rewrite IH. reflexivity. Qed.
Lemma lprod_ext {A} (l : list A) f g : (forall i, In i l -> f i = g i) -> lprod l f = lprod l g.
Proof. induction l as [|a l IH]; intros H; cbn; [reflexivity|]. rewrite IH, H by (try (intros; apply H); cbn; auto). reflexivity. Qed.
Lemma prod_lprod {A} (l : list A) f : l <> [] -> prod (map f l) = lprod l f.
Proof. destruct l as [|x l]; intros H; [congruence|]. unfold prod. cbn. rewrite fold_mult, lprod_map. reflexivity. Qed.

Section Part.
Variable mu : nat -> R.
Definition term (p : list (nat * nat)) : R := lprod p (fun q => mu (fst q) ^ snd q / INR (fact (snd q))).
Definition psum (k s : nat) : R := lsum (partitions_upto k s) term.
Lemma psum_0 s : psum 0 s = match s with O => 1 | S _ => 0 end.
Proof. destruct s; unfold psum, term; cbn; ring. Qed.
Definition ifle (c s : nat) (r : R) : R := if Nat.leb c s then r else 0.
Lemma psum_S k s : psum (S k) s = bsum (S s) (fun c => ifle (c * S k) s (mu (S k) ^ c / INR (fact c) * psum k (s - c * S k))).
Proof.
  unfold psum. cbn [partitions_upto]. rewrite lsum_flat_map, lsum_seq. apply bsum_ext. intros c _. cbn [Nat.add]. rewrite lsum_map. unfold ifle. destruct (Nat.leb (c * S k) s); [|reflexivity]. rewrite <- lsum_scal. apply lsum_ext. intros p _. destruct c as [|c]; [cbn; field|reflexivity].
Qed.
Lemma ifle_true c s r : (c <= s)%nat -> ifle c s r = r.
Proof. intros H. unfold ifle. rewrite (proj2 (Nat.leb_le c s) H). reflexivity. Qed.
Lemma ifle_false c s r : (s < c)%nat -> ifle c s r = 0.
Proof. intros H. unfold ifle. rewrite (proj2 (Nat.leb_gt c s) H). reflexivity. Qed.
(** more summands than needed do not matter *)
Lemma psum_more k s N : (s <= N)%nat -> psum (S k) s = bsum (S N) (fun c => ifle (c * S k) s (mu (S k) ^ c / INR (fact c) * psum k (s - c * S k))).
Proof.
  intros H. rewrite psum_S. replace (S N) with (S s + (N - s))%nat by lia. symmetry. apply bsum_extend. intros c Hc. apply ifle_false. nia.
Qed.
Lemma psum_stable k s : (s <= k)%nat -> psum (S k) s = psum k s.
Proof.
  intros H. rewrite psum_S, bsum_first, bsum_zero; [|intros c Hc; apply ifle_false; nia]. rewrite ifle_true by lia. cbn [Nat.mul]. rewrite Nat.sub_0_r. cbn. field.
Qed.
Lemma psum_diag k s : (s <= k)%nat -> psum k s = psum s s.
Proof. induction k as [|k IH]; intros H; [replace s with O by lia; reflexivity|]. destruct (Nat.eq_dec s (S k)) as [->|N]; [reflexivity|]. rewrite psum_stable by lia. apply IH. lia. Qed.
(** the recurrence *)
Lemma psum_rec k s : INR s * psum k s = bsum k (fun v => ifle (S v) s (INR (S v) * mu (S v) * psum k (s - S v))).
Proof.
  revert s. induction k as [|k IH]; intros s.
  - rewrite psum_0. cbn. destruct s; cbn; ring.
  - cbn [bsum]. rewrite psum_S.
    (* split s = (s - cK) + cK *)
    assert (E : INR s * bsum (S s) (fun c => ifle (c * S k) s (mu (S k) ^ c / INR (fact c) * psum k (s - c * S k))) =
      bsum (S s) (fun c => ifle (c * S k) s (mu (S k) ^ c / INR (fact c) * (INR (s - c * S k) * psum k (s - c * S k)))) +
      bsum (S s) (fun c => ifle (c * S k) s (INR c * INR (S k) * (mu (S k) ^ c / INR (fact c)) * psum k (s - c * S k)))).
    { rewrite <- bsum_scal, <- bsum_plus. apply bsum_ext. intros c _. destruct (le_lt_dec (c * S k) s) as [L|L]; [|rewrite !ifle_false by exact L; ring]. rewrite !ifle_true by exact L. rewrite minus_INR, mult_INR by exact L. ring. }
    rewrite E. clear E. f_equal.
    + transitivity (bsum (S s) (fun c => bsum k (fun v => ifle (c * S k) s (mu (S k) ^ c / INR (fact c) * ifle (S v) (s - c * S k) (INR (S v) * mu (S v) * psum k (s - c * S k - S v)))))).
      * apply bsum_ext. intros c _. destruct (le_lt_dec (c * S k) s) as [L|L]; [|rewrite ifle_false by exact L; symmetry; apply bsum_zero; intros; apply ifle_false, L]. rewrite ifle_true by exact L. rewrite IH, <- bsum_scal. apply bsum_ext. intros v _. symmetry. apply (ifle_true _ _ _ L).
      * rewrite bsum_swap. apply bsum_ext. intros v Hv. destruct (le_lt_dec (S v) s) as [L|L].
        -- rewrite ifle_true by exact L. rewrite (psum_more k (s - S v) s) by lia. rewrite <- bsum_scal. apply bsum_ext. intros c _. destruct (le_lt_dec (c * S k) s) as [L1|L1]; [rewrite (ifle_true _ _ _ L1)|rewrite !ifle_false by lia; ring].
           destruct (le_lt_dec (S v) (s - c * S k)) as [L2|L2]; [rewrite !ifle_true by lia|rewrite !ifle_false by lia; ring]. replace (s - S v - c * S k)%nat with (s - c * S k - S v)%nat by lia. ring.
        -- rewrite ifle_false by exact L. apply bsum_zero. intros c _. destruct (le_lt_dec (c * S k) s) as [L1|L1]; [rewrite (ifle_true _ _ _ L1)|rewrite ifle_false by lia; ring]. rewrite ifle_false by lia. ring.
    + rewrite bsum_first. rewrite ifle_true by lia. change (INR 0) with 0. rewrite !Rmult_0_l, Rplus_0_l. destruct (le_lt_dec (S k) s) as [L|L].
      * rewrite ifle_true by exact L. rewrite (psum_more k (s - S k) (s - 1)) by lia. replace (S (s - 1)) with s by lia. rewrite <- bsum_scal. apply bsum_ext. intros c _.
        destruct (le_lt_dec (c * S k) (s - S k)) as [L1|L1].
        -- rewrite !ifle_true by nia. replace (s - S c * S k)%nat with (s - S k - c * S k)%nat by nia. change (mu (S k) ^ S c) with (mu (S k) * mu (S k) ^ c). change (fact (S c)) with (S c * fact c)%nat. rewrite mult_INR. field. split; apply not_0_INR; [apply fact_neq_0|lia].
        -- rewrite !ifle_false by nia. ring.
      * rewrite ifle_false by exact L. apply bsum_zero. intros c _. apply ifle_false. nia.
Qed.
Lemma partitions_rec : rec (fun s => psum s s) (fun v => INR (S v) * mu (S v)).
Proof.
  intros s. rewrite psum_rec. apply bsum_ext. intros v Hv. rewrite ifle_true by lia. cbn [Nat.sub]. rewrite psum_diag by lia. reflexivity.
Qed.
End Part.

(** ** Expansions at 0 *)
Definition expands (g : R -> R) (c : nat -> R) : Prop := forall k, exists K e, 0 < e /\ forall u, Rabs u < e -> Rabs (g u - bsum k (fun s => c s * u ^ s)) <= K * Rabs u ^ k.
Lemma expands_1 : expands (fun _ => 1) (fun s => match s with O => 1 | S _ => 0 end).
Proof.
  intros k. exists 1, 1. split; [lra|]. intros u Hu. destruct k as [|k]; [cbn; rewrite Rminus_0_r, Rabs_R1; lra|]. rewrite bsum_first, bsum_zero by (intros; ring). cbn [pow]. replace (1 - (1 * 1 + 0)) with 0 by ring. rewrite Rabs_R0, Rmult_1_l. apply Rmult_le_pos; [apply Rabs_pos|apply pow_le, Rabs_pos].
Qed.
Lemma mul_poly e c u k : (1 - e * u) * bsum k (fun s => c s * u ^ s) = bsum k (fun s => mulc e c s * u ^ s) - e * match k with O => 0 | S r => c r end * u ^ k.
Proof.
  induction k as [|k IH]; [cbn; ring|]. cbn [bsum]. rewrite Rmult_plus_distr_l, IH. destruct k as [|k]; cbn [mulc pow]; ring.
Qed.
Lemma Rabs_minus_le p q : Rabs (p - q) <= Rabs p + Rabs q.
Proof. unfold Rminus. rewrite <- (Rabs_Ropp q). apply Rabs_triang. Qed.
Lemma expands_mul e g c : expands g c -> expands (fun u => (1 - e * u) * g u) (mulc e c).
Proof.
  intros H k. destruct (H k) as (K & d & Hd & B). exists ((1 + Rabs e) * Rabs K + Rabs (e * match k with O => 0 | S r => c r end)), (Rmin d 1). split; [apply Rmin_glb_lt; lra|]. intros u Hu. pose proof (Rmin_l d 1). pose proof (Rmin_r d 1). specialize (B u ltac:(lra)).
  replace ((1 - e * u) * g u - bsum k (fun s => mulc e c s * u ^ s)) with ((1 - e * u) * (g u - bsum k (fun s => c s * u ^ s)) - (e * match k with O => 0 | S r => c r end) * u ^ k) by (rewrite Rmult_minus_distr_l, mul_poly; ring).
  set (q := e * match k with O => 0 | S r => c r end). eapply Rle_trans; [apply Rabs_minus_le|]. rewrite !Rabs_mult, <- RPow_abs, Rmult_plus_distr_r. apply Rplus_le_compat_r. rewrite Rmult_assoc. apply Rmult_le_compat; try apply Rabs_pos.
  - unfold Rminus. eapply Rle_trans; [apply Rabs_triang|]. rewrite Rabs_R1, Rabs_Ropp, Rabs_mult. apply Rplus_le_compat_l. rewrite <- (Rmult_1_r (Rabs e)) at 2. apply Rmult_le_compat_l; [apply Rabs_pos|lra].
  - eapply Rle_trans; [exact B|]. apply Rmult_le_compat_r; [apply pow_le, Rabs_pos|apply Rle_abs].
Qed.
Lemma expands_div e g c : expands g c -> expands (fun u => g u / (1 - e * u)) (divc e c).
Proof.
  intros H k. destruct (H k) as (K & d & Hd & B). set (q := e * match k with O => 0 | S r => divc e c r end). exists (2 * (Rabs K + Rabs q)). assert (Pe : 0 < / (2 * (Rabs e + 1))) by (apply Rinv_0_lt_compat; pose proof (Rabs_pos e); lra).
  exists (Rmin d (/ (2 * (Rabs e + 1)))). split; [apply Rmin_glb_lt; lra|]. intros u Hu. pose proof (Rmin_l d (/ (2 * (Rabs e + 1)))). pose proof (Rmin_r d (/ (2 * (Rabs e + 1)))). specialize (B u ltac:(lra)).
  assert (Eu : Rabs (e * u) <= / 2). { rewrite Rabs_mult. apply Rle_trans with ((Rabs e + 1) * / (2 * (Rabs e + 1))); [apply Rmult_le_compat; try apply Rabs_pos; lra|]. apply Req_le. field. pose proof (Rabs_pos e). lra. }
  assert (D1 : / 2 <= 1 - e * u) by (pose proof (Rle_abs (e * u)); lra).
  assert (E : g u / (1 - e * u) - bsum k (fun s => divc e c s * u ^ s) = ((g u - bsum k (fun s => c s * u ^ s)) + q * u ^ k) / (1 - e * u)).
  { pose proof (mul_poly e (divc e c) u k) as M. assert (Q : bsum k (fun s => mulc e (divc e c) s * u ^ s) = bsum k (fun s => c s * u ^ s)) by (apply bsum_ext; intros; rewrite mulc_divc; reflexivity). rewrite Q in M. fold q in M. replace (bsum k (fun s => c s * u ^ s)) with ((1 - e * u) * bsum k (fun s => divc e c s * u ^ s) + q * u ^ k) by lra. field. lra. }
  rewrite E. unfold Rdiv. rewrite Rabs_mult, (Rabs_right (/ (1 - e * u))) by (apply Rle_ge, Rlt_le, Rinv_0_lt_compat; lra). rewrite Rmult_comm. rewrite Rmult_assoc. apply Rmult_le_compat.
  - apply Rlt_le, Rinv_0_lt_compat. lra.
  - apply Rabs_pos.
  - replace 2 with (/ / 2) by field. apply Rinv_le_contravar; lra.
  - eapply Rle_trans; [apply Rabs_triang|]. rewrite Rabs_mult, <- RPow_abs, Rmult_plus_distr_r. apply Rplus_le_compat_r. eapply Rle_trans; [exact B|]. apply Rmult_le_compat_r; [apply pow_le, Rabs_pos|apply Rle_abs].
Qed.
Lemma expands_ext g g' c : (exists e, 0 < e /\ forall u, Rabs u < e -> g u = g' u) -> expands g c -> expands g' c.
Proof.
  intros (e & He & Eq) H k. destruct (H k) as (K & d & Hd & B). exists K, (Rmin d e). split; [apply Rmin_glb_lt; lra|]. intros u Hu. pose proof (Rmin_l d e). pose proof (Rmin_r d e). rewrite <- Eq by lra. apply B. lra.
Qed.
(** A polynomial that is small at 0 is zero. *)
Lemma vanish k : forall c K e, 0 < e -> (forall u, 0 < Rabs u < e -> Rabs (bsum k (fun s => c s * u ^ s)) <= K * Rabs u ^ k) -> forall s, (s < k)%nat -> c s = 0.
Proof.
  induction k as [|k IH]; intros c K e He B s Hs; [lia|].
  assert (C0 : c O = 0).
  { destruct (Req_dec (c O) 0) as [Z|N]; [exact Z|exfalso]. set (L := bsum k (fun s => Rabs (c (S s)))). assert (L0 : 0 <= L) by (unfold L; clear; induction k; cbn; [lra|]; pose proof (Rabs_pos (c (S k))); lra).
    set (u := Rmin (e / 2) (Rmin (1 / 2) (Rabs (c O) / (2 * (Rabs K + L + 1))))). assert (Pc : 0 < Rabs (c O)) by (apply Rabs_pos_lt, N). pose proof (Rabs_pos K) as K0.
    assert (U1 : 0 < u) by (unfold u; repeat apply Rmin_glb_lt; try lra; apply Rdiv_lt_0_compat; lra). assert (U2 : u <= e / 2) by apply Rmin_l. assert (U3 : u <= 1 / 2) by (eapply Rle_trans; [apply Rmin_r|apply Rmin_l]). assert (U4 : u <= Rabs (c O) / (2 * (Rabs K + L + 1))) by (eapply Rle_trans; [apply Rmin_r|apply Rmin_r]). clearbody u.
    specialize (B u ltac:(rewrite Rabs_right; lra)). rewrite (Rabs_right u) in B by lra. rewrite bsum_first in B. cbn [pow] in B. rewrite Rmult_1_r in B.
    assert (T : Rabs (bsum k (fun i => c (S i) * (u * u ^ i))) <= u * L).
    { eapply Rle_trans; [apply bsum_abs|]. unfold L. rewrite <- bsum_scal. clear - U1 U3. induction k; cbn; [lra|]. apply Rplus_le_compat; [exact IHk|]. rewrite !Rabs_mult, (Rabs_right u), (Rabs_right (u ^ k)) by (try apply Rle_ge, pow_le; lra). assert (u ^ k <= 1) by (rewrite <- (pow1 k); apply pow_incr; lra). assert (0 <= u ^ k) by (apply pow_le; lra). rewrite Rmult_comm. rewrite Rmult_assoc. apply Rmult_le_compat_l; [lra|]. rewrite <- (Rmult_1_l (Rabs (c (S k)))) at 2. apply Rmult_le_compat_r; [apply Rabs_pos|assumption]. }
    assert (Kb : K * (u * u ^ k) <= Rabs K * u). { assert (u ^ k <= 1) by (rewrite <- (pow1 k); apply pow_incr; lra). assert (0 <= u ^ k) by (apply pow_le; lra). apply Rle_trans with (Rabs K * (u * u ^ k)); [apply Rmult_le_compat_r; [apply Rmult_le_pos; lra|apply Rle_abs]|]. apply Rmult_le_compat_l; [lra|]. apply Rle_trans with (u * 1); [apply Rmult_le_compat_l; lra|lra]. }
    assert (Tr : Rabs (c O) <= Rabs (c O + bsum k (fun i => c (S i) * (u * u ^ i))) + Rabs (bsum k (fun i => c (S i) * (u * u ^ i)))). { set (b := bsum _ _). replace (c O) with ((c O + b) + - b) at 1 by ring. eapply Rle_trans; [apply Rabs_triang|]. rewrite Rabs_Ropp. lra. }
    assert (F : (Rabs K + L) * u < Rabs (c O)). { apply Rle_lt_trans with ((Rabs K + L) * (Rabs (c O) / (2 * (Rabs K + L + 1)))); [apply Rmult_le_compat_l; lra|]. replace ((Rabs K + L) * (Rabs (c O) / (2 * (Rabs K + L + 1)))) with (Rabs (c O) * ((Rabs K + L) / (2 * (Rabs K + L + 1)))) by (field; lra). rewrite <- (Rmult_1_r (Rabs (c O))) at 2. apply Rmult_lt_compat_l; [exact Pc|]. apply Rmult_lt_reg_r with (2 * (Rabs K + L + 1)); [lra|]. unfold Rdiv. rewrite Rmult_assoc, Rinv_l by lra. lra. }
    lra. }
  destruct s as [|s]; [exact C0|]. apply (IH (fun s => c (S s)) K e He); [|lia]. intros u Hu. specialize (B u Hu). rewrite bsum_first, C0 in B. rewrite Rmult_0_l, Rplus_0_l in B.
  replace (bsum k (fun i => c (S i) * u ^ S i)) with (u * bsum k (fun i => c (S i) * u ^ i)) in B by (rewrite <- bsum_scal; apply bsum_ext; intros; cbn; ring). rewrite Rabs_mult in B. cbn [pow] in B. apply Rmult_le_reg_l with (Rabs u); [lra|]. replace (Rabs u * (K * Rabs u ^ k)) with (K * (Rabs u * Rabs u ^ k)) by ring. exact B.
Qed.

(** ** Products of integer powers of [1 - e u] *)
Definition good (g : R -> R) (w : nat -> R) : Prop := exists c, expands g c /\ rec c w /\ c O = 1.
Lemma rec_ext c w w' : (forall v, w v = w' v) -> rec c w -> rec c w'.
Proof. intros E H s. rewrite H. apply bsum_ext. intros v _. rewrite E. reflexivity. Qed.
Lemma good_ext g g' w w' : (exists e, 0 < e /\ forall u, Rabs u < e -> g u = g' u) -> (forall v, w v = w' v) -> good g w -> good g' w'.
Proof. intros E1 E2 (c & H1 & H2 & H3). exists c. split; [apply (expands_ext g); assumption|]. split; [apply (rec_ext c w); assumption|exact H3]. Qed.
Lemma good_1 : good (fun _ => 1) (fun _ => 0).
Proof. exists (fun s => match s with O => 1 | S _ => 0 end). split; [apply expands_1|]. split; [|reflexivity]. intros s. rewrite bsum_zero by (intros; ring). ring. Qed.
Lemma good_mul e g w : good g w -> good (fun u => (1 - e * u) * g u) (fun v => w v - e ^ S v).
Proof. intros (c & H1 & H2 & H3). exists (mulc e c). split; [apply expands_mul, H1|]. split; [apply rec_mul, H2|exact H3]. Qed.
Lemma good_div e g w : good g w -> good (fun u => g u / (1 - e * u)) (fun v => w v + e ^ S v).
Proof. intros (c & H1 & H2 & H3). exists (divc e c). split; [apply expands_div, H1|]. split; [apply rec_div, H2|exact H3]. Qed.
Lemma small_factor e : exists d, 0 < d /\ forall u, Rabs u < d -> 1 - e * u <> 0.
Proof.
  assert (Pe : 0 < / (Rabs e + 1)) by (apply Rinv_0_lt_compat; pose proof (Rabs_pos e); lra). exists (/ (Rabs e + 1)). split; [exact Pe|]. intros u Hu Z.
  assert (Rabs (e * u) < 1); [|replace (e * u) with 1 in * by lra; rewrite Rabs_R1 in *; lra]. rewrite Rabs_mult. apply Rle_lt_trans with (Rabs e * / (Rabs e + 1)); [apply Rmult_le_compat_l; [apply Rabs_pos|lra]|].
  apply Rmult_lt_reg_r with (Rabs e + 1); [pose proof (Rabs_pos e); lra|]. rewrite Rmult_assoc, Rinv_l; pose proof (Rabs_pos e); lra.
Qed.
Lemma powerRZ_nat x k : powerRZ x (Z.of_nat k) = x ^ k.
Proof. symmetry. apply pow_powerRZ. Qed.
Lemma powerRZ_opp x k : powerRZ x (- Z.of_nat k) = / x ^ k.
Proof. destruct k as [|k]; [cbn; rewrite Rinv_1; reflexivity|]. unfold powerRZ. cbn [Z.of_nat Z.opp]. rewrite SuccNat2Pos.id_succ. reflexivity. Qed.
Lemma Z_nat_cases (m : Z) : (exists k, m = Z.of_nat k) \/ (exists k, m = (- Z.of_nat (S k))%Z).
Proof. destruct (Z_le_gt_dec 0 m) as [P|P]; [left; exists (Z.to_nat m); lia|right; exists (Z.to_nat (- m) - 1)%nat; lia]. Qed.
Lemma good_powerRZ e m g w : good g w -> good (fun u => powerRZ (1 - e * u) m * g u) (fun v => w v - IZR m * e ^ S v).
Proof.
  intros H. destruct (small_factor e) as (d & Pd & Hd). destruct (Z_nat_cases m) as [(k & ->)|(k & ->)].
  - induction k as [|k IH].
    + apply (good_ext g _ w _); [exists 1; split; [lra|]; intros; cbn; ring|intros; cbn; ring|exact H].
    + apply (good_ext (fun u => (1 - e * u) * (powerRZ (1 - e * u) (Z.of_nat k) * g u)) _ (fun v => (w v - IZR (Z.of_nat k) * e ^ S v) - e ^ S v)); [|intros v; rewrite Nat2Z.inj_succ, succ_IZR; ring|apply (good_mul e _ _ IH)].
      exists 1. split; [lra|]. intros u _. rewrite !powerRZ_nat. cbn [pow]. ring.
  - induction k as [|k IH].
    + apply (good_ext (fun u => g u / (1 - e * u)) _ (fun v => w v + e ^ S v)); [|intros v; cbn; ring|apply (good_div e _ _ H)].
      exists d. split; [exact Pd|]. intros u Hu. rewrite powerRZ_opp; cbn [pow]; field. apply Hd, Hu.
    + apply (good_ext (fun u => (powerRZ (1 - e * u) (- Z.of_nat (S k)) * g u) / (1 - e * u)) _ (fun v => (w v - IZR (- Z.of_nat (S k)) * e ^ S v) + e ^ S v)); [|intros v; rewrite (Nat2Z.inj_succ (S k)), !opp_IZR, succ_IZR; ring|apply (good_div e _ _ IH)].
      exists d. split; [exact Pd|]. intros u Hu. rewrite !powerRZ_opp. cbn [pow]. field. split; [apply pow_nonzero|]; apply Hd, Hu.
Qed.
Lemma good_prod {A} (l : list A) (e : A -> R) (m : A -> Z) : good (fun u => lprod l (fun j => powerRZ (1 - e j * u) (m j))) (fun v => - lsum l (fun j => IZR (m j) * e j ^ S v)).
Proof.
  induction l as [|j l IH]; [apply (good_ext (fun _ => 1) _ (fun _ => 0)); [exists 1; split; [lra|reflexivity]|intros; cbn; ring|apply good_1]|].
  apply (good_ext (fun u => powerRZ (1 - e j * u) (m j) * lprod l (fun j => powerRZ (1 - e j * u) (m j))) _ (fun v => - lsum l (fun j => IZR (m j) * e j ^ S v) - IZR (m j) * e j ^ S v)); [exists 1; split; [lra|reflexivity]|intros; cbn [lsum]; ring|apply (good_powerRZ _ _ _ _ IH)].
Qed.
(** The coefficients of the expansion are the sums over partitions. *)
Lemma expands_prod {A} (l : list A) (e : A -> R) (m : A -> Z) (mu : nat -> R) : (forall v, mu (S v) = - / INR (S v) * lsum l (fun j => IZR (m j) * e j ^ S v)) -> expands (fun u => lprod l (fun j => powerRZ (1 - e j * u) (m j))) (fun s => psum mu s s).
Proof.
  intros Hmu. destruct (good_prod l e m) as (c & H1 & H2 & H3). intros k. destruct (H1 k) as (K & d & Pd & B). exists K, d. split; [exact Pd|]. intros u Hu.
  rewrite (bsum_ext k (fun s => psum mu s s * u ^ s) (fun s => c s * u ^ s)); [apply B, Hu|]. intros s _. f_equal. symmetry. revert s. apply (rec_unique _ _ _ H2); [|rewrite H3; rewrite psum_0; reflexivity].
  apply (rec_ext _ (fun v => INR (S v) * mu (S v))); [|apply partitions_rec]. intros v. rewrite Hmu. field. apply not_0_INR. lia.
Qed.
Lemma expands_shift r g c : expands g c -> expands (fun u => u ^ r * g u) (fun s => if Nat.ltb s r then 0 else c (s - r)%nat).
Proof.
  intros H. induction r as [|r IH].
  - intros k. destruct (H k) as (K & d & Pd & B). exists K, d. split; [exact Pd|]. intros u Hu. cbn [pow]. rewrite Rmult_1_l. rewrite (bsum_ext k _ (fun s => c s * u ^ s)); [apply B, Hu|]. intros s _. cbn. rewrite Nat.sub_0_r. reflexivity.
  - intros [|k].
    + destruct (IH O) as (K & d & Pd & B). exists K, (Rmin d 1). split; [apply Rmin_glb_lt; lra|]. intros u Hu. pose proof (Rmin_l d 1). pose proof (Rmin_r d 1). specialize (B u ltac:(lra)). cbn [bsum pow] in *. rewrite Rminus_0_r in *. rewrite Rmult_assoc, Rabs_mult. pose proof (Rabs_pos (u ^ r * g u)). eapply Rle_trans; [|exact B]. apply Rle_trans with (1 * Rabs (u ^ r * g u)); [apply Rmult_le_compat_r; lra|lra].
    + destruct (IH k) as (K & d & Pd & B). exists K, d. split; [exact Pd|]. intros u Hu. specialize (B u Hu). rewrite bsum_first. cbn [Nat.ltb Nat.leb]. rewrite Rmult_0_l, Rplus_0_l.
      replace (u ^ S r * g u - _) with (u * (u ^ r * g u - bsum k (fun s => (if Nat.ltb s r then 0 else c (s - r)%nat) * u ^ s))).
      * rewrite Rabs_mult. cbn [pow]. replace (K * (Rabs u * Rabs u ^ k)) with (Rabs u * (K * Rabs u ^ k)) by ring. apply Rmult_le_compat_l; [apply Rabs_pos|exact B].
      * rewrite Rmult_minus_distr_l, <- bsum_scal. cbn [pow]. f_equal; [ring|]. apply bsum_ext. intros s _. replace (match r with O => false | S m0 => Nat.leb s m0 end) with (Nat.ltb s r) by (destruct r; reflexivity). change (S s - S r)%nat with (s - r)%nat. destruct (Nat.ltb s r); cbn [pow]; ring.
Qed.

(** ** Bounded near 0 *)
Definition bnd (f : R -> R) : Prop := exists K e, 0 < e /\ forall u, Rabs u < e -> Rabs (f u) <= K.
Lemma bnd_const c : bnd (fun _ => c). Proof. exists (Rabs c), 1. split; [lra|]. intros; lra. Qed.
Lemma bnd_id : bnd (fun u => u). Proof. exists 1, 1. split; [lra|]. intros; lra. Qed.
Lemma bnd_plus f g : bnd f -> bnd g -> bnd (fun u => f u + g u).
Proof. intros (K & e & He & H) (L & d & Hd & G). exists (K + L), (Rmin e d). split; [apply Rmin_glb_lt; lra|]. intros u Hu. pose proof (Rmin_l e d). pose proof (Rmin_r e d). eapply Rle_trans; [apply Rabs_triang|]. specialize (H u ltac:(lra)). specialize (G u ltac:(lra)). lra. Qed.
Lemma bnd_mult f g : bnd f -> bnd g -> bnd (fun u => f u * g u).
Proof. intros (K & e & He & H) (L & d & Hd & G). exists (K * L), (Rmin e d). split; [apply Rmin_glb_lt; lra|]. intros u Hu. pose proof (Rmin_l e d). pose proof (Rmin_r e d). rewrite Rabs_mult. apply Rmult_le_compat; try apply Rabs_pos; [apply H|apply G]; lra. Qed.
Lemma bnd_ext f g : (exists e, 0 < e /\ forall u, Rabs u < e -> f u = g u) -> bnd f -> bnd g.
Proof. intros (d & Hd & E) (K & e & He & H). exists K, (Rmin e d). split; [apply Rmin_glb_lt; lra|]. intros u Hu. pose proof (Rmin_l e d). pose proof (Rmin_r e d). rewrite <- E by lra. apply H. lra. Qed.
Lemma bnd_pow f k : bnd f -> bnd (fun u => f u ^ k).
Proof. intros H. induction k as [|k IH]; [apply (bnd_const 1)|]. apply (bnd_mult _ _ H IH). Qed.
Lemma bnd_bsum k f : (forall i, (i < k)%nat -> bnd (f i)) -> bnd (fun u => bsum k (fun i => f i u)).
Proof. induction k as [|k IH]; intros H; [apply (bnd_const 0)|]. apply (bnd_plus (fun u => bsum k (fun i => f i u)) (f k)); [apply IH; intros; apply H; lia|apply H; lia]. Qed.
Lemma bnd_lsum {A} (l : list A) f : (forall i, In i l -> bnd (f i)) -> bnd (fun u => lsum l (fun i => f i u)).
Proof. induction l as [|i l IH]; intros H; [apply (bnd_const 0)|]. apply (bnd_plus (f i) (fun u => lsum l (fun i => f i u))); [apply H; now left|apply IH; intros; apply H; now right]. Qed.
Lemma bnd_inv b : b <> 0 -> bnd (fun u => / (b + u)).
Proof.
  intros Hb. assert (P : 0 < Rabs b) by (apply Rabs_pos_lt, Hb). exists (/ (Rabs b / 2)), (Rabs b / 2). split; [lra|]. intros u Hu. assert (L : Rabs b / 2 <= Rabs (b + u)).
  { replace b with ((b + u) + - u) in P, Hu |- * at 1 by ring. pose proof (Rabs_triang (b + u) (- u)) as T. rewrite Rabs_Ropp in T. replace (b + u + - u) with b in * by ring. lra. }
  rewrite Rabs_inv. apply Rinv_le_contravar; lra.
Qed.
Lemma bnd_inv1 e : bnd (fun u => / (1 - e * u)).
Proof.
  destruct (Req_dec e 0) as [->|Ne]; [apply (bnd_ext (fun _ => 1)); [exists 1; split; [lra|]; intros; field|apply bnd_const]|].
  apply (bnd_ext (fun u => - / e * / (- / e + u))); [|apply bnd_mult; [apply bnd_const|apply bnd_inv; apply Ropp_neq_0_compat, Rinv_neq_0_compat, Ne]].
  destruct (small_factor e) as (d & Pd & Hd). exists d. split; [exact Pd|]. intros u Hu. specialize (Hd u Hu). field; repeat split; try exact Ne; lra.
Qed.

(** ** Partial fractions *)
Section PF.
Variables (av : nat -> R) (J : list nat) (b : nat).
Hypothesis Dist : forall i j, In i J -> In j J -> i <> j -> av i <> av j.
Hypothesis ND : NoDup J.
Definition ok (t : R) : Prop := forall i, In i J -> av i + t <> 0.
Inductive sp (N : nat) (k : nat -> nat) : (R -> R) -> Prop :=
| sp_poly q : (q < N)%nat -> sp N k (fun t => (av b + t) ^ q)
| sp_pole i q : In i J -> (q < k i)%nat -> sp N k (fun t => / (av i + t) ^ S q)
| sp_zero : sp N k (fun _ => 0)
| sp_plus f g : sp N k f -> sp N k g -> sp N k (fun t => f t + g t)
| sp_scal c f : sp N k f -> sp N k (fun t => c * f t)
| sp_ext f g : sp N k f -> (forall t, ok t -> f t = g t) -> sp N k g.
Lemma sp_mono N k N' k' f : (N <= N')%nat -> (forall i, (k i <= k' i)%nat) -> sp N k f -> sp N' k' f.
Proof.
  intros HN Hk H. induction H as [q Hq|i q Hi Hq| |f g _ IHf _ IHg|c f _ IH|f g _ IH E].
  - apply sp_poly. lia.
  - apply sp_pole; [exact Hi|]. specialize (Hk i). lia.
  - apply sp_zero.
  - apply sp_plus; assumption.
  - apply sp_scal, IH.
  - apply (sp_ext _ _ f); assumption.
Qed.
Lemma sp_mul N k f j : sp N k f -> sp (S N) k (fun t => (av j + t) * f t).
Proof.
  intros H. induction H as [q Hq|i q Hi Hq| |f g _ IHf _ IHg|c f _ IH|f g _ IH E].
  - apply (sp_ext _ _ (fun t => (av b + t) ^ S q + (av j - av b) * (av b + t) ^ q)); [|intros; cbn [pow]; ring]. apply sp_plus; [apply sp_poly; lia|apply sp_scal, sp_poly; lia].
  - destruct q as [|q].
    + apply (sp_ext _ _ (fun t => (av b + t) ^ 0 + (av j - av i) * / (av i + t) ^ 1)); [apply sp_plus; [apply sp_poly; lia|apply sp_scal, sp_pole; assumption]|]. intros t Ht. specialize (Ht i Hi). cbn [pow]. field. exact Ht.
    + apply (sp_ext _ _ (fun t => / (av i + t) ^ S q + (av j - av i) * / (av i + t) ^ S (S q))); [apply sp_plus; [apply sp_pole; [exact Hi|lia]|apply sp_scal, sp_pole; assumption]|]. intros t Ht. specialize (Ht i Hi). cbn [pow]. field. split; [apply pow_nonzero|]; exact Ht.
  - apply (sp_ext _ _ (fun _ => 0)); [apply sp_zero|]. intros; ring.
  - apply (sp_ext _ _ (fun t => (av j + t) * f t + (av j + t) * g t)); [apply sp_plus; assumption|]. intros; ring.
  - apply (sp_ext _ _ (fun t => c * ((av j + t) * f t))); [apply sp_scal, IH|]. intros; ring.
  - apply (sp_ext _ _ (fun t => (av j + t) * f t)); [exact IH|]. intros t Ht. rewrite (E t Ht). reflexivity.
Qed.
Definition incr (j : nat) (k : nat -> nat) (i : nat) : nat := if Nat.eqb i j then S (k i) else k i.
Lemma incr_le j k i : (k i <= incr j k i)%nat.
Proof. unfold incr. destruct (Nat.eqb i j); lia. Qed.
Lemma incr_eq j k : incr j k j = S (k j).
Proof. unfold incr. rewrite Nat.eqb_refl. reflexivity. Qed.
Lemma sp_div N k f j : In j J -> sp N k f -> sp N (incr j k) (fun t => f t / (av j + t)).
Proof.
  intros Hj H. assert (P1 : sp N (incr j k) (fun t => / (av j + t) ^ 1)) by (apply sp_pole; [exact Hj|rewrite incr_eq; lia]).
  induction H as [q Hq|i q Hi Hq| |f g _ IHf _ IHg|c f _ IH|f g _ IH E].
  - induction q as [|q IH].
    + apply (sp_ext _ _ (fun t => / (av j + t) ^ 1)); [exact P1|]. intros t Ht. cbn [pow]. field. apply Ht, Hj.
    + apply (sp_ext _ _ (fun t => (av b + t) ^ q + (av b - av j) * ((av b + t) ^ q / (av j + t)))); [apply sp_plus; [apply sp_poly; lia|apply sp_scal, IH; lia]|]. intros t Ht. specialize (Ht j Hj). cbn [pow]. field. exact Ht.
  - destruct (Nat.eq_dec i j) as [->|Nij].
    + apply (sp_ext _ _ (fun t => / (av j + t) ^ S (S q))); [apply sp_pole; [exact Hj|rewrite incr_eq; lia]|]. intros t Ht. specialize (Ht j Hj). cbn [pow]. field. split; [apply pow_nonzero|]; exact Ht.
    + pose proof (Dist i j Hi Hj Nij) as Hd. pose proof (incr_le j k i) as Ii. induction q as [|q IH].
      * apply (sp_ext _ _ (fun t => / (av j - av i) * (/ (av i + t) ^ 1 + - 1 * / (av j + t) ^ 1))); [apply sp_scal, sp_plus; [apply sp_pole; [exact Hi|lia]|apply sp_scal, P1]|]. intros t Ht. pose proof (Ht i Hi). pose proof (Ht j Hj). cbn [pow]. field. repeat split; try assumption; lra.
      * apply (sp_ext _ _ (fun t => / (av j - av i) * (/ (av i + t) ^ S (S q) + - 1 * (/ (av i + t) ^ S q / (av j + t))))); [apply sp_scal, sp_plus; [apply sp_pole; [exact Hi|lia]|apply sp_scal, IH; lia]|]. intros t Ht. pose proof (Ht i Hi). pose proof (Ht j Hj). cbn [pow]. field. repeat split; try apply pow_nonzero; try assumption; lra.
  - apply (sp_ext _ _ (fun _ => 0)); [apply sp_zero|]. intros t Ht. field. apply Ht, Hj.
  - apply (sp_ext _ _ (fun t => f t / (av j + t) + g t / (av j + t))); [apply sp_plus; assumption|]. intros t Ht. field. apply Ht, Hj.
  - apply (sp_ext _ _ (fun t => c * (f t / (av j + t)))); [apply sp_scal, IH|]. intros t Ht. field. apply Ht, Hj.
  - apply (sp_ext _ _ (fun t => f t / (av j + t))); [exact IH|]. intros t Ht. rewrite (E t Ht). reflexivity.
Qed.
Fixpoint incrs (j r : nat) (k : nat -> nat) : nat -> nat := match r with O => k | S r' => incr j (incrs j r' k) end.
Lemma incrs_val j r k i : incrs j r k i = (k i + if Nat.eqb i j then r else 0)%nat.
Proof. induction r as [|r IH]; cbn; [destruct (Nat.eqb i j); lia|]. unfold incr. rewrite IH. destruct (Nat.eqb i j); lia. Qed.
Lemma sp_powerRZ N k f j m : In j J -> sp N k f -> sp (Z.to_nat m + N) (incrs j (Z.to_nat (- m)) k) (fun t => powerRZ (av j + t) m * f t).
Proof.
  intros Hj H. destruct (Z_nat_cases m) as [(r & ->)|(r & ->)].
  - replace (Z.to_nat (- Z.of_nat r)) with O by lia. rewrite Nat2Z.id. cbn [incrs]. induction r as [|r IH].
    + apply (sp_ext _ _ f); [exact H|]. intros. cbn. ring.
    + apply (sp_ext _ _ (fun t => (av j + t) * (powerRZ (av j + t) (Z.of_nat r) * f t))); [apply (sp_mul _ _ _ j IH)|]. intros t _. rewrite !powerRZ_nat. cbn [pow]. ring.
  - replace (Z.to_nat (- Z.of_nat (S r))) with O by lia. replace (Z.to_nat (- - Z.of_nat (S r))) with (S r) by lia. cbn [Nat.add]. induction r as [|r IH].
    + apply (sp_ext _ _ (fun t => f t / (av j + t))); [apply (sp_div _ _ _ j Hj H)|]. intros t Ht. rewrite powerRZ_opp. cbn [pow]. field. apply Ht, Hj.
    + apply (sp_ext _ _ (fun t => (powerRZ (av j + t) (- Z.of_nat (S r)) * f t) / (av j + t))); [apply (sp_div _ _ _ j Hj IH)|]. intros t Ht. specialize (Ht j Hj). rewrite !powerRZ_opp. cbn [pow]. field. split; [apply pow_nonzero|]; exact Ht.
Qed.
Variable m : nat -> Z.
Definition F (l : list nat) (t : R) : R := lprod l (fun j => powerRZ (av j + t) (m j)).
Fixpoint kk (l : list nat) (i : nat) : nat := match l with [] => O | j :: l' => (kk l' i + if Nat.eqb i j then Z.to_nat (- m j) else 0)%nat end.
Fixpoint NN (l : list nat) : nat := match l with [] => 1%nat | j :: l' => (Z.to_nat (m j) + NN l')%nat end.
Fixpoint zsum (l : list nat) : Z := match l with [] => 0%Z | j :: l' => (m j + zsum l')%Z end.
Lemma NN_zsum l : (zsum l < Z.of_nat (NN l))%Z.
Proof. induction l as [|j l IH]; cbn [zsum NN]; lia. Qed.
Lemma kk_notin l i : ~ In i l -> kk l i = O.
Proof. induction l as [|j l IH]; cbn; intros H; [reflexivity|]. rewrite IH by tauto. destruct (Nat.eqb_spec i j) as [->|]; [tauto|reflexivity]. Qed.
Lemma kk_in l i : NoDup l -> In i l -> kk l i = Z.to_nat (- m i).
Proof.
  induction l as [|j l IH]; cbn; intros N H; [tauto|]. inversion N; subst. destruct (Nat.eqb_spec i j) as [->|Ne]; [rewrite kk_notin by assumption; reflexivity|]. destruct H as [H|H]; [congruence|]. rewrite (IH ltac:(assumption) H). lia.
Qed.
Lemma sp_F l : incl l J -> sp (NN l) (kk l) (F l).
Proof.
  induction l as [|j l IH]; intros I.
  - apply (sp_ext _ _ (fun t => (av b + t) ^ 0)); [apply sp_poly; cbn; lia|]. intros; reflexivity.
  - specialize (IH (fun i Hi => I i (or_intror Hi))). eapply sp_mono; [| |apply (sp_powerRZ _ _ _ j (m j) (I j (or_introl eq_refl)) IH)]; [apply le_n|]. intros i. rewrite incrs_val. cbn [kk]. lia.
Qed.
Definition pf (N : nat) (k : nat -> nat) (al : nat -> R) (be : nat -> nat -> R) (t : R) : R := bsum N (fun q => al q * (av b + t) ^ q) + lsum J (fun i => bsum (k i) (fun q => be i q * / (av i + t) ^ S q)).
Lemma bsum_delta n q (f : nat -> R) : (q < n)%nat -> bsum n (fun i => (if Nat.eqb i q then 1 else 0) * f i) = f q.
Proof.
  induction n as [|n IH]; intros H; [lia|]. cbn. destruct (Nat.eq_dec q n) as [->|Ne]; [rewrite Nat.eqb_refl, bsum_zero; [ring|]; intros i Hi; replace (Nat.eqb i n) with false by (symmetry; apply Nat.eqb_neq; lia); ring|].
  rewrite IH by lia. replace (Nat.eqb n q) with false by (symmetry; apply Nat.eqb_neq; lia). ring.
Qed.
Lemma lsum_delta l q (f : nat -> R) : NoDup l -> In q l -> lsum l (fun i => if Nat.eqb i q then f i else 0) = f q.
Proof.
  induction l as [|j l IH]; intros N H; [destruct H|]. inversion N; subst. cbn. destruct (Nat.eqb_spec j q) as [->|Ne].
  - rewrite lsum_zero; [ring|]. intros i Hi. destruct (Nat.eqb_spec i q) as [->|]; [contradiction|reflexivity].
  - destruct H as [H|H]; [congruence|]. rewrite IH by assumption. ring.
Qed.
Lemma sp_pf N k f : sp N k f -> exists al be, forall t, ok t -> f t = pf N k al be t.
Proof.
  intros H. induction H as [q Hq|i q Hi Hq| |f g _ (al & be & IHf) _ (al' & be' & IHg)|c f _ (al & be & IH)|f g _ (al & be & IH) E].
  - exists (fun i => if Nat.eqb i q then 1 else 0), (fun _ _ => 0). intros t _. unfold pf. rewrite (bsum_delta N q (fun i => (av b + t) ^ i) Hq). rewrite lsum_zero; [ring|]. intros. apply bsum_zero. intros; ring.
  - exists (fun _ => 0), (fun i' q' => (if Nat.eqb q' q then 1 else 0) * (if Nat.eqb i' i then 1 else 0)). intros t _. unfold pf. rewrite bsum_zero by (intros; ring). rewrite Rplus_0_l.
    rewrite (lsum_ext J _ (fun i' => if Nat.eqb i' i then / (av i' + t) ^ S q else 0)); [rewrite (lsum_delta J i (fun i' => / (av i' + t) ^ S q) ND Hi); reflexivity|]. intros i' Hi'. destruct (Nat.eqb_spec i' i) as [->|Ne].
    + rewrite <- (bsum_delta (k i) q (fun q => / (av i + t) ^ S q) Hq). apply bsum_ext. intros; ring.
    + apply bsum_zero. intros; ring.
  - exists (fun _ => 0), (fun _ _ => 0). intros t _. unfold pf. rewrite bsum_zero by (intros; ring). rewrite lsum_zero; [ring|]. intros. apply bsum_zero. intros; ring.
  - exists (fun q => al q + al' q), (fun i q => be i q + be' i q). intros t Ht. rewrite (IHf t Ht), (IHg t Ht). unfold pf.
    rewrite (bsum_ext N (fun q => (al q + al' q) * (av b + t) ^ q) (fun q => al q * (av b + t) ^ q + al' q * (av b + t) ^ q)) by (intros; ring). rewrite bsum_plus.
    rewrite (lsum_ext J (fun i => bsum (k i) (fun q => (be i q + be' i q) * / (av i + t) ^ S q)) (fun i => bsum (k i) (fun q => be i q * / (av i + t) ^ S q) + bsum (k i) (fun q => be' i q * / (av i + t) ^ S q))) by (intros; rewrite <- bsum_plus; apply bsum_ext; intros; ring). rewrite lsum_plus. ring.
  - exists (fun q => c * al q), (fun i q => c * be i q). intros t Ht. rewrite (IH t Ht). unfold pf. rewrite Rmult_plus_distr_l, <- bsum_scal, <- lsum_scal. f_equal; [apply bsum_ext; intros; ring|]. apply lsum_ext. intros i _. rewrite <- bsum_scal. apply bsum_ext. intros; ring.
  - exists al, be. intros t Ht. rewrite <- (E t Ht). apply IH, Ht.
Qed.
Definition wo (i : nat) (l : list nat) : list nat := filter (fun j => negb (Nat.eqb j i)) l.
Lemma wo_in i l j : In j (wo i l) <-> In j l /\ j <> i.
Proof. unfold wo. rewrite filter_In. destruct (Nat.eqb_spec j i); cbn; intuition congruence. Qed.
Lemma wo_notin i l : ~ In i l -> wo i l = l.
Proof. induction l as [|j l IH]; cbn; intros H; [reflexivity|]. destruct (Nat.eqb_spec j i) as [->|Ne]; [tauto|]. cbn. unfold wo in IH. rewrite IH by tauto. reflexivity. Qed.
Lemma wo_eq i l : wo i (i :: l) = wo i l.
Proof. unfold wo. cbn. rewrite Nat.eqb_refl. reflexivity. Qed.
Lemma wo_ne i j l : j <> i -> wo i (j :: l) = j :: wo i l.
Proof. intros H. unfold wo. cbn. rewrite (proj2 (Nat.eqb_neq _ _) H). reflexivity. Qed.
Lemma lprod_split i l f : NoDup l -> In i l -> lprod l f = f i * lprod (wo i l) f.
Proof.
  induction l as [|j l IH]; intros N H; [destruct H|]. inversion N; subst. destruct (Nat.eq_dec j i) as [->|Ne].
  - rewrite wo_eq, wo_notin by assumption. reflexivity.
  - destruct H as [H|H]; [congruence|]. rewrite wo_ne by exact Ne. cbn [lprod lsum zsum]. rewrite IH by assumption. ring.
Qed.
Lemma lsum_split i l f : NoDup l -> In i l -> lsum l f = f i + lsum (wo i l) f.
Proof.
  induction l as [|j l IH]; intros N H; [destruct H|]. inversion N; subst. destruct (Nat.eq_dec j i) as [->|Ne].
  - rewrite wo_eq, wo_notin by assumption. reflexivity.
  - destruct H as [H|H]; [congruence|]. rewrite wo_ne by exact Ne. cbn [lprod lsum zsum]. rewrite IH by assumption. ring.
Qed.
Lemma zsum_split i l : NoDup l -> In i l -> zsum l = (m i + zsum (wo i l))%Z.
Proof.
  induction l as [|j l IH]; intros N H; [destruct H|]. inversion N; subst. destruct (Nat.eq_dec j i) as [->|Ne].
  - rewrite wo_eq, wo_notin by assumption. reflexivity.
  - destruct H as [H|H]; [congruence|]. rewrite wo_ne by exact Ne. cbn [lprod lsum zsum]. rewrite IH by assumption. lia.
Qed.
Lemma lprod_mult {A} (l : list A) f g : lprod l (fun i => f i * g i) = lprod l f * lprod l g.
Proof. induction l as [|a l IH]; cbn; [ring|]. rewrite IH. ring. Qed.
Lemma near (P : nat -> R -> Prop) l : (forall j, In j l -> exists e, 0 < e /\ forall u, 0 < Rabs u < e -> P j u) -> exists e, 0 < e /\ forall u, 0 < Rabs u < e -> forall j, In j l -> P j u.
Proof.
  induction l as [|j l IH]; intros H; [exists 1; split; [lra|]; intros u _ j []|]. destruct IH as (e & He & B); [intros; apply H; now right|]. destruct (H j (or_introl eq_refl)) as (d & Hd & G). exists (Rmin e d). split; [apply Rmin_glb_lt; lra|]. intros u Hu i [<-|Hi]; pose proof (Rmin_l e d); pose proof (Rmin_r e d); [apply G|apply B; [|exact Hi]]; lra.
Qed.
Lemma near_pole i : In i J -> exists e, 0 < e /\ forall u, 0 < Rabs u < e -> ok (u - av i).
Proof.
  intros Hi. destruct (near (fun j u => av j + (u - av i) <> 0) J) as (e & He & B); [|exists e; split; [exact He|]; intros u Hu j Hj; apply (B u Hu j Hj)].
  intros j Hj. destruct (Nat.eq_dec j i) as [->|Ne].
  - exists 1. split; [lra|]. intros u Hu Z. replace u with 0 in Hu by lra. rewrite Rabs_R0 in Hu. lra.
  - pose proof (Dist j i Hj Hi Ne) as Hd. exists (Rabs (av j - av i)). split; [apply Rabs_pos_lt; lra|]. intros u Hu Z. replace u with (- (av j - av i)) in Hu by lra. rewrite Rabs_Ropp in Hu. lra.
Qed.
Lemma near_inf : exists e, 0 < e /\ forall u, 0 < Rabs u < e -> ok (/ u - av b).
Proof.
  destruct (near (fun j u => av j + (/ u - av b) <> 0) J) as (e & He & B); [|exists e; split; [exact He|]; intros u Hu j Hj; apply (B u Hu j Hj)].
  intros j Hj. destruct (small_factor (av b - av j)) as (d & Pd & Hd). exists d. split; [exact Pd|]. intros u Hu. assert (U : u <> 0) by (intros ->; rewrite Rabs_R0 in Hu; lra). specialize (Hd u ltac:(lra)). intros Z. apply Hd. replace (1 - (av b - av j) * u) with (u * (av j + (/ u - av b))) by (field; exact U). rewrite Z. ring.
Qed.
(** The coefficients at a pole *)
Definition DD (i : nat) : R := lprod (wo i J) (fun j => powerRZ (av j - av i) (m j)).
Lemma ident_pole N k al be mu i : (forall t, ok t -> F J t = pf N k al be t) -> In i J -> k i = Z.to_nat (- m i) -> (m i < 0)%Z ->
  (forall v, mu (S v) = - / INR (S v) * lsum (wo i J) (fun j => IZR (m j) * (/ (av i - av j)) ^ S v)) ->
  forall q, (q < k i)%nat -> be i q = DD i * psum mu (k i - 1 - q) (k i - 1 - q).
Proof.
  intros E Hi Hk Hm Hmu q Hq. pose proof (expands_prod (wo i J) (fun j => / (av i - av j)) m mu Hmu) as X. set (g := fun u => lprod (wo i J) (fun j => powerRZ (1 - / (av i - av j) * u) (m j))) in X. set (c := fun s => psum mu s s) in *. change (psum mu (k i - 1 - q) (k i - 1 - q)) with (c (k i - 1 - q)%nat).
  set (rest := fun u => bsum N (fun q => al q * (av b + (u - av i)) ^ q) + lsum (wo i J) (fun j => bsum (k j) (fun q => be j q * / (av j + (u - av i)) ^ S q))).
  assert (Rb : bnd rest).
  { unfold rest. apply bnd_plus.
    - apply (bnd_bsum N (fun q u => al q * (av b + (u - av i)) ^ q)). intros r _. apply bnd_mult; [apply bnd_const|]. apply (bnd_pow (fun u => av b + (u - av i))). apply bnd_plus; [apply bnd_const|]. apply (bnd_plus (fun u => u) (fun _ => - av i)); [apply bnd_id|apply bnd_const].
    - apply (bnd_lsum (wo i J) (fun j u => bsum (k j) (fun q => be j q * / (av j + (u - av i)) ^ S q))). intros j Hj. apply wo_in in Hj. apply (bnd_bsum (k j) (fun q u => be j q * / (av j + (u - av i)) ^ S q)). intros r _. apply bnd_mult; [apply bnd_const|].
      apply (bnd_ext (fun u => (/ ((av j - av i) + u)) ^ S r)); [exists 1; split; [lra|]; intros; rewrite pow_inv; f_equal; f_equal; ring|]. apply (bnd_pow (fun u => / (av j - av i + u))). apply bnd_inv. pose proof (Dist j i (proj1 Hj) Hi (proj2 Hj)). lra. }
  destruct Rb as (K1 & e1 & He1 & B1). destruct (X (k i)) as (K2 & e2 & He2 & B2). destruct (near_pole i Hi) as (e3 & He3 & B3).
  set (K := K1 + Rabs (DD i) * K2). set (ee := Rmin e1 (Rmin e2 e3)).
  assert (V : forall s, (s < k i)%nat -> be i (k i - 1 - s)%nat - DD i * c s = 0).
  { apply (vanish (k i) (fun s => be i (k i - 1 - s)%nat - DD i * c s) K ee); [unfold ee; repeat apply Rmin_glb_lt; assumption|]. intros u Hu. assert (Hu1 : Rabs u < e1 /\ Rabs u < e2 /\ Rabs u < e3). { unfold ee in Hu. pose proof (Rmin_l e1 (Rmin e2 e3)). pose proof (Rmin_r e1 (Rmin e2 e3)). pose proof (Rmin_l e2 e3). pose proof (Rmin_r e2 e3). lra. }
    destruct Hu1 as (U1 & U2 & U3). assert (Nu : u <> 0) by (intros ->; rewrite Rabs_R0 in Hu; lra). specialize (E _ (B3 u (conj (proj1 Hu) U3))). specialize (B1 u U1). specialize (B2 u U2).
    assert (EF : u ^ k i * F J (u - av i) = DD i * g u).
    { unfold F. rewrite (lprod_split i J _ ND Hi). replace (av i + (u - av i)) with u by ring. replace (m i) with (- Z.of_nat (k i))%Z by lia. rewrite powerRZ_opp. rewrite <- Rmult_assoc, Rinv_r, Rmult_1_l by (apply pow_nonzero, Nu). unfold DD, g. rewrite <- lprod_mult. apply lprod_ext. intros j Hj. apply wo_in in Hj. rewrite <- powerRZ_mult. f_equal. pose proof (Dist j i (proj1 Hj) Hi (proj2 Hj)). field. lra. }
    assert (EP : u ^ k i * pf N k al be (u - av i) = bsum (k i) (fun s => be i (k i - 1 - s)%nat * u ^ s) + u ^ k i * rest u).
    { unfold pf, rest. rewrite (lsum_split i J _ ND Hi). replace (av i + (u - av i)) with u by ring. rewrite (bsum_rev (k i) (fun s => be i (k i - 1 - s)%nat * u ^ s)).
      assert (Q : u ^ k i * bsum (k i) (fun q => be i q * / u ^ S q) = bsum (k i) (fun r => be i (k i - 1 - (k i - 1 - r))%nat * u ^ (k i - 1 - r))).
      { rewrite <- bsum_scal. apply bsum_ext. intros r Hr. replace (k i - 1 - (k i - 1 - r))%nat with r by lia. replace (k i) with ((k i - 1 - r) + S r)%nat at 1 by lia. rewrite pow_add. field. apply pow_nonzero, Nu. }
      rewrite <- Q. ring. }
    assert (S1 : bsum (k i) (fun s => (be i (k i - 1 - s)%nat - DD i * c s) * u ^ s) = DD i * (g u - bsum (k i) (fun s => c s * u ^ s)) - u ^ k i * rest u).
    { transitivity (bsum (k i) (fun s => be i (k i - 1 - s)%nat * u ^ s) - DD i * bsum (k i) (fun s => c s * u ^ s)); [|rewrite E in EF; rewrite EF in EP; lra]. rewrite <- bsum_scal. transitivity (bsum (k i) (fun s => be i (k i - 1 - s)%nat * u ^ s + - 1 * (DD i * (c s * u ^ s)))); [apply bsum_ext; intros; ring|]. rewrite bsum_plus, (bsum_scal _ (- 1)). ring. }
    rewrite S1. eapply Rle_trans; [apply Rabs_minus_le|]. rewrite !Rabs_mult, <- RPow_abs. unfold K. rewrite Rmult_plus_distr_r, Rplus_comm. apply Rplus_le_compat.
    - rewrite Rmult_comm. apply Rmult_le_compat_r; [apply pow_le, Rabs_pos|exact B1].
    - rewrite Rmult_assoc. apply Rmult_le_compat_l; [apply Rabs_pos|exact B2]. }
  specialize (V (k i - 1 - q)%nat ltac:(lia)). replace (k i - 1 - (k i - 1 - q))%nat with q in V by lia. lra.
Qed.
(** The coefficients at infinity *)
Lemma powerRZ_lprod l u : u <> 0 -> lprod l (fun j => powerRZ (/ u) (m j)) = powerRZ (/ u) (zsum l).
Proof. intros Hu. induction l as [|j l IH]; cbn [lprod zsum]; [reflexivity|]. rewrite IH, powerRZ_add by (apply Rinv_neq_0_compat, Hu). reflexivity. Qed.
Lemma ident_inf N k al be mu : (forall t, ok t -> F J t = pf N k al be t) -> In b J -> (zsum J < Z.of_nat N)%Z ->
  (forall v, mu (S v) = - / INR (S v) * lsum (wo b J) (fun j => IZR (m j) * (av b - av j) ^ S v)) ->
  forall q, (q < N)%nat -> al q = if (Z.of_nat q <=? zsum J)%Z then psum mu (Z.to_nat (zsum J) - q) (Z.to_nat (zsum J) - q) else 0.
Proof.
  intros E Hb HN Hmu q Hq. set (r := Z.to_nat (Z.of_nat N - 1 - zsum J)). pose proof (expands_shift r _ _ (expands_prod (wo b J) (fun j => av b - av j) m mu Hmu)) as X. set (g := fun u => lprod (wo b J) (fun j => powerRZ (1 - (av b - av j) * u) (m j))) in X. set (c := fun s => if Nat.ltb s r then 0 else psum mu (s - r) (s - r)) in X.
  set (rest := fun u => lsum J (fun j => bsum (k j) (fun q => be j q * (u ^ q * (/ (1 - (av b - av j) * u)) ^ S q)))).
  assert (Rb : bnd rest).
  { unfold rest. apply (bnd_lsum J (fun j u => bsum (k j) (fun q => be j q * (u ^ q * (/ (1 - (av b - av j) * u)) ^ S q)))). intros j _. apply (bnd_bsum (k j) (fun q u => be j q * (u ^ q * (/ (1 - (av b - av j) * u)) ^ S q))). intros p _. apply bnd_mult; [apply bnd_const|]. apply bnd_mult; [apply (bnd_pow (fun u => u)), bnd_id|apply (bnd_pow (fun u => / (1 - (av b - av j) * u))), bnd_inv1]. }
  destruct Rb as (K1 & e1 & He1 & B1). destruct (X N) as (K2 & e2 & He2 & B2). destruct near_inf as (e3 & He3 & B3).
  set (K := K1 + K2). set (ee := Rmin e1 (Rmin e2 e3)).
  assert (V : forall s, (s < N)%nat -> al (N - 1 - s)%nat - c s = 0).
  { apply (vanish N (fun s => al (N - 1 - s)%nat - c s) K ee); [unfold ee; repeat apply Rmin_glb_lt; assumption|]. intros u Hu. assert (Hu1 : Rabs u < e1 /\ Rabs u < e2 /\ Rabs u < e3). { unfold ee in Hu. pose proof (Rmin_l e1 (Rmin e2 e3)). pose proof (Rmin_r e1 (Rmin e2 e3)). pose proof (Rmin_l e2 e3). pose proof (Rmin_r e2 e3). lra. }
    destruct Hu1 as (U1 & U2 & U3). assert (Nu : u <> 0) by (intros ->; rewrite Rabs_R0 in Hu; lra). pose proof (B3 u (conj (proj1 Hu) U3)) as OK. specialize (E _ OK). specialize (B1 u U1). specialize (B2 u U2).
    assert (Fac : forall j, av j + (/ u - av b) = (1 - (av b - av j) * u) * / u) by (intros; field; exact Nu).
    assert (EF : u ^ (N - 1) * F J (/ u - av b) = u ^ r * g u).
    { unfold F. rewrite (lprod_split b J _ ND Hb). replace (av b + (/ u - av b)) with (/ u) by ring. rewrite (lprod_ext (wo b J) _ (fun j => powerRZ (1 - (av b - av j) * u) (m j) * powerRZ (/ u) (m j))) by (intros; rewrite Fac, powerRZ_mult; reflexivity). rewrite lprod_mult. fold (g u). rewrite (powerRZ_lprod (wo b J) u Nu).
      transitivity (u ^ (N - 1) * powerRZ (/ u) (zsum J) * g u); [rewrite (zsum_split b J ND Hb), powerRZ_add by (apply Rinv_neq_0_compat, Nu); ring|]. f_equal. rewrite powerRZ_inv', <- powerRZ_neg', <- !powerRZ_nat, <- powerRZ_add by exact Nu. f_equal. unfold r. lia. }
    assert (EP : u ^ (N - 1) * pf N k al be (/ u - av b) = bsum N (fun s => al (N - 1 - s)%nat * u ^ s) + u ^ N * rest u).
    { unfold pf. rewrite Rmult_plus_distr_l. f_equal.
      - rewrite (bsum_rev N (fun s => al (N - 1 - s)%nat * u ^ s)), <- bsum_scal. apply bsum_ext. intros p Hp. replace (N - 1 - (N - 1 - p))%nat with p by lia. replace (av b + (/ u - av b)) with (/ u) by ring. replace (N - 1)%nat with ((N - 1 - p) + p)%nat at 1 by lia. rewrite pow_add, pow_inv. field. apply pow_nonzero, Nu.
      - unfold rest. rewrite <- !lsum_scal. apply lsum_ext. intros j Hj. rewrite <- !bsum_scal. apply bsum_ext. intros p _. specialize (OK j Hj). rewrite Fac in *. assert (G : 1 - (av b - av j) * u <> 0) by (intros Z; apply OK; rewrite Z; ring). rewrite Rpow_mult_distr, !pow_inv. replace N with (S (N - 1)) at 2 by lia. cbn [pow]. field. repeat split; try exact Nu; try exact G; try (apply pow_nonzero; assumption). }
    assert (S1 : bsum N (fun s => (al (N - 1 - s)%nat - c s) * u ^ s) = (u ^ r * g u - bsum N (fun s => c s * u ^ s)) - u ^ N * rest u).
    { transitivity (bsum N (fun s => al (N - 1 - s)%nat * u ^ s) - bsum N (fun s => c s * u ^ s)); [|rewrite E in EF; rewrite EF in EP; lra]. transitivity (bsum N (fun s => al (N - 1 - s)%nat * u ^ s + - 1 * (c s * u ^ s))); [apply bsum_ext; intros; ring|]. rewrite bsum_plus, (bsum_scal _ (- 1)). ring. }
    rewrite S1. eapply Rle_trans; [apply Rabs_minus_le|]. rewrite !Rabs_mult, <- RPow_abs. unfold K. rewrite Rmult_plus_distr_r, Rplus_comm. apply Rplus_le_compat.
    - rewrite Rmult_comm. apply Rmult_le_compat_r; [apply pow_le, Rabs_pos|exact B1].
    - exact B2. }
  specialize (V (N - 1 - q)%nat ltac:(lia)). replace (N - 1 - (N - 1 - q))%nat with q in V by lia. replace (al q) with (c (N - 1 - q)%nat) by lra. unfold c.
  destruct (Z.leb_spec (Z.of_nat q) (zsum J)) as [L|L].
  - replace (Nat.ltb (N - 1 - q) r) with false by (symmetry; apply Nat.ltb_ge; unfold r; lia). replace (N - 1 - q - r)%nat with (Z.to_nat (zsum J) - q)%nat by (unfold r; lia). reflexivity.
  - replace (Nat.ltb (N - 1 - q) r) with true by (symmetry; apply Nat.ltb_lt; unfold r; lia). reflexivity.
Qed.
(** Partial fractions with explicit coefficients *)
Theorem partial_fractions (mui : nat -> R) (mup : nat -> nat -> R) : In b J ->
  (forall v, mui (S v) = - / INR (S v) * lsum (wo b J) (fun j => IZR (m j) * (av b - av j) ^ S v)) ->
  (forall i v, In i J -> mup i (S v) = - / INR (S v) * lsum (wo i J) (fun j => IZR (m j) * (/ (av i - av j)) ^ S v)) ->
  forall t, ok t -> F J t =
    bsum (Z.to_nat (zsum J + 1)) (fun q => psum mui (Z.to_nat (zsum J) - q) (Z.to_nat (zsum J) - q) * (av b + t) ^ q) +
    lsum J (fun i => DD i * bsum (Z.to_nat (- m i)) (fun q => psum (mup i) (Z.to_nat (- m i) - 1 - q) (Z.to_nat (- m i) - 1 - q) * / (av i + t) ^ S q)).
Proof.
  intros Hb Hi Hp t Ht. destruct (sp_pf _ _ _ (sp_F J (incl_refl J))) as (al & be & E). rewrite (E t Ht). unfold pf. f_equal.
  - pose proof (NN_zsum J) as HN. pose proof (ident_inf _ _ al be mui E Hb HN Hi) as I. replace (NN J) with (Z.to_nat (zsum J + 1) + (NN J - Z.to_nat (zsum J + 1)))%nat by lia. rewrite bsum_extend.
    + apply bsum_ext. intros q Hq. rewrite I by lia. rewrite (proj2 (Z.leb_le _ _)) by lia. reflexivity.
    + intros q Hq. rewrite I by lia. rewrite (proj2 (Z.leb_gt _ _)) by lia. ring.
  - apply lsum_ext. intros i Ii. rewrite (kk_in J i ND Ii), <- bsum_scal. apply bsum_ext. intros q Hq. rewrite (ident_pole _ _ al be (mup i) i E Ii (kk_in J i ND Ii) ltac:(lia) (fun v => Hp i v Ii) q) by (rewrite (kk_in J i ND Ii); exact Hq). rewrite (kk_in J i ND Ii). ring.
Qed.
End PF.
