(** Linear algebra on lists, the rows of the spline system. *)
From Coq Require Import List Bool Arith ZArith Lia Reals Lra Sorted.
From Coquelicot Require Import Hierarchy Derive ElemFct.
From Verif Require Import Interp InterpFacts Splines SplinesSpec.
Import ListNotations.
Open Scope R_scope.

Lemma dot_cons a r b c : dot (a :: r) (b :: c) = a * b + dot r c. Proof. reflexivity. Qed.
Lemma dot_app a1 : forall b1 a2 b2, length a1 = length b1 -> dot (a1 ++ a2) (b1 ++ b2) = dot a1 b1 + dot a2 b2.
Proof. induction a1 as [|a a1 IH]; intros [|b b1] a2 b2 L; try discriminate; simpl app. - unfold dot at 2. simpl. ring. - rewrite !dot_cons, IH by (injection L; auto). ring. Qed.
Lemma dot_zeros n : forall c, dot (zeros n) c = 0.
Proof. induction n as [|n IH]; intros [|b c]; simpl; try reflexivity. unfold zeros in *. simpl. rewrite dot_cons, IH. ring. Qed.
Lemma dot_nil_r a : dot a [] = 0. Proof. destruct a; reflexivity. Qed.
Lemma dot_map_scal m (f : nat -> R) l : forall c, dot (map (fun d => m * f d) l) c = m * dot (map f l) c.
Proof. induction l as [|d l IH]; intros [|b c]; simpl map; rewrite ?dot_nil_r; try (unfold dot; simpl; ring). rewrite !dot_cons, IH. ring. Qed.
Lemma zeros_length n : length (zeros n) = n. Proof. apply repeat_length. Qed.
Lemma zeros_app a b : zeros a ++ zeros b = zeros (a + b). Proof. symmetry. apply repeat_app. Qed.
Lemma skipn_zeros k n : skipn k (zeros n) = zeros (n - k).
Proof. revert n. induction k as [|k IH]; intros [|n]; simpl; auto. Qed.
Lemma firstn_zeros k n : (k <= n)%nat -> firstn k (zeros n) = zeros k.
Proof. revert n. induction k as [|k IH]; intros [|n] L; try lia; auto. change (0 :: firstn k (zeros n) = 0 :: zeros k). f_equal. apply IH. lia. Qed.

Lemma roll_pos blk m k : (k <= m)%nat -> (0 < length blk)%nat -> roll (Z.of_nat k) (blk ++ zeros m) = zeros k ++ blk ++ zeros (m - k).
Proof.
  intros L B. unfold roll. rewrite app_length, zeros_length.
  destruct k as [|k].
  - change (- Z.of_nat 0)%Z with 0%Z. rewrite Z.mod_0_l by lia. simpl. rewrite app_nil_r, Nat.sub_0_r. reflexivity.
  - assert (E : Z.to_nat ((- Z.of_nat (S k)) mod Z.of_nat (length blk + m)) = (length blk + (m - S k))%nat).
    { rewrite <- (Z_mod_plus_full _ 1). rewrite Z.mod_small; lia. }
    rewrite E, skipn_app, firstn_app, skipn_all2 by lia. rewrite firstn_all2 by lia.
    replace (length blk + (m - S k) - length blk)%nat with (m - S k)%nat by lia.
    rewrite skipn_zeros, firstn_zeros by lia. simpl app at 1. f_equal. f_equal. lia.
Qed.
(** roll by minus the length of the block *)
Lemma roll_neg blk m : (0 < length blk)%nat -> roll (- Z.of_nat (length blk)) (blk ++ zeros m) = zeros m ++ blk.
Proof.
  intros B. unfold roll. rewrite app_length, zeros_length, Z.opp_involutive. destruct m as [|m].
  - rewrite Nat.add_0_r, Z_mod_same_full. simpl. rewrite !app_nil_r. reflexivity.
  - rewrite Z.mod_small by lia. rewrite Nat2Z.id, skipn_app, firstn_app, skipn_all2, firstn_all2 by lia. rewrite Nat.sub_diag. simpl. rewrite app_nil_r. reflexivity.
Qed.

Lemma skipn_skipn' {A} (a b : nat) : forall l : list A, skipn a (skipn b l) = skipn (a + b) l.
Proof. rewrite Nat.add_comm. induction b as [|b IH]; intros l; [reflexivity|]. destruct l; simpl; [destruct a; reflexivity|apply IH]. Qed.
(** the coefficients of piece [i] *)
Definition piece (v i : nat) (c : list R) : list R := firstn v (skipn (i * v) c).
Lemma piece_length v i n c : length c = (v * n)%nat -> (i < n)%nat -> length (piece v i c) = v.
Proof. intros L I. unfold piece. rewrite firstn_length, skipn_length, L. nia. Qed.
Lemma chunks_nth n v : forall c i, (i < n)%nat -> nth i (chunks n v c) [] = piece v i c.
Proof.
  induction n as [|n IH]; intros c i I; [lia|]. destruct i as [|i]; simpl; [reflexivity|]. rewrite IH by lia. unfold piece. f_equal.
  rewrite skipn_skipn'. f_equal. lia.
Qed.
Lemma chunks_length n v c : length (chunks n v c) = n.
Proof. revert c. induction n; intros; simpl; auto. Qed.
Lemma dot_block blk v i n c : length blk = v -> length c = (v * n)%nat -> (i < n)%nat -> dot (zeros (i * v) ++ blk ++ zeros (v * n - v - i * v)) c = dot blk (piece v i c).
Proof.
  intros Lb Lc I. rewrite <- (firstn_skipn (i * v) c) at 1. rewrite dot_app by (rewrite zeros_length, firstn_length; nia). rewrite dot_zeros.
  rewrite <- (firstn_skipn v (skipn (i * v) c)) at 1. rewrite dot_app. - rewrite dot_zeros. unfold piece. ring. - rewrite firstn_length, skipn_length. nia.
Qed.
Lemma dot_block2 b1 b2 v i n c : length b1 = v -> length b2 = v -> length c = (v * n)%nat -> (S i < n)%nat ->
  dot (zeros (i * v) ++ (b1 ++ b2) ++ zeros (v * n - 2 * v - i * v)) c = dot b1 (piece v i c) + dot b2 (piece v (S i) c).
Proof.
  intros L1 L2 Lc I. rewrite <- (firstn_skipn (i * v) c) at 1. rewrite dot_app by (rewrite zeros_length, firstn_length; nia). rewrite dot_zeros, <- app_assoc.
  rewrite <- (firstn_skipn v (skipn (i * v) c)) at 1. rewrite dot_app by (rewrite firstn_length, skipn_length; nia).
  rewrite skipn_skipn'. rewrite <- (firstn_skipn v (skipn (v + i * v) c)) at 1. rewrite dot_app by (rewrite firstn_length, skipn_length; nia).
  rewrite dot_zeros. unfold piece. change (S i * v)%nat with (v + i * v)%nat. ring.
Qed.

(** ** polynomials *)
Lemma degs_S n : rev (seq 0 (S n)) = n :: rev (seq 0 n).
Proof. rewrite seq_S, rev_app_distr. reflexivity. Qed.
Lemma polyval_acc p x : forall a, fold_left (fun acc c => acc * x + c) p a = a * x ^ length p + polyval p x.
Proof.
  unfold polyval. induction p as [|c p IH]; intros a; simpl; [ring|]. rewrite IH, (IH (0 * x + c)). ring.
Qed.
Lemma polyval_cons c p x : polyval (c :: p) x = c * x ^ length p + polyval p x.
Proof. unfold polyval at 1. simpl. rewrite polyval_acc. ring. Qed.
Lemma powers_dot x : forall p, dot (map (fun d => x ^ d) (rev (seq 0 (length p)))) p = polyval p x.
Proof. induction p as [|c p IH]; [reflexivity|]. change (length (c :: p)) with (S (length p)). rewrite degs_S, polyval_cons, <- IH. simpl map. rewrite dot_cons. ring. Qed.

Lemma range_down_fold d : forall p a, (d <= p)%nat -> INR (fold_left Nat.mul (range_down p d) a) = INR a * (INR (fact p) / INR (fact (p - d))).
Proof.
  induction d as [|d IH]; intros p a L.
  - simpl. rewrite Nat.sub_0_r. field. apply INR_fact_neq_0.
  - simpl range_down. simpl fold_left. destruct p as [|p]; [lia|]. rewrite IH by lia. change (S p - 1)%nat with (p - 0)%nat. rewrite Nat.sub_0_r.
    change (S p - S d)%nat with (p - d)%nat. rewrite mult_INR, fact_simpl, mult_INR. field. apply INR_fact_neq_0.
Qed.
Lemma polyderiv_fact p d : (1 <= d <= p)%nat -> polyderiv_coeff p d = INR (fact p) / INR (fact (p - d)).
Proof.
  intros L. unfold polyderiv_coeff. destruct d as [|d]; [lia|]. simpl range_down. destruct p as [|p]; [lia|]. rewrite range_down_fold by lia.
  change (S p - 1)%nat with (p - 0)%nat. rewrite Nat.sub_0_r. change (S p - S d)%nat with (p - d)%nat. rewrite fact_simpl, mult_INR. field. apply INR_fact_neq_0.
Qed.

Definition deriv_list (dd n : nat) (x : R) : list R := map (fun d => if Nat.leb dd d then polyderiv_coeff d dd * x ^ (d - dd) else 0) (rev (seq 0 n)).
Lemma is_derive_monomial n dd x : (1 <= dd)%nat -> is_derive_n (fun x => x ^ n) dd x (if Nat.leb dd n then polyderiv_coeff n dd * x ^ (n - dd) else 0).
Proof.
  intros D. destruct (Nat.leb_spec dd n).
  - rewrite polyderiv_fact by lia. apply is_derive_n_pow_smalli; assumption.
  - apply is_derive_n_pow_bigi; assumption.
Qed.
Lemma ex_derive_n_0 (f : R -> R) x : ex_derive_n f 0 x. Proof. exact I. Qed.
Lemma ex_derive_monomial c n k x : ex_derive_n (fun x => c * x ^ n) k x.
Proof. destruct k as [|k]; [apply ex_derive_n_0|]. pose proof (is_derive_n_scal_l _ _ c _ _ (is_derive_monomial n (S k) x ltac:(lia))) as H. simpl in *. eexists. exact H. Qed.
Lemma is_derive_polyval p : forall dd x, (1 <= dd)%nat -> is_derive_n (polyval p) dd x (dot (deriv_list dd (length p) x) p).
Proof.
  induction p as [|c p IH]; intros dd x D.
  - pose proof (is_derive_n_scal_l _ dd 0 x _ (is_derive_monomial 0 dd x D)) as H. rewrite Rmult_0_l in H.
    eapply is_derive_n_ext; [|exact H]. intros t. unfold polyval. simpl. ring.
  - eapply is_derive_n_ext; [intros t; symmetry; apply polyval_cons|]. unfold deriv_list. change (length (c :: p)) with (S (length p)).
    rewrite degs_S. simpl map. rewrite dot_cons. rewrite Rmult_comm. apply is_derive_n_plus.
    + apply filter_forall. intros y k _. apply ex_derive_monomial.
    + apply filter_forall. intros y k _. destruct k as [|k]; [exact I|]. pose proof (IH (S k) y ltac:(lia)) as H. eexists. exact H.
    + apply is_derive_n_scal_l, is_derive_monomial, D.
    + apply IH, D.
Qed.
Lemma Derive_polyval p dd x : (1 <= dd)%nat -> Derive_n (polyval p) dd x = dot (deriv_list dd (length p) x) p.
Proof. intros D. apply is_derive_n_unique, is_derive_polyval, D. Qed.

(** ** the rows of the system *)
Lemma polyval_peval p x : polyval p x = peval p x.
Proof. induction p as [|c p IH]; [reflexivity|]. rewrite polyval_cons, IH. reflexivity. Qed.
Lemma Derive_peval p dd x : (1 <= dd)%nat -> Derive_n (peval p) dd x = dot (deriv_list dd (length p) x) p.
Proof. intros D. rewrite <- Derive_polyval by exact D. apply Derive_n_ext. intros t. symmetry. apply polyval_peval. Qed.

Lemma Y0_values y : removelast (tl (interleave2 y)) = flat_map (fun i => [at_ y i; at_ y (S i)]) (seq 0 (length y - 1)).
Proof.
  induction y as [|a y IH]; [reflexivity|]. destruct y as [|b y]; [reflexivity|].
  replace (length (a :: b :: y) - 1)%nat with (S (length (b :: y) - 1)) by (simpl; lia). rewrite <- cons_seq, <- seq_shift. cbn [flat_map]. rewrite (flat_map_concat_map _ (map S _)), map_map, <- flat_map_concat_map.
  change (removelast (tl (interleave2 (a :: b :: y)))) with (a :: removelast (b :: tl (interleave2 (b :: y)))).
  change (removelast (b :: tl (interleave2 (b :: y)))) with (b :: removelast (tl (interleave2 (b :: y)))). rewrite IH. reflexivity.
Qed.
Lemma mv_app A B c : mv (A ++ B) c = mv A c ++ mv B c. Proof. apply map_app. Qed.
Lemma mv_pairs {T} (f g : T -> list R) l c : mv (flat_map (fun i => [f i; g i]) l) c = flat_map (fun i => [dot (f i) c; dot (g i) c]) l.
Proof. induction l as [|i l IH]; [reflexivity|]. simpl. rewrite <- IH. reflexivity. Qed.
Lemma pairs_eq {T} (f g f' g' : T -> R) l : flat_map (fun i => [f i; g i]) l = flat_map (fun i => [f' i; g' i]) l <-> (forall i, In i l -> f i = f' i /\ g i = g' i).
Proof.
  induction l as [|i l IH]; simpl; [split; [contradiction|reflexivity]|]. split.
  - intros H. injection H as H1 H2 H3. intros j [<-|Hj]; [auto|]. apply IH; assumption.
  - intros H. destruct (H i (or_introl eq_refl)) as [-> ->]. do 2 f_equal. apply IH. intros j Hj. apply H. right. exact Hj.
Qed.
Lemma mv_zeros A c k : mv A c = zeros k <-> length A = k /\ Forall (fun r => dot r c = 0) A.
Proof.
  revert k. induction A as [|r A IH]; intros [|k]; simpl; unfold zeros in *; simpl.
  - split; auto.
  - split; [discriminate|]. intros [H _]; discriminate.
  - split; [discriminate|]. intros [H _]; discriminate.
  - split.
    + intros H. injection H as H1 H2. apply IH in H2. destruct H2 as [-> H2]. auto.
    + intros [H1 H2]. inversion H2 as [|? ? H3 H4]; subst. rewrite H3. f_equal. apply IH. split; [congruence|exact H4].
Qed.
Lemma Forall_flat_map {S T} (P : T -> Prop) (f : S -> list T) l : Forall P (flat_map f l) <-> forall i, In i l -> Forall P (f i).
Proof. rewrite flat_map_concat_map, Forall_concat, Forall_map, Forall_forall. reflexivity. Qed.

Section System.
Variables (x0 : list R) (degree : nat).
Hypothesis Hn : (2 <= length x0)%nat.
Let n := (length x0 - 1)%nat.
Let v := (degree + 1)%nat.
Lemma nvars_eq : nvars x0 degree = (v * n)%nat. Proof. reflexivity. Qed.
Lemma value_rows_length : length (value_rows x0 degree) = (2 * n)%nat.
Proof.
  unfold value_rows. rewrite flat_map_concat_map. change (npolys x0) with n. generalize 0%nat at 1. induction n as [|k IH]; intros a; [reflexivity|].
  simpl. rewrite IH. lia.
Qed.
Lemma const_flat_map_length {S T} (f : S -> list T) k l : (forall i, length (f i) = k) -> length (flat_map f l) = (length l * k)%nat.
Proof. intros H. induction l as [|i l IH]; [reflexivity|]. simpl. rewrite app_length, IH, H. reflexivity. Qed.
Lemma smooth_rows_length : length (smooth_rows x0 degree) = ((degree - 1) * (n - 1))%nat.
Proof. unfold smooth_rows. rewrite (const_flat_map_length _ (n - 1)); [rewrite seq_length; reflexivity|]. intros i. rewrite map_length, seq_length. reflexivity. Qed.
Lemma end_rows_length : length (end_rows x0 degree) = ((degree - 2) * 2)%nat.
Proof. unfold end_rows. rewrite (const_flat_map_length _ 2); [rewrite rev_length, seq_length; reflexivity|]. intros i. reflexivity. Qed.
Lemma X0_length : length (X0 x0 degree) = (2 * n + (degree - 1) * (n - 1) + (degree - 2) * 2)%nat.
Proof. unfold X0. rewrite !app_length, value_rows_length, smooth_rows_length, end_rows_length. lia. Qed.

Lemma degrees_length : length (degrees degree) = v. Proof. unfold degrees. rewrite rev_length, seq_length. reflexivity. Qed.
Lemma entries_length m dd i : length (deriv_entries x0 degree m dd i) = v.
Proof. unfold deriv_entries. rewrite map_length. apply degrees_length. Qed.
Lemma entries_scal m dd i : deriv_entries x0 degree m dd i = map (fun d => m * (if Nat.leb dd d then polyderiv_coeff d dd * knot x0 i ^ (d - dd) else 0)) (degrees degree).
Proof. unfold deriv_entries. apply map_ext. intros d. destruct (Nat.leb dd d); ring. Qed.
Lemma entries_dot m dd i p : length p = v -> dot (deriv_entries x0 degree m dd i) p = m * dot (deriv_list dd (length p) (knot x0 i)) p.
Proof. intros L. rewrite entries_scal, (dot_map_scal m). unfold deriv_list, degrees. rewrite L. reflexivity. Qed.
Lemma knot_nat i : knot x0 (Z.of_nat i) = at_ x0 i.
Proof. unfold knot. destruct (Z.ltb_spec (Z.of_nat i) 0); [lia|]. rewrite Nat2Z.id. reflexivity. Qed.
Lemma knot_last : knot x0 (-1) = at_ x0 n.
Proof. unfold knot, npoints. simpl. f_equal. unfold n. lia. Qed.

Variable c : list R.
Hypothesis Hc : length c = (v * n)%nat.
Notation P i := (peval (piece v i c)).
Lemma value_row_dot i x : (i < n)%nat -> dot (roll (Z.of_nat (i * nvarsp degree)) (map (fun d => x ^ d) (degrees degree) ++ zeros (nvars x0 degree - nvarsp degree))) c = P i x.
Proof.
  intros I. change (nvarsp degree) with v. rewrite nvars_eq, roll_pos; [|nia|rewrite map_length, degrees_length; unfold v; lia].
  rewrite (dot_block _ v i n) by (try assumption; rewrite map_length; apply degrees_length).
  rewrite <- polyval_peval, <- powers_dot, (piece_length v i n) by assumption. reflexivity.
Qed.
Lemma smooth_row_dot dd i : (S i < n)%nat -> (1 <= dd)%nat ->
  dot (roll (Z.of_nat ((S i - 1) * nvarsp degree)) ((deriv_entries x0 degree 1 dd (Z.of_nat (S i)) ++ deriv_entries x0 degree (-1) dd (Z.of_nat (S i))) ++ zeros (nvars x0 degree - 2 * nvarsp degree))) c
  = Derive_n (P i) dd (at_ x0 (S i)) - Derive_n (P (S i)) dd (at_ x0 (S i)).
Proof.
  intros I D. change (nvarsp degree) with v. replace (S i - 1)%nat with i by lia. rewrite nvars_eq, roll_pos; [|nia|rewrite app_length, !entries_length; unfold v; lia].
  rewrite (dot_block2 _ _ v i n) by (try assumption; apply entries_length).
  rewrite !entries_dot by (apply (piece_length v _ n); [assumption|lia]). rewrite !Derive_peval by assumption. rewrite knot_nat. ring.
Qed.
Lemma first_row_dot dd : (1 <= dd)%nat -> dot (roll (0 * Z.of_nat (nvarsp degree)) (deriv_entries x0 degree 1 dd 0 ++ zeros (nvars x0 degree - nvarsp degree))) c = Derive_n (P 0) dd (at_ x0 0).
Proof.
  intros D. change (nvarsp degree) with v. assert (0 < n)%nat by (unfold n; lia).
  change (0 * Z.of_nat v)%Z with (Z.of_nat 0). rewrite nvars_eq, roll_pos; [|lia|rewrite entries_length; unfold v; lia].
  pose proof (dot_block (deriv_entries x0 degree 1 dd 0) v 0 n c (entries_length _ _ _) Hc ltac:(lia)) as E. rewrite Nat.mul_0_l in E. rewrite E.
  rewrite entries_dot by (apply (piece_length v _ n); [assumption|lia]). rewrite !Derive_peval by assumption. rewrite (knot_nat 0 : knot x0 0 = _). ring.
Qed.
Lemma last_row_dot dd : (1 <= dd)%nat -> dot (roll (-1 * Z.of_nat (nvarsp degree)) (deriv_entries x0 degree 1 dd (-1) ++ zeros (nvars x0 degree - nvarsp degree))) c = Derive_n (P (n - 1)) dd (at_ x0 n).
Proof.
  intros D. change (nvarsp degree) with v. assert (0 < n)%nat by (unfold n; lia).
  replace (-1 * Z.of_nat v)%Z with (- Z.of_nat (length (deriv_entries x0 degree 1 dd (-1))))%Z by (rewrite entries_length; lia).
  rewrite nvars_eq, roll_neg by (rewrite entries_length; unfold v; lia).
  pose proof (dot_block (deriv_entries x0 degree 1 dd (-1)) v (n - 1) n c (entries_length _ _ _) Hc ltac:(lia)) as E.
  replace (v * n - v - (n - 1) * v)%nat with 0%nat in E by nia. simpl zeros in E at 2. rewrite app_nil_r in E. replace ((n - 1) * v)%nat with (v * n - v)%nat in E by nia. rewrite E.
  rewrite entries_dot by (apply (piece_length v _ n); [assumption|lia]). rewrite !Derive_peval by assumption. rewrite knot_last. ring.
Qed.

Variable y0 : list R.
Hypothesis Hy : length y0 = length x0.
Lemma app_inj_length {T} (a b c' d : list T) : length a = length c' -> a ++ b = c' ++ d <-> a = c' /\ b = d.
Proof.
  intros L. split; [|intros [-> ->]; reflexivity]. revert c' L. induction a as [|x a IH]; intros [|y c'] L E; try discriminate; [auto|].
  simpl in E. injection E as -> E. destruct (IH c' ltac:(injection L; auto) E) as [-> ->]. auto.
Qed.
Lemma Y0_vals_length : length (removelast (tl (interleave2 y0))) = (2 * n)%nat.
Proof. rewrite Y0_values. rewrite (const_flat_map_length _ 2) by reflexivity. rewrite seq_length, Hy. fold n. lia. Qed.
Lemma is_spline_pieces : is_spline x0 y0 degree (chunks n v c) <->
  (forall i, (i < n)%nat -> P i (at_ x0 i) = at_ y0 i /\ P i (at_ x0 (S i)) = at_ y0 (S i)) /\
  (forall i d, (S i < n)%nat -> (1 <= d < degree)%nat -> Derive_n (P i) d (at_ x0 (S i)) = Derive_n (P (S i)) d (at_ x0 (S i))) /\
  (forall d, (2 <= d < degree)%nat -> Derive_n (P 0) d (at_ x0 0) = 0 /\ Derive_n (P (n - 1)) d (at_ x0 n) = 0).
Proof.
  assert (0 < n)%nat by (unfold n; lia).
  unfold is_spline, interpolates, smooth, natural. fold n. split.
  - intros ((_ & H1) & H2 & H3). repeat split.
    + destruct (H1 i H0) as (_ & A & B). rewrite chunks_nth in A by assumption. exact A.
    + destruct (H1 i H0) as (_ & A & B). rewrite chunks_nth in B by assumption. exact B.
    + intros i d I D. specialize (H2 i d I D). rewrite !chunks_nth in H2 by lia. exact H2.
    + specialize (H3 d H0). rewrite !chunks_nth in H3 by lia. apply H3.
    + specialize (H3 d H0). rewrite !chunks_nth in H3 by lia. apply H3.
  - intros (H1 & H2 & H3). split; [split; [apply chunks_length|]|split].
    + intros i I. rewrite chunks_nth by assumption. destruct (H1 i I) as [A B]. repeat split; try assumption. rewrite (piece_length v i n) by assumption. unfold v. lia.
    + intros i d I D. rewrite !chunks_nth by lia. apply H2; assumption.
    + intros d D. rewrite !chunks_nth by lia. apply H3; assumption.
Qed.
Lemma system_iff : mv (X0 x0 degree) c = Y0 x0 degree y0 <->
  (length (smooth_rows x0 degree ++ end_rows x0 degree) = nvars x0 degree - 2 * npolys x0)%nat /\ is_spline x0 y0 degree (chunks n v c).
Proof.
  unfold X0, Y0. rewrite mv_app. rewrite app_inj_length.
  2:{ unfold mv. rewrite map_length, value_rows_length. symmetry. apply Y0_vals_length. }
  rewrite mv_zeros, is_spline_pieces.
  assert (E1 : mv (value_rows x0 degree) c = removelast (tl (interleave2 y0)) <->
    (forall i, (i < n)%nat -> P i (at_ x0 i) = at_ y0 i /\ P i (at_ x0 (S i)) = at_ y0 (S i))).
  { rewrite Y0_values, Hy. fold n. unfold value_rows. cbn [map]. rewrite mv_pairs. change (npolys x0) with n. rewrite pairs_eq. split.
    - intros H i I. specialize (H i ltac:(apply in_seq; lia)). rewrite !value_row_dot, !knot_nat in H by assumption. exact H.
    - intros H i I. apply in_seq in I. rewrite !value_row_dot, !knot_nat by lia. apply H. lia. }
  assert (E2 : Forall (fun r => dot r c = 0) (smooth_rows x0 degree) <->
    (forall i d, (S i < n)%nat -> (1 <= d < degree)%nat -> Derive_n (P i) d (at_ x0 (S i)) = Derive_n (P (S i)) d (at_ x0 (S i)))).
  { unfold smooth_rows. rewrite Forall_flat_map. change (npolys x0) with n. split.
    - intros H i d I D. specialize (H d ltac:(apply in_seq; lia)). rewrite Forall_map, Forall_forall in H. specialize (H (S i) ltac:(apply in_seq; lia)).
      rewrite smooth_row_dot in H by lia. lra.
    - intros H d D. apply in_seq in D. rewrite Forall_map, Forall_forall. intros [|i] I; apply in_seq in I; [lia|]. rewrite smooth_row_dot by lia. rewrite H by lia. lra. }
  assert (E3 : Forall (fun r => dot r c = 0) (end_rows x0 degree) <->
    (forall d, (2 <= d < degree)%nat -> Derive_n (P 0) d (at_ x0 0) = 0 /\ Derive_n (P (n - 1)) d (at_ x0 n) = 0)).
  { unfold end_rows. rewrite Forall_flat_map. split.
    - intros H d D. specialize (H d ltac:(rewrite <- in_rev; apply in_seq; lia)). simpl map in H. rewrite !Forall_cons_iff in H. destruct H as (A & B & _).
      pose proof (first_row_dot d ltac:(lia)) as A'. simpl in A'. simpl in A. rewrite A in A'. pose proof (last_row_dot d ltac:(lia)) as B'. simpl in B', B. rewrite B in B'. split; symmetry; assumption.
    - intros H d D. apply in_rev, in_seq in D. simpl map. destruct (H d ltac:(lia)) as [A B]. repeat constructor.
      + pose proof (first_row_dot d ltac:(lia)) as A'. simpl in A'. simpl. rewrite A'. exact A.
      + pose proof (last_row_dot d ltac:(lia)) as B'. simpl in B'. simpl. rewrite B'. exact B. }
  rewrite Forall_app, E1, E2, E3. tauto.
Qed.
End System.
