(** C75: the sums of the older ragged tensors *)
From Coq Require Import List Arith Lia Reals Lra.
From Verif Require Import RaggedOld RaggedOldSpec.
Import ListNotations.
Open Scope R_scope.

Lemma add_at_nth acc i x j : nth j (add_at acc i x) 0 = nth j acc 0 + (if Nat.eqb i j then if Nat.ltb j (length acc) then x else 0 else 0).
Proof.
  revert i j. induction acc as [|a acc IH]; intros i j; cbn [add_at length].
  - destruct i, j; cbn; try ring; destruct (Nat.eqb _ _); ring.
  - destruct i, j; cbn [nth Nat.eqb].
    + reflexivity.
    + ring.
    + ring.
    + rewrite IH. reflexivity.
Qed.
Lemma add_at_length acc i x : length (add_at acc i x) = length acc.
Proof. revert i. induction acc as [|a acc IH]; intros [|i]; cbn; auto. Qed.
Lemma scatter_length acc idx src : length (scatter_add acc idx src) = length acc.
Proof. revert acc src. induction idx as [|i idx IH]; intros acc [|x src]; cbn; auto. rewrite IH. apply add_at_length. Qed.
Lemma scatter_app acc i1 i2 s1 s2 : length i1 = length s1 -> scatter_add acc (i1 ++ i2) (s1 ++ s2) = scatter_add (scatter_add acc i1 s1) i2 s2.
Proof. revert acc s1. induction i1 as [|i i1 IH]; intros acc [|x s1] H; cbn in *; try discriminate; auto. Qed.
Lemma scatter_const acc i n src j : length src = n -> nth j (scatter_add acc (repeat i n) src) 0 = nth j acc 0 + (if Nat.eqb i j then if Nat.ltb j (length acc) then total src else 0 else 0).
Proof.
  revert acc n. induction src as [|x src IH]; intros acc n <-; cbn [length repeat scatter_add total fold_right].
  - destruct (Nat.eqb i j), (Nat.ltb j (length acc)); ring.
  - rewrite (IH (add_at acc i x) (length src) eq_refl), add_at_nth, add_at_length. unfold total. destruct (Nat.eqb i j), (Nat.ltb j (length acc)); ring.
Qed.
Lemma ri_length {A} (v : list A) reps : length v = length reps -> length (repeat_interleave v reps) = count reps.
Proof. revert reps. induction v as [|a v IH]; intros [|r reps] H; cbn in *; try discriminate; [reflexivity|]. rewrite app_length, repeat_length, IH by lia. reflexivity. Qed.
Lemma skipn_add {A} (l : list A) a b : skipn (a + b) l = skipn b (skipn a l).
Proof. revert l. induction a as [|a IH]; intros l; [reflexivity|]. destruct l as [|x l]; cbn [Nat.add skipn]; [rewrite skipn_nil; reflexivity|apply IH]. Qed.
Lemma scatter_groups k sizes acc row j : length row = count sizes -> length acc = (k + length sizes)%nat ->
  nth j (scatter_add acc (repeat_interleave (seq k (length sizes)) sizes) row) 0 =
  nth j acc 0 + (if Nat.leb k j then if Nat.ltb j (k + length sizes) then total (group sizes (j - k) row) else 0 else 0).
Proof.
  revert k acc row. induction sizes as [|s sizes IH]; intros k acc row HR HA; cbn [length seq repeat_interleave].
  - cbn [scatter_add]. destruct (Nat.leb_spec k j), (Nat.ltb_spec j (k + 0)); try ring. lia.
  - cbn [count fold_right] in HR. change (fold_right Nat.add O sizes) with (count sizes) in HR.
    rewrite <- (firstn_skipn s row) at 1. rewrite scatter_app by (rewrite repeat_length, firstn_length; lia).
    rewrite (IH (S k)); [|rewrite skipn_length; lia|rewrite scatter_length; cbn [length] in HA; lia]. rewrite scatter_const by (rewrite firstn_length; lia). cbn [length] in HA.
    destruct (Nat.eqb_spec k j) as [->|NE].
    + rewrite Nat.leb_refl, Nat.sub_diag. destruct (Nat.leb_spec (S j) j); [lia|]. destruct (Nat.ltb_spec j (length acc)); [|lia]. destruct (Nat.ltb_spec j (j + S (length sizes))); [|lia]. unfold group. cbn [nth firstn count fold_right skipn]. ring.
    + destruct (Nat.leb_spec (S k) j) as [L|L].
      * destruct (Nat.leb_spec k j); [|lia]. replace (S k + length sizes)%nat with (k + S (length sizes))%nat by lia. destruct (Nat.ltb_spec j (k + S (length sizes))); [|ring].
        replace (j - k)%nat with (S (j - S k)) by lia. unfold group. cbn [nth firstn count fold_right]. change (fold_right Nat.add O (firstn (j - S k) sizes)) with (count (firstn (j - S k) sizes)). rewrite skipn_add. ring.
      * destruct (Nat.leb_spec k j); [lia|]. ring.
Qed.

Lemma zeros_nth n j : nth j (repeat 0 n) 0 = 0.
Proof. revert j. induction n as [|n IH]; intros [|j]; cbn; auto. Qed.
Lemma indices_ok sizes n : count sizes = n -> reduce_indices sizes n = Some (repeat_interleave (seq 0 (length sizes)) sizes).
Proof. intros H. unfold reduce_indices, broadcast_row. rewrite ri_length by apply seq_length. rewrite H, Nat.eqb_refl. reflexivity. Qed.
Lemma nth_eq (l m : list R) : length l = length m -> (forall j, (j < length l)%nat -> nth j l 0 = nth j m 0) -> l = m.
Proof.
  revert m. induction l as [|a l IH]; intros [|b m] H E; cbn in H; try discriminate; [reflexivity|]. f_equal; [exact (E O ltac:(cbn; lia))|]. apply IH; [lia|]. intros j Hj. exact (E (S j) ltac:(cbn; lia)).
Qed.
(** If the sizes add up to the length of the rows, every row is replaced by the sums of its groups. *)
Theorem C75_groups sizes n rows : count sizes = n -> (forall row, In row rows -> length row = n) ->
  reduce_add sizes n rows = Some (map (fun row => map (fun j => total (group sizes j row)) (seq 0 (length sizes))) rows).
Proof.
  intros HS HR. unfold reduce_add. rewrite (indices_ok sizes n HS). f_equal. apply map_ext_in. intros row Hrow. specialize (HR row Hrow). apply nth_eq.
  - rewrite scatter_length, repeat_length, map_length, seq_length. reflexivity.
  - intros j Hj. rewrite scatter_length, repeat_length in Hj. rewrite (scatter_groups 0 sizes) by (rewrite ?repeat_length; lia). rewrite zeros_nth. cbn [Nat.leb Nat.add]. rewrite Nat.sub_0_r. destruct (Nat.ltb_spec j (length sizes)); [|lia].
    rewrite (nth_indep _ 0 (total (group sizes 0 row))) by (rewrite map_length, seq_length; exact Hj). rewrite (map_nth (fun j => total (group sizes j row)) (seq 0 (length sizes)) O j), seq_nth by exact Hj. cbn [Nat.add]. ring.
Qed.
Lemma total_app l m : total (l ++ m) = total l + total m.
Proof. unfold total. induction l as [|a l IH]; cbn [app fold_right]; [rewrite Rplus_0_l; reflexivity|]. rewrite IH, Rplus_assoc. reflexivity. Qed.
Lemma groups_concat sizes row : length row = count sizes -> concat (map (fun j => group sizes j row) (seq 0 (length sizes))) = row.
Proof.
  revert row. induction sizes as [|s sizes IH]; intros row H; cbn [length seq map concat].
  - destruct row; [reflexivity|discriminate].
  - cbn [count fold_right] in H. change (fold_right Nat.add O sizes) with (count sizes) in H. transitivity (firstn s row ++ skipn s row); [|apply firstn_skipn]. f_equal.
    transitivity (concat (map (fun j => group sizes j (skipn s row)) (seq 0 (length sizes)))); [|apply IH; rewrite skipn_length; lia]. rewrite <- seq_shift, map_map. f_equal. apply map_ext. intros j. unfold group. cbn [nth firstn count fold_right]. change (fold_right Nat.add O (firstn j sizes)) with (count (firstn j sizes)). rewrite skipn_add. reflexivity.
Qed.
(** The groups partition the row, so nothing is lost or counted twice: the sums add up to the sum of the row; an empty group gives 0. *)
Theorem C75_total sizes row : length row = count sizes ->
  concat (map (fun j => group sizes j row) (seq 0 (length sizes))) = row /\
  total (map (fun j => total (group sizes j row)) (seq 0 (length sizes))) = total row /\
  forall j, nth j sizes O = O -> total (group sizes j row) = 0.
Proof.
  intros H. pose proof (groups_concat sizes row H) as G. split; [exact G|]. split.
  - transitivity (total (concat (map (fun j => group sizes j row) (seq 0 (length sizes))))); [|rewrite G; reflexivity]. generalize (seq 0 (length sizes)). intros l. clear G. induction l as [|j l IH]; cbn [map concat]; [reflexivity|]. rewrite total_app, <- IH. reflexivity.
  - intros j E. unfold group. rewrite E. reflexivity.
Qed.
(** Sizes that do not add up to the length of the rows are refused - unless they add up to 1 ... *)
Theorem C75_mismatch sizes n rows : count sizes <> n -> count sizes <> 1%nat -> reduce_add sizes n rows = None.
Proof.
  intros H1 H2. unfold reduce_add, reduce_indices, broadcast_row. pose proof (ri_length (seq 0 (length sizes)) sizes (seq_length _ _)) as L. rewrite L. destruct (Nat.eqb_spec (count sizes) n); [contradiction|].
  destruct (repeat_interleave _ _) as [|a [|b l]]; cbn in L; [reflexivity|lia|reflexivity].
Qed.
Lemma one_group sizes : count sizes = 1%nat -> exists g, nth g sizes O = 1%nat /\ (forall j, j <> g -> nth j sizes O = O) /\ (g < length sizes)%nat /\ forall k, repeat_interleave (seq k (length sizes)) sizes = [(k + g)%nat].
Proof.
  induction sizes as [|s sizes IH]; cbn [count fold_right]; [discriminate|]. change (fold_right Nat.add O sizes) with (count sizes). intros H. destruct s as [|s].
  - destruct (IH H) as (g & G1 & G2 & G3 & G4). exists (S g). cbn [length nth]. split; [exact G1|]. split; [intros [|j] Hj; [reflexivity|apply G2; lia]|]. split; [lia|]. intros k. cbn [seq repeat_interleave repeat app]. rewrite G4. f_equal. lia.
  - assert (C : count sizes = O) by lia. assert (s = O) by lia. subst s. assert (Z : forall l, count l = O -> (forall j, nth j l O = O) /\ forall k, repeat_interleave (seq k (length l)) l = []).
    { clear. induction l as [|a l IH]; cbn [count fold_right]; [intros _; split; [intros [|j]; reflexivity|reflexivity]|]. change (fold_right Nat.add O l) with (count l). intros H. assert (a = O) by lia. subst a. destruct (IH ltac:(lia)) as [I1 I2]. split; [intros [|j]; [reflexivity|apply I1]|]. intros k. cbn [length seq repeat_interleave repeat app]. apply I2. }
    destruct (Z sizes C) as [Z1 Z2]. exists O. cbn [length nth]. split; [reflexivity|]. split; [intros [|j] Hj; [lia|apply Z1]|]. split; [lia|]. intros k. cbn [seq repeat_interleave repeat app]. rewrite Z2, Nat.add_0_r. reflexivity.
Qed.
(** ... in which case a tensor of any length is accepted and the whole row is added to the only group that is not empty. *)
Theorem C75_single_refuted sizes n rows : count sizes = 1%nat -> (forall row, In row rows -> length row = n) ->
  exists g, nth g sizes O = 1%nat /\ exists out, reduce_add sizes n rows = Some out /\
    forall i, (i < length rows)%nat -> forall j, nth j (nth i out []) 0 = if Nat.eqb j g then total (nth i rows []) else 0.
Proof.
  intros H HR. destruct (one_group sizes H) as (g & G1 & G2 & G3 & G4). exists g. split; [exact G1|]. unfold reduce_add, reduce_indices. rewrite G4. cbn [Nat.add].
  assert (B : broadcast_row [g] n = Some (repeat g n)). { unfold broadcast_row. cbn [length]. destruct (Nat.eqb_spec 1 n) as [<-|]; reflexivity. }
  rewrite B. eexists. split; [reflexivity|]. intros i Hi j. rewrite (nth_indep _ [] (scatter_add (repeat 0 (length sizes)) (repeat g n) [])) by (rewrite map_length; exact Hi). rewrite (map_nth (scatter_add (repeat 0 (length sizes)) (repeat g n)) rows [] i).
  rewrite scatter_const by (apply HR, nth_In, Hi). rewrite zeros_nth, repeat_length. destruct (Nat.eqb_spec g j) as [<-|NE]; [rewrite Nat.eqb_refl; destruct (Nat.ltb_spec g (length sizes)); [ring|lia]|]. destruct (Nat.eqb_spec j g); [congruence|ring].
Qed.
(** for example *)
Example C75_example : reduce_add [2; 0; 1]%nat 3 [[1; 2; 4]; [5; 6; 7]] = Some [[3; 0; 4]; [11; 0; 7]] /\ reduce_add [0; 1]%nat 3 [[1; 2; 4]] = Some [[0; 7]] /\ reduce_add [2; 2]%nat 3 [[1; 2; 4]] = None.
Proof. unfold reduce_add. cbn. split; [|split; [|reflexivity]]; repeat f_equal; ring. Qed.
