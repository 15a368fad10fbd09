From Coq Require Import List Bool Arith Lia Ring Permutation.
From Verif Require Import Roots RootsSpec.
Import ListNotations.

Lemma option_list_map {X Y} (f : X -> option Y) (g : X -> Y) l : (forall x, In x l -> f x = Some (g x)) -> option_list (map f l) = Some (map g l).
Proof. induction l as [|x l IH]; intros H; [reflexivity|]. simpl. rewrite H by (left; reflexivity). rewrite IH; [reflexivity|]. intros. apply H. right. assumption. Qed.
Lemma combinations_0 {X} (l : list X) : combinations 0 l = [[]]. Proof. destruct l; reflexivity. Qed.
Lemma combinations_length {X} : forall k (l c : list X), In c (combinations k l) -> length c = k.
Proof.
  induction k as [|k IH]; intros l c H; [rewrite combinations_0 in H; destruct H as [<-|[]]; reflexivity|]. induction l as [|x l IHl]; simpl in H; [contradiction|].
  apply in_app_or in H. destruct H as [H|H]; [|apply IHl, H]. apply in_map_iff in H. destruct H as (c' & <- & H). simpl. rewrite (IH _ _ H). reflexivity.
Qed.
Lemma combinations_none {X} : forall k (l : list X), length l < k -> combinations k l = [].
Proof.
  induction k as [|k IH]; intros l H; [lia|]. induction l as [|x l IHl]; [reflexivity|]. simpl in *. rewrite IHl by lia. rewrite IH by lia. reflexivity.
Qed.
Lemma combinations_omit {X} : forall n (l : list X), length l = S n -> combinations n l = map (fun i => omit i l) (rev (seq 0 (S n))).
Proof.
  assert (All : forall n (l : list X), length l = n -> combinations n l = [l]).
  { induction n as [|n IH]; intros [|x l] H; try discriminate; [reflexivity|]. cbn [combinations]. rewrite (combinations_none (S n) l) by (simpl in H; lia).
    rewrite IH by (simpl in H; lia). reflexivity. }
  induction n as [|n IH]; intros [|x l] H; try discriminate.
  - destruct l; [reflexivity|discriminate].
  - cbn [combinations]. injection H as H. rewrite (All (S n) l H). rewrite IH by exact H.
    change (seq 0 (S (S n))) with (0 :: seq 1 (S n)). rewrite <- seq_shift. cbn [rev]. rewrite map_app, <- map_rev, !map_map. reflexivity.
Qed.
Lemma omit_rev {X} (l : list X) i n : length l = S n -> i <= n -> omit (n - i) (rev l) = rev (omit i l).
Proof.
  intros H Hi. unfold omit. rewrite rev_app_distr. rewrite firstn_rev, skipn_rev, H. replace (S n - (n - i)) with (S i) by lia. replace (S n - S (n - i)) with i by lia. reflexivity.
Qed.
Lemma omit_length {X} (l : list X) i : i < length l -> S (length (omit i l)) = length l.
Proof. intros H. unfold omit. rewrite app_length, firstn_length, skipn_length. lia. Qed.
Lemma omit_perm {X} (l : list X) i d : i < length l -> Permutation l (nth i l d :: omit i l).
Proof.
  revert i. induction l as [|x l IH]; intros i H; [simpl in H; lia|]. destruct i as [|i]; [reflexivity|]. simpl in *. unfold omit. simpl. specialize (IH i ltac:(lia)). unfold omit in IH.
  rewrite IH at 1. apply perm_swap.
Qed.
Lemma omit_nth_in {X} (l : list X) i j d : i <> j -> j < length l -> In (nth j l d) (omit i l).
Proof.
  intros Hij Hj. unfold omit. apply in_or_app. destruct (Nat.lt_ge_cases j i) as [H|H].
  - left. replace (nth j l d) with (nth j (firstn i l) d). 2:{ rewrite <- (firstn_skipn i l) at 2. rewrite app_nth1; [reflexivity|]. rewrite firstn_length. lia. }
    apply nth_In. rewrite firstn_length. lia.
  - right. replace (nth j l d) with (nth (j - S i) (skipn (S i) l) d); [apply nth_In; rewrite skipn_length; lia|].
    rewrite <- (firstn_skipn (S i) l) at 2. rewrite app_nth2; rewrite firstn_length; [f_equal; lia|lia].
Qed.

Section Ring.
Variables (A : Type) (zero one : A) (add mul sub : A -> A -> A) (opp : A -> A).
Hypothesis Rth : ring_theory zero one add mul sub opp eq.
Add Ring R_ : Rth.
Infix "+" := add. Infix "*" := mul. Notation "- x" := (opp x).
Notation pow := (pow A one mul). Notation total := (total A zero add). Notation prod := (prod A one mul).
Notation lower := (lower A zero one add mul). Notation monic := (monic A zero one add mul). Notation from_roots := (from_roots A one add mul opp).
Notation es := (elementary_symmetric A zero add mul). Notation vieta := (vieta A zero one add mul opp).
Notation sgn := (RootsSpec.sign A one opp). Notation mop := (minus_one_pow A one opp).

Lemma fold_mul l : forall x, fold_left mul l x = x * prod l.
Proof. induction l as [|y l IH]; intros x; simpl; [ring|]. rewrite IH. ring. Qed.
Lemma fold_add l : forall x, fold_left add l x = x + total l.
Proof. induction l as [|y l IH]; intros x; simpl; [ring|]. rewrite IH. ring. Qed.
Lemma product_ne l : l <> [] -> product A mul l = Some (prod l).
Proof. destruct l; [congruence|]. intros _. simpl. rewrite fold_mul. reflexivity. Qed.
Lemma total_app l m : total (l ++ m) = total l + total m.
Proof. induction l; simpl; [ring|]. rewrite IHl. ring. Qed.
Lemma total_scale c l : total (map (mul c) l) = c * total l.
Proof. induction l; simpl; [ring|]. rewrite IHl. ring. Qed.

Definition E (k : nat) (l : list A) : A := total (map prod (combinations k l)).
Lemma E_0 l : E 0 l = one. Proof. unfold E. rewrite combinations_0. simpl. ring. Qed.
Lemma E_nil k : E (S k) [] = zero. Proof. reflexivity. Qed.
Lemma E_cons k x l : E (S k) (x :: l) = x * E k l + E (S k) l.
Proof. unfold E. cbn [combinations]. rewrite map_app, total_app, map_map. f_equal. rewrite <- total_scale, map_map. reflexivity. Qed.
Lemma E_big k l : (length l < k)%nat -> E k l = zero.
Proof. intros H. unfold E. rewrite combinations_none by exact H. reflexivity. Qed.
Lemma E_perm l m : Permutation l m -> forall k, E k l = E k m.
Proof.
  induction 1 as [|x l m P IH|x y l|l m n P1 IH1 P2 IH2]; intros k.
  - reflexivity.
  - destruct k; [rewrite !E_0; reflexivity|]. rewrite !E_cons, !IH. reflexivity.
  - destruct k as [|[|k]]; rewrite ?E_0; [reflexivity| |]; rewrite !E_cons, ?E_0; ring.
  - rewrite IH1. apply IH2.
Qed.
Lemma es_S k l : es (S k) l = Some (E (S k) l).
Proof.
  unfold elementary_symmetric. rewrite (option_list_map _ prod).
  - rewrite fold_add. f_equal. unfold E. ring.
  - intros c Hc. apply product_ne. apply combinations_length in Hc. destruct c; discriminate.
Qed.
Lemma es_0 l : es 0 l = None. Proof. unfold elementary_symmetric. rewrite combinations_0. reflexivity. Qed.
Lemma mop_sgn k : mop k = sgn k.
Proof.
  unfold minus_one_pow. assert (G : (if Nat.even k then one else - one) = sgn k /\ (if Nat.even (S k) then one else - one) = sgn (S k)); [|apply G].
  induction k as [|k [I1 I2]]; [split; reflexivity|]. split; [exact I2|]. change (Nat.even (S (S k))) with (Nat.even k). cbn [RootsSpec.sign]. rewrite <- I1. destruct (Nat.even k); ring.
Qed.
Definition coef (l : list A) (k : nat) : A := sgn k * E k l.
Lemma vieta_ok l : vieta l = Some (map (coef l) (seq 1 (length l))).
Proof. unfold Roots.vieta. apply option_list_map. intros k Hk. apply in_seq in Hk. destruct k; [lia|]. rewrite es_S, mop_sgn. reflexivity. Qed.

Lemma lower_snoc cs c x : lower (cs ++ [c]) x = x * lower cs x + c.
Proof.
  induction cs as [|d cs IH]; [simpl; ring|]. cbn [app RootsSpec.lower]. rewrite IH, app_length, Nat.add_1_r. simpl. ring.
Qed.
Lemma lower_lin (f g : nat -> A) r x m : forall j, lower (map (fun k => f k + - (r * g k)) (seq j m)) x = lower (map f (seq j m)) x + - (r * lower (map g (seq j m)) x).
Proof. induction m as [|m IH]; intros j; simpl; [ring|]. rewrite IH, !map_length, !seq_length. ring. Qed.
Lemma monic_coef l x : monic (map (coef l) (seq 1 (length l))) x = lower (map (coef l) (seq 0 (S (length l)))) x.
Proof. unfold RootsSpec.monic. cbn [seq map RootsSpec.lower]. rewrite !map_length, seq_length. unfold coef at 2. rewrite E_0. simpl. ring. Qed.
Lemma monic_vieta l x : lower (map (coef l) (seq 0 (S (length l)))) x = from_roots l x.
Proof.
  induction l as [|r l IH]; [cbn [length seq map RootsSpec.lower]; unfold coef, RootsSpec.from_roots; rewrite E_0; simpl; ring|]. unfold RootsSpec.from_roots in *. cbn [map RootsSpec.prod]. rewrite <- IH.
  set (n := length l). assert (Hn : length (r :: l) = S n) by reflexivity. rewrite Hn.
  assert (Step : lower (map (coef (r :: l)) (seq 1 (S n))) x = lower (map (coef l) (seq 1 (S n))) x + - (r * lower (map (coef l) (seq 0 (S n))) x)).
  { rewrite <- (seq_shift (S n) 0), !map_map. rewrite <- lower_lin. f_equal. apply map_ext. intros k. unfold coef. rewrite E_cons. cbn [RootsSpec.sign]. ring. }
  change (seq 0 (S (S n))) with (0 :: seq 1 (S n)). cbn [map RootsSpec.lower]. rewrite Step.
  assert (C0 : coef (r :: l) 0 = coef l 0) by (unfold coef; rewrite !E_0; reflexivity). rewrite C0.
  rewrite !map_length.
  assert (Full : coef l 0 * pow x (length (seq 1 (S n))) + lower (map (coef l) (seq 1 (S n))) x = lower (map (coef l) (seq 0 (S (S n)))) x).
  { change (seq 0 (S (S n))) with (0 :: seq 1 (S n)). cbn [map RootsSpec.lower]. rewrite map_length. reflexivity. }
  assert (Sn : lower (map (coef l) (seq 0 (S (S n)))) x = x * lower (map (coef l) (seq 0 (S n))) x).
  { rewrite (seq_S (S n)), map_app. cbn [map]. rewrite lower_snoc. unfold coef at 2. rewrite E_big by (unfold n; lia). ring. }
  rewrite <- Sn, <- Full || idtac. match goal with |- ?a + (?b + ?c) = _ => transitivity ((a + b) + c); [ring|] end. rewrite Full, Sn. ring.
Qed.
Lemma vieta_monic l cs : vieta l = Some cs -> length cs = length l /\ forall x, monic cs x = from_roots l x.
Proof.
  rewrite vieta_ok. intros H. injection H as <-. split; [rewrite map_length, seq_length; reflexivity|]. intros x. rewrite monic_coef. apply monic_vieta.
Qed.
Lemma prod_perm l m : Permutation l m -> prod l = prod m.
Proof. induction 1; simpl; try ring; try congruence. Qed.
Lemma from_roots_perm l m x : Permutation l m -> from_roots l x = from_roots m x.
Proof. intros H. apply prod_perm. apply Permutation_map, H. Qed.
Lemma prod_zero l : In zero l -> prod l = zero.
Proof. induction l as [|y l IH]; intros H; [contradiction|]. simpl. destruct H as [->|H]; [ring|]. rewrite IH by exact H. ring. Qed.
Lemma from_roots_zero l r : In r l -> from_roots l r = zero.
Proof. intros H. apply prod_zero. apply in_map_iff. exists r. split; [ring|exact H]. Qed.

(** ** the matrix of the backward pass *)
Definition row (rts : list A) (i : nat) : list A := one :: map (coef (omit i rts)) (seq 1 (length rts - 1)).
Lemma coef_perm l m k : Permutation l m -> coef l k = coef m k.
Proof. intros H. unfold coef. rewrite (E_perm l m H). reflexivity. Qed.
Lemma backward_matrix_rows rts : rts <> [] -> backward_matrix A zero one add mul opp rts = Some (map (row rts) (seq 0 (length rts))).
Proof.
  intros Hne. destruct rts as [|r0 rts0]; [congruence|]. set (rts := r0 :: rts0). set (n := length rts0). assert (Hn : length rts = S n) by reflexivity.
  unfold backward_matrix. rewrite Hn. cbn [Nat.sub]. rewrite Nat.sub_0_r. rewrite (combinations_omit n) by (rewrite rev_length; exact Hn). rewrite map_map.
  rewrite (option_list_map _ (fun i => row rts (n - i))).
  - f_equal. assert (R : rev (seq 0 (S n)) = map (fun i => (n - i)%nat) (seq 0 (S n))).
    { apply (nth_ext _ _ 0 (n - 0)%nat); [rewrite rev_length, map_length, seq_length; reflexivity|]. intros i Hi. rewrite rev_length, seq_length in Hi.
      rewrite rev_nth by (rewrite seq_length; exact Hi). rewrite seq_length, seq_nth by lia. rewrite (map_nth (fun i => (n - i)%nat) (seq 0 (S n)) 0), seq_nth by lia. lia. }
    rewrite R, map_map. apply map_ext_in. intros i Hi. apply in_seq in Hi. f_equal. lia.
  - intros i Hi. rewrite <- in_rev in Hi. apply in_seq in Hi. rewrite vieta_ok.
    replace i with (n - (n - i))%nat at 1 2 by lia. rewrite (omit_rev rts (n - i) n) by (auto; lia). rewrite rev_length.
    unfold row. rewrite Hn. f_equal. f_equal. assert (Hl : length (omit (n - i) rts) = n) by (apply eq_add_S; rewrite omit_length; lia). rewrite Hl. cbn [Nat.sub]. rewrite Nat.sub_0_r.
    apply map_ext. intros k. apply coef_perm. symmetry. apply Permutation_rev.
Qed.
Lemma row_lower rts i x : (i < length rts)%nat -> lower (row rts i) x = from_roots (omit i rts) x.
Proof.
  intros Hi. unfold row. cbn [RootsSpec.lower]. rewrite map_length, seq_length.
  assert (Hl : length (omit i rts) = (length rts - 1)%nat) by (pose proof (omit_length rts i Hi); lia). rewrite <- Hl. rewrite <- monic_vieta, <- monic_coef.
  unfold RootsSpec.monic. rewrite map_length, seq_length. ring.
Qed.
Lemma row_length rts i : rts <> [] -> length (row rts i) = length rts.
Proof. intros H. unfold row. simpl. rewrite map_length, seq_length. destruct rts; [congruence|simpl; lia]. Qed.

(** ** determinants and the companion matrix *)
Notation sum_to := (sum_to A zero add). Notation det := (det A zero one add mul opp). Notation entry := (entry A zero).
Lemma sum_ext n f g : (forall i, (i < n)%nat -> f i = g i) -> sum_to n f = sum_to n g.
Proof. induction n as [|n IH]; intros H; [reflexivity|]. simpl. rewrite IH by (intros; apply H; lia). rewrite H by lia. reflexivity. Qed.
Lemma sum_zero n f : (forall i, (i < n)%nat -> f i = zero) -> sum_to n f = zero.
Proof. induction n as [|n IH]; intros H; [reflexivity|]. simpl. rewrite IH by (intros; apply H; lia). rewrite H by lia. ring. Qed.
Lemma sum_shift n f : sum_to (S n) f = f 0 + sum_to n (fun i => f (S i)).
Proof. induction n as [|n IH]; [simpl; ring|]. change (sum_to (S (S n)) f) with (sum_to (S n) f + f (S n)). rewrite IH. simpl. ring. Qed.
Lemma sum_single n k f : (k < n)%nat -> (forall i, (i < n)%nat -> i <> k -> f i = zero) -> sum_to n f = f k.
Proof.
  induction n as [|n IH]; intros Hk H; [lia|]. simpl. destruct (Nat.eq_dec k n) as [->|Hn].
  - rewrite sum_zero by (intros; apply H; lia). ring.
  - rewrite IH by (auto; lia). rewrite (H n) by lia. ring.
Qed.
Lemma sum_add n f g : sum_to n (fun i => f i + g i) = sum_to n f + sum_to n g.
Proof. induction n; simpl; [ring|]. rewrite IHn. ring. Qed.
Lemma sum_scale c n f : sum_to n (fun i => c * f i) = c * sum_to n f.
Proof. induction n; simpl; [ring|]. rewrite IHn. ring. Qed.
Lemma sum_swap n m f : sum_to n (fun i => sum_to m (fun j => f i j)) = sum_to m (fun j => sum_to n (fun i => f i j)).
Proof. induction n as [|n IH]; simpl; [symmetry; apply sum_zero; reflexivity|]. rewrite IH, <- sum_add. reflexivity. Qed.
Lemma det_ext n : forall a b, (forall i j, (i < n)%nat -> (j < n)%nat -> a i j = b i j) -> det n a = det n b.
Proof.
  induction n as [|n IH]; intros a b H; [reflexivity|]. cbn [RootsSpec.det]. apply sum_ext. intros j Hj. rewrite (H 0 j) by lia. f_equal. apply IH.
  intros r c Hr Hc. unfold minor. apply H; [lia|]. destruct (Nat.ltb c j); lia.
Qed.
Lemma det_zero_col n : forall a c, (c < n)%nat -> (forall r, (r < n)%nat -> a r c = zero) -> det n a = zero.
Proof.
  induction n as [|n IH]; intros a c Hc H; [lia|]. cbn [RootsSpec.det]. apply sum_zero. intros j Hj. destruct (Nat.eq_dec j c) as [->|Hjc]; [rewrite H by lia; ring|].
  rewrite (IH (minor A j a) (if Nat.ltb c j then c else (c - 1)%nat)); [ring| |].
  - destruct (Nat.ltb_spec c j); lia.
  - intros r Hr. unfold minor. destruct (Nat.ltb_spec c j) as [L|L].
    + rewrite (proj2 (Nat.ltb_lt c j) L). apply H. lia.
    + destruct (Nat.ltb_spec (c - 1) j); [lia|]. replace (S (c - 1)) with c by lia. apply H. lia.
Qed.
Lemma sgn_sq j : sgn j * sgn j = one. Proof. induction j; simpl; [ring|]. transitivity (sgn j * sgn j); [ring|exact IHj]. Qed.
Definition bidiag (x : A) (r c : nat) : A := (if Nat.eqb (S r) c then x else zero) + - (if Nat.eqb r c then one else zero).
Lemma det_bidiag x m : forall j, (j <= m)%nat -> det m (fun r c => bidiag x r (if Nat.ltb c j then c else S c)) = sgn j * pow x (m - j).
Proof.
  induction m as [|m IH]; intros j Hj; [assert (j = 0) by lia; subst; simpl; ring|]. cbn [RootsSpec.det]. rewrite sum_shift.
  set (B := fun r c => bidiag x r (if Nat.ltb c j then c else S c)). destruct j as [|j].
  - rewrite sum_zero.
    + rewrite (det_ext m _ (fun r c => bidiag x r (if Nat.ltb c 0 then c else S c))) by (intros; reflexivity). rewrite IH by lia. rewrite !Nat.sub_0_r.
      unfold B, bidiag. simpl. ring.
    + intros i Hi. unfold B, bidiag. simpl. ring.
  - assert (M0 : det m (minor A 0 B) = sgn j * pow x (m - j)).
    { rewrite <- IH by lia. apply det_ext. intros r c _ _. unfold minor, B. change (c <? 0)%nat with false. cbv iota. change (S c <? S j)%nat with (c <? j)%nat. unfold bidiag.
      destruct (Nat.ltb c j); reflexivity. }
    rewrite M0. rewrite sum_zero.
    + unfold B, bidiag. simpl. ring.
    + intros i Hi. destruct i as [|i].
      * destruct j as [|j]; [unfold B, bidiag; simpl; ring|]. rewrite (det_zero_col m (minor A 1 B) 0); [ring|lia|]. intros r Hr. unfold minor, B, bidiag. simpl. ring.
      * unfold B, bidiag. destruct (Nat.ltb_spec (S (S i)) (S j)); simpl; ring.
Qed.
Lemma lower_sum cs x : lower cs x = sum_to (length cs) (fun j => nth j cs zero * pow x (length cs - 1 - j)).
Proof.
  induction cs as [|c cs IH]; [reflexivity|]. cbn [length]. rewrite sum_shift. cbn [RootsSpec.lower nth]. rewrite IH. f_equal; [f_equal; f_equal; lia|].
  apply sum_ext. intros i Hi. f_equal. f_equal. lia.
Qed.
Lemma nth_map_seq (f : nat -> A) n j d : (j < n)%nat -> nth j (map f (seq 0 n)) d = f j.
Proof. intros H. rewrite (nth_indep _ d (f 0)) by (rewrite map_length, seq_length; exact H). rewrite map_nth, seq_nth by exact H. reflexivity. Qed.
Lemma entry_eye n m i j : (i < n)%nat -> (j < m)%nat -> entry (eye A zero one n m) i j = if Nat.eqb i j then one else zero.
Proof.
  intros Hi Hj. unfold RootsSpec.entry, eye.
  set (f := fun i0 => map (fun j0 => if Nat.eqb i0 j0 then one else zero) (seq 0 m)).
  rewrite (nth_indep _ [] (f 0)) by (rewrite map_length, seq_length; exact Hi). rewrite map_nth, seq_nth by exact Hi. unfold f. rewrite nth_map_seq by exact Hj. reflexivity.
Qed.
Lemma companion_some cs : cs <> [] -> companion_matrix A zero one opp cs = Some (map opp cs :: eye A zero one (length cs - 1) (length cs)).
Proof. destruct cs; [congruence|reflexivity]. Qed.
Lemma entry_first cs m j : (j < length cs)%nat -> entry (map opp cs :: m) 0 j = - nth j cs zero.
Proof. intros H. unfold RootsSpec.entry. simpl. rewrite (nth_indep _ zero (- zero)) by (rewrite map_length; exact H). apply map_nth. Qed.
Lemma char_companion cs m x : companion_matrix A zero one opp cs = Some m -> det (length cs) (char_matrix A zero add opp m x) = monic cs x.
Proof.
  intros H. assert (Hne : cs <> []) by (intros ->; discriminate). rewrite companion_some in H by exact Hne. injection H as <-.
  destruct (length cs) as [|n] eqn:El; [destruct cs; [congruence|discriminate]|]. cbn [RootsSpec.det].
  rewrite (sum_ext (S n) _ (fun j => (if Nat.eqb 0 j then x * pow x n else zero) + nth j cs zero * pow x (length cs - 1 - j))).
  - rewrite sum_add. rewrite (sum_single (S n) 0 (fun j => if Nat.eqb 0 j then x * pow x n else zero)); [|lia|intros i Hi Hn; destruct i; [congruence|reflexivity]].
    unfold RootsSpec.monic. rewrite lower_sum, El. simpl. reflexivity.
  - intros j Hj. rewrite (det_ext n _ (fun r c => bidiag x r (if Nat.ltb c j then c else S c))).
    + rewrite det_bidiag by lia. unfold char_matrix. rewrite entry_first by lia. rewrite El. replace (S n - 1 - j)%nat with (n - j)%nat by lia.
      destruct (Nat.eqb_spec 0 j) as [<-|Hj0].
      * simpl. rewrite Nat.sub_0_r. ring.
      * match goal with |- ?s * ?a * (?s' * ?p) = _ => transitivity ((s * s') * (a * p)); [ring|] end. rewrite sgn_sq. ring.
    + intros r c Hr Hc. unfold minor, char_matrix, bidiag. f_equal. f_equal. unfold RootsSpec.entry. cbn [nth].
      change (nth (if Nat.ltb c j then c else S c) (nth r (eye A zero one (S n - 1) (S n)) []) zero) with (entry (eye A zero one (S n - 1) (S n)) r (if Nat.ltb c j then c else S c)).
      rewrite entry_eye; [reflexivity|lia|]. destruct (Nat.ltb c j); lia.
Qed.
(** *** products with vectors *)
Definition mulv (m : list (list A)) (n : nat) (w : nat -> A) (i : nat) : A := sum_to n (fun j => entry m i j * w j).
Lemma companion_mulv cs m w i : companion_matrix A zero one opp cs = Some m -> (i < length cs)%nat ->
  mulv m (length cs) w i = match i with O => - sum_to (length cs) (fun j => nth j cs zero * w j) | S i' => w i' end.
Proof.
  intros H Hi. assert (Hne : cs <> []) by (intros ->; discriminate). rewrite companion_some in H by exact Hne. injection H as <-. unfold mulv. destruct i as [|i].
  - rewrite (sum_ext _ _ (fun j => (- one) * (nth j cs zero * w j))) by (intros j Hj; rewrite entry_first by exact Hj; ring). rewrite sum_scale. ring.
  - rewrite (sum_single _ i).
    + unfold RootsSpec.entry. cbn [nth]. change (nth i (nth i ?e []) zero) with (entry e i i). rewrite entry_eye by lia. rewrite Nat.eqb_refl. ring.
    + lia.
    + intros j Hj Hij. unfold RootsSpec.entry. cbn [nth]. change (nth j (nth i ?e []) zero) with (entry e i j). rewrite entry_eye by lia.
      rewrite (proj2 (Nat.eqb_neq i j)) by congruence. ring.
Qed.
(** *** synthetic division *)
Fixpoint horner (acc x0 : A) (cs : list A) : list A := match cs with [] => [] | c :: cs' => let a := acc * x0 + c in a :: horner a x0 cs' end.
Lemma horner_length x0 cs : forall acc, length (horner acc x0 cs) = length cs.
Proof. induction cs; intros; simpl; [reflexivity|]. rewrite IHcs. reflexivity. Qed.
Lemma removelast_length {X} (l : list X) : length (removelast l) = (length l - 1)%nat.
Proof. induction l as [|x [|y l] IH]; [reflexivity|reflexivity|]. change (removelast (x :: y :: l)) with (x :: removelast (y :: l)). cbn [length] in *. rewrite IH. lia. Qed.
Lemma horner_div x0 x cs : forall acc, acc * pow x (length cs) + lower cs x =
  (x + - x0) * lower (removelast (acc :: horner acc x0 cs)) x + last (acc :: horner acc x0 cs) zero.
Proof.
  induction cs as [|c cs IH]; intros acc; [simpl; ring|]. cbn [horner]. set (a := acc * x0 + c). specialize (IH a).
  change (removelast (acc :: a :: horner a x0 cs)) with (acc :: removelast (a :: horner a x0 cs)). change (last (acc :: a :: horner a x0 cs) zero) with (last (a :: horner a x0 cs) zero).
  cbn [RootsSpec.lower length RootsSpec.pow]. rewrite removelast_length. cbn [length]. rewrite horner_length, Nat.sub_succ, Nat.sub_0_r.
  match goal with |- _ = (_ + _) * (?u + ?v) + ?w => transitivity ((x + - x0) * u + ((x + - x0) * v + w)); [|ring] end. rewrite <- IH. unfold a. ring.
Qed.
Lemma horner_zero x0 cs : forall acc, acc = zero -> Forall (eq zero) (removelast (acc :: horner acc x0 cs)) -> last (acc :: horner acc x0 cs) zero = zero -> Forall (eq zero) cs.
Proof.
  induction cs as [|c cs IH]; intros acc Ha H L; [constructor|]. cbn [horner] in *. set (a := acc * x0 + c) in *.
  change (removelast (acc :: a :: horner a x0 cs)) with (acc :: removelast (a :: horner a x0 cs)) in H. change (last (acc :: a :: horner a x0 cs) zero) with (last (a :: horner a x0 cs) zero) in L.
  inversion H as [|? ? _ H2]. clear H H0. assert (Za : a = zero).
  { destruct (horner a x0 cs) as [|b h] eqn:Eh; [exact L|]. change (removelast (a :: b :: h)) with (a :: removelast (b :: h)) in H2. inversion H2 as [|? ? Hz _]. symmetry. exact Hz. }
  constructor; [|apply (IH a); auto]. unfold a in Za. transitivity (acc * x0 + c); [symmetry; exact Za|rewrite Ha; ring].
Qed.
Hypothesis integral : forall a b, a * b = zero -> a = zero \/ b = zero.
Lemma vanish xs : forall cs, NoDup xs -> (length cs <= length xs)%nat -> (forall x, In x xs -> lower cs x = zero) -> Forall (eq zero) cs.
Proof.
  induction xs as [|x0 xs IH]; intros cs N L V; [destruct cs; [constructor|simpl in L; lia]|]. inversion N as [|? ? Hx N']; subst.
  destruct cs as [|c cs]; [constructor|].
  assert (D : forall x, lower (c :: cs) x = (x + - x0) * lower (removelast (zero :: horner zero x0 (c :: cs))) x + last (zero :: horner zero x0 (c :: cs)) zero).
  { intros x. rewrite <- horner_div. ring. }
  set (h := horner zero x0 (c :: cs)) in *.
  assert (Z : last (zero :: h) zero = zero). { specialize (D x0). rewrite V in D by (left; reflexivity). symmetry. rewrite D at 1. set (q := lower _ x0). set (lst := last _ _). ring. }
  apply (horner_zero x0 (c :: cs) zero); [reflexivity| |exact Z]. fold h.
  assert (R : removelast (zero :: h) = zero :: removelast h) by (unfold h; simpl; reflexivity). rewrite R. constructor; [reflexivity|].
  apply IH; [exact N'| |].
  - rewrite removelast_length. unfold h. rewrite horner_length. simpl in *. lia.
  - intros x Hxs. specialize (D x). rewrite V in D by (right; exact Hxs). rewrite Z, R in D. cbn [RootsSpec.lower] in D.
    assert (P : (x + - x0) * lower (removelast h) x = zero) by (symmetry; etransitivity; [exact D|ring]). apply integral in P. destruct P as [P|P]; [|exact P].
    exfalso. apply Hx. replace x0 with x; [exact Hxs|]. transitivity (x + - x0 + x0); [ring|]. rewrite P. ring.
Qed.
End Ring.
