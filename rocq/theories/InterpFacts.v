From Coq Require Import List Bool Arith ZArith Lia Reals Lra Sorted Permutation.
From Verif Require Import Interp.
Import ListNotations.
Open Scope R_scope.

Lemma leb_spec a b : leb a b = true <-> a <= b. Proof. unfold leb. destruct (Rle_dec a b); split; intros; auto; discriminate. Qed.
Lemma ltb_spec a b : ltb a b = true <-> a < b. Proof. unfold ltb. destruct (Rlt_dec a b); split; intros; auto; discriminate. Qed.
Lemma leb_false a b : leb a b = false <-> b < a. Proof. unfold leb. destruct (Rle_dec a b); split; intros; auto; try discriminate; lra. Qed.
Lemma ltb_false a b : ltb a b = false <-> b <= a. Proof. unfold ltb. destruct (Rlt_dec a b); split; intros; auto; try discriminate; lra. Qed.

Notation at_ l i := (nth i l 0).
(** non-decreasing *)
Definition sorted (l : list R) : Prop := StronglySorted Rle l.
Definition increasing (l : list R) : Prop := StronglySorted Rlt l.
Lemma increasing_sorted l : increasing l -> sorted l.
Proof. induction 1; constructor; auto. eapply Forall_impl; [|eassumption]. simpl. intros. lra. Qed.
Lemma sorted_le l i j : sorted l -> (i <= j < length l)%nat -> at_ l i <= at_ l j.
Proof.
  intros H. revert i j. induction H as [|a l H IH F]; intros i j L; [simpl in L; lia|]. rewrite Forall_forall in F. destruct i as [|i], j as [|j]; simpl in *; try lia; try lra.
  - apply F, nth_In. lia.
  - apply IH. lia.
Qed.
Lemma increasing_lt l i j : increasing l -> (i < j < length l)%nat -> at_ l i < at_ l j.
Proof.
  intros H. revert i j. induction H as [|a l H IH F]; intros i j L; [simpl in L; lia|]. rewrite Forall_forall in F. destruct i as [|i], j as [|j]; simpl in *; try lia.
  - apply F, nth_In. lia.
  - apply IH. lia.
Qed.
Lemma ss_le_length r g x : (searchsorted r g x <= length g)%nat.
Proof. induction g as [|a g IH]; simpl; [lia|]. destruct (if r then leb a x else ltb a x); lia. Qed.
Lemma ss_below r g x i : (i < searchsorted r g x)%nat -> if r then at_ g i <= x else at_ g i < x.
Proof.
  revert i. induction g as [|a g IH]; intros i H; simpl in H; [lia|]. destruct r.
  - destruct (leb a x) eqn:E; [|lia]. apply leb_spec in E. destruct i; simpl; [exact E|]. apply (IH i). lia.
  - destruct (ltb a x) eqn:E; [|lia]. apply ltb_spec in E. destruct i; simpl; [exact E|]. apply (IH i). lia.
Qed.
Lemma ss_above r g x i : sorted g -> (searchsorted r g x <= i < length g)%nat -> if r then x < at_ g i else x <= at_ g i.
Proof.
  intros S. revert i. induction S as [|a g S IH F]; intros i H; simpl in H; [lia|]. rewrite Forall_forall in F. destruct r.
  - destruct (leb a x) eqn:E; [destruct i; [lia|]; simpl; apply IH; lia|]. apply leb_false in E. destruct i; simpl; [exact E|]. apply Rlt_le_trans with a; [exact E|]. apply F, nth_In. simpl in *. lia.
  - destruct (ltb a x) eqn:E; [destruct i; [lia|]; simpl; apply IH; lia|]. apply ltb_false in E. destruct i; simpl; [exact E|]. apply Rle_trans with a; [exact E|]. apply F, nth_In. simpl in *. lia.
Qed.
Lemma project_cases x g : (2 <= length g)%nat -> exists i, project_one x g = Z.of_nat i /\ (i <= length g - 2)%nat /\
  i = Nat.min (searchsorted true g x - 1) (length g - 2).
Proof.
  intros H. unfold project_one, clamp. pose proof (ss_le_length true g x). exists (Nat.min (searchsorted true g x - 1) (length g - 2)). split; [lia|]. split; lia.
Qed.
Lemma gather_nat {A} (l : list A) i : gather l (Z.of_nat i) = nth_error l i.
Proof. unfold gather. destruct (Z.ltb_spec (Z.of_nat i) 0); [lia|]. rewrite Nat2Z.id. reflexivity. Qed.
Lemma diff_length l : length (diff l) = (length l - 1)%nat.
Proof. induction l as [|a [|b l] IH]; [reflexivity|reflexivity|]. cbn [diff length] in *. rewrite IH. lia. Qed.
Lemma diff_nth l i : (i + 1 < length l)%nat -> at_ (diff l) i = at_ l (i + 1) - at_ l i.
Proof. revert i. induction l as [|a [|b l] IH]; intros i H; simpl in H; try lia. cbn [diff]. destruct i; [simpl; ring|]. simpl nth at 1. rewrite IH by (simpl; lia). simpl. reflexivity. Qed.
Lemma nth_error_at l i : (i < length l)%nat -> nth_error l i = Some (at_ l i).
Proof. intros H. apply nth_error_nth'. exact H. Qed.
Lemma dydx_nth x y i : length x = length y -> (i + 1 < length x)%nat -> nth_error (dydx x y) i = Some ((at_ y (i + 1) - at_ y i) / (at_ x (i + 1) - at_ x i)).
Proof.
  intros L H. unfold dydx. assert (E : nth_error (combine (diff y) (diff x)) i = Some (at_ (diff y) i, at_ (diff x) i)).
  { rewrite (nth_error_nth' _ (0, 0)); [|rewrite combine_length, !diff_length; lia]. rewrite combine_nth by (rewrite !diff_length; lia). reflexivity. }
  erewrite map_nth_error by exact E. simpl. rewrite !diff_nth by lia. reflexivity.
Qed.
Lemma linear1d_eq x y q : length x = length y -> (2 <= length x)%nat ->
  let i := Nat.min (searchsorted true x q - 1) (length x - 2) in
  linear1d x y q = Some (at_ y i + (q - at_ x i) * ((at_ y (i + 1) - at_ y i) / (at_ x (i + 1) - at_ x i))) /\
  derivative x y q = Some ((at_ y (i + 1) - at_ y i) / (at_ x (i + 1) - at_ x i)).
Proof.
  intros L H i. destruct (project_cases q x H) as (j & E & B & Ej). assert (j = i) by exact Ej. subst j. unfold linear1d, derivative. rewrite E, !gather_nat.
  rewrite dydx_nth by lia. rewrite !nth_error_at by lia. split; reflexivity.
Qed.
Lemma Some_inj {A} (a b : A) : Some a = Some b -> a = b. Proof. congruence. Qed.
(** the piecewise-linear function, cell by cell *)
Fixpoint pl (xs ys : list R) (q : R) : R :=
  match xs, ys with
  | x0 :: xs', y0 :: ys' =>
      match xs', ys' with
      | x1 :: [], y1 :: _ => y0 + (q - x0) * ((y1 - y0) / (x1 - x0))
      | x1 :: _ :: _, y1 :: _ => if Rlt_dec q x1 then y0 + (q - x0) * ((y1 - y0) / (x1 - x0)) else pl xs' ys' q
      | _, _ => 0
      end
  | _, _ => 0
  end.
Lemma linear1d_pl xs : forall ys q, increasing xs -> length xs = length ys -> (2 <= length xs)%nat -> linear1d xs ys q = Some (pl xs ys q).
Proof.
  induction xs as [|x0 xs IH]; intros ys q Hinc L H; [simpl in H; lia|]. destruct xs as [|x1 xs]; [simpl in H; lia|]. destruct ys as [|y0 [|y1 ys]]; try (simpl in L; lia).
  destruct (linear1d_eq (x0 :: x1 :: xs) (y0 :: y1 :: ys) q L H) as [E _]. rewrite E. f_equal. clear E. inversion Hinc as [|? ? S' F]; subst. inversion F as [|? ? F0 _]; subst.
  destruct xs as [|x2 xs].
  - replace (Nat.min _ _) with 0%nat by (simpl; lia). simpl. reflexivity.
  - assert (P : pl (x0 :: x1 :: x2 :: xs) (y0 :: y1 :: ys) q = if Rlt_dec q x1 then y0 + (q - x0) * ((y1 - y0) / (x1 - x0)) else pl (x1 :: x2 :: xs) (y1 :: ys) q) by reflexivity.
    rewrite P. clear P. destruct (Rlt_dec q x1) as [Hq|Hq].
    + replace (Nat.min _ _) with 0%nat; [reflexivity|]. cbn [searchsorted]. rewrite (proj2 (leb_false x1 q)) by lra. destruct (leb x0 q); simpl; lia.
    + apply Rnot_lt_le in Hq. specialize (IH (y1 :: ys) q S' ltac:(simpl in *; lia) ltac:(simpl; lia)).
      destruct (linear1d_eq (x1 :: x2 :: xs) (y1 :: ys) q ltac:(simpl in *; lia) ltac:(simpl; lia)) as [E _]. rewrite E in IH. apply Some_inj in IH. rewrite <- IH. clear E IH.
      assert (Ss : exists m, searchsorted true (x1 :: x2 :: xs) q = S m) by (cbn [searchsorted]; rewrite (proj2 (leb_spec x1 q)) by lra; eexists; reflexivity). destruct Ss as (m & Em).
      assert (Es : searchsorted true (x0 :: x1 :: x2 :: xs) q = S (S m)) by (cbn [searchsorted] in *; rewrite (proj2 (leb_spec x0 q)) by lra; rewrite Em; reflexivity).
      rewrite Es, Em. cbn [length]. replace (Nat.min (S (S m) - 1) (S (S (S (length xs))) - 2)) with (S (Nat.min (S m - 1) (S (S (length xs)) - 2))) by lia.
      rewrite !Nat.add_succ_l. reflexivity.
Qed.
Lemma pl_knot xs : forall ys i, increasing xs -> length xs = length ys -> (2 <= length xs)%nat -> (i < length xs)%nat -> pl xs ys (at_ xs i) = at_ ys i.
Proof.
  induction xs as [|x0 xs IH]; intros ys i S L H Hi; [simpl in H; lia|]. destruct xs as [|x1 xs]; [simpl in H; lia|]. destruct ys as [|y0 [|y1 ys]]; try (simpl in L; lia).
  inversion S as [|? ? S' F]; subst. inversion F as [|? ? F0 _]; subst. destruct xs as [|x2 xs].
  - destruct i as [|[|i]]; simpl in *; [ring|field; lra|lia].
  - destruct i as [|i].
    + cbn [pl nth]. destruct (Rlt_dec x0 x1); [ring|lra].
    + change (at_ (x0 :: x1 :: x2 :: xs) (Datatypes.S i)) with (at_ (x1 :: x2 :: xs) i). change (at_ (y0 :: y1 :: ys) (Datatypes.S i)) with (at_ (y1 :: ys) i). cbn [pl].
      destruct (Rlt_dec (at_ (x1 :: x2 :: xs) i) x1) as [C|C].
      * exfalso. assert (x1 <= at_ (x1 :: x2 :: xs) i); [|lra]. apply (sorted_le (x1 :: x2 :: xs) 0 i); [apply increasing_sorted, S'|simpl in *; lia].
      * exact (IH (y1 :: ys) i S' ltac:(simpl in *; lia) ltac:(simpl; lia) ltac:(simpl in *; lia)).
Qed.
(** Lipschitz, with the largest slope *)
Fixpoint slopes (xs ys : list R) : R :=
  match xs, ys with
  | x0 :: (x1 :: _) as xs', y0 :: (y1 :: _) as ys' => Rmax (Rabs ((y1 - y0) / (x1 - x0))) (slopes xs' ys')
  | _, _ => 0
  end.
Lemma pl_lipschitz xs : forall ys a b, increasing xs -> length xs = length ys -> (2 <= length xs)%nat -> a <= b -> Rabs (pl xs ys b - pl xs ys a) <= slopes xs ys * (b - a).
Proof.
  induction xs as [|x0 xs IH]; intros ys a b S L H Hab; [simpl in H; lia|]. destruct xs as [|x1 xs]; [simpl in H; lia|]. destruct ys as [|y0 [|y1 ys]]; try (simpl in L; lia).
  inversion S as [|? ? S' F]; subst. inversion F as [|? ? F0 _]; subst. set (s := (y1 - y0) / (x1 - x0)).
  assert (Aff : forall u v, u <= v -> Rabs ((y0 + (v - x0) * s) - (y0 + (u - x0) * s)) <= Rabs s * (v - u)).
  { intros u v Huv. replace (y0 + (v - x0) * s - (y0 + (u - x0) * s)) with (s * (v - u)) by ring. rewrite Rabs_mult, (Rabs_pos_eq (v - u)) by lra. lra. }
  destruct xs as [|x2 xs].
  - cbn [pl slopes]. fold s. eapply Rle_trans; [apply Aff, Hab|]. apply Rmult_le_compat_r; [lra|]. destruct ys; apply Rmax_l.
  - assert (Sl : slopes (x0 :: x1 :: x2 :: xs) (y0 :: y1 :: ys) = Rmax (Rabs s) (slopes (x1 :: x2 :: xs) (y1 :: ys))) by reflexivity. rewrite Sl. clear Sl.
    set (K := slopes (x1 :: x2 :: xs) (y1 :: ys)) in *. pose proof (Rmax_l (Rabs s) K). pose proof (Rmax_r (Rabs s) K). set (M := Rmax (Rabs s) K) in *.
    assert (P : forall q, pl (x0 :: x1 :: x2 :: xs) (y0 :: y1 :: ys) q = if Rlt_dec q x1 then y0 + (q - x0) * s else pl (x1 :: x2 :: xs) (y1 :: ys) q) by reflexivity. rewrite !P. clear P.
    assert (IH' : forall u v, u <= v -> Rabs (pl (x1 :: x2 :: xs) (y1 :: ys) v - pl (x1 :: x2 :: xs) (y1 :: ys) u) <= M * (v - u)).
    { intros u v Huv. eapply Rle_trans; [apply IH; [exact S'|simpl in *; lia|simpl; lia|exact Huv]|]. apply Rmult_le_compat_r; [lra|assumption]. }
    assert (Aff' : forall u v, u <= v -> Rabs ((y0 + (v - x0) * s) - (y0 + (u - x0) * s)) <= M * (v - u)).
    { intros u v Huv. eapply Rle_trans; [apply Aff, Huv|]. apply Rmult_le_compat_r; [lra|assumption]. }
    destruct (Rlt_dec b x1) as [Hb|Hb], (Rlt_dec a x1) as [Ha|Ha]; try lra; auto.
    (* a < x1 <= b *)
    assert (K1 : pl (x1 :: x2 :: xs) (y1 :: ys) x1 = y1) by (apply (pl_knot (x1 :: x2 :: xs) (y1 :: ys) 0); [exact S'|simpl in *; lia|simpl; lia|simpl; lia]).
    assert (K0 : y0 + (x1 - x0) * s = y1) by (unfold s; field; lra).
    set (f := pl (x1 :: x2 :: xs) (y1 :: ys)) in *. replace (f b - (y0 + (a - x0) * s)) with ((f b - f x1) + ((y0 + (x1 - x0) * s) - (y0 + (a - x0) * s))) by (rewrite K1, K0; ring).
    eapply Rle_trans; [apply Rabs_triang|]. pose proof (IH' x1 b ltac:(lra)). pose proof (Aff' a x1 ltac:(lra)). nra.
Qed.
(** *** merging *)
Fixpoint mask (n : nat) (left right : list R) : list bool :=
  match n with
  | O => []
  | S n' => match left, right with
            | l :: left', r :: right' => if Rlt_dec l r then false :: mask n' left' right else true :: mask n' left right'
            | _ :: left', [] => false :: mask n' left' []
            | [], _ :: right' => true :: mask n' [] right'
            | [], [] => []
            end
  end.
Lemma existsb_S i ps : existsb (Nat.eqb (S i)) (map S ps) = existsb (Nat.eqb i) ps.
Proof. induction ps as [|p ps IH]; [reflexivity|]. cbn [map existsb]. rewrite IH. reflexivity. Qed.
Lemma set_true_false k ps : set_true (S k) (map S ps) = false :: set_true k ps.
Proof.
  unfold set_true. cbn [seq map]. f_equal; [induction ps; simpl; auto|]. rewrite <- seq_shift, map_map. apply map_ext. intros i. apply existsb_S.
Qed.
Lemma set_true_true k ps : set_true (S k) (0%nat :: map S ps) = true :: set_true k ps.
Proof.
  unfold set_true. cbn [seq map existsb]. f_equal. rewrite <- seq_shift, map_map. apply map_ext. intros i. cbn [Nat.eqb orb]. apply existsb_S.
Qed.
Definition positions_from (k : nat) (left right : list R) : list nat := map (fun p => (searchsorted false left (fst p) + snd p)%nat) (combine right (seq k (length right))).
Lemma positions_shift left right k : positions_from (S k) left right = map S (positions_from k left right).
Proof. unfold positions_from. revert k. induction right as [|r right IH]; intros k; [reflexivity|]. cbn [length seq combine map fst snd]. rewrite IH. f_equal. lia. Qed.
Lemma positions_left l left right k : Forall (Rlt l) right -> positions_from k (l :: left) right = map S (positions_from k left right).
Proof.
  unfold positions_from. revert k. induction right as [|r right IH]; intros k F; [reflexivity|]. inversion F; subst. cbn [length seq combine map fst snd searchsorted]. rewrite (proj2 (ltb_spec l r)) by assumption.
  rewrite IH by assumption. f_equal. 
Qed.
Lemma mask_ok n : forall left right, sorted right -> (length left + length right = n)%nat -> set_true n (right_positions left right) = mask n left right.
Proof.
  change right_positions with (positions_from 0).
  induction n as [|n IH]; intros left right Hs L; [reflexivity|]. destruct left as [|l left], right as [|r right]; cbn [length] in L; try lia; cbn [mask].
  - replace (positions_from 0 [] (r :: right)) with (0%nat :: map S (positions_from 0 [] right)) by (rewrite <- positions_shift; reflexivity). rewrite set_true_true. inversion Hs; subst. rewrite IH by (auto; simpl; lia). reflexivity.
  - change (positions_from 0 (l :: left) []) with (map S (positions_from 0 left [])). rewrite set_true_false, IH by (auto; simpl; lia). reflexivity.
  - destruct (Rlt_dec l r) as [Hlr|Hlr].
    + rewrite positions_left; [|constructor; [exact Hlr|]; inversion Hs as [|? ? ? F]; subst; eapply Forall_impl; [|exact F]; simpl; intros; lra]. rewrite set_true_false, IH by (auto; simpl; lia). reflexivity.
    + replace (positions_from 0 (l :: left) (r :: right)) with (0%nat :: map S (positions_from 0 (l :: left) right)).
      2:{ rewrite <- positions_shift. unfold positions_from. cbn [length seq combine map fst snd searchsorted]. rewrite (proj2 (ltb_false l r)) by lra. reflexivity. }
      rewrite set_true_true. inversion Hs; subst. rewrite IH by (auto; simpl; lia). reflexivity.
Qed.
(** the elements at the set positions *)
Fixpoint select {A} (m : list bool) (l : list A) : list A :=
  match m, l with
  | b :: m', x :: l' => if b then x :: select m' l' else select m' l'
  | _, _ => []
  end.
Lemma fill_ok n : forall left right, sorted left -> sorted right -> (length left + length right = n)%nat ->
  exists g, fill (mask n left right) left right = Some g /\ length g = n /\ length (mask n left right) = n /\ sorted g /\
    select (mask n left right) g = right /\ select (map negb (mask n left right)) g = left /\ Permutation g (left ++ right) /\ (forall b, Forall (Rle b) left -> Forall (Rle b) right -> Forall (Rle b) g).
Proof.
  induction n as [|n IH]; intros left right Hl Hr L.
  - destruct left, right; cbn [length] in L; try lia. exists []. repeat split; constructor.
  - destruct left as [|l left], right as [|r right]; cbn [length] in L; try lia; cbn [mask].
    + inversion Hr as [|? ? Hr' Fr]; subst. destruct (IH [] right Hl Hr' ltac:(simpl; lia)) as (g & E & L1 & L2 & S & Sr & Sl & P & B). exists (r :: g). cbn [fill map select length app]. rewrite E. cbn [option_map negb].
      rewrite Sr, Sl. repeat split; try (f_equal; assumption).
      * constructor; [exact S|]. apply B; [constructor|exact Fr].
      * constructor. exact P.
      * intros b _ Hb. inversion Hb; subst. constructor; [assumption|]. apply B; [constructor|assumption].
    + inversion Hl as [|? ? Hl' Fl]; subst. destruct (IH left [] Hl' Hr ltac:(simpl; lia)) as (g & E & L1 & L2 & S & Sr & Sl & P & B). exists (l :: g). cbn [fill map select length app]. rewrite E. cbn [option_map negb].
      rewrite Sr, Sl. repeat split; try (f_equal; assumption).
      * constructor; [exact S|]. apply B; [exact Fl|constructor].
      * constructor. exact P.
      * intros b Hb _. inversion Hb; subst. constructor; [assumption|]. apply B; [assumption|constructor].
    + inversion Hl as [|? ? Hl' Fl]; subst. inversion Hr as [|? ? Hr' Fr]; subst. destruct (Rlt_dec l r) as [Hlr|Hlr].
      * destruct (IH left (r :: right) Hl' Hr ltac:(simpl; lia)) as (g & E & L1 & L2 & S & Sr & Sl & P & B). exists (l :: g). cbn [fill map select length app]. rewrite E. cbn [option_map negb].
        rewrite Sr, Sl. repeat split; try (f_equal; assumption).
        -- constructor; [exact S|]. apply B; [exact Fl|]. constructor; [lra|]. eapply Forall_impl; [|exact Fr]. simpl. intros. lra.
        -- constructor. exact P.
        -- intros b Hb Hb'. inversion Hb; subst. constructor; [assumption|]. apply B; assumption.
      * destruct (IH (l :: left) right Hl Hr' ltac:(simpl; lia)) as (g & E & L1 & L2 & S & Sr & Sl & P & B). exists (r :: g). cbn [fill map select length app]. rewrite E. cbn [option_map negb].
        rewrite Sr, Sl. repeat split; try (f_equal; assumption).
        -- constructor; [exact S|]. apply B; [|exact Fr]. constructor; [lra|]. eapply Forall_impl; [|exact Fl]. simpl. intros. lra.
        -- change (l :: left ++ r :: right) with ((l :: left) ++ r :: right). apply Permutation_cons_app. exact P.
        -- intros b Hb Hb'. inversion Hb'; subst. constructor; [assumption|]. apply B; assumption.
Qed.
