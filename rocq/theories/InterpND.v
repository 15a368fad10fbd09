From Coq Require Import List Bool Arith ZArith Lia Reals Lra Sorted.
From Verif Require Import Interp InterpFacts.
Import ListNotations.
Open Scope R_scope.

(** ** specification: tables in row-major order, functions affine in each variable *)
Fixpoint multi_indices (shape : list nat) : list (list nat) :=
  match shape with [] => [[]] | n :: shape' => flat_map (fun i => map (cons i) (multi_indices shape')) (seq 0 n) end.
Definition table (shape : list nat) (F : list nat -> R) : list R := map F (multi_indices shape).
Definition multiaffine (f : list R -> R) : Prop :=
  forall pre t post, f (pre ++ t :: post) = (1 - t) * f (pre ++ 0 :: post) + t * f (pre ++ 1 :: post).
(** the point of the grids at a multi-index *)
Definition grid_point (grids : list (list R)) (js : list nat) : list R := map (fun p => nth (snd p) (fst p) 0) (combine grids js).
Definition good_grid (g : list R) : Prop := increasing g /\ (2 <= length g)%nat.
Definition inside (g : list R) (x : R) : Prop := nth 0 g 0 <= x <= nth (length g - 1) g 0.

(** ** flat indices *)
Fixpoint prodn (l : list nat) : nat := match l with [] => 1 | n :: l' => n * prodn l' end.
Lemma prodn_app a b : prodn (a ++ b) = (prodn a * prodn b)%nat. Proof. induction a; simpl; [lia|]. rewrite IHa. lia. Qed.
Lemma prodn_rev a : prodn (rev a) = prodn a. Proof. induction a; simpl; [reflexivity|]. rewrite prodn_app. simpl. lia. Qed.
Lemma running_snoc a n : forall p, running p (a ++ [n]) = running p a ++ [(p * prodn a)%nat].
Proof. induction a as [|b a IH]; intros p; simpl; [f_equal; lia|]. rewrite IH. do 2 f_equal. f_equal. lia. Qed.
Lemma strides_cons n shape : strides (n :: shape) = prodn shape :: strides shape.
Proof. unfold strides. simpl. rewrite running_snoc, rev_app_distr, prodn_rev. simpl. f_equal. lia. Qed.
Lemma mi_length shape : length (multi_indices shape) = prodn shape.
Proof.
  induction shape as [|n shape IH]; [reflexivity|]. cbn [multi_indices prodn]. rewrite <- IH. generalize (multi_indices shape). intros l.
  assert (G : forall k, length (flat_map (fun i => map (cons i) l) (seq k n)) = (n * length l)%nat); [|apply G].
  induction n as [|n IHn]; intros k; [reflexivity|]. simpl. rewrite app_length, map_length, IHn. lia.
Qed.
Lemma mi_nth shape : forall js z, Forall2 lt js shape -> length z = length shape -> Forall (eq 0%nat) z ->
  nth_error (multi_indices shape) (flat_index js z (strides shape)) = Some js /\ (flat_index js z (strides shape) < prodn shape)%nat.
Proof.
  induction shape as [|n shape IH]; intros js z H Lz Z; inversion H; subst; [split; [reflexivity|simpl; destruct z; lia]|].
  destruct z as [|z0 z]; [discriminate|]. inversion Z; subst. rename x into j, l into js'. cbn [multi_indices]. rewrite strides_cons. cbn [flat_index]. rewrite Nat.add_0_r.
  destruct (IH js' z H4 ltac:(simpl in *; lia) H5) as [IH1 IH2]. set (k := flat_index js' z (strides shape)) in *. clearbody k. split; [|simpl; nia].
  pose proof (mi_length shape) as ML. set (l := multi_indices shape) in *. clearbody l.
  assert (G : forall m s, (m < n - s)%nat -> (s <= n)%nat -> nth_error (flat_map (fun i => map (cons i) l) (seq s (n - s))) (m * prodn shape + k) = Some ((s + m)%nat :: js')).
  { intros m. induction m as [|m IHm]; intros s Hm Hs; (destruct (n - s)%nat as [|r] eqn:Er; [lia|]); cbn [seq flat_map].
    - rewrite nth_error_app1 by (rewrite map_length; lia). simpl. rewrite Nat.add_0_r. erewrite map_nth_error by exact IH1. reflexivity.
    - rewrite nth_error_app2 by (rewrite map_length; nia). rewrite map_length, ML. replace (S m * prodn shape + k - prodn shape)%nat with (m * prodn shape + k)%nat by nia.
      replace r with (n - S s)%nat by lia. rewrite IHm by lia. do 2 f_equal. lia. }
  specialize (G j 0%nat). rewrite Nat.sub_0_r in G. apply G; lia.
Qed.
Lemma flat_add js ds z st : length z = length js -> length ds = length js -> Forall (eq 0%nat) z -> flat_index js ds st = flat_index (map (fun p => (fst p + snd p)%nat) (combine js ds)) z st.
Proof.
  revert ds z st. induction js as [|j js IH]; intros [|d ds] [|z0 z] st L1 L2 Z; try discriminate; [reflexivity|]. inversion Z; subst. destruct st as [|s st]; [reflexivity|].
  cbn [combine map fst snd flat_index]. rewrite (IH ds z st) by (simpl in *; auto). rewrite Nat.add_0_r. reflexivity.
Qed.
(** ** corners *)
Definition plus_ (is_ ds : list nat) : list nat := map (fun p => (fst p + snd p)%nat) (combine is_ ds).
Fixpoint S_ (ws : list R) (is_ : list nat) (F : list nat -> R) : R :=
  match ws, is_ with
  | w :: ws', i :: is' => w * S_ ws' is' (fun js => F (i :: js)) + (1 - w) * S_ ws' is' (fun js => F (S i :: js))
  | _, _ => F []
  end.
Lemma sumR_app a b : sumR (a ++ b) = sumR a + sumR b. Proof. unfold sumR. induction a; simpl; [ring|]. rewrite IHa. ring. Qed.
Lemma sumR_scale c l : sumR (map (Rmult c) l) = c * sumR l. Proof. unfold sumR. induction l; simpl; [ring|]. rewrite IHl. ring. Qed.
Lemma corner_sum ws : forall is_ F, length is_ = length ws -> Forall (fun w => 0 <= w <= 1) ws ->
  sumR (map (fun d => Rabs (diff_prod d ws) * F (plus_ is_ d)) (product01 (length ws))) = S_ ws is_ F.
Proof.
  induction ws as [|w ws IH]; intros is_ F L H; destruct is_ as [|i is_]; try discriminate; [simpl; unfold sumR, plus_; simpl; rewrite Rabs_R1; ring|].
  inversion H; subst. cbn [length product01 S_]. rewrite map_app, sumR_app, !map_map. f_equal.
  - rewrite <- (IH is_ (fun js => F (i :: js))) by (auto; simpl in *; lia). rewrite <- sumR_scale, map_map. f_equal. apply map_ext. intros d. cbn [diff_prod]. unfold plus_. cbn [combine map fst snd].
    rewrite Nat.add_0_r, Rabs_mult. simpl INR. replace (0 - w) with (- w) by ring. rewrite Rabs_Ropp, (Rabs_pos_eq w) by lra. ring.
  - rewrite <- (IH is_ (fun js => F (S i :: js))) by (auto; simpl in *; lia). rewrite <- sumR_scale, map_map. f_equal. apply map_ext. intros d. cbn [diff_prod]. unfold plus_. cbn [combine map fst snd].
    rewrite Nat.add_1_r, Rabs_mult. simpl INR. rewrite (Rabs_pos_eq (1 - w)) by lra. ring.
Qed.
Lemma S_one ws : forall is_, S_ ws is_ (fun _ => 1) = 1.
Proof. induction ws as [|w ws IH]; intros is_; [reflexivity|]. destruct is_; [reflexivity|]. cbn [S_]. rewrite !IH. ring. Qed.
Lemma product01_length n d : In d (product01 n) -> length d = n /\ Forall (fun k => k <= 1)%nat d.
Proof.
  revert d. induction n as [|n IH]; intros d H; simpl in H; [destruct H as [<-|[]]; split; [reflexivity|constructor]|]. apply in_app_or in H.
  destruct H as [H|H]; apply in_map_iff in H; destruct H as (e & <- & H); apply IH in H; destruct H; (split; [simpl; lia|constructor; [lia|assumption]]).
Qed.
Lemma all_some_map {A B} (f : A -> option B) (g : A -> B) l : (forall a, In a l -> f a = Some (g a)) -> all_some (map f l) = Some (map g l).
Proof. induction l as [|a l IH]; intros H; [reflexivity|]. simpl. rewrite H by (left; reflexivity). rewrite IH; [reflexivity|]. intros. apply H. right. assumption. Qed.
Lemma combine_map_same {A B C} (f : A -> B) (g : A -> C) l : combine (map f l) (map g l) = map (fun a => (f a, g a)) l.
Proof. induction l; simpl; [reflexivity|]. rewrite IHl. reflexivity. Qed.
(** ** one dimension *)
Lemma idx_weight_ok g x : good_grid g -> inside g x -> exists i, (i + 1 < length g)%nat /\ idx_weight g x = Some (i, 1 - (x - nth i g 0) / (nth (i + 1) g 0 - nth i g 0)) /\
  nth i g 0 <= x <= nth (i + 1) g 0 /\ nth i g 0 < nth (i + 1) g 0.
Proof.
  intros [Hi H2] [Lo Hi_]. destruct (project_cases x g H2) as (i & E & B & Ei). exists i. assert (Hlt : nth i g 0 < nth (i + 1) g 0) by (apply increasing_lt; [exact Hi|lia]).
  split; [lia|]. split; [|split; [|exact Hlt]].
  - unfold idx_weight. rewrite E, !gather_nat, Nat2Z.id. rewrite nth_error_at by (rewrite diff_length; lia). rewrite diff_nth by lia. rewrite nth_error_at by lia. reflexivity.
  - pose proof (increasing_sorted g Hi) as Hs. pose proof (ss_le_length true g x) as Hl.
    assert (P : (0 < searchsorted true g x)%nat). { destruct (searchsorted true g x) eqn:E0; [|lia]. exfalso. assert (Ab := ss_above true g x 0 Hs). simpl in Ab. rewrite E0 in Ab. specialize (Ab ltac:(lia)). lra. }
    split.
    + assert (Bl := ss_below true g x i). simpl in Bl. apply Bl. lia.
    + destruct (Nat.lt_ge_cases (i + 1) (searchsorted true g x)) as [C|C].
      * assert (i + 1 = length g - 1)%nat by lia. rewrite H. exact Hi_.
      * assert (Ab := ss_above true g x (i + 1) Hs). simpl in Ab. specialize (Ab ltac:(lia)). lra.
Qed.
(** at a knot the weight is 1 on it *)
Lemma idx_weight_knot g j : good_grid g -> (j < length g)%nat -> inside g (nth j g 0) /\
  exists i w, idx_weight g (nth j g 0) = Some (i, w) /\ ((w = 1 /\ i = j) \/ (w = 0 /\ S i = j)).
Proof.
  intros G Hj. pose proof G as [Hi H2]. assert (In_ : inside g (nth j g 0)) by (split; apply sorted_le; try apply increasing_sorted; auto; lia). split; [exact In_|].
  destruct (idx_weight_ok g _ G In_) as (i & Bi & E & [L U] & Lt). exists i. eexists. split; [exact E|].
  destruct (Nat.lt_trichotomy j i) as [C|[C|C]]; [exfalso; assert (nth j g 0 < nth i g 0) by (apply increasing_lt; auto; lia); lra|left; subst; split; [field; lra|reflexivity]|].
  destruct (Nat.eq_dec j (i + 1)) as [->|N]; [right; split; [field; lra|lia]|]. exfalso. assert (nth (i + 1) g 0 < nth j g 0) by (apply increasing_lt; auto; lia). lra.
Qed.
Definition good_query (grids : list (list R)) (x : list R) : Prop := Forall good_grid grids /\ Forall2 inside grids x.
(** cells and weights of a query *)
Inductive cells : list (list R) -> list R -> list nat -> list R -> Prop :=
| cells_nil : cells [] [] [] []
| cells_cons g x i w gs xs is_ ws : idx_weight g x = Some (i, w) -> (i + 1 < length g)%nat -> 0 <= w <= 1 -> x = w * nth i g 0 + (1 - w) * nth (i + 1) g 0 ->
    nth i g 0 <= x <= nth (i + 1) g 0 -> cells gs xs is_ ws -> cells (g :: gs) (x :: xs) (i :: is_) (w :: ws).
Lemma good_cells grids x : good_query grids x -> exists is_ ws, cells grids x is_ ws.
Proof.
  intros [G I]. revert G. induction I as [|g q gs qs Iq I IH]; intros G; [exists [], []; constructor|]. inversion G; subst. destruct (IH H2) as (is_ & ws & C). destruct (idx_weight_ok g q H1 Iq) as (i & B & E & Br & Lt).
  exists (i :: is_), ((1 - (q - nth i g 0) / (nth (i + 1) g 0 - nth i g 0)) :: ws). constructor; auto.
  - set (u := (q - nth i g 0) / (nth (i + 1) g 0 - nth i g 0)). assert (0 <= u <= 1); [|lra]. unfold u. split.
    + apply Rmult_le_pos; [lra|]. left. apply Rinv_0_lt_compat. lra.
    + apply Rmult_le_reg_r with (nth (i + 1) g 0 - nth i g 0); [lra|]. unfold Rdiv. rewrite Rmult_assoc, Rinv_l by lra. lra.
  - field. lra.
Qed.
Lemma cells_lengths grids x is_ ws : cells grids x is_ ws -> length x = length grids /\ length is_ = length grids /\ length ws = length grids /\ Forall (fun w => 0 <= w <= 1) ws /\
  all_some (map (fun p => idx_weight (fst p) (snd p)) (combine grids x)) = Some (combine is_ ws) /\ forall d, length d = length grids -> Forall (fun k => k <= 1)%nat d -> Forall2 lt (plus_ is_ d) (map (@length R) grids).
Proof.
  induction 1 as [|g q i w gs qs is_ ws E B W X Br C (L1 & L2 & L3 & F & A & I)]; [refine (conj eq_refl (conj eq_refl (conj eq_refl (conj (Forall_nil _) (conj eq_refl _))))); intros [|? ?] L F; [constructor|discriminate]|].
  split; [simpl; lia|]. split; [simpl; lia|]. split; [simpl; lia|]. split; [constructor; auto|]. split; [simpl; rewrite E, A; reflexivity|]. intros [|d ds] L Fd; [discriminate|]. inversion Fd; subst. unfold plus_. simpl. constructor; [lia|]. apply I; auto.
Qed.
Lemma map_fst_combine {A B} (a : list A) (b : list B) : length a = length b -> map fst (combine a b) = a.
Proof. revert b. induction a; intros [|? ?] H; try discriminate; simpl; [reflexivity|]. rewrite IHa; auto. Qed.
Lemma map_snd_combine {A B} (a : list A) (b : list B) : length a = length b -> map snd (combine a b) = b.
Proof. revert b. induction a; intros [|? ?] H; try discriminate; simpl; [reflexivity|]. rewrite IHa; auto. Qed.
Lemma zeros n : exists z, length z = n /\ Forall (eq 0%nat) z.
Proof. exists (repeat 0%nat n). split; [apply repeat_length|]. apply Forall_forall. intros x Hx. apply repeat_spec in Hx. auto. Qed.
Lemma nd_S grids x is_ ws F : cells grids x is_ ws -> let shape := map (@length R) grids in linear_nd grids shape (table shape F) x = Some (S_ ws is_ F).
Proof.
  intros C shape. destruct (cells_lengths _ _ _ _ C) as (L1 & L2 & L3 & FW & A & I). unfold linear_nd. rewrite L1, Nat.eqb_refl. cbn [negb]. rewrite A, map_fst_combine, map_snd_combine by congruence.
  rewrite (all_some_map _ (fun d => F (plus_ is_ d))).
  2:{ intros d Hd. apply product01_length in Hd. destruct Hd as [Ld Fd]. destruct (zeros (length is_)) as (z & Lz & Z). rewrite (flat_add is_ d z) by (auto; congruence). fold (plus_ is_ d).
      destruct (mi_nth shape (plus_ is_ d) z) as [N _]; [apply I; congruence|unfold shape; rewrite map_length; congruence|exact Z|]. unfold table. erewrite map_nth_error by exact N. reflexivity. }
  f_equal. rewrite combine_map_same, map_map. rewrite <- L3. cbn [fst snd]. rewrite corner_sum by (auto; congruence).
  assert (One : sumR (map (fun d => Rabs (diff_prod d ws)) (product01 (length ws))) = 1).
  { rewrite <- (S_one ws is_). rewrite <- corner_sum by (auto; congruence). f_equal. apply map_ext. intros. ring. }
  rewrite One. field.
Qed.
Lemma S_bounds ws : forall is_ F m M, length is_ = length ws -> Forall (fun w => 0 <= w <= 1) ws ->
  (forall d, length d = length ws -> Forall (fun k => k <= 1)%nat d -> m <= F (plus_ is_ d) <= M) -> m <= S_ ws is_ F <= M.
Proof.
  induction ws as [|w ws IH]; intros is_ F m M L H B; destruct is_ as [|i is_]; try discriminate; [apply (B []); [reflexivity|constructor]|]. inversion H; subst. cbn [S_].
  assert (A : m <= S_ ws is_ (fun js => F (i :: js)) <= M).
  { apply IH; auto. intros d Ld Fd. specialize (B (0%nat :: d) ltac:(simpl; lia) ltac:(constructor; [lia|assumption])). unfold plus_ in B. cbn [combine map fst snd] in B. rewrite Nat.add_0_r in B. exact B. }
  assert (A' : m <= S_ ws is_ (fun js => F (S i :: js)) <= M).
  { apply IH; auto. intros d Ld Fd. specialize (B (1%nat :: d) ltac:(simpl; lia) ltac:(constructor; [lia|assumption])). unfold plus_ in B. cbn [combine map fst snd] in B. rewrite Nat.add_1_r in B. exact B. }
  nra.
Qed.
Lemma S_multiaffine grids : forall x is_ ws f, cells grids x is_ ws -> multiaffine f -> S_ ws is_ (fun js => f (grid_point grids js)) = f x.
Proof.
  intros x is_ ws f C. revert f. induction C as [|g q i w gs qs is_ ws E B W X Br C IH]; intros f M; [reflexivity|]. cbn [S_]. unfold grid_point in *. cbn [combine map fst snd].
  assert (M' : forall t, multiaffine (fun p => f (t :: p))) by (intros t pre s post; exact (M (t :: pre) s post)).
  rewrite (IH (fun p => f (nth i g 0 :: p)) (M' _)), (IH (fun p => f (nth (S i) g 0 :: p)) (M' _)). rewrite Nat.add_1_r in X.
  pose proof (M [] (nth i g 0) qs) as A1. pose proof (M [] (nth (S i) g 0) qs) as A2. pose proof (M [] q qs) as A3. simpl in A1, A2, A3. rewrite A1, A2, A3, X. ring.
Qed.
Lemma S_knots grids : forall js, Forall good_grid grids -> Forall2 lt js (map (@length R) grids) ->
  good_query grids (grid_point grids js) /\ forall is_ ws F, cells grids (grid_point grids js) is_ ws -> S_ ws is_ F = F js.
Proof.
  induction grids as [|g gs IH]; intros js G L; inversion L; subst.
  - split; [split; constructor|]. intros is_ ws F C. inversion C; subst. reflexivity.
  - inversion G; subst. rename x into j, l into js'. destruct (IH js' H4 H3) as [Q K]. destruct (idx_weight_knot g j H1 H2) as [In_ (i0 & w0 & E0 & Cs)]. unfold grid_point in *. cbn [combine map fst snd]. split.
    + destruct Q. split; [assumption|]. constructor; assumption.
    + intros is_ ws F C. inversion C as [|? ? ? ? ? ? ? ? Ew _ _ _ _ C']; subst. rewrite E0 in Ew. injection Ew as -> ->. cbn [S_]. destruct Cs as [[-> ->]|[-> Ei]].
      * rewrite (K _ _ (fun js => F (j :: js)) C'). ring.
      * rewrite Ei. rewrite (K _ _ (fun js => F (j :: js)) C'). ring.
Qed.
