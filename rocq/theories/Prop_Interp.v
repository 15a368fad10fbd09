(** Claims C37, C38, C39, C56. *)
From Coq Require Import List Bool Arith ZArith Lia Reals Lra Sorted Permutation.
From Verif Require Import Interp InterpFacts InterpND.
Import ListNotations.
Open Scope R_scope.

(** ** C37 *)
(** The selected cell is the only one that contains the query, the first cell being open to the left and the last to the right. *)
Theorem C37_bracket : forall g x, StronglySorted Rle g -> (2 <= length g)%nat -> forall i : nat,
  project_one x g = Z.of_nat i <->
  (i + 1 < length g)%nat /\ (i = 0%nat \/ nth i g 0 <= x) /\ ((i + 1 = length g - 1)%nat \/ x < nth (i + 1) g 0).
Proof.
  intros g x S L i. destruct (project_cases x g L) as (j & E & B & Ej). rewrite E. pose proof (ss_le_length true g x) as Hl.
  assert (Lo : forall k, (k < searchsorted true g x)%nat -> nth k g 0 <= x) by (intros k Hk; exact (ss_below true g x k Hk)).
  assert (Up : forall k, (searchsorted true g x <= k < length g)%nat -> x < nth k g 0) by (intros k Hk; exact (ss_above true g x k S Hk)).
  split.
  - intros Eq. apply Nat2Z.inj in Eq. subst i. split; [lia|]. split.
    + destruct (Nat.eq_dec j 0); [left; assumption|right]. apply Lo. lia.
    + destruct (Nat.eq_dec (j + 1) (length g - 1)); [left; assumption|right]. apply Up. lia.
  - intros (H1 & H2 & H3). f_equal. destruct (Nat.lt_trichotomy i j) as [C|[C|C]]; [exfalso|symmetry; exact C|exfalso].
    + destruct H3 as [H3|H3]; [lia|]. assert (nth (i + 1) g 0 <= x); [|lra]. apply Lo. lia.
    + destruct H2 as [H2|H2]; [lia|]. assert (x < nth i g 0); [|lra]. apply Up. lia.
Qed.
Print Assumptions C37_bracket.
Theorem C37_cases : forall g x, StronglySorted Rle g -> (2 <= length g)%nat -> exists i : nat, project_one x g = Z.of_nat i /\ (i + 1 < length g)%nat /\
  (nth 0 g 0 <= x < nth (length g - 1) g 0 -> nth i g 0 <= x < nth (i + 1) g 0) /\
  (x = nth (length g - 1) g 0 -> nth i g 0 <= x <= nth (i + 1) g 0) /\
  (x < nth 0 g 0 -> i = 0%nat) /\ (nth (length g - 1) g 0 < x -> (i + 1 = length g - 1)%nat).
Proof.
  intros g x S L. destruct (project_cases x g L) as (i & E & B & _). exists i. split; [exact E|]. apply (C37_bracket g x S L) in E. destruct E as (H1 & H2 & H3). split; [exact H1|].
  assert (M : forall a b, (a <= b < length g)%nat -> nth a g 0 <= nth b g 0) by (intros; apply sorted_le; assumption). repeat split.
  - destruct H2 as [->|H2]; [apply H|exact H2].
  - destruct H3 as [H3|H3]; [rewrite H3; apply H|exact H3].
  - destruct H2 as [->|H2]; [subst x; apply M; lia|exact H2].
  - destruct H3 as [H3|H3]; [rewrite H3; lra|lra].
  - intros Hx. destruct H2 as [H2|H2]; [exact H2|]. pose proof (M 0%nat i ltac:(lia)). lra.
  - intros Hx. destruct H3 as [H3|H3]; [exact H3|]. pose proof (M (i + 1)%nat (length g - 1)%nat ltac:(lia)). lra.
Qed.
Print Assumptions C37_cases.
(** With a single knot there is no cell: the index is -1 and every interpolation raises. *)
Theorem C37_single_knot_refuted : forall g0 y0 q, project_one q [g0] = (-1)%Z /\ linear1d [g0] [y0] q = None.
Proof. intros g0 y0 q. assert (E : project_one q [g0] = (-1)%Z) by (unfold project_one, clamp; simpl; destruct (leb g0 q); reflexivity). split; [exact E|]. unfold linear1d. rewrite E. reflexivity. Qed.
Print Assumptions C37_single_knot_refuted.
Lemma inc123 : increasing [1; 2; 4]. Proof. repeat constructor; lra. Qed.
Example C37_nonvacuous : project_one 3 [1; 2; 4] = 1%Z /\ project_one 2 [1; 2; 4] = 1%Z /\ project_one 5 [1; 2; 4] = 1%Z /\ project_one 0 [1; 2; 4] = 0%Z.
Proof. repeat split; (apply (C37_bracket _ _ (increasing_sorted _ inc123)) with (i := 1%nat) || apply (C37_bracket _ _ (increasing_sorted _ inc123)) with (i := 0%nat)); simpl; try lia; (split; [lia|]); split; try (left; lia); right; lra. Qed.

(** ** C38 *)
Theorem C38_knots : forall x y i, StronglySorted Rlt x -> length x = length y -> (2 <= length x)%nat -> (i < length x)%nat ->
  linear1d x y (nth i x 0) = Some (nth i y 0).
Proof. intros. rewrite linear1d_pl by assumption. rewrite pl_knot by assumption. reflexivity. Qed.
Print Assumptions C38_knots.
(** inside the cell [x_i, x_{i+1}] (first and last cells extended outwards) it is the straight line through both knots *)
Theorem C38_cell : forall x y i q, StronglySorted Rlt x -> length x = length y -> (i + 1 < length x)%nat ->
  (i = 0%nat \/ nth i x 0 <= q) -> ((i + 1 = length x - 1)%nat \/ q <= nth (i + 1) x 0) ->
  let t := (q - nth i x 0) / (nth (i + 1) x 0 - nth i x 0) in
  linear1d x y q = Some ((1 - t) * nth i y 0 + t * nth (i + 1) y 0).
Proof.
  intros x y i q S L Hi H1 H2 t. assert (Lt : nth i x 0 < nth (i + 1) x 0) by (apply increasing_lt; auto; lia).
  destruct (Req_dec q (nth (i + 1) x 0)) as [E|N].
  - assert (T : t = 1) by (unfold t; rewrite E; field; lra). rewrite T, E, C38_knots by (auto; lia). f_equal. ring.
  - assert (H3 : (i + 1 = length x - 1)%nat \/ q < nth (i + 1) x 0) by (destruct H2; [left; assumption|right; lra]).
    assert (P : project_one q x = Z.of_nat i) by (apply C37_bracket; [apply increasing_sorted, S|lia|auto]).
    unfold linear1d. rewrite P, !gather_nat, dydx_nth by lia. rewrite !nth_error_at by lia. f_equal. unfold t. field. lra.
Qed.
Print Assumptions C38_cell.
Theorem C38_between : forall x y i q, StronglySorted Rlt x -> length x = length y -> (i + 1 < length x)%nat -> nth i x 0 <= q <= nth (i + 1) x 0 ->
  exists v, linear1d x y q = Some v /\ Rmin (nth i y 0) (nth (i + 1) y 0) <= v <= Rmax (nth i y 0) (nth (i + 1) y 0).
Proof.
  intros x y i q S L Hi [H1 H2]. assert (Lt : nth i x 0 < nth (i + 1) x 0) by (apply increasing_lt; auto; lia). eexists. split; [apply (C38_cell x y i q); auto|].
  set (t := (q - nth i x 0) / (nth (i + 1) x 0 - nth i x 0)). assert (T : 0 <= t <= 1).
  { unfold t. split; [apply Rmult_le_pos; [lra|left; apply Rinv_0_lt_compat; lra]|]. apply Rmult_le_reg_r with (nth (i + 1) x 0 - nth i x 0); [lra|]. unfold Rdiv. rewrite Rmult_assoc, Rinv_l by lra. lra. }
  pose proof (Rmin_l (nth i y 0) (nth (i + 1) y 0)). pose proof (Rmin_r (nth i y 0) (nth (i + 1) y 0)). pose proof (Rmax_l (nth i y 0) (nth (i + 1) y 0)). pose proof (Rmax_r (nth i y 0) (nth (i + 1) y 0)). nra.
Qed.
Print Assumptions C38_between.
Theorem C38_affine : forall x a b q, StronglySorted Rlt x -> (2 <= length x)%nat -> linear1d x (map (fun t => a * t + b) x) q = Some (a * q + b).
Proof.
  intros x a b q S L. destruct (C37_cases x q (increasing_sorted x S) L) as (i & E & Hi & _). apply C37_bracket in E; [|apply increasing_sorted, S|exact L]. destruct E as (_ & H1 & H2).
  assert (Lt : nth i x 0 < nth (i + 1) x 0) by (apply increasing_lt; auto; lia). rewrite (C38_cell x _ i q); auto; [|rewrite map_length; reflexivity|destruct H2; [left; assumption|right; lra]]. f_equal.
  assert (N : forall k, (k < length x)%nat -> nth k (map (fun t => a * t + b) x) 0 = a * nth k x 0 + b) by (intros k Hk; rewrite (nth_indep _ 0 (a * 0 + b)) by (rewrite map_length; exact Hk); apply (map_nth (fun t => a * t + b))).
  rewrite !N by lia. field. lra.
Qed.
Print Assumptions C38_affine.
(** everywhere defined, Lipschitz (hence uniformly continuous) on the whole line *)
Theorem C38_continuous : forall x y, StronglySorted Rlt x -> length x = length y -> (2 <= length x)%nat -> exists (f : R -> R) (K : R),
  (forall q, linear1d x y q = Some (f q)) /\ (forall a b, Rabs (f a - f b) <= K * Rabs (a - b)) /\ continuity f.
Proof.
  intros x y S L H. exists (pl x y), (slopes x y). assert (Lip : forall a b, Rabs (pl x y a - pl x y b) <= slopes x y * Rabs (a - b)).
  { intros a b. destruct (Rle_dec b a) as [C|C].
    - rewrite (Rabs_pos_eq (a - b)) by lra. apply pl_lipschitz; assumption.
    - rewrite (Rabs_minus_sym (pl x y a)), (Rabs_minus_sym a), (Rabs_pos_eq (b - a)) by lra. apply pl_lipschitz; auto. lra. }
  split; [intros q; apply linear1d_pl; assumption|]. split; [exact Lip|]. intros a. unfold continuity_pt, continue_in, limit1_in, limit_in. intros eps He.
  assert (P0 : 0 <= slopes x y). { specialize (Lip 1 0). rewrite (Rabs_pos_eq (1 - 0)) in Lip by lra. pose proof (Rabs_pos (pl x y 1 - pl x y 0)). lra. }
  exists (eps / (slopes x y + 1)). split; [apply Rdiv_lt_0_compat; lra|]. intros b [_ Hb]. simpl in *. unfold R_dist in *. eapply Rle_lt_trans; [apply Lip|].
  apply Rle_lt_trans with (slopes x y * (eps / (slopes x y + 1))); [apply Rmult_le_compat_l; lra|].
  apply Rmult_lt_reg_r with (slopes x y + 1); [lra|]. replace (slopes x y * (eps / (slopes x y + 1)) * (slopes x y + 1)) with (slopes x y * eps) by (field; lra). nra.
Qed.
Print Assumptions C38_continuous.
(** [derivative] is the derivative, away from the interior knots *)
Theorem C38_derivative : forall x y f, StronglySorted Rlt x -> length x = length y -> (2 <= length x)%nat -> (forall q, linear1d x y q = Some (f q)) ->
  forall q, (forall k, (0 < k < length x - 1)%nat -> q <> nth k x 0) -> exists d, derivative x y q = Some d /\ derivable_pt_lim f q d.
Proof.
  intros x y f S L H Hf q Hq. destruct (C37_cases x q (increasing_sorted x S) H) as (i & E & Hi & _). pose proof E as E'. apply C37_bracket in E; [|apply increasing_sorted, S|exact H]. destruct E as (_ & H1 & H2).
  set (d := (nth (i + 1) y 0 - nth i y 0) / (nth (i + 1) x 0 - nth i x 0)). exists d. split; [unfold derivative; rewrite E', gather_nat, dydx_nth by lia; reflexivity|].
  assert (Lt : nth i x 0 < nth (i + 1) x 0) by (apply increasing_lt; auto; lia).
  assert (D : exists del : R, 0 < del /\ forall q', Rabs (q' - q) < del -> (i = 0%nat \/ nth i x 0 <= q') /\ ((i + 1 = length x - 1)%nat \/ q' <= nth (i + 1) x 0)).
  { assert (A : exists del : R, 0 < del /\ forall q', Rabs (q' - q) < del -> i = 0%nat \/ nth i x 0 <= q').
    { destruct (Nat.eq_dec i 0) as [->|Ni]; [exists 1; split; [lra|auto]|]. destruct H1 as [H1|H1]; [lia|]. assert (nth i x 0 < q) by (assert (q <> nth i x 0) by (apply Hq; lia); lra).
      exists (q - nth i x 0). split; [lra|]. intros q' Hq'. right. apply Rabs_def2 in Hq'. lra. }
    assert (B : exists del : R, 0 < del /\ forall q', Rabs (q' - q) < del -> (i + 1 = length x - 1)%nat \/ q' <= nth (i + 1) x 0).
    { destruct (Nat.eq_dec (i + 1) (length x - 1)) as [Ei|Ni]; [exists 1; split; [lra|auto]|]. destruct H2 as [H2|H2]; [lia|]. exists (nth (i + 1) x 0 - q). split; [lra|]. intros q' Hq'. right. apply Rabs_def2 in Hq'. lra. }
    destruct A as (d1 & P1 & A), B as (d2 & P2 & B). exists (Rmin d1 d2). split; [apply Rmin_pos; assumption|]. intros q' Hq'. pose proof (Rmin_l d1 d2). pose proof (Rmin_r d1 d2). split; [apply A; lra|apply B; lra]. }
  destruct D as (del & Pd & D). assert (Aff : forall q', Rabs (q' - q) < del -> f q' = nth i y 0 + (q' - nth i x 0) * d).
  { intros q' Hq'. destruct (D q' Hq') as [A B]. pose proof (C38_cell x y i q' S L Hi A B) as C. rewrite Hf in C. injection C as C. rewrite C. unfold d. field. lra. }
  intros eps He. exists (mkposreal del Pd). intros h Nh Hh. simpl in Hh. rewrite !Aff; [|replace (q - q) with 0 by ring; rewrite Rabs_R0; exact Pd|replace (q + h - q) with h by ring; exact Hh].
  replace ((nth i y 0 + (q + h - nth i x 0) * d - (nth i y 0 + (q - nth i x 0) * d)) / h - d) with 0 by (field; exact Nh). rewrite Rabs_R0. exact He.
Qed.
Print Assumptions C38_derivative.
Example C38_nonvacuous : linear1d [1; 2; 4] [0; 10; -10] 3 = Some 0 /\ linear1d [1; 2; 4] [0; 10; -10] 5 = Some (-20).
Proof.
  split; (rewrite (C38_cell [1; 2; 4] [0; 10; -10] 1) by (first [exact inc123|simpl; lia|right; simpl; lra|left; reflexivity])); f_equal; simpl; field.
Qed.

(** ** C39 *)
Theorem C39_grid_points : forall grids F js, Forall (fun g => StronglySorted Rlt g /\ (2 <= length g)%nat) grids -> Forall2 lt js (map (@length R) grids) ->
  linear_nd grids (map (@length R) grids) (table (map (@length R) grids) F) (grid_point grids js) = Some (F js).
Proof.
  intros grids F js G L. destruct (S_knots grids js G L) as [Q K]. destruct (good_cells _ _ Q) as (is_ & ws & C). rewrite (nd_S _ _ _ _ F C). rewrite (K _ _ F C). reflexivity.
Qed.
Print Assumptions C39_grid_points.
Theorem C39_multilinear : forall grids f x, Forall (fun g => StronglySorted Rlt g /\ (2 <= length g)%nat) grids -> Forall2 inside grids x -> multiaffine f ->
  linear_nd grids (map (@length R) grids) (table (map (@length R) grids) (fun js => f (grid_point grids js))) x = Some (f x).
Proof.
  intros grids f x G I M. destruct (good_cells grids x (conj G I)) as (is_ & ws & C). rewrite (nd_S _ _ _ _ _ C). rewrite (S_multiaffine grids x is_ ws f C M). reflexivity.
Qed.
Print Assumptions C39_multilinear.
(** the value lies between any bounds of the corners of a cell that contains the query *)
Theorem C39_bounds : forall grids F x, Forall (fun g => StronglySorted Rlt g /\ (2 <= length g)%nat) grids -> Forall2 inside grids x ->
  exists corner v, Forall2 (fun gi q => nth (snd gi) (fst gi) 0 <= q <= nth (snd gi + 1) (fst gi) 0) (combine grids corner) x /\ length corner = length grids /\
    linear_nd grids (map (@length R) grids) (table (map (@length R) grids) F) x = Some v /\
    forall m M, (forall js, Forall2 (fun i j => j = i \/ j = S i) corner js -> m <= F js <= M) -> m <= v <= M.
Proof.
  intros grids F x G I. destruct (good_cells grids x (conj G I)) as (is_ & ws & C). exists is_, (S_ ws is_ F). destruct (cells_lengths _ _ _ _ C) as (L1 & L2 & L3 & FW & _ & _).
  split; [clear - C; induction C; [constructor|]; cbn [combine]; constructor; assumption|]. split; [exact L2|]. split; [apply nd_S, C|]. intros m M B. apply S_bounds; [congruence|exact FW|].
  intros d Ld Fd. apply B. rewrite <- L3 in L2. rewrite <- Ld in L2. clear - L2 Fd. revert d L2 Fd. induction is_ as [|i is_ IH]; intros [|k d] L F; try discriminate; [constructor|]. inversion F; subst. unfold plus_. cbn [combine map fst snd].
  constructor; [destruct k as [|[|k]]; [left; lia|right; lia|lia]|]. apply IH; [simpl in L; lia|assumption].
Qed.
Print Assumptions C39_bounds.
(** wrong number of coordinates *)
Theorem C39_wrong_dimension : forall grids shape values x, length x <> length grids -> linear_nd grids shape values x = None.
Proof. intros grids shape values x H. unfold linear_nd. rewrite (proj2 (Nat.eqb_neq _ _) H). reflexivity. Qed.
Print Assumptions C39_wrong_dimension.
(** Outside the grid the value is neither the linear extrapolation (3) nor the value at the edge (2): the table of f(x) = x on [1, 2], at 3. *)
Theorem C39_extrapolation_refuted : linear_nd [[1; 2]] [2%nat] [1; 2] [3] = Some (5 / 3).
Proof.
  unfold linear_nd. cbn [length Nat.eqb negb combine map fst snd]. unfold idx_weight. assert (P : project_one 3 [1; 2] = 0%Z) by (apply (C37_bracket [1; 2] 3 ltac:(repeat constructor; lra) ltac:(simpl; lia) 0); simpl; split; [lia|]; split; left; reflexivity).
  rewrite P. cbn. replace (0 - (1 - (3 - 1) / (2 - 1))) with 1 by field. replace (1 - (1 - (3 - 1) / (2 - 1))) with 2 by field. rewrite !Rmult_1_r, Rabs_R1, (Rabs_pos_eq 2) by lra. f_equal. field.
Qed.
Print Assumptions C39_extrapolation_refuted.
Example C39_nonvacuous : let f := fun p => match p with [a; b] => 3 * a * b + b | _ => 0 end in
  linear_nd [[1; 2; 4]; [0; 5]] [3; 2]%nat [0; 20; 0; 35; 0; 65] [3; 1] = Some (f [3; 1]) /\ multiaffine (fun p => match p with [a; b] => 3 * a * b + b | _ => 0 end).
Proof.
  intros f. assert (M : multiaffine f).
  { intros pre t post. unfold f. destruct pre as [|a [|b pre]]; destruct post as [|c [|d post]]; simpl; try ring; destruct pre as [|e pre]; simpl; try ring; destruct pre; simpl; ring. }
  split; [|exact M]. assert (T : [0; 20; 0; 35; 0; 65] = table [3; 2]%nat (fun js => f (grid_point [[1; 2; 4]; [0; 5]] js))) by (cbn; repeat (f_equal; try ring)). rewrite T.
  apply (C39_multilinear [[1; 2; 4]; [0; 5]] f [3; 1]).
  - repeat constructor; try (simpl; lia); lra.
  - repeat constructor; simpl; lra.
  - exact M.
Qed.

(** ** C56 *)
Theorem C56_merge : forall left right, StronglySorted Rle left -> StronglySorted Rle right -> exists grid mleft mright,
  merge_grids left right = Some (grid, (mleft, mright)) /\ StronglySorted Rle grid /\ Permutation grid (left ++ right) /\
  length mleft = length grid /\ mright = map negb mleft /\ select mleft grid = left /\ select mright grid = right.
Proof.
  intros left right Hl Hr. destruct (fill_ok _ left right Hl Hr eq_refl) as (g & E & L1 & L2 & S & Sr & Sl & P & _). unfold merge_grids. rewrite mask_ok by auto. rewrite E. eexists. eexists. eexists. split; [reflexivity|].
  repeat split; auto.
  - rewrite map_length. congruence.
  - rewrite map_map. erewrite map_ext; [symmetry; apply map_id|]. intros b. apply negb_involutive.
Qed.
Print Assumptions C56_merge.
(** the right grid must be sorted: otherwise two of its knots can be sent to the same place, and the assignment raises *)
Theorem C56_unsorted_refuted : merge_grids [3] [5; 1] = None.
Proof.
  unfold merge_grids, right_positions, set_true. cbn [length combine seq map fst snd searchsorted].
  assert (A : ltb 3 5 = true) by (apply ltb_spec; lra). assert (B : ltb 3 1 = false) by (apply ltb_false; lra). rewrite A, B. reflexivity.
Qed.
Print Assumptions C56_unsorted_refuted.
Example C56_nonvacuous : exists m, merge_grids [1; 3; 5] [2; 3] = Some ([1; 2; 3; 3; 5], (m, [false; true; true; false; false])).
Proof.
  eexists. unfold merge_grids, right_positions, set_true. cbn [length combine seq map fst snd searchsorted].
  assert (A1 : ltb 1 2 = true) by (apply ltb_spec; lra). assert (A2 : ltb 3 2 = false) by (apply ltb_false; lra). assert (A3 : ltb 1 3 = true) by (apply ltb_spec; lra). assert (A4 : ltb 3 3 = false) by (apply ltb_false; lra).
  rewrite A1, A2, A3, A4. reflexivity.
Qed.
