(** Claim C40. *)
From Coq Require Import List Bool Arith ZArith Lia Reals Lra Sorted.
From Coquelicot Require Import Derive.
From Verif Require Import Interp InterpFacts Splines SplinesSpec SplinesFacts SplinesCubic.
Import ListNotations.
Open Scope R_scope.

Lemma roll_length s l : length (roll s l) = length l.
Proof. unfold roll. rewrite app_length, skipn_length, firstn_length. destruct l as [|a l]; [simpl; lia|]. pose proof (Z.mod_pos_bound (- s) (Z.of_nat (length (a :: l))) ltac:(simpl; lia)). lia. Qed.
Lemma X0_rows x0 degree : (2 <= length x0)%nat -> Forall (fun r => length r = nvars x0 degree) (X0 x0 degree).
Proof.
  intros N. assert (V : (nvarsp degree <= nvars x0 degree)%nat) by (unfold nvars, npolys, npoints; nia). unfold X0. rewrite !Forall_app. split; [|split].
  - unfold value_rows. rewrite Forall_flat_map. intros i _. rewrite Forall_map. apply Forall_forall. intros j _. rewrite roll_length, app_length, map_length, zeros_length, degrees_length. change (degree + 1)%nat with (nvarsp degree). lia.
  - unfold smooth_rows. rewrite Forall_flat_map. intros d _. rewrite Forall_map. apply Forall_forall. intros j J. apply in_seq in J. rewrite roll_length, !app_length, !entries_length, zeros_length. change (degree + 1)%nat with (nvarsp degree).
    assert (2 * nvarsp degree <= nvars x0 degree)%nat by (unfold nvars; nia). lia.
  - unfold end_rows. rewrite Forall_flat_map. intros d _. rewrite Forall_map. apply Forall_forall. intros j _. rewrite roll_length, !app_length, !entries_length, zeros_length. change (degree + 1)%nat with (nvarsp degree). lia.
Qed.
Lemma rows_count x0 degree : (2 <= length x0)%nat -> length (X0 x0 degree) = nvars x0 degree <-> degree = 1%nat \/ degree = 3%nat.
Proof.
  intros N. rewrite X0_length by exact N. unfold nvars, nvarsp, npolys, npoints. set (n := (length x0 - 1)%nat). assert (1 <= n)%nat by (unfold n; lia). clearbody n. destruct degree as [|[|[|d]]].
  - lia.
  - lia.
  - lia.
  - replace (S (S (S d)) - 1)%nat with (S (S d)) by lia. replace (S (S (S d)) - 2)%nat with (S d) by lia. destruct n as [|m]; [lia|]. replace (S m - 1)%nat with m by lia. nia.
Qed.
Lemma concat_chunks v : forall n c, length c = (v * n)%nat -> concat (chunks n v c) = c.
Proof.
  induction n as [|n IH]; intros c L; simpl; [destruct c; [reflexivity|simpl in L; lia]|]. rewrite IH by (rewrite skipn_length; nia). apply firstn_skipn.
Qed.
Lemma chunks_concat v : forall ps, Forall (fun p => length p = v) ps -> chunks (length ps) v (concat ps) = ps.
Proof.
  induction 1 as [|p ps L F IH]; [reflexivity|]. simpl. rewrite firstn_app, skipn_app, <- L, firstn_all, skipn_all, Nat.sub_diag. simpl. rewrite app_nil_r. rewrite L, IH. reflexivity.
Qed.
Lemma concat_length v ps : Forall (fun p : list R => length p = v) ps -> length (concat ps) = (v * length ps)%nat.
Proof. induction 1 as [|p ps L F IH]; [simpl; lia|]. simpl. rewrite app_length, IH, L. lia. Qed.
Lemma spline_lengths x0 y0 d ps : is_spline x0 y0 d ps -> Forall (fun p => length p = (d + 1)%nat) ps.
Proof.
  intros ((L & H) & _). apply Forall_forall. intros p I. apply (In_nth _ _ []) in I. destruct I as (i & I & <-). rewrite L in I. destruct (H i I) as (E & _). lia.
Qed.
(** the system and its solutions *)
Lemma coeffs_iff solve x0 d y0 ps : linear_solver solve -> (2 <= length x0)%nat -> length y0 = length x0 ->
  coeffs x0 d solve y0 = Some ps <-> (d = 1%nat \/ d = 3%nat) /\ is_spline x0 y0 d ps /\ (forall qs, is_spline x0 y0 d qs -> qs = ps).
Proof.
  intros S N L. assert (Nv : nvars x0 d = ((d + 1) * (length x0 - 1))%nat) by reflexivity.
  assert (Cnt : (d = 1 \/ d = 3)%nat -> (length (smooth_rows x0 d ++ end_rows x0 d) = nvars x0 d - 2 * npolys x0)%nat).
  { intros D. apply (rows_count x0 d N) in D. unfold X0 in D. rewrite app_length, value_rows_length in D by exact N. unfold npolys, npoints in *. lia. }
  unfold coeffs. split.
  - intros E. destruct (solve (X0 x0 d) (Y0 x0 d y0)) as [c|] eqn:Ec; [|discriminate]. injection E as <-. apply S in Ec. destruct Ec as (Sq & Lb & Lc & Ec & U).
    assert (Q : length (X0 x0 d) = nvars x0 d).
    { pose proof (X0_rows x0 d N) as R. unfold square in Sq. destruct (X0 x0 d) as [|r A] eqn:EX.
      - pose proof (X0_length x0 d N) as LL. rewrite EX in LL. simpl length in LL. lia.
      - inversion R; inversion Sq; subst; congruence. }
    pose proof (proj1 (rows_count x0 d N) Q) as D. split; [exact D|]. rewrite Q, Nv in *. change (npolys x0) with (length x0 - 1)%nat. change (nvarsp d) with (d + 1)%nat. split.
    + apply (system_iff x0 d N c Lc y0 L), Ec.
    + intros qs HQ. pose proof (spline_lengths _ _ _ _ HQ) as F. assert (Lq : length qs = (length x0 - 1)%nat) by (destruct HQ as ((X & _) & _); exact X).
      pose proof (concat_length _ _ F) as Lcq. rewrite Lq in Lcq. rewrite <- (U (concat qs)); [|exact Lcq|].
      * rewrite <- Lq. symmetry. apply chunks_concat, F.
      * apply (system_iff x0 d N (concat qs) Lcq y0 L). split; [apply Cnt, D|]. rewrite <- Lq at 1. rewrite chunks_concat by exact F. exact HQ.
  - intros (D & HP & U). assert (Q : length (X0 x0 d) = nvars x0 d) by (apply rows_count; assumption).
    pose proof (spline_lengths _ _ _ _ HP) as F. assert (Lp : length ps = (length x0 - 1)%nat) by (destruct HP as ((X & _) & _); exact X).
    pose proof (concat_length _ _ F) as Lcp. rewrite Lp in Lcp. assert (E : solve (X0 x0 d) (Y0 x0 d y0) = Some (concat ps)).
    { apply S. rewrite Q. repeat split.
      - unfold square. rewrite Q. apply X0_rows, N.
      - pose proof (Y0_vals_length x0 d N _ Lcp y0 L) as E1. unfold Y0. rewrite app_length, zeros_length, E1. apply (rows_count x0 d N) in D. rewrite X0_length in D by exact N. unfold npolys, npoints in *. lia.
      - rewrite Lcp, Nv. reflexivity.
      - apply (system_iff x0 d N (concat ps) Lcp y0 L). split; [apply Cnt, D|]. rewrite <- Lp at 1. rewrite chunks_concat by exact F. exact HP.
      - intros c' Lc' Ec'. rewrite Nv in Lc'. apply (system_iff x0 d N c' Lc' y0 L) in Ec'. destruct Ec' as [_ Ec']. apply U in Ec'. rewrite <- Ec'. symmetry. apply concat_chunks, Lc'. }
    rewrite E. simpl. f_equal. change (npolys x0) with (length x0 - 1)%nat. rewrite <- Lp. apply chunks_concat, F.
Qed.

(** ** C40 *)
(** Degrees other than 1 and 3 give a system that is not square, and an exception. *)
Theorem C40_degree : forall solve x0 d y0, linear_solver solve -> (2 <= length x0)%nat -> length y0 = length x0 -> d <> 1%nat -> d <> 3%nat -> coeffs x0 d solve y0 = None.
Proof.
  intros solve x0 d y0 S N L D1 D3. destruct (coeffs x0 d solve y0) as [ps|] eqn:E; [|reflexivity]. apply coeffs_iff in E; try assumption. destruct E as ([->| ->] & _); contradiction.
Qed.
Print Assumptions C40_degree.
(** The coefficients are those of an interpolating natural spline, and of the only one. *)
Theorem C40_conditions : forall solve x0 d y0 ps, linear_solver solve -> (2 <= length x0)%nat -> length y0 = length x0 -> coeffs x0 d solve y0 = Some ps ->
  is_spline x0 y0 d ps /\ (forall qs, is_spline x0 y0 d qs -> qs = ps).
Proof. intros solve x0 d y0 ps S N L E. apply coeffs_iff in E; tauto. Qed.
Print Assumptions C40_conditions.
(** For increasing knots the default (cubic) spline always exists. *)
Theorem C40_cubic : forall solve x0 y0, linear_solver solve -> StronglySorted Rlt x0 -> (2 <= length x0)%nat -> length y0 = length x0 ->
  exists ps, coeffs x0 3 solve y0 = Some ps /\ is_spline x0 y0 3 ps.
Proof.
  intros solve x0 y0 S I N L. destruct (cubic_exists x0 y0 I N) as (ps & P). exists ps. split; [|exact P]. apply coeffs_iff; try assumption. split; [auto|]. split; [exact P|].
  intros qs Q. apply (cubic_unique x0 y0 I N); assumption.
Qed.
Print Assumptions C40_cubic.

Lemma pick_poly_nat x0 x : (2 <= length x0)%nat -> pick_poly x0 x = Z.of_nat (Nat.min (searchsorted false x0 x - 1) (length x0 - 2)).
Proof. intros N. unfold pick_poly, clamp, npoints. lia. Qed.
Lemma pick_bracket x0 x i : StronglySorted Rlt x0 -> (2 <= length x0)%nat -> (i < length x0 - 1)%nat -> (i = 0%nat \/ at_ x0 i < x) -> ((i + 1 = length x0 - 1)%nat \/ x <= at_ x0 (S i)) -> pick_poly x0 x = Z.of_nat i.
Proof.
  intros HS N I A B. rewrite pick_poly_nat by exact N. f_equal. pose proof (ss_le_length false x0 x) as Hl.
  assert (Lo : (i < searchsorted false x0 x \/ i = 0)%nat).
  { destruct A as [->|A]; [right; reflexivity|left]. destruct (Nat.lt_ge_cases i (searchsorted false x0 x)) as [C|C]; [exact C|]. pose proof (ss_above false x0 x i (increasing_sorted _ HS) ltac:(lia)) as D. simpl in D. lra. }
  assert (Up : (searchsorted false x0 x <= S i \/ i + 1 = length x0 - 1)%nat).
  { destruct B as [B|B]; [right; exact B|left]. destruct (Nat.le_gt_cases (searchsorted false x0 x) (S i)) as [C|C]; [exact C|]. pose proof (ss_below false x0 x (S i) C) as D. simpl in D. lra. }
  lia.
Qed.
(** Between two knots (and beyond the first and last ones for the outermost pieces) the value is that of the corresponding piece. *)
Theorem C40_pieces : forall solve x0 d y0 ps x i, linear_solver solve -> StronglySorted Rlt x0 -> (2 <= length x0)%nat -> length y0 = length x0 -> coeffs x0 d solve y0 = Some ps ->
  (i < length x0 - 1)%nat -> (i = 0%nat \/ nth i x0 0 < x) -> ((i + 1 = length x0 - 1)%nat \/ x <= nth (S i) x0 0) ->
  evaluate x0 d solve x y0 = Some (peval (nth i ps []) x).
Proof.
  intros solve x0 d y0 ps x i S I N L E Hi A B. unfold evaluate. rewrite E, (pick_bracket x0 x i I N Hi A B), gather_nat.
  assert (Lp : length ps = (length x0 - 1)%nat) by (apply C40_conditions in E; try assumption; destruct E as (((X & _) & _) & _); exact X).
  rewrite (nth_error_nth' ps [] (n := i)) by lia. simpl. f_equal. apply polyval_peval.
Qed.
Print Assumptions C40_pieces.
Theorem C40_knots : forall solve x0 d y0 ps i, linear_solver solve -> StronglySorted Rlt x0 -> (2 <= length x0)%nat -> length y0 = length x0 -> coeffs x0 d solve y0 = Some ps ->
  (i < length x0)%nat -> evaluate x0 d solve (nth i x0 0) y0 = Some (nth i y0 0).
Proof.
  intros solve x0 d y0 ps i S I N L E Hi. destruct (C40_conditions solve x0 d y0 ps S N L E) as (((Lp & HI) & _) & _).
  destruct i as [|i].
  - rewrite (C40_pieces solve x0 d y0 ps _ 0 S I N L E); [|lia|auto|right; left; apply (increasing_lt x0 0 1 I); lia].
    f_equal. apply (HI 0%nat). lia.
  - rewrite (C40_pieces solve x0 d y0 ps _ i S I N L E); [|lia|right; apply (increasing_lt x0 i (Datatypes.S i) I); lia|right; lra].
    f_equal. apply (HI i). lia.
Qed.
Print Assumptions C40_knots.
(** Values on a straight line are interpolated, and extrapolated, by that line. *)
Theorem C40_affine : forall solve x0 a b x, linear_solver solve -> StronglySorted Rlt x0 -> (2 <= length x0)%nat ->
  evaluate x0 3 solve x (map (fun t => a * t + b) x0) = Some (a * x + b).
Proof.
  intros solve x0 a b x S I N. set (y0 := map (fun t => a * t + b) x0). assert (L : length y0 = length x0) by apply map_length.
  assert (Q : is_spline x0 y0 3 (repeat [0; 0; a; b] (length x0 - 1))).
  { assert (E : forall i, (i < length x0 - 1)%nat -> nth i (repeat [0; 0; a; b] (length x0 - 1)) [] = [0; 0; a; b]).
    { intros i Hi. rewrite (nth_indep _ [] [0; 0; a; b]) by (rewrite repeat_length; exact Hi). apply nth_repeat. }
    assert (Ey : forall i, (i < length x0)%nat -> nth i y0 0 = a * nth i x0 0 + b).
    { intros i Hi. unfold y0. rewrite (nth_indep _ 0 (a * 0 + b)) by (rewrite map_length; exact Hi). rewrite (map_nth (fun t => a * t + b) x0 0 i). reflexivity. }
    split; [split; [apply repeat_length|]|split].
    - intros i Hi. rewrite E by exact Hi. rewrite !Ey by lia. cbn [peval length]. repeat split; ring.
    - intros i d Hi D. rewrite !E by lia. reflexivity.
    - intros d D. assert (d = 2)%nat as -> by lia. rewrite !E by lia. rewrite !d2_cubic. split; ring. }
  destruct (C40_cubic solve x0 y0 S I N L) as (ps & E & P). pose proof (cubic_unique x0 y0 I N _ _ Q P) as Eq.
  assert (Hi : exists i, (i < length x0 - 1)%nat /\ (i = 0%nat \/ nth i x0 0 < x) /\ ((i + 1 = length x0 - 1)%nat \/ x <= nth (Datatypes.S i) x0 0)).
  { pose proof (ss_le_length false x0 x) as Hl. exists (Nat.min (searchsorted false x0 x - 1) (length x0 - 2)). split; [lia|]. split.
    - destruct (Nat.eq_dec (Nat.min (searchsorted false x0 x - 1) (length x0 - 2)) 0) as [Z|Z]; [left; exact Z|right]. apply (ss_below false x0 x). lia.
    - destruct (Nat.le_gt_cases (searchsorted false x0 x) (length x0 - 2)) as [C|C]; [right|left; lia]. apply (ss_above false x0 x); [apply increasing_sorted, I|lia]. }
  destruct Hi as (i & Hi & A & B). rewrite (C40_pieces solve x0 3 y0 ps x i S I N L E Hi A B). f_equal. rewrite <- Eq.
  rewrite (nth_indep _ [] [0; 0; a; b]) by (rewrite repeat_length; exact Hi). rewrite nth_repeat. cbn [peval length]. ring.
Qed.
Print Assumptions C40_affine.
(** Degree 1 is linear interpolation, the same as Linear1dInterpolator. *)
Theorem C40_degree1 : forall solve x0 y0 x, linear_solver solve -> StronglySorted Rlt x0 -> (2 <= length x0)%nat -> length y0 = length x0 ->
  evaluate x0 1 solve x y0 = linear1d x0 y0 x.
Proof.
  intros solve x0 y0 x S I N L. set (sl := fun i => (nth (Datatypes.S i) y0 0 - nth i y0 0) / (nth (Datatypes.S i) x0 0 - nth i x0 0)).
  set (f := fun i => [sl i; nth i y0 0 - sl i * nth i x0 0]). set (ps := map f (seq 0 (length x0 - 1))).
  assert (Lt : forall i, (i < length x0 - 1)%nat -> nth i x0 0 < nth (Datatypes.S i) x0 0) by (intros i Hi; apply (increasing_lt x0 i (Datatypes.S i) I); lia).
  assert (En : forall i, (i < length x0 - 1)%nat -> nth i ps [] = f i).
  { intros i Hi. unfold ps. rewrite (nth_indep _ [] (f 0%nat)) by (rewrite map_length, seq_length; exact Hi). rewrite map_nth, seq_nth by exact Hi. reflexivity. }
  assert (P : is_spline x0 y0 1 ps).
  { split; [split; [unfold ps; rewrite map_length, seq_length; reflexivity|]|split].
    - intros i Hi. rewrite En by exact Hi. pose proof (Lt i Hi). unfold f. cbn [peval length]. repeat split; unfold sl; field; lra.
    - intros i d Hi D. lia.
    - intros d D. lia. }
  assert (E : coeffs x0 1 solve y0 = Some ps).
  { apply coeffs_iff; try assumption. split; [auto|]. split; [exact P|]. intros qs ((Lq & HQ) & _). apply (nth_ext _ _ [] []).
    - rewrite Lq. unfold ps. rewrite map_length, seq_length. reflexivity.
    - rewrite Lq. intros i Hi. rewrite En by exact Hi. destruct (HQ i Hi) as (Lp & A & B). pose proof (Lt i Hi). destruct (nth i qs []) as [|u [|w [|]]]; try discriminate. cbn [peval length] in A, B.
      assert (u = sl i) as ->.
      { unfold sl. rewrite <- A, <- B. field. lra. }
      unfold f. f_equal. f_equal. lra. }
  destruct (linear1d_eq x0 y0 x ltac:(lia) N) as [EL _]. rewrite EL. clear EL. set (i := Nat.min (searchsorted true x0 x - 1) (length x0 - 2)). rewrite Nat.add_1_r.
  assert (Hi : (i < length x0 - 1)%nat) by (unfold i; lia). pose proof (ss_le_length true x0 x) as Hl.
  assert (A : i = 0%nat \/ nth i x0 0 <= x).
  { destruct (Nat.eq_dec i 0) as [Z|Z]; [left; exact Z|right]. apply (ss_below true x0 x). unfold i in *. lia. }
  assert (B : (i + 1 = length x0 - 1)%nat \/ x < nth (Datatypes.S i) x0 0).
  { destruct (Nat.le_gt_cases (searchsorted true x0 x) (length x0 - 2)) as [C|C]; [right|left; unfold i; lia]. apply (ss_above true x0 x); [apply increasing_sorted, I|unfold i; lia]. }
  clearbody i. destruct (Req_EM_T x (nth i x0 0)) as [Eq|Ne].
  - rewrite Eq. rewrite (C40_knots solve x0 1 y0 ps i S I N L E ltac:(lia)). f_equal. ring.
  - rewrite (C40_pieces solve x0 1 y0 ps x i S I N L E Hi).
    + f_equal. rewrite En by exact Hi. unfold f. cbn [peval length]. fold (sl i). ring.
    + destruct A as [A|A]; [left; exact A|right; lra].
    + destruct B as [B|B]; [left; exact B|right; lra].
Qed.
Print Assumptions C40_degree1.

(** ** weights *)
Lemma A_row_dot : forall y r, (2 <= length y)%nat -> length r = (2 * (length y - 1))%nat ->
  dot r (removelast (tl (interleave2 y))) = dot (hd 0 r :: add_pairs (removelast (tl r)) ++ [last r 0]) y /\ length (hd 0 r :: add_pairs (removelast (tl r)) ++ [last r 0]) = length y.
Proof.
  induction y as [|a y IH]; intros r N L; [simpl in N; lia|]. destruct y as [|b y]; [simpl in N; lia|].
  destruct r as [|p [|q r]]; try (simpl in L; lia). destruct y as [|c y].
  - destruct r; [|simpl in L; lia]. split; reflexivity.
  - destruct r as [|p' [|q' r]]; try (simpl in L; lia). destruct (IH (p' :: q' :: r) ltac:(simpl; lia) ltac:(simpl in *; lia)) as [E1 E2].
    change (removelast (tl (interleave2 (a :: b :: c :: y)))) with (a :: b :: removelast (tl (interleave2 (b :: c :: y)))).
    change (hd 0 (p :: q :: p' :: q' :: r) :: add_pairs (removelast (tl (p :: q :: p' :: q' :: r))) ++ [last (p :: q :: p' :: q' :: r) 0])
      with (p :: (q + p') :: (add_pairs (removelast (q' :: r)) ++ [last (p' :: q' :: r) 0])).
    change (hd 0 (p' :: q' :: r) :: add_pairs (removelast (tl (p' :: q' :: r))) ++ [last (p' :: q' :: r) 0]) with (p' :: (add_pairs (removelast (q' :: r)) ++ [last (p' :: q' :: r) 0])) in *.
    rewrite !dot_cons, E1, dot_cons. split; [ring|]. simpl in E2 |- *. rewrite E2. reflexivity.
Qed.
Lemma dot_firstn r c k : length c = k -> dot r c = dot (firstn k r) c.
Proof. intros <-. revert r. induction c as [|b c IH]; intros [|a r]; simpl; try reflexivity. rewrite !dot_cons, IH. reflexivity. Qed.
Lemma dot_pad r c k : (length c <= length r)%nat -> dot r (c ++ zeros k) = dot r c.
Proof.
  intros L. rewrite <- (firstn_skipn (length c) r) at 1. rewrite dot_app by (rewrite firstn_length; lia).
  rewrite <- dot_firstn by reflexivity. assert (Z : forall k u, dot u (zeros k) = 0). { clear. induction k as [|k IH]; intros [|a u]; try reflexivity. change (zeros (S k)) with (0 :: zeros k). rewrite dot_cons, IH. ring. } rewrite Z. ring.
Qed.
Lemma dot_linear (f g : nat -> R) : forall l y, dot (map (fun j => f j + g j) l) y = dot (map f l) y + dot (map g l) y.
Proof. induction l as [|j l IH]; intros [|a y]; simpl map; rewrite ?dot_nil_r; try (unfold dot; simpl; ring). rewrite !dot_cons, IH. ring. Qed.
Lemma map_nth_seq r : forall k, k = length r -> map (fun j => nth j r 0) (seq 0 k) = r.
Proof.
  intros k ->. induction r as [|a r IH]; [reflexivity|]. simpl. f_equal. rewrite <- seq_shift, map_map. exact IH.
Qed.
Lemma peval_columns y x N : forall block, Forall (fun r => length r = N) block ->
  dot (map (fun j => peval (map (fun r => nth j r 0) block) x) (seq 0 N)) y = peval (map (fun r => dot r y) block) x.
Proof.
  induction 1 as [|r block L F IH].
  - simpl. clear. generalize 0%nat. revert y. induction N as [|N IH]; intros y a; [reflexivity|]. simpl. destruct y; [reflexivity|]. rewrite dot_cons, IH. ring.
  - simpl. rewrite map_length. rewrite (map_ext _ (fun j => nth j r 0 * x ^ length block + peval (map (fun r => nth j r 0) block) x)) by (intros; rewrite map_length; reflexivity). rewrite (dot_linear (fun j => nth j r 0 * x ^ length block) (fun j => peval (map (fun r => nth j r 0) block) x)), IH. f_equal.
    rewrite (map_ext _ (fun j => x ^ length block * nth j r 0)) by (intros; ring). rewrite (dot_map_scal (x ^ length block) (fun j => nth j r 0)), map_nth_seq by (symmetry; exact L). ring.
Qed.
Lemma Y0_length x0 d y0 : (2 <= length x0)%nat -> length y0 = length x0 -> length (X0 x0 d) = nvars x0 d -> length (Y0 x0 d y0) = nvars x0 d /\ (2 * (length x0 - 1) <= nvars x0 d)%nat.
Proof.
  intros N L Q. pose proof (X0_length x0 d N) as QL. unfold Y0. rewrite app_length, zeros_length, Y0_values, (const_flat_map_length _ 2), seq_length, L by reflexivity. unfold npolys, npoints. generalize dependent ((d - 1) * (length x0 - 1 - 1))%nat. intros k QL. lia.
Qed.
Lemma square_X0 x0 d : (2 <= length x0)%nat -> square (X0 x0 d) -> length (X0 x0 d) = nvars x0 d.
Proof.
  intros N Sq. pose proof (X0_rows x0 d N) as R. unfold square in Sq. destruct (X0 x0 d) as [|r A] eqn:EX.
  - pose proof (X0_length x0 d N) as LL. rewrite EX in LL. simpl length in LL. lia.
  - inversion R; inversion Sq; subst; congruence.
Qed.
Lemma In_skipn {T} (a : T) k l : In a (skipn k l) -> In a l.
Proof. intros H. rewrite <- (firstn_skipn k l). apply in_or_app. right. exact H. Qed.
Lemma In_firstn {T} (a : T) k l : In a (firstn k l) -> In a l.
Proof. intros H. rewrite <- (firstn_skipn k l). apply in_or_app. left. exact H. Qed.
Lemma weights_eval solve inverse x0 d x w : linear_solver solve -> matrix_inverter inverse -> (2 <= length x0)%nat -> weights x0 d inverse x = Some w ->
  length w = length x0 /\ forall y0, length y0 = length x0 -> (exists ps, coeffs x0 d solve y0 = Some ps) /\ evaluate x0 d solve x y0 = Some (dot w y0).
Proof.
  intros S V N. unfold weights, A. destruct (inverse (X0 x0 d)) as [B|] eqn:EB; [|discriminate]. simpl. destruct (V _ _ EB) as (Sq & SqB & LB & Inv).
  pose proof (square_X0 x0 d N Sq) as Q. rewrite (pick_poly_nat x0 x N). set (i := Nat.min (searchsorted false x0 x - 1) (length x0 - 2)). assert (Hi : (i < length x0 - 1)%nat) by (unfold i; lia).
  intros E. assert (Ew : w = map (fun j => polyval (map (fun r => nth j r 0) (firstn (nvarsp d) (skipn (Z.to_nat (Z.of_nat i) * nvarsp d) (map (A_row x0) B)))) x) (seq 0 (npoints x0))).
  { destruct (Z.of_nat i) eqn:Z; [injection E as <-; reflexivity|injection E as <-; reflexivity|lia]. }
  clear E. rewrite Nat2Z.id in Ew. split; [rewrite Ew, map_length, seq_length; reflexivity|]. intros y0 L.
  destruct (Y0_length x0 d y0 N L Q) as [LY NY].
  assert (Es : solve (X0 x0 d) (Y0 x0 d y0) = Some (mv B (Y0 x0 d y0))).
  { apply S. rewrite Q in *. repeat split; try assumption.
    - unfold mv. rewrite map_length, LB. reflexivity.
    - apply Inv. exact LY.
    - intros c' Lc Ec. rewrite <- Ec. symmetry. apply Inv. exact Lc. }
  split; [unfold coeffs; rewrite Es; eexists; reflexivity|].
  unfold evaluate, coeffs. rewrite Es. simpl. rewrite (pick_poly_nat x0 x N). fold i. rewrite gather_nat.
  rewrite (nth_error_nth' _ []) by (rewrite chunks_length; exact Hi). simpl. rewrite chunks_nth by exact Hi. f_equal. rewrite polyval_peval, Ew.
  rewrite (map_ext _ (fun j => peval (map (fun r => nth j r 0) (firstn (nvarsp d) (skipn (i * nvarsp d) (map (A_row x0) B)))) x)) by (intros; apply polyval_peval).
  assert (HA : forall r, In r B -> length (A_row x0 r) = npoints x0 /\ dot (A_row x0 r) y0 = dot r (Y0 x0 d y0)).
  { intros r Hr. unfold square in SqB. rewrite Forall_forall in SqB. specialize (SqB r Hr). rewrite LB, Q in SqB.
    destruct (A_row_dot y0 (firstn (2 * npolys x0) r)) as [E1 E2]; [lia|rewrite firstn_length; unfold npolys, npoints in *; lia|]. unfold A_row. split; [rewrite E2; exact L|].
    rewrite <- E1. unfold Y0. rewrite dot_pad, (dot_firstn r _ (2 * npolys x0)); [reflexivity| |].
    - rewrite Y0_values, (const_flat_map_length _ 2), seq_length, L by reflexivity. unfold npolys, npoints. lia.
    - rewrite Y0_values, (const_flat_map_length _ 2), seq_length, L by reflexivity. lia. }
  rewrite peval_columns.
  - unfold piece, mv. rewrite !skipn_map, !firstn_map, map_map. f_equal.
    apply map_ext_in. intros r Hr. symmetry. apply HA. eapply In_skipn, In_firstn, Hr.
  - apply Forall_forall. intros r Hr. apply In_firstn, In_skipn, in_map_iff in Hr. destruct Hr as (r' & <- & Hr). apply HA, Hr.
Qed.
(** The weights that multiply the values: whenever they are computed, the weighted sum is the value of the spline, whatever the values at the knots. *)
Theorem C40_weights : forall solve inverse x0 d x w y0, linear_solver solve -> matrix_inverter inverse -> (2 <= length x0)%nat -> length y0 = length x0 -> weights x0 d inverse x = Some w ->
  evaluate x0 d solve x y0 = Some (dot w y0).
Proof. intros solve inverse x0 d x w y0 S V N L E. apply (weights_eval solve inverse x0 d x w S V N E), L. Qed.
Print Assumptions C40_weights.

Definition unit (n k : nat) : list R := map (fun j => if Nat.eqb j k then 1 else 0) (seq 0 n).
Lemma unit_nth n k j : (j < n)%nat -> nth j (unit n k) 0 = if Nat.eqb j k then 1 else 0.
Proof.
  intros H. unfold unit. set (f := fun j => if Nat.eqb j k then 1 else 0). rewrite (nth_indep _ 0 (f 0%nat)) by (rewrite map_length, seq_length; exact H).
  rewrite map_nth, seq_nth by exact H. reflexivity.
Qed.
Lemma unit_length n k : length (unit n k) = n. Proof. unfold unit. rewrite map_length, seq_length. reflexivity. Qed.
Lemma dot_sum : forall w y, length w = length y -> dot w y = fold_right Rplus 0 (map (fun j => nth j w 0 * nth j y 0) (seq 0 (length w))).
Proof.
  induction w as [|a w IH]; intros [|b y] L; try discriminate; [reflexivity|]. rewrite dot_cons, IH by (simpl in L; lia). simpl. f_equal. rewrite <- seq_shift, map_map. reflexivity.
Qed.
Lemma sum_zero (f : nat -> R) l : (forall j, In j l -> f j = 0) -> fold_right Rplus 0 (map f l) = 0.
Proof. induction l as [|j l IH]; intros H; [reflexivity|]. simpl. rewrite IH by (intros; apply H; simpl; auto). rewrite H by (simpl; auto). ring. Qed.
Lemma sum_single (f : nat -> R) k l : NoDup l -> In k l -> (forall j, In j l -> j <> k -> f j = 0) -> fold_right Rplus 0 (map f l) = f k.
Proof.
  induction 1 as [|j l NI ND IH]; intros I H; [contradiction|]. simpl. destruct I as [->|I].
  - rewrite sum_zero; [ring|]. intros i Hi. apply H; [right; exact Hi|]. intros ->. contradiction.
  - rewrite IH; [|exact I|intros; apply H; simpl; auto]. rewrite H; [ring|left; reflexivity|]. intros ->. contradiction.
Qed.
Lemma weights_knot solve inverse x0 d k w : linear_solver solve -> matrix_inverter inverse -> StronglySorted Rlt x0 -> (2 <= length x0)%nat -> (k < length x0)%nat -> weights x0 d inverse (nth k x0 0) = Some w ->
  w = unit (length x0) k.
Proof.
  intros S V I N K E. destruct (weights_eval solve inverse x0 d _ w S V N E) as [Lw H]. apply (nth_ext _ _ 0 0); [rewrite unit_length; exact Lw|]. rewrite Lw. intros j J.
  destruct (H (unit (length x0) j) (unit_length _ _)) as [(ps & Ep) Ev]. rewrite (C40_knots solve x0 d _ ps k S I N (unit_length _ _) Ep K) in Ev. apply Some_inj in Ev.
  rewrite !unit_nth in * by assumption. rewrite dot_sum in Ev by (rewrite unit_length; exact Lw). rewrite (sum_single _ j) in Ev.
  - rewrite unit_nth, Nat.eqb_refl, Rmult_1_r in Ev by exact J. rewrite <- Ev. rewrite Nat.eqb_sym. reflexivity.
  - apply seq_NoDup.
  - apply in_seq. lia.
  - intros i Hi Ne. apply in_seq in Hi. rewrite unit_nth by lia. destruct (Nat.eqb_spec i j); [contradiction|ring].
Qed.
Lemma tensor_units : forall ns ks (y0 : list nat -> R), Forall2 (fun n k => (k < n)%nat) ns ks -> tensor_sum (map (fun p => unit (fst p) (snd p)) (combine ns ks)) y0 = y0 ks.
Proof.
  intros ns ks y0 F. revert y0. induction F as [|n k ns ks H F IH]; intros y0; [reflexivity|]. simpl. rewrite unit_length.
  rewrite (sum_single _ k); [|apply seq_NoDup|apply in_seq; lia|].
  - rewrite unit_nth, Nat.eqb_refl, IH by exact H. ring.
  - intros j J Ne. apply in_seq in J. rewrite unit_nth by lia. destruct (Nat.eqb_spec j k); [contradiction|ring].
Qed.
(** In any number of dimensions, the spline takes the value of the table at every grid point, *)
Theorem C40_nd_grid_points : forall solve inverse d x0s ks y0 t, linear_solver solve -> matrix_inverter inverse ->
  Forall2 (fun x0 k => StronglySorted Rlt x0 /\ (2 <= length x0)%nat /\ (k < length x0)%nat) x0s ks ->
  spline_nd d inverse x0s y0 (map (fun p => nth (snd p) (fst p) 0) (combine x0s ks)) = Some t -> t = y0 ks.
Proof.
  intros solve inverse d x0s ks y0 t S V F. unfold spline_nd. set (l := combine x0s _). intros E. destruct (all_some _) as [ws|] eqn:Ew; [|discriminate]. apply Some_inj in E. subst t.
  assert (Es : ws = map (fun p => unit (fst p) (snd p)) (combine (map (@length R) x0s) ks)).
  { subst l. revert ws Ew. induction F as [|x0 k x0s ks (I & N & K) F IH]; intros ws Ew; [simpl in Ew; apply Some_inj in Ew; subst; reflexivity|].
    simpl in Ew. destruct (weights x0 d inverse (nth k x0 0)) as [w|] eqn:E1; [|discriminate]. destruct (all_some _) as [ws'|] eqn:E2; [|discriminate]. simpl in Ew. apply Some_inj in Ew. subst ws.
    simpl. f_equal; [apply (weights_knot solve inverse x0 d k w S V I N K E1)|apply IH; reflexivity]. }
  rewrite Es. apply tensor_units. clear -F. induction F as [|x0 k x0s ks (_ & _ & K) F IH]; constructor; auto.
Qed.
Print Assumptions C40_nd_grid_points.
(** and for a table that is a product of one-dimensional tables it is the product of the one-dimensional splines.  [qs] lists, per dimension, knots, query and table. *)
Definition product_table (fs : list (list R)) (js : list nat) : R := fold_right Rmult 1 (map (fun p => nth (snd p) (fst p) 0) (combine fs js)).
Lemma tensor_ext : forall w y y', (forall js, y js = y' js) -> tensor_sum w y = tensor_sum w y'.
Proof. induction w as [|wk w IH]; intros y y' H; [apply H|]. simpl. f_equal. apply map_ext. intros i. f_equal. apply IH. intros js. apply H. Qed.
Lemma tensor_scal : forall w a y, tensor_sum w (fun js => a * y js) = a * tensor_sum w y.
Proof.
  induction w as [|wk w IH]; intros a y; [reflexivity|]. simpl. rewrite (map_ext _ (fun i => a * (nth i wk 0 * tensor_sum w (fun js => y (i :: js))))) by (intros i; rewrite (IH a (fun js => y (i :: js))); ring).
  induction (seq 0 (length wk)) as [|i l IHl]; simpl; [ring|]. rewrite IHl. ring.
Qed.
Theorem C40_nd_product : forall solve inverse d (qs : list (list R * R * list R)) t, linear_solver solve -> matrix_inverter inverse ->
  Forall (fun q => (2 <= length (fst (fst q)))%nat /\ length (snd q) = length (fst (fst q))) qs ->
  spline_nd d inverse (map (fun q => fst (fst q)) qs) (product_table (map snd qs)) (map (fun q => snd (fst q)) qs) = Some t ->
  exists vs, Forall2 (fun q v => evaluate (fst (fst q)) d solve (snd (fst q)) (snd q) = Some v) qs vs /\ t = fold_right Rmult 1 vs.
Proof.
  intros solve inverse d qs t S V F. revert t. induction F as [|[[x0 x] f] qs [N L] F IH]; intros t E; unfold spline_nd in *; simpl in *.
  - apply Some_inj in E. subst t. exists []. split; [constructor|reflexivity].
  - destruct (weights x0 d inverse x) as [w|] eqn:E1; [|discriminate]. destruct (all_some _) as [ws|] eqn:E2; [|discriminate]. simpl in E. apply Some_inj in E.
    destruct (IH _ eq_refl) as (vs & Fv & Et). exists (dot w f :: vs). split; [constructor; [exact (C40_weights solve inverse x0 d x w f S V N L E1)|exact Fv]|].
    rewrite <- E. simpl. rewrite <- Et. destruct (weights_eval solve inverse x0 d x w S V N E1) as [Lw _]. rewrite (dot_sum w f) by congruence.
    assert (K : forall l, fold_right Rplus 0 (map (fun i => nth i w 0 * tensor_sum ws (fun js => product_table (f :: map snd qs) (i :: js))) l) = fold_right Rplus 0 (map (fun j => nth j w 0 * nth j f 0) l) * tensor_sum ws (product_table (map snd qs))).
    { induction l as [|i l IHl]; simpl; [ring|]. rewrite IHl. rewrite (tensor_ext ws _ (fun js => nth i f 0 * product_table (map snd qs) js)) by reflexivity. rewrite tensor_scal. ring. }
    apply K.
Qed.
Print Assumptions C40_nd_product.

(** ** The hypotheses can be met *)
(** There is a solver, *)
From Coq Require Import Description Classical.
Example C40_nonvacuous_solver : exists solve, linear_solver solve.
Proof.
  set (good := fun A b c => square A /\ length b = length A /\ length c = length A /\ mv A c = b /\ (forall c', length c' = length A -> mv A c' = b -> c' = c)).
  assert (H : forall p : list (list R) * list R, exists! o : option (list R), match o with Some c => good (fst p) (snd p) c | None => ~ exists c, good (fst p) (snd p) c end).
  { intros [A b]. simpl. destruct (classic (exists c, good A b c)) as [(c & G)|G].
    - exists (Some c). split; [exact G|]. intros [c'|] G'; [|exfalso; apply G'; exists c; exact G]. f_equal. destruct G as (_ & _ & _ & _ & U). destruct G' as (_ & _ & L' & E' & _). symmetry. apply U; assumption.
    - exists None. split; [exact G|]. intros [c'|] G'; [|reflexivity]. exfalso. apply G. exists c'. exact G'. }
  exists (fun A b => proj1_sig (constructive_definite_description _ (H (A, b)))). intros A b c. destruct (constructive_definite_description _ (H (A, b))) as [[c'|] G]; simpl in *.
  - split; [intros E; apply Some_inj in E; subst; exact G|]. intros (_ & _ & L & E & _). f_equal. symmetry. destruct G as (_ & _ & _ & _ & U). apply U; assumption.
  - split; [discriminate|]. intros G'. exfalso. apply G. exists c. exact G'.
Qed.
(** an inverter that handles the cubic spline on two knots, *)
Example C40_nonvacuous_inverter : exists inverse, matrix_inverter inverse /\ exists w, weights [0; 1] 3 inverse (1 / 2) = Some w /\ w = [1 / 2; 1 / 2].
Proof.
  set (M := [[0; 0; 0; 1]; [1; 1; 1; 1]; [0; 2; 0; 0]; [6; 2; 0; 0]]). set (B := [[0; 0; -1/6; 1/6]; [0; 0; 1/2; 0]; [-1; 1; -1/3; -1/6]; [1; 0; 0; 0]]).
  exists (fun A => if list_eq_dec (list_eq_dec Req_EM_T) A M then Some B else None). split.
  - intros A B' E. destruct (list_eq_dec _ A M) as [->|]; [|discriminate]. apply Some_inj in E. subst B'. unfold square, M, B. simpl length. repeat split; try (repeat constructor).
    + destruct c as [|c1 [|c2 [|c3 [|c4 [|]]]]]; try discriminate. unfold mv, dot. simpl. f_equal; [field|f_equal; [field|f_equal; [field|f_equal; field]]].
    + destruct c as [|c1 [|c2 [|c3 [|c4 [|]]]]]; try discriminate. unfold mv, dot. simpl. f_equal; [field|f_equal; [field|f_equal; [field|f_equal; field]]].
  - assert (EX : X0 [0; 1] 3 = M).
    { unfold X0, value_rows, smooth_rows, end_rows, deriv_entries, knot, polyderiv_coeff, M. unfold roll. simpl. repeat (match goal with |- _ :: _ = _ :: _ => apply f_equal2 | |- @eq R _ _ => ring | |- [] = [] => reflexivity end). }
    unfold weights, A. rewrite EX. destruct (list_eq_dec _ M M); [|contradiction]. simpl option_map.
    assert (EP : pick_poly [0; 1] (1 / 2) = 0%Z).
    { apply (pick_bracket [0; 1] (1 / 2) 0); [repeat constructor; lra|simpl; lia|simpl; lia|auto|left; reflexivity]. }
    rewrite EP. eexists. split; [reflexivity|]. unfold polyval, B. simpl. f_equal; [field|f_equal; field].
Qed.
(** and a cubic spline that is not a straight line: through (0, 0), (1, 1), (2, 0). *)
Example C40_nonvacuous : is_spline [0; 1; 2] [0; 1; 0] 3 [[-1/2; 0; 3/2; 0]; [1/2; -3; 9/2; -1]].
Proof.
  unfold is_spline, interpolates, smooth, natural. cbn [length nth Nat.sub]. split; [split; [reflexivity|]|split].
  - intros [|[|i]] H; [| |lia]; cbn [nth peval length]; repeat split; field.
  - intros [|i] d H D; [|lia]. cbn [nth]. destruct d as [|[|[|d]]]; try lia; [rewrite !d1_cubic|rewrite !d2_cubic]; field.
  - intros d D. assert (d = 2)%nat as -> by lia. rewrite !d2_cubic. split; field.
Qed.
