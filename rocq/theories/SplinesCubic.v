(** The natural cubic spline exists and is unique (shooting for the second derivatives). *)
From Coq Require Import List Bool Arith ZArith Lia Reals Lra Sorted.
From Coquelicot Require Import Hierarchy Derive ElemFct.
From Verif Require Import Interp InterpFacts Splines SplinesSpec SplinesFacts.
Import ListNotations.
Open Scope R_scope.

(** ** a tridiagonal system *)
Section Tri.
Variables (h r : nat -> R) (n : nat).
Hypothesis Hh : forall i, (i < n)%nat -> 0 < h i.
Definition tri (M : nat -> R) : Prop := forall i, (S i < n)%nat -> h i * M i + 2 * (h i + h (S i)) * M (S i) + h (S i) * M (S (S i)) = r i.
End Tri.
Fixpoint shoot2 (h r : nat -> R) (t : R) (i : nat) : R * R :=
  match i with
  | O => (0, t)
  | S j => let p := shoot2 h r t j in (snd p, (r j - h j * fst p - 2 * (h j + h (S j)) * snd p) / h (S j))
  end.
Definition shoot h r t i := fst (shoot2 h r t i).
Lemma shoot_0 h r t : shoot h r t 0 = 0. Proof. reflexivity. Qed.
Lemma shoot_1 h r t : shoot h r t 1 = t. Proof. reflexivity. Qed.
Lemma shoot_SS h r t i : shoot h r t (S (S i)) = (r i - h i * shoot h r t i - 2 * (h i + h (S i)) * shoot h r t (S i)) / h (S i).
Proof. reflexivity. Qed.
Lemma shoot_tri h r n t : (forall i, (i < n)%nat -> 0 < h i) -> tri h r n (shoot h r t).
Proof. intros H i I. rewrite shoot_SS. specialize (H (S i) I). field. lra. Qed.
Lemma tri_shoot h r n M : (forall i, (i < n)%nat -> 0 < h i) -> tri h r n M -> M 0%nat = 0 -> forall i, (i <= n)%nat -> M i = shoot h r (M 1%nat) i.
Proof.
  intros H T M0. assert (K : forall i, (S i <= n)%nat -> M i = shoot h r (M 1%nat) i /\ M (S i) = shoot h r (M 1%nat) (S i)).
  { induction i as [|i IH]; intros I; [rewrite shoot_0, shoot_1; auto|]. destruct (IH ltac:(lia)) as [A B]. split; [exact B|].
    rewrite shoot_SS, <- A, <- B. pose proof (T i I) as E. specialize (H (S i) I). apply (Rmult_eq_reg_l (h (S i))); [|lra]. field_simplify; [|lra]. lra. }
  intros [|i] I; [rewrite M0; reflexivity|]. apply K, I.
Qed.
Lemma shoot_affine h r t i : shoot h r t i = shoot h r 0 i + t * shoot h (fun _ => 0) 1 i.
Proof.
  assert (K : shoot h r t i = shoot h r 0 i + t * shoot h (fun _ => 0) 1 i /\ shoot h r t (S i) = shoot h r 0 (S i) + t * shoot h (fun _ => 0) 1 (S i)).
  { induction i as [|i [A B]]; [rewrite !shoot_0, !shoot_1; split; ring|]. split; [exact B|]. rewrite !shoot_SS, A, B. unfold Rdiv. ring. }
  apply K.
Qed.
Lemma shoot_grows h n : (forall i, (i < n)%nat -> 0 < h i) -> forall i, (S i <= n)%nat -> 2 * Rabs (shoot h (fun _ => 0) 1 i) <= Rabs (shoot h (fun _ => 0) 1 (S i)) /\ 1 <= Rabs (shoot h (fun _ => 0) 1 (S i)).
Proof.
  intros H. induction i as [|i IH]; intros I.
  - rewrite shoot_0, shoot_1, Rabs_R0, Rabs_R1. lra.
  - destruct (IH ltac:(lia)) as [A B]. assert (H0 := H i ltac:(lia)). assert (H1 := H (S i) I). rewrite shoot_SS. set (b0 := shoot h (fun _ => 0) 1 i) in *. set (b1 := shoot h (fun _ => 0) 1 (S i)) in *.
    assert (K : 2 * Rabs b1 <= Rabs ((0 - h i * b0 - 2 * (h i + h (S i)) * b1) / h (S i))); [|lra].
    unfold Rdiv. rewrite Rabs_mult, Rabs_inv, (Rabs_pos_eq (h (S i))) by lra. apply (Rmult_le_reg_r (h (S i))); [exact H1|]. match goal with |- _ <= ?u * / ?w * ?w => replace (u * / w * w) with u by (field; lra) end.
    replace (0 - h i * b0 - 2 * (h i + h (S i)) * b1) with (- (h i * b0 + 2 * (h i + h (S i)) * b1)) by ring. rewrite Rabs_Ropp.
    assert (T : Rabs (2 * (h i + h (S i)) * b1) <= Rabs (h i * b0 + 2 * (h i + h (S i)) * b1) + Rabs (h i * b0)).
    { replace (2 * (h i + h (S i)) * b1) with ((h i * b0 + 2 * (h i + h (S i)) * b1) - h i * b0) at 1 by ring. eapply Rle_trans; [apply Rabs_triang|]. rewrite Rabs_Ropp. lra. }
    rewrite Rabs_mult, (Rabs_pos_eq (2 * (h i + h (S i)))) in T by lra. rewrite (Rabs_mult (h i) b0), (Rabs_pos_eq (h i)) in T by lra.
    assert (h i * Rabs b0 <= h i * Rabs b1) by (apply Rmult_le_compat_l; [lra|]; pose proof (Rabs_pos b0); lra).
    assert (0 <= h i * Rabs b1) by (apply Rmult_le_pos; [lra|apply Rabs_pos]). lra.
Qed.
Lemma tri_exists h r n : (1 <= n)%nat -> (forall i, (i < n)%nat -> 0 < h i) -> exists M, tri h r n M /\ M 0%nat = 0 /\ M n = 0.
Proof.
  intros N H. pose proof (shoot_grows h n H (n - 1) ltac:(lia)) as [_ B]. replace (S (n - 1)) with n in B by lia.
  assert (b0 : shoot h (fun _ => 0) 1 n <> 0) by (intros E; rewrite E, Rabs_R0 in B; lra).
  exists (shoot h r (- shoot h r 0 n / shoot h (fun _ => 0) 1 n)). split; [apply shoot_tri, H|]. split; [apply shoot_0|]. rewrite shoot_affine. field. exact b0.
Qed.
Lemma tri_unique h r n M M' : (1 <= n)%nat -> (forall i, (i < n)%nat -> 0 < h i) -> tri h r n M -> M 0%nat = 0 -> M n = 0 -> tri h r n M' -> M' 0%nat = 0 -> M' n = 0 ->
  forall i, (i <= n)%nat -> M i = M' i.
Proof.
  intros N H T M0 Mn T' M0' Mn' i I. pose proof (shoot_grows h n H (n - 1) ltac:(lia)) as [_ B]. replace (S (n - 1)) with n in B by lia.
  assert (b0 : shoot h (fun _ => 0) 1 n <> 0) by (intros E; rewrite E, Rabs_R0 in B; lra).
  assert (E : M 1%nat = M' 1%nat).
  { rewrite (tri_shoot h r n M H T M0 n (le_n n)), shoot_affine in Mn. rewrite (tri_shoot h r n M' H T' M0' n (le_n n)), shoot_affine in Mn'.
    apply (Rmult_eq_reg_r (shoot h (fun _ => 0) 1 n)); [lra|exact b0]. }
  rewrite (tri_shoot h r n M H T M0 i I), (tri_shoot h r n M' H T' M0' i I), E. reflexivity.
Qed.

(** ** one cubic piece *)
Lemma d1_cubic a b c d x : Derive_n (peval [a; b; c; d]) 1 x = 3 * a * x ^ 2 + 2 * b * x + c.
Proof. rewrite Derive_peval by lia. unfold deriv_list, dot, polyderiv_coeff. simpl. ring. Qed.
Lemma d2_cubic a b c d x : Derive_n (peval [a; b; c; d]) 2 x = 6 * a * x + 2 * b.
Proof. rewrite Derive_peval by lia. unfold deriv_list, dot, polyderiv_coeff. simpl. ring. Qed.
(** from the values and the second derivatives at the two ends *)
Definition hermite (x x' y y' m m' : R) : list R :=
  let a := (m' - m) / (6 * (x' - x)) in let b := (m * x' - m' * x) / (2 * (x' - x)) in
  let r := y - a * x ^ 3 - b * x ^ 2 in let r' := y' - a * x' ^ 3 - b * x' ^ 2 in
  [a; b; (r' - r) / (x' - x); r - (r' - r) / (x' - x) * x].
Lemma hermite_spec x x' y y' m m' : x < x' -> let p := hermite x x' y y' m m' in
  peval p x = y /\ peval p x' = y' /\ Derive_n (peval p) 2 x = m /\ Derive_n (peval p) 2 x' = m' /\
  Derive_n (peval p) 1 x = (y' - y) / (x' - x) - (x' - x) * (2 * m + m') / 6 /\ Derive_n (peval p) 1 x' = (y' - y) / (x' - x) + (x' - x) * (m + 2 * m') / 6.
Proof.
  intros L p. unfold p, hermite. cbv zeta. rewrite !d2_cubic, !d1_cubic. cbn [peval length]. repeat split; try (field; lra); rewrite ?Rmult_0_r; field; lra.
Qed.
Lemma hermite_unique x x' y y' m m' p : x < x' -> length p = 4%nat -> peval p x = y -> peval p x' = y' -> Derive_n (peval p) 2 x = m -> Derive_n (peval p) 2 x' = m' -> p = hermite x x' y y' m m'.
Proof.
  intros L Lp. destruct p as [|a [|b [|c [|d [|]]]]]; try discriminate. rewrite !d2_cubic. cbn [peval length]. intros <- <- <- <-.
  assert (Ea : a = (6 * a * x' + 2 * b - (6 * a * x + 2 * b)) / (6 * (x' - x))) by (field; lra).
  assert (Eb : b = ((6 * a * x + 2 * b) * x' - (6 * a * x' + 2 * b) * x) / (2 * (x' - x))) by (field; lra).
  unfold hermite. cbv zeta. rewrite <- Ea, <- Eb.
  f_equal. f_equal. assert (Ec : c = (a * x' ^ 3 + (b * x' ^ 2 + (c * x' ^ 1 + (d * x' ^ 0 + 0))) - a * x' ^ 3 - b * x' ^ 2 - (a * x ^ 3 + (b * x ^ 2 + (c * x ^ 1 + (d * x ^ 0 + 0))) - a * x ^ 3 - b * x ^ 2)) / (x' - x)) by (field; lra).
  rewrite <- Ec. f_equal. f_equal. ring.
Qed.

(** ** the spline *)
Section Cubic.
Variables (x0 y0 : list R).
Hypothesis Hx : increasing x0.
Hypothesis Hn : (2 <= length x0)%nat.
Let n := (length x0 - 1)%nat.
Notation X i := (at_ x0 i).
Notation Y i := (at_ y0 i).
Let h i := X (S i) - X i.
Let r i := 6 * ((Y (S (S i)) - Y (S i)) / h (S i) - (Y (S i) - Y i) / h i).
Lemma h_pos i : (i < n)%nat -> 0 < h i.
Proof. intros I. unfold h. pose proof (increasing_lt x0 i (S i) Hx ltac:(unfold n in I; lia)). lra. Qed.
Lemma X_lt i : (i < n)%nat -> X i < X (S i).
Proof. intros I. pose proof (h_pos i I). unfold h in *. lra. Qed.
Definition build (M : nat -> R) : list (list R) := map (fun i => hermite (X i) (X (S i)) (Y i) (Y (S i)) (M i) (M (S i))) (seq 0 n).
Lemma build_nth M i : (i < n)%nat -> nth i (build M) [] = hermite (X i) (X (S i)) (Y i) (Y (S i)) (M i) (M (S i)).
Proof. intros I. unfold build. rewrite (nth_indep _ [] (hermite (X 0) (X 1) (Y 0) (Y 1) (M 0%nat) (M 1%nat))) by (rewrite map_length, seq_length; exact I).
  rewrite (map_nth (fun i => hermite (X i) (X (S i)) (Y i) (Y (S i)) (M i) (M (S i))) (seq 0 n) 0%nat i). rewrite seq_nth by exact I. reflexivity. Qed.
Lemma smooth_tri i (m0 m1 m2 : R) : (S i < n)%nat ->
  (Y (S i) - Y i) / h i + h i * (m0 + 2 * m1) / 6 = (Y (S (S i)) - Y (S i)) / h (S i) - h (S i) * (2 * m1 + m2) / 6 <->
  h i * m0 + 2 * (h i + h (S i)) * m1 + h (S i) * m2 = r i.
Proof. intros I. unfold r. pose proof (h_pos i ltac:(lia)). pose proof (h_pos (S i) I). set (u := (Y (S i) - Y i) / h i). set (w := (Y (S (S i)) - Y (S i)) / h (S i)). split; intros E; lra. Qed.
Lemma build_spline M : tri h r n M -> M 0%nat = 0 -> M n = 0 -> is_spline x0 y0 3 (build M).
Proof.
  intros T M0 Mn. assert (0 < n)%nat by (unfold n; lia). unfold is_spline, interpolates, smooth, natural. fold n. split; [|split].
  - split; [unfold build; rewrite map_length, seq_length; reflexivity|]. intros i I. rewrite build_nth by exact I.
    destruct (hermite_spec (X i) (X (S i)) (Y i) (Y (S i)) (M i) (M (S i)) (X_lt i I)) as (A & B & _). repeat split; assumption.
  - intros i d I D. rewrite !build_nth by lia.
    destruct (hermite_spec (X i) (X (S i)) (Y i) (Y (S i)) (M i) (M (S i)) (X_lt i ltac:(lia))) as (_ & _ & _ & A2 & _ & A1).
    destruct (hermite_spec (X (S i)) (X (S (S i))) (Y (S i)) (Y (S (S i))) (M (S i)) (M (S (S i))) (X_lt (S i) ltac:(lia))) as (_ & _ & B2 & _ & B1 & _).
    destruct d as [|[|[|d]]]; try lia; [|rewrite A2, B2; reflexivity]. rewrite A1, B1. apply (smooth_tri i); [exact I|]. apply T, I.
  - intros d D. assert (d = 2)%nat as -> by lia. rewrite !build_nth by lia.
    destruct (hermite_spec (X 0) (X 1) (Y 0) (Y 1) (M 0%nat) (M 1%nat) (X_lt 0 ltac:(lia))) as (_ & _ & A & _). rewrite A.
    destruct (hermite_spec (X (n - 1)) (X (S (n - 1))) (Y (n - 1)) (Y (S (n - 1))) (M (n - 1)%nat) (M (S (n - 1))) (X_lt (n - 1) ltac:(lia))) as (_ & _ & _ & B & _).
    replace (X n) with (X (S (n - 1))) by (f_equal; lia). rewrite B. split; [exact M0|]. replace (S (n - 1)) with n by lia. exact Mn.
Qed.
Lemma cubic_exists : exists ps, is_spline x0 y0 3 ps.
Proof. destruct (tri_exists h r n ltac:(unfold n; lia) h_pos) as (M & T & M0 & Mn). exists (build M). apply build_spline; assumption. Qed.
(** the second derivatives at the knots *)
Definition moments (ps : list (list R)) (i : nat) : R := if Nat.eqb i n then Derive_n (peval (nth (n - 1) ps [])) 2 (X n) else Derive_n (peval (nth i ps [])) 2 (X i).
Lemma spline_build ps : is_spline x0 y0 3 ps -> ps = build (moments ps) /\ tri h r n (moments ps) /\ moments ps 0%nat = 0 /\ moments ps n = 0.
Proof.
  intros ((Lp & HI) & HS & HN). unfold smooth in HS; unfold natural in HN; cbv zeta in HI, HS, HN. fold n in Lp, HI, HS, HN. assert (0 < n)%nat by (unfold n; lia).
  assert (E2 : forall i, (i < n)%nat -> Derive_n (peval (nth i ps [])) 2 (X i) = moments ps i /\ Derive_n (peval (nth i ps [])) 2 (X (S i)) = moments ps (S i)).
  { intros i I. unfold moments. destruct (Nat.eqb_spec i n); [lia|]. split; [reflexivity|]. destruct (Nat.eqb_spec (S i) n) as [E|E].
    - f_equal; [f_equal; f_equal; lia|f_equal; lia].
    - apply HS; lia. }
  assert (EH : forall i, (i < n)%nat -> nth i ps [] = hermite (X i) (X (S i)) (Y i) (Y (S i)) (moments ps i) (moments ps (S i))).
  { intros i I. destruct (HI i I) as (L & A & B). destruct (E2 i I) as [C D]. apply hermite_unique; try assumption. apply X_lt, I. }
  split; [|split; [|split]].
  - apply (nth_ext _ _ [] []). + rewrite Lp. unfold build. rewrite map_length, seq_length. reflexivity. + rewrite Lp. intros i I. rewrite build_nth by exact I. apply EH, I.
  - intros i I. apply (smooth_tri i); [exact I|]. pose proof (HS i 1%nat I ltac:(lia)) as E. rewrite (EH i), (EH (S i)) in E by lia.
    destruct (hermite_spec (X i) (X (S i)) (Y i) (Y (S i)) (moments ps i) (moments ps (S i)) (X_lt i ltac:(lia))) as (_ & _ & _ & _ & _ & A1).
    destruct (hermite_spec (X (S i)) (X (S (S i))) (Y (S i)) (Y (S (S i))) (moments ps (S i)) (moments ps (S (S i))) (X_lt (S i) ltac:(lia))) as (_ & _ & _ & _ & B1 & _).
    rewrite A1, B1 in E. exact E.
  - destruct (E2 0%nat ltac:(lia)) as [<- _]. apply HN. lia.
  - destruct (E2 (n - 1)%nat ltac:(lia)) as [_ E]. replace (S (n - 1)) with n in E by lia. rewrite <- E. apply HN. lia.
Qed.
Lemma cubic_unique ps qs : is_spline x0 y0 3 ps -> is_spline x0 y0 3 qs -> ps = qs.
Proof.
  intros P Q. destruct (spline_build ps P) as (EP & TP & P0 & Pn). destruct (spline_build qs Q) as (EQ & TQ & Q0 & Qn).
  rewrite EP, EQ. apply map_ext_in. intros i I. apply in_seq in I.
  rewrite !(tri_unique h r n (moments ps) (moments qs)) by (try assumption; try apply h_pos; unfold n in I |- *; lia). reflexivity.
Qed.
End Cubic.
