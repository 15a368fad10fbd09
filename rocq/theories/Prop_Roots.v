(** Claims C29-C36. *)
From Coq Require Import List Bool Arith Lia Ring Permutation Reals Lra ZArith ZArithRing.
From Coquelicot Require Import Complex.
From Verif Require Import Roots RootsSpec RootsFacts RootsC RootsLim RootsPoly RootsPrincipal.
Import ListNotations.
Open Scope R_scope.
Open Scope C_scope.

(** ** C29 *)
Theorem C29_vieta : forall (A : Type) (zero one : A) (add mul sub : A -> A -> A) (opp : A -> A), ring_theory zero one add mul sub opp eq -> forall rts : list A,
  exists cs, vieta A zero one add mul opp rts = Some cs /\ length cs = length rts /\
    forall x, monic A zero one add mul cs x = from_roots A one add mul opp rts x.
Proof.
  intros A zero one add mul sub opp Rth rts. exists (map (coef A zero one add mul opp rts) (seq 1 (length rts))). assert (H := vieta_ok A zero one add mul sub opp Rth rts).
  split; [exact H|]. exact (vieta_monic A zero one add mul sub opp Rth rts _ H).
Qed.
Print Assumptions C29_vieta.
(** over the complex numbers: these are the only such coefficients, and their polynomial vanishes exactly at the given roots *)
Theorem C29_exactly : forall rts cs, length cs = length rts ->
  (Cvieta rts = Some cs <-> forall x, Cmonic cs x = Cfrom_roots rts x) /\
  (Cvieta rts = Some cs -> forall x, Cmonic cs x = 0 <-> In x rts).
Proof.
  intros rts cs L. destruct (Cvieta_monic rts) as (ds & Hd & Ld & Md). split; [split|].
  - intros H. rewrite Hd in H. injection H as <-. exact Md.
  - intros H. rewrite Hd. f_equal. symmetry. apply monic_unique; [congruence|]. intros x. rewrite H, Md. reflexivity.
  - intros H x. rewrite Hd in H. injection H as <-. rewrite Md. apply from_roots_zero_iff.
Qed.
Print Assumptions C29_exactly.
(** two root lists give the same coefficients exactly when they are permutations of each other *)
Theorem C29_injective : forall rts rts', Cvieta rts = Cvieta rts' <-> Permutation rts rts'.
Proof.
  intros r s. destruct (Cvieta_monic r) as (c & Hc & Lc & Mc). destruct (Cvieta_monic s) as (d & Hd & Ld & Md). rewrite Hc, Hd. split.
  - intros H. injection H as <-. apply roots_unique; [congruence|]. intros x. rewrite <- Mc, <- Md. reflexivity.
  - intros P. f_equal. apply monic_unique; [rewrite Lc, Ld; apply Permutation_length, P|]. intros x. rewrite Mc, Md. apply (from_roots_perm C 0 1 Cplus Cmult Cminus Copp Th), P.
Qed.
Print Assumptions C29_injective.
Example C29_nonvacuous : vieta Z 0%Z 1%Z Z.add Z.mul Z.opp [1; 2; 3]%Z = Some [-6; 11; -6]%Z /\ Cvieta [RtoC 1; RtoC 2] = Some [RtoC (-3); RtoC 2] /\
  ring_theory 0%Z 1%Z Z.add Z.mul Z.sub Z.opp eq.
Proof.
  split; [reflexivity|]. split; [|constructor; intros; ring]. cbn. unfold minus_one_pow. cbn. do 2 f_equal; [|f_equal]; apply C_ext; simpl; ring.
Qed.

(** ** C30 *)
Section C30.
Variables (A : Type) (zero one : A) (add mul sub : A -> A -> A) (opp : A -> A).
Hypothesis Rth : ring_theory zero one add mul sub opp eq.
Notation es := (elementary_symmetric A zero add mul).
Theorem C30_symmetric : forall k l m, Permutation l m -> es k l = es k m.
Proof. intros k l m P. destruct k; [rewrite !es_0; reflexivity|]. rewrite !(es_S A zero one add mul sub opp Rth). rewrite (E_perm A zero one add mul sub opp Rth l m P). reflexivity. Qed.
Theorem C30_recursion : forall k x l, (1 <= k)%nat ->
  exists e1 e0, es (S k) l = Some e1 /\ es k l = Some e0 /\ es (S k) (x :: l) = Some (add (mul x e0) e1).
Proof.
  intros k x l H. destruct k; [lia|]. eexists. eexists. rewrite !(es_S A zero one add mul sub opp Rth). split; [reflexivity|]. split; [reflexivity|].
  rewrite (E_cons A zero one add mul sub opp Rth). reflexivity.
Qed.
Theorem C30_first_and_last : forall l, es 1 l = Some (total A zero add l) /\ (l <> [] -> es (length l) l = Some (prod A one mul l)).
Proof.
  intros l. split.
  - rewrite (es_S A zero one add mul sub opp Rth). f_equal. induction l as [|x l IH]; [reflexivity|]. rewrite (E_cons A zero one add mul sub opp Rth), (E_0 A zero one add mul sub opp Rth), IH. simpl.
    rewrite (Rmul_comm Rth), (Rmul_1_l Rth). reflexivity.
  - intros N. destruct l as [|x l]; [congruence|]. cbn [length]. rewrite (es_S A zero one add mul sub opp Rth). f_equal. clear N.
    revert x. induction l as [|y l IH]; intros x; rewrite (E_cons A zero one add mul sub opp Rth).
    + rewrite (E_0 A zero one add mul sub opp Rth). unfold E. simpl. rewrite (Radd_comm Rth), (Radd_0_l Rth). reflexivity.
    + cbn [length]. rewrite IH. rewrite (E_big A zero one add mul); [|simpl; lia]. cbn [RootsSpec.prod]. rewrite (Radd_comm Rth), (Radd_0_l Rth). reflexivity.
Qed.
Theorem C30_beyond : forall k l, (length l < k)%nat -> es k l = Some zero.
Proof. intros [|k] l H; [lia|]. rewrite (es_S A zero one add mul sub opp Rth), E_big by exact H. reflexivity. Qed.
(** order zero: the empty product is not 1 but an error, for every list *)
Theorem C30_zero_raises : forall l, es 0 l = None.
Proof. apply es_0. Qed.
End C30.
Print Assumptions C30_symmetric. Print Assumptions C30_recursion. Print Assumptions C30_first_and_last. Print Assumptions C30_beyond. Print Assumptions C30_zero_raises.
Example C30_nonvacuous : elementary_symmetric Z 0%Z Z.add Z.mul 2 [2; 3; 5]%Z = Some 31%Z /\ elementary_symmetric Z 0%Z Z.add Z.mul 2 [5; 2; 3]%Z = Some 31%Z.
Proof. split; reflexivity. Qed.

(** ** C31 *)
Section C31.
Variables (A : Type) (zero one : A) (add mul sub : A -> A -> A) (opp : A -> A).
Hypothesis Rth : ring_theory zero one add mul sub opp eq.
Add Ring R31 : Rth.
Notation times m n w i := (sum_to A zero add n (fun j => mul (entry A zero m i j) (w j))).
(** the polynomial is the characteristic polynomial of the matrix *)
Theorem C31_characteristic : forall cs, cs <> [] -> exists m, companion_matrix A zero one opp cs = Some m /\
  (length m = length cs /\ Forall (fun row => length row = length cs) m) /\
  forall x, det A zero one add mul opp (length cs) (char_matrix A zero add opp m x) = monic A zero one add mul cs x.
Proof.
  intros cs N. eexists. split; [apply companion_some, N|]. split.
  - assert (0 < length cs)%nat by (destruct cs; [congruence|simpl; lia]). unfold eye. split; [simpl; rewrite map_length, seq_length; lia|]. constructor; [apply map_length|].
    apply Forall_forall. intros r Hr. apply in_map_iff in Hr. destruct Hr as (i & <- & _). rewrite map_length, seq_length. reflexivity.
  - intros x. apply (char_companion A zero one add mul sub opp Rth cs). apply companion_some, N.
Qed.
(** (t^(n-1), ..., t, 1) is mapped to t times itself exactly when t is a root *)
Theorem C31_powers : forall cs m t, companion_matrix A zero one opp cs = Some m ->
  let w j := pow A one mul t (length cs - 1 - j) in
  (forall i, (i < length cs)%nat -> times m (length cs) w i = mul t (w i)) <-> monic A zero one add mul cs t = zero.
Proof.
  intros cs m t H w. assert (Hne : cs <> []) by (intros ->; discriminate). assert (Hn : (0 < length cs)%nat) by (destruct cs; [congruence|simpl; lia]).
  assert (K : forall i, (i < length cs)%nat -> times m (length cs) w i = match i with O => opp (lower A zero one add mul cs t) | S i' => w i' end).
  { intros i Hi. assert (E := companion_mulv A zero one add mul sub opp Rth cs m w i H Hi). unfold mulv in E. rewrite E. destruct i; [|reflexivity].
    rewrite (lower_sum A zero one add mul sub opp Rth). reflexivity. }
  assert (W0 : mul t (w 0%nat) = pow A one mul t (length cs)). { unfold w. replace (length cs) with (S (length cs - 1 - 0)) at 2 by lia. reflexivity. }
  unfold monic. split.
  - intros G. specialize (G 0%nat Hn). rewrite K in G by exact Hn. cbv beta iota in G. rewrite W0 in G. rewrite <- G. ring.
  - intros Z i Hi. rewrite K by exact Hi. destruct i as [|i].
    + rewrite W0. set (p := pow A one mul t (length cs)) in *. transitivity (add p (opp (add p (lower A zero one add mul cs t)))); [ring|]. rewrite Z. ring.
    + unfold w. replace (length cs - 1 - i)%nat with (S (length cs - 1 - S i)) by lia. reflexivity.
Qed.
(** without zero divisors: t is an eigenvalue exactly when it is a root *)
Theorem C31_eigenvalues : (forall a b, mul a b = zero -> a = zero \/ b = zero) -> one <> zero -> forall cs m t, companion_matrix A zero one opp cs = Some m ->
  (exists w : nat -> A, (exists i, (i < length cs)%nat /\ w i <> zero) /\ forall i, (i < length cs)%nat -> times m (length cs) w i = mul t (w i)) <->
  monic A zero one add mul cs t = zero.
Proof.
  intros Int N10 cs m t H. assert (Hne : cs <> []) by (intros ->; discriminate). assert (Hn : (0 < length cs)%nat) by (destruct cs; [congruence|simpl; lia]). split.
  - intros (w & (i0 & Hi0 & Nz) & G).
    assert (K : forall i, (i < length cs)%nat -> mul t (w i) = match i with O => opp (sum_to A zero add (length cs) (fun j => mul (nth j cs zero) (w j))) | S i' => w i' end).
    { intros i Hi. rewrite <- G by exact Hi. exact (companion_mulv A zero one add mul sub opp Rth cs m w i H Hi). }
    assert (P : forall j, (j < length cs)%nat -> w (length cs - 1 - j)%nat = mul (pow A one mul t j) (w (length cs - 1)%nat)).
    { induction j as [|j IH]; intros Hj; [rewrite Nat.sub_0_r; simpl; ring|]. assert (E := K (length cs - 1 - j)%nat ltac:(lia)). rewrite IH in E by lia.
      destruct (length cs - 1 - j)%nat as [|q] eqn:Eq; [lia|]. replace (length cs - 1 - S j)%nat with q by lia. rewrite <- E. simpl. ring. }
    set (l := w (length cs - 1)%nat) in *. assert (Nl : l <> zero).
    { intros Z. apply Nz. replace i0 with (length cs - 1 - (length cs - 1 - i0))%nat by lia. rewrite P by lia. rewrite Z. ring. }
    assert (E0 := K 0%nat Hn). cbv beta iota in E0. replace 0%nat with (length cs - 1 - (length cs - 1))%nat in E0 at 1 by lia. rewrite P in E0 by lia.
    assert (S0 : sum_to A zero add (length cs) (fun j => mul (nth j cs zero) (w j)) = mul l (lower A zero one add mul cs t)).
    { rewrite (lower_sum A zero one add mul sub opp Rth). rewrite <- (sum_scale A zero one add mul sub opp Rth). apply (sum_ext A zero add). intros j Hj.
      replace j with (length cs - 1 - (length cs - 1 - j))%nat at 2 by lia. rewrite P by lia. ring. }
    rewrite S0 in E0. assert (F : mul l (monic A zero one add mul cs t) = zero).
    { unfold monic. replace (length cs) with (S (length cs - 1)) at 1 by lia. cbn [RootsSpec.pow].
      transitivity (add (mul t (mul (pow A one mul t (length cs - 1)) l)) (mul l (lower A zero one add mul cs t))); [ring|]. rewrite E0. ring. }
    apply Int in F. tauto.
  - intros Z. exists (fun j => pow A one mul t (length cs - 1 - j)). split; [|apply C31_powers; assumption]. exists (length cs - 1)%nat. split; [lia|]. rewrite Nat.sub_diag. exact N10.
Qed.
End C31.
Print Assumptions C31_characteristic. Print Assumptions C31_powers. Print Assumptions C31_eigenvalues.
(** root finding through the companion matrix, for any eigenvalue routine that returns the roots of the characteristic polynomial *)
Theorem C31_numeric : forall csqrt ccbrt eigvals coeffs fn, (2 <= length coeffs)%nat -> (fn = true \/ (5 <= length coeffs)%nat) ->
  (forall m, companion_matrix C (RtoC 0) (RtoC 1) Copp coeffs = Some m -> length (eigvals m) = length m /\ forall x, Cdet (length m) (Cchar_matrix m x) = Cfrom_roots (eigvals m) x) ->
  exists rs, roots csqrt ccbrt eigvals fn coeffs = inr rs /\ length rs = length coeffs /\ (forall x, Cmonic coeffs x = Cfrom_roots rs x) /\ Cvieta rs = Some coeffs.
Proof.
  intros csqrt ccbrt eigvals coeffs fn L F H. assert (N : coeffs <> []) by (intros ->; simpl in L; lia). exists (via_companion eigvals coeffs). split.
  - unfold roots. destruct coeffs as [|b [|c [|d [|e [|f cs]]]]]; simpl in L; try lia; try reflexivity; destruct fn; try reflexivity; destruct F as [F|F]; try discriminate; simpl in F; lia.
  - destruct (C31_characteristic C (RtoC 0) (RtoC 1) Cplus Cmult Cminus Copp Th coeffs N) as (m & Hm & [Hl _] & Hd). unfold via_companion. rewrite Hm. destruct (H m Hm) as [Le He].
    assert (M : forall x, Cmonic coeffs x = Cfrom_roots (eigvals m) x) by (intros x; rewrite <- He, Hl; symmetry; apply Hd).
    split; [congruence|]. split; [exact M|]. apply C29_exactly; [congruence|exact M].
Qed.
Print Assumptions C31_numeric.
(** Root finding raises exactly for fewer than two coefficients: ValueError for none, NotImplementedError for one. *)
Theorem C31_errors : forall csqrt ccbrt eigvals fn coeffs,
  (forall e, roots csqrt ccbrt eigvals fn coeffs = inl e <-> (coeffs = [] /\ e = NoCoefficients) \/ (length coeffs = 1%nat /\ e = OneCoefficient)).
Proof.
  intros. unfold roots. destruct coeffs as [|a [|b l]]; cbn; split; intros H; try discriminate.
  - left. split; congruence.
  - destruct H as [[_ ->]|[H _]]; [reflexivity|discriminate].
  - right. split; congruence.
  - destruct H as [[H _]|[_ ->]]; [discriminate|reflexivity].
  - destruct H as [[H _]|[H _]]; discriminate.
Qed.
Print Assumptions C31_errors.
Example C31_nonvacuous : companion_matrix Z 0%Z 1%Z Z.opp [-6; 11; -6]%Z = Some [[6; -11; 6]; [1; 0; 0]; [0; 1; 0]]%Z /\ monic Z 0%Z 1%Z Z.add Z.mul [-6; 11; -6]%Z 3%Z = 0%Z.
Proof. split; reflexivity. Qed.
(** an eigenvalue routine as assumed exists for every degree-5 polynomial with known roots; e.g. for the companion matrix of x^5 *)
Example C31_numeric_nonvacuous : exists m, companion_matrix C (RtoC 0) (RtoC 1) Copp (repeat (RtoC 0) 5) = Some m /\ forall x, Cdet 5 (Cchar_matrix m x) = Cfrom_roots (repeat (RtoC 0) 5) x.
Proof.
  destruct (C31_characteristic C (RtoC 0) (RtoC 1) Cplus Cmult Cminus Copp Th (repeat (RtoC 0) 5) ltac:(discriminate)) as (m & Hm & _ & Hd). exists m. split; [exact Hm|]. intros x. unfold Cdet, Cchar_matrix.
  etransitivity; [exact (Hd x)|]. unfold Cfrom_roots, monic, from_roots. simpl. ring.
Qed.

(** ** C32 *)
(** inv is a (left) inverse of the n by n matrix m *)
Definition inverse_of (n : nat) (inv m : list (list C)) : Prop :=
  length inv = n /\ Forall (fun r => length r = n) inv /\
  forall k k', (k < n)%nat -> (k' < n)%nat -> Csum n (fun i => entry C 0 inv k i * entry C 0 m i k') = if Nat.eqb k k' then RtoC 1 else RtoC 0.
Notation Cbackward_matrix := (backward_matrix C (RtoC 0) (RtoC 1) Cplus Cmult Copp).
Notation Cbackward := (backward C (RtoC 0) Cplus Cmult Copp Cconj).
Lemma matrix_entries rs m : rs <> [] -> Cbackward_matrix rs = Some m -> forall i k, (i < length rs)%nat -> entry C 0 m i k = nth k (Mrow rs i) 0.
Proof.
  intros N H i k Hi. rewrite (backward_matrix_rows C 0 1 Cplus Cmult Cminus Copp Th) in H by exact N. injection H as <-. unfold entry. f_equal.
  rewrite (nth_indep _ [] (Mrow rs 0)) by (rewrite map_length, seq_length; exact Hi). unfold Mrow. rewrite map_nth, seq_nth by exact Hi. reflexivity.
Qed.
Lemma inverse_entries rs m inv : rs <> [] -> NoDup rs -> Cbackward_matrix rs = Some m -> inverse_of (length rs) inv m ->
  forall k i, (k < length rs)%nat -> (i < length rs)%nat -> entry C 0 inv k i = Lag rs k i.
Proof.
  intros N ND H (_ & _ & Hi). apply left_inverse_unique; [exact ND|]. intros k k' Hk Hk'. unfold delta_. rewrite <- Hi by assumption. apply (sum_ext C 0 Cplus). intros i Hii.
  rewrite (matrix_entries rs m N H) by exact Hii. reflexivity.
Qed.
Lemma dot_sum u v : length u = length v -> dot C 0 Cplus Cmult u v = Csum (length u) (fun i => nth i u 0 * nth i v 0).
Proof.
  intros L. unfold dot. rewrite (fold_add C 0 1 Cplus Cmult Cminus Copp Th). transitivity (total C 0 Cplus (map (fun p => fst p * snd p) (combine u v))); [ring|].
  revert v L. induction u as [|a u IH]; intros [|b v] L; try discriminate; [reflexivity|]. injection L as L. cbn [length]. rewrite (sum_shift C 0 1 Cplus Cmult Cminus Copp Th).
  cbn [combine map total fst snd nth]. rewrite IH by exact L. reflexivity.
Qed.
Lemma backward_entry n inv m g k : inverse_of n inv m -> length g = n -> (k < n)%nat -> nth k (Cbackward inv g) 0 = Csum n (fun i => Cconj (- entry C 0 inv k i) * nth i g 0).
Proof.
  intros (L & F & _) Hg Hk. unfold backward. rewrite Forall_forall in F. assert (Lr : length (nth k inv []) = n) by (apply F, nth_In; lia).
  rewrite (nth_indep _ (RtoC 0) (dot C 0 Cplus Cmult (map (fun x => Cconj (- x)) []) g)) by (rewrite map_length; lia).
  rewrite (map_nth (fun row => dot C 0 Cplus Cmult (map (fun x => Cconj (- x)) row) g)). rewrite dot_sum by (rewrite map_length; lia). rewrite map_length, Lr. apply (sum_ext C 0 Cplus). intros i Hi.
  f_equal. rewrite (nth_indep _ (RtoC 0) (Cconj (- (0)))) by (rewrite map_length; lia). rewrite (map_nth (fun x => Cconj (- x))). reflexivity.
Qed.
Lemma conj_sum n f : Cconj (Csum n f) = Csum n (fun i => Cconj (f i)).
Proof. induction n as [|n IH]; [apply C_ext; simpl; ring|]. simpl. rewrite <- IH. apply C_ext; simpl; ring. Qed.
(** Along any differentiable motion of the coefficients that carries distinct roots continuously, the roots move differentiably, and
    the returned gradient is the adjoint of that motion: sum_k conj(grad_k) dc_k = sum_i conj(g_i) dr_i. *)
Theorem C32_gradient : forall (rs : list C) m inv, rs <> [] -> NoDup rs -> Cbackward_matrix rs = Some m -> inverse_of (length rs) inv m ->
  forall (c r : nat -> C -> C) (dc : nat -> C) (t0 : C), let n := length rs in
  (forall k, (k < n)%nat -> Cderivative (c k) t0 (dc k)) ->
  (forall i, (i < n)%nat -> Ccontinuous (r i) t0 /\ r i t0 = nth i rs 0 /\ forall t, Cmonic (map (fun k => c k t) (seq 0 n)) (r i t) = 0) ->
  (forall x, Cmonic (map (fun k => c k t0) (seq 0 n)) x = Cfrom_roots rs x) ->
  exists dr : nat -> C, (forall i, (i < n)%nat -> Cderivative (r i) t0 (dr i)) /\
    forall g, length g = n -> length (Cbackward inv g) = n /\
      Csum n (fun k => Cconj (nth k (Cbackward inv g) 0) * dc k) = Csum n (fun i => Cconj (nth i g 0) * dr i).
Proof.
  intros rs m inv N ND H Hi c r dc t0 n Hc Hr H0. exists (fun i => Csum n (fun k => - Lag rs k i * dc k)). split.
  - intros i Hin. destruct (Hr i Hin) as (R1 & R2 & R3). apply (simple_root_derivative c dc (r i) t0 rs i n); auto.
  - intros g Hg. split; [unfold backward; rewrite map_length; apply Hi|].
    transitivity (Csum n (fun k => Csum n (fun i => - Lag rs k i * Cconj (nth i g 0) * dc k))).
    + apply (sum_ext C 0 Cplus). intros k Hk. rewrite (backward_entry n inv m g k Hi Hg Hk), conj_sum. rewrite Cmult_comm, <- (sum_scale C 0 1 Cplus Cmult Cminus Copp Th). apply (sum_ext C 0 Cplus). intros i Hin.
      rewrite (inverse_entries rs m inv N ND H Hi k i Hk Hin). set (L := Lag rs k i). set (x := nth i g 0). transitivity (dc k * (Cconj (Cconj (- L) * x))); [reflexivity|].
      replace (Cconj (Cconj (- L) * x)) with (- L * Cconj x) by (apply C_ext; simpl; ring). ring.
    + rewrite (sum_swap C 0 1 Cplus Cmult Cminus Copp Th). apply (sum_ext C 0 Cplus). intros i Hin. rewrite <- (sum_scale C 0 1 Cplus Cmult Cminus Copp Th). apply (sum_ext C 0 Cplus). intros. ring.
Qed.
Print Assumptions C32_gradient.
(** the closed form, and that such an inverse exists *)
Theorem C32_formula : forall (rs : list C) m inv g k, rs <> [] -> NoDup rs -> Cbackward_matrix rs = Some m -> inverse_of (length rs) inv m -> length g = length rs -> (k < length rs)%nat ->
  nth k (Cbackward inv g) 0 = Csum (length rs) (fun i => let x := nth i rs 0 in
    Cconj (- (Cpow x (length rs - 1 - k) / Cfrom_roots (omit i rs) x)) * nth i g 0).
Proof.
  intros rs m inv g k N ND H Hi Hg Hk. rewrite (backward_entry _ inv m g k Hi Hg Hk). apply (sum_ext C 0 Cplus). intros i Hin. rewrite (inverse_entries rs m inv N ND H Hi k i Hk Hin). reflexivity.
Qed.
Print Assumptions C32_formula.
Lemma list_matrix n (f : nat -> nat -> C) k i : (k < n)%nat -> (i < n)%nat -> entry C 0 (map (fun k => map (f k) (seq 0 n)) (seq 0 n)) k i = f k i.
Proof.
  intros Hk Hi. unfold entry. rewrite (nth_indep _ [] (map (f 0%nat) (seq 0 n))) by (rewrite map_length, seq_length; exact Hk). rewrite (map_nth (fun k => map (f k) (seq 0 n))), seq_nth by exact Hk. apply (nth_map_seq C), Hi.
Qed.
Theorem C32_inverse : forall rs : list C, rs <> [] -> exists m, Cbackward_matrix rs = Some m /\
  (NoDup rs -> exists inv, inverse_of (length rs) inv m) /\ (~ NoDup rs -> forall inv, ~ inverse_of (length rs) inv m).
Proof.
  intros rs N. assert (Hm := backward_matrix_rows C 0 1 Cplus Cmult Cminus Copp Th rs N). eexists. split; [exact Hm|]. split.
  - intros ND. exists (map (fun k => map (Lag rs k) (seq 0 (length rs))) (seq 0 (length rs))). split; [rewrite map_length, seq_length; reflexivity|]. split.
    + apply Forall_forall. intros x Hx. apply in_map_iff in Hx. destruct Hx as (k & <- & _). rewrite map_length, seq_length. reflexivity.
    + intros k k' Hk Hk'. etransitivity; [|exact (left_inverse_exists rs ND k k' Hk Hk')]. apply (sum_ext C 0 Cplus). intros i Hi. rewrite (list_matrix _ (Lag rs)) by assumption.
      rewrite (matrix_entries rs _ N Hm) by exact Hi. reflexivity.
  - intros D inv (_ & _ & HI). apply D. clear D. set (n := length rs) in *. assert (Hn : (0 < n)%nat) by (unfold n; destruct rs; [congruence|simpl; lia]).
    (* a repeated root would kill every product *)
    apply NoDup_nth with (d := RtoC 0). intros a b Ha Hb E. destruct (Nat.eq_dec a b) as [|Nab]; [assumption|exfalso]. set (x := nth a rs (RtoC 0)).
    assert (Z : forall i, (i < n)%nat -> Cfrom_roots (omit i rs) x = 0).
    { intros i Hi. apply from_roots_zero_iff. destruct (Nat.eq_dec i a) as [->|Ni]; [unfold x; rewrite E; apply omit_nth_in; [congruence|exact Hb]|apply omit_nth_in; [exact Ni|exact Ha]]. }
    assert (S0 : Csum n (fun k' => Csum n (fun i => entry C 0 inv (n - 1) i * nth k' (Mrow rs i) 0) * Cpow x (n - 1 - k')) = 0).
    { transitivity (Csum n (fun k' => Csum n (fun i => entry C 0 inv (n - 1) i * (nth k' (Mrow rs i) 0 * Cpow x (n - 1 - k'))))).
      - apply (sum_ext C 0 Cplus). intros k' _. rewrite Cmult_comm, <- (sum_scale C 0 1 Cplus Cmult Cminus Copp Th). apply (sum_ext C 0 Cplus). intros. ring.
      - rewrite (sum_swap C 0 1 Cplus Cmult Cminus Copp Th). apply (sum_zero C 0 1 Cplus Cmult Cminus Copp Th). intros i Hi. rewrite (sum_scale C 0 1 Cplus Cmult Cminus Copp Th).
        unfold n in *. rewrite Mrow_lower by exact Hi. rewrite Z by exact Hi. ring. }
    rewrite (sum_single C 0 1 Cplus Cmult Cminus Copp Th n (n - 1)) in S0; [|lia|].
    + assert (One := HI (n - 1)%nat (n - 1)%nat ltac:(lia) ltac:(lia)). rewrite Nat.eqb_refl in One.
      assert (One' : Csum n (fun i => entry C 0 inv (n - 1) i * nth (n - 1) (Mrow rs i) 0) = 1).
      { etransitivity; [|exact One]. apply (sum_ext C 0 Cplus). intros i Hi. rewrite (matrix_entries rs _ N Hm) by exact Hi. reflexivity. }
      rewrite One', Nat.sub_diag in S0. simpl in S0. assert (E0 : RtoC 1 = RtoC 0) by (transitivity (RtoC 1 * RtoC 1); [ring|exact S0]). apply RtoC_inj in E0. lra.
    + intros k' Hk' Nk. assert (Q := HI (n - 1)%nat k' ltac:(lia) Hk'). rewrite (proj2 (Nat.eqb_neq (n - 1) k')) in Q by congruence.
      assert (Q' : Csum n (fun i => entry C 0 inv (n - 1) i * nth k' (Mrow rs i) 0) = 0).
      { etransitivity; [|exact Q]. apply (sum_ext C 0 Cplus). intros i Hi. rewrite (matrix_entries rs _ N Hm) by exact Hi. reflexivity. }
      rewrite Q'. ring.
Qed.
Print Assumptions C32_inverse.
(** instance: the roots of x^2 - t are t-differentiable away from 0 along r(t) given; here the polynomial x^2 + 0 x + (-1) moved by its last coefficient, r = 1 + t, -(1 + t) *)
Example C32_nonvacuous : let rs := [RtoC 1; - (1)] in NoDup rs /\ exists m inv, Cbackward_matrix rs = Some m /\ inverse_of 2 inv m /\
  exists (c r : nat -> C -> C) dc, (forall k, (k < 2)%nat -> Cderivative (c k) 0 (dc k)) /\
  (forall i, (i < 2)%nat -> Ccontinuous (r i) 0 /\ r i (RtoC 0) = nth i rs 0 /\ forall t, Cmonic (map (fun k => c k t) (seq 0 2)) (r i t) = 0) /\
  (forall x, Cmonic (map (fun k => c k (RtoC 0)) (seq 0 2)) x = Cfrom_roots rs x) /\ dc 1%nat <> 0.
Proof.
  intros rs. assert (ND : NoDup rs).
  { constructor; [|constructor; [intros []|constructor]]. intros [E|[]]. apply (f_equal Re) in E. simpl in E. lra. }
  split; [exact ND|]. destruct (C32_inverse rs ltac:(discriminate)) as (m & Hm & I & _). destruct (I ND) as (inv & Hi). exists m, inv. split; [exact Hm|]. split; [exact Hi|].
  exists (fun k t => match k with O => RtoC 0 | _ => - (1 + t) * (1 + t) end), (fun i t => match i with O => 1 + t | _ => - (1 + t) end), (fun k => match k with O => RtoC 0 | _ => - (1 + 1) end).
  assert (Lid : Clim (fun t => t) 0 0) by (intros e He; exists e; split; [exact He|]; intros t _ Ht; exact Ht).
  split; [|split; [|split]].
  - intros [|[|k]] Hk; [| |lia]; unfold Cderivative.
    + apply (Clim_ext (fun _ => RtoC 0)); [|apply Clim_const]. intros t Nt. field. first [exact Nt | intros E; apply Nt; transitivity (t - 0); [ring|exact E]].
    + apply (Clim_ext (fun t => - (1 + 1) + (- (1)) * t)).
      * intros t Nt. field. first [exact Nt | intros E; apply Nt; transitivity (t - 0); [ring|exact E]].
      * assert (W : Clim (fun t => - (1 + 1) + (- (1)) * t) 0 (- (1 + 1) + (- (1)) * 0)).
        { apply (Clim_plus (fun _ => - (1 + 1)) (fun t => - (1) * t)); [apply Clim_const|]. apply (Clim_mult (fun _ => - (1)) (fun t => t)); [apply Clim_const|exact Lid]. }
        assert (Q : - (1 + 1) + - (1) * 0 = - (1 + 1)) by ring. rewrite Q in W. exact W.
  - intros [|[|k]] Hk; [| |lia]; (split; [|split]).
    + unfold Ccontinuous. apply (Clim_plus (fun _ => RtoC 1) (fun t => t)); [apply Clim_const|exact Lid].
    + simpl. ring.
    + intros t. unfold Cmonic, monic. simpl. ring.
    + unfold Ccontinuous. apply (Clim_ext (fun t => - (1) * (1 + t))); [intros; ring|]. assert (Q : - (1 + 0) = - (1) * (1 + 0)) by ring. rewrite Q. apply (Clim_mult (fun _ => - (1)) (fun t => 1 + t)); [apply Clim_const|].
      apply (Clim_plus (fun _ => RtoC 1) (fun t => t)); [apply Clim_const|exact Lid].
    + simpl. ring.
    + intros t. unfold Cmonic, monic. simpl. ring.
  - intros x. unfold Cmonic, Cfrom_roots, monic, from_roots. simpl. ring.
  - intros E. apply (f_equal Re) in E. simpl in E. lra.
Qed.

(** ** C33 *)
Theorem C33_quadratic : forall csqrt ccbrt eigvals, (forall z, csqrt z * csqrt z = z) -> forall b c,
  exists x y, roots csqrt ccbrt eigvals false [b; c] = inr [x; y] /\ x + y = - b /\ x * y = c /\
    (forall z, z * z + b * z + c = (z - x) * (z - y)) /\ (forall z, z * z + b * z + c = 0 <-> z = x \/ z = y) /\ Cvieta [x; y] = Some [b; c].
Proof.
  intros csqrt ccbrt eigvals Hs b c. unfold roots. destruct (roots2 csqrt b c) as [x y] eqn:E. exists x, y. split; [reflexivity|].
  destruct (roots2_vieta csqrt Hs b c x y E) as [S P]. split; [exact S|]. split; [exact P|].
  assert (F : forall z, z * z + b * z + c = (z - x) * (z - y)) by (intros z; transitivity (z * z - (x + y) * z + x * y); [rewrite S, P; ring|ring]).
  split; [exact F|]. split.
  - intros z. rewrite F. split; [intros H; apply C_integral in H; destruct H as [H|H]; [left; transitivity (z - x + x); [ring|rewrite H; ring]|right; transitivity (z - y + y); [ring|rewrite H; ring]]|intros [->| ->]; ring].
  - apply C29_exactly; [reflexivity|]. intros z. transitivity (z * z + b * z + c); [unfold Cmonic, monic; simpl; ring|]. rewrite F. unfold Cfrom_roots, from_roots. simpl. ring.
Qed.
Print Assumptions C33_quadratic.
Example C33_nonvacuous : principal_sqrt psqrt /\ cube_root pcbrt. Proof. split; [apply psqrt_principal|apply pcbrt_cube]. Qed.

(** ** C34 *)
(** the inputs on which exact arithmetic cancels: b^2 = 3c while 2b^3 - 9bc + 27d is on the negative imaginary axis *)
Definition cubic_exception (b c d : C) : Prop :=
  b * b = RtoC 3 * c /\ let N := RtoC 2 * b * b * b - RtoC 9 * b * c + RtoC 27 * d in (Re N = 0 /\ Im N < 0)%R.
Lemma N54 b c d : let N := cubic_N b c d in let R := N / num 54 in Re R = (Re N / 54)%R /\ Im R = (Im N / 54)%R.
Proof. intros N R. unfold R. assert (H : N / num 54 = N * RtoC (/ 54)) by (unfold num; rewrite RtoC_inv by lra; reflexivity). rewrite H. unfold Re, Im. simpl. lra. Qed.
Lemma fine_principal csqrt b c d : principal_sqrt csqrt -> ~ cubic_exception b c d -> cubic_fine csqrt b c d.
Proof.
  intros P E. destruct (Ceq_dec (b * b) (num 3 * c)) as [Eq|N]; [right|left; exact N]. cbv zeta. apply principal_square; [exact P|].
  destruct (N54 b c d) as [-> ->]. intros [A B]. apply E. split; [exact Eq|]. cbv zeta. change (RtoC 2 * b * b * b - RtoC 9 * b * c + RtoC 27 * d) with (cubic_N b c d). lra.
Qed.
Theorem C34_cubic : forall csqrt ccbrt eigvals, principal_sqrt csqrt -> cube_root ccbrt -> forall b c d, ~ cubic_exception b c d ->
  exists x y z, roots csqrt ccbrt eigvals false [b; c; d] = inr [x; y; z] /\
    (forall t, t * t * t + b * (t * t) + c * t + d = (t - x) * (t - y) * (t - z)) /\ Cvieta [x; y; z] = Some [b; c; d].
Proof.
  intros csqrt ccbrt eigvals Hs Hc b c d E. unfold roots. destruct (roots3 csqrt ccbrt b c d) as [[x y] z] eqn:E3. exists x, y, z. split; [reflexivity|].
  apply (roots3_vieta csqrt ccbrt (fun z => proj1 (Hs z)) Hc) in E3; [|apply fine_principal; assumption]. destruct E3 as (S1 & S2 & S3).
  assert (F : forall t, t * t * t + b * (t * t) + c * t + d = (t - x) * (t - y) * (t - z)).
  { intros t. transitivity (t * t * t - (x + y + z) * (t * t) + (x * y + x * z + y * z) * t - x * y * z); [rewrite S1, S2, S3; ring|ring]. }
  split; [exact F|]. apply C29_exactly; [reflexivity|]. intros t. transitivity (t * t * t + b * (t * t) + c * t + d); [unfold Cmonic, monic; simpl; ring|]. rewrite F. unfold Cfrom_roots, from_roots. simpl. ring.
Qed.
Print Assumptions C34_cubic.
(** On the exception the three results are all -b/3, which is not a root. *)
Theorem C34_exception_refuted : forall csqrt ccbrt eigvals, principal_sqrt csqrt -> cube_root ccbrt -> forall b c d, cubic_exception b c d ->
  exists x, roots csqrt ccbrt eigvals false [b; c; d] = inr [x; x; x] /\ x * x * x + b * (x * x) + c * x + d <> 0.
Proof.
  intros csqrt ccbrt eigvals Hs Hc b c d [E1 E2]. exists (- b / (1 + 1 + 1)). cbv zeta in E2. change (RtoC 2 * b * b * b - RtoC 9 * b * c + RtoC 27 * d) with (cubic_N b c d) in E2. set (N := cubic_N b c d) in *.
  assert (R0 : (Re (N / num 54)%C = 0 /\ Im (N / num 54)%C < 0)%R) by (unfold N; destruct (N54 b c d) as [-> ->]; fold N; lra). split.
  - unfold roots, roots3. fold (cubic_N b c d). fold N. change (RtoC 3 * c) with (num 3 * c) in E1. rewrite E1. replace (num 3 * c - num 3 * c) with (RtoC 0) by ring.
    replace (0 / num 9) with (RtoC 0) by (numerals; fld). replace (N / num 54 * (N / num 54) - 0 * 0 * 0) with (N / num 54 * (N / num 54)) by ring.
    rewrite (principal_exception csqrt _ Hs R0). destruct (Rle_dec 0 (Re (N / num 54))) as [L|L]; [|lra]. replace (N / num 54 + - (N / num 54)) with (RtoC 0) by ring.
    assert (C0 : ccbrt 0 = 0) by (pose proof (Hc 0) as H; apply C_integral in H; destruct H as [H|H]; [apply C_integral in H; tauto|exact H]). rewrite C0.
    replace (- (0)) with (RtoC 0) by ring. rewrite (proj2 (C_eqb_spec (RtoC 0) (RtoC 0)) eq_refl).
    cbv beta iota zeta. assert (Q1 : - (0 + 0) / num 2 - b / num 3 = - b / (1 + 1 + 1)) by (numerals; fld). rewrite Q1.
    match goal with |- inr [?u; ?v; ?w] = _ => assert (U : u = - b / (1 + 1 + 1)) by (numerals; fld); assert (V : v = - b / (1 + 1 + 1)) by ring; assert (W : w = - b / (1 + 1 + 1)) by ring; rewrite U, V, W; reflexivity end.
  - intros Z. assert (HN : N = 0).
    { unfold N, cubic_N. change (RtoC 3 * c) with (num 3 * c) in E1. assert (Ec : c = b * b / num 3) by (rewrite E1; numerals; fld). rewrite Ec in *.
      transitivity (num 27 * ((- b / (1 + 1 + 1)) * (- b / (1 + 1 + 1)) * (- b / (1 + 1 + 1)) + b * ((- b / (1 + 1 + 1)) * (- b / (1 + 1 + 1))) + b * b / num 3 * (- b / (1 + 1 + 1)) + d)); [numerals; fld|rewrite Z; ring]. }
    rewrite HN in E2. simpl in E2. lra.
Qed.
Print Assumptions C34_exception_refuted.
Example C34_nonvacuous : ~ cubic_exception (RtoC (-6)) (RtoC 11) (RtoC (-6)) /\ cubic_exception 0 0 (0, -2)%R.
Proof. split; [intros [E _]; apply (f_equal Re) in E; simpl in E; lra|]. split; [apply C_ext; simpl; ring|]. simpl. lra. Qed.

(** ** C35 *)
(** the depressed quartic x^4 + p x^2 + q x + r *)
Definition dep_p (b c : C) : C := c - RtoC 3 * b * b / RtoC 8.
Definition dep_q (b c d : C) : C := b * b * b / RtoC 8 - b * c / RtoC 2 + d.
Definition dep_r (b c d e : C) : C := - RtoC 3 * b * b * b * b / RtoC 256 + b * b * c / RtoC 16 - b * d / RtoC 4 + e.
Ltac perm4 := repeat lazymatch goal with
  | |- Permutation [] [] => constructor
  | |- Permutation (?x :: _) (?x :: _) => apply perm_skip
  | |- Permutation (?x :: ?l) (?a :: ?x :: ?m) => apply (Permutation_cons_app [a] m x)
  | |- Permutation (?x :: ?l) (?a :: ?b :: ?x :: ?m) => apply (Permutation_cons_app [a; b] m x)
  | |- Permutation (?x :: ?l) (?a :: ?b :: ?c :: ?x :: ?m) => apply (Permutation_cons_app [a; b; c] m x)
  end; cbn [app].
Lemma sort4_perm {T} (v1 v2 v3 v4 : R) (r1 r2 r3 r4 : T) : let '(x, y, z, w) := sort4 v1 r1 v2 r2 v3 r3 v4 r4 in Permutation [x; y; z; w] [r1; r2; r3; r4].
Proof. unfold sort4. repeat match goal with |- context [if gt ?a ?b then _ else _] => destruct (gt a b) end; cbn [app]; repeat (perm4; cbn [app]). Qed.
(** The resolvent cubic must not be exceptional (C34) when q is not zero. *)
Theorem C35_quartic : forall csqrt ccbrt eigvals, principal_sqrt csqrt -> cube_root ccbrt -> forall b c d e,
  (let p := dep_p b c in let q := dep_q b c d in let r := dep_r b c d e in q <> 0 -> ~ cubic_exception (RtoC 2 * p) (p * p - RtoC 4 * r) (- q * q)) ->
  exists x y z w, roots csqrt ccbrt eigvals false [b; c; d; e] = inr [x; y; z; w] /\
    (forall t, t * t * t * t + b * (t * t * t) + c * (t * t) + d * t + e = (t - x) * (t - y) * (t - z) * (t - w)) /\ Cvieta [x; y; z; w] = Some [b; c; d; e].
Proof.
  intros csqrt ccbrt eigvals Hs Hc b c d e E. unfold roots. destruct (roots4 csqrt ccbrt b c d e) as [[[x y] z] w] eqn:E4. exists x, y, z, w. split; [reflexivity|].
  assert (F : forall t, t * t * t * t + b * (t * t * t) + c * (t * t) + d * t + e = (t - x) * (t - y) * (t - z) * (t - w)).
  { unfold roots4 in E4. set (p := (num 8 * c - num 3 * b * b) / num 8) in *. set (q := (b * b * b - num 4 * b * c + num 8 * d) / num 8) in *.
    set (r := (- num 3 * b * b * b * b + num 256 * e - num 64 * b * d + num 16 * b * b * c) / num 256) in *.
    assert (Hp : dep_p b c = p) by (unfold dep_p, p; change RtoC with num; numerals; fld). assert (Hq : dep_q b c d = q) by (unfold dep_q, q; change RtoC with num; numerals; fld).
    assert (Hr : dep_r b c d e = r) by (unfold dep_r, r; change RtoC with num; numerals; fld). rewrite Hp, Hq, Hr in E. cbv zeta in E.
    destruct (roots4_depressed csqrt ccbrt p q r) as [[[a1 a2] a3] a4] eqn:ED.
    assert (HD := roots4_depressed_prod csqrt ccbrt (fun z => proj1 (Hs z)) Hc p q r a1 a2 a3 a4 ED (fun Nq => fine_principal csqrt _ _ _ Hs (E Nq))).
    pose proof (sort4_perm (Cmod (a1 - b / num 4)) (Cmod (a2 - b / num 4)) (Cmod (a3 - b / num 4)) (Cmod (a4 - b / num 4)) (a1 - b / num 4) (a2 - b / num 4) (a3 - b / num 4) (a4 - b / num 4)) as P.
    rewrite E4 in P. intros t. rewrite <- (depressed b c d e t). fold p q r. rewrite <- HD.
    transitivity (Cfrom_roots [a1 - b / num 4; a2 - b / num 4; a3 - b / num 4; a4 - b / num 4] t); [unfold Cfrom_roots, from_roots; simpl; ring|].
    transitivity (Cfrom_roots [x; y; z; w] t); [symmetry; apply (from_roots_perm C 0 1 Cplus Cmult Cminus Copp Th), P|]. unfold Cfrom_roots, from_roots. simpl. ring. }
  split; [exact F|]. apply C29_exactly; [reflexivity|]. intros t. transitivity (t * t * t * t + b * (t * t * t) + c * (t * t) + d * t + e); [unfold Cmonic, monic; simpl; ring|].
  rewrite F. unfold Cfrom_roots, from_roots. simpl. ring.
Qed.
Print Assumptions C35_quartic.
(** in particular every biquadratic, and every quartic with real coefficients *)
Theorem C35_biquadratic : forall csqrt ccbrt eigvals, principal_sqrt csqrt -> cube_root ccbrt -> forall c e,
  exists x y z w, roots csqrt ccbrt eigvals false [RtoC 0; c; RtoC 0; e] = inr [x; y; z; w] /\
    forall t, t * t * t * t + c * (t * t) + e = (t - x) * (t - y) * (t - z) * (t - w).
Proof.
  intros csqrt ccbrt eigvals Hs Hc c e. destruct (C35_quartic csqrt ccbrt eigvals Hs Hc 0 c 0 e) as (x & y & z & w & R & F & _).
  - cbv zeta. intros N. exfalso. apply N. unfold dep_q. change RtoC with num. numerals. change num with RtoC. fld.
  - exists x, y, z, w. split; [exact R|]. intros t. rewrite <- F. ring.
Qed.
Print Assumptions C35_biquadratic.
Theorem C34_real : forall b c d : R, ~ cubic_exception b c d.
Proof. intros b c d [_ [_ H]]. simpl in H. lra. Qed.
Print Assumptions C34_real.
Lemma real_image (z : C) : Im z = 0%R -> exists r : R, z = RtoC r.
Proof. intros H. exists (Re z). apply C_ext; [reflexivity|exact H]. Qed.
Theorem C35_real : forall csqrt ccbrt eigvals, principal_sqrt csqrt -> cube_root ccbrt -> forall b c d e : R,
  exists x y z w, roots csqrt ccbrt eigvals false [RtoC b; RtoC c; RtoC d; RtoC e] = inr [x; y; z; w] /\
    (forall t, t * t * t * t + b * (t * t * t) + c * (t * t) + d * t + e = (t - x) * (t - y) * (t - z) * (t - w)).
Proof.
  intros csqrt ccbrt eigvals Hs Hc b c d e. destruct (C35_quartic csqrt ccbrt eigvals Hs Hc b c d e) as (x & y & z & w & R & F & _); [|exists x, y, z, w; split; assumption].
  cbv zeta. intros _ [_ [_ H]]. revert H.
  assert (RI : forall k : R, k <> 0%R -> / RtoC k = RtoC (/ k)) by (intros; symmetry; apply RtoC_inv; assumption).
  unfold dep_p, dep_q, dep_r, Cdiv. rewrite !RI by lra. repeat (rewrite <- ?RtoC_mult, <- ?RtoC_plus, <- ?RtoC_minus, <- ?RtoC_opp). simpl. lra.
Qed.
Print Assumptions C35_real.
Example C35_nonvacuous : let p := dep_p 0 0 in let q := dep_q 0 0 1 in let r := dep_r 0 0 1 0 in q <> 0 /\ ~ cubic_exception (RtoC 2 * p) (p * p - RtoC 4 * r) (- q * q).
Proof.
  cbv zeta. assert (Q : dep_q 0 0 1 = 1) by (unfold dep_q; change RtoC with num; numerals; change num with RtoC; apply C_ext; simpl; field). rewrite Q. split; [intros E; apply RtoC_inj in E; lra|].
  assert (P : dep_p 0 0 = 0) by (unfold dep_p; change RtoC with num; numerals; change num with RtoC; fld). assert (R_ : dep_r 0 0 1 0 = 0) by (unfold dep_r; change RtoC with num; numerals; change num with RtoC; fld).
  rewrite P, R_. intros [_ [_ H]]. simpl in H. lra.
Qed.

(** ** C36 *)
Theorem C36_sorted : forall (T : Type) (v : T -> R) r1 r2 r3 r4,
  let '(x, y, z, w) := sort4 (v r1) r1 (v r2) r2 (v r3) r3 (v r4) r4 in
  Permutation [x; y; z; w] [r1; r2; r3; r4] /\ (v y <= v x /\ v z <= v y /\ v w <= v z)%R.
Proof.
  intros T v r1 r2 r3 r4. pose proof (sort4_perm (v r1) (v r2) (v r3) (v r4) r1 r2 r3 r4) as P. revert P. unfold sort4, gt.
  repeat match goal with |- context [if (if Rlt_dec ?a ?b then true else false) then _ else _] => destruct (Rlt_dec a b) end; intros P; (split; [exact P|lra]).
Qed.
Print Assumptions C36_sorted.
Theorem C36_quartic_order : forall csqrt ccbrt eigvals b c d e, exists x y z w,
  roots csqrt ccbrt eigvals false [b; c; d; e] = inr [x; y; z; w] /\ (Cmod y <= Cmod x /\ Cmod z <= Cmod y /\ Cmod w <= Cmod z)%R.
Proof.
  intros csqrt ccbrt eigvals b c d e. unfold roots, roots4. destruct (roots4_depressed csqrt ccbrt _ _ _) as [[[a1 a2] a3] a4].
  pose proof (C36_sorted C Cmod (a1 - b / num 4) (a2 - b / num 4) (a3 - b / num 4) (a4 - b / num 4)) as H.
  destruct (sort4 _ _ _ _ _ _ _ _) as [[[x y] z] w]. exists x, y, z, w. split; [reflexivity|]. apply H.
Qed.
Print Assumptions C36_quartic_order.
Example C36_nonvacuous : sort4 1 (1, 1)%nat 3 (3, 1)%nat 1 (1, 2)%nat 2 (2, 1)%nat = ((3, 1), (2, 1), (1, 2), (1, 1))%nat.
Proof. unfold sort4, gt. repeat match goal with |- context [if (if Rlt_dec ?a ?b then true else false) then _ else _] => destruct (Rlt_dec a b); try lra end. reflexivity. Qed.
