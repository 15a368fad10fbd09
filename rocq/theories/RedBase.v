(** The basic integrals of the model (Ie) are the integrals they stand for. *)
From Coq Require Import Reals List Bool Arith ZArith Lia Lra Psatz.
From Coquelicot Require Import Rcomplements Hierarchy Continuity Derive RInt RInt_analysis AutoDerive ElemFct.
From Verif Require Import EllipSpec Improper RedAlg RedInt Reduction.
Import ListNotations.
Open Scope R_scope.

Section Base.
Variables (x y : R) (a : list R) (h : nat).
Variables (elliprc : R -> R -> R) (elliprd elliprf : R -> R -> R -> R) (elliprj : R -> R -> R -> R -> R).
Hypothesis H34 : h = 3%nat \/ h = 4%nat.
Hypothesis Hn : (h <= length a)%nat.
Hypothesis Hxy : y < x.
Hypothesis Pos : forall i, (1 <= i <= length a)%nat -> 0 < item a i + y.
Hypothesis Dist : forall i j, (1 <= i <= length a)%nat -> (1 <= j <= length a)%nat -> i <> j -> item a i <> item a j.
Hypothesis CRF : forall u v w r, carlson_RF u v w r -> elliprf u v w = r.
Hypothesis CRC : forall u v r, carlson_RC u v r -> elliprc u v = r.
Hypothesis CRD : forall u v w r, carlson_RD u v w r -> elliprd u v w = r.
Hypothesis CRJ : forall u v w p r, p <> u -> p <> v -> p <> w -> carlson_RJ u v w p r -> elliprj u v w p = r.

Definition form (i : nat) : R * R := match i with O => (1, 0) | S _ => (item a i + y, 1) end.
Lemma form_S i : (1 <= i)%nat -> form i = (item a i + y, 1).
Proof. destruct i; [lia|reflexivity]. Qed.
Lemma L_form i t : (1 <= i)%nat -> L (form i) (t - y) = item a i + t.
Proof. intros Hi. rewrite form_S by exact Hi. unfold L. cbn [fst snd]. ring. Qed.
Lemma L_form0 t : L (form 0) t = 1.
Proof. unfold L. cbn. ring. Qed.
Lemma X_form i t : Xf (form i) (t - y) = XorY a t i.
Proof. destruct i; unfold Xf; [rewrite L_form0; apply sqrt_1|]. rewrite L_form by lia. reflexivity. Qed.
Lemma Y_form i : Yf (form i) = XorY a y i.
Proof. destruct i; [apply sqrt_1|]. reflexivity. Qed.
Lemma pos_form i : (i <= length a)%nat -> posf (x - y) (form i).
Proof. intros Hi. destruct i as [|i]; [split; cbn; unfold L; cbn; lra|]. pose proof (Pos (S i) ltac:(lia)) as P. split; [rewrite form_S by lia; exact P|]. rewrite L_form by lia. lra. Qed.
Lemma d_form i j : i <> j -> dd (form i) (form j) = d a i j.
Proof.
  intros N. unfold dd, d, d_up. destruct i as [|i], j as [|j]; [congruence| | |].
  - cbn. ring.
  - cbn. ring.
  - rewrite !form_S by lia. destruct (Nat.ltb_spec (S j) (S i)); cbn [fst snd Nat.eqb]; ring.
Qed.
Lemma d_nz i j : (i <= length a)%nat -> (j <= length a)%nat -> i <> j -> d a i j <> 0.
Proof.
  intros Hi Hj N. rewrite <- d_form by exact N. destruct i as [|i], j as [|j]; [congruence|unfold dd; cbn; lra|unfold dd; cbn; lra|]. pose proof (Dist (S i) (S j) ltac:(lia) ltac:(lia) N). unfold dd. rewrite !form_S by lia. cbn [fst snd]. lra.
Qed.
Definition NN (i j k l : nat) : R := Nf (form i) (form j) (form k) (form l) (x - y).
Definition quad (i j k l : nat) : Prop :=
  (forall t, sf (form i) (form j) (form k) (form l) (t - y) = s a h t) /\ U2 x y a h i j = NN i j k l ^ 2 /\ U2 x y a h i k = NN i k j l ^ 2 /\ U2 x y a h j k = NN j k i l ^ 2 /\
  (i <= length a)%nat /\ (j <= length a)%nat /\ (k <= length a)%nat /\ (l <= length a)%nat /\ i <> j /\ i <> k /\ i <> l /\ j <> k /\ j <> l /\ k <> l.
Lemma s_3 t : s a 3 t = XorY a t 1 * XorY a t 2 * XorY a t 3. Proof. reflexivity. Qed.
Lemma s_4 t : s a 4 t = XorY a t 1 * XorY a t 2 * XorY a t 3 * XorY a t 4. Proof. reflexivity. Qed.
Lemma quad3 : h = 3%nat -> quad 1 2 3 0 /\ quad 0 1 2 3 /\ quad 1 0 2 3 /\ quad 2 0 1 3 /\ quad 3 0 1 2.
Proof.
  intros E. pose proof Hn as Hn'. rewrite E in Hn'. unfold quad, NN, U2. rewrite E. cbn [without idx_set Nat.eqb map seq Nat.add filter existsb orb negb].
  unfold X, Y, Nf, sf. setoid_rewrite X_form. rewrite ?Y_form, ?X_form. setoid_rewrite s_3. repeat split; try lia; intros; cbn [XorY]; try ring.
Qed.
Lemma quad4 : h = 4%nat -> quad 1 2 3 4 /\ quad 2 1 3 4 /\ quad 3 1 2 4 /\ quad 4 1 2 3.
Proof.
  intros E. pose proof Hn as Hn'. rewrite E in Hn'. unfold quad, NN, U2. rewrite E. cbn [without idx_set Nat.eqb map seq Nat.add filter existsb orb negb].
  unfold X, Y, Nf, sf. setoid_rewrite X_form. rewrite ?Y_form, ?X_form. setoid_rewrite s_4. repeat split; try lia; intros; cbn [XorY]; try ring.
Qed.
Let H := x - y.
Lemma HH : 0 < H. Proof. unfold H. lra. Qed.
Lemma shift_int (g G : R -> R) : (forall t, 0 <= t <= H -> continuous G t) -> (forall t, y <= t <= x -> g t = G (t - y)) -> is_RInt g y x (RInt G 0 H).
Proof.
  intros CG E. assert (X : is_RInt G 0 H (RInt G 0 H)) by (apply (RInt_correct (V := R_CompleteNormedModule)), (ex_int H HH), CG).
  pose proof (is_RInt_comp_lin (V := R_NormedModule) G 1 (- y) y x (RInt G 0 H)) as S. replace (1 * y + - y) with 0 in S by ring. replace (1 * x + - y) with H in S by (unfold H; ring). specialize (S X).
  eapply is_RInt_ext; [|exact S]. intros t Ht. rewrite Rmin_left, Rmax_right in Ht by lra. rewrite E by lra. unfold scal; cbn; unfold mult; cbn. rewrite !Rmult_1_l. reflexivity.
Qed.
Lemma is_int_unique (g : R -> R) (u w : R) : is_RInt g y x u -> is_RInt g y x w -> u = w.
Proof. intros A B. apply (is_RInt_unique (V := R_CompleteNormedModule)) in A. apply (is_RInt_unique (V := R_CompleteNormedModule)) in B. congruence. Qed.
Lemma NN_pos i j k l : quad i j k l -> 0 < NN i j k l.
Proof. intros (_ & _ & _ & _ & Hi & Hj & Hk & Hl & _). apply (Nf_pos _ _ _ _ (x - y)); try (apply pos_form; assumption); fold H; pose proof HH; lra. Qed.
Lemma s_pos t : y <= t <= x -> 0 < s a h t.
Proof.
  intros Ht. assert (P : forall i, (1 <= i <= 4)%nat -> (i <= length a)%nat -> 0 < XorY a t i). { intros i Hi Hi'. destruct i; [lia|]. apply sqrt_lt_R0. pose proof (Pos (S i) ltac:(lia)). lra. }
  pose proof Hn as Hn'. destruct H34 as [E|E]; rewrite E in *; [rewrite s_3|rewrite s_4]; repeat apply Rmult_lt_0_compat; apply P; lia.
Qed.
(** Ie 0 *)
Lemma I_0_quad i j k l : quad i j k l -> is_RInt (fun t => / s a h t) y x (RInt (fun u => / sf (form i) (form j) (form k) (form l) u) 0 H).
Proof.
  intros (Qs & _ & _ & _ & Hi & Hj & Hk & Hl & _). apply shift_int; [intros; apply (cont_s _ _ _ _ H HH); try (apply pos_form; assumption); assumption|]. intros t Ht. rewrite Qs. reflexivity.
Qed.
Lemma Ie_0_int : is_RInt (fun t => / s a h t) y x (Ie_0 x y a h elliprf).
Proof.
  assert (Q : exists l, quad 1 2 3 l) by (destruct H34 as [E|E]; [exists 0%nat; apply (quad3 E)|exists 4%nat; apply (quad4 E)]). destruct Q as (l & Q). pose proof (I_0_quad _ _ _ _ Q) as I. destruct Q as (Qs & U12 & U13 & U23 & Hi & Hj & Hk & Hl & _).
  unfold Ie_0, with_U2xyz. rewrite U12, U13, U23. unfold NN, xmy. fold H. rewrite (CRF _ _ _ _ (first_kind (form 1) (form 2) (form 3) (form l) H HH (pos_form _ Hi) (pos_form _ Hj) (pos_form _ Hk) (pos_form _ Hl))).
  assert (Al : forall J : R, 2 * H * (J / (2 * H)) = J) by (intros J; field; pose proof HH as HP; lra). rewrite Al. exact I.
Qed.
(** from a quotient of two forms to one of them *)
Lemma quotient (i j : nat) (r : R) : (1 <= i <= length a)%nat -> (j <= length a)%nat -> j <> i -> is_RInt (fun t => L (form j) (t - y) / ((item a i + t) * s a h t)) y x r ->
  is_RInt (fun t => / ((item a i + t) * s a h t)) y x ((if Nat.eqb j 0 then r else r - Ie_0 x y a h elliprf) / d a j i).
Proof.
  intros Hi Hj N I. pose proof (d_nz j i Hj ltac:(lia) N) as Nd. destruct j as [|j].
  - replace (d a 0 i) with 1 by (destruct i; [lia|]; unfold d, d_up; cbn; ring). cbn [Nat.eqb]. unfold Rdiv. rewrite Rinv_1, Rmult_1_r. eapply is_RInt_ext; [|exact I]. intros t Ht. cbv beta. rewrite L_form0. req. unfold Rdiv. ring.
  - cbn [Nat.eqb]. replace ((r - Ie_0 x y a h elliprf) / d a (S j) i) with (/ d a (S j) i * (r - Ie_0 x y a h elliprf)) by (unfold Rdiv; ring).
    eapply is_RInt_ext; [|apply (is_RInt_scal (V := R_NormedModule) (fun t => L (form (S j)) (t - y) / ((item a i + t) * s a h t) - / s a h t) y x (/ d a (S j) i)), (is_RInt_minus (V := R_NormedModule) _ _ _ _ _ _ I Ie_0_int)].
    intros t Ht. rewrite Rmin_left, Rmax_right in Ht by lra. pose proof (s_pos t ltac:(lra)) as Ps. pose proof (Pos i Hi) as Pi. cbv beta. rewrite L_form by lia. rewrite <- (d_form (S j) i) in * by lia. unfold dd in *. rewrite !form_S in * by lia. cbn [fst snd] in *. unfold scal; cbn; unfold mult; cbn. change (nth j a 0) with (item a (S j)). req. field. repeat split; lra.
Qed.
(** Ie (-i) *)
Lemma Ie_minus_int_quad i j k l : (1 <= i)%nat -> without h [i] = [j; k; l] -> quad i j k l -> is_RInt (fun t => / ((item a i + t) * s a h t)) y x (Ie_minus x y a h elliprd elliprf i).
Proof.
  intros Hi1 W Q. pose proof (NN_pos _ _ _ _ Q) as Pn. destruct Q as (Qs & U12 & U13 & U23 & Hi & Hj & Hk & Hl & Nij & Nik & Nil & Njk & Njl & Nkl). pose proof HH as HP.
  pose proof (pos_form _ Hi) as Fi. pose proof (pos_form _ Hj) as Fj. pose proof (pos_form _ Hk) as Fk. pose proof (pos_form _ Hl) as Fl.
  unfold Ie_minus. rewrite W. apply quotient; [lia|exact Hj|congruence|]. rewrite U12, U13, U23, sqrt_pow2 by lra.
  replace (2 * xmy x y * _) with (RInt (fun u => L (form j) u / (L (form i) u * sf (form i) (form j) (form k) (form l) u)) 0 H).
  - apply shift_int; [intros; apply (cont_LBA _ _ _ _ H HH); assumption|]. intros t Ht. rewrite Qs, (L_form i) by lia. reflexivity.
  - rewrite (second_kind (form i) (form j) (form k) (form l) H HH Fi Fj Fk Fl). unfold NN. fold H. rewrite (CRD _ _ _ _ (second_kind_RD (form i) (form j) (form k) (form l) H HH Fi Fj Fk Fl)). rewrite <- !d_form by congruence.
    unfold X, Y. rewrite <- !(fun i => X_form i x), <- !Y_form. fold H. unfold xmy2, xmy. fold H. set (J := RInt _ 0 H). clearbody J. change (Nf (form i) (form j) (form k) (form l) H) with (NN i j k l). pose proof (X_pos H (form i) H HH Fi ltac:(lra)). pose proof (Y_pos H (form i) Fi). req. field. repeat split; lra.
Qed.
Lemma Ie_minus_int i : (1 <= i <= h)%nat -> is_RInt (fun t => / ((item a i + t) * s a h t)) y x (Ie_minus x y a h elliprd elliprf i).
Proof.
  intros Hi. destruct H34 as [E|E]; rewrite E in Hi.
  - destruct (quad3 E) as (_ & _ & Q1 & Q2 & Q3). assert (C : i = 1%nat \/ i = 2%nat \/ i = 3%nat) by lia. destruct C as [-> | [-> | ->]]; eapply Ie_minus_int_quad; try eassumption; try lia; rewrite E; reflexivity.
  - destruct (quad4 E) as (Q1 & Q2 & Q3 & Q4). assert (C : i = 1%nat \/ i = 2%nat \/ i = 3%nat \/ i = 4%nat) by lia. destruct C as [->|[-> | [-> | ->]]]; eapply Ie_minus_int_quad; try eassumption; try lia; rewrite E; reflexivity.
Qed.
Lemma RJ_swap12 u v w p r : carlson_RJ u v w p r -> carlson_RJ v u w p r.
Proof. unfold carlson_RJ. apply improper0_ext. intros t _. f_equal. ring. Qed.
Lemma RJ_swap23 u v w p r : carlson_RJ u v w p r -> carlson_RJ u w v p r.
Proof. unfold carlson_RJ. apply improper0_ext. intros t _. f_equal. ring. Qed.
Lemma U2nu_pp i j k l nu : without h [i] = [j; k; l] -> quad i j k l -> nu <> i -> nu <> j -> U2nu x y a h i nu = pp (form i) (form j) (form k) (form l) (form nu) H.
Proof.
  intros W Q N1 N2. destruct Q as (Qs & U12 & U13 & U23 & Hi & Hj & Hk & Hl & Nij & Nik & Nil & Njk & Njl & Nkl). unfold U2nu. rewrite W, U12. unfold pp, p_of, cc, NN, xmy2, xmy. fold H. rewrite !d_form by congruence. unfold Rdiv. ring.
Qed.
Lemma div_nz u e : u <> 0 -> e <> 0 -> u / e <> 0.
Proof. intros Nu Ne Z. apply Nu. replace u with (u / e * e) by (field; exact Ne). rewrite Z. ring. Qed.
Lemma U2nu_ne i j k l nu : without h [i] = [j; k; l] -> quad i j k l -> (nu <= length a)%nat -> nu <> i -> nu <> j -> nu <> k -> nu <> l ->
  U2nu x y a h i nu <> U2 x y a h i j /\ U2nu x y a h i nu <> U2 x y a h i k /\ U2nu x y a h i nu <> U2 x y a h j k.
Proof.
  intros W Q Hnu N1 N2 N3 N4. rewrite (U2nu_pp i j k l nu W Q N1 N2). destruct Q as (Qs & U12 & U13 & U23 & Hi & Hj & Hk & Hl & Nij & Nik & Nil & Njk & Njl & Nkl). pose proof HH as HP. rewrite U12, U13, U23. unfold pp, p_of, NN. fold H.
  pose proof (pos_form _ Hi) as Fi. pose proof (pos_form _ Hj) as Fj. pose proof (pos_form _ Hk) as Fk. pose proof (pos_form _ Hl) as Fl. fold H in Fi, Fj, Fk, Fl.
  pose proof (UU (form i) (form j) (form k) (form l) H HP Fi Fj Fk Fl H ltac:(lra)) as E1. pose proof (UU3 (form i) (form j) (form k) (form l) H HP Fi Fj Fk Fl H ltac:(lra)) as E2.
  assert (K : forall p q, (p <= length a)%nat -> (q <= length a)%nat -> p <> q -> dd (form p) (form q) <> 0) by (intros p q Hp Hq N; rewrite d_form by exact N; apply d_nz; assumption).
  pose proof (K i nu Hi Hnu ltac:(congruence)) as Kin. assert (HH2 : H ^ 2 <> 0) by (apply pow_nonzero; lra). unfold cc. set (G := H ^ 2) in *. clearbody G. repeat split; intros Z.
  - assert (X : dd (form i) (form k) * dd (form i) (form l) * dd (form j) (form nu) * G / dd (form i) (form nu) = 0) by (unfold Rdiv in *; lra). revert X. apply div_nz; [|exact Kin]. repeat apply Rmult_integral_contrapositive_currified; try exact HH2; apply K; congruence.
  - assert (X : dd (form i) (form l) * dd (form i) (form j) * dd (form k) (form nu) * G / dd (form i) (form nu) = 0).
    { transitivity (- (dd (form i) (form l) * dd (form j) (form k) * G + - (dd (form i) (form k) * dd (form i) (form l) * dd (form j) (form nu) / dd (form i) (form nu)) * G)); [unfold dd in *; field; exact Kin|]. unfold Rdiv in *; lra. }
    revert X. apply div_nz; [|exact Kin]. repeat apply Rmult_integral_contrapositive_currified; try exact HH2; apply K; congruence.
  - assert (X : dd (form i) (form k) * dd (form i) (form j) * dd (form l) (form nu) * G / dd (form i) (form nu) = 0).
    { transitivity (- (dd (form j) (form l) * dd (form i) (form k) * G + - (dd (form i) (form k) * dd (form i) (form l) * dd (form j) (form nu) / dd (form i) (form nu)) * G)); [unfold dd in *; field; exact Kin|]. unfold Rdiv in *; lra. }
    revert X. apply div_nz; [|exact Kin]. repeat apply Rmult_integral_contrapositive_currified; try exact HH2; apply K; congruence.
Qed.
Lemma third_quad i j k l nu : without h [i] = [j; k; l] -> quad i j k l -> (nu <= length a)%nat -> nu <> i -> nu <> j -> nu <> k -> nu <> l -> 0 < U2nu x y a h i nu ->
  (forall p r, p <> U2 x y a h i j -> p <> U2 x y a h i k -> p <> U2 x y a h j k -> carlson_RJ (U2 x y a h i j) (U2 x y a h i k) (U2 x y a h j k) p r -> elliprj (U2 x y a h 1 2) (U2 x y a h 1 3) (U2 x y a h 2 3) p = r) ->
  is_RInt (fun t => L (form i) (t - y) / (L (form nu) (t - y) * s a h t)) y x
    (2 * xmy x y * (d a i j * d a i k * d a i l / d a i nu / 3 * xmy2 x y * with_U2xyz x y a h (fun u v w => elliprj u v w (U2nu x y a h i nu)) + elliprc (S2 x y a h i nu) (Q2 x y a h i nu))).
Proof.
  intros W Q Hnu N1 N2 N3 N4 Pu PR. pose proof (U2nu_ne i j k l nu W Q Hnu N1 N2 N3 N4) as NEs. pose proof (U2nu_pp i j k l nu W Q N1 N2) as EU. pose proof (NN_pos _ _ _ _ Q) as Pn. destruct Q as (Qs & U12 & U13 & U23 & Hi & Hj & Hk & Hl & Nij & Nik & Nil & Njk & Njl & Nkl). pose proof HH as HP.
  pose proof (pos_form _ Hi) as Fi. pose proof (pos_form _ Hj) as Fj. pose proof (pos_form _ Hk) as Fk. pose proof (pos_form _ Hl) as Fl. pose proof (pos_form _ Hnu) as Fn. fold H in Fi, Fj, Fk, Fl, Fn.
  assert (NE : dd (form i) (form nu) <> 0) by (rewrite d_form by congruence; apply d_nz; congruence). rewrite EU in Pu.
  assert (ES : S2 x y a h i nu = Sf (form i) (form j) (form k) (form l) (form nu) H ^ 2).
  { unfold S2. rewrite W. unfold Sf, X, Y. rewrite <- !(fun i => X_form i x), <- !Y_form. fold H. f_equal. unfold Rdiv. ring. }
  assert (EQ : Q2 x y a h i nu = Qf (form i) (form j) (form k) (form l) (form nu) H).
  { unfold Q2. rewrite EU. unfold Qf, X, Y. rewrite <- !(fun i => X_form i x), <- !Y_form. fold H. cbn [pow]. rewrite !Rmult_1_r. reflexivity. }
  assert (ER : elliprc (S2 x y a h i nu) (Q2 x y a h i nu) = RInt (w3 (form i) (form j) (form k) (form l) (form nu) H) 0 H) by (rewrite ES, EQ; apply CRC, third_kind_RC; assumption).
  assert (EJ : with_U2xyz x y a h (fun u v w => elliprj u v w (U2nu x y a h i nu)) = 3 / (2 * H ^ 3) * RInt (fun u => u ^ 2 / (sf (form i) (form j) (form k) (form l) u * pp (form i) (form j) (form k) (form l) (form nu) u)) 0 H).
  { unfold with_U2xyz. destruct NEs as (NE1 & NE2 & NE3). apply PR; try assumption. rewrite U12, U13, U23, EU. apply (third_kind (form i) (form j) (form k) (form l) H HH Fi Fj Fk Fl), Pu. }
  rewrite ER, EJ. replace (2 * xmy x y * _) with (RInt (fun u => L (form i) u / (L (form nu) u * sf (form i) (form j) (form k) (form l) u)) 0 H).
  - apply shift_int; [intros; apply (cont_LAE _ _ _ _ _ H HH); assumption|]. intros t Ht. rewrite Qs. reflexivity.
  - rewrite (third_kind_value (form i) (form j) (form k) (form l) (form nu) H) by assumption. rewrite !d_form in * by congruence. unfold xmy2, xmy. fold H.
    assert (Al : forall J1 J2 : R, 2 * H * J1 + d a i j * d a i k * d a i l / d a i nu * J2 = 2 * H * (d a i j * d a i k * d a i l / d a i nu / 3 * H ^ 2 * (3 / (2 * H ^ 3) * J2) + J1)) by (intros; field; split; first [exact NE|lra]). apply Al.
Qed.
(** Ie (-nu), nu > h *)
Lemma Ie_minus_nu_int nu : (h < nu <= length a)%nat -> 0 < U2nu x y a h (if Nat.eqb h 4 then 1 else 0) nu -> is_RInt (fun t => / ((item a nu + t) * s a h t)) y x (Ie_minus_nu x y a h elliprc elliprf elliprj nu).
Proof.
  intros Hnu Pu. assert (Gen : forall i j k l, idx_set h = [i; j; k; l] -> without h [i] = [j; k; l] -> quad i j k l -> nu <> i -> nu <> j -> nu <> k -> nu <> l -> 0 < U2nu x y a h i nu ->
    (forall p r, p <> U2 x y a h i j -> p <> U2 x y a h i k -> p <> U2 x y a h j k -> carlson_RJ (U2 x y a h i j) (U2 x y a h i k) (U2 x y a h j k) p r -> elliprj (U2 x y a h 1 2) (U2 x y a h 1 3) (U2 x y a h 2 3) p = r) -> is_RInt (fun t => / ((item a nu + t) * s a h t)) y x (Ie_minus_nu x y a h elliprc elliprf elliprj nu)).
  { intros i j k l I W Q N1 N2 N3 N4 Pi PR. unfold Ie_minus_nu. rewrite I. assert (Hi : (i <= length a)%nat) by apply Q. cbv zeta. apply quotient; [lia|exact Hi|congruence|]. eapply is_RInt_ext; [|apply (third_quad i j k l nu W Q); try assumption; lia]. intros t _. cbv beta. rewrite (L_form nu) by lia. reflexivity. }
  destruct H34 as [E|E].
  - rewrite E in Hnu, Pu. cbn [Nat.eqb] in Pu. apply (Gen 0%nat 1%nat 2%nat 3%nat); try lia; try (rewrite E; reflexivity); [apply (quad3 E)|rewrite E; exact Pu|]. intros p r n1 n2 n3 J. assert (E1 : U2 x y a h 0 1 = U2 x y a h 2 3) by (unfold U2; rewrite E; cbn; ring). assert (E2 : U2 x y a h 0 2 = U2 x y a h 1 3) by (unfold U2; rewrite E; cbn; ring). rewrite E1, E2 in J. rewrite ?E1, ?E2 in n1. rewrite ?E1, ?E2 in n2. rewrite ?E1, ?E2 in n3.
    apply CRJ; try assumption. apply RJ_swap12, RJ_swap23, RJ_swap12, J.
  - rewrite E in Hnu, Pu. cbn [Nat.eqb] in Pu. apply (Gen 1%nat 2%nat 3%nat 4%nat); try lia; try (rewrite E; reflexivity); [apply (quad4 E)|rewrite E; exact Pu|]. intros p r n1 n2 n3 J. apply CRJ; assumption.
Qed.
Lemma derive_I3 (Xi Xj Xk : R -> R) (ai t : R) : is_derive Xi t (/ (2 * Xi t)) -> is_derive Xj t (/ (2 * Xj t)) -> is_derive Xk t (/ (2 * Xk t)) -> Xi t * Xi t = ai + t -> 0 < Xi t -> 0 < Xj t -> 0 < Xk t ->
  is_derive (fun u => 2 * (Xi u * Xj u * Xk u / (ai + u))) t ((ai + t) / (Xi t * Xj t * Xk t) - (Xi t * Xi t - Xj t * Xj t) * (Xi t * Xi t - Xk t * Xk t) * / ((ai + t) * (Xi t * Xj t * Xk t))).
Proof.
  intros Di Dj Dk Q Pi Pj Pk. assert (0 < ai + t) by (rewrite <- Q; apply Rmult_lt_0_compat; assumption). auto_derive; [repeat split; try (eexists; eassumption); lra|].
  change (Derive (fun x => Xi x) t) with (Derive Xi t). change (Derive (fun x => Xj x) t) with (Derive Xj t). change (Derive (fun x => Xk x) t) with (Derive Xk t). rewrite (is_derive_unique _ _ _ Di), (is_derive_unique _ _ _ Dj), (is_derive_unique _ _ _ Dk). rewrite <- Q. field. repeat split; lra.
Qed.
(** Ie i, h = 3 *)
Lemma s_sq t i j k : h = 3%nat -> (i = 1%nat /\ j = 2%nat /\ k = 3%nat) \/ (i = 2%nat /\ j = 1%nat /\ k = 3%nat) \/ (i = 3%nat /\ j = 1%nat /\ k = 2%nat) -> s a h t = XorY a t i * XorY a t j * XorY a t k.
Proof. intros E C. rewrite E, s_3. destruct C as [(-> & -> & ->)|[(-> & -> & ->)|(-> & -> & ->)]]; ring. Qed.
Lemma Ie_plus_int3 i : h = 3%nat -> (1 <= i <= 3)%nat -> is_RInt (fun t => (item a i + t) / s a h t) y x (Ie_plus x y a h elliprc elliprd elliprf elliprj i).
Proof.
  intros E Hi. assert (C : exists j k, filter (fun j => negb (Nat.eqb j i)) [1; 2; 3]%nat = [j; k] /\ ((i = 1%nat /\ j = 2%nat /\ k = 3%nat) \/ (i = 2%nat /\ j = 1%nat /\ k = 3%nat) \/ (i = 3%nat /\ j = 1%nat /\ k = 2%nat))).
  { assert (C : i = 1%nat \/ i = 2%nat \/ i = 3%nat) by lia. destruct C as [-> | [-> | ->]]; eexists; eexists; (split; [reflexivity|lia]). }
  destruct C as (j & k & Ef & C). pose proof Hn as Hn'. rewrite E in Hn'. unfold Ie_plus. rewrite E at 1. cbn [Nat.eqb]. rewrite Ef.
  assert (Hj : (1 <= j <= 3)%nat) by lia. assert (Hk : (1 <= k <= 3)%nat) by lia.
  pose proof (Ie_minus_int i ltac:(rewrite E; exact Hi)) as IM.
  assert (P : forall p t, (1 <= p <= 3)%nat -> y <= t <= x -> 0 < XorY a t p /\ XorY a t p * XorY a t p = item a p + t /\ 0 < item a p + t).
  { intros p t Hp Ht. pose proof (Pos p ltac:(lia)) as Q. destruct p; [lia|]. cbn [XorY]. repeat split; [apply sqrt_lt_R0; lra|apply sqrt_sqrt; lra|lra]. }
  assert (DX : forall p t, (1 <= p <= 3)%nat -> y <= t <= x -> is_derive (fun t => XorY a t p) t (/ (2 * XorY a t p))).
  { intros p t Hp Ht. pose proof (P p t Hp Ht) as (_ & _ & Q). destruct p; [lia|]. cbn [XorY]. eapply der_eq; [apply (is_derive_sqrt (fun t => item a (S p) + t) t 1); [auto_derive; [exact I|ring]|exact Q]|]. cbv beta. field. apply Rgt_not_eq, sqrt_lt_R0, Q. }
  assert (DI : is_RInt (fun t => (item a i + t) / s a h t - d a i j * d a i k * / ((item a i + t) * s a h t)) y x (2 * (s a h x / s_ a i x) - 2 * (s a h y / s_ a i y))).
  { apply (is_RInt_derive (fun t => 2 * (s a h t / s_ a i t)) (fun t => (item a i + t) / s a h t - d a i j * d a i k * / ((item a i + t) * s a h t))); intros t Ht; rewrite Rmin_left, Rmax_right in Ht by lra.
    - apply (is_derive_ext (fun t => 2 * (XorY a t i * XorY a t j * XorY a t k / s_ a i t))); [intros u; rewrite (s_sq u i j k E C); reflexivity|]. destruct (P i t Hi Ht) as (pi & qi & li). destruct (P j t Hj Ht) as (pj & qj & lj). destruct (P k t Hk Ht) as (pk & qk & lk).
      eapply der_eq; [apply (derive_I3 (fun t => XorY a t i) (fun t => XorY a t j) (fun t => XorY a t k) (item a i) t); first [apply DX; assumption|assumption]|]. cbv beta. rewrite (s_sq t i j k E C).
      rewrite <- (d_form i j), <- (d_form i k) by lia. unfold dd. rewrite !form_S by lia. cbn [fst snd]. rewrite qi, qj, qk. f_equal. f_equal. ring.
    - assert (K : ex_derive (fun t => / s a h t) t). { apply (ex_derive_ext (fun t => / (XorY a t i * XorY a t j * XorY a t k))); [intros u; rewrite (s_sq u i j k E C); reflexivity|]. apply (ex_derive_inv (fun t => XorY a t i * XorY a t j * XorY a t k)); [|apply Rgt_not_eq; repeat apply Rmult_lt_0_compat; apply P; assumption].
        apply (ex_derive_mult (fun t => XorY a t i * XorY a t j) (fun t => XorY a t k)); [apply (ex_derive_mult (fun t => XorY a t i) (fun t => XorY a t j))|]; eexists; apply DX; assumption. }
      destruct (P i t Hi Ht) as (_ & _ & li). assert (K2 : continuous (fun t => / s a h t) t) by (apply (ex_derive_continuous (fun t => / s a h t)), K).
      apply (continuous_minus (fun t => (item a i + t) / s a h t) (fun t => d a i j * d a i k * / ((item a i + t) * s a h t))).
      + apply (continuous_mult (fun t => item a i + t) (fun t => / s a h t)); [|exact K2]. apply (ex_derive_continuous (fun t => item a i + t)). auto_derive. exact I.
      + apply (continuous_mult (fun _ => d a i j * d a i k) (fun t => / ((item a i + t) * s a h t))); [apply continuous_const|]. apply continuous_ext with (f := fun t => / (item a i + t) * / s a h t); [intros u; rewrite Rinv_mult; reflexivity|]. apply (continuous_mult (fun t => / (item a i + t)) (fun t => / s a h t)); [|exact K2]. apply (ex_derive_continuous (fun t => / (item a i + t))). auto_derive. lra. }
  pose proof (is_RInt_plus (V := R_NormedModule) _ _ _ _ _ _ (is_RInt_scal (V := R_NormedModule) _ _ _ (d a i j * d a i k) _ IM) DI) as T.
  replace (d a i j * d a i k * Ie_minus x y a h elliprd elliprf i + 2 * (s a h x / s_ a i x - s a h y / s_ a i y)) with (d a i j * d a i k * Ie_minus x y a h elliprd elliprf i + (2 * (s a h x / s_ a i x) - 2 * (s a h y / s_ a i y))) by ring.
  eapply is_RInt_ext; [|exact T]. intros t _. unfold plus, scal; cbn; unfold mult; cbn. req. ring.
Qed.
Lemma Ie_plus_int4 i : h = 4%nat -> (1 <= i <= 4)%nat -> 0 < U2nu x y a h i 0 -> is_RInt (fun t => (item a i + t) / s a h t) y x (Ie_plus x y a h elliprc elliprd elliprf elliprj i).
Proof.
  intros E Hi Pu. assert (Gen : forall j k l, without h [i] = [j; k; l] -> quad i j k l -> (1 <= j)%nat -> (1 <= k)%nat -> (1 <= l)%nat ->
    (forall p r, p <> U2 x y a h i j -> p <> U2 x y a h i k -> p <> U2 x y a h j k -> carlson_RJ (U2 x y a h i j) (U2 x y a h i k) (U2 x y a h j k) p r -> elliprj (U2 x y a h 1 2) (U2 x y a h 1 3) (U2 x y a h 2 3) p = r) -> is_RInt (fun t => (item a i + t) / s a h t) y x (Ie_plus x y a h elliprc elliprd elliprf elliprj i)).
  { intros j k l W Q Hj Hk Hl PR. unfold Ie_plus. replace (Nat.eqb h 3) with false by (rewrite E; reflexivity). rewrite W. pose proof (third_quad i j k l 0 W Q ltac:(lia) ltac:(lia) ltac:(lia) ltac:(lia) ltac:(lia) Pu PR) as T.
    replace (d a i 0) with (- 1) in T by (destruct i; [lia|]; unfold d, d_up; cbn; ring). replace (2 * xmy x y * (elliprc _ _ - _)) with (2 * xmy x y * (d a i j * d a i k * d a i l / - 1 / 3 * xmy2 x y * with_U2xyz x y a h (fun u v w => elliprj u v w (U2nu x y a h i 0)) + elliprc (S2 x y a h i 0) (Q2 x y a h i 0))) by field.
    eapply is_RInt_ext; [|exact T]. intros t Ht. cbv beta. rewrite L_form0, L_form by lia. rewrite Rmult_1_l. reflexivity. }
  destruct (quad4 E) as (Q1 & Q2 & Q3 & Q4). assert (C : i = 1%nat \/ i = 2%nat \/ i = 3%nat \/ i = 4%nat) by lia. destruct C as [-> | [-> | [-> | ->]]].
  - apply (Gen 2%nat 3%nat 4%nat); try lia; [rewrite E; reflexivity|exact Q1|]. intros p r n1 n2 n3 J. apply CRJ; assumption.
  - apply (Gen 1%nat 3%nat 4%nat); try lia; [rewrite E; reflexivity|exact Q2|]. intros p r n1 n2 n3 J. assert (E1 : U2 x y a h 2 1 = U2 x y a h 1 2) by (unfold U2; rewrite E; cbn; ring). rewrite E1 in J. rewrite ?E1 in n1. rewrite ?E1 in n2. rewrite ?E1 in n3. apply CRJ; try assumption. apply RJ_swap23, J.
  - apply (Gen 1%nat 2%nat 4%nat); try lia; [rewrite E; reflexivity|exact Q3|]. intros p r n1 n2 n3 J. assert (E1 : U2 x y a h 3 1 = U2 x y a h 1 3) by (unfold U2; rewrite E; cbn; ring). assert (E2 : U2 x y a h 3 2 = U2 x y a h 2 3) by (unfold U2; rewrite E; cbn; ring). rewrite E1, E2 in J. rewrite ?E1, ?E2 in n1. rewrite ?E1, ?E2 in n2. rewrite ?E1, ?E2 in n3. apply CRJ; try assumption. apply RJ_swap12, RJ_swap23, J.
  - apply (Gen 1%nat 2%nat 3%nat); try lia; [rewrite E; reflexivity|exact Q4|]. intros p r n1 n2 n3 J. assert (E1 : U2 x y a h 4 1 = U2 x y a h 2 3) by (unfold U2; rewrite E; cbn; ring). assert (E2 : U2 x y a h 4 2 = U2 x y a h 1 3) by (unfold U2; rewrite E; cbn; ring). rewrite E1, E2 in J. rewrite ?E1, ?E2 in n1. rewrite ?E1, ?E2 in n2. rewrite ?E1, ?E2 in n3. apply CRJ; try assumption. apply RJ_swap12, RJ_swap23, RJ_swap12, J.
Qed.
End Base.
