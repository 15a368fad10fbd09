(** The recurrences for I(q e_j) and the reduction of a general exponent vector *)
From Coq Require Import Reals List Bool Arith ZArith Lia Lra Psatz.
From Coquelicot Require Import Rcomplements Hierarchy Continuity Derive RInt RInt_analysis AutoDerive ElemFct.
From Verif Require Import EllipSpec Improper RedAlg RedInt Roots Reduction PartFrac RedBase ReductionSpec.
Import ListNotations.
Open Scope R_scope.

Lemma powerRZ_S u q : u <> 0 -> powerRZ u (q + 1) = powerRZ u q * u.
Proof. intros N. rewrite powerRZ_add by exact N. rewrite powerRZ_1. reflexivity. Qed.
Lemma powerRZ_derive c t q : c + t <> 0 -> is_derive (fun t => powerRZ (c + t) q) t (IZR q * powerRZ (c + t) (q - 1)).
Proof.
  intros N. destruct (Z_nat_cases q) as [(k & ->)|(k & ->)].
  - apply (is_derive_ext (fun t => (c + t) ^ k)); [intros; symmetry; apply powerRZ_nat|]. auto_derive; [exact I|]. rewrite <- INR_IZR_INZ. destruct k as [|k]; [cbn; ring|]. replace (Z.of_nat (S k) - 1)%Z with (Z.of_nat k) by lia. rewrite powerRZ_nat. cbn [Nat.pred]. ring.
  - apply (is_derive_ext (fun t => / (c + t) ^ S k)); [intros; symmetry; apply powerRZ_opp|]. auto_derive; [exact (pow_nonzero (c + t) (S k) N)|]. rewrite opp_IZR, <- INR_IZR_INZ. replace (- Z.of_nat (S k) - 1)%Z with (- Z.of_nat (S (S k)))%Z by lia. rewrite powerRZ_opp. cbn [Nat.pred]. pose proof (pow_nonzero (c + t) k N) as NK. rewrite S_INR; change (match k with O => 1 | S _ => INR k + 1 end) with (INR (S k)); rewrite S_INR; cbn [pow]. set (u := (c + t) ^ k) in *. clearbody u.
    field. split; assumption.
Qed.

Lemma powerRZ_m1 u : powerRZ u (-1) = / u.
Proof. change (/ u ^ 1 = / u). rewrite pow_1. reflexivity. Qed.

Section Main.
Variables (x y : R) (a : list R) (h : nat).
Variables (elliprc : R -> R -> R) (elliprd elliprf : R -> R -> R -> R) (elliprj : R -> R -> R -> R -> R).
Hypothesis H34 : h = 3%nat \/ h = 4%nat.
Hypothesis Hn : (h <= length a)%nat.
Hypothesis Hxy : y < x.
Hypothesis Pos : forall i, (1 <= i <= length a)%nat -> 0 < item a i + y.
Hypothesis Dist : forall i j, (1 <= i <= length a)%nat -> (1 <= j <= length a)%nat -> i <> j -> item a i <> item a j.
Hypothesis CRF : forall u v w r, carlson_RF u v w r -> elliprf u v w = r.
Hypothesis CRC : forall u v r, carlson_RC u v r -> elliprc u v = r.
Hypothesis CRD : forall u v w r, carlson_RD u v w r -> elliprd u v w = r.
Hypothesis CRJ : forall u v w p r, p <> u -> p <> v -> p <> w -> carlson_RJ u v w p r -> elliprj u v w p = r.
Definition phi (q : Z) (j : nat) (t : R) : R := powerRZ (item a j + t) q / s a h t.
Notation IE := (Ie x y a h elliprc elliprd elliprf elliprj).
Notation IQE := (Iqe x y a h elliprc elliprd elliprf elliprj).
Lemma s_pos' t : y <= t <= x -> 0 < s a h t.
Proof. apply (s_pos x y a h); assumption. Qed.
Lemma it_pos j t : (1 <= j <= length a)%nat -> y <= t <= x -> 0 < item a j + t.
Proof. intros Hj Ht. pose proof (Pos j Hj). lra. Qed.
Lemma int_ext (f g : R -> R) (r : R) : (forall t, y < t < x -> f t = g t) -> is_RInt f y x r -> is_RInt g y x r.
Proof. intros E I. eapply is_RInt_ext; [|exact I]. intros t Ht. rewrite Rmin_left, Rmax_right in Ht by lra. apply E, Ht. Qed.
Lemma d_item i j : (1 <= i)%nat -> (1 <= j)%nat -> d a i j = item a i - item a j.
Proof. intros Hi Hj. unfold d, d_up. destruct i as [|i], j as [|j]; [lia|lia|lia|]. destruct (Nat.ltb_spec (S j) (S i)); cbn [Nat.eqb]; ring. Qed.
(** The base cases *)
Definition rj0 : nat := if Nat.eqb h 4 then 1 else 0.
Lemma base_0 j : is_RInt (phi 0 j) y x (IE 0).
Proof.
  unfold Ie. replace (0 <? - Z.of_nat h)%Z with false by (symmetry; apply Z.ltb_ge; lia). cbn [Z.ltb Z.compare Z.eqb].
  apply (int_ext (fun t => / s a h t)); [intros t _; unfold phi, Rdiv; rewrite powerRZ_O, Rmult_1_l; reflexivity|]. apply (Ie_0_int x y a h elliprf); assumption.
Qed.
Lemma base_m j : (1 <= j <= length a)%nat -> ((h < j)%nat -> 0 < U2nu x y a h rj0 j) -> is_RInt (phi (-1) j) y x (IE (-1 * Z.of_nat j)).
Proof.
  intros Hj Pu. unfold Ie. apply (int_ext (fun t => / ((item a j + t) * s a h t))); [intros t Ht; unfold phi; pose proof (it_pos j t Hj ltac:(lra)); pose proof (s_pos' t ltac:(lra)); rewrite powerRZ_m1; field; lra|].
  destruct (le_lt_dec j h) as [L|L].
  - replace (-1 * Z.of_nat j <? - Z.of_nat h)%Z with false by (symmetry; apply Z.ltb_ge; lia). replace (-1 * Z.of_nat j <? 0)%Z with true by (symmetry; apply Z.ltb_lt; lia). replace (Z.to_nat (- (-1 * Z.of_nat j))) with j by lia. apply (Ie_minus_int x y a h elliprd elliprf); try assumption. lia.
  - replace (-1 * Z.of_nat j <? - Z.of_nat h)%Z with true by (symmetry; apply Z.ltb_lt; lia). replace (Z.to_nat (- (-1 * Z.of_nat j))) with j by lia. apply (Ie_minus_nu_int x y a h elliprc elliprf elliprj); try assumption; [lia|]. apply Pu, L.
Qed.
Definition posl (j : nat) : Prop := h = 4%nat -> 0 < U2nu x y a h j 0.
Lemma base_p_low j : (1 <= j <= h)%nat -> posl j -> is_RInt (fun t => (item a j + t) / s a h t) y x (Ie_plus x y a h elliprc elliprd elliprf elliprj j).
Proof.
  intros Hj Pu. destruct H34 as [E|E]; [apply (Ie_plus_int3 x y a h elliprc elliprd elliprf elliprj); try assumption; lia|apply (Ie_plus_int4 x y a h elliprc elliprd elliprf elliprj); try assumption; [lia|apply Pu, E]].
Qed.
Lemma base_p j : (1 <= j <= length a)%nat -> (posl (if Nat.leb j h then j else 1)) -> is_RInt (phi 1 j) y x (IE (1 * Z.of_nat j)).
Proof.
  intros Hj Pu. unfold Ie. rewrite Z.mul_1_l. replace (Z.of_nat j <? - Z.of_nat h)%Z with false by (symmetry; apply Z.ltb_ge; lia). replace (Z.of_nat j <? 0)%Z with false by (symmetry; apply Z.ltb_ge; lia). replace (Z.of_nat j =? 0)%Z with false by (symmetry; apply Z.eqb_neq; lia). rewrite Nat2Z.id.
  apply (int_ext (fun t => (item a j + t) / s a h t)); [intros t Ht; unfold phi; rewrite powerRZ_1; reflexivity|].
  destruct (Nat.leb_spec j h) as [L|L].
  - replace (Z.of_nat j <=? Z.of_nat h)%Z with true by (symmetry; apply Z.leb_le; lia). apply base_p_low; [lia|exact Pu].
  - replace (Z.of_nat j <=? Z.of_nat h)%Z with false by (symmetry; apply Z.leb_gt; lia). pose proof (base_p_low 1 ltac:(lia) Pu) as I1. pose proof (Ie_0_int x y a h elliprf H34 Hn Hxy Pos CRF) as I0.
    apply (int_ext (fun t => (item a 1 + t) / s a h t + d a j 1 * / s a h t)); [|apply (is_RInt_plus (V := R_NormedModule) _ _ _ _ _ _ I1 (is_RInt_scal (V := R_NormedModule) _ _ _ (d a j 1) _ I0))].
    intros t Ht. pose proof (s_pos' t ltac:(lra)). rewrite (d_item j 1) by lia. field. lra.
Qed.

(** Every integrand has an integral *)
Lemma XY_facts p t : (1 <= p <= length a)%nat -> y <= t <= x -> 0 < XorY a t p /\ XorY a t p * XorY a t p = item a p + t /\ is_derive (fun t => XorY a t p) t (/ (2 * XorY a t p)).
Proof.
  intros Hp Ht. pose proof (it_pos p t Hp Ht) as Q. destruct p; [lia|]. cbn [XorY]. split; [|split]; [apply sqrt_lt_R0, Q|apply sqrt_sqrt; lra|].
  eapply der_eq; [apply (is_derive_sqrt (fun t => item a (S p) + t) t 1); [auto_derive; [exact I|ring]|exact Q]|]. cbv beta. field. apply Rgt_not_eq, sqrt_lt_R0, Q.
Qed.
Lemma derive3 (X1 X2 X3 : R -> R) t : is_derive X1 t (/ (2 * X1 t)) -> is_derive X2 t (/ (2 * X2 t)) -> is_derive X3 t (/ (2 * X3 t)) -> 0 < X1 t -> 0 < X2 t -> 0 < X3 t ->
  is_derive (fun t => X1 t * X2 t * X3 t) t ((X2 t * X2 t * (X3 t * X3 t) + X1 t * X1 t * (X3 t * X3 t) + X1 t * X1 t * (X2 t * X2 t)) / (2 * (X1 t * X2 t * X3 t))).
Proof.
  intros D1 D2 D3 P1 P2 P3. auto_derive; [repeat split; eexists; eassumption|].
  change (Derive (fun x => X1 x) t) with (Derive X1 t). change (Derive (fun x => X2 x) t) with (Derive X2 t). change (Derive (fun x => X3 x) t) with (Derive X3 t). rewrite (is_derive_unique _ _ _ D1), (is_derive_unique _ _ _ D2), (is_derive_unique _ _ _ D3). field. repeat split; lra.
Qed.
Lemma derive4 (X1 X2 X3 X4 : R -> R) t : is_derive X1 t (/ (2 * X1 t)) -> is_derive X2 t (/ (2 * X2 t)) -> is_derive X3 t (/ (2 * X3 t)) -> is_derive X4 t (/ (2 * X4 t)) -> 0 < X1 t -> 0 < X2 t -> 0 < X3 t -> 0 < X4 t ->
  is_derive (fun t => X1 t * X2 t * X3 t * X4 t) t ((X2 t * X2 t * (X3 t * X3 t) * (X4 t * X4 t) + X1 t * X1 t * (X3 t * X3 t) * (X4 t * X4 t) + X1 t * X1 t * (X2 t * X2 t) * (X4 t * X4 t) + X1 t * X1 t * (X2 t * X2 t) * (X3 t * X3 t)) / (2 * (X1 t * X2 t * X3 t * X4 t))).
Proof.
  intros D1 D2 D3 D4 P1 P2 P3 P4. auto_derive; [repeat split; eexists; eassumption|].
  change (Derive (fun x => X1 x) t) with (Derive X1 t). change (Derive (fun x => X2 x) t) with (Derive X2 t). change (Derive (fun x => X3 x) t) with (Derive X3 t). change (Derive (fun x => X4 x) t) with (Derive X4 t). rewrite (is_derive_unique _ _ _ D1), (is_derive_unique _ _ _ D2), (is_derive_unique _ _ _ D3), (is_derive_unique _ _ _ D4). field. repeat split; lra.
Qed.
(** The polynomial under the root, by powers of a_j + t, and the derivative of the root *)
Definition Pol (j : nat) (w : R) : R := lsum (seq 0 (S h)) (fun r => sigma a h (h - r) j * w ^ r).
Definition dPol (j : nat) (w : R) : R := lsum (seq 0 (S h)) (fun r => INR r * sigma a h (h - r) j * w ^ (r - 1)).
Lemma s_derive j t : (1 <= j <= length a)%nat -> y <= t <= x -> s a h t * s a h t = Pol j (item a j + t) /\ is_derive (s a h) t (dPol j (item a j + t) / (2 * s a h t)).
Proof.
  intros Hj Ht. pose proof Hn as Hn'. unfold Pol, dPol. destruct H34 as [E|E]; rewrite E in Hn' |- *.
  - destruct (XY_facts 1 t ltac:(lia) Ht) as (p1 & q1 & d1). destruct (XY_facts 2 t ltac:(lia) Ht) as (p2 & q2 & d2). destruct (XY_facts 3 t ltac:(lia) Ht) as (p3 & q3 & d3).
    set (w := item a j + t). assert (e1 : item a 1 + t = w + d a 1 j) by (rewrite d_item by lia; unfold w; ring). assert (e2 : item a 2 + t = w + d a 2 j) by (rewrite d_item by lia; unfold w; ring). assert (e3 : item a 3 + t = w + d a 3 j) by (rewrite d_item by lia; unfold w; ring).
    assert (s0 : sigma a 3 0 j = 1) by reflexivity. assert (s1 : sigma a 3 1 j = d a 1 j + d a 2 j + d a 3 j) by (unfold sigma; cbn; ring). assert (s2 : sigma a 3 2 j = d a 1 j * d a 2 j + d a 1 j * d a 3 j + d a 2 j * d a 3 j) by (unfold sigma; cbn; ring). assert (s3 : sigma a 3 3 j = d a 1 j * d a 2 j * d a 3 j) by (unfold sigma; cbn; ring).
    cbn [seq lsum Nat.sub]. rewrite s0, s1, s2, s3. split.
    + rewrite s_3. transitivity ((XorY a t 1 * XorY a t 1) * (XorY a t 2 * XorY a t 2) * (XorY a t 3 * XorY a t 3)); [ring|]. rewrite q1, q2, q3, e1, e2, e3. ring.
    + apply (is_derive_ext (fun t => XorY a t 1 * XorY a t 2 * XorY a t 3)); [intros u; symmetry; apply s_3|]. eapply der_eq; [apply (derive3 (fun t => XorY a t 1) (fun t => XorY a t 2) (fun t => XorY a t 3)); assumption|]. cbv beta. rewrite q1, q2, q3, e1, e2, e3, s_3. unfold Rdiv. f_equal. cbn [INR]. ring.
  - destruct (XY_facts 1 t ltac:(lia) Ht) as (p1 & q1 & d1). destruct (XY_facts 2 t ltac:(lia) Ht) as (p2 & q2 & d2). destruct (XY_facts 3 t ltac:(lia) Ht) as (p3 & q3 & d3). destruct (XY_facts 4 t ltac:(lia) Ht) as (p4 & q4 & d4).
    set (w := item a j + t). assert (e1 : item a 1 + t = w + d a 1 j) by (rewrite d_item by lia; unfold w; ring). assert (e2 : item a 2 + t = w + d a 2 j) by (rewrite d_item by lia; unfold w; ring). assert (e3 : item a 3 + t = w + d a 3 j) by (rewrite d_item by lia; unfold w; ring). assert (e4 : item a 4 + t = w + d a 4 j) by (rewrite d_item by lia; unfold w; ring).
    assert (s0 : sigma a 4 0 j = 1) by reflexivity. assert (s1 : sigma a 4 1 j = d a 1 j + d a 2 j + d a 3 j + d a 4 j) by (unfold sigma; cbn; ring).
    assert (s2 : sigma a 4 2 j = d a 1 j * d a 2 j + d a 1 j * d a 3 j + d a 2 j * d a 3 j + (d a 1 j + d a 2 j + d a 3 j) * d a 4 j) by (unfold sigma; cbn; ring). assert (s3 : sigma a 4 3 j = d a 1 j * d a 2 j * d a 3 j + (d a 1 j * d a 2 j + d a 1 j * d a 3 j + d a 2 j * d a 3 j) * d a 4 j) by (unfold sigma; cbn; ring). assert (s4 : sigma a 4 4 j = d a 1 j * d a 2 j * d a 3 j * d a 4 j) by (unfold sigma; cbn; ring).
    cbn [seq lsum Nat.sub]. rewrite s0, s1, s2, s3, s4. split.
    + rewrite s_4. transitivity ((XorY a t 1 * XorY a t 1) * (XorY a t 2 * XorY a t 2) * (XorY a t 3 * XorY a t 3) * (XorY a t 4 * XorY a t 4)); [ring|]. rewrite q1, q2, q3, q4, e1, e2, e3, e4. ring.
    + apply (is_derive_ext (fun t => XorY a t 1 * XorY a t 2 * XorY a t 3 * XorY a t 4)); [intros u; symmetry; apply s_4|]. eapply der_eq; [apply (derive4 (fun t => XorY a t 1) (fun t => XorY a t 2) (fun t => XorY a t 3) (fun t => XorY a t 4)); assumption|]. cbv beta. rewrite q1, q2, q3, q4, e1, e2, e3, e4, s_4. unfold Rdiv. f_equal. cbn [INR]. ring.
Qed.
Lemma phi_cont q j t : (1 <= j <= length a)%nat -> y <= t <= x -> continuous (phi q j) t.
Proof.
  intros Hj Ht. pose proof (it_pos j t Hj Ht) as P1. pose proof (s_pos' t Ht) as P2. destruct (s_derive j t Hj Ht) as (_ & Ds). unfold phi, Rdiv.
  apply (continuous_mult (fun t => powerRZ (item a j + t) q) (fun t => / s a h t)).
  - apply (ex_derive_continuous (fun t => powerRZ (item a j + t) q)). eexists. apply powerRZ_derive. lra.
  - apply (ex_derive_continuous (fun t => / s a h t)). apply (ex_derive_inv (s a h)); [eexists; exact Ds|lra].
Qed.
Definition J (q : Z) (j : nat) : R := RInt (phi q j) y x.
Lemma J_int q j : (1 <= j <= length a)%nat -> is_RInt (phi q j) y x (J q j).
Proof. intros Hj. apply (RInt_correct (V := R_CompleteNormedModule)). apply (ex_RInt_continuous (V := R_CompleteNormedModule)). intros t Ht. rewrite Rmin_left, Rmax_right in Ht by lra. apply phi_cont; assumption. Qed.
Lemma J_unique q j r : is_RInt (phi q j) y x r -> J q j = r.
Proof. intros I. apply (is_RInt_unique (V := R_CompleteNormedModule)), I. Qed.
Lemma int_lsum {T} (l : list T) (k : T -> R) (f : T -> R -> R) (w : T -> R) : (forall r, In r l -> is_RInt (f r) y x (w r)) -> is_RInt (fun t => lsum l (fun r => k r * f r t)) y x (lsum l (fun r => k r * w r)).
Proof.
  induction l as [|r l IH]; intros Hl; cbn [lsum].
  - pose proof (is_RInt_const (V := R_NormedModule) y x 0) as K. unfold scal in K; cbn in K; unfold mult in K; cbn in K. rewrite Rmult_0_r in K. exact K.
  - apply (is_RInt_plus (V := R_NormedModule) (fun t => k r * f r t) (fun t => lsum l (fun r => k r * f r t))); [apply (is_RInt_scal (V := R_NormedModule)), Hl; left; reflexivity|]. apply IH. intros r' Hr. apply Hl. right. exact Hr.
Qed.
(** (3.5) *)
Definition Fq (q : Z) (j : nat) (t : R) : R := powerRZ (item a j + t) (q + 1) * s a h t.
Lemma Fq_derive q j t : (1 <= j <= length a)%nat -> y <= t <= x -> is_derive (Fq q j) t (lsum (seq 0 (S h)) (fun r => Iqe_pref a h q r j * phi (q + Z.of_nat r) j t)).
Proof.
  intros Hj Ht. pose proof (it_pos j t Hj Ht) as P1. pose proof (s_pos' t Ht) as P2. destruct (s_derive j t Hj Ht) as (Es & Ds). pose proof (powerRZ_derive (item a j) t (q + 1) ltac:(lra)) as Dp.
  replace (q + 1 - 1)%Z with q in Dp by lia. unfold Fq. eapply der_eq; [apply (is_derive_mult (fun t => powerRZ (item a j + t) (q + 1)) (s a h) t _ _ Dp Ds); intros; apply Rmult_comm|]. unfold plus, mult; cbn -[s dPol seq lsum powerRZ Iqe_pref phi IZR item]. req.
  rewrite powerRZ_S by lra. set (w := item a j + t) in *. set (W := powerRZ w q).
  transitivity (W * ((IZR q + 1) * Pol j w + w * dPol j w / 2) / s a h t).
  { rewrite <- Es, plus_IZR. field. lra. }
  transitivity (W / s a h t * lsum (seq 0 (S h)) (fun r => Iqe_pref a h q r j * w ^ r)).
  2:{ rewrite <- lsum_scal. apply lsum_ext. intros r _. unfold phi. fold w. rewrite powerRZ_add by lra. rewrite powerRZ_nat. fold W. unfold Rdiv. ring. }
  replace ((IZR q + 1) * Pol j w + w * dPol j w / 2) with (lsum (seq 0 (S h)) (fun r => Iqe_pref a h q r j * w ^ r)); [unfold Rdiv; ring|].
  unfold Pol, dPol. replace (w * _ / 2) with (w / 2 * lsum (seq 0 (S h)) (fun r => INR r * sigma a h (h - r) j * w ^ (r - 1))) by (unfold Rdiv; ring). rewrite <- !lsum_scal, <- lsum_plus. apply lsum_ext. intros r _. unfold Iqe_pref. destruct r as [|r]; [cbn; field|]. replace (S r - 1)%nat with r by lia. rewrite <- tech_pow_Rmult. field.
Qed.
Lemma recurrence_F q j : (1 <= j <= length a)%nat -> Fq q j x - Fq q j y = lsum (seq 0 (S h)) (fun r => Iqe_pref a h q r j * J (q + Z.of_nat r) j).
Proof.
  intros Hj. assert (I1 : is_RInt (fun t => lsum (seq 0 (S h)) (fun r => Iqe_pref a h q r j * phi (q + Z.of_nat r) j t)) y x (Fq q j x - Fq q j y)).
  { apply (is_RInt_derive (Fq q j) (fun t => lsum (seq 0 (S h)) (fun r => Iqe_pref a h q r j * phi (q + Z.of_nat r) j t))); intros t Ht; rewrite Rmin_left, Rmax_right in Ht by lra; [apply Fq_derive; assumption|].
    induction (seq 0 (S h)) as [|r l IH]; cbn [lsum]; [apply continuous_const|]. apply (continuous_plus (fun t => Iqe_pref a h q r j * phi (q + Z.of_nat r) j t) (fun t => lsum l (fun r => Iqe_pref a h q r j * phi (q + Z.of_nat r) j t))); [|exact IH]. apply (continuous_mult (fun _ => Iqe_pref a h q r j) (phi (q + Z.of_nat r) j)); [apply continuous_const|apply phi_cont; assumption]. }
  apply (is_RInt_unique (V := R_CompleteNormedModule)) in I1. rewrite <- I1. apply (is_RInt_unique (V := R_CompleteNormedModule)). apply int_lsum. intros r _. apply J_int, Hj.
Qed.
(** The integrated term *)
Lemma combine_seq (f : nat -> Z) : forall b k, combine (seq k (length b)) (combine b (map f (seq (S k) (length b)))) = map (fun i => ((i - 1)%nat, (nth (i - 1 - k) b 0, f i))) (seq (S k) (length b)).
Proof.
  induction b as [|u b IH]; intros k; [reflexivity|]. cbn [length seq map combine]. f_equal.
  - replace (S k - 1)%nat with k by lia. rewrite Nat.sub_diag. reflexivity.
  - rewrite IH. apply map_ext_in. intros i Hi. apply in_seq in Hi. replace (i - 1 - k)%nat with (S (i - 1 - S k)) by lia. reflexivity.
Qed.
Lemma lprod_one {T} (l : list T) (f : T -> R) : (forall i, In i l -> f i = 1) -> lprod l f = 1.
Proof. induction l as [|i l IH]; intros Hl; cbn [lprod]; [reflexivity|]. rewrite (Hl i), IH; [ring| |left; reflexivity]. intros i' Hi. apply Hl. right. exact Hi. Qed.
Lemma lprod_app {T} (l l' : list T) (f : T -> R) : lprod (l ++ l') f = lprod l f * lprod l' f.
Proof. induction l as [|i l IH]; cbn [lprod app]; [ring|]. rewrite IH. ring. Qed.
Lemma v_A q j z : (1 <= j <= length a)%nat -> y <= z <= x -> v a h (A_exponents a h q j) z = Fq q j z.
Proof.
  intros Hj Hz. unfold v, A_exponents, onerange, n. rewrite combine_seq, map_map. pose proof Hn as Hn'. assert (Nh : (3 <= h)%nat) by (destruct H34; lia).
  rewrite prod_lprod by (destruct (length a) eqn:El; [lia|discriminate]). cbn [fst snd].
  rewrite (lprod_ext _ _ (fun i => (if Nat.leb i h then sqrt (item a i + z) else 1) * (if Nat.eqb i j then powerRZ (item a j + z) (q + 1) else 1))).
  2:{ intros i Hi. apply in_seq in Hi. pose proof (it_pos i z ltac:(lia) Hz) as P. replace (nth (i - 1 - 0) a 0) with (item a i) by (destruct i as [|i]; [lia|]; cbn [item]; f_equal; lia).
      replace (Nat.ltb (i - 1) h) with (Nat.leb i h) by (destruct (Nat.leb_spec i h), (Nat.ltb_spec (i - 1) h); lia || reflexivity).
      destruct (Nat.eqb_spec i j) as [->|]; destruct (Nat.leb _ h).
      - rewrite (powerRZ_Rpower _ _ P), <- (Rpower_sqrt _ P), <- Rpower_plus. f_equal. rewrite plus_IZR. replace ((q + 1) * 1)%Z with (q + 1)%Z by lia. lra.
      - rewrite (powerRZ_Rpower _ _ P), Rmult_1_l. f_equal. replace (0 + (q + 1) * 1)%Z with (q + 1)%Z by lia. lra.
      - rewrite Rmult_1_r. rewrite <- (Rpower_sqrt _ P). f_equal. replace (1 + (q + 1) * 0)%Z with 1%Z by lia. lra.
      - rewrite Rmult_1_r. replace (0 + (q + 1) * 0)%Z with 0%Z by lia. rewrite Rminus_0_r. apply Rpower_O, P. }
  rewrite lprod_mult. unfold Fq. rewrite Rmult_comm. f_equal.
  - rewrite (lprod_split 0 (fun _ => 0%Z) j) by (try apply seq_NoDup; apply in_seq; lia). rewrite Nat.eqb_refl. rewrite lprod_one; [ring|]. intros i Hi. apply (wo_in 0 (fun _ => 0%Z)) in Hi. destruct (Nat.eqb_spec i j); [lia|reflexivity].
  - replace (length a) with (h + (length a - h))%nat by lia. rewrite seq_app, lprod_app. rewrite (lprod_one (seq (1 + h) _)); [|intros i Hi; apply in_seq in Hi; destruct (Nat.leb_spec i h); [lia|reflexivity]]. rewrite Rmult_1_r. unfold s. rewrite prod_lprod by (unfold onerange; destruct h; [lia|discriminate]). apply lprod_ext. intros i Hi. apply in_seq in Hi. destruct (Nat.leb_spec i h); [reflexivity|lia].
Qed.
Lemma recurrence q j : (1 <= j <= length a)%nat -> A x y a h (A_exponents a h q j) = lsum (seq 0 (S h)) (fun r => Iqe_pref a h q r j * J (q + Z.of_nat r) j).
Proof. intros Hj. unfold A, vx, vy. rewrite !v_A by (try exact Hj; lra). rewrite <- recurrence_F by exact Hj. unfold Fq. ring. Qed.

(** The recursion ends with the value of the integral *)
Definition comp (q : Z) (j : nat) : Prop := exists f0, forall f, (f0 <= f)%nat -> IQE f q j = Some (J q j).
Lemma comp_sum (T : Type) (l : list T) (k : T -> R) (g : T -> Z) (j : nat) : (forall r, In r l -> comp (g r) j) ->
  exists f0, forall f, (f0 <= f)%nat -> sum_opt (map (fun r => omap (Rmult (k r)) (IQE f (g r) j)) l) = Some (lsum l (fun r => k r * J (g r) j)).
Proof.
  induction l as [|r l IH]; intros Hl; [exists O; reflexivity|]. destruct IH as (f1 & H1); [intros r' Hr; apply Hl; right; exact Hr|]. destruct (Hl r (or_introl eq_refl)) as (f2 & H2).
  exists (Nat.max f1 f2). intros f Hf. cbn [map lsum]. rewrite H2 by lia. cbn [omap sum_opt]. rewrite H1 by lia. reflexivity.
Qed.
Lemma comp_base q j : (-1 <= q <= 1)%Z -> is_RInt (phi q j) y x (IE (q * Z.of_nat j)) -> comp q j.
Proof.
  intros Hq I. exists 1%nat. intros f Hf. destruct f as [|f]; [lia|]. cbn [Iqe]. replace (q =? 2)%Z with false by (symmetry; apply Z.eqb_neq; lia). rewrite andb_false_r. replace (1 <? q)%Z with false by (symmetry; apply Z.ltb_ge; lia). replace (q <? -1)%Z with false by (symmetry; apply Z.ltb_ge; lia). rewrite (J_unique _ _ _ I). reflexivity.
Qed.
(** One step of the recurrence, solved for the term [ri] *)
Lemma solve_step q j ri low high : (1 <= j <= length a)%nat -> (ri <= h)%nat -> Iqe_pref a h (q - Z.of_nat ri) ri j <> 0 ->
  lsum (seq 0 (S h)) (fun r => Iqe_pref a h (q - Z.of_nat ri) r j * J (q - Z.of_nat ri + Z.of_nat r) j) =
    lsum (seq low (high - low)) (fun r => Iqe_pref a h (q - Z.of_nat ri) r j * J (q - Z.of_nat ri + Z.of_nat r) j) + Iqe_pref a h (q - Z.of_nat ri) ri j * J q j ->
  (A x y a h (A_exponents a h (q - Z.of_nat ri) j) - lsum (seq low (high - low)) (fun r => Iqe_pref a h (q - Z.of_nat ri) r j * J (q - Z.of_nat ri + Z.of_nat r) j)) / Iqe_pref a h (q - Z.of_nat ri) ri j = J q j.
Proof. intros Hj Hr N E. rewrite recurrence by exact Hj. rewrite E. field. exact N. Qed.
Lemma sigma_h j : (1 <= j <= h)%nat -> sigma a h h j = 0.
Proof.
  intros Hj. assert (Z : d a j j = 0) by (rewrite d_item by lia; ring). destruct H34 as [E|E]; rewrite E in Hj |- *; unfold sigma; cbn -[d].
  - assert (C : j = 1%nat \/ j = 2%nat \/ j = 3%nat) by lia. destruct C as [-> | [-> | ->]]; rewrite Z; ring.
  - assert (C : j = 1%nat \/ j = 2%nat \/ j = 3%nat \/ j = 4%nat) by lia. destruct C as [-> | [-> | [-> | ->]]]; rewrite Z; ring.
Qed.
Lemma dnz i j : (1 <= i <= length a)%nat -> (1 <= j <= length a)%nat -> i <> j -> d a i j <> 0.
Proof. intros Hi Hj N. rewrite d_item by lia. pose proof (Dist i j Hi Hj N). lra. Qed.
Ltac nzprod := repeat apply Rmult_integral_contrapositive_currified; apply dnz; lia.
Lemma sigma_h1 j : (1 <= j <= h)%nat -> sigma a h (h - 1) j <> 0.
Proof.
  intros Hj. assert (Z : d a j j = 0) by (rewrite d_item by lia; ring). pose proof Hn as Hn'. destruct H34 as [E|E]; rewrite E in Hj, Hn' |- *; unfold sigma; cbn -[d].
  - assert (C : j = 1%nat \/ j = 2%nat \/ j = 3%nat) by lia. destruct C as [-> | [-> | ->]]; rewrite Z; [replace (_ + _) with (d a 2 1 * d a 3 1) by ring|replace (_ + _) with (d a 1 2 * d a 3 2) by ring|replace (_ + _) with (d a 1 3 * d a 2 3) by ring]; nzprod.
  - assert (C : j = 1%nat \/ j = 2%nat \/ j = 3%nat \/ j = 4%nat) by lia. destruct C as [-> | [-> | [-> | ->]]]; rewrite Z; [replace (_ + _) with (d a 2 1 * d a 3 1 * d a 4 1) by ring|replace (_ + _) with (d a 1 2 * d a 3 2 * d a 4 2) by ring|replace (_ + _) with (d a 1 3 * d a 2 3 * d a 4 3) by ring|replace (_ + _) with (d a 1 4 * d a 2 4 * d a 3 4) by ring]; nzprod.
Qed.
Lemma sigma_hh j : (h < j <= length a)%nat -> sigma a h h j <> 0.
Proof.
  intros Hj. destruct H34 as [E|E]; rewrite E in Hj |- *; unfold sigma; cbn -[d]; [replace (_ + _) with (d a 1 j * d a 2 j * d a 3 j) by ring|replace (_ + _) with (d a 1 j * d a 2 j * d a 3 j * d a 4 j) by ring]; nzprod.
Qed.
Lemma lsum_seq_last f k m : lsum (seq k (S m)) f = lsum (seq k m) f + f (k + m)%nat.
Proof. rewrite seq_S, lsum_app. cbn [lsum]. ring. Qed.
Lemma lsum_seq_first f k m : lsum (seq k (S m)) f = f k + lsum (seq (S k) m) f.
Proof. reflexivity. Qed.
Definition low_of (j : nat) : nat := if Nat.ltb h j then 0 else 1.
Lemma h3 : (3 <= h <= 4)%nat. Proof. destruct H34; lia. Qed.
Lemma step_up q j : (1 < q)%Z -> (1 <= j <= length a)%nat -> (Nat.ltb h j && Nat.eqb h 4 && (q =? 2)%Z)%bool = false -> (forall r, (low_of j <= r < h)%nat -> comp (q - Z.of_nat h + Z.of_nat r) j) -> comp q j.
Proof.
  intros Hq Hj Sp IH. pose proof h3 as H3. destruct (comp_sum nat (seq (low_of j) (h - low_of j)) (fun r => Iqe_pref a h (q - Z.of_nat h) r j) (fun r => (q - Z.of_nat h + Z.of_nat r)%Z) j) as (f0 & Hf).
  { intros r Hr. apply in_seq in Hr. apply IH. lia. }
  exists (S f0). intros f Hf'. destruct f as [|f]; [lia|]. cbn [Iqe]. rewrite Sp. replace (1 <? q)%Z with true by (symmetry; apply Z.ltb_lt; lia). cbv zeta. fold (low_of j). rewrite Hf by lia. cbn [omap]. f_equal. apply (solve_step q j h (low_of j) h Hj (le_n h)).
  - unfold Iqe_pref. rewrite Nat.sub_diag. cbn [sigma]. rewrite Rmult_1_r, minus_IZR, <- INR_IZR_INZ. assert (K : 1 < IZR q) by (apply (IZR_lt 1), Hq). pose proof (le_INR h 4 ltac:(lia)) as K2. cbn [INR] in K2. pose proof (IZR_le 2 q ltac:(lia)) as K3. lra.
  - rewrite lsum_seq_last. cbn [Nat.add]. replace (q - Z.of_nat h + Z.of_nat h)%Z with q by lia. f_equal. unfold low_of. destruct (Nat.ltb_spec h j) as [L|L]; [rewrite Nat.sub_0_r; reflexivity|]. replace h with (S (h - 1)) at 1 by lia. rewrite lsum_seq_first. unfold Iqe_pref at 1. rewrite Nat.sub_0_r, sigma_h by lia. ring.
Qed.
Lemma step_down q j : (q < -1)%Z -> (1 <= j <= length a)%nat -> (forall q', (q < q')%Z -> comp q' j) -> comp q j.
Proof.
  intros Hq Hj IH. pose proof h3 as H3. assert (Kq : IZR q <= -2) by (apply (IZR_le q (-2)); lia). destruct (Nat.ltb_spec h j) as [L|L].
  - destruct (comp_sum nat (seq 1 (h + 1 - 1)) (fun r => Iqe_pref a h (q - Z.of_nat 0) r j) (fun r => (q - Z.of_nat 0 + Z.of_nat r)%Z) j) as (f0 & Hf).
    { intros r Hr. apply in_seq in Hr. apply IH. lia. }
    exists (S f0). intros f Hf'. destruct f as [|f]; [lia|]. cbn [Iqe]. replace (q =? 2)%Z with false by (symmetry; apply Z.eqb_neq; lia). rewrite andb_false_r. replace (1 <? q)%Z with false by (symmetry; apply Z.ltb_ge; lia). replace (q <? -1)%Z with true by (symmetry; apply Z.ltb_lt; lia). replace (Nat.ltb h j) with true by (symmetry; apply Nat.ltb_lt; lia).
    cbv zeta. rewrite Hf by lia. cbn [omap]. f_equal. apply (solve_step q j 0 1 (h + 1) Hj ltac:(lia)).
    + unfold Iqe_pref. rewrite Nat.sub_0_r. replace (q - Z.of_nat 0)%Z with q by lia. apply Rmult_integral_contrapositive_currified; [cbn [INR]; lra|apply sigma_hh; lia].
    + rewrite lsum_seq_first. replace (h + 1 - 1)%nat with h by lia. rewrite Rplus_comm. f_equal. f_equal. f_equal. lia.
  - destruct (comp_sum nat (seq 2 (h + 1 - 2)) (fun r => Iqe_pref a h (q - Z.of_nat 1) r j) (fun r => (q - Z.of_nat 1 + Z.of_nat r)%Z) j) as (f0 & Hf).
    { intros r Hr. apply in_seq in Hr. apply IH. lia. }
    exists (S f0). intros f Hf'. destruct f as [|f]; [lia|]. cbn [Iqe]. replace (q =? 2)%Z with false by (symmetry; apply Z.eqb_neq; lia). rewrite andb_false_r. replace (1 <? q)%Z with false by (symmetry; apply Z.ltb_ge; lia). replace (q <? -1)%Z with true by (symmetry; apply Z.ltb_lt; lia). replace (Nat.ltb h j) with false by (symmetry; apply Nat.ltb_ge; lia).
    cbv zeta. rewrite Hf by lia. cbn [omap]. f_equal. apply (solve_step q j 1 2 (h + 1) Hj ltac:(lia)).
    + unfold Iqe_pref. apply Rmult_integral_contrapositive_currified; [|apply sigma_h1; lia]. rewrite minus_IZR. cbn. lra.
    + replace h with (S (h - 1)) at 1 by lia. rewrite !lsum_seq_first. replace (h + 1 - 2)%nat with (h - 1)%nat by lia. unfold Iqe_pref at 1. rewrite Nat.sub_0_r, sigma_h by lia. replace (q - Z.of_nat 1 + Z.of_nat 1)%Z with q by lia. ring.
Qed.
Lemma down_all j : (1 <= j <= length a)%nat -> (forall q, (-1 <= q)%Z -> comp q j) -> forall q, comp q j.
Proof.
  intros Hj U. assert (G : forall k q, (- 1 - Z.of_nat k <= q)%Z -> comp q j). { induction k as [|k IH]; intros q Hq; [apply U; lia|]. destruct (Z_lt_le_dec q (-1)) as [L|L]; [|apply U, L]. apply step_down; [exact L|exact Hj|]. intros q' Hq'. apply IH. lia. }
  intros q. apply (G (Z.to_nat (- 1 - q))). lia.
Qed.
Lemma comp_low_any j : (1 <= j <= h)%nat -> posl j -> forall q, comp q j.
Proof.
  intros Hj Pu. pose proof Hn as Hn'. pose proof h3 as H3. apply down_all; [lia|]. assert (G : forall k q, (-1 <= q < Z.of_nat k)%Z -> comp q j).
  { induction k as [|k IH]; intros q Hq; [|].
    - apply comp_base; [lia|]. replace q with (-1)%Z by lia. apply base_m; lia.
    - destruct (Z_lt_le_dec 1 q) as [L|L].
      + apply step_up; [exact L|lia|destruct (Nat.ltb_spec h j); [lia|reflexivity]|]. intros r. unfold low_of. destruct (Nat.ltb_spec h j); [lia|]. intros Hr. apply IH. lia.
      + apply comp_base; [lia|]. assert (C : q = (-1)%Z \/ q = 0%Z \/ q = 1%Z) by lia. destruct C as [-> | [-> | ->]]; [apply base_m; lia|rewrite Z.mul_0_l; apply base_0|apply base_p; [lia|]]. destruct (Nat.leb_spec j h); [exact Pu|lia]. }
  intros q Hq. apply (G (Z.to_nat (q + 1))). lia.
Qed.
Lemma comp_low j q : (1 <= j <= h)%nat -> (q = (-1)%Z \/ q = 0%Z \/ posl j) -> comp q j.
Proof.
  intros Hj [-> | [-> | Pu]]; [| |apply comp_low_any; assumption]; pose proof Hn as Hn'; apply comp_base; try lia; [apply base_m; lia|rewrite Z.mul_0_l; apply base_0].
Qed.
Lemma binom_1 j t : (1 <= j <= length a)%nat -> y <= t <= x -> phi 2 j t = lsum (seq 0 3) (fun r => comb 2 r * d a j 1 ^ (2 - r) * phi (Z.of_nat r) 1 t).
Proof.
  intros Hj Ht. pose proof (s_pos' t Ht). pose proof h3. pose proof Hn. rewrite d_item by lia. unfold phi. cbn [seq lsum]. rewrite !powerRZ_nat. change (powerRZ (item a j + t) 2) with (powerRZ (item a j + t) (Z.of_nat 2)). rewrite powerRZ_nat. unfold comb. cbn [fact Nat.sub Nat.mul Nat.add INR pow]. field. lra.
Qed.
Lemma comp_high j : (h < j <= length a)%nat -> posl 1 -> 0 < U2nu x y a h rj0 j -> forall q, comp q j.
Proof.
  intros Hj P1 Pu. pose proof h3 as H3. apply down_all; [lia|]. assert (G : forall k q, (-1 <= q < Z.of_nat k)%Z -> comp q j).
  { induction k as [|k IH]; intros q Hq.
    - apply comp_base; [lia|]. replace q with (-1)%Z by lia. apply base_m; [lia|]. intros _. exact Pu.
    - destruct (Z_lt_le_dec 1 q) as [L|L].
      + destruct (Nat.ltb h j && Nat.eqb h 4 && (q =? 2)%Z)%bool eqn:Sp.
        * apply andb_prop in Sp. destruct Sp as (Sp & Eq). apply Z.eqb_eq in Eq. subst q. apply andb_prop in Sp. destruct Sp as (_ & E4).
          destruct (comp_sum nat (seq 0 3) (fun r => comb 2 r * d a j 1 ^ (2 - r)) Z.of_nat 1) as (f0 & Hf); [intros r _; apply comp_low; [lia|right; right; exact P1]|].
          exists (S f0). intros f Hf'. destruct f as [|f]; [lia|]. cbn [Iqe]. rewrite E4. replace (Nat.ltb h j) with true by (symmetry; apply Nat.ltb_lt; lia). cbn [andb Z.eqb Pos.eqb]. rewrite Hf by lia. f_equal. symmetry. apply J_unique. apply (int_ext (fun t => lsum (seq 0 3) (fun r => comb 2 r * d a j 1 ^ (2 - r) * phi (Z.of_nat r) 1 t))); [intros t Ht; symmetry; apply binom_1; [lia|lra]|]. apply int_lsum. intros r _. apply J_int. lia.
        * apply step_up; [exact L|lia|exact Sp|]. intros r. unfold low_of. destruct (Nat.ltb_spec h j); [|lia]. intros Hr. apply IH. cbn in Sp. destruct (Nat.eqb_spec h 4); [cbn in Sp; apply Z.eqb_neq in Sp; lia|lia].
      + apply comp_base; [lia|]. assert (C : q = (-1)%Z \/ q = 0%Z \/ q = 1%Z) by lia. destruct C as [-> | [-> | ->]]; [apply base_m; [lia|intros _; exact Pu]|rewrite Z.mul_0_l; apply base_0|apply base_p; [lia|]]. destruct (Nat.leb_spec j h); [lia|exact P1]. }
  intros q Hq. apply (G (Z.to_nat (q + 1))). lia.
Qed.

(** The coefficients of the model are those of the partial fractions *)
Lemma part_nonempty k : forall s p, In p (partitions_upto k (S s)) -> p <> [].
Proof.
  induction k as [|k IH]; intros s p Hp; cbn [partitions_upto] in Hp; [destruct Hp|]. apply in_flat_map in Hp. destruct Hp as (c & _ & Hp). apply in_map_iff in Hp. destruct Hp as (p' & <- & Hp). destruct c as [|c]; [|discriminate]. cbn [Nat.mul Nat.leb] in Hp. rewrite Nat.sub_0_r in Hp. apply (IH s p' Hp).
Qed.
Lemma C_pos m k i : C a m (Z.of_nat k) i = psum (fun v => mu a m (Z.of_nat v) i) k k.
Proof.
  unfold C, psum. destruct k as [|k]; [cbn; ring|]. replace (Z.of_nat (S k) =? 0)%Z with false by (symmetry; apply Z.eqb_neq; lia). replace (Z.sgn (Z.of_nat (S k))) with 1%Z by (symmetry; apply Z.sgn_pos; lia). replace (Z.to_nat (Z.abs (Z.of_nat (S k)))) with (S k) by lia.
  rewrite sum_lsum. apply lsum_ext. intros p Hp. rewrite prod_lprod by (eapply part_nonempty; exact Hp). unfold term. apply lprod_ext. intros u _. rewrite Z.mul_1_l. reflexivity.
Qed.
Lemma C_neg m k i : C a m (- Z.of_nat k) i = psum (fun v => mu a m (- Z.of_nat v) i) k k.
Proof.
  unfold C, psum. destruct k as [|k]; [cbn; ring|]. replace (- Z.of_nat (S k) =? 0)%Z with false by (symmetry; apply Z.eqb_neq; lia). replace (Z.sgn (- Z.of_nat (S k))) with (-1)%Z by (symmetry; apply Z.sgn_neg; lia). replace (Z.to_nat (Z.abs (- Z.of_nat (S k)))) with (S k) by lia.
  rewrite sum_lsum. apply lsum_ext. intros p Hp. rewrite prod_lprod by (eapply part_nonempty; exact Hp). unfold term. apply lprod_ext. intros u _. replace (-1 * Z.of_nat (fst u))%Z with (- Z.of_nat (fst u))%Z by lia. reflexivity.
Qed.
Lemma powerRZ_inv_pow u k : powerRZ u (- Z.of_nat k) = (/ u) ^ k.
Proof. rewrite powerRZ_opp, pow_inv. reflexivity. Qed.
Lemma numer_lprod t : forall b m k, length m = length b -> numer b m t = lprod (seq k (length b)) (fun i => powerRZ (nth (i - k) b 0 + t) (nth (i - k) m 0%Z)).
Proof.
  induction b as [|u b IH]; intros m k El; [reflexivity|]. destruct m as [|c m]; [discriminate|]. cbn [numer length seq lprod]. rewrite Nat.sub_diag. cbn [nth]. f_equal. rewrite (IH m (S k)) by (cbn in El; lia). apply lprod_ext. intros i Hi. apply in_seq in Hi. replace (i - k)%nat with (S (i - S k)) by lia. reflexivity.
Qed.
Lemma numer_F m t : length m = length a -> numer a m t = F (item a) (mi m) (seq 1 (length a)) t.
Proof. intros El. rewrite (numer_lprod t a m 1 El). unfold F, mi. apply lprod_ext. intros i Hi. apply in_seq in Hi. destruct i as [|i]; [lia|]. cbn [item]. replace (S i - 1)%nat with i by lia. reflexivity. Qed.
Lemma root_s t : root (firstn h a) t = s a h t.
Proof.
  pose proof Hn as Hn'. destruct H34 as [E|E]; rewrite E in Hn' |- *; [rewrite s_3|rewrite s_4]; destruct a as [|a1 [|a2 [|a3 b]]]; cbn [length] in Hn'; try lia; [|destruct b as [|a4 b]; cbn [length] in Hn'; [lia|]]; cbn [firstn root XorY item nth]; ring.
Qed.
Lemma fold_zsum : forall m k z, fold_left Z.add m z = (z + zsum (fun j => nth (j - k) m 0%Z) (seq k (length m)))%Z.
Proof.
  induction m as [|c m IH]; intros k z; cbn [fold_left length seq zsum]; [lia|]. rewrite (IH (S k)), Nat.sub_diag. change (nth 0 (c :: m) 0%Z) with c. assert (E : forall l, (forall j, In j l -> (S k <= j)%nat) -> zsum (fun j => nth (j - S k) m 0%Z) l = zsum (fun j => nth (j - k) (c :: m) 0%Z) l).
  { induction l as [|j l IHl]; intros Hl; cbn [zsum]; [reflexivity|]. rewrite IHl by (intros j' Hj; apply Hl; right; exact Hj). pose proof (Hl j (or_introl eq_refl)). replace (j - k)%nat with (S (j - S k)) by lia. reflexivity. }
  rewrite E; [lia|]. intros j Hj. apply in_seq in Hj. lia.
Qed.
Lemma sum_opt_list {T} (l : list T) (c : T -> nat -> option R) (w : T -> R) : (forall i, In i l -> exists f0, forall f, (f0 <= f)%nat -> c i f = Some (w i)) -> exists f0, forall f, (f0 <= f)%nat -> sum_opt (map (fun i => c i f) l) = Some (lsum l w).
Proof.
  induction l as [|i l IH]; intros Hl; [exists O; reflexivity|]. destruct IH as (f1 & H1); [intros i' Hi; apply Hl; right; exact Hi|]. destruct (Hl i (or_introl eq_refl)) as (f2 & H2). exists (Nat.max f1 f2). intros f Hf. cbn [map lsum sum_opt]. rewrite H2, H1 by lia. reflexivity.
Qed.

(** The parameters of the integrals of the third kind that the code may need *)
Definition alone (m : list Z) (j : nat) : Prop := forall i, (1 <= i <= length a)%nat -> i <> j -> mi m i = 0%Z.
Definition needs_third (m : list Z) (j : nat) : Prop := (mi m j < -1)%Z \/ ((0 < mi m j)%Z /\ alone m j).
Definition needs_first (m : list Z) : Prop :=
  ((0 < fold_left Z.add m 0)%Z /\ exists i j, (1 <= i <= length a)%nat /\ (1 <= j <= length a)%nat /\ i <> j /\ mi m i <> 0%Z /\ mi m j <> 0%Z) \/ (exists nu, (h < nu <= length a)%nat /\ mi m nu <> 0%Z).
Definition circular (m : list Z) : Prop :=
  (h = 4%nat -> forall j, (1 <= j <= 4)%nat -> needs_third m j \/ (j = 1%nat /\ needs_first m) -> 0 < U2nu x y a h j 0) /\
  (forall nu, (h < nu <= length a)%nat -> mi m nu <> 0%Z -> 0 < U2nu x y a h rj0 nu).
Lemma comp_general m i q : circular m -> (1 <= i <= length a)%nat -> mi m i <> 0%Z -> (q = (-1)%Z \/ needs_third m i) -> comp q i.
Proof.
  intros (Cl & Ch) Hi Nz Q. pose proof h3. destruct (le_lt_dec i h) as [L|L].
  - apply comp_low; [lia|]. destruct Q as [-> | Q]; [left; reflexivity|]. right; right. intros E. apply Cl; [exact E|lia|left; exact Q].
  - apply comp_high; [lia|intros E; apply Cl; [exact E|lia|right; split; [reflexivity|right; exists i; split; [lia|exact Nz]]]|apply Ch; [lia|exact Nz]].
Qed.
Notation IM := (Im x y a h elliprc elliprd elliprf elliprj).
Theorem Im_value m : length m = length a -> circular m -> exists fuel0 r, (forall fuel, (fuel0 <= fuel)%nat -> IM fuel m = Some r) /\ elliptic_integral h a m x y r.
Proof.
  intros El Ci. pose proof h3 as H3. pose proof Hn as Hn'. unfold elliptic_integral, integrand.
  assert (Ef : forall t, numer a m t / root (firstn h a) t = lprod (seq 1 (length a)) (fun j => powerRZ (item a j + t) (mi m j)) / s a h t) by (intros t; rewrite root_s, numer_F by exact El; reflexivity).
  unfold Im. rewrite El. destruct (filter (fun j => negb (mi m j =? 0)%Z) (seq 1 (length a))) as [|j1 [|j2 js]] eqn:Ej.
  - exists O. eexists. split; [reflexivity|]. apply (int_ext (phi 0 1)); [|apply base_0]. intros t _. rewrite Ef. unfold phi. f_equal. rewrite powerRZ_O. symmetry. apply lprod_one. intros i Hi. assert (Hz : negb (mi m i =? 0)%Z = false) by (destruct (negb (mi m i =? 0)%Z) eqn:B; [|reflexivity]; exfalso; assert (X : In i []) by (rewrite <- Ej; apply filter_In; split; assumption); destruct X).
    apply negb_false_iff, Z.eqb_eq in Hz. rewrite Hz. apply powerRZ_O.
  - assert (Hj : In j1 (seq 1 (length a)) /\ negb (mi m j1 =? 0)%Z = true) by (apply (proj1 (filter_In (fun j => negb (mi m j =? 0)%Z) j1 (seq 1 (length a)))); rewrite Ej; left; reflexivity). destruct Hj as (Hj & Nz). apply in_seq in Hj. apply negb_true_iff, Z.eqb_neq in Nz.
    assert (Al : alone m j1). { intros i Hi Ni. destruct (Z.eq_dec (mi m i) 0) as [Z|Z]; [exact Z|]. exfalso. assert (X : In i [j1]) by (rewrite <- Ej; apply filter_In; split; [apply in_seq; lia|apply negb_true_iff, Z.eqb_neq, Z]). destruct X as [X|[]]. congruence. }
    assert (Cj : comp (mi m j1) j1). { apply (comp_general m); [exact Ci|lia|exact Nz|]. destruct (Z_lt_le_dec (mi m j1) (-1)) as [B|B]; [right; left; exact B|]. destruct (Z_lt_le_dec 0 (mi m j1)) as [B'|B']; [right; right; split; assumption|left; lia]. }
    destruct Cj as (f0 & Hf). exists f0, (J (mi m j1) j1). split; [exact Hf|]. apply (int_ext (phi (mi m j1) j1)); [|apply J_int; lia]. intros t _. rewrite Ef. unfold phi. f_equal. rewrite (lprod_split 0 (fun _ => 0%Z) j1) by (try apply seq_NoDup; apply in_seq; lia). rewrite lprod_one; [ring|]. intros i Hi. apply (wo_in 0 (fun _ => 0%Z)) in Hi. destruct Hi as (Hi & Ni). apply in_seq in Hi. rewrite Al by lia. apply powerRZ_O.
  - assert (Two : exists i j, (1 <= i <= length a)%nat /\ (1 <= j <= length a)%nat /\ i <> j /\ mi m i <> 0%Z /\ mi m j <> 0%Z).
    { pose proof (NoDup_filter (fun j => negb (mi m j =? 0)%Z) (seq_NoDup (length a) 1)) as ND. rewrite Ej in ND. assert (K : forall i, In i (j1 :: j2 :: js) -> (1 <= i <= length a)%nat /\ mi m i <> 0%Z). { intros i Hi. rewrite <- Ej in Hi. apply filter_In in Hi. destruct Hi as (Hi & Nz). apply in_seq in Hi. apply negb_true_iff, Z.eqb_neq in Nz. split; [lia|exact Nz]. }
      destruct (K j1) as (A1 & B1); [left; reflexivity|]. destruct (K j2) as (A2 & B2); [right; left; reflexivity|]. exists j1, j2. repeat split; try assumption; try lia. inversion ND as [|? ? Nin _]; subst. intros ->. apply Nin. left. reflexivity. }
    clear j1 j2 js Ej. set (M := fold_left Z.add m 0%Z). assert (EM : M = zsum (mi m) (seq 1 (length a))) by (unfold M; rewrite (fold_zsum m 1), El; reflexivity).
    destruct (comp_sum Z (zrange 0 (M + 1)) (fun q => C a m (M - q) 1) (fun q => q) 1) as (f1 & H1).
    { intros q Hq. unfold zrange in Hq. apply in_map_iff in Hq. destruct Hq as (k & <- & Hk). apply in_seq in Hk. apply comp_low; [lia|]. right. destruct (Nat.eq_dec k 0) as [-> | Nk]; [left; reflexivity|]. right. intros E. destruct Ci as (Cl & _). apply Cl; [exact E|lia|]. right. split; [reflexivity|]. left. split; [|exact Two]. fold M. lia. }
    destruct (sum_opt_list (onerange (n a)) (fun i f => omap (Rmult (D a m i)) (sum_opt (map (fun q => omap (Rmult (C a m (mi m i + Z.of_nat q) i)) (IQE f (- Z.of_nat q) i)) (onerange (Z.to_nat (- mi m i))))))
      (fun i => D a m i * lsum (onerange (Z.to_nat (- mi m i))) (fun q => C a m (mi m i + Z.of_nat q) i * J (- Z.of_nat q) i))) as (f2 & H2).
    { intros i Hi. apply in_seq in Hi. destruct (comp_sum nat (onerange (Z.to_nat (- mi m i))) (fun q => C a m (mi m i + Z.of_nat q) i) (fun q => (- Z.of_nat q)%Z) i) as (f0 & Hf); [|exists f0; intros f Hf'; rewrite Hf by exact Hf'; reflexivity].
      intros q Hq. apply in_seq in Hq. unfold n in Hi. apply (comp_general m); [exact Ci|lia|lia|]. destruct (Z_lt_le_dec (mi m i) (-1)) as [B|B]; [right; left; exact B|left; lia]. }
    exists (Nat.max f1 f2). eexists. split; [intros f Hf; rewrite H1, H2 by lia; reflexivity|].
    assert (I1 : is_RInt (fun t => lsum (zrange 0 (M + 1)) (fun q => C a m (M - q) 1 * phi q 1 t)) y x (lsum (zrange 0 (M + 1)) (fun q => C a m (M - q) 1 * J q 1))) by (apply (int_lsum (zrange 0 (M + 1)) (fun q => C a m (M - q) 1) (fun q => phi q 1)); intros q _; apply J_int; lia).
    assert (I2 : is_RInt (fun t => lsum (onerange (n a)) (fun i => D a m i * lsum (onerange (Z.to_nat (- mi m i))) (fun q => C a m (mi m i + Z.of_nat q) i * phi (- Z.of_nat q) i t))) y x (lsum (onerange (n a)) (fun i => D a m i * lsum (onerange (Z.to_nat (- mi m i))) (fun q => C a m (mi m i + Z.of_nat q) i * J (- Z.of_nat q) i)))).
    { apply (int_lsum (onerange (n a)) (fun i => D a m i) (fun i t => lsum (onerange (Z.to_nat (- mi m i))) (fun q => C a m (mi m i + Z.of_nat q) i * phi (- Z.of_nat q) i t))). intros i Hi. apply in_seq in Hi. unfold n in Hi. apply (int_lsum (onerange (Z.to_nat (- mi m i))) (fun q => C a m (mi m i + Z.of_nat q) i) (fun q => phi (- Z.of_nat q) i)). intros q _. apply J_int. lia. }
    pose proof (is_RInt_plus (V := R_NormedModule) _ _ _ _ _ _ I1 I2) as I3. eapply int_ext; [|exact I3]. intros t Ht. unfold plus; cbn -[lsum C D phi onerange zrange n]. rewrite Ef. clear I1 I2 I3 H1 H2.
    pose proof (partial_fractions (item a) (seq 1 (length a)) 1) as PF. specialize (PF ltac:(intros i j Hi Hj N; apply in_seq in Hi; apply in_seq in Hj; apply Dist; lia) (seq_NoDup _ _) (mi m) (fun v => mu a m (Z.of_nat v) 1) (fun i v => mu a m (- Z.of_nat v) i) ltac:(apply in_seq; lia)).
    assert (Wo : forall i, others a i = wo i (seq 1 (length a))) by reflexivity.
    specialize (PF ltac:(intros v; unfold mu; rewrite sum_lsum, Wo; replace (Z.abs (Z.of_nat (S v))) with (Z.of_nat (S v)) by lia; rewrite <- INR_IZR_INZ; f_equal; [unfold Rdiv; ring|]; apply lsum_ext; intros j Hj; apply (wo_in 0 (fun _ => 0%Z)) in Hj; destruct Hj as (Hj & _); apply in_seq in Hj; rewrite powerRZ_nat, d_item by lia; reflexivity)).
    specialize (PF ltac:(intros i v Hi; apply in_seq in Hi; unfold mu; rewrite sum_lsum, Wo; replace (Z.abs (- Z.of_nat (S v))) with (Z.of_nat (S v)) by lia; rewrite <- INR_IZR_INZ; f_equal; [unfold Rdiv; ring|]; apply lsum_ext; intros j Hj; apply (wo_in 0 (fun _ => 0%Z)) in Hj; destruct Hj as (Hj & _); apply in_seq in Hj; rewrite powerRZ_inv_pow, d_item by lia; reflexivity)).
    specialize (PF t ltac:(intros i Hi; apply in_seq in Hi; pose proof (it_pos i t ltac:(lia) ltac:(lra)); lra)). unfold F in PF. rewrite PF. rewrite <- EM. clear PF.
    pose proof (s_pos' t ltac:(lra)) as Ps. unfold Rdiv. rewrite Rmult_plus_distr_r. f_equal.
    + unfold zrange. rewrite lsum_map. replace (M + 1 - 0)%Z with (M + 1)%Z by lia. rewrite lsum_seq. rewrite Rmult_comm, <- bsum_scal. apply bsum_ext. intros q Hq. cbn [Nat.add]. replace (M - (0 + Z.of_nat q))%Z with (Z.of_nat (Z.to_nat M - q)) by lia. rewrite C_pos. unfold phi. rewrite Z.add_0_l, powerRZ_nat. unfold Rdiv. ring.
    + rewrite Rmult_comm, <- lsum_scal. unfold onerange, n. apply lsum_ext. intros i Hi. apply in_seq in Hi. replace (D a m i) with (DD (item a) (seq 1 (length a)) (mi m) i).
      2:{ unfold D, DD. rewrite Wo. rewrite prod_lprod.
          - apply lprod_ext. intros j Hj. apply (wo_in 0 (fun _ => 0%Z)) in Hj. destruct Hj as (Hj & _). apply in_seq in Hj. rewrite d_item by lia. reflexivity.
          - assert (X : exists j, In j (wo i (seq 1 (length a)))). { destruct (Nat.eq_dec i 1) as [->|Ne]; [exists 2%nat|exists 1%nat]; apply (wo_in 0 (fun _ => 0%Z)); (split; [apply in_seq; lia|lia]). }
            destruct X as (j & X). intros Z. rewrite Z in X. destruct X. }
      rewrite lsum_seq. set (DDi := DD _ _ _ i). transitivity (DDi * (/ s a h t * bsum (Z.to_nat (- mi m i)) (fun q => psum (fun v => mu a m (- Z.of_nat v) i) (Z.to_nat (- mi m i) - 1 - q) (Z.to_nat (- mi m i) - 1 - q) * / (item a i + t) ^ S q))); [|ring]. f_equal. rewrite <- bsum_scal. apply bsum_ext. intros q Hq. replace (mi m i + Z.of_nat (1 + q))%Z with (- Z.of_nat (Z.to_nat (- mi m i) - 1 - q))%Z by lia. rewrite C_neg. unfold phi. replace (1 + q)%nat with (S q) by lia. rewrite powerRZ_opp. unfold Rdiv. ring.
Qed.
End Main.
