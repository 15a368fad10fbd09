(** Proofs of the unit properties (C01-C08); statements are repeated in Prop_Units.v *)
From Coq Require Import ZArith QArith Qcanon Qabs String List Bool Reals Lia Lra Permutation.
From Verif Require Import Frac FracFacts Units UnitSpec UnitsFacts.
Import ListNotations.
Open Scope list_scope.

Lemma can_mul so u v : canonical (udim (umul so u v)). Proof. apply canonical_dmul. Qed.
Lemma can_div so u v : canonical (udim (udiv so u v)). Proof. apply canonical_dmul. Qed.
Lemma can_pow u p : canonical (udim (upow u p)). Proof. apply canonical_dpow. Qed.
Lemma can_inv u : canonical (udim (uinv u)). Proof. apply canonical_dinv. Qed.
Lemma can_mulnum u r : canonical (udim (umulnum u r)). Proof. apply unitbase_init_canonical. Qed.
Lemma can_rdiv u r : canonical (udim (urdiv r u)). Proof. apply unitbase_init_canonical. Qed.
Lemma can_one : canonical (udim unit_one). Proof. apply unitbase_init_canonical. Qed.
Lemma can_init items v : canonical (udim (unit_init items v)). Proof. apply unitbase_init_canonical. Qed.
Ltac cano := lazymatch goal with
  | |- canonical (udim (umul _ _ _)) => apply can_mul
  | |- canonical (udim (udiv _ _ _)) => apply can_div
  | |- canonical (udim (upow _ _)) => apply can_pow
  | |- canonical (udim (uinv _)) => apply can_inv
  | |- canonical (udim (umulnum _ _)) => apply can_mulnum
  | |- canonical (udim (urdiv _ _)) => apply can_rdiv
  | |- canonical (udim unit_one) => apply can_one
  | |- canonical (udim (unit_init _ _)) => apply can_init
  | |- _ => assumption
  end.
Ltac ueq := apply eqb_exponents; [cano|cano|].

Lemma mul_comm_l so so' u v : unit_eqb (umul so u v) (umul so' v u) = true.
Proof.
  ueq. split; [simpl; ring|]. intros k. rewrite !exp_mul. f_equal. ring.
Qed.

Lemma mul_one_l so u : canonical (udim u) ->
  unit_eqb (umul so u unit_one) u = true /\ unit_eqb (umul so unit_one u) u = true.
Proof.
  intros H. split; ueq; (split; [simpl; ring|]); intros k; rewrite exp_mul, exp_one.
  - replace (exponent u k + 0)%Qc with (exponent u k) by ring. apply exp_limit, H.
  - replace (0 + exponent u k)%Qc with (exponent u k) by ring. apply exp_limit, H.
Qed.

Lemma limit_zero_sub x : limit (x - x)%Qc = 0%Qc.
Proof. replace (x - x)%Qc with 0%Qc by ring. apply limit_0. Qed.

Lemma mul_inv_l so u : canonical (udim u) -> (uval u <> 0)%R ->
  unit_eqb (umul so u (uinv u)) unit_one = true.
Proof.
  intros H Hv. ueq. split; [simpl; field; exact Hv|].
  intros k. rewrite exp_mul, exp_inv, exp_one by exact H. apply limit_zero_sub.
Qed.

Lemma powerRZ_m1 r : (r <> 0)%R -> powerRZ r (-1) = (/ r)%R.
Proof. intros H. simpl. rewrite Rmult_1_r. reflexivity. Qed.

Lemma div_self_l so u : canonical (udim u) -> (uval u <> 0)%R ->
  unit_eqb (udiv so u u) unit_one = true.
Proof.
  intros H Hv. ueq. split.
  - cbn [uval udiv umul upow unit_one unit_init]. rewrite rpow_int, powerRZ_m1 by exact Hv. field. exact Hv.
  - intros k. rewrite exp_div, exp_one by exact H. apply limit_zero_sub.
Qed.

Lemma pow_zero_l u : canonical (udim u) -> unit_eqb (upow u (fint 0)) unit_one = true.
Proof.
  intros H. ueq. split; [cbn [uval upow unit_one unit_init]; rewrite rpow_int; reflexivity|].
  intros k. rewrite exp_pow, exp_one by exact H.
  replace (exponent u k * fint 0)%Qc with 0%Qc by (replace (fint 0) with 0%Qc by (apply Qc_is_canon; reflexivity); ring).
  apply limit_0.
Qed.

Lemma inv_inv_l u : canonical (udim u) -> (uval u <> 0)%R -> unit_eqb (uinv (uinv u)) u = true.
Proof.
  intros H Hv. ueq. split; [simpl; field; exact Hv|].
  intros k. rewrite !exp_inv by cano. ring.
Qed.

Lemma rdiv_one_l u : canonical (udim u) -> unit_eqb (urdiv 1 u) (uinv u) = true.
Proof.
  intros H. ueq. split; [simpl; ring|]. intros k. unfold urdiv. rewrite exp_mulnum by cano. reflexivity.
Qed.

Lemma pow_m1_inv_l u : canonical (udim u) -> (uval u <> 0)%R -> unit_eqb (upow u (fint (-1))) (uinv u) = true.
Proof.
  intros H Hv. ueq. split.
  - cbn [uval upow uinv]. rewrite rpow_int, powerRZ_m1 by exact Hv. field. exact Hv.
  - intros k. rewrite exp_pow, exp_zmul, fint_m1, exp_inv by exact H. reflexivity.
Qed.

(** (u*v)^-1 = u^-1 * v^-1, rounding included *)
Lemma inv_mul_l so so' u v : canonical (udim u) -> canonical (udim v) -> (uval u <> 0)%R -> (uval v <> 0)%R ->
  unit_eqb (uinv (umul so u v)) (umul so' (uinv u) (uinv v)) = true.
Proof.
  intros Hu Hv H1 H2. ueq. split; [simpl; field; auto|].
  intros k. rewrite exp_inv by cano. rewrite !exp_mul, !exp_inv by assumption.
  rewrite <- limit_neg. f_equal. ring.
Qed.

Lemma assoc_l so1 so2 so3 so4 u v w :
  (forall k, (fden (exponent u k + exponent v k) <= 1000000)%Z) ->
  (forall k, (fden (exponent v k + exponent w k) <= 1000000)%Z) ->
  unit_eqb (umul so1 (umul so2 u v) w) (umul so3 u (umul so4 v w)) = true.
Proof.
  intros H1 H2. ueq. split; [simpl; ring|]. intros k. rewrite !exp_mul.
  rewrite (limit_small _ (H1 k)). rewrite (limit_small _ (H2 k)). f_equal. ring.
Qed.

Notation assoc_wit n d := (unit_init [("L"%string, frac n d)] 1).

Lemma assoc_refuted_l : exists u v w,
  canonical (udim u) /\ canonical (udim v) /\ canonical (udim w) /\
  forall so1 so2 so3 so4, unit_eqb (umul so1 (umul so2 u v) w) (umul so3 u (umul so4 v w)) = false.
Proof.
  exists (assoc_wit 1 7), (assoc_wit 1 1013), (assoc_wit 1 1019).
  do 3 (split; [apply can_init|]). intros.
  apply not_true_is_false. intros H. apply eqb_exponents in H; [|cano|cano].
  destruct H as [_ H]. specialize (H "L"%string). rewrite !exp_mul in H.
  apply (f_equal (fun q => (fnum q, fden q))) in H. vm_compute in H. discriminate.
Qed.

Lemma grid_eq_l so1 so2 N e1 e2 : (0 < N <= 1000000)%Z -> on_paper_grid N e1 -> on_paper_grid N e2 ->
  (forall k, paper_exponent e1 k = paper_exponent e2 k) ->
  uval (ueval so1 e1) = uval (ueval so2 e2) ->
  unit_eqb (ueval so1 e1) (ueval so2 e2) = true.
Proof.
  intros HN H1 H2 He Hv. apply eqb_exponents; [apply ueval_canonical|apply ueval_canonical|].
  split; [exact Hv|]. intros k. rewrite (grid_exact_lemma so1 N), (grid_exact_lemma so2 N) by assumption. apply He.
Qed.

(** powers *)
Lemma canonical_rep so u n : canonical (udim (repeated_product so u n)).
Proof. destruct n; [apply can_one|apply can_mul]. Qed.

Lemma exp_rep so u n k : canonical (udim u) ->
  exponent (repeated_product so u n) k = (exponent u k * fint (Z.of_nat n))%Qc.
Proof.
  intros H. induction n as [|n IH].
  - simpl repeated_product. rewrite exp_one. replace (fint (Z.of_nat 0)) with 0%Qc by (apply Qc_is_canon; reflexivity). ring.
  - cbn [repeated_product]. rewrite exp_mul, IH.
    rewrite Nat2Z.inj_succ. unfold Z.succ. rewrite <- fint_plus.
    replace (exponent u k * fint (Z.of_nat n) + exponent u k)%Qc with (exponent u k * (fint (Z.of_nat n) + fint 1))%Qc
      by (replace (fint 1) with 1%Qc by (apply Qc_is_canon; reflexivity); ring).
    rewrite fint_plus. apply exp_zmul, H.
Qed.

Lemma val_rep so u n : uval (repeated_product so u n) = (uval u ^ n)%R.
Proof. induction n as [|n IH]; [reflexivity|]. cbn [repeated_product umul uval]. rewrite IH. simpl. ring. Qed.

Lemma pow_nat_l so u n : canonical (udim u) ->
  unit_eqb (upow u (fint (Z.of_nat n))) (repeated_product so u n) = true.
Proof.
  intros H. apply eqb_exponents; [cano|apply canonical_rep|]. split.
  - cbn [uval upow]. rewrite rpow_int, val_rep. symmetry. apply pow_powerRZ.
  - intros k. rewrite exp_pow, exp_zmul, exp_rep by exact H. reflexivity.
Qed.

Lemma pow_neg_l u n : canonical (udim u) -> (uval u <> 0)%R ->
  unit_eqb (upow u (fint (- n))) (uinv (upow u (fint n))) = true.
Proof.
  intros H Hv. ueq. split.
  - cbn [uval upow uinv]. rewrite !rpow_int. unfold Rdiv. rewrite Rmult_1_l. apply powerRZ_neg'. 
  - intros k. rewrite exp_inv by cano. rewrite !exp_pow, !exp_zmul by exact H.
    replace (fint (-n)) with (- fint n)%Qc; [ring|].
    replace (-n)%Z with (n * -1)%Z by ring. rewrite <- fint_mul, fint_m1. reflexivity.
Qed.

Lemma pow_add_l so u m n : canonical (udim u) -> (uval u <> 0)%R ->
  unit_eqb (upow u (fint (m + n))) (umul so (upow u (fint m)) (upow u (fint n))) = true.
Proof.
  intros H Hv. ueq. split.
  - cbn [uval upow umul]. rewrite !rpow_int. apply powerRZ_add, Hv.
  - intros k. rewrite exp_mul, !exp_pow, !exp_zmul by exact H.
    replace (exponent u k * fint m + exponent u k * fint n)%Qc with (exponent u k * (fint m + fint n))%Qc by ring.
    rewrite fint_plus, exp_zmul by exact H. reflexivity.
Qed.

Lemma powerRZ_nat_mult x j k : powerRZ (powerRZ x (Z.of_nat j)) (Z.of_nat k) = powerRZ x (Z.of_nat j * Z.of_nat k).
Proof. rewrite <- Nat2Z.inj_mul, <- !pow_powerRZ. symmetry. apply pow_mult. Qed.

Lemma powerRZ_powerRZ x m n : powerRZ (powerRZ x m) n = powerRZ x (m * n).
Proof.
  assert (E : forall z : Z, exists j : nat, z = Z.of_nat j \/ z = (- Z.of_nat j)%Z) by (intros z; exists (Z.abs_nat z); lia).
  destruct (E m) as [j [-> | ->]], (E n) as [k [-> | ->]].
  - apply powerRZ_nat_mult.
  - rewrite powerRZ_neg', powerRZ_nat_mult, Z.mul_opp_r, powerRZ_neg'. reflexivity.
  - rewrite powerRZ_neg', powerRZ_inv', powerRZ_nat_mult, Z.mul_opp_l, powerRZ_neg'. reflexivity.
  - rewrite !powerRZ_neg', powerRZ_inv', powerRZ_nat_mult, Rinv_inv, Z.mul_opp_opp. reflexivity.
Qed.

Lemma pow_pow_l u m n : canonical (udim u) ->
  unit_eqb (upow (upow u (fint m)) (fint n)) (upow u (fint (m * n))) = true.
Proof.
  intros H. ueq. split.
  - cbn [uval upow]. rewrite !rpow_int. apply powerRZ_powerRZ.
  - intros k. rewrite exp_pow by cano. rewrite !exp_pow, !exp_zmul by exact H.
    rewrite <- Qcmult_assoc, fint_mul. apply exp_zmul, H.
Qed.

Lemma pow_mul_l so so' u v n : canonical (udim u) -> canonical (udim v) ->
  (forall k, (fden (exponent u k + exponent v k) <= 1000000)%Z) ->
  unit_eqb (upow (umul so u v) (fint n)) (umul so' (upow u (fint n)) (upow v (fint n))) = true.
Proof.
  intros Hu Hv Hs. ueq. split.
  - cbn [uval upow umul]. rewrite !rpow_int. apply powerRZ_mult.
  - intros k. rewrite exp_pow by cano. rewrite !exp_mul, !exp_pow, !exp_zmul by assumption.
    rewrite (limit_small _ (Hs k)). f_equal. ring.
Qed.

Lemma pow_mul_refuted_l : exists u v, canonical (udim u) /\ canonical (udim v) /\
  forall so so', unit_eqb (upow (umul so u v) (fint 2)) (umul so' (upow u (fint 2)) (upow v (fint 2))) = false.
Proof.
  exists (assoc_wit 1 1013), (assoc_wit 1 1019).
  do 2 (split; [apply can_init|]). intros.
  apply not_true_is_false. intros H. apply eqb_exponents in H; [|cano|cano].
  destruct H as [_ H]. specialize (H "L"%string). rewrite exp_pow in H by cano.
  rewrite !exp_mul, !exp_pow in H by cano.
  apply (f_equal (fun q => (fnum q, fden q))) in H. vm_compute in H. discriminate.
Qed.

(** roots *)
Lemma frac_inv_int n : (0 < n)%Z -> (frac 1 n * fint n = 1)%Qc.
Proof.
  intros Hn. apply Qc_is_canon. unfold Qcmult. cbn [this Q2Qc]. rewrite Qred_correct.
  unfold fint. rewrite !frac_Qeq by lia. unfold Qeq, Qmult. cbn [Qnum Qden]. rewrite Pos2Z.inj_mul, !Z2Pos.id by lia. change (Qred 1) with (1#1)%Q. cbn [Qnum Qden]. lia.
Qed.

Lemma rpow_rpow v p q : (0 < v)%R -> rpow (rpow v p) q = rpow v (p * q)%Qc.
Proof.
  intros Hv. rewrite !rpow_pos; try assumption.
  - rewrite Rpower_mult. rewrite <- Qc2R_mul. reflexivity.
  - rewrite rpow_pos by exact Hv; apply exp_pos.
Qed.

Lemma fint_1 : fint 1 = 1%Qc. Proof. apply Qc_is_canon; reflexivity. Qed.

Lemma pow_pow_rat_l u p q : canonical (udim u) -> (0 < uval u)%R ->
  (forall k, (fden (exponent u k * p) <= 1000000)%Z) ->
  unit_eqb (upow (upow u p) q) (upow u (p * q)%Qc) = true.
Proof.
  intros H Hv Hr. ueq. split; [cbn [uval upow]; apply rpow_rpow, Hv|].
  intros k. rewrite exp_pow by cano. rewrite !exp_pow by exact H.
  rewrite (limit_small _ (Hr k)). f_equal. ring.
Qed.

Lemma root_pow_l u n : canonical (udim u) -> (0 < uval u)%R -> (0 < n)%Z ->
  (forall k, (fden (exponent u k * frac 1 n) <= 1000000)%Z) ->
  unit_eqb (upow (upow u (frac 1 n)) (fint n)) u = true.
Proof.
  intros H Hv Hn Hr. ueq. split.
  - cbn [uval upow]. rewrite rpow_rpow, frac_inv_int by assumption. rewrite <- fint_1, rpow_int. simpl. ring.
  - intros k. rewrite exp_pow by cano. rewrite exp_pow by exact H.
    rewrite (limit_small _ (Hr k)). rewrite <- Qcmult_assoc, frac_inv_int, Qcmult_1_r by exact Hn.
    apply exp_limit, H.
Qed.

Lemma pow_root_l u n : canonical (udim u) -> (0 < uval u)%R -> (0 < n)%Z ->
  unit_eqb (upow (upow u (fint n)) (frac 1 n)) u = true.
Proof.
  intros H Hv Hn. ueq. split.
  - cbn [uval upow]. rewrite rpow_rpow, Qcmult_comm, frac_inv_int by assumption. rewrite <- fint_1, rpow_int. simpl. ring.
  - intros k. rewrite exp_pow by cano. rewrite exp_pow, exp_zmul by exact H.
    rewrite <- Qcmult_assoc, (Qcmult_comm (fint n)), frac_inv_int, Qcmult_1_r by exact Hn. apply exp_limit, H.
Qed.

Lemma root_pow_refuted_l : exists u, canonical (udim u) /\ (0 < uval u)%R /\
  unit_eqb (upow (upow u (frac 1 2)) (fint 2)) u = false.
Proof.
  exists (assoc_wit 1 999983). split; [apply unitbase_init_canonical|]. split; [simpl; lra|].
  apply not_true_is_false. intros H. apply eqb_exponents in H; [|cano|cano].
  destruct H as [_ H]. specialize (H "L"%string). rewrite !exp_pow in H by cano.
  apply (f_equal (fun q => (fnum q, fden q))) in H. vm_compute in H. discriminate.
Qed.

(** conversion *)
Definition same_dim (u v : unit_) : Prop := forall k, exponent u k = exponent v k.

Lemma dict_eqb_same u v : canonical (udim u) -> canonical (udim v) ->
  (dict_eqb (udim u) (udim v) = true <-> same_dim u v).
Proof.
  intros Hu Hv. rewrite dict_eqb_spec by assumption. unfold same_dim.
  split; intros H k; specialize (H k); rewrite ?exponent_getd in *; exact H.
Qed.

Lemma to_ok_l u v : canonical (udim u) -> canonical (udim v) -> (uval v <> 0)%R -> same_dim u v ->
  unit_to u v = ToOk (uval u / uval v).
Proof.
  intros Hu Hv Hz Hs. unfold unit_to. apply dict_eqb_same in Hs; [|assumption|assumption]. rewrite Hs. simpl.
  destruct (Req_EM_T (uval v) 0); tauto.
Qed.

Lemma to_err_l u v : canonical (udim u) -> canonical (udim v) ->
  (unit_to u v = ToTypeError <-> ~ same_dim u v).
Proof.
  intros Hu Hv. rewrite <- dict_eqb_same by assumption. unfold unit_to.
  destruct (dict_eqb (udim u) (udim v)); simpl; [|split; [discriminate|reflexivity]].
  destruct (Req_EM_T (uval v) 0); split; intros H; try discriminate; tauto.
Qed.

Lemma to_mul_l so so' u v u' v' : canonical (udim u) -> canonical (udim v) -> canonical (udim u') -> canonical (udim v') ->
  (uval v <> 0)%R -> (uval v' <> 0)%R -> same_dim u v -> same_dim u' v' ->
  unit_to (umul so u u') (umul so' v v') = ToOk (uval u / uval v * (uval u' / uval v'))%R.
Proof.
  intros Hu Hv Hu' Hv' Hz Hz' Hs Hs'. rewrite to_ok_l; try cano.
  - f_equal. simpl. field. auto.
  - simpl. apply Rmult_integral_contrapositive; auto.
  - intros k. rewrite !exp_mul. rewrite Hs, Hs'. reflexivity.
Qed.

Lemma eqb_refl_l u : canonical (udim u) -> unit_eqb u u = true.
Proof. intros H. ueq. auto. Qed.
Lemma eqb_sym_l u v : canonical (udim u) -> canonical (udim v) -> unit_eqb u v = unit_eqb v u.
Proof.
  intros Hu Hv. apply eq_iff_eq_true. rewrite !eqb_exponents by assumption.
  split; intros [A B]; (split; [congruence|intros k; symmetry; apply B]).
Qed.
Lemma eqb_trans_l u v w : canonical (udim u) -> canonical (udim v) -> canonical (udim w) ->
  unit_eqb u v = true -> unit_eqb v w = true -> unit_eqb u w = true.
Proof.
  intros Hu Hv Hw. rewrite !eqb_exponents by assumption. intros [A B] [C D].
  split; [congruence|intros k; rewrite B; apply D].
Qed.
Lemma eqb_hash_l u v : canonical (udim u) -> canonical (udim v) ->
  unit_eqb u v = true -> unit_hash_key u = unit_hash_key v.
Proof.
  intros Hu Hv H. apply unit_eqb_spec in H; try assumption. destruct H as [A B].
  unfold unit_hash_key. f_equal; [exact A|]. apply hash_key_eq; assumption.
Qed.
Lemma hash_eqb_l u v : canonical (udim u) -> canonical (udim v) ->
  unit_hash_key u = unit_hash_key v -> unit_eqb u v = true.
Proof.
  intros Hu Hv H. unfold unit_hash_key in H. injection H as A B.
  apply unit_eqb_spec; try assumption. split; [exact A|]. intros k.
  assert (P : Permutation (udim u) (udim v)).
  { rewrite (sorted_items_perm (udim u)), (sorted_items_perm (udim v)).
    unfold base_hash_key in B. rewrite B. reflexivity. }
  unfold getd. destruct (dict_get (udim u) k) as [x|] eqn:E.
  - apply dict_get_in in E. apply (Permutation_in _ P) in E. rewrite (in_dict_get _ _ _ (proj1 Hv) E). reflexivity.
  - apply dict_get_none in E. replace (dict_get (udim v) k) with (@None Qc); [reflexivity|].
    symmetry. apply dict_get_none. intros Hi. apply E. unfold dict_keys in *.
    eapply Permutation_in; [|exact Hi]. apply Permutation_map, Permutation_sym, P.
Qed.

Lemma perm_items_l (items items' : list (string * Qc)) v : NoDup (map fst items) -> Permutation items items' ->
  unit_eqb (unit_init items v) (unit_init items' v) = true /\
  unit_hash_key (unit_init items v) = unit_hash_key (unit_init items' v).
Proof.
  intros Hn P.
  assert (Hn' : NoDup (map fst items')) by (eapply Permutation_NoDup; [apply Permutation_map, P|exact Hn]).
  assert (E : unit_eqb (unit_init items v) (unit_init items' v) = true).
  { apply unit_eqb_spec; [apply unitbase_init_canonical|apply unitbase_init_canonical|]. split; [reflexivity|].
    intros k. simpl. rewrite !getd_init_nodup by assumption. f_equal. unfold getd.
    destruct (dict_get items k) as [x|] eqn:E.
    - apply dict_get_in in E. apply (Permutation_in _ P) in E. rewrite (in_dict_get _ _ _ Hn' E). reflexivity.
    - apply dict_get_none in E. replace (dict_get items' k) with (@None Qc); [reflexivity|].
      symmetry. apply dict_get_none. intros Hi. apply E. unfold dict_keys in *.
      eapply Permutation_in; [|exact Hi]. apply Permutation_map, Permutation_sym, P. }
  split; [exact E|]. apply eqb_hash_l; [apply unitbase_init_canonical|apply unitbase_init_canonical|exact E].
Qed.

Lemma getitem_l d s : 
  (forall x, getitem d (KDimension s) = LValue x <-> x = getd d s) /\
  (getitem d (KStr s) = LAssertionError <-> ~ In s (map fst d)).
Proof.
  unfold getitem, getd; simpl. split.
  - intros x. destruct (dict_get d s); split; congruence.
  - rewrite <- (dict_get_none d s). destruct (dict_get d s); split; congruence.
Qed.

(** A concrete set order, for examples. *)
Definition so_std : set_order.
Proof.
  refine {| so_iter := nodup string_dec |}.
  - intros l. apply NoDup_nodup.
  - intros l k. apply nodup_In.
Defined.
