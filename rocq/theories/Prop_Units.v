(** * Properties C01-C08: units (phytorch/units/unit.py)
    [canonical], [exponent], [last_binding], [paper_exponent], [repeated_product] are
    specification notions from UnitSpec.v; [same_dim u v] is equality of all exponents. *)
From Coq Require Import ZArith QArith Qcanon Qabs String List Bool Reals Lia Lra Permutation.
From Verif Require Import Frac FracFacts Units UnitSpec UnitsFacts UnitsThms.
Import ListNotations.
Open Scope list_scope.

(** ** C01 canonical form *)
Theorem C01_canonical : forall so e, canonical (udim (ueval so e)).
Proof. exact ueval_canonical. Qed.
Print Assumptions C01_canonical.

(** the constructor: last binding of each key, rounded; duplicates and zero exponents vanish *)
Theorem C01_constructor : forall items v k,
  exponent (unit_init items v) k = limit (match last_binding items k with Some x => x | None => Q2Qc 0 end).
Proof. intros. rewrite exponent_getd. apply getd_init. Qed.
Print Assumptions C01_constructor.

Theorem C01_lookup : forall u s,
  (forall x, getitem (udim u) (KDimension s) = LValue x <-> x = exponent u s) /\
  (getitem (udim u) (KStr s) = LAssertionError <-> ~ In s (map fst (udim u))).
Proof. intros u s. rewrite exponent_getd. apply getitem_l. Qed.
Print Assumptions C01_lookup.

(** equality of units is equality of scales and exponents, however they were built *)
Theorem C01_extensional : forall so so' e e',
  unit_eqb (ueval so e) (ueval so' e') = true <->
  uval (ueval so e) = uval (ueval so' e') /\ forall k, exponent (ueval so e) k = exponent (ueval so' e') k.
Proof. intros. apply eqb_exponents; apply ueval_canonical. Qed.
Print Assumptions C01_extensional.

Example C01_nonvacuous :
  udim (ueval so_std (UDiv (UNew [("L"%string, fint 2); ("T"%string, fint 0); ("L"%string, fint 1)] 5) (UNew [("T"%string, fint 2)] 1)))
  = [("L"%string, fint 1); ("T"%string, fint (-2))].
Proof. vm_compute. reflexivity. Qed.

(** ** C02 *)
Theorem C02_commutative : forall so so' u v, unit_eqb (umul so u v) (umul so' v u) = true.
Proof. exact mul_comm_l. Qed.
Print Assumptions C02_commutative.

Theorem C02_neutral : forall so u, canonical (udim u) ->
  unit_eqb (umul so u unit_one) u = true /\ unit_eqb (umul so unit_one u) u = true.
Proof. exact mul_one_l. Qed.
Print Assumptions C02_neutral.

Theorem C02_inverse : forall so u, canonical (udim u) -> (uval u <> 0)%R ->
  unit_eqb (umul so u (uinv u)) unit_one = true /\
  unit_eqb (udiv so u u) unit_one = true /\
  unit_eqb (upow u (fint 0)) unit_one = true /\
  unit_eqb (uinv (uinv u)) u = true /\
  unit_eqb (urdiv 1 u) (uinv u) = true /\
  unit_eqb (upow u (fint (-1))) (uinv u) = true.
Proof.
  intros so u H Hv. repeat split.
  - apply mul_inv_l; assumption.
  - apply div_self_l; assumption.
  - apply pow_zero_l; assumption.
  - apply inv_inv_l; assumption.
  - apply rdiv_one_l; assumption.
  - apply pow_m1_inv_l; assumption.
Qed.
Print Assumptions C02_inverse.

Theorem C02_inverse_of_product : forall so so' u v,
  canonical (udim u) -> canonical (udim v) -> (uval u <> 0)%R -> (uval v <> 0)%R ->
  unit_eqb (uinv (umul so u v)) (umul so' (uinv u) (uinv v)) = true.
Proof. exact inv_mul_l. Qed.
Print Assumptions C02_inverse_of_product.

Example C02_nonvacuous : exists u, canonical (udim u) /\ (uval u <> 0)%R /\ exponent u "L" = frac 3 2.
Proof.
  exists (unit_init [("L"%string, frac 3 2); ("T"%string, fint (-1))] 5).
  split; [apply unitbase_init_canonical|]. split; [simpl; lra|]. vm_compute. reflexivity.
Qed.

(** ** C03 associativity: holds when the pairwise sums are representable, refuted in general *)
Theorem C03_associative_representable : forall so1 so2 so3 so4 u v w,
  (forall k, (fden (exponent u k + exponent v k) <= 1000000)%Z) ->
  (forall k, (fden (exponent v k + exponent w k) <= 1000000)%Z) ->
  unit_eqb (umul so1 (umul so2 u v) w) (umul so3 u (umul so4 v w)) = true.
Proof. exact assoc_l. Qed.
Print Assumptions C03_associative_representable.

(** any expression whose written exponents share a denominator N <= 10^6 is evaluated without any rounding ... *)
Theorem C03_exact_on_grid : forall so N e k, (0 < N <= 1000000)%Z -> on_paper_grid N e ->
  exponent (ueval so e) k = paper_exponent e k.
Proof. exact grid_exact_lemma. Qed.
Print Assumptions C03_exact_on_grid.

(** ... so regrouping and reordering factors arbitrarily cannot change the result *)
Theorem C03_regrouping : forall so1 so2 N e1 e2, (0 < N <= 1000000)%Z ->
  on_paper_grid N e1 -> on_paper_grid N e2 ->
  (forall k, paper_exponent e1 k = paper_exponent e2 k) ->
  uval (ueval so1 e1) = uval (ueval so2 e2) ->
  unit_eqb (ueval so1 e1) (ueval so2 e2) = true.
Proof. exact grid_eq_l. Qed.
Print Assumptions C03_regrouping.

Theorem C03_associative_refuted : exists u v w,
  canonical (udim u) /\ canonical (udim v) /\ canonical (udim w) /\
  forall so1 so2 so3 so4, unit_eqb (umul so1 (umul so2 u v) w) (umul so3 u (umul so4 v w)) = false.
Proof. exact assoc_refuted_l. Qed.
Print Assumptions C03_associative_refuted.

Example C03_nonvacuous :
  on_paper_grid 6 (UMul (UPow (UNew [("L"%string, frac 1 2)] 3) (fint 3)) (UNew [("L"%string, frac 1 3)] 1)) /\
  paper_exponent (UMul (UPow (UNew [("L"%string, frac 1 2)] 3) (fint 3)) (UNew [("L"%string, frac 1 3)] 1)) "L" = frac 11 6.
Proof.
  split.
  - simpl. split; [split; [reflexivity|]|]; (constructor; [|constructor]); [exists 3%Z|exists 2%Z]; reflexivity.
  - apply Qc_is_canon. reflexivity.
Qed.

(** ** C04 integer powers *)
Theorem C04_repeated_product : forall so u n, canonical (udim u) ->
  unit_eqb (upow u (fint (Z.of_nat n))) (repeated_product so u n) = true.
Proof. exact pow_nat_l. Qed.
Print Assumptions C04_repeated_product.

Theorem C04_negative_power : forall u n, canonical (udim u) -> (uval u <> 0)%R ->
  unit_eqb (upow u (fint (- n))) (uinv (upow u (fint n))) = true.
Proof. exact pow_neg_l. Qed.
Print Assumptions C04_negative_power.

Theorem C04_power_sum : forall so u m n, canonical (udim u) -> (uval u <> 0)%R ->
  unit_eqb (upow u (fint (m + n))) (umul so (upow u (fint m)) (upow u (fint n))) = true.
Proof. exact pow_add_l. Qed.
Print Assumptions C04_power_sum.

Theorem C04_power_power : forall u m n, canonical (udim u) ->
  unit_eqb (upow (upow u (fint m)) (fint n)) (upow u (fint (m * n))) = true.
Proof. exact pow_pow_l. Qed.
Print Assumptions C04_power_power.

Theorem C04_power_of_product : forall so so' u v n, canonical (udim u) -> canonical (udim v) ->
  (forall k, (fden (exponent u k + exponent v k) <= 1000000)%Z) ->
  unit_eqb (upow (umul so u v) (fint n)) (umul so' (upow u (fint n)) (upow v (fint n))) = true.
Proof. exact pow_mul_l. Qed.
Print Assumptions C04_power_of_product.

Theorem C04_power_of_product_refuted : exists u v, canonical (udim u) /\ canonical (udim v) /\
  forall so so', unit_eqb (upow (umul so u v) (fint 2))
                          (umul so' (upow u (fint 2)) (upow v (fint 2))) = false.
Proof. exact pow_mul_refuted_l. Qed.
Print Assumptions C04_power_of_product_refuted.

Example C04_nonvacuous : exists u v, canonical (udim u) /\ canonical (udim v) /\ (uval u <> 0)%R /\
  (exponent u "L" + exponent v "L" = frac 5 6)%Qc /\ (fden (exponent u "L" + exponent v "L") <= 1000000)%Z.
Proof.
  exists (unit_init [("L"%string, frac 1 2)] 2), (unit_init [("L"%string, frac 1 3)] 7).
  repeat split; try apply unitbase_init_canonical; try (simpl; lra); try (vm_compute; congruence).
Qed.

(** ** C05 rational powers *)
Theorem C05_power_then_root : forall u n, canonical (udim u) -> (0 < uval u)%R -> (0 < n)%Z ->
  unit_eqb (upow (upow u (fint n)) (frac 1 n)) u = true.
Proof. exact pow_root_l. Qed.
Print Assumptions C05_power_then_root.

Theorem C05_root_then_power : forall u n, canonical (udim u) -> (0 < uval u)%R -> (0 < n)%Z ->
  (forall k, (fden (exponent u k * frac 1 n) <= 1000000)%Z) ->
  unit_eqb (upow (upow u (frac 1 n)) (fint n)) u = true.
Proof. exact root_pow_l. Qed.
Print Assumptions C05_root_then_power.

Theorem C05_power_power_rational : forall u p q, canonical (udim u) -> (0 < uval u)%R ->
  (forall k, (fden (exponent u k * p) <= 1000000)%Z) ->
  unit_eqb (upow (upow u p) q) (upow u (p * q)%Qc) = true.
Proof. exact pow_pow_rat_l. Qed.
Print Assumptions C05_power_power_rational.

Theorem C05_root_then_power_refuted : exists u, canonical (udim u) /\ (0 < uval u)%R /\
  unit_eqb (upow (upow u (frac 1 2)) (fint 2)) u = false.
Proof. exact root_pow_refuted_l. Qed.
Print Assumptions C05_root_then_power_refuted.

Example C05_nonvacuous : exists u, canonical (udim u) /\ (0 < uval u)%R /\
  exponent u "L" = fint 2 /\ (forall k, (fden (exponent u k * frac 1 3) <= 1000000)%Z).
Proof.
  exists (unit_init [("L"%string, fint 2)] 4). split; [apply unitbase_init_canonical|]. split; [simpl; lra|].
  split; [reflexivity|]. intros k. rewrite C01_constructor. simpl.
  destruct (String.eqb k "L"); vm_compute; congruence.
Qed.

(** ** C06 conversion *)
Theorem C06_to_value : forall u v, canonical (udim u) -> canonical (udim v) -> (uval v <> 0)%R -> same_dim u v ->
  unit_to u v = ToOk (uval u / uval v).
Proof. exact to_ok_l. Qed.
Print Assumptions C06_to_value.

Theorem C06_to_error : forall u v, canonical (udim u) -> canonical (udim v) ->
  (unit_to u v = ToTypeError <-> ~ same_dim u v).
Proof. exact to_err_l. Qed.
Print Assumptions C06_to_error.

Theorem C06_to_groupoid : forall u v w a b,
  canonical (udim u) -> canonical (udim v) -> canonical (udim w) ->
  (uval u <> 0)%R -> (uval v <> 0)%R -> (uval w <> 0)%R ->
  unit_to u v = ToOk a -> unit_to v w = ToOk b ->
  unit_to u u = ToOk 1 /\ unit_to v u = ToOk (/ a) /\ unit_to u w = ToOk (a * b) /\ (a * / a = 1)%R.
Proof.
  intros u v w a b Hu Hv Hw Zu Zv Zw H1 H2.
  assert (S1 : same_dim u v).
  { apply dict_eqb_same; [assumption..|]. unfold unit_to in H1. destruct (dict_eqb (udim u) (udim v)); [reflexivity|discriminate]. }
  assert (S2 : same_dim v w).
  { apply dict_eqb_same; [assumption..|]. unfold unit_to in H2. destruct (dict_eqb (udim v) (udim w)); [reflexivity|discriminate]. }
  rewrite to_ok_l in H1, H2 by assumption. injection H1 as <-. injection H2 as <-.
  assert (R : same_dim u u) by (intros k; reflexivity).
  assert (S1' : same_dim v u) by (intros k; symmetry; apply S1).
  assert (S3 : same_dim u w) by (intros k; rewrite S1; apply S2).
  rewrite !to_ok_l by assumption. repeat split; try (f_equal; field; auto).
Qed.
Print Assumptions C06_to_groupoid.

Theorem C06_to_product : forall so so' u v u' v',
  canonical (udim u) -> canonical (udim v) -> canonical (udim u') -> canonical (udim v') ->
  (uval v <> 0)%R -> (uval v' <> 0)%R -> same_dim u v -> same_dim u' v' ->
  unit_to (umul so u u') (umul so' v v') = ToOk (uval u / uval v * (uval u' / uval v'))%R.
Proof. exact to_mul_l. Qed.
Print Assumptions C06_to_product.

Example C06_nonvacuous :
  let km := unit_init [("L"%string, fint 1)] 1000 in let cm := unit_init [("L"%string, fint 1)] (1/100) in
  let s := unit_init [("T"%string, fint 1)] 1 in
  same_dim km cm /\ unit_to km cm = ToOk (1000 / (1/100)) /\ unit_to km s = ToTypeError.
Proof.
  intros km cm s. split; [intros k; reflexivity|]. split.
  - apply C06_to_value; try apply unitbase_init_canonical; [simpl; lra|intros k; reflexivity].
  - apply C06_to_error; try apply unitbase_init_canonical. intros H. specialize (H "T"%string).
    apply (f_equal (fun q => (fnum q, fden q))) in H. vm_compute in H. discriminate.
Qed.

(** ** C07 equality and hash *)
Theorem C07_equivalence :
  (forall u, canonical (udim u) -> unit_eqb u u = true) /\
  (forall u v, canonical (udim u) -> canonical (udim v) -> unit_eqb u v = unit_eqb v u) /\
  (forall u v w, canonical (udim u) -> canonical (udim v) -> canonical (udim w) ->
     unit_eqb u v = true -> unit_eqb v w = true -> unit_eqb u w = true).
Proof. exact (conj eqb_refl_l (conj eqb_sym_l eqb_trans_l)). Qed.
Print Assumptions C07_equivalence.

(** the hash key coincides exactly for equal units; Python's hash is any function [h] of the key *)
Theorem C07_hash : forall (H : Type) (h : R * list (string * Qc) -> H) u v,
  canonical (udim u) -> canonical (udim v) ->
  unit_eqb u v = true -> h (unit_hash_key u) = h (unit_hash_key v).
Proof. intros H h u v Hu Hv E. f_equal. apply eqb_hash_l; assumption. Qed.
Print Assumptions C07_hash.

Theorem C07_hash_key_injective : forall u v, canonical (udim u) -> canonical (udim v) ->
  unit_hash_key u = unit_hash_key v -> unit_eqb u v = true.
Proof. exact hash_eqb_l. Qed.
Print Assumptions C07_hash_key_injective.

Theorem C07_insertion_order : forall (items items' : list (string * Qc)) v,
  NoDup (map fst items) -> Permutation items items' ->
  unit_eqb (unit_init items v) (unit_init items' v) = true /\
  unit_hash_key (unit_init items v) = unit_hash_key (unit_init items' v).
Proof. exact perm_items_l. Qed.
Print Assumptions C07_insertion_order.

Theorem C07_not_a_dimension : forall u d, unit_eq_obj u (PBase d) = false.
Proof. reflexivity. Qed.
Print Assumptions C07_not_a_dimension.

Example C07_nonvacuous :
  unit_hash_key (unit_init [("T"%string, fint (-2)); ("L"%string, fint 1)] 9) =
  unit_hash_key (unit_init [("L"%string, fint 1); ("T"%string, fint (-2))] 9) /\
  [("T"%string, fint (-2)); ("L"%string, fint 1)] <> [("L"%string, fint 1); ("T"%string, fint (-2))].
Proof.
  split; [|intros E; discriminate E].
  apply C07_insertion_order; [repeat constructor; simpl; intuition discriminate|apply perm_swap].
Qed.

(** ** C08 exponent rounding *)
Theorem C08_identity : forall x, (fden x <= 1000000)%Z -> limit x = x.
Proof. exact (limit_id 1000000). Qed.
Print Assumptions C08_identity.

Theorem C08_bounded : forall x, (1 <= fden (limit x) <= 1000000)%Z.
Proof. intros x. split; [pose proof (fden_pos (limit x)); lia|apply limit_den; lia]. Qed.
Print Assumptions C08_bounded.

(** the closest fraction with denominator at most 10^6; on a tie, the one with the smaller denominator *)
Theorem C08_closest : forall (x y : Qc), (fden y <= 1000000)%Z ->
  (Qabs (limit x - x) <= Qabs (y - x))%Q /\
  (y <> limit x -> (Qabs (y - x) <= Qabs (limit x - x))%Q -> (fden (limit x) < fden y)%Z).
Proof.
  intros x y Hy. split; [apply (limit_closest max_den); [unfold max_den; lia|exact Hy]|].
  intros Hn Hle. apply (limit_tie max_den); [unfold max_den; lia|exact Hy|exact Hn|exact Hle].
Qed.
Print Assumptions C08_closest.

Theorem C08_error : forall (x : Qc), (Qabs (limit x - x) <= 1 # 2000000)%Q.
Proof. intros x. apply (limit_error max_den). unfold max_den; lia. Qed.
Print Assumptions C08_error.

Theorem C08_negation : forall x, limit (- x) = (- limit x)%Qc.
Proof. intros x. apply limit_opp. unfold max_den; lia. Qed.
Print Assumptions C08_negation.

(** a floating point exponent near a simple fraction is understood as that fraction *)
Theorem C08_recovers : forall (x r : Qc), (fden r <= 1000000)%Z ->
  (Qabs (x - r) < 1 # Z.to_pos (2000000 * fden r))%Q -> limit x = r.
Proof.
  intros x r Hr Hx. apply limit_recovers; [unfold max_den; lia|exact Hr|].
  replace (2 * fden r * max_den)%Z with (2000000 * fden r)%Z by (unfold max_den; ring). exact Hx.
Qed.
Print Assumptions C08_recovers.

Example C08_nonvacuous :   (* the double nearest to 1/3 is read as 1/3 *)
  limit (frac 6004799503160661 18014398509481984) = frac 1 3 /\ limit (frac 1 3000000) <> frac 1 3000000.
Proof. split; [vm_compute; reflexivity|]. intros E. apply (f_equal (fun q => (fnum q, fden q))) in E. vm_compute in E. discriminate. Qed.
