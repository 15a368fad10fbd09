(** Claims C23, C24. *)
From Coq Require Import ZArith QArith Qcanon String List Bool Reals Lia Lra.
From Verif Require Import Frac FracFacts Units UnitSpec UnitsFacts UnitsThms PyTree Quantities QuantSpec QuantFacts QuantFuns QuantMulti.
From Verif Require Import Prop_Quant Prop_Quant2.
Import ListNotations.
Open Scope list_scope.
Open Scope R_scope.

(** ** C23: determinants *)
Lemma det_ext n : forall a b, (forall i j, a i j = b i j) -> det n a = det n b.
Proof.
  induction n as [|n IH]; intros a b H; [reflexivity|]. cbn [det]. apply sum_to_ext. intros j _. rewrite H. f_equal. apply IH. intros r c. apply H.
Qed.
Lemma det_scale n : forall c a, det n (fun i j => c * a i j) = c ^ n * det n a.
Proof.
  induction n as [|n IH]; intros c a; [simpl; ring|]. cbn [det]. rewrite <- sum_to_scale. apply sum_to_ext. intros j _.
  rewrite (det_ext n (minor j (fun i j0 => c * a i j0)) (fun r s => c * minor j a r s)) by reflexivity. rewrite IH. simpl. ring.
Qed.
Lemma det_row : existsb (String.eqb "det") forbidden = false /\ lookup_spec "det" = Det.
Proof. split; vm_compute; reflexivity. Qed.
Lemma det_call env g q m n sh : tshape (qt q) = sh ++ [m; n] ->
  call env "det" g [LQ q] = Val (finish1 (g [RTen (qt q)]) (OU (upow (qu q) (fint (Z.of_nat n))))).
Proof.
  intros Hs. destruct det_row as [Hf Hl]. unfold call, torch_function. rewrite Hf, Hl. cbn [apply_spec map]. rewrite Hs, rev_app_distr. cbn [rev app].
  cbn [bind fst snd app length skipn map omap]. unfold backend. cbn [map leaf_or_other bind strip]. rewrite process_leaf. reflexivity.
Qed.
(** any function of (batches of) n by n matrices that is homogeneous of degree n *)
Theorem C23_det_any : forall env g q m n sh, good_q q -> tshape (qt q) = sh ++ [m; n] ->
  (forall c, 0 < c -> g [rscale c (phys (LQ q))] = tscale (c ^ n) (g [phys (LQ q)])) -> tfloat (g [phys (LQ q)]) = true ->
  (forall k, (fden (exponent (qu q) k * fint (Z.of_nat n))%Qc <= 1000000)%Z) ->
  exists z, call env "det" g [LQ q] = Val z /\ phys z = RTen (g [phys (LQ q)]) /\ forall k, dim_of z k = (exponent (qu q) k * fint (Z.of_nat n))%Qc.
Proof.
  intros env g q m n sh [[Hcan Hpos] Hf] Hs Hg Hft Hrep. rewrite (det_call env g q m n sh Hs). eexists. split; [reflexivity|].
  assert (E : g [RTen (qt q)] = tscale (/ uval (qu q) ^ n) (g [phys (LQ q)])).
  { rewrite <- pow_inv. rewrite <- Hg by (apply Rinv_0_lt_compat, Hpos). f_equal. f_equal. unfold phys. rewrite rscale_mul. simpl scale_of.
    rewrite Rinv_l, rscale_1 by lra. reflexivity. }
  rewrite E. unfold finish1. simpl tfloat. rewrite Hft. split.
  - unfold phys at 1. simpl. rewrite tscale_mul, rpow_int, <- pow_powerRZ, Rinv_r, tscale_1; [reflexivity|]. apply pow_nonzero. lra.
  - intros k. simpl. rewrite exp_pow by exact Hcan. apply limit_id. exact (Hrep k).
Qed.
Print Assumptions C23_det_any.
Theorem C23_det : forall env q n, good_q q -> tshape (qt q) = [n; n] ->
  (forall k, (fden (exponent (qu q) k * fint (Z.of_nat n))%Qc <= 1000000)%Z) ->
  exists z, call env "det" determinant [LQ q] = Val z /\ phys z = RTen (determinant [phys (LQ q)]) /\
    forall k, dim_of z k = (exponent (qu q) k * fint (Z.of_nat n))%Qc.
Proof.
  intros env q n Hq Hs Hrep. apply (C23_det_any env determinant q n n []); auto.
  - intros c Hc. unfold determinant, phys. simpl scale_of. simpl strip. unfold rscale. cbn [tshape tscale]. rewrite Hs.
    match goal with |- {| tshape := []; tdata := [?A]; tfloat := true |} = tscale _ {| tshape := []; tdata := [?B]; tfloat := true |} => enough (EE : A = c ^ n * B) by (rewrite EE; reflexivity) end.
    rewrite <- det_scale. apply det_ext. intros i j. exact (entry_scale c (tscale (uval (qu q)) (qt q)) n i j).
  - unfold determinant, phys. simpl. rewrite Hs. reflexivity.
Qed.
Print Assumptions C23_det.
Example C23_det_nonvacuous : forall env, let q := {| qt := {| tshape := [2%nat; 2%nat]; tdata := [1; 2; 3; 4]; tfloat := true |}; qu := km |} in
  exists z, call env "det" determinant [LQ q] = Val z /\ phys z = RTen {| tshape := []; tdata := [-2 * 10 ^ 6]; tfloat := true |} /\ dim_of z "L" = fint 2.
Proof.
  intros env q. destruct (C23_det env q 2) as (z & E & P & D).
  - split; [apply good_km|reflexivity].
  - reflexivity.
  - intros k. unfold q. simpl. unfold km. destruct (String.eqb k "L") eqn:Ek.
    + apply String.eqb_eq in Ek. subst. vm_compute. discriminate.
    + replace (exponent (unit_init [("L"%string, fint 1)] 1000) k) with 0%Qc; [vm_compute; discriminate|].
      rewrite exponent_getd. simpl. rewrite getd_init. simpl. rewrite Ek. symmetry. apply limit_0.
  - exists z. split; [exact E|]. split.
    + rewrite P. unfold determinant, phys, tscale, entry, minor. simpl. f_equal. f_equal. f_equal. unfold minor. simpl. ring.
    + rewrite D. apply Qc_is_canon. reflexivity.
Qed.

(** ** C23: products of several operands *)
Definition multi_product_names : list string := ["chain_matmul"; "einsum"; "trapz"; "trapezoid"; "cumulative_trapezoid"]%string.
Lemma multi_product_row name : In name multi_product_names -> existsb (String.eqb name) forbidden = false /\ lookup_spec name = Multi.
Proof. intros H. in_table H; subst; split; vm_compute; reflexivity. Qed.
Definition units_of (xs : list leaf) : list unit_ := flat_map (fun x => match unit_of x with Some u => [u] | None => [] end) xs.
Lemma oleaves_flat xs : flat_map (@oleaves leaf) (map OLeaf xs) = xs.
Proof. induction xs; simpl; [reflexivity|]. rewrite IHxs. reflexivity. Qed.
Lemma multi_call env name g xs u us : In name multi_product_names -> units_of xs = u :: us ->
  call env name g xs = Val (finish1 (g (map (fun x => strip (multi_value x)) xs)) (OU (fold_left (umul (pe_so env)) us u))).
Proof.
  intros Hin Hu. destruct (multi_product_row name Hin) as [Hf Hl]. unfold call, torch_function. rewrite Hf, Hl. cbn [apply_spec].
  rewrite oleaves_flat. fold (units_of xs). rewrite Hu. cbn [product_units bind fst snd].
  assert (E : map (omap multi_value) (map (@OLeaf leaf string) xs) = map OLeaf (map multi_value xs)) by (rewrite !map_map; reflexivity).
  rewrite E. rewrite skipn_exact by (rewrite !map_length; reflexivity). rewrite app_nil_r. unfold backend. cbn [bind]. rewrite map_leaf_strip, map_map, process_leaf. reflexivity.
Qed.
Definition dim_sum (xs : list leaf) (k : string) : Qc := fold_right Qcplus (Q2Qc 0) (map (fun x => dim_of x k) xs).
(** every partial product has a representable dimension *)
Definition partial_sums_ok (xs : list leaf) : Prop := forall n k, (fden (dim_sum (firstn n xs) k) <= 1000000)%Z.

Lemma fold_scale so us : forall u, uval (fold_left (umul so) us u) = (uval u * product (map uval us))%R.
Proof. induction us as [|v us IH]; intros u; simpl; [ring|]. rewrite IH. simpl. ring. Qed.
Lemma fold_good so us : forall u, good_unit u -> Forall good_unit us -> good_unit (fold_left (umul so) us u).
Proof. induction us as [|v us IH]; intros u Hu H; simpl; [exact Hu|]. inversion H; subst. apply IH; [apply good_mul|]; assumption. Qed.
Lemma dim_sum_app xs ys k : dim_sum (xs ++ ys) k = (dim_sum xs k + dim_sum ys k)%Qc.
Proof. unfold dim_sum. induction xs as [|x xs IH]; simpl; [change (Q2Qc 0) with 0%Qc; ring|]. rewrite IH. ring. Qed.
Lemma fold_dims so xs : forall pre u, Forall operand xs -> good_unit u -> (forall k, exponent u k = dim_sum pre k) ->
  (forall n k, (fden (dim_sum (pre ++ firstn n xs) k) <= 1000000)%Z) ->
  forall k, exponent (fold_left (umul so) (units_of xs) u) k = dim_sum (pre ++ xs) k.
Proof.
  induction xs as [|x xs IH]; intros pre u Hx Hu Hd Hrep k; [rewrite app_nil_r; apply Hd|]. inversion Hx as [|? ? Hx1 Hx2]; subst.
  assert (Hrep' : forall n k, (fden (dim_sum ((pre ++ [x]) ++ firstn n xs) k) <= 1000000)%Z).
  { intros n k'. specialize (Hrep (S n) k'). simpl in Hrep. rewrite <- app_assoc. exact Hrep. }
  replace (pre ++ x :: xs) with ((pre ++ [x]) ++ xs) by (rewrite <- app_assoc; reflexivity).
  destruct (unit_of x) as [v|] eqn:Ev.
  - assert (E : units_of (x :: xs) = v :: units_of xs) by (unfold units_of; simpl; rewrite Ev; reflexivity). rewrite E. cbn [fold_left].
    assert (Gv : good_unit v). { pose proof (unit_of_good x Hx1) as G. rewrite Ev in G. exact G. }
    apply IH; auto; [apply good_mul; assumption|]. intros k'. rewrite exp_mul by (apply Hu || apply Gv).
    assert (Dv : exponent v k' = dim_of x k'). { rewrite <- (unit_of_dim x k'), Ev. reflexivity. }
    rewrite Hd, Dv. pose proof (Hrep' 0%nat k') as R0. simpl in R0. rewrite app_nil_r in R0. rewrite dim_sum_app in R0 |- *. unfold dim_sum at 2 in R0. simpl in R0.
    unfold dim_sum at 3. simpl. replace (dim_of x k' + Q2Qc 0)%Qc with (dim_of x k') in * by (change (Q2Qc 0) with 0%Qc; ring). apply limit_id. exact R0.
  - assert (E : units_of (x :: xs) = units_of xs) by (unfold units_of; simpl; rewrite Ev; reflexivity). rewrite E.
    apply IH; auto. intros k'. rewrite Hd, dim_sum_app. unfold dim_sum at 3. simpl.
    assert (D0 : dim_of x k' = Q2Qc 0) by (destruct x; simpl in *; try discriminate; reflexivity). rewrite D0. change (Q2Qc 0) with 0%Qc. ring.
Qed.

Theorem C23_products : forall env name g xs, In name multi_product_names -> Forall operand xs -> (exists q, In (LQ q) xs) ->
  (forall cs, Forall2 (fun x c => 0 < c /\ (bare x -> c = 1)) xs cs -> g (rescale_each cs (map phys xs)) = tscale (product cs) (g (map phys xs))) ->
  tfloat (g (map phys xs)) = true -> partial_sums_ok xs ->
  exists z, call env name g xs = Val z /\ phys z = RTen (g (map phys xs)) /\ forall k, dim_of z k = dim_sum xs k.
Proof.
  intros env name g xs Hin Hop [q Hq] Hg Hft Hrep.
  destruct (units_of xs) as [|u us] eqn:Eu.
  { exfalso. assert (In (qu q) (units_of xs)) by (apply in_flat_map; exists (LQ q); split; [exact Hq|left; reflexivity]). rewrite Eu in H. exact H. }
  rewrite (multi_call env name g xs u us Hin Eu). eexists. split; [reflexivity|].
  set (U := fold_left (umul (pe_so env)) us u).
  assert (Gus : Forall good_unit (u :: us)).
  { rewrite <- Eu. apply Forall_forall. intros v Hv. apply in_flat_map in Hv. destruct Hv as (x & Hx & Hv). rewrite Forall_forall in Hop. specialize (Hop x Hx).
    pose proof (unit_of_good x Hop) as G. destruct (unit_of x) as [w|]; [destruct Hv as [<-|[]]; exact G|destruct Hv]. }
  inversion Gus as [|? ? Gu Gr]; subst.
  assert (GU : good_unit U) by (apply fold_good; assumption).
  assert (SU : uval U = product (map scale_of xs)).
  { unfold U. rewrite fold_scale. change (uval u * product (map uval us)) with (product (map uval (u :: us))). rewrite <- Eu. clear - Hop.
    induction xs as [|x xs IH]; simpl; [reflexivity|]. inversion Hop; subst. unfold units_of in *. simpl. rewrite map_app.
    destruct x; simpl in *; try contradiction; rewrite IH by assumption; ring. }
  assert (Hstrip : map (fun x => strip (multi_value x)) xs = rescale_each (map (fun x => / scale_of x) xs) (map phys xs)).
  { clear - Hop. induction xs as [|x xs IH]; simpl; [reflexivity|]. inversion Hop; subst. rewrite <- IH by assumption. f_equal.
    unfold phys. rewrite rscale_mul. pose proof (scale_pos x). rewrite Rinv_l, rscale_1 by (specialize (H H1); lra). destruct x; simpl in *; try contradiction; reflexivity. }
  rewrite Hstrip, Hg.
  2:{ clear - Hop. induction xs as [|x xs IH]; simpl; constructor; inversion Hop; subst; auto. split; [apply Rinv_0_lt_compat, scale_pos; assumption|].
      intros Hb. destruct x; simpl in *; try contradiction; apply Rinv_1. }
  assert (Hinv : product (map (fun x => / scale_of x) xs) = / uval U).
  { rewrite SU. clear. induction xs as [|x xs IH]; simpl; [symmetry; apply Rinv_1|]. rewrite IH, Rinv_mult. reflexivity. }
  rewrite Hinv. unfold finish1. simpl tfloat. rewrite Hft. split.
  - unfold phys at 1. simpl. rewrite tscale_mul, Rinv_r, tscale_1; [reflexivity|]. destruct GU. lra.
  - intros k. simpl. fold U.
    assert (X : exponent (fold_left (umul (pe_so env)) (units_of xs) unit_one) k = dim_sum ([] ++ xs) k).
    { apply fold_dims; auto using good_one. }
    simpl in X. rewrite <- X, Eu. cbn [fold_left]. fold U.
    (* the first factor times one *)
    assert (Y : forall us a b, good_unit a -> good_unit b -> Forall good_unit us -> (forall k, exponent a k = exponent b k) -> forall k, exponent (fold_left (umul (pe_so env)) us a) k = exponent (fold_left (umul (pe_so env)) us b) k).
    { clear. induction us as [|v us IH]; intros a b Ha Hb Hus H k; simpl; [apply H|]. inversion Hus; subst. apply IH; auto using good_mul.
      intros k'. rewrite !exp_mul by (apply Ha || apply Hb || apply H2). rewrite H. reflexivity. }
    apply Y; auto using good_mul, good_one. intros k'. rewrite exp_mul by (apply good_one || apply Gu).
    assert (O1 : exponent unit_one k' = 0%Qc) by reflexivity. rewrite O1. rewrite Qcplus_0_l. symmetry. apply limit_id. apply exp_den. apply Gu.
Qed.
Print Assumptions C23_products.
