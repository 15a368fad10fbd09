(** Claims C21, C23, C24. *)
From Coq Require Import ZArith QArith Qcanon String List Bool Reals Cantor Lia Lra ClassicalDedekindReals.
From Verif Require Import Frac FracFacts Units UnitSpec UnitsFacts UnitsThms PyTree Quantities QuantSpec QuantFacts QuantFuns QuantMulti.
From Verif Require Import Prop_Quant Prop_Quant2.
Import ListNotations.
Open Scope list_scope.
Open Scope R_scope.

(** ** exponents *)
Lemma enum_onto p : exists n, enum_Qc n = p.
Proof.
  pose proof (fden_pos p) as Hd.
  exists (Cantor.to_nat (Z.to_nat (fnum p), Cantor.to_nat (Z.to_nat (- fnum p), Z.to_nat (fden p - 1)))).
  unfold enum_Qc. rewrite !Cantor.cancel_of_to.
  replace (Z.of_nat (Z.to_nat (fnum p)) - Z.of_nat (Z.to_nat (- fnum p)))%Z with (fnum p) by lia.
  replace (Z.of_nat (Z.to_nat (fden p - 1)) + 1)%Z with (fden p) by lia. apply frac_id.
Qed.
Lemma Qc_R_inj p q : Qc_R p = Qc_R q -> p = q.
Proof.
  unfold Qc_R. intros H. pose proof (fden_pos p). pose proof (fden_pos q).
  assert (IZR (fden p) <> 0) by (apply not_0_IZR; lia). assert (IZR (fden q) <> 0) by (apply not_0_IZR; lia).
  assert (E : IZR (fnum p) * IZR (fden q) = IZR (fnum q) * IZR (fden p)).
  { apply (f_equal (fun r => r * (IZR (fden p) * IZR (fden q)))) in H. unfold Rdiv in H.
    replace (IZR (fnum p) * / IZR (fden p) * (IZR (fden p) * IZR (fden q))) with (IZR (fnum p) * IZR (fden q)) in H by (field; assumption).
    replace (IZR (fnum q) * / IZR (fden q) * (IZR (fden p) * IZR (fden q))) with (IZR (fnum q) * IZR (fden p)) in H by (field; assumption). exact H. }
  rewrite <- !mult_IZR in E. apply eq_IZR in E.
  rewrite <- (frac_id p). apply frac_eq; [apply fden_pos|]. symmetry. exact E.
Qed.
Lemma as_fraction_rational p : as_fraction (Qc_R p) = p.
Proof.
  unfold as_fraction. destruct (sig_forall_dec _ _) as [[n Hn]|Hn].
  - destruct (Req_EM_T (Qc_R p) (Qc_R (enum_Qc n))) as [E|E]; [|contradiction Hn; exact E]. symmetry. apply Qc_R_inj, E.
  - exfalso. destruct (enum_onto p) as [n E]. apply (Hn n). rewrite E. reflexivity.
Qed.

(** ** C21 *)
Definition power_names : list string := ["pow"; "matrix_power"; "float_power"]%string.
(** a number, or a tensor with one element *)
Definition single (r : raw) (v : R) : Prop := match r with RNum x => x = v | RTen t => tdata t = [v] | _ => False end.
Lemma power_row name : In name power_names -> existsb (String.eqb name) forbidden = false /\ lookup_spec name = Power false.
Proof. intros H. in_table H; subst; split; vm_compute; reflexivity. Qed.
Lemma rpow_row : existsb (String.eqb "__rpow__") forbidden = false /\ lookup_spec "__rpow__" = Power true.
Proof. split; vm_compute; reflexivity. Qed.

(** the exponent the backend sees *)
Definition expo_arg (y : leaf) : leaf := match y with LQ q => LTen (phys_q q) | y => y end.
Lemma expo_step y : numeric y ->
  (match unit_of y with
   | Some u => if has_dims u then Raise EUnitError else bind (leaf_to y unit_one) (fun e => Val (leaf_value e))
   | None => Val y
   end) = (if match unit_of y with Some u => has_dims u | None => false end then Raise EUnitError else Val (expo_arg y)).
Proof.
  destruct y as [q| |r|t| |]; simpl; try contradiction; auto. intros [Hu Hf]. destruct (has_dims (qu q)) eqn:E; [reflexivity|].
  pose proof (proj1 (no_dims _ Hu) E) as Hd.
  destruct (to_unit_ok q unit_one) as (q' & E' & T & U); [split; assumption|apply good_one|intros k; rewrite Hd; reflexivity|].
  rewrite E'. simpl. rewrite T. f_equal. f_equal. unfold phys_q. f_equal. simpl. field.
Qed.
Lemma expo_dims y : numeric y -> (match unit_of y with Some u => has_dims u | None => false end = false <-> dimensionless y).
Proof.
  destruct y as [q| |r|t| |]; simpl; try contradiction; intros H; [|split; [intros _ k; reflexivity|reflexivity]..].
  destruct H as [Hu Hf]. apply (no_dims _ Hu).
Qed.
Lemma expo_phys y : numeric y -> strip (expo_arg y) = phys y.
Proof. destruct y as [q| |r|t| |]; simpl; try contradiction; intros _; unfold phys; simpl; rewrite ?tscale_1, ?Rmult_1_l; reflexivity. Qed.
Lemma expo_number y p : numeric y -> single (phys y) (Qc_R p) -> exponent_number (expo_arg y) = Val p.
Proof.
  destruct y as [q| |r|t| |]; simpl; try contradiction; intros _ H.
  - unfold phys in H. simpl in H. rewrite H. rewrite as_fraction_rational. reflexivity.
  - unfold phys in H. simpl in H. rewrite Rmult_1_l in H. subst. rewrite as_fraction_rational. reflexivity.
  - rewrite map_Rmult_1 in H. rewrite H, as_fraction_rational. reflexivity.
Qed.

Lemma power_call env name g x y : In name power_names -> numeric y ->
  call env name g [x; y] =
  if match unit_of y with Some u => has_dims u | None => false end then Raise EUnitError
  else bind (match unit_of x with Some u => bind (exponent_number (expo_arg y)) (fun p => Val (OU (upow u p))) | None => Val OFalse end)
         (fun r => Val (finish1 (g [strip x; phys y]) r)).
Proof.
  intros Hin Hy. destruct (power_row name Hin) as [Hf Hl]. unfold call, torch_function. rewrite Hf, Hl. cbn [apply_spec map].
  rewrite (expo_step y Hy). destruct (match unit_of y with Some u => has_dims u | None => false end); [reflexivity|]. cbn [bind].
  destruct (match unit_of x with Some u => bind (exponent_number (expo_arg y)) (fun p => Val (OU (upow u p))) | None => Val OFalse end) as [r|e]; [|reflexivity].
  cbn [bind fst snd app length skipn map omap]. unfold backend. cbn [map leaf_or_other bind]. rewrite expo_phys by exact Hy. rewrite process_leaf. reflexivity.
Qed.
Lemma rpower_call env g x y : numeric x ->
  call env "__rpow__" g [x; y] =
  if match unit_of x with Some u => has_dims u | None => false end then Raise EUnitError
  else bind (match unit_of y with Some u => bind (exponent_number (expo_arg x)) (fun p => Val (OU (upow u p))) | None => Val OFalse end)
         (fun r => Val (finish1 (g [phys x; strip y]) r)).
Proof.
  intros Hx. destruct rpow_row as [Hf Hl]. unfold call, torch_function. rewrite Hf, Hl. cbn [apply_spec map].
  rewrite (expo_step x Hx). destruct (match unit_of x with Some u => has_dims u | None => false end); [reflexivity|]. cbn [bind].
  destruct (match unit_of y with Some u => bind (exponent_number (expo_arg x)) (fun p => Val (OU (upow u p))) | None => Val OFalse end) as [r|e]; [|reflexivity].
  cbn [bind fst snd app length skipn map omap]. unfold backend. cbn [map leaf_or_other bind]. rewrite expo_phys by exact Hx. rewrite process_leaf. reflexivity.
Qed.

(** UnitError exactly for exponents with a dimension *)
Theorem C21_error : forall env name g x y, In name power_names -> numeric x -> numeric y ->
  (call env name g [x; y] = Raise EUnitError <-> ~ dimensionless y).
Proof.
  intros env name g x y Hin Hx Hy. rewrite (power_call env name g x y Hin Hy). pose proof (expo_dims y Hy) as E.
  destruct (match unit_of y with Some u => has_dims u | None => false end).
  - split; [|reflexivity]. intros _ D. apply E in D. discriminate D.
  - split; [|intros N; contradiction N; apply E; reflexivity]. intros H. exfalso.
    destruct (unit_of x) as [u|]; [|discriminate H]. unfold exponent_number in H.
    destruct y as [q| |r|t| |]; simpl in *; try contradiction; try discriminate H.
    + destruct (map _ _) as [|? [|? ?]]; discriminate H.
    + destruct (tdata t) as [|? [|? ?]]; discriminate H.
Qed.
Print Assumptions C21_error.

(** the power of a quantity to a number *)
Theorem C21_value : forall env name g q y p, In name power_names -> good_q q -> numeric y -> dimensionless y -> single (phys y) (Qc_R p) ->
  let x := LQ q in
  (forall c, 0 < c -> g [rscale c (phys x); phys y] = tscale (rpow c p) (g [phys x; phys y])) -> tfloat (g [phys x; phys y]) = true ->
  (forall k, (fden (dim_of x k * p)%Qc <= 1000000)%Z) ->
  exists z, call env name g [x; y] = Val z /\ phys z = RTen (g [phys x; phys y]) /\ forall k, dim_of z k = (dim_of x k * p)%Qc.
Proof.
  intros env name g q y p Hin Hq Hy Hd Hs x Hg Hft Hrep. rewrite (power_call env name g x y Hin Hy). rewrite (proj2 (expo_dims y Hy) Hd).
  unfold x. cbn [unit_of]. rewrite (expo_number y p Hy Hs). cbn [bind]. eexists. split; [reflexivity|].
  destruct Hq as [[Hcan Hpos] Hfl]. fold x.
  assert (E : g [strip x; phys y] = tscale (/ rpow (uval (qu q)) p) (g [phys x; phys y])).
  { rewrite <- rpow_inv by exact Hpos. rewrite <- Hg by (apply Rinv_0_lt_compat, Hpos). f_equal. f_equal. unfold phys. rewrite rscale_mul. simpl scale_of.
    rewrite Rinv_l, rscale_1 by lra. reflexivity. }
  rewrite E. unfold finish1. simpl tfloat. rewrite Hft. split.
  - unfold phys at 1. simpl. rewrite tscale_mul, Rinv_r, tscale_1; [reflexivity|]. pose proof (rpow_gt0 (uval (qu q)) p Hpos). lra.
  - intros k. simpl. rewrite exp_pow by exact Hcan. apply limit_id. exact (Hrep k).
Qed.
Print Assumptions C21_value.

(** reversed operands: y ** x computed by x's class *)
Theorem C21_reversed : forall env g q x p, good_q q -> numeric x -> dimensionless x -> single (phys x) (Qc_R p) ->
  let y := LQ q in
  (forall c, 0 < c -> g [phys x; rscale c (phys y)] = tscale (rpow c p) (g [phys x; phys y])) -> tfloat (g [phys x; phys y]) = true ->
  (forall k, (fden (dim_of y k * p)%Qc <= 1000000)%Z) ->
  exists z, call env "__rpow__" g [x; y] = Val z /\ phys z = RTen (g [phys x; phys y]) /\ forall k, dim_of z k = (dim_of y k * p)%Qc.
Proof.
  intros env g q x p Hq Hx Hd Hs y Hg Hft Hrep. rewrite (rpower_call env g x y Hx). rewrite (proj2 (expo_dims x Hx) Hd).
  unfold y. cbn [unit_of]. rewrite (expo_number x p Hx Hs). cbn [bind]. eexists. split; [reflexivity|].
  destruct Hq as [[Hcan Hpos] Hfl]. fold y.
  assert (E : g [phys x; strip y] = tscale (/ rpow (uval (qu q)) p) (g [phys x; phys y])).
  { rewrite <- rpow_inv by exact Hpos. rewrite <- Hg by (apply Rinv_0_lt_compat, Hpos). f_equal. f_equal. f_equal. unfold phys. rewrite rscale_mul. simpl scale_of.
    rewrite Rinv_l, rscale_1 by lra. reflexivity. }
  rewrite E. unfold finish1. simpl tfloat. rewrite Hft. split.
  - unfold phys at 1. simpl. rewrite tscale_mul, Rinv_r, tscale_1; [reflexivity|]. pose proof (rpow_gt0 (uval (qu q)) p Hpos). lra.
  - intros k. simpl. rewrite exp_pow by exact Hcan. apply limit_id. exact (Hrep k).
Qed.
Print Assumptions C21_reversed.

(** a bare base takes any dimensionless exponent, at its physical value, and the result is bare *)
Theorem C21_bare_base : forall env name g x y, In name power_names -> bare x -> numeric x -> numeric y -> dimensionless y ->
  call env name g [x; y] = Val (LTen (g [phys x; phys y])).
Proof.
  intros env name g x y Hin Hb Hx Hy Hd. rewrite (power_call env name g x y Hin Hy). rewrite (proj2 (expo_dims y Hy) Hd).
  destruct x; simpl in *; try contradiction; unfold phys; simpl; rewrite ?tscale_1, ?Rmult_1_l; reflexivity.
Qed.
Print Assumptions C21_bare_base.

(** a quantity, even a dimensionless one, cannot be raised to several powers at once *)
Theorem C21_exponent_tensor : forall env name g q y, In name power_names -> good_q q -> numeric y -> dimensionless y ->
  (match phys y with RTen t => length (tdata t) <> 1%nat | _ => False end) -> call env name g [LQ q; y] = Raise EValueError.
Proof.
  intros env name g q y Hin Hq Hy Hd Hn. rewrite (power_call env name g (LQ q) y Hin Hy). rewrite (proj2 (expo_dims y Hy) Hd). cbn [unit_of].
  replace (exponent_number (expo_arg y)) with (@Raise Qc EValueError); [reflexivity|].
  destruct y as [q'| |r|t| |]; simpl in *; try contradiction; unfold phys in Hn; simpl in Hn.
  - destruct (map (Rmult (uval (qu q'))) (tdata (qt q'))) as [|? [|? ?]]; try reflexivity. contradiction Hn. reflexivity.
  - rewrite map_length in Hn. destruct (tdata t) as [|? [|? ?]]; try reflexivity. contradiction Hn. reflexivity.
Qed.
Print Assumptions C21_exponent_tensor.

(** the real power of positive numbers and the integral power of any numbers scale as required *)
Lemma power_law t e p c : 0 < c -> Forall (fun v => 0 < v) (tdata t) ->
  elementwise true (arg2 Rpower) [rscale c (RTen t); RNum e] = tscale (Rpower c e) (elementwise true (arg2 Rpower) [RTen t; RNum e]) /\ (e = Qc_R p -> rpow c p = Rpower c e).
Proof.
  intros Hc Hpos. split.
  - unfold elementwise, tscale. simpl. f_equal. rewrite map_length, map_map. apply map_ext_in. intros i Hi. apply in_seq in Hi.
    rewrite nth_scale. assert (0 < nth i (tdata t) 0) by (rewrite Forall_forall in Hpos; apply Hpos, nth_In; lia).
    symmetry. apply Rpower_mult_distr; assumption.
  - intros ->. rewrite rpow_pos by exact Hc. reflexivity.
Qed.
Example C21_nonvacuous : forall env, let q := {| qt := {| tshape := [2%nat]; tdata := [2; 3]; tfloat := true |}; qu := km |} in
  exists z, call env "pow" (elementwise true (arg2 Rpower)) [LQ q; LNum (1 / 2)] = Val z /\
    phys z = RTen (elementwise true (arg2 Rpower) [phys (LQ q); RNum (1 / 2)]) /\ dim_of z "L" = frac 1 2.
Proof.
  intros env q. assert (P : Qc_R (frac 1 2) = 1 / 2) by (unfold Qc_R; replace (fnum (frac 1 2)) with 1%Z by reflexivity; replace (fden (frac 1 2)) with 2%Z by reflexivity; reflexivity).
  assert (P' : phys (LNum (1 / 2)) = RNum (1 / 2)) by (unfold phys; simpl; rewrite Rmult_1_l; reflexivity).
  destruct (C21_value env "pow" (elementwise true (arg2 Rpower)) q (LNum (1 / 2)) (frac 1 2)) as (z & E & Ph & D).
  - simpl. auto.
  - split; [apply good_km|reflexivity].
  - exact I.
  - intros k. reflexivity.
  - rewrite P'. simpl. symmetry. exact P.
  - intros c Hc. rewrite P'. unfold phys. simpl rscale at 2 3.
    destruct (power_law (tscale 1000 (qt q)) (1 / 2) (frac 1 2) c Hc) as [A B]; [simpl; repeat constructor; lra|].
    rewrite B by (symmetry; exact P). exact A.
  - reflexivity.
  - intros k. simpl. unfold q. simpl. unfold km. destruct (String.eqb k "L") eqn:Ek.
    + apply String.eqb_eq in Ek. subst. vm_compute. discriminate.
    + replace (exponent (unit_init [("L"%string, fint 1)] 1000) k) with 0%Qc; [vm_compute; discriminate|].
      rewrite exponent_getd. simpl. rewrite getd_init. simpl. rewrite Ek. symmetry. apply limit_0.
  - exists z. split; [exact E|]. rewrite P' in Ph. split; [exact Ph|]. rewrite D. apply Qc_is_canon. reflexivity.
Qed.
