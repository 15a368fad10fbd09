(** Claims C23 (chains, units as arguments), C24; examples for C20 and C22. *)
From Coq Require Import ZArith QArith Qcanon String List Bool Reals Lia Lra.
From Verif Require Import Frac FracFacts Units UnitSpec UnitsFacts UnitsThms PyTree Quantities QuantSpec QuantFacts QuantFuns QuantMulti.
From Verif Require Import Prop_Quant Prop_Quant2 Prop_Quant5.
Import ListNotations.
Open Scope list_scope.
Open Scope R_scope.

(** ** C23: chains of matrices *)
Lemma chain_law : forall cs rs, length cs = length rs -> Forall (fun c => 0 < c) cs -> rs <> [] ->
  chain_product (rescale_each cs rs) = tscale (product cs) (chain_product rs).
Proof.
  assert (X : forall rs cs a t, length cs = length rs -> 0 < a -> Forall (fun c => 0 < c) cs ->
    fold_left (fun a r => matrix_product [RTen a; r]) (rescale_each cs rs) (tscale a t) = tscale (a * product cs) (fold_left (fun a r => matrix_product [RTen a; r]) rs t)).
  { induction rs as [|r rs IH]; intros cs a t Hl Ha Hc; destruct cs as [|c cs]; try discriminate; cbn [fold_left rescale_each product]; [rewrite Rmult_1_r; reflexivity|].
    inversion Hc; subst. change (RTen (tscale a t)) with (rscale a (RTen t)). rewrite prop_mm by assumption. simpl powerRZ. rewrite !Rmult_1_r, IH by (auto using Rmult_lt_0_compat).
    f_equal. ring. }
  intros cs rs Hl Hc Hne. destruct rs as [|r rs]; [congruence|]. destruct cs as [|c cs]; [discriminate|]. inversion Hc; subst. simpl.
  destruct r; simpl; try (symmetry; apply empty_scale). apply X; auto.
Qed.
Theorem C23_chain : forall env xs, Forall operand xs -> (exists q, In (LQ q) xs) ->
  tfloat (chain_product (map phys xs)) = true -> partial_sums_ok xs ->
  exists z, call env "chain_matmul" chain_product xs = Val z /\ phys z = RTen (chain_product (map phys xs)) /\ forall k, dim_of z k = dim_sum xs k.
Proof.
  intros env xs Hop Hq Hf Hp. apply C23_products; auto.
  - unfold multi_product_names. simpl. auto.
  - intros cs H. apply chain_law.
    + rewrite map_length. clear - H. induction H; simpl; congruence.
    + clear - H. induction H; constructor; tauto.
    + destruct Hq as [q Hq]. destruct xs; [destruct Hq|discriminate].
Qed.
Print Assumptions C23_chain.
Definition row2 (a b : R) : tensor := {| tshape := [1%nat; 2%nat]; tdata := [a; b]; tfloat := true |}.
Definition col2 (a b : R) : tensor := {| tshape := [2%nat; 1%nat]; tdata := [a; b]; tfloat := true |}.
Example C23_chain_nonvacuous : forall env, let xs := [LQ {| qt := row2 1 2; qu := km |}; LQ {| qt := col2 3 4; qu := second |}; LTen (row2 1 1)] in
  exists z, call env "chain_matmul" chain_product xs = Val z /\ phys z = RTen (row2 11000 11000) /\ dim_of z "L" = 1%Qc /\ dim_of z "T" = 1%Qc.
Proof.
  intros env xs. destruct (C23_chain env xs) as (z & E & P & D).
  - constructor; [split; [apply good_km|reflexivity]|]. constructor; [split; [apply good_second|reflexivity]|]. constructor; [reflexivity|constructor].
  - eexists. left. reflexivity.
  - reflexivity.
  - assert (K : forall k, dim_of (LQ {| qt := row2 1 2; qu := km |}) k = if String.eqb k "L" then 1%Qc else 0%Qc).
    { intros k. simpl. rewrite exponent_getd. simpl. rewrite getd_init. simpl. destruct (String.eqb k "L"); [apply Qc_is_canon; reflexivity|apply limit_0]. }
    assert (S : forall k, dim_of (LQ {| qt := col2 3 4; qu := second |}) k = if String.eqb k "T" then 1%Qc else 0%Qc).
    { intros k. simpl. rewrite exponent_getd. simpl. rewrite getd_init. simpl. destruct (String.eqb k "T"); [apply Qc_is_canon; reflexivity|apply limit_0]. }
    intros n k. unfold xs, dim_sum. destruct n as [|[|[|[|n]]]]; cbn [firstn map fold_right]; rewrite ?K, ?S; cbn [dim_of];
      destruct (String.eqb k "L"), (String.eqb k "T"); vm_compute; discriminate.
  - exists z. split; [exact E|]. split; [|split].
    + rewrite P. unfold chain_product, xs, phys, row2, col2. simpl. unfold matrix, tscale, entry. simpl. f_equal. f_equal. f_equal; [|f_equal]; ring.
    + rewrite D. apply Qc_is_canon. vm_compute. reflexivity.
    + rewrite D. apply Qc_is_canon. vm_compute. reflexivity.
Qed.

(** A unit given as an argument is counted twice: trapezoid(y, km) (spacing one km) is 1000 times too large. *)
Theorem C23_unit_argument_refuted : forall env,
  let g := elementwise true (arg2 Rmult) in
  exists z, call env "trapezoid" g [LQ (q1 metre 2); LU km] = Val z /\ phys z = RTen {| tshape := []; tdata := [2000 * 1000]; tfloat := true |} /\
    2000 * 1000 <> 2 * uval metre * uval km.
Proof.
  intros env g. rewrite (multi_call env "trapezoid" g _ metre [km]) by (try reflexivity; unfold multi_product_names; simpl; auto).
  eexists. split; [reflexivity|]. split.
  - unfold phys, g, elementwise, arg2. simpl. unfold tscale. simpl. f_equal. f_equal. f_equal. ring.
  - simpl. lra.
Qed.
Print Assumptions C23_unit_argument_refuted.

(** ** C24: functions of dimensionless arguments *)
Definition pure_names : list string :=
  ["sin"; "cos"; "tan"; "sinc"; "asin"; "arcsin"; "acos"; "arccos"; "atan"; "arctan";
   "exp"; "exp2"; "expm1"; "log"; "log2"; "log10"; "log1p"; "lgamma"; "digamma"; "erf"; "erfc"; "erfinv"; "logit"; "sigmoid"; "i0";
   "sinh"; "asinh"; "arcsinh"; "cosh"; "acosh"; "arccosh"; "tanh"; "atanh"; "arctanh"; "softmax"; "log_softmax"; "matrix_exp"; "logsumexp"; "bernoulli"; "logdet";
   "ceil"; "floor"; "round"; "fix"; "trunc"; "frac"; "special_erf"; "special_expit"; "special_ndtr"; "special_i0"]%string.
Lemma pure_in name : In name pure_names -> In (name, [Pure], Pure) role_table.
Proof.
  intros H. assert (B : forallb (fun n => existsb (fun r => match r with (m, [Pure], Pure) => String.eqb n m | _ => false end) role_table) pure_names = true) by (vm_compute; reflexivity).
  rewrite forallb_forall in B. specialize (B name H). apply existsb_exists in B. destruct B as ([[m ros] out] & Hin & B).
  destruct ros as [|[] [|]]; try discriminate; destruct out; try discriminate. apply String.eqb_eq in B. subst. exact Hin.
Qed.
(** the result is the function of the number the argument denotes, and is dimensionless; further arguments (dim, out-type, ...) carry no unit *)
Theorem C24_value : forall env name g x params, In name pure_names -> numeric x -> dimensionless x -> Forall (fun p => operand p /\ bare p) params ->
  exists z, call env name g (x :: params) = Val z /\ phys z = RTen (g (phys x :: map phys params)) /\ dimensionless z.
Proof.
  intros env name g x ps Hin Hx Hd Hp.
  destruct (C20_roles env name [Pure] Pure g x ps) as (z & E & P & D); auto using pure_in.
  - simpl. lia.
  - constructor; [apply numeric_operand, Hx|]. eapply Forall_impl; [|exact Hp]. simpl. tauto.
  - split; [intros _; exact Hd|]. simpl. clear - Hp. induction Hp as [|p ps [_ Hb] _ IH]; simpl; auto.
  - intros c _. reflexivity.
  - discriminate.
  - exists z. auto.
Qed.
Print Assumptions C24_value.
Theorem C24_error : forall env name g x params, In name pure_names -> numeric x -> Forall (fun p => operand p /\ bare p) params ->
  (call env name g (x :: params) = Raise EUnitError <-> ~ dimensionless x).
Proof.
  intros env name g x ps Hin Hx Hp.
  assert (Hm : params_bare [Pure] (x :: ps)) by (split; [exact I|]; simpl; clear - Hp; induction Hp as [|p ps [_ Hb] _ IH]; simpl; auto).
  assert (Hb : meet_all (dim_of x) [] ps) by (clear - Hp; induction Hp as [|p ps [_ Hb] _ IH]; simpl; auto).
  destruct (C19_roles env name [Pure] Pure g x ps) as [Iff _]; auto using pure_in.
  - simpl. lia.
  - constructor; [apply numeric_operand, Hx|]. eapply Forall_impl; [|exact Hp]. simpl. tauto.
  - rewrite Iff. simpl. split; intros H G; apply H.
    + split; [intros _; exact G|exact Hb].
    + apply G, Hx.
Qed.
Print Assumptions C24_error.
(** exp(50 %) = e^0.5; exp(1 m) is an error *)
Example C24_nonvacuous : forall env,
  (exists z, call env "exp" (elementwise true (arg1 exp)) [LQ (q1 percent 50)] = Val z /\ phys z = RTen {| tshape := []; tdata := [exp (1/2)]; tfloat := true |}) /\
  call env "exp" (elementwise true (arg1 exp)) [LQ (q1 metre 1)] = Raise EUnitError.
Proof.
  intros env. split.
  - destruct (C24_value env "exp" (elementwise true (arg1 exp)) (LQ (q1 percent 50)) []) as (z & E & P & _).
    + unfold pure_names. simpl. auto 30.
    + split; [apply good_percent|reflexivity].
    + intros k. reflexivity.
    + constructor.
    + exists z. split; [exact E|]. rewrite P. unfold phys, elementwise, arg1. simpl. f_equal. f_equal. f_equal. f_equal. lra.
  - apply C24_error.
    + unfold pure_names. simpl. auto 30.
    + split; [apply good_metre|reflexivity].
    + constructor.
    + intros H. specialize (H "L"%string). unfold dim_of in H. apply (f_equal (fun q => (fnum q, fden q))) in H. vm_compute in H. discriminate H.
Qed.

(** ** C19: the default bounds of histc are bare numbers, so histc of a dimensional quantity needs explicit bounds *)
Theorem C19_histc_defaults : forall env g q bins, good_q q -> ~ dimensionless (LQ q) ->
  call env "histc" g [LQ q; LNum bins; LNum 0; LNum 0] = Raise EUnitError.
Proof.
  intros env g q bins Hq Hd. apply (C19_roles env "histc" [Same; Param; Same; Same] Pure).
  - unfold role_table. simpl. auto 40.
  - simpl. lia.
  - repeat constructor; apply Hq.
  - intros _. exact Hq.
  - simpl. auto.
  - intros (_ & _ & H & _). apply Hd. intros k. simpl in H. symmetry. apply H. exact I.
Qed.
Print Assumptions C19_histc_defaults.

(** ** C20, C22: examples *)
Example C20_nonvacuous : forall env,
  exists z, call env "mul" (elementwise true (arg2 Rmult)) [LQ (q1 km 2); LQ (q1 second 3)] = Val z /\
    phys z = RTen {| tshape := []; tdata := [6000]; tfloat := true |} /\ dim_of z "L" = 1%Qc /\ dim_of z "T" = 1%Qc.
Proof.
  intros env. destruct (C20_product env "mul" (elementwise true (arg2 Rmult)) (LQ (q1 km 2)) (LQ (q1 second 3)) []) as (z & E & P & D).
  - unfold product_names. simpl. auto.
  - split; [apply good_km|reflexivity].
  - split; [apply good_second|reflexivity].
  - constructor.
  - apply prop_mul.
  - reflexivity.
  - intros k. simpl. rewrite !exponent_getd. simpl. rewrite !getd_init. simpl. destruct (String.eqb k "L"), (String.eqb k "T"); vm_compute; discriminate.
  - exists z. split; [exact E|]. split; [|split].
    + rewrite P. unfold phys, elementwise, arg2. simpl. f_equal. f_equal. f_equal. ring.
    + rewrite D. apply Qc_is_canon. vm_compute. reflexivity.
    + rewrite D. apply Qc_is_canon. vm_compute. reflexivity.
Qed.
(** 1 km + 3 * 500 m = 2.5 km *)
Example C22_nonvacuous : forall env,
  exists z, call env "add" (elementwise true (arg3 (fun x y a => x + a * y))) [LQ (q1 km 1); LQ (q1 metre 500); LNum 3] = Val z /\ phys z = RTen {| tshape := []; tdata := [2500]; tfloat := true |} /\ same_dimension z (LQ (q1 km 1)).
Proof.
  intros env. destruct (C22_sum env "add" (fun x y a => x + a * y) (LQ (q1 km 1)) (LQ (q1 metre 500)) (LNum 3) []) as (z & E & P & D).
  - unfold scaled_functions. simpl. auto.
  - discriminate.
  - split; [apply good_km|reflexivity].
  - split; [apply good_metre|reflexivity].
  - exact I.
  - constructor.
  - intros k. assert (X : dim_of (LQ (q1 km 1)) k = dim_of (LQ (q1 metre 500)) k) by reflexivity. rewrite X. unfold dim_of at 1. change (Q2Qc 0) with 0%Qc. ring.
  - intros k. vm_compute. discriminate.
  - exists z. split; [exact E|]. split; [|exact D]. rewrite P. unfold phys, elementwise, arg3. simpl. f_equal. f_equal. f_equal. ring.
Qed.
