(** * Properties C18-C24: quantities (phytorch/quantities)
    [phys] (number times scale), [dim_of], [same_dimension], [good_q], [numeric], [operand], [elementwise], [call] and the
    textbook functions are specification notions from QuantSpec.v. *)
From Coq Require Import ZArith QArith Qcanon String List Bool Reals Lia Lra.
From Verif Require Import Frac FracFacts Units UnitSpec UnitsFacts UnitsThms PyTree Quantities QuantSpec QuantFacts QuantFuns.
Import ListNotations.
Open Scope list_scope.

(** ** C18 GenericQuantity.to *)
(** a good conversion keeps the physical value and takes the requested unit *)
Theorem C18_value : forall q u, good_q q -> good_unit u -> (forall k, exponent (qu q) k = exponent u k) ->
  exists q', to_unit q u = Val q' /\ phys_q q' = phys_q q /\ uval (qu q') = uval u /\ (forall k, exponent (qu q') k = exponent u k).
Proof.
  intros q u Hq Hu Hd. destruct (to_unit_ok q u Hq Hu Hd) as (q' & E & T & G & V & D). exists q'. split; [exact E|]. split; [|split; assumption].
  unfold phys_q. rewrite T, V, tscale_mul. f_equal. field. destruct Hu. lra.
Qed.
Print Assumptions C18_value.

Theorem C18_error : forall q u, good_q q -> good_unit u ->
  (to_unit q u = Raise ETypeError <-> exists k, exponent (qu q) k <> exponent u k).
Proof.
  intros q u Hq Hu. destruct (dict_eqb (udim (qu q)) (udim u)) eqn:E.
  - apply dims_eq in E; [|apply Hq|exact Hu]. split.
    + intros H. destruct (to_unit_ok q u Hq Hu E) as (q' & E' & _). congruence.
    + intros [k Hk]. exfalso. apply Hk. apply E.
  - assert (N : ~ same_dim (qu q) u) by (intros H; apply dims_eq in H; [congruence|apply Hq|exact Hu]).
    split; [|intros _; apply to_unit_err; assumption].
    intros _. destruct (Classical_Prop.classic (exists k, exponent (qu q) k <> exponent u k)) as [H|H]; [exact H|].
    exfalso. apply N. intros k. destruct (Classical_Prop.classic (exponent (qu q) k = exponent u k)) as [X|X]; [exact X|]. exfalso. eauto.
Qed.
Print Assumptions C18_error.

Theorem C18_roundtrip : forall q u q', good_q q -> good_unit u -> to_unit q u = Val q' ->
  exists q'', to_unit q' (qu q) = Val q'' /\ qt q'' = qt q /\ phys_q q'' = phys_q q.
Proof.
  intros q u q' Hq Hu H. destruct (dict_eqb (udim (qu q)) (udim u)) eqn:E.
  2:{ assert (N : ~ same_dim (qu q) u) by (intros X; apply dims_eq in X; [congruence|apply Hq|exact Hu]). rewrite to_unit_err in H; auto. discriminate. }
  apply dims_eq in E; [|apply Hq|exact Hu]. destruct (to_unit_ok q u Hq Hu E) as (q1 & E1 & T1 & G1 & V1 & D1).
  rewrite E1 in H. inversion H; subst q1.
  assert (D2 : same_dim (qu q') (qu q)) by (intros k; rewrite (D1 k); symmetry; apply E).
  destruct (to_unit_ok q' (qu q) G1 (proj1 Hq) D2) as (q'' & E2 & T2 & G2 & V2 & _). exists q''. split; [exact E2|].
  assert (Hp := proj2 (proj1 Hq)). assert (Hp' := proj2 Hu).
  assert (X : qt q'' = qt q). { rewrite T2, T1, V1, tscale_mul. rewrite <- (tscale_1 (qt q)) at 2. f_equal. field. lra. }
  split; [exact X|]. unfold phys_q. rewrite X, V2. reflexivity.
Qed.
Print Assumptions C18_roundtrip.

(** with Python's objects: nothing that existed before changes; asking for the present unit returns the very same object,
    any other unit gives a new object on a new storage, holding what [to_unit] computes *)
Definition unchanged (s s' : state) : Prop :=
  (forall i o, nth_error (objs s) i = Some o -> nth_error (objs s') i = Some o) /\
  (forall a t, nth_error (stores s) a = Some t -> nth_error (stores s') a = Some t).
Lemma nth_app {X} (l m : list X) i x : nth_error l i = Some x -> nth_error (l ++ m) i = Some x.
Proof. intros H. rewrite nth_error_app1; [exact H|]. apply nth_error_Some. congruence. Qed.
Lemma nth_last {X} (l : list X) x : nth_error (l ++ [x]) (length l) = Some x.
Proof. rewrite nth_error_app2, Nat.sub_diag by lia. reflexivity. Qed.
Lemma set_nth_last {X} (l : list X) x y : set_nth (l ++ [x]) (length l) y = l ++ [y].
Proof. induction l; simpl; [reflexivity|]. rewrite IHl. reflexivity. Qed.
Lemma set_nth_other {X} (l : list X) i y a x : a <> i -> nth_error l a = Some x -> nth_error (set_nth l i y) a = Some x.
Proof. revert i a. induction l as [|z l IH]; intros [|i] [|a] H E; simpl in *; auto; congruence. Qed.
Lemma nth_lt {X} (l : list X) a x : nth_error l a = Some x -> (a < length l)%nat.
Proof. intros H. apply nth_error_Some. congruence. Qed.

Theorem C18_objects : forall s self a t v u s' r,
  nth_error (objs s) self = Some (a, Quant (Some v)) -> nth_error (stores s) a = Some t ->
  q_to s self (Some u) NoChange = Val (s', r) ->
  unchanged s s' /\
  exists b t' w, nth_error (objs s') r = Some (b, Quant (Some w)) /\ nth_error (stores s') b = Some t' /\
    to_unit {| qt := t; qu := v |} u = Val {| qt := t'; qu := w |} /\
    (unit_eqb v u = true -> s' = s /\ r = self) /\
    (unit_eqb v u = false -> nth_error (objs s) r = None /\ nth_error (stores s) b = None).
Proof.
  intros s self a t v u s' r Ho Hs H. unfold q_to in H. rewrite Ho, Hs in H. unfold to_unit. simpl in *.
  destruct (unit_eqb v u) eqn:E.
  - inversion H; subst. split; [split; auto|]. exists a, t, v. repeat split; auto; discriminate.
  - destruct (factor v u) as [f|] eqn:Ef; [|discriminate]. simpl in H. destruct (imul t f) as [t'|] eqn:Ei; [|discriminate]. simpl in H.
    inversion H; subst. clear H. split.
    + split; simpl; [intros; rewrite <- app_assoc; apply nth_app; assumption|]. intros a' t0 Ha. rewrite set_nth_last. apply nth_app. exact Ha.
    + exists (length (stores s)), t', u. simpl.
      rewrite nth_last, set_nth_last, nth_last, Ei. repeat split; auto; try discriminate.
      * apply nth_error_None. rewrite app_length. lia.
      * apply nth_error_None. lia.
Qed.
Print Assumptions C18_objects.

(** [to()] without a unit keeps the unit; a quantity without a unit takes the requested one, sharing the storage *)
Theorem C18_none : forall s self a t su s' r,
  nth_error (objs s) self = Some (a, Quant su) -> nth_error (stores s) a = Some t ->
  (q_to s self None NoChange = Val (s', r) -> unchanged s s' /\ nth_error (objs s') r = Some (a, Quant su)) /\
  (forall u, su = None -> q_to s self (Some u) NoChange = Val (s', r) -> unchanged s s' /\ nth_error (objs s') r = Some (a, Quant (Some u))).
Proof.
  intros s self a t su s' r Ho Hs. unfold q_to. rewrite Ho, Hs. split.
  - destruct su as [v|]; simpl; intros H; inversion H; subst.
    + split; [split; simpl; auto; intros; apply nth_app; assumption|]. simpl. apply nth_last.
    + split; [split; auto|exact Ho].
  - intros u -> H. simpl in H. inversion H; subst. split; [split; simpl; auto; intros; apply nth_app; assumption|]. simpl. apply nth_last.
Qed.
Print Assumptions C18_none.

(** with a dtype or device to change as well, a new unit fails and the present unit is lost *)
Theorem C18_dtype_refuted : forall s self a t v u conv,
  nth_error (objs s) self = Some (a, Quant (Some v)) -> nth_error (stores s) a = Some t ->
  (unit_eqb v u = false -> q_to s self (Some u) (Change conv) = Raise EAttributeError) /\
  (unit_eqb v u = true -> exists s' r b, q_to s self (Some u) (Change conv) = Val (s', r) /\ nth_error (objs s') r = Some (b, Plain)) /\
  (exists s' r b, q_to s self None (Change conv) = Val (s', r) /\ nth_error (objs s') r = Some (b, Quant (Some v)) /\ nth_error (stores s') b = Some (conv t)).
Proof.
  intros s self a t v u conv Ho Hs. unfold q_to. rewrite Ho, Hs. simpl. split; [|split].
  - intros ->. reflexivity.
  - intros ->. eexists _, _, _. split; [reflexivity|]. simpl. apply nth_last.
  - eexists _, _, _. split; [reflexivity|]. simpl. split; [|apply nth_last]. apply nth_last.
Qed.
Print Assumptions C18_dtype_refuted.

(** an integer tensor can only be converted to its own unit *)
Theorem C18_integer_refuted : forall q u, good_unit (qu q) -> good_unit u -> tfloat (qt q) = false ->
  (forall k, exponent (qu q) k = exponent u k) -> uval (qu q) <> uval u -> to_unit q u = Raise ERuntimeError.
Proof.
  intros q u Hq Hu Hf Hd Hv. unfold to_unit. destruct (unit_eqb (qu q) u) eqn:E.
  - apply unit_eqb_good in E; auto. tauto.
  - rewrite factor_ok by auto. simpl. unfold imul. rewrite Hf. reflexivity.
Qed.
Print Assumptions C18_integer_refuted.

Definition metre := unit_init [("L"%string, fint 1)] 1.
Definition km := unit_init [("L"%string, fint 1)] 1000.
Definition second := unit_init [("T"%string, fint 1)] 1.
Definition percent := unit_init [] (/ 100).
Lemma good_metre : good_unit metre. Proof. split; [apply can_init|simpl; lra]. Qed.
Lemma good_km : good_unit km. Proof. split; [apply can_init|simpl; lra]. Qed.
Lemma good_second : good_unit second. Proof. split; [apply can_init|simpl; lra]. Qed.
Lemma good_percent : good_unit percent. Proof. split; [apply can_init|simpl; lra]. Qed.
Definition q1 (u : unit_) (r : R) := {| qt := {| tshape := []; tdata := [r]; tfloat := true |}; qu := u |}.
Example C18_nonvacuous : exists q', to_unit (q1 km 3) metre = Val q' /\ tdata (qt q') = [3000%R] /\ good_q (q1 km 3).
Proof.
  destruct (to_unit_ok (q1 km 3) metre) as (q' & E & T & _); [split; [apply good_km|reflexivity]|apply good_metre|intros k; reflexivity|].
  exists q'. split; [exact E|]. rewrite T. split; [|split; [apply good_km|reflexivity]]. simpl. f_equal. field.
Qed.

(** ** C19 *)
(** functions whose operands must share one dimension *)
Local Open Scope string_scope.
Definition shared_names : list string :=
  ["eq"; "equal"; "ne"; "not_equal"; "gt"; "greater"; "ge"; "greater_equal"; "lt"; "less"; "le"; "less_equal"; "__rsub__";
   "minimum"; "maximum"; "fmin"; "fmax"; "hypot"; "hardshrink"; "nextafter"; "__rmod__"; "fmod"; "remainder"; "__floordiv__"; "__rfloordiv__";
   "floor_divide"; "clip"; "clamp"; "clamp_min"; "clamp_max"; "nan_to_num"; "complex"; "bucketize"; "isin"; "searchsorted"].
Local Close Scope string_scope.
Lemma shared_rows : forall name, In name shared_names ->
  existsb (String.eqb name) forbidden = false /\
  (lookup_spec name = Spec [] (PName "unit") (OLeaf (RName "unit")) \/ lookup_spec name = Spec [] (PName "unit") (OLeaf RFalse)).
Proof.
  intros name H. unfold shared_names in H. simpl in H.
  repeat destruct H as [<-|H]; try contradiction; (split; [vm_compute; reflexivity|first [left; vm_compute; reflexivity|right; vm_compute; reflexivity]]).
Qed.

(** a call raises UnitError exactly when some operand carrying a number differs in dimension from the first one, and is
    accepted otherwise; whatever the numerical function [g], the number of operands and their kinds *)
Theorem C19_shared : forall env name g x xs, In name shared_names -> numeric x -> Forall operand xs ->
  (call env name g (x :: xs) = Raise EUnitError <-> exists y, In y xs /\ numeric y /\ ~ same_dimension x y) /\
  ((forall y, In y xs -> numeric y -> same_dimension x y) -> exists z, call env name g (x :: xs) = Val z).
Proof.
  intros env name g x xs Hn Hx Hxs. destruct (shared_rows name Hn) as [Hf [Hl|Hl]]; eapply shared_exact; eauto; reflexivity.
Qed.
Print Assumptions C19_shared.

(** additions: accepted exactly when the dimensions agree, provided exponent differences are representable *)
Lemma add_rows : forall name, In name ["add"; "sub"; "subtract"; "rsub"]%string ->
  existsb (String.eqb name) forbidden = false /\
  (lookup_spec name = Spec row_add PNone (OLeaf (RName "unit")) \/ lookup_spec name = Spec row_rsub PNone (OLeaf (RName "unit"))).
Proof.
  intros name H. simpl in H. repeat destruct H as [<-|H]; try contradiction;
  (split; [vm_compute; reflexivity|first [left; vm_compute; reflexivity|right; vm_compute; reflexivity]]).
Qed.

Lemma add_rejects env name ps g x y a nx ny :
  existsb (String.eqb name) forbidden = false -> lookup_spec name = Spec ps PNone (OLeaf (RName "unit")) ->
  ps = [PName nx; PName ny; PEval (EDiv (EName "unit") (EName "unit2"))] -> (nx, ny) = ("unit", "unit2")%string \/ (nx, ny) = ("unit2", "unit")%string ->
  numeric x -> numeric y -> (forall k, (fden (dim_of x k - dim_of y k)%Qc <= 1000000)%Z) ->
  (call env name g [x; y; LNum a] = Raise EUnitError <-> ~ same_dimension x y) /\
  (same_dimension x y -> exists z, call env name g [x; y; LNum a] = Val z).
Proof.
  intros Hf Hl Hps Hn Hx Hy Hrep.
  assert (Hrow : row_ok ps PNone (RName "unit") = true) by (subst ps; destruct Hn as [Hn|Hn]; inversion Hn; subst; reflexivity).
  assert (Hg : Forall good_spec (PNone :: ps)) by (subst ps; apply good_specs_names; reflexivity).
  assert (Hop : Forall operand [x; y; LNum a]) by (repeat constructor; apply numeric_operand; assumption).
  assert (Hlen : (length ps <= length [x; y; LNum a])%nat) by (subst ps; simpl; lia).
  assert (Hrep' : forall k, (fden (dim_of y k - dim_of x k)%Qc <= 1000000)%Z).
  { intros k. replace (dim_of y k - dim_of x k)%Qc with (- (dim_of x k - dim_of y k))%Qc by ring. rewrite fden_opp. apply Hrep. }
  assert (Acc : same_dimension x y -> exists z, call env name g [x; y; LNum a] = Val z).
  { intros Hd. apply (call_accepts env name ps PNone (RName "unit") g [x; y; LNum a] (fun _ => dim_of x)); auto.
    - exact I.
    - subst ps. simpl. repeat split; auto.
    - subst ps. repeat constructor. simpl. intros k. replace (dim_of x k - dim_of x k)%Qc with 0%Qc by ring. vm_compute. discriminate.
    - subst ps. simpl. repeat split; auto. intros _ _ k. symmetry. apply qc_sub_0. reflexivity. }
  split; [|exact Acc]. split.
  - intros E Hd. destruct (Acc Hd) as [z Hz]. congruence.
  - intros Hd. destruct (call_rejects env name ps PNone (RName "unit") g [x; y; LNum a] Hf Hl Hrow Hlen (or_introl eq_refl) Hg I Hop) as [E|(z & d & E & A & _)]; [exact E|].
    exfalso. apply Hd. subst ps. simpl in A. destruct A as (A1 & A2 & A3 & _).
    assert (B1 := A1 I ltac:(discriminate) Hx). assert (B2 := A2 I ltac:(discriminate) Hy).
    assert (D : forall k, d "unit"%string k = d "unit2"%string k).
    { intros k. apply qc_sub_0. symmetry. apply A3; auto; [|discriminate]. repeat split. intros k'.
      destruct Hn as [Hn|Hn]; inversion Hn; subst; simpl; rewrite <- B1, <- B2; auto. }
    intros k. rewrite B1, B2. destruct Hn as [Hn|Hn]; inversion Hn; subst; rewrite D; reflexivity.
Qed.

Theorem C19_add : forall env name g x y a, In name ["add"; "sub"; "subtract"; "rsub"]%string -> numeric x -> numeric y ->
  (forall k, (fden (dim_of x k - dim_of y k)%Qc <= 1000000)%Z) ->
  (call env name g [x; y; LNum a] = Raise EUnitError <-> ~ same_dimension x y) /\
  (same_dimension x y -> exists z, call env name g [x; y; LNum a] = Val z).
Proof.
  intros env name g x y a Hn Hx Hy Hr. destruct (add_rows name Hn) as [Hf [Hl|Hl]].
  - apply (add_rejects env name row_add g x y a "unit"%string "unit2"%string); auto.
  - apply (add_rejects env name row_rsub g x y a "unit2"%string "unit"%string); auto.
Qed.
Print Assumptions C19_add.

(** without that proviso two different dimensions can be added: the difference of exponents 1/999999 and 1/10^6 rounds to 0 *)
Definition odd1 := unit_init [("L"%string, frac 1 1000000)] 1.
Definition odd2 := unit_init [("L"%string, frac 1 999999)] 1.
Theorem C19_add_refuted : forall env, exists x y z, numeric x /\ numeric y /\ ~ same_dimension x y /\
  call env "add" (elementwise true (arg3 (fun x y a => x + a * y)%R)) [x; y; LNum 1] = Val z.
Proof.
  intros env. exists (LQ (q1 odd1 1)), (LQ (q1 odd2 1)).
  assert (G1 : good_q (q1 odd1 1)) by (split; [split; [apply can_init|simpl; lra]|reflexivity]).
  assert (G2 : good_q (q1 odd2 1)) by (split; [split; [apply can_init|simpl; lra]|reflexivity]).
  cut (~ same_dimension (LQ (q1 odd1 1)) (LQ (q1 odd2 1)) /\ exists z, call env "add" (elementwise true (arg3 (fun x y a => x + a * y)%R)) [LQ (q1 odd1 1); LQ (q1 odd2 1); LNum 1] = Val z).
  { intros [A [z B]]. exists z. auto. }
  split.
  - intros H. specialize (H "L"%string). unfold dim_of in H. apply (f_equal (fun q => (fnum q, fden q))) in H. vm_compute in H. discriminate H.
  - rewrite (call_spec env "add" row_add PNone (RName "unit")) by (vm_compute; reflexivity).
    assert (Hu : forall k, exponent (udiv (pe_so env) odd1 odd2) k = 0%Qc).
    { intros k. rewrite exp_div by apply can_init. destruct (String.eqb k "L") eqn:E.
      - apply String.eqb_eq in E. subst. apply Qc_is_canon. vm_compute. reflexivity.
      - assert (X : forall p, exponent (unit_init [("L"%string, p)] 1) k = 0%Qc).
        { intros p. rewrite exponent_getd. simpl. rewrite getd_init. simpl. rewrite E. apply limit_0. }
        unfold odd1, odd2. rewrite !X. apply limit_0. }
    assert (Gd : good_unit (udiv (pe_so env) odd1 odd2)) by (apply good_div; [apply G1|apply G2]).
    assert (Hc : convert (Some (udiv (pe_so env) odd1 odd2)) (LNum 1) = Val (LNum 1)).
    { unfold convert. simpl unit_of. cbv iota. rewrite (proj2 (no_dims _ Gd) Hu). destruct (Req_EM_T (uval (udiv (pe_so env) odd1 odd2)) 1) as [e|ne]; [reflexivity|].
      exfalso. apply ne. rewrite val_div by apply G2. simpl. field. }
    assert (HF : exists ys c, do_flat env [] row_add PNone [LQ (q1 odd1 1); LQ (q1 odd2 1); LNum 1] = Val (ys, c) /\ dict_get c "unit" = Some odd1).
    { exists [LQ (q1 odd1 1); LQ (q1 odd2 1); LNum 1], [("unit"%string, odd1); ("unit2"%string, odd2)]. split; [|reflexivity].
      unfold row_add. cbn [do_flat hd tl]. unfold do_leaf. cbn -[convert udiv odd1 odd2]. do 2 (rewrite ?convert_none; cbn -[convert udiv odd1 odd2]).
      rewrite Hc. reflexivity. }
    destruct HF as (ys & c & -> & Hd). simpl. rewrite Hd. simpl. rewrite process_leaf. eauto.
Qed.
Print Assumptions C19_add_refuted.

Example C19_nonvacuous : forall env, numeric (LQ (q1 km 1)) /\ ~ same_dimension (LQ (q1 km 1)) (LQ (q1 second 1)) /\
  call env "maximum" (elementwise true (arg2 Rmax)) [LQ (q1 km 1); LQ (q1 second 1)] = Raise EUnitError.
Proof.
  intros env. assert (N1 : numeric (LQ (q1 km 1))) by (split; [apply good_km|reflexivity]).
  assert (N2 : numeric (LQ (q1 second 1))) by (split; [apply good_second|reflexivity]).
  assert (D : ~ same_dimension (LQ (q1 km 1)) (LQ (q1 second 1))).
  { intros H. specialize (H "L"%string). unfold dim_of in H. apply (f_equal (fun q => (fnum q, fden q))) in H. vm_compute in H. discriminate H. }
  split; [exact N1|]. split; [exact D|].
  apply C19_shared; [unfold shared_names; simpl; auto 20|exact N1|constructor; [exact (numeric_operand _ N2)|constructor]|].
  exists (LQ (q1 second 1)). split; [left; reflexivity|]. auto.
Qed.
