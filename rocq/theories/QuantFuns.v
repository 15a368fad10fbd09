(** Scaling laws of the textbook functions. *)
From Coq Require Import ZArith QArith Qcanon String List Bool Reals Lia Lra.
From Verif Require Import Frac FracFacts Units UnitSpec UnitsFacts UnitsThms PyTree Quantities QuantSpec QuantFacts.
Import ListNotations.
Open Scope list_scope.
Open Scope R_scope.

Ltac decide_all := repeat match goal with
  | |- context [Rlt_dec ?a ?b] => destruct (Rlt_dec a b)
  | |- context [Rle_dec ?a ?b] => destruct (Rle_dec a b)
  | |- context [Req_EM_T ?a ?b] => destruct (Req_EM_T a b) end.

Lemma mul_lt_iff c x y : 0 < c -> (c * x < c * y <-> x < y).
Proof. intros. split; intros; [apply Rmult_lt_reg_l with c; auto|apply Rmult_lt_compat_l; auto]. Qed.
Lemma mul_le_iff c x y : 0 < c -> (c * x <= c * y <-> x <= y).
Proof. intros. split; intros; [apply Rmult_le_reg_l with c; auto|apply Rmult_le_compat_l; lra]. Qed.
Lemma mul_eq_iff c x y : 0 < c -> (c * x = c * y <-> x = y).
Proof. intros. split; intros; [apply Rmult_eq_reg_l with c; lra|congruence]. Qed.
Lemma mul_eq0_iff c x : 0 < c -> (c * x = 0 <-> x = 0).
Proof. intros. rewrite <- (Rmult_0_r c) at 1. apply mul_eq_iff. auto. Qed.

Lemma Rmin_scale c x y : 0 < c -> Rmin (c * x) (c * y) = c * Rmin x y.
Proof. intros H. unfold Rmin. pose proof (mul_le_iff c x y H). decide_all; auto; tauto. Qed.
Lemma Rmax_scale c x y : 0 < c -> Rmax (c * x) (c * y) = c * Rmax x y.
Proof. intros H. unfold Rmax. pose proof (mul_le_iff c x y H). decide_all; auto; tauto. Qed.
Lemma hypot_scale c x y : 0 < c -> hypot (c * x) (c * y) = c * hypot x y.
Proof.
  intros H. unfold hypot. replace (c * x * (c * x) + c * y * (c * y)) with (c * c * (x * x + y * y)) by ring.
  rewrite sqrt_mult_alt by (apply Rlt_le, Rmult_lt_0_compat; auto). rewrite sqrt_square by lra. reflexivity.
Qed.
Lemma div_scale c x y : 0 < c -> y <> 0 -> c * x / (c * y) = x / y.
Proof. intros. field. split; lra. Qed.
Lemma floor_div_scale c x y : 0 < c -> floor_div (c * x) (c * y) = floor_div x y.
Proof. intros H. unfold floor_div. pose proof (mul_eq0_iff c y H). decide_all; try tauto. rewrite div_scale by auto. reflexivity. Qed.
Lemma remainder_scale c x y : 0 < c -> remainder (c * x) (c * y) = c * remainder x y.
Proof. intros H. unfold remainder. pose proof (mul_eq0_iff c y H). decide_all; try tauto; try ring. rewrite div_scale by auto. ring. Qed.
Lemma fmod_scale c x y : 0 < c -> fmod (c * x) (c * y) = c * fmod x y.
Proof. intros H. unfold fmod. pose proof (mul_eq0_iff c y H). destruct (Req_EM_T (c * y) 0), (Req_EM_T y 0); try tauto; try ring. rewrite div_scale by auto. ring. Qed.
Lemma lt_scale c x y : 0 < c -> lt_ (c * x) (c * y) = lt_ x y.
Proof. intros H. unfold lt_. pose proof (mul_lt_iff c x y H). decide_all; auto; tauto. Qed.
Lemma le_scale c x y : 0 < c -> le_ (c * x) (c * y) = le_ x y.
Proof. intros H. unfold le_. pose proof (mul_le_iff c x y H). decide_all; auto; tauto. Qed.
Lemma eq_scale c x y : 0 < c -> eq_ (c * x) (c * y) = eq_ x y.
Proof. intros H. unfold eq_. pose proof (mul_eq_iff c x y H). decide_all; auto; tauto. Qed.
Lemma ne_scale c x y : 0 < c -> ne_ (c * x) (c * y) = ne_ x y.
Proof. intros H. unfold ne_. pose proof (mul_eq_iff c x y H). decide_all; auto; tauto. Qed.
Lemma clamp_scale c x l h : 0 < c -> clamp (c * x) (c * l) (c * h) = c * clamp x l h.
Proof. intros H. unfold clamp. rewrite Rmax_scale, Rmin_scale by auto. reflexivity. Qed.
Lemma hardshrink_scale c x l : 0 < c -> hardshrink (c * x) (c * l) = c * hardshrink x l.
Proof.
  intros H. unfold hardshrink. rewrite Rabs_mult, (Rabs_right c) by lra. pose proof (mul_lt_iff c l (Rabs x) H). decide_all; try tauto; ring.
Qed.
Lemma atan2_scale c y x : 0 < c -> atan2 (c * y) (c * x) = atan2 y x.
Proof.
  intros H. unfold atan2. pose proof (mul_lt_iff c 0 x H). pose proof (mul_lt_iff c x 0 H). pose proof (mul_le_iff c 0 y H).
  pose proof (mul_lt_iff c 0 y H). pose proof (mul_lt_iff c y 0 H). rewrite Rmult_0_r in *.
  destruct (Rlt_dec 0 (c * x)), (Rlt_dec 0 x); try tauto; [apply f_equal; apply div_scale; lra|].
  destruct (Rlt_dec (c * x) 0), (Rlt_dec x 0); try tauto.
  - rewrite div_scale by lra. decide_all; tauto || reflexivity.
  - decide_all; tauto || reflexivity.
Qed.
Lemma prelu_scale c x w : 0 < c -> prelu (c * x) w = c * prelu x w.
Proof. intros H. unfold prelu. pose proof (mul_le_iff c 0 x H). rewrite Rmult_0_r in *. decide_all; try tauto; ring. Qed.

Definition homogeneous (h : list R -> R) : Prop := forall c vs, 0 < c -> h (map (Rmult c) vs) = c * h vs.
Definition invariant (h : list R -> R) : Prop := forall c vs, 0 < c -> h (map (Rmult c) vs) = h vs.

Ltac arity := intros c vs Hc; unfold arg1, arg2, arg3, arg4; destruct vs as [|? [|? [|? ?]]]; simpl; try ring.
Lemma shared_homogeneous name h : In (name, h) shared_functions -> homogeneous h.
Proof.
  unfold shared_functions. simpl. intros H.
  repeat destruct H as [H|H]; try contradiction; inversion H; subst; clear H; arity;
    auto using Rmin_scale, Rmax_scale, hypot_scale, remainder_scale, fmod_scale, hardshrink_scale, clamp_scale; ring.
Qed.
Lemma shared_nounit_invariant name h : In (name, h) shared_nounit_functions -> invariant h.
Proof.
  unfold shared_nounit_functions. simpl. intros H.
  repeat destruct H as [H|H]; try contradiction; inversion H; subst; clear H; arity;
    auto using lt_scale, le_scale, eq_scale, ne_scale, floor_div_scale.
Qed.

Lemma express_num_same s vs : express_num s [] (PName "unit") vs = map (Rmult (/ s "unit"%string)) vs.
Proof. induction vs as [|v vs IH]; simpl; [reflexivity|]. rewrite IH. reflexivity. Qed.
Lemma express_same s rs : express s [] (PName "unit") rs = map (rscale (/ s "unit"%string)) rs.
Proof. induction rs as [|v vs IH]; simpl; [reflexivity|]. rewrite IH. reflexivity. Qed.

(** ** operands of the shared-unit rows *)
Lemma fits_name n xs : fits [] (PName n) xs.
Proof. induction xs; simpl; auto. split; [discriminate|assumption]. Qed.
Lemma naming_seen n xs : forall seen, In n seen -> naming seen [] (PName n) xs.
Proof. induction xs; simpl; auto. intros. split; [auto|]. apply IHxs. right. assumption. Qed.
Lemma naming_same n x xs : numeric x -> naming [] [] (PName n) (x :: xs).
Proof. intros. simpl. split; [auto|]. apply naming_seen. left. reflexivity. Qed.
Lemma agree_same d n xs : (forall x, In x xs -> numeric x -> forall k, dim_of x k = d n k) <-> agree d [] (PName n) xs.
Proof.
  induction xs as [|x xs IH]; simpl; [tauto|]. rewrite <- IH. split.
  - intros H. split; auto.
  - intros [H1 H2] y [->|Hy]; auto. apply H1. discriminate.
Qed.
Lemma agree_w_same d n xs : agree_w d [] (PName n) xs -> agree d [] (PName n) xs.
Proof. induction xs as [|x xs IH]; simpl; [auto|]. intros [H1 H2]. split; auto. Qed.
Lemma numeric_operand x : numeric x -> operand x.
Proof. destruct x; simpl; auto. Qed.

Lemma names_distinct (a b : string) : String.eqb a b = false -> a <> b.
Proof. intros H ->. rewrite String.eqb_refl in H. discriminate. Qed.

Lemma call_accepts env name ps rest r g xs d :
  existsb (String.eqb name) forbidden = false -> lookup_spec name = Spec ps rest (OLeaf r) -> row_ok ps rest r = true ->
  (length ps <= length xs)%nat -> (pname rest = [] \/ length ps < length xs)%nat ->
  Forall good_spec (rest :: ps) -> simple_ret r -> Forall operand xs -> naming [] ps rest xs ->
  Forall (spec_rep d) ps -> agree d ps rest xs -> exists y, call env name g xs = Val y.
Proof.
  intros Hf Hl Hrow Hlen Hlen' Hs Hr Hx Hnam Hrep Hag.
  destruct (call_rejects env name ps rest r g xs Hf Hl Hrow Hlen Hlen' Hs Hr Hx) as [E|(y & d' & E & _)]; [|eauto]. exfalso.
  unfold row_ok in Hrow. apply andb_true_iff in Hrow. destruct Hrow as [Hrow Hret]. apply andb_true_iff in Hrow. destruct Hrow as [Hcl Hne].
  assert (Hc0 : good_ctx []) by (intros n u H; discriminate H).
  assert (Hm0 : matches [] d) by (intros n u H; discriminate H).
  assert (Hb0 : binds [] []) by (intros n []).
  destruct (do_flat_accept env d xs [] ps rest [] Hc0 Hs Hx Hm0 Hb0 Hcl Hne Hrep Hnam Hag) as [[ys c] E'].
  rewrite (call_spec env name ps rest r g xs Hf Hl), E' in E. simpl in E.
  pose proof (do_flat_keys env xs [] ps rest ys c E') as Hk.
  assert (Hk' : forall n, (exists u, dict_get c n = Some u) <-> In n (row_names ps rest)).
  { intros n. rewrite Hk, names_in_row by assumption. split; [intros [[u H]|H]; [discriminate H|exact H]|auto]. }
  destruct (process_spec_ok env c r _ Hret Hk') as [o Ho]. rewrite Ho in E. simpl in E.
  assert (G : good_ctx c).
  { destruct (do_flat_cases env xs [] ps rest [] Hc0 Hs Hx Hb0 Hcl Hne) as [X|(ys2 & c2 & X & G & _)]; rewrite X in E'; inversion E'; subst; exact G. }
  destruct (process_spec_inv env c r o G Hr Ho) as (v & -> & _). rewrite process_leaf in E. discriminate E.
Qed.

Lemma shared_exact env name r g x xs :
  existsb (String.eqb name) forbidden = false -> lookup_spec name = Spec [] (PName "unit") (OLeaf r) -> row_ok [] (PName "unit") r = true ->
  simple_ret r -> numeric x -> Forall operand xs ->
  (call env name g (x :: xs) = Raise EUnitError <-> exists y, In y xs /\ numeric y /\ ~ same_dimension x y) /\
  ((forall y, In y xs -> numeric y -> same_dimension x y) -> exists z, call env name g (x :: xs) = Val z).
Proof.
  intros Hf Hl Hrow Hr Hx Hxs.
  assert (Hop : Forall operand (x :: xs)) by (constructor; [apply numeric_operand|]; assumption).
  assert (Hgs : Forall good_spec (PName "unit" :: [])) by (constructor; [exact I|constructor]).
  assert (Acc : (forall y, In y xs -> numeric y -> same_dimension x y) -> exists z, call env name g (x :: xs) = Val z).
  { intros H. apply (call_accepts env name [] (PName "unit") r g (x :: xs) (fun _ => dim_of x)); auto; simpl; try lia; try (right; lia).
    - split; [right; exact Hx|]. apply naming_seen. left. reflexivity.
    - split; [intros; reflexivity|]. apply agree_same. intros y Hy Hn k. symmetry. apply H; auto. }
  split; [|exact Acc]. split.
  - intros E.
    assert (Cl : forall P : Prop, (~ ~ P) -> P) by (intros P HP; destruct (Classical_Prop.classic P); tauto).
    apply Cl. intros Hno. destruct Acc as [z Hz]; [|congruence].
    intros y Hy Hn k. apply Cl. intros Hk. apply Hno. exists y. repeat split; auto.
  - intros (y & Hy & Hn & Hd).
    destruct (call_rejects env name [] (PName "unit") r g (x :: xs)) as [E|(z & d & E & A & _)]; auto; simpl; try lia; try (right; lia).
    exfalso. apply Hd. apply agree_w_same in A. rewrite <- agree_same in A. intros k.
    rewrite (A x (or_introl eq_refl) Hx k), (A y (or_intror Hy) Hn k). reflexivity.
Qed.

(** dimensions of the names of a row *)
Definition assign (l : list (string * (string -> Qc))) (n k : string) : Qc :=
  match dict_get l n with Some f => f k | None => Q2Qc 0 end.

Lemma good_specs_names (ps : list pspec) rest : forallb (fun p => match p with PUnit _ => false | _ => true end) (rest :: ps) = true -> Forall good_spec (rest :: ps).
Proof. intros H. rewrite forallb_forall in H. apply Forall_forall. intros p Hp. specialize (H p Hp). destruct p; simpl; auto; discriminate. Qed.
Definition all_good (p : pspec) : Prop := good_spec p.
Ltac good_specs := repeat constructor; try (simpl; lra); try apply can_one; try apply good_one; try exact I.

Lemma qc_sub_0 (a b : Qc) : (a - b = Q2Qc 0)%Qc <-> a = b.
Proof.
  split; intros H.
  - replace a with ((a - b) + b)%Qc by ring. rewrite H. change (Q2Qc 0) with 0%Qc. ring.
  - subst. change (Q2Qc 0) with 0%Qc. ring.
Qed.

(** laws of the rows with [Eval] *)
Open Scope string_scope.
Definition row_add := [PName "unit"; PName "unit2"; PEval (EDiv (EName "unit") (EName "unit2"))].
Definition row_rsub := [PName "unit2"; PName "unit"; PEval (EDiv (EName "unit") (EName "unit2"))].
Ltac law := intros s vs Hs; unfold arg1, arg2, arg3, arg4; 
  repeat (destruct vs as [|? vs]; [simpl; unfold Rdiv; ring|]); simpl.
Lemma law_add : forall s vs, (forall n, 0 < s n) -> arg3 (fun x y a => x + a * y) (express_num s row_add PNone vs) = / s "unit" * arg3 (fun x y a => x + a * y) vs.
Proof. intros s vs Hs. destruct vs as [|x [|y [|a vs]]]; simpl; try ring. pose proof (Hs "unit"). pose proof (Hs "unit2"). field. lra. Qed.
Lemma law_sub : forall s vs, (forall n, 0 < s n) -> arg3 (fun x y a => x - a * y) (express_num s row_add PNone vs) = / s "unit" * arg3 (fun x y a => x - a * y) vs.
Proof. intros s vs Hs. destruct vs as [|x [|y [|a vs]]]; simpl; try ring. pose proof (Hs "unit"). pose proof (Hs "unit2"). field. lra. Qed.
Lemma law_rsub : forall s vs, (forall n, 0 < s n) -> arg3 (fun x y a => y - a * x) (express_num s row_rsub PNone vs) = / s "unit" * arg3 (fun x y a => y - a * x) vs.
Proof. intros s vs Hs. destruct vs as [|x [|y [|a vs]]]; simpl; try ring. pose proof (Hs "unit"). pose proof (Hs "unit2"). field. lra. Qed.

(** ** proportional functions *)
Lemma first_tensor_scaled a b x y rs :
  match first_tensor (rscale a x :: rscale b y :: rs), first_tensor (x :: y :: rs) with
  | Some t, Some t' => tshape t = tshape t' /\ length (tdata t) = length (tdata t')
  | None, None => True | _, _ => False end.
Proof.
  destruct x; simpl; try (rewrite map_length; auto); destruct y; simpl; try (rewrite map_length; auto); destruct (first_tensor rs); auto.
Qed.
Lemma elementwise_prop ea eb h :
  (forall a b x y vs, 0 < a -> 0 < b -> h (a * x :: b * y :: vs) = powerRZ a ea * powerRZ b eb * h (x :: y :: vs)) ->
  proportional ea eb (elementwise true h).
Proof.
  intros H a b x y rs Ha Hb. unfold elementwise. pose proof (first_tensor_scaled a b x y rs) as F.
  destruct (first_tensor (rscale a x :: rscale b y :: rs)) as [t|]; destruct (first_tensor (x :: y :: rs)) as [t'|]; try contradiction.
  - destruct F as [F1 F2]. unfold tscale. simpl. rewrite F1, F2. f_equal. rewrite map_map. apply map_ext. intros i. rewrite !elem_rscale. apply H; assumption.
  - unfold tscale. simpl. f_equal. f_equal. rewrite !elem_rscale. apply H; assumption.
Qed.
Lemma prop_mul : proportional 1 1 (elementwise true (arg2 Rmult)).
Proof. apply elementwise_prop. intros. simpl. ring. Qed.
Lemma prop_div : proportional 1 (-1) (elementwise true (arg2 Rdiv)).
Proof. apply elementwise_prop. intros. simpl. unfold Rdiv. rewrite Rinv_mult. replace (b * 1) with b by ring. ring. Qed.
Lemma prop_rdiv : proportional (-1) 1 (elementwise true (arg2 (fun x y => y / x))).
Proof. apply elementwise_prop. intros. simpl. unfold Rdiv. rewrite Rinv_mult. replace (a * 1) with a by ring. ring. Qed.

Lemma sum_to_scale c n f : sum_to n (fun i => c * f i) = c * sum_to n f.
Proof. induction n; simpl; [ring|]. rewrite IHn. ring. Qed.
Lemma sum_to_ext n f g : (forall i, (i < n)%nat -> f i = g i) -> sum_to n f = sum_to n g.
Proof. induction n; simpl; intros; [reflexivity|]. rewrite IHn, H; auto. Qed.
Lemma nth_scale i c l : nth i (map (Rmult c) l) 0 = c * nth i l 0.
Proof. revert i. induction l; destruct i; simpl; auto; ring. Qed.
Lemma entry_scale c t m i j : entry (tscale c t) m i j = c * entry t m i j.
Proof. unfold entry. simpl. apply nth_scale. Qed.
Lemma flat_map_ext_in {A B} (f g : A -> list B) l : (forall x, In x l -> f x = g x) -> flat_map f l = flat_map g l.
Proof. induction l; simpl; intros; [reflexivity|]. rewrite H, IHl; auto. Qed.
Lemma map_flat_map {A B C} (f : B -> C) (g : A -> list B) l : map f (flat_map g l) = flat_map (fun x => map f (g x)) l.
Proof. induction l; simpl; [reflexivity|]. rewrite map_app, IHl. reflexivity. Qed.
Lemma matrix_scale c n m f : tscale c (matrix n m f) = matrix n m (fun i j => c * f i j).
Proof. unfold tscale, matrix. simpl. f_equal. rewrite map_flat_map. apply flat_map_ext_in. intros i _. rewrite map_map. reflexivity. Qed.
Lemma matrix_ext n m f g : (forall i j, (i < n)%nat -> (j < m)%nat -> f i j = g i j) -> matrix n m f = matrix n m g.
Proof.
  intros H. unfold matrix. f_equal. apply flat_map_ext_in. intros i Hi. apply map_ext_in. intros j Hj.
  apply in_seq in Hi, Hj. apply H; lia.
Qed.
Lemma empty_scale c : tscale c empty = empty. Proof. reflexivity. Qed.
Lemma prop_mm : proportional 1 1 matrix_product.
Proof.
  intros a b x y rs Ha Hb. unfold matrix_product. destruct x as [t| | | |]; simpl; try (symmetry; apply empty_scale).
  destruct y as [t'| | | |]; simpl; try (symmetry; apply empty_scale).
  destruct (tshape t) as [|n [|m [|]]]; try (symmetry; apply empty_scale). destruct (tshape t') as [|n' [|p [|]]]; try (symmetry; apply empty_scale).
  rewrite matrix_scale. apply matrix_ext. intros i j _ _. rewrite <- sum_to_scale. apply sum_to_ext. intros. rewrite !entry_scale. ring.
Qed.
Lemma prop_dot : proportional 1 1 dot_product.
Proof.
  intros a b x y rs Ha Hb. unfold dot_product. destruct x as [t| | | |]; simpl; try (symmetry; apply empty_scale).
  destruct y as [t'| | | |]; simpl; try (symmetry; apply empty_scale).
  unfold tscale. simpl. rewrite map_length. f_equal. f_equal. rewrite <- sum_to_scale. apply sum_to_ext. intros. rewrite !nth_scale. ring.
Qed.
Lemma prop_outer : proportional 1 1 outer_product.
Proof.
  intros a b x y rs Ha Hb. unfold outer_product. destruct x as [t| | | |]; simpl; try (symmetry; apply empty_scale).
  destruct y as [t'| | | |]; simpl; try (symmetry; apply empty_scale).
  rewrite !map_length, matrix_scale. apply matrix_ext. intros i j _ _. rewrite !nth_scale. ring.
Qed.
Lemma prop_cross : proportional 1 1 cross_product.
Proof.
  intros a b x y rs Ha Hb. unfold cross_product. destruct x as [t| | | |]; simpl; try (symmetry; apply empty_scale).
  destruct y as [t'| | | |]; simpl; try (symmetry; apply empty_scale).
  destruct (tdata t) as [|x1 [|x2 [|x3 [|]]]]; try (symmetry; apply empty_scale).
  destruct (tdata t') as [|y1 [|y2 [|y3 [|]]]]; try (symmetry; apply empty_scale).
  unfold tscale. simpl. f_equal. f_equal; [ring|]. f_equal; [ring|]. f_equal. ring.
Qed.

(** ** unit-consistent textbook functions *)
Lemma elementwise_consistent fl h ros out rs :
  (forall c vs, length vs = length rs -> 0 < c -> h ((fix go ros vs := match ros, vs with Same :: ros', v :: vs' => c * v :: go ros' vs' | _ :: ros', v :: vs' => v :: go ros' vs' | _, _ => vs end) ros vs) =
     match out with Same => c * h vs | _ => h vs end) ->
  consistent ros out (elementwise fl h) rs.
Proof.
  intros H c Hc. unfold elementwise.
  assert (F : match first_tensor (rescale c ros rs), first_tensor rs with
    | Some t, Some t' => tshape t = tshape t' /\ length (tdata t) = length (tdata t') | None, None => True | _, _ => False end).
  { clear H. revert rs. induction ros as [|ro ros IH]; intros rs; [simpl; destruct (first_tensor rs); auto|].
    destruct rs as [|r rs]; [destruct ro; simpl; auto|]. specialize (IH rs).
    destruct ro, r; simpl; try rewrite map_length; auto. }
  assert (M : forall i, map (elem i) (rescale c ros rs) = (fix go ros vs := match ros, vs with Same :: ros', v :: vs' => c * v :: go ros' vs' | _ :: ros', v :: vs' => v :: go ros' vs' | _, _ => vs end) ros (map (elem i) rs)).
  { intros i. clear H F. revert rs. induction ros as [|ro ros IH]; intros rs; [reflexivity|].
    destruct rs as [|r rs]; [destruct ro; reflexivity|]. destruct ro; simpl; rewrite <- IH; try reflexivity. rewrite elem_rscale. reflexivity. }
  destruct (first_tensor (rescale c ros rs)) as [t|]; destruct (first_tensor rs) as [t'|]; try contradiction.
  - destruct F as [F1 F2]. rewrite F1, F2.
    assert (X : map (fun i => h (map (elem i) (rescale c ros rs))) (seq 0 (length (tdata t'))) =
      map (fun i => match out with Same => c * h (map (elem i) rs) | _ => h (map (elem i) rs) end) (seq 0 (length (tdata t')))).
    { apply map_ext. intros i. rewrite M. apply H; [apply map_length|exact Hc]. }
    rewrite X. destruct out; [|reflexivity|reflexivity]. unfold tscale. simpl. f_equal. rewrite map_map. reflexivity.
  - rewrite M, H; [|apply map_length|exact Hc]. destruct out; reflexivity.
Qed.
Lemma role_functions_consistent name ros out h rs fl : In (name, ros, out, h) role_functions -> (length ros <= length rs)%nat ->
  In (name, ros, out) role_table /\ consistent ros out (elementwise fl h) rs.
Proof.
  intros H L. unfold role_functions in H. simpl in H. 
  repeat destruct H as [H|H]; try contradiction; inversion H; subst; clear H;
    (split; [unfold role_table; apply in_or_app; left; simpl; tauto|]); apply elementwise_consistent; simpl in L; intros c vs E Hc; rewrite <- E in L;
    destruct vs as [|x [|y [|z vs]]]; simpl in L; try (exfalso; lia); simpl;
    try (unfold lerp, select; try (destruct (Req_EM_T _ _)); ring); auto using prelu_scale, atan2_scale.
Qed.
