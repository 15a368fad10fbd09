(** Claims C20 (lists, several results, limits), C21, C23, C24. *)
From Coq Require Import ZArith QArith Qcanon String List Bool Reals Cantor Lia Lra ClassicalDedekindReals.
From Verif Require Import Frac FracFacts Units UnitSpec UnitsFacts UnitsThms PyTree Quantities QuantSpec QuantFacts QuantFuns QuantMulti.
From Verif Require Import Prop_Quant Prop_Quant2.
Import ListNotations.
Open Scope list_scope.
Open Scope R_scope.

(** ** cat, stack, ... *)
Lemma list_rows name : In name list_names ->
  existsb (String.eqb name) forbidden = false /\ lookup_spec name = Spec [PName "unit"] PNone (OLeaf (RName "unit")).
Proof. intros H. in_table H; subst; split; vm_compute; reflexivity. Qed.
Lemma max_row : existsb (String.eqb "maximum") forbidden = false /\ lookup_spec "maximum" = Spec [] (PName "unit") (OLeaf (RName "unit")).
Proof. split; vm_compute; reflexivity. Qed.
Theorem C19_list : forall env name g x xs param, In name list_names -> numeric x -> Forall operand xs ->
  (call_list env name g (x :: xs) param = Raise EUnitError <-> exists y, In y xs /\ numeric y /\ ~ same_dimension x y) /\
  ((forall y, In y xs -> numeric y -> same_dimension x y) -> exists z, call_list env name g (x :: xs) param = Val z).
Proof.
  intros env name g x xs param Hin Hx Hxs. destruct (list_rows name Hin) as [Hf Hl]. rewrite (call_list_row env name g (x :: xs) param Hf Hl).
  destruct max_row as [Mf Ml]. pose proof (call_spec env "maximum" [] (PName "unit") (RName "unit") g (x :: xs) Mf Ml) as E. fold (run_row env [] (PName "unit") (RName "unit") g (x :: xs)) in E. rewrite <- E.
  eapply shared_exact; eauto; reflexivity.
Qed.
Print Assumptions C19_list.
Definition homogeneous_list (g : list raw -> tensor) : Prop := forall c rs, 0 < c -> g (map (rscale c) rs) = tscale c (g rs).
Theorem C20_list : forall env name g x xs param, In name list_names -> homogeneous_list g -> tfloat (g (map phys (x :: xs))) = true ->
  Forall numeric (x :: xs) -> (forall y, In y xs -> same_dimension x y) ->
  exists z, call_list env name g (x :: xs) param = Val z /\ phys z = RTen (g (map phys (x :: xs))) /\ same_dimension z x.
Proof.
  intros env name g x xs param Hin Hg Hft Hnum Hd. destruct (list_rows name Hin) as [Hf Hl]. rewrite (call_list_row env name g (x :: xs) param Hf Hl).
  inversion Hnum; subst.
  destruct (row_sound env [] (PName "unit") (RName "unit") g (x :: xs) (fun _ => dim_of x)) as (z & E & P & D); auto.
  - simpl. lia.
  - right. simpl. lia.
  - good_specs.
  - exact I.
  - apply all_numeric. assumption.
  - apply fits_name.
  - apply naming_same. assumption.
  - intros s Hs. rewrite express_same. apply Hg. apply Rinv_0_lt_compat, Hs.
  - exact I.
  - rewrite <- agree_same. intros y [->|Hy] _ k; [reflexivity|]. symmetry. apply Hd. assumption.
  - exists z. auto.
Qed.
Print Assumptions C20_list.
Lemma concatenation_homogeneous : homogeneous_list concatenation.
Proof.
  intros c rs Hc. unfold concatenation, tscale. simpl.
  assert (E : flat_map (fun r => match r with RTen t => tdata t | RNum x => [x] | _ => [] end) (map (rscale c) rs) =
              map (Rmult c) (flat_map (fun r => match r with RTen t => tdata t | RNum x => [x] | _ => [] end) rs)).
  { clear. induction rs as [|r rs IH]; simpl; [reflexivity|]. rewrite IH, map_app. f_equal. destruct r; reflexivity. }
  rewrite E, map_length. reflexivity.
Qed.

(** ** several results *)
Definition part_degree (r : rspec) (p : Qc) : Prop :=
  (r = RName "unit" /\ p = fint 1) \/ (r = RFalse /\ p = fint 0) \/
  (exists e, r = RFun ["unit"%string] false (OLeaf (XU e)) /\ (e = EPow (EName "unit") p /\ p = fint 2 \/ e = EName "unit" /\ p = fint 1)).
Definition two_results (d1 d2 : rspec) : obj rspec string := OTuple [OLeaf d1; OLeaf d2].
Definition three_results (d1 d2 d3 : rspec) : obj rspec string := OTuple [OLeaf d1; OLeaf d2; OLeaf d3].
Local Open Scope string_scope.
Lemma rows_lu : forall name, In name ["lu"; "linalg_lu_factor"; "eig"; "linalg_eig"; "symeig"; "lobpcg"] ->
  existsb (String.eqb name) forbidden = false /\ lookup_spec name = Spec row1 PNone (two_results (RName "unit") RFalse).
Proof. intros name H. in_table H; subst; split; vm_compute; reflexivity. Qed.
Lemma rows_qr : existsb (String.eqb "qr") forbidden = false /\ lookup_spec "qr" = Spec row1 PNone (two_results RFalse (RName "unit")).
Proof. split; vm_compute; reflexivity. Qed.
Lemma rows_svd : forall name, In name ["svd"; "linalg_svd"; "pca_lowrank"] ->
  existsb (String.eqb name) forbidden = false /\ lookup_spec name = Spec row1 PNone (three_results RFalse (RName "unit") RFalse).
Proof. intros name H. in_table H; subst; split; vm_compute; reflexivity. Qed.
Definition var_mean_ret : rspec := RFun ["unit"] false (OTuple [OLeaf (XU (EPow (EName "unit") (fint 2))); OLeaf (XU (EName "unit"))]).
Lemma rows_var_mean : existsb (String.eqb "var_mean") forbidden = false /\ lookup_spec "var_mean" = Spec row1 PNone (OLeaf var_mean_ret).
Proof. split; vm_compute; reflexivity. Qed.
Lemma part1 : part_degree (RName "unit") (fint 1). Proof. left; split; reflexivity. Qed.
Lemma part0 : part_degree RFalse (fint 0). Proof. right; left; split; reflexivity. Qed.
Lemma part2 : part_degree (RFun ["unit"] false (OLeaf (XU (EPow (EName "unit") (fint 2))))) (fint 2).
Proof. right; right; eexists; split; [reflexivity|]. left. split; reflexivity. Qed.
Lemma part1' : part_degree (RFun ["unit"] false (OLeaf (XU (EName "unit")))) (fint 1).
Proof. right; right; eexists; split; [reflexivity|]. right. split; reflexivity. Qed.
Lemma multi_rows name ds : In (name, ds) multi_names ->
  existsb (String.eqb name) forbidden = false /\ exists ret rs, lookup_spec name = Spec row1 PNone ret /\ parts ret = Some rs /\ rs <> [] /\ Forall2 part_degree rs ds.
Proof.
  intros H. unfold multi_names in H.
  assert (C : (name = "var_mean" /\ ds = [fint 2; fint 1]) \/ (In name ["lu"; "linalg_lu_factor"; "eig"; "linalg_eig"; "symeig"; "lobpcg"] /\ ds = [fint 1; fint 0]) \/
    (name = "qr" /\ ds = [fint 0; fint 1]) \/ (In name ["svd"; "linalg_svd"; "pca_lowrank"] /\ ds = [fint 0; fint 1; fint 0])).
  { cbn [In] in *. repeat destruct H as [H|H]; try contradiction; injection H as <- <-; tauto. }
  clear H. destruct C as [[-> ->]|[[Hn ->]|[[-> ->]|[Hn ->]]]].
  - destruct rows_var_mean as [F L]. split; [exact F|]. eexists _, _. split; [exact L|]. split; [reflexivity|]. split; [discriminate|].
    apply Forall2_cons; [apply part2|]. apply Forall2_cons; [apply part1'|]. apply Forall2_nil.
  - destruct (rows_lu name Hn) as [F L]. split; [exact F|]. eexists _, _. split; [exact L|]. split; [reflexivity|]. split; [discriminate|].
    apply Forall2_cons; [apply part1|]. apply Forall2_cons; [apply part0|]. apply Forall2_nil.
  - destruct rows_qr as [F L]. split; [exact F|]. eexists _, _. split; [exact L|]. split; [reflexivity|]. split; [discriminate|].
    apply Forall2_cons; [apply part0|]. apply Forall2_cons; [apply part1|]. apply Forall2_nil.
  - destruct (rows_svd name Hn) as [F L]. split; [exact F|]. eexists _, _. split; [exact L|]. split; [reflexivity|]. split; [discriminate|].
    apply Forall2_cons; [apply part0|]. apply Forall2_cons; [apply part1|]. apply Forall2_cons; [apply part0|]. apply Forall2_nil.
Qed.
Local Close Scope string_scope.
Lemma tscale_rpow0 c t : tscale (rpow c (fint 0)) t = t.
Proof. rewrite rpow_int. simpl. apply tscale_1. Qed.
Lemma tscale_rpow1 c t : tscale (rpow c (fint 1)) t = tscale c t.
Proof. rewrite rpow_int. f_equal. simpl. ring. Qed.
Lemma part_sound env r p g x flags : part_degree r p -> numeric x -> Forall flag flags -> degree p g ->
  (p <> fint 0 -> tfloat (g (map phys (x :: flags))) = true) -> (forall k, (fden (dim_of x k * p)%Qc <= 1000000)%Z) ->
  simple_ret r /\ exists z, run_row env row1 PNone r g (x :: flags) = Val z /\ phys z = RTen (g (map phys (x :: flags))) /\ forall k, dim_of z k = (dim_of x k * p)%Qc.
Proof.
  intros Hp Hx Hfl Hg Hft Hrep. destruct (flags_bare _ Hfl) as [Hb Ho].
  assert (Hsr : simple_ret r) by (destruct Hp as [[-> _]|[[-> _]|(e & -> & _)]]; exact I). split; [exact Hsr|].
  assert (H0 : fint 0 = 0%Qc) by (apply Qc_is_canon; reflexivity). assert (H1 : fint 1 = 1%Qc) by (apply Qc_is_canon; reflexivity).
  destruct (row_sound env row1 PNone r g (x :: flags) (fun _ => dim_of x)) as (z & E & P & D); auto.
  - destruct Hp as [[-> _]|[[-> _]|(e & -> & [[-> _]|[-> _]])]]; reflexivity.
  - simpl. lia.
  - good_specs.
  - constructor; [apply numeric_operand|]; assumption.
  - simpl. split; [discriminate|]. apply fits_bare. assumption.
  - simpl. split; [auto|]. apply naming_none.
  - destruct (Qc_eq_dec p (fint 0)) as [->|N]; [|right; right; auto]. destruct Hp as [[-> Hp]|[[-> _]|(e & -> & [[-> Hp]|[-> Hp]])]].
    + apply (f_equal (fun q => (fnum q, fden q))) in Hp. vm_compute in Hp. discriminate Hp.
    + left. reflexivity.
    + apply (f_equal (fun q => (fnum q, fden q))) in Hp. vm_compute in Hp. discriminate Hp.
    + apply (f_equal (fun q => (fnum q, fden q))) in Hp. vm_compute in Hp. discriminate Hp.
  - intros s Hs. simpl express. rewrite express_none, Hg by (apply Rinv_0_lt_compat, Hs).
    destruct Hp as [[-> ->]|[[-> ->]|(e & -> & [[-> ->]|[-> ->]])]]; simpl out_scale.
    + apply tscale_rpow1.
    + rewrite tscale_rpow0, Rinv_1, tscale_1. reflexivity.
    + rewrite rpow_inv by apply Hs. reflexivity.
    + apply tscale_rpow1.
  - repeat constructor.
  - destruct Hp as [[-> ->]|[[-> ->]|(e & -> & [[-> ->]|[-> ->]])]]; simpl; auto.
  - simpl. split; [intros _ _ k; reflexivity|]. apply agree_none.
  - exists z. split; [exact E|]. split; [exact P|]. intros k. rewrite D.
    destruct Hp as [[-> ->]|[[-> ->]|(e & -> & [[-> ->]|[-> ->]])]]; simpl; rewrite ?H0, ?H1; change (Q2Qc 0) with 0%Qc; try ring; reflexivity.
Qed.

(** one row of requirements per result *)
Theorem C20_multi : forall env name ds c gs x flags, In (name, ds) multi_names ->
  match c with Some c => pe_ctor env c = true | None => True end ->
  numeric x -> Forall flag flags -> Forall2 degree ds gs ->
  Forall (fun g => tfloat (g (map phys (x :: flags))) = true) gs ->
  Forall (fun p => forall k, (fden (dim_of x k * p)%Qc <= 1000000)%Z) ds ->
  exists zs, call_multi env name c gs (x :: flags) = Val zs /\ length zs = length ds /\
    (forall i z g p, nth_error zs i = Some z -> nth_error gs i = Some g -> nth_error ds i = Some p ->
       phys z = RTen (g (map phys (x :: flags))) /\ forall k, dim_of z k = (dim_of x k * p)%Qc).
Proof.
  intros env name ds c gs x flags Hin Hc Hx Hfl Hdeg Hft Hrep. destruct (multi_rows name ds Hin) as (Hf & ret & rs & Hl & Hp & Hne & Hparts).
  destruct (flags_bare _ Hfl) as [Hb Ho].
  assert (Lr : length rs = length ds) by (eapply PyTreeFacts.Forall2_length; exact Hparts).
  assert (Lg : length ds = length gs) by (eapply PyTreeFacts.Forall2_length; exact Hdeg).
  assert (K : Forall simple_ret rs /\ exists zs, mapM (fun p => run_row env row1 PNone (fst p) (snd p) (x :: flags)) (combine rs gs) = Val zs /\ length zs = length ds /\
    (forall i z g p, nth_error zs i = Some z -> nth_error gs i = Some g -> nth_error ds i = Some p ->
       phys z = RTen (g (map phys (x :: flags))) /\ forall k, dim_of z k = (dim_of x k * p)%Qc)).
  { clear Hp Hne Hl Lr Lg Hin. revert gs Hdeg Hft. induction Hparts as [|r p rs ds Hrp Hparts IH]; intros gs Hdeg Hft.
    - inversion Hdeg; subst. split; [constructor|]. exists []. split; [reflexivity|]. split; [reflexivity|]. intros [|i] z g p H; discriminate H.
    - inversion Hdeg as [|? g ? gs' Hg Hgs]; subst. inversion Hft as [|? ? Hf1 Hf2]; subst. inversion Hrep as [|? ? Hr1 Hr2]; subst.
      destruct (IH Hr2 gs' Hgs Hf2) as (Sr & zs & Ez & Lz & Z). destruct (part_sound env r p g x flags Hrp Hx Hfl Hg (fun _ => Hf1) Hr1) as (S1 & z & E1 & P1 & D1).
      split; [constructor; assumption|]. exists (z :: zs). simpl. rewrite E1. simpl. simpl in Ez. rewrite Ez. split; [reflexivity|]. split; [simpl; congruence|].
      intros [|i] z' g' p' A B C; [|eapply Z; eassumption]. inversion A; inversion B; inversion C; subst. split; assumption. }
  destruct K as (Sr & zs & Ez & Lz & Z). exists zs. split; [|split; assumption].
  eapply (multi_row env name row1 PNone ret rs c gs (x :: flags) zs); eauto.
  - congruence.
  - good_specs.
  - constructor; [apply numeric_operand|]; assumption.
  - simpl. split; [discriminate|]. apply fits_bare, Hb.
Qed.
Print Assumptions C20_multi.

(** ** functions without a rule: the unit of the first argument is kept, the other arguments are taken as bare numbers *)
Lemma call_default env name g x xs : existsb (String.eqb name) forbidden = false -> lookup_spec name = Basic None ->
  call env name g (x :: xs) = Val (finish1 (g (map strip (x :: xs))) (match unit_of x with Some u => OU u | None => OFalse end)).
Proof.
  intros Hf Hl. unfold call, torch_function. rewrite Hf, Hl. cbn [apply_spec bind map fst snd default_ret omap].
  rewrite skipn_exact by reflexivity. rewrite app_nil_r. cbn [map omap]. unfold backend.
  cbn [map leaf_or_other bind]. rewrite map_leaf_strip. rewrite process_leaf. reflexivity.
Qed.
(** right for functions that scale with the first argument and have no other operand with a unit ... *)
Theorem C20_no_rule : forall env name g x flags, lookup_spec name = Basic None -> existsb (String.eqb name) forbidden = false ->
  numeric x -> Forall flag flags -> degree (fint 1) g -> tfloat (g (map phys (x :: flags))) = true ->
  exists z, call env name g (x :: flags) = Val z /\ phys z = RTen (g (map phys (x :: flags))) /\ same_dimension z x.
Proof.
  intros env name g x flags Hl Hf Hx Hfl Hg Hft. rewrite (call_default env name g x flags Hf Hl). eexists. split; [reflexivity|].
  assert (Hm : map phys flags = map strip flags).
  { clear - Hfl. induction Hfl as [|f l [Hb _] H IH]; simpl; [reflexivity|]. rewrite IH. f_equal. destruct f; simpl in *; try contradiction; unfold phys; simpl; rewrite ?tscale_1, ?Rmult_1_l; reflexivity. }
  simpl map in *. rewrite Hm in *. 
  assert (Hp : forall c, 0 < c -> g (rscale c (strip x) :: map strip flags) = tscale c (g (strip x :: map strip flags))).
  { intros c Hc. rewrite Hg by exact Hc. apply tscale_rpow1. }
  destruct x as [q| |r|t| |]; try contradiction Hx; simpl unit_of; cbv iota; unfold finish1.
  - unfold phys in *. simpl in *. destruct Hx as [[Hcan Hpos] Hfq]. rewrite (Hp (uval (qu q))) in Hft |- * by exact Hpos. simpl in Hft. rewrite Hft. split; [reflexivity|]. intros k. reflexivity.
  - unfold phys. simpl. rewrite tscale_1, Rmult_1_l. split; [reflexivity|]. intros k. reflexivity.
  - unfold phys. simpl. rewrite !tscale_1. split; [reflexivity|]. intros k. reflexivity.
Qed.
Print Assumptions C20_no_rule.

Local Open Scope string_scope.
(** ... but wrong for the in-place operations, none of which has a rule: 1 m += 1 km gives 2 m *)
Definition inplace_names := ["add_"; "sub_"; "subtract_"; "mul_"; "multiply_"; "div_"; "divide_"; "pow_"; "sqrt_"; "exp_"; "sin_"; "__iadd__"; "__isub__"; "__imul__"; "__itruediv__"].
Lemma inplace_rows name : In name inplace_names -> existsb (String.eqb name) forbidden = false /\ lookup_spec name = Basic None.
Proof. intros H. in_table H; subst; split; vm_compute; reflexivity. Qed.
Theorem C20_inplace_refuted : forall env name g x y flags, In name inplace_names -> numeric x ->
  call env name g (x :: y :: flags) = Val (finish1 (g (strip x :: strip y :: map strip flags)) (match unit_of x with Some u => OU u | None => OFalse end)).
Proof. intros env name g x y flags Hin Hx. destruct (inplace_rows name Hin) as [Hf Hl]. apply call_default; assumption. Qed.
Print Assumptions C20_inplace_refuted.
Theorem C20_inplace_add_refuted : forall env, exists z,
  call env "add_" (elementwise true (arg3 (fun x y a => x + a * y))) [LQ (q1 metre 1); LQ (q1 km 1); LNum 1] = Val z /\
  phys z = RTen {| tshape := []; tdata := [2]; tfloat := true |} /\
  elementwise true (arg3 (fun x y a => x + a * y)) (map phys [LQ (q1 metre 1); LQ (q1 km 1); LNum 1]) = {| tshape := []; tdata := [1001]; tfloat := true |}.
Proof.
  intros env. rewrite C20_inplace_refuted; [|simpl; auto|split; [apply good_metre|reflexivity]]. eexists. split; [reflexivity|].
  unfold phys. simpl. unfold tscale, elementwise. simpl. split; [f_equal; f_equal; f_equal; field|f_equal; f_equal; field].
Qed.
Print Assumptions C20_inplace_add_refuted.

(** the linear-algebra functions under torch.linalg have no rule of their own: the determinant of a matrix in metres is in metres *)
Definition linalg_names := ["linalg_det"; "linalg_inv"; "linalg_cross"; "linalg_matrix_power"; "linalg_multi_dot"; "linalg_cholesky"; "linalg_pinv"; "linalg_qr"; "linalg_eigh"; "linalg_slogdet"; "linalg_matmul"].
Theorem C20_linalg_refuted : forall name, In name linalg_names -> lookup_spec name = Basic None.
Proof. intros name H. in_table H; subst; vm_compute; reflexivity. Qed.
Print Assumptions C20_linalg_refuted.

(** division with a rounding mode follows the rule of exact division, so its result depends on the units: 1 km // 300 m *)
Definition rounded_div := elementwise true (arg2 (fun x y => floor (x / y))).
Theorem C20_rounded_division_refuted : forall env, exists z z',
  call env "div" rounded_div [LQ (q1 km 1); LQ (q1 metre 300); LOther] = Val z /\
  call env "div" rounded_div [LQ (q1 metre 1000); LQ (q1 metre 300); LOther] = Val z' /\
  phys (LQ (q1 km 1)) = phys (LQ (q1 metre 1000)) /\ same_dimension (LQ (q1 km 1)) (LQ (q1 metre 1000)) /\ phys z <> phys z'.
Proof.
  intros env.
  assert (Hrow : existsb (String.eqb "div") forbidden = false /\ lookup_spec "div" =
    Spec row12 PNone (OLeaf (RFun ["unit1"; "unit2"] false (OLeaf (XU (EDiv (EName "unit1") (EName "unit2"))))))) by (split; vm_compute; reflexivity).
  destruct Hrow as [Hf Hl].
  assert (C : forall u r, call env "div" rounded_div [LQ (q1 u r); LQ (q1 metre 300); LOther] =
    Val (LQ {| qt := rounded_div [RTen (qt (q1 u r)); RTen (qt (q1 metre 300)); ROther]; qu := udiv (pe_so env) u metre |})).
  { intros u r. rewrite (call_spec env "div" row12 PNone _ rounded_div _ Hf Hl). reflexivity. }
  eexists _, _. rewrite !C. split; [reflexivity|]. split; [reflexivity|]. split; [|split].
  - unfold phys. simpl. unfold tscale. simpl. f_equal. f_equal. f_equal. ring.
  - intros k. reflexivity.
  - unfold phys. simpl. intros H. injection H as H. cbn in H.
    assert (F : forall x n, IZR n <= x < IZR n + 1 -> floor x = IZR n).
    { intros x n Hx. unfold floor, Int_part. rewrite <- (tech_up x (n + 1)) by (rewrite plus_IZR; lra). f_equal. lia. }
    rewrite (F (1 / 300) 0%Z), (F (1000 / 300) 3%Z) in H by lra. unfold metre, km in H. simpl in H. 
    lra.
Qed.
Print Assumptions C20_rounded_division_refuted.
