(** Claims C20-C24: what torch functions compute on quantities. *)
From Coq Require Import ZArith QArith Qcanon String List Bool Reals Lia Lra.
From Verif Require Import Frac FracFacts Units UnitSpec UnitsFacts UnitsThms PyTree Quantities QuantSpec QuantFacts QuantFuns.
Import ListNotations.
Open Scope list_scope.
Open Scope R_scope.

(** ** C20: the physical value of the result is the function of the physical values of the operands *)
Ltac in_table H := simpl in H; repeat destruct H as [H|H]; try contradiction.

Lemma all_numeric xs : Forall numeric xs -> Forall operand xs.
Proof. intros H. eapply Forall_impl; [|exact H]. exact numeric_operand. Qed.

Lemma shared_row name h : In (name, h) shared_functions ->
  existsb (String.eqb name) forbidden = false /\ lookup_spec name = Spec [] (PName "unit") (OLeaf (RName "unit")).
Proof. intros H. in_table H; inversion H; subst; split; vm_compute; reflexivity. Qed.
Lemma shared_nounit_row name h : In (name, h) shared_nounit_functions ->
  existsb (String.eqb name) forbidden = false /\ lookup_spec name = Spec [] (PName "unit") (OLeaf RFalse).
Proof. intros H. in_table H; inversion H; subst; split; vm_compute; reflexivity. Qed.

(** minimum, maximum, clamp, remainder, hypot, ...: operands of one dimension, in any units *)
Theorem C20_shared : forall env name h x xs, In (name, h) shared_functions ->
  Forall numeric (x :: xs) -> (forall y, In y xs -> same_dimension x y) ->
  exists z, call env name (elementwise true h) (x :: xs) = Val z /\
    phys z = RTen (elementwise true h (map phys (x :: xs))) /\ same_dimension z x.
Proof.
  intros env name h x xs Hin Hnum Hd. destruct (shared_row name h Hin) as [Hf Hl]. inversion Hnum; subst.
  destruct (call_sound env name [] (PName "unit") (RName "unit") (elementwise true h) (x :: xs) (fun _ => dim_of x)) as (z & E & P & D); auto.
  - simpl. lia.
  - right. simpl. lia.
  - good_specs.
  - exact I.
  - apply all_numeric. assumption.
  - apply fits_name.
  - apply naming_same. assumption.
  - right. right. unfold elementwise. destruct (first_tensor _); reflexivity.
  - apply elementwise_law. intros s vs _ Hs. rewrite express_num_same. apply (shared_homogeneous name h Hin). apply Rinv_0_lt_compat, Hs.
  - exact I.
  - rewrite <- agree_same. intros y [->|Hy] _ k; [reflexivity|]. symmetry. apply Hd. assumption.
  - exists z. auto.
Qed.
Print Assumptions C20_shared.

(** comparisons and floor division: the result is bare and does not depend on the units *)
Theorem C20_compare : forall env name h fl x xs, In (name, h) shared_nounit_functions ->
  Forall numeric (x :: xs) -> (forall y, In y xs -> same_dimension x y) ->
  call env name (elementwise fl h) (x :: xs) = Val (LTen (elementwise fl h (map phys (x :: xs)))).
Proof.
  intros env name h fl x xs Hin Hnum Hd. destruct (shared_nounit_row name h Hin) as [Hf Hl]. inversion Hnum; subst.
  assert (Hop := all_numeric _ Hnum).
  destruct (call_sound env name [] (PName "unit") RFalse (elementwise fl h) (x :: xs) (fun _ => dim_of x)) as (z & E & P & D); auto.
  - simpl. lia.
  - right. simpl. lia.
  - good_specs.
  - exact I.
  - apply fits_name.
  - apply naming_same. assumption.
  - apply elementwise_law. intros s vs _ Hs. rewrite express_num_same. simpl. rewrite Rinv_1, Rmult_1_l.
    apply (shared_nounit_invariant name h Hin). apply Rinv_0_lt_compat, Hs.
  - exact I.
  - rewrite <- agree_same. intros y [->|Hy] _ k; [reflexivity|]. symmetry. apply Hd. assumption.
  - rewrite E. f_equal. revert E P. rewrite (call_spec env name [] (PName "unit") RFalse (elementwise fl h) (x :: xs) Hf Hl).
    destruct (do_flat env [] [] (PName "unit") (x :: xs)) as [[ys c]|]; [|discriminate]. cbn [bind fst snd process_spec]. rewrite process_leaf.
    intros E P. inversion E; subst. unfold finish1 in *. unfold phys at 1 in P. simpl in P. rewrite tscale_1 in P. cbn [map]. congruence.
Qed.
Print Assumptions C20_compare.

(** ** products and quotients *)
Definition row12 : list pspec := [PName "unit1"; PName "unit2"].
Definition dims12 (x y : leaf) := assign [("unit1"%string, dim_of x); ("unit2"%string, dim_of y)].
Lemma product_row name : In name product_names ->
  existsb (String.eqb name) forbidden = false /\
  lookup_spec name = Spec row12 PNone (OLeaf (RFun ["unit1"; "unit2"]%string false (OLeaf (XU (EMul (EName "unit1") (EName "unit2")))))).
Proof. intros H. in_table H; subst; split; vm_compute; reflexivity. Qed.
Lemma fits_bare xs : Forall bare xs -> fits [] PNone xs.
Proof. induction 1; simpl; auto. Qed.
Lemma naming_none seen xs : naming seen [] PNone xs.
Proof. induction xs; simpl; auto. Qed.
Lemma agree_none d xs : agree d [] PNone xs.
Proof. induction xs; simpl; [auto|]. split; [intros H; congruence|assumption]. Qed.
(** trailing arguments (flags, dim=...) that carry no unit *)
Definition flag (x : leaf) : Prop := bare x /\ operand x.
Lemma flags_bare xs : Forall flag xs -> Forall bare xs /\ Forall operand xs.
Proof. intros H. split; eapply Forall_impl; try exact H; intros a [A B]; assumption. Qed.

Lemma binary_call env name g x y flags e d :
  existsb (String.eqb name) forbidden = false ->
  lookup_spec name = Spec row12 PNone (OLeaf (RFun ["unit1"; "unit2"]%string false (OLeaf (XU e)))) ->
  subset (names_of e) ["unit1"; "unit2"]%string = true -> d = dims12 x y ->
  numeric x -> numeric y -> Forall flag flags -> tfloat (g (map phys (x :: y :: flags))) = true ->
  (forall a b rs, 0 < a -> 0 < b -> g (rscale (/ a) (phys x) :: rscale (/ b) (phys y) :: rs) =
    tscale (/ scale_exp (fun n => if String.eqb n "unit1" then a else b) e) (g (phys x :: phys y :: rs))) ->
  representable d e ->
  exists z, call env name g (x :: y :: flags) = Val z /\ phys z = RTen (g (map phys (x :: y :: flags))) /\ forall k, dim_of z k = dim_exp d e k.
Proof.
  intros Hf Hl Hsub -> Hx Hy Hfl Hft Hlaw Hrep. destruct (flags_bare _ Hfl) as [Hb Ho].
  apply (call_sound env name row12 PNone (RFun ["unit1"; "unit2"]%string false (OLeaf (XU e))) g (x :: y :: flags) (dims12 x y)); auto.
  - unfold row_ok, ret_closed. change (row_names row12 PNone) with ["unit1"; "unit2"]%string. rewrite Hsub. reflexivity.
  - simpl. lia.
  - good_specs.
  - exact I.
  - repeat constructor; auto; apply numeric_operand; assumption.
  - simpl. split; [discriminate|]. split; [discriminate|]. apply fits_bare. assumption.
  - simpl. split; [auto|]. split; [auto|]. apply naming_none.
  - intros s Hs. simpl. assert (Hmap : express s [] PNone (map phys flags) = map phys flags).
    { clear. induction flags as [|f l IH]; simpl; [reflexivity|]. rewrite IH, Rinv_1, rscale_1. reflexivity. }
    rewrite Hmap, Hlaw by apply Hs. f_equal. f_equal. clear - Hsub. 
    assert (X : forall n, In n (names_of e) -> (fun n => if String.eqb n "unit1" then s "unit1"%string else s "unit2"%string) n = s n).
    { intros n Hn. unfold subset in Hsub. rewrite forallb_forall in Hsub. apply Hsub in Hn. apply mem_in in Hn. simpl in Hn.
      destruct Hn as [<-|[<-|[]]]; reflexivity. }
    revert X. generalize (fun n => if String.eqb n "unit1" then s "unit1"%string else s "unit2"%string). intros s' X. clear Hsub.
    induction e; simpl in *.
    + apply X. auto.
    + rewrite IHe1, IHe2; auto; intros; apply X, in_or_app; auto.
    + rewrite IHe1, IHe2; auto; intros; apply X, in_or_app; auto.
    + rewrite IHe; auto.
    + rewrite IHe; auto.
  - repeat constructor.
  - simpl. split; [intros _ _ k; reflexivity|]. split; [intros _ _ k; reflexivity|]. apply agree_none.
Qed.

Lemma powerRZ_inv_pos a : 0 < a -> powerRZ (/ a) 1 = / a. Proof. intros. simpl. ring. Qed.
Theorem C20_product : forall env name g x y flags, In name product_names ->
  numeric x -> numeric y -> Forall flag flags -> proportional 1 1 g -> tfloat (g (map phys (x :: y :: flags))) = true ->
  (forall k, (fden (dim_of x k + dim_of y k)%Qc <= 1000000)%Z) ->
  exists z, call env name g (x :: y :: flags) = Val z /\ phys z = RTen (g (map phys (x :: y :: flags))) /\
    forall k, dim_of z k = (dim_of x k + dim_of y k)%Qc.
Proof.
  intros env name g x y flags Hin Hx Hy Hfl Hg Hft Hrep. destruct (product_row name Hin) as [Hf Hl].
  apply (binary_call env name g x y flags _ (dims12 x y) Hf Hl); auto.
  - intros a b rs Ha Hb. rewrite Hg by (apply Rinv_0_lt_compat; assumption). f_equal. simpl. field. lra.
  - simpl. auto.
Qed.
Print Assumptions C20_product.

Theorem C20_quotient : forall env name g x y flags, In name ["div"; "divide"; "true_divide"]%string ->
  numeric x -> numeric y -> Forall flag flags -> proportional 1 (-1) g -> tfloat (g (map phys (x :: y :: flags))) = true ->
  (forall k, (fden (dim_of x k - dim_of y k)%Qc <= 1000000)%Z) ->
  exists z, call env name g (x :: y :: flags) = Val z /\ phys z = RTen (g (map phys (x :: y :: flags))) /\
    forall k, dim_of z k = (dim_of x k - dim_of y k)%Qc.
Proof.
  intros env name g x y flags Hin Hx Hy Hfl Hg Hft Hrep.
  assert (Hrow : existsb (String.eqb name) forbidden = false /\ lookup_spec name =
    Spec row12 PNone (OLeaf (RFun ["unit1"; "unit2"]%string false (OLeaf (XU (EDiv (EName "unit1") (EName "unit2"))))))).
  { in_table Hin; subst; split; vm_compute; reflexivity. }
  destruct Hrow as [Hf Hl]. apply (binary_call env name g x y flags _ (dims12 x y) Hf Hl); auto.
  - intros a b rs Ha Hb. rewrite Hg by (apply Rinv_0_lt_compat; assumption). f_equal. simpl. field. lra.
  - simpl. auto.
Qed.
Print Assumptions C20_quotient.

(** reversed division (number / quantity) and linear solving *)
Theorem C20_reversed_quotient : forall env name g x y flags, In name ["__rdiv__"; "linalg_solve"]%string ->
  numeric x -> numeric y -> Forall flag flags -> proportional (-1) 1 g -> tfloat (g (map phys (x :: y :: flags))) = true ->
  (forall k, (fden (dim_of y k - dim_of x k)%Qc <= 1000000)%Z) ->
  exists z, call env name g (x :: y :: flags) = Val z /\ phys z = RTen (g (map phys (x :: y :: flags))) /\
    forall k, dim_of z k = (dim_of y k - dim_of x k)%Qc.
Proof.
  intros env name g x y flags Hin Hx Hy Hfl Hg Hft Hrep.
  assert (Hrow : existsb (String.eqb name) forbidden = false /\ lookup_spec name =
    Spec row12 PNone (OLeaf (RFun ["unit1"; "unit2"]%string false (OLeaf (XU (EDiv (EName "unit2") (EName "unit1"))))))).
  { in_table Hin; subst; split; vm_compute; reflexivity. }
  destruct Hrow as [Hf Hl]. apply (binary_call env name g x y flags _ (dims12 x y) Hf Hl); auto.
  - intros a b rs Ha Hb. rewrite Hg by (apply Rinv_0_lt_compat; assumption). f_equal. simpl. field. lra.
  - simpl. auto.
Qed.
Print Assumptions C20_reversed_quotient.

(** ** roots, squares, inverses *)
Definition row1 : list pspec := [PName "unit"].
Lemma degree_row name p : In (name, p) degree_names ->
  existsb (String.eqb name) forbidden = false /\ exists e, lookup_spec name = Spec row1 PNone (OLeaf (RFun ["unit"]%string false (OLeaf (XU e)))) /\
    (e = EPow (EName "unit") p \/ e = EInv (EName "unit") /\ p = fint (-1)).
Proof.
  intros H. in_table H; inversion H; subst; (split; [vm_compute; reflexivity|]); eexists; (split; [vm_compute; reflexivity|]);
    first [left; reflexivity|right; split; reflexivity].
Qed.
Lemma express_none s rs : express s [] PNone rs = rs.
Proof. induction rs as [|f l IH]; simpl; [reflexivity|]. rewrite IH, Rinv_1, rscale_1. reflexivity. Qed.
Lemma rpow_inv c p : 0 < c -> rpow (/ c) p = / rpow c p.
Proof.
  intros Hc. rewrite !rpow_pos by (try apply Rinv_0_lt_compat; assumption). unfold Rpower. rewrite ln_Rinv by assumption.
  rewrite <- exp_Ropp. f_equal. ring.
Qed.
Theorem C20_degree : forall env name p g x flags, In (name, p) degree_names ->
  numeric x -> Forall flag flags -> degree p g -> tfloat (g (map phys (x :: flags))) = true ->
  (forall k, (fden (dim_of x k * p)%Qc <= 1000000)%Z) ->
  exists z, call env name g (x :: flags) = Val z /\ phys z = RTen (g (map phys (x :: flags))) /\
    forall k, dim_of z k = (dim_of x k * p)%Qc.
Proof.
  intros env name p g x flags Hin Hx Hfl Hg Hft Hrep. destruct (degree_row name p Hin) as [Hf [e [Hl He]]].
  destruct (flags_bare _ Hfl) as [Hb Ho].
  assert (Hde : forall k, dim_exp (fun _ => dim_of x) e k = (dim_of x k * p)%Qc).
  { intros k. destruct He as [->|[-> ->]]; simpl; [reflexivity|]. symmetry. apply fint_m1. }
  destruct (call_sound env name row1 PNone (RFun ["unit"]%string false (OLeaf (XU e))) g (x :: flags) (fun _ => dim_of x)) as (z & E & P & D); auto.
  - destruct He as [->|[-> ->]]; reflexivity.
  - simpl. lia.
  - good_specs.
  - exact I.
  - constructor; [apply numeric_operand|]; assumption.
  - simpl. split; [discriminate|]. apply fits_bare. assumption.
  - simpl. split; [auto|]. apply naming_none.
  - intros s Hs. simpl. rewrite express_none, Hg by (apply Rinv_0_lt_compat, Hs). f_equal.
    rewrite rpow_inv by apply Hs. f_equal. destruct He as [->|[-> ->]]; simpl; [reflexivity|].
    rewrite rpow_int. simpl. specialize (Hs "unit"%string). field. lra.
  - repeat constructor.
  - simpl. destruct He as [->|[-> ->]]; simpl; (split; [exact I|]); intros k; specialize (Hrep k); [exact Hrep|].
    rewrite <- (Hde k) in Hrep. exact Hrep.
  - simpl. split; [intros _ _ k; reflexivity|]. apply agree_none.
  - exists z. split; [exact E|]. split; [exact P|]. intros k. rewrite D. apply Hde.
Qed.
Print Assumptions C20_degree.

(** ** functions by roles *)
Definition pspec_of (r : role) : pspec := match r with Same => PName "unit" | Pure => PUnit unit_one | Param => PNone end.
Definition ret_ok (out : role) (r : rspec) : Prop :=
  match out with Same => r = RName "unit"%string | _ => r = RFalse \/ r = RUnit unit_one end.
Definition has_same (ros : list role) : bool := existsb (fun r => match r with Same => true | _ => false end) ros.
Definition starts_same (ros : list role) : bool := match ros with Same :: _ => true | _ => false end.
Lemma role_row name ros out : In (name, ros, out) role_table ->
  existsb (String.eqb name) forbidden = false /\ (exists r, lookup_spec name = Spec (map pspec_of ros) PNone (OLeaf r) /\ ret_ok out r) /\
  (starts_same ros = true \/ has_same ros = false /\ out = Pure).
Proof.
  intros H. unfold role_table in H. in_table H; inversion H; subst; clear H;
    (split; [vm_compute; reflexivity|]; split; [eexists; split; [vm_compute; reflexivity|first [reflexivity|left; reflexivity|right; reflexivity]]|
      first [left; reflexivity|right; split; reflexivity]]).
Qed.
Lemma roles_good ros : Forall good_spec (PNone :: map pspec_of ros).
Proof. constructor; [exact I|]. induction ros as [|[]]; simpl; constructor; auto; try exact I. apply good_one. Qed.
Lemma roles_closed ros : forall seen, row_closed seen (map pspec_of ros) = true.
Proof. induction ros as [|[] ros IH]; simpl; auto. Qed.
Lemma roles_names ros : In "unit"%string (row_names (map pspec_of ros) PNone) <-> has_same ros = true.
Proof.
  unfold row_names. simpl. rewrite app_nil_r. induction ros as [|[] ros IH]; simpl; [split; [contradiction|discriminate]|tauto|exact IH|exact IH].
Qed.
Lemma starts_has ros : starts_same ros = true -> has_same ros = true.
Proof. destruct ros as [|[]]; simpl; auto; discriminate. Qed.
Lemma roles_row_ok ros out r : ret_ok out r -> (starts_same ros = true \/ has_same ros = false /\ out = Pure) ->
  row_ok (map pspec_of ros) PNone r = true.
Proof.
  intros Hr Hs. unfold row_ok. rewrite roles_closed. simpl. destruct out; simpl in Hr.
  - subst. simpl. apply mem_in, roles_names. destruct Hs as [Hs|[_ Hs]]; [apply starts_has, Hs|discriminate].
  - destruct Hr as [->| ->]; reflexivity.
  - destruct Hr as [->| ->]; reflexivity.
Qed.
Lemma ret_simple out r : ret_ok out r -> simple_ret r.
Proof. destruct out; simpl; [intros ->; exact I| |]; intros [->| ->]; try exact I; apply good_one. Qed.
Lemma roles_fits ros : forall xs, params_bare ros xs -> fits (map pspec_of ros) PNone xs.
Proof.
  induction ros as [|[] ros IH]; intros xs H.
  - revert H. induction xs as [|x xs IHx]; simpl; [auto|]. intros [H1 H2]. split; auto.
  - destruct xs; simpl in *; [exact I|]. destruct H. split; [discriminate|auto].
  - destruct xs; simpl in *; [exact I|]. destruct H. split; [discriminate|auto].
  - destruct xs; simpl in *; [exact I|]. destruct H. split; auto.
Qed.
Lemma roles_naming_seen ros : forall xs seen, In "unit"%string seen -> naming seen (map pspec_of ros) PNone xs.
Proof.
  induction ros as [|[] ros IH]; intros xs seen H; [apply naming_none| | |]; destruct xs; simpl; auto. split; [auto|]. apply IH. right. exact H.
Qed.
Lemma roles_naming_none ros : forall xs seen, has_same ros = false -> naming seen (map pspec_of ros) PNone xs.
Proof.
  induction ros as [|[] ros IH]; intros xs seen H; [apply naming_none| | |]; destruct xs; simpl in *; auto; try discriminate.
Qed.
Lemma roles_naming ros x xs : (starts_same ros = true \/ has_same ros = false) -> (hd Param ros = Same -> numeric x) ->
  naming [] (map pspec_of ros) PNone (x :: xs).
Proof.
  intros [H|H] Hx; [|apply roles_naming_none, H]. destruct ros as [|[] ros]; try discriminate. simpl. split; [auto|].
  apply roles_naming_seen. left. reflexivity.
Qed.
Lemma roles_agree d ros : forall xs, meet_all (d "unit"%string) ros xs -> agree d (map pspec_of ros) PNone xs.
Proof.
  induction ros as [|ro ros IH]; intros xs H; [apply agree_none|]. destruct xs as [|x xs]; simpl in *; [exact I|]. destruct H as [H1 H2].
  split; [|apply IH, H2]. destruct ro; simpl in *; intros N Hx k; [apply H1, Hx|apply (H1 Hx)|contradiction N; reflexivity].
Qed.
Lemma roles_rep d ros : Forall (spec_rep d) (map pspec_of ros).
Proof. induction ros as [|[] ros IH]; simpl; constructor; auto; exact I. Qed.
Lemma roles_express s ros : forall rs, express s (map pspec_of ros) PNone rs = rescale (/ s "unit"%string) ros rs.
Proof.
  induction ros as [|ro ros IH]; intros rs; [apply express_none|]. destruct rs as [|r rs]; [destruct ro; reflexivity|].
  destruct ro; simpl; rewrite IH; try reflexivity; rewrite Rinv_1, rscale_1; reflexivity.
Qed.
Lemma meet_params d ros : forall xs, meet_all d ros xs -> params_bare ros xs.
Proof.
  induction ros as [|ro ros IH]; induction xs as [|x xs IHx]; simpl; auto.
  - intros [H1 H2]. split; auto.
  - intros [H1 H2]. split; [destruct ro; auto|]. apply IH, H2.
Qed.

Theorem C20_roles : forall env name ros out g x xs, In (name, ros, out) role_table ->
  (length ros <= length (x :: xs))%nat -> Forall operand (x :: xs) -> (hd Param ros = Same -> numeric x) ->
  meet_all (dim_of x) ros (x :: xs) ->
  consistent ros out g (map phys (x :: xs)) -> (out = Same -> tfloat (g (map phys (x :: xs))) = true) ->
  exists z, call env name g (x :: xs) = Val z /\ phys z = RTen (g (map phys (x :: xs))) /\
    forall k, dim_of z k = match out with Same => dim_of x k | _ => 0%Qc end.
Proof.
  intros env name ros out g x xs Hin Hlen Hop Hx Hmeet Hg Hft. destruct (role_row name ros out Hin) as (Hf & (r & Hl & Hr) & Hst).
  destruct (call_sound env name (map pspec_of ros) PNone r g (x :: xs) (fun _ => dim_of x)) as (z & E & P & D); auto.
  - eapply roles_row_ok; eassumption.
  - rewrite map_length. exact Hlen.
  - apply roles_good.
  - eapply ret_simple; eassumption.
  - apply roles_fits. eapply meet_params, Hmeet.
  - apply roles_naming; tauto.
  - destruct out; simpl in Hr; [subst; auto|tauto|tauto].
  - intros s Hs. rewrite roles_express, Hg by apply Rinv_0_lt_compat, Hs. destruct out; simpl in Hr.
    + subst. reflexivity.
    + destruct Hr as [->| ->]; simpl; rewrite Rinv_1, tscale_1; reflexivity.
    + destruct Hr as [->| ->]; simpl; rewrite Rinv_1, tscale_1; reflexivity.
  - apply roles_rep.
  - destruct out; simpl in Hr; [subst; exact I| |]; destruct Hr as [->| ->]; exact I.
  - apply roles_agree, Hmeet.
  - exists z. split; [exact E|]. split; [exact P|]. intros k. rewrite D. destruct out; simpl in Hr; [subst; reflexivity| |]; destruct Hr as [->| ->]; reflexivity.
Qed.
Print Assumptions C20_roles.

(** and the errors: a call is rejected exactly when some operand does not meet its role *)
Lemma agree_w_roles d ros : forall xs, params_bare ros xs -> agree_w d (map pspec_of ros) PNone xs -> meet_all (d "unit"%string) ros xs.
Proof.
  induction ros as [|ro ros IH]; induction xs as [|x xs IHx]; simpl; auto.
  - intros [P1 P2] [H1 H2]. split; auto.
  - intros [P1 P2] [H1 H2]. split; [|apply IH; assumption]. destruct ro; simpl in *; auto.
    + intros N k. apply H1; auto. discriminate.
    + intros N k. apply H1; auto. discriminate.
Qed.
Lemma meet_ext d d' ros : forall xs, (has_same ros = true -> forall k, d k = d' k) -> meet_all d ros xs -> meet_all d' ros xs.
Proof.
  induction ros as [|ro ros IH]; induction xs as [|x xs IHx]; simpl; auto.
  - intros E [H1 H2]. split; auto.
  - intros E [H1 H2]. split.
    + destruct ro; simpl in *; auto. intros N k. rewrite H1 by exact N. apply E. reflexivity.
    + apply IH; [|exact H2]. intros H. apply E. rewrite H. apply orb_true_r.
Qed.
Theorem C19_roles : forall env name ros out g x xs, In (name, ros, out) role_table ->
  (length ros <= length (x :: xs))%nat -> Forall operand (x :: xs) -> (hd Param ros = Same -> numeric x) ->
  params_bare ros (x :: xs) ->
  (call env name g (x :: xs) = Raise EUnitError <-> ~ meet_all (dim_of x) ros (x :: xs)) /\
  (meet_all (dim_of x) ros (x :: xs) -> exists z, call env name g (x :: xs) = Val z).
Proof.
  intros env name ros out g x xs Hin Hlen Hop Hx Hp. destruct (role_row name ros out Hin) as (Hf & (r & Hl & Hr) & Hst).
  assert (Hlen' : (length (map pspec_of ros) <= length (x :: xs))%nat) by (rewrite map_length; exact Hlen).
  assert (Acc : meet_all (dim_of x) ros (x :: xs) -> exists z, call env name g (x :: xs) = Val z).
  { intros Hm. apply (call_accepts env name (map pspec_of ros) PNone r g (x :: xs) (fun _ => dim_of x)); auto.
    - eapply roles_row_ok; eassumption.
    - apply roles_good.
    - eapply ret_simple; eassumption.
    - apply roles_naming; tauto.
    - apply roles_rep.
    - apply roles_agree, Hm. }
  split; [|exact Acc]. split.
  - intros E Hm. destruct (Acc Hm) as [z Hz]. congruence.
  - intros Hm. destruct (call_rejects env name (map pspec_of ros) PNone r g (x :: xs)) as [E|(z & d & E & A & _)]; auto.
    + eapply roles_row_ok; eassumption.
    + apply roles_good.
    + eapply ret_simple; eassumption.
    + exfalso. apply Hm. apply agree_w_roles in A; [|exact Hp]. eapply meet_ext; [|exact A]. intros Hs k.
      destruct Hst as [Hst|[Hst _]]; [|congruence]. destruct ros as [|[] ros]; try discriminate. simpl in A. destruct A as [A _]. simpl in A.
      symmetry. apply A. apply Hx. reflexivity.
Qed.
Print Assumptions C19_roles.

(** linear interpolation, selection, ... computed on physical values *)
Theorem C20_role_functions : forall env name ros out h x xs, In (name, ros, out, h) role_functions ->
  (length ros <= length (x :: xs))%nat -> Forall operand (x :: xs) -> (hd Param ros = Same -> numeric x) ->
  meet_all (dim_of x) ros (x :: xs) ->
  exists z, call env name (elementwise true h) (x :: xs) = Val z /\ phys z = RTen (elementwise true h (map phys (x :: xs))) /\
    forall k, dim_of z k = match out with Same => dim_of x k | _ => 0%Qc end.
Proof.
  intros env name ros out h x xs Hin Hlen Hop Hx Hm.
  destruct (role_functions_consistent name ros out h (map phys (x :: xs)) true Hin) as [Hin' Hc]; [rewrite map_length; exact Hlen|].
  apply C20_roles with (ros := ros); auto. intros _. unfold elementwise. destruct (first_tensor _); reflexivity.
Qed.
Print Assumptions C20_role_functions.

(** ** a + alpha*b and the like *)
Definition dims_add (x y : leaf) := assign [("unit"%string, dim_of x); ("unit2"%string, dim_of y)].
Lemma add_call env name ps h x y a flags nx ny :
  existsb (String.eqb name) forbidden = false -> lookup_spec name = Spec ps PNone (OLeaf (RName "unit")) ->
  ps = [PName nx; PName ny; PEval (EDiv (EName "unit") (EName "unit2"))] -> (nx, ny) = ("unit", "unit2")%string \/ (nx, ny) = ("unit2", "unit")%string ->
  (forall s vs, length vs = length (map phys (x :: y :: a :: flags)) -> (forall n, 0 < s n) -> h (express_num s ps PNone vs) = / s "unit"%string * h vs) ->
  numeric x -> numeric y -> numeric a -> Forall flag flags ->
  let u := if String.eqb nx "unit" then x else y in let v := if String.eqb nx "unit" then y else x in
  (forall k, dim_of a k = (dim_of u k - dim_of v k)%Qc) -> (forall k, (fden (dim_of a k) <= 1000000)%Z) ->
  exists z, call env name (elementwise true h) (x :: y :: a :: flags) = Val z /\
    phys z = RTen (elementwise true h (map phys (x :: y :: a :: flags))) /\ same_dimension z u.
Proof.
  intros Hf Hl Hps Hn Hlaw Hx Hy Ha Hfl u v Hd Hrep. destruct (flags_bare _ Hfl) as [Hb Ho].
  destruct (call_sound env name ps PNone (RName "unit") (elementwise true h) (x :: y :: a :: flags) (dims_add u v)) as (z & E & P & D); auto.
  - subst ps. destruct Hn as [Hn|Hn]; inversion Hn; subst; reflexivity.
  - subst ps. simpl. lia.
  - subst ps. apply good_specs_names. reflexivity.
  - exact I.
  - repeat constructor; auto using numeric_operand.
  - subst ps. simpl. repeat (split; [discriminate|]). apply fits_bare, Hb.
  - subst ps. simpl. repeat (split; [auto|]). apply naming_none.
  - right. right. unfold elementwise. destruct (first_tensor _); reflexivity.
  - apply elementwise_law. exact Hlaw.
  - subst ps. repeat constructor. simpl. intros k. specialize (Hd k). specialize (Hrep k). rewrite Hd in Hrep. exact Hrep.
  - exact I.
  - subst ps. simpl. subst u v. destruct Hn as [Hn|Hn]; inversion Hn; subst; simpl in *;
      (split; [intros _ _ k; reflexivity|]; split; [intros _ _ k; reflexivity|]; split; [intros _ _ k; apply Hd|]; apply agree_none).
  - exists z. split; [exact E|]. split; [exact P|]. intros k. rewrite D. reflexivity.
Qed.

(** ** C22 *)
Theorem C22_sum : forall env name f x y a flags, In (name, f) scaled_functions -> name <> "rsub"%string ->
  numeric x -> numeric y -> numeric a -> Forall flag flags ->
  (forall k, dim_of a k = (dim_of x k - dim_of y k)%Qc) -> (forall k, (fden (dim_of a k) <= 1000000)%Z) ->
  exists z, call env name (elementwise true (arg3 f)) (x :: y :: a :: flags) = Val z /\
    phys z = RTen (elementwise true (arg3 f) (map phys (x :: y :: a :: flags))) /\ same_dimension z x.
Proof.
  intros env name f x y a flags Hin Hne Hx Hy Ha Hfl Hd Hrep.
  in_table Hin; inversion Hin; subst; clear Hin; try (contradiction Hne; reflexivity);
    (eapply (add_call env _ row_add _ x y a flags "unit" "unit2"); auto; try match goal with |- _ = _ => vm_compute; reflexivity end; intros s vs _ Hs).
  - apply law_add, Hs.
  - apply law_sub, Hs.
  - apply law_sub, Hs.
Qed.
Print Assumptions C22_sum.
Theorem C22_rsub : forall env x y a flags,
  numeric x -> numeric y -> numeric a -> Forall flag flags ->
  (forall k, dim_of a k = (dim_of y k - dim_of x k)%Qc) -> (forall k, (fden (dim_of a k) <= 1000000)%Z) ->
  exists z, call env "rsub" (elementwise true (arg3 (fun x y a => y - a * x))) (x :: y :: a :: flags) = Val z /\
    phys z = RTen (elementwise true (arg3 (fun x y a => y - a * x)) (map phys (x :: y :: a :: flags))) /\ same_dimension z y.
Proof.
  intros env x y a flags Hx Hy Ha Hfl Hd Hrep.
  eapply (add_call env _ row_rsub _ x y a flags "unit2" "unit"); auto; try match goal with |- _ = _ => vm_compute; reflexivity end; intros s vs _ Hs.
  apply law_rsub, Hs.
Qed.
Print Assumptions C22_rsub.

(** ** x + v*y*z, x + v*y/z and beta*a + alpha*(b @ c) *)
Local Open Scope string_scope.
Definition row_addcmul := [PName "unit"; PName "unit1"; PName "unit2"; PEval (EDiv (EName "unit") (EMul (EName "unit1") (EName "unit2")))].
Definition row_addcdiv := [PName "unit"; PName "unit1"; PName "unit2"; PEval (EDiv (EMul (EName "unit") (EName "unit2")) (EName "unit1"))].
Definition dims3 (x y z : leaf) := assign [("unit", dim_of x); ("unit1", dim_of y); ("unit2", dim_of z)].
Theorem C20_addcmul : forall env x y z v flags, numeric x -> numeric y -> numeric z -> numeric v -> Forall flag flags ->
  (forall k, dim_of v k = (dim_of x k - (dim_of y k + dim_of z k))%Qc) ->
  (forall k, (fden (dim_of y k + dim_of z k)%Qc <= 1000000)%Z) -> (forall k, (fden (dim_of v k) <= 1000000)%Z) ->
  let g := elementwise true (arg4 (fun x y z v => x + v * (y * z))) in
  exists r, call env "addcmul" g (x :: y :: z :: v :: flags) = Val r /\ phys r = RTen (g (map phys (x :: y :: z :: v :: flags))) /\ same_dimension r x.
Proof.
  intros env x y z v flags Hx Hy Hz Hv Hfl Hd Hr1 Hr2 g. destruct (flags_bare _ Hfl) as [Hb Ho].
  destruct (call_sound env "addcmul" row_addcmul PNone (RName "unit") g (x :: y :: z :: v :: flags) (dims3 x y z)) as (r & E & P & D); auto.
  - simpl. lia.
  - apply good_specs_names. reflexivity.
  - exact I.
  - repeat constructor; auto using numeric_operand.
  - simpl. repeat (split; [discriminate|]). apply fits_bare, Hb.
  - simpl. repeat (split; [auto|]). apply naming_none.
  - right. right. unfold g, elementwise. destruct (first_tensor _); reflexivity.
  - apply elementwise_law. intros s vs L Hs. destruct vs as [|a1 [|a2 [|a3 [|a4 vs]]]]; simpl in L; try discriminate. simpl.
    pose proof (Hs "unit"). pose proof (Hs "unit1"). pose proof (Hs "unit2"). field. lra.
  - repeat constructor; simpl; auto. intros k. specialize (Hd k). specialize (Hr2 k). rewrite Hd in Hr2. exact Hr2.
  - exact I.
  - simpl. repeat (split; [intros _ _ k; reflexivity|]). split; [intros _ _ k; apply Hd|]. apply agree_none.
  - exists r. split; [exact E|]. split; [exact P|]. intros k. rewrite D. reflexivity.
Qed.
Print Assumptions C20_addcmul.
Theorem C20_addcdiv : forall env x y z v flags, numeric x -> numeric y -> numeric z -> numeric v -> Forall flag flags ->
  (forall k, dim_of v k = (dim_of x k + dim_of z k - dim_of y k)%Qc) ->
  (forall k, (fden (dim_of x k + dim_of z k)%Qc <= 1000000)%Z) -> (forall k, (fden (dim_of v k) <= 1000000)%Z) ->
  let g := elementwise true (arg4 (fun x y z v => x + v * (y / z))) in
  exists r, call env "addcdiv" g (x :: y :: z :: v :: flags) = Val r /\ phys r = RTen (g (map phys (x :: y :: z :: v :: flags))) /\ same_dimension r x.
Proof.
  intros env x y z v flags Hx Hy Hz Hv Hfl Hd Hr1 Hr2 g. destruct (flags_bare _ Hfl) as [Hb Ho].
  destruct (call_sound env "addcdiv" row_addcdiv PNone (RName "unit") g (x :: y :: z :: v :: flags) (dims3 x y z)) as (r & E & P & D); auto.
  - simpl. lia.
  - apply good_specs_names. reflexivity.
  - exact I.
  - repeat constructor; auto using numeric_operand.
  - simpl. repeat (split; [discriminate|]). apply fits_bare, Hb.
  - simpl. repeat (split; [auto|]). apply naming_none.
  - right. right. unfold g, elementwise. destruct (first_tensor _); reflexivity.
  - apply elementwise_law. intros s vs L Hs. destruct vs as [|a1 [|a2 [|a3 [|a4 vs]]]]; simpl in L; try discriminate. simpl.
    pose proof (Hs "unit"). pose proof (Hs "unit1"). pose proof (Hs "unit2"). unfold Rdiv. rewrite !Rinv_mult, !Rinv_inv. generalize (/ a3). intros i3. field. lra.
  - repeat constructor; simpl; auto. intros k. specialize (Hd k). specialize (Hr2 k). rewrite Hd in Hr2. exact Hr2.
  - exact I.
  - simpl. repeat (split; [intros _ _ k; reflexivity|]). split; [intros _ _ k; apply Hd|]. apply agree_none.
  - exists r. split; [exact E|]. split; [exact P|]. intros k. rewrite D. reflexivity.
Qed.
Print Assumptions C20_addcdiv.

Definition row_addmm := [PName "a"; PName "b1"; PName "b2"; PName "beta";
  PEval (EDiv (EMul (EName "beta") (EName "a")) (EMul (EName "b1") (EName "b2")))].
Definition dims_addmm (a b c beta : leaf) := assign [("a", dim_of a); ("b1", dim_of b); ("b2", dim_of c); ("beta", dim_of beta)].
(** [g]: any function of the form beta*a + alpha*(product of b and c) *)
Definition affine (g : list raw -> tensor) : Prop := forall s1 s2 s3 s4 s5 c a b1 b2 be al rs,
  0 < s1 -> 0 < s2 -> 0 < s3 -> 0 < s4 -> 0 < s5 -> s4 * s1 = c -> s5 * (s2 * s3) = c ->
  g (rscale s1 a :: rscale s2 b1 :: rscale s3 b2 :: rscale s4 be :: rscale s5 al :: rs) = tscale c (g (a :: b1 :: b2 :: be :: al :: rs)).
Lemma addmm_affine : affine addmm.
Proof.
  intros s1 s2 s3 s4 s5 c a b1 b2 be al rs _ _ _ _ _ E1 E2. unfold addmm.
  destruct a as [t1| | | |]; simpl; try (symmetry; apply empty_scale). destruct b1 as [t2| | | |]; simpl; try (symmetry; apply empty_scale).
  destruct b2 as [t3| | | |]; simpl; try (symmetry; apply empty_scale). destruct be as [|be| | |]; simpl; try (symmetry; apply empty_scale).
  destruct al as [|al| | |]; simpl; try (symmetry; apply empty_scale).
  destruct (tshape t2) as [|n [|m [|]]]; try (symmetry; apply empty_scale). destruct (tshape t3) as [|n' [|p [|]]]; try (symmetry; apply empty_scale).
  rewrite matrix_scale. apply matrix_ext. intros i j _ _. rewrite entry_scale.
  rewrite (sum_to_ext _ _ (fun k => s2 * s3 * (entry t2 m i k * entry t3 p k j))) by (intros; rewrite !entry_scale; ring).
  rewrite sum_to_scale, Rmult_plus_distr_l. f_equal; [rewrite <- E1; ring|rewrite <- E2; ring].
Qed.
Theorem C20_addmm : forall env name g a b c beta alpha flags, In name ["addmm"; "addbmm"; "baddbmm"; "addmv"; "addr"] ->
  numeric a -> numeric b -> numeric c -> numeric beta -> numeric alpha -> Forall flag flags -> affine g ->
  (forall k, dim_of alpha k = (dim_of beta k + dim_of a k - (dim_of b k + dim_of c k))%Qc) ->
  (forall k, (fden (dim_of beta k + dim_of a k)%Qc <= 1000000)%Z) -> (forall k, (fden (dim_of b k + dim_of c k)%Qc <= 1000000)%Z) ->
  (forall k, (fden (dim_of alpha k) <= 1000000)%Z) -> tfloat (g (map phys (a :: b :: c :: beta :: alpha :: flags))) = true ->
  exists r, call env name g (a :: b :: c :: beta :: alpha :: flags) = Val r /\
    phys r = RTen (g (map phys (a :: b :: c :: beta :: alpha :: flags))) /\ forall k, dim_of r k = (dim_of beta k + dim_of a k)%Qc.
Proof.
  intros env name g a b c beta alpha flags Hin Ha Hb Hc Hbe Hal Hfl Hg Hd R1 R2 R3 Hft. destruct (flags_bare _ Hfl) as [Hba Ho].
  assert (Hrow : existsb (String.eqb name) forbidden = false /\ lookup_spec name =
    Spec row_addmm PNone (OLeaf (RFun ["a"; "beta"] true (OLeaf (XU (EMul (EName "a") (EName "beta"))))))).
  { in_table Hin; subst; split; vm_compute; reflexivity. }
  destruct Hrow as [Hf Hl].
  destruct (call_sound env name row_addmm PNone (RFun ["a"; "beta"] true (OLeaf (XU (EMul (EName "a") (EName "beta"))))) g
    (a :: b :: c :: beta :: alpha :: flags) (dims_addmm a b c beta)) as (r & E & P & D); auto.
  - simpl. lia.
  - apply good_specs_names. reflexivity.
  - exact I.
  - repeat constructor; auto using numeric_operand.
  - simpl. repeat (split; [discriminate|]). apply fits_bare, Hba.
  - simpl. repeat (split; [auto|]). apply naming_none.
  - intros s Hs. simpl. rewrite express_none. pose proof (Hs "a"). pose proof (Hs "b1"). pose proof (Hs "b2"). pose proof (Hs "beta").
    apply Hg; try (apply Rinv_0_lt_compat; assumption); try (field; lra).
    apply Rinv_0_lt_compat. apply Rdiv_lt_0_compat; apply Rmult_lt_0_compat; assumption.
  - repeat constructor; simpl; auto. intros k. specialize (Hd k). specialize (R3 k). rewrite Hd in R3. exact R3.
  - simpl. repeat split; auto. intros k. specialize (R1 k). rewrite Qcplus_comm in R1. exact R1.
  - simpl. repeat (split; [intros _ _ k; reflexivity|]). split; [intros _ _ k; apply Hd|]. apply agree_none.
  - exists r. split; [exact E|]. split; [exact P|]. intros k. rewrite D. simpl. apply Qcplus_comm.
Qed.
Print Assumptions C20_addmm.

(** ** re-expressing operands in other units of the same dimension does not change the physical result *)
Definition same_physical (x x' : leaf) : Prop := phys x = phys x' /\ same_dimension x x'.
Lemma same_physical_map xs xs' : Forall2 same_physical xs xs' -> map phys xs' = map phys xs.
Proof. induction 1 as [|? ? ? ? []]; simpl; congruence. Qed.
Lemma same_physical_in xs xs' : Forall2 same_physical xs xs' -> forall y', In y' xs' -> exists y, In y xs /\ same_physical y y'.
Proof.
  induction 1 as [|a b l m H HF IH]; intros y' Hy; [destruct Hy|]. destruct Hy as [<-|Hy]; [exists a; simpl; auto|].
  destruct (IH y' Hy) as (y & Hin & S). exists y. simpl. auto.
Qed.
Theorem C20_unit_independent : forall env name h x xs x' xs', In (name, h) shared_functions ->
  Forall numeric (x :: xs) -> Forall numeric (x' :: xs') -> (forall y, In y xs -> same_dimension x y) ->
  Forall2 same_physical (x :: xs) (x' :: xs') ->
  exists z z', call env name (elementwise true h) (x :: xs) = Val z /\ call env name (elementwise true h) (x' :: xs') = Val z' /\ same_physical z z'.
Proof.
  intros env name h x xs x' xs' Hin H H' Hd HF. pose proof (same_physical_map _ _ HF) as M. inversion HF as [|? ? ? ? [Hp Hsd] HF']; subst.
  assert (Hd' : forall y, In y xs' -> same_dimension x' y).
  { intros y' Hy k. destruct (same_physical_in _ _ HF' y' Hy) as (y & Hy' & [_ E]). rewrite <- (Hsd k), <- (E k). apply Hd, Hy'. }
  destruct (C20_shared env name h x xs Hin H Hd) as (z & E & P & D). destruct (C20_shared env name h x' xs' Hin H' Hd') as (z' & E' & P' & D').
  exists z, z'. split; [exact E|]. split; [exact E'|]. split; [rewrite P, P', M; reflexivity|]. intros k. rewrite (D k), (D' k). apply Hsd.
Qed.
Print Assumptions C20_unit_independent.
Theorem C20_product_unit_independent : forall env name g x y x' y' flags, In name product_names ->
  numeric x -> numeric y -> numeric x' -> numeric y' -> Forall flag flags -> proportional 1 1 g -> tfloat (g (map phys (x :: y :: flags))) = true ->
  (forall k, (fden (dim_of x k + dim_of y k)%Qc <= 1000000)%Z) -> same_physical x x' -> same_physical y y' ->
  exists z z', call env name g (x :: y :: flags) = Val z /\ call env name g (x' :: y' :: flags) = Val z' /\ same_physical z z'.
Proof.
  intros env name g x y x' y' flags Hin Hx Hy Hx' Hy' Hfl Hg Hft Hr [Px Dx] [Py Dy].
  destruct (C20_product env name g x y flags Hin Hx Hy Hfl Hg Hft Hr) as (z & E & P & D).
  destruct (C20_product env name g x' y' flags Hin Hx' Hy' Hfl Hg) as (z' & E' & P' & D').
  { simpl. rewrite <- Px, <- Py. exact Hft. }
  { intros k. rewrite <- (Dx k), <- (Dy k). apply Hr. }
  exists z, z'. split; [exact E|]. split; [exact E'|]. split; [rewrite P, P'; simpl; rewrite Px, Py; reflexivity|].
  intros k. rewrite D, D', (Dx k), (Dy k). reflexivity.
Qed.
Print Assumptions C20_product_unit_independent.
