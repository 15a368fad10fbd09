(** * Property C54: gradients of inverse functions (InverseMixin) *)
From Coq Require Import String List Bool Arith Lia Reals Lra.
From Coquelicot Require Import Rbar Hierarchy Continuity Derive Derive_2d Complex Rcomplements.
From Verif Require Import FuncCtx FuncCtxSpec Prop_Func.
Import ListNotations.
Open Scope list_scope.

Lemma rev_snoc {V} (l : list V) y : rev (l ++ [y]) = y :: rev l. Proof. apply rev_unit. Qed.
Lemma skip_pre {V} (pre l : list V) k : skipn (length pre + k) (pre ++ l) = skipn k l.
Proof. induction pre as [|x pre IH]; [reflexivity|exact IH]. Qed.
(** The forward function's saved tensors are recovered: the solution goes to the place of the variable,
    and the value that was inverted becomes the output. *)
Theorem C54_reorder : forall (V : Type) pre (v : V) post y,
  reorder (length pre) (pre ++ [v] ++ post ++ [y]) = (pre ++ [y] ++ post) ++ [v].
Proof.
  intros V pre v post y. unfold reorder.
  replace (firstn (length pre) (pre ++ [v] ++ post ++ [y])) with pre by (rewrite firstn_app, firstn_all, Nat.sub_diag; cbn [firstn]; rewrite app_nil_r; reflexivity).
  replace (rev (pre ++ [v] ++ post ++ [y])) with (y :: rev (pre ++ [v] ++ post)) by (rewrite <- rev_snoc; f_equal; rewrite <- !app_assoc; reflexivity).
  rewrite skip_pre. cbn [app skipn].
  replace (length (pre ++ v :: post ++ [y]) - 1 - (length pre + 1))%nat with (length post) by (rewrite !app_length; cbn [length]; rewrite app_length; cbn [length]; lia).
  rewrite firstn_app, firstn_all, Nat.sub_diag. cbn [firstn]. rewrite app_nil_r.
  rewrite nth_error_app2, Nat.sub_diag by lia. cbn [nth_error]. rewrite <- app_assoc. reflexivity.
Qed.
Print Assumptions C54_reorder.

(** The gradient rules of an inverse class: 1/f_x in the slot of the inverted variable, - f_p / f_x in the slot of
    every parameter p, all evaluated at the solution. [fwd] are the forward class's rules. *)
Definition plain_rules (fwd : list gradfn) : Prop :=
  NoDup fwd /\ forall gf, In gf fwd -> exists r, gf = GFun r.
Lemma kind_eqb_eq a b : kind_eqb a b = true <-> a = b. Proof. destruct a, b; cbn; split; congruence. Qed.
Lemma raw_eqb_eq a b : raw_eqb a b = true <-> a = b.
Proof.
  destruct a as [a1 a2 a3], b as [b1 b2 b3]. unfold raw_eqb. cbn. rewrite !andb_true_iff, !String.eqb_eq, kind_eqb_eq. split; [intros ((-> & ->) & ->); reflexivity|intros E; injection E; auto].
Qed.
Lemma index_nth fwd : plain_rules fwd -> forall i gf, nth_error fwd i = Some gf -> index_of gf fwd = Some i.
Proof.
  intros [ND P]. induction fwd as [|g fwd IH]; intros [|i] gf E; try discriminate; cbn [nth_error index_of] in *.
  - injection E as <-. destruct (P g (or_introl eq_refl)) as (r & ->). cbn. rewrite (proj2 (raw_eqb_eq r r) eq_refl). reflexivity.
  - inversion ND as [|x l Hx ND']; subst. assert (Hin : In gf fwd) by (eapply nth_error_In, E).
    destruct (P g (or_introl eq_refl)) as (r & ->). destruct (P gf (or_intror Hin)) as (s & ->). cbn.
    destruct (raw_eqb s r) eqn:X; [apply raw_eqb_eq in X; subst; contradiction|]. rewrite (IH ND' (fun z H => P z (or_intror H)) i _ E). reflexivity.
Qed.
Lemma is_nth fwd : plain_rules fwd -> forall i j gf gf', nth_error fwd i = Some gf -> nth_error fwd j = Some gf' -> gf_is gf' gf = Nat.eqb j i.
Proof.
  intros [ND P] i j gf gf' Hi Hj. destruct (P gf (nth_error_In _ _ Hi)) as (r & ->). destruct (P gf' (nth_error_In _ _ Hj)) as (s & ->). cbn.
  destruct (Nat.eqb_spec j i) as [->|N].
  - assert (r = s) by congruence. subst. apply raw_eqb_eq. reflexivity.
  - destruct (raw_eqb s r) eqn:X; [|reflexivity]. apply raw_eqb_eq in X. subst. exfalso. apply N.
    rewrite NoDup_nth_error in ND. apply ND; [apply nth_error_Some; congruence|congruence].
Qed.
Lemma inverse_class own rest fwd inv_var i k : inverse_init own rest fwd inv_var = Some (i, k) ->
  cd_auto own = None -> look cd_auto false rest = false -> cd_ninputs own = None -> look cd_ninputs None rest = None ->
  index_of inv_var fwd = Some i /\ gradfuncs k = Some (map GInv fwd) /\ ninputs k = Some (length fwd) /\ differentiable k = true.
Proof.
  unfold inverse_init. destruct (index_of inv_var fwd) as [i'|]; [|discriminate]. intros E A1 A2 N1 N2. injection E as <- <-. split; [reflexivity|].
  unfold init_subclass. cbn [look cd_gradfuncs cd_auto cd_ninputs cd_diff cd_name cd_vars cd_update cd_back]. rewrite A1, A2, N1, N2. cbn [andb].
  unfold gradfuncs, ninputs, differentiable. cbn [cd_gradfuncs cd_ninputs cd_diff option_map]. rewrite !map_map, map_length. cbn [bind]. 
  split; [reflexivity|]. split; [reflexivity|]. destruct (existsb cd_back _); reflexivity.
Qed.
Theorem C54_slots : forall own rest fwd i inv_var k, plain_rules fwd -> nth_error fwd i = Some inv_var ->
  inverse_init own rest fwd inv_var = Some (i, k) ->
  cd_auto own = None -> look cd_auto false rest = false -> cd_ninputs own = None -> look cd_ninputs None rest = None ->
  forall proc semf mask pre v post y g, length pre = i -> length (pre ++ [v] ++ post) = length fwd -> length mask = length fwd ->
  let saved := pre ++ [v] ++ post ++ [y] in let at_solution := (pre ++ [y] ++ post) ++ [v] in
  exists gfs r, gradfuncs k = Some gfs /\ backward proc (ninputs k) (backward_ (inverse_sem semf i inv_var) gfs mask saved) [Some g] = Some r /\
    length r = length fwd /\
    forall j needed rule, nth_error mask j = Some needed -> nth_error fwd j = Some rule ->
      nth_error r j = Some (if needed then Some (proc (if Nat.eqb j i then RtoC 1 / semf inv_var at_solution
                                                       else - semf rule at_solution * (RtoC 1 / semf inv_var at_solution)) * g)%C else None).
Proof.
  intros own rest fwd i inv_var k P Hi E A1 A2 N1 N2 proc semf mask pre v post y g Lp Lf Lm saved at_solution.
  destruct (inverse_class own rest fwd inv_var i k E A1 A2 N1 N2) as (_ & G & N & _).
  destruct (C53_backward proc (inverse_sem semf i inv_var) (map GInv fwd) mask saved g (length fwd)) as (r & Hr & Lr & Sr); [apply map_length|exact Lm|].
  exists (map GInv fwd), r. rewrite N. split; [exact G|]. split; [exact Hr|]. split; [exact Lr|].
  intros j needed rule H1 H2. rewrite (Sr j needed (GInv rule) H1); [|rewrite nth_error_map, H2; reflexivity].
  unfold slot. destruct needed; [|reflexivity]. do 4 f_equal. unfold inverse_sem. rewrite (is_nth fwd P i j inv_var rule Hi H2).
  unfold saved. rewrite <- Lp, C54_reorder. reflexivity.
Qed.
Print Assumptions C54_slots.
(** The two inverse classes of the package. *)
Theorem C54_package : 
  (exists k, k_Gammaincinv = Some (1%nat, k) /\ gradfuncs k = Some (map GInv (gf_list k_Gammainc)) /\ ninputs k = Some 2%nat /\ differentiable k = true) /\
  (exists k, k_Gammainccinv = Some (1%nat, k) /\ gradfuncs k = Some (map GInv (gf_list k_Gammaincc)) /\ ninputs k = Some 2%nat /\ differentiable k = true) /\
  plain_rules (gf_list k_Gammainc) /\ plain_rules (gf_list k_Gammaincc).
Proof.
  split; [eexists; repeat split; reflexivity|]. split; [eexists; repeat split; reflexivity|].
  split; (split; [vm_compute; repeat constructor; cbn; intros H; repeat destruct H as [H|H]; try discriminate; contradiction
                 |intros gf [<-|[<-|[]]]; eexists; reflexivity]).
Qed.
Print Assumptions C54_package.

(** ** The rules are the derivatives of the inverse function *)
Local Open Scope R_scope.
Lemma implicit_derive (f : R -> R -> R) (Y : R -> R) a fa fx : fx <> 0 -> differentiable_pt_lim f a (Y a) fa fx -> continuity_pt Y a ->
  locally a (fun t => f t (Y t) = f a (Y a)) -> is_derive Y a (- fa * (1 / fx)).
Proof.
  intros Hx D CY HY. apply is_derive_Reals. intros eps Heps.
  assert (Ax : 0 < Rabs fx) by (apply Rabs_pos_lt, Hx). pose proof (Rabs_pos fa) as Aa.
  set (M := 1 + 2 * (Rabs fa + Rabs fx) / Rabs fx).
  assert (HM : 0 < M) by (unfold M; assert (0 <= 2 * (Rabs fa + Rabs fx) / Rabs fx) by (apply Rmult_le_pos; [lra|apply Rlt_le, Rinv_0_lt_compat, Ax]); lra).
  set (e := Rmin (Rabs fx / 2) (eps * Rabs fx / (2 * M))).
  assert (He1 : e <= Rabs fx / 2) by apply Rmin_l. assert (He2 : e <= eps * Rabs fx / (2 * M)) by apply Rmin_r.
  assert (Hp : 0 < eps * Rabs fx / (2 * M)) by (apply Rdiv_lt_0_compat; [apply Rmult_lt_0_compat|]; lra).
  assert (He : 0 < e) by (unfold e; apply Rmin_pos; lra).
  destruct (D (mkposreal e He)) as [d1 Hd1]. cbn [pos] in Hd1. destruct HY as [d2 Hd2].
  destruct (CY d1 (cond_pos d1)) as (d3 & Hd3 & HC).
  assert (Hd : 0 < Rmin d1 (Rmin d2 d3)) by (repeat apply Rmin_pos; [apply cond_pos|apply cond_pos|exact Hd3]).
  exists (mkposreal _ Hd). intros h Hh Hlt. cbn [pos] in Hlt.
  assert (L1 : Rabs h < d1) by (eapply Rlt_le_trans; [exact Hlt|apply Rmin_l]).
  assert (L2 : Rabs h < d2) by (eapply Rlt_le_trans; [exact Hlt|eapply Rle_trans; [apply Rmin_r|apply Rmin_l]]).
  assert (L3 : Rabs h < d3) by (eapply Rlt_le_trans; [exact Hlt|eapply Rle_trans; [apply Rmin_r|apply Rmin_r]]).
  assert (EY : f (a + h) (Y (a + h)) = f a (Y a)).
  { apply Hd2. unfold ball; cbn. unfold AbsRing_ball, abs, minus, plus, opp; cbn. replace (a + h + - a) with h by ring. exact L2. }
  assert (Lk : Rabs (Y (a + h) - Y a) < d1).
  { apply (HC (a + h)). split; [split; [exact I|intros X; apply Hh; lra]|]. unfold R_met, dist; cbn. unfold R_dist. replace (a + h - a) with h by ring. exact L3. }
  set (k := Y (a + h) - Y a) in *.
  specialize (Hd1 (a + h) (Y (a + h))). replace (a + h - a) with h in Hd1 by ring. fold k in Hd1. specialize (Hd1 L1 Lk).
  rewrite EY in Hd1. replace (f a (Y a) - f a (Y a) - (fa * h + fx * k)) with (- (fa * h + fx * k)) in Hd1 by ring. rewrite Rabs_Ropp in Hd1.
  assert (Ah : 0 < Rabs h) by (apply Rabs_pos_lt, Hh).
  assert (Mx : Rmax (Rabs h) (Rabs k) <= Rabs h + Rabs k) by (apply Rmax_lub; pose proof (Rabs_pos k); lra).
  assert (B1 : Rabs k <= (M - 1) * Rabs h).
  { assert (Rabs (fx * k) <= Rabs (fa * h + fx * k) + Rabs (fa * h)).
    { replace (fx * k) with ((fa * h + fx * k) + - (fa * h)) at 1 by ring. eapply Rle_trans; [apply Rabs_triang|]. rewrite Rabs_Ropp. lra. }
    rewrite !Rabs_mult in H. assert (e * Rmax (Rabs h) (Rabs k) <= Rabs fx / 2 * (Rabs h + Rabs k)).
    { apply Rle_trans with (Rabs fx / 2 * Rmax (Rabs h) (Rabs k)).
      - apply Rmult_le_compat_r; [|exact He1]. apply Rle_trans with (Rabs h); [lra|apply Rmax_l].
      - apply Rmult_le_compat_l; [lra|exact Mx]. }
    assert (Rabs fx / 2 * Rabs k <= (Rabs fa + Rabs fx) * Rabs h) by nra.
    apply Rmult_le_reg_l with (Rabs fx / 2); [lra|]. eapply Rle_trans; [exact H1|]. unfold M. right. field. lra. }
  assert (B2 : Rmax (Rabs h) (Rabs k) <= M * Rabs h) by (eapply Rle_trans; [exact Mx|]; lra).
  match goal with |- Rabs ?A < _ => replace A with ((fa * h + fx * k) / (fx * h)) by (unfold k; field; split; assumption) end.
  unfold Rdiv. rewrite Rabs_mult, Rabs_inv, Rabs_mult. apply Rmult_lt_reg_r with (Rabs fx * Rabs h); [apply Rmult_lt_0_compat; assumption|].
  rewrite Rmult_assoc, Rinv_l, Rmult_1_r by (apply Rgt_not_eq, Rmult_lt_0_compat; assumption).
  eapply Rle_lt_trans; [exact Hd1|]. apply Rle_lt_trans with (eps * Rabs fx / (2 * M) * (M * Rabs h)).
  - apply Rmult_le_compat; [lra| |exact He2|exact B2]. apply Rle_trans with (Rabs h); [lra|apply Rmax_l].
  - replace (eps * Rabs fx / (2 * M) * (M * Rabs h)) with (eps * (Rabs fx * Rabs h) / 2) by (field; lra).
    assert (0 < eps * (Rabs fx * Rabs h)) by (apply Rmult_lt_0_compat; [exact Heps|apply Rmult_lt_0_compat; assumption]). lra.
Qed.
Lemma inverse_derive (F : R -> R) (Y : R -> R) v fx : fx <> 0 -> is_derive F (Y v) fx -> continuity_pt Y v ->
  locally v (fun t => F (Y t) = t) -> is_derive Y v (1 / fx).
Proof.
  intros Hx D CY HY. replace (1 / fx) with (- (-1) * (1 / fx)) by ring. apply (implicit_derive (fun t x => F x - t)); [exact Hx| |exact CY|].
  - intros eps. apply is_derive_Reals in D. destruct (D (eps / 1) ltac:(pose proof (cond_pos eps); lra)) as [d Hd]. exists d. intros u x Hu Hxx.
    replace (F x - u - (F (Y v) - v) - (-1 * (u - v) + fx * (x - Y v))) with (F x - F (Y v) - fx * (x - Y v)) by ring.
    destruct (Req_dec x (Y v)) as [->|N].
    + replace (F (Y v) - F (Y v) - fx * (Y v - Y v)) with 0 by ring. rewrite Rabs_R0. apply Rmult_le_pos; [apply Rlt_le, cond_pos|]. eapply Rle_trans; [apply Rabs_pos|apply Rmax_r].
    + specialize (Hd (x - Y v) ltac:(lra) Hxx). replace (Y v + (x - Y v)) with x in Hd by ring.
      replace (F x - F (Y v) - fx * (x - Y v)) with (((F x - F (Y v)) / (x - Y v) - fx) * (x - Y v)) by (field; lra).
      rewrite Rabs_mult. apply Rle_trans with (eps * Rabs (x - Y v)); [apply Rmult_le_compat_r; [apply Rabs_pos|lra]|].
      apply Rmult_le_compat_l; [apply Rlt_le, cond_pos|apply Rmax_r].
  - assert (E : F (Y v) = v) by (apply (locally_singleton _ _ HY)). rewrite E. revert HY. apply filter_imp. intros t ->. ring.
Qed.

Definition upd {V} (i : nat) (x : V) (l : list V) : list V := firstn i l ++ [x] ++ skipn (S i) l.
Lemma split_nth {V} (l : list V) i d : (i < length l)%nat -> l = firstn i l ++ [nth i l d] ++ skipn (S i) l.
Proof.
  revert i. induction l as [|x l IH]; intros [|i] H; cbn [length] in H; try lia; [reflexivity|]. cbn [firstn nth app skipn]. f_equal. apply IH. lia.
Qed.
Lemma upd_nth {V} (l : list V) i x d : (i < length l)%nat -> nth i (upd i x l) d = x.
Proof. intros H. unfold upd. rewrite app_nth2; rewrite firstn_length_le by lia; [|lia]. rewrite Nat.sub_diag. reflexivity. Qed.
Lemma upd_upd {V} (l : list V) i x y : (i < length l)%nat -> upd i x (upd i y l) = upd i x l.
Proof.
  revert i. induction l as [|z l IH]; intros [|i] H; cbn [length] in H; try lia; [reflexivity|]. unfold upd in *. cbn [firstn app skipn]. f_equal. apply IH. lia.
Qed.
Lemma upd_other {V} (l : list V) i j x d : (i < length l)%nat -> i <> j -> nth j (upd i x l) d = nth j l d.
Proof.
  revert i j. induction l as [|z l IH]; intros [|i] [|j] H N; cbn [length] in H; try lia; try reflexivity. unfold upd in *. cbn [firstn app skipn nth]. apply IH; lia.
Qed.
Lemma map_upd {V W} (f : V -> W) i x l : map f (upd i x l) = upd i (f x) (map f l).
Proof. unfold upd. rewrite !map_app, firstn_map, skipn_map. reflexivity. Qed.

(** [f] is the forward function of [n] real arguments, [Y] inverts it in argument [i]: the value to invert takes the
    place of that argument.  Where the forward rules are the partial derivatives [d j] of [f] at the solution, the
    derivative with respect to the inverted argument is not zero and [Y] is continuous, slot [j] of the inverse's backward pass is
    the derivative of [Y] with respect to its argument [j], times the incoming gradient. *)
Theorem C54_inverse_gradients : forall own rest fwd i inv_var k, plain_rules fwd -> nth_error fwd i = Some inv_var ->
  inverse_init own rest fwd inv_var = Some (i, k) ->
  cd_auto own = None -> look cd_auto false rest = false -> cd_ninputs own = None -> look cd_ninputs None rest = None ->
  forall (f Y : list R -> R) (args : list R) (d : nat -> R) semf, length args = length fwd ->
  (forall j rule, nth_error fwd j = Some rule -> semf rule (map RtoC (upd i (Y args) args ++ [nth i args 0])) = RtoC (d j)) -> d i <> 0 ->
  (forall j, (j < length args)%nat -> j <> i ->
     differentiable_pt_lim (fun s t => f (upd i t (upd j s args))) (nth j args 0) (Y args) (d j) (d i)) ->
  is_derive (fun t => f (upd i t args)) (Y args) (d i) ->
  (forall j, (j < length args)%nat -> continuity_pt (fun s => Y (upd j s args)) (nth j args 0)) ->
  (forall j, (j < length args)%nat -> locally (nth j args 0) (fun s => f (upd i (Y (upd j s args)) (upd j s args)) = nth i (upd j s args) 0)) ->
  forall mask g, length mask = length fwd ->
  exists gfs r, gradfuncs k = Some gfs /\
    backward process_plain (ninputs k) (backward_ (inverse_sem semf i inv_var) gfs mask (map RtoC (args ++ [Y args]))) [Some g] = Some r /\
    length r = length fwd /\
    forall j needed, nth_error mask j = Some needed ->
      exists D, is_derive (fun s => Y (upd j s args)) (nth j args 0) D /\
        nth_error r j = Some (if needed then Some (RtoC D * g)%C else None).
Proof.
  intros own rest fwd i inv_var k P Hi E A1 A2 N1 N2 f Y args d semf La Hd Hdi Df Di CY EY mask g Lm.
  assert (Hia : (i < length args)%nat) by (rewrite La; apply nth_error_Some; congruence).
  pose proof (split_nth args i 0 Hia) as Sp.
  destruct (C54_slots own rest fwd i inv_var k P Hi E A1 A2 N1 N2 process_plain semf mask
              (map RtoC (firstn i args)) (RtoC (nth i args 0)) (map RtoC (skipn (S i) args)) (RtoC (Y args)) g) as (gfs & r & G & B & L & Sl).
  { rewrite map_length, firstn_length_le; lia. }
  { rewrite <- La. transitivity (length (firstn i args ++ [nth i args 0] ++ skipn (S i) args)); [rewrite !app_length, !map_length; reflexivity|rewrite <- Sp; reflexivity]. }
  { exact Lm. }
  exists gfs, r. split; [exact G|]. split.
  { rewrite <- B. do 2 f_equal. transitivity (map RtoC ((firstn i args ++ [nth i args 0] ++ skipn (S i) args) ++ [Y args])); [rewrite <- Sp; reflexivity|].
    rewrite !map_app, <- !app_assoc. reflexivity. }
  split; [exact L|]. intros j needed Hj. assert (Hjf : (j < length fwd)%nat) by (rewrite <- Lm; apply nth_error_Some; congruence).
  destruct (nth_error fwd j) as [rule|] eqn:Er; [|apply nth_error_None in Er; lia].
  specialize (Sl j needed rule Hj Er).
  assert (At : (map RtoC (firstn i args) ++ [RtoC (Y args)] ++ map RtoC (skipn (Datatypes.S i) args)) ++ [RtoC (nth i args 0)] = map RtoC (upd i (Y args) args ++ [nth i args 0]))
    by (rewrite map_app; unfold upd; rewrite !map_app; reflexivity).
  rewrite At, (Hd _ _ Hi), (Hd _ _ Er) in Sl.
  assert (Y0 : forall m, (m < length args)%nat -> Y (upd m (nth m args 0) args) = Y args).
  { intros m Hm. f_equal. unfold upd. symmetry. apply split_nth, Hm. }
  assert (F0 : f (upd i (Y args) args) = nth i args 0).
  { pose proof (locally_singleton _ _ (EY i Hia)) as X. cbv beta in X. rewrite upd_upd, upd_nth, Y0 in X by exact Hia. exact X. }
  destruct (Nat.eqb_spec j i) as [->|Nj].
  - exists (1 / d i). split.
    + apply inverse_derive with (F := fun t => f (upd i t args)); [exact Hdi| |apply CY, Hia|].
      * rewrite Y0 by exact Hia. exact Di.
      * generalize (EY i Hia). apply filter_imp. intros s X. rewrite upd_upd, upd_nth in X by exact Hia. exact X.
    + rewrite Sl. destruct needed; [|reflexivity]. unfold process_plain. rewrite RtoC_div by exact Hdi. reflexivity.
  - exists (- d j * (1 / d i)). split.
    + apply implicit_derive with (f := fun s t => f (upd i t (upd j s args))); [exact Hdi| |apply CY; lia|].
      * rewrite Y0 by lia. apply Df; [lia|exact Nj].
      * generalize (EY j ltac:(lia)). apply filter_imp. intros s X. etransitivity; [exact X|].
        etransitivity; [apply (upd_other args j i s 0); [lia|congruence]|]. rewrite Y0 by lia.
        replace (upd j (nth j args 0) args) with args by (unfold upd; apply split_nth; lia). symmetry. exact F0.
    + rewrite Sl. destruct needed; [|reflexivity]. unfold process_plain. do 3 f_equal. rewrite <- RtoC_div by exact Hdi.
      rewrite <- RtoC_opp, <- RtoC_mult. reflexivity.
Qed.
Print Assumptions C54_inverse_gradients.

(** *** The hypotheses are met: invert f(a, x) = a x in x, at a = 2, value 6. *)
Definition ex_f (l : list R) : R := nth 0 l 0 * nth 1 l 0.
Definition ex_Y (l : list R) : R := nth 1 l 0 / nth 0 l 0.
Definition ex_sem (gf : gradfn) (saved : list C) : C :=
  match gf with GFun r => if String.eqb (rf_name r) "grad_a" then nth 1 saved (RtoC 0) else nth 0 saved (RtoC 0) | _ => RtoC 0 end.
Definition ex_d (j : nat) : R := match j with O => 3 | _ => 2 end.
Example C54_nonvacuous :
  (forall j rule, nth_error (gf_list k_Gammainc) j = Some rule -> ex_sem rule (map RtoC (upd 1 (ex_Y [2; 6]) [2; 6] ++ [nth 1 [2; 6] 0])) = RtoC (ex_d j)) /\ ex_d 1 <> 0 /\
  (forall j, (j < 2)%nat -> j <> 1%nat -> differentiable_pt_lim (fun s t => ex_f (upd 1 t (upd j s [2; 6]))) (nth j [2; 6] 0) (ex_Y [2; 6]) (ex_d j) (ex_d 1)) /\
  is_derive (fun t => ex_f (upd 1 t [2; 6])) (ex_Y [2; 6]) (ex_d 1) /\
  (forall j, (j < 2)%nat -> continuity_pt (fun s => ex_Y (upd j s [2; 6])) (nth j [2; 6] 0)) /\
  (forall j, (j < 2)%nat -> locally (nth j [2; 6] 0) (fun s => ex_f (upd 1 (ex_Y (upd j s [2; 6])) (upd j s [2; 6])) = nth 1 (upd j s [2; 6]) 0)).
Proof.
  assert (Y3 : ex_Y [2; 6] = 3) by (unfold ex_Y; cbn; lra). rewrite Y3.
  split; [|split; [cbn; lra|split; [|split; [|split]]]].
  - intros [|[|[|j]]] rule H; cbn in H; try discriminate; injection H as <-; reflexivity.
  - intros [|[|j]] H1 H2; try lia. cbn [nth]. unfold ex_f, upd, ex_d. cbn [firstn skipn app nth]. intros eps.
    exists (mkposreal (eps / 1) ltac:(pose proof (cond_pos eps); lra)). cbn [pos]. intros u v Hu Hv.
    replace (u * v - 2 * 3 - (3 * (u - 2) + 2 * (v - 3))) with ((u - 2) * (v - 3)) by ring. rewrite Rabs_mult.
    apply Rle_trans with (eps * Rabs (v - 3)); [apply Rmult_le_compat_r; [apply Rabs_pos|lra]|]. apply Rmult_le_compat_l; [apply Rlt_le, cond_pos|apply Rmax_r].
  - unfold ex_f, upd. cbn [firstn skipn app nth ex_d]. apply is_derive_Reals. intros eps He. exists (mkposreal 1 Rlt_0_1). intros h Hh _.
    replace ((2 * (3 + h) - 2 * 3) / h - 2) with 0 by (field; exact Hh). rewrite Rabs_R0. exact He.
  - intros [|[|j]] H; try lia; unfold ex_Y, upd; cbn [firstn skipn app nth]; apply derivable_continuous_pt.
    + exists (- 6 / 2 ^ 2). apply is_derive_Reals.
      apply is_derive_ext with (f := fun s => scal 6 (/ s)); [reflexivity|]. apply is_derive_Reals.
      replace (- 6 / 2 ^ 2) with (6 * (- 1 / Rsqr 2)) by (unfold Rsqr; field).
      apply derivable_pt_lim_scal. replace (-1 / 2²) with ((0 * 2 - 1 * 1) / 2²) by (unfold Rsqr; field).
      apply is_derive_Reals. apply is_derive_ext with (f := fun s => 1 / s); [intros t; apply Rmult_1_l|]. apply is_derive_Reals.
      apply (derivable_pt_lim_div (fct_cte 1) id); [apply derivable_pt_lim_const|apply derivable_pt_lim_id|unfold id; lra].
    + exists (/ 2 * 1). apply is_derive_Reals. apply is_derive_ext with (f := fun s => / 2 * s); [intros t; apply Rmult_comm|]. apply is_derive_Reals.
      apply (derivable_pt_lim_scal id), derivable_pt_lim_id.
  - intros [|[|j]] H; try lia; unfold ex_f, ex_Y, upd; cbn [firstn skipn app nth].
    + exists (mkposreal 1 Rlt_0_1). intros s Hs. cbn [nth]. assert (s <> 0).
      { intros ->. unfold ball in Hs; cbn in Hs. unfold AbsRing_ball, abs, minus, plus, opp in Hs; cbn in Hs. rewrite Rabs_left in Hs; lra. }
      field. assumption.
    + exists (mkposreal 1 Rlt_0_1). intros s _. cbn [nth]. field.
Qed.
Print Assumptions C54_nonvacuous.

(** With a rule that is a class method the class is wrong: the identity test fails on bound methods (every access makes a
    new one), and the slot of the inverted variable gets -1 instead of 1/f_x. *)
Theorem C54_classmethod_refuted : forall semf saved r cls, semf (GMeth r cls) (reorder 0 saved) <> RtoC 0 ->
  inverse_sem semf 0 (GMeth r cls) (GInv (GMeth r cls)) saved = (- RtoC 1)%C.
Proof. intros semf saved r cls H. unfold inverse_sem. cbn [gf_is]. field. exact H. Qed.
Print Assumptions C54_classmethod_refuted.
