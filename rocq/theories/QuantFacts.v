From Coq Require Import ZArith QArith Qcanon String List Bool Reals Lia Lra Cantor.
From Verif Require Import Frac FracFacts Units UnitSpec UnitsFacts UnitsThms PyTree Quantities QuantSpec.
Import ListNotations.
Open Scope list_scope.

Lemma map_Rmult_1 l : map (Rmult 1) l = l.
Proof. induction l; simpl; [reflexivity|]. rewrite IHl, Rmult_1_l. reflexivity. Qed.
Lemma map_Rmult_mul a b l : map (Rmult a) (map (Rmult b) l) = map (Rmult (a * b)) l.
Proof. rewrite map_map. apply map_ext. intros. ring. Qed.
Lemma tscale_1 t : tscale 1 t = t.
Proof. destruct t. unfold tscale. simpl. rewrite map_Rmult_1. reflexivity. Qed.
Lemma tscale_mul a b t : tscale a (tscale b t) = tscale (a * b) t.
Proof. unfold tscale. simpl. rewrite map_Rmult_mul. reflexivity. Qed.
Lemma rscale_1 r : rscale 1 r = r.
Proof. destruct r; simpl; try reflexivity; [rewrite tscale_1|rewrite Rmult_1_l]; reflexivity. Qed.
Lemma rscale_mul a b r : rscale a (rscale b r) = rscale (a * b) r.
Proof. destruct r; simpl; try reflexivity; [rewrite tscale_mul|rewrite Rmult_assoc]; reflexivity. Qed.

(** ** conversion *)
Lemma factor_ok u v : good_unit u -> good_unit v -> same_dim u v -> factor u v = Val (uval u / uval v)%R.
Proof. intros [Hc Hp] [Hc' Hp'] H. unfold factor. rewrite to_ok_l; auto. lra. Qed.
Lemma factor_err u v : good_unit u -> good_unit v -> ~ same_dim u v -> factor u v = Raise ETypeError.
Proof. intros [Hc Hp] [Hc' Hp'] H. unfold factor. rewrite (proj2 (to_err_l u v Hc Hc')); auto. Qed.

Lemma dims_eq u v : good_unit u -> good_unit v -> (dict_eqb (udim u) (udim v) = true <-> same_dim u v).
Proof. intros [Hc _] [Hc' _]. apply dict_eqb_same; assumption. Qed.

Lemma unit_eqb_good u v : good_unit u -> good_unit v -> unit_eqb u v = true -> uval u = uval v /\ same_dim u v.
Proof. intros [Hc _] [Hc' _] H. apply eqb_exponents in H; auto. Qed.

Lemma to_unit_ok q u : good_q q -> good_unit u -> same_dim (qu q) u ->
  exists q', to_unit q u = Val q' /\ qt q' = tscale (uval (qu q) / uval u) (qt q) /\ good_q q' /\
             uval (qu q') = uval u /\ same_dim (qu q') u.
Proof.
  intros [Hq Hf] Hu Hd. unfold to_unit. destruct (unit_eqb (qu q) u) eqn:E.
  - apply unit_eqb_good in E; auto. destruct E as [E _]. exists q. repeat split; auto; try apply Hq.
    rewrite E. unfold Rdiv. rewrite Rinv_r by (destruct Hu; lra). rewrite tscale_1. reflexivity.
  - rewrite factor_ok by auto. simpl. unfold imul. rewrite Hf. simpl. eexists. split; [reflexivity|]. simpl.
    repeat split; auto; try apply Hu.
Qed.
Lemma to_unit_err q u : good_q q -> good_unit u -> ~ same_dim (qu q) u -> to_unit q u = Raise ETypeError.
Proof.
  intros [Hq Hf] Hu Hd. unfold to_unit. destruct (unit_eqb (qu q) u) eqn:E.
  - apply unit_eqb_good in E; auto. tauto.
  - rewrite factor_err; auto.
Qed.

Lemma good_one : good_unit unit_one. Proof. split; [apply can_one|simpl; lra]. Qed.

Lemma no_dims u : good_unit u -> (has_dims u = false <-> forall k, exponent u k = Q2Qc 0).
Proof.
  intros [Hc _]. unfold has_dims. destruct (udim u) as [|[k v] d] eqn:E; split; intros H; try reflexivity; try discriminate.
  - intros k. rewrite exponent_getd, E. reflexivity.
  - exfalso. destruct Hc as [_ Hc]. inversion Hc as [|? ? [Hv _]]; subst. apply Hv. specialize (H k).
    rewrite exponent_getd, E in H. unfold getd in H. simpl in H. rewrite String.eqb_refl in H. exact H.
Qed.

(** ** one leaf *)
Lemma tdiv_scale t r : tfloat t = true -> tdiv t r = tscale (/ r) t.
Proof. intros H. unfold tdiv, tscale. rewrite H. f_equal. apply map_ext. intros. unfold Rdiv. ring. Qed.

Lemma convert_ok u x : good_unit u -> operand x -> (numeric x -> forall k, dim_of x k = exponent u k) ->
  exists y, convert (Some u) x = Val y /\ strip y = rscale (scale_of x / uval u) (strip x) /\ operand y.
Proof.
  intros Hu Hx Hd. destruct x as [q|v|r|t|b|]; simpl in *; try contradiction.
  - specialize (Hd Hx). pose proof Hx as [Hq Hf].
    rewrite (proj2 (dims_eq (qu q) u Hq Hu)) by exact Hd. simpl.
    destruct (to_unit_ok q u Hx Hu Hd) as (q' & E & H1 & H2 & _). rewrite E. simpl. exists (LQ q').
    repeat split; simpl; try apply H2. rewrite H1. reflexivity.
  - specialize (Hd I). rewrite (proj2 (no_dims u Hu)) by (intros; symmetry; apply Hd).
    destruct (Req_EM_T (uval u) 1) as [E|E].
    + exists (LNum r). repeat split. simpl. rewrite E. f_equal. field.
    + eexists. split; [reflexivity|]. split; [|exact I]. simpl. f_equal. unfold Rdiv. ring.
  - specialize (Hd Hx). rewrite (proj2 (no_dims u Hu)) by (intros; symmetry; apply Hd).
    destruct (Req_EM_T (uval u) 1) as [E|E].
    + exists (LTen t). repeat split; [|exact Hx]. simpl. rewrite E. f_equal. unfold Rdiv. rewrite Rinv_1, Rmult_1_l. symmetry. apply tscale_1.
    + eexists. split; [reflexivity|]. split; [|reflexivity]. simpl. rewrite tdiv_scale by exact Hx. f_equal. f_equal. unfold Rdiv. ring.
  - eexists; repeat split.
  - eexists; repeat split.
Qed.

Lemma qc_all_dec u x : good_unit u -> numeric x ->
  {forall k, dim_of x k = exponent u k} + {~ forall k, dim_of x k = exponent u k}.
Proof.
  intros Hu Hx. destruct x as [q|v|r|t|b|]; simpl in *; try contradiction.
  - destruct (dict_eqb (udim (qu q)) (udim u)) eqn:E; [left|right].
    + apply dims_eq; auto. apply Hx.
    + intros H. apply (dims_eq (qu q) u) in H; auto; [congruence|apply Hx].
  - destruct (has_dims u) eqn:E; [right|left].
    + intros H. assert (has_dims u = false) by (apply no_dims; auto). congruence.
    + intros k. symmetry. apply no_dims; auto.
  - destruct (has_dims u) eqn:E; [right|left].
    + intros H. assert (has_dims u = false) by (apply no_dims; auto). congruence.
    + intros k. symmetry. apply no_dims; auto.
Qed.

Lemma convert_err u x : good_unit u -> numeric x -> ~ (forall k, dim_of x k = exponent u k) -> convert (Some u) x = Raise EUnitError.
Proof.
  intros Hu Hx Hd. destruct x as [q|v|r|t|b|]; simpl in *; try contradiction.
  - destruct (dict_eqb (udim (qu q)) (udim u)) eqn:E; [|reflexivity]. exfalso. apply Hd. apply dims_eq; auto. apply Hx.
  - destruct (has_dims u) eqn:E; [reflexivity|]. exfalso. apply Hd. intros. symmetry. apply no_dims; auto.
  - destruct (has_dims u) eqn:E; [reflexivity|]. exfalso. apply Hd. intros. symmetry. apply no_dims; auto.
Qed.

(** ** contexts *)
Definition good_ctx (c : ctx) : Prop := forall n u, dict_get c n = Some u -> good_unit u.
Definition ctx_le (c c' : ctx) : Prop := forall n u, dict_get c n = Some u -> dict_get c' n = Some u.
Definition ctx_scale (c : ctx) (n : string) : R := match dict_get c n with Some u => uval u | None => 1%R end.
Definition ctx_dim (c : ctx) (n k : string) : Qc := match dict_get c n with Some u => exponent u k | None => Q2Qc 0 end.
Lemma ctx_scale_pos c n : good_ctx c -> (0 < ctx_scale c n)%R.
Proof. intros H. unfold ctx_scale. destruct (dict_get c n) eqn:E; [apply (H _ _ E)|lra]. Qed.
Lemma ctx_le_refl c : ctx_le c c. Proof. intros n u H. exact H. Qed.
Lemma ctx_le_trans a b c : ctx_le a b -> ctx_le b c -> ctx_le a c.
Proof. unfold ctx_le. auto. Qed.

Lemma good_mul so u v : good_unit u -> good_unit v -> good_unit (umul so u v).
Proof. intros [? ?] [? ?]. split; [apply can_mul|simpl; apply Rmult_lt_0_compat; auto]. Qed.
Lemma rpow_gt0 v p : (0 < v)%R -> (0 < rpow v p)%R.
Proof. intros H. rewrite rpow_pos by exact H. apply exp_pos. Qed.
Lemma good_pow u p : good_unit u -> good_unit (upow u p).
Proof. intros [? ?]. split; [apply can_pow|simpl; apply rpow_gt0; auto]. Qed.
Lemma good_inv u : good_unit u -> good_unit (uinv u).
Proof. intros [? ?]. split; [apply can_inv|simpl]. unfold Rdiv. rewrite Rmult_1_l. apply Rinv_0_lt_compat; auto. Qed.
Lemma good_div so u v : good_unit u -> good_unit v -> good_unit (udiv so u v).
Proof. intros. apply good_mul; auto. apply good_pow; auto. Qed.
Lemma val_div so u v : (0 < uval v)%R -> uval (udiv so u v) = (uval u / uval v)%R.
Proof. intros H. unfold udiv, umul, upow. simpl. rewrite rpow_int, powerRZ_m1 by lra. reflexivity. Qed.

Lemma eval_scale so c c' e u : good_ctx c -> ctx_le c c' -> eval_uexp so c e = Val u ->
  good_unit u /\ uval u = scale_exp (ctx_scale c') e.
Proof.
  intros Hc Hle. revert u. induction e; intros u H; simpl in *.
  - destruct (dict_get c n) as [v|] eqn:E; inversion H; subst. split; [apply (Hc _ _ E)|]. unfold ctx_scale. rewrite (Hle _ _ E). reflexivity.
  - destruct (eval_uexp so c e1) as [a|]; [|discriminate]. destruct (eval_uexp so c e2) as [b|]; [|discriminate]. simpl in H. inversion H; subst.
    destruct (IHe1 _ eq_refl) as [G1 S1]. destruct (IHe2 _ eq_refl) as [G2 S2]. split; [apply good_mul; auto|]. simpl. rewrite S1, S2. reflexivity.
  - destruct (eval_uexp so c e1) as [a|]; [|discriminate]. destruct (eval_uexp so c e2) as [b|]; [|discriminate]. simpl in H. inversion H; subst.
    destruct (IHe1 _ eq_refl) as [G1 S1]. destruct (IHe2 _ eq_refl) as [G2 S2]. split; [apply good_div; auto|]. rewrite val_div by apply G2. rewrite S1, S2. reflexivity.
  - destruct (eval_uexp so c e) as [a|]; [|discriminate]. simpl in H. inversion H; subst.
    destruct (IHe _ eq_refl) as [G1 S1]. split; [apply good_pow; auto|]. simpl. rewrite S1. reflexivity.
  - destruct (eval_uexp so c e) as [a|]; [|discriminate]. simpl in H. inversion H; subst.
    destruct (IHe _ eq_refl) as [G1 S1]. split; [apply good_inv; auto|]. simpl. rewrite S1. unfold Rdiv. ring.
Qed.

Lemma eval_dim so c c' e u k : good_ctx c -> ctx_le c c' -> eval_uexp so c e = Val u -> representable (ctx_dim c') e ->
  exponent u k = dim_exp (ctx_dim c') e k.
Proof.
  intros Hc Hle. revert u k. induction e; intros u k H Hr; simpl in *.
  - destruct (dict_get c n) as [v|] eqn:E; inversion H; subst. unfold ctx_dim. rewrite (Hle _ _ E). reflexivity.
  - destruct (eval_uexp so c e1) as [a|] eqn:E1; [|discriminate]. destruct (eval_uexp so c e2) as [b|] eqn:E2; [|discriminate]. simpl in H. inversion H; subst.
    destruct Hr as (R1 & R2 & R3). rewrite exp_mul, (IHe1 _ k eq_refl R1), (IHe2 _ k eq_refl R2). apply limit_small. apply R3.
  - destruct (eval_uexp so c e1) as [a|] eqn:E1; [|discriminate]. destruct (eval_uexp so c e2) as [b|] eqn:E2; [|discriminate]. simpl in H. inversion H; subst.
    destruct Hr as (R1 & R2 & R3). destruct (eval_scale so c c' e2 b Hc Hle E2) as [[G _] _].
    rewrite exp_div, (IHe1 _ k eq_refl R1), (IHe2 _ k eq_refl R2) by exact G. apply limit_small. apply R3.
  - destruct (eval_uexp so c e) as [a|] eqn:E1; [|discriminate]. simpl in H. inversion H; subst.
    destruct Hr as (R1 & R3). destruct (eval_scale so c c' e a Hc Hle E1) as [[G _] _].
    rewrite exp_pow, (IHe _ k eq_refl R1) by exact G. apply limit_small. apply R3.
  - destruct (eval_uexp so c e) as [a|] eqn:E1; [|discriminate]. simpl in H. inversion H; subst.
    destruct Hr as (R1 & R3). destruct (eval_scale so c c' e a Hc Hle E1) as [[G _] _].
    rewrite exp_inv, (IHe _ k eq_refl R1) by exact G. reflexivity.
Qed.

(** ** leaves only *)
Fixpoint do_flat (env : pyenv) (c : ctx) (ps : list pspec) (rest : pspec) (xs : list leaf) : outcome (list leaf * ctx) :=
  match xs with
  | [] => Val ([], c)
  | x :: xs' => bind (do_leaf env c (hd rest ps) x) (fun r =>
                bind (do_flat env (snd r) (tl ps) rest xs') (fun s => Val (fst r :: fst s, snd s)))
  end.
Lemma do_arg_leaf env c p x : do_arg env c p (OLeaf x) = bind (do_leaf env c p x) (fun r => Val (OLeaf (fst r), snd r)).
Proof.
  unfold do_arg, flatten, bcast. simpl. destruct (do_leaf env c p x) as [r|e]; simpl; reflexivity.
Qed.
Lemma do_args_flat env xs : forall c ps rest,
  do_args env c ps rest (map OLeaf xs) = bind (do_flat env c ps rest xs) (fun r => Val (map OLeaf (fst r), snd r)).
Proof.
  induction xs as [|x xs IH]; intros c ps rest; [reflexivity|]. simpl. rewrite do_arg_leaf.
  destruct (do_leaf env c (hd rest ps) x) as [r|e]; simpl; [|reflexivity]. rewrite IH.
  destruct (do_flat env (snd r) (tl ps) rest xs); reflexivity.
Qed.

Definition good_spec (p : pspec) : Prop := match p with PUnit u => good_unit u | _ => True end.
(** positions without a rule hold arguments without units *)
Fixpoint fits (ps : list pspec) (rest : pspec) (xs : list leaf) : Prop :=
  match xs with
  | [] => True
  | x :: xs' => (hd rest ps = PNone -> bare x) /\ fits (tl ps) rest xs'
  end.

Lemma ctx_set_fresh (c : ctx) n u : dict_get c n = None -> ctx_le c (dict_set c n u).
Proof. intros H m v E. rewrite dict_get_set. destruct (String.eqb m n) eqn:X; [apply String.eqb_eq in X; congruence|exact E]. Qed.

Lemma unit_of_good x : operand x -> good_unit (match unit_of x with Some u => u | None => unit_one end).
Proof. destruct x; simpl; try contradiction; intros H; try apply good_one. apply H. Qed.
Lemma unit_of_scale x : uval (match unit_of x with Some u => u | None => unit_one end) = scale_of x.
Proof. destruct x; reflexivity. Qed.
Lemma unit_of_dim x k : exponent (match unit_of x with Some u => u | None => unit_one end) k = dim_of x k.
Proof. destruct x; reflexivity. Qed.
Lemma scale_pos x : operand x -> (0 < scale_of x)%R.
Proof. destruct x; simpl; try contradiction; intros; try lra. apply H. Qed.

Lemma convert_inv u x y : good_unit u -> operand x -> convert (Some u) x = Val y ->
  strip y = rscale (scale_of x / uval u) (strip x) /\ operand y /\ (numeric x -> forall k, dim_of x k = exponent u k).
Proof.
  intros Hu Hx H. assert (D : numeric x -> forall k, dim_of x k = exponent u k).
  { intros Hn. destruct (qc_all_dec u x Hu Hn) as [d|d]; [exact d|]. rewrite convert_err in H by assumption. discriminate. }
  destruct (convert_ok u x Hu Hx D) as (y' & E & S & O). rewrite E in H. inversion H; subst. auto.
Qed.

Lemma convert_cases u x : good_unit u -> operand x -> convert (Some u) x = Raise EUnitError \/ exists y, convert (Some u) x = Val y.
Proof.
  intros Hu Hx. assert (N : numeric x \/ x = LOther \/ exists b, x = LBool b).
  { destruct x; simpl in *; try contradiction; auto. right; right; eauto. }
  destruct N as [N|[->|[b ->]]]; [|right; eexists; reflexivity|right; eexists; reflexivity].
  destruct (qc_all_dec u x Hu N) as [D|D]; [right|left; apply convert_err; auto].
  destruct (convert_ok u x Hu Hx (fun _ => D)) as (y & E & _). eauto.
Qed.
Lemma convert_none x : convert None x = Val x. Proof. reflexivity. Qed.
Local Opaque convert.
Lemma do_leaf_inv env c p x y c' : good_ctx c -> good_spec p -> operand x -> (p = PNone -> bare x) ->
  do_leaf env c p x = Val (y, c') ->
  good_ctx c' /\ ctx_le c c' /\ operand y /\
  (forall c'', ctx_le c' c'' -> strip y = rscale (/ scale_spec (ctx_scale c'') p) (phys x)).
Proof.
  intros Hc Hp Hx Hb. unfold do_leaf. destruct p as [n|u|e|]; simpl.
  - destruct (dict_get c n) as [u|] eqn:E; simpl.
    + destruct (convert (Some u) x) as [y'|] eqn:Ev; intros H; simpl in H; [|discriminate H]. inversion H; subst.
      destruct (convert_inv u x y (Hc _ _ E) Hx Ev) as (S & O & _).
      split; [exact Hc|]. split; [apply ctx_le_refl|]. split; [exact O|].
      intros c'' Hle. rewrite S. unfold phys, ctx_scale. rewrite (Hle _ _ E), rscale_mul. f_equal. unfold Rdiv. ring.
    + rewrite convert_none. intros H. inversion H; subst. clear H.
      assert (Hg : good_ctx (dict_set c n match unit_of y with Some u => u | None => unit_one end)).
      { intros m v Em. rewrite dict_get_set in Em. destruct (String.eqb m n); [inversion Em; subst; apply unit_of_good; auto|apply (Hc _ _ Em)]. }
      split; [exact Hg|]. split; [apply ctx_set_fresh; exact E|]. split; [exact Hx|].
      intros c'' Hle. assert (Eg : dict_get c'' n = Some match unit_of y with Some u => u | None => unit_one end).
      { apply Hle. rewrite dict_get_set, String.eqb_refl. reflexivity. }
      unfold phys, ctx_scale. rewrite Eg, unit_of_scale, rscale_mul, Rinv_l, rscale_1 by (apply scale_pos in Hx; lra). reflexivity.
  - destruct (convert (Some u) x) as [y'|] eqn:Ev; intros H; simpl in H; [|discriminate H]. inversion H; subst.
    destruct (convert_inv u x y Hp Hx Ev) as (S & O & _).
    split; [exact Hc|]. split; [apply ctx_le_refl|]. split; [exact O|].
    intros c'' Hle. rewrite S. unfold phys. rewrite rscale_mul. f_equal. unfold Rdiv. ring.
  - destruct (eval_uexp (pe_so env) c e) as [u|] eqn:Ee; simpl; [|intros H; discriminate H].
    destruct (convert (Some u) x) as [y'|] eqn:Ev; intros H; simpl in H; [|discriminate H]. inversion H; subst.
    destruct (eval_scale _ _ c' e u Hc (ctx_le_refl _) Ee) as [G _].
    destruct (convert_inv u x y G Hx Ev) as (S & O & _).
    split; [exact Hc|]. split; [apply ctx_le_refl|]. split; [exact O|].
    intros c'' Hle. destruct (eval_scale _ _ c'' e u Hc Hle Ee) as [_ Su].
    rewrite S. unfold phys. rewrite rscale_mul, <- Su. f_equal. unfold Rdiv. ring.
  - rewrite convert_none. intros H. inversion H; subst. specialize (Hb eq_refl).
    split; [exact Hc|]. split; [apply ctx_le_refl|]. split; [exact Hx|].
    intros. rewrite Rinv_1, rscale_1. unfold phys. destruct y; simpl in *; try contradiction; try reflexivity; [rewrite Rmult_1_l|rewrite tscale_1]; reflexivity.
Qed.

Lemma do_flat_inv env xs : forall c ps rest ys c', good_ctx c -> Forall good_spec (rest :: ps) -> Forall operand xs -> fits ps rest xs ->
  do_flat env c ps rest xs = Val (ys, c') ->
  good_ctx c' /\ ctx_le c c' /\ length ys = length xs /\
  (forall c'', ctx_le c' c'' -> map strip ys = express (ctx_scale c'') ps rest (map phys xs)).
Proof.
  induction xs as [|x xs IH]; intros c ps rest ys c' Hc Hs Hx Hf H; simpl in H.
  - inversion H; subst. split; [exact Hc|]. split; [apply ctx_le_refl|]. split; reflexivity.
  - inversion Hx as [|? ? Hx1 Hx2]; subst. destruct Hf as [Hf1 Hf2].
    inversion Hs as [|? ? Hs1 Hs2]; subst.
    assert (Hp : good_spec (hd rest ps)) by (destruct ps; [exact Hs1|inversion Hs2; assumption]).
    assert (Htl : Forall good_spec (rest :: tl ps)) by (constructor; [exact Hs1|destruct ps; [constructor|inversion Hs2; assumption]]).
    destruct (do_leaf env c (hd rest ps) x) as [[y c1]|] eqn:E1; [|discriminate]. simpl in H.
    destruct (do_flat env c1 (tl ps) rest xs) as [[ys' c2]|] eqn:E2; [|discriminate]. simpl in H. inversion H; subst.
    destruct (do_leaf_inv env c _ x y c1 Hc Hp Hx1 Hf1 E1) as (G1 & L1 & _ & S1).
    destruct (IH c1 _ _ _ _ G1 Htl Hx2 Hf2 E2) as (G2 & L2 & Len & S2).
    split; [exact G2|]. split; [eapply ctx_le_trans; eauto|]. split; [simpl; congruence|].
    intros c'' Hle. simpl. rewrite (S1 c'') by (eapply ctx_le_trans; eauto). rewrite (S2 c'' Hle). reflexivity.
Qed.

(** ** calls of rules of the form DimSpec with one output *)
Lemma map_leaf_strip ys : map leaf_or_other (map (omap strip) (map OLeaf ys)) = map strip ys.
Proof. rewrite !map_map. reflexivity. Qed.
Lemma skipn_exact {X} (l : list X) n : n = length l -> skipn n l = [].
Proof. intros ->. apply skipn_all. Qed.

(** what the rule does to a single output tensor *)
Definition finish1 (t : tensor) (r : oret) : leaf :=
  match r with OU u => if tfloat t then LQ {| qt := t; qu := u |} else LTen t | OFalse => LTen t end.
Lemma process_leaf env t r : process env (OLeaf (OT t)) (OLeaf r) = Val (OLeaf (finish1 t r)).
Proof.
  unfold process, flatten, bcast. simpl. destruct r as [u|]; simpl; [destruct (tfloat t); reflexivity|reflexivity].
Qed.
Lemma process_ret_leaf env c r : process_ret env c (OLeaf r) = process_spec env c r.
Proof. unfold process_ret, flatten. simpl. destruct (process_spec env c r) as [v|]; reflexivity. Qed.

(** one output, for a rule given by its parts *)
Definition run_row (env : pyenv) (ps : list pspec) (rest : pspec) (r : rspec) (g : list raw -> tensor) (xs : list leaf) : outcome leaf :=
  bind (do_flat env [] ps rest xs) (fun yc =>
  bind (process_spec env (snd yc) r) (fun o =>
    match process env (OLeaf (OT (g (map strip (fst yc))))) o with
    | Val (OLeaf y) => Val y | Val _ => Raise ETypeError | Raise e => Raise e end)).
Lemma call_spec env name ps rest r g xs :
  existsb (String.eqb name) forbidden = false -> lookup_spec name = Spec ps rest (OLeaf r) ->
  call env name g xs =
  bind (do_flat env [] ps rest xs) (fun yc =>
  bind (process_spec env (snd yc) r) (fun o =>
    match process env (OLeaf (OT (g (map strip (fst yc))))) o with
    | Val (OLeaf y) => Val y | Val _ => Raise ETypeError | Raise e => Raise e end)).
Proof.
  intros Hf Hl. unfold call, torch_function. rewrite Hf, Hl. unfold apply_spec. rewrite do_args_flat.
  destruct (do_flat env [] ps rest xs) as [[ys c]|e] eqn:E; simpl; [|reflexivity].
  rewrite process_ret_leaf. destruct (process_spec env c r) as [o|e]; simpl; [|reflexivity].
  assert (Hlen : length ys = length xs).
  { clear -E. revert ps rest ys c E. generalize ([] : ctx). induction xs as [|x xs IH]; intros c0 ps rest ys c E; simpl in E.
    - inversion E; reflexivity.
    - destruct (do_leaf env c0 (hd rest ps) x) as [[y c1]|]; [|discriminate]. simpl in E.
      destruct (do_flat env c1 (tl ps) rest xs) as [[ys' c2]|] eqn:E2; [|discriminate]. simpl in E. inversion E; subst.
      simpl. f_equal. eapply IH; eauto. }
  rewrite skipn_exact by (rewrite !map_length; congruence). rewrite app_nil_r. unfold backend. rewrite map_leaf_strip. reflexivity.
Qed.

(** ** acceptance *)
Fixpoint names_of (e : uexp) : list string :=
  match e with EName n => [n] | EMul a b | EDiv a b => names_of a ++ names_of b | EPow a _ | EInv a => names_of a end.
Definition mem (n : string) (l : list string) : bool := existsb (String.eqb n) l.
Lemma mem_in n l : mem n l = true <-> In n l.
Proof.
  unfold mem. rewrite existsb_exists. split.
  - intros (m & H & E). apply String.eqb_eq in E. subst. exact H.
  - intros H. exists n. split; [exact H|apply String.eqb_refl].
Qed.
Definition next_seen (seen : list string) (p : pspec) : list string := match p with PName n => n :: seen | _ => seen end.
Definition closed1 (seen : list string) (p : pspec) : bool := match p with PEval e => forallb (fun n => mem n seen) (names_of e) | _ => true end.
Fixpoint row_closed (seen : list string) (ps : list pspec) : bool :=
  match ps with [] => true | p :: ps' => closed1 seen p && row_closed (next_seen seen p) ps' end.
Definition no_eval (p : pspec) : bool := match p with PEval _ => false | _ => true end.
(** the operands that introduce a name carry a number *)
Fixpoint naming (seen : list string) (ps : list pspec) (rest : pspec) (xs : list leaf) : Prop :=
  match xs with
  | [] => True
  | x :: xs' => match hd rest ps with PName n => In n seen \/ numeric x | _ => True end /\
                naming (next_seen seen (hd rest ps)) (tl ps) rest xs'
  end.
Definition binds (c : ctx) (seen : list string) : Prop := forall n, In n seen -> exists u, dict_get c n = Some u.

Lemma eval_total so c e : forallb (fun n => match dict_get c n with Some _ => true | None => false end) (names_of e) = true ->
  exists u, eval_uexp so c e = Val u.
Proof.
  induction e; simpl; intros H.
  - destruct (dict_get c n); [eauto|discriminate].
  - rewrite forallb_app in H. apply andb_true_iff in H. destruct H as [H1 H2]. destruct (IHe1 H1) as [a ->]. destruct (IHe2 H2) as [b ->]. simpl. eauto.
  - rewrite forallb_app in H. apply andb_true_iff in H. destruct H as [H1 H2]. destruct (IHe1 H1) as [a ->]. destruct (IHe2 H2) as [b ->]. simpl. eauto.
  - destruct (IHe H) as [a ->]. simpl. eauto.
  - destruct (IHe H) as [a ->]. simpl. eauto.
Qed.
Lemma closed_eval so c seen e : binds c seen -> closed1 seen (PEval e) = true -> exists u, eval_uexp so c e = Val u.
Proof.
  intros Hb H. apply eval_total. simpl in H. rewrite forallb_forall in *. intros n Hn. specialize (H n Hn).
  apply mem_in in H. destruct (Hb n H) as [u ->]. reflexivity.
Qed.

(** dimension expressions depend only on the names in them *)
Lemma dim_exp_ext d d' e k : (forall n, In n (names_of e) -> d n k = d' n k) -> dim_exp d e k = dim_exp d' e k.
Proof.
  induction e; simpl; intros H; auto.
  - rewrite IHe1, IHe2; auto; intros; apply H; apply in_or_app; auto.
  - rewrite IHe1, IHe2; auto; intros; apply H; apply in_or_app; auto.
  - rewrite IHe; auto.
  - rewrite IHe; auto.
Qed.
Lemma representable_ext d d' e : (forall n k, In n (names_of e) -> d n k = d' n k) -> representable d e -> representable d' e.
Proof.
  induction e; intros H.
  - intros _. exact I.
  - intros (A & B & C). simpl in H. split; [|split].
    + apply IHe1; auto. intros; apply H; apply in_or_app; auto.
    + apply IHe2; auto. intros; apply H; apply in_or_app; auto.
    + intros k. rewrite <- (dim_exp_ext d d'); [apply C|]. intros; apply H; auto.
  - intros (A & B & C). simpl in H. split; [|split].
    + apply IHe1; auto. intros; apply H; apply in_or_app; auto.
    + apply IHe2; auto. intros; apply H; apply in_or_app; auto.
    + intros k. rewrite <- (dim_exp_ext d d'); [apply C|]. intros; apply H; auto.
  - intros (A & C). split; [apply IHe; auto|]. intros k. rewrite <- (dim_exp_ext d d'); [apply C|]. intros; apply H; auto.
  - intros (A & C). split; [apply IHe; auto|]. intros k. rewrite <- (dim_exp_ext d d'); [apply C|]. intros; apply H; auto.
Qed.

Definition matches (c : ctx) (d : string -> string -> Qc) : Prop := forall n u, dict_get c n = Some u -> forall k, exponent u k = d n k.

Lemma binds_le c c' seen : ctx_le c c' -> binds c seen -> binds c' seen.
Proof. intros H B n Hn. destruct (B n Hn) as [u E]. exists u. auto. Qed.
Lemma binds_set c seen n u : binds c seen -> binds (dict_set c n u) (n :: seen).
Proof.
  intros B m [<-|H]; rewrite dict_get_set; [rewrite String.eqb_refl; eauto|]. destruct (String.eqb m n); eauto.
Qed.

Lemma do_leaf_accept env c p x d seen : good_ctx c -> good_spec p -> operand x -> matches c d -> binds c seen -> closed1 seen p = true ->
  (match p with PEval e => representable d e | _ => True end) ->
  (match p with PName n => In n seen \/ numeric x | _ => True end) ->
  (p <> PNone -> numeric x -> forall k, dim_of x k = dim_spec d p k) ->
  exists y c', do_leaf env c p x = Val (y, c') /\ good_ctx c' /\ matches c' d /\ binds c' (next_seen seen p).
Proof.
  intros Hc Hp Hx Hm Hb Hcl Hr Hn Ha. unfold do_leaf. destruct p as [n|u|e|]; simpl in *.
  - destruct (dict_get c n) as [u|] eqn:E; simpl.
    + destruct (convert_ok u x (Hc _ _ E) Hx) as (y & Ey & _).
      { intros Hnum k. rewrite (Ha ltac:(discriminate) Hnum k). symmetry. apply Hm; auto. }
      rewrite Ey. simpl. exists y, c. repeat split; auto; try apply (Hc _ _ H). intros m [<-|Hi]; eauto.
    + rewrite convert_none. simpl. eexists _, _. split; [reflexivity|].
      destruct Hn as [Hi|Hnum]; [destruct (Hb n Hi) as [u Eu]; congruence|].
      split; [|split].
      * intros m v Em. rewrite dict_get_set in Em. destruct (String.eqb m n); [inversion Em; subst; apply unit_of_good; auto|apply (Hc _ _ Em)].
      * intros m v Em k. rewrite dict_get_set in Em. destruct (String.eqb m n) eqn:X; [|apply Hm; auto].
        apply String.eqb_eq in X. subst m. inversion Em; subst. rewrite unit_of_dim. apply Ha; auto. discriminate.
      * apply binds_set; auto.
  - destruct (convert_ok u x Hp Hx) as (y & Ey & _).
    { intros Hnum k. apply Ha; auto. discriminate. }
    rewrite Ey. simpl. exists y, c. repeat split; auto; try apply (Hc _ _ H).
  - destruct (closed_eval (pe_so env) c seen e Hb Hcl) as [u Eu]. rewrite Eu. simpl.
    destruct (eval_scale _ _ c e u Hc (ctx_le_refl _) Eu) as [G _].
    destruct (convert_ok u x G Hx) as (y & Ey & _).
    { intros Hnum k. rewrite (Ha ltac:(discriminate) Hnum k). symmetry.
      assert (X : forall n k, In n (names_of e) -> ctx_dim c n k = d n k).
      { intros n k' Hin. rewrite forallb_forall in Hcl. specialize (Hcl n Hin). apply mem_in in Hcl.
        destruct (Hb n Hcl) as [v Ev]. unfold ctx_dim. rewrite Ev. apply Hm. exact Ev. }
      rewrite (eval_dim _ c c e u k Hc (ctx_le_refl _) Eu).
      - apply dim_exp_ext. auto.
      - eapply representable_ext; [|exact Hr]. intros. symmetry. auto. }
    rewrite Ey. simpl. exists y, c. repeat split; auto; try apply (Hc _ _ H).
  - rewrite convert_none. simpl. exists x, c. repeat split; auto; try apply (Hc _ _ H).
Qed.

Definition spec_rep (d : string -> string -> Qc) (p : pspec) : Prop := match p with PEval e => representable d e | _ => True end.
Lemma do_flat_accept env d xs : forall c ps rest seen, good_ctx c -> Forall good_spec (rest :: ps) -> Forall operand xs ->
  matches c d -> binds c seen -> row_closed seen ps = true -> no_eval rest = true -> Forall (spec_rep d) ps ->
  naming seen ps rest xs -> agree d ps rest xs -> exists r, do_flat env c ps rest xs = Val r.
Proof.
  induction xs as [|x xs IH]; intros c ps rest seen Hc Hs Hx Hm Hb Hcl Hne Hr Hn Ha; simpl; [eauto|].
  inversion Hx as [|? ? Hx1 Hx2]; subst. inversion Hs as [|? ? Hs1 Hs2]; subst. destruct Hn as [Hn1 Hn2]. destruct Ha as [Ha1 Ha2].
  assert (Hp : good_spec (hd rest ps)) by (destruct ps; [exact Hs1|inversion Hs2; assumption]).
  assert (Htl : Forall good_spec (rest :: tl ps)) by (constructor; [exact Hs1|destruct ps; [constructor|inversion Hs2; assumption]]).
  assert (Hc1 : closed1 seen (hd rest ps) = true).
  { destruct ps; simpl in *; [destruct rest; try reflexivity; discriminate|]. apply andb_true_iff in Hcl. apply Hcl. }
  assert (Hc2 : row_closed (next_seen seen (hd rest ps)) (tl ps) = true).
  { destruct ps; simpl in *; [reflexivity|]. apply andb_true_iff in Hcl. apply Hcl. }
  assert (Hr1 : spec_rep d (hd rest ps)).
  { destruct ps; simpl in *; [destruct rest; try exact I; discriminate|]. inversion Hr; assumption. }
  assert (Hr2 : Forall (spec_rep d) (tl ps)) by (destruct ps; [constructor|inversion Hr; assumption]).
  destruct (do_leaf_accept env c _ x d seen Hc Hp Hx1 Hm Hb Hc1 Hr1 Hn1 Ha1) as (y & c1 & E & G & M & B).
  rewrite E. simpl. destruct (IH c1 (tl ps) rest _ G Htl Hx2 M B Hc2 Hne Hr2 Hn2 Ha2) as [r ->]. simpl. eauto.
Qed.

(** rejection *)
Lemma do_leaf_cases env c p x seen : good_ctx c -> good_spec p -> operand x -> binds c seen -> closed1 seen p = true ->
  do_leaf env c p x = Raise EUnitError \/
  exists y c', do_leaf env c p x = Val (y, c') /\ good_ctx c' /\ ctx_le c c' /\ binds c' (next_seen seen p) /\
    (forall c'', ctx_le c' c'' -> spec_rep (ctx_dim c'') p -> p <> PNone -> numeric x -> forall k, dim_of x k = dim_spec (ctx_dim c'') p k).
Proof.
  intros Hc Hp Hx Hb Hcl. unfold do_leaf. destruct p as [n|u|e|]; simpl in *.
  - destruct (dict_get c n) as [u|] eqn:E; simpl.
    + destruct (convert (Some u) x) as [y|er] eqn:Ey; simpl.
      * right. exists y, c. repeat split; auto using ctx_le_refl; try apply (Hc _ _ H). { intros m [<-|Hi]; eauto. }
        destruct (convert_inv u x y (Hc _ _ E) Hx Ey) as (_ & _ & D). intros c'' Hle _ _ Hnum k. unfold ctx_dim. rewrite (Hle _ _ E). auto.
      * left. destruct (convert_cases u x (Hc _ _ E) Hx) as [X|[y X]]; congruence.
    + rewrite convert_none. simpl. right. eexists _, _. split; [reflexivity|].
      split; [|split; [|split]].
      * intros m v Em. rewrite dict_get_set in Em. destruct (String.eqb m n); [inversion Em; subst; apply unit_of_good; auto|apply (Hc _ _ Em)].
      * apply ctx_set_fresh; auto.
      * apply binds_set; auto.
      * intros c'' Hle _ _ Hnum k. unfold ctx_dim. rewrite (Hle n match unit_of x with Some u => u | None => unit_one end).
        { rewrite unit_of_dim. reflexivity. } rewrite dict_get_set, String.eqb_refl. reflexivity.
  - assert (X := convert_cases u x Hp Hx).
    destruct X as [E|[y E]]; rewrite E; simpl; [left; reflexivity|right]. exists y, c.
    repeat split; auto using ctx_le_refl; try apply (Hc _ _ H).
    destruct (convert_inv u x y Hp Hx E) as (_ & _ & D). auto.
  - destruct (closed_eval (pe_so env) c seen e Hb Hcl) as [u Eu]. rewrite Eu. simpl.
    destruct (eval_scale _ _ c e u Hc (ctx_le_refl _) Eu) as [Hp' _].
    assert (X := convert_cases u x Hp' Hx).
    destruct X as [E|[y E]]; rewrite E; simpl; [left; reflexivity|right]. exists y, c.
    repeat split; auto using ctx_le_refl; try apply (Hc _ _ H).
    destruct (convert_inv u x y Hp' Hx E) as (_ & _ & D). intros c'' Hle Hr _ Hnum k. rewrite (D Hnum k).
    eapply eval_dim; eauto.
  - rewrite convert_none. simpl. right. exists x, c. repeat split; auto using ctx_le_refl; try apply (Hc _ _ H). intros. congruence.
Qed.

(** agreement at the positions whose expression needs no rounding *)
Fixpoint agree_w (d : string -> string -> Qc) (ps : list pspec) (rest : pspec) (xs : list leaf) : Prop :=
  match xs with
  | [] => True
  | x :: xs' => (spec_rep d (hd rest ps) -> hd rest ps <> PNone -> numeric x -> forall k, dim_of x k = dim_spec d (hd rest ps) k) /\ agree_w d (tl ps) rest xs'
  end.
Lemma do_flat_cases env xs : forall c ps rest seen, good_ctx c -> Forall good_spec (rest :: ps) -> Forall operand xs ->
  binds c seen -> row_closed seen ps = true -> no_eval rest = true ->
  do_flat env c ps rest xs = Raise EUnitError \/
  exists ys c', do_flat env c ps rest xs = Val (ys, c') /\ good_ctx c' /\ ctx_le c c' /\
    (forall c'', ctx_le c' c'' -> agree_w (ctx_dim c'') ps rest xs) /\
    binds c' (match xs with [] => seen | _ :: _ => next_seen seen (hd rest ps) end).
Proof.
  induction xs as [|x xs IH]; intros c ps rest seen Hc Hs Hx Hb Hcl Hne; simpl.
  { right. exists [], c. split; [reflexivity|]. split; [exact Hc|]. split; [apply ctx_le_refl|]. split; [intros; exact I|exact Hb]. }
  inversion Hx as [|? ? Hx1 Hx2]; subst. inversion Hs as [|? ? Hs1 Hs2]; subst.
  assert (Hp : good_spec (hd rest ps)) by (destruct ps; [exact Hs1|inversion Hs2; assumption]).
  assert (Htl : Forall good_spec (rest :: tl ps)) by (constructor; [exact Hs1|destruct ps; [constructor|inversion Hs2; assumption]]).
  assert (Hc1 : closed1 seen (hd rest ps) = true).
  { destruct ps; simpl in *; [destruct rest; try reflexivity; discriminate|]. apply andb_true_iff in Hcl. apply Hcl. }
  assert (Hc2 : row_closed (next_seen seen (hd rest ps)) (tl ps) = true).
  { destruct ps; simpl in *; [reflexivity|]. apply andb_true_iff in Hcl. apply Hcl. }
  destruct (do_leaf_cases env c _ x seen Hc Hp Hx1 Hb Hc1) as [->|(y & c1 & E & G & L & B & D)]; [left; reflexivity|].
  rewrite E. simpl. destruct (IH c1 (tl ps) rest _ G Htl Hx2 B Hc2 Hne) as [->|(ys & c2 & E2 & G2 & L2 & A2 & B2)]; [left; reflexivity|].
  right. rewrite E2. simpl. exists (y :: ys), c2. split; [reflexivity|]. split; [exact G2|]. split; [eapply ctx_le_trans; eauto|]. split.
  - intros c'' Hle. split.
    + apply D. eapply ctx_le_trans; eauto.
    + apply A2; auto.
  - destruct xs as [|x2 xs2]; [exact B2|]. intros n Hn. destruct (B n Hn) as [u Eu]. exists u. apply L2. exact Eu.
Qed.

(** ** the result of a successful call *)
Definition simple_ret (r : rspec) : Prop := match r with RFun _ _ (OLeaf _) => True | RFun _ _ _ => False | RUnit u => good_unit u | _ => True end.

Lemma process_spec_inv env c r o : good_ctx c -> simple_ret r -> process_spec env c r = Val o ->
  exists v, o = OLeaf v /\ match v with
    | OU u => good_unit u /\ uval u = out_scale r (ctx_scale c) /\ (out_representable r (ctx_dim c) -> forall k, exponent u k = out_dim r (ctx_dim c) k)
    | OFalse => out_scale r (ctx_scale c) = 1%R /\ forall k, out_dim r (ctx_dim c) k = Q2Qc 0
    end.
Proof.
  intros Hc Hs. destruct r as [n|u| |ps kw body]; simpl in *.
  - destruct (dict_get c n) as [u|] eqn:E; [|discriminate]. intros H. inversion H; subst. exists (OU u). split; [reflexivity|].
    unfold ctx_scale, ctx_dim. rewrite E. split; [apply (Hc _ _ E)|]. auto.
  - intros H. inversion H; subst. exists (OU u). auto.
  - intros H. inversion H; subst. exists OFalse. auto.
  - destruct (call_ok ps kw c); [|discriminate]. destruct body as [x| | | | |]; try contradiction. simpl.
    destruct x as [e|]; simpl.
    + destruct (eval_uexp (pe_so env) c e) as [u|] eqn:E; simpl; intros H; inversion H; subst. exists (OU u). split; [reflexivity|].
      destruct (eval_scale _ _ c e u Hc (ctx_le_refl _) E) as [G S]. split; [exact G|]. split; [exact S|].
      intros Hr k. eapply eval_dim; eauto using ctx_le_refl.
    + intros H. inversion H; subst. exists OFalse. auto.
Qed.

Lemma row_physical env ps rest r g xs y :
  Forall good_spec (rest :: ps) -> simple_ret r -> Forall operand xs -> fits ps rest xs ->
  (r = RFalse \/ r = RUnit unit_one \/ tfloat (g (map phys xs)) = true) ->
  scaling_law ps rest (out_scale r) g (map phys xs) ->
  run_row env ps rest r g xs = Val y ->
  phys y = RTen (g (map phys xs)) /\
  (exists c, good_ctx c /\ snd (match do_flat env [] ps rest xs with Val r => r | Raise _ => ([], []) end) = c /\
   (out_representable r (ctx_dim c) -> forall k, dim_of y k = out_dim r (ctx_dim c) k)).
Proof.
  intros Hs Hr Hx Hfit Hfl Hlaw. unfold run_row.
  destruct (do_flat env [] ps rest xs) as [[ys c]|e] eqn:E; [|intros H; discriminate H]. simpl.
  assert (Hc0 : good_ctx []) by (intros n u H; discriminate H).
  destruct (do_flat_inv env xs [] ps rest ys c Hc0 Hs Hx Hfit E) as (G & _ & _ & S).
  destruct (process_spec env c r) as [o|e] eqn:Ep; [|intros H; discriminate H]. simpl.
  destruct (process_spec_inv env c r o G Hr Ep) as (v & -> & Hv).
  rewrite process_leaf. intros H. inversion H; subst. clear H.
  rewrite (S c (ctx_le_refl c)). rewrite (Hlaw (ctx_scale c)) by (intros; apply ctx_scale_pos; exact G).
  destruct v as [u|].
  - destruct Hv as (Gu & Su & Du). destruct (tfloat (g (map phys xs))) eqn:Hft.
    2:{ destruct Hfl as [->|[->|Hfl]]; [discriminate Ep| |discriminate Hfl]. unfold finish1. simpl. rewrite Hft. simpl in Su. split.
        - unfold phys. simpl. rewrite Rinv_1, !tscale_1. reflexivity.
        - exists c. split; [exact G|]. split; [reflexivity|]. intros _ k. reflexivity. }
    unfold finish1. simpl. rewrite Hft. split.
    + unfold phys. simpl. rewrite tscale_mul, Su, Rinv_r, tscale_1; [reflexivity|]. rewrite <- Su. destruct Gu. lra.
    + exists c. auto.
  - destruct Hv as (Su & Du). unfold finish1. simpl. split.
    + rewrite Su. unfold phys. simpl. rewrite Rinv_1, !tscale_1. reflexivity.
    + exists c. split; [exact G|]. split; [reflexivity|]. intros _ k. simpl. symmetry. apply Du.
Qed.

(** ** elementwise functions *)
Lemma elem_rscale i c r : elem i (rscale c r) = (c * elem i r)%R.
Proof.
  destruct r; simpl; try ring. unfold tscale. simpl. rewrite <- (Rmult_0_r c) at 1. rewrite map_nth. reflexivity.
Qed.
Lemma elem_express i s rs : forall ps rest, map (elem i) (express s ps rest rs) = express_num s ps rest (map (elem i) rs).
Proof. induction rs as [|r rs IH]; intros; simpl; [reflexivity|]. rewrite elem_rscale, IH. reflexivity. Qed.
Lemma first_express s rs : forall ps rest, match first_tensor (express s ps rest rs), first_tensor rs with
  | Some t, Some t' => tshape t = tshape t' /\ length (tdata t) = length (tdata t')
  | None, None => True | _, _ => False end.
Proof.
  induction rs as [|r rs IH]; intros; simpl; [exact I|]. destruct r; simpl; try apply IH.
  split; [reflexivity|]. apply map_length.
Qed.
Lemma elementwise_law fl h ps rest out rs :
  (forall s vs, length vs = length rs -> (forall n, (0 < s n)%R) -> h (express_num s ps rest vs) = (/ out s * h vs)%R) ->
  scaling_law ps rest out (elementwise fl h) rs.
Proof.
  intros H s Hs. unfold elementwise. pose proof (first_express s rs ps rest) as F.
  destruct (first_tensor (express s ps rest rs)) as [t|]; destruct (first_tensor rs) as [t'|]; try contradiction.
  - destruct F as [F1 F2]. unfold tscale. simpl. rewrite F1, F2. f_equal. rewrite map_map. apply map_ext. intros i. rewrite elem_express. apply H; [apply map_length|exact Hs].
  - unfold tscale. simpl. f_equal. f_equal. rewrite elem_express. apply H; [apply map_length|exact Hs].
Qed.

(** ** which names are bound at the end *)
Definition pname (p : pspec) : list string := match p with PName n => [n] | _ => [] end.
Fixpoint names_in (ps : list pspec) (rest : pspec) (xs : list leaf) : list string :=
  match xs with [] => [] | _ :: xs' => pname (hd rest ps) ++ names_in (tl ps) rest xs' end.
Definition row_names (ps : list pspec) (rest : pspec) : list string := flat_map pname ps ++ pname rest.

Lemma do_leaf_keys env c p x y c' : do_leaf env c p x = Val (y, c') ->
  forall n, (exists u, dict_get c' n = Some u) <-> (exists u, dict_get c n = Some u) \/ In n (pname p).
Proof.
  unfold do_leaf. destruct p as [m|u|e|]; simpl.
  - destruct (dict_get c m) as [u|] eqn:E; simpl.
    + destruct (convert (Some u) x); intros H; simpl in H; [|discriminate H]. inversion H; subst. intros n. split; [auto|]. intros [A|[<-|[]]]; eauto.
    + rewrite convert_none. intros H. inversion H; subst. intros n. rewrite dict_get_set. destruct (String.eqb n m) eqn:X.
      * apply String.eqb_eq in X. subst. split; eauto.
      * split; [auto|]. intros [A|[<-|[]]]; auto. rewrite String.eqb_refl in X. discriminate.
  - destruct (convert (Some u) x); intros H; simpl in H; [|discriminate H]. inversion H; subst. intros n. split; [auto|]. intros [A|[]]; auto.
  - destruct (eval_uexp (pe_so env) c e) as [u|]; simpl; [|intros H; discriminate H].
    destruct (convert (Some u) x); intros H; simpl in H; [|discriminate H]. inversion H; subst. intros n. split; [auto|]. intros [A|[]]; auto.
  - rewrite convert_none. intros H. inversion H; subst. intros n. split; [auto|]. intros [A|[]]; auto.
Qed.
Lemma do_flat_keys env xs : forall c ps rest ys c', do_flat env c ps rest xs = Val (ys, c') ->
  forall n, (exists u, dict_get c' n = Some u) <-> (exists u, dict_get c n = Some u) \/ In n (names_in ps rest xs).
Proof.
  induction xs as [|x xs IH]; intros c ps rest ys c' H n; simpl in H.
  - inversion H; subst. simpl. tauto.
  - destruct (do_leaf env c (hd rest ps) x) as [[y c1]|] eqn:E1; [|discriminate]. simpl in H.
    destruct (do_flat env c1 (tl ps) rest xs) as [[ys' c2]|] eqn:E2; [|discriminate]. simpl in H. inversion H; subst.
    rewrite (IH _ _ _ _ _ E2 n), (do_leaf_keys _ _ _ _ _ _ E1 n). simpl. rewrite in_app_iff. tauto.
Qed.
Lemma names_in_row xs : forall ps rest, (length ps <= length xs)%nat -> (pname rest = [] \/ length ps < length xs)%nat ->
  forall n, In n (names_in ps rest xs) <-> In n (row_names ps rest).
Proof.
  unfold row_names. induction xs as [|x xs IH]; intros ps rest Hl Hr n; simpl in *.
  - destruct ps; simpl in *; [|lia]. destruct Hr as [->|Hr]; [tauto|lia].
  - destruct ps as [|p ps]; simpl in *.
    + rewrite in_app_iff. destruct xs as [|x2 xs].
      { simpl. tauto. }
      rewrite (IH [] rest) by (simpl in *; try lia; right; simpl; lia). simpl. tauto.
    + rewrite !in_app_iff, (IH ps rest) by first [lia | destruct Hr as [Hr|Hr]; [left; exact Hr|right; lia]]. rewrite in_app_iff. tauto.
Qed.

Lemma do_flat_matches env d xs : forall c ps rest ys c' seen, good_ctx c -> Forall good_spec (rest :: ps) -> Forall operand xs ->
  matches c d -> binds c seen -> row_closed seen ps = true -> no_eval rest = true -> Forall (spec_rep d) ps ->
  naming seen ps rest xs -> agree d ps rest xs -> do_flat env c ps rest xs = Val (ys, c') -> matches c' d.
Proof.
  induction xs as [|x xs IH]; intros c ps rest ys c' seen Hc Hs Hx Hm Hb Hcl Hne Hr Hn Ha; simpl.
  { intros H. inversion H; subst. exact Hm. }
  inversion Hx as [|? ? Hx1 Hx2]; subst. inversion Hs as [|? ? Hs1 Hs2]; subst. destruct Hn as [Hn1 Hn2]. destruct Ha as [Ha1 Ha2].
  assert (Hp : good_spec (hd rest ps)) by (destruct ps; [exact Hs1|inversion Hs2; assumption]).
  assert (Htl : Forall good_spec (rest :: tl ps)) by (constructor; [exact Hs1|destruct ps; [constructor|inversion Hs2; assumption]]).
  assert (Hc1 : closed1 seen (hd rest ps) = true).
  { destruct ps; simpl in *; [destruct rest; try reflexivity; discriminate|]. apply andb_true_iff in Hcl. apply Hcl. }
  assert (Hc2 : row_closed (next_seen seen (hd rest ps)) (tl ps) = true).
  { destruct ps; simpl in *; [reflexivity|]. apply andb_true_iff in Hcl. apply Hcl. }
  assert (Hr1 : spec_rep d (hd rest ps)).
  { destruct ps; simpl in *; [destruct rest; try exact I; discriminate|]. inversion Hr; assumption. }
  assert (Hr2 : Forall (spec_rep d) (tl ps)) by (destruct ps; [constructor|inversion Hr; assumption]).
  destruct (do_leaf_accept env c _ x d seen Hc Hp Hx1 Hm Hb Hc1 Hr1 Hn1 Ha1) as (y & c1 & E & G & M & B).
  rewrite E. simpl. destruct (do_flat env c1 (tl ps) rest xs) as [[ys' c2]|] eqn:E2; simpl; intros H; inversion H; subst.
  exact (IH c1 (tl ps) rest _ _ _ G Htl Hx2 M B Hc2 Hne Hr2 Hn2 Ha2 E2).
Qed.

(** a computable check of a row: names used are introduced, and the callable's parameters are the names *)
Definition subset (l m : list string) : bool := forallb (fun n => mem n m) l.
Definition ret_closed (names : list string) (r : rspec) : bool :=
  match r with
  | RName n => mem n names
  | RUnit _ | RFalse => true
  | RFun ps kw (OLeaf (XU e)) => subset (names_of e) names && subset ps names && (kw || subset names ps)
  | RFun ps kw _ => false
  end.
Definition row_ok (ps : list pspec) (rest : pspec) (r : rspec) : bool :=
  row_closed [] ps && no_eval rest && ret_closed (row_names ps rest) r.

Lemma dict_key_get (c : ctx) n : In n (map fst c) <-> exists u, dict_get c n = Some u.
Proof.
  split; intros H.
  - destruct (dict_get c n) eqn:E; [eauto|]. apply dict_get_none in E. contradiction.
  - destruct H as [u E]. apply dict_get_in in E. apply (in_map fst) in E. exact E.
Qed.

Lemma process_spec_ok env c r names : ret_closed names r = true -> (forall n, (exists u, dict_get c n = Some u) <-> In n names) ->
  exists o, process_spec env c r = Val o.
Proof.
  intros Hr Hk. destruct r as [n|u| |ps kw body]; simpl in *; eauto.
  - apply mem_in, Hk in Hr. destruct Hr as [u ->]. eauto.
  - destruct body as [[e|]| | | | |]; try discriminate. apply andb_true_iff in Hr. destruct Hr as [Hr H3]. apply andb_true_iff in Hr. destruct Hr as [H1 H2].
    assert (Hc : call_ok ps kw c = true).
    { unfold call_ok. apply andb_true_iff. split.
      - unfold subset in H2. rewrite forallb_forall in *. intros n Hn. specialize (H2 n Hn). apply mem_in in H2. apply mem_in. apply dict_key_get, Hk. exact H2.
      - apply orb_true_iff in H3. apply orb_true_iff. destruct H3 as [->|H3]; [auto|right]. unfold subset in H3. rewrite forallb_forall in *.
        intros n Hn. apply dict_key_get, Hk in Hn. apply H3. exact Hn. }
    rewrite Hc. simpl. destruct (eval_total (pe_so env) c e) as [u ->]; [|simpl; eauto].
    unfold subset in H1. rewrite forallb_forall in *. intros n Hn. specialize (H1 n Hn). apply mem_in, Hk in H1. destruct H1 as [u ->]. reflexivity.
Qed.

Lemma out_dim_ext r d d' k : (match r with RName n => d n k = d' n k | RFun _ _ (OLeaf (XU e)) => forall n, In n (names_of e) -> d n k = d' n k | _ => True end) ->
  out_dim r d k = out_dim r d' k.
Proof. destruct r as [n|u| |ps kw [[e|]| | | | |]]; simpl; auto. apply dim_exp_ext. Qed.

Theorem row_sound env ps rest r g xs d :
  row_ok ps rest r = true ->
  (length ps <= length xs)%nat -> (pname rest = [] \/ length ps < length xs)%nat ->
  Forall good_spec (rest :: ps) -> simple_ret r -> Forall operand xs -> fits ps rest xs -> naming [] ps rest xs ->
  (r = RFalse \/ r = RUnit unit_one \/ tfloat (g (map phys xs)) = true) ->
  scaling_law ps rest (out_scale r) g (map phys xs) ->
  Forall (spec_rep d) ps -> out_representable r d -> agree d ps rest xs ->
  exists y, run_row env ps rest r g xs = Val y /\ phys y = RTen (g (map phys xs)) /\ forall k, dim_of y k = out_dim r d k.
Proof.
  intros Hrow Hlen Hlen' Hs Hr Hx Hfit Hnam Hfl Hlaw Hrep Horep Hag.
  unfold row_ok in Hrow. apply andb_true_iff in Hrow. destruct Hrow as [Hrow Hret]. apply andb_true_iff in Hrow. destruct Hrow as [Hcl Hne].
  assert (Hc0 : good_ctx []) by (intros n u H; discriminate H).
  assert (Hm0 : matches [] d) by (intros n u H; discriminate H).
  assert (Hb0 : binds [] []) by (intros n []).
  destruct (do_flat_accept env d xs [] ps rest [] Hc0 Hs Hx Hm0 Hb0 Hcl Hne Hrep Hnam Hag) as [[ys c] E].
  pose proof (do_flat_matches env d xs [] ps rest ys c [] Hc0 Hs Hx Hm0 Hb0 Hcl Hne Hrep Hnam Hag E) as Hm.
  pose proof (do_flat_keys env xs [] ps rest ys c E) as Hk.
  assert (Hk' : forall n, (exists u, dict_get c n = Some u) <-> In n (row_names ps rest)).
  { intros n. rewrite Hk, names_in_row by assumption. split; [intros [[u H]|H]; [discriminate H|exact H]|auto]. }
  destruct (process_spec_ok env c r _ Hret Hk') as [o Ho].
  destruct (do_flat_inv env xs [] ps rest ys c Hc0 Hs Hx Hfit E) as (G & _ & _ & _).
  assert (Hcall : exists y, run_row env ps rest r g xs = Val y).
  { unfold run_row. rewrite E. simpl. rewrite Ho. simpl.
    destruct (process_spec_inv env c r o G Hr Ho) as (v & -> & _). rewrite process_leaf. eauto. }
  destruct Hcall as [y Hy]. exists y. split; [exact Hy|].
  destruct (row_physical env ps rest r g xs y Hs Hr Hx Hfit Hfl Hlaw Hy) as [P (c' & G' & Ec & D)].
  split; [exact P|]. rewrite E in Ec. simpl in Ec. subst c'.
  assert (Hd : forall n, In n (row_names ps rest) -> forall k, ctx_dim c n k = d n k).
  { intros n Hn k. apply Hk' in Hn. destruct Hn as [u Eu]. unfold ctx_dim. rewrite Eu. apply Hm. exact Eu. }
  intros k. rewrite D.
  - apply out_dim_ext. destruct r as [n|u| |ps' kw [[e|]| | | | |]]; auto; simpl in Hret.
    + apply Hd. apply mem_in. exact Hret.
    + intros n Hn. apply Hd. apply andb_true_iff in Hret. destruct Hret as [Hret _]. apply andb_true_iff in Hret. destruct Hret as [Hret _].
      unfold subset in Hret. rewrite forallb_forall in Hret. apply mem_in. apply Hret. exact Hn.
  - destruct r as [n|u| |ps' kw [[e|]| | | | |]]; simpl in *; auto. eapply representable_ext; [|exact Horep].
    intros n k' Hn. symmetry. apply Hd. apply andb_true_iff in Hret. destruct Hret as [Hret _]. apply andb_true_iff in Hret. destruct Hret as [Hret _].
    unfold subset in Hret. rewrite forallb_forall in Hret. apply mem_in. apply Hret. exact Hn.
Qed.
Theorem call_sound env name ps rest r g xs d :
  existsb (String.eqb name) forbidden = false -> lookup_spec name = Spec ps rest (OLeaf r) -> row_ok ps rest r = true ->
  (length ps <= length xs)%nat -> (pname rest = [] \/ length ps < length xs)%nat ->
  Forall good_spec (rest :: ps) -> simple_ret r -> Forall operand xs -> fits ps rest xs -> naming [] ps rest xs ->
  (r = RFalse \/ r = RUnit unit_one \/ tfloat (g (map phys xs)) = true) ->
  scaling_law ps rest (out_scale r) g (map phys xs) ->
  Forall (spec_rep d) ps -> out_representable r d -> agree d ps rest xs ->
  exists y, call env name g xs = Val y /\ phys y = RTen (g (map phys xs)) /\ forall k, dim_of y k = out_dim r d k.
Proof. intros Hf Hl. rewrite (call_spec env name ps rest r g xs Hf Hl). apply row_sound. Qed.

Theorem row_rejects env ps rest r g xs :
  row_ok ps rest r = true ->
  (length ps <= length xs)%nat -> (pname rest = [] \/ length ps < length xs)%nat ->
  Forall good_spec (rest :: ps) -> simple_ret r -> Forall operand xs ->
  run_row env ps rest r g xs = Raise EUnitError \/
  exists y d, run_row env ps rest r g xs = Val y /\ agree_w d ps rest xs /\
    (forall c ys, do_flat env [] ps rest xs = Val (ys, c) -> d = ctx_dim c).
Proof.
  intros Hrow Hlen Hlen' Hs Hr Hx.
  unfold row_ok in Hrow. apply andb_true_iff in Hrow. destruct Hrow as [Hrow Hret]. apply andb_true_iff in Hrow. destruct Hrow as [Hcl Hne].
  assert (Hc0 : good_ctx []) by (intros n u H; discriminate H).
  assert (Hb0 : binds [] []) by (intros n []).
  unfold run_row.
  destruct (do_flat_cases env xs [] ps rest [] Hc0 Hs Hx Hb0 Hcl Hne) as [->|(ys & c & E & G & _ & A & _)]; [left; reflexivity|right].
  rewrite E. simpl. pose proof (do_flat_keys env xs [] ps rest ys c E) as Hk.
  assert (Hk' : forall n, (exists u, dict_get c n = Some u) <-> In n (row_names ps rest)).
  { intros n. rewrite Hk, names_in_row by assumption. split; [intros [[u H]|H]; [discriminate H|exact H]|auto]. }
  destruct (process_spec_ok env c r _ Hret Hk') as [o Ho]. rewrite Ho. simpl.
  destruct (process_spec_inv env c r o G Hr Ho) as (v & -> & _). rewrite process_leaf.
  eexists _, (ctx_dim c). split; [reflexivity|]. split; [apply A; apply ctx_le_refl|]. intros c' ys' E'. inversion E'. reflexivity.
Qed.
Theorem call_rejects env name ps rest r g xs :
  existsb (String.eqb name) forbidden = false -> lookup_spec name = Spec ps rest (OLeaf r) -> row_ok ps rest r = true ->
  (length ps <= length xs)%nat -> (pname rest = [] \/ length ps < length xs)%nat ->
  Forall good_spec (rest :: ps) -> simple_ret r -> Forall operand xs ->
  call env name g xs = Raise EUnitError \/
  exists y d, call env name g xs = Val y /\ agree_w d ps rest xs /\
    (forall c ys, do_flat env [] ps rest xs = Val (ys, c) -> d = ctx_dim c).
Proof. intros Hf Hl. rewrite (call_spec env name ps rest r g xs Hf Hl). apply row_rejects. Qed.
