(** List arguments and tuple results. *)
From Coq Require Import ZArith QArith Qcanon String List Bool Reals Lia Lra.
From Verif Require Import Frac FracFacts Units UnitSpec UnitsFacts UnitsThms PyTree PyTreeFacts Quantities QuantSpec QuantFacts QuantFuns.
Import ListNotations.
Open Scope list_scope.

Section Flat.
Context {A : Type}.
Definition slf : A -> spec string := fun _ => SLeaf.
Lemma flatten_leaf_list (l : list A) :
  sequence (map (@tree_flatten A string) (map OLeaf l)) = Ok (map (fun a => ([OLeaf a], SLeaf)) l).
Proof. induction l as [|a l IH]; simpl; [reflexivity|]. rewrite IH. reflexivity. Qed.
Lemma flatten_node_leaves t c (l : list A) : flatten_node A string t c (map (fun a => ([OLeaf a], SLeaf)) l) = (map OLeaf l, SNode t c (map slf l)).
Proof.
  unfold flatten_node. f_equal.
  - rewrite map_map. simpl. induction l; simpl; [reflexivity|]. rewrite IHl. reflexivity.
  - rewrite map_map. reflexivity.
Qed.
Lemma num_leaves_flat t c {B} (l : list B) : num_leaves (SNode t c (map (fun _ => @SLeaf string) l)) = length l.
Proof. simpl. induction l; simpl; [reflexivity|]. f_equal. exact IHl. Qed.
Lemma unflatten_flat env t {B} (l : list B) (vs : list (obj A string)) : length vs = length l ->
  unflatten env vs (SNode t None (map (fun _ => SLeaf) l)) = of_result (unflatten_node A string String.eqb (pe_ctor env) t None vs).
Proof.
  intros H. unfold unflatten.
  replace (tree_unflatten A string String.eqb (pe_ctor env) vs (SNode t None (map (fun _ => SLeaf) l)))
    with (unflatten_node A string String.eqb (pe_ctor env) t None vs); [reflexivity|].
  assert (E : vs = concat (map (fun v => [v]) vs)) by (clear; induction vs; simpl; congruence).
  rewrite E at 2. rewrite (unflatten_concat String.eqb (pe_ctor env) t None (map (fun _ => SLeaf) l) (map (fun v => [v]) vs)).
  - replace (sequence _) with (Ok vs); [reflexivity|]. symmetry. apply sequence_ok. clear E. revert vs H. induction l as [|b l IH]; intros [|v vs] H; try discriminate; [reflexivity|].
    simpl. f_equal. apply IH. simpl in H. lia.
  - clear E. revert vs H. induction l as [|b l IH]; intros [|v vs] H; try discriminate; simpl; constructor; auto. 
Qed.
End Flat.

Lemma leaves_loop env p xs : forall c,
  do_leaves env c (map OLeaf xs) (repeat (OLeaf p) (length xs)) =
  bind (do_flat env c [] p xs) (fun r => Val (map OLeaf (fst r), snd r)).
Proof.
  induction xs as [|x xs IH]; intros c; [reflexivity|]. simpl. destruct (do_leaf env c p x) as [[y c1]|e]; [|reflexivity]. simpl.
  rewrite IH. destruct (do_flat env c1 [] p xs); reflexivity.
Qed.
Lemma do_flat_length env xs : forall c ps rest ys c', do_flat env c ps rest xs = Val (ys, c') -> length ys = length xs.
Proof.
  induction xs as [|x xs IH]; intros c ps rest ys c' E; simpl in E; [inversion E; reflexivity|].
  destruct (do_leaf env c (hd rest ps) x) as [[y c1]|]; [|discriminate]. simpl in E.
  destruct (do_flat env c1 (tl ps) rest xs) as [[ys' c2]|] eqn:E2; [|discriminate]. simpl in E. inversion E; subst.
  simpl. f_equal. eapply IH; eauto.
Qed.
Lemma do_arg_list env c p xs :
  do_arg env c p (OList (map OLeaf xs)) = bind (do_flat env c [] p xs) (fun r => Val (OList (map OLeaf (fst r)), snd r)).
Proof.
  unfold do_arg, flatten. cbn [tree_flatten]. rewrite flatten_leaf_list. cbn [rbind of_result bind]. rewrite flatten_node_leaves. cbn [fst snd].
  unfold bcast. change (broadcast pspec string String.eqb (pe_sub env) (OLeaf p) (SNode TList None (map slf xs)))
    with (Ok (Some (repeat (OLeaf p) (num_leaves (SNode TList None (map slf xs)))) : option (list (obj pspec string)))). unfold slf.
  rewrite num_leaves_flat. cbn [of_result bind]. rewrite leaves_loop.
  destruct (do_flat env c [] p xs) as [[ys c']|e] eqn:E; [|reflexivity]. cbn [bind fst snd].
  rewrite unflatten_flat by (rewrite map_length; apply (do_flat_length _ _ _ _ _ _ _ E)). reflexivity.
Qed.

Lemma call_list_row env name g xs param :
  existsb (String.eqb name) forbidden = false -> lookup_spec name = Spec [PName "unit"] PNone (OLeaf (RName "unit")) ->
  call_list env name g xs param = run_row env [] (PName "unit") (RName "unit") g xs.
Proof.
  intros Hf Hl. unfold call_list, torch_function, run_row. rewrite Hf, Hl. unfold apply_spec. cbn [do_args hd tl].
  rewrite do_arg_list. destruct (do_flat env [] [] (PName "unit") xs) as [[ys c]|e]; [|reflexivity]. cbn [bind fst snd].
  rewrite do_arg_leaf. unfold do_leaf. cbn [resolve bind fst snd]. rewrite convert_none. cbn [bind fst snd]. rewrite process_ret_leaf.
  destruct (process_spec env c (RName "unit")) as [o|e]; [|reflexivity]. cbn [bind fst snd].
  cbn [skipn length app map omap]. rewrite map_leaf_strip. reflexivity.
Qed.

Lemma process_tuple env c ts os : length ts = length os -> match c with Some c => pe_ctor env c = true | None => True end ->
  process env (tuple_like c (map (fun t => OLeaf (OT t)) ts)) (OTuple (map OLeaf os)) =
  Val (tuple_like c (map (fun p => OLeaf (finish1 (fst p) (snd p))) (combine ts os))).
Proof.
  intros Hlen Hc.
  assert (Hm : map (fun t => OLeaf (OT t)) ts = map (@OLeaf rout string) (map OT ts)) by (rewrite map_map; reflexivity).
  rewrite Hm. unfold process, flatten.
  set (t := match c with None => TTuple | Some c => TSub c end).
  assert (Hf : tree_flatten (tuple_like c (map (@OLeaf rout string) (map OT ts))) = Ok (map OLeaf (map OT ts), SNode t None (map slf (map OT ts)))).
  { destruct c; cbn [tuple_like tree_flatten]; rewrite flatten_leaf_list; cbn [rbind]; rewrite flatten_node_leaves; reflexivity. }
  rewrite Hf. cbn [of_result bind fst snd].
  assert (Hb : bcast env (OTuple (map (@OLeaf oret string) os)) (SNode t None (map slf (map OT ts))) = Val (Some (map OLeaf os))).
  { unfold bcast. assert (Ht : negb (ntype_eqb TTuple t) && negb (issubclass (pe_sub env) t TTuple) = false).
    { unfold t. destruct c; reflexivity. }
    rewrite (broadcast_node String.eqb (pe_sub env) (OTuple (map OLeaf os)) TTuple (map OLeaf os) None t None (map slf (map OT ts))) by reflexivity.
    rewrite Ht. rewrite !map_length, Hlen, Nat.eqb_refl. simpl orb. cbv iota.
    assert (G : forall (ts : list rout) os, length ts = length os -> bgo String.eqb (pe_sub env) (map (@OLeaf oret string) os) (map slf ts) = Ok (Some (map OLeaf os))).
    { clear. induction ts as [|x ts IH]; intros [|o os] H; try discriminate; [reflexivity|]. simpl. rewrite IH by (simpl in H; lia). reflexivity. }
    rewrite G by (rewrite map_length; exact Hlen). reflexivity. }
  rewrite Hb. cbn [bind].
  assert (Hz : zip_finish (map OLeaf (map OT ts)) (map OLeaf os) = Val (map (fun p => OLeaf (finish1 (fst p) (snd p))) (combine ts os))).
  { clear - Hlen. revert os Hlen. induction ts as [|x ts IH]; intros [|o os] H; try discriminate; [reflexivity|].
    simpl in *. injection H as H. rewrite (IH os H).
    assert (F : finish (OLeaf (OT x)) (OLeaf o) = Val (OLeaf (finish1 x o))) by (destruct o as [u|]; simpl; [destruct (tfloat x)|]; reflexivity).
    change (bind (finish (OLeaf (OT x)) (OLeaf o)) (fun x0 => Val (x0 :: map (fun p => OLeaf (finish1 (fst p) (snd p))) (combine ts os))) =
            Val (OLeaf (finish1 x o) :: map (fun p => OLeaf (finish1 (fst p) (snd p))) (combine ts os))). rewrite F. reflexivity. }
  rewrite Hz. cbn [bind]. unfold slf. rewrite unflatten_flat.
  - unfold t. destruct c; simpl; [rewrite Hc|]; reflexivity.
  - rewrite !map_length, combine_length, <- Hlen, Nat.min_id. reflexivity.
Qed.

(** the rules of the single components of a tuple rule *)
Definition part_of (ps : list string) (kw : bool) (o : obj rexp string) : list rspec := match o with OLeaf x => [RFun ps kw (OLeaf x)] | _ => [] end.
Definition is_leaf_obj {A} (o : obj A string) : bool := match o with OLeaf _ => true | _ => false end.
Definition parts (ret : obj rspec string) : option (list rspec) :=
  match ret with
  | OTuple l => if forallb is_leaf_obj l then Some (flat_map (fun o => match o with OLeaf r => [r] | _ => [] end) l) else None
  | OLeaf (RFun ps kw (OTuple l)) => if forallb is_leaf_obj l then Some (flat_map (part_of ps kw) l) else None
  | _ => None
  end.
Lemma leaves_only {A} (l : list (obj A string)) : forallb is_leaf_obj l = true -> exists m, l = map OLeaf m.
Proof.
  induction l as [|o l IH]; simpl; [exists []; reflexivity|]. intros H. apply andb_true_iff in H. destruct H as [H1 H2].
  destruct o; try discriminate. destruct (IH H2) as [m ->]. exists (a :: m). reflexivity.
Qed.
Lemma mapM_leaf {X Y} (f : X -> outcome Y) l : mapM f l = mapM f l. Proof. reflexivity. Qed.
Lemma mapM_map {X Y Z} (f : X -> Y) (g : Y -> outcome Z) l : mapM g (map f l) = mapM (fun x => g (f x)) l.
Proof. induction l; simpl; [reflexivity|]. rewrite IHl. reflexivity. Qed.
Lemma mapM_length {X Y} (f : X -> outcome Y) l : forall ys, mapM f l = Val ys -> length ys = length l.
Proof.
  induction l as [|x l IH]; intros ys H; simpl in H; [inversion H; reflexivity|]. destruct (f x); [|discriminate]. simpl in H.
  destruct (mapM f l) as [zs|]; [|discriminate]. inversion H. simpl. f_equal. auto.
Qed.
Lemma mapM_ext {X Y} (f g : X -> outcome Y) l : (forall x, In x l -> f x = g x) -> mapM f l = mapM g l.
Proof. induction l as [|x l IH]; simpl; intros H; [reflexivity|]. rewrite H, IH; auto. Qed.
Lemma process_parts env c ret rs : parts ret = Some rs -> rs <> [] -> forall os, mapM (process_spec env c) rs = Val os ->
  process_ret env c ret = Val (OTuple os).
Proof.
  intros Hp Hne os Hm. destruct ret as [r|l|l|cl l|cl l|items]; simpl in Hp; try discriminate.
  - destruct r as [| | |ps kw body]; try discriminate. destruct body as [|l|l|cl l|cl l|items]; try discriminate.
    destruct (forallb is_leaf_obj l) eqn:El; [|discriminate]. inversion Hp; subst; clear Hp. destruct (leaves_only l El) as [m ->]. clear El.
    rewrite process_ret_leaf. cbn [process_spec]. destruct m as [|x m]; [contradiction Hne; reflexivity|].
    cbn [flat_map map part_of app] in Hm. destruct (call_ok ps kw c) eqn:Ec.
    2:{ cbn [mapM process_spec] in Hm. rewrite Ec in Hm. discriminate Hm. }
    cbn [omapM]. 
    assert (G : forall m os, mapM (process_spec env c) (flat_map (part_of ps kw) (map OLeaf m)) = Val os -> mapM (omapM (eval_rexp env c)) (map OLeaf m) = Val os).
    { clear - Ec. induction m as [|y m IH]; intros os H; [exact H|]. simpl in H. rewrite Ec in H. simpl in H. simpl.
      destruct (eval_rexp env c y) as [v|]; [|discriminate]. simpl in *.
      destruct (mapM (process_spec env c) (flat_map (part_of ps kw) (map OLeaf m))) as [zs|] eqn:E; [|discriminate].
      rewrite (IH zs eq_refl). exact H. }
    rewrite (G (x :: m) os Hm). reflexivity.
  - destruct (forallb is_leaf_obj l) eqn:El; [|discriminate]. inversion Hp; subst; clear Hp. destruct (leaves_only l El) as [m ->]. clear El.
    assert (E : flat_map (fun o : obj rspec string => match o with OLeaf r => [r] | _ => [] end) (map OLeaf m) = m).
    { clear. induction m; simpl; [reflexivity|]. rewrite IHm. reflexivity. }
    rewrite E in Hm. unfold process_ret, flatten. cbn [tree_flatten]. rewrite flatten_leaf_list. cbn [rbind of_result bind]. rewrite flatten_node_leaves. cbn [fst snd].
    rewrite mapM_map. rewrite (mapM_ext _ (process_spec env c)) by reflexivity. rewrite Hm. cbn [bind]. unfold slf. rewrite unflatten_flat; [reflexivity|].
    apply (mapM_length _ _ _ Hm).
Qed.

Lemma multi_row env name ps rest ret rs c gs xs zs :
  existsb (String.eqb name) forbidden = false -> lookup_spec name = Spec ps rest ret -> parts ret = Some rs -> rs <> [] -> length gs = length rs ->
  match c with Some c => pe_ctor env c = true | None => True end ->
  Forall good_spec (rest :: ps) -> Forall simple_ret rs -> Forall operand xs -> fits ps rest xs ->
  mapM (fun p => run_row env ps rest (fst p) (snd p) xs) (combine rs gs) = Val zs ->
  call_multi env name c gs xs = Val zs.
Proof.
  intros Hf Hl Hp Hne Hlen Hc Hs Hr Hx Hfit H.
  destruct rs as [|r0 rs0] eqn:Ers; [contradiction Hne; reflexivity|]. destruct gs as [|g0 gs0] eqn:Egs; [discriminate Hlen|].
  rewrite <- Ers, <- Egs in *. clear Hne.
  unfold call_multi, torch_function. rewrite Hf, Hl. unfold apply_spec. rewrite do_args_flat.
  destruct (do_flat env [] ps rest xs) as [[ys c']|e] eqn:E.
  2:{ exfalso. rewrite Ers, Egs in H. simpl in H. unfold run_row in H. rewrite E in H. discriminate H. }
  assert (G : good_ctx c').
  { apply (do_flat_inv env xs [] ps rest ys c'); auto. intros n u HH. discriminate HH. }
  cbn [bind fst snd].
  (* the components *)
  assert (K : exists vs, mapM (process_spec env c') rs = Val (map OLeaf vs) /\ length vs = length rs /\
     zs = map (fun p => finish1 (fst p) (snd p)) (combine (map (fun g => g (map strip ys)) gs) vs)).
  { clear Hp Ers Egs Hl. revert gs Hlen zs H. induction rs as [|r rs IH]; intros gs Hlen zs H.
    - destruct gs; [|discriminate]. simpl in H. inversion H. exists []. repeat split.
    - destruct gs as [|g gs]; [discriminate|]. simpl in H. unfold run_row in H at 1. rewrite E in H. cbn [bind fst snd] in H.
      inversion Hr as [|? ? Hr1 Hr2]; subst.
      destruct (process_spec env c' r) as [o|] eqn:Eo; [|discriminate H]. cbn [bind] in H.
      destruct (process_spec_inv env c' r o G Hr1 Eo) as (v & -> & _). rewrite process_leaf in H. cbn [bind] in H.
      destruct (mapM (fun p => run_row env ps rest (fst p) (snd p) xs) (combine rs gs)) as [zs'|] eqn:Em; [|discriminate H].
      simpl in H. inversion H; subst. destruct (IH Hr2 gs ltac:(simpl in Hlen; lia) zs' Em) as (vs & Ev & Lv & Ez).
      exists (v :: vs). cbn [mapM]. rewrite Eo. cbn [bind]. rewrite Ev. cbn [bind]. split; [reflexivity|]. split; [simpl; lia|]. simpl. rewrite Ez. reflexivity. }
  destruct K as (vs & Ev & Lv & Ez).
  rewrite (process_parts env c' ret rs Hp ltac:(rewrite Ers; discriminate) _ Ev). cbn [bind fst snd].
  pose proof (do_flat_length _ _ _ _ _ _ _ E) as Ly.
  rewrite skipn_exact by (rewrite !map_length; congruence). rewrite app_nil_r, map_leaf_strip.
  replace (map (fun g => OLeaf (OT (g (map strip ys)))) gs) with (map (fun t => @OLeaf rout string (OT t)) (map (fun g => g (map strip ys)) gs)) by (rewrite map_map; reflexivity).
  rewrite process_tuple by (try exact Hc; rewrite map_length; congruence).
  assert (F : mapM (fun o : obj leaf string => match o with OLeaf y => Val y | _ => Raise ETypeError end)
     (map (fun p => OLeaf (finish1 (fst p) (snd p))) (combine (map (fun g => g (map strip ys)) gs) vs)) = Val zs).
  { rewrite Ez. rewrite mapM_map. generalize (combine (map (fun g => g (map strip ys)) gs) vs). clear. intros l. induction l; simpl; [reflexivity|]. rewrite IHl. reflexivity. }
  destruct c; exact F.
Qed.
