(** * Properties C53 (custom gradients) and C54 (gradients of inverse functions)
    [slots], [rule_of], [package_classes], [is_rule] are in FuncCtxSpec.v. *)
From Coq Require Import String List Bool Arith Lia Reals Lra Permutation.
From Coquelicot Require Import Complex.
From Verif Require Import Units UnitsFacts FuncCtx FuncCtxSpec.
Import ListNotations.
Open Scope string_scope.
Open Scope list_scope.

(** ** The insertion-ordered dictionary *)
Lemma keys_set {V} (d : list (string * V)) k v : map fst (dict_set d k v) = if existsb (String.eqb k) (map fst d) then map fst d else map fst d ++ [k].
Proof.
  induction d as [|[k0 v0] d IH]; cbn [dict_set map fst existsb]; [reflexivity|].
  destruct (String.eqb_spec k k0) as [->|N]; cbn [map fst orb]; [reflexivity|]. rewrite IH. destruct (existsb (String.eqb k) (map fst d)); reflexivity.
Qed.
Lemma get_set {V} (d : list (string * V)) k v k' : dict_get (dict_set d k v) k' = if String.eqb k' k then Some v else dict_get d k'.
Proof.
  induction d as [|[k0 v0] d IH]; cbn [dict_set dict_get].
  - reflexivity.
  - destruct (String.eqb_spec k k0) as [->|N]; cbn [dict_get].
    + destruct (String.eqb_spec k' k0); reflexivity.
    + rewrite IH. destruct (String.eqb_spec k' k0) as [->|N']; [|reflexivity]. destruct (String.eqb_spec k0 k); [congruence|reflexivity].
Qed.
Definition step (d : list (string * rawfn)) (kv : string * rawfn) := if String.prefix "grad_" (fst kv) then dict_set d (fst kv) (snd kv) else d.
Lemma inb_app n (l l' : list string) : existsb (String.eqb n) (l ++ l') = existsb (String.eqb n) l || existsb (String.eqb n) l'.
Proof. apply existsb_app. Qed.
Lemma inb_in n l : existsb (String.eqb n) l = true <-> In n l.
Proof.
  rewrite existsb_exists. split.
  - intros (x & H & E). apply String.eqb_eq in E. congruence.
  - intros H. exists n. split; [exact H|apply String.eqb_refl].
Qed.
(** one class body *)
Lemma body_keys vs : forall d, NoDup (map fst vs) ->
  map fst (fold_left step vs d) = map fst d ++ filter (fun n => negb (existsb (String.eqb n) (map fst d))) (filter (String.prefix "grad_") (map fst vs)).
Proof.
  induction vs as [|[n r] vs IH]; intros d ND; cbn [fold_left map fst filter]; [rewrite app_nil_r; reflexivity|].
  inversion ND as [|n0 l Hn ND']; subst. rewrite IH by exact ND'. unfold step at 1 2. cbn [fst snd].
  destruct (String.prefix "grad_" n) eqn:P; [|reflexivity].
  rewrite keys_set. cbn [filter]. destruct (existsb (String.eqb n) (map fst d)) eqn:X; cbn [negb].
  - reflexivity.
  - rewrite <- app_assoc. f_equal. cbn [app]. f_equal. apply filter_ext_in. intros m Hm. rewrite inb_app. cbn [existsb]. rewrite orb_false_r.
    assert (m <> n) by (intros ->; apply filter_In in Hm as [Hm _]; contradiction).
    destruct (String.eqb_spec m n); [contradiction|]. rewrite orb_false_r. reflexivity.
Qed.
Lemma body_get vs : forall d n, NoDup (map fst vs) -> String.prefix "grad_" n = true ->
  dict_get (fold_left step vs d) n = match find (fun kv => String.eqb n (fst kv)) vs with Some (_, r) => Some r | None => dict_get d n end.
Proof.
  induction vs as [|[m r] vs IH]; intros d n ND P; cbn [fold_left find fst]; [reflexivity|].
  inversion ND as [|n0 l Hn ND']; subst. rewrite IH by assumption. unfold step. cbn [fst snd].
  destruct (String.eqb_spec n m) as [->|N].
  - rewrite P. destruct (find (fun kv => String.eqb m (fst kv)) vs) as [[m' r']|] eqn:F.
    + exfalso. apply Hn. apply find_some in F as [F1 F2]. apply String.eqb_eq in F2. cbn in F2. subst m'. apply in_map_iff. exists (m, r'). auto.
    + rewrite get_set, String.eqb_refl. reflexivity.
  - destruct (find (fun kv => String.eqb n (fst kv)) vs) as [[m' r']|]; [reflexivity|].
    destruct (String.prefix "grad_" m); [|reflexivity]. rewrite get_set. destruct (String.eqb_spec n m); [contradiction|reflexivity].
Qed.
Lemma hier_fold hier : gradfuncs_dict hier = match hier with [] => [] | k :: r => fold_left step (cd_vars k) (gradfuncs_dict r) end.
Proof.
  destruct hier as [|k r]; [reflexivity|]. unfold gradfuncs_dict at 1. cbn [rev]. rewrite map_app, concat_app, fold_left_app. cbn [map concat].
  rewrite app_nil_r. reflexivity.
Qed.
Lemma dict_keys hier : namespaces hier -> map fst (gradfuncs_dict hier) = slots hier.
Proof.
  induction hier as [|k r IH]; intros N; [reflexivity|]. inversion N as [|a l Hk Hr]; subst. rewrite hier_fold, body_keys by assumption. rewrite IH by assumption. reflexivity.
Qed.
Lemma dict_vals hier n : namespaces hier -> String.prefix "grad_" n = true -> dict_get (gradfuncs_dict hier) n = rule_of hier n.
Proof.
  induction hier as [|k r IH]; intros N P; [reflexivity|]. inversion N as [|a l Hk Hr]; subst. rewrite hier_fold, body_get by assumption. cbn [rule_of].
  destruct (find (fun kv => String.eqb n (fst kv)) (cd_vars k)) as [[m r']|]; [reflexivity|]. apply IH; assumption.
Qed.
Lemma slots_prefix hier n : In n (slots hier) -> String.prefix "grad_" n = true.
Proof.
  induction hier as [|k r IH]; intros H; [contradiction|]. cbn [slots] in H. apply in_app_iff in H as [H|H]; [auto|].
  apply filter_In in H as [H _]. apply filter_In in H. apply H.
Qed.
Lemma slots_nodup hier : namespaces hier -> NoDup (slots hier).
Proof.
  induction hier as [|k r IH]; intros N; [constructor|]. inversion N as [|a l Hk Hr]; subst. cbn [slots].
  assert (F : NoDup (filter (fun n => negb (existsb (String.eqb n) (slots r))) (defines k))) by (apply NoDup_filter, NoDup_filter, Hk).
  assert (D : forall n, In n (slots r) -> In n (filter (fun n => negb (existsb (String.eqb n) (slots r))) (defines k)) -> False).
  { intros n H1 H2. apply filter_In in H2 as [_ H2]. apply inb_in in H1. rewrite H1 in H2. discriminate. }
  specialize (IH Hr). revert IH D. generalize (slots r) at 1 2 4. intros l IHl D. induction l as [|x l IHx]; [exact F|].
  cbn [app]. inversion IHl; subst. constructor.
  - intros H. apply in_app_iff in H as [H|H]; [contradiction|]. apply (D x); [left; reflexivity|exact H].
  - apply IHx; [assumption|]. intros n H1' H2'. apply (D n); [right; assumption|assumption].
Qed.
Lemma vals_of_keys {V} (d : list (string * V)) : NoDup (map fst d) -> map (fun kv => Some (snd kv)) d = map (dict_get d) (map fst d).
Proof.
  induction d as [|[k v] d IH]; intros N; [reflexivity|]. cbn [map fst] in *. inversion N as [|k0 l Hk N']; subst. cbn [dict_get snd]. rewrite String.eqb_refl. f_equal.
  rewrite IH by assumption. apply map_ext_in. intros n Hn. destruct (String.eqb_spec n k) as [->|]; [contradiction|reflexivity].
Qed.

(** A class whose rules are collected automatically (no explicit [gradfuncs] in its hierarchy) has one slot for every
    rule defined anywhere in the hierarchy: the slots of the bases keep their place, new rules are added behind them,
    and each slot holds the most derived definition, bound to the class. *)
Theorem C53_inherited_slots : forall own rest,
  namespaces (own :: rest) -> look cd_gradfuncs None (own :: rest) = None \/ look cd_auto false (own :: rest) = true ->
  (forall l, look cd_update (fun l => l) (own :: rest) l = l) -> slots (own :: rest) <> [] ->
  let k := init_subclass own rest in
  NoDup (slots (own :: rest)) /\
  exists gfs, gradfuncs k = Some gfs /\ differentiable k = true /\
    map Some gfs = map (fun n => option_map (fun r => bind (cd_name own) (GRaw r)) (rule_of (own :: rest) n)) (slots (own :: rest)) /\
    (look cd_ninputs None (own :: rest) = None \/ look cd_auto false (own :: rest) = true -> ninputs k = Some (length (slots (own :: rest)))).
Proof.
  intros own rest N Hg Hu Hs k. split; [apply slots_nodup, N|].
  assert (Kd : map fst (gradfuncs_dict (own :: rest)) = slots (own :: rest)) by (apply dict_keys, N).
  assert (Kv : map (fun kv => Some (snd kv)) (gradfuncs_dict (own :: rest)) = map (rule_of (own :: rest)) (slots (own :: rest))).
  { rewrite vals_of_keys by (rewrite Kd; apply slots_nodup, N). rewrite Kd. apply map_ext_in. intros n Hn. apply dict_vals; [exact N|]. eapply slots_prefix, Hn. }
  assert (Re : match look cd_gradfuncs None (own :: rest) with None => true | Some _ => look cd_auto false (own :: rest) end = true)
    by (destruct Hg as [-> | ->]; [reflexivity|destruct (look cd_gradfuncs None (own :: rest)); reflexivity]).
  set (d := gradfuncs_dict (own :: rest)) in *. destruct d as [|[n0 r0] d'] eqn:Ed; [exfalso; apply Hs; rewrite <- Kd; reflexivity|]. rewrite <- Ed in *.
  assert (G : gradfuncs k = Some (map (bind (cd_name own)) (map (fun kv => GRaw (snd kv)) d))).
  { unfold k, init_subclass. rewrite Re. fold d. rewrite Ed. cbn [map]. rewrite Hu. reflexivity. }
  exists (map (bind (cd_name own)) (map (fun kv => GRaw (snd kv)) d)). split; [exact G|]. split.
  { unfold k, init_subclass, differentiable. rewrite Re. fold d. rewrite Ed. cbn [map]. rewrite Hu. cbn [cd_diff option_map]. destruct (existsb cd_back (own :: rest)); reflexivity. }
  split.
  - rewrite <- (map_map (rule_of (own :: rest)) (option_map (fun r => bind (cd_name own) (GRaw r)))), <- Kv, !map_map. reflexivity.
  - intros Hn. unfold k, init_subclass, ninputs. rewrite Re. fold d. rewrite Ed. cbn [map]. rewrite Hu. cbn [cd_ninputs andb].
    assert (Nn : (match look cd_ninputs None (own :: rest) with None => true | Some _ => false end || look cd_auto false (own :: rest)) = true)
      by (destruct Hn as [-> | ->]; [reflexivity|apply orb_true_r]). rewrite Nn. cbn [option_map length].
    rewrite <- Kd, Ed. cbn [map fst length]. rewrite !map_length. reflexivity.
Qed.
Print Assumptions C53_inherited_slots.

(** ** The backward pass *)
Lemma nth_padded {V} (l : list V) v n i : nth_error (padded l v n) i = match nth_error l i with Some x => Some x | None => if Nat.ltb i n then Some v else None end.
Proof.
  unfold padded. destruct (nth_error l i) as [x|] eqn:E.
  - rewrite nth_error_app1; [exact E|]. apply nth_error_Some. congruence.
  - apply nth_error_None in E. rewrite nth_error_app2 by exact E. destruct (Nat.ltb_spec i n) as [H|H].
    + rewrite nth_error_repeat by lia. reflexivity.
    + apply nth_error_None. rewrite repeat_length. lia.
Qed.
Lemma nth_combine {V W} (l : list V) (l' : list W) i : nth_error (combine l l') i = match nth_error l i, nth_error l' i with Some x, Some y => Some (x, y) | _, _ => None end.
Proof.
  revert l' i. induction l as [|x l IH]; intros [|y l'] [|i]; cbn; try reflexivity; try (destruct (nth_error l i); reflexivity). apply IH.
Qed.
(** What slot [i] must hold: the rule's value (conjugated for complex arguments) times the incoming gradient. *)
Definition slot (proc : C -> C) (sem : gradfn -> list C -> C) (needed : bool) (gf : gradfn) (saved : list C) (g : C) : option C :=
  match needed, gf with
  | false, _ | _, GNone => None
  | true, _ => Some (proc (sem gf saved) * g)%C
  end.
(** With one incoming gradient, one slot per input, in argument order ... *)
Theorem C53_backward : forall proc sem gfs mask saved g n, length gfs = n -> length mask = n ->
  exists r, backward proc (Some n) (backward_ sem gfs mask saved) [Some g] = Some r /\ length r = n /\
    forall i needed gf, nth_error mask i = Some needed -> nth_error gfs i = Some gf -> nth_error r i = Some (slot proc sem needed gf saved g).
Proof.
  intros proc sem gfs mask saved g n Hg Hm. eexists. split; [reflexivity|].
  assert (L : length (backward_ sem gfs mask saved) = n) by (unfold backward_; rewrite map_length, combine_length; lia). split.
  - unfold padded. rewrite app_length, map_length, L, repeat_length. lia.
  - intros i needed gf H1 H2. rewrite nth_padded, nth_error_map. unfold backward_. rewrite nth_error_map, nth_combine, H1, H2. cbn [option_map].
    unfold slot. destruct needed; [|reflexivity]. unfold sum_grads. cbn [fold_left].
    destruct gf; cbn [option_map]; try reflexivity; do 2 f_equal; apply Cplus_0_l.
Qed.
Print Assumptions C53_backward.
(** ... and nothing but [None]s when no gradient comes in. *)
Theorem C53_no_incoming_gradient : forall proc grads gouts n, (forall o, In o gouts -> o = None) ->
  backward proc (Some n) grads gouts = Some (repeat None n).
Proof.
  intros proc grads gouts n H. unfold backward. assert (E : somes gouts = []).
  { induction gouts as [|o l IH]; [reflexivity|]. unfold somes. cbn [flat_map]. rewrite (H o) by (left; reflexivity). apply IH. intros; apply H. right. assumption. }
  rewrite E. reflexivity.
Qed.
Print Assumptions C53_no_incoming_gradient.

(** The classes of the package: for each, slot [i] is the rule of parameter [i] as seen from that class
    (so inherited class methods call the overridden helpers), integer parameters have none, the number of inputs is
    right, and the class is marked differentiable. *)
Definition aligned (e : cdict * list (string * bool)) : Prop :=
  ninputs (fst e) = Some (length (snd e)) /\ differentiable (fst e) = true /\
  exists gfs, gradfuncs (fst e) = Some gfs /\ length gfs = length (snd e) /\
    forall i q diff gf, nth_error (snd e) i = Some (q, diff) -> nth_error gfs i = Some gf ->
      if diff : bool then is_rule (cd_name (fst e)) q gf else gf = GNone.
Lemma package_aligned : Forall aligned package_classes.
Proof.
  unfold package_classes. repeat apply Forall_cons; [..|apply Forall_nil];
    (split; [reflexivity|]; split; [reflexivity|]; eexists; split; [reflexivity|]; split; [reflexivity|]);
    intros [|[|[|[|i]]]] q diff gf H1 H2; try discriminate H1; try (destruct i; discriminate H1);
    injection H1 as <- <-; injection H2 as <-; first [reflexivity|split; reflexivity].
Qed.
(** So each of these functions returns, for every mask, saved tensors and incoming gradient, the conjugate (they are
    [CargsMixin] or real) of the rule of parameter [i] times the gradient in slot [i], or [None] if it is not needed. *)
Theorem C53_package : forall k params, In (k, params) package_classes -> forall proc sem mask saved g, length mask = length params ->
  exists gfs r, gradfuncs k = Some gfs /\ backward proc (ninputs k) (backward_ sem gfs mask saved) [Some g] = Some r /\ length r = length params /\
    forall i q diff needed, nth_error params i = Some (q, diff) -> nth_error mask i = Some needed ->
      if needed && diff then exists rule, is_rule (cd_name k) q rule /\ nth_error r i = Some (Some (proc (sem rule saved) * g)%C)
      else nth_error r i = Some None.
Proof.
  intros k params Hin proc sem mask saved g Hm. pose proof package_aligned as A. rewrite Forall_forall in A. destruct (A _ Hin) as (An & _ & gfs & Ag & Al & Ar).
  cbn [fst snd] in *. destruct (C53_backward proc sem gfs mask saved g (length params) Al Hm) as (r & Hr & Lr & Sr).
  exists gfs, r. rewrite An. split; [exact Ag|]. split; [exact Hr|]. split; [exact Lr|].
  intros i q diff needed H1 H2. destruct (nth_error gfs i) as [gf|] eqn:E.
  - specialize (Ar i q diff gf H1 E). specialize (Sr i needed gf H2 E). destruct needed, diff; cbn [andb] in *.
    + exists gf. split; [exact Ar|]. rewrite Sr. unfold slot. destruct gf; try reflexivity; destruct Ar.
    + rewrite Sr, Ar. reflexivity.
    + exact Sr.
    + exact Sr.
  - apply nth_error_None in E. assert (i < length params) by (apply nth_error_Some; congruence). lia.
Qed.
Print Assumptions C53_package.
(** Their forward pass gives the implementation the arguments in call order. *)
Theorem C53_forward_arguments : forall (V W : Type) (impl : list V -> W) args, cimpl_forward impl (length args) args args = impl args.
Proof. intros. unfold cimpl_forward. rewrite firstn_app, firstn_all, Nat.sub_diag. cbn [firstn]. rewrite app_nil_r. reflexivity. Qed.

(** ** R_F and R_G: one rule for all arguments *)
Lemma rot_nth {V} n : forall (l1 l2 : list V) x, (length l1 < n)%nat ->
  nth_error (rotations_from n (l1 ++ x :: l2)) (length l1) = Some (x :: l2 ++ l1).
Proof.
  induction n as [|n IH]; intros l1 l2 x H; [lia|]. destruct l1 as [|y l1].
  - cbn. rewrite app_nil_r. reflexivity.
  - cbn [app length rotations_from nth_error]. cbn [length] in H. rewrite <- app_assoc. cbn [app].
    rewrite (IH l1 (l2 ++ [y]) x) by lia. rewrite <- app_assoc. reflexivity.
Qed.
Lemma rot_length {V} n : forall (l : list V), length (rotations_from n l) = n.
Proof. induction n; intros l; cbn; auto. Qed.
(** In slot [i] the common rule is applied to a permutation of the arguments whose last is argument [i]:
    the derivative with respect to the last argument of a symmetric function is the one wanted. *)
Theorem C53_symmetric_slots : forall (V W : Type) (grad : list V -> W) mask saved, length mask = length saved ->
  length (symmetric_backward_ grad mask saved) = length saved /\
  forall i needed x, nth_error mask i = Some needed -> nth_error saved i = Some x ->
    exists others, Permutation (others ++ [x]) saved /\
      nth_error (symmetric_backward_ grad mask saved) i = Some (if needed then Some (grad (others ++ [x])) else None).
Proof.
  intros V W grad mask saved Hm. split.
  - unfold symmetric_backward_. rewrite map_length, combine_length. unfold circular_shifts. rewrite rot_length. lia.
  - intros i needed x H1 H2. destruct (nth_error_split _ _ H2) as (l1 & l2 & -> & L). subst i.
    exists (rev (l2 ++ l1)). split.
    + rewrite <- Permutation_rev. rewrite Permutation_app_comm. cbn [app]. rewrite (Permutation_app_comm l2 l1). apply Permutation_middle.
    + unfold symmetric_backward_. rewrite nth_error_map, nth_combine, H1. unfold circular_shifts. rewrite rot_nth by (rewrite app_length; cbn [length]; lia).
      cbn [option_map fst snd]. unfold symmetric_args. cbn [rev]. rewrite removelast_last. reflexivity.
Qed.
Print Assumptions C53_symmetric_slots.

(** ** Functions differentiated through an alternative forward *)
Lemma deal_nth {W} (f : nat -> W) mask : forall k i needed, nth_error mask i = Some needed ->
  nth_error (deal mask (map f (select mask (seq k (length mask))))) i = Some (if needed then Some (f (k + i)%nat) else None).
Proof.
  unfold select. induction mask as [|b mask IH]; intros k i needed H; [destruct i; discriminate|].
  cbn [length seq combine filter fst]. destruct b; cbn [map snd deal].
  - destruct i as [|i]; cbn [nth_error] in *; [injection H as <-; rewrite Nat.add_0_r; reflexivity|]. rewrite (IH (S k) i needed H). replace (S k + i)%nat with (k + S i)%nat by lia. reflexivity.
  - destruct i as [|i]; cbn [nth_error] in *; [injection H as <-; reflexivity|]. rewrite (IH (S k) i needed H). replace (S k + i)%nat with (k + S i)%nat by lia. reflexivity.
Qed.
Lemma select_nil {V} mask (l : list V) : length mask = length l -> select mask l = [] -> forall i b, nth_error mask i = Some b -> b = false.
Proof.
  unfold select. revert l. induction mask as [|b mask IH]; intros [|x l] L H i c E; try discriminate; [destruct i; discriminate|].
  cbn [combine filter fst] in H. destruct b; [discriminate|]. destruct i as [|i]; cbn in E; [congruence|]. eapply IH; [|exact H|exact E]. cbn in L. lia.
Qed.
(** [torch.autograd.grad] being asked for the arguments that need it and returning their derivatives in that order,
    each derivative lands in the slot of its argument. *)
Theorem C53_alternative_slots : forall (partial : nat -> C) proc mask saved g n, length mask = n -> length saved = n ->
  exists r, backward proc (Some n) (alternative_backward_ (map partial) mask saved) [Some g] = Some r /\ length r = n /\
    forall i needed, nth_error mask i = Some needed -> nth_error r i = Some (if needed then Some (proc (partial i) * g)%C else None).
Proof.
  intros partial proc mask saved g n Hm Hs. eexists. split; [reflexivity|]. unfold alternative_backward_. rewrite Hs, <- Hm.
  destruct (select mask (seq 0 (length mask))) as [|s0 s] eqn:E.
  - split; [cbn; rewrite repeat_length; lia|]. intros i needed H.
    assert (needed = false) as -> by (eapply select_nil; [|exact E|exact H]; rewrite seq_length; reflexivity).
    rewrite nth_padded. cbn [map nth_error]. assert (i < length mask) by (apply nth_error_Some; congruence).
    assert (Hl : Nat.ltb i (length mask) = true) by (apply Nat.ltb_lt; assumption). rewrite Hl. destruct i; reflexivity.
  - rewrite <- E. assert (N : forall i needed, nth_error mask i = Some needed ->
      nth_error (deal mask (map partial (select mask (seq 0 (length mask))))) i = Some (if needed then Some (partial i) else None))
      by (intros i needed H; exact (deal_nth partial mask 0 i needed H)).
    assert (L : length (deal mask (map partial (select mask (seq 0 (length mask))))) = length mask).
    { apply Nat.le_antisymm.
      - apply Nat.nlt_ge. intros H. assert (X : nth_error (deal mask (map partial (select mask (seq 0 (length mask))))) (length mask) <> None) by (apply nth_error_Some, H).
        apply X. clear. generalize (map partial (select mask (seq 0 (length mask)))).
        induction mask as [|[|] mask IH]; intros [|y l]; cbn; auto.
      - apply Nat.nlt_ge. intros H. destruct (nth_error mask (length (deal mask (map partial (select mask (seq 0 (length mask))))))) as [b|] eqn:Eb.
        + apply N in Eb. assert (length (deal mask (map partial (select mask (seq 0 (length mask))))) < length (deal mask (map partial (select mask (seq 0 (length mask)))))) by (apply nth_error_Some; congruence). lia.
        + apply nth_error_None in Eb. lia. }
    split; [unfold padded; rewrite app_length, map_length, L, repeat_length; lia|].
    intros i needed H. rewrite nth_padded, nth_error_map, (N i needed H). cbn [option_map]. destruct needed; cbn [option_map]; [|reflexivity].
    unfold sum_grads. cbn [fold_left]. do 2 f_equal. apply Cplus_0_l.
Qed.
Print Assumptions C53_alternative_slots.

(** *** The hypotheses of C53 are met, and its limits *)
(** Four levels of inheritance: a subclass that overrides one rule of EllipPiinc's base and adds one. *)
Example C53_nonvacuous_inheritance :
  let own := body "Child" [stat "Child" "grad_c"; stat "Child" "grad_q"] None None in
  namespaces (own :: ellipinc) /\ look cd_auto false (own :: ellipinc) = true /\ slots (own :: ellipinc) = ["grad_c"; "grad_m"; "grad_q"] /\
  gradfuncs (init_subclass own ellipinc) = Some [GFun (mkRaw "Child" "grad_c" Static); GFun (mkRaw "BaseEllipinc" "grad_m" Static); GFun (mkRaw "Child" "grad_q" Static)].
Proof.
  cbv zeta. split; [|repeat split; reflexivity]. unfold namespaces, ellipinc, cimpl_cargs.
  repeat apply Forall_cons; try apply Forall_nil; cbn;
    repeat constructor; cbn; intros H; repeat destruct H as [H|H]; try discriminate; contradiction.
Qed.
Example C53_nonvacuous_backward : backward process_cargs (ninputs k_EllipPiinc)
    (backward_ (fun gf saved => match gf with GMeth r _ => if String.eqb (rf_name r) "grad_c" then nth 1 saved (RtoC 0) else RtoC 5 | _ => RtoC 0 end)
               (gf_list k_EllipPiinc) [false; true; false] [RtoC 1; Ci; RtoC 3; RtoC 4]) [Some (RtoC 1)] = Some [None; Some (- Ci)%C; None].
Proof. unfold ninputs, gf_list. cbn. do 4 f_equal. unfold Cconj, Ci, RtoC, Cmult, Cplus, Copp. cbn. f_equal; ring. Qed.
(** Rules listed explicitly in a base class hide later overrides: in a subclass of Gamma that redefines [grad_z],
    the gradient is still Gamma's. *)
Theorem C53_explicit_override_refuted : exists own, rule_of (own :: k_Gamma :: cargs) "grad_z" = Some (mkRaw "Child" "grad_z" Static) /\
  gradfuncs (init_subclass own (k_Gamma :: cargs)) = Some [GFun (mkRaw "Gamma" "grad_z" Static)].
Proof. exists (body "Child" [stat "Child" "grad_z"] None None). split; reflexivity. Qed.
Print Assumptions C53_explicit_override_refuted.
(** And an explicit list in the body of a subclass of an automatic class is ignored. *)
Theorem C53_explicit_list_refuted : exists own, cd_gradfuncs own = Some (Some [GNone; GNone]) /\
  gradfuncs (init_subclass own (k_EllipK :: cimpl_cargs)) = Some [GFun (mkRaw "EllipK" "grad_m" Static)].
Proof. exists (body "Child" [] (Some [GNone; GNone]) None). split; reflexivity. Qed.
Print Assumptions C53_explicit_list_refuted.
