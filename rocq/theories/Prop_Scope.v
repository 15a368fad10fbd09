(** * Properties C11, C12: module scopes (phytorch/utils/scoping.py)
    [registrations ops] lists the individual registrations of a history, [effective] and [clashes]
    (ScopeSpec.v) say which registration counts and which ones must be warned about. *)
From Coq Require Import String List Bool.
From Verif Require Import Units UnitsFacts Scope ScopeSpec ScopeFacts.
Import ListNotations.
Open Scope string_scope.
Open Scope list_scope.

Theorem C11_registered_value : forall (V : Type) (c : pydict V) ops k v,
  dict_get (sc_data (scope_run c ops)) k = Some v <-> effective (registrations ops) k v.
Proof. intros V c ops. destruct (run_inv c ops) as (_ & _ & H & _). exact H. Qed.
Print Assumptions C11_registered_value.

(** nothing registered is forgotten: a name is present iff it was registered *)
Theorem C11_no_name_lost : forall (V : Type) (c : pydict V) ops k,
  In k (map fst (sc_data (scope_run c ops))) <-> In k (map rname (registrations ops)).
Proof. intros V c ops. destruct (run_inv c ops) as (_ & H & _ & _). exact H. Qed.
Print Assumptions C11_no_name_lost.

(** exactly the clashes that did not ask to be ignored are warned about, in order *)
Theorem C11_warnings : forall (V : Type) (c : pydict V) ops,
  sc_warnings (scope_run c ops) = clashes [] (registrations ops).
Proof. intros V c ops. destruct (run_inv c ops) as (_ & _ & _ & H). exact H. Qed.
Print Assumptions C11_warnings.

(** [register] returns the scope (for chaining) except when it ignores a clash, when it returns None *)
Theorem C11_return_value : forall (V : Type) (c : pydict V) ops n v ig,
  snd (register (scope_run c ops) n v ig) = RetNone <->
  ig = true /\ In n (map rname (registrations ops)).
Proof.
  intros V c ops n v ig. rewrite <- (C11_no_name_lost V c), <- dict_has_in.
  unfold register. destruct (dict_has (sc_data (scope_run c ops)) n); [destruct ig|]; simpl; intuition discriminate.
Qed.
Print Assumptions C11_return_value.

Definition ops_ex : list (scope_op nat) :=
  [OpRegister "m" 1 false; OpRegisterMany true [("m", 2); ("s", 3)]; OpRegister "s" 4 false].

Example C11_nonvacuous :
  effective (registrations ops_ex) "m" 1 /\ effective (registrations ops_ex) "s" 4 /\
  clashes [] (registrations ops_ex) = ["s"] /\ ~ effective (registrations ops_ex) "m" 2.
Proof.
  rewrite <- !(C11_registered_value nat [] ops_ex). repeat split; try reflexivity.
  vm_compute. intros E. discriminate E.
Qed.

(** ** C12 *)
Theorem C12_export_registered : forall (V : Type) (c : pydict V) ops k v,
  NoDup (map fst c) -> ~ In OpExit ops ->
  effective (registrations ops) k v ->
  dict_get (sc_context (scope_run c (ops ++ [OpExit]))) k = Some v.
Proof.
  intros V c ops k v Hc Ha He. rewrite run_snoc. simpl.
  rewrite del_context; [|apply context_nodup, Hc|apply run_inv|apply active_until_exit, Ha].
  apply (C11_registered_value V c) in He. rewrite He. reflexivity.
Qed.
Print Assumptions C12_export_registered.

Theorem C12_helpers_dropped : forall (V : Type) (c : pydict V) ops k,
  NoDup (map fst c) -> ~ In OpExit ops ->
  ~ In k (map rname (registrations ops)) ->
  dict_get (sc_context (scope_run c (ops ++ [OpExit]))) k =
  if existsb (String.eqb k) (map fst c) && negb (String.prefix "__" k) then None
  else dict_get (sc_context (scope_run c ops)) k.
Proof.
  intros V c ops k Hc Ha He. rewrite run_snoc. simpl.
  rewrite del_context; [|apply context_nodup, Hc|apply run_inv|apply active_until_exit, Ha].
  rewrite <- (C11_no_name_lost V c) in He. apply dict_get_none in He. rewrite He, init_keys_const. reflexivity.
Qed.
Print Assumptions C12_helpers_dropped.

(** once left, neither another exit nor the finaliser changes anything *)
Theorem C12_exit_final : forall (V : Type) (c : pydict V) ops (tl : list (scope_op V)),
  (forall o, In o tl -> o = OpExit \/ o = OpDel) ->
  scope_run c (ops ++ OpExit :: tl) = scope_run c (ops ++ [OpExit]).
Proof.
  intros V c ops tl. replace (ops ++ OpExit :: tl) with ((ops ++ [OpExit]) ++ tl) by (rewrite <- app_assoc; reflexivity).
  induction tl as [|o tl IH] using rev_ind; intros H; [rewrite app_nil_r; reflexivity|].
  rewrite app_assoc, run_snoc, IH by (intros x Hx; apply H, in_app_iff; tauto).
  rewrite run_snoc. destruct (H o) as [-> | ->]; [apply in_app_iff; right; left; reflexivity| |]; reflexivity.
Qed.
Print Assumptions C12_exit_final.

(** a scope that is never entered as a context manager exports the same through its finaliser *)
Theorem C12_finaliser_exports : forall (V : Type) (c : pydict V) ops k,
  NoDup (map fst c) -> ~ In OpExit ops ->
  dict_get (sc_context (scope_run c (ops ++ [OpDel]))) k = dict_get (sc_context (scope_run c (ops ++ [OpExit]))) k.
Proof. intros V c ops k Hc Ha. rewrite !run_snoc. reflexivity. Qed.
Print Assumptions C12_finaliser_exports.

(** names first bound inside the block survive, unless they existed before *)
Theorem C12_block_bindings_survive : forall (V : Type) (c : pydict V) ops n v,
  NoDup (map fst c) -> ~ In OpExit ops -> ~ In n (map fst c) -> ~ In n (map rname (registrations ops)) ->
  dict_get (sc_context (scope_run c (ops ++ [OpBind n v; OpExit]))) n = Some v.
Proof.
  intros V c ops n v Hc Ha Hn Hr.
  replace (ops ++ [OpBind n v; OpExit]) with ((ops ++ [OpBind n v]) ++ [OpExit]) by (rewrite <- app_assoc; reflexivity).
  rewrite C12_helpers_dropped; [|exact Hc| |].
  - replace (existsb (String.eqb n) (map fst c)) with false.
    + rewrite run_snoc. simpl. rewrite dict_get_set, String.eqb_refl. reflexivity.
    + symmetry. apply not_true_is_false. rewrite existsb_eqb. exact Hn.
  - intros Hi. apply in_app_iff in Hi as [Hi|[Hi|[]]]; [tauto|discriminate].
  - rewrite registrations_app. simpl. rewrite app_nil_r. exact Hr.
Qed.
Print Assumptions C12_block_bindings_survive.

(** ... but a name re-bound inside the block that existed before it is removed (the code drops it) *)
Theorem C12_rebinding_survives_refuted : exists (c : pydict nat) ops n v,
  NoDup (map fst c) /\ ~ In OpExit ops /\
  dict_get (sc_context (scope_run c (ops ++ [OpBind n v]))) n = Some v /\
  dict_get (sc_context (scope_run c (ops ++ [OpBind n v; OpExit]))) n = None.
Proof.
  exists [("pi", 3)], [], "pi", 4. repeat split; try reflexivity; [repeat constructor; simpl; tauto|simpl; tauto].
Qed.
Print Assumptions C12_rebinding_survives_refuted.

(** [AllScope.__all__]: exactly the names added since construction *)
Theorem C12_all_names : forall (V : Type) (init context : pydict V) k,
  In k (all_names (map fst init) context) <-> In k (map fst context) /\ ~ In k (map fst init).
Proof.
  intros V init context k. unfold all_names. rewrite filter_In, negb_true_iff.
  rewrite <- not_true_iff_false, existsb_eqb. reflexivity.
Qed.
Print Assumptions C12_all_names.

Example C12_nonvacuous :
  sc_context (scope_run [("__name__", 0); ("Unit", 1)] [OpBind "rad" 2; OpRegister "deg" 3 false; OpExit; OpDel])
  = [("__name__", 0); ("rad", 2); ("deg", 3)].
Proof. reflexivity. Qed.
