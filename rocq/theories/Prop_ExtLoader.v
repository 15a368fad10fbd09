(** C78: loading the compiled extensions *)
From Coq Require Import List String Bool Arith Lia.
From Verif Require Import ExtLoader.
Import ListNotations.
Local Open Scope string_scope.

Section C78.
Variable pyi : string -> bool.
Let access := access pyi.
Let run := run pyi.

(** names without a dot, as far as it matters: not the full name of a submodule *)
Definition plain (n : string) : Prop := forall m, n <> modname m.
Definition names_of (e : event) : string := match e with Access n | ImportExt n | ImportTop n | SetAvail n _ | SetTop n _ => n end.
Definition plain_history (h : list event) : Prop := forall e, In e h -> plain (names_of e).
(** a fresh process: no submodule loaded; any top-level modules, each under its own name *)
Definition fresh_process (s : state) : Prop :=
  (forall n, globals s n = None) /\ (forall n, sys s (modname n) = None) /\
  (forall n o, sys s n = Some o -> exists k, o = Top n k /\ k < next s).

Definition serial (o : obj) : nat := match o with Compiled _ k | Stub _ k | Top _ k => k end.
Definition own (n : string) (o : obj) : Prop := exists k, o = Compiled n k \/ o = Stub n k.

(** what every reachable state satisfies *)
Definition inv (s : state) : Prop :=
  (forall n o, globals s n = Some o -> own n o) /\
  (forall n o, sys s (modname n) = Some o -> (exists k, o = Compiled n k) /\ globals s n = Some o) /\
  (forall n k, globals s n = Some (Compiled n k) -> sys s (modname n) = Some (Compiled n k)).

Lemma modname_inj n m : modname n = modname m -> n = m.
Proof. unfold modname; simpl; congruence. Qed.
Lemma upd_same m k o : upd m k o k = Some o.
Proof. unfold upd; rewrite String.eqb_refl; reflexivity. Qed.
Lemma upd_other m k o k' : k' <> k -> upd m k o k' = m k'.
Proof. intro H; unfold upd; destruct (String.eqb_spec k' k); [contradiction|reflexivity]. Qed.

Lemma fresh_inv s : fresh_process s -> inv s.
Proof.
  intros (G & S & T); split; [|split].
  - intros n o H; rewrite G in H; discriminate.
  - intros n o H; rewrite S in H; discriminate.
  - intros n k H; rewrite G in H; discriminate.
Qed.

Lemma import_inv s n : inv s -> inv (snd (import_module s n)).
Proof.
  intros (G & S & C); unfold import_module.
  destruct (sys s (modname n)) eqn:E; [split; auto|].
  destruct (avail s n); simpl; [|split; auto].
  split; [|split]; simpl.
  - intros m o H. destruct (string_dec m n) as [->|D].
    + rewrite upd_same in H; injection H as <-; eexists; left; reflexivity.
    + rewrite upd_other in H by auto; auto.
  - intros m o H. destruct (string_dec m n) as [->|D].
    + rewrite upd_same in H; injection H as <-; rewrite upd_same; split; [eexists|]; reflexivity.
    + rewrite upd_other in H by (intro; apply D, modname_inj; auto). rewrite upd_other by auto. auto.
  - intros m k H. destruct (string_dec m n) as [->|D].
    + rewrite upd_same in H |- *; auto.
    + rewrite upd_other in H by auto. rewrite upd_other by (intro; apply D, modname_inj; auto). auto.
Qed.

Lemma enter_inv_compiled s n k : plain n -> inv s -> sys s (modname n) = Some (Compiled n k) -> inv (enter s n (Compiled n k)).
Proof.
  intros P (G & S & C) E; split; [|split]; simpl.
  - intros m o H. destruct (string_dec m n) as [->|D].
    + rewrite upd_same in H; injection H as <-; eexists; left; reflexivity.
    + rewrite upd_other in H by auto; auto.
  - intros m o H. rewrite upd_other in H by (intro Q; apply (P m); auto).
    destruct (S _ _ H) as [A B]; split; auto.
    destruct (string_dec m n) as [->|D]; [rewrite upd_same; congruence|rewrite upd_other; auto].
  - intros m j H. rewrite upd_other by (intro Q; apply (P m); auto).
    destruct (string_dec m n) as [->|D]; [rewrite upd_same in H; congruence|rewrite upd_other in H; auto].
Qed.

Lemma import_ok s n o s' : inv s -> import_module s n = (Ok o, s') -> exists k, o = Compiled n k /\ sys s' (modname n) = Some o.
Proof.
  intros (G & S & C); unfold import_module.
  destruct (sys s (modname n)) eqn:E.
  - intro H; injection H as <- <-. destruct (S _ _ E) as [[k ->] _]; eauto.
  - destruct (avail s n); intro H; [|discriminate]. injection H as <- <-; simpl; rewrite upd_same; eauto.
Qed.

Lemma access_inv s n : plain n -> inv s -> inv (snd (access s n)).
Proof.
  intros P I; unfold access, ExtLoader.access.
  destruct (globals s n) eqn:E; [exact I|]. unfold getattr_.
  pose proof (import_inv s n I) as J. destruct (import_module s n) as [[o| |] s'] eqn:M; simpl in J |- *.
  - destruct (import_ok _ _ _ _ I M) as (k & -> & H). apply enter_inv_compiled; auto.
  - assert (s' = s /\ sys s (modname n) = None) as [-> N].
    { unfold import_module in M. destruct (sys s (modname n)); [discriminate|]. destruct (avail s n); [discriminate|]. injection M as <-; auto. }
    destruct (pyi n); [|exact I]. destruct I as (G & S & C). split; [|split]; simpl.
    + intros m o H. destruct (string_dec m n) as [->|D].
      * rewrite upd_same in H; injection H as <-; eexists; right; reflexivity.
      * rewrite upd_other in H by auto; auto.
    + intros m o H. rewrite upd_other in H by (intro Q; apply (P m); auto).
      destruct (S _ _ H) as [A B]; split; auto.
      destruct (string_dec m n) as [->|D]; [congruence|rewrite upd_other; auto].
    + intros m j H. rewrite upd_other by (intro Q; apply (P m); auto).
      destruct (string_dec m n) as [->|D]; [rewrite upd_same in H; discriminate|rewrite upd_other in H; auto].
  - exfalso. unfold import_module in M. destruct (sys s (modname n)); [discriminate|]. destruct (avail s n); discriminate.
Qed.

Lemma top_inv s n : plain n -> inv s -> inv (snd (import_top s n)).
Proof.
  intros P (G & S & C); unfold import_top.
  destruct (sys s n); [split; auto|]. destruct (top s n); [|split; auto]. simpl. split; [|split]; simpl; auto.
  - intros m o H. rewrite upd_other in H by (intro Q; apply (P m); auto). auto.
  - intros m k H. rewrite upd_other by (intro Q; apply (P m); auto). auto.
Qed.

Lemma step_inv s e : plain (names_of e) -> inv s -> inv (step pyi s e).
Proof.
  destruct e; simpl; intros P I.
  - apply access_inv; auto.
  - apply import_inv; auto.
  - apply top_inv; auto.
  - exact I.
  - exact I.
Qed.
Lemma run_inv h : forall s, plain_history h -> inv s -> inv (run s h).
Proof.
  induction h as [|e h IH]; intros s P I; [exact I|].
  change (inv (run (step pyi s e) h)). apply IH; [intros x Hx; apply P; right; exact Hx|]. apply step_inv; [apply P; left; reflexivity|exact I].
Qed.

(** after any history of a process, asking for an extension gives a module made from the compiled extension of that name or from its stub, never
    another module, such as a top-level one of the same name *)
Theorem C78_own_module : forall s h n o s',
  fresh_process s -> plain_history h -> plain n -> access (run s h) n = (Ok o, s') -> exists k, o = Compiled n k \/ o = Stub n k.
Proof.
  intros s h n o s' F P Pn A.
  pose proof (run_inv h s P (fresh_inv s F)) as I. pose proof (access_inv _ n Pn I) as J. rewrite A in J. destruct J as (G & _).
  apply G. unfold access, ExtLoader.access in A. destruct (globals (run s h) n) eqn:E.
  - injection A as <- <-; exact E.
  - unfold getattr_ in A. destruct (import_module (run s h) n) as [[x| |] t].
    + injection A as <- <-; simpl; apply upd_same.
    + destruct (pyi n); [|discriminate]. injection A as <- <-; simpl; apply upd_same.
    + destruct (pyi n); [|discriminate]. injection A as <- <-; simpl; apply upd_same.
Qed.

(** which of them: the first request gives the compiled module if it can be imported or has been, else the stub, else an AttributeError that
    changes nothing *)
Theorem C78_first : forall s n, globals s n = None ->
  (forall o, sys s (modname n) = Some o -> fst (access s n) = Ok o) /\
  (sys s (modname n) = None -> avail s n = true -> exists k, fst (access s n) = Ok (Compiled n k)) /\
  (sys s (modname n) = None -> avail s n = false -> pyi n = true -> exists k, fst (access s n) = Ok (Stub n k)) /\
  (sys s (modname n) = None -> avail s n = false -> pyi n = false -> access s n = (AttributeError, s)).
Proof.
  intros s n G; unfold access, ExtLoader.access, getattr_, import_module; rewrite G; split; [|split; [|split]].
  - intros o ->; reflexivity.
  - intros -> ->; eexists; reflexivity.
  - intros -> -> ->; eexists; reflexivity.
  - intros -> -> ->; reflexivity.
Qed.

Lemma globals_step s e n o : inv s -> globals s n = Some o ->
  ((exists k, o = Compiled n k) \/ (e = ImportExt n -> avail s n = false)) -> globals (step pyi s e) n = Some o.
Proof.
  intros I G H. destruct I as (I1 & I2 & I3).
  assert (IM : forall m, (m = n -> (exists k, o = Compiled n k) \/ avail s n = false) -> globals (snd (import_module s m)) n = Some o).
  { intros m Hm. unfold import_module. destruct (sys s (modname m)) eqn:E; [exact G|]. destruct (avail s m) eqn:A; [|exact G]. simpl.
    destruct (string_dec n m) as [<-|D]; [|rewrite upd_other; auto].
    destruct (Hm eq_refl) as [[k ->]|B]; [rewrite (I3 _ _ G) in E; discriminate|congruence]. }
  destruct e as [m|m|m|m b|m b]; simpl.
  - unfold ExtLoader.access. destruct (globals s m) eqn:E; [exact G|]. assert (n <> m) by congruence. unfold getattr_.
    specialize (IM m ltac:(congruence)). destruct (import_module s m) as [[x| |] t]; simpl in *.
    + rewrite upd_other; auto.
    + destruct (pyi m); [simpl; rewrite upd_other; auto|exact IM].
    + destruct (pyi m); [simpl; rewrite upd_other; auto|exact IM].
  - apply IM. intros ->. destruct H as [H|H]; auto.
  - unfold import_top. destruct (sys s m); [exact G|]. destruct (top s m); exact G.
  - exact G.
  - exact G.
Qed.
Lemma access_globals s n o s' : access s n = (Ok o, s') -> globals s' n = Some o.
Proof.
  unfold access, ExtLoader.access; intro A. destruct (globals s n) eqn:E.
  - injection A as -> <-; exact E.
  - unfold getattr_ in A. destruct (import_module s n) as [[x| |] t].
    + injection A as -> <-; simpl; apply upd_same.
    + destruct (pyi n); [|discriminate]. injection A as <- <-; simpl; apply upd_same.
    + destruct (pyi n); [|discriminate]. injection A as <- <-; simpl; apply upd_same.
Qed.
Lemma globals_run h : forall s n o, plain_history h -> inv s -> globals s n = Some o ->
  ((exists k, o = Compiled n k) \/ ~ In (ImportExt n) h) -> globals (run s h) n = Some o.
Proof.
  induction h as [|e h IH]; intros s n o P I G H; [exact G|].
  change (globals (run (step pyi s e) h) n = Some o). apply IH.
  - intros x Hx; apply P; right; exact Hx.
  - apply step_inv; [apply P; left; reflexivity|exact I].
  - apply globals_step; auto. destruct H as [H|H]; [left; exact H|right; intros ->; exfalso; apply H; left; reflexivity].
  - destruct H as [H|H]; [left; exact H|right; intro; apply H; right; assumption].
Qed.

(** an extension once obtained stays the same module: always if it is the compiled one, and if it is the stub as long as nothing imports the
    compiled one by its full name *)
Theorem C78_stable : forall s h1 h2 n o s',
  fresh_process s -> plain_history h1 -> plain_history h2 -> plain n ->
  access (run s h1) n = (Ok o, s') ->
  (exists k, o = Compiled n k) \/ ~ In (ImportExt n) h2 ->
  fst (access (run s' h2) n) = Ok o.
Proof.
  intros s h1 h2 n o s' F P1 P2 Pn A H.
  pose proof (run_inv h1 s P1 (fresh_inv s F)) as I. pose proof (access_inv _ n Pn I) as J. rewrite A in J; simpl in J.
  pose proof (globals_run h2 s' n o P2 J (access_globals _ _ _ _ A) H) as G.
  unfold access, ExtLoader.access. rewrite G; reflexivity.
Qed.

(** from then on "import <n>" of the top-level module of that name gives the extension, even if another module of that name was loaded before *)
Lemma sys_step s e n o : plain n -> sys s n = Some o -> e <> Access n \/ globals s n <> None -> sys (step pyi s e) n = Some o.
Proof.
  intros Pn S H.
  assert (IM : forall m, sys (snd (import_module s m)) n = Some o).
  { intros m. unfold import_module. destruct (sys s (modname m)) eqn:E; [exact S|]. destruct (avail s m); [|exact S]. simpl.
    rewrite upd_other; auto. }
  destruct e as [m|m|m|m b|m b]; simpl.
  - unfold ExtLoader.access. destruct (globals s m) eqn:E; [exact S|].
    assert (n <> m). { intros ->. destruct H as [H|H]; [apply H; reflexivity|contradiction]. }
    unfold getattr_. specialize (IM m). destruct (import_module s m) as [[x| |] t]; simpl in *.
    + rewrite upd_other; auto.
    + destruct (pyi m); [simpl; rewrite upd_other; auto|exact IM].
    + destruct (pyi m); [simpl; rewrite upd_other; auto|exact IM].
  - apply IM.
  - unfold import_top. destruct (sys s m) eqn:E; [exact S|]. destruct (top s m); [|exact S]. simpl. rewrite upd_other; [exact S|congruence].
  - exact S.
  - exact S.
Qed.
Lemma globals_some_step s e n : globals s n <> None -> globals (step pyi s e) n <> None.
Proof.
  intros G.
  assert (IM : forall m, globals (snd (import_module s m)) n <> None).
  { intros m. unfold import_module. destruct (sys s (modname m)); [exact G|]. destruct (avail s m); [|exact G]. simpl.
    destruct (string_dec n m) as [->|D]; [rewrite upd_same; discriminate|rewrite upd_other; auto]. }
  assert (U : forall f m o, f n <> None -> upd f m o n <> None).
  { intros f m o Hf. destruct (string_dec n m) as [->|D]; [rewrite upd_same; discriminate|rewrite upd_other; auto]. }
  destruct e as [m|m|m|m b|m b]; simpl.
  - unfold ExtLoader.access. destruct (globals s m) eqn:E; [exact G|]. unfold getattr_.
    specialize (IM m). destruct (import_module s m) as [[x| |] t]; simpl in *.
    + apply U; exact IM.
    + destruct (pyi m); [simpl; apply U; exact IM|exact IM].
    + destruct (pyi m); [simpl; apply U; exact IM|exact IM].
  - apply IM.
  - unfold import_top. destruct (sys s m); [exact G|]. destruct (top s m); exact G.
  - exact G.
  - exact G.
Qed.
Theorem C78_shadows_top_level : forall s n o s' h,
  globals s n = None -> plain n -> access s n = (Ok o, s') -> plain_history h -> fst (import_top (run s' h) n) = Ok o.
Proof.
  intros s n o s' h G Pn A P.
  assert (S : sys s' n = Some o).
  { unfold access, ExtLoader.access in A. rewrite G in A. unfold getattr_ in A. destruct (import_module s n) as [[x| |] t].
    - injection A as -> <-; simpl; apply upd_same.
    - destruct (pyi n); [|discriminate]. injection A as <- <-; simpl; apply upd_same.
    - destruct (pyi n); [|discriminate]. injection A as <- <-; simpl; apply upd_same. }
  assert (N : globals s' n <> None) by (rewrite (access_globals _ _ _ _ A); discriminate).
  enough (sys (run s' h) n = Some o) as E by (unfold import_top; rewrite E; reflexivity).
  clear A G. revert s' S N. induction h as [|e h IH]; intros s' S N; [exact S|].
  change (sys (run (step pyi s' e) h) n = Some o). apply IH.
  - intros x Hx; apply P; right; exact Hx.
  - apply sys_step; auto.
  - apply globals_some_step; exact N.
Qed.

(** top-level modules of other names are left alone, whatever is loaded *)
Theorem C78_others_untouched : forall h s n,
  plain n -> ~ In (Access n) h -> ~ In (ImportTop n) h -> sys (run s h) n = sys s n.
Proof.
  induction h as [|e h IH]; intros s n Pn A T; [reflexivity|].
  change (sys (run (step pyi s e) h) n = sys s n). rewrite IH; auto; [|intro; apply A; right; auto|intro; apply T; right; auto].
  assert (IM : forall m, sys (snd (import_module s m)) n = sys s n).
  { intros m. unfold import_module. destruct (sys s (modname m)) eqn:E; [reflexivity|]. destruct (avail s m); [|reflexivity]. simpl.
    rewrite upd_other; auto. }
  destruct e as [m|m|m|m b|m b]; simpl.
  - assert (n <> m) by (intros ->; apply A; left; reflexivity).
    unfold ExtLoader.access. destruct (globals s m) eqn:E; [reflexivity|].
    unfold getattr_. specialize (IM m). destruct (import_module s m) as [[x| |] t]; simpl in *.
    + rewrite upd_other; auto.
    + destruct (pyi m); [simpl; rewrite upd_other; auto|exact IM].
    + destruct (pyi m); [simpl; rewrite upd_other; auto|exact IM].
  - apply IM.
  - assert (n <> m) by (intros ->; apply T; left; reflexivity).
    unfold import_top. destruct (sys s m); [reflexivity|]. destruct (top s m); [|reflexivity]. simpl. rewrite upd_other; auto.
  - reflexivity.
  - reflexivity.
Qed.

(** a stub can be had as an attribute of phytorch.extensions but not by "import phytorch.extensions.<n>" *)
Theorem C78_stub_not_importable : forall s h n k s',
  fresh_process s -> plain_history h -> plain n -> access (run s h) n = (Ok (Stub n k), s') -> avail s' n = false ->
  fst (import_module s' n) = ImportError.
Proof.
  intros s h n k s' F P Pn A V.
  pose proof (run_inv h s P (fresh_inv s F)) as I. pose proof (access_inv _ n Pn I) as J. rewrite A in J; simpl in J.
  pose proof (access_globals _ _ _ _ A) as G. unfold import_module. destruct (sys s' (modname n)) as [o|] eqn:E.
  - destruct J as (_ & S & _). destruct (S _ _ E) as [[j ->] Q]. congruence.
  - rewrite V; reflexivity.
Qed.
End C78.

(** "phytorch.extensions.<n> is always the same module" is false: the stub is replaced when the compiled extension is imported later *)
Theorem C78_same_module_refuted : exists pyi s h n o s' o',
  fresh_process s /\ plain n /\ plain_history h /\ access pyi s n = (Ok o, s') /\ fst (access pyi (run pyi s' h) n) = Ok o' /\ o <> o'.
Proof.
  exists (fun _ => true), (mk (fun _ => None) (fun _ => None) 0 (fun _ => false) (fun _ => false)),
    [SetAvail "roots" true; ImportExt "roots"], "roots", (Stub "roots" 0).
  assert (P : plain "roots") by (intros m; unfold modname; simpl; discriminate).
  eexists _, (Compiled "roots" 1).
  split; [repeat split; intros; discriminate|]. split; [exact P|].
  split; [intros e [<-|[<-|[]]]; exact P|]. split; [reflexivity|]. split; [reflexivity|discriminate].
Qed.

(** the first import of a user's own module "special" is overwritten by loading the extension of that name; a stub, then the compiled one *)
Example C78_example :
  let s := mk (fun _ => None) (fun _ => None) 0 (fun n => String.eqb n "special") (fun n => String.eqb n "special") in
  let pyi := fun n => String.eqb n "roots" in
  let s1 := run pyi s [ImportTop "special"; Access "special"; Access "roots"; Access "nothing"] in
  fresh_process s /\ sys s1 "special" = Some (Compiled "special" 1) /\ globals s1 "special" = Some (Compiled "special" 1) /\
  globals s1 "roots" = Some (Stub "roots" 2) /\ globals s1 "nothing" = None /\ fst (import_module s1 "roots") = ImportError.
Proof.
  cbv zeta. split; [repeat split; intros; discriminate|]. repeat split.
Qed.
