(** C79: complex arguments *)
From Coq Require Import List Reals Bool ZArith Lra.
From Verif Require Import ComplexArgs.
Import ListNotations.
Local Open Scope R_scope.

Lemma floating_real d : is_floating d = true -> is_complex d = false.
Proof. destruct d; simpl; intro H; (reflexivity || discriminate H). Qed.
Lemma as_complex d c v w t : is_floating d = true -> as_tensor d c (AComplex v w) = Some (Some t) ->
  is_complex (dt t) = true /\ shape t = [] /\ elems t = [(c d v, c d w)].
Proof. destruct d; simpl; intros F H; try discriminate F; try discriminate H; injection H as <-; repeat split. Qed.
Lemma convert_number d h c a : d = Float32 \/ d = Float64 -> (forall t, a <> ATensor t) -> exists x, convert d h c a = Some x.
Proof. intros [-> | ->] H; destruct a; try (eexists; reflexivity); destruct (H t eq_refl). Qed.

Section C79.
Variables (default : dtype) (half : bool) (cast : dtype -> R -> R).
Let to_complex := to_complex default half cast.
Let with_complex_args := @with_complex_args default half cast.

(** elements of a tensor that is not complex have no imaginary part *)
Definition proper (t : tensor) : Prop := is_complex (dt t) = false -> forall e, In e (elems t) -> snd e = 0.
(** the elements of t are numbers that the type d represents *)
Definition fits (d : dtype) (t : tensor) : Prop := forall e, In e (elems t) -> cast d (fst e) = fst e.

Lemma map_id_on (l : list (R * R)) f : (forall e, In e l -> f e = e) -> map f l = l.
Proof. induction l as [|a l IH]; intro H; simpl; [reflexivity|]. rewrite H by (left; reflexivity). rewrite IH; auto. intros e He; apply H; right; exact He. Qed.

(** the result is a complex tensor of the same shape and the same numbers: of those of a type that is not floating point, to the precision of the
    default type, which loses nothing of numbers that the default type represents *)
Theorem C79_result : forall t u, proper t -> to_complex t = Some u ->
  is_complex (dt u) = true /\ shape u = shape t /\
  (is_complex (dt t) = true \/ is_floating (dt t) = true -> elems u = elems t) /\
  (is_complex (dt t) = false -> is_floating (dt t) = false -> elems u = map (fun e => (cast default (fst e), 0)) (elems t)) /\
  (fits default t -> elems u = elems t).
Proof.
  intros t u P H; unfold to_complex, ComplexArgs.to_complex in H.
  destruct (is_complex (dt t)) eqn:C.
  - injection H as <-. repeat split; auto. discriminate.
  - specialize (P C).
    assert (Z : map (fun e : R * R => (fst e, 0)) (elems t) = elems t).
    { apply map_id_on. intros [x y] He. simpl. specialize (P _ He); simpl in P. congruence. }
    destruct (is_floating (dt t)) eqn:F; unfold torch_complex in H; simpl in H.
    + destruct (complex_of half (dt t)) as [c|] eqn:E; [|discriminate]. injection H as <-; simpl.
      split; [destruct (dt t), half; simpl in E; try discriminate; injection E as <-; reflexivity|].
      repeat split; auto. intros _ D; discriminate D.
    + destruct (complex_of half default) as [c|] eqn:E; [|discriminate]. injection H as <-; simpl.
      split; [destruct default, half; simpl in E; try discriminate; injection E as <-; reflexivity|].
      rewrite map_map; simpl. split; [reflexivity|]. split; [intros [D|D]; discriminate D|]. split; [reflexivity|].
      intro Q. apply map_id_on. intros [x y] He. simpl. specialize (P _ He); specialize (Q _ He); simpl in *. congruence.
Qed.

(** the type: complex types and the precision of float32 and float64 are kept, everything that is not floating point gets the complex type of the
    default type, which is get_default_complex_dtype() *)
Theorem C79_type : forall t u, to_complex t = Some u ->
  match dt t with
  | Complex32 | Complex64 | Complex128 => u = t
  | Float32 => dt u = Complex64
  | Float64 => dt u = Complex128
  | Float16 => dt u = Complex32
  | BFloat16 => False
  | _ => (default = Float32 \/ default = Float64 -> default_complex default = Some (dt u))
  end.
Proof.
  intros [d sh el] u H; unfold to_complex, ComplexArgs.to_complex, torch_complex in H.
  destruct d; simpl in H |- *; try (injection H as <-; reflexivity); try discriminate;
    try (destruct half; [injection H as <-; reflexivity|discriminate]);
    (intros [E|E]; rewrite E in H |- *; simpl in H |- *; injection H as <-; reflexivity).
Qed.

(** it is an exception exactly for the small floating point types: bfloat16, float16 with a torch whose complex() does not take it, and, if such a
    type is the default, integers and truth values *)
Theorem C79_error : forall t, In default [Float16; BFloat16; Float32; Float64] ->
  (to_complex t = None <->
   match dt t with
   | BFloat16 => True
   | Float16 => half = false
   | Float32 | Float64 | Complex32 | Complex64 | Complex128 => False
   | BoolT | UInt8 | Int8 | Int16 | Int32 | Int64 => default = BFloat16 \/ (default = Float16 /\ half = false)
   end).
Proof.
  intros [d sh el] F; unfold to_complex, ComplexArgs.to_complex, torch_complex; simpl.
  destruct d, default; simpl; try (exfalso; simpl in F; intuition discriminate); destruct half; simpl; split; intro H;
    try exact I; try discriminate H; try reflexivity; try (destruct H; fail); try (left; reflexivity); try (right; split; reflexivity);
    destruct H as [H|[H G]]; try discriminate H; try discriminate G.
Qed.

(** converting again changes nothing *)
Theorem C79_idempotent : forall t u, proper t -> to_complex t = Some u -> to_complex u = Some u.
Proof.
  intros t u P H. destruct (C79_result t u P H) as [C _]. unfold to_complex, ComplexArgs.to_complex. rewrite C; reflexivity.
Qed.

(** what the argument of a decorated function means, stated without the code: a missing argument, or the complex tensor made from it *)
Definition meaning (a : arg) (x : option tensor) : Prop :=
  match a with
  | ANone => x = None
  | ATensor t => exists u, x = Some u /\ to_complex t = Some u
  | ABool b => exists u, x = Some u /\ shape u = [] /\ elems u = [(cast default (if b then 1 else 0), 0)]
  | AInt n => exists u, x = Some u /\ shape u = [] /\ elems u = [(cast default (IZR n), 0)]
  | AFloat v => exists u, x = Some u /\ shape u = [] /\ elems u = [(cast default v, 0)]
  | AComplex v w => exists u, x = Some u /\ shape u = [] /\ elems u = [(cast default v, cast default w)]
  end.

(** a decorated function gets as many arguments as are passed, in the order in which they are passed, each converted by itself *)
Theorem C79_arguments : forall B (f : list (option tensor) -> option B) l r,
  is_floating default = true ->
  with_complex_args B f l = Some r -> exists xs, f xs = Some r /\ Forall2 meaning l xs.
Proof.
  intros B f l r F H; unfold with_complex_args, ComplexArgs.with_complex_args in H.
  destruct (convert_all default half cast l) as [xs|] eqn:E; [|discriminate]. exists xs; split; [exact H|]. clear H f r B.
  revert xs E; induction l as [|a l IH]; intros xs E; simpl in E.
  - injection E as <-; constructor.
  - destruct (convert default half cast a) as [x|] eqn:C; [|discriminate].
    destruct (convert_all default half cast l) as [ys|]; [|discriminate]. injection E as <-.
    constructor; [|apply IH; reflexivity]. unfold convert in C.
    destruct a as [|t|b|n|v|v w]; simpl in C |- *.
    + congruence.
    + destruct (ComplexArgs.to_complex default half cast t) as [u|] eqn:U; [|discriminate].
      injection C as <-; exists u; split; [reflexivity|exact U].
    + unfold ComplexArgs.to_complex, torch_complex in C; simpl in C. clear IH. destruct (complex_of half default); [|discriminate].
      injection C as <-; eexists; split; [reflexivity|split; reflexivity].
    + unfold ComplexArgs.to_complex, torch_complex in C; simpl in C. clear IH. destruct (complex_of half default); [|discriminate].
      injection C as <-; eexists; split; [reflexivity|split; reflexivity].
    + unfold ComplexArgs.to_complex, torch_complex in C; simpl in C. rewrite (floating_real _ F), F in C.
      simpl in C. destruct (complex_of half default); [|discriminate].
      injection C as <-; eexists; split; [reflexivity|split; reflexivity].
    + destruct (as_tensor default cast (AComplex v w)) as [[t|]|] eqn:A.
      * destruct (as_complex _ _ _ _ _ F A) as (C1 & C2 & C3). simpl in A. rewrite A in C.
        unfold ComplexArgs.to_complex in C. rewrite C1 in C. injection C as <-. exists t; auto.
      * simpl in A; rewrite A in C; exfalso. clear - A F. destruct default; simpl in F; discriminate.
      * simpl in A; rewrite A in C; discriminate.
Qed.

(** with float32 or float64 as the default, arguments of those types, complex ones, integers, truth values, Python's numbers and missing ones are
    all accepted: an exception can only be the function's own *)
Theorem C79_accepted : forall B (f : list (option tensor) -> option B) l,
  default = Float32 \/ default = Float64 ->
  (forall t, In (ATensor t) l -> dt t <> Float16 /\ dt t <> BFloat16) ->
  exists xs, with_complex_args B f l = f xs.
Proof.
  intros B f l D H. unfold with_complex_args, ComplexArgs.with_complex_args.
  enough (exists xs, convert_all default half cast l = Some xs) as [xs ->] by (exists xs; reflexivity).
  assert (F : is_floating default = true) by (destruct D as [D|D]; rewrite D; reflexivity).
  induction l as [|a l IH]; [exists []; reflexivity|].
  destruct IH as [ys Hy]; [intros t Ht; apply H; right; exact Ht|]. simpl.
  enough (exists x, convert default half cast a = Some x) as [x ->] by (rewrite Hy; eexists; reflexivity).
  destruct a as [|t|b|n|v|v w]; try (apply convert_number; [exact D|intros; discriminate]).
  unfold convert; simpl. destruct (ComplexArgs.to_complex default half cast t) as [u|] eqn:U; [eexists; reflexivity|exfalso].
  assert (F' : In default [Float16; BFloat16; Float32; Float64]) by (destruct D as [D|D]; rewrite D; simpl; auto).
  apply (C79_error t F') in U. destruct (H t (or_introl eq_refl)) as [A B'].
  destruct (dt t); try congruence; try exact U; destruct D as [D|D]; rewrite D in U; destruct U as [U|[U _]]; discriminate U.
Qed.
End C79.

(** "a Python number means the same as the number in the precision of the other arguments" is false: it is rounded to the default type first, here
    a third beside a float64 tensor when the default is float32 (with any rounding that does not leave a third as it is) *)
Theorem C79_number_precision_refuted : forall (cast : dtype -> R -> R) x, cast Float32 (1/3) <> 1/3 ->
  exists u v, @with_complex_args Float32 true cast _ (fun xs => Some xs) [ATensor (T Float64 [] [(x, 0)]); AFloat (1/3)] = Some [Some u; Some v] /\
    dt u = Complex128 /\ elems u = [(x, 0)] /\ elems v <> [(1/3, 0)].
Proof.
  intros cast x H. eexists _, _. split; [reflexivity|]. simpl. split; [reflexivity|]. split; [reflexivity|].
  intro E; injection E as E. apply H. exact E.
Qed.

(** a call with a missing argument, a real and an integer tensor *)
Example C79_example :
  let r := fun (d : dtype) (x : R) => x in
  let t := T Float32 [2%nat] [(1/2, 0); (-3, 0)] in
  with_complex_args Float64 false r (fun xs => Some xs) [ATensor t; ANone; ATensor (T Int64 [1%nat] [(7, 0)])] =
    Some [Some (T Complex64 [2%nat] [(1/2, 0); (-3, 0)]); None; Some (T Complex128 [1%nat] [(7, 0)])] /\ proper t /\ fits r Float64 t.
Proof.
  cbv zeta. split; [reflexivity|]. split.
  - intros _ e [<-|[<-|[]]]; reflexivity.
  - intros e _; reflexivity.
Qed.
