(** C77: the table of signatures *)
From Coq Require Import List String Bool.
From Verif Require Import SigDict.
Import ListNotations.

Section C77.
Variables F Sg : Type.
Variable eqF : F -> F -> bool.
Variables (in_tuple : F -> bool) (tensor_method : F -> outcome F) (trapz trapezoid tensor_put put : F).
Variables (is_get : F -> bool) (self_signature : Sg) (my_overrides : F -> option F) (signature : F -> outcome Sg).
Variables (doc : F -> option (list string)) (has_paren : string -> bool) (exec_line : F -> string -> outcome Sg) (testing_overrides : F -> option F).
Hypothesis eqF_ok : forall f g, eqF f g = true <-> f = g.
(** the functions listed by the code: the other names are not themselves looked up under other names *)
Hypothesis methods_ok : forall f g, in_tuple f = true -> tensor_method f = Ret g -> in_tuple g = false /\ g <> trapz /\ g <> tensor_put.
Hypothesis names_ok : in_tuple trapezoid = false /\ in_tuple put = false /\ trapezoid <> trapz /\ trapezoid <> tensor_put /\ put <> trapz /\ put <> tensor_put.
Let item := item F Sg eqF in_tuple tensor_method trapz trapezoid tensor_put put is_get self_signature my_overrides signature doc has_paren exec_line testing_overrides.
Let getitem := getitem F Sg eqF in_tuple tensor_method trapz trapezoid tensor_put put is_get self_signature my_overrides signature doc has_paren exec_line testing_overrides.
Let contains := contains F Sg eqF in_tuple tensor_method trapz trapezoid tensor_put put is_get self_signature my_overrides signature doc has_paren exec_line testing_overrides.
Let get := get F Sg eqF in_tuple tensor_method trapz trapezoid tensor_put put is_get self_signature my_overrides signature doc has_paren exec_line testing_overrides.
Let history := history F Sg eqF in_tuple tensor_method trapz trapezoid tensor_put put is_get self_signature my_overrides signature doc has_paren exec_line testing_overrides.
Let alias := alias F eqF in_tuple tensor_method trapz trapezoid tensor_put put.

(** ** What the signature of a function is, independently of the table *)
(** the alternative names *)
Definition other_name (f : F) : option (outcome F) :=
  if in_tuple f then Some (tensor_method f) else if eqF f trapz then Some (Ret trapezoid) else if eqF f tensor_put then Some (Ret put) else None.
(** what Python, then the docstring, says of a function that has no other name *)
Definition own_signature (f : F) : outcome (option Sg) :=
  if is_get f then Ret (Some self_signature) else
  match signature (match my_overrides f with Some g => g | None => f end) with
  | Ret s => Ret (Some s)
  | Raise (ValueError true _) =>
      match option_map (fun lines => nth_error lines 1) (doc f) with
      | None => Ret None
      | Some None => Raise IndexError
      | Some (Some line) => if has_paren line then match exec_line f line with Ret s => Ret (Some s) | Raise (ValueError _ true) => Ret None | Raise SyntaxError => Ret None | Raise e => Raise e end else Ret None
      end
  | Raise e => Raise e
  end.
(** and then the overrides of torch's own tests *)
Definition or_tested (f : F) (r : outcome (option Sg)) : outcome (option Sg) :=
  match r, testing_overrides f with
  | Ret None, Some g => match signature g with Ret s => Ret (Some s) | Raise e => Raise e end
  | _, _ => r
  end.
Definition meaning (f : F) : outcome (option Sg) :=
  match other_name f with
  | None => or_tested f (own_signature f)
  | Some (Raise e) => Raise e
  | Some (Ret g) => or_tested f (or_tested g (own_signature g))
  end.

Definition valid (d : dict F Sg) := forall f r, assoc F Sg eqF d f = Some r -> meaning f = Ret r.
Lemma inspected_own f : inspected F Sg is_get self_signature my_overrides signature doc has_paren exec_line f = own_signature f.
Proof.
  unfold inspected, own_signature, from_doc. destruct (is_get f); [reflexivity|]. destruct (signature _) as [s|[| [] b| | |]]; try reflexivity. destruct (doc f) as [lines|]; cbn [option_map]; [|reflexivity]. destruct (nth_error lines 1); [|reflexivity]. destruct (has_paren s); [|reflexivity]. destruct (exec_line f s) as [|[| a [] | | |]]; reflexivity.
Qed.
Lemma fallback_or f r : fallback F Sg signature testing_overrides f r = or_tested f (Ret r).
Proof. unfold fallback, or_tested. destruct r; destruct (testing_overrides f); reflexivity. Qed.
Lemma no_other f g : other_name f = Some (Ret g) -> other_name g = None.
Proof.
  unfold other_name. destruct names_ok as (N1 & N2 & N3 & N4 & N5 & N6). assert (K : forall h, in_tuple h = false -> h <> trapz -> h <> tensor_put -> (if in_tuple h then Some (tensor_method h) else if eqF h trapz then Some (Ret trapezoid) else if eqF h tensor_put then Some (Ret put) else None) = None).
  { intros h -> H1 H2. destruct (eqF h trapz) eqn:E1; [apply eqF_ok in E1; contradiction|]. destruct (eqF h tensor_put) eqn:E2; [apply eqF_ok in E2; contradiction|reflexivity]. }
  destruct (in_tuple f) eqn:E; [intros H; injection H as H; destruct (methods_ok f g E H) as (M1 & M2 & M3); apply K; assumption|].
  destruct (eqF f trapz); [intros H; injection H as <-; apply K; assumption|]. destruct (eqF f tensor_put); [intros H; injection H as <-; apply K; assumption|discriminate].
Qed.
Lemma valid_cons d f r : valid d -> meaning f = Ret r -> valid ((f, r) :: d).
Proof. intros V M g r'. cbn [assoc]. destruct (eqF f g) eqn:E; [apply eqF_ok in E; subst g; intros H; injection H as <-; exact M|apply V]. Qed.
Lemma finish_ok d f r : valid d -> or_tested f r = meaning f ->
  fst (match r with Raise e => (Raise e, d) | Ret r => match fallback F Sg signature testing_overrides f r with Raise e => (Raise e, d) | Ret r' => (Ret r', (f, r') :: d) end end) = meaning f /\
  valid (snd (match r with Raise e => (Raise e, d) | Ret r => match fallback F Sg signature testing_overrides f r with Raise e => (Raise e, d) | Ret r' => (Ret r', (f, r') :: d) end end)).
Proof.
  intros V M. destruct r as [r|e]; [|split; [exact M|exact V]]. rewrite fallback_or. destruct (or_tested f (Ret r)) as [r'|e] eqn:E; cbn [fst snd]; (split; [exact M|]); [apply valid_cons; [exact V|symmetry; exact M]|exact V].
Qed.
Lemma plain_ok n d f : valid d -> other_name f = None -> fst (getitem n d f) = meaning f /\ valid (snd (getitem n d f)).
Proof.
  intros V O. unfold getitem. destruct n as [|n]; cbn [SigDict.getitem]; (destruct (assoc F Sg eqF d f) as [r|] eqn:A; [cbn [fst snd]; split; [symmetry; apply V, A|exact V]|]); change (SigDict.alias F eqF in_tuple tensor_method trapz trapezoid tensor_put put f) with (other_name f); rewrite O; cbv beta iota zeta; rewrite inspected_own; (apply finish_ok; [exact V|]); unfold meaning; rewrite O; reflexivity.
Qed.
Lemma item_ok d f : valid d -> fst (item d f) = meaning f /\ valid (snd (item d f)).
Proof.
  intros V. destruct (other_name f) as [[g|e]|] eqn:O; [|unfold item, SigDict.item; cbn [SigDict.getitem]; destruct (assoc F Sg eqF d f) as [r|] eqn:A|apply (plain_ok 1 d f V O)].
  - unfold item, SigDict.item. cbn [SigDict.getitem]. fold getitem. destruct (assoc F Sg eqF d f) as [r|] eqn:A; [cbn [fst snd]; split; [symmetry; apply V, A|exact V]|].
    change (SigDict.alias F eqF in_tuple tensor_method trapz trapezoid tensor_put put f) with (other_name f). rewrite O. cbv beta iota zeta.
    pose proof (plain_ok 0 d g V (no_other f g O)) as [P1 P2]. unfold getitem in P1, P2. cbn [SigDict.getitem] in P1, P2.
    match goal with |- context [let (_, _) := ?t in _] => destruct t as [r d'] eqn:T end. cbn [fst snd] in P1, P2. apply finish_ok; [exact P2|]. unfold meaning at 1. rewrite O. rewrite P1. unfold meaning. rewrite (no_other f g O). reflexivity.
  - cbn [fst snd]. split; [symmetry; apply V, A|exact V].
  - change (SigDict.alias F eqF in_tuple tensor_method trapz trapezoid tensor_put put f) with (other_name f). rewrite O. cbn [fst snd]. split; [unfold meaning; rewrite O; reflexivity|exact V].
Qed.
Lemma contains_ok d f : valid d -> fst (contains d f) = match meaning f with Ret _ | Raise KeyError => Ret true | Raise e => Raise e end /\ valid (snd (contains d f)).
Proof.
  intros V. destruct (item_ok d f V) as [I1 I2]. unfold contains, SigDict.contains. fold item. destruct (item d f) as [r d']. cbn [fst snd] in I1, I2. rewrite <- I1. destruct r as [r|[]]; cbn [fst snd]; split; auto.
Qed.
Lemma get_ok d f r : valid d -> fst (get d f r) = meaning f /\ valid (snd (get d f r)).
Proof.
  intros V. destruct (contains_ok d f V) as [C1 C2]. unfold get, SigDict.get. fold contains. destruct (contains d f) as [b d']. cbn [fst snd] in C1, C2. subst b. destruct (meaning f) as [m|[]] eqn:M; cbn [fst snd]; try (split; [reflexivity|exact C2]); rewrite <- M; apply (item_ok d' f C2).
Qed.
Lemma history_valid us : valid (history us).
Proof.
  unfold history, SigDict.history. assert (K : forall us d, valid d -> valid (fold_left (after F Sg eqF in_tuple tensor_method trapz trapezoid tensor_put put is_get self_signature my_overrides signature doc has_paren exec_line testing_overrides) us d)).
  { clear us. induction us as [|u us IH]; intros d V; cbn [fold_left]; [exact V|]. apply IH. destruct u as [f|f|f r]; cbn [after]; [apply item_ok, V|apply contains_ok, V|apply get_ok, V]. }
  apply K. intros f r H. discriminate.
Qed.
(** A lookup gives what the signature of the function is, whatever was looked up, tested or fetched before. *)
Theorem C77_history us f : fst (item (history us) f) = meaning f.
Proof. apply item_ok, history_valid. Qed.
(** "in" is true for every function, also for those without a signature (unless finding it raises an exception other than KeyError), *)
Theorem C77_contains us f : fst (contains (history us) f) = match meaning f with Ret _ | Raise KeyError => Ret true | Raise e => Raise e end.
Proof. apply contains_ok, history_valid. Qed.
(** so that get never returns its default: it is the same as the lookup. *)
Theorem C77_get us f default : fst (get (history us) f default) = fst (item (history us) f).
Proof. rewrite C77_history. apply get_ok, history_valid. Qed.
Theorem C77_get_default_refuted us f default : meaning f = Raise KeyError -> fst (contains (history us) f) = Ret true /\ fst (get (history us) f (Some default)) = Raise KeyError.
Proof. intros M. rewrite C77_contains, C77_get, C77_history, M. split; reflexivity. Qed.
(** The sources of a signature, in their order: another name, the built-in overrides, Python's inspection, the second line of the docstring, torch's tests *)
Theorem C77_sources us f : other_name f = None -> is_get f = false ->
  (forall g s, my_overrides f = Some g -> signature g = Ret s -> fst (item (history us) f) = Ret (Some s)) /\
  (forall s, my_overrides f = None -> signature f = Ret s -> fst (item (history us) f) = Ret (Some s)) /\
  (forall b l line rest s, my_overrides f = None -> signature f = Raise (ValueError true b) -> doc f = Some (l :: line :: rest) -> has_paren line = true -> exec_line f line = Ret s -> fst (item (history us) f) = Ret (Some s)) /\
  (forall b g s, my_overrides f = None -> signature f = Raise (ValueError true b) -> doc f = None -> testing_overrides f = Some g -> signature g = Ret s -> fst (item (history us) f) = Ret (Some s)) /\
  (forall b, my_overrides f = None -> signature f = Raise (ValueError true b) -> doc f = None -> testing_overrides f = None -> fst (item (history us) f) = Ret None).
Proof.
  intros O G. rewrite C77_history. unfold meaning, own_signature, or_tested. rewrite O, G. repeat split.
  - intros g s -> ->. reflexivity.
  - intros s -> ->. reflexivity.
  - intros b l line rest s -> -> -> HP HE. cbn [option_map nth_error]. rewrite HP, HE. reflexivity.
  - intros b g s -> -> -> -> ->. reflexivity.
  - intros b -> -> -> ->. reflexivity.
Qed.
(** A docstring of a single line is an IndexError, with or without an override in torch's tests. *)
Theorem C77_one_line_refuted us f b l : other_name f = None -> is_get f = false -> my_overrides f = None -> signature f = Raise (ValueError true b) -> doc f = Some [l] -> fst (item (history us) f) = Raise IndexError.
Proof. intros O G M H D. rewrite C77_history. unfold meaning, own_signature, or_tested. rewrite O, G, M, H, D. reflexivity. Qed.
End C77.

(** A concrete case: four functions 0 (like torch.min, with method 1), 2 (no signature, single-line docstring), 3 (no signature at all); 10 and 11, 12 and 13 for trapz and put *)
Example C77_example :
  let item := item nat nat Nat.eqb (Nat.eqb 0) (fun _ => Ret 1) 10 11 12 13 (fun _ => false) 99 (fun _ => None) (fun f => match f with 1 => Ret 7 | _ => Raise (ValueError true false) end)
    (fun f => match f with 2 => Some ["f"%string] | _ => None end) (fun _ => true) (fun _ _ => Raise SyntaxError) (fun _ => None) in
  fst (item [] 0) = Ret (Some 7) /\ snd (item [] 0) = [(0, Some 7); (1, Some 7)] /\ fst (item (snd (item [] 0)) 1) = Ret (Some 7) /\ fst (item [] 2) = Raise IndexError /\ fst (item [] 3) = Ret None.
Proof. cbv. repeat split; reflexivity. Qed.
(** the same functions meet the hypotheses of the theorems *)
Example C77_example_history us : fst (item nat nat Nat.eqb (Nat.eqb 0) (fun _ => Ret 1) 10 11 12 13 (fun _ => false) 99 (fun _ => None) (fun f => match f with 1 => Ret 7 | _ => Raise (ValueError true false) end)
    (fun f => match f with 2 => Some ["f"%string] | _ => None end) (fun _ => true) (fun _ _ => Raise SyntaxError) (fun _ => None)
    (history nat nat Nat.eqb (Nat.eqb 0) (fun _ => Ret 1) 10 11 12 13 (fun _ => false) 99 (fun _ => None) (fun f => match f with 1 => Ret 7 | _ => Raise (ValueError true false) end)
    (fun f => match f with 2 => Some ["f"%string] | _ => None end) (fun _ => true) (fun _ _ => Raise SyntaxError) (fun _ => None) us) 0) = Ret (Some 7).
Proof.
  rewrite C77_history; [reflexivity| | |].
  - intros f g. apply PeanoNat.Nat.eqb_eq.
  - intros f g _ H. injection H as <-. repeat split; discriminate.
  - repeat split; discriminate.
Qed.
