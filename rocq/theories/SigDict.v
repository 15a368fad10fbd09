(** The table of signatures: /repo/phytorch/quantities/signatures.py:35-99 ([SigDict]) and the way tensor_quantity.py:61-63 uses it.
    Functions, signatures and what Python's [inspect] says about them are parameters; the dictionary is the list of its items, newest first.
    Simplifications: the text of a docstring line is passed whole to [exec_line], which stands for lines 60-69 (splitting off the name and the
    result, adding self, executing the definition, taking its signature); exceptions carry only what the code looks at. *)
From Coq Require Import List String Bool.
Import ListNotations.

(** a ValueError carries whether its message starts with "no signature found" and whether it ends with "has invalid signature" *)
Inductive exn := KeyError | ValueError (no_signature_found has_invalid_signature : bool) | SyntaxError | IndexError | OtherError (n : nat).
Inductive outcome (A : Type) := Ret (a : A) | Raise (e : exn).
Arguments Ret {A}. Arguments Raise {A}.

Section SigDict.
Variables F Sg : Type.
Variable eqF : F -> F -> bool.
(** the tuple of lines 39-40, getattr(torch.Tensor, func.__name__), and torch.trapz, torch.trapezoid, torch.Tensor.put, torch.put *)
Variables (in_tuple : F -> bool) (tensor_method : F -> outcome F) (trapz trapezoid tensor_put put : F).
(** func.__name__ == '__get__', the signature (self), my_overrides, inspect.signature *)
Variables (is_get : F -> bool) (self_signature : Sg) (my_overrides : F -> option F) (signature : F -> outcome Sg).
(** func.__doc__ split at the first two line ends (None if there is none), whether a line has a parenthesis, lines 60-69, testing_overrides *)
Variables (doc : F -> option (list string)) (has_paren : string -> bool) (exec_line : F -> string -> outcome Sg) (testing_overrides : F -> option F).

Definition dict := list (F * option Sg).
Fixpoint assoc (d : dict) (f : F) : option (option Sg) := match d with [] => None | (g, r) :: d' => if eqF g f then Some r else assoc d' f end.

(** 39-44: the functions that are looked up under another name *)
Definition alias (f : F) : option (outcome F) :=
  if in_tuple f then Some (tensor_method f) else if eqF f trapz then Some (Ret trapezoid) else if eqF f tensor_put then Some (Ret put) else None.
(** 56-74 *)
Definition from_doc (f : F) : outcome (option Sg) :=
  match doc f with
  | None => Ret None
  | Some lines => match nth_error lines 1 with
      | None => Raise IndexError
      | Some line => if has_paren line then
            match exec_line f line with
            | Ret s => Ret (Some s)
            | Raise (ValueError a b) => if b then Ret None else Raise (ValueError a b)
            | Raise SyntaxError => Ret None
            | Raise e => Raise e
            end
          else Ret None
      end
  end.
(** 45-74 *)
Definition inspected (f : F) : outcome (option Sg) :=
  if is_get f then Ret (Some self_signature)
  else match signature (match my_overrides f with Some g => g | None => f end) with
       | Ret s => Ret (Some s)
       | Raise (ValueError a b) => if a then from_doc f else Raise (ValueError a b)
       | Raise e => Raise e
       end.
(** 76-77 *)
Definition fallback (f : F) (r : option Sg) : outcome (option Sg) :=
  match r with
  | Some s => Ret (Some s)
  | None => match testing_overrides f with
      | Some g => match signature g with Ret s => Ret (Some s) | Raise e => Raise e end
      | None => Ret None
      end
  end.
(** dict.__getitem__ with __missing__ (36-80); [fuel] bounds the depth of the lookups under other names *)
Fixpoint getitem (fuel : nat) (d : dict) (f : F) : outcome (option Sg) * dict :=
  match assoc d f with Some r => (Ret r, d) | None =>
    let finish (d : dict) (r : outcome (option Sg)) :=
      match r with
      | Raise e => (Raise e, d)
      | Ret r => match fallback f r with Raise e => (Raise e, d) | Ret r' => (Ret r', (f, r') :: d) end
      end in
    match alias f with
    | None => finish d (inspected f)
    | Some (Raise e) => (Raise e, d)
    | Some (Ret g) => match fuel with O => (Raise (OtherError 0), d) | S n => let (r, d') := getitem n d g in finish d' r end
    end
  end.
Definition item (d : dict) (f : F) := getitem 1 d f.
(** 82-87 *)
Definition contains (d : dict) (f : F) : outcome bool * dict :=
  match item d f with (Ret _, d') => (Ret true, d') | (Raise KeyError, d') => (Ret true, d') | (Raise e, d') => (Raise e, d') end.
(** 91-96: [default] is None when it is not given *)
Definition get (d : dict) (f : F) (default : option (option Sg)) : outcome (option Sg) * dict :=
  match contains d f with
  | (Raise e, d') => (Raise e, d')
  | (Ret true, d') => item d' f
  | (Ret false, d') => match default with Some r => (Ret r, d') | None => (Raise KeyError, d') end
  end.
(** the uses of the table *)
Inductive use := UItem (f : F) | UContains (f : F) | UGet (f : F) (default : option (option Sg)).
Definition after (d : dict) (u : use) : dict := match u with UItem f => snd (item d f) | UContains f => snd (contains d f) | UGet f r => snd (get d f r) end.
Definition history (us : list use) : dict := fold_left after us [].
End SigDict.
