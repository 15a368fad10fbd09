(** The loader of compiled extensions: /repo/phytorch/extensions/__init__.py:1-33 and the part of Python's import system that it meets.
    Modules are identified by what they were made from and by a serial number, so that two loads are two modules.  [avail n] says whether
    phytorch/extensions/<n> is an importable compiled module, [pyi n] whether <n>.pyi lies beside __init__.py, [top n] whether Python finds a
    top-level module of that name.  Simplifications: running a stub succeeds; nothing is removed from sys.modules or from the module's globals;
    the warning of lines 23-24 and the filter for it are left out; threads do not interleave. *)
From Coq Require Import List String Bool.
Import ListNotations.
Local Open Scope string_scope.

Inductive obj := Compiled (name : string) (serial : nat) | Stub (name : string) (serial : nat) | Top (name : string) (serial : nat).
Inductive result := Ok (o : obj) | ImportError | AttributeError.

(** the globals of phytorch.extensions (the submodules in it), sys.modules, the next serial number, what can be imported at the moment *)
Record state := mk { globals : string -> option obj; sys : string -> option obj; next : nat; avail : string -> bool; top : string -> bool }.

Definition upd (m : string -> option obj) (k : string) (o : obj) : string -> option obj := fun k' => if String.eqb k' k then Some o else m k'.
Definition updb (m : string -> bool) (k : string) (b : bool) : string -> bool := fun k' => if String.eqb k' k then b else m k'.
(** __init__.py:10, with __package__ = 'phytorch.extensions' *)
Definition modname (n : string) : string := "phytorch.extensions." ++ n.

(** importlib.import_module(modname): sys.modules first; a module that is loaded is entered there and becomes an attribute of its parent *)
Definition import_module (s : state) (n : string) : result * state :=
  match sys s (modname n) with
  | Some o => (Ok o, s)
  | None => if avail s n then
      let o := Compiled n (next s) in
      (Ok o, mk (upd (globals s) n o) (upd (sys s) (modname n) o) (S (next s)) (avail s) (top s))
    else (ImportError, s)
  end.

Section Loader.
Variable pyi : string -> bool.

(** __init__.py:32 *)
Definition enter (s : state) (n : string) (o : obj) : state := mk (upd (globals s) n o) (upd (sys s) n o) (next s) (avail s) (top s).
(** __init__.py:7-33; line 27 makes the stub's module with module_from_spec, which does not enter it in sys.modules *)
Definition getattr_ (s : state) (n : string) : result * state :=
  match import_module s n with
  | (Ok o, s') => (Ok o, enter s' n o)
  | (_, s') => if pyi n then
      let o := Stub n (next s') in
      (Ok o, enter (mk (globals s') (sys s') (S (next s')) (avail s') (top s')) n o)
    else (AttributeError, s')
  end.
(** phytorch.extensions.<n>, or from phytorch.extensions import <n>: the module's __getattr__ is asked only for what is not in its globals *)
Definition access (s : state) (n : string) : result * state :=
  match globals s n with Some o => (Ok o, s) | None => getattr_ s n end.
(** import <n>, for a top-level module *)
Definition import_top (s : state) (n : string) : result * state :=
  match sys s n with
  | Some o => (Ok o, s)
  | None => if top s n then let o := Top n (next s) in (Ok o, mk (globals s) (upd (sys s) n o) (S (next s)) (avail s) (top s)) else (ImportError, s)
  end.

(** what a program and its surroundings can do *)
Inductive event := Access (n : string) | ImportExt (n : string) | ImportTop (n : string) | SetAvail (n : string) (b : bool) | SetTop (n : string) (b : bool).
Definition step (s : state) (e : event) : state :=
  match e with
  | Access n => snd (access s n)
  | ImportExt n => snd (import_module s n)
  | ImportTop n => snd (import_top s n)
  | SetAvail n b => mk (globals s) (sys s) (next s) (updb (avail s) n b) (top s)
  | SetTop n b => mk (globals s) (sys s) (next s) (avail s) (updb (top s) n b)
  end.
Definition run (s : state) (h : list event) : state := fold_left step h s.
End Loader.
