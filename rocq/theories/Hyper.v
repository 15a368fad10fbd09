(** * Model of /repo/phytorch-extensions/special/hyper.h and meijerg.h (definitions only)

    Exact arithmetic on complex numbers.  [None] is not a number (or infinite).  [eps] is TEPS, the epsilon of the scalar type; [digits] is TPREC. *)
From Coq Require Import List Bool Arith ZArith Reals.
From Coquelicot Require Import Complex.
Import ListNotations.
Open Scope R_scope.
Open Scope C_scope.

(** comparison of complex numbers *)
Definition ceqb (x y : C) : bool := if Req_EM_T (fst x) (fst y) then if Req_EM_T (snd x) (snd y) then true else false else false.
Definition rltb (x y : R) : bool := if Rlt_dec x y then true else false.
Definition cnat (k : nat) : C := RtoC (INR k).

Section Hyper.
Variable eps : R.
(** hyper.h:14-23.  Once a denominator vanishes the term is not finite, and no later comparison succeeds. *)
Definition next_term (a_s b_s : list C) (z : C) (k : nat) (t : C) : C :=
  let t := fold_left (fun t a => t * (a + cnat k)) a_s t in
  let t := fold_left (fun t b => t / (b + cnat k)) b_s t in
  t / (cnat (k + 1)) * z.
Fixpoint hypsum_loop (a_s b_s : list C) (z : C) (n k : nat) (s t : C) : option C :=
  match n with
  | O => None
  | S n' =>
      if existsb (fun b => ceqb (b + cnat k) (RtoC 0)) b_s then None else
      let t := next_term a_s b_s z k t in
      let s := s + t in
      if rltb (Cmod t) eps then Some s else hypsum_loop a_s b_s z n' (S k) s t
  end.
Definition hypsum (a_s b_s : list C) (z : C) (maxterms : nat) : option C := hypsum_loop a_s b_s z maxterms 0 (RtoC 1) (RtoC 1).
(** hyper.h:29-51 (the special cases are commented out in the code) *)
Definition hyper := hypsum.

(** hyperhead.h:41-44: the tuple of a term *)
Record term := Term { w_s : list C; c_s : list C; alpha_s : list C; beta_s : list C; a_s : list C; b_s : list C; arg : C }.
(** hyper.h:6-10 with the tests of 107-109: [Some n] when [x] is the integer [n] and [n <= 0] *)
Definition nonpos_int (x : C) : option Z :=
  let n := Int_part (fst x) in if ceqb x (RtoC (IZR n)) then if (n <=? 0)%Z then Some n else None else None.
(** hyper.h:94-100 *)
Definition singular_weight (t : term) : bool :=
  existsb (fun p => (rltb (Cmod (fst p)) (2 * eps) && (if Rle_dec (Re (snd p)) 0 then true else false) && negb (ceqb (snd p) (RtoC 0)))%bool) (combine (w_s t) (c_s t)).
(** hyper.h:103-119: the number of poles in a list; the last argument is the list of parameters that excuse a pole (for data_index = 2) *)
Definition pole_count (data excuse : list C) : nat :=
  length (filter (fun x => match nonpos_int x with Some n => negb (existsb (fun u => (negb (ceqb u (RtoC 0)) && rltb (IZR n) (Re u))%bool) excuse) | None => false end) data).
(** hyper.h:84-129; the second component tells whether a term is discarded *)
Definition check_term (t : term) : bool * bool :=
  let sw := singular_weight t in
  let p0 := pole_count (alpha_s t) [] in let p1 := pole_count (beta_s t) [] in let p2 := pole_count (b_s t) (a_s t) in
  if (Nat.ltb (p0 + p2) p1 && negb sw)%bool then (sw, true) else ((sw || Nat.ltb 0 p0 || Nat.ltb 0 p1 || Nat.ltb 0 p2)%bool, false).
Definition need_perturb (ts : list term) : bool := existsb (fun t => fst (check_term t)) ts.
Definition discarded (ts : list term) : list bool := map (fun t => snd (check_term t)) ts.

(** hyper.h:141-147: the parameters plus h, where h grows from one parameter to the next *)
Fixpoint perturbed (k : nat) (h : R) (params : list C) : list C :=
  match params with [] => [] | p :: l => (p + RtoC h) :: perturbed (S k) (h + h / INR (k + 1)) l end.
Variable digits : nat.
Definition h_start : R := / (2 ^ (Nat.div (3 * digits) 10)).
Variables (gamma : C -> C) (cpowc : C -> C -> C).
(** hyper.h:156-160 *)
Definition term_value (t : term) (maxterms : nat) : option C :=
  match hyper (a_s t) (b_s t) (arg t) maxterms with
  | None => None
  | Some v =>
      let v := fold_left (fun v a => v * gamma a) (alpha_s t) v in
      let v := fold_left (fun v b => v / gamma b) (beta_s t) v in
      Some (fold_left (fun v p => v * cpowc (fst p) (snd p)) (combine (w_s t) (c_s t)) v)
  end.
Fixpoint sum_terms (maxterms : nat) (l : list (bool * term)) : option C :=
  match l with
  | [] => Some (RtoC 0)
  | (true, _) :: l' => sum_terms maxterms l'
  | (false, t) :: l' => match term_value t maxterms, sum_terms maxterms l' with Some v, Some r => Some (v + r) | _, _ => None end
  end.
(** hyper.h:134-164: the terms to discard are those found before the perturbation *)
Definition hypercomb (function : list C -> list term) (params : list C) (maxterms : nat) : option C :=
  let terms := function params in
  let ts := if need_perturb terms then function (perturbed 0 h_start params) else terms in
  sum_terms maxterms (combine (discarded terms) ts).

(** meijerg.h:4-28: [a] are the first p arguments, [b] the others *)
Definition others {A} (k : nat) (l : list A) : list A := firstn k l ++ skipn (S k) l.
Definition sign_power (p m n : nat) : C := if Nat.even (p + m + n) then RtoC 1 else - RtoC 1.
Definition meijerg_series1 (m n p q : nat) (z r : C) (args : list C) : list term :=
  let a := firstn p args in let b := skipn p args in
  map (fun k => let bk := nth k b (RtoC 0) in
    {| w_s := [z]; c_s := [bk / r];
       alpha_s := map (fun x => x - bk) (others k (firstn m b)) ++ map (fun x => RtoC 1 - x + bk) (firstn n a);
       beta_s := map (fun x => x - bk) (skipn n a) ++ map (fun x => RtoC 1 - x + bk) (skipn m (firstn q b));
       a_s := map (fun x => RtoC 1 - x + bk) a;
       b_s := map (fun x => RtoC 1 - x + bk) (others k (firstn q b));
       arg := sign_power p m n * cpowc z (RtoC 1 / r) |}) (seq 0 m).
(** meijerg.h:56-66 for p < q *)
Definition meijerg_lt (m n p q : nat) (args : list C) (z r : C) (maxterms : nat) : option C := hypercomb (meijerg_series1 m n p q z r) args maxterms.
(** meijerg.h:73-79, where [maxterms] is 6000 (hyperhead.h:10); for m = 0 the size 2^64 - 1 of the vector raises *)
Definition Tgamma_args (m : nat) (a : C) : list C := repeat (RtoC 0) (m - 1) ++ [a - RtoC 1] ++ repeat (- RtoC 1) (m - 1).
Definition Tgamma (maxterms m : nat) (a z : C) : option C :=
  match m with O => None | S _ => meijerg_lt m 0 (m - 1) m (Tgamma_args m a) z (RtoC 1) maxterms end.
End Hyper.
