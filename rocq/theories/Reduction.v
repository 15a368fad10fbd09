(** * Model of /repo/phytorch/special/elliptic_reduction/core.py and of the gradients in functional.py (definitions only)

    Real arguments, exact arithmetic.  [x**(1/2)] is the real square root and powers with half-integer exponents are those of positive numbers.
    An index beyond the sequence raises IndexError (or the ValueError of core.py:185-186) in the code and gives a default here: the theorems keep indices in range.
    Sets of small ints are iterated in ascending order, as CPython does.  The caches are transparent (everything is a function of frozen data). *)
From Coq Require Import Reals List Bool Arith ZArith.
From Verif Require Import Roots.
Import ListNotations.
Open Scope R_scope.

(** [product(...)] (utils/symmetry.py:11) of a sequence that is not empty *)
Definition prod (l : list R) : R := match product R Rmult l with Some p => p | None => 0 end.
(** [sum(...)] *)
Definition sum (l : list R) : R := fold_left Rplus l 0.
(** core.py:17-18 *)
Definition onerange (n : nat) : list nat := seq 1 n.
(** [range(low, high)] on integers *)
Definition zrange (low high : Z) : list Z := map (fun k => (low + Z.of_nat k)%Z) (seq 0 (Z.to_nat (high - low))).

(** sympy.utilities.iterables.partitions(s) (utils/symmetry.py:22-23): the multisets of positive integers with sum [s], each as a list of (part, multiplicity);
    here those with parts at most [k], in some order. *)
Fixpoint partitions_upto (k s : nat) : list (list (nat * nat)) :=
  match k with
  | O => match s with O => [[]] | S _ => [] end
  | S k' => flat_map (fun c => map (fun p => match c with O => p | S _ => (k, c) :: p end) (if Nat.leb (c * k) s then partitions_upto k' (s - c * k) else [])) (seq 0 (S s))
  end.
Definition partitions (s : nat) : list (list (nat * nat)) := partitions_upto s s.

Section Reduction.
(** The fields of EllipticReduction (core.py:64-69); [a] is the sequence whose items are numbered from 1 and whose item 0 is 1 (21-33, 84-86). *)
Variables (x y : R) (a : list R) (h : nat).
(** core.py:71-74, static methods *)
Variables (elliprc : R -> R -> R) (elliprd elliprf : R -> R -> R -> R) (elliprj : R -> R -> R -> R -> R).

(** core.py:29-30 *)
Definition item (i : nat) : R := match i with O => 1 | S k => nth k a 0 end.
(** core.py:76-78 *)
Definition n : nat := length a.
(** core.py:80-82 *)
Definition idx_set : list nat := map (fun i => (i + (if Nat.eqb h 4 then 1 else 0))%nat) (seq 0 4).
(** [idx_set - {...}] *)
Definition without (ex : list nat) : list nat := filter (fun i => negb (existsb (Nat.eqb i) ex)) idx_set.
(** core.py:48-53 *)
Definition d_up (i j : nat) : R := item i - item j * (if Nat.eqb i 0 then 0 else 1).
Definition d (i j : nat) : R := if Nat.ltb j i then - d_up j i else d_up i j.
(** core.py:56-61 with xory = [z] *)
Definition XorY (z : R) (i : nat) : R := match i with O => 1 | S _ => sqrt (item i + z) end.
(** core.py:88-89 *)
Definition s_ (i : nat) (z : R) : R := item i + z.
(** core.py:91-100 *)
Definition s (z : R) : R := prod (map (fun i => sqrt (s_ i z)) (onerange h)).
(** core.py:102-107: [(_a + z)**(_m - (i < h)/2)]; the power is that of a positive number. *)
Definition v (m : list Z) (z : R) : R :=
  prod (map (fun p => Rpower (fst (snd p) + z) (IZR (snd (snd p)) - (if Nat.ltb (fst p) h then 1 / 2 else 0))) (combine (seq 0 (length a)) (combine a m))).
(** core.py:109-117 *)
Definition vx (m : list Z) : R := v m x.
Definition vy (m : list Z) : R := - v m y.
(** core.py:123-129 *)
Definition X (i : nat) : R := XorY x i.
Definition Y (i : nat) : R := XorY y i.
(** core.py:131-137 *)
Definition xmy : R := x - y.
Definition xmy2 : R := xmy ^ 2.
(** core.py:139-146 *)
Definition U2 (i j : nat) : R := match without [i; j] with [k; l] => (X i * X j * Y k * Y l + Y i * Y j * X k * X l) ^ 2 | _ => 0 end.
(** core.py:158-162 *)
Definition U2nu (i nu : nat) : R := match without [i] with [j; k; l] => U2 i j - xmy2 * d i k * d i l * d j nu / d i nu | _ => 0 end.
(** core.py:164-172 *)
Definition S2 (i nu : nat) : R :=
  match without [i] with [j; k; l] => (X j * X k * X l / X i * Y nu ^ 2 + Y j * Y k * Y l / Y i * X nu ^ 2) ^ 2 | _ => 0 end.
(** core.py:174-177 *)
Definition Q2 (i nu : nat) : R := X nu ^ 2 * Y nu ^ 2 / (X i ^ 2 * Y i ^ 2) * U2nu i nu.
(** core.py:179-181: the three arguments of elliprf and the first three of elliprj *)
Definition with_U2xyz (f : R -> R -> R -> R) : R := f (U2 1 2) (U2 1 3) (U2 2 3).

(** core.py:205-207 *)
Definition Ie_0 : R := 2 * xmy * with_U2xyz elliprf.
(** core.py:187-195 *)
Definition Ie_minus_nu (nu : nat) : R :=
  match idx_set with
  | [i; j; k; l] =>
      let ret := 2 * xmy * (d i j * d i k * d i l / d i nu / 3 * xmy2 * with_U2xyz (fun u v w => elliprj u v w (U2nu i nu)) + elliprc (S2 i nu) (Q2 i nu)) in
      (if Nat.eqb i 0 then ret else ret - Ie_0) / d i nu
  | _ => 0
  end.
(** core.py:196-204 *)
Definition Ie_minus (i : nat) : R :=
  match without [i] with
  | [j; k; l] =>
      let ret := 2 * xmy * (d j k * d j l / 3 * xmy2 * elliprd (U2 i k) (U2 j k) (U2 i j) + X j * Y j / (X i * Y i * sqrt (U2 i j))) in
      (if Nat.eqb j 0 then ret else ret - Ie_0) / d j i
  | _ => 0
  end.
(** core.py:208-223 *)
Definition Ie_plus (i : nat) : R :=
  if Nat.eqb h 3 then
    match filter (fun j => negb (Nat.eqb j i)) [1; 2; 3]%nat with
    | [j; k] => d i j * d i k * Ie_minus i + 2 * (s x / s_ i x - s y / s_ i y)
    | _ => 0
    end
  else
    match without [i] with
    | [j; k; l] => 2 * xmy * (elliprc (S2 i 0) (Q2 i 0) - d i j * d i k * d i l / 3 * xmy2 * with_U2xyz (fun u v w => elliprj u v w (U2nu i 0)))
    | _ => 0
    end.
(** core.py:183-227; the calls Ie(0), Ie(-i), Ie(1) are unfolded. *)
Definition Ie (i : Z) : R :=
  if (i <? - Z.of_nat h)%Z then Ie_minus_nu (Z.to_nat (- i))
  else if (i <? 0)%Z then Ie_minus (Z.to_nat (- i))
  else if (i =? 0)%Z then Ie_0
  else if (i <=? Z.of_nat h)%Z then Ie_plus (Z.to_nat i)
  else Ie_plus 1 + d (Z.to_nat i) 1 * Ie_0.

(** core.py:229-232 *)
Definition A (m : list Z) : R := vx m + vy m.
(** core.py:234-240 *)
Definition sigma (p j : nat) : R :=
  match p with O => 1 | _ => match elementary_symmetric R 0 Rplus Rmult p (map (fun i => d i j) (onerange h)) with Some e => e | None => 0 end end.
(** core.py:242-244 *)
Definition Iqe_pref (q : Z) (r j : nat) : R := (IZR q + INR r / 2 + 1) * sigma (h - r) j.
(** Sums of results of calls that may not have ended *)
Fixpoint sum_opt (l : list (option R)) : option R :=
  match l with [] => Some 0 | None :: _ => None | Some u :: l' => match sum_opt l' with Some w => Some (u + w) | None => None end end.
Definition omap (f : R -> R) (o : option R) : option R := match o with Some r => Some (f r) | None => None end.
(** The tuple of core.py:272 *)
Definition A_exponents (q : Z) (j : nat) : list Z := map (fun i => ((if Nat.leb i h then 1 else 0) + (q + 1) * (if Nat.eqb i j then 1 else 0))%Z) (onerange n).
(** math.comb *)
Definition comb (q r : nat) : R := INR (fact q) / (INR (fact r) * INR (fact (q - r))).
(** core.py:246-274; the first argument bounds the depth of the recursion, [None]: not finished. *)
Fixpoint Iqe (fuel : nat) (q : Z) (j : nat) : option R :=
  match fuel with
  | O => None
  | S fuel' =>
      let via ri low high :=
        let q' := (q - Z.of_nat ri)%Z in
        omap (fun t => (A (A_exponents q' j) - t) / Iqe_pref q' ri j)
          (sum_opt (map (fun r => omap (Rmult (Iqe_pref q' r j)) (Iqe fuel' (q' + Z.of_nat r) j)) (seq low (high - low)))) in
      if (Nat.ltb h j && Nat.eqb h 4 && (q =? 2)%Z)%bool then
        sum_opt (map (fun r => omap (Rmult (comb 2 r * d j 1 ^ (2 - r))) (Iqe fuel' (Z.of_nat r) 1)) (seq 0 3))
      else if (1 <? q)%Z then via h (if Nat.ltb h j then 0%nat else 1%nat) h
      else if (q <? -1)%Z then if Nat.ltb h j then via 0%nat 1%nat (h + 1)%nat else via 1%nat 2%nat (h + 1)%nat
      else Some (Ie (q * Z.of_nat j))
  end.

(** [m[j]] for a sequence numbered from 1 *)
Definition mi (m : list Z) (j : nat) : Z := nth (j - 1) m 0%Z.
Definition others (i : nat) : list nat := filter (fun j => negb (Nat.eqb j i)) (onerange n).
(** core.py:276-279 *)
Definition D (m : list Z) (i : nat) : R := prod (map (fun j => powerRZ (d j i) (mi m j)) (others i)).
(** core.py:281-287 *)
Definition mu (m : list Z) (s : Z) (i : nat) : R := - 1 / IZR (Z.abs s) * sum (map (fun j => IZR (mi m j) * powerRZ (d i j) s) (others i)).
(** core.py:289-296 *)
Definition C (m : list Z) (s : Z) (i : nat) : R :=
  if (s =? 0)%Z then 1
  else sum (map (fun part => prod (map (fun p => mu m (Z.sgn s * Z.of_nat (fst p)) i ^ snd p / INR (fact (snd p))) part)) (partitions (Z.to_nat (Z.abs s)))).
(** core.py:298-328 *)
Definition Im (fuel : nat) (m : list Z) : option R :=
  match filter (fun j => negb (mi m j =? 0)%Z) (seq 1 (length m)) with
  | [] => Some (Ie 0)
  | [j] => Iqe fuel (mi m j) j
  | _ =>
      let M := fold_left Z.add m 0%Z in
      match sum_opt (map (fun q => omap (Rmult (C m (M - q) 1)) (Iqe fuel q 1)) (zrange 0 (M + 1))),
            sum_opt (map (fun i => omap (Rmult (D m i)) (sum_opt (map (fun q => omap (Rmult (C m (mi m i + Z.of_nat q) i)) (Iqe fuel (- Z.of_nat q) i)) (onerange (Z.to_nat (- mi m i)))))) (onerange n)) with
      | Some u, Some w => Some (u + w)
      | _, _ => None
      end
  end.
End Reduction.

Section Functional.
Variables (elliprc : R -> R -> R) (elliprd elliprf : R -> R -> R -> R) (elliprj : R -> R -> R -> R -> R).
(** functional.py:20-24 *)
Definition forward (fuel : nat) (m : list Z) (h : nat) (z1 z2 : R) (a : list R) : option R := Im z2 z1 a h elliprc elliprd elliprf elliprj fuel m.
(** functional.py:26-42: [None] where the code returns None; real tensors, so no conjugate.  [needs] is ctx.needs_input_grad. *)
Definition backward (fuel : nat) (m : list Z) (h : nat) (z1 z2 : R) (a : list R) (needs : list bool) (g : R) : list (option (option R)) :=
  map (option_map (omap (Rmult g)))
    ([None; None]
     ++ map (fun p : bool * R => if fst p then Some (Some (snd p)) else None) (combine (skipn 2 needs) [vy z1 a h m; vx z2 a h m])
     ++ map (fun p : nat * bool => if snd p then Some (omap (Rmult (IZR (nth (fst p) m 0%Z) - (if Nat.ltb (fst p) h then 1 / 2 else 0)))
               (forward fuel (map (fun i => (nth i m 0 - (if Nat.eqb i (fst p) then 1 else 0))%Z) (seq 0 (length a))) h z1 z2 a)) else None)
         (combine (seq 0 (length (skipn 4 needs))) (skipn 4 needs))).
End Functional.
