(** * Model of /repo/phytorch/cosmology/drivers/analytic_diff.py (definitions only), with the part of special/elliptic_reduction/core.py that it
    uses for complex numbers a_i

    Reduction.v models core.py for real arguments; here the limits x and y are real and the numbers a_i are complex (functional.py:44 makes them
    so).  Only exponents with at most one entry different from zero occur, so the general case of [Im] (core.py:313-328) is left out ([None]).
    Exact arithmetic.  [csqrt] is the principal square root: x**(1/2) and the half-integer powers of core.py:102-107. *)
From Coq Require Import List Bool Arith ZArith Reals.
From Coquelicot Require Import Complex.
From Verif Require Import Cosmo Roots Analytic.
Import ListNotations.
Open Scope R_scope.

(** integer powers *)
Fixpoint cpow (w : C) (n : nat) : C := match n with O => RtoC 1 | S n' => Cmult w (cpow w n') end.

Section Reduction.
Variables (csqrt : C -> C) (x y : R) (a : list C) (h : nat).
Variables (elliprc : C -> C -> C) (elliprd elliprf : C -> C -> C -> C) (elliprj : C -> C -> C -> C -> C).
Open Scope C_scope.
(** core.py:29-30, 76-82, 17-18 *)
Definition citem (i : nat) : C := match i with O => RtoC 1 | S k => nth k a (RtoC 0) end.
Definition cn : nat := length a.
Definition cidx_set : list nat := map (fun i => (i + (if Nat.eqb h 4 then 1 else 0))%nat) (seq 0 4).
Definition cwithout (ex : list nat) : list nat := filter (fun i => negb (existsb (Nat.eqb i) ex)) cidx_set.
(** core.py:48-61 *)
Definition cd_up (i j : nat) : C := citem i - citem j * (if Nat.eqb i 0 then RtoC 0 else RtoC 1).
Definition cd (i j : nat) : C := if Nat.ltb j i then - cd_up j i else cd_up i j.
Definition cXorY (z : R) (i : nat) : C := match i with O => RtoC 1 | S _ => csqrt (citem i + RtoC z) end.
(** core.py:88-100 *)
Definition cs_ (i : nat) (z : R) : C := citem i + RtoC z.
Definition cprod (l : list C) : C := match product C Cmult l with Some p => p | None => RtoC 0 end.
Definition cs (z : R) : C := cprod (map (fun i => csqrt (cs_ i z)) (seq 1 h)).
(** core.py:102-117: the exponent is k / 2 *)
Definition half_power (w : C) (k : Z) : C := match k with Z0 => RtoC 1 | Zpos p => cpow (csqrt w) (Pos.to_nat p) | Zneg p => / cpow (csqrt w) (Pos.to_nat p) end.
Definition cv (m : list Z) (z : R) : C :=
  cprod (map (fun p => half_power (fst (snd p) + RtoC z) (2 * snd (snd p) - (if Nat.ltb (fst p) h then 1 else 0))%Z) (combine (seq 0 (length a)) (combine a m))).
(** core.py:123-146 *)
Definition cX (i : nat) : C := cXorY x i.
Definition cY (i : nat) : C := cXorY y i.
Definition cxmy : C := RtoC x - RtoC y.
Definition cU2 (i j : nat) : C := match cwithout [i; j] with [k; l] => cpow (cX i * cX j * cY k * cY l + cY i * cY j * cX k * cX l) 2 | _ => RtoC 0 end.
(** core.py:158-181 *)
Definition cU2nu (i nu : nat) : C := match cwithout [i] with [j; k; l] => cU2 i j - cpow cxmy 2 * cd i k * cd i l * cd j nu / cd i nu | _ => RtoC 0 end.
Definition cS2 (i nu : nat) : C :=
  match cwithout [i] with [j; k; l] => cpow (cX j * cX k * cX l / cX i * cpow (cY nu) 2 + cY j * cY k * cY l / cY i * cpow (cX nu) 2) 2 | _ => RtoC 0 end.
Definition cQ2 (i nu : nat) : C := cpow (cX nu) 2 * cpow (cY nu) 2 / (cpow (cX i) 2 * cpow (cY i) 2) * cU2nu i nu.
Definition cwith_U2xyz (f : C -> C -> C -> C) : C := f (cU2 1 2) (cU2 1 3) (cU2 2 3).
(** core.py:183-227 *)
Definition cIe_0 : C := RtoC 2 * cxmy * cwith_U2xyz elliprf.
Definition cIe_minus_nu (nu : nat) : C :=
  match cidx_set with
  | [i; j; k; l] =>
      let ret := RtoC 2 * cxmy * (cd i j * cd i k * cd i l / cd i nu / RtoC 3 * cpow cxmy 2 * cwith_U2xyz (fun u v w => elliprj u v w (cU2nu i nu)) + elliprc (cS2 i nu) (cQ2 i nu)) in
      (if Nat.eqb i 0 then ret else ret - cIe_0) / cd i nu
  | _ => RtoC 0
  end.
Definition cIe_minus (i : nat) : C :=
  match cwithout [i] with
  | [j; k; l] =>
      let ret := RtoC 2 * cxmy * (cd j k * cd j l / RtoC 3 * cpow cxmy 2 * elliprd (cU2 i k) (cU2 j k) (cU2 i j) + cX j * cY j / (cX i * cY i * csqrt (cU2 i j))) in
      (if Nat.eqb j 0 then ret else ret - cIe_0) / cd j i
  | _ => RtoC 0
  end.
Definition cIe_plus (i : nat) : C :=
  if Nat.eqb h 3 then
    match filter (fun j => negb (Nat.eqb j i)) [1; 2; 3]%nat with
    | [j; k] => cd i j * cd i k * cIe_minus i + RtoC 2 * (cs x / cs_ i x - cs y / cs_ i y)
    | _ => RtoC 0
    end
  else
    match cwithout [i] with
    | [j; k; l] => RtoC 2 * cxmy * (elliprc (cS2 i 0) (cQ2 i 0) - cd i j * cd i k * cd i l / RtoC 3 * cpow cxmy 2 * cwith_U2xyz (fun u v w => elliprj u v w (cU2nu i 0)))
    | _ => RtoC 0
    end.
Definition cIe (i : Z) : C :=
  if (i <? - Z.of_nat h)%Z then cIe_minus_nu (Z.to_nat (- i))
  else if (i <? 0)%Z then cIe_minus (Z.to_nat (- i))
  else if (i =? 0)%Z then cIe_0
  else if (i <=? Z.of_nat h)%Z then cIe_plus (Z.to_nat i)
  else cIe_plus 1 + cd (Z.to_nat i) 1 * cIe_0.
(** core.py:229-244 *)
Definition cA (m : list Z) : C := cv m x + - cv m y.
Definition csigma (p j : nat) : C :=
  match p with O => RtoC 1 | _ => match elementary_symmetric C (RtoC 0) Cplus Cmult p (map (fun i => cd i j) (seq 1 h)) with Some e => e | None => RtoC 0 end end.
Definition cIqe_pref (q : Z) (r j : nat) : C := RtoC (IZR q + INR r / 2 + 1) * csigma (h - r) j.
Fixpoint csum_opt (l : list (option C)) : option C :=
  match l with [] => Some (RtoC 0) | None :: _ => None | Some u :: l' => match csum_opt l' with Some w => Some (u + w) | None => None end end.
Definition cA_exponents (q : Z) (j : nat) : list Z := map (fun i => ((if Nat.leb i h then 1 else 0) + (q + 1) * (if Nat.eqb i j then 1 else 0))%Z) (seq 1 cn).
(** core.py:246-274; the first argument bounds the depth of the recursion *)
Fixpoint cIqe (fuel : nat) (q : Z) (j : nat) : option C :=
  match fuel with
  | O => None
  | S fuel' =>
      let via ri low high :=
        let q' := (q - Z.of_nat ri)%Z in
        option_map (fun t => (cA (cA_exponents q' j) - t) / cIqe_pref q' ri j)
          (csum_opt (map (fun r => option_map (Cmult (cIqe_pref q' r j)) (cIqe fuel' (q' + Z.of_nat r) j)) (seq low (high - low)))) in
      if (Nat.ltb h j && Nat.eqb h 4 && (q =? 2)%Z)%bool then
        csum_opt (map (fun r => option_map (Cmult (RtoC (INR (match r with 1%nat => 2 | _ => 1 end)) * cpow (cd j 1) (2 - r))) (cIqe fuel' (Z.of_nat r) 1)) (seq 0 3))
      else if (1 <? q)%Z then via h (if Nat.ltb h j then 0%nat else 1%nat) h
      else if (q <? -1)%Z then if Nat.ltb h j then via 0%nat 1%nat (h + 1)%nat else via 1%nat 2%nat (h + 1)%nat
      else Some (cIe (q * Z.of_nat j))
  end.
(** core.py:298-311 *)
Definition cIm (fuel : nat) (m : list Z) : option C :=
  match filter (fun j => negb (nth (j - 1) m 0%Z =? 0)%Z) (seq 1 (length m)) with
  | [] => Some (cIe 0)
  | [j] => cIqe fuel (nth (j - 1) m 0%Z) j
  | _ => None
  end.
End Reduction.

Section Driver.
Variables (csqrt ccbrt : C -> C) (eigvals : list (list C) -> list C).
Variables (elliprc : C -> C -> C) (elliprd elliprf : C -> C -> C -> C) (elliprj : C -> C -> C -> C -> C).
(** functional.py:43-44, 20-24: elliptic_integral(z1, z2, *a, m=m, h=h) *)
Definition elliptic_integral (fuel : nat) (z1 z2 : R) (a : list C) (m : list Z) (h : nat) : option C := cIm csqrt z2 z1 a h elliprc elliprd elliprf elliprj fuel m.
(** _analytic_base.py:42, 54 *)
Definition epoly_degree (c : cls) : nat := if rad c then 4 else 3.
Definition zeros (n : nat) : list Z := repeat 0%Z n.
(** analytic_diff.py:12-16 *)
Definition diff_lookback (fuel : nat) (c : cls) (s : state) (z : R) : option R :=
  bind (epoly_roots csqrt ccbrt eigvals c s) (fun rts =>
  bind (elliptic_integral fuel 0 z (map Copp rts ++ [RtoC 1]) (zeros (epoly_degree c) ++ [(-1)%Z]) (epoly_degree c)) (fix_dimless c s)).
(** 21-25 *)
Definition diff_absorption (fuel : nat) (c : cls) (s : state) (z : R) : option R :=
  bind (epoly_roots csqrt ccbrt eigvals c s) (fun rts =>
  bind (elliptic_integral fuel 0 z (map Copp rts ++ [RtoC 1]) (zeros (epoly_degree c) ++ [2%Z]) (epoly_degree c)) (fix_dimless c s)).
(** 27-31 *)
Definition diff_comoving (fuel : nat) (c : cls) (s : state) (z1 z2 : R) : option R :=
  bind (epoly_roots csqrt ccbrt eigvals c s) (fun rts =>
  bind (elliptic_integral fuel z1 z2 (map Copp rts) (zeros (epoly_degree c)) (epoly_degree c)) (fix_dimless c s)).
End Driver.
