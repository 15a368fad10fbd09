(** The C++ inverse incomplete gamma functions: /repo/phytorch-extensions/special/gammaincinv.h.
    Simplifications: exact arithmetic; [tgamma], [lgamma] and [erfc] of the C library and the 25 x 25 table [d] of the uniform expansion are
    parameters, as in GammaInc.v; a logarithm of a negative number inside the starting value, which gives NaN, is not singled out; the values
    computed for an infinite [a] are not modelled (parameter [ainf]).  [eps] is TEPS, [maxiter] is MAXITER. *)
From Coq Require Import List Bool Reals.
From Verif Require Import GammaInc.
Import ListNotations.
Open Scope R_scope.

(** common/moremath.h:12 *)
Definition EULER : R := 0.577215664901532860606512090082402431.
(** gammaincinv.h:17-25, eq. (32) *)
Definition find_inverse_s (p q : R) : R :=
  let t := if Rlt_dec p 0.5 then sqrt (-2 * ln p) else sqrt (-2 * ln q) in
  let s := t - horner t [0.213623493715853; 4.28342155967104; 11.6616720288968; 3.31125922108741]
             / horner t [0.03611708101884203; 1.27364489782223; 6.40691597760039; 6.61053765625462; 1] in
  if Rlt_dec p 0.5 then - s else s.
(** gammaincinv.h:27-43, eq. (34): [fuel] counts the values i = i, i + 1, ..., N *)
Fixpoint sn_loop (fuel : nat) (i a x tolerance partial sum : R) : R :=
  match fuel with O => sum | S f =>
    let partial' := partial * (x / (a + i)) in
    let sum' := sum + partial' in
    if Rlt_dec partial' tolerance then sum' else sn_loop f (i + 1) a x tolerance partial' sum'
  end.
Definition didonato_SN (a x : R) (N : nat) (tolerance : R) : R :=
  match N with O => 1 | S n => let partial := x / (a + 1) in sn_loop n 2 a x tolerance partial (1 + partial) end.
(** gammaincinv.h:82-113 and 142-171, eq. (25) from y on *)
Definition eq25 (a y : R) : R :=
  let c1 := (a - 1) * ln y in
  let c2 := (a - 1) * (1 + c1) in
  let c3 := (a - 1) * (- (c1 ^ 2 / 2) + (a - 2) * c1 + (3 * a - 5) / 2) in
  let c4 := (a - 1) * (c1 ^ 3 / 3 - (3 * a - 5) * c1 ^ 2 / 2 + (a ^ 2 - 6 * a + 7) * c1 + (11 * a ^ 2 - 46 * a + 47) / 6) in
  let c5 := (a - 1) * (- (c1 ^ 4 / 4) + (11 * a - 17) * c1 ^ 3 / 6 + (-3 * a ^ 2 + 13 * a - 13) * c1 ^ 2
                       + (2 * a ^ 3 - 25 * a ^ 2 + 72 * a - 61) * c1 / 2 + (25 * a ^ 3 - 195 * a ^ 2 + 477 * a - 379) / 12) in
  y + c1 + c2 / y + c3 / y ^ 2 + c4 / y ^ 3 + c5 / y ^ 4.

Section GammaIncInv.
Variables (eps : R) (maxiter : nat) (tgamma lgamma erfc : R -> R) (d : nat -> nat -> R) (ainf : R -> num).

(** gammaincinv.h:53-64, eq. (21) *)
Definition eq21 (a p q : R) : R :=
  let g := tgamma a in let b := q * g in
  let u := if Rlt_dec 1e-8 (b * q) then if Rlt_dec 1e-5 q then Rpower (p * g * a) (1 / a) else exp (- q / a - EULER) else exp (- q / a - EULER) in
  u / (1 - u / (a + 1)).
(** gammaincinv.h:49-114: the starting value for a < 1 *)
Definition start_small (a p q : R) : R :=
  let b := q * tgamma a in
  if (if Rlt_dec 0.6 b then true else if Rle_dec 0.45 b then if Rle_dec 0.3 a then true else false else false) then eq21 a p q
  else if (if Rlt_dec a 0.3 then if Rle_dec 0.35 b then true else false else false) then
    let t := exp (- EULER - b) in t * exp (t * exp t)
  else let y := - ln b in
    if (if Rlt_dec 0.15 b then true else if Rle_dec 0.3 a then true else false) then
      let u := y - (1 - a) * ln y in y - (1 - a) * ln u - ln (1 + (1 - a) / (1 + u))
    else if Rlt_dec 0.1 b then
      let u := y - (1 - a) * ln y in
      y - (1 - a) * ln u - ln ((u * u + 2 * (3 - a) * u + (2 - a) * (3 - a)) / (u * u + (5 - a) * u + 2))
    else eq25 a y.
(** gammaincinv.h:178-188, eq. (35) *)
Definition eq35 (a p w : R) : R :=
  let ap1 := a + 1 in let ap2 := a + 2 in
  let v := ln p + lgamma ap1 in
  let z := exp ((v + w) / a) in
  let s := ln (1 + z / ap1 * (1 + z / ap2)) in
  let z := exp ((v + z - s) / a) in
  let s := ln (1 + z / ap1 * (1 + z / ap2)) in
  let z := exp ((v + z - s) / a) in
  let s := ln (1 + z / ap1 * (1 + z / ap2 * (1 + z / (a + 3)))) in
  exp ((v + z - s) / a).
(** gammaincinv.h:115-202: the starting value for a > 1, eq. (31) and its corrections *)
Definition start_large (a p q : R) : R :=
  let s := find_inverse_s p q in
  let ra := sqrt a in
  let w := a + s * ra + (s ^ 2 - 1) / 3 in
  let w := w + (s ^ 3 - 7 * s) / (36 * ra) in
  let w := w - (3 * s ^ 4 + 7 * s ^ 2 - 16) / (810 * a) in
  let w := w + (9 * s ^ 5 + 256 * s ^ 3 - 433 * s) / (38880 * a * ra) in
  if (if Rle_dec 500 a then if Rlt_dec (Rabs (1 - w / a)) 1e-6 then true else false else false) then w
  else if Rlt_dec 0.5 p then
    if Rlt_dec w (3 * a) then w
    else let D := Rmax 2 (a * (a - 1)) in
      let lb := ln q + lgamma a in
      if Rlt_dec lb (- D * 2.3) then eq25 a (- lb)
      else let u := - lb + (a - 1) * ln w - ln (1 + (1 - a) / (1 + w)) in
           - lb + (a - 1) * ln u - ln (1 + (1 - a) / (1 + u))
  else
    let ap1 := a + 1 in
    let z := if Rlt_dec w (0.15 * ap1) then eq35 a p w else w in
    if (if Rle_dec z (0.01 * ap1) then true else if Rlt_dec (0.7 * ap1) z then true else false) then z
    else let ls := ln (didonato_SN a z 100 1e-4) in
         let v := ln p + lgamma ap1 in
         let z := exp ((v + z - ls) / a) in
         z * (1 - (a * ln z - z - v + ls) / (a - z)).
(** gammaincinv.h:46-204 *)
Definition find_inverse_gamma (a p q : R) : R :=
  if Req_EM_T a 1 then (if Rlt_dec 0.9 q then - ln (1 + - p) else - ln q)
  else if Rlt_dec a 1 then start_small a p q
  else start_large a p q.

(** [isfinite] of (a - 1) / x - 1 for finite a: false exactly when x is 0 *)
Definition ratio_finite (x : R) : bool := if Req_EM_T x 0 then false else true.
(** gammaincinv.h:217-231 ([lower]) and 243-257: the loop.  At x = 0 [igam_fac] is exp(-inf) = 0, below 0 it is NaN. *)
Fixpoint inv_loop (fuel : nat) (lower : bool) (a p x : R) : num :=
  match fuel with O => Fin x | S f =>
    if Rlt_dec x 0 then NaN
    else let fac := if Req_EM_T x 0 then 0 else igam_fac lgamma a x in
    if Req_EM_T fac 0 then Fin x
    else match (if lower then gammainc else gammaincc) eps maxiter lgamma erfc d (Fin a) (Fin x) with
    | Fin P =>
        let f_fp := (P - p) * x / (if lower then fac else - fac) in
        let fpp_fp := (a - 1) / x - 1 in
        inv_loop f lower a p (x - (if ratio_finite x then f_fp else f_fp / (1 - f_fp * fpp_fp / 2)))
    | _ => NaN
    end
  end.
(** the remainder of either function once the special values and the delegation are dealt with.
    For a = 0: tgamma is +inf, the starting value is NaN (inf * 0) unless q <= 1e-5, when it is exp(-inf) = 0, which is returned *)
Definition inv_main (lower : bool) (a p q : R) : num :=
  if Req_EM_T a 0 then (if Rle_dec q 1e-5 then Fin 0 else NaN)
  else inv_loop 3 lower a (if lower then p else q) (find_inverse_gamma a p q).

Definition gt1 (x : num) : bool := match x with Fin r => if Rlt_dec 1 r then true else false | PInf => true | _ => false end.
Definition isnan (x : num) : bool := match x with NaN => true | _ => false end.
(** gammaincinv.h:207-232 and 235-258.  The two call each other; [fuel] bounds the depth of these calls (2 is always enough, see Prop_GammaIncInv.v). *)
Fixpoint inverse (fuel : nat) (lower : bool) (a p : num) : num :=
  if (isnan a || isnan p || lt0 a || lt0 p || gt1 p)%bool then NaN
  else match a, p with
  | Fin a', Fin p' =>
      if Req_EM_T p' 0 then (if lower then Fin 0 else PInf)
      else if Req_EM_T p' 1 then (if lower then PInf else Fin 0)
      else if Rlt_dec 0.9 p' then match fuel with O => NaN | S f => inverse f (negb lower) a (Fin (1 - p')) end
      else if lower then inv_main true a' p' (1 - p') else inv_main false a' (1 - p') p'
  | _, Fin p' => ainf p'
  | _, _ => NaN
  end.
Definition gammaincinv (a p : num) : num := inverse 2 true a p.
Definition gammainccinv (a q : num) : num := inverse 2 false a q.
End GammaIncInv.
