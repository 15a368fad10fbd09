(** The C++ regularised incomplete gamma functions: /repo/phytorch-extensions/special/gammainc.h.
    Simplifications: exact arithmetic; [lgamma] and [erfc] of the C library are parameters, and so is the 25 x 25 table [d] of the uniform
    asymptotic expansion (gammainc.h:316-341); M_E is e.  [eps] is TEPS, [maxiter] is MAXITER (2000 in the code, gammainc.h:104). *)
From Coq Require Import List Bool Reals.
Import ListNotations.
Open Scope R_scope.

(** floating-point numbers with exact finite values *)
Inductive num := Fin (r : R) | PInf | MInf | NaN.
Definition lt0 (x : num) : bool := match x with Fin r => if Rlt_dec r 0 then true else false | MInf => true | _ => false end.
Definition gt0 (x : num) : bool := match x with Fin r => if Rlt_dec 0 r then true else false | PInf => true | _ => false end.
Definition eq0 (x : num) : bool := match x with Fin r => if Req_EM_T r 0 then true else false | _ => false end.
Definition isinf (x : num) : bool := match x with PInf | MInf => true | _ => false end.

(** common/preprocessor.h:20-22 *)
Definition horner (x : R) (l : list R) : R := match l with [] => 0 | c :: l' => fold_left (fun s e => e + x * s) l' c end.
(** gammahead.h:9 *)
Definition lanczos_g : R := 6.024680040776729583740234375.
(** gammainc.h:171-202 *)
Definition lanczos_sum_expg_scaled (x : R) : R :=
  horner x [0.006061842346248906525783753964555936883222; 0.5098416655656676188125178644804694509993;
    19.51992788247617482847860966235652136208; 449.9445569063168119446858607650988409623;
    6955.999602515376140356310115515198987526; 75999.29304014542649875303443598909137092;
    601859.6171681098786670226533699352302507; 3481712.15498064590882071018964774556468;
    14605578.08768506808414169982791359218571; 43338889.32467613834773723740590533316085;
    86363131.28813859145546927288977868422342; 103794043.1163445451906271053616070238554;
    56906521.91347156388090791033559122686859]
  / horner x [1; 66; 1925; 32670; 357423; 2637558; 13339535; 45995730; 105258076; 150917976; 120543840; 39916800; 0].
(** gammainc.h:117-119 *)
Definition log1pmx (x : R) : R := ln (1 + x) - x.

Section GammaInc.
Variables (eps : R) (maxiter : nat) (lgamma erfc : R -> R) (d : nat -> nat -> R).

(** gammainc.h:204-222 *)
Definition igam_fac (a x : R) : R :=
  if Rlt_dec (0.4 * Rabs a) (Rabs (a - x)) then
    let ax := a * ln x - x - lgamma a in
    if Rlt_dec ax (- 7.09782712893383996843e2) then 0 else exp ax
  else
    let fac := a + lanczos_g - 0.5 in
    sqrt (fac / exp 1) / lanczos_sum_expg_scaled a *
      (if Rlt_dec a 200 then if Rlt_dec x 200 then exp (a - x) * Rpower (x / fac) a
                             else exp (a * log1pmx ((x - a - lanczos_g + 0.5) / fac) + x * (0.5 - lanczos_g) / fac)
       else exp (a * log1pmx ((x - a - lanczos_g + 0.5) / fac) + x * (0.5 - lanczos_g) / fac)).

(** gammainc.h:231-264, constants 113-114: the loop of the continued fraction *)
Definition BIG : R := 4.503599627370496e15.
Definition BIGINV : R := 2.22044604925031308085e-16.
Fixpoint cf_loop (fuel : nat) (y z c pkm2 qkm2 pkm1 qkm1 ans : R) : R :=
  match fuel with
  | O => ans
  | S fuel' =>
      let z := z + 2 in let y := y + 1 in let c := c + 1 in
      let yc := y * c in
      let pk := pkm1 * z - pkm2 * yc in
      let qk := qkm1 * z - qkm2 * yc in
      let (t, ans') := if Req_EM_T qk 0 then (1, ans) else let r := pk / qk in (Rabs ((ans - r) / r), r) in
      let s := if Rlt_dec BIG (Rabs pk) then BIGINV else 1 in
      if Rle_dec t eps then ans' else cf_loop fuel' y z c (pkm1 * s) (qkm1 * s) (pk * s) (qk * s) ans'
  end.
(** gammainc.h:225-267 *)
Definition igamc_continued_fraction (a x : R) : R :=
  let ax := igam_fac a x in
  if Req_EM_T ax 0 then 0 else
  let y := 1 - a in let z := x + y + 1 in
  cf_loop maxiter y z 0 1 x (x + 1) (z * x) ((x + 1) / (z * x)) * ax.

(** gammainc.h:270-285 *)
Fixpoint series_loop (fuel : nat) (x r c ans : R) : R :=
  match fuel with
  | O => ans
  | S fuel' =>
      let r := r + 1 in let c := c * (x / r) in let ans := ans + c in
      if Rle_dec c (eps * ans) then ans else series_loop fuel' x r c ans
  end.
Definition igam_series (a x : R) : R :=
  let ax := igam_fac a x in if Req_EM_T ax 0 then 0 else series_loop maxiter x a 1 1 * ax / a.

(** gammainc.h:288-304; the loop runs for n = 1, ..., MAXITER - 1 *)
Fixpoint cseries_loop (fuel : nat) (a x n fac sum : R) : R :=
  match fuel with
  | O => sum
  | S fuel' =>
      let fac := fac * (- x / n) in let term := fac / (a + n) in let sum := sum + term in
      if Rle_dec (Rabs term) (eps * Rabs sum) then sum else cseries_loop fuel' a x (n + 1) fac sum
  end.
Definition igamc_series (a x : R) : R :=
  let sum := cseries_loop (maxiter - 1) a x 1 1 0 in
  let logx := ln x in
  let term := - (exp (a * logx - lgamma (1 + a)) - 1) in
  term - exp (a * logx - lgamma a) * sum.

(** gammainc.h:350-359: c_k; the cached powers etapow[n] are the powers of eta *)
Fixpoint ck_loop (fuel k n : nat) (eta ck : R) : R :=
  match fuel with
  | O => ck
  | S fuel' =>
      let ckterm := d k n * eta ^ n in let ck := ck + ckterm in
      if Rlt_dec (Rabs ckterm) (eps * Rabs ck) then ck else ck_loop fuel' k (S n) eta ck
  end.
(** gammainc.h:346-367; [None] is the initial TINF of absoldterm *)
Fixpoint sum_loop (fuel k : nat) (a eta : R) (absoldterm : option R) (afac sum : R) : R :=
  match fuel with
  | O => sum
  | S fuel' =>
      let term := ck_loop 24 k 1 eta (d k 0) * afac in
      let absterm := Rabs term in
      if match absoldterm with None => false | Some o => if Rlt_dec o absterm then true else false end then sum else
      let sum := sum + term in
      if Rlt_dec absterm (eps * Rabs sum) then sum else sum_loop fuel' (S k) a eta (Some absterm) (afac / a) sum
  end.
(** gammainc.h:307-371; [lower] is func == IGAM *)
Definition asymptotic_series (a x : R) (lower : bool) : R :=
  let sgn := if lower then -1 else 1 in
  let lambda := x / a in let sigma := (x - a) / a in
  let eta := if Rlt_dec 1 lambda then sqrt (-2 * log1pmx sigma) else if Rlt_dec lambda 1 then - sqrt (-2 * log1pmx sigma) else 0 in
  let res := erfc (sgn * eta * sqrt (a / 2)) / 2 in
  let sum := sum_loop 25 0 a eta None 1 0 in
  res + sgn * exp (- a * eta * eta / 2) * sum / sqrt (2 * PI * a).

(** gammainc.h:382-385, 397-400 *)
Definition in_asymptotic (a x : R) : bool :=
  let absxma_a := Rabs (x - a) / a in
  ((if Rlt_dec 20 a then if Rlt_dec a 200 then if Rlt_dec absxma_a 0.3 then true else false else false else false)
   || (if Rlt_dec 200 a then if Rlt_dec absxma_a (4.5 / sqrt a) then true else false else false))%bool.
(** gammainc.h:389-405 *)
Definition gammaincc (a x : num) : num :=
  if (lt0 x || lt0 a)%bool then NaN
  else if eq0 a then (if gt0 x then Fin 0 else NaN)
  else if eq0 x then Fin 1
  else if isinf a then (if isinf x then NaN else Fin 1)
  else if isinf x then Fin 0
  else match a, x with
  | Fin a, Fin x =>
      Fin (if in_asymptotic a x then asymptotic_series a x false
           else if Rlt_dec 1.1 x then (if Rlt_dec x a then 1 - igam_series a x else igamc_continued_fraction a x)
           else if Rle_dec x 0.5 then (if Rlt_dec (-0.4 / ln x) a then 1 - igam_series a x else igamc_series a x)
           else if Rlt_dec (x * 1.1) a then 1 - igam_series a x else igamc_series a x)
  | _, _ => NaN
  end.
(** gammainc.h:374-387 *)
Definition gammainc (a x : num) : num :=
  if (lt0 x || lt0 a)%bool then NaN
  else if eq0 a then (if gt0 x then Fin 1 else NaN)
  else if eq0 x then Fin 0
  else if isinf a then (if isinf x then NaN else Fin 0)
  else if isinf x then Fin 1
  else match a, x with
  | Fin a', Fin x' =>
      if in_asymptotic a' x' then Fin (asymptotic_series a' x' true)
      else if Rlt_dec 1 x' then (if Rlt_dec a' x' then match gammaincc a x with Fin q => Fin (1 - q) | o => o end else Fin (igam_series a' x'))
      else Fin (igam_series a' x')
  | _, _ => NaN
  end.
End GammaInc.
