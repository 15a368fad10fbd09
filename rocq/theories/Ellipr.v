(** * Model of /repo/phytorch-extensions/elliptic/ (definitions only): Carlson's functions by duplication, Legendre's by Carlson's

    Files elliptic.h, elliprf.h, elliprc.h, elliprd.h, elliprj.h, elliprg.h, ellip.h.  The code computes with complex numbers; the model is of what it does
    with real ones in the range where every intermediate value is real (the arguments x, y, z not negative, p positive; for elliprc a negative second
    argument too), so that the principal complex square root is the real one.  Exact arithmetic: the isnan/isinf guards
    (elliptic.h:8-10, elliprc.h:6, elliprj.h:7-8) never fire.  The message that elliprj prints (elliprj.h:12-35) is not modelled.  A while loop has a number of allowed
    iterations as its first argument; [None] is a loop that has not finished by then. *)
From Coq Require Import Reals List Bool.
Import ListNotations.
Open Scope R_scope.

(** A value of the code: a real number, the infinity of numeric_limits, not-a-number, or a number that is not real. *)
Inductive fl := Num (r : R) | Infinity | NaN | NotReal.

(** [while (cond) body] *)
Fixpoint while {St} (fuel : nat) (cond : St -> bool) (body : St -> St) (s : St) : option St :=
  if cond s then match fuel with O => None | S n => while n cond body (body s) end else Some s.
(** Comparisons on reals; elliptic.h:25 [max] is [Rmax]. *)
Definition gtb (a b : R) : bool := if Rlt_dec b a then true else false.
Definition geb (a b : R) : bool := if Rle_dec b a then true else false.
Definition eqb (a b : R) : bool := if Req_EM_T a b then true else false.
(** [not x] on a number *)
Definition isz (x : R) : bool := eqb x 0.
Definition nz (x y z : R) : nat := (Nat.b2n (isz x) + Nat.b2n (isz y) + Nat.b2n (isz z))%nat.

Section Eps.
(** numeric_limits<scalar_t>::epsilon(): 2^-52 or 2^-23 *)
Variable eps : R.
(** elliptic.h:6 *)
Definition EPS : R := eps * / 10 ^ 6.

(** The variables of a loop: elliptic.h:13-17 *)
Record st := mkst { xm : R; ym : R; zm : R; Am : R; pow4 : R; acc : R }.
(** elliptic.h:15-16, with the first factor's argument as a parameter *)
Definition Q_of (e A0 x y z : R) : R := Rpower e (- 1 / 6) * Rmax (Rmax (Rabs (A0 - x)) (Rabs (A0 - y))) (Rabs (A0 - z)).
(** elliptic.h:20-23 (ELLIPR_STEP), lm *)
Definition lam (x y z : R) : R := sqrt x * sqrt y + sqrt x * sqrt z + sqrt y * sqrt z.
(** elliptic.h:20-28 (ELLIPR_STEP, ELLIPR_UPDATE); [add] is what the body adds to s before the update (elliprd.h:16), 0 in elliprf.h:15-18. *)
Definition step (add : st -> R) (s : st) : st :=
  let lm := lam (xm s) (ym s) (zm s) in
  let Am1 := (Am s + lm) / 4 in
  mkst ((xm s + lm) / 4) ((ym s + lm) / 4) ((zm s + lm) / 4) Am1 (pow4 s / 4) (acc s + add s).
(** The condition of the loops: elliprf.h:15, elliprd.h:13, elliprc.h:18 *)
Definition going (Q : R) (s : st) : bool := gtb (pow4 s * Q) (Rabs (Am s)).

(** elliprc.h:18-22, with [ym] for both of R_F's last two arguments *)
Definition step_rc (s : st) : st :=
  let lm := 2 * sqrt (xm s) * sqrt (ym s) + ym s in
  mkst ((xm s + lm) / 4) ((ym s + lm) / 4) (zm s) ((Am s + lm) / 4) (pow4 s / 4) (acc s).
(** elliprc.h:24-33 *)
Definition tail_rc (s Am : R) : R :=
  (1 + s * s * (3 / 10) + s * s * s / 7 + s * s * s * s * (3 / 8) + s * s * s * s * s * (9 / 22) + s * s * s * s * s * s * (159 / 208)
   + s * s * s * s * s * s * s * (9 / 8)) / sqrt Am.
(** elliprc.h:7-8 and 14-34, for a second argument that is not negative *)
Definition elliprc_pos (fuel : nat) (x y : R) : option fl :=
  if isz y then Some Infinity
  else if isz x then Some (Num (PI / 2 / sqrt y))
  else
    let A0 := (x + y + y) / 3 in
    let Q := Rpower (3 * EPS) (- 1 / 6) * Rabs (A0 - x) in
    match while fuel (going Q) step_rc (mkst x y 0 A0 1 0) with
    | None => None
    | Some s => Some (Num (tail_rc ((y - A0) * pow4 s / Am s) (Am s)))
    end.
(** elliprc.h:5-34.  For y < 0 and x = 0 line 8 divides by the square root of a negative number. *)
Definition elliprc (fuel : nat) (x y : R) : option fl :=
  if gtb 0 y then
    if isz x then Some NotReal
    else match elliprc_pos fuel (x - y) (- y) with Some (Num r) => Some (Num (sqrt (x / (x - y)) * r)) | v => v end
  else elliprc_pos fuel x y.

(** elliprf.h:20-35 *)
Definition tail_rf (X Y Am : R) : R :=
  let Z := - (X + Y) in let E2 := X * Y - Z * Z in let E3 := X * Y * Z in
  (1 - E2 / 10 + E2 * E2 / 24 + E3 / 14 - E2 * E3 * (3 / 44)) / sqrt Am.
(** elliprf.h:5-36 *)
Definition elliprf (fuel : nat) (x y z : R) : option fl :=
  if eqb y z then elliprc fuel x y
  else if eqb x z then elliprc fuel y x
  else if eqb x y then elliprc fuel z x
  else
    let A0 := (x + y + z) / 3 in
    match while fuel (going (Q_of (EPS * 3) A0 x y z)) (step (fun _ => 0)) (mkst x y z A0 1 0) with
    | None => None
    | Some s => let t := pow4 s / Am s in Some (Num (tail_rf ((A0 - x) * t) ((A0 - y) * t) (Am s)))
    end.

(** elliprd.h:22-35, the bracket *)
Definition tail_rd (X Y : R) : R :=
  let Z := - (X + Y) / 3 in let XY := X * Y in let Z2 := Z * Z in let XYZ := XY * Z in
  let E2 := XY - 6 * Z2 in let E3 := 3 * XYZ - 8 * Z2 * Z in let E4 := 3 * (XY - Z2) * Z2 in let E5 := XYZ * Z2 in
  1 - 3 / 14 * E2 + E3 / 6 + 9 / 88 * E2 * E2 - 3 / 22 * E4 - 9 / 52 * E2 * E3 + 3 / 26 * E5.
(** elliprd.h:16 *)
Definition add_rd (s : st) : R := pow4 s / sqrt (zm s) / (zm s + lam (xm s) (ym s) (zm s)).
(** elliprd.h:6-36 *)
Definition elliprd (fuel : nat) (x y z : R) : option fl :=
  if isz z || Nat.ltb 1 (nz x y z) then Some Infinity
  else
    let A0 := (x + y + 3 * z) / 5 in
    match while fuel (going (Q_of (EPS * (1 / 4)) A0 x y z)) (step add_rd) (mkst x y z A0 1 0) with
    | None => None
    | Some s => let t := pow4 s / Am s in Some (Num (3 * acc s + pow4 s / Am s / sqrt (Am s) * tail_rd ((A0 - x) * t) ((A0 - y) * t)))
    end.

(** The variables of elliprj's loop: elliprj.h:48-56.  [jacc] is s, [None] once it is not-a-number. *)
Record stj := mkstj { jx : R; jy : R; jz : R; jp : R; jA : R; jpow4 : R; jm : nat; jacc : option R }.
(** elliprj.h:63: atan(sqrt(e))/sqrt(e) for a real e, with complex square root and arc tangent: for e < 0 the square root is i sqrt(-e) and
    atan(i a) = i artanh a (for 0 < a < 1); for e = 0 it is 0/0.  For e <= -1 the arc tangent is infinite or not real. *)
Definition atan_ratio (e : R) : option R :=
  if Rlt_dec 0 e then Some (atan (sqrt e) / sqrt e)
  else if Rlt_dec e 0 then if Rlt_dec (-1) e then Some (/ 2 * ln ((1 + sqrt (- e)) / (1 - sqrt (- e))) / sqrt (- e)) else None
  else None.
(** elliprj.h:57-66 *)
Definition step_rj (delta : R) (s : stj) : stj :=
  let sx := sqrt (jx s) in let sy := sqrt (jy s) in let sz := sqrt (jz s) in let sp := sqrt (jp s) in
  let lm := sx * sy + sx * sz + sy * sz in
  let dm := (sp + sx) * (sp + sy) * (sp + sz) in
  let em := delta * / 4 ^ (3 * jm s) / (dm * dm) in
  mkstj ((jx s + lm) / 4) ((jy s + lm) / 4) ((jz s + lm) / 4) ((jp s + lm) / 4) ((jA s + lm) / 4) (jpow4 s / 4) (S (jm s))
    match jacc s, atan_ratio em with Some a, Some r => Some (a + r * jpow4 s / dm) | _, _ => None end.
(** elliprj.h:68-80, the bracket *)
Definition tail_rj (X Y Z : R) : R :=
  let P := (- X - Y - Z) / 2 in
  let E2 := X * Y + X * Z + Y * Z - 3 * P * P in let E3 := X * Y * Z + 2 * E2 * P + 4 * P * P * P in
  let E4 := (2 * X * Y * Z + E2 * P + 3 * P * P * P) * P in let E5 := X * Y * Z * P * P in
  1 - E2 * (3 / 14) + E3 / 6 + E2 * E2 * (9 / 88) - E4 * (3 / 22) - E2 * E3 * (9 / 52) + E5 * (3 / 26).
(** elliprj.h:51-53 *)
Definition Q_rj (A0 x y z p : R) : R :=
  Rpower (/ 4 * eps * 2 ^ 10) (- 1 / 6) * Rmax (Rmax (Rmax (Rabs (A0 - x)) (Rabs (A0 - y))) (Rabs (A0 - z))) (Rabs (A0 - p)).
(** elliprj.h:6-88 *)
Definition elliprj (fuel : nat) (x y z p : R) : option fl :=
  if isz p || Nat.ltb 1 (nz x y z) then Some Infinity
  else
    let A0 := (x + y + z + p + p) / 5 in let delta := (p - x) * (p - y) * (p - z) in
    match while fuel (fun s => geb (jpow4 s * Q_rj A0 x y z p) (Rabs (jA s))) (step_rj delta) (mkstj x y z p A0 1 0 (Some 0)) with
    | None => None
    | Some s => let t := jpow4 s / jA s in
        Some match jacc s with
             | Some a => Num (6 * a + jpow4 s / jA s / sqrt (jA s) * tail_rj ((A0 - x) * t) ((A0 - y) * t) ((A0 - z) * t))
             | None => NaN
             end
    end.

(** Arithmetic on values of the code, as far as elliprg and ellip.h need it *)
Definition bind2 (a b : option fl) (f : R -> R -> R) : option fl :=
  match a, b with Some (Num x), Some (Num y) => Some (Num (f x y)) | None, _ => None | _, None => None | _, _ => Some NaN end.
(** elliprg.h:24-26 *)
Definition elliprg_main (fuel : nat) (x y z : R) : option fl :=
  bind2 (elliprf fuel x y z) (elliprd fuel x y z) (fun F D => (z * F - (x - z) * (y - z) * D / 3 + sqrt x * sqrt y / sqrt z) / 2).
(** elliprg.h:8-27 (the test of lines 21-22 is about negative numbers) *)
Definition elliprg (fuel : nat) (x y z : R) : option fl :=
  match nz x y z with
  | 3%nat => Some (Num ((x + y + z) * 0))
  | 2%nat => Some (Num (sqrt (if isz x then if isz y then z else y else x) / 2))
  | 1%nat => if isz z then elliprg_main fuel z y x else elliprg_main fuel x y z
  | _ => elliprg_main fuel x y z
  end.

(** ellip.h:6-9; infinity at a zero of the sine *)
Definition csc2 (phi : R) : fl := if isz (sin phi) then Infinity else Num (/ (sin phi) ^ 2).
(** ellip.h:11-13 *)
Definition ellipk (fuel : nat) (m : R) : option fl := elliprf fuel 0 (1 - m) 1.
(** ellip.h:15-19, for a finite m *)
Definition ellipe (fuel : nat) (m : R) : option fl := match elliprg fuel 0 (1 - m) 1 with Some (Num r) => Some (Num (2 * r)) | v => v end.
(** ellip.h:21-23 *)
Definition ellipd (fuel : nat) (m : R) : option fl := match elliprd fuel 0 (1 - m) 1 with Some (Num r) => Some (Num (r / 3)) | v => v end.
(** ellip.h:25-28 *)
Definition ellippi (fuel : nat) (n m : R) : option fl :=
  if isz n then ellipk fuel m else bind2 (ellipk fuel m) (elliprj fuel 0 (1 - m) 1 (1 - n)) (fun K J => K + n / 3 * J).
(** ellip.h:30-32 *)
Definition ellipkinc_ (fuel : nat) (c m : R) : option fl := elliprf fuel (c - 1) (c - m) c.
(** ellip.h:39-41 *)
Definition ellipdinc_ (fuel : nat) (c m : R) : option fl :=
  match elliprd fuel (c - 1) (c - m) c with Some (Num r) => Some (Num (r / 3)) | v => v end.
(** ellip.h:34-37 *)
Definition ellipeinc_ (fuel : nat) (c m : R) : option fl :=
  if eqb c 1 && eqb m 1 then Some (Num 1) else bind2 (elliprf fuel (c - 1) (c - m) c) (ellipdinc_ fuel c m) (fun F D => F - m * D).
(** ellip.h:43-46 *)
Definition ellippiinc_ (fuel : nat) (n c m : R) : option fl :=
  if isz n then ellipkinc_ fuel c m else bind2 (ellipkinc_ fuel c m) (elliprj fuel (c - 1) (c - m) c (c - n)) (fun F J => F + n / 3 * J).
(** What elliptic.h:8-10 and elliprj.h:7-8 return when an argument is infinite: zero *)
Definition at_phi (f : R -> option fl) (phi : R) : option fl := match csc2 phi with Num c => f c | _ => Some (Num 0) end.
(** ellip.h:48-50; at a zero of the sine the arguments of elliprf are infinite *)
Definition ellipkinc (fuel : nat) (phi m : R) : option fl := at_phi (fun c => ellipkinc_ fuel c m) phi.
(** ellip.h:52-54 *)
Definition ellipeinc (fuel : nat) (phi m : R) : option fl := at_phi (fun c => ellipeinc_ fuel c m) phi.
(** ellip.h:56-58 *)
Definition ellipdinc (fuel : nat) (phi m : R) : option fl := at_phi (fun c => ellipdinc_ fuel c m) phi.
(** ellip.h:60-62 *)
Definition ellippiinc (fuel : nat) (n phi m : R) : option fl := at_phi (fun c => ellippiinc_ fuel n c m) phi.
End Eps.
