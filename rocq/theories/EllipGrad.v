(** * Model of the gradient rules of /repo/phytorch/special/ellipr.py and ellip.py (definitions only)

    Real arguments in the range where every root is real, exact arithmetic.  The functions that a rule calls are parameters.  The last argument of a rule is the
    saved output.  [torch.where] is evaluated eagerly in the code, which cannot be seen in the value of the selected branch.  [x**0.5] is the square root,
    other powers are those of positive numbers. *)
From Coq Require Import Reals Bool List.
From Verif Require Import Ellipr.
Import ListNotations.
Open Scope R_scope.

(** phytorch.math.where on one element *)
Definition where_ (c : bool) (a b : R) : R := if c then a else b.
(** [sum(...)] of truth values *)
Definition count (l : list bool) : nat := length (filter (fun b => b) l).
(** [not (a != b)] *)
Definition same (a b : R) : bool := if Req_EM_T a b then true else false.

Section Carlson.
Variables (elliprc : R -> R -> R) (elliprd elliprf elliprg : R -> R -> R -> R).
(** ellipr.py:13: 1e-4 for single and 1e-9 for double precision; TorchFunction.devil_may_care (function_context.py:20, 46) *)
Variables (eps : R) (devil_may_care : bool).
(** ellipr.py:12-13 *)
Definition feq (a b : R) : bool := if Rlt_dec (Rabs (a - b)) eps then true else false.

(** ellipr.py:21-31 *)
Definition rc_grad_x (x y Rc : R) : R :=
  let general := (Rc - Rpower x (- (1 / 2))) / (2 * (y - x)) in
  if devil_may_care then general else where_ (feq x y) (- (1 / 6) * Rpower y (- (3 / 2))) general.
(** ellipr.py:32-42 *)
Definition rc_grad_y (x y Rc : R) : R :=
  let general := (Rc - sqrt x / y) / (2 * (x - y)) in
  if devil_may_care then general else where_ (feq x y) (- (1 / 3) * Rpower y (- (3 / 2))) general.

(** ellipr.py:49-60 *)
Definition rd_grad_x (x y z Rd : R) : R :=
  let general := (elliprd y z x - elliprd x y z) / (2 * (x - z)) in
  if devil_may_care then general
  else
    let case1 := - (3 / 10) * Rpower x (- (5 / 2)) in
    let case2 := 3 / 16 * ((5 * x - 2 * y) * sqrt y / x ^ 2 - 3 * elliprc y x) / (x - y) ^ 2 in
    where_ (feq x z) (where_ (feq x y) case1 case2) general.
(** ellipr.py:62-64 *)
Definition rd_grad_y (x y z Rd : R) : R := rd_grad_x y x z Rd.
(** ellipr.py:66-80 *)
Definition rd_grad_z (x y z Rd : R) : R :=
  let rzx := 1 / (z - x) in let rzy := 1 / (z - y) in let srz := rzx + rzy in let prz := rzx * rzy in
  let general := 3 / 2 * prz * (elliprf x y z - sqrt x * sqrt y * Rpower z (- (3 / 2))) - srz * Rd in
  if devil_may_care then general
  else
    let case1 := - (9 / 10) * Rpower z (- (5 / 2)) in
    let case2 := - (9 / 16) * ((2 * y - 5 * z) * sqrt y / z ^ 2 + 3 * elliprc y z) * rzy ^ 2 in
    let case3 := - (9 / 16) * ((2 * x - 5 * z) * sqrt x / z ^ 2 + 3 * elliprc x z) * rzx ^ 2 in
    where_ (feq x z) (where_ (feq y z) case1 case2) (where_ (feq y z) case3 general).

(** ellipr.py:103-106 *)
Definition rf_grad (x y z : R) : R := elliprd x y z / (-6).
(** ellipr.py:114-117 *)
Definition rg_grad (x y z : R) : R := (3 * elliprf x y z - z * elliprd x y z) / 12.

(** ellipr.py:126-145 *)
Definition rj_grad_x (x y z p Rj : R) : R :=
  let Rd := elliprd y z x in
  let general := (Rj - Rd) / (2 * (p - x)) in
  if devil_may_care then general
  else
    let x2 := x ^ 2 in let k316x2 := 3 / 16 / x2 in let k3x2 := 3 * x2 in let rxy := 1 / (x - y) in let rxz := 1 / (x - z) in
    let case1 := - (3 / 10) * Rpower x (- (5 / 2)) in
    let case2 := k316x2 * ((5 * x - 2 * z) * sqrt z - k3x2 * elliprc z x) * rxz ^ 2 in
    let case3 := k316x2 * ((5 * x - 2 * y) * sqrt y - k3x2 * elliprc y x) * rxy ^ 2 in
    let case4 := (elliprf x y z + 2 / 3 * (y + z - 2 * x) * Rd - sqrt y * sqrt z * Rpower x (- (3 / 2))) * (1 / 2) * rxy * rxz in
    where_ (feq x p) (where_ (feq x y) (where_ (feq x z) case1 case2) (where_ (feq x z) case3 case4)) general.
(** ellipr.py:147-153 *)
Definition rj_grad_y (x y z p Rj : R) : R := rj_grad_x y x z p Rj.
Definition rj_grad_z (x y z p Rj : R) : R := rj_grad_x z y x p Rj.
(** ellipr.py:155-188 *)
Definition rj_grad_p (x y z p Rj : R) : R :=
  let sx := sqrt x in let sy := sqrt y in let sz := sqrt z in
  let rpx := 1 / (p - x) in let rpy := 1 / (p - y) in let rpz := 1 / (p - z) in
  let srp := rpx + rpy + rpz in let prp := rpx * rpy * rpz in
  let general := (3 * prp * (p * elliprf x y z - 2 * elliprg x y z + sx * sy * sz / p) - srp * Rj) / 2 in
  if devil_may_care then general
  else
    let twop := 2 * p in let pm32 := Rpower p (- (3 / 2)) in let rp2 := / p ^ 2 in
    let case1 := - (6 / 10) * Rpower p (- (5 / 2)) in
    let case2 := - (375 / 1000) * ((2 * z - 5 * p) * sz * rp2 + 3 * elliprc z p) * rpz ^ 2 in
    let case3 := - (375 / 1000) * ((2 * y - 5 * p) * sy * rp2 + 3 * elliprc y p) * rpy ^ 2 in
    let case4 := - (375 / 1000) * ((2 * x - 5 * p) * sx * rp2 + 3 * elliprc x p) * rpx ^ 2 in
    let case5 := (elliprf y z p + 2 / 3 * (y + z - twop) * elliprd y z p - sy * sz * pm32) * rpy * rpz in
    let case6 := (elliprf x z p + 2 / 3 * (x + z - twop) * elliprd x z p - sx * sz * pm32) * rpx * rpz in
    let case7 := (elliprf x y p + 2 / 3 * (x + y - twop) * elliprd x y p - sx * sy * pm32) * rpx * rpy in
    let pex := feq p x in let pey := feq p y in let pez := feq p z in
    let pen := count [pex; pey; pez] in
    where_ (Nat.leb 2 pen) (where_ (Nat.eqb pen 3) case1 (where_ pex (where_ pey case2 case3) case4))
      (where_ (Nat.eqb pen 0) general (where_ pex case5 (where_ pey case6 case7))).
End Carlson.

Section Legendre.
(** ellipk, ellipe and, as functions of c = 1/sin(phi)^2 and m, ellipkinc(None, m, c), ellipeinc(None, m, c) *)
Variables (ellipk ellipe : R -> R) (ellipkinc ellipeinc : R -> R -> R).

(** ellip.py:18-20 *)
Definition csc2_grad_phi (phi csc2 : R) : R := - 2 * csc2 / tan phi.
(** ellip.py:27-30 *)
Definition k_grad_m (m K : R) : R := let mm := 1 - m in where_ (negb (same m 0)) ((ellipe m - mm * K) / (2 * m * mm)) (PI / 8).
(** ellip.py:37-39 *)
Definition e_grad_m (m E : R) : R := where_ (negb (same m 0)) ((E - ellipk m) / (2 * m)) (- PI / 8).
(** ellip.py:46-48 *)
Definition d_grad_m (m D : R) : R := where_ (negb (same m 0)) (((m - 2) * D + ellipk m) / (2 * m * (1 - m))) (3 * PI / 32).
(** ellip.py:55-58 *)
Definition pi_grad_n (n m Pi : R) : R := let mn := m - n in (ellipe m + mn / n * ellipk m + (n - m / n) * Pi) / (2 * mn * (n - 1)).
(** ellip.py:60-62 *)
Definition pi_grad_m (n m Pi : R) : R := (ellipe m / (m - 1) + Pi) / (2 * (n - m)).

(** ellip.py:78-81, given the derivative with respect to phi *)
Definition inc_grad_c (c gphi : R) : R := gphi / (- 2 * c * sqrt (c - 1)).
(** ellip.py:83-85; [None] is the infinite c *)
Definition grad_at_phi_zero (c : option R) (val : R -> R) : R := match c with Some c => val c | None => 0 end.
(** torch.asin(1/c**0.5) *)
Definition amplitude (c : R) : R := asin (1 / sqrt c).

(** ellip.py:96-98, 114-116, 131-133, 148-150 *)
Definition kinc_grad_phi (c m : R) : R := Rpower (1 - m / c) (- (1 / 2)).
Definition einc_grad_phi (c m : R) : R := sqrt (1 - m / c).
Definition dinc_grad_phi (c m : R) : R := Rpower (1 - m / c) (- (1 / 2)) / c.
Definition piinc_grad_phi (n c m : R) : R := Rpower (1 - m / c) (- (1 / 2)) / (1 - n / c).
(** ellip.py:100-107 *)
Definition kinc_grad_m (c : option R) (m F : R) : R := grad_at_phi_zero c (fun c =>
  let mm := 1 - m in
  where_ (negb (same m 0)) (((ellipeinc c m - mm * F) / m - sqrt ((c - 1) / (c - m) / c)) / (2 * mm)) ((amplitude c - sqrt (c - 1) / c) / 4)).
(** ellip.py:118-124 *)
Definition einc_grad_m (c : option R) (m E : R) : R := grad_at_phi_zero c (fun c =>
  where_ (negb (same m 0)) ((E - ellipkinc c m) / m / 2) ((sqrt (c - 1) / c - amplitude c) / 4)).
(** ellip.py:135-141 *)
Definition dinc_grad_m (c : option R) (m D : R) : R := grad_at_phi_zero c (fun c =>
  where_ (negb (same m 0)) (((m - 2) * D + ellipkinc c m - sqrt ((c - 1) / (c - m) / c)) / (2 * m * (1 - m))) ((3 * amplitude c - (2 + 3 * c) * sqrt (c - 1) / c ^ 2) / 16)).
(** ellip.py:152-158 *)
Definition piinc_grad_n (n : R) (c : option R) (m Pi : R) : R := grad_at_phi_zero c (fun c =>
  let mn := m - n in
  (ellipeinc c m + mn / n * ellipkinc c m + (n - m / n) * Pi - n * sqrt ((c - 1) * (c - m) / (c - n) ^ 2 / c)) / (2 * mn * (n - 1))).
(** ellip.py:160-166 *)
Definition piinc_grad_m (n : R) (c : option R) (m Pi : R) : R := grad_at_phi_zero c (fun c =>
  let m1 := m - 1 in
  (ellipeinc c m + m1 * Pi - m * sqrt ((c - 1) / (c - m) / c)) / (2 * (n - m) * m1)).
End Legendre.
