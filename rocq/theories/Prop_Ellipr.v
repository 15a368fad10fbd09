(** * C55: the elliptic extension computes Carlson's and Legendre's integrals *)
From Coq Require Import Reals Lra Lia Psatz Bool.
From Coquelicot Require Import Rcomplements Hierarchy Derive RInt RInt_analysis AutoDerive ElemFct.
From Verif Require Import EllipSpec Improper Ellipr CarlsonDup CarlsonTail CarlsonLoop CarlsonRC CarlsonRJ Legendre EllipMain.
Open Scope R_scope.

Lemma eps_weaken eps c r v : 0 < eps <= 1 -> 0 <= c <= 1 -> 0 < v -> Rabs (r - v) <= c * EPS eps * v -> Rabs (r - v) <= eps / 10 ^ 6 * v.
Proof.
  intros He Hc Hv B. eapply Rle_trans; [exact B|]. change (eps / 10 ^ 6) with (EPS eps). pose proof (EPS_range eps He). apply Rmult_le_compat_r; [lra|]. nra.
Qed.

(** R_F of three numbers that are not negative, at most one of them zero: the loop ends, and the result is within a relative error of eps/10^6 of the integral. *)
Theorem C55_elliprf eps x y z : 0 < eps <= 1 -> 0 <= x -> 0 <= y -> 0 <= z -> 0 < x + y -> 0 < x + z -> 0 < y + z ->
  exists N r v, (forall fuel, (N <= fuel)%nat -> elliprf eps fuel x y z = Some (Num r)) /\ carlson_RF x y z v /\ 0 < v /\ Rabs (r - v) <= eps / 10 ^ 6 * v.
Proof.
  intros He X Y Z XY XZ YZ. destruct (rf_full eps x y z He ltac:(unfold one0; lra)) as (r & v & (N & G) & V & P & B). exists N, r, v. split; [exact G|]. split; [exact V|]. split; [exact P|]. apply (eps_weaken eps (3 / 10)); try assumption; lra.
Qed.
Print Assumptions C55_elliprf.
(** With two or three zeros: the result is infinity, and the integral diverges. *)
Theorem C55_elliprf_infinite eps fuel x : 0 <= x ->
  elliprf eps fuel x 0 0 = Some Infinity /\ elliprf eps fuel 0 x 0 = Some Infinity /\ elliprf eps fuel 0 0 x = Some Infinity /\
  ~ (exists v, carlson_RF x 0 0 v) /\ ~ (exists v, carlson_RF 0 x 0 v) /\ ~ (exists v, carlson_RF 0 0 x v).
Proof.
  intros Hx. assert (C : forall a, elliprc eps fuel a 0 = Some Infinity). { intros a. unfold elliprc, elliprc_pos. rewrite (proj2 (gtb_false 0 0) (Rle_refl 0)), (proj2 (isz_true 0) eq_refl). reflexivity. }
  assert (E0 : eqb 0 0 = true) by (apply eqb_true; reflexivity).
  assert (D : ~ exists v, carlson_RF x 0 0 v).
  { assert (S1 : 0 < sqrt (1 + x)) by (apply sqrt_lt_R0; lra). apply (diverges _ (/ (2 * sqrt (1 + x)))).
    - apply Rinv_0_lt_compat. lra.
    - intros t Ht. assert (0 < sqrt (t + x)) by (apply sqrt_lt_R0; lra). rewrite Rplus_0_r, Rmult_assoc, sqrt_sqrt by lra. apply Rlt_le, Rdiv_lt_0_compat; [lra|]. apply Rmult_lt_0_compat; [lra|]. apply Rmult_lt_0_compat; lra.
    - intros t Ht. assert (P : 0 < sqrt (t + x)) by (apply sqrt_lt_R0; lra). assert (L : sqrt (t + x) <= sqrt (1 + x)) by (apply sqrt_le_1_alt; lra). rewrite Rplus_0_r, Rmult_assoc, sqrt_sqrt by lra.
      replace (1 / (2 * (sqrt (t + x) * t))) with (/ (2 * sqrt (t + x)) / t) by (field; lra). unfold Rdiv. apply Rmult_le_compat_r; [left; apply Rinv_0_lt_compat; lra|]. apply Rinv_le_contravar; lra. }
  split; [unfold elliprf; rewrite E0; apply C|]. split; [|split].
  - unfold elliprf. destruct (eqb x 0) eqn:E; [apply eqb_true in E; subst x; apply C|]. rewrite E0. apply C.
  - unfold elliprf. destruct (eqb 0 x) eqn:E; [apply eqb_true in E; subst x; apply C|]. rewrite E0. apply C.
  - split; [exact D|]. split; intros (v & V); apply D; exists v; [apply RF_swap12, V|apply RF_swap12, RF_swap23, V].
Qed.
Print Assumptions C55_elliprf_infinite.

(** R_C, for a positive second argument *)
Theorem C55_elliprc eps x y : 0 < eps <= 1 -> 0 <= x -> 0 < y ->
  exists N r v, (forall fuel, (N <= fuel)%nat -> elliprc eps fuel x y = Some (Num r)) /\ carlson_RC x y v /\ 0 < v /\ Rabs (r - v) <= eps / 10 ^ 6 * v.
Proof.
  intros He X Y. destruct (rc_full eps x y He X Y) as (r & v & (N & G) & V & P & B). exists N, r, v. split; [exact G|]. split; [exact V|]. split; [exact P|]. apply (eps_weaken eps (3 / 10)); try assumption; lra.
Qed.
Print Assumptions C55_elliprc.
(** R_C, for a negative second argument: Cauchy's principal value *)
Theorem C55_elliprc_pv eps x y : 0 < eps <= 1 -> 0 < x -> y < 0 ->
  exists N r v, (forall fuel, (N <= fuel)%nat -> elliprc eps fuel x y = Some (Num r)) /\ carlson_RC_pv x y v /\ 0 < v /\ Rabs (r - v) <= eps / 10 ^ 6 * v.
Proof.
  intros He X Y. destruct (rc_pv eps x y He X Y) as (r & v & (N & G) & V & P & B). exists N, r, v. split; [exact G|]. split; [exact V|]. split; [exact P|]. apply (eps_weaken eps (3 / 10)); try assumption; lra.
Qed.
Print Assumptions C55_elliprc_pv.
(** ... but not at x = 0 with a negative second argument, where the result is not real although the function is *)
Theorem C55_elliprc_pv_zero_refuted eps fuel y : y < 0 -> elliprc eps fuel 0 y = Some NotReal.
Proof. intros Hy. unfold elliprc. rewrite (proj2 (gtb_true 0 y) Hy), (proj2 (isz_true 0) eq_refl). reflexivity. Qed.
Print Assumptions C55_elliprc_pv_zero_refuted.

(** R_D *)
Theorem C55_elliprd eps x y z : 0 < eps <= 1 -> 0 <= x -> 0 <= y -> 0 < x + y -> 0 < z ->
  exists N r v, (forall fuel, (N <= fuel)%nat -> elliprd eps fuel x y z = Some (Num r)) /\ carlson_RD x y z v /\ 0 < v /\ Rabs (r - v) <= 5 / 4 * (eps / 10 ^ 6) * v.
Proof.
  intros He X Y XY Z. destruct (rd_main eps x y z He ltac:(unfold one0; lra) Z) as (r & v & (N & G) & V & P & B). exists N, r, v. split; [exact G|]. split; [exact V|]. split; [exact P|exact B].
Qed.
Print Assumptions C55_elliprd.
(** R_J, for a last argument different from the first three *)
Theorem C55_elliprj eps x y z p : 0 < eps <= / 2 ^ 22 -> 0 <= x -> 0 <= y -> 0 <= z -> 0 < x + y -> 0 < x + z -> 0 < y + z -> 0 < p -> p <> x -> p <> y -> p <> z ->
  exists N r v, (forall fuel, (N <= fuel)%nat -> elliprj eps fuel x y z p = Some (Num r)) /\ carlson_RJ x y z p v /\ 0 < v /\ Rabs (r - v) <= 1280 * eps * v.
Proof.
  intros He X Y Z XY XZ YZ Hp PX PY PZ. destruct (rj_main eps x y z p He ltac:(unfold one0; lra) Hp PX PY PZ) as (r & v & (N & G) & V & P & B). exists N, r, v. split; [exact G|]. split; [exact V|]. split; [exact P|exact B].
Qed.
Print Assumptions C55_elliprj.
(** R_J when the last argument equals one of the others: not a number, although the integral exists (unless the arguments are so close that no iteration is made). *)
Theorem C55_elliprj_equal_refuted eps x y z p : 0 < eps <= / 2 ^ 22 -> 0 <= x -> 0 <= y -> 0 <= z -> 0 < x + y -> 0 < x + z -> 0 < y + z -> 0 < p -> p = x \/ p = y \/ p = z ->
  (x + y + z + 2 * p) / 5 / 2 <= Rmax (Rmax (Rabs ((x + y + z + 2 * p) / 5 - x)) (Rabs ((x + y + z + 2 * p) / 5 - y))) (Rabs ((x + y + z + 2 * p) / 5 - z)) ->
  exists N, forall fuel, (N <= fuel)%nat -> elliprj eps fuel x y z p = Some NaN.
Proof.
  intros He X Y Z XY XZ YZ Hp Eq HQ. apply rj_nan; [unfold one0; lra|exact Hp|exact Eq|]. replace (x + y + z + 2 * p) with (x + y + z + p + p) in HQ by ring. set (A0 := (x + y + z + p + p) / 5) in *. unfold Q_rj. set (e := / 4 * eps * 2 ^ 10).
  assert (Ee : 0 < e <= (1 / 2) ^ 6) by (unfold e; lra). assert (E2 : 2 <= Rpower e (- 1 / 6)). { replace (- 1 / 6) with (- (1 / 6)) by field. rewrite Rpower_Ropp. assert (L : Rpower e (1 / 6) <= 1 / 2) by (apply root6_le; lra). assert (P : 0 < Rpower e (1 / 6)) by (unfold Rpower; apply exp_pos). replace 2 with (/ (1 / 2)) by field. apply Rinv_le_contravar; assumption. }
  assert (L : A0 / 2 <= Rmax (Rmax (Rmax (Rabs (A0 - x)) (Rabs (A0 - y))) (Rabs (A0 - z))) (Rabs (A0 - p))) by (eapply Rle_trans; [exact HQ|apply Rmax4_3]). assert (P0 : 0 < A0) by (unfold A0; lra). set (M := Rmax _ _) in *. clearbody M. nra.
Qed.
Print Assumptions C55_elliprj_equal_refuted.
(** Where the result is infinity: the integrals diverge. *)
Theorem C55_elliprj_infinite eps fuel x y z p : 0 <= x -> 0 <= y -> 0 <= z -> 0 <= p -> p = 0 \/ (x = 0 /\ y = 0) \/ (x = 0 /\ z = 0) \/ (y = 0 /\ z = 0) ->
  elliprj eps fuel x y z p = Some Infinity /\ ~ (exists v, carlson_RJ x y z p v) /\ (z = p -> elliprd eps fuel x y z = Some Infinity).
Proof.
  intros X Y Z P Cs. assert (O0 : isz 0 = true) by (apply isz_true; reflexivity).
  assert (N : (isz p || Nat.ltb 1 (nz x y z))%bool = true).
  { unfold nz. destruct Cs as [->|[(-> & ->)|[(-> & ->)|(-> & ->)]]]; rewrite ?O0; cbn; [reflexivity| | |]; apply orb_true_iff; right; [destruct (isz z)|destruct (isz y)|destruct (isz x)]; reflexivity. }
  split; [unfold elliprj; rewrite N; reflexivity|]. split; [|intros <-; unfold elliprd; rewrite N; reflexivity].
  set (K := fun a => sqrt (1 + a)). assert (K1 : forall a, 0 <= a -> 1 <= K a) by (intros a Ha; unfold K; rewrite <- sqrt_1 at 1; apply sqrt_le_1_alt; lra).
  assert (KS : forall a t, 0 <= a -> 0 < t < 1 -> 0 < sqrt (t + a) <= K a) by (intros a t Ha Ht; split; [apply sqrt_lt_R0; lra|unfold K; apply sqrt_le_1_alt; lra]).
  pose proof (K1 x X) as KX. pose proof (K1 y Y) as KY. pose proof (K1 z Z) as KZ. assert (C0 : 0 < 2 * (K x * K y * K z * (1 + p))) by (repeat apply Rmult_lt_0_compat; lra).
  apply (diverges _ (3 / (2 * (K x * K y * K z * (1 + p))))).
  - apply Rdiv_lt_0_compat; lra.
  - intros t Ht. apply Rlt_le, Rdiv_lt_0_compat; [lra|]. repeat apply Rmult_lt_0_compat; try lra; apply sqrt_lt_R0; lra.
  - intros t Ht. destruct (KS x t X Ht) as [x1 x2]. destruct (KS y t Y Ht) as [y1 y2]. destruct (KS z t Z Ht) as [z1 z2].
    assert (Pd : 0 < sqrt (t + x) * sqrt (t + y) * sqrt (t + z) * (t + p)) by (repeat apply Rmult_lt_0_compat; lra).
    assert (B : sqrt (t + x) * sqrt (t + y) * sqrt (t + z) * (t + p) <= t * (K x * K y * K z * (1 + p))).
    { assert (XY : sqrt (t + x) * sqrt (t + y) <= K x * K y) by (apply Rmult_le_compat; lra). assert (XZ : sqrt (t + x) * sqrt (t + z) <= K x * K z) by (apply Rmult_le_compat; lra). assert (YZ : sqrt (t + y) * sqrt (t + z) <= K y * K z) by (apply Rmult_le_compat; lra).
      assert (Q : sqrt t * sqrt t = t) by (apply sqrt_sqrt; lra). pose proof (sqrt_pos t).
      destruct Cs as [E|[(E1 & E2)|[(E1 & E2)|(E1 & E2)]]].
      - subst p. rewrite !Rplus_0_r, Rmult_1_r, (Rmult_comm t). apply Rmult_le_compat_r; [lra|]. apply Rmult_le_compat; try lra. apply Rmult_le_pos; lra.
      - subst x y. rewrite !Rplus_0_r, Q in *. replace (t * (K 0 * K 0 * K z * (1 + p))) with (t * (K 0 * K 0 * K z) * (1 + p)) by ring. apply Rmult_le_compat; try lra; [apply Rmult_le_pos; lra|]. apply Rmult_le_compat_l; [lra|]. apply Rle_trans with (1 * K z); [lra|]. apply Rmult_le_compat_r; [lra|]. nra.
      - subst x z. rewrite !Rplus_0_r in *. replace (sqrt t * sqrt (t + y) * sqrt t) with (t * sqrt (t + y)) by (rewrite <- Q at 1; ring). replace (t * (K 0 * K y * K 0 * (1 + p))) with (t * (K 0 * K 0 * K y) * (1 + p)) by ring. apply Rmult_le_compat; try lra; [apply Rmult_le_pos; lra|]. apply Rmult_le_compat_l; [lra|]. apply Rle_trans with (1 * K y); [lra|]. apply Rmult_le_compat_r; [lra|]. nra.
      - subst y z. rewrite !Rplus_0_r in *. replace (sqrt (t + x) * sqrt t * sqrt t) with (t * sqrt (t + x)) by (rewrite <- Q at 1; ring). replace (t * (K x * K 0 * K 0 * (1 + p))) with (t * (K 0 * K 0 * K x) * (1 + p)) by ring. apply Rmult_le_compat; try lra; [apply Rmult_le_pos; lra|]. apply Rmult_le_compat_l; [lra|]. apply Rle_trans with (1 * K x); [lra|]. apply Rmult_le_compat_r; [lra|]. nra. }
    replace (3 / (2 * (K x * K y * K z * (1 + p))) / t) with (3 / 2 * / (t * (K x * K y * K z * (1 + p)))) by (field; repeat split; lra). unfold Rdiv at 2. replace (3 * / (2 * (sqrt (t + x) * sqrt (t + y) * sqrt (t + z) * (t + p)))) with (3 / 2 * / (sqrt (t + x) * sqrt (t + y) * sqrt (t + z) * (t + p))) by (field; repeat split; lra).
    apply Rmult_le_compat_l; [lra|]. apply Rinv_le_contravar; assumption.
Qed.
Print Assumptions C55_elliprj_infinite.
(** R_G, for all arguments that are not negative.  The errors of R_F and R_D enter with the weights of the formula. *)
Theorem C55_elliprg eps x y z : 0 < eps <= 1 -> 0 <= x -> 0 <= y -> 0 < x + y -> 0 < z ->
  exists N r F D v, (forall fuel, (N <= fuel)%nat -> elliprg eps fuel x y z = Some (Num r)) /\ carlson_RF x y z F /\ carlson_RD x y z D /\ carlson_RG x y z v /\
    Rabs (r - v) <= eps / 10 ^ 6 * (z * F + Rabs ((x - z) * (y - z)) * D).
Proof.
  intros He X Y XY Z. assert (H1 : one0 x y z) by (unfold one0; lra). destruct (rg_main eps x y z He H1 Z) as (r & F & D & v & (N & G) & VF & VD & VG & PF & PD & _ & B). exists N, r, F, D, v. split; [|split; [exact VF|split; [exact VD|split; [exact VG|]]]].
  - intros fuel Hf. unfold elliprg. pose proof (nz_one0 x y z H1) as L. apply Nat.ltb_ge in L. destruct (nz x y z) as [|[|n]]; [apply G, Hf| |lia]. rewrite (proj2 (isz_false z) ltac:(lra)). apply G, Hf.
  - eapply Rle_trans; [exact B|]. change (eps / 10 ^ 6) with (EPS eps). pose proof (EPS_range eps He). apply Rmult_le_compat_l; [lra|]. assert (0 <= z * F) by (apply Rmult_le_pos; lra). assert (0 <= Rabs ((x - z) * (y - z)) * D) by (apply Rmult_le_pos; [apply Rabs_pos|lra]). lra.
Qed.
Print Assumptions C55_elliprg.
Theorem C55_elliprg_last_zero eps x y : 0 < eps <= 1 -> 0 < x -> 0 < y ->
  exists N r F D v, (forall fuel, (N <= fuel)%nat -> elliprg eps fuel x y 0 = Some (Num r)) /\ carlson_RF 0 y x F /\ carlson_RD 0 y x D /\ carlson_RG x y 0 v /\
    Rabs (r - v) <= eps / 10 ^ 6 * (x * F + Rabs (x * (y - x)) * D).
Proof.
  intros He X Y. assert (H1 : one0 0 y x) by (unfold one0; lra). destruct (rg_main eps 0 y x He H1 X) as (r & F & D & v & (N & G) & VF & VD & VG & PF & PD & _ & B). exists N, r, F, D, v. split; [|split; [exact VF|split; [exact VD|split; [apply RG_swap13, VG|]]]].
  - intros fuel Hf. unfold elliprg, nz. rewrite (proj2 (isz_false x) ltac:(lra)), (proj2 (isz_false y) ltac:(lra)), (proj2 (isz_true 0) eq_refl). apply G, Hf.
  - eapply Rle_trans; [exact B|]. change (eps / 10 ^ 6) with (EPS eps). pose proof (EPS_range eps He). replace (Rabs ((0 - x) * (y - x))) with (Rabs (x * (y - x))) by (rewrite <- Rabs_Ropp; f_equal; ring). apply Rmult_le_compat_l; [lra|]. assert (0 <= x * F) by (apply Rmult_le_pos; lra). assert (0 <= Rabs (x * (y - x)) * D) by (apply Rmult_le_pos; [apply Rabs_pos|lra]). lra.
Qed.
Print Assumptions C55_elliprg_last_zero.
Theorem C55_elliprg_zeros eps fuel x : 0 < x ->
  (elliprg eps fuel x 0 0 = Some (Num (sqrt x / 2)) /\ carlson_RG x 0 0 (sqrt x / 2)) /\ (elliprg eps fuel 0 x 0 = Some (Num (sqrt x / 2)) /\ carlson_RG 0 x 0 (sqrt x / 2)) /\
  (elliprg eps fuel 0 0 x = Some (Num (sqrt x / 2)) /\ carlson_RG 0 0 x (sqrt x / 2)) /\ elliprg eps fuel 0 0 0 = Some (Num 0) /\ carlson_RG 0 0 0 0.
Proof.
  intros Hx. pose proof (RG_one x Hx) as V. unfold elliprg, nz. rewrite (proj2 (isz_false x) ltac:(lra)), (proj2 (isz_true 0) eq_refl). cbn [Nat.b2n Nat.add].
  split; [split; [reflexivity|exact V]|]. split; [split; [reflexivity|apply RG_swap12, V]|]. split; [split; [reflexivity|apply RG_swap13, V]|]. split; [|apply RG_zero]. repeat f_equal. ring.
Qed.
Print Assumptions C55_elliprg_zeros.

(** ** Legendre's integrals *)
Lemma at_phi_in phi f : 0 < phi <= PI / 2 -> at_phi f phi = f (csq phi).
Proof.
  intros Hp. unfold at_phi, csc2. pose proof (sin_phi phi Hp) as [S1 _]. rewrite (proj2 (isz_false (sin phi)) ltac:(lra)). reflexivity.
Qed.
Lemma csq_half : csq (PI / 2) = 1.
Proof. unfold csq. rewrite sin_PI2. field. Qed.
Lemma half_ok : 0 < PI / 2 <= PI / 2.
Proof. pose proof PI_RGT_0. lra. Qed.
Lemma half_lt a : a < 1 -> a * (sin (PI / 2)) ^ 2 < 1.
Proof. rewrite sin_PI2. lra. Qed.
Lemma one0_l phi m : 0 < phi <= PI / 2 -> m * (sin phi) ^ 2 < 1 -> one0 (csq phi - 1) (csq phi - m) (csq phi) /\ 0 < csq phi.
Proof.
  intros Hp Hm. pose proof (csq_ge phi Hp) as C. pose proof (proj1 (lin_csq phi Hp m) Hm) as C2. split; [|lra]. unfold one0. repeat split; lra.
Qed.

(** The incomplete integrals, for 0 < phi <= PI/2 *)
Theorem C55_ellipkinc eps phi m : 0 < eps <= 1 -> 0 < phi <= PI / 2 -> m * (sin phi) ^ 2 < 1 ->
  exists N r v, (forall fuel, (N <= fuel)%nat -> ellipkinc eps fuel phi m = Some (Num r)) /\ legendre_F phi m v /\ 0 < v /\ Rabs (r - v) <= eps / 10 ^ 6 * v.
Proof.
  intros He Hp Hm. destruct (one0_l phi m Hp Hm) as [H1 _]. destruct (rf_full eps _ _ _ He H1) as (r & v & (N & G) & V & P & B). exists N, r, v.
  split; [intros fuel Hf; unfold ellipkinc; rewrite at_phi_in by exact Hp; apply G, Hf|]. split; [apply F_int; assumption|]. split; [exact P|]. apply (eps_weaken eps (3 / 10)); try assumption; lra.
Qed.
Print Assumptions C55_ellipkinc.
Theorem C55_ellipdinc eps phi m : 0 < eps <= 1 -> 0 < phi <= PI / 2 -> m * (sin phi) ^ 2 < 1 ->
  exists N r v, (forall fuel, (N <= fuel)%nat -> ellipdinc eps fuel phi m = Some (Num r)) /\ legendre_D phi m v /\ 0 < v /\ Rabs (r - v) <= 5 / 4 * (eps / 10 ^ 6) * v.
Proof.
  intros He Hp Hm. destruct (one0_l phi m Hp Hm) as [H1 Pc]. destruct (rd_main eps _ _ _ He H1 Pc) as (r & v & (N & G) & V & P & B). exists N, (r / 3), (v / 3).
  split; [intros fuel Hf; unfold ellipdinc; rewrite at_phi_in by exact Hp; unfold ellipdinc_; rewrite (G fuel Hf); reflexivity|]. split; [apply D_int; assumption|]. split; [lra|].
  replace (r / 3 - v / 3) with ((r - v) / 3) by field. unfold Rdiv at 1. rewrite Rabs_mult, (Rabs_right (/ 3)) by lra. change (eps / 10 ^ 6) with (EPS eps). replace (5 / 4 * EPS eps * (v / 3)) with (5 / 4 * EPS eps * v * / 3) by field. apply Rmult_le_compat_r; [lra|exact B].
Qed.
Print Assumptions C55_ellipdinc.
(** The second kind: the errors of F and D enter with the weights of E = F - m D. *)
Theorem C55_ellipeinc eps phi m : 0 < eps <= 1 -> 0 < phi <= PI / 2 -> m * (sin phi) ^ 2 < 1 ->
  exists N r F D v, (forall fuel, (N <= fuel)%nat -> ellipeinc eps fuel phi m = Some (Num r)) /\ legendre_F phi m F /\ legendre_D phi m D /\ legendre_E phi m v /\
    Rabs (r - v) <= eps / 10 ^ 6 * (F + 5 / 4 * Rabs m * D).
Proof.
  intros He Hp Hm. destruct (C55_ellipkinc eps phi m He Hp Hm) as (N & r & F & G & V & P & B). destruct (C55_ellipdinc eps phi m He Hp Hm) as (N' & r' & D & G' & V' & P' & B').
  exists (max N N'), (r - m * r'), F, D, (F - m * D). split; [|split; [exact V|split; [exact V'|split; [apply E_int; assumption|]]]].
  - intros fuel Hf. specialize (G fuel ltac:(lia)). specialize (G' fuel ltac:(lia)). unfold ellipkinc in G. unfold ellipdinc in G'. unfold ellipeinc. rewrite at_phi_in in * by exact Hp. unfold ellipkinc_ in G. unfold ellipeinc_.
    replace (eqb (csq phi) 1 && eqb m 1)%bool with false; [rewrite G, G'; reflexivity|]. symmetry. apply andb_false_iff. destruct (Req_dec (csq phi) 1) as [E|Ne]; [right|left; apply eqb_false, Ne]. apply eqb_false. pose proof (proj1 (lin_csq phi Hp m) Hm). lra.
  - replace (r - m * r' - (F - m * D)) with ((r - F) - m * (r' - D)) by ring. apply Rle_trans with (eps / 10 ^ 6 * F + Rabs m * (5 / 4 * (eps / 10 ^ 6) * D)); [apply abs_sub; [exact B|]|].
    + rewrite Rabs_mult. apply Rmult_le_compat_l; [apply Rabs_pos|exact B'].
    + apply Req_le. ring.
Qed.
Print Assumptions C55_ellipeinc.

(** The third kind, for a characteristic n different from 0, 1 and m *)
Theorem C55_ellippiinc eps n phi m : 0 < eps <= / 2 ^ 22 -> 0 < phi <= PI / 2 -> m * (sin phi) ^ 2 < 1 -> n * (sin phi) ^ 2 < 1 -> n <> 0 -> n <> 1 -> n <> m ->
  exists N r F v, (forall fuel, (N <= fuel)%nat -> ellippiinc eps fuel n phi m = Some (Num r)) /\ legendre_F phi m F /\ legendre_Pi n phi m v /\
    Rabs (r - v) <= eps / 10 ^ 6 * F + 1280 * eps * Rabs (v - F).
Proof.
  intros He Hp Hm Hn N0 N1 Nm. assert (He' : 0 < eps <= 1) by (split; [|apply Rle_trans with (/ 2 ^ 22)]; lra). destruct (one0_l phi m Hp Hm) as [H1 _]. destruct (C55_ellipkinc eps phi m He' Hp Hm) as (N & r & F & G & V & P & B). pose proof (proj1 (lin_csq phi Hp n) Hn) as C3.
  destruct (rj_main eps (csq phi - 1) (csq phi - m) (csq phi) (csq phi - n) He H1 C3) as (j & w & (N' & G') & V' & P' & B'); [lra|lra|lra|].
  exists (max N N'), (r + n / 3 * j), F, (F + n / 3 * w). split; [|split; [exact V|split; [apply Pi_int; assumption|]]].
  - intros fuel Hf. specialize (G fuel ltac:(lia)). specialize (G' fuel ltac:(lia)). unfold ellipkinc in G. unfold ellippiinc. rewrite at_phi_in in * by exact Hp. unfold ellippiinc_. rewrite (proj2 (isz_false n) N0), G, G'. reflexivity.
  - replace (r + n / 3 * j - (F + n / 3 * w)) with ((r - F) + n / 3 * (j - w)) by ring. replace (F + n / 3 * w - F) with (n / 3 * w) by ring. apply abs_add; [exact B|]. rewrite !Rabs_mult, (Rabs_right w) by lra. replace (1280 * eps * (Rabs (n / 3) * w)) with (Rabs (n / 3) * (1280 * eps * w)) by ring. apply Rmult_le_compat_l; [apply Rabs_pos|exact B'].
Qed.
Print Assumptions C55_ellippiinc.
Theorem C55_ellippiinc_zero eps fuel phi m : ellippiinc eps fuel 0 phi m = ellipkinc eps fuel phi m /\ (forall v, legendre_Pi 0 phi m v <-> legendre_F phi m v).
Proof.
  split.
  - unfold ellippiinc, ellipkinc, at_phi. destruct (csc2 phi); try reflexivity. unfold ellippiinc_. rewrite (proj2 (isz_true 0) eq_refl). reflexivity.
  - intros v. unfold legendre_Pi, legendre_F. split; apply is_RInt_ext; intros t _; replace (1 - 0 * (sin t) ^ 2) with 1 by ring; rewrite Rmult_1_l; reflexivity.
Qed.
Print Assumptions C55_ellippiinc_zero.

(** The complete integrals: phi = PI/2 *)
Theorem C55_ellipk eps m : 0 < eps <= 1 -> m < 1 ->
  exists N r v, (forall fuel, (N <= fuel)%nat -> ellipk eps fuel m = Some (Num r)) /\ legendre_F (PI / 2) m v /\ 0 < v /\ Rabs (r - v) <= eps / 10 ^ 6 * v.
Proof.
  intros He Hm. destruct (C55_ellipkinc eps (PI / 2) m He half_ok (half_lt m Hm)) as (N & r & v & G & T). exists N, r, v. split; [|exact T]. intros fuel Hf. specialize (G fuel Hf). unfold ellipkinc in G. rewrite at_phi_in, csq_half in G by apply half_ok. unfold ellipkinc_ in G. rewrite Rminus_eq_0 in G. exact G.
Qed.
Print Assumptions C55_ellipk.
Theorem C55_ellipd eps m : 0 < eps <= 1 -> m < 1 ->
  exists N r v, (forall fuel, (N <= fuel)%nat -> ellipd eps fuel m = Some (Num r)) /\ legendre_D (PI / 2) m v /\ 0 < v /\ Rabs (r - v) <= 5 / 4 * (eps / 10 ^ 6) * v.
Proof.
  intros He Hm. destruct (C55_ellipdinc eps (PI / 2) m He half_ok (half_lt m Hm)) as (N & r & v & G & T). exists N, r, v. split; [|exact T]. intros fuel Hf. specialize (G fuel Hf). unfold ellipdinc in G. rewrite at_phi_in, csq_half in G by apply half_ok. unfold ellipdinc_ in G. rewrite Rminus_eq_0 in G. exact G.
Qed.
Print Assumptions C55_ellipd.
Theorem C55_ellipe eps m : 0 < eps <= 1 -> m < 1 ->
  exists N r F D v, (forall fuel, (N <= fuel)%nat -> ellipe eps fuel m = Some (Num r)) /\ legendre_F (PI / 2) m F /\ legendre_D (PI / 2) m D /\ legendre_E (PI / 2) m v /\
    Rabs (r - v) <= eps / 10 ^ 6 * (F + 5 / 4 * Rabs m * D).
Proof.
  intros He Hm. pose proof csq_half as C1. destruct (one0_l (PI / 2) m half_ok (half_lt m Hm)) as [H1 P1]. rewrite C1, Rminus_eq_0 in H1. destruct (rg_main eps _ _ _ He H1 ltac:(lra)) as (r & F & D & v & (N & G) & VF & VD & _ & PF & PD & Ev & B).
  assert (LF : legendre_F (PI / 2) m F) by (apply F_int; [apply half_ok|apply half_lt, Hm|rewrite C1, Rminus_eq_0; exact VF]). assert (LD : legendre_D (PI / 2) m (D / 3)) by (apply D_int; [apply half_ok|apply half_lt, Hm|rewrite C1, Rminus_eq_0; exact VD]).
  exists N, (2 * r), F, (D / 3), (F - m * (D / 3)). split; [|split; [exact LF|split; [exact LD|split; [apply E_int; [apply half_ok|apply half_lt, Hm|exact LF|exact LD]|]]]].
  - intros fuel Hf. unfold ellipe, elliprg, nz. rewrite (proj2 (isz_true 0) eq_refl), (proj2 (isz_false (1 - m)) ltac:(lra)), (proj2 (isz_false 1) ltac:(lra)). cbn [Nat.b2n Nat.add]. rewrite (G fuel Hf). reflexivity.
  - rewrite sqrt_0 in Ev. replace (F - m * (D / 3)) with (2 * v) by (rewrite Ev, sqrt_1; field). replace (2 * r - 2 * v) with (2 * (r - v)) by ring. rewrite Rabs_mult, (Rabs_right 2) by lra. replace ((0 - 1) * (1 - m - 1)) with m in B by ring. change (eps / 10 ^ 6) with (EPS eps). pose proof (EPS_range eps He) as [E0 _].
    apply Rle_trans with (2 * (EPS eps * (3 / 20 * (1 * F) + 5 / 24 * (Rabs m * D)))); [lra|]. replace (2 * (EPS eps * (3 / 20 * (1 * F) + 5 / 24 * (Rabs m * D)))) with (EPS eps * (3 / 10 * F + 5 / 12 * (Rabs m * D))) by field. apply Rmult_le_compat_l; [lra|]. replace (5 / 4 * Rabs m * (D / 3)) with (5 / 12 * (Rabs m * D)) by field. lra.
Qed.
Print Assumptions C55_ellipe.
Theorem C55_ellippi eps n m : 0 < eps <= / 2 ^ 22 -> m < 1 -> n < 1 -> n <> 0 -> n <> m ->
  exists N r F v, (forall fuel, (N <= fuel)%nat -> ellippi eps fuel n m = Some (Num r)) /\ legendre_F (PI / 2) m F /\ legendre_Pi n (PI / 2) m v /\
    Rabs (r - v) <= eps / 10 ^ 6 * F + 1280 * eps * Rabs (v - F).
Proof.
  intros He Hm Hn N0 Nm. destruct (C55_ellippiinc eps n (PI / 2) m He half_ok (half_lt m Hm) (half_lt n Hn) N0 ltac:(lra) Nm) as (N & r & F & v & G & T). exists N, r, F, v. split; [|exact T]. intros fuel Hf. specialize (G fuel Hf). unfold ellippiinc in G. rewrite at_phi_in, csq_half in G by apply half_ok. unfold ellippiinc_, ellipkinc_ in G. rewrite Rminus_eq_0 in G. exact G.
Qed.
Print Assumptions C55_ellippi.
(** The third kind with n = m: the loop's correction is 0/0 and the result is not a number, although the integral exists. *)
Theorem C55_ellippi_equal_refuted eps m : 0 < eps <= / 2 ^ 22 -> m < 1 -> m <> 0 ->
  (exists N, forall fuel, (N <= fuel)%nat -> ellippi eps fuel m m = Some NaN) /\ exists v, legendre_Pi m (PI / 2) m v.
Proof.
  intros He Hm N0. assert (He' : 0 < eps <= 1) by (split; [|apply Rle_trans with (/ 2 ^ 22)]; lra). destruct (C55_ellipk eps m He' Hm) as (N & r & v & G & _).
  destruct (C55_elliprj_equal_refuted eps 0 (1 - m) 1 (1 - m) He) as (N' & G'); try lra.
  - apply Rle_trans with (Rabs ((0 + (1 - m) + 1 + 2 * (1 - m)) / 5 - 0)); [|eapply Rle_trans; [apply Rmax_l|apply Rmax_l]]. rewrite Rminus_0_r, Rabs_right by lra. lra.
  - split.
    + exists (max N N'). intros fuel Hf. unfold ellippi. rewrite (proj2 (isz_false m) N0), G, G' by lia. reflexivity.
    + apply (ex_RInt_continuous (V := R_CompleteNormedModule)). intros th Ht. pose proof PI_RGT_0. rewrite Rmin_left, Rmax_right in Ht by lra. pose proof (lin_ge (PI / 2) half_ok m th (half_lt m Hm) Ht) as L. pose proof (min_pos (PI / 2) m (half_lt m Hm)) as L0.
      apply (ex_derive_continuous (fun th => 1 / ((1 - m * (sin th) ^ 2) * sqrt (1 - m * (sin th) ^ 2))) th). auto_derive. replace (1 + - (m * (sin th * (sin th * 1)))) with (1 - m * sin th ^ 2) by ring. split; [lra|]. split; [|trivial]. apply Rmult_integral_contrapositive_currified; [lra|]. apply Rgt_not_eq, sqrt_lt_R0. lra.
Qed.
Print Assumptions C55_ellippi_equal_refuted.
(** m = 1: the complete integrals K and D are infinite and E is 1. *)
Theorem C55_complete_at_one eps fuel : ellipk eps fuel 1 = Some Infinity /\ ellipd eps fuel 1 = Some Infinity /\ ellipe eps fuel 1 = Some (Num 1) /\ legendre_E (PI / 2) 1 1.
Proof.
  unfold ellipk, ellipd, ellipe. rewrite Rminus_eq_0. split; [|split; [|split]].
  - apply (C55_elliprf_infinite eps fuel 1). lra.
  - unfold elliprd, nz. rewrite (proj2 (isz_true 0) eq_refl), (proj2 (isz_false 1) ltac:(lra)). reflexivity.
  - unfold elliprg, nz. rewrite (proj2 (isz_true 0) eq_refl), (proj2 (isz_false 1) ltac:(lra)). cbn [Nat.b2n Nat.add]. rewrite sqrt_1. repeat f_equal. field.
  - unfold legendre_E. pose proof PI_RGT_0. apply (is_RInt_ext cos).
    + intros t Ht. rewrite Rmin_left, Rmax_right in Ht by lra. pose proof (sin2_cos2 t) as S2. unfold Rsqr in S2. replace (1 - 1 * (sin t) ^ 2) with ((cos t) ^ 2) by (cbn; lra). rewrite sqrt_pow2; [reflexivity|]. apply cos_ge_0; lra.
    + replace 1 with (sin (PI / 2) - sin 0) by (rewrite sin_PI2, sin_0; ring). apply (is_RInt_derive (V := R_CompleteNormedModule) sin cos); intros t _; [apply is_derive_sin|]. apply continuity_pt_filterlim, continuity_cos.
Qed.
Print Assumptions C55_complete_at_one.
(** At a zero of the sine the incomplete functions return 0; that is the integral at phi = 0 but not at phi = PI. *)
Theorem C55_incomplete_at_zero eps fuel n m : ellipkinc eps fuel 0 m = Some (Num 0) /\ ellipeinc eps fuel 0 m = Some (Num 0) /\ ellipdinc eps fuel 0 m = Some (Num 0) /\ ellippiinc eps fuel n 0 m = Some (Num 0) /\
  legendre_F 0 m 0 /\ legendre_E 0 m 0 /\ legendre_D 0 m 0 /\ legendre_Pi n 0 m 0.
Proof.
  assert (C : csc2 0 = Infinity) by (unfold csc2; rewrite sin_0, (proj2 (isz_true 0) eq_refl); reflexivity). unfold ellipkinc, ellipeinc, ellipdinc, ellippiinc, at_phi. rewrite C. repeat split; apply (is_RInt_point (V := R_NormedModule)).
Qed.
Print Assumptions C55_incomplete_at_zero.

(** Only the square of the sine enters: the functions are even and have period PI in phi, whereas the integrals are odd and grow without bound.  So for -PI/2 <= phi < 0 the result has the wrong sign. *)
Theorem C55_incomplete_even eps fuel n phi m : ellipkinc eps fuel (- phi) m = ellipkinc eps fuel phi m /\ ellipeinc eps fuel (- phi) m = ellipeinc eps fuel phi m /\ ellipdinc eps fuel (- phi) m = ellipdinc eps fuel phi m /\ ellippiinc eps fuel n (- phi) m = ellippiinc eps fuel n phi m /\
  ellipkinc eps fuel (phi + PI) m = ellipkinc eps fuel phi m /\ ellipeinc eps fuel (phi + PI) m = ellipeinc eps fuel phi m /\ ellipdinc eps fuel (phi + PI) m = ellipdinc eps fuel phi m /\ ellippiinc eps fuel n (phi + PI) m = ellippiinc eps fuel n phi m.
Proof.
  assert (A : forall a, sin a = - sin phi -> csc2 a = csc2 phi). { intros a Ea. unfold csc2. rewrite Ea. replace ((- sin phi) ^ 2) with ((sin phi) ^ 2) by ring. destruct (Req_dec (sin phi) 0) as [E|E]; [rewrite E, Ropp_0; reflexivity|]. rewrite (proj2 (isz_false (sin phi)) E), (proj2 (isz_false (- sin phi)) ltac:(lra)). reflexivity. }
  pose proof (A (- phi) (sin_neg phi)) as A1. pose proof (A (phi + PI) (neg_sin phi)) as A2. unfold ellipkinc, ellipeinc, ellipdinc, ellippiinc, at_phi. rewrite A1, A2. repeat split.
Qed.
Print Assumptions C55_incomplete_even.
Lemma legendre_F_neg phi m v : legendre_F phi m v -> legendre_F (- phi) m (- v).
Proof.
  intros V. unfold legendre_F in *. assert (T : is_RInt (fun th => 1 / sqrt (1 - m * (sin th) ^ 2)) (- (- 0)) (- (- phi)) v) by (rewrite !Ropp_involutive; exact V). pose proof (is_RInt_comp_opp (V := R_NormedModule) _ (- 0) (- phi) v T) as T2. rewrite Ropp_0 in T2. apply (is_RInt_opp (V := R_NormedModule)) in T2. unfold opp in T2; cbn in T2.
  eapply is_RInt_ext; [|exact T2]. intros th _. cbn beta. rewrite sin_neg. req. rewrite Ropp_involutive. do 3 f_equal. ring.
Qed.
Theorem C55_negative_amplitude_refuted eps phi m : 0 < eps <= 1 -> 0 < phi <= PI / 2 -> m * (sin phi) ^ 2 < 1 ->
  exists N r v, (forall fuel, (N <= fuel)%nat -> ellipkinc eps fuel (- phi) m = Some (Num r)) /\ legendre_F (- phi) m v /\ v < 0 < r.
Proof.
  intros He Hp Hm. destruct (C55_ellipkinc eps phi m He Hp Hm) as (N & r & v & G & V & P & B). exists N, r, (- v). split; [|split; [apply legendre_F_neg, V|]].
  - intros fuel Hf. destruct (C55_incomplete_even eps fuel 0 phi m) as (E & _). rewrite E. apply G, Hf.
  - split; [lra|]. assert (L : eps / 10 ^ 6 * v <= v / 2) by (replace (v / 2) with (/ 2 * v) by field; apply Rmult_le_compat_r; lra). apply Rabs_le_inv in B || apply Rabs_le_between in B. lra.
Qed.
Print Assumptions C55_negative_amplitude_refuted.
(** ** Symmetry, exactly: the result of elliprf does not depend on the order of the arguments, elliprd on that of the first two, elliprj on that of the first three *)
Lemma while_map {St} (f : St -> St) c c' b b' : (forall s, c' (f s) = c s) -> (forall s, b' (f s) = f (b s)) -> forall fuel s, while fuel c' b' (f s) = option_map f (while fuel c b s).
Proof.
  intros Hc Hb. induction fuel as [|n IH]; intros s; cbn; rewrite Hc; destruct (c s); try reflexivity. rewrite Hb. apply IH.
Qed.
Definition swxy (s : st) : st := mkst (ym s) (xm s) (zm s) (Am s) (pow4 s) (acc s).
Definition swyz (s : st) : st := mkst (xm s) (zm s) (ym s) (Am s) (pow4 s) (acc s).
Lemma lam_xy x y z : lam y x z = lam x y z. Proof. unfold lam. ring. Qed.
Lemma lam_yz x y z : lam x z y = lam x y z. Proof. unfold lam. ring. Qed.
Lemma Q_xy e A x y z : Q_of e A y x z = Q_of e A x y z. Proof. unfold Q_of. rewrite (Rmax_comm (Rabs (A - y))). reflexivity. Qed.
Lemma Q_yz e A x y z : Q_of e A x z y = Q_of e A x y z. Proof. unfold Q_of. rewrite !(Rmax_assoc (Rabs (A - x))) || rewrite <- !(Rmax_assoc (Rabs (A - x))). rewrite (Rmax_comm (Rabs (A - z))). reflexivity. Qed.
Lemma rf_swxy eps fuel x y z : elliprf eps fuel y x z = elliprf eps fuel x y z.
Proof.
  unfold elliprf. destruct (Req_dec x y) as [->|Nxy]; [reflexivity|]. destruct (eqb x z) eqn:Exz; [apply eqb_true in Exz; subst z; rewrite (proj2 (eqb_false y x) ltac:(auto)); reflexivity|]. destruct (eqb y z) eqn:Eyz; [reflexivity|].
  rewrite (proj2 (eqb_false x y) Nxy), (proj2 (eqb_false y x) ltac:(auto)). replace (y + x + z) with (x + y + z) by ring. set (A0 := (x + y + z) / 3). rewrite Q_xy. change (mkst y x z A0 1 0) with (swxy (mkst x y z A0 1 0)).
  rewrite (while_map swxy (going (Q_of (EPS eps * 3) A0 x y z)) (going (Q_of (EPS eps * 3) A0 x y z)) (step (fun _ => 0)) (step (fun _ => 0))).
  - destruct (while fuel _ _ _) as [s|]; [|reflexivity]. cbn. unfold tail_rf. cbv zeta. do 2 f_equal. unfold Rdiv. ring.
  - reflexivity.
  - intros s. unfold step, swxy. cbn. rewrite lam_xy. reflexivity.
Qed.
Lemma rf_swyz eps fuel x y z : elliprf eps fuel x z y = elliprf eps fuel x y z.
Proof.
  unfold elliprf. destruct (Req_dec y z) as [->|Nyz]; [reflexivity|]. rewrite (proj2 (eqb_false y z) Nyz), (proj2 (eqb_false z y) ltac:(auto)). destruct (eqb x y) eqn:Exy; [apply eqb_true in Exy; subst y; rewrite (proj2 (eqb_false x z) Nyz); reflexivity|]. destruct (eqb x z) eqn:Exz; [reflexivity|].
  replace (x + z + y) with (x + y + z) by ring. set (A0 := (x + y + z) / 3). rewrite Q_yz. change (mkst x z y A0 1 0) with (swyz (mkst x y z A0 1 0)).
  rewrite (while_map swyz (going (Q_of (EPS eps * 3) A0 x y z)) (going (Q_of (EPS eps * 3) A0 x y z)) (step (fun _ => 0)) (step (fun _ => 0))).
  - destruct (while fuel _ _ _) as [s|]; [|reflexivity]. cbn. unfold tail_rf. assert (E : (A0 - z) * (pow4 s / Am s) = - ((A0 - x) * (pow4 s / Am s) + (A0 - y) * (pow4 s / Am s))) by (generalize (pow4 s / Am s); intros; unfold A0; field). rewrite E. cbv zeta. do 2 f_equal. unfold Rdiv. ring.
  - reflexivity.
  - intros s. unfold step, swyz. cbn. rewrite lam_yz. reflexivity.
Qed.
Lemma rd_swxy eps fuel x y z : elliprd eps fuel y x z = elliprd eps fuel x y z.
Proof.
  unfold elliprd. replace (nz y x z) with (nz x y z) by (unfold nz; lia). destruct (isz z || Nat.ltb 1 (nz x y z))%bool; [reflexivity|]. replace (y + x + 3 * z) with (x + y + 3 * z) by ring. set (A0 := (x + y + 3 * z) / 5). rewrite Q_xy. change (mkst y x z A0 1 0) with (swxy (mkst x y z A0 1 0)).
  rewrite (while_map swxy (going (Q_of (EPS eps * (1 / 4)) A0 x y z)) (going (Q_of (EPS eps * (1 / 4)) A0 x y z)) (step add_rd) (step add_rd)).
  - destruct (while fuel _ _ _) as [s|]; [|reflexivity]. cbn -[Rmult]. unfold tail_rd. cbv zeta. do 2 f_equal. unfold Rdiv. ring.
  - reflexivity.
  - intros s. unfold step, swxy, add_rd. cbn. rewrite lam_xy. reflexivity.
Qed.
Definition jxy (s : stj) : stj := mkstj (jy s) (jx s) (jz s) (jp s) (jA s) (jpow4 s) (jm s) (jacc s).
Definition jyz (s : stj) : stj := mkstj (jx s) (jz s) (jy s) (jp s) (jA s) (jpow4 s) (jm s) (jacc s).
Lemma step_jxy d s : step_rj d (jxy s) = jxy (step_rj d s).
Proof.
  unfold step_rj, jxy. cbn -[pow Nat.mul]. replace (sqrt (jy s) * sqrt (jx s) + sqrt (jy s) * sqrt (jz s) + sqrt (jx s) * sqrt (jz s)) with (sqrt (jx s) * sqrt (jy s) + sqrt (jx s) * sqrt (jz s) + sqrt (jy s) * sqrt (jz s)) by ring.
  replace ((sqrt (jp s) + sqrt (jy s)) * (sqrt (jp s) + sqrt (jx s)) * (sqrt (jp s) + sqrt (jz s))) with ((sqrt (jp s) + sqrt (jx s)) * (sqrt (jp s) + sqrt (jy s)) * (sqrt (jp s) + sqrt (jz s))) by ring. reflexivity.
Qed.
Lemma step_jyz d s : step_rj d (jyz s) = jyz (step_rj d s).
Proof.
  unfold step_rj, jyz. cbn -[pow Nat.mul]. replace (sqrt (jx s) * sqrt (jz s) + sqrt (jx s) * sqrt (jy s) + sqrt (jz s) * sqrt (jy s)) with (sqrt (jx s) * sqrt (jy s) + sqrt (jx s) * sqrt (jz s) + sqrt (jy s) * sqrt (jz s)) by ring.
  replace ((sqrt (jp s) + sqrt (jx s)) * (sqrt (jp s) + sqrt (jz s)) * (sqrt (jp s) + sqrt (jy s))) with ((sqrt (jp s) + sqrt (jx s)) * (sqrt (jp s) + sqrt (jy s)) * (sqrt (jp s) + sqrt (jz s))) by ring. reflexivity.
Qed.
Lemma Qj_xy eps A x y z p : Q_rj eps A y x z p = Q_rj eps A x y z p. Proof. unfold Q_rj. rewrite (Rmax_comm (Rabs (A - y))). reflexivity. Qed.
Lemma Qj_yz eps A x y z p : Q_rj eps A x z y p = Q_rj eps A x y z p. Proof. unfold Q_rj. rewrite <- !(Rmax_assoc (Rabs (A - x))). rewrite (Rmax_comm (Rabs (A - z))). reflexivity. Qed.
Lemma rj_swxy eps fuel x y z p : elliprj eps fuel y x z p = elliprj eps fuel x y z p.
Proof.
  unfold elliprj. replace (nz y x z) with (nz x y z) by (unfold nz; lia). destruct (isz p || Nat.ltb 1 (nz x y z))%bool; [reflexivity|]. replace (y + x + z + p + p) with (x + y + z + p + p) by ring. replace ((p - y) * (p - x) * (p - z)) with ((p - x) * (p - y) * (p - z)) by ring. set (A0 := (x + y + z + p + p) / 5). set (dl := (p - x) * (p - y) * (p - z)). rewrite Qj_xy. change (mkstj y x z p A0 1 0 (Some 0)) with (jxy (mkstj x y z p A0 1 0 (Some 0))).
  rewrite (while_map jxy (fun s => geb (jpow4 s * Q_rj eps A0 x y z p) (Rabs (jA s))) (fun s => geb (jpow4 s * Q_rj eps A0 x y z p) (Rabs (jA s))) (step_rj dl) (step_rj dl) (fun s => eq_refl) (step_jxy dl)).
  destruct (while fuel _ _ _) as [s|]; [|reflexivity]. cbn -[Rmult]. destruct (jacc s); [|reflexivity]. unfold tail_rj. cbv zeta. do 2 f_equal. unfold Rdiv. ring.
Qed.
Lemma rj_swyz eps fuel x y z p : elliprj eps fuel x z y p = elliprj eps fuel x y z p.
Proof.
  unfold elliprj. replace (nz x z y) with (nz x y z) by (unfold nz; lia). destruct (isz p || Nat.ltb 1 (nz x y z))%bool; [reflexivity|]. replace (x + z + y + p + p) with (x + y + z + p + p) by ring. replace ((p - x) * (p - z) * (p - y)) with ((p - x) * (p - y) * (p - z)) by ring. set (A0 := (x + y + z + p + p) / 5). set (dl := (p - x) * (p - y) * (p - z)). rewrite Qj_yz. change (mkstj x z y p A0 1 0 (Some 0)) with (jyz (mkstj x y z p A0 1 0 (Some 0))).
  rewrite (while_map jyz (fun s => geb (jpow4 s * Q_rj eps A0 x y z p) (Rabs (jA s))) (fun s => geb (jpow4 s * Q_rj eps A0 x y z p) (Rabs (jA s))) (step_rj dl) (step_rj dl) (fun s => eq_refl) (step_jyz dl)).
  destruct (while fuel _ _ _) as [s|]; [|reflexivity]. cbn -[Rmult]. destruct (jacc s); [|reflexivity]. unfold tail_rj. cbv zeta. do 2 f_equal. unfold Rdiv. ring.
Qed.
(** All real arguments, any number of iterations *)
Theorem C55_symmetric eps fuel x y z p :
  elliprf eps fuel y x z = elliprf eps fuel x y z /\ elliprf eps fuel x z y = elliprf eps fuel x y z /\ elliprd eps fuel y x z = elliprd eps fuel x y z /\
  elliprj eps fuel y x z p = elliprj eps fuel x y z p /\ elliprj eps fuel x z y p = elliprj eps fuel x y z p.
Proof. split; [apply rf_swxy|]. split; [apply rf_swyz|]. split; [apply rd_swxy|]. split; [apply rj_swxy|apply rj_swyz]. Qed.
Print Assumptions C55_symmetric.

(** Cases that meet the hypotheses: double precision, elliprj(0, 1, 2, 3), ellippiinc(1/2, PI/4, 3/2) (m > 1), ellipk(-3). *)
Example C55_nonvacuous : 0 < / 2 ^ 52 <= / 2 ^ 22 /\ (exists r v, carlson_RJ 0 1 2 3 v /\ Rabs (r - v) <= 1280 * / 2 ^ 52 * v /\ exists N, elliprj (/ 2 ^ 52) N 0 1 2 3 = Some (Num r)) /\
  (exists r F v, legendre_Pi (/ 2) (PI / 4) (3 / 2) v /\ legendre_F (PI / 4) (3 / 2) F /\ Rabs (r - v) <= / 2 ^ 52 / 10 ^ 6 * F + 1280 * / 2 ^ 52 * Rabs (v - F) /\ exists N, ellippiinc (/ 2 ^ 52) N (/ 2) (PI / 4) (3 / 2) = Some (Num r)) /\
  (exists r v, legendre_F (PI / 2) (-3) v /\ Rabs (r - v) <= / 2 ^ 52 / 10 ^ 6 * v /\ exists N, ellipk (/ 2 ^ 52) N (-3) = Some (Num r)).
Proof.
  assert (E : 0 < / 2 ^ 52 <= / 2 ^ 22) by (split; [apply Rinv_0_lt_compat, pow_lt; lra|apply Rinv_le_contravar; [apply pow_lt; lra|apply Rle_pow; [lra|lia]]]). assert (E1 : 0 < / 2 ^ 52 <= 1) by (split; [apply E|apply Rle_trans with (/ 2 ^ 22); [apply E|lra]]).
  assert (Sq : (sin (PI / 4)) ^ 2 = / 2). { rewrite sin_PI4. unfold Rdiv. rewrite Rmult_1_l, pow_inv, pow2_sqrt; lra. } pose proof PI_RGT_0 as Pp.
  split; [exact E|]. split; [|split].
  - destruct (C55_elliprj (/ 2 ^ 52) 0 1 2 3 E ltac:(lra) ltac:(lra) ltac:(lra) ltac:(lra) ltac:(lra) ltac:(lra) ltac:(lra) ltac:(lra) ltac:(lra) ltac:(lra)) as (N & r & v & G & V & _ & B). exists r, v. split; [exact V|]. split; [exact B|]. exists N. apply G. lia.
  - destruct (C55_ellippiinc (/ 2 ^ 52) (/ 2) (PI / 4) (3 / 2) E ltac:(lra) ltac:(rewrite Sq; lra) ltac:(rewrite Sq; lra) ltac:(lra) ltac:(lra) ltac:(lra)) as (N & r & F & v & G & VF & V & B). exists r, F, v. split; [exact V|]. split; [exact VF|]. split; [exact B|]. exists N. apply G. lia.
  - destruct (C55_ellipk (/ 2 ^ 52) (-3) E1 ltac:(lra)) as (N & r & v & G & V & _ & B). exists r, v. split; [exact V|]. split; [exact B|]. exists N. apply G. lia.
Qed.
