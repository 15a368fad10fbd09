(** [digamma] is Lanczos's logarithmic derivative, and the reflection of it *)
From Coq Require Import List Arith ZArith Lia Bool Reals Lra Psatz.
From Coquelicot Require Import Rcomplements Hierarchy Continuity Derive AutoDerive ElemFct.
From Verif Require Import EllipSpec Improper GammaSpec GammaInt GammaFun Stirling Stirling2 Reflection GammaFn GammaFnSpec GammaFnFacts LanczosPoly Lanczos Digamma DigammaSpec.
Import ListNotations.
Open Scope R_scope.

(** ** The constants of digamma.h, times 10^25 *)
Definition dcs : list Z := [571562356658629235170000000; -595979603554754912480000000; 141360979747417471740000000; -4919138160976201997800000; 339946499848118886990; 465236289270485756650; -983744753048795646770; 1580887032249124888400; -2102644417241048831900; 2174396181152126432000; -1643181065367638902200; 844182239838527432930; -261908384015814086700; 36899182659531622704]%Z.
Definition dc0 : Z := 9999999999999970918200000%Z.
Definition DN : list Z := Eval vm_compute in padd (pscale dc0 (Qp 0 14)) (Pp dcs 0).
Lemma DN_def : DN = padd (pscale dc0 (Qp 0 14)) (Pp dcs 0).
Proof. vm_compute. reflexivity. Qed.
Definition dtau (x : R) : R := / (x + 1).
Lemma d_check : checks DN 543 128 14 [2; 3; 1]%Z 4 (10 ^ 15) nneg_half = true.
Proof. vm_compute. reflexivity. Qed.
Lemma ls_d : ls 543 128 = 543 / 128. Proof. reflexivity. Qed.
Lemma d_psi x : 1/2 <= x -> Rabs (lf DN 543 128 14 x - psi x) <= 425 / 10 ^ 17 / (x + 1).
Proof.
  intros Hx. eapply Rle_trans; [apply (lf_psi DN 543 128 14 [2; 3; 1]%Z dtau 4 (10 ^ 15) (25 / 10 ^ 17) nneg_half (1/2))|]; try lia; try lra.
  - reflexivity.
  - apply nneg_half_ok.
  - rewrite ls_d. lra.
  - intros y Hy. replace (ev [2; 3; 1]%Z y) with ((y + 1) * (y + 2)) by (cbn [ev]; ring). unfold dtau. split; [nra|]. split; [field; lra|left; apply Rinv_0_lt_compat; lra].
  - intros y Hy H2. rewrite ls_d. replace (ev [2; 3; 1]%Z y) with ((y + 1) * (y + 2)) by (cbn [ev]; ring). set (t := / (2 * y + 2 * (543 / 128) + 1)). assert (T : 0 < t <= 1/10). { unfold t. split; [apply Rinv_0_lt_compat; lra|]. replace (1/10) with (/ 10) by field. apply Rinv_le_contravar; lra. }
    assert (A : t * (y + 2) <= 1/2) by (unfold t; apply (Rmult_le_reg_l (2 * y + 2 * (543 / 128) + 1)); [lra|]; rewrite <- Rmult_assoc, Rinv_r by lra; lra). assert (A1 : 0 <= t * (y + 1) <= 1/2) by nra. assert (A2 : 0 <= t * (y + 2)) by nra.
    assert (T15 : 0 <= t ^ 15 <= / 10 ^ 15). { split; [apply pow_le; lra|]. rewrite <- pow_inv. apply pow_incr. lra. }
    replace ((y + 1) * (y + 2) * t ^ 17) with (t ^ 15 * (t * (y + 1) * (t * (y + 2)))) by ring. apply (Rle_trans _ (/ 10 ^ 15 * (1/4))); [|lra]. apply Rmult_le_compat; try lra; [apply Rmult_le_pos; lra|]. replace (1/4) with (1/2 * (1/2)) by field. apply Rmult_le_compat; lra.
  - exact d_check.
  - unfold lC, dtau. unfold Rdiv at 3. apply Rmult_le_compat_r; [left; apply Rinv_0_lt_compat; lra|]. replace (IZR (10 ^ 15)) with (10 ^ 15) by (rewrite pow_IZR; reflexivity). lra.
Qed.

(** ** The loop *)
Fixpoint gsum (f : nat -> R) (k : nat) : R := match k with O => 0 | S k' => f k' + gsum f k' end.
Lemma loop_sum k z d n : digamma_loop k z d n =
  (d + gsum (fun j => nth (S j) digamma_c 0 * / (z + INR j)) k, n - gsum (fun j => nth (S j) digamma_c 0 * (/ (z + INR j) * / (z + INR j))) k).
Proof.
  revert d n. induction k as [|k IH]; intros d n; cbn [digamma_loop gsum]; [f_equal; ring|]. cbv zeta. rewrite IH. replace (1 / (z + INR (S k) - 1)) with (/ (z + INR k)) by (rewrite S_INR; unfold Rdiv; rewrite Rmult_1_l; f_equal; ring). f_equal; ring.
Qed.
Lemma c_scaled : exists T, T = 10 ^ 25 /\ nth 0 digamma_c 0 * T = IZR dc0 /\ nth 1 digamma_c 0 * T = 571562356658629235170000000 /\ nth 2 digamma_c 0 * T = (-595979603554754912480000000) /\ nth 3 digamma_c 0 * T = 141360979747417471740000000 /\ nth 4 digamma_c 0 * T = (-4919138160976201997800000) /\ nth 5 digamma_c 0 * T = 339946499848118886990 /\ nth 6 digamma_c 0 * T = 465236289270485756650 /\ nth 7 digamma_c 0 * T = (-983744753048795646770) /\ nth 8 digamma_c 0 * T = 1580887032249124888400 /\ nth 9 digamma_c 0 * T = (-2102644417241048831900) /\ nth 10 digamma_c 0 * T = 2174396181152126432000 /\ nth 11 digamma_c 0 * T = (-1643181065367638902200) /\ nth 12 digamma_c 0 * T = 844182239838527432930 /\ nth 13 digamma_c 0 * T = (-261908384015814086700) /\ nth 14 digamma_c 0 * T = 36899182659531622704.
Proof. exists (10 ^ 25). unfold digamma_c, dc0. cbn [nth]. repeat split; lra. Qed.
Lemma loop_ok z : 0 < z -> exists d n, digamma_loop 14 z 0 0 = (d, n) /\ (d + nth 0 digamma_c 0) * (10 ^ 25 * ev (Qp 0 14) z) = ev DN z /\ n * 10 ^ 25 = pfd (map IZR dcs) 0 z /\ (d + nth 0 digamma_c 0) * 10 ^ 25 = IZR dc0 + pf (map IZR dcs) 0 z.
Proof.
  intros Hz. eexists; eexists. split; [apply loop_sum|].
  match goal with |- ?X * _ = _ /\ ?Y = _ /\ ?Z = ?T => assert (A : Y = pfd (map IZR dcs) 0 z /\ Z = T) end.
  { cbn [gsum]. unfold dcs, dc0. cbn [map pf pfd]. generalize (/ (z + INR 0)) (/ (z + INR 1)) (/ (z + INR 2)) (/ (z + INR 3)) (/ (z + INR 4)) (/ (z + INR 5)) (/ (z + INR 6)) (/ (z + INR 7)) (/ (z + INR 8)) (/ (z + INR 9)) (/ (z + INR 10)) (/ (z + INR 11)) (/ (z + INR 12)) (/ (z + INR 13)).
    destruct c_scaled as (T & <- & C0 & C1 & C2 & C3 & C4 & C5 & C6 & C7 & C8 & C9 & C10 & C11 & C12 & C13 & C14). unfold dc0 in C0. rewrite <- C0, <- C1, <- C2, <- C3, <- C4, <- C5, <- C6, <- C7, <- C8, <- C9, <- C10, <- C11, <- C12, <- C13, <- C14. clear C0 C1 C2 C3 C4 C5 C6 C7 C8 C9 C10 C11 C12 C13 C14.
    intros. split; ring. }
  split; [|exact A]. rewrite <- Rmult_assoc, (proj2 A), DN_def, ev_add, ev_scale, Rmult_plus_distr_r. f_equal. exact (pf_eq dcs 0 z Hz).
Qed.
(** digamma.h computes Lanczos's logarithmic derivative *)
Lemma digamma_right eps f z v : 1/2 <= z -> digamma eps (S f) z = Ok v -> v = lf DN 543 128 14 z.
Proof.
  intros Hz. cbn [digamma]. rewrite (pos_goes_on eps z) by lra. destruct (Rlt_dec z 0.5) as [|_]; [lra|]. destruct (loop_ok z ltac:(lra)) as (d & n & -> & E1 & E2 & E3). cbv zeta. intros E. injection E as <-.
  set (D := d + nth 0 digamma_c 0) in *. assert (Z0 : 0 < z) by lra. pose proof (Qp_pos 14 0 z Z0) as QP.
  assert (NP : 0 < ev DN z). { apply ppos_ok; [reflexivity|lra]. }
  assert (DP : D <> 0). { intros ->. rewrite Rmult_0_l in E1. lra. }
  assert (EQ : n / D = ev (pder DN) z / ev DN z - hs 14 z).
  { assert (DD1 : is_derive (fun x => (IZR dc0 + pf (map IZR dcs) 0 x) * ev (Qp 0 14) x) z (n * 10 ^ 25 * ev (Qp 0 14) z + D * 10 ^ 25 * ev (pder (Qp 0 14)) z)).
    { rewrite E2, E3. evar_last; [apply (is_derive_mult (fun x => IZR dc0 + pf (map IZR dcs) 0 x) (ev (Qp 0 14))); [apply (is_derive_plus (fun _ => IZR dc0)); [apply is_derive_const|apply pf_derive, Z0]|apply ev_der|intros; apply Rmult_comm]|].
      generalize (ev (Qp 0 14) z) (ev (pder (Qp 0 14)) z) (pfd (map IZR dcs) 0 z) (IZR dc0 + pf (map IZR dcs) 0 z). intros q q' u w. match goal with |- ?u = ?w => change (@eq R u w) end. unfold plus, mult, zero; cbn. rewrite Rplus_0_l. reflexivity. }
    assert (DD2 : is_derive (fun x => (IZR dc0 + pf (map IZR dcs) 0 x) * ev (Qp 0 14) x) z (ev (pder DN) z)).
    { apply (is_derive_ext_loc (ev DN)); [|apply ev_der]. exists (mkposreal z Z0). intros y Hy. assert (Hy0 : 0 < y) by (apply Rabs_lt_between in Hy; cbn in Hy; unfold minus, plus, opp in Hy; cbn in Hy; lra).
      rewrite DN_def, ev_add, ev_scale, Rmult_plus_distr_r. f_equal. symmetry. exact (pf_eq dcs 0 y Hy0). }
    apply is_derive_unique in DD1, DD2. rewrite DD1 in DD2. rewrite <- DD2, (Qp_log 14 0 z Z0). fold (hs 14 z). rewrite <- E1. field. split; [lra|exact DP]. }
  change (d + 0.99999999999999709182) with D. unfold lf. rewrite EQ, ls_d. unfold polygamma_g, polygamma_h. replace (607 / 128 - 0.5) with (543 / 128) by lra. field. repeat split; lra.
Qed.
(** ** The logarithmic derivative of the continued gamma function *)
Lemma refl_all x g : continued_gamma x g -> x < 1 -> sin (PI * x) <> 0 /\ g * Gam (1 - x) = PI / sin (PI * x).
Proof.
  intros C Hx. destruct (Rtotal_order x 0) as [L|[->|L]]; [apply reflection_all; assumption| |].
  - exfalso. apply (proj1 C 0%nat). cbn. ring.
  - rewrite (cg_pos x g C L). assert (Hs : 0 < x < 1) by lra. split; [|apply reflection, Hs]. pose proof PI_RGT_0. apply Rgt_not_eq. apply sin_gt_0; nra.
Qed.
Lemma near_abs (x y r : R) : Rabs (minus y x) < r -> - r < y - x < r.
Proof. intros H. apply Rabs_lt_between in H. unfold minus, plus, opp in H; cbn in H. lra. Qed.
Lemma gld_pos x p : 0 < x -> gamma_log_derivative x p -> p = psi x.
Proof.
  intros Hx (G & r & Hr & HG & D). pose proof (Gam_pos x Hx) as P. assert (DG : is_derive Gam x (p * G x)).
  { apply (is_derive_ext_loc G); [|exact D]. exists (mkposreal (Rmin r x) (Rmin_pos _ _ Hr Hx)). intros y Hy. apply near_abs in Hy. cbn in Hy. pose proof (Rmin_l r x). pose proof (Rmin_r r x). apply cg_pos; [apply HG; apply Rabs_def1; lra|lra]. }
  apply is_derive_unique in DG. pose proof (is_derive_unique _ _ _ (Gam_derive x Hx)) as D2. rewrite DG in D2. rewrite (cg_pos x (G x)) in D2; [|apply HG; rewrite Rminus_eq_0, Rabs_R0; exact Hr|exact Hx]. unfold psi. rewrite <- D2. field. lra.
Qed.
Lemma sin_derive x : sin (PI * x) <> 0 -> is_derive (fun y => PI / sin (PI * y)) x (- (PI * cos (PI * x) / sin (PI * x)) * (PI / sin (PI * x))).
Proof. intros H. auto_derive; [exact H|]. field. exact H. Qed.
Lemma Gam_refl_derive x : x < 1 -> is_derive (fun y => Gam (1 - y)) x (- Gv 1 (1 - x)).
Proof. intros H. evar_last; [apply (is_derive_comp Gam (fun y => 1 - y) x (Gv 1 (1 - x)) (-1)); [apply Gam_derive; lra|auto_derive; [exact I|ring]]|]. match goal with |- ?u = ?v => change (@eq R u v) end. unfold scal; cbn. unfold mult; cbn. ring. Qed.
Lemma gld_neg x p : x < 1 -> gamma_log_derivative x p -> sin (PI * x) <> 0 /\ p = psi (1 - x) - PI * cos (PI * x) / sin (PI * x).
Proof.
  intros Hx (G & r & Hr & HG & D). assert (Cx : continued_gamma x (G x)) by (apply HG; rewrite Rminus_eq_0, Rabs_R0; exact Hr). destruct (refl_all x (G x) Cx Hx) as [S E]. split; [exact S|].
  pose proof (Gam_pos (1 - x) ltac:(lra)) as P. pose proof (cg_nz x _ Cx) as GN. pose proof PI_RGT_0 as PP.
  assert (D1 : is_derive (fun y => G y * Gam (1 - y)) x (p * G x * Gam (1 - x) + G x * (- Gv 1 (1 - x)))) by (apply (is_derive_mult G (fun y => Gam (1 - y))); [exact D|apply Gam_refl_derive, Hx|intros; apply Rmult_comm]).
  assert (D2 : is_derive (fun y => G y * Gam (1 - y)) x (- (PI * cos (PI * x) / sin (PI * x)) * (PI / sin (PI * x)))).
  { apply (is_derive_ext_loc (fun y => PI / sin (PI * y))); [|apply sin_derive, S]. assert (M : 0 < Rmin r (1 - x)) by (apply Rmin_pos; lra). exists (mkposreal _ M). intros y Hy. apply near_abs in Hy. cbn in Hy. pose proof (Rmin_l r (1 - x)). pose proof (Rmin_r r (1 - x)). symmetry. apply refl_all; [apply HG; apply Rabs_def1; lra|lra]. }
  apply is_derive_unique in D1, D2. rewrite D1 in D2. rewrite <- E in D2. unfold psi. apply (Rmult_eq_reg_r (G x * Gam (1 - x))); [|apply Rmult_integral_contrapositive; split; [exact GN|lra]]. replace ((Gv 1 (1 - x) / Gam (1 - x) - PI * cos (PI * x) / sin (PI * x)) * (G x * Gam (1 - x))) with (G x * Gv 1 (1 - x) + - (PI * cos (PI * x) / sin (PI * x)) * (G x * Gam (1 - x))) by (field; split; lra || exact S). rewrite <- D2. ring.
Qed.
(** it exists wherever the gamma function does *)
Lemma nonpole_near x : nonpole x -> x < 1 -> exists r, 0 < r /\ forall y, Rabs (y - x) < r -> nonpole y /\ y < 1.
Proof.
  intros NP Hx. destruct (cg_exists x NP) as [g C]. destruct (refl_all x g C Hx) as [S _].
  assert (CS : continuous (fun y => sin (PI * y)) x) by (apply (ex_derive_continuous (fun y => sin (PI * y))); auto_derive; exact I).
  assert (A0 : 0 < Rabs (sin (PI * x))) by (apply Rabs_pos_lt, S). destruct (CS (fun v => v <> 0)) as (r & Hr0).
  { exists (mkposreal _ A0). intros v Hv. apply near_abs in Hv. cbn in Hv. intros ->. destruct (Rcase_abs (sin (PI * x))) as [L|L]; [rewrite Rabs_left in Hv by exact L|rewrite Rabs_right in Hv by exact L]; lra. }
  exists (Rmin r (1 - x)). pose proof (cond_pos r). split; [apply Rmin_pos; lra|]. intros y Hy. pose proof (Rmin_l r (1 - x)). pose proof (Rmin_r r (1 - x)). apply Rabs_lt_between in Hy. split; [|lra]. intros k ->. assert (B : ball x r (- INR k)) by (apply Rabs_def1; unfold minus, plus, opp; cbn; lra).
  apply (Hr0 _ B). replace (PI * - INR k) with (- (INR k * PI)) by ring. rewrite sin_neg. rewrite INR_IZR_INZ, sin_eq_0_1; [apply Ropp_0|]. exists (Z.of_nat k). ring.
Qed.
Lemma gld_exists x : nonpole x -> exists p, gamma_log_derivative x p.
Proof.
  intros NP. destruct (Rlt_le_dec 0 x) as [Hx|Hx].
  - exists (psi x), Gam, x. split; [exact Hx|]. split.
    + intros y Hy. apply Rabs_lt_between in Hy. assert (Hy0 : 0 < y) by lra. split; [apply nonpole_pos, Hy0|]. exists 0%nat, (Gam y). cbn. rewrite Rplus_0_r, Rmult_1_r. repeat split; [exact Hy0|apply Gam_ok, Hy0].
    + replace (psi x * Gam x) with (Gv 1 x) by (unfold psi; field; pose proof (Gam_pos x Hx); lra). apply Gam_derive, Hx.
  - assert (H1 : x < 1) by lra. destruct (nonpole_near x NP H1) as (r & Hr & N). set (G := fun y => PI / sin (PI * y) / Gam (1 - y)).
    assert (CG : forall y, Rabs (y - x) < r -> continued_gamma y (G y) /\ sin (PI * y) <> 0). { intros y Hy. destruct (N y Hy) as [NPy Y1]. destruct (cg_exists y NPy) as [g C]. destruct (refl_all y g C Y1) as [Sy E]. split; [|exact Sy]. unfold G. rewrite <- E. pose proof (Gam_pos (1 - y) ltac:(lra)). replace (g * Gam (1 - y) / Gam (1 - y)) with g by (field; lra). exact C. }
    assert (X : Rabs (x - x) < r) by (rewrite Rminus_eq_0, Rabs_R0; exact Hr). destruct (CG x X) as [Cx Sx]. pose proof (Gam_pos (1 - x) ltac:(lra)) as P.
    exists (psi (1 - x) - PI * cos (PI * x) / sin (PI * x)), G, r. split; [exact Hr|]. split; [intros y Hy; apply CG, Hy|].
    unfold G. evar_last; [apply (is_derive_div (fun y => PI / sin (PI * y)) (fun y => Gam (1 - y))); [apply sin_derive, Sx|apply Gam_refl_derive, H1|lra]|]. match goal with |- ?u = ?v => change (@eq R u v) end. unfold psi, minus, plus, opp, mult; cbn. field. split; [exact Sx|lra].
Qed.
