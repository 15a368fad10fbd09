(** C71: [loggamma] and [gamma] of a real number *)
From Coq Require Import List Arith ZArith Lia Bool Reals Lra Psatz.
From Coquelicot Require Import Rcomplements.
From Verif Require Import EllipSpec Improper GammaSpec GammaInt GammaFun HyperExp Stirling Stirling2 Reflection GammaFn GammaFnSpec GammaFnFacts.
Import ListNotations.
Open Scope R_scope.

Lemma lg_case eps fuel z re im : -14 <= z -> loggamma eps fuel z = Ok (re, im) -> (is_int eps z && is_nonpositive z)%bool = false /\ exists f z' c a, loggamma_loop f z 1 0 = Some (z', c, a) /\ im = 0 - a /\ re = (z' - 0.5) * ln z' - z' + ln (sqrt (2 * PI)) + (if Rlt_dec (Rabs z') 1e8 then loggamma_series z' else 0) - ln (Rabs c).
Proof.
  intros Hz. destruct fuel as [|f]; cbn [loggamma]; [discriminate|]. destruct (is_int eps z && is_nonpositive z)%bool eqn:S; [discriminate|]. destruct (Rlt_dec z (-14)) as [H|H]; [lra|]. destruct (loggamma_loop f z 1 0) as [[[z' c] a]|] eqn:L; [|discriminate]. intros E. injection E as E1 E2. split; [reflexivity|]. exists f, z', c, a. split; [exact L|]. split; [symmetry; exact E2|]. rewrite <- E1. destruct (Rlt_dec (Rabs z') 1e8); ring.
Qed.
Lemma lgerr_up z n : (n = 0%nat \/ z + INR n < 15) -> lgerr (z + INR n) = lgerr z \/ z < 1e8 /\ z + INR n < 1e8.
Proof. intros [->|H]; [left; cbn; rewrite Rplus_0_r; reflexivity|right]. pose proof (pos_INR n). lra. Qed.
Lemma lg_main eps fuel z re im g : -14 <= z -> continued_gamma z g -> loggamma eps fuel z = Ok (re, im) -> Rabs (re - ln (Rabs g)) <= lgerr z /\ im = (if Rlt_dec z 0 then PI * rfloor z else 0) /\ g = Rabs g * cos im.
Proof.
  intros Hz C E. destruct (lg_case _ _ _ _ _ Hz E) as (_ & f & z' & c & a & L & -> & ->). destruct (lloop _ _ _ _ _ _ _ L) as (n & E1 & E2 & E3 & B & U). rewrite Rmult_1_l in E2. rewrite Rplus_0_l in E3. subst z' c a.
  assert (NP : nonpole z) by exact (proj1 C). assert (PG : 0 < z + INR n) by lra. pose proof (cg_eq z g n C PG) as EG. pose proof (Gam_pos _ PG) as GP. pose proof (rising_nz z n NP) as RN. pose proof (cg_nz z g C) as GN.
  assert (EL : lg (z + INR n) = ln (Rabs g) + ln (Rabs (rising z n))) by (unfold lg; rewrite <- ln_mult by (apply Rabs_pos_lt; assumption); rewrite <- Rabs_mult, EG, Rabs_pos_eq; lra).
  split; [|split].
  - pose proof (lg_accuracy (z + INR n) B) as A. rewrite EL in A. set (ser := if Rlt_dec (Rabs (z + INR n)) 1e8 then loggamma_series (z + INR n) else 0) in *. set (lz := ln (z + INR n)) in *. match goal with |- Rabs ?a <= _ => match type of A with Rabs ?b <= _ => replace a with b by ring end end. eapply Rle_trans; [exact A|]. destruct (lgerr_up z n U) as [->|[H1 H2]]; [lra|]. unfold lgerr. destruct (Rlt_dec z 1e8); [|lra]. destruct (Rlt_dec (z + INR n) 1e8); lra.
  - destruct (Rlt_dec z 0) as [H|H]; [rewrite (args_neg z n NP H PG); ring|]. rewrite args_pos; [ring|]. pose proof (nonpole_0 z NP). lra.
  - rewrite Rminus_0_l, cos_neg. pose proof (rising_sign z n) as RS. set (t := cos (args z n)) in *. set (r := rising z n) in *. assert (AG : Rabs g * Rabs r = g * r) by (rewrite <- Rabs_mult, EG, Rabs_pos_eq; lra). apply (Rmult_eq_reg_r (Rabs r)); [|apply Rgt_not_eq, Rabs_pos_lt, RN]. replace (Rabs g * t * Rabs r) with (Rabs g * Rabs r * t) by ring. rewrite AG. assert (TT : t * t = 1). { assert (Rabs r * t * (Rabs r * t) = Rabs r * Rabs r) by (rewrite <- RS, <- Rabs_mult, Rabs_pos_eq; [reflexivity|nra]). pose proof (Rabs_pos_lt r RN). apply (Rmult_eq_reg_l (Rabs r * Rabs r)); [|nra]. rewrite <- H at 2. ring. } transitivity (g * (Rabs r * t) * t); [transitivity (g * (Rabs r * (t * t))); [rewrite TT; ring|ring]|]. rewrite <- RS. reflexivity.
Qed.

(** [loggamma] returns the principal branch that is real for positive arguments: its real part is log|Gamma(x)| up to 1e-17 (1e-9 for
    arguments of 1e8 and more, where the code drops the series), its imaginary part is 0 for positive and pi floor(x) for negative x,
    and exp of the result has the sign of Gamma(x) *)
Theorem C71_loggamma eps fuel x re im g :
  continued_gamma x g -> loggamma eps fuel x = Ok (re, im) ->
  Rabs (re - ln (Rabs g)) <= (if Rlt_dec (Rabs (x - 1/2)) (10^8 - 1/2) then / 10^17 else / 10^9) /\
  (0 < x -> im = 0) /\ (x < 0 -> exists m : Z, IZR m <= x < IZR m + 1 /\ im = PI * IZR m) /\ g = Rabs g * cos im.
Proof.
  intros C E. assert (NP : nonpole x) by exact (proj1 C). destruct (Rle_lt_dec (-14) x) as [Hx|Hx].
  - destruct (lg_main _ _ _ _ _ _ Hx C E) as (A & B & S). split; [|split; [|split; [|exact S]]].
    + eapply Rle_trans; [exact A|]. unfold lgerr. destruct (Rlt_dec x 1e8) as [L|L]; destruct (Rlt_dec (Rabs (x - 1/2)) (10^8 - 1/2)) as [M|M]; try lra. apply Rabs_lt_between in M. lra.
    + intros H. rewrite B. destruct (Rlt_dec x 0); lra.
    + intros H. exists (Int_part x). split; [apply floor_bounds|]. rewrite B. destruct (Rlt_dec x 0); [reflexivity|lra].
  - destruct fuel as [|f]; cbn [loggamma] in E; [discriminate|]. destruct (is_int eps x && is_nonpositive x)%bool; [discriminate|]. destruct (Rlt_dec x (-14)) as [_|H]; [|lra]. destruct (loggamma eps f (1 - x)) as [[r i]| |] eqn:E1; [|discriminate|discriminate]. unfold rlog in E. injection E as <- <-.
    assert (P1 : 0 < 1 - x) by lra. pose proof (lg_main eps f (1 - x) r i (Gam (1 - x)) ltac:(lra)) as M. destruct M as (A & B & S); [|exact E1|].
    { split; [apply nonpole_pos, P1|]. exists 0%nat, (Gam (1 - x)). cbn. rewrite Rplus_0_r, Rmult_1_r. repeat split; [exact P1|apply Gam_ok, P1]. }
    destruct (reflection_all x g C ltac:(lra)) as [SN R]. pose proof (Gam_pos _ P1) as GP. pose proof PI_RGT_0 as P0.
    (* the sine in the code is |sin (pi x)| *)
    pose proof (floor_bounds x) as FB. assert (FN : rfloor x <> x). { intros Q. unfold rfloor in Q. apply (NP (Z.to_nat (- Int_part x))). assert (Int_part x <= 0)%Z by (apply le_IZR; lra). rewrite INR_IZR_INZ, Z2Nat.id by lia. rewrite opp_IZR, Q. ring. }
    assert (SP : 0 < sin (PI * (x - rfloor x))) by (apply sin_gt_0; nra).
    assert (CS : sin (PI * x) = sin (PI * (x - rfloor x)) * cos (PI * rfloor x) /\ cos (PI * rfloor x) * cos (PI * rfloor x) = 1).
    { unfold rfloor. set (m := Int_part x). assert (S0 : sin (PI * IZR m) = 0) by (rewrite Rmult_comm; apply sin_eq_0_1; exists m; reflexivity). split; [|pose proof (sin2_cos2 (PI * IZR m)) as Q; unfold Rsqr in Q; rewrite S0 in Q; lra]. replace (PI * x) with (PI * (x - IZR m) + PI * IZR m) by ring. rewrite sin_plus, S0. ring. }
    destruct CS as [CS CC]. set (k := cos (PI * rfloor x)) in *. set (sn := sin (PI * (x - rfloor x))) in *.
    assert (AG : Rabs g = PI / sn / Gam (1 - x)). { assert (EG : g = k * (PI / sn / Gam (1 - x))). { apply (Rmult_eq_reg_r (Gam (1 - x))); [|lra]. rewrite R, CS. assert (k <> 0) by (intros Q; rewrite Q in CC; lra). transitivity (PI / (sn * k) * (k * k)); [rewrite CC; ring|]. field. repeat split; lra. } rewrite EG, Rabs_mult. assert (Rabs k = 1) by (destruct (Rle_lt_dec 0 k); [rewrite Rabs_pos_eq by lra|rewrite Rabs_left by lra]; nra). rewrite H, Rmult_1_l. apply Rabs_pos_eq. left. repeat apply Rdiv_lt_0_compat; assumption. }
    destruct (Rlt_dec (1 - x) 0) as [|_]; [lra|]. subst i. rewrite (Rabs_pos_eq sn) by lra. unfold rarg. destruct (Rlt_dec sn 0); [lra|].
    split; [|split; [intros; lra|split]].
    + rewrite (Rabs_pos_eq (Gam (1 - x))) in A by lra. rewrite AG. rewrite !ln_div by (try assumption; apply Rdiv_lt_0_compat; assumption). replace (ln PI - r - ln sn - (ln PI - ln sn - ln (Gam (1 - x)))) with (- (r - ln (Gam (1 - x)))) by ring. rewrite Rabs_Ropp. eapply Rle_trans; [exact A|]. unfold lgerr. destruct (Rlt_dec (1 - x) 1e8) as [L|L]; destruct (Rlt_dec (Rabs (x - 1/2)) (10^8 - 1/2)) as [M|M]; try lra. apply Rabs_lt_between in M. lra.
    + intros _. exists (Int_part x). split; [exact FB|]. fold (rfloor x). ring.
    + replace (0 - 0 - (0 - PI * rfloor x)) with (PI * rfloor x) by ring. fold k. rewrite AG. apply (Rmult_eq_reg_r (Gam (1 - x))); [|lra]. rewrite R, CS. assert (k <> 0) by (intros Q; rewrite Q in CC; lra). transitivity (PI / (sn * k) * (k * k)); [rewrite CC; ring|]. field. repeat split; lra.
Qed.
(** ... in particular log Gamma for positive arguments *)
Theorem C71_loggamma_positive eps fuel x re im G :
  0 < x -> euler_gamma x G -> loggamma eps fuel x = Ok (re, im) -> Rabs (re - ln G) <= (if Rlt_dec x (10^8) then / 10^17 else / 10^9) /\ im = 0.
Proof.
  intros Hx E L. assert (C : continued_gamma x G) by (split; [apply nonpole_pos, Hx|]; exists 0%nat, G; cbn; rewrite Rplus_0_r, Rmult_1_r; repeat split; assumption). destruct (C71_loggamma _ _ _ _ _ _ C L) as (A & B & _). split; [|apply B, Hx]. rewrite (euler_Gam x G Hx E) in *. pose proof (Gam_pos x Hx). rewrite (Rabs_pos_eq (Gam x)) in A by lra. eapply Rle_trans; [exact A|]. destruct (Rlt_dec x (10^8)) as [M|M]; destruct (Rlt_dec (Rabs (x - 1/2)) (10^8 - 1/2)) as [N|N]; try lra. exfalso. apply N, Rabs_lt_between. lra.
Qed.
(** Both functions return NaN exactly within 100 eps of a nonpositive integer (and not above 0), and otherwise end with a number *)
Theorem C71_nan eps fuel x : 0 < eps <= 1/1000 -> (40 <= fuel)%nat ->
  (loggamma eps fuel x = Nan <-> x <= 0 /\ near_pole (100 * eps) x) /\ loggamma eps fuel x <> Out /\
  (gamma eps fuel x = Nan <-> x <= 0 /\ near_pole (100 * eps) x) /\ gamma eps fuel x <> Out.
Proof.
  intros He Hf. destruct fuel as [|f]; [lia|]. pose proof (stop_iff eps x He) as SI.
  assert (LF : forall f' z c a, (37 <= f')%nat -> -14 <= z -> loggamma_loop f' z c a <> None). { intros f' z c a H Hz. destruct f' as [|f']; [lia|]. apply lloop_ends. assert (36 <= INR f') by (replace 36 with (INR 36) by (rewrite INR_IZR_INZ; reflexivity); apply le_INR; lia). lra. }
  assert (GF : forall f' z c, (37 <= f')%nat -> -18 < z -> gamma_loop f' z c <> None). { intros f' z c H Hz. destruct f' as [|f']; [lia|]. apply gloop_ends. assert (36 <= INR f') by (replace 36 with (INR 36) by (rewrite INR_IZR_INZ; reflexivity); apply le_INR; lia). lra. }
  assert (L1 : forall f' z, (38 <= f')%nat -> 0 < z -> exists p, loggamma eps f' z = Ok p). { intros f' z H Hz. destruct f' as [|f']; [lia|]. cbn [loggamma]. rewrite (pos_goes_on eps z Hz). destruct (Rlt_dec z (-14)); [lra|]. destruct (loggamma_loop f' z 1 0) as [[[z' c] a]|] eqn:L; [eexists; reflexivity|]. exfalso. revert L. apply LF; [lia|lra]. }
  assert (G1 : forall f' z, (38 <= f')%nat -> 0 < z -> exists p, gamma eps f' z = Ok p). { intros f' z H Hz. destruct f' as [|f']; [lia|]. cbn [gamma]. rewrite (pos_goes_on eps z Hz). destruct (Rle_dec 18 (Rabs z)); [destruct (Rlt_dec z 0); [lra|eexists; reflexivity]|]. destruct (gamma_loop f' z 1) as [v|] eqn:L; [eexists; reflexivity|]. exfalso. revert L. apply GF; [lia|lra]. }
  destruct (is_int eps x && is_nonpositive x)%bool eqn:S.
  { cbn [loggamma gamma]. rewrite S. assert (T : x <= 0 /\ near_pole (100 * eps) x) by (apply SI; reflexivity). split; [split; [intros _; exact T|reflexivity]|]. split; [discriminate|]. split; [split; [intros _; exact T|reflexivity]|discriminate]. }
  assert (NT : ~ (x <= 0 /\ near_pole (100 * eps) x)) by (intros T; apply SI in T; discriminate).
  assert (LL : exists p, loggamma eps (Datatypes.S f) x = Ok p).
  { cbn [loggamma]. rewrite S. destruct (Rlt_dec x (-14)) as [H|H]; [destruct (L1 f (1 - x) ltac:(lia) ltac:(lra)) as [[re0 im0] ->]; eexists; reflexivity|]. destruct (loggamma_loop f x 1 0) as [[[z' c] a]|] eqn:L; [eexists; reflexivity|]. exfalso. revert L. apply LF; [lia|lra]. }
  assert (GG : exists p, gamma eps (Datatypes.S f) x = Ok p).
  { cbn [gamma]. rewrite S. destruct (Rle_dec 18 (Rabs x)) as [H|H]; [destruct (Rlt_dec x 0); [destruct (G1 f (1 - x) ltac:(lia) ltac:(lra)) as [re0 ->]; eexists; reflexivity|eexists; reflexivity]|]. destruct (gamma_loop f x 1) as [v|] eqn:L; [eexists; reflexivity|]. exfalso. revert L. apply GF; [lia|]. apply Rnot_le_lt, Rabs_lt_between in H. lra. }
  destruct LL as [p ->]. destruct GG as [q ->]. split; [split; [discriminate|intros T; contradiction]|]. split; [discriminate|]. split; [split; [discriminate|intros T; contradiction]|discriminate].
Qed.

Lemma gamma_main eps fuel x v g : -18 < x -> continued_gamma x g -> gamma eps fuel x = Ok v -> (exists e, Rabs e <= 4e-15 /\ v = g * (1 + e)) \/ Rabs x < 18 /\ near_pole 1e-9 x /\ exists e, Rabs e <= 2e-9 /\ v = g * (1 + e).
Proof.
  intros Hx C E. destruct fuel as [|f]; cbn [gamma] in E; [discriminate|]. destruct (is_int eps x && is_nonpositive x)%bool; [discriminate|]. assert (NP : nonpole x) by exact (proj1 C). destruct (Rle_dec 18 (Rabs x)) as [H|H].
  - destruct (Rlt_dec x 0) as [N|N]; [rewrite Rabs_left in H by lra; lra|]. injection E as <-. rewrite Rabs_pos_eq in H by lra. left. destruct (stirling_accuracy x H) as (e & He & ->). exists e. split; [exact He|]. rewrite (cg_pos x g C) by lra. reflexivity.
  - destruct (gamma_loop f x 1) as [v'|] eqn:L; [|discriminate]. injection E as ->. destruct (gloop _ _ _ _ L) as (n & _ & [(_ & Z & ->)|(B & ->)]); rewrite Rmult_1_l; pose proof (rising_nz x n NP) as RN.
    + right. apply Rnot_le_lt in H. split; [exact H|]. split; [exists n; exact Z|]. set (z := x + INR n) in *. pose proof (cg_step _ _ (cg_down x g n C)) as CD. fold z in CD. assert (P1 : 0 < z + 1) by (apply Rabs_lt_between in Z; lra). apply cg_pos in CD; [|exact P1]. pose proof (Gam1_near z ltac:(lra)) as G1. replace (1 + z) with (z + 1) in G1 by ring. rewrite <- CD in G1. set (u := z * (g * rising x n)) in *.
      assert (ZN : z <> 0) by (intros Q; apply (NP n); unfold z in Q; lra). assert (EG : g = u / (z * rising x n)) by (unfold u; field; split; assumption).
      set (d := (1 + 0.5772156649015329 * z) * u). assert (D : Rabs (d - 1) <= 1.7 * Rabs z). { unfold d. replace ((1 + 0.5772156649015329 * z) * u - 1) with ((u - 1) * (1 + 0.5772156649015329 * z) + 0.5772156649015329 * z) by ring. eapply Rle_trans; [apply Rabs_triang|]. rewrite !Rabs_mult, (Rabs_pos_eq 0.5772156649015329) by lra. assert (Rabs (1 + 0.5772156649015329 * z) <= 1.01) by (apply Rabs_lt_between in Z; apply Rabs_le_between; lra). pose proof (Rabs_pos (u - 1)). pose proof (Rabs_pos z). assert (Rabs (u - 1) * Rabs (1 + 0.5772156649015329 * z) <= 1.1 * Rabs z * 1.01) by (apply Rmult_le_compat; try assumption; apply Rabs_pos). lra. }
      assert (DP : 1 - 2e-9 < d < 1 + 2e-9) by (apply Rabs_le_between in D; lra). assert (UN : u <> 0) by (intros Q; unfold d in DP; rewrite Q in DP; lra). assert (CN : 1 + 0.5772156649015329 * z <> 0) by (apply Rabs_lt_between in Z; lra).
      exists (/ d - 1). split; [|rewrite EG; unfold d; field; repeat split; assumption]. replace (/ d - 1) with (- (d - 1) * / d) by (field; lra). rewrite Rabs_mult, Rabs_Ropp. assert (ID : 0 < / d <= 1.01) by (split; [apply Rinv_0_lt_compat; lra|replace 1.01 with (/ (1 / 1.01)) by lra; apply Rinv_le_contravar; lra]). rewrite (Rabs_pos_eq (/ d)) by lra. assert (Rabs (d - 1) <= 1.7e-9) by lra. pose proof (Rabs_pos (d - 1)). nra.
    + left. destruct (stirling_accuracy (x + INR n) B) as (e & He & ->). exists e. split; [exact He|]. rewrite <- (cg_eq x g n C) by lra. field. exact RN.
Qed.
Lemma rel e d v g : Rabs e <= d -> v = g * (1 + e) -> Rabs (v - g) <= d * Rabs g.
Proof. intros H ->. replace (g * (1 + e) - g) with (e * g) by ring. rewrite Rabs_mult. apply Rmult_le_compat_r; [apply Rabs_pos|exact H]. Qed.

(** [gamma] agrees with Gamma(x) to a relative 5e-15, away from the poles at 0, -1, ..., -17 *)
Theorem C71_gamma eps fuel x v g :
  continued_gamma x g -> ~ near_pole (/ 10^9) x \/ 18 <= Rabs x -> gamma eps fuel x = Ok v -> Rabs (v - g) <= 5 / 10^15 * Rabs g.
Proof.
  intros C N E. destruct (Rlt_le_dec (-18) x) as [Hx|Hx].
  - destruct (gamma_main _ _ _ _ _ Hx C E) as [(e & He & Ev)|(X18 & NP & _)]; [apply (rel e); [lra|exact Ev]|]. exfalso. replace 1e-9 with (/ 10^9) in NP by lra. destruct N as [N|N]; [exact (N NP)|lra].
  - destruct fuel as [|f]; cbn [gamma] in E; [discriminate|]. destruct (is_int eps x && is_nonpositive x)%bool; [discriminate|]. destruct (Rle_dec 18 (Rabs x)) as [_|H]; [|rewrite Rabs_left in H by lra; lra]. destruct (Rlt_dec x 0) as [_|H]; [|lra]. destruct (gamma eps f (1 - x)) as [h| |] eqn:E1; [|discriminate|discriminate]. injection E as <-.
    assert (P1 : 0 < 1 - x) by lra. assert (C1 : continued_gamma (1 - x) (Gam (1 - x))). { split; [apply nonpole_pos, P1|]. exists 0%nat, (Gam (1 - x)). cbn. rewrite Rplus_0_r, Rmult_1_r. repeat split; [exact P1|apply Gam_ok, P1]. }
    destruct (gamma_main eps f (1 - x) h (Gam (1 - x)) ltac:(lra) C1 E1) as [(e & He & Ev)|(X18 & _)]; [|rewrite Rabs_pos_eq in X18 by lra; lra]. destruct (reflection_all x g C ltac:(lra)) as [SN R]. pose proof (Gam_pos _ P1) as GP. apply Rabs_le_between in He.
    assert (EV : PI / sin (PI * x) / h = g * (1 + (/ (1 + e) - 1))) by (rewrite <- R, Ev; field; split; lra). apply (rel (/ (1 + e) - 1)); [|exact EV]. replace (/ (1 + e) - 1) with (- e * / (1 + e)) by (field; lra). rewrite Rabs_mult, Rabs_Ropp. assert (ID : 0 < / (1 + e) <= 1.01) by (split; [apply Rinv_0_lt_compat; lra|replace 1.01 with (/ (1 / 1.01)) by lra; apply Rinv_le_contravar; lra]). rewrite (Rabs_pos_eq (/ (1 + e))) by lra. assert (Rabs e <= 4e-15) by (apply Rabs_le_between; lra). pose proof (Rabs_pos e). nra.
Qed.
(** ... and to 2e-9 near them *)
Theorem C71_gamma_near_pole eps fuel x v g :
  continued_gamma x g -> gamma eps fuel x = Ok v -> Rabs (v - g) <= 2 / 10^9 * Rabs g.
Proof.
  intros C E. pose proof (Rabs_pos g) as PG. destruct (Rlt_le_dec (-18) x) as [Hx|Hx].
  - destruct (gamma_main _ _ _ _ _ Hx C E) as [(e & He & Ev)|(X18 & NP & e & He & Ev)]; apply (rel e); try exact Ev; lra.
  - eapply Rle_trans; [apply (C71_gamma eps fuel x v g C)|]; [right; rewrite Rabs_left; lra|exact E|]. apply Rmult_le_compat_r; lra.
Qed.

(** ** The hypotheses are met *)
Example C71_ex_half : exists re im g, continued_gamma (1/2) g /\ loggamma (1/2^52) 40 (1/2) = Ok (re, im).
Proof.
  destruct (cg_exists (1/2)) as [g C]; [apply nonpole_pos; lra|]. destruct (C71_nan (1/2^52) 40 (1/2) ltac:(lra) ltac:(lia)) as (N & O & _). destruct (loggamma (1/2^52) 40 (1/2)) as [[re im]| |]; [exists re, im, g; split; [exact C|reflexivity]| |contradiction]. exfalso. assert (1/2 <= 0) by (apply N; reflexivity). lra.
Qed.
Lemma half_far x d : 0 < d <= 1/2 -> (exists n : nat, x = - INR n - 1/2) -> ~ near_pole d x.
Proof.
  intros Hd [n ->] [k Hk]. apply Rabs_lt_between in Hk. destruct (le_lt_dec k n) as [L|L].
  - assert (INR k <= INR n) by (apply le_INR, L). lra.
  - assert (INR n + 1 <= INR k) by (rewrite <- S_INR; apply le_INR, L). lra.
Qed.
(** non-integers on both sides of the thresholds -14 and -18 *)
Example C71_ex_neg n : let x := - INR n - 1/2 in exists re im g v, continued_gamma x g /\ ~ near_pole (/ 10^9) x /\ loggamma (1/2^52) 40 x = Ok (re, im) /\ gamma (1/2^52) 40 x = Ok v.
Proof.
  cbv zeta. set (x := - INR n - 1/2). assert (HF : forall d, 0 < d <= 1/2 -> ~ near_pole d x) by (intros d Hd; apply half_far; [exact Hd|exists n; reflexivity]). destruct (cg_exists x) as [g C]. { intros k E. apply (HF (1/2) ltac:(lra)). exists k. rewrite E. replace (- INR k + INR k) with 0 by ring. rewrite Rabs_R0. lra. }
  destruct (C71_nan (1/2^52) 40 x ltac:(lra) ltac:(lia)) as (N1 & O1 & N2 & O2). destruct (loggamma (1/2^52) 40 x) as [[re im]| |]; [|exfalso; assert (Q : x <= 0 /\ near_pole (100 * (1/2^52)) x) by (apply N1; reflexivity); apply (HF (100 * (1/2^52)) ltac:(lra)), Q|contradiction].
  destruct (gamma (1/2^52) 40 x) as [v| |]; [|exfalso; assert (Q : x <= 0 /\ near_pole (100 * (1/2^52)) x) by (apply N2; reflexivity); apply (HF (100 * (1/2^52)) ltac:(lra)), Q|contradiction].
  exists re, im, g, v. split; [exact C|]. split; [apply HF; lra|]. split; reflexivity.
Qed.
