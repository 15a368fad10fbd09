(** Lanczos's formula of gammainc.h is the gamma function to a relative 1e-14 *)
From Coq Require Import List Arith ZArith Lia Bool Reals Lra Psatz.
From Coquelicot Require Import Rcomplements Hierarchy Continuity Derive AutoDerive ElemFct.
From Verif Require Import EllipSpec Improper GammaSpec GammaInt GammaFun GammaFn GammaFnSpec GammaFnFacts Stirling Stirling2 GammaInc GammaIncSpec GammaIncFacts2 LanczosPoly Lanczos.
Import ListNotations.
Open Scope R_scope.

(** ** exp 1 *)
Fixpoint et (n : nat) (x : R) : R := match n with O => 1 | S n' => et n' x + x ^ n / INR (fact n) end.
Lemma pow_d k n c t : n = S k -> is_derive (fun t => t ^ n / c) t (INR n * t ^ k / c).
Proof. intros ->. unfold Rdiv. auto_derive; [exact I|]. cbn [Init.Nat.pred]. change (match k with O => 1 | S _ => INR k + 1 end) with (INR (S k)). ring. Qed.
Lemma et_derive n x : is_derive (et (S n)) x (et n x).
Proof.
  induction n as [|n IH]; [cbn [et]; auto_derive; [exact I|cbn; field]|]. change (et (S (S n))) with (fun x => et (S n) x + x ^ S (S n) / INR (fact (S (S n)))). change (et (S n) x) with (et n x + x ^ S n / INR (fact (S n))).
  apply (is_derive_plus (et (S n)) (fun x => x ^ S (S n) / INR (fact (S (S n))))); [exact IH|]. assert (F : INR (fact (S (S n))) = INR (S (S n)) * INR (fact (S n))) by (rewrite <- mult_INR; reflexivity). pose proof (INR_fact_neq_0 (S n)) as N. assert (N2 : INR (S (S n)) <> 0) by (apply not_0_INR; lia). rewrite F.
  evar_last; [apply (pow_d (S n)); reflexivity|]. field. split; assumption.
Qed.
Lemma exp1_bounds n : et n 1 <= exp 1 /\ exp 1 * (1 - / INR (fact (S n))) <= et n 1.
Proof.
  assert (D : forall t, is_derive (fun t => exp (- t) * et n t) t (- (t ^ n / INR (fact n)) * exp (- t))).
  { intros t. destruct n as [|n]; [cbn [et]; auto_derive; [exact I|cbn; field]|]. evar_last; [apply (is_derive_mult (fun t => exp (- t)) (et (S n)) t (- exp (- t)) (et n t)); [auto_derive; [exact I|ring]|apply et_derive|intros; apply Rmult_comm]|]. match goal with |- ?u = ?v => change (@eq R u v) end. unfold plus, mult; cbn [et]. cbn - [fact INR pow et]. ring. }
  pose proof (INR_fact_lt_0 n) as FP. pose proof (INR_fact_lt_0 (S n)) as FS. pose proof (exp_pos 1) as EP. assert (E1 : exp (- (1)) * exp 1 = 1) by (rewrite <- exp_plus, <- exp_0; f_equal; ring).
  assert (E0 : et n 0 = 1) by (clear; induction n as [|n IH]; cbn [et]; [reflexivity|rewrite IH, pow_i by lia; unfold Rdiv; ring]).
  split.
  - assert (H : - (exp (- (0)) * et n 0) <= - (exp (- (1)) * et n 1)). { apply (incr_on (fun t => - (exp (- t) * et n t)) (fun t => - (- (t ^ n / INR (fact n)) * exp (- t)))); [lra|intros t _; apply (is_derive_opp (fun t => exp (- t) * et n t)), D|]. intros t Ht. pose proof (exp_pos (- t)). assert (0 <= t ^ n / INR (fact n)) by (apply Rmult_le_pos; [apply pow_le; lra|left; apply Rinv_0_lt_compat, FP]). nra. }
    rewrite E0, Ropp_0, exp_0 in H. apply (Rmult_le_reg_l (exp (- (1)))); [apply exp_pos|]. lra.
  - assert (H : exp (- (0)) * et n 0 + 0 ^ S n / INR (fact (S n)) <= exp (- (1)) * et n 1 + 1 ^ S n / INR (fact (S n))).
    { apply (incr_on (fun t => exp (- t) * et n t + t ^ S n / INR (fact (S n))) (fun t => - (t ^ n / INR (fact n)) * exp (- t) + t ^ n / INR (fact n))); [lra| |].
      - intros t _. apply (is_derive_plus (fun t => exp (- t) * et n t) (fun t => t ^ S n / INR (fact (S n)))); [apply D|]. assert (F : INR (fact (S n)) = INR (S n) * INR (fact n)) by (rewrite <- mult_INR; reflexivity). rewrite F. assert (N2 : INR (S n) <> 0) by (apply not_0_INR; lia). evar_last; [apply (pow_d n); reflexivity|]. field. split; [lra|exact N2].
      - intros t Ht. assert (E : exp (- t) <= 1) by (rewrite <- exp_0; apply exp_mono; lra). assert (0 <= t ^ n / INR (fact n)) by (apply Rmult_le_pos; [apply pow_le; lra|left; apply Rinv_0_lt_compat, FP]). nra. }
    rewrite E0, Ropp_0, exp_0, pow1, pow_i in H by lia. apply (Rmult_le_reg_l (exp (- (1)))); [apply exp_pos|]. rewrite <- Rmult_assoc, E1. unfold Rdiv in H. lra.
Qed.

(** ** The coefficients, times 10^42 *)
Definition lnr : list Z := [6061842346248906525783753964555936883222; 509841665565667618812517864480469450999300; 19519927882476174828478609662356521362080000; 449944556906316811944685860765098840962300000; 6955999602515376140356310115515198987526000000; 75999293040145426498753034435989091370920000000; 601859617168109878667022653369935230250700000000; 3481712154980645908820710189647745564680000000000; 14605578087685068084141699827913592185710000000000; 43338889324676138347737237405905333160850000000000; 86363131288138591455469272889778684223420000000000; 103794043116344545190627105361607023855400000000000; 56906521913471563880907910335591226868590000000000]%Z.
Definition LN : list Z := [56906521913471563880907910335591226868590000000000; 103794043116344545190627105361607023855400000000000; 86363131288138591455469272889778684223420000000000; 43338889324676138347737237405905333160850000000000; 14605578087685068084141699827913592185710000000000; 3481712154980645908820710189647745564680000000000; 601859617168109878667022653369935230250700000000; 75999293040145426498753034435989091370920000000; 6955999602515376140356310115515198987526000000; 449944556906316811944685860765098840962300000; 19519927882476174828478609662356521362080000; 509841665565667618812517864480469450999300; 6061842346248906525783753964555936883222]%Z.
Definition lS : Z := 741510003%Z.
Definition lDn : Z := 134217728%Z.
Lemma ls_l : ls lS lDn = lanczos_g - 1/2.
Proof. unfold ls, lS, lDn, lanczos_g. lra. Qed.
Lemma horner_ev T x l c : T <> 0 -> fold_left (fun s e => e + x * s) (map (fun z => IZR z / T) l) (ev c x / T) = ev (rev l ++ c) x / T.
Proof.
  intros HT. revert c. induction l as [|z l IH]; intros c; [reflexivity|]. cbn [map fold_left rev]. replace (IZR z / T + x * (ev c x / T)) with (ev (z :: c) x / T) by (cbn [ev]; field; exact HT). rewrite IH, <- app_assoc. reflexivity.
Qed.
Lemma lanczos_sum_ev x : lanczos_sum_expg_scaled x = ev LN x / 10 ^ 42 / ev (Qp 0 12) x.
Proof.
  unfold lanczos_sum_expg_scaled, horner. f_equal.
  - assert (T : 10 ^ 42 <> 0) by (apply pow_nonzero; lra). pose proof (horner_ev (10 ^ 42) x (tl lnr) [hd 0%Z lnr] T) as H. change (rev (tl lnr) ++ [hd 0%Z lnr]) with LN in H. rewrite <- H. unfold lnr. cbn [tl hd map ev].
    f_equal; [repeat (apply (f_equal2 cons); [lra|]); reflexivity|lra].
  - change (Qp 0 12) with [0; 39916800; 120543840; 150917976; 105258076; 45995730; 13339535; 2637558; 357423; 32670; 1925; 66; 1]%Z. cbn [fold_left ev]. f_equal. ring.
Qed.
Definition ltau (x : R) : R := / (2 * ((x + 1) * (x + 2))).
Lemma l_check : checks LN lS lDn 12 [6; 11; 6; 1]%Z 376 (10 ^ 16) nneg = true.
Proof. vm_compute. reflexivity. Qed.
Lemma l_psi x : 0 < x -> Rabs (lf LN lS lDn 12 x - psi x) <= 378 / 10 ^ 16 * ltau x.
Proof.
  intros Hx. eapply Rle_trans; [apply (lf_psi LN lS lDn 12 [6; 11; 6; 1]%Z ltau 376 (10 ^ 16) (2 / 10 ^ 16) nneg 0)|]; try (unfold lS, lDn; lia); try lra.
  - reflexivity.
  - apply nneg_ok.
  - rewrite ls_l. unfold lanczos_g. lra.
  - intros y Hy. replace (ev [6; 11; 6; 1]%Z y) with ((y + 1) * (y + 2) * (y + 3)) by (cbn [ev]; ring). unfold ltau. assert (0 < (y + 1) * (y + 2)) by nra. split; [nra|]. split; [field; lra|left; apply Rinv_0_lt_compat; lra].
  - intros y Hy _. rewrite ls_l. replace (ev [6; 11; 6; 1]%Z y) with ((y + 1) * (y + 2) * (y + 3)) by (cbn [ev]; ring). set (t := / (2 * y + 2 * (lanczos_g - 1/2) + 1)). assert (LG6 : 6 <= lanczos_g) by (unfold lanczos_g; lra). assert (T : 0 < t <= 1/12). { unfold t. split; [apply Rinv_0_lt_compat; lra|]. replace (1/12) with (/ 12) by field. apply Rinv_le_contravar; lra. }
    assert (A : t * (y + 3) <= 1/2) by (unfold t; apply (Rmult_le_reg_l (2 * y + 2 * (lanczos_g - 1/2) + 1)); [lra|]; rewrite <- Rmult_assoc, Rinv_r by lra; lra). assert (A1 : 0 <= t * (y + 1) <= 1/2) by nra. assert (A2 : 0 <= t * (y + 2) <= 1/2) by nra. assert (A3 : 0 <= t * (y + 3)) by nra.
    assert (T14 : 0 <= t ^ 14 <= / 12 ^ 14). { split; [apply pow_le; lra|]. rewrite <- pow_inv. apply pow_incr. lra. }
    replace ((y + 1) * (y + 2) * (y + 3) * t ^ 17) with (t ^ 14 * (t * (y + 1) * (t * (y + 2)) * (t * (y + 3)))) by ring. apply (Rle_trans _ (/ 12 ^ 14 * (1/2 * (1/2) * (1/2)))); [|lra].
    assert (0 <= t * (y + 1) * (t * (y + 2)) <= 1/2 * (1/2)) by (split; [apply Rmult_le_pos; lra|apply Rmult_le_compat; lra]). apply Rmult_le_compat; try lra; [apply Rmult_le_pos; lra|]. apply Rmult_le_compat; lra.
  - exact l_check.
  - unfold lC. apply Rmult_le_compat_r; [left; unfold ltau; apply Rinv_0_lt_compat; nra|]. replace (IZR (10 ^ 16)) with (10 ^ 16) by (rewrite pow_IZR; reflexivity). lra.
Qed.
