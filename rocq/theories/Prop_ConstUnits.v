(** * Property C61: units defined from constants (units/_si/additional.py:12, units/astro.py:13-22)
    [has_value] is in ConstSpec.v: scale in coherent SI units, and exponents of length, time, mass, current, temperature. *)
From Coq Require Import ZArith QArith Qcanon String List Bool Reals Lra Lia.
From Verif Require Import Frac FracFacts Units UnitSpec UnitsFacts UnitsThms Prefixes PrefixSpec Prop_Prefix Constants ConstSpec ConstFacts ConstVals ConstPkg Wien Prop_Constants.
Import ListNotations.
Open Scope string_scope.
Open Scope list_scope.
Local Open Scope R_scope.

Lemma limit_fint z : limit (fint z) = fint z.
Proof. apply limit_small. unfold fint. rewrite frac_den_coprime; [unfold max_den; lia|lia|apply Z.gcd_1_r]. Qed.
Lemma fint_add a b : (fint a + fint b)%Qc = fint (a + b).
Proof. apply Qc_is_canon. unfold fint, frac, Qcplus. cbn [this]. unfold Q2Qc. cbn [this]. rewrite ?Qred_correct. unfold Qeq, Qplus. cbn. ring. Qed.
Lemma fint_sub a b : (fint a - fint b)%Qc = fint (a - b).
Proof. apply Qc_is_canon. unfold fint, frac, Qcminus, Qcopp, Qcplus. cbn [this]. unfold Q2Qc. cbn [this]. rewrite ?Qred_correct. unfold Qeq, Qplus. cbn. ring. Qed.
Lemma hv_mul so u v x y l t m i th l' t' m' i' th' : has_value u x (l, t, m, i, th) -> has_value v y (l', t', m', i', th') ->
  has_value (umul so u v) (x * y) (l + l', t + t', m + m', i + i', th + th')%Z.
Proof.
  intros (Hx & D1 & D2 & D3 & D4 & D5 & D6) (Hy & E1 & E2 & E3 & E4 & E5 & E6). split; [cbn; congruence|].
  unfold has_dimension. rewrite !exp_mul, D1, D2, D3, D4, D5, E1, E2, E3, E4, E5, !fint_add, !limit_fint. repeat (split; [reflexivity|]).
  intros d Hd. rewrite exp_mul, D6, E6 by assumption. rewrite fint_add. apply limit_fint.
Qed.
Lemma hv_num u x l t m i th r : canonical (udim u) -> has_value u x (l, t, m, i, th) -> has_value (umulnum u r) (x * r) (l, t, m, i, th).
Proof.
  intros C (Hx & D1 & D2 & D3 & D4 & D5 & D6). split; [cbn; congruence|].
  unfold has_dimension. rewrite !exp_mulnum by exact C. repeat (split; [assumption|]).
  intros d Hd. rewrite exp_mulnum by assumption. auto.
Qed.
Lemma pure_can so v n name u : pure so v n name = Some u -> canonical (udim u).
Proof.
  rewrite sym_pure. generalize (sym v n name). intros [e|]; cbn [option_map]; [|discriminate]. intros E. injection E as <-. apply ueval_canonical.
Qed.
Lemma default_ok so n k : denotes (Top n) = Some (CODATA2018, n) -> (k < 24)%nat ->
  In n (fst (nth k (textbook codata2018_vals) (row [] 0 0 0 0 0 0))) ->
  exists u, default_constant so n = Some u /\ canonical (udim u) /\
    has_value u (fst (snd (nth k (textbook codata2018_vals) (row [] 0 0 0 0 0 0)))) (snd (snd (nth k (textbook codata2018_vals) (row [] 0 0 0 0 0 0)))).
Proof.
  intros D Hk H2. destruct (run so [Top n] initial_state) as [rs p] eqn:E.
  destruct (run_good so _ _ _ E) as (w & G & F). inversion F as [|x r xs0 rs0 A F0]; subst. inversion F0; subst. unfold access_res in A. rewrite D in A.
  destruct A as (c & -> & L). cbn [run do_access] in E. unfold default_constant. destruct (pkg_get so n initial_state) as [o p1]. assert (Eo : o = Some (OConst c)) by congruence. assert (p1 = p) by congruence. subst.
  exists (k_unit c). split; [reflexivity|]. split.
  - destruct L as (i & d & H & E1 & O). destruct (gm18 _ _ _ G _ _ H) as [_ I]. pose proof (ci_unit _ _ _ I _ _ E1) as U.
    eapply pure_can, U.
  - destruct (live_value so p w _ c G L) as (_ & row' & H3 & H4 & H5). cbn [fst snd values_of] in *.
    rewrite <- (row_unique codata2018_vals n _ (nth_In (textbook codata2018_vals) (row [] 0 0 0 0 0 0) (Hk : (k < List.length (textbook codata2018_vals))%nat)) H2 row' H3 H4). exact H5.
Qed.
Lemma hv_expr so e x l t m i th : uval (ueval so e) = x ->
  integral e && keys_in ["L"; "T"; "M"; "I"; "Θ"] e = true ->
  map (fun k => this (paper_exponent e k)) ["L"; "T"; "M"; "I"; "Θ"] = map (fun z => this (fint z)) [l; t; m; i; th] ->
  has_value (ueval so e) x (l, t, m, i, th).
Proof. intros Hx H1 H2. split; [exact Hx|]. apply dim_of_expr; assumption. Qed.

(** [ou] is a unit of this scale and dimension. *)
Definition unit_is (ou : option unit_) (x : R) (l t m i th : Z) : Prop := exists u, ou = Some u /\ has_value u x (l, t, m, i, th).
Arguments unit_is ou x%R_scope l%Z_scope t%Z_scope m%Z_scope i%Z_scope th%Z_scope.

(** Electronvolt, bar, barn, Julian year, jansky, light-year, parsec (648000/pi astronomical units), torr (1/760 atm). *)
Theorem C61_units_from_constants : forall so,
  unit_is (u_eV so) (1.602176634 * / 10 ^ 19) 2 (-2) 1 0 0 /\
  unit_is (Some (u_bar so)) 100000 (-1) (-2) 1 0 0 /\
  unit_is (Some u_barn) (/ 10 ^ 28) 2 0 0 0 0 /\
  unit_is (Some u_yr) (365.25 * 24 * 3600) 0 1 0 0 0 /\
  unit_is (Some (u_Jy so)) (/ 10 ^ 26) 0 (-2) 1 0 0 /\
  unit_is (u_lyr so) 9460730472580800 1 0 0 0 0 /\
  unit_is (Some (u_pc so)) (648000 / PI * 149597870700) 1 0 0 0 0 /\
  unit_is (u_Torr so) (101325 / 760) (-1) (-2) 1 0 0.
Proof.
  intros so. unfold unit_is.
  destruct (default_ok so "e" 4) as (ue & Ee & _ & He); [vm_compute; reflexivity|lia|left; reflexivity|]. cbn [nth textbook row fst snd] in He.
  destruct (default_ok so "c" 0) as (uc & Ec & _ & Hc); [vm_compute; reflexivity|lia|left; reflexivity|]. cbn [nth textbook row fst snd] in Hc.
  destruct (default_ok so "atm" 5) as (ua & Ea & Ca & Ha); [vm_compute; reflexivity|lia|left; reflexivity|]. cbn [nth textbook row fst snd] in Ha.
  assert (Yr : has_value u_yr (365.25 * 24 * 3600) (0, 1, 0, 0, 0)%Z).
  { apply (hv_expr so (UMulNum (UMulNum e_s 86400) (36525 / 100))); [cbn; lra|vm_compute; reflexivity|vm_compute; reflexivity]. }
  split.
  { unfold u_eV. rewrite Ee. eexists. split; [reflexivity|].
    assert (Hv : has_value (u_V so) 1 (2, -3, 1, -1, 0)%Z) by (apply (hv_expr so e_V); [apply ones_val; simpl; tauto|vm_compute; reflexivity|vm_compute; reflexivity]).
    pose proof (hv_mul so _ _ _ _ _ _ _ _ _ _ _ _ _ _ He Hv) as H. cbn [Z.add] in H. destruct H as [H1 H2]. split; [|exact H2].
    rewrite H1. unfold codata2018_vals, v_e. lra. }
  split.
  { eexists. split; [reflexivity|]. apply (hv_expr so (UMulNum (UDiv e_N (UPow e_m (fint 2))) (10 ^ 5))); [|vm_compute; reflexivity|vm_compute; reflexivity].
    cbn [ueval umulnum uval]. assert (X : uval (ueval so (UDiv e_N (UPow e_m (fint 2)))) = 1) by (apply ones_val; simpl; tauto). cbn [ueval] in X. rewrite X. lra. }
  split.
  { eexists. split; [reflexivity|]. apply (hv_expr so (UMulNum (UPow e_m (fint 2)) (powerRZ 10 (-28)))); [|vm_compute; reflexivity|vm_compute; reflexivity].
    cbn [ueval umulnum uval]. assert (X : uval (ueval so (UPow e_m (fint 2))) = 1) by (apply ones_val; simpl; tauto). cbn [ueval] in X. rewrite X. 
    cbn [powerRZ]. change (Pos.to_nat 28) with 28%nat. lra. }
  split.
  { eexists. split; [reflexivity|]. exact Yr. }
  split.
  { eexists. split; [reflexivity|]. apply (hv_expr so (UDiv (UDiv (UMulNum e_W (powerRZ 10 (-26))) (URDiv 1 e_s)) (UPow e_m (fint 2)))); [|vm_compute; reflexivity|vm_compute; reflexivity].
    cbn [ueval udiv umul upow umulnum urdiv uinv uval e_s e_m]. assert (X : uval (ueval so e_W) = 1) by (apply ones_val; simpl; tauto). rewrite X.
    cbn [unit_init uval]. rewrite !rpow_int. cbn [powerRZ]. change (Pos.to_nat 26) with 26%nat. change (Pos.to_nat 2) with 2%nat. change (Pos.to_nat 1) with 1%nat. lra. }
  split.
  { unfold u_lyr. rewrite Ec. eexists. split; [reflexivity|].
    pose proof (hv_mul so _ _ _ _ _ _ _ _ _ _ _ _ _ _ Hc Yr) as H. cbn [Z.add] in H. destruct H as [H1 H2]. split; [|exact H2].
    rewrite H1. unfold codata2018_vals, v_c. lra. }
  split.
  { eexists. split; [reflexivity|]. apply (hv_expr so (UDiv (UMulNum e_m 149597870700) (UDivNum (UDivNum (UMulNum (UNew [] 1) (PI / 180)) 60) 60))); [|vm_compute; reflexivity|vm_compute; reflexivity].
    cbn [ueval udiv udivnum umul upow umulnum urdiv uinv uval e_s e_m unit_init]. rewrite !rpow_int. cbn [powerRZ]. change (Pos.to_nat 1) with 1%nat.
    pose proof PI_neq. field. assumption. }
  unfold u_Torr. rewrite Ea. eexists. split; [reflexivity|].
  pose proof (hv_num _ _ _ _ _ _ _ (powerRZ 760 (-1)) Ca Ha) as [H1 H2]. split; [|exact H2].
  unfold udivnum. rewrite H1. unfold codata2018_vals, v_atm. cbn [powerRZ]. change (Pos.to_nat 1) with 1%nat. lra.
Qed.
Print Assumptions C61_units_from_constants.

(** The Rydberg unit of energy is the ionisation energy scale 2.1798723611 10^-18 J of CODATA 2018, to 10 digits. *)
Theorem C61_rydberg_energy : forall so, exists u, u_Ry so = Some u /\
  Rabs (uval u - 2.1798723611035 * / 10 ^ 18) <= 1 * / 10 ^ 27 /\ has_dimension u 2 (-2) 1 0 0.
Proof.
  intros so.
  destruct (default_ok so "Ryd" 18) as (ur & Er & _ & Hr); [vm_compute; reflexivity|lia|left; reflexivity|]. cbn [nth textbook row fst snd] in Hr.
  destruct (default_ok so "h" 1) as (uh & Eh & _ & Hh); [vm_compute; reflexivity|lia|left; reflexivity|]. cbn [nth textbook row fst snd] in Hh.
  destruct (default_ok so "c" 0) as (uc & Ec & _ & Hc); [vm_compute; reflexivity|lia|left; reflexivity|]. cbn [nth textbook row fst snd] in Hc.
  unfold u_Ry. rewrite Er, Eh, Ec. eexists. split; [reflexivity|].
  pose proof (hv_mul so _ _ _ _ _ _ _ _ _ _ _ _ _ _ (hv_mul so _ _ _ _ _ _ _ _ _ _ _ _ _ _ Hr Hh) Hc) as H. cbn [Z.add] in H. destruct H as [H1 H2].
  split; [|exact H2]. rewrite H1. cbn [v_c v_h v_k v_e v_alpha v_m_e v_m_p codata2018_vals]. rewrite f_ryd by lra. apply rat_plain; lra.
Qed.
Print Assumptions C61_rydberg_energy.
