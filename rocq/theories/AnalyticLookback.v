(** Real analysis behind the analytic lookback time: Carlson's substitutions for R_J and R_C. *)
From Coq Require Import Reals Ranalysis5 Lra Lia Psatz.
From Coquelicot Require Import Rcomplements Rbar Lim_seq Hierarchy Continuity Derive RInt RInt_analysis ElemFct AutoDerive Complex.
From Verif Require Import Roots RootsC RootsPrincipal CarlsonSpec CarlsonC AnalyticFacts AnalyticC.
Open Scope R_scope.

(** ** The only possible zero of the fourth argument of R_J lies beyond a zero of the polynomial. *)
Lemma no_zero b x k la : 1 / 2 < b -> 2 * b < x -> k = b - x - 1 -> x ^ 2 = 4 * b * la -> (forall y, 1 <= y <= x -> 0 < y ^ 3 + k * y ^ 2 + la) -> False.
Proof.
  intros B X K L PP. set (t := x - 2 * b). assert (T : 0 < t) by (unfold t; lra). set (m := x + 1 - b).
  pose proof (PP (2 / 3 * m) ltac:(unfold m; lra)) as Q. assert (E : (2 / 3 * m) ^ 3 + k * (2 / 3 * m) ^ 2 + la = la - 4 / 27 * m ^ 3) by (rewrite K; unfold m; field). rewrite E in Q. clear E PP.
  assert (Q2 : 0 < 27 * x ^ 2 - 16 * b * m ^ 3). { rewrite L. replace (27 * (4 * b * la) - 16 * b * m ^ 3) with (108 * b * (la - 4 / 27 * m ^ 3)) by field. apply Rmult_lt_0_compat; lra. }
  set (c := b + 1). assert (Cx : 0 < c) by (unfold c; lra).
  assert (A : 4 * b ^ 2 * m ^ 3 - c ^ 3 * x ^ 2 = t * (4 * b * c ^ 2 * (2 * b - 1)) + t ^ 2 * (c * (11 * b ^ 2 - 2 * b - 1)) + 4 * b ^ 2 * t ^ 3) by (unfold m, c, t; ring).
  assert (A1 : 0 < 4 * b * c ^ 2 * (2 * b - 1)) by (repeat apply Rmult_lt_0_compat; try apply pow_lt; lra).
  assert (A2 : 0 < c * (11 * b ^ 2 - 2 * b - 1)) by (apply Rmult_lt_0_compat; [lra|nra]).
  assert (A3 : 0 < 4 * b ^ 2 * m ^ 3 - c ^ 3 * x ^ 2).
  { rewrite A. assert (0 < t * (4 * b * c ^ 2 * (2 * b - 1))) by (apply Rmult_lt_0_compat; lra). assert (0 < t ^ 2 * (c * (11 * b ^ 2 - 2 * b - 1))) by (apply Rmult_lt_0_compat; [apply pow_lt; lra|lra]). assert (0 < 4 * b ^ 2 * t ^ 3) by (repeat apply Rmult_lt_0_compat; try apply pow_lt; lra). lra. }
  assert (A4 : 4 * c ^ 3 - 27 * b = (2 * b - 1) ^ 2 * (b + 4)) by (unfold c; ring).
  assert (A5 : 0 <= 4 * c ^ 3 - 27 * b) by (rewrite A4; apply Rmult_le_pos; [apply pow2_ge_0|lra]).
  assert (A6 : 0 <= x ^ 2 * (4 * c ^ 3 - 27 * b)) by (apply Rmult_le_pos; [apply pow2_ge_0|exact A5]).
  assert (A7 : 0 < b * (27 * x ^ 2 - 16 * b * m ^ 3)) by (apply Rmult_lt_0_compat; lra).
  assert (0 < 4 * (4 * b ^ 2 * m ^ 3 - c ^ 3 * x ^ 2)) by lra. lra.
Qed.

Section Lookback.
Variables (k la X H : R).
Hypothesis HX : 0 < X.
Hypothesis HH : 0 < H.
Definition l0 := X ^ 3 + k * X ^ 2 + la.
Definition l1 := 3 * X ^ 2 + 2 * k * X.
Definition l2 := 3 * X + k.
Notation P := (P l0 l1 l2 1 0). Notation G := (G l0 l1 l2 1 0). Notation q := (q l0 l1 l2 1 0). Notation dP := (dP l1 l2 1 0).
Hypothesis Ppos : forall h, 0 <= h <= H -> 0 < P h.
Lemma P_shift h : P h = (X + h) ^ 3 + k * (X + h) ^ 2 + la. Proof. unfold AnalyticFacts.P, l0, l1, l2. ring. Qed.
Notation s := (sqrt l0).
Let Ls : 0 < s := AnalyticFacts.s_pos l0 l1 l2 1 0 H HH Ppos.
Let Lss : s * s = l0 := AnalyticFacts.s_sq l0 l1 l2 1 0 H HH Ppos.
(** h^2 (G + X) *)
Definition n (h : R) : R := l1 * h + 2 * l0 + 2 * s * q h + X * h ^ 2.
Lemma n_G h : 0 < h -> n h = h ^ 2 * (G h + X). Proof. intros A. unfold n, AnalyticFacts.G. field. lra. Qed.
Lemma n_cont h : 0 <= h <= H -> continuous n h.
Proof.
  intros A. unfold n. apply (continuous_plus (fun h => l1 * h + 2 * l0 + 2 * s * q h) (fun h => X * h ^ 2)).
  - apply (continuous_plus (fun h => l1 * h + 2 * l0) (fun h => 2 * s * q h)); [apply (ex_derive_continuous (fun h => l1 * h + 2 * l0)); auto_derive; exact I|]. apply (continuous_mult (fun _ => 2 * s) q); [apply continuous_const|apply (q_cont l0 l1 l2 1 0 H Ppos h A)].
  - apply (ex_derive_continuous (fun h => X * h ^ 2)). auto_derive. exact I.
Qed.
Lemma n_identity h : 0 <= h <= H -> (X + h) * X * n h = (s * (X + h) + q h * X) ^ 2 - la * h ^ 2.
Proof.
  intros A. pose proof (q_sq l0 l1 l2 1 0 H Ppos h A) as QQ. rewrite P_shift in QQ. unfold n. set (y := q h) in *.
  transitivity ((X + h) ^ 2 * (s * s) + 2 * s * y * (X + h) * X + X ^ 2 * (y * y) - la * h ^ 2); [|ring]. rewrite QQ, Lss. unfold l0, l1. ring.
Qed.
Lemma n_pos h : 0 <= h <= H -> 0 < n h.
Proof.
  assert (NZ : forall h, 0 < h <= H -> n h <> 0).
  { intros h0 A Z. pose proof (n_identity h0 ltac:(lra)) as E. rewrite Z, Rmult_0_r in E. pose proof (q_pos l0 l1 l2 1 0 H Ppos h0 ltac:(lra)) as Q. pose proof (q_sq l0 l1 l2 1 0 H Ppos h0 ltac:(lra)) as QQ. rewrite P_shift in QQ. set (y := q h0) in *. set (x := X + h0) in *.
    assert (SP : 0 < s * x + y * X) by (apply Rplus_lt_0_compat; apply Rmult_lt_0_compat; unfold x; lra).
    assert (LP : 0 < la). { destruct (Rlt_le_dec 0 la) as [W|W]; [exact W|exfalso]. assert (0 < (s * x + y * X) ^ 2) by (apply pow_lt, SP). assert (0 <= - la * h0 ^ 2) by (apply Rmult_le_pos; [lra|apply pow2_ge_0]). lra. }
    set (a' := sqrt la). assert (A' : 0 < a') by (apply sqrt_lt_R0, LP). assert (AA : a' * a' = la) by (apply sqrt_sqrt; lra).
    assert (EQ : s * x + y * X = a' * h0).
    { assert (F : (s * x + y * X - a' * h0) * (s * x + y * X + a' * h0) = 0) by (transitivity ((s * x + y * X) ^ 2 - a' * a' * h0 ^ 2); [ring|rewrite AA; lra]). assert (0 < a' * h0) by (apply Rmult_lt_0_compat; lra). apply Rmult_integral in F. destruct F; lra. }
    set (a := a' - s). assert (QE : y * X = a * x - a' * X) by (unfold a, x in *; lra).
    assert (KX : k * X ^ 2 = a ^ 2 - 2 * a * a' - X ^ 3). { assert (k * X ^ 2 = s * s - X ^ 3 - a' * a') by (rewrite Lss, AA; unfold l0; ring). unfold a. rewrite H0. ring. }
    assert (FX : (x - X) * (X ^ 2 * x - 2 * a * a') = 0).
    { assert (F : (y * X) * (y * X) = X ^ 2 * (x ^ 3 + k * x ^ 2 + a' * a')) by (rewrite AA, <- QQ; ring). rewrite QE in F. assert (X ^ 2 * k = a ^ 2 - 2 * a * a' - X ^ 3) as KX' by lra.
      assert (F2 : x * ((x - X) * (X ^ 2 * x - 2 * a * a')) = 0). { replace (X ^ 2 * (x ^ 3 + k * x ^ 2 + a' * a')) with (X ^ 2 * x ^ 3 + X ^ 2 * k * x ^ 2 + X ^ 2 * (a' * a')) in F by ring. rewrite KX' in F. ring_simplify in F. ring_simplify. lra. }
      apply Rmult_integral in F2. destruct F2 as [F2|F2]; [unfold x in F2; lra|exact F2]. }
    apply Rmult_integral in FX. destruct FX as [FX|FX]; [unfold x in FX; lra|].
    assert (X3 : 0 < X ^ 3) by (apply pow_lt; lra). assert (Ap : 0 < a). { assert (0 < a * x). { assert (0 < y * X) by (apply Rmult_lt_0_compat; lra). assert (0 < a' * X) by (apply Rmult_lt_0_compat; lra). lra. } apply (Rmult_lt_reg_r x); [unfold x; lra|lra]. }
    assert (B1 : X ^ 3 < 2 * a ^ 2).
    { assert (W : a' * X < a * x) by (assert (0 < y * X) by (apply Rmult_lt_0_compat; lra); lra). apply (Rmult_lt_reg_l a'); [exact A'|]. apply Rle_lt_trans with (X ^ 2 * (a' * X)); [right; ring|]. apply Rlt_le_trans with (X ^ 2 * (a * x)); [apply Rmult_lt_compat_l; [apply pow_lt; lra|exact W]|]. right. transitivity (a * (X ^ 2 * x)); [ring|]. replace (X ^ 2 * x) with (2 * a * a') by lra. ring. }
    apply (no_zero (a ^ 2 / X ^ 3) (x / X) (k / X) (la / X ^ 3)).
    - apply (Rmult_lt_reg_r (X ^ 3)); [exact X3|]. replace (a ^ 2 / X ^ 3 * X ^ 3) with (a ^ 2) by (field; lra). lra.
    - apply (Rmult_lt_reg_r (X ^ 3)); [exact X3|]. replace (2 * (a ^ 2 / X ^ 3) * X ^ 3) with (2 * a ^ 2) by (field; lra). replace (x / X * X ^ 3) with (X ^ 2 * x) by (field; lra). replace (X ^ 2 * x) with (2 * a * a') by lra.
      replace (2 * a ^ 2) with (2 * a * a) by ring. apply Rmult_lt_compat_l; [lra|unfold a; lra].
    - apply (Rmult_eq_reg_r (X ^ 3)); [|lra]. replace (k / X * X ^ 3) with (k * X ^ 2) by (field; lra). rewrite KX. replace ((a ^ 2 / X ^ 3 - x / X - 1) * X ^ 3) with (a ^ 2 - X ^ 2 * x - X ^ 3) by (field; lra). replace (X ^ 2 * x) with (2 * a * a') by lra. ring.
    - apply (Rmult_eq_reg_r (X ^ 6)); [|apply pow_nonzero; lra]. replace ((x / X) ^ 2 * X ^ 6) with ((X ^ 2 * x) * (X ^ 2 * x)) by (field; lra). replace (4 * (a ^ 2 / X ^ 3) * (la / X ^ 3) * X ^ 6) with (4 * a ^ 2 * la) by (field; lra). replace (X ^ 2 * x) with (2 * a * a') by lra. rewrite <- AA. ring.
    - intros y0 Hy. assert (0 < P (y0 * X - X)).
      { apply Ppos. split; [assert (1 * X <= y0 * X) by (apply Rmult_le_compat_r; lra); lra|]. assert (y0 * X <= x / X * X) by (apply Rmult_le_compat_r; lra). replace (x / X * X) with x in H0 by (field; lra). unfold x in H0. lra. }
      rewrite P_shift in H0. apply (Rmult_lt_reg_r (X ^ 3)); [exact X3|]. rewrite Rmult_0_l. replace ((y0 ^ 3 + k / X * y0 ^ 2 + la / X ^ 3) * X ^ 3) with ((X + (y0 * X - X)) ^ 3 + k * (X + (y0 * X - X)) ^ 2 + la) by (field; lra). exact H0. }
  assert (N0 : 0 < n 0). { unfold n. pose proof (AnalyticFacts.p0_pos l0 l1 l2 1 0 H HH Ppos). pose proof (q_pos l0 l1 l2 1 0 H Ppos 0 ltac:(lra)) as Q. assert (0 < s * q 0) by (apply Rmult_lt_0_compat; [exact Ls|exact Q]). lra. }
  intros A. destruct (Rlt_le_dec 0 (n h)) as [W|W]; [exact W|exfalso]. assert (h <> 0) by (intros ->; lra).
  destruct (f_interv_is_interv (fun t => - n t) 0 h 0 ltac:(lra)) as (z & Hz & Ez); [cbv beta; lra|intros c Hc; apply continuity_pt_opp, continuity_pt_filterlim, n_cont; lra|].
  destruct (Req_dec z 0) as [->|Nz]; [lra|]. apply (NZ z ltac:(lra)). lra.
Qed.
(** ** R_C *)
Definition M (h : R) : R := (s * (X + h) + q h * X) / h.
Lemma M_pos h : 0 < h <= H -> 0 < M h.
Proof. intros A. pose proof (q_pos l0 l1 l2 1 0 H Ppos h ltac:(lra)) as Q. apply Rdiv_lt_0_compat; [|lra]. apply Rplus_lt_0_compat; apply Rmult_lt_0_compat; lra. Qed.
Lemma M_sq h : 0 < h <= H -> M h ^ 2 - la = (X + h) * X * n h / h ^ 2.
Proof. intros A. rewrite n_identity by lra. unfold M. field. lra. Qed.
Lemma M_derive h : 0 < h <= H -> is_derive M h (- (X * (l1 * h + 2 * l0 + 2 * s * q h - h ^ 3)) / (2 * q h * h ^ 2)).
Proof.
  intros A. pose proof (q_pos l0 l1 l2 1 0 H Ppos h ltac:(lra)) as Q. pose proof (q_sq l0 l1 l2 1 0 H Ppos h ltac:(lra)) as QQ. unfold M.
  evar_last; [apply (is_derive_div (fun h => s * (X + h) + q h * X) (fun h => h) h (s + dP h / (2 * q h) * X) 1)|].
  - apply (is_derive_plus (fun h => s * (X + h)) (fun h => q h * X)); [auto_derive; [exact I|ring]|]. evar_last; [apply (is_derive_mult q (fun _ => X) h (dP h / (2 * q h)) 0); [apply (q_derive l0 l1 l2 1 0 H Ppos); lra|apply (is_derive_const X h)|intros; apply Rmult_comm]|]. unfold plus, mult; simpl. ring.
  - apply (is_derive_id h).
  - lra.
  - cbv beta. unfold AnalyticFacts.P in QQ. unfold AnalyticFacts.dP. set (y := q h) in *. apply (Rmult_eq_reg_r (2 * y * h ^ 2)); [|apply Rmult_integral_contrapositive_currified; [lra|apply pow_nonzero; lra]].
    transitivity (X * (h * (l1 + 2 * l2 * h + 3 * 1 * h ^ 2 + 4 * 0 * h ^ 3) - 2 * s * y - 2 * (y * y))); [field; split; lra|]. rewrite QQ. field. split; lra.
Qed.
Definition wC (h : R) : R := (l1 * h + 2 * l0 + 2 * s * q h - h ^ 3) / (2 * H * q h * (X + h) * n h).
Lemma den_cont h : 0 <= h <= H -> continuous (fun h => 2 * H * q h * (X + h) * n h) h.
Proof.
  intros A. apply (continuous_mult (fun h => 2 * H * q h * (X + h)) n); [|apply n_cont, A]. apply (continuous_mult (fun h => 2 * H * q h) (fun h => X + h)).
  - apply (continuous_mult (fun _ => 2 * H) q); [apply continuous_const|apply (q_cont l0 l1 l2 1 0 H Ppos h A)].
  - apply (ex_derive_continuous (fun h => X + h)). auto_derive. exact I.
Qed.
Lemma den_pos h : 0 <= h <= H -> 0 < 2 * H * q h * (X + h) * n h.
Proof. intros A. pose proof (q_pos l0 l1 l2 1 0 H Ppos h A). pose proof (n_pos h A). repeat apply Rmult_lt_0_compat; lra. Qed.
Lemma num_cont h : 0 <= h <= H -> continuous (fun h => l1 * h + 2 * l0 + 2 * s * q h - h ^ 3) h.
Proof.
  intros A. apply (continuous_minus (fun h => l1 * h + 2 * l0 + 2 * s * q h) (fun h => h ^ 3)); [|apply (ex_derive_continuous (fun h => h ^ 3)); auto_derive; exact I].
  apply (continuous_plus (fun h => l1 * h + 2 * l0) (fun h => 2 * s * q h)); [apply (ex_derive_continuous (fun h => l1 * h + 2 * l0)); auto_derive; exact I|]. apply (continuous_mult (fun _ => 2 * s) q); [apply continuous_const|apply (q_cont l0 l1 l2 1 0 H Ppos h A)].
Qed.
Lemma inv_cont (f : R -> R) h : continuous f h -> f h <> 0 -> continuous (fun h => / f h) h.
Proof. intros A B. apply continuity_pt_filterlim, continuity_pt_inv; [apply continuity_pt_filterlim, A|exact B]. Qed.
Lemma wC_cont h : 0 <= h <= H -> continuous wC h.
Proof.
  intros A. unfold wC. apply (continuous_mult (fun h => l1 * h + 2 * l0 + 2 * s * q h - h ^ 3) (fun h => / (2 * H * q h * (X + h) * n h))); [apply num_cont, A|]. apply (inv_cont (fun h => 2 * H * q h * (X + h) * n h)); [apply den_cont, A|]. pose proof (den_pos h A). lra.
Qed.
Definition phi (h : R) : R := H ^ 2 * M h ^ 2.
Definition FC (v : R) : R := / (2 * sqrt v * (v - la * H ^ 2)).
Definition dphi (h : R) : R := H ^ 2 * (2 * (M h * (- (X * (l1 * h + 2 * l0 + 2 * s * q h - h ^ 3)) / (2 * q h * h ^ 2)))).
Lemma phi_derive h : 0 < h <= H -> is_derive phi h (dphi h).
Proof.
  intros A. pose proof (M_derive h A) as D. unfold phi. evar_last; [apply (is_derive_scal (fun h => M h ^ 2)); apply (is_derive_pow M 2 h _ D)|]. unfold dphi. simpl. ring.
Qed.
Lemma dphi_cont h : 0 < h <= H -> continuous dphi h.
Proof.
  intros A. pose proof (q_pos l0 l1 l2 1 0 H Ppos h ltac:(lra)) as Q. unfold dphi. apply (continuous_mult (fun _ => H ^ 2) (fun h => 2 * (M h * (- (X * (l1 * h + 2 * l0 + 2 * s * q h - h ^ 3)) / (2 * q h * h ^ 2))))); [apply continuous_const|].
  apply (continuous_mult (fun _ => 2) (fun h => M h * (- (X * (l1 * h + 2 * l0 + 2 * s * q h - h ^ 3)) / (2 * q h * h ^ 2)))); [apply continuous_const|].
  apply (continuous_mult M (fun h => - (X * (l1 * h + 2 * l0 + 2 * s * q h - h ^ 3)) / (2 * q h * h ^ 2))); [apply (ex_derive_continuous M); eexists; apply M_derive, A|].
  apply (continuous_mult (fun h => - (X * (l1 * h + 2 * l0 + 2 * s * q h - h ^ 3))) (fun h => / (2 * q h * h ^ 2))).
  - apply (continuous_opp (fun h => X * (l1 * h + 2 * l0 + 2 * s * q h - h ^ 3))). apply (continuous_mult (fun _ => X) (fun h => l1 * h + 2 * l0 + 2 * s * q h - h ^ 3)); [apply continuous_const|apply num_cont; lra].
  - apply (inv_cont (fun h => 2 * q h * h ^ 2)).
    + apply (continuous_mult (fun h => 2 * q h) (fun h => h ^ 2)); [|apply (ex_derive_continuous (fun h => h ^ 2)); auto_derive; exact I]. apply (continuous_mult (fun _ => 2) q); [apply continuous_const|apply (q_cont l0 l1 l2 1 0 H Ppos); lra].
    + apply Rmult_integral_contrapositive_currified; [lra|apply pow_nonzero; lra].
Qed.
Lemma phi_fine h : 0 < h <= H -> 0 < phi h /\ phi h - la * H ^ 2 = H ^ 2 * ((X + h) * X * n h / h ^ 2) /\ 0 < phi h - la * H ^ 2.
Proof.
  intros A. pose proof (M_pos h A) as Mp. assert (H2 : 0 < H ^ 2) by (apply pow_lt; lra). assert (E : phi h - la * H ^ 2 = H ^ 2 * ((X + h) * X * n h / h ^ 2)) by (rewrite <- M_sq by exact A; unfold phi; ring).
  split; [unfold phi; apply Rmult_lt_0_compat; [exact H2|apply pow_lt, Mp]|]. split; [exact E|]. rewrite E. pose proof (n_pos h ltac:(lra)). apply Rmult_lt_0_compat; [exact H2|]. apply Rdiv_lt_0_compat; [repeat apply Rmult_lt_0_compat; lra|apply pow_lt; lra].
Qed.
Lemma FC_cont v : 0 < v -> v - la * H ^ 2 <> 0 -> continuous FC v.
Proof.
  intros A B. unfold FC. apply (inv_cont (fun v => 2 * sqrt v * (v - la * H ^ 2))).
  - apply (continuous_mult (fun v => 2 * sqrt v) (fun v => v - la * H ^ 2)); [|apply (ex_derive_continuous (fun v => v - la * H ^ 2)); auto_derive; exact I]. apply (continuous_mult (fun _ => 2) sqrt); [apply continuous_const|]. apply continuity_pt_filterlim, continuity_pt_sqrt. lra.
  - pose proof (sqrt_lt_R0 v A). apply Rmult_integral_contrapositive_currified; [lra|exact B].
Qed.
Lemma phi_infinite B : exists d, 0 < d <= H /\ forall h, 0 < h <= d -> B < phi h.
Proof.
  set (K := Rabs B + 1). assert (K1 : 1 <= K) by (unfold K; pose proof (Rabs_pos B); lra). assert (KB : B < K) by (unfold K; pose proof (Rle_abs B); lra).
  set (c := H * s * X / K). assert (Cp : 0 < c) by (unfold c; apply Rdiv_lt_0_compat; [repeat apply Rmult_lt_0_compat; lra|lra]). exists (Rmin H c). split; [split; [apply Rmin_glb_lt; lra|apply Rmin_l]|]. intros h A.
  pose proof (Rmin_l H c). pose proof (Rmin_r H c). assert (Q : 0 < q h) by (apply (q_pos l0 l1 l2 1 0 H Ppos); lra).
  assert (W : K < H * M h).
  { unfold M. apply (Rmult_lt_reg_r h); [lra|]. replace (H * ((s * (X + h) + q h * X) / h) * h) with (H * s * X + H * (s * h + q h * X)) by (field; lra). assert (K * h <= H * s * X). { apply Rle_trans with (K * c); [apply Rmult_le_compat_l; lra|]. right. unfold c. field. lra. }
    assert (0 < H * (s * h + q h * X)) by (apply Rmult_lt_0_compat; [lra|]; apply Rplus_lt_0_compat; apply Rmult_lt_0_compat; lra). lra. }
  unfold phi. replace (H ^ 2 * M h ^ 2) with ((H * M h) * (H * M h)) by ring. apply Rlt_trans with K; [exact KB|]. apply Rle_lt_trans with (K * 1); [lra|]. apply Rlt_le_trans with ((H * M h) * 1); [lra|]. apply Rmult_le_compat_l; lra.
Qed.
Lemma RC_limit : is_lim (fun T => RInt (fun t => FC (phi H + t)) 0 T) p_infty (RInt wC 0 H).
Proof.
  apply (subst_improper H phi dphi FC wC HH).
  - intros h A. split; [apply phi_derive, A|apply dphi_cont, A].
  - intros h A. destruct (phi_fine h A) as (A1 & _ & A3). apply FC_cont; lra.
  - intros h A. destruct (phi_fine h A) as (A1 & A2 & A3). pose proof (M_pos h A) as Mp. pose proof (q_pos l0 l1 l2 1 0 H Ppos h ltac:(lra)) as Q. pose proof (n_pos h ltac:(lra)) as N. unfold FC. rewrite A2. unfold phi. replace (H ^ 2 * M h ^ 2) with ((H * M h) * (H * M h)) by ring. rewrite sqrt_square by (apply Rmult_le_pos; lra).
    unfold dphi, wC. set (num := l1 * h + 2 * l0 + 2 * s * q h - h ^ 3). field. repeat split; lra.
  - exact wC_cont.
  - exact phi_infinite.
Qed.
Lemma improper_real (f : R -> C) g (v : R) : (forall t, 0 <= t -> f t = RtoC (g t)) -> is_lim (fun T => RInt g 0 T) p_infty v -> improper f (RtoC v).
Proof.
  intros E L. split.
  - apply (is_lim_ext_loc (fun T => RInt g 0 T)); [|exact L]. exists 0. intros T HT. apply RInt_ext. intros t Ht. rewrite Rmin_left, Rmax_right in Ht by lra. rewrite E by lra. reflexivity.
  - apply (is_lim_ext_loc (fun T => 0)); [|apply (is_lim_const 0 p_infty)]. exists 0. intros T HT. symmetry. transitivity (RInt (fun _ => 0) 0 T); [apply RInt_ext; intros t Ht; rewrite Rmin_left, Rmax_right in Ht by lra; rewrite E by lra; reflexivity|]. rewrite RInt_const. apply Rmult_0_r.
Qed.
Variable cs : C -> C.
Hypothesis Hs : principal_sqrt cs.
Lemma RC_path : is_RC cs (RtoC ((s * (X + H) + q H * X) ^ 2)) (RtoC ((X + H) * X * n H)) (RtoC (RInt wC 0 H)).
Proof.
  assert (E : phi H = (s * (X + H) + q H * X) ^ 2) by (unfold phi, M; field; lra). assert (E2 : (X + H) * X * n H = phi H - la * H ^ 2) by (rewrite n_identity, E by lra; reflexivity).
  destruct (phi_fine H ltac:(lra)) as (A1 & _ & A3). apply (improper_real _ (fun t => FC (phi H + t))); [|exact RC_limit]. intros t T. rewrite <- E, E2, <- !RtoC_plus, (sqrt_pos_real cs Hs) by lra.
  pose proof (sqrt_lt_R0 (t + phi H) ltac:(lra)). rewrite <- !RtoC_mult, <- RtoC_div. 2:{ apply Rgt_not_eq. apply Rmult_lt_0_compat; [lra|]. apply Rmult_lt_0_compat; lra. }
  f_equal. unfold FC. rewrite (Rplus_comm (phi H) t). field. repeat split; lra.
Qed.
(** ** R_J *)
Variables (k1 k2 k3 : C).
Hypothesis K1 : (k1 + k2 + k3)%C = RtoC l2.
Hypothesis K2 : (k1 * k2 + k1 * k3 + k2 * k3)%C = RtoC (l1 * 1 - 4 * l0 * 0).
Hypothesis K3 : (k1 * k2 * k3)%C = RtoC (l1 ^ 2 * 0 + 1 ^ 2 * l0 - 4 * l0 * l2 * 0).
Hypothesis NV : forall h k, 0 < h <= H -> k = k1 \/ k = k2 \/ k = k3 -> (RtoC (G h) + k)%C <> RtoC 0.
Definition wJ (h : R) : R := 3 / (2 * H ^ 3) * (h ^ 2 / (q h * n h)).
Lemma wJ_cont h : 0 <= h <= H -> continuous wJ h.
Proof.
  intros A. unfold wJ. apply (continuous_mult (fun _ => 3 / (2 * H ^ 3)) (fun h => h ^ 2 / (q h * n h))); [apply continuous_const|]. apply (continuous_mult (fun h => h ^ 2) (fun h => / (q h * n h))); [apply (ex_derive_continuous (fun h => h ^ 2)); auto_derive; exact I|].
  pose proof (q_pos l0 l1 l2 1 0 H Ppos h A). pose proof (n_pos h A). apply (inv_cont (fun h => q h * n h)); [apply (continuous_mult q n); [apply (q_cont l0 l1 l2 1 0 H Ppos h A)|apply n_cont, A]|]. apply Rmult_integral_contrapositive_currified; lra.
Qed.
Lemma GX_pos h : 0 < h <= H -> 0 < G h + X.
Proof. intros A. pose proof (n_pos h ltac:(lra)) as N. rewrite n_G in N by lra. assert (0 < h ^ 2) by (apply pow_lt; lra). apply (Rmult_lt_reg_l (h ^ 2)); lra. Qed.
Lemma RJ_path : is_RJ cs (RtoC (H * H) * (RtoC (G H) + k1))%C (RtoC (H * H) * (RtoC (G H) + k2))%C (RtoC (H * H) * (RtoC (G H) + k3))%C (RtoC (n H)) (RtoC (RInt wJ 0 H)).
Proof.
  assert (H2 : 0 < H * H) by (apply Rmult_lt_0_compat; lra).
  apply (improper_path cs Hs l0 l1 l2 1 0 H HH Ppos k1 k2 k3 K1 K2 K3 NV (fun v => 3 / (2 * H ^ 3) * / (v + X)) wJ).
  - intros h A. pose proof (GX_pos h A). apply (continuous_mult (fun _ => 3 / (2 * H ^ 3)) (fun v => / (v + X))); [apply continuous_const|]. apply (inv_cont (fun v => v + X)); [|lra]. apply (ex_derive_continuous (fun v => v + X)). auto_derive. exact I.
  - exact wJ_cont.
  - intros h A. pose proof (GX_pos h A). pose proof (q_pos l0 l1 l2 1 0 H Ppos h ltac:(lra)). unfold wJ. rewrite n_G by lra. field. repeat split; try lra; apply pow_nonzero; lra.
  - intros t T. destruct (roots_path cs Hs l0 l1 l2 1 0 H HH Ppos k1 k2 k3 K1 K2 K3 NV t T) as [RP E]. rewrite E. pose proof (sqrt_lt_R0 _ RP) as SP. set (v := G H + t / (H * H)) in *. set (Z := sqrt (Res l0 l1 l2 1 0 v)) in *.
    assert (0 <= t / (H * H)) by (apply Rmult_le_pos; [exact T|left; apply Rinv_0_lt_compat; exact H2]). pose proof (GX_pos H ltac:(lra)) as GP. assert (VX : 0 < v + X) by (unfold v; lra).
    assert (TP : t + n H = H * H * (v + X)) by (rewrite n_G by lra; unfold v; field; lra).
    rewrite <- RtoC_plus, TP, <- !RtoC_mult, <- RtoC_div.
    + f_equal. field. repeat split; lra.
    + apply Rgt_not_eq. repeat apply Rmult_lt_0_compat; try lra; apply pow_lt; lra.
Qed.
(** ** Together *)
Lemma lookback_sum : RInt wC 0 H + H ^ 2 / 3 * RInt wJ 0 H = RInt (fun h => / ((X + h) * q h)) 0 H / (2 * H).
Proof.
  assert (X1 : ex_RInt wC 0 H) by (apply (ex_RInt_continuous wC); intros z Hz; rewrite Rmin_left, Rmax_right in Hz by lra; apply wC_cont, Hz).
  assert (X2 : ex_RInt wJ 0 H) by (apply (ex_RInt_continuous wJ); intros z Hz; rewrite Rmin_left, Rmax_right in Hz by lra; apply wJ_cont, Hz).
  assert (Cq : forall h, 0 <= h <= H -> continuous (fun h => / ((X + h) * q h)) h).
  { intros h A. pose proof (q_pos l0 l1 l2 1 0 H Ppos h A). apply (inv_cont (fun h => (X + h) * q h)); [|apply Rmult_integral_contrapositive_currified; lra]. apply (continuous_mult (fun h => X + h) q); [apply (ex_derive_continuous (fun h => X + h)); auto_derive; exact I|apply (q_cont l0 l1 l2 1 0 H Ppos h A)]. }
  assert (X3 : ex_RInt (fun h => / ((X + h) * q h)) 0 H) by (apply (ex_RInt_continuous (fun h => / ((X + h) * q h))); intros z Hz; rewrite Rmin_left, Rmax_right in Hz by lra; apply Cq, Hz).
  pose proof (RInt_scal (fun h => / ((X + h) * q h)) 0 H (/ (2 * H)) X3) as R3. change (RInt (fun h => / (2 * H) * / ((X + h) * q h)) 0 H = / (2 * H) * RInt (fun h => / ((X + h) * q h)) 0 H) in R3.
  pose proof (RInt_scal wJ 0 H (H ^ 2 / 3) X2) as R2. change (RInt (fun h => H ^ 2 / 3 * wJ h) 0 H = H ^ 2 / 3 * RInt wJ 0 H) in R2.
  pose proof (RInt_plus wC (fun h => H ^ 2 / 3 * wJ h) 0 H X1 ltac:(apply (ex_RInt_scal wJ), X2)) as R1. change (RInt (fun h => wC h + H ^ 2 / 3 * wJ h) 0 H = RInt wC 0 H + RInt (fun h => H ^ 2 / 3 * wJ h) 0 H) in R1.
  rewrite <- R2, <- R1. transitivity (/ (2 * H) * RInt (fun h => / ((X + h) * q h)) 0 H); [|unfold Rdiv; apply Rmult_comm]. rewrite <- R3. apply RInt_ext. intros h A. rewrite Rmin_left, Rmax_right in A by lra. pose proof (q_pos l0 l1 l2 1 0 H Ppos h ltac:(lra)). pose proof (n_pos h ltac:(lra)) as N.
  unfold wC, wJ. apply (Rmult_eq_reg_r (2 * H * q h * (X + h) * n h)); [|pose proof (den_pos h ltac:(lra)); lra].
  transitivity (l1 * h + 2 * l0 + 2 * s * q h - h ^ 3 + h ^ 2 * (X + h)); [field; repeat split; lra|]. transitivity (n h); [unfold n; ring|]. field. repeat split; lra.
Qed.
End Lookback.
