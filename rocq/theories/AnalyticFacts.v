(** Real analysis behind the analytic distances: Carlson's substitution. *)
From Coq Require Import Reals Ranalysis5 Lra Lia Psatz.
From Coquelicot Require Import Rcomplements Rbar Lim_seq Hierarchy Continuity Derive RInt RInt_analysis ElemFct AutoDerive.
Open Scope R_scope.

(** ** Substitution in an improper integral: [phi] maps (0, H] onto an unbounded interval. *)
Section Subst.
Variables (H : R) (phi dphi F w : R -> R).
Hypothesis HH : 0 < H.
Hypothesis D : forall h, 0 < h <= H -> is_derive phi h (dphi h) /\ continuous dphi h.
Hypothesis CF : forall h, 0 < h <= H -> continuous F (phi h).
Hypothesis E : forall h, 0 < h <= H -> dphi h * F (phi h) = - w h.
Hypothesis Cw : forall h, 0 <= h <= H -> continuous w h.
Hypothesis Inf : forall B, exists d, 0 < d <= H /\ forall h, 0 < h <= d -> B < phi h.

Lemma phi_cont h : 0 < h <= H -> continuity_pt phi h.
Proof. intros A. apply continuity_pt_filterlim. apply (ex_derive_continuous phi). exists (dphi h). apply D, A. Qed.

Lemma between h z : 0 < h < H -> Rmin (phi h) (phi H) <= z <= Rmax (phi h) (phi H) -> exists x, h <= x <= H /\ phi x = z.
Proof.
  intros A B. destruct (Rle_dec (phi h) (phi H)) as [L|L].
  - rewrite Rmin_left, Rmax_right in B by exact L. destruct (f_interv_is_interv phi h H z ltac:(lra) B) as (x & X1 & X2); [intros c Hc; apply phi_cont; lra|]. exists x. split; assumption.
  - rewrite Rmin_right, Rmax_left in B by lra. destruct (f_interv_is_interv (fun t => - phi t) h H (- z) ltac:(lra) ltac:(lra)) as (x & X1 & X2); [intros c Hc; apply continuity_pt_opp, phi_cont; lra|]. exists x. split; [assumption|lra].
Qed.
Lemma ex_F h : 0 < h <= H -> ex_RInt F (phi h) (phi H).
Proof.
  intros A. destruct (Req_dec h H) as [->|N]; [apply ex_RInt_point|]. apply (ex_RInt_continuous F). intros z Hz. destruct (between h z ltac:(lra) Hz) as (x & Hx & <-). apply CF. lra.
Qed.
Lemma subst_part h : 0 < h <= H -> RInt F (phi H) (phi h) = RInt w h H.
Proof.
  intros Hh. assert (B : forall x, Rmin h H <= x <= Rmax h H -> 0 < x <= H) by (intros x; rewrite Rmin_left, Rmax_right by lra; lra).
  assert (A : RInt (fun y => scal (dphi y) (F (phi y))) h H = RInt F (phi h) (phi H)).
  { apply (RInt_comp F phi dphi h H); intros x Hx; [apply CF, B, Hx|apply D, B, Hx]. }
  pose proof (opp_RInt_swap F (phi h) (phi H) (ex_F h Hh)) as SW. change (- RInt F (phi h) (phi H) = RInt F (phi H) (phi h)) in SW. rewrite <- SW.
  rewrite <- A. transitivity (- RInt (fun y => - w y) h H).
  - f_equal. apply RInt_ext. intros x Hx. rewrite Rmin_left, Rmax_right in Hx by lra. apply E. lra.
  - assert (X : ex_RInt w h H) by (apply (ex_RInt_continuous w); intros z Hz; rewrite Rmin_left, Rmax_right in Hz by lra; apply Cw; lra).
    pose proof (RInt_opp w h H X) as O. change (RInt (fun x => - w x) h H = - RInt w h H) in O. rewrite O. lra.
Qed.
Lemma ex_w a b : 0 <= a <= H -> 0 <= b <= H -> ex_RInt w a b.
Proof. intros A B. apply (ex_RInt_continuous w). intros z Hz. apply Cw. unfold Rmin, Rmax in Hz. destruct (Rle_dec a b); lra. Qed.
Lemma onto v h0 : 0 < h0 <= H -> (forall h, h0 <= h <= H -> phi h < v) -> exists h, 0 < h < h0 /\ phi h = v.
Proof.
  intros A B. destruct (Inf v) as (d & Hd & Ld). assert (L : d < h0). { destruct (Rlt_le_dec d h0) as [X|X]; [exact X|exfalso]. pose proof (B h0 ltac:(lra)). pose proof (Ld h0 ltac:(lra)). lra. }
  destruct (IVT_interv (fun h => v - phi h) d h0) as (h & Hh & Z).
  - intros a Ha. apply continuity_pt_minus; [apply continuity_pt_const; intros x y; reflexivity|apply phi_cont; lra].
  - exact L.
  - pose proof (Ld d ltac:(lra)). lra.
  - pose proof (B h0 ltac:(lra)). lra.
  - exists h. split; [|lra]. split; [lra|]. destruct (Req_dec h h0) as [->|N]; [|lra]. pose proof (B h0 ltac:(lra)). lra.
Qed.
Lemma subst_improper : is_lim (fun T => RInt (fun t => F (phi H + t)) 0 T) p_infty (RInt w 0 H).
Proof.
  apply is_lim_spec. intros [eps He]. simpl.
  (* near 0 the integral of w is small *)
  assert (S : exists h0, 0 < h0 <= H /\ forall h, 0 < h <= h0 -> Rabs (RInt w 0 h) < eps).
  { destruct (continuity_ab_maj (fun h => Rabs (w h)) 0 H) as (m & Hm & _); [lra| |].
    - intros c Hc. apply (continuity_pt_comp w Rabs); [apply continuity_pt_filterlim, Cw, Hc|apply Rcontinuity_abs].
    - set (M := Rabs (w m)) in *. assert (M0 : 0 <= M) by apply Rabs_pos. exists (Rmin H (eps / (2 * (M + 1)))).
      assert (P : 0 < eps / (2 * (M + 1))) by (apply Rdiv_lt_0_compat; lra). split; [split; [apply Rmin_glb_lt; lra|apply Rmin_l]|]. intros h Hh.
      pose proof (Rmin_l H (eps / (2 * (M + 1)))). pose proof (Rmin_r H (eps / (2 * (M + 1)))).
      assert (L : Rabs (RInt w 0 h) <= (h - 0) * M).
      { apply (abs_RInt_le_const w 0 h M); [lra|apply ex_w; lra|]. intros t Ht. apply Hm. lra. }
      apply Rle_lt_trans with (1 := L). apply Rle_lt_trans with (eps / (2 * (M + 1)) * (M + 1)).
      + rewrite Rminus_0_r. apply Rmult_le_compat; lra.
      + replace (eps / (2 * (M + 1)) * (M + 1)) with (eps / 2) by (field; lra). lra. }
  destruct S as (h0 & Hh0 & S).
  destruct (continuity_ab_maj phi h0 H) as (m & Hm & _); [lra|intros c Hc; apply phi_cont; lra|].
  exists (phi m - phi H). intros T HT.
  assert (TP : 0 <= T) by (pose proof (Hm H ltac:(lra)); lra).
  destruct (onto (phi H + T) h0 Hh0) as (h & Hh & Q); [intros h Hh; pose proof (Hm h Hh); lra|].
  assert (J : RInt (fun t => F (phi H + t)) 0 T = RInt w h H).
  { rewrite <- subst_part by lra. pose proof (ex_RInt_swap _ _ _ (ex_F h ltac:(lra))) as EX.
    pose proof (RInt_comp_lin F 1 (phi H) 0 T) as RL. replace (1 * 0 + phi H) with (phi H) in RL by ring. replace (1 * T + phi H) with (phi h) in RL by lra.
    rewrite <- RL by exact EX. apply RInt_ext. intros x _. unfold scal; simpl; unfold mult; simpl. rewrite !Rmult_1_l. f_equal. ring. }
  rewrite J. assert (CH : RInt w 0 h + RInt w h H = RInt w 0 H) by (apply (RInt_Chasles w); apply ex_w; lra).
  replace (RInt w h H - RInt w 0 H) with (- RInt w 0 h) by lra. rewrite Rabs_Ropp. apply S. lra.
Qed.
End Subst.

(** ** Carlson's variable for a polynomial of degree at most 4, positive on [0, H] *)
Section Core.
Variables (p0 p1 p2 p3 p4 H : R).
Definition P (h : R) : R := p0 + p1 * h + p2 * h ^ 2 + p3 * h ^ 3 + p4 * h ^ 4.
Definition dP (h : R) : R := p1 + 2 * p2 * h + 3 * p3 * h ^ 2 + 4 * p4 * h ^ 3.
Definition q (h : R) : R := sqrt (P h).
Definition G (h : R) : R := (p1 * h + 2 * p0 + 2 * sqrt p0 * q h) / h ^ 2.
Definition Res (g : R) : R := g ^ 3 + p2 * g ^ 2 + (p1 * p3 - 4 * p0 * p4) * g + (p1 ^ 2 * p4 + p3 ^ 2 * p0 - 4 * p0 * p2 * p4).
Definition N (h : R) : R := - (q h * (p1 * h + 4 * p0) + sqrt p0 * (p3 * h ^ 3 + 2 * p2 * h ^ 2 + 3 * p1 * h + 4 * p0)).
Hypothesis HH : 0 < H.
Hypothesis Ppos : forall h, 0 <= h <= H -> 0 < P h.
Lemma p0_pos : 0 < p0.
Proof. pose proof (Ppos 0 ltac:(lra)) as X. unfold P in X. lra. Qed.
Lemma q_pos h : 0 <= h <= H -> 0 < q h. Proof. intros A. apply sqrt_lt_R0, Ppos, A. Qed.
Lemma q_sq h : 0 <= h <= H -> q h * q h = P h. Proof. intros A. apply sqrt_sqrt. left. apply Ppos, A. Qed.
Lemma s_pos : 0 < sqrt p0. Proof. apply sqrt_lt_R0, p0_pos. Qed.
Lemma s_sq : sqrt p0 * sqrt p0 = p0. Proof. apply sqrt_sqrt. left. apply p0_pos. Qed.
Lemma P_derive h : is_derive P h (dP h). Proof. unfold P, dP. auto_derive; [exact I|]. ring. Qed.
Lemma q_derive h : 0 <= h <= H -> is_derive q h (dP h / (2 * q h)).
Proof.
  intros A. unfold q. apply (is_derive_sqrt P h (dP h)); [apply P_derive|apply Ppos, A].
Qed.
Lemma q_cont h : 0 <= h <= H -> continuous q h.
Proof. intros A. apply (ex_derive_continuous q). eexists. apply q_derive, A. Qed.
Lemma G_derive h : 0 < h <= H -> is_derive G h (N h / (h ^ 3 * q h)).
Proof.
  intros A. pose proof (q_pos h ltac:(lra)) as Q. unfold G.
  evar_last; [apply (is_derive_div (fun h => p1 * h + 2 * p0 + 2 * sqrt p0 * q h) (fun h => h ^ 2) h (p1 + 2 * sqrt p0 * (dP h / (2 * q h))) (2 * h))|].
  - apply (is_derive_plus (fun h => p1 * h + 2 * p0) (fun h => 2 * sqrt p0 * q h)); [auto_derive; [exact I|ring]|]. apply (is_derive_scal q). apply q_derive. lra.
  - auto_derive; [exact I|ring].
  - apply pow_nonzero. lra.
  - pose proof s_sq as SS. pose proof (q_sq h ltac:(lra)) as QQ. cbv beta. set (s := sqrt p0) in *. set (y := q h) in *. unfold N. fold y s. unfold P in QQ. unfold dP.
    assert (p0 = s * s) as PE by lra. assert (K : y * y = p0 + p1 * h + p2 * h ^ 2 + p3 * h ^ 3 + p4 * h ^ 4) by exact QQ.
    apply (Rmult_eq_reg_r (h ^ 4 * y)); [|apply Rmult_integral_contrapositive_currified; [apply pow_nonzero; lra|lra]].
    transitivity ((s * (p1 + 2 * p2 * h + 3 * p3 * h ^ 2 + 4 * p4 * h ^ 3) + p1 * y) * h ^ 2 - 2 * h * (p1 * h + 2 * p0) * y - 4 * s * h * (y * y)).
    { field. split; lra. }
    transitivity (- (y * (p1 * h + 4 * p0) + s * (p3 * h ^ 3 + 2 * p2 * h ^ 2 + 3 * p1 * h + 4 * p0)) * h); [|field; lra].
    rewrite K. ring.
Qed.
Lemma N_square h : 0 < h <= H -> N h ^ 2 = h ^ 6 * Res (G h).
Proof.
  intros A. pose proof s_sq as SS. pose proof (q_sq h ltac:(lra)) as QQ. unfold N, G, Res, P in *. set (s := sqrt p0) in *. set (y := q h) in *. clearbody s y. rewrite <- SS in *. clear SS.
  set (n := p1 * h + 2 * (s * s) + 2 * s * y).
  assert (E : h ^ 6 * ((n / h ^ 2) ^ 3 + p2 * (n / h ^ 2) ^ 2 + (p1 * p3 - 4 * (s * s) * p4) * (n / h ^ 2) + (p1 ^ 2 * p4 + p3 ^ 2 * (s * s) - 4 * (s * s) * p2 * p4))
    = n ^ 3 + p2 * h ^ 2 * n ^ 2 + (p1 * p3 - 4 * (s * s) * p4) * h ^ 4 * n + (p1 ^ 2 * p4 + p3 ^ 2 * (s * s) - 4 * (s * s) * p2 * p4) * h ^ 6) by (field; lra).
  rewrite E. unfold n. set (B := s * s + p1 * h + p2 * h ^ 2 + p3 * h ^ 3 + p4 * h ^ 4) in QQ.
  assert (Y2 : y ^ 2 = B) by (rewrite <- QQ; ring). assert (Y3 : y ^ 3 = B * y) by (rewrite <- Y2; ring).
  transitivity (B * (p1 * h + 4 * (s * s)) ^ 2 + 2 * y * (p1 * h + 4 * (s * s)) * s * (p3 * h ^ 3 + 2 * p2 * h ^ 2 + 3 * p1 * h + 4 * (s * s)) + s ^ 2 * (p3 * h ^ 3 + 2 * p2 * h ^ 2 + 3 * p1 * h + 4 * (s * s)) ^ 2).
  { rewrite <- Y2. ring. }
  set (m := p1 * h + 2 * (s * s)).
  transitivity (m ^ 3 + 6 * m ^ 2 * s * y + 12 * m * s ^ 2 * B + 8 * s ^ 3 * (B * y) + p2 * h ^ 2 * (m ^ 2 + 4 * m * s * y + 4 * s ^ 2 * B) + (p1 * p3 - 4 * (s * s) * p4) * h ^ 4 * (m + 2 * s * y) + (p1 ^ 2 * p4 + p3 ^ 2 * (s * s) - 4 * (s * s) * p2 * p4) * h ^ 6).
  { unfold m, B. ring. }
  { rewrite <- Y3, <- Y2. unfold m. ring. }
Qed.
Lemma N_cont h : 0 <= h <= H -> continuity_pt N h.
Proof.
  intros A. pose proof (q_cont h A) as Q. apply continuity_pt_filterlim in Q. unfold N. apply continuity_pt_opp, continuity_pt_plus.
  - apply continuity_pt_mult; [exact Q|]. apply continuity_pt_filterlim, (ex_derive_continuous (fun h => p1 * h + 4 * p0)). auto_derive. exact I.
  - apply continuity_pt_filterlim, (ex_derive_continuous (fun h => sqrt p0 * (p3 * h ^ 3 + 2 * p2 * h ^ 2 + 3 * p1 * h + 4 * p0))). auto_derive. exact I.
Qed.
Lemma N_zero : N 0 < 0.
Proof.
  unfold N. pose proof (q_pos 0 ltac:(lra)). pose proof s_pos. pose proof p0_pos. assert (0 < q 0 * p0) by (apply Rmult_lt_0_compat; lra). assert (0 < sqrt p0 * p0) by (apply Rmult_lt_0_compat; lra). lra.
Qed.
Lemma N_neg : (forall h, 0 < h <= H -> Res (G h) <> 0) -> forall h, 0 <= h <= H -> N h < 0.
Proof.
  intros X h A. destruct (Rlt_le_dec (N h) 0) as [L|L]; [exact L|exfalso]. assert (h <> 0) by (intros ->; pose proof N_zero; lra).
  destruct (f_interv_is_interv N 0 h 0 ltac:(lra)) as (z & Hz & Ez); [pose proof N_zero; lra|intros x Hx; apply N_cont; lra|].
  assert (z <> 0) by (intros ->; pose proof N_zero; lra). apply (X z ltac:(lra)). pose proof (N_square z ltac:(lra)) as S. rewrite Ez in S.
  assert (Z6 : z ^ 6 <> 0) by (apply pow_nonzero; lra). apply (Rmult_eq_reg_l (z ^ 6)); [|exact Z6]. rewrite <- S. ring.
Qed.
Lemma G_infinite B : exists d, 0 < d <= H /\ forall h, 0 < h <= d -> B < G h.
Proof.
  pose proof p0_pos as P0. set (K := Rabs p1 + Rabs B + 1). assert (K1 : 1 <= K) by (unfold K; pose proof (Rabs_pos p1); pose proof (Rabs_pos B); lra).
  exists (Rmin H (Rmin 1 (p0 / K))). assert (0 < p0 / K) by (apply Rdiv_lt_0_compat; lra). split; [split; [repeat apply Rmin_glb_lt; lra|apply Rmin_l]|]. intros h Hh.
  pose proof (Rmin_l H (Rmin 1 (p0 / K))). pose proof (Rmin_r H (Rmin 1 (p0 / K))). pose proof (Rmin_l 1 (p0 / K)). pose proof (Rmin_r 1 (p0 / K)).
  assert (HK : h * K <= p0). { apply Rle_trans with (p0 / K * K); [apply Rmult_le_compat_r; lra|right; field; lra]. }
  unfold G. apply (Rmult_lt_reg_r (h ^ 2)); [apply pow_lt; lra|]. replace ((p1 * h + 2 * p0 + 2 * sqrt p0 * q h) / h ^ 2 * h ^ 2) with (p1 * h + 2 * p0 + 2 * sqrt p0 * q h) by (field; lra).
  assert (SQ : 0 < sqrt p0 * q h) by (apply Rmult_lt_0_compat; [apply s_pos|apply q_pos; lra]).
  assert (A1 : - (Rabs p1 * h) <= p1 * h). { pose proof (Rle_abs (- p1)) as X. rewrite Rabs_Ropp in X. assert (- p1 * h <= Rabs p1 * h) by (apply Rmult_le_compat_r; lra). lra. }
  assert (A2 : B * h ^ 2 <= Rabs B * h). { apply Rle_trans with (Rabs B * h ^ 2); [apply Rmult_le_compat_r; [apply pow2_ge_0|apply Rle_abs]|]. apply Rmult_le_compat_l; [apply Rabs_pos|]. simpl. rewrite Rmult_1_r. rewrite <- (Rmult_1_r h) at 3. apply Rmult_le_compat_l; lra. }
  assert (A3 : h * K = Rabs p1 * h + Rabs B * h + h) by (unfold K; ring). lra.
Qed.
(** If the resolvent does not vanish on the path, it is positive there and the substitution gives the integral. *)
Variables (F w : R -> R).
Hypothesis NZ : forall h, 0 < h <= H -> Res (G h) <> 0.
Hypothesis CF : forall h, 0 < h <= H -> continuous F (G h).
Hypothesis Cw : forall h, 0 <= h <= H -> continuous w h.
Hypothesis Fw : forall h, 0 < h <= H -> F (G h) * sqrt (Res (G h)) = w h * q h.
Lemma Res_pos h : 0 < h <= H -> 0 < Res (G h).
Proof.
  intros A. pose proof (N_square h A) as S. pose proof (N_neg NZ h ltac:(lra)) as L. assert (0 < h ^ 6) by (apply pow_lt; lra). assert (0 < N h ^ 2) by (replace (N h ^ 2) with ((- N h) * (- N h)) by ring; apply Rmult_lt_0_compat; lra).
  apply (Rmult_lt_reg_l (h ^ 6)); [lra|]. lra.
Qed.
Lemma N_sqrt h : 0 < h <= H -> N h = - (h ^ 3 * sqrt (Res (G h))).
Proof.
  intros A. pose proof (N_square h A) as S. pose proof (N_neg NZ h ltac:(lra)) as L. assert (H3 : 0 < h ^ 3) by (apply pow_lt; lra). pose proof (Res_pos h A) as R0.
  assert (E : - N h = sqrt ((- N h) * (- N h))) by (rewrite sqrt_square; lra). replace (- N h * - N h) with (h ^ 3 * h ^ 3 * Res (G h)) in E by (replace (h ^ 3 * h ^ 3) with (h ^ 6) by ring; rewrite <- S; ring).
  rewrite sqrt_mult, sqrt_square in E by (try lra; assert (0 < h ^ 3 * h ^ 3) by (apply Rmult_lt_0_compat; lra); lra). lra.
Qed.
Lemma N_continuous h : 0 < h <= H -> continuous (fun h => N h / (h ^ 3 * q h)) h.
Proof.
  intros A. pose proof (q_pos h ltac:(lra)). apply (continuous_mult N (fun h => / (h ^ 3 * q h))); [apply continuity_pt_filterlim, N_cont; lra|].
  apply continuity_pt_filterlim. apply continuity_pt_inv.
  - apply continuity_pt_mult; [apply continuity_pt_filterlim, (ex_derive_continuous (fun h => h ^ 3)); auto_derive; exact I|apply continuity_pt_filterlim, q_cont; lra].
  - apply Rmult_integral_contrapositive_currified; [apply pow_nonzero; lra|lra].
Qed.
Lemma carlson : is_lim (fun T => RInt (fun t => F (G H + t)) 0 T) p_infty (RInt w 0 H).
Proof.
  apply (subst_improper H G (fun h => N h / (h ^ 3 * q h)) F w HH).
  - intros h A. split; [apply G_derive, A|apply N_continuous, A].
  - exact CF.
  - intros h A. pose proof (q_pos h ltac:(lra)). pose proof (Fw h A) as E. rewrite (N_sqrt h A). apply (Rmult_eq_reg_r (q h)); [|lra].
    transitivity (- (F (G h) * sqrt (Res (G h)))); [|rewrite E; ring]. field. split; lra.
  - exact Cw.
  - apply G_infinite.
Qed.
End Core.
