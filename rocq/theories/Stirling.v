(** Stirling's series with six terms encloses the logarithm of Euler's gamma function for every positive argument *)
From Coq Require Import List Arith ZArith Lia Reals Lra Psatz.
From Coquelicot Require Import Rcomplements Hierarchy Continuity Derive RInt RInt_analysis AutoDerive ElemFct Lim_seq Rbar.
From Verif Require Import EllipSpec GammaSpec GammaInt GammaFun HyperExp.
Import ListNotations.
Open Scope R_scope.

(** ** Functions that vanish at infinity *)
Lemma archi x : exists n : nat, x < INR n.
Proof. destruct (archimed (Rabs x)) as [A _]. exists (Z.to_nat (up (Rabs x))). pose proof (Rabs_pos x). pose proof (Rle_abs x). assert (0 <= up (Rabs x))%Z by (apply le_IZR; lra). rewrite INR_IZR_INZ, Z2Nat.id by assumption. lra. Qed.
Lemma dec_pos (f df : R -> R) C : (forall x, 0 < x -> is_derive f x (df x)) -> (forall x, 0 < x -> df x <= 0) -> (forall x, 1 <= x -> - C / x <= f x) -> forall x, 0 < x -> 0 <= f x.
Proof.
  intros D N B x Hx. apply Rnot_lt_le. intros Hc. set (y := Rmax 1 (Rmax x (2 * Rabs C / - f x))). assert (Y1 : 1 <= y) by apply Rmax_l. assert (Yx : x <= y) by (unfold y; eapply Rle_trans; [apply Rmax_l|apply Rmax_r]). assert (YC : 2 * Rabs C / - f x <= y) by (unfold y; eapply Rle_trans; [apply Rmax_r|apply Rmax_r]).
  assert (M : f y <= f x). { destruct Yx as [Yx|<-]; [|lra]. destruct (MVT_gen f x y df) as (c & Hc1 & E); [intros t Ht; rewrite Rmin_left in Ht by lra; apply D; lra|intros t Ht; rewrite Rmin_left in Ht by lra; apply continuity_pt_filterlim, (ex_derive_continuous f); eexists; apply D; lra|]. rewrite Rmin_left, Rmax_right in Hc1 by lra. specialize (N c ltac:(lra)). nra. }
  specialize (B y Y1). assert (E : Rabs C / y <= - f x / 2). { apply (Rmult_le_reg_r y); [lra|]. replace (Rabs C / y * y) with (Rabs C) by (field; lra). apply (Rmult_le_compat_r (- f x / 2)) in YC; [|lra]. replace (2 * Rabs C / - f x * (- f x / 2)) with (Rabs C) in YC by (field; lra). lra. }
  assert (- (Rabs C / y) <= - C / y). { unfold Rdiv. rewrite <- Ropp_mult_distr_l. apply Ropp_le_contravar, Rmult_le_compat_r; [left; apply Rinv_0_lt_compat; lra|apply Rle_abs]. } lra.
Qed.
(** ** The series *)
(** Sum of the c (1/(x+1)^n - 1/x^n) *)
Fixpoint Sg (l : list (R * nat)) (x : R) : R := match l with [] => 0 | (c, n) :: l' => c * (/ (x + 1) ^ n - / x ^ n) + Sg l' x end.
Definition dl (l : list (R * nat)) : list (R * nat) := map (fun p => (- INR (snd p) * fst p, S (snd p))) l.
Lemma inv_pow_derive n x : 0 < x -> is_derive (fun x => / x ^ n) x (- INR n * / x ^ S n).
Proof.
  intros Hx. evar_last; [apply (is_derive_inv (fun x => x ^ n)); [apply (is_derive_pow (fun x => x) n x 1), (is_derive_id x)|apply pow_nonzero; lra]|]. match goal with |- @eq _ ?x ?y => change (@eq R x y) end. destruct n as [|n]; [cbn; field; lra|]. change (Init.Nat.pred (S n)) with n. cbn [pow]. assert (x ^ n <> 0) by (apply pow_nonzero; lra). field. split; lra.
Qed.
Lemma Sg_derive l x : 0 < x -> is_derive (Sg l) x (Sg (dl l) x).
Proof.
  intros Hx. induction l as [|[c n] l IH]; cbn [Sg dl map fst snd]; [apply (is_derive_const 0)|]. apply (is_derive_plus (fun x => c * (/ (x + 1) ^ n - / x ^ n)) (Sg l)); [|exact IH]. evar_last; [apply (is_derive_scal (fun x => / (x + 1) ^ n - / x ^ n)); apply (is_derive_minus (fun x => / (x + 1) ^ n) (fun x => / x ^ n)); [|apply (inv_pow_derive n x Hx)]; apply (is_derive_comp (fun y => / y ^ n) (fun x => x + 1)); [apply (inv_pow_derive n (x + 1)); lra|auto_derive; [exact I|reflexivity]]|].
  unfold minus, plus, opp, scal. cbn. unfold mult. cbn. match goal with |- @eq _ ?x ?y => change (@eq R x y) end. ring.
Qed.
Fixpoint Sabs (l : list (R * nat)) : R := match l with [] => 0 | (c, _) :: l' => Rabs c + Sabs l' end.
Lemma Sg_small l x : (forall c n, In (c, n) l -> (1 <= n)%nat) -> 1 <= x -> Rabs (Sg l x) <= Sabs l / x.
Proof.
  intros H Hx. induction l as [|[c n] l IH]; cbn [Sg Sabs]; [rewrite Rabs_R0; unfold Rdiv; lra|]. specialize (IH (fun c n Hc => H c n (or_intror Hc))). specialize (H c n (or_introl eq_refl)).
  assert (P : 0 < / x <= 1) by (split; [apply Rinv_0_lt_compat; lra|rewrite <- Rinv_1; apply Rinv_le_contravar; lra]). assert (Q : 0 < / (x + 1) <= / x) by (split; [apply Rinv_0_lt_compat; lra|apply Rinv_le_contravar; lra]).
  assert (B : Rabs (/ (x + 1) ^ n - / x ^ n) <= / x). { rewrite <- !pow_inv. destruct n as [|n]; [lia|]. assert (Q1 : 0 <= (/ (x + 1)) ^ S n <= (/ x) ^ S n) by (split; [apply pow_le; lra|apply pow_incr; lra]). assert (Q2 : (/ x) ^ S n <= / x). { cbn [pow]. assert ((/ x) ^ n <= 1) by (rewrite <- (pow1 n); apply pow_incr; lra). nra. } apply Rabs_le_between. lra. }
  eapply Rle_trans; [apply Rabs_triang|]. rewrite Rabs_mult. unfold Rdiv in *. rewrite Rmult_plus_distr_r. apply Rplus_le_compat; [apply Rmult_le_compat_l; [apply Rabs_pos|exact B]|exact IH].
Qed.
Definition cs6 : list (R * nat) := [(1/12, 1%nat); (-1/360, 3%nat); (1/1260, 5%nat); (-1/1680, 7%nat); (1/1188, 9%nat); (-691/360360, 11%nat)].
Definition cs7 : list (R * nat) := cs6 ++ [(1/156, 13%nat)].
Definition rr (l : list (R * nat)) (x : R) : R := (x + 1/2) * (ln (x + 1) - ln x) - 1 + Sg l x.
Definition rr1 (l : list (R * nat)) (x : R) : R := (ln (x + 1) - ln x) - (/ x + / (x + 1)) / 2 + Sg (dl l) x.
Definition rr2 (l : list (R * nat)) (x : R) : R := / (x + 1) - / x + (/ x ^ 2 + / (x + 1) ^ 2) / 2 + Sg (dl (dl l)) x.
Lemma rr_derive l x : 0 < x -> is_derive (rr l) x (rr1 l x).
Proof.
  intros Hx. unfold rr, rr1. apply (is_derive_plus (fun x => (x + 1/2) * (ln (x + 1) - ln x) - 1) (Sg l)); [|apply Sg_derive, Hx]. auto_derive; [repeat split; lra|]. field. lra.
Qed.
Lemma rr1_derive l x : 0 < x -> is_derive (rr1 l) x (rr2 l x).
Proof.
  intros Hx. unfold rr1, rr2. apply (is_derive_plus (fun x => (ln (x + 1) - ln x) - (/ x + / (x + 1)) / 2) (Sg (dl l))); [|apply Sg_derive, Hx]. auto_derive; [repeat split; lra|]. field. lra.
Qed.
Lemma ln_bounds x : 0 < x -> / (x + 1) <= ln (x + 1) - ln x <= / x.
Proof.
  intros Hx. rewrite <- ln_div by lra. split.
  - assert (E : ln ((x + 1) / x) = - ln (x / (x + 1))) by (rewrite <- ln_Rinv by (apply Rdiv_lt_0_compat; lra); f_equal; field; lra). rewrite E. assert (P : 0 < x / (x + 1)) by (apply Rdiv_lt_0_compat; lra). pose proof (exp_ineq1_le (ln (x / (x + 1)))) as Q. rewrite exp_ln in Q by exact P. replace (x / (x + 1)) with (1 - / (x + 1)) in Q at 2 by (field; lra). lra.
  - pose proof (exp_ineq1_le (ln ((x + 1) / x))) as Q. rewrite exp_ln in Q by (apply Rdiv_lt_0_compat; lra). replace ((x + 1) / x) with (1 + / x) in Q at 2 by (field; lra). lra.
Qed.
Lemma rr1_small l x : (forall c n, In (c, n) l -> (1 <= n)%nat) -> 1 <= x -> Rabs (rr1 l x) <= (2 + Sabs (dl l)) / x.
Proof.
  intros H Hx. pose proof (ln_bounds x ltac:(lra)) as L. assert (S1 : Rabs (Sg (dl l) x) <= Sabs (dl l) / x). { apply Sg_small; [|exact Hx]. intros c n Hc. apply in_map_iff in Hc. destruct Hc as ([c' n'] & E & _). cbn in E. assert (n = S n') by congruence. lia. }
  assert (Q : 0 < / (x + 1) <= / x) by (split; [apply Rinv_0_lt_compat; lra|apply Rinv_le_contravar; lra]). unfold rr1. unfold Rdiv in *. rewrite Rmult_plus_distr_r. apply Rabs_le_between in S1. apply Rabs_le_between. lra.
Qed.
Lemma rr_small l x : (forall c n, In (c, n) l -> (1 <= n)%nat) -> 1 <= x -> Rabs (rr l x) <= (2 + Sabs l) / x.
Proof.
  intros H Hx. pose proof (ln_bounds x ltac:(lra)) as L. pose proof (Sg_small l x H Hx) as S1. assert (Q : 0 < / (x + 1) <= / x) by (split; [apply Rinv_0_lt_compat; lra|apply Rinv_le_contravar; lra]).
  unfold rr. unfold Rdiv in *. rewrite Rmult_plus_distr_r. apply Rabs_le_between in S1. apply Rabs_le_between. set (g := ln (x + 1) - ln x) in *. assert (E1 : x * / x = 1) by (field; lra). assert (E2 : (x + 1) * / (x + 1) = 1) by (field; lra). assert (x * g <= 1) by nra. assert (1 - / (x + 1) <= x * g) by nra. nra.
Qed.
Definition num6 (p : R) : R := p ^ 16 * (35/2 + p * (175/2 + p * (6533/30 + p * (5191/15 + p * (40189/105 + p * (6395/21 + p * (202241/1155 + p * (164947/2310 + p * (45431/2310 + p * (691/210 + p * (691/2730))))))))))).
Definition num7 (p : R) : R := p ^ 18 * (3617/30 + p * (3617/5 + p * (232139/105 + p * (61923/14 + p * (2929357/462 + p * (1118926/165 + p * (907762/165 + p * (223705/66 + p * (1343627/858 + p * (143881/273 + p * (166867/1365 + p * (35/2 + p * (7/6))))))))))))).
Lemma rr2_6 x : 0 < x -> rr2 cs6 x = num6 (/ x) / (1 + / x) ^ 13.
Proof.
  intros Hx. unfold rr2. cbn [Sg dl map cs6 fst snd]. rewrite <- !pow_inv. set (p := / x). assert (Hp : 0 < p) by (apply Rinv_0_lt_compat, Hx). replace (/ (x + 1)) with (p / (1 + p)) by (unfold p; field; lra). unfold num6. cbn [INR]. clearbody p. clear Hx x. field. lra.
Qed.
Lemma rr2_7 x : 0 < x -> rr2 cs7 x = - (num7 (/ x) / (1 + / x) ^ 15).
Proof.
  intros Hx. unfold rr2. cbn [Sg dl map cs6 cs7 app fst snd]. rewrite <- !pow_inv. set (p := / x). assert (Hp : 0 < p) by (apply Rinv_0_lt_compat, Hx). replace (/ (x + 1)) with (p / (1 + p)) by (unfold p; field; lra). unfold num7. cbn [INR]. clearbody p. clear Hx x. field. lra.
Qed.
Lemma cs7_ok c n : In (c, n) cs7 -> (1 <= n)%nat.
Proof. cbn. intros H. repeat (destruct H as [H|H]; [apply f_equal with (f := snd) in H; cbn in H; lia|]). destruct H. Qed.
Lemma cs6_ok c n : In (c, n) cs6 -> (1 <= n)%nat. Proof. intros H. apply (cs7_ok c). unfold cs7. apply in_or_app. left. exact H. Qed.
Lemma rr6_pos x : 0 < x -> 0 <= rr cs6 x.
Proof.
  revert x. apply (dec_pos _ (rr1 cs6) (2 + Sabs cs6)); [intros x; apply rr_derive| |].
  - intros x Hx. assert (0 <= - rr1 cs6 x); [|lra]. revert x Hx. apply (dec_pos (fun x => - rr1 cs6 x) (fun x => - rr2 cs6 x) (2 + Sabs (dl cs6))).
    + intros x Hx. apply (is_derive_opp (rr1 cs6)), rr1_derive, Hx.
    + intros x Hx. rewrite rr2_6 by exact Hx. assert (P : 0 < / x) by (apply Rinv_0_lt_compat, Hx). assert (0 <= num6 (/ x) / (1 + / x) ^ 13); [|lra]. apply Rdiv_le_0_compat; [|apply pow_lt; lra]. unfold num6. set (p := / x) in *. clearbody p. apply Rmult_le_pos; [apply pow_le; lra|]. repeat (apply Rplus_le_le_0_compat; [lra|]; apply Rmult_le_pos; [lra|]). lra.
    + intros x Hx. pose proof (rr1_small cs6 x cs6_ok Hx) as B. apply Rabs_le_between in B. unfold Rdiv in *. rewrite <- Ropp_mult_distr_l. lra.
  - intros x Hx. pose proof (rr_small cs6 x cs6_ok Hx) as B. apply Rabs_le_between in B. unfold Rdiv in *. rewrite <- Ropp_mult_distr_l. lra.
Qed.
Lemma rr7_neg x : 0 < x -> rr cs7 x <= 0.
Proof.
  intros Hx. assert (0 <= - rr cs7 x); [|lra]. revert x Hx. apply (dec_pos (fun x => - rr cs7 x) (fun x => - rr1 cs7 x) (2 + Sabs cs7)); [intros x Hx; apply (is_derive_opp (rr cs7)), rr_derive, Hx| |].
  - intros x Hx. assert (0 <= rr1 cs7 x); [|lra]. revert x Hx. apply (dec_pos (rr1 cs7) (rr2 cs7) (2 + Sabs (dl cs7))); [intros x Hx; apply rr1_derive, Hx| |].
    + intros x Hx. rewrite rr2_7 by exact Hx. assert (P : 0 < / x) by (apply Rinv_0_lt_compat, Hx). assert (0 <= num7 (/ x) / (1 + / x) ^ 15); [|lra]. apply Rdiv_le_0_compat; [|apply pow_lt; lra]. unfold num7. set (p := / x) in *. clearbody p. apply Rmult_le_pos; [apply pow_le; lra|]. repeat (apply Rplus_le_le_0_compat; [lra|]; apply Rmult_le_pos; [lra|]). lra.
    + intros x Hx. pose proof (rr1_small cs7 x cs7_ok Hx) as B. apply Rabs_le_between in B. unfold Rdiv in *. rewrite <- Ropp_mult_distr_l. lra.
  - intros x Hx. pose proof (rr_small cs7 x cs7_ok Hx) as B. apply Rabs_le_between in B. unfold Rdiv in *. rewrite <- Ropp_mult_distr_l. lra.
Qed.
