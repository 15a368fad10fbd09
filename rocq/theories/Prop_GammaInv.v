(** * C66, continued: the gradients of the inverse incomplete gamma functions, and the hypotheses of C66 are met *)
From Coq Require Import String List Bool Arith Lia Reals Ranalysis5 Lra Psatz.
From Coquelicot Require Import Rbar Lub Hierarchy Continuity Derive Derive_2d Complex Rcomplements RInt RInt_analysis AutoDerive ElemFct.
From Verif Require Import EllipSpec Improper ImproperLim GammaSpec GammaGrad GammaInt GammaFun FuncCtx FuncCtxSpec Prop_Func Prop_Inverse Prop_GammaGrad.
Import ListNotations.
Open Scope list_scope.
Open Scope R_scope.

(** ** Inverting a function of (a, x) that is strictly monotone in x *)
Section Invert.
Variables (f da dx : R -> R -> R) (sg : R).
Hypothesis Da : forall a x, 0 < a -> 0 < x -> is_derive (fun a => f a x) a (da a x).
Hypothesis Dx : forall a x, 0 < a -> 0 < x -> is_derive (fun x => f a x) x (dx a x).
Hypothesis Px : forall a x, 0 < a -> 0 < x -> 0 < sg * dx a x.
Hypothesis Cx : forall a x, 0 < a -> 0 < x -> continuity_2d_pt (fun x a => dx a x) x a.
Variable Y : R -> R -> R.
Hypothesis HY : forall a p, 0 < a -> 0 < p < 1 -> 0 < Y a p /\ f a (Y a p) = p.

Lemma mono a x y : 0 < a -> 0 < x -> x < y -> sg * f a x < sg * f a y.
Proof.
  intros Ha Hx Hy. destruct (MVT_gen (fun x => sg * f a x) x y (fun x => sg * dx a x)) as (c & Hc & E).
  - intros t Ht. rewrite Rmin_left in Ht by lra. apply (is_derive_scal (fun x => f a x) t sg), Dx; lra.
  - intros t Ht. rewrite Rmin_left in Ht by lra. apply continuity_pt_filterlim. apply (ex_derive_continuous (fun x => sg * f a x)). exists (sg * dx a t). apply (is_derive_scal (fun x => f a x) t sg), Dx; lra.
  - rewrite Rmin_left, Rmax_right in Hc by lra. pose proof (Px a c Ha ltac:(lra)). assert (0 < sg * dx a c * (y - x)) by (apply Rmult_lt_0_compat; lra). lra.
Qed.
Lemma mono_inv a x y : 0 < a -> 0 < x -> 0 < y -> sg * f a x < sg * f a y -> x < y.
Proof. intros Ha Hx Hy H. destruct (Rtotal_order x y) as [L|[E|G]]; [exact L|subst; lra|pose proof (mono a y x Ha Hy G); lra]. Qed.
Lemma near a (P : R -> Prop) : locally a P -> exists d, 0 < d /\ forall b, Rabs (b - a) < d -> P b.
Proof. intros [d H]. exists d. split; [apply cond_pos|]. intros b Hb. apply H. exact Hb. Qed.
(** The inverse is continuous in both variables. *)
Lemma Y_cont (g1 g2 : R -> R) s : 0 < g1 s -> 0 < g2 s < 1 -> continuous g1 s -> continuous g2 s -> continuity_pt (fun s => Y (g1 s) (g2 s)) s.
Proof.
  intros H1 H2 C1 C2. set (a := g1 s) in *. set (p := g2 s) in *. destruct (HY a p H1 H2) as [Y0 EY]. set (y := Y a p) in *. apply continuity_pt_filterlim. apply filterlim_locally. intros e. set (d := Rmin e (y / 2)). assert (Hd : 0 < d) by (apply Rmin_glb_lt; [apply cond_pos|lra]). assert (d <= e) by apply Rmin_l. assert (d <= y / 2) by apply Rmin_r.
  pose proof (mono a (y - d) y H1 ltac:(lra) ltac:(lra)) as M1. pose proof (mono a y (y + d) H1 ltac:(lra) ltac:(lra)) as M2. rewrite EY in M1, M2.
  assert (K : forall x, 0 < x -> continuous (fun s => sg * f (g1 s) x - sg * g2 s) s).
  { intros x Hx. apply (continuous_minus (fun s => sg * f (g1 s) x) (fun s => sg * g2 s)); [apply (continuous_scal_r sg (fun s => f (g1 s) x)); apply (continuous_comp g1 (fun a => f a x)); [exact C1|apply (ex_derive_continuous (fun a => f a x)); exists (da a x); apply Da; assumption]|apply (continuous_scal_r sg g2), C2]. }
  assert (N1 : locally s (fun t => 0 < g1 t)) by (apply (C1 (fun v => 0 < v)); apply (near_pos a H1)).
  assert (N2 : locally s (fun t => 0 < g2 t < 1)). { apply (C2 (fun v => 0 < v < 1)). exists (mkposreal (Rmin p (1 - p)) ltac:(apply Rmin_glb_lt; lra)). intros v Hv. change (Rabs (v - p) < Rmin p (1 - p)) in Hv. pose proof (Rmin_l p (1 - p)). pose proof (Rmin_r p (1 - p)). apply Rabs_def2 in Hv. lra. }
  assert (N3 : locally s (fun t => sg * f (g1 t) (y - d) - sg * g2 t < 0)). { apply (K (y - d) ltac:(lra) (fun v => v < 0)). fold a p. exists (mkposreal (sg * p - sg * f a (y - d)) ltac:(lra)). intros v Hv. change (Rabs (v - (sg * f a (y - d) - sg * p)) < sg * p - sg * f a (y - d)) in Hv. apply Rabs_def2 in Hv. lra. }
  assert (N4 : locally s (fun t => 0 < sg * f (g1 t) (y + d) - sg * g2 t)). { apply (K (y + d) ltac:(lra) (fun v => 0 < v)). fold a p. exists (mkposreal (sg * f a (y + d) - sg * p) ltac:(lra)). intros v Hv. change (Rabs (v - (sg * f a (y + d) - sg * p)) < sg * f a (y + d) - sg * p) in Hv. apply Rabs_def2 in Hv. lra. }
  generalize (filter_and _ _ (filter_and _ _ N1 N2) (filter_and _ _ N3 N4)). apply filter_imp. intros t [[A1 A2] [A3 A4]]. destruct (HY (g1 t) (g2 t) A1 A2) as [B1 B2]. assert (B3 : sg * g2 t = sg * f (g1 t) (Y (g1 t) (g2 t))) by (rewrite B2; reflexivity).
  pose proof (mono_inv (g1 t) (y - d) (Y (g1 t) (g2 t)) A1 ltac:(lra) B1 ltac:(lra)). pose proof (mono_inv (g1 t) (Y (g1 t) (g2 t)) (y + d) A1 B1 ltac:(lra) ltac:(lra)). change (Rabs (Y (g1 t) (g2 t) - y) < e). apply Rabs_def1; lra.
Qed.
Lemma f_differentiable a x : 0 < a -> 0 < x -> differentiable_pt_lim f a x (da a x) (dx a x).
Proof.
  intros Ha Hx. assert (D : differentiable_pt_lim (fun x a => f a x) x a (dx a x) (da a x)).
  { apply filterdiff_differentiable_pt_lim. apply (is_derive_filterdiff (fun x a => f a x) x a (fun x a => dx a x) (da a x)).
    - exists (mkposreal (Rmin a x) ltac:(apply Rmin_glb_lt; assumption)). intros [u v] [Hu Hv]. cbn in Hu, Hv |- *. change (Rabs (u - x) < Rmin a x) in Hu. change (Rabs (v - a) < Rmin a x) in Hv. pose proof (Rmin_l a x). pose proof (Rmin_r a x). apply Rabs_def2 in Hu. apply Rabs_def2 in Hv. apply Dx; lra.
    - apply Da; assumption.
    - pose proof (proj1 (continuity_2d_pt_filterlim (fun x a => dx a x) x a) (Cx a x Ha Hx)) as C. exact C. }
  intros eps. destruct (D eps) as (d & Hd). exists d. intros u v Hu Hv. specialize (Hd v u Hv Hu). rewrite Rmax_comm. eapply Rle_trans; [|exact Hd]. right. f_equal. ring.
Qed.
(** The slots returned by backward for an inverse class with two arguments, the second of which is inverted *)
Lemma invert_slots own rest fwd inv_var r0 k semf : plain_rules fwd -> fwd = [r0; inv_var] -> inverse_init own rest fwd inv_var = Some (1%nat, k) ->
  cd_auto own = None -> look cd_auto false rest = false -> cd_ninputs own = None -> look cd_ninputs None rest = None -> forall a p, 0 < a -> 0 < p < 1 ->
  semf r0 (map RtoC [a; Y a p; p]) = RtoC (da a (Y a p)) -> semf inv_var (map RtoC [a; Y a p; p]) = RtoC (dx a (Y a p)) -> forall mask g, List.length mask = 2%nat ->
  exists gfs r, gradfuncs k = Some gfs /\
    backward process_plain (ninputs k) (backward_ (inverse_sem semf 1 inv_var) gfs mask (map RtoC [a; p; Y a p])) [Some g] = Some r /\ List.length r = 2%nat /\
    (forall needed, nth_error mask 0 = Some needed -> exists D, is_derive (fun a => Y a p) a D /\ nth_error r 0 = Some (if needed then Some (RtoC D * g)%C else None)) /\
    (forall needed, nth_error mask 1 = Some needed -> exists D, is_derive (fun p => Y a p) p D /\ nth_error r 1 = Some (if needed then Some (RtoC D * g)%C else None)).
Proof.
  intros P Ef E A1 A2 N1 N2 a p Ha Hp S0 S1 mask g Lm. destruct (HY a p Ha Hp) as [Y0 EY]. subst fwd.
  destruct (C54_inverse_gradients own rest [r0; inv_var] 1 inv_var k P eq_refl E A1 A2 N1 N2 (fun l => f (nth 0 l 0) (nth 1 l 0)) (fun l => Y (nth 0 l 0) (nth 1 l 0)) [a; p] (fun j => match j with O => da a (Y a p) | _ => dx a (Y a p) end) semf eq_refl) with (mask := mask) (g := g) as (gfs & r & G & B & L & Sl).
  - intros [|[|[|j]]] rule Hj; cbn in Hj; try discriminate; injection Hj as <-; [exact S0|exact S1].
  - pose proof (Px a (Y a p) Ha Y0). intros Z. rewrite Z in H. lra.
  - intros [|[|j]] H1 H2; cbn in H1; try lia. exact (f_differentiable a (Y a p) Ha Y0).
  - exact (Dx a (Y a p) Ha Y0).
  - intros [|[|j]] Hj; cbn in Hj; try lia.
    + apply (Y_cont (fun s => s) (fun _ => p) a Ha Hp); [apply continuous_id|apply continuous_const].
    + apply (Y_cont (fun _ => a) (fun s => s) p Ha Hp); [apply continuous_const|apply continuous_id].
  - intros [|[|j]] Hj; cbn in Hj; try lia; cbn.
    + eapply filter_imp; [|apply (near_pos a Ha)]. intros s Hs. apply HY; assumption.
    + exists (mkposreal (Rmin p (1 - p)) ltac:(apply Rmin_glb_lt; lra)). intros s Hs. change (Rabs (s - p) < Rmin p (1 - p)) in Hs. pose proof (Rmin_l p (1 - p)). pose proof (Rmin_r p (1 - p)). apply Rabs_def2 in Hs. apply HY; [exact Ha|lra].
  - exact Lm.
  - exists gfs, r. split; [exact G|]. split; [exact B|]. split; [exact L|]. split; [exact (Sl 0%nat)|exact (Sl 1%nat)].
Qed.
End Invert.

Lemma cont_exp (h : R * R -> R) p : continuous h p -> continuous (fun z => exp (h z)) p.
Proof. intros H. apply (continuous_comp h exp); [exact H|]. apply (ex_derive_continuous exp). auto_derive. exact I. Qed.
Lemma grad_z_cont (gammaln : R -> R) a x : 0 < x -> continuous gammaln a -> continuity_2d_pt (fun x a => Gammainc_grad_z gammaln a x None) x a.
Proof.
  intros Hx CG. assert (F : continuous (fun z : R * R => fst z) (x, a)) by apply continuous_fst. assert (S : continuous (fun z : R * R => snd z) (x, a)) by apply continuous_snd.
  assert (L : continuous (fun z : R * R => ln (fst z)) (x, a)) by (apply (continuous_comp (fun z : R * R => fst z) ln); [exact F|apply (ex_derive_continuous ln); auto_derive; exact Hx]).
  assert (G : continuous (fun z : R * R => gammaln (snd z)) (x, a)) by (apply (continuous_comp (fun z : R * R => snd z) gammaln); [exact S|exact CG]).
  assert (S1 : continuous (fun z : R * R => snd z - 1) (x, a)) by (apply (continuous_minus (fun z : R * R => snd z) (fun _ => 1)); [exact S|apply continuous_const]).
  assert (M : continuous (fun z : R * R => (snd z - 1) * ln (fst z)) (x, a)) by exact (continuous_mult (K := R_AbsRing) (fun z : R * R => snd z - 1) (fun z : R * R => ln (fst z)) (x, a) S1 L).
  assert (O : continuous (fun z : R * R => - fst z) (x, a)) by exact (continuous_opp (fun z : R * R => fst z) (x, a) F).
  assert (N : continuous (fun z : R * R => - fst z - gammaln (snd z)) (x, a)) by exact (continuous_minus (fun z : R * R => - fst z) (fun z : R * R => gammaln (snd z)) (x, a) O G).
  pose proof (continuous_mult (K := R_AbsRing) _ _ (x, a) (cont_exp _ _ M) (cont_exp _ _ N)) as C.
  exact (proj2 (continuity_2d_pt_filterlim (fun x a => Gammainc_grad_z gammaln a x None) x a) C).
Qed.

(** What the rules of the classes Gammainc and Gammaincc compute, given the saved tensors (a, x, value): gammainc.py:45-65 *)
Section Sem.
Variables gammaln digamma : R -> R.
Variable Tgamma : nat -> R -> R -> option R.
Definition of_option (o : option R) : C := match o with Some d => RtoC d | None => RtoC 0 end.
Definition gammainc_sem (gf : gradfn) (saved : list C) : C :=
  match gf, map Re saved with
  | GFun r, [a; x; v] => match rf_owner r, rf_name r with
      | "Gammainc", "grad_a" => of_option (Gammainc_grad_a gammaln digamma Tgamma a x (Some v) None)
      | "Gammainc", "grad_z" => RtoC (Gammainc_grad_z gammaln a x (Some v))
      | "Gammaincc", "grad_a" => of_option (Gammaincc_grad_a gammaln digamma Tgamma a x v)
      | "Gammaincc", "grad_z" => RtoC (Gammaincc_grad_z gammaln a x v)
      | _, _ => RtoC 0 end%string
  | _, _ => RtoC 0
  end.
Hypothesis HG : log_gamma_function gammaln.
Hypothesis HD : digamma_function gammaln digamma.
Hypothesis HT : computes_T Tgamma.
Lemma gammaln_cont a : 0 < a -> continuous gammaln a.
Proof. intros Ha. apply (ex_derive_continuous gammaln). exists (digamma a). apply HD, Ha. Qed.
Lemma grad_z_pos a x p : 0 < Gammainc_grad_z gammaln a x p.
Proof. apply Rmult_lt_0_compat; [apply Rpower_pos|apply exp_pos]. Qed.
(** The slots of the class [k]: the derivatives of [Y] with respect to its two arguments times the incoming gradient, or None *)
Definition inverse_gradients (k : cdict) (inv_var : gradfn) (Y : R -> R -> R) : Prop := forall a p, 0 < a -> 0 < p < 1 -> forall mask g, List.length mask = 2%nat ->
  exists gfs r, gradfuncs k = Some gfs /\
    backward process_plain (ninputs k) (backward_ (inverse_sem gammainc_sem 1 inv_var) gfs mask (map RtoC [a; p; Y a p])) [Some g] = Some r /\ List.length r = 2%nat /\
    (forall needed, nth_error mask 0 = Some needed -> exists D, is_derive (fun a => Y a p) a D /\ nth_error r 0 = Some (if needed then Some (RtoC D * g)%C else None)) /\
    (forall needed, nth_error mask 1 = Some needed -> exists D, is_derive (fun p => Y a p) p D /\ nth_error r 1 = Some (if needed then Some (RtoC D * g)%C else None)).
Theorem C66_gammaincinv P Y : (forall a x, 0 < a -> 0 < x -> regularised_P a x (P a x)) -> (forall a p, 0 < a -> 0 < p < 1 -> 0 < Y a p /\ P a (Y a p) = p) ->
  exists k, k_Gammaincinv = Some (1%nat, k) /\ inverse_gradients k (GFun (mkRaw "Gammainc" "grad_z" Static)) Y.
Proof.
  intros HP HY. destruct C54_package as ((k & Ek & _) & _ & PR & _). exists k. split; [exact Ek|]. intros a p Ha Hp mask g Lm. destruct (HY a p Ha Hp) as [Y0 EY].
  set (da := fun a x => match Gammainc_grad_a gammaln digamma Tgamma a x (Some (P a x)) None with Some d => d | None => 0 end).
  assert (DA : forall a x, 0 < a -> 0 < x -> Gammainc_grad_a gammaln digamma Tgamma a x (Some (P a x)) None = Some (da a x) /\ is_derive (fun a => P a x) a (da a x)) by (intros b x Hb Hx; destruct (C66_gammainc_a gammaln digamma HG HD Tgamma HT P HP b x Hb Hx) as (d & E & D); unfold da; rewrite E; split; [reflexivity|exact D]).
  refine (invert_slots P da (fun a x => Gammainc_grad_z gammaln a x None) 1 (fun a x Ha Hx => proj2 (DA a x Ha Hx)) (fun a x Ha Hx => C66_gammainc_x gammaln HG P HP a x Ha Hx) _ _ Y HY _ _ _ _ _ k gammainc_sem PR eq_refl Ek eq_refl eq_refl eq_refl eq_refl a p Ha Hp _ _ mask g Lm).
  - intros b x _ _. rewrite Rmult_1_l. apply grad_z_pos.
  - intros b x Hb Hx. apply grad_z_cont; [exact Hx|apply gammaln_cont, Hb].
  - pose proof (proj1 (DA a (Y a p) Ha Y0)) as E. rewrite EY in E. transitivity (of_option (Gammainc_grad_a gammaln digamma Tgamma a (Y a p) (Some p) None)); [reflexivity|rewrite E; reflexivity].
  - cbn. reflexivity.
Qed.
Theorem C66_gammainccinv Q Y : (forall a x, 0 < a -> 0 < x -> regularised_Q a x (Q a x)) -> (forall a p, 0 < a -> 0 < p < 1 -> 0 < Y a p /\ Q a (Y a p) = p) ->
  exists k, k_Gammainccinv = Some (1%nat, k) /\ inverse_gradients k (GFun (mkRaw "Gammaincc" "grad_z" Static)) Y.
Proof.
  intros HQ HY. destruct C54_package as (_ & (k & Ek & _) & _ & PR). exists k. split; [exact Ek|]. intros a p Ha Hp mask g Lm. destruct (HY a p Ha Hp) as [Y0 EY].
  set (da := fun a x => match Gammaincc_grad_a gammaln digamma Tgamma a x (Q a x) with Some d => d | None => 0 end).
  assert (DA : forall a x, 0 < a -> 0 < x -> Gammaincc_grad_a gammaln digamma Tgamma a x (Q a x) = Some (da a x) /\ is_derive (fun a => Q a x) a (da a x)) by (intros b x Hb Hx; destruct (C66_gammaincc_a gammaln digamma HG HD Tgamma HT Q HQ b x Hb Hx) as (d & E & D); unfold da; rewrite E; split; [reflexivity|exact D]).
  refine (invert_slots Q da (fun a x => Gammaincc_grad_z gammaln a x 0) (-1) (fun a x Ha Hx => proj2 (DA a x Ha Hx)) (fun a x Ha Hx => C66_gammaincc_x gammaln HG Q HQ a x Ha Hx) _ _ Y HY _ _ _ _ _ k gammainc_sem PR eq_refl Ek eq_refl eq_refl eq_refl eq_refl a p Ha Hp _ _ mask g Lm).
  - intros b x _ _. unfold Gammaincc_grad_z. replace (-1 * - Gammainc_grad_z gammaln b x None) with (Gammainc_grad_z gammaln b x None) by ring. apply grad_z_pos.
  - intros b x Hb Hx. unfold Gammaincc_grad_z. apply (continuity_2d_pt_opp (fun x a => Gammainc_grad_z gammaln a x None)). apply grad_z_cont; [exact Hx|apply gammaln_cont, Hb].
  - pose proof (proj1 (DA a (Y a p) Ha Y0)) as E. rewrite EY in E. transitivity (of_option (Gammaincc_grad_a gammaln digamma Tgamma a (Y a p) p)); [reflexivity|rewrite E; reflexivity].
  - cbn. reflexivity.
Qed.
End Sem.
Print Assumptions C66_gammaincinv.
Print Assumptions C66_gammainccinv.

(** ** The hypotheses are met: functions with the values assumed above *)
Definition Gln (a : R) : R := ln (Gam a).
Definition psi (a : R) : R := Gv 1 a / Gam a.
Definition Tg (m : nat) (a z : R) : option R := match m with O => None | 1%nat => Some (Rpower z (a - 1) * exp (- z)) | S (S k) => Some (Rpower z a * Jv k a z / (z * INR (fact k))) end.
Definition Pv (a x : R) : R := 1 - Uv a x / Gam a.
Definition Qv (a x : R) : R := Uv a x / Gam a.
Lemma Gln_ok : log_gamma_function Gln.
Proof. intros a Ha. unfold Gln. rewrite exp_ln by (apply Gam_pos, Ha). apply Gam_ok, Ha. Qed.
Lemma psi_ok : digamma_function Gln psi.
Proof.
  intros a Ha. pose proof (Gam_pos a Ha) as P. unfold Gln. evar_last; [apply (is_derive_comp ln Gam a (/ Gam a) (Gv 1 a)); [apply is_derive_Reals, derivable_pt_lim_ln, P|apply Gam_derive, Ha]|]. unfold scal; cbn; unfold mult; cbn. unfold psi. reql. unfold Rdiv. ring.
Qed.
Lemma Tg_ok : computes_T Tg.
Proof.
  split; [|reflexivity]. intros m a z Hm Hz. destruct m as [|[|k]]; [lia| |]; eexists; (split; [reflexivity|]); [reflexivity|]. cbn [T_function]. replace (Rpower z a * Jv k a z / (z * INR (fact k)) * z * INR (fact k)) with (Rpower z a * Jv k a z); [apply from_Jv, Hz|]. field. split; [apply INR_fact_neq_0|lra].
Qed.
Lemma Pv_ok a x : 0 < a -> 0 < x -> regularised_P a x (Pv a x).
Proof.
  intros Ha Hx. pose proof (Gam_pos a Ha). exists (Gam a), (Gam a - Uv a x). split; [apply Gam_ok, Ha|]. split; [apply (split_to x _ _ _ Hx (Gam_ok a Ha) (upper_exists a x Hx))|]. unfold Pv. field. lra.
Qed.
Lemma Qv_ok a x : 0 < a -> 0 < x -> regularised_Q a x (Qv a x).
Proof. intros Ha Hx. exists (Gam a), (Uv a x). split; [apply Gam_ok, Ha|]. split; [apply upper_exists, Hx|reflexivity]. Qed.
Lemma dens_pos a t : 0 < gamma_density a t.
Proof. apply Rmult_lt_0_compat; [apply Rpower_pos|apply exp_pos]. Qed.
Lemma Uv_int a x y : 0 < x -> x <= y -> is_RInt (gamma_density a) x y (Uv a x - Uv a y).
Proof.
  intros Hx Hy. replace (Uv a x - Uv a y) with ((fun t => - Uv a t) y - (fun t => - Uv a t) x) by (cbv beta; ring). apply (is_RInt_derive (V := R_CompleteNormedModule) (fun t => - Uv a t) (gamma_density a)); intros t Ht; rewrite Rmin_left in Ht by lra.
  - evar_last; [apply (is_derive_opp (fun t => Uv a t)), U_derive_x; lra|]. unfold opp; cbn. unfold gamma_density. reql. ring.
  - apply (ex_derive_continuous (gamma_density a)). unfold gamma_density, Rpower. auto_derive. lra.
Qed.
Lemma Uv_pos a x : 0 < x -> 0 < Uv a x.
Proof. intros Hx. unfold Uv. apply Rmult_lt_0_compat; [apply Rpower_pos|]. apply (improper0_pos (jf 0 a x)); [intros t Ht; apply jf_cont; lra| |apply Jv_ok, Hx]. intros t Ht. unfold jf. cbn. rewrite Rmult_1_l. apply Rmult_lt_0_compat; [apply Rpower_pos|apply exp_pos]. Qed.
Lemma Uv_lt a x : 0 < a -> 0 < x -> Uv a x < Gam a.
Proof.
  intros Ha Hx. apply Rnot_le_lt. intros H. (* at x/2 the difference is strictly negative *)
  assert (D : 0 < Uv a (x / 2) - Uv a x). { pose proof (is_RInt_unique _ _ _ _ (Uv_int a (x / 2) x ltac:(lra) ltac:(lra))) as E. rewrite <- E. apply RInt_gt_0; [lra|intros; apply dens_pos|]. intros t Ht. apply (ex_derive_continuous (gamma_density a)). unfold gamma_density, Rpower. auto_derive. lra. }
  set (e := Uv a (x / 2) - Uv a x) in *. destruct (split_to (x / 2) _ _ _ ltac:(lra) (Gam_ok a Ha) (upper_exists a (x / 2) ltac:(lra)) e D) as (d & Hd & Hdx & H1). destruct (H1 (d / 2) ltac:(lra)) as (I1 & R1 & B1). fold (Uv a (x / 2)) in B1.
  assert (0 <= I1). { rewrite <- (is_RInt_unique _ _ _ _ R1). apply RInt_ge_0; [lra|exists I1; exact R1|intros; left; apply dens_pos]. } apply Rabs_def2 in B1. unfold e in *. lra.
Qed.
Lemma Pv_onto a p : 0 < a -> 0 < p < 1 -> exists x, 0 < x /\ Pv a x = p.
Proof.
  intros Ha Hp. pose proof (Gam_pos a Ha) as G. set (e := Rmin p (1 - p) * Gam a). assert (He : 0 < e) by (apply Rmult_lt_0_compat; [apply Rmin_glb_lt; lra|exact G]). assert (e <= p * Gam a) by (apply Rmult_le_compat_r; [lra|apply Rmin_l]). assert (e <= (1 - p) * Gam a) by (apply Rmult_le_compat_r; [lra|apply Rmin_r]).
  destruct (Gam_ok a Ha e He) as (a0 & b0 & Pa & Hab & H1). set (x1 := a0 / 2). set (x2 := b0 + 1). destruct (H1 x1 x2 ltac:(unfold x1; lra) ltac:(unfold x2; lra)) as (I1 & R1 & B1). assert (X : 0 < x1 < x2) by (unfold x1, x2; lra).
  pose proof (is_RInt_unique _ _ _ _ (Uv_int a x1 x2 ltac:(lra) ltac:(lra))) as E1. rewrite (is_RInt_unique _ _ _ _ R1) in E1. apply Rabs_def2 in B1. pose proof (Uv_lt a x1 Ha ltac:(lra)). pose proof (Uv_pos a x2 ltac:(lra)).
  assert (DP : forall t, 0 < t -> continuity_pt (fun x => Pv a x - p) t).
  { intros t Ht. apply continuity_pt_filterlim. assert (CU : continuous (fun x => Uv a x) t) by (apply (ex_derive_continuous (fun x => Uv a x)); eexists; apply U_derive_x, Ht).
    assert (C1 : continuous (fun x => Uv a x * / Gam a) t) by exact (continuous_mult (K := R_AbsRing) (fun x => Uv a x) (fun _ => / Gam a) t CU (continuous_const (/ Gam a) t)).
    assert (C2 : continuous (fun x => 1 - Uv a x * / Gam a) t) by exact (continuous_minus (fun _ => 1) (fun x => Uv a x * / Gam a) t (continuous_const 1 t) C1).
    exact (continuous_minus (fun x => 1 - Uv a x * / Gam a) (fun _ => p) t C2 (continuous_const p t)). }
  assert (S1 : forall c x, (Uv a x - c * Gam a) / Gam a = Uv a x / Gam a - c) by (intros; field; lra).
  assert (L1 : Pv a x1 - p < 0).
  { unfold Pv. assert (0 < (Uv a x1 - (1 - p) * Gam a) / Gam a) by (apply Rdiv_lt_0_compat; lra). rewrite S1 in H4. lra. }
  assert (L2 : 0 < Pv a x2 - p).
  { unfold Pv. assert (0 < ((1 - p) * Gam a - Uv a x2) / Gam a) by (apply Rdiv_lt_0_compat; lra). replace (((1 - p) * Gam a - Uv a x2) / Gam a) with (1 - p - Uv a x2 / Gam a) in H4 by (field; lra). lra. }
  destruct (IVT_interv (fun x => Pv a x - p) x1 x2) as (x & Hx & E); [intros t Ht; apply DP; lra|lra|exact L1|exact L2|]. exists x. split; lra.
Qed.
Lemma Pv_mono a x y : 0 < a -> 0 < x -> x < y -> Pv a x < Pv a y.
Proof.
  intros Ha Hx Hy. pose proof (Gam_pos a Ha) as G. assert (D : 0 < Uv a x - Uv a y). { pose proof (is_RInt_unique _ _ _ _ (Uv_int a x y Hx ltac:(lra))) as E. rewrite <- E. apply RInt_gt_0; [lra|intros; apply dens_pos|]. intros t Ht. apply (ex_derive_continuous (gamma_density a)). unfold gamma_density, Rpower. auto_derive. lra. }
  unfold Pv. assert (0 < (Uv a x - Uv a y) / Gam a) by (apply Rdiv_lt_0_compat; lra). replace ((Uv a x - Uv a y) / Gam a) with (Uv a x / Gam a - Uv a y / Gam a) in H by (field; lra). lra.
Qed.
Definition Yv (a p : R) : R := real (Lub_Rbar (fun x => 0 < x /\ Pv a x < p)).
Lemma Yv_ok a p : 0 < a -> 0 < p < 1 -> 0 < Yv a p /\ Pv a (Yv a p) = p.
Proof.
  intros Ha Hp. destruct (Pv_onto a p Ha Hp) as (x & Hx & E). assert (L : Lub_Rbar (fun x => 0 < x /\ Pv a x < p) = Finite x); [|unfold Yv; rewrite L; cbn; split; assumption].
  apply is_lub_Rbar_unique. split.
  - intros y [H1 H2]. cbn. destruct (Rle_or_lt y x) as [K|K]; [exact K|]. pose proof (Pv_mono a x y Ha Hx K). lra.
  - intros b Hb. destruct b as [b| |]; [|exact I|exfalso; apply (Hb (x / 2)); split; [lra|rewrite <- E; apply Pv_mono; lra]]. cbn. apply Rnot_lt_le. intros K. set (y := Rmax (x / 2) ((b + x) / 2)). assert (x / 2 <= y) by apply Rmax_l. assert ((b + x) / 2 <= y) by apply Rmax_r. assert (y < x) by (apply Rmax_lub_lt; lra).
    assert (Y1 : 0 < y /\ Pv a y < p) by (split; [lra|rewrite <- E; apply Pv_mono; lra]). specialize (Hb y Y1). cbn in Hb. lra.
Qed.
(** Functions exist that meet every hypothesis of C66, and they are the gamma functions. *)
Example C66_nonvacuous : log_gamma_function Gln /\ digamma_function Gln psi /\ computes_T Tg /\
  (forall a x, 0 < a -> 0 < x -> regularised_P a x (Pv a x)) /\ (forall a x, 0 < a -> 0 < x -> regularised_Q a x (Qv a x)) /\
  (forall a p, 0 < a -> 0 < p < 1 -> 0 < Yv a p /\ Pv a (Yv a p) = p) /\ (forall a q, 0 < a -> 0 < q < 1 -> 0 < Yv a (1 - q) /\ Qv a (Yv a (1 - q)) = q).
Proof.
  split; [exact Gln_ok|]. split; [exact psi_ok|]. split; [exact Tg_ok|]. split; [exact Pv_ok|]. split; [exact Qv_ok|]. split; [exact Yv_ok|].
  intros a q Ha Hq. destruct (Yv_ok a (1 - q) Ha ltac:(lra)) as [A B]. split; [exact A|]. unfold Pv in B. unfold Qv. lra.
Qed.
