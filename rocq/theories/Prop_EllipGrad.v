(** * C63: the gradient rules of Carlson's functions are the partial derivatives *)
From Coq Require Import Reals Lra Lia Psatz Bool List.
From Coquelicot Require Import Rcomplements Hierarchy Derive RInt RInt_analysis AutoDerive ElemFct.
From Verif Require Import EllipSpec EllipGradSpec Improper CarlsonDup CarlsonTail CarlsonLoop CarlsonRC Legendre EllipMain CarlsonGrad EllipGrad FuncCtx ImproperLim.
Import ListNotations.
Open Scope R_scope.

Lemma rp1 x : 0 < x -> Rpower x (- (1 / 2)) = / sqrt x.
Proof. intros Hx. rewrite Rpower_Ropp. f_equal. rewrite <- (Rpower_sqrt x Hx). f_equal. field. Qed.
Lemma rpn x n e : 0 < x -> e = INR n / 2 -> Rpower x (- e) = (/ sqrt x) ^ n.
Proof. intros Hx ->. rewrite pow_inv, Rpower_Ropp. f_equal. rewrite <- (Rpower_pow n (sqrt x)) by (apply sqrt_lt_R0, Hx). rewrite <- (Rpower_sqrt x Hx), Rpower_mult. f_equal. field. Qed.
Lemma rp3 x : 0 < x -> Rpower x (- (3 / 2)) = (/ sqrt x) ^ 3.
Proof. intros Hx. apply rpn; [exact Hx|cbn; field]. Qed.
Lemma rp5 x : 0 < x -> Rpower x (- (5 / 2)) = (/ sqrt x) ^ 5.
Proof. intros Hx. apply rpn; [exact Hx|cbn; field]. Qed.
Lemma feq_refl tol a : 0 < tol -> feq tol a a = true.
Proof. intros H. unfold feq. destruct (Rlt_dec _ _) as [|N]; [reflexivity|]. exfalso. apply N. rewrite Rminus_diag_eq, Rabs_R0 by reflexivity. exact H. Qed.
Lemma feq_far tol a b : tol <= Rabs (a - b) -> feq tol a b = false.
Proof. intros H. unfold feq. destruct (Rlt_dec _ _); [lra|reflexivity]. Qed.
Lemma far_neq tol a b : 0 < tol -> tol <= Rabs (a - b) -> a <> b.
Proof. intros Ht H E. subst b. rewrite Rminus_diag_eq, Rabs_R0 in H by reflexivity. lra. Qed.
Lemma cases tol a b : 0 < tol -> resolved false tol a b -> (feq tol a b = true /\ a = b) \/ (feq tol a b = false /\ a <> b).
Proof. intros Ht [E|E]; [left; subst b; split; [apply feq_refl, Ht|reflexivity]|right; split; [apply feq_far, E|apply (far_neq tol); assumption]]. Qed.
Lemma feq_sym tol a b : feq tol a b = feq tol b a.
Proof. unfold feq. rewrite (Rabs_minus_sym a b). reflexivity. Qed.

Section C63.
Variables (rc : R -> R -> R) (rd rf rg : R -> R -> R -> R) (rj : R -> R -> R -> R -> R).
Hypothesis H : carlson_functions rc rd rf rg rj.
Lemma VC x y : 0 <= x -> 0 < y -> carlson_RC x y (rc x y).
Proof. intros Hx Hy. destruct (rc_full 1 x y ltac:(lra) Hx Hy) as (r & v & _ & V & _). rewrite (rc_is _ _ _ _ _ H _ _ _ V). exact V. Qed.
Lemma VF x y z : one0 x y z -> carlson_RF x y z (rf x y z).
Proof. intros Ho. destruct (rf_full 1 x y z ltac:(lra) Ho) as (r & v & _ & V & _). rewrite (rf_is _ _ _ _ _ H _ _ _ _ V). exact V. Qed.
Lemma VJ x y z p : one0 x y z -> 0 < p -> carlson_RJ x y z p (rj x y z p).
Proof. intros Ho Hp. destruct (RJ_exists0 x y z p Ho Hp) as (v & V). rewrite (rj_is _ _ _ _ _ H _ _ _ _ _ V). exact V. Qed.
Lemma VD x y z : one0 x y z -> 0 < z -> carlson_RD x y z (rd x y z).
Proof. intros Ho Hz. destruct (RJ_exists0 x y z z Ho Hz) as (v & V). rewrite (rd_is _ _ _ _ _ H _ _ _ _ V). exact V. Qed.
Lemma VG x y z : one0 x y z -> 0 < z -> carlson_RG x y z (rg x y z).
Proof. intros Ho Hz. pose proof (RG_RF_RD x y z _ _ Ho Hz (VF x y z Ho) (VD x y z Ho Hz)) as V. rewrite (rg_is _ _ _ _ _ H _ _ _ _ V). exact V. Qed.
Lemma rf_123 x y z : one0 x y z -> rf x y z = rf y z x /\ rf x y z = rf y x z /\ rf x y z = rf z x y /\ rf x y z = rf x z y /\ rf x y z = rf z y x.
Proof.
  intros Ho. pose proof (VF x y z Ho) as V. assert (E : forall a b c, carlson_RF a b c (rf x y z) -> rf x y z = rf a b c) by (intros a b c Va; symmetry; apply (rf_is _ _ _ _ _ H), Va).
  split; [apply E, RF_swap23, RF_swap12, V|]. split; [apply E, RF_swap12, V|]. split; [apply E, RF_swap12, RF_swap23, V|]. split; [apply E, RF_swap23, V|]. apply E, RF_swap12, RF_swap23, RF_swap12, V.
Qed.
Lemma RJ_swap12 x y z p v : carlson_RJ x y z p v -> carlson_RJ y x z p v.
Proof. apply improper0_ext. intros t _. do 2 f_equal. ring. Qed.
Lemma RJ_swap23 x y z p v : carlson_RJ x y z p v -> carlson_RJ x z y p v.
Proof. apply improper0_ext. intros t _. do 2 f_equal. ring. Qed.
Lemma rj_12 x y z p : one0 x y z -> 0 < p -> rj x y z p = rj y x z p.
Proof. intros Ho Hp. symmetry. apply (rj_is _ _ _ _ _ H), RJ_swap12, VJ; assumption. Qed.
Lemma rj_13 x y z p : one0 x y z -> 0 < p -> rj x y z p = rj z y x p.
Proof. intros Ho Hp. symmetry. apply (rj_is _ _ _ _ _ H), RJ_swap12, RJ_swap23, RJ_swap12, VJ; assumption. Qed.
Lemma rd_12 x y z : one0 x y z -> 0 < z -> rd x y z = rd y x z.
Proof. intros Ho Hz. symmetry. pose proof (VD x y z Ho Hz) as V. exact (rd_is _ _ _ _ _ H y x z _ (RJ_swap12 x y z z (rd x y z) V)). Qed.
Ltac o0 := unfold one0; repeat split; lra.

(** R_C *)
Lemma rc_general x y : 0 <= x -> 0 < y -> x <> y -> (0 < x -> is_derive (fun v => rc v y) x ((rc x y - Rpower x (- (1 / 2))) / (2 * (y - x)))) /\ is_derive (fun v => rc x v) y ((rc x y - sqrt x / y) / (2 * (x - y))).
Proof.
  intros Hx0 Hy N. pose proof (VC x y Hx0 Hy) as V. split.
    - intros Hx. evar_last; [apply (dRC_x y (fun v => rc v y) x _ Hx Hy (fun v Pv => VC v y ltac:(lra) Hy) (JC3 x y _ Hx Hy N V))|]. rewrite rp1 by exact Hx. req. field. split; [apply Rgt_not_eq, sqrt_lt_R0, Hx|lra].
    - evar_last; [apply (dRC_y x (fun v => rc x v) y _ ltac:(lra) Hy (fun v Pv => VC x v ltac:(lra) Pv) (JC4 x y _ ltac:(lra) Hy N V))|]. req. field. lra.
Qed.
Theorem C63_elliprc dmc tol x y : 0 < tol -> 0 <= x -> 0 < y -> resolved dmc tol x y ->
  (0 < x -> is_derive (fun v => rc v y) x (rc_grad_x tol dmc x y (rc x y))) /\ is_derive (fun v => rc x v) y (rc_grad_y tol dmc x y (rc x y)).
Proof.
  intros Ht Hx0 Hy Rs.
  unfold rc_grad_x, rc_grad_y. destruct dmc; [apply rc_general; [exact Hx0|exact Hy|exact Rs]|]. destruct (cases tol x y Ht Rs) as [(E & Exy)|(E & N)]; rewrite E; cbn [where_]; [|apply rc_general; assumption]. subst y. rename Hy into Hx.
  assert (K5 : improper0 (fun t => u x t ^ 5) (2 / 3 * (/ sqrt x) ^ 3)) by (pose proof (k_mono x 3 Hx ltac:(lia)) as K; cbn [Nat.add INR] in K; replace (1 + 1 + 1) with 3 in K by ring; exact K). rewrite rp3 by exact Hx. split.
  - intros _. evar_last; [apply (dRC_x x (fun v => rc v x) x (2 / 3 * (/ sqrt x) ^ 3) Hx Hx (fun v Pv => VC v x ltac:(lra) Hx))|req; field; apply Rgt_not_eq, sqrt_lt_R0, Hx]. eapply improper0_ext; [|exact K5]. intros t _. cbv beta. ring.
  - evar_last; [apply (dRC_y x (fun v => rc x v) x (2 / 3 * (/ sqrt x) ^ 3) ltac:(lra) Hx (fun v Pv => VC x v ltac:(lra) Pv))|req; field; apply Rgt_not_eq, sqrt_lt_R0, Hx]. eapply improper0_ext; [|exact K5]. intros t _. cbv beta. ring.
Qed.
(** R_J, the first three arguments: [x] positive, and of the others at most one zero *)
Lemma rj_x dmc tol x y z p : 0 < tol -> 0 < x -> 0 <= y -> 0 <= z -> 0 < y + z -> 0 < p -> resolved dmc tol x p -> (x = p -> resolved dmc tol x y /\ resolved dmc tol x z) ->
  is_derive (fun v => rj v y z p) x (rj_grad_x rc rd rf tol dmc x y z p (rj x y z p)).
Proof.
  intros Ht Hx Hy Hz Hyz Hp Rp Ryz. pose proof (VJ x y z p ltac:(o0) Hp) as V. pose proof (VD y z x ltac:(o0) Hx) as VDx.
  assert (L : forall K, improper0 (fun t => u x t ^ 3 * (u y t * u z t * u p t ^ 2)) K -> is_derive (fun v => rj v y z p) x (- (3 / 4) * K)) by (intros K HK; apply (dRJ_x y z p (fun v => rj v y z p) x K Hx Hy Hz Hp (fun v Pv => VJ v y z p ltac:(o0) Hp) HK)).
  assert (Gen : x <> p -> is_derive (fun v => rj v y z p) x ((rj x y z p - rd y z x) / (2 * (p - x)))).
  { intros N. evar_last; [apply L, (JPF x y z p _ _ Hx Hy Hz Hp N VDx V)|]. req. field. lra. }
  unfold rj_grad_x. destruct dmc; [apply Gen, Rp|]. destruct (cases tol x p Ht Rp) as [(E & Exp)|(E & N)]; rewrite E; cbn [where_]; [|apply Gen, N]. subst p. destruct (Ryz eq_refl) as (Ry & Rz). clear Ryz Gen V.
  assert (Ps : 0 < sqrt x) by (apply sqrt_lt_R0, Hx). assert (Qs : x = sqrt x * sqrt x) by (symmetry; apply sqrt_sqrt; lra).
  destruct (cases tol x y Ht Ry) as [(Ey & Exy)|(Ey & Ny)]; rewrite Ey; cbn [where_]; (destruct (cases tol x z Ht Rz) as [(Ez & Exz)|(Ez & Nz)]; rewrite Ez; cbn [where_]).
  - subst y z. rewrite rp5 by exact Hx. evar_last; [apply (L (2 / 5 * (/ sqrt x) ^ 5))|req; field; lra]. eapply improper0_ext; [|apply (J7 x Hx)]. intros t _. cbv beta. ring.
  - subst y. evar_last; [apply (L (- (1 / 4) * ((5 * x - 2 * z) * sqrt z / x ^ 2 - 3 * rc z x) / (x - z) ^ 2))|req; field; split; lra]. eapply improper0_ext; [|apply (J6 x z _ Hx Hz Nz (VC z x Hz Hx))]. intros t _. cbv beta. ring.
  - subst z. evar_last; [apply (L (- (1 / 4) * ((5 * x - 2 * y) * sqrt y / x ^ 2 - 3 * rc y x) / (x - y) ^ 2))|req; field; split; lra]. eapply improper0_ext; [|apply (J6 x y _ Hx Hy Ny (VC y x Hy Hx))]. intros t _. cbv beta. ring.
  - rewrite rp3 by exact Hx. evar_last; [apply (L (- (2 / 3) * (rf x y z + 2 / 3 * (y + z - 2 * x) * rd y z x - sqrt y * sqrt z * (/ sqrt x) ^ 3) / ((x - y) * (x - z))))|req; field; repeat split; lra]. eapply improper0_ext; [|apply (J5 x y z _ _ Hx Hy Hz Ny Nz (VF x y z ltac:(o0)) VDx)]. intros t _. cbv beta. ring.
Qed.
Theorem C63_elliprj_x dmc tol x y z p : 0 < tol -> 0 < x -> 0 <= y -> 0 <= z -> 0 < y + z -> 0 < p -> resolved dmc tol x p -> (x = p -> resolved dmc tol x y /\ resolved dmc tol x z) ->
  is_derive (fun v => rj v y z p) x (rj_grad_x rc rd rf tol dmc x y z p (rj x y z p)).
Proof. apply rj_x. Qed.
Theorem C63_elliprj_y dmc tol x y z p : 0 < tol -> 0 < y -> 0 <= x -> 0 <= z -> 0 < x + z -> 0 < p -> resolved dmc tol y p -> (y = p -> resolved dmc tol y x /\ resolved dmc tol y z) ->
  is_derive (fun v => rj x v z p) y (rj_grad_y rc rd rf tol dmc x y z p (rj x y z p)).
Proof.
  intros Ht Hy Hx Hz Hxz Hp Rp R2. unfold rj_grad_y. rewrite (rj_12 x y z p) by (try o0; exact Hp). apply (is_derive_ext_loc (fun v => rj v x z p)); [|apply (rj_x dmc tol y x z p); assumption].
  exists (mkposreal y Hy). intros v Hv. unfold ball in Hv; cbn in Hv; unfold AbsRing_ball, abs, minus, plus, opp in Hv; cbn in Hv. apply Rabs_def2 in Hv. apply rj_12; [o0|exact Hp].
Qed.
Theorem C63_elliprj_z dmc tol x y z p : 0 < tol -> 0 < z -> 0 <= x -> 0 <= y -> 0 < x + y -> 0 < p -> resolved dmc tol z p -> (z = p -> resolved dmc tol z y /\ resolved dmc tol z x) ->
  is_derive (fun v => rj x y v p) z (rj_grad_z rc rd rf tol dmc x y z p (rj x y z p)).
Proof.
  intros Ht Hz Hx Hy Hxy Hp Rp R2. unfold rj_grad_z. rewrite (rj_13 x y z p) by (try o0; exact Hp). apply (is_derive_ext_loc (fun v => rj v y x p)); [|apply (rj_x dmc tol z y x p); (assumption || lra)].
  exists (mkposreal z Hz). intros v Hv. unfold ball in Hv; cbn in Hv; unfold AbsRing_ball, abs, minus, plus, opp in Hv; cbn in Hv. apply Rabs_def2 in Hv. apply rj_13; [o0|exact Hp].
Qed.
(** R_J, the last argument *)
Lemma rj_p_general x y z p : one0 x y z -> 0 < z -> 0 < p -> p <> x -> p <> y -> p <> z ->
  is_derive (fun v => rj x y z v) p ((3 * (1 / (p - x) * (1 / (p - y)) * (1 / (p - z))) * (p * rf x y z - 2 * rg x y z + sqrt x * sqrt y * sqrt z / p) - (1 / (p - x) + 1 / (p - y) + 1 / (p - z)) * rj x y z p) / 2).
Proof.
  intros Ho Hz Hp Nx Ny Nz. pose proof Ho as (Hx & Hy & _). pose proof (VF x y z Ho) as V1. pose proof (VD x y z Ho Hz) as V2.
  evar_last; [apply (dRJ_p x y z (fun v => rj x y z v) p _ Hx Hy ltac:(lra) Hp (fun v Pv => VJ x y z v Ho Pv) (J2 x y z p _ _ _ Hx Hy Hz Hp Nx Ny Nz V1 V2 (VJ x y z p Ho Hp)))|].
  assert (EG : 2 * rg x y z = z * rf x y z - (x - z) * (y - z) * rd x y z / 3 + sqrt x * sqrt y / sqrt z). { rewrite (rg_is _ _ _ _ _ H _ _ _ _ (RG_RF_RD x y z _ _ Ho Hz V1 V2)). field. apply Rgt_not_eq, sqrt_lt_R0, Hz. }
  rewrite EG. req. field. repeat split; try lra. apply Rgt_not_eq, sqrt_lt_R0, Hz.
Qed.
Theorem C63_elliprj_p dmc tol x y z p : 0 < tol -> one0 x y z -> 0 < p -> resolved dmc tol p x -> resolved dmc tol p y -> resolved dmc tol p z ->
  is_derive (fun v => rj x y z v) p (rj_grad_p rc rd rf rg tol dmc x y z p (rj x y z p)).
Proof.
  intros Ht Ho Hp Rx Ry Rz. pose proof Ho as (Hx & Hy & Hz & Hxy & Hxz & Hyz).
  assert (L : forall K, improper0 (fun t => u p t ^ 4 * (u x t * u y t * u z t)) K -> is_derive (fun v => rj x y z v) p (- (3 / 2) * K)) by (intros K HK; apply (dRJ_p x y z (fun v => rj x y z v) p K Hx Hy Hz Hp (fun v Pv => VJ x y z v Ho Pv) HK)).
  assert (Gen : p <> x -> p <> y -> p <> z -> is_derive (fun v => rj x y z v) p ((3 * (1 / (p - x) * (1 / (p - y)) * (1 / (p - z))) * (p * rf x y z - 2 * rg x y z + sqrt x * sqrt y * sqrt z / p) - (1 / (p - x) + 1 / (p - y) + 1 / (p - z)) * rj x y z p) / 2)).
  { intros Nx Ny Nz. destruct (Rlt_dec 0 z) as [Pz|Nz0]; [apply rj_p_general; assumption|]. assert (z = 0) by lra. subst z.
    assert (Po : one0 0 y x) by o0. assert (Px : 0 < x) by lra. pose proof (rj_p_general 0 y x p Po Px Hp Nz Ny Nx) as D. apply (is_derive_ext_loc _ (fun v => rj x y 0 v)) in D.
    - evar_last; [exact D|]. rewrite (rj_13 0 y x p Po Hp). assert (Ef : rf 0 y x = rf x y 0) by (apply (rf_123 0 y x Po)). assert (Eg : rg 0 y x = rg x y 0) by (symmetry; apply (rg_is _ _ _ _ _ H), RG_swap13, VG; assumption). rewrite Ef, Eg. req. field. lra.
    - exists (mkposreal p Hp). intros v Hv. unfold ball in Hv; cbn in Hv; unfold AbsRing_ball, abs, minus, plus, opp in Hv; cbn in Hv. apply Rabs_def2 in Hv. apply rj_13; [exact Po|lra]. }
  unfold rj_grad_p. destruct dmc; [apply Gen; assumption|]. assert (Ps : 0 < sqrt p) by (apply sqrt_lt_R0, Hp). rewrite rp3, rp5 by exact Hp.
  assert (B6 : forall a, 0 <= a -> p <> a -> improper0 (fun t => u p t ^ 6 * u a t) (- (1 / 4) * ((5 * p - 2 * a) * sqrt a / p ^ 2 - 3 * rc a p) / (p - a) ^ 2)) by (intros a Ha Na; apply (J6 p a _ Hp Ha Na (VC a p Ha Hp))).
  assert (B5 : forall a b, 0 <= a -> 0 <= b -> 0 < a + b -> p <> a -> p <> b -> improper0 (fun t => u p t ^ 5 * (u a t * u b t)) (- (2 / 3) * (rf a b p + 2 / 3 * (a + b - 2 * p) * rd a b p - sqrt a * sqrt b * (/ sqrt p) ^ 3) / ((p - a) * (p - b)))).
  { intros a b Ha Hb Hab Na Nb. assert (Eo : one0 p a b) by o0. assert (Ef : rf a b p = rf p a b) by (symmetry; apply (rf_123 p a b Eo)). rewrite Ef. apply (J5 p a b _ _ Hp Ha Hb Na Nb (VF p a b Eo) (VD a b p ltac:(o0) Hp)). }
  destruct (cases tol p x Ht Rx) as [(Ex & Epx)|(Ex & Nx)]; rewrite Ex; (destruct (cases tol p y Ht Ry) as [(Ey & Epy)|(Ey & Ny)]; rewrite Ey); (destruct (cases tol p z Ht Rz) as [(Ez & Epz)|(Ez & Nz)]; rewrite Ez); cbn [count filter length Nat.leb Nat.eqb where_].
  - subst x y z. evar_last; [apply (L (2 / 5 * (/ sqrt p) ^ 5))|req; field; lra]. eapply improper0_ext; [|apply (J7 p Hp)]. intros t _. cbv beta. ring.
  - subst x y. evar_last; [apply L; eapply improper0_ext; [|apply (B6 z Hz Nz)]; intros t _; cbv beta; ring|]. req. field. split; lra.
  - subst x z. evar_last; [apply L; eapply improper0_ext; [|apply (B6 y Hy Ny)]; intros t _; cbv beta; ring|]. req. field. split; lra.
  - subst x. evar_last; [apply L; eapply improper0_ext; [|apply (B5 y z Hy Hz Hyz Ny Nz)]; intros t _; cbv beta; ring|]. req. field. repeat split; lra.
  - subst y z. evar_last; [apply L; eapply improper0_ext; [|apply (B6 x Hx Nx)]; intros t _; cbv beta; ring|]. req. field. split; lra.
  - subst y. evar_last; [apply L; eapply improper0_ext; [|apply (B5 x z Hx Hz Hxz Nx Nz)]; intros t _; cbv beta; ring|]. req. field. repeat split; lra.
  - subst z. evar_last; [apply L; eapply improper0_ext; [|apply (B5 x y Hx Hy Hxy Nx Ny)]; intros t _; cbv beta; ring|]. req. field. repeat split; lra.
  - apply Gen; assumption.
Qed.
(** R_D *)
Lemma rd_rj x y z : one0 x y z -> 0 < z -> rd x y z = rj x y z z.
Proof. intros Ho Hz. pose proof (VJ x y z z Ho Hz) as V. exact (rd_is _ _ _ _ _ H x y z _ V). Qed.
Lemma rd_x dmc tol x y z : 0 < tol -> 0 < x -> 0 <= y -> 0 < z -> resolved dmc tol x z -> (x = z -> resolved dmc tol x y) ->
  is_derive (fun v => rd v y z) x (rd_grad_x rc rd tol dmc x y z (rd x y z)).
Proof.
  intros Ht Hx Hy Hz Rz Ry. pose proof (VD x y z ltac:(o0) Hz) as V. pose proof (VD y z x ltac:(o0) Hx) as VDx.
  assert (L : forall K, improper0 (fun t => u x t ^ 3 * (u y t * u z t * u z t ^ 2)) K -> is_derive (fun v => rd v y z) x (- (3 / 4) * K)) by (intros K HK; apply (dRJ_x y z z (fun v => rd v y z) x K Hx Hy ltac:(lra) Hz (fun v Pv => VD v y z ltac:(o0) Hz) HK)).
  assert (Gen : x <> z -> is_derive (fun v => rd v y z) x ((rd y z x - rd x y z) / (2 * (x - z)))) by (intros N; evar_last; [apply L, (JPF x y z z _ _ Hx Hy ltac:(lra) Hz N VDx V)|]; req; field; lra).
  unfold rd_grad_x. destruct dmc; [apply Gen, Rz|]. destruct (cases tol x z Ht Rz) as [(E & Exz)|(E & N)]; rewrite E; cbn [where_]; [|apply Gen, N]. subst z.
  assert (Ps : 0 < sqrt x) by (apply sqrt_lt_R0, Hx). destruct (cases tol x y Ht (Ry eq_refl)) as [(Ey & Exy)|(Ey & Ny)]; rewrite Ey; cbn [where_].
  - subst y. rewrite rp5 by exact Hx. evar_last; [apply (L (2 / 5 * (/ sqrt x) ^ 5))|req; field; lra]. eapply improper0_ext; [|apply (J7 x Hx)]. intros t _. cbv beta. ring.
  - evar_last; [apply L; eapply improper0_ext; [|apply (J6 x y _ Hx Hy Ny (VC y x Hy Hx))]; intros t _; cbv beta; ring|]. req. field. split; lra.
Qed.
Theorem C63_elliprd_x dmc tol x y z : 0 < tol -> 0 < x -> 0 <= y -> 0 < z -> resolved dmc tol x z -> (x = z -> resolved dmc tol x y) ->
  is_derive (fun v => rd v y z) x (rd_grad_x rc rd tol dmc x y z (rd x y z)).
Proof. apply rd_x. Qed.
Theorem C63_elliprd_y dmc tol x y z : 0 < tol -> 0 < y -> 0 <= x -> 0 < z -> resolved dmc tol y z -> (y = z -> resolved dmc tol y x) ->
  is_derive (fun v => rd x v z) y (rd_grad_y rc rd tol dmc x y z (rd x y z)).
Proof.
  intros Ht Hy Hx Hz Rz Rx. unfold rd_grad_y. rewrite (rd_12 x y z) by (try o0; exact Hz). apply (is_derive_ext_loc (fun v => rd v x z)); [|apply (rd_x dmc tol y x z); assumption].
  exists (mkposreal y Hy). intros v Hv. unfold ball in Hv; cbn in Hv; unfold AbsRing_ball, abs, minus, plus, opp in Hv; cbn in Hv. apply Rabs_def2 in Hv. apply rd_12; [o0|exact Hz].
Qed.
Theorem C63_elliprd_z dmc tol x y z : 0 < tol -> 0 <= x -> 0 <= y -> 0 < x + y -> 0 < z -> resolved dmc tol x z -> resolved dmc tol y z ->
  is_derive (fun v => rd x y v) z (rd_grad_z rc rf tol dmc x y z (rd x y z)).
Proof.
  intros Ht Hx Hy Hxy Hz Rx Ry. assert (Ps : 0 < sqrt z) by (apply sqrt_lt_R0, Hz). pose proof (VD x y z ltac:(o0) Hz) as V.
  assert (L : forall K, improper0 (fun t => u z t ^ 5 * (u x t * u y t)) K -> is_derive (fun v => rd x y v) z (- (9 / 4) * K)) by (intros K HK; apply (dRD_z x y (fun v => rd x y v) z K Hx Hy Hz (fun v Pv => VD x y v ltac:(o0) Pv) HK)).
  assert (Gen : x <> z -> y <> z -> is_derive (fun v => rd x y v) z (3 / 2 * (1 / (z - x) * (1 / (z - y))) * (rf x y z - sqrt x * sqrt y * Rpower z (- (3 / 2))) - (1 / (z - x) + 1 / (z - y)) * rd x y z)).
  { intros Nx Ny. assert (Ef : rf x y z = rf z x y) by (apply (rf_123 x y z); o0). rewrite Ef, rp3 by exact Hz. evar_last; [apply L, (J5 z x y _ _ Hz Hx Hy ltac:(auto) ltac:(auto) (VF z x y ltac:(o0)) V)|]. req. field. repeat split; lra. }
  unfold rd_grad_z. destruct dmc; [apply Gen; assumption|].
  destruct (cases tol x z Ht Rx) as [(Ex & Exz)|(Ex & Nx)]; rewrite Ex; (destruct (cases tol y z Ht Ry) as [(Ey & Eyz)|(Ey & Ny)]; rewrite Ey); cbn [where_].
  - subst x y. rewrite rp5 by exact Hz. evar_last; [apply (L (2 / 5 * (/ sqrt z) ^ 5))|req; field; lra]. eapply improper0_ext; [|apply (J7 z Hz)]. intros t _. cbv beta. ring.
  - subst x. evar_last; [apply L; eapply improper0_ext; [|apply (J6 z y _ Hz Hy ltac:(auto) (VC y z Hy Hz))]; intros t _; cbv beta; ring|]. req. field. split; lra.
  - subst y. evar_last; [apply L; eapply improper0_ext; [|apply (J6 z x _ Hz Hx ltac:(auto) (VC x z Hx Hz))]; intros t _; cbv beta; ring|]. req. field. split; lra.
  - apply Gen; assumption.
Qed.
(** R_F and R_G: the backward pass of the symmetric functions, for any set of arguments that need a gradient *)
Definition on3 (f : R -> R -> R -> R) (l : list R) : R := match l with [a; b; c] => f a b c | _ => 0 end.
Theorem C63_elliprf x y z n1 n2 n3 : one0 x y z ->
  exists gx gy gz, symmetric_backward_ (on3 (rf_grad rd)) [n1; n2; n3] [x; y; z] = [if n1 then Some gx else None; if n2 then Some gy else None; if n3 then Some gz else None] /\
    (0 < x -> is_derive (fun v => rf v y z) x gx) /\ (0 < y -> is_derive (fun v => rf x v z) y gy) /\ (0 < z -> is_derive (fun v => rf x y v) z gz).
Proof.
  intros Ho. pose proof Ho as (Hx & Hy & Hz & Hxy & Hxz & Hyz). do 3 eexists. split; [reflexivity|]. unfold symmetric_args, on3, rf_grad; cbn.
  assert (Near : forall w (f g : R -> R) d, 0 < w -> (forall v, 0 < v -> f v = g v) -> is_derive f w d -> is_derive g w d).
  { intros w f g d Hw E D. apply (is_derive_ext_loc f); [|exact D]. exists (mkposreal w Hw). intros v Hv. unfold ball in Hv; cbn in Hv; unfold AbsRing_ball, abs, minus, plus, opp in Hv; cbn in Hv. apply Rabs_def2 in Hv. apply E. lra. }
  split; [|split]; intros P.
  - rewrite (rd_12 z y x) by (try o0; exact P). apply (dRF y z (fun v => rf v y z) x _ P Hy Hz); [intros v Pv; apply VF; o0|apply VD; [o0|exact P]].
  - rewrite (rd_12 x z y) by (try o0; exact P). apply (Near y (fun v => rf v x z)); [exact P|intros v Pv; apply (rf_123 v x z); o0|]. rewrite (rd_12 z x y) by (try o0; exact P). apply (dRF x z (fun v => rf v x z) y _ P Hx Hz); [intros v Pv; apply VF; o0|apply VD; [o0|exact P]].
  - apply (Near z (fun v => rf v x y)); [exact P|intros v Pv; apply (rf_123 v x y); o0|]. rewrite (rd_12 y x z) by (try o0; exact P). apply (dRF x y (fun v => rf v x y) z _ P Hx Hy); [intros v Pv; apply VF; o0|apply VD; [o0|exact P]].
Qed.
Theorem C63_elliprg x y z n1 n2 n3 : one0 x y z ->
  exists gx gy gz, symmetric_backward_ (on3 (rg_grad rd rf)) [n1; n2; n3] [x; y; z] = [if n1 then Some gx else None; if n2 then Some gy else None; if n3 then Some gz else None] /\
    (0 < x -> is_derive (fun v => rg v y z) x gx) /\ (0 < y -> is_derive (fun v => rg x v z) y gy) /\ (0 < z -> is_derive (fun v => rg x y v) z gz).
Proof.
  intros Ho. pose proof Ho as (Hx & Hy & Hz & Hxy & Hxz & Hyz). do 3 eexists. split; [reflexivity|]. unfold symmetric_args, on3, rg_grad; cbn.
  assert (Near : forall w (f g : R -> R) d, 0 < w -> (forall v, 0 < v -> f v = g v) -> is_derive f w d -> is_derive g w d).
  { intros w f g d Hw E D. apply (is_derive_ext_loc f); [|exact D]. exists (mkposreal w Hw). intros v Hv. unfold ball in Hv; cbn in Hv; unfold AbsRing_ball, abs, minus, plus, opp in Hv; cbn in Hv. apply Rabs_def2 in Hv. apply E. lra. }
  assert (Main : forall a b c, 0 <= a -> 0 <= b -> 0 < a + b -> 0 < c -> is_derive (fun v => rg a b v) c ((3 * rf a b c - c * rd a b c) / 12)).
  { intros a b c Ha Hb Hab Hc. apply (dRG a b Ha Hb (fun v => rf a b v) (fun v => rd a b v) (fun v => rg a b v) c Hc); intros v Pv; [apply VF|apply VD|apply VG]; try o0; exact Pv. }
  assert (Sg : forall a b c, 0 <= a -> 0 <= b -> 0 < a + b -> 0 < c -> rg a b c = rg b a c /\ rg a b c = rg c b a /\ rg a b c = rg a c b /\ rg a b c = rg b c a /\ rg a b c = rg c a b).
  { intros a b c Ha Hb Hab Hc. pose proof (VG a b c ltac:(o0) Hc) as V. assert (E : forall p q r, carlson_RG p q r (rg a b c) -> rg a b c = rg p q r) by (intros p q r Vp; symmetry; apply (rg_is _ _ _ _ _ H), Vp).
    split; [apply E, RG_swap12, V|]. split; [apply E, RG_swap13, V|]. split; [apply E, RG_swap23, V|]. split; [apply E, RG_swap23, RG_swap12, V|apply E, RG_swap12, RG_swap23, V]. }
  split; [|split]; intros P.
  - apply (Near x (fun v => rg z y v)); [exact P|intros v Pv; apply (Sg z y v); lra|]. apply Main; lra.
  - apply (Near y (fun v => rg x z v)); [exact P|intros v Pv; apply (Sg x z v); lra|]. apply Main; lra.
  - apply (Near z (fun v => rg y x v)); [exact P|intros v Pv; apply (Sg y x v); lra|]. apply Main; lra.
Qed.
(** The test for equal arguments has an absolute tolerance.  For arguments on the scale of the tolerance that differ by a factor 9 it takes the rule for equal
    arguments, and the gradient returned is less than a third of the derivative. *)
Theorem C63_close_refuted tol x : 0 < x -> 8 * x < tol ->
  exists d, is_derive (fun v => rc v (9 * x)) x d /\ d < 3 * rc_grad_x tol false x (9 * x) (rc x (9 * x)) < 0.
Proof.
  intros Hx Hs. destruct (rc_general x (9 * x) ltac:(lra) ltac:(lra) ltac:(lra)) as (D & _). eexists. split; [apply (D Hx)|]. clear D.
  pose proof (VC x (9 * x) ltac:(lra) ltac:(lra)) as V. pose proof (RC_0 (9 * x) ltac:(lra)) as V0.
  assert (B : rc x (9 * x) <= PI / 2 / sqrt (9 * x)).
  { unfold carlson_RC in V, V0. eapply improper0_le; [|exact V|exact V0]. intros t Pt. cbv beta. unfold Rdiv. rewrite !Rmult_1_l. assert (S0 : 0 < sqrt (t + 0)) by (apply sqrt_lt_R0; lra). assert (S1 : sqrt (t + 0) <= sqrt (t + x)) by (apply sqrt_le_1; lra).
    apply Rinv_le_contravar; [apply Rmult_lt_0_compat; [lra|apply Rmult_lt_0_compat; lra]|]. apply Rmult_le_compat_l; [lra|]. apply Rmult_le_compat_r; lra. }
  assert (Ps : 0 < sqrt x) by (apply sqrt_lt_R0, Hx). assert (Q : x = sqrt x * sqrt x) by (symmetry; apply sqrt_sqrt; lra).
  assert (E9 : sqrt (9 * x) = 3 * sqrt x). { rewrite sqrt_mult by lra. f_equal. replace 9 with (3 * 3) by ring. apply sqrt_square. lra. }
  unfold rc_grad_x. assert (Ft : feq tol x (9 * x) = true). { unfold feq. destruct (Rlt_dec _ _) as [|N]; [reflexivity|]. exfalso. apply N. replace (x - 9 * x) with (- (8 * x)) by ring. rewrite Rabs_Ropp, Rabs_pos_eq by lra. exact Hs. }
  rewrite Ft. cbn [where_]. rewrite rp1, rp3 by lra. rewrite E9 in *. set (r := rc x (9 * x)) in *. set (s := sqrt x) in *. assert (Pi : 0 < / s) by (apply Rinv_0_lt_compat, Ps).
  assert (B2 : r <= 2 / 3 * / s). { apply (Rle_trans _ _ _ B). pose proof PI_4. replace (PI / 2 / (3 * s)) with (PI / 6 * / s) by (field; lra). apply Rmult_le_compat_r; lra. }
  assert (P3 : 0 < (/ s) ^ 3) by (apply pow_lt, Pi). replace ((/ (3 * s)) ^ 3) with ((/ s) ^ 3 / 27) by (field; lra).
  assert (Ex : / (16 * x) = (/ s) ^ 2 / 16) by (rewrite Q; field; lra). assert (P2 : 0 < (/ s) ^ 2) by (apply pow_lt, Pi).
  replace ((r - / s) / (2 * (9 * x - x))) with ((r - / s) * / (16 * x)) by (field; lra). rewrite Ex. split; [|lra].
  apply (Rle_lt_trans _ (- (/ s) / 3 * ((/ s) ^ 2 / 16))); [apply Rmult_le_compat_r; lra|]. replace (- / s / 3 * ((/ s) ^ 2 / 16)) with (- (/ s) ^ 3 / 48) by (field; lra). lra.
Qed.
End C63.

(** ** Non-vacuity *)
Definition ex_rc x y := seq_improper (fun t => 1 / (2 * (sqrt (t + x) * (t + y)))).
Definition ex_rf x y z := seq_improper (fun t => 1 / (2 * (sqrt (t + x) * sqrt (t + y) * sqrt (t + z)))).
Definition ex_rj x y z p := seq_improper (fun t => 3 / (2 * (sqrt (t + x) * sqrt (t + y) * sqrt (t + z) * (t + p)))).
Definition ex_rg x y z := seq_improper (fun t => t / (4 * (sqrt (t + x) * sqrt (t + y) * sqrt (t + z))) * (x / (t + x) + y / (t + y) + z / (t + z))).
Lemma ex_carlson : carlson_functions ex_rc (fun x y z => ex_rj x y z z) ex_rf ex_rg ex_rj.
Proof. split; intros; apply seq_improper_ok; assumption. Qed.
(** With the tolerance of double precision: one zero argument, and p equal to one, two or none of the others *)
Example C63_nonvacuous : let tol := / 1000000000 in let rd x y z := ex_rj x y z z in
  is_derive (fun v => ex_rj 0 2 3 v) 2 (rj_grad_p ex_rc rd ex_rf ex_rg tol false 0 2 3 2 (ex_rj 0 2 3 2)) /\
  is_derive (fun v => ex_rj 2 2 3 v) 2 (rj_grad_p ex_rc rd ex_rf ex_rg tol false 2 2 3 2 (ex_rj 2 2 3 2)) /\
  is_derive (fun v => ex_rj 0 2 3 v) 1 (rj_grad_p ex_rc rd ex_rf ex_rg tol true 0 2 3 1 (ex_rj 0 2 3 1)) /\
  is_derive (fun v => rd 0 1 v) 4 (rd_grad_z ex_rc ex_rf tol false 0 1 4 (rd 0 1 4)) /\
  is_derive (fun v => ex_rc 0 v) 4 (rc_grad_y tol false 0 4 (ex_rc 0 4)).
Proof.
  intros tol rd. assert (Ht : 0 < tol) by (unfold tol; lra). assert (F : forall a b, 1 <= Rabs (a - b) -> resolved false tol a b) by (intros a b Hab; right; unfold tol; lra).
  assert (P : forall a b, a - b <= -1 -> resolved false tol a b) by (intros a b Hab; apply F; rewrite Rabs_left1; lra). assert (Q : forall a b, 1 <= a - b -> resolved false tol a b) by (intros a b Hab; apply F; rewrite Rabs_pos_eq; lra).
  assert (Eq : forall a, resolved false tol a a) by (intros a; left; reflexivity).
  split; [|split; [|split; [|split]]].
  - apply (C63_elliprj_p ex_rc rd ex_rf ex_rg ex_rj ex_carlson); [exact Ht|unfold one0; repeat split; lra|lra|apply Q; lra|apply Eq|apply P; lra].
  - apply (C63_elliprj_p ex_rc rd ex_rf ex_rg ex_rj ex_carlson); [exact Ht|unfold one0; repeat split; lra|lra|apply Eq|apply Eq|apply P; lra].
  - apply (C63_elliprj_p ex_rc rd ex_rf ex_rg ex_rj ex_carlson); [exact Ht|unfold one0; repeat split; lra|lra|cbn; lra|cbn; lra|cbn; lra].
  - apply (C63_elliprd_z ex_rc rd ex_rf ex_rg ex_rj ex_carlson); [exact Ht|lra|lra|lra|lra|apply P; lra|apply P; lra].
  - apply (C63_elliprc ex_rc rd ex_rf ex_rg ex_rj ex_carlson); [exact Ht|lra|lra|apply P; lra].
Qed.
