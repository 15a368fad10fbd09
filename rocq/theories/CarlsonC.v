(** Complex facts behind the analytic distances: principal roots along a horizontal line, conjugate pairs. *)
From Coq Require Import Reals Lra Psatz.
From Coquelicot Require Import Complex.
From Verif Require Import Roots RootsC RootsPrincipal.
Open Scope R_scope.
Open Scope C_scope.

Lemma Cconj_conj z : Cconj (Cconj z) = z.
Proof. destruct z as [x y]. unfold Cconj. simpl. rewrite Ropp_involutive. reflexivity. Qed.
Lemma Cconj_mult z w : Cconj (z * w) = Cconj z * Cconj w.
Proof. apply injective_projections; simpl; ring. Qed.
Lemma Cconj_plus z w : Cconj (z + w) = Cconj z + Cconj w.
Proof. apply injective_projections; simpl; ring. Qed.
Lemma Cconj_minus z w : Cconj (z - w) = Cconj z - Cconj w.
Proof. apply injective_projections; simpl; ring. Qed.
Lemma Cconj_R x : Cconj (RtoC x) = RtoC x.
Proof. apply injective_projections; simpl; ring. Qed.
Lemma Cconj_real z : Im z = 0%R -> Cconj z = z.
Proof. intros E. apply injective_projections; simpl; [reflexivity|]. unfold Im in E. rewrite E. ring. Qed.
Lemma real_RtoC z : Im z = 0%R -> z = RtoC (Re z).
Proof. intros E. apply C_ext; simpl; [reflexivity|exact E]. Qed.
Lemma Cmult_real z w : Re (z * w) = (Re z * Re w - Im z * Im w)%R /\ Im (z * w) = (Re z * Im w + Im z * Re w)%R.
Proof. split; reflexivity. Qed.
Lemma RtoC_neq x : x <> 0%R -> RtoC x <> 0. Proof. intros X E. apply RtoC_inj in E. lra. Qed.

Section Principal.
Variable s : C -> C.
Hypothesis Hs : principal_sqrt s.
Lemma s_sq z : s z * s z = z. Proof. apply Hs. Qed.
Lemma sqrt_unique z w : w * w = z -> (0 < Re w \/ Re w = 0 /\ 0 <= Im w)%R -> s z = w.
Proof.
  intros E P. subst z. destruct (Hs (w * w)) as [_ Q]. destruct (principal_of_square s w Hs) as [X|X]; [exact X|]. rewrite X in Q. rewrite X. rewrite Re_opp, Im_opp in Q.
  apply C_ext; rewrite ?Re_opp, ?Im_opp; lra.
Qed.
Lemma sqrt_pos_real x : (0 <= x)%R -> s (RtoC x) = RtoC (sqrt x).
Proof.
  intros X. apply sqrt_unique; [rewrite <- RtoC_mult, sqrt_sqrt by exact X; reflexivity|]. simpl. pose proof (sqrt_pos x). unfold Re, Im; simpl. lra.
Qed.
Lemma sqrt_neg_real x : (0 <= x)%R -> s (RtoC (- x)) = Ci * RtoC (sqrt x).
Proof.
  intros X. apply sqrt_unique.
  - transitivity (Ci * Ci * (RtoC (sqrt x) * RtoC (sqrt x))); [ring|]. rewrite <- RtoC_mult, sqrt_sqrt by exact X. apply injective_projections; simpl; ring.
  - right. unfold Re, Im; simpl. pose proof (sqrt_pos x). split; [ring|]. lra.
Qed.
Lemma sqrt_scale k z : (0 < k)%R -> s (RtoC (k * k) * z) = RtoC k * s z.
Proof.
  intros K. destruct (Hs z) as [E P]. apply sqrt_unique.
  - transitivity (RtoC k * RtoC k * (s z * s z)); [ring|]. rewrite E, <- RtoC_mult. reflexivity.
  - destruct (Cmult_real (RtoC k) (s z)) as [-> ->]. change (Re (RtoC k)) with k. change (Im (RtoC k)) with 0%R. destruct P as [P|[P1 P2]].
    + left. assert (0 < k * Re (s z))%R by (apply Rmult_lt_0_compat; assumption). lra.
    + right. rewrite P1. assert (0 <= k * Im (s z))%R by (apply Rmult_le_pos; lra). lra.
Qed.
Lemma sqrt_re_im z : Im z <> 0%R -> (0 < Re (s z) /\ 2 * Re (s z) * Im (s z) = Im z)%R.
Proof.
  intros N. destruct (Hs z) as [E P]. assert (I : (2 * Re (s z) * Im (s z) = Im z)%R) by (rewrite <- E at 3; destruct (Cmult_real (s z) (s z)) as [_ ->]; ring). split; [|exact I].
  destruct P as [P|[P _]]; [exact P|]. rewrite P in I. exfalso. apply N. rewrite <- I. ring.
Qed.
Lemma sqrt_conj z : Im z <> 0%R -> s (Cconj z) = Cconj (s z).
Proof.
  intros N. destruct (sqrt_re_im z N) as [P _]. apply sqrt_unique; [rewrite <- Cconj_mult, s_sq; reflexivity|]. left. exact P.
Qed.
Lemma sqrt_nonzero (z : C) : z <> 0 -> s z <> 0.
Proof. intros N E. apply N. rewrite <- (s_sq z), E. ring. Qed.

(** The ratio of the square roots of h - rho and of - rho *)
Definition ratio (h : R) (rho : C) : C := s (RtoC h - rho) / s (- rho).
Lemma ratio_real h r : (0 < h)%R -> (r < 0 \/ h < r)%R -> exists x, (0 < x)%R /\ ratio h (RtoC r) = RtoC x.
Proof.
  intros Hh [L|L]; unfold ratio; replace (- RtoC r) with (RtoC (- r)) by apply RtoC_opp; replace (RtoC h - RtoC r) with (RtoC (h - r)) by apply RtoC_minus.
  - exists (sqrt (h - r) / sqrt (- r))%R. assert (0 < sqrt (- r))%R by (apply sqrt_lt_R0; lra). assert (0 < sqrt (h - r))%R by (apply sqrt_lt_R0; lra). split; [apply Rdiv_lt_0_compat; assumption|].
    rewrite !sqrt_pos_real by lra. rewrite RtoC_div by lra. reflexivity.
  - exists (sqrt (r - h) / sqrt r)%R. assert (0 < sqrt r)%R by (apply sqrt_lt_R0; lra). assert (0 < sqrt (r - h))%R by (apply sqrt_lt_R0; lra). split; [apply Rdiv_lt_0_compat; assumption|].
    replace (h - r)%R with (- (r - h))%R by ring. rewrite !sqrt_neg_real by lra. rewrite RtoC_div by lra. field. split; [apply RtoC_neq; lra|]. intros E. apply (f_equal snd) in E. simpl in E. lra.
Qed.
Lemma ratio_sq h (rho : C) : rho <> 0 -> ratio h rho * ratio h rho = (RtoC h - rho) / (- rho).
Proof.
  intros N. unfold ratio. transitivity (s (RtoC h - rho) * s (RtoC h - rho) / (s (- rho) * s (- rho))).
  - field. apply sqrt_nonzero. apply Copp_nz, N.
  - rewrite !s_sq. reflexivity.
Qed.
Lemma ratio_conj h rho : Im rho <> 0%R -> ratio h (Cconj rho) = Cconj (ratio h rho).
Proof.
  intros N. unfold ratio. assert (E1 : RtoC h - Cconj rho = Cconj (RtoC h - rho)) by (rewrite Cconj_minus, Cconj_R; reflexivity).
  assert (E2 : - Cconj rho = Cconj (- rho)) by (apply injective_projections; simpl; ring). rewrite E1, E2.
  assert (N2 : Im (- rho) <> 0%R) by (rewrite Im_opp; lra). rewrite !sqrt_conj; [|exact N2|].
  - assert (Z : s (- rho) <> 0) by (apply sqrt_nonzero; intros E; rewrite E in N2; apply N2; reflexivity).
    assert (Z' : Cconj (s (- rho)) <> 0) by (intros E; apply Z; rewrite <- (Cconj_conj (s (- rho))), E; apply injective_projections; simpl; ring).
    transitivity (Cconj (s (RtoC h - rho) / s (- rho) * s (- rho)) / Cconj (s (- rho))).
    + f_equal. f_equal. field. exact Z.
    + rewrite Cconj_mult. field. exact Z'.
  - unfold Cminus. simpl. unfold Im in N. lra.
Qed.
(** For a root off the real line the ratio is in the right half-plane; the sign of its imaginary part is that of the root's. *)
Lemma ratio_complex h rho : (0 < h)%R -> Im rho <> 0%R -> (0 < Re (ratio h rho) /\ 0 < Im (ratio h rho) * Im rho)%R.
Proof.
  intros Hh N. set (b := s (RtoC h - rho)). set (a := s (- rho)). assert (N2 : Im (- rho) <> 0%R) by (rewrite Im_opp; lra). assert (N1 : Im (RtoC h - rho) <> 0%R) by (unfold Cminus; simpl; unfold Im in N; lra).
  destruct (sqrt_re_im _ N1) as [B1 B2]. destruct (sqrt_re_im _ N2) as [A1 A2]. fold b in B1, B2. fold a in A1, A2.
  assert (I1 : Im (RtoC h - rho) = (- Im rho)%R) by (unfold Cminus; simpl; unfold Im; ring). rewrite I1 in B2. rewrite Im_opp in A2.
  (* b conj a = x + i y, with x > 0 and 2 x y = h Im rho *)
  assert (SB : b * b = RtoC h - rho) by apply s_sq. assert (SA : a * a = - rho) by apply s_sq.
  assert (R1 : (Re b * Re b - Im b * Im b = h - Re rho)%R) by (destruct (Cmult_real b b) as [<- _]; rewrite SB; unfold Cminus; simpl; unfold Re; ring).
  assert (R2 : (Re a * Re a - Im a * Im a = - Re rho)%R) by (destruct (Cmult_real a a) as [<- _]; rewrite SA; reflexivity).
  set (n := (Re a * Re a + Im a * Im a)%R). assert (NP : (0 < n)%R) by (unfold n; nra).
  assert (RA : ratio h rho = ((Re b * Re a + Im b * Im a) / n, (Im b * Re a - Re b * Im a) / n)%R).
  { unfold ratio. fold a b. assert (Za : a <> 0) by (intros E; rewrite E in A1; simpl in A1; lra). 
    transitivity (((Re b * Re a + Im b * Im a) / n, (Im b * Re a - Re b * Im a) / n)%R * a / a); [|field; exact Za]. f_equal.
    clearbody a b. clear - NP. destruct a as [a1 a2], b as [b1 b2]. unfold n, Re, Im in *. simpl in *. apply C_ext; unfold Re, Im; simpl; field; lra. }
  assert (X : (0 < Re b * Re a + Im b * Im a)%R).
  { assert (0 < Re b * Re a)%R by (apply Rmult_lt_0_compat; assumption). assert (Q : (0 <= (Re b * Re a) * (Im b * Im a))%R) by (replace ((Re b * Re a) * (Im b * Im a))%R with ((Re b * Im b) * (Re a * Im a))%R by ring; replace (Re a * Im a)%R with (Re b * Im b)%R by lra; nra).
    assert (0 <= Im b * Im a)%R by nra. lra. }
  assert (Y : (2 * (Re b * Re a + Im b * Im a) * (Im b * Re a - Re b * Im a) = h * Im rho)%R).
  { transitivity ((Re a * Re a - Im a * Im a) * (2 * Re b * Im b) - (Re b * Re b - Im b * Im b) * (2 * Re a * Im a))%R; [ring|]. rewrite R1, R2, B2, A2. ring. }
  set (x := (Re b * Re a + Im b * Im a)%R) in *. set (y := (Im b * Re a - Re b * Im a)%R) in *.
  assert (Z : (0 < y * Im rho)%R).
  { assert (0 < h * (Im rho * Im rho))%R by (apply Rmult_lt_0_compat; [exact Hh|nra]). assert (E : (2 * x * (y * Im rho) = h * (Im rho * Im rho))%R) by (transitivity (2 * x * y * Im rho)%R; [ring|rewrite Y; ring]).
    destruct (Rlt_le_dec 0 (y * Im rho)) as [L|L]; [exact L|exfalso]. assert (2 * x * (y * Im rho) <= 0)%R by nra. lra. }
  rewrite RA. split; [change (0 < x / n)%R; apply Rdiv_lt_0_compat; assumption|]. change (0 < y / n * Im rho)%R. unfold Rdiv. replace (y * / n * Im rho)%R with (y * Im rho * / n)%R by ring. apply Rmult_lt_0_compat; [exact Z|apply Rinv_0_lt_compat, NP].
Qed.
End Principal.

(** ** Four numbers closed under conjugation *)
Inductive closedc : C -> C -> C -> C -> Prop :=
| closed_real a b c d : (0 < a)%R -> (0 < b)%R -> (0 < c)%R -> (0 < d)%R -> closedc (RtoC a) (RtoC b) (RtoC c) (RtoC d)
| closed_pair a b w : (0 < a)%R -> (0 < b)%R -> (0 < Re w)%R -> closedc (RtoC a) (RtoC b) w (Cconj w)
| closed_pairs (v w : C) : v <> 0 -> w <> 0 -> Re (v * w) <> 0%R -> Re (v * Cconj w) <> 0%R -> closedc v (Cconj v) w (Cconj w)
| closed_12 a b c d : closedc a b c d -> closedc b a c d
| closed_23 a b c d : closedc a b c d -> closedc a c b d
| closed_34 a b c d : closedc a b c d -> closedc a b d c.
Lemma closedc_sums a b c d : closedc a b c d ->
  a * b + c * d <> 0 /\ a * c + b * d <> 0 /\ a * d + b * c <> 0 /\ exists x, (0 < x)%R /\ a * b * c * d = RtoC x.
Proof.
  assert (NR : forall z : C, Re z <> 0%R -> z <> 0) by (intros z N E; apply N; rewrite E; reflexivity).
  assert (NN : forall z : C, z <> 0 -> (0 < Re z * Re z + Im z * Im z)%R).
  { intros z N. destruct (Req_dec (Re z) 0) as [E|E]; [|nra]. destruct (Req_dec (Im z) 0) as [E'|E']; [|nra]. exfalso. apply N. apply C_ext; simpl; assumption. }
  intros K. induction K as [a b c d A B Cc D|a b w A B W|v w Nv Nw N1 N2|a b c d K IH|a b c d K IH|a b c d K IH].
  - rewrite <- !RtoC_mult, <- !RtoC_plus. assert (0 < a * b)%R by (apply Rmult_lt_0_compat; assumption). assert (0 < c * d)%R by (apply Rmult_lt_0_compat; assumption).
    assert (0 < a * c)%R by (apply Rmult_lt_0_compat; assumption). assert (0 < b * d)%R by (apply Rmult_lt_0_compat; assumption). assert (0 < a * d)%R by (apply Rmult_lt_0_compat; assumption). assert (0 < b * c)%R by (apply Rmult_lt_0_compat; assumption).
    repeat split; try (apply RtoC_neq; lra). exists (a * b * c * d)%R. split; [|reflexivity]. rewrite Rmult_assoc. apply Rmult_lt_0_compat; assumption.
  - assert (0 < a * b)%R by (apply Rmult_lt_0_compat; assumption). assert (0 < a * Re w)%R by (apply Rmult_lt_0_compat; assumption). assert (0 < b * Re w)%R by (apply Rmult_lt_0_compat; assumption). assert (0 < Re w * Re w + Im w * Im w)%R by nra.
    destruct w as [x y]. unfold Re, Im in *. simpl in *. repeat split; try (apply NR; unfold Re; simpl; lra).
    exists (a * b * (x * x + y * y))%R. split; [apply Rmult_lt_0_compat; assumption|]. apply C_ext; unfold Re, Im; simpl; ring.
  - pose proof (NN v Nv) as PV. pose proof (NN w Nw) as PW. destruct v as [x y], w as [x' y']. unfold Re, Im in *. simpl in *. repeat split.
    + apply NR; unfold Re; simpl. lra.
    + apply NR; unfold Re; simpl. lra.
    + apply NR; unfold Re; simpl. lra.
    + exists ((x * x + y * y) * (x' * x' + y' * y'))%R. split; [apply Rmult_lt_0_compat; assumption|]. apply C_ext; unfold Re, Im; simpl; ring.
  - destruct IH as (I1 & I2 & I3 & x & X & E). rewrite (Cmult_comm b a), (Cplus_comm (b * c)), (Cplus_comm (b * d)). repeat split; try assumption. exists x. split; assumption.
  - destruct IH as (I1 & I2 & I3 & x & X & E). rewrite (Cmult_comm c b). repeat split; try assumption. exists x. split; [assumption|]. rewrite <- E. ring.
  - destruct IH as (I1 & I2 & I3 & x & X & E). rewrite (Cmult_comm d c). repeat split; try assumption. exists x. split; [assumption|]. rewrite <- E. ring.
Qed.

(** ** Numbers whose elementary symmetric functions are real *)
Lemma cubic_class a b c : Im (a + b + c) = 0%R -> Im (a * b + a * c + b * c) = 0%R -> Im (a * b * c) = 0%R ->
  (Im a = 0 /\ Im b = 0 /\ Im c = 0)%R \/ (Im a = 0%R /\ Im b <> 0%R /\ c = Cconj b) \/ (Im b = 0%R /\ Im a <> 0%R /\ c = Cconj a) \/ (Im c = 0%R /\ Im a <> 0%R /\ b = Cconj a).
Proof.
  intros E1 E2 E3.
  assert (Poly : forall t, Cconj ((t - a) * (t - b) * (t - c)) = (Cconj t - a) * (Cconj t - b) * (Cconj t - c)).
  { intros t. transitivity (Cconj t * Cconj t * Cconj t - Cconj (a + b + c) * (Cconj t * Cconj t) + Cconj (a * b + a * c + b * c) * Cconj t - Cconj (a * b * c)).
    - rewrite !Cconj_mult, !Cconj_minus, !Cconj_plus, !Cconj_mult. ring.
    - rewrite (Cconj_real _ E1), (Cconj_real _ E2), (Cconj_real _ E3). ring. }
  assert (Z0 : Cconj 0 = 0) by (apply injective_projections; simpl; ring).
  assert (Self : forall t : C, Im t <> 0%R -> Cconj t - t <> 0) by (intros t N E; apply N; apply (f_equal Im) in E; unfold Cminus in E; destruct t; unfold Im in *; simpl in *; lra).
  assert (RD : forall x y z, x * y * z = 0 -> x <> 0 -> y = 0 \/ z = 0) by (intros x y z E N; apply C_integral in E; destruct E as [E|E]; [apply C_integral in E; destruct E as [E|E]; [contradiction|left; exact E]|right; exact E]).
  assert (EQ : forall x y : C, x - y = 0 -> y = x) by (intros x y E; transitivity (x - (x - y)); [ring|rewrite E; ring]).
  assert (ImS : (Im a + Im b + Im c = 0)%R) by (rewrite <- E1; reflexivity).
  destruct (Req_dec (Im a) 0) as [A|A].
  - destruct (Req_dec (Im b) 0) as [B|B]; [left; split; [exact A|split; [exact B|lra]]|]. right; left. split; [exact A|]. split; [exact B|].
    pose proof (Poly b) as PB. replace ((b - a) * (b - b) * (b - c)) with (RtoC 0) in PB by ring. rewrite Z0 in PB. symmetry in PB.
    destruct (RD (Cconj b - b) (Cconj b - a) (Cconj b - c)) as [X|X]; [rewrite <- PB; ring|apply Self, B| |apply EQ, X].
    exfalso. apply EQ in X. apply B. apply (f_equal Im) in X. rewrite A in X. simpl in X. unfold Im. lra.
  - right. right. pose proof (Poly a) as PA. replace ((a - a) * (a - b) * (a - c)) with (RtoC 0) in PA by ring. rewrite Z0 in PA. symmetry in PA.
    destruct (RD _ _ _ PA (Self a A)) as [X|X]; apply EQ in X.
    + right. split; [|split; [exact A|exact X]]. apply (f_equal Im) in X. simpl in X. unfold Im in *. lra.
    + left. split; [|split; [exact A|exact X]]. apply (f_equal Im) in X. simpl in X. unfold Im in *. lra.
Qed.
Lemma quadratic_class a b : Im (a + b) = 0%R -> Im (a * b) = 0%R -> (Im a = 0 /\ Im b = 0)%R \/ (Im a <> 0%R /\ b = Cconj a).
Proof.
  intros E1 E2. destruct a as [x y], b as [x' y']. unfold Im in *. simpl in *. destruct (Req_dec y 0) as [Y|Y]; [left; lra|right]. split; [exact Y|].
  assert (y' = - y)%R by lra. subst y'. assert (y * (x' - x) = 0)%R as Z by lra. apply Rmult_integral in Z. destruct Z as [Z|Z]; [contradiction|]. unfold Cconj. simpl. f_equal; lra.
Qed.
(** The principal roots of three numbers closed under conjugation, none on the negative axis *)
Lemma prod_sqrt s (Hs : principal_sqrt s) a b c x :
  Im (a + b + c) = 0%R -> Im (a * b + a * c + b * c) = 0%R -> a * b * c = RtoC x ->
  (Im a = 0 -> 0 < Re a)%R -> (Im b = 0 -> 0 < Re b)%R -> (Im c = 0 -> 0 < Re c)%R -> (0 < x)%R /\ s a * s b * s c = RtoC (sqrt x).
Proof.
  intros E1 E2 E3 A B Cc. assert (E3' : Im (a * b * c) = 0%R) by (rewrite E3; reflexivity).
  assert (One : forall y w : C, Im y = 0%R -> (0 < Re y)%R -> Im w <> 0%R -> forall x, y * (w * Cconj w) = RtoC x -> (0 < x)%R /\ s y * (s w * s (Cconj w)) = RtoC (sqrt x)).
  { intros y w Y1 Y2 W X E. rewrite (real_RtoC y Y1) in E |- *. rewrite (sqrt_pos_real s Hs) by lra. rewrite (sqrt_conj s Hs) by exact W.
    assert (M : w * Cconj w = RtoC (Re w * Re w + Im w * Im w)%R) by (destruct w; apply C_ext; unfold Re, Im; simpl; ring). rewrite M, <- RtoC_mult in E. apply RtoC_inj in E.
    assert (P : (0 < Re w * Re w + Im w * Im w)%R) by nra. split; [rewrite <- E; apply Rmult_lt_0_compat; assumption|].
    assert (M2 : s w * Cconj (s w) = RtoC (Re (s w) * Re (s w) + Im (s w) * Im (s w))%R) by (destruct (s w); apply C_ext; unfold Re, Im; simpl; ring). rewrite M2, <- RtoC_mult. f_equal.
    rewrite <- E, sqrt_mult by lra. f_equal. set (m := (Re (s w) * Re (s w) + Im (s w) * Im (s w))%R) in *. assert (Q : (m * m = Re w * Re w + Im w * Im w)%R).
    { apply RtoC_inj. rewrite <- M, RtoC_mult, <- M2. transitivity ((s w * s w) * Cconj (s w * s w)); [rewrite Cconj_mult; ring|rewrite (s_sq s Hs w); reflexivity]. }
    rewrite <- Q, sqrt_square; [reflexivity|unfold m; nra]. }
  destruct (cubic_class a b c E1 E2 E3') as [(Ia & Ib & Ic)|[(Ia & Ib & ->)|[(Ib & Ia & ->)|(Ic & Ia & ->)]]].
  - specialize (A Ia). specialize (B Ib). specialize (Cc Ic). rewrite (real_RtoC a Ia), (real_RtoC b Ib), (real_RtoC c Ic) in E3 |- *. rewrite !(sqrt_pos_real s Hs) by lra. rewrite <- !RtoC_mult in E3 |- *. apply RtoC_inj in E3.
    assert (P : (0 < Re a * Re b)%R) by (apply Rmult_lt_0_compat; assumption). split; [rewrite <- E3; apply Rmult_lt_0_compat; assumption|]. rewrite <- E3, !sqrt_mult by lra. reflexivity.
  - destruct (One a b Ia (A Ia) Ib x) as [X Y]; [rewrite <- E3; ring|]. split; [exact X|]. rewrite <- Y. ring.
  - destruct (One b a Ib (B Ib) Ia x) as [X Y]; [rewrite <- E3; ring|]. split; [exact X|]. rewrite <- Y. ring.
  - destruct (One c a Ic (Cc Ic) Ia x) as [X Y]; [rewrite <- E3; ring|]. split; [exact X|]. rewrite <- Y. ring.
Qed.
