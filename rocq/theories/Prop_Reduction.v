(** * C52: the reduction of elliptic integrals returns the integral. *)
From Coq Require Import Reals List Bool Arith ZArith Lia Lra Psatz.
From Coquelicot Require Import Rcomplements Rbar Hierarchy Lim_seq Continuity Derive RInt.
From Verif Require Import EllipSpec Improper RedInt PartFrac Reduction ReductionSpec RedBase RedMain RedSym RedGrad.
From Verif Require Import ImproperLim.
Import ListNotations.
Open Scope R_scope.

Lemma item_in a i : (1 <= i <= length a)%nat -> In (item a i) a.
Proof. intros Hi. destruct i as [|i]; [lia|]. apply nth_In. lia. Qed.
Lemma item_dist a i j : NoDup a -> (1 <= i <= length a)%nat -> (1 <= j <= length a)%nat -> i <> j -> item a i <> item a j.
Proof. intros ND Hi Hj N E. destruct i as [|i], j as [|j]; try lia. cbn [item] in E. apply N. f_equal. apply (proj1 (NoDup_nth a 0) ND i j); [lia|lia|exact E]. Qed.

Section C52.
Variables (elliprc : R -> R -> R) (elliprd elliprf : R -> R -> R -> R) (elliprj : R -> R -> R -> R -> R).
Hypothesis Exact : exact_carlson elliprc elliprd elliprf elliprj.
Notation IM x y a h := (Im x y a h elliprc elliprd elliprf elliprj).

(** The value of [Im] is the integral, whenever the integrals of the third kind that the code uses have a positive last argument *)
Definition returns_integral (h : nat) (a : list R) (m : list Z) (x y : R) : Prop :=
  exists fuel0 v, (forall fuel, (fuel0 <= fuel)%nat -> IM x y a h fuel m = Some v) /\ elliptic_integral h a m x y v.
Lemma circular_swap x y a h m : circular x y a h m -> circular y x a h m.
Proof. intros (A & B). split; [intros E j Hj N; rewrite U2nu_swap; apply A; assumption|intros nu Hnu N; rewrite U2nu_swap; apply B; assumption]. Qed.
Theorem C52_reduction h a m x y : h = 3%nat \/ h = 4%nat -> (h <= length a)%nat -> length m = length a -> NoDup a -> (forall u, In u a -> 0 < u + x /\ 0 < u + y) -> x <> y -> circular x y a h m ->
  returns_integral h a m x y.
Proof.
  intros H34 Hn El ND Pos Nxy Ci. destruct Exact as (CRC & CRD & CRF & CRJ). assert (Di : forall i j, (1 <= i <= length a)%nat -> (1 <= j <= length a)%nat -> i <> j -> item a i <> item a j) by (intros; apply item_dist; assumption).
  destruct (Rlt_le_dec y x) as [L|L].
  - apply (Im_value x y a h elliprc elliprd elliprf elliprj); try assumption. intros i Hi. apply (Pos (item a i)), item_in, Hi.
  - destruct (Im_value y x a h elliprc elliprd elliprf elliprj H34 Hn ltac:(lra) ltac:(intros i Hi; apply (Pos (item a i)), item_in, Hi) Di CRF CRC CRD CRJ m El (circular_swap _ _ _ _ _ Ci)) as (f0 & v & Hf & I).
    exists f0, (- v). split; [intros f Hf'; rewrite Im_swap, Hf by exact Hf'; reflexivity|]. unfold elliptic_integral in *. apply (is_RInt_swap (V := R_NormedModule)) in I. exact I.
Qed.
(** The limits exchanged *)
Theorem C52_exchange h a m x y fuel : IM y x a h fuel m = match IM x y a h fuel m with Some v => Some (- v) | None => None end.
Proof. apply Im_swap. Qed.

(** Cubics: no condition if there are no further factors; otherwise their numbers may not be less than all the branch points' *)
Lemma cubic_U2nu x y a nu : (3 < nu <= length a)%nat -> y < x -> (forall u, In u a -> 0 < u + x /\ 0 < u + y) -> (exists j, (1 <= j <= 3)%nat /\ item a j <= item a nu) -> 0 < U2nu x y a 3 0 nu.
Proof.
  intros Hnu Hxy Pos (j & Hj & Le). assert (P : forall i, (1 <= i <= 3)%nat -> 0 < XorY a x i /\ 0 < XorY a y i /\ XorY a x i * XorY a x i = item a i + x /\ XorY a y i * XorY a y i = item a i + y).
  { intros i Hi. destruct (Pos (item a i) (item_in a i ltac:(lia))) as (A & B). destruct i as [|i]; [lia|]. cbn [XorY]. repeat split; try (apply sqrt_lt_R0; lra); apply sqrt_sqrt; lra. }
  destruct (P 1%nat ltac:(lia)) as (p1 & q1 & e1 & f1). destruct (P 2%nat ltac:(lia)) as (p2 & q2 & e2 & f2). destruct (P 3%nat ltac:(lia)) as (p3 & q3 & e3 & f3).
  unfold U2nu, U2, d, d_up, xmy2, xmy, X, Y. cbn [without idx_set Nat.eqb map seq Nat.add filter existsb orb negb Nat.ltb Nat.leb]. replace (Nat.ltb nu 1) with false by (symmetry; apply Nat.ltb_ge; lia). replace (Nat.ltb nu 0) with false by (symmetry; apply Nat.ltb_ge; lia). replace (Nat.leb nu 0) with false by (symmetry; apply Nat.leb_gt; lia).
  change (XorY a x 0) with 1. change (XorY a y 0) with 1. change (item a 0) with 1. rewrite !Rmult_0_r, Rminus_0_r, !Rmult_1_l, !Rmult_1_r. unfold Rdiv. rewrite Rinv_1, Rmult_1_r.
  set (x1 := XorY a x 1) in *. set (x2 := XorY a x 2) in *. set (x3 := XorY a x 3) in *. set (y1 := XorY a y 1) in *. set (y2 := XorY a y 2) in *. set (y3 := XorY a y 3) in *. clearbody x1 x2 x3 y1 y2 y3.
  assert (Sq : 0 <= (x - y) ^ 2) by apply pow2_ge_0.
  assert (K : forall k (w : R), 0 < w -> (x1 * y2 * y3 + y1 * x2 * x3) ^ 2 - (x - y) ^ 2 * (item a 1 - item a k) = w ^ 2 -> item a k <= item a nu -> 0 < (x1 * y2 * y3 + y1 * x2 * x3) ^ 2 - (x - y) ^ 2 * (item a 1 - item a nu)).
  { intros k w Pw Ek Lk. replace (_ - _) with (w ^ 2 + (x - y) ^ 2 * (item a nu - item a k)) by (rewrite <- Ek; ring). pose proof (pow_lt w 2 Pw). pose proof (Rmult_le_pos ((x - y) ^ 2) (item a nu - item a k) Sq ltac:(lra)). lra. }
  assert (G : forall u v w u' v' w' : R, 0 < u -> 0 < v -> 0 < w -> 0 < u' -> 0 < v' -> 0 < w' -> 0 < u * v' * w' + u' * v * w) by (intros; apply Rplus_lt_0_compat; repeat apply Rmult_lt_0_compat; assumption).
  assert (C : j = 1%nat \/ j = 2%nat \/ j = 3%nat) by lia. destruct C as [-> | [-> | ->]].
  - apply (K 1%nat (x1 * y2 * y3 + y1 * x2 * x3)); [apply G; assumption|ring|exact Le].
  - apply (K 2%nat (x2 * y1 * y3 + y2 * x1 * x3)); [apply G; assumption| |exact Le].
    assert (Z : (x - y) ^ 2 * (item a 1 - item a 2) = (x3 * x3 - y3 * y3) * ((y1 * y1) * (x2 * x2) - (x1 * x1) * (y2 * y2))) by (rewrite e1, e2, e3, f1, f2, f3; ring). rewrite Z. ring.
  - apply (K 3%nat (x3 * y1 * y2 + y3 * x1 * x2)); [apply G; assumption| |exact Le].
    assert (Z : (x - y) ^ 2 * (item a 1 - item a 3) = (x2 * x2 - y2 * y2) * ((y1 * y1) * (x3 * x3) - (x1 * x1) * (y3 * y3))) by (rewrite e1, e2, e3, f1, f2, f3; ring). rewrite Z. ring.
Qed.
(** Quartics *)
Lemma quartic_U12 x y a b : (4 <= length a)%nat -> y < x -> (forall u, In u a -> 0 < u + x /\ 0 < u + y) -> (forall i, (2 <= i <= 4)%nat -> item a 1 < item a i) -> b <= 1 ->
  0 < U2 x y a 4 1 2 - (x - y) ^ 2 * (item a 1 - item a 3) * (item a 1 - item a 4) * b.
Proof.
  intros Hn Hxy Pos Min Hb. assert (P : forall i, (1 <= i <= 4)%nat -> 0 < XorY a x i /\ 0 < XorY a y i /\ XorY a x i * XorY a x i = item a i + x /\ XorY a y i * XorY a y i = item a i + y).
  { intros i Hi. destruct (Pos (item a i) (item_in a i ltac:(lia))) as (A & B). destruct i as [|i]; [lia|]. cbn [XorY]. repeat split; try (apply sqrt_lt_R0; lra); apply sqrt_sqrt; lra. }
  destruct (P 1%nat ltac:(lia)) as (p1 & q1 & e1 & f1). destruct (P 2%nat ltac:(lia)) as (p2 & q2 & e2 & f2). destruct (P 3%nat ltac:(lia)) as (p3 & q3 & e3 & f3). destruct (P 4%nat ltac:(lia)) as (p4 & q4 & e4 & f4).
  pose proof (Min 2%nat ltac:(lia)) as M2. pose proof (Min 3%nat ltac:(lia)) as M3. pose proof (Min 4%nat ltac:(lia)) as M4.
  unfold U2, X, Y. cbn [without idx_set Nat.eqb map seq Nat.add filter existsb orb negb].
  set (x1 := XorY a x 1) in *. set (x2 := XorY a x 2) in *. set (x3 := XorY a x 3) in *. set (x4 := XorY a x 4) in *. set (y1 := XorY a y 1) in *. set (y2 := XorY a y 2) in *. set (y3 := XorY a y 3) in *. set (y4 := XorY a y 4) in *. clearbody x1 x2 x3 x4 y1 y2 y3 y4.
  assert (L12 : x1 < x2) by (apply Rsqr_incrst_0; unfold Rsqr; lra).
  set (T := x1 * x1 * (y3 * y4)). assert (PT : 0 < T) by (unfold T; repeat apply Rmult_lt_0_compat; assumption).
  assert (B1 : T < x1 * x2 * y3 * y4 + y1 * y2 * x3 * x4).
  { assert (0 < y1 * y2 * x3 * x4) by (repeat apply Rmult_lt_0_compat; assumption). assert (T <= x1 * x2 * y3 * y4); [|lra]. replace (x1 * x2 * y3 * y4) with (x1 * x2 * (y3 * y4)) by ring. unfold T. apply Rmult_le_compat_r; [apply Rlt_le, Rmult_lt_0_compat; assumption|]. apply Rmult_le_compat_l; lra. }
  assert (B2 : T ^ 2 < (x1 * x2 * y3 * y4 + y1 * y2 * x3 * x4) ^ 2) by (rewrite <- !Rsqr_pow2; apply Rsqr_incrst_1; lra).
  assert (Dk : forall xk yk ak, xk * xk = ak + x -> yk * yk = ak + y -> item a 1 < ak -> (x - y) * (ak - item a 1) = x1 * x1 * (yk * yk) - y1 * y1 * (xk * xk)) by (intros xk yk ak Ex Ey Lk; rewrite e1, f1, Ex, Ey; ring).
  assert (Z : (x - y) ^ 2 * (item a 1 - item a 3) * (item a 1 - item a 4) = ((x - y) * (item a 3 - item a 1)) * ((x - y) * (item a 4 - item a 1))) by ring. rewrite Z.
  assert (G3 : 0 < (x - y) * (item a 3 - item a 1)) by (apply Rmult_lt_0_compat; lra). assert (G4 : 0 < (x - y) * (item a 4 - item a 1)) by (apply Rmult_lt_0_compat; lra).
  assert (U3 : (x - y) * (item a 3 - item a 1) <= x1 * x1 * (y3 * y3)) by (rewrite (Dk x3 y3 _ e3 f3 M3); assert (0 < y1 * y1 * (x3 * x3)) by (repeat apply Rmult_lt_0_compat; assumption); lra).
  assert (U4 : (x - y) * (item a 4 - item a 1) <= x1 * x1 * (y4 * y4)) by (rewrite (Dk x4 y4 _ e4 f4 M4); assert (0 < y1 * y1 * (x4 * x4)) by (repeat apply Rmult_lt_0_compat; assumption); lra).
  set (g3 := (x - y) * (item a 3 - item a 1)) in *. set (g4 := (x - y) * (item a 4 - item a 1)) in *.
  assert (U : g3 * g4 <= T ^ 2) by (apply (Rle_trans _ ((x1 * x1 * (y3 * y3)) * (x1 * x1 * (y4 * y4)))); [apply Rmult_le_compat; lra|unfold T; right; ring]).
  assert (V : g3 * g4 * b <= g3 * g4) by (rewrite <- (Rmult_1_r (g3 * g4)) at 2; apply Rmult_le_compat_l; [apply Rlt_le, Rmult_lt_0_compat; assumption|exact Hb]). lra.
Qed.
Theorem C52_cubic a m x y : (3 <= length a)%nat -> length m = length a -> NoDup a -> (forall u, In u a -> 0 < u + x /\ 0 < u + y) -> x <> y ->
  (forall i, (3 <= i < length a)%nat -> nth i m 0%Z <> 0%Z -> exists j, (j < 3)%nat /\ nth j a 0 <= nth i a 0) -> returns_integral 3 a m x y.
Proof.
  intros Hn El ND Pos Nxy Mn. apply C52_reduction; try assumption; [left; reflexivity|]. split; [discriminate|]. intros nu Hnu Nz. change (rj0 3) with 0%nat. destruct (Mn (nu - 1)%nat ltac:(lia) Nz) as (j & Hj & Le).
  assert (E : exists j, (1 <= j <= 3)%nat /\ item a j <= item a nu) by (exists (S j); split; [lia|]; destruct nu as [|nu]; [lia|]; cbn [item]; replace (S nu - 1)%nat with nu in Le by lia; exact Le).
  destruct (Rlt_le_dec y x) as [L|L]; [apply cubic_U2nu; assumption|]. rewrite U2nu_swap. apply cubic_U2nu; try assumption; [lra|]. intros u Hu. destruct (Pos u Hu). split; assumption.
Qed.
(** First and second kind: every exponent of a branch point is 0 or -1, and there are no other factors *)
Theorem C52_quartic_basic a m x y : length a = 4%nat -> length m = 4%nat -> NoDup a -> (forall u, In u a -> 0 < u + x /\ 0 < u + y) -> x <> y -> (forall k, In k m -> k = 0%Z \/ k = (-1)%Z) -> returns_integral 4 a m x y.
Proof.
  intros La Lm ND Pos Nxy Mn. apply C52_reduction; try assumption; [right; reflexivity|lia|congruence|]. assert (K : forall j, mi m j = 0%Z \/ mi m j = (-1)%Z). { intros j. unfold mi. destruct (le_lt_dec (length m) (j - 1)) as [L|L]; [left; apply nth_overflow, L|apply Mn, nth_In, L]. }
  split; [|intros nu Hnu; lia]. intros _ j Hj [[N|(N & _)]|(_ & [(N & _)|(nu & N & _)])]; [destruct (K j); lia|destruct (K j); lia| |lia].
  exfalso. assert (S : forall l z, (forall k, In k l -> k = 0%Z \/ k = (-1)%Z) -> (fold_left Z.add l z <= z)%Z). { induction l as [|k l IH]; intros z Hl; cbn [fold_left]; [lia|]. specialize (IH (z + k)%Z ltac:(intros; apply Hl; right; assumption)). destruct (Hl k (or_introl eq_refl)); lia. }
  specialize (S m 0%Z Mn). lia.
Qed.
(** All kinds, if the first number is the least and the exponents of the other branch points are at least -1 (and there are two factors with an exponent) *)
Theorem C52_quartic a m x y : (4 <= length a)%nat -> length m = length a -> NoDup a -> (forall u, In u a -> 0 < u + x /\ 0 < u + y) -> x <> y -> (forall u, In u (tl a) -> hd 0 a < u) ->
  (forall i, (1 <= i < 4)%nat -> (-1 <= nth i m 0)%Z) -> (exists i j, (i < j < length m)%nat /\ nth i m 0%Z <> 0%Z /\ nth j m 0%Z <> 0%Z) -> returns_integral 4 a m x y.
Proof.
  intros Hn El ND Pos Nxy Least Mn (i1 & i2 & Hi & N1 & N2). apply C52_reduction; try assumption; [right; reflexivity|].
  assert (Min : forall i, (2 <= i <= length a)%nat -> item a 1 < item a i). { intros i Hi'. destruct a as [|u a']; [cbn in Hn; lia|]. destruct i as [|[|i]]; [lia|lia|]. cbn [item nth]. apply Least. cbn [tl]. apply nth_In. cbn [length] in Hi'. lia. }
  assert (W : circular (Rmax x y) (Rmin x y) a 4 m).
  { assert (Hxy : Rmin x y < Rmax x y) by (unfold Rmin, Rmax; destruct (Rle_dec x y); lra). assert (Pos' : forall u, In u a -> 0 < u + Rmax x y /\ 0 < u + Rmin x y) by (intros u Hu; destruct (Pos u Hu); unfold Rmin, Rmax; destruct (Rle_dec x y); lra).
    assert (D1 : forall i, (2 <= i)%nat -> d a 1 i = item a 1 - item a i) by (intros i Hi'; unfold d, d_up; replace (Nat.ltb i 1) with false by (symmetry; apply Nat.ltb_ge; lia); cbn [Nat.eqb]; ring).
    split.
    - intros _ j Hj Nd. assert (Ej : j = 1%nat). { destruct Nd as [[Nd|(_ & Al)]|(E & _)]; [| |exact E].
        - destruct (Nat.eq_dec j 1) as [E|E]; [exact E|]. exfalso. specialize (Mn (j - 1)%nat ltac:(lia)). unfold mi in Nd. lia.
        - exfalso. destruct (Nat.eq_dec j (S i1)) as [E|E]; [apply N2; specialize (Al (S i2) ltac:(lia) ltac:(lia)); unfold mi in Al; replace (S i2 - 1)%nat with i2 in Al by lia; exact Al|apply N1; specialize (Al (S i1) ltac:(lia) ltac:(lia)); unfold mi in Al; replace (S i1 - 1)%nat with i1 in Al by lia; exact Al]. }
      subst j. pose proof (quartic_U12 (Rmax x y) (Rmin x y) a 1 Hn Hxy Pos' ltac:(intros i Hi'; apply Min; lia) ltac:(lra)) as Q. unfold U2nu. cbn [without idx_set Nat.eqb map seq Nat.add filter existsb orb negb]. rewrite !D1 by lia. replace (d a 2 0) with (- 1) by (unfold d, d_up; cbn; ring). replace (d a 1 0) with (- 1) by (unfold d, d_up; cbn; ring). unfold xmy2, xmy. replace (_ / _) with ((Rmax x y - Rmin x y) ^ 2 * (item a 1 - item a 3) * (item a 1 - item a 4) * 1) by field. exact Q.
    - intros nu Hnu Nz. change (rj0 4) with 1%nat. pose proof (Min nu ltac:(lia)) as Mnu. pose proof (Min 2%nat ltac:(lia)) as M2.
      pose proof (quartic_U12 (Rmax x y) (Rmin x y) a ((item a 2 - item a nu) / (item a 1 - item a nu)) Hn Hxy Pos' ltac:(intros i Hi'; apply Min; lia)) as Q.
      unfold U2nu. cbn [without idx_set Nat.eqb map seq Nat.add filter existsb orb negb]. rewrite !D1 by lia. replace (d a 2 nu) with (item a 2 - item a nu) by (unfold d, d_up; replace (Nat.ltb nu 2) with false by (symmetry; apply Nat.ltb_ge; lia); cbn [Nat.eqb]; ring).
      unfold xmy2, xmy. replace (_ / _) with ((Rmax x y - Rmin x y) ^ 2 * (item a 1 - item a 3) * (item a 1 - item a 4) * ((item a 2 - item a nu) / (item a 1 - item a nu))) by (unfold Rdiv; ring). apply Q.
      replace ((item a 2 - item a nu) / (item a 1 - item a nu)) with (1 - (item a 2 - item a 1) / (item a nu - item a 1)) by (field; lra). pose proof (Rdiv_lt_0_compat (item a 2 - item a 1) (item a nu - item a 1) ltac:(lra) ltac:(lra)). lra. }
  destruct (Rle_dec x y) as [L|L]; [rewrite Rmax_right, Rmin_left in W by lra; apply circular_swap, W|rewrite Rmax_left, Rmin_right in W by lra; exact W].
Qed.

(** ** C62: the gradients *)
Lemma v_integrand h z : forall a m k, length m = length a -> (forall u, In u a -> 0 < u + z) ->
  lprod (combine (seq k (length a)) (combine a m)) (fun p => Rpower (fst (snd p) + z) (IZR (snd (snd p)) - (if Nat.ltb (fst p) h then 1 / 2 else 0))) = numer a m z / root (firstn (h - k) a) z.
Proof.
  induction a as [|u a IH]; intros m k El Pos; [cbn; rewrite firstn_nil; cbn; field|]. destruct m as [|c m]; [discriminate|]. cbn [length seq combine lprod fst snd numer]. rewrite IH by (try (cbn in El; lia); intros w Hw; apply Pos; right; exact Hw).
  pose proof (Pos u (or_introl eq_refl)) as Pu. pose proof (sqrt_lt_R0 _ Pu) as Ps. assert (Pr : forall j, 0 < root (firstn j a) z) by (intros j; apply root_pos, okt_firstn; intros w Hw; apply Pos; right; exact Hw). destruct (Nat.ltb_spec k h) as [L|L].
  - replace (h - k)%nat with (S (h - S k)) by lia. cbn [firstn root]. unfold Rminus. rewrite Rpower_plus, Rpower_Ropp, <- powerRZ_Rpower by exact Pu. replace (1 / 2) with (/ 2) by lra. rewrite Rpower_sqrt by exact Pu. pose proof (Pr (h - S k)%nat). field. lra.
  - replace (h - S k)%nat with 0%nat by lia. replace (h - k)%nat with 0%nat by lia. cbn [firstn root]. rewrite Rminus_0_r, <- powerRZ_Rpower by exact Pu. field.
Qed.
Lemma v_is_integrand h a m z : a <> [] -> length m = length a -> (forall u, In u a -> 0 < u + z) -> v a h m z = integrand h a m z.
Proof.
  intros Na El Pos. unfold v. rewrite prod_lprod.
  - rewrite (v_integrand h z a m 0 El Pos), Nat.sub_0_r. reflexivity.
  - destruct a as [|u a']; [congruence|]. destruct m; discriminate.
Qed.
Notation BW := (backward elliprc elliprd elliprf elliprj).
(** The slots of m and h *)
Theorem C62_no_gradient fuel m h z1 z2 a needs g : nth_error (BW fuel m h z1 z2 a needs g) 0 = Some None /\ nth_error (BW fuel m h z1 z2 a needs g) 1 = Some None /\
  (length needs = (4 + length a)%nat -> length (BW fuel m h z1 z2 a needs g) = length needs) /\
  (length needs = (4 + length a)%nat -> forall i, nth_error needs i = Some false -> nth_error (BW fuel m h z1 z2 a needs g) i = Some None).
Proof.
  split; [reflexivity|]. split; [reflexivity|]. split.
  - intros El. unfold backward. destruct needs as [|n0 [|n1 [|n2 [|n3 ns]]]]; cbn [length] in El; try lia. cbn [skipn combine map app]. rewrite combine_nil. cbn [map app length].
    rewrite !map_length, combine_length, seq_length, Nat.min_id. reflexivity.
  - intros El i Hi. unfold backward. destruct needs as [|n0 [|n1 [|n2 [|n3 ns]]]]; cbn [length] in El; try lia. cbn [skipn combine map app]. rewrite combine_nil. cbn [map app]. destruct i as [|[|[|[|i]]]]; cbn [nth_error] in Hi |- *; [reflexivity|reflexivity|injection Hi as ->; reflexivity|injection Hi as ->; reflexivity|].
    rewrite !nth_error_map. assert (K : nth_error (combine (seq 0 (length ns)) ns) i = Some (i, false)). { assert (G : forall l k i, nth_error l i = Some false -> nth_error (combine (seq k (length l)) l) i = Some ((k + i)%nat, false)). { induction l as [|b l IH]; intros k i' H; [destruct i'; discriminate|]. destruct i' as [|i']; cbn in H |- *; [rewrite Nat.add_0_r; congruence|]. rewrite (IH (S k) i' H). do 2 f_equal. lia. } apply (G ns 0%nat i Hi). }
    rewrite K. reflexivity.
Qed.
(** The limits of integration *)
Theorem C62_limits fuel m h z1 z2 a needs g : a <> [] -> length m = length a -> (forall u, In u a -> 0 < u + z1 /\ 0 < u + z2) -> nth_error needs 2 = Some true -> nth_error needs 3 = Some true ->
  exists d1 d2, nth_error (BW fuel m h z1 z2 a needs g) 2 = Some (Some (Some (g * d1))) /\ nth_error (BW fuel m h z1 z2 a needs g) 3 = Some (Some (Some (g * d2))) /\
    (forall V, locally z1 (fun z => elliptic_integral h a m z2 z (V z)) -> is_derive V z1 d1) /\ (forall V, locally z2 (fun z => elliptic_integral h a m z z1 (V z)) -> is_derive V z2 d2).
Proof.
  intros Na El Pos N2 N3. exists (vy z1 a h m), (vx z2 a h m). destruct needs as [|n0 [|n1 [|n2 [|n3 ns]]]]; try discriminate. cbn in N2, N3. injection N2 as ->. injection N3 as ->. split; [reflexivity|]. split; [reflexivity|].
  assert (O1 : okt a z1) by (intros u Hu; apply (Pos u Hu)). assert (O2 : okt a z2) by (intros u Hu; apply (Pos u Hu)). split; intros V L.
  - apply (is_derive_ext_loc (fun z => RInt (integrand h a m) z z2)); [apply (filter_imp (fun z => elliptic_integral h a m z2 z (V z))); [intros z I; apply (is_RInt_unique (V := R_CompleteNormedModule)); exact I|exact L]|]. unfold vy. rewrite v_is_integrand by (try assumption; intros u Hu; apply (Pos u Hu)). apply derive_lower; assumption.
  - apply (is_derive_ext_loc (fun z => RInt (integrand h a m) z1 z)); [apply (filter_imp (fun z => elliptic_integral h a m z z1 (V z))); [intros z I; apply (is_RInt_unique (V := R_CompleteNormedModule)); exact I|exact L]|]. unfold vx. rewrite v_is_integrand by (try assumption; intros u Hu; apply (Pos u Hu)). apply derive_upper; assumption.
Qed.
(** The parameters; [m'] has item [j] less by 1 *)
Theorem C62_parameters m m' h z1 z2 a needs g j : (j < length a)%nat -> length m = length a -> (forall u, In u a -> 0 < u + z1 /\ 0 < u + z2) -> nth_error needs (4 + j) = Some true ->
  length m' = length m -> (forall i, nth i m' 0%Z = if Nat.eqb i j then (nth i m 0 - 1)%Z else nth i m 0%Z) -> returns_integral h a m' z2 z1 ->
  exists fuel0 d, (forall fuel, (fuel0 <= fuel)%nat -> nth_error (BW fuel m h z1 z2 a needs g) (4 + j) = Some (Some (Some (g * d)))) /\
    (forall V, locally (nth j a 0) (fun u => elliptic_integral h (replace_nth j u a) m z2 z1 (V u)) -> is_derive V (nth j a 0) d).
Proof.
  intros Hj El Pos Nj El' Em (f0 & v & Hf & I). assert (Ed : m' = dec j m).
  { rewrite <- dec_map. apply (nth_ext _ _ 0%Z 0%Z); [rewrite map_length, seq_length; congruence|]. intros i Hi. rewrite Em, (nth_indep (map _ _) 0%Z ((fun i => (nth i m 0 - (if Nat.eqb i j then 1 else 0))%Z) 0%nat)) by (rewrite map_length, seq_length; congruence). rewrite (map_nth (fun i => (nth i m 0 - (if Nat.eqb i j then 1 else 0))%Z)), seq_nth by congruence. cbn [Nat.add]. destruct (Nat.eqb i j); lia. }
  exists f0, ((IZR (nth j m 0%Z) - (if Nat.ltb j h then 1 / 2 else 0)) * v). split.
  - intros fuel Hfu. destruct needs as [|n0 [|n1 [|n2 [|n3 ns]]]]; try (cbn in Nj; destruct j; discriminate). unfold backward. cbn [skipn combine map app nth_error Nat.add] in Nj |- *. rewrite combine_nil. cbn [map app].
    rewrite !nth_error_map. assert (K : nth_error (combine (seq 0 (length ns)) ns) j = Some (j, true)). { assert (G : forall l k i, nth_error l i = Some true -> nth_error (combine (seq k (length l)) l) i = Some ((k + i)%nat, true)). { induction l as [|b l IH]; intros k i' H; [destruct i'; discriminate|]. destruct i' as [|i']; cbn in H |- *; [rewrite Nat.add_0_r; congruence|]. rewrite (IH (S k) i' H). do 2 f_equal. lia. } apply (G ns 0%nat j Nj). }
    rewrite K. cbn [option_map fst snd]. unfold forward. rewrite <- El, dec_map, <- Ed, Hf by exact Hfu. reflexivity.
  - intros V L. assert (O1 : okt a z1) by (intros u Hu; apply (Pos u Hu)). assert (O2 : okt a z2) by (intros u Hu; apply (Pos u Hu)).
    apply (is_derive_ext_loc (fun u => RInt (integrand h (replace_nth j u a) m) z1 z2)); [apply (filter_imp (fun u => elliptic_integral h (replace_nth j u a) m z2 z1 (V u))); [intros z Iz; apply (is_RInt_unique (V := R_CompleteNormedModule)); exact Iz|exact L]|].
    apply (is_RInt_unique (V := R_CompleteNormedModule)) in I. rewrite Ed in I. rewrite <- I. apply derive_param; assumption.
Qed.
End C52.

(** ** Non-vacuity *)
Definition ex_rc u v := seq_improper (fun t => 1 / (2 * (sqrt (t + u) * (t + v)))).
Definition ex_rf u v w := seq_improper (fun t => 1 / (2 * (sqrt (t + u) * sqrt (t + v) * sqrt (t + w)))).
Definition ex_rj u v w p := seq_improper (fun t => 3 / (2 * (sqrt (t + u) * sqrt (t + v) * sqrt (t + w) * (t + p)))).
Definition ex_rd u v w := ex_rj u v w w.
Lemma ex_exact : exact_carlson ex_rc ex_rd ex_rf ex_rj.
Proof. repeat split; intros; apply seq_improper_ok; assumption. Qed.
(** A cubic with a further factor, and a quartic with a positive and a negative exponent *)
Example C52_nonvacuous : exact_carlson ex_rc ex_rd ex_rf ex_rj /\ returns_integral ex_rc ex_rd ex_rf ex_rj 3 [1; 2; 0; 3] [2; -3; 0; -2]%Z 5 1 /\ returns_integral ex_rc ex_rd ex_rf ex_rj 4 [0; 1; 3; 2; 4] [-2; 1; -1; 0; -3]%Z 1 5.
Proof.
  split; [apply ex_exact|]. split.
  - apply C52_cubic; [apply ex_exact|cbn; lia|reflexivity| |intros u Hu; cbn in Hu; lra|lra|].
    + repeat constructor; cbn; lra.
    + intros i Hi _. cbn in Hi. exists 0%nat. split; [lia|]. replace i with 3%nat by lia. cbn. lra.
  - apply C52_quartic; [apply ex_exact|cbn; lia|reflexivity| |intros u Hu; cbn in Hu; lra|lra|intros u Hu; cbn in Hu |- *; lra| |exists 0%nat, 1%nat; cbn; lia].
    + repeat constructor; cbn; lra.
    + intros i Hi. assert (C : i = 1%nat \/ i = 2%nat \/ i = 3%nat) by lia. destruct C as [-> | [-> | ->]]; cbn; lia.
Qed.
(** A valid quartic for which the code passes a negative last argument to elliprj: then R_J is a principal value, and [C52_reduction] does not apply. *)
Example C52_principal_value_needed : U2nu 96 0 [529; 100; 25; 4] 4 1 0 < 0.
Proof.
  unfold U2nu, U2, d, d_up, X, Y, XorY, xmy2, xmy. cbn [without idx_set Nat.eqb map seq Nat.add filter existsb orb negb Nat.ltb Nat.leb item nth].
  replace (529 + 96) with (25 * 25) by lra. replace (100 + 96) with (14 * 14) by lra. replace (25 + 96) with (11 * 11) by lra. replace (4 + 96) with (10 * 10) by lra. replace (529 + 0) with (23 * 23) by lra. replace (100 + 0) with (10 * 10) by lra. replace (25 + 0) with (5 * 5) by lra. replace (4 + 0) with (2 * 2) by lra. rewrite !sqrt_square by lra.
  replace (_ / - (1 - 529 * 0)) with (96 ^ 2 * 504 * 525) by field. lra.
Qed.
(** The default exponents of elliptic_integral, with every gradient wanted *)
Example C62_nonvacuous j : (j < 4)%nat -> exists m', length m' = 4%nat /\ (forall i, nth i m' 0%Z = if Nat.eqb i j then (nth i [0; 0; 0; 0] 0 - 1)%Z else nth i [0; 0; 0; 0]%Z 0%Z) /\
  returns_integral ex_rc ex_rd ex_rf ex_rj 4 [3; 1; 2; 5] m' 2 0 /\ nth_error (repeat true 8) (4 + j) = Some true.
Proof.
  intros Hj. exists (map (fun i => if Nat.eqb i j then (-1)%Z else 0%Z) (seq 0 4)). split; [reflexivity|]. split; [|split].
  - intros i. assert (C : j = 0%nat \/ j = 1%nat \/ j = 2%nat \/ j = 3%nat) by lia. destruct C as [-> | [-> | [-> | ->]]]; destruct i as [|[|[|[|[|i]]]]]; reflexivity.
  - apply C52_quartic_basic; [apply ex_exact|reflexivity|reflexivity|repeat constructor; cbn; lra|intros u Hu; cbn in Hu; lra|lra|]. intros k Hk. apply in_map_iff in Hk. destruct Hk as (i & <- & _). destruct (Nat.eqb i j); [right|left]; reflexivity.
  - assert (C : j = 0%nat \/ j = 1%nat \/ j = 2%nat \/ j = 3%nat) by lia. destruct C as [-> | [-> | [-> | ->]]]; reflexivity.
Qed.
Print Assumptions C62_no_gradient.
Print Assumptions C62_limits.
Print Assumptions C62_parameters.
Print Assumptions C62_nonvacuous.
Print Assumptions C52_reduction.
Print Assumptions C52_exchange.
Print Assumptions C52_cubic.
Print Assumptions C52_quartic_basic.
Print Assumptions C52_quartic.
Print Assumptions C52_nonvacuous.
