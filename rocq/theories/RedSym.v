(** Exchanging the limits of integration changes the sign of every result of the reduction. *)
From Coq Require Import Reals List Bool Arith ZArith Lia Lra.
From Verif Require Import Roots Reduction.
Import ListNotations.
Open Scope R_scope.

Section Sym.
Variables (x y : R) (a : list R) (h : nat).
Variables (elliprc : R -> R -> R) (elliprd elliprf : R -> R -> R -> R) (elliprj : R -> R -> R -> R -> R).
Lemma U2_swap i j : U2 y x a h i j = U2 x y a h i j.
Proof. unfold U2. destruct (without h [i; j]) as [|k [|l [|? ?]]]; try reflexivity. unfold X, Y. ring. Qed.
Lemma xmy_swap : xmy y x = - xmy x y. Proof. unfold xmy. ring. Qed.
Lemma xmy2_swap : xmy2 y x = xmy2 x y. Proof. unfold xmy2. rewrite xmy_swap. ring. Qed.
Lemma U2nu_swap i nu : U2nu y x a h i nu = U2nu x y a h i nu.
Proof. unfold U2nu. destruct (without h [i]) as [|j [|k [|l [|? ?]]]]; try reflexivity. rewrite U2_swap, xmy2_swap. reflexivity. Qed.
Lemma S2_swap i nu : S2 y x a h i nu = S2 x y a h i nu.
Proof. unfold S2. destruct (without h [i]) as [|j [|k [|l [|? ?]]]]; try reflexivity. unfold X, Y. rewrite Rplus_comm. reflexivity. Qed.
Lemma Q2_swap i nu : Q2 y x a h i nu = Q2 x y a h i nu.
Proof. unfold Q2. rewrite U2nu_swap. unfold X, Y. rewrite (Rmult_comm (XorY a y nu ^ 2)), (Rmult_comm (XorY a y i ^ 2)). reflexivity. Qed.
Lemma with_swap f : with_U2xyz y x a h f = with_U2xyz x y a h f.
Proof. unfold with_U2xyz. rewrite !U2_swap. reflexivity. Qed.
Lemma Ie_0_swap : Ie_0 y x a h elliprf = - Ie_0 x y a h elliprf.
Proof. unfold Ie_0. rewrite with_swap, xmy_swap. ring. Qed.
Lemma Ie_minus_nu_swap nu : Ie_minus_nu y x a h elliprc elliprf elliprj nu = - Ie_minus_nu x y a h elliprc elliprf elliprj nu.
Proof.
  unfold Ie_minus_nu. destruct (idx_set h) as [|i [|j [|k [|l [|? ?]]]]]; try ring. cbv zeta. rewrite with_swap, S2_swap, Q2_swap, Ie_0_swap, xmy_swap, xmy2_swap. rewrite (U2nu_swap i nu). destruct (Nat.eqb i 0); unfold Rdiv; ring.
Qed.
Lemma Ie_minus_swap i : Ie_minus y x a h elliprd elliprf i = - Ie_minus x y a h elliprd elliprf i.
Proof.
  unfold Ie_minus. destruct (without h [i]) as [|j [|k [|l [|? ?]]]]; try ring. cbv zeta. rewrite !U2_swap, Ie_0_swap, xmy_swap, xmy2_swap. unfold X, Y. rewrite (Rmult_comm (XorY a y j)), (Rmult_comm (XorY a y i)). destruct (Nat.eqb j 0); unfold Rdiv; ring.
Qed.
Lemma Ie_plus_swap i : Ie_plus y x a h elliprc elliprd elliprf elliprj i = - Ie_plus x y a h elliprc elliprd elliprf elliprj i.
Proof.
  unfold Ie_plus. destruct (Nat.eqb h 3).
  - destruct (filter _ _) as [|j [|k [|? ?]]]; try ring. rewrite Ie_minus_swap. ring.
  - destruct (without h [i]) as [|j [|k [|l [|? ?]]]]; try ring. rewrite S2_swap, Q2_swap, with_swap, U2nu_swap, xmy_swap, xmy2_swap. ring.
Qed.
Lemma Ie_swap i : Ie y x a h elliprc elliprd elliprf elliprj i = - Ie x y a h elliprc elliprd elliprf elliprj i.
Proof. unfold Ie. rewrite !Ie_minus_nu_swap, !Ie_minus_swap, !Ie_plus_swap, !Ie_0_swap. destruct (i <? - Z.of_nat h)%Z; [reflexivity|]. destruct (i <? 0)%Z; [reflexivity|]. destruct (i =? 0)%Z; [reflexivity|]. destruct (i <=? Z.of_nat h)%Z; ring. Qed.
Lemma A_swap m : A y x a h m = - A x y a h m.
Proof. unfold A, vx, vy. ring. Qed.
Lemma sum_opt_opp {T} (l : list T) (f g : T -> option R) : (forall i, In i l -> f i = omap Ropp (g i)) -> sum_opt (map f l) = omap Ropp (sum_opt (map g l)).
Proof.
  induction l as [|i l IH]; intros Hl; cbn [map sum_opt]; [cbn; rewrite Ropp_0; reflexivity|]. rewrite (Hl i) by (left; reflexivity). rewrite IH by (intros i' Hi; apply Hl; right; exact Hi). destruct (g i) as [u|]; [|reflexivity]. cbn [omap]. destruct (sum_opt (map g l)); [|reflexivity]. cbn [omap]. f_equal. ring.
Qed.
Lemma omap_opp k (o : option R) : omap (Rmult k) (omap Ropp o) = omap Ropp (omap (Rmult k) o).
Proof. destruct o; [cbn; f_equal; ring|reflexivity]. Qed.
Lemma Iqe_swap f : forall q j, Iqe y x a h elliprc elliprd elliprf elliprj f q j = omap Ropp (Iqe x y a h elliprc elliprd elliprf elliprj f q j).
Proof.
  induction f as [|f IH]; intros q j; [reflexivity|]. cbn [Iqe]. cbv zeta.
  assert (V : forall q' ri low m, omap (fun t => (A y x a h (A_exponents a h q' j) - t) / Iqe_pref a h q' ri j) (sum_opt (map (fun r => omap (Rmult (Iqe_pref a h q' r j)) (Iqe y x a h elliprc elliprd elliprf elliprj f (q' + Z.of_nat r) j)) (seq low m))) =
    omap Ropp (omap (fun t => (A x y a h (A_exponents a h q' j) - t) / Iqe_pref a h q' ri j) (sum_opt (map (fun r => omap (Rmult (Iqe_pref a h q' r j)) (Iqe x y a h elliprc elliprd elliprf elliprj f (q' + Z.of_nat r) j)) (seq low m))))).
  { intros q' ri low m. rewrite (sum_opt_opp (seq low m) _ (fun r => omap (Rmult (Iqe_pref a h q' r j)) (Iqe x y a h elliprc elliprd elliprf elliprj f (q' + Z.of_nat r) j))) by (intros r _; rewrite IH; apply omap_opp). destruct (sum_opt _); [|reflexivity]. cbn [omap]. f_equal. rewrite A_swap. unfold Rdiv. ring. }
  rewrite !V. destruct (_ && _)%bool.
  - apply (sum_opt_opp (seq 0 3)). intros r _. rewrite IH. apply omap_opp.
  - destruct (1 <? q)%Z; [reflexivity|]. destruct (q <? -1)%Z; [destruct (Nat.ltb h j); reflexivity|]. rewrite Ie_swap. reflexivity.
Qed.
Theorem Im_swap f m : Im y x a h elliprc elliprd elliprf elliprj f m = omap Ropp (Im x y a h elliprc elliprd elliprf elliprj f m).
Proof.
  unfold Im. destruct (filter _ _) as [|j [|j' js]]; [rewrite Ie_swap; reflexivity|apply Iqe_swap|]. cbv zeta. set (M := fold_left Z.add m 0%Z).
  rewrite (sum_opt_opp (zrange 0 (M + 1)) _ (fun q => omap (Rmult (C a m (M - q) 1)) (Iqe x y a h elliprc elliprd elliprf elliprj f q 1))) by (intros q _; rewrite Iqe_swap; apply omap_opp).
  rewrite (sum_opt_opp (onerange (n a)) _ (fun i => omap (Rmult (D a m i)) (sum_opt (map (fun q => omap (Rmult (C a m (mi m i + Z.of_nat q) i)) (Iqe x y a h elliprc elliprd elliprf elliprj f (- Z.of_nat q) i)) (onerange (Z.to_nat (- mi m i))))))).
  - destruct (sum_opt _) as [u|]; [|reflexivity]. cbn [omap]. destruct (sum_opt _); [|reflexivity]. cbn [omap]. f_equal. ring.
  - intros i _. rewrite (sum_opt_opp (onerange (Z.to_nat (- mi m i))) _ (fun q => omap (Rmult (C a m (mi m i + Z.of_nat q) i)) (Iqe x y a h elliprc elliprd elliprf elliprj f (- Z.of_nat q) i))) by (intros q _; rewrite Iqe_swap; apply omap_opp). apply omap_opp.
Qed.
End Sym.
