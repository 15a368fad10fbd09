(** Differentiation of elliptic integrals with respect to the limits and the parameters *)
From Coq Require Import Reals List Bool Arith ZArith Lia Lra.
From Coquelicot Require Import Rcomplements Hierarchy Continuity Derive Derive_2d RInt RInt_analysis AutoDerive ElemFct.
From Verif Require Import EllipSpec Improper RedAlg RedInt PartFrac ReductionSpec RedMain.
Import ListNotations.
Open Scope R_scope.

Fixpoint remove_nth {T} (j : nat) (l : list T) {struct l} : list T := match l, j with [], _ => [] | _ :: l', O => l' | u :: l', S k => u :: remove_nth k l' end.
Fixpoint dec (j : nat) (m : list Z) {struct m} : list Z := match m, j with [], _ => [] | k :: m', O => (k - 1)%Z :: m' | k :: m', S i => k :: dec i m' end.
Lemma numer_replace u t : forall a j m, (j < length a)%nat -> length m = length a -> numer (replace_nth j u a) m t = powerRZ (u + t) (nth j m 0%Z) * numer (remove_nth j a) (remove_nth j m) t.
Proof.
  induction a as [|w a IH]; intros j m Hj El; [cbn in Hj; lia|]. destruct m as [|k m]; [discriminate|]. destruct j as [|j]; [reflexivity|]. cbn [replace_nth remove_nth numer nth]. rewrite IH by (cbn in *; lia). ring.
Qed.
Lemma root_replace u t : forall a j h, (j < length a)%nat -> root (firstn h (replace_nth j u a)) t = (if Nat.ltb j h then sqrt (u + t) else 1) * root (firstn (if Nat.ltb j h then h - 1 else h) (remove_nth j a)) t.
Proof.
  induction a as [|w a IH]; intros j h Hj; [cbn in Hj; lia|]. destruct h as [|h]; [replace (Nat.ltb j 0) with false by (symmetry; apply Nat.ltb_ge; lia); cbn; ring|].
  destruct j as [|j]; [cbn [replace_nth remove_nth firstn root Nat.ltb Nat.leb]; rewrite Nat.sub_succ, Nat.sub_0_r; reflexivity|]. cbn [replace_nth remove_nth firstn root]. rewrite IH by (cbn in Hj; lia).
  change (Nat.ltb (S j) (S h)) with (Nat.ltb j h). destruct (Nat.ltb_spec j h); cbn [firstn root]; [|cbn [firstn root]; ring]. replace (S h - 1)%nat with (S (h - 1)) by lia. cbn [firstn root]. ring.
Qed.
Lemma dec_nth : forall m j, (j < length m)%nat -> nth j (dec j m) 0%Z = (nth j m 0 - 1)%Z.
Proof. induction m as [|k m IH]; intros j Hj; [cbn in Hj; lia|]. destruct j; [reflexivity|]. cbn. apply IH. cbn in Hj. lia. Qed.
Lemma dec_remove : forall m j, remove_nth j (dec j m) = remove_nth j m.
Proof. induction m as [|k m IH]; intros j; [reflexivity|]. destruct j; [reflexivity|]. cbn. f_equal. apply IH. Qed.
Lemma dec_length : forall m j, length (dec j m) = length m.
Proof. induction m as [|k m IH]; intros j; [reflexivity|]. destruct j; [reflexivity|]. cbn. f_equal. apply IH. Qed.
Lemma dec_map : forall m j, map (fun i => (nth i m 0 - (if Nat.eqb i j then 1 else 0))%Z) (seq 0 (length m)) = dec j m.
Proof.
  induction m as [|k m IH]; intros j; [reflexivity|]. cbn [length seq map]. destruct j as [|j]; cbn [dec nth Nat.eqb].
  - f_equal. rewrite <- seq_shift, map_map. transitivity (map (fun i => nth i m 0%Z) (seq 0 (length m))); [apply map_ext; intros i; cbn; lia|]. clear. induction m as [|c m IH]; [reflexivity|]. cbn [length seq map nth]. f_equal. rewrite <- seq_shift, map_map. exact IH.
  - f_equal; [lia|]. rewrite <- seq_shift, map_map. rewrite <- IH. apply map_ext. intros i. reflexivity.
Qed.
Lemma remove_incl {T} (u : T) : forall l j, In u (remove_nth j l) -> In u l.
Proof. induction l as [|w l IH]; intros j H; [exact H|]. destruct j; cbn in H |- *; [right; exact H|]. destruct H as [H|H]; [left; exact H|right; exact (IH j H)]. Qed.
Lemma replace_same : forall a j, (j < length a)%nat -> replace_nth j (nth j a 0) a = a.
Proof. induction a as [|w a IH]; intros j Hj; [reflexivity|]. destruct j; [reflexivity|]. cbn. f_equal. apply IH. cbn in Hj. lia. Qed.

(** Continuity in the variable of integration *)
Definition okt (a : list R) (t : R) : Prop := forall u, In u a -> 0 < u + t.
Lemma numer_ex a : forall m t, okt a t -> ex_derive (numer a m) t.
Proof.
  induction a as [|u a IH]; intros m t H; [apply (ex_derive_ext (fun _ => 1)); [destruct m; reflexivity|apply ex_derive_const]|]. destruct m as [|k m]; [apply (ex_derive_ext (fun _ => 1)); [reflexivity|apply ex_derive_const]|].
  apply (ex_derive_ext (fun t => powerRZ (u + t) k * numer a m t)); [reflexivity|]. apply (ex_derive_mult (fun t => powerRZ (u + t) k) (numer a m)); [eexists; apply powerRZ_derive; pose proof (H u (or_introl eq_refl)); lra|]. apply IH. intros w Hw. apply H. right. exact Hw.
Qed.
Lemma root_pos a t : okt a t -> 0 < root a t.
Proof. induction a as [|u a IH]; intros H; cbn [root]; [lra|]. apply Rmult_lt_0_compat; [apply sqrt_lt_R0, H; left; reflexivity|]. apply IH. intros w Hw. apply H. right. exact Hw. Qed.
Lemma sqrt_shift_derive u t : 0 < u + t -> is_derive (fun t => sqrt (u + t)) t (/ (2 * sqrt (u + t))).
Proof. intros P. eapply der_eq; [apply (is_derive_sqrt (fun t => u + t) t 1); [auto_derive; [exact I|ring]|exact P]|]. cbv beta. field. apply Rgt_not_eq, sqrt_lt_R0, P. Qed.
Lemma root_ex a : forall t, okt a t -> ex_derive (root a) t.
Proof.
  induction a as [|u a IH]; intros t H; [apply (ex_derive_const 1)|]. apply (ex_derive_ext (fun t => sqrt (u + t) * root a t)); [reflexivity|]. apply (ex_derive_mult (fun t => sqrt (u + t)) (root a)); [eexists; apply sqrt_shift_derive, H; left; reflexivity|]. apply IH. intros w Hw. apply H. right. exact Hw.
Qed.
Lemma okt_firstn a h t : okt a t -> okt (firstn h a) t.
Proof. intros H u Hu. apply H. rewrite <- (firstn_skipn h a). apply in_or_app. left. exact Hu. Qed.
Lemma quot_cont (a b : list R) m t : okt a t -> okt b t -> continuous (fun t => numer a m t / root b t) t.
Proof.
  intros Ha Hb. apply (ex_derive_continuous (fun t => numer a m t / root b t)). apply (ex_derive_div (numer a m) (root b)); [apply numer_ex, Ha|apply root_ex, Hb|apply Rgt_not_eq, root_pos, Hb].
Qed.
Lemma integrand_cont h a m t : okt a t -> continuous (integrand h a m) t.
Proof. intros Ha. apply (quot_cont a (firstn h a) m t Ha), okt_firstn, Ha. Qed.
Lemma okt_between a x y t : okt a x -> okt a y -> Rmin y x <= t <= Rmax y x -> okt a t.
Proof. intros Hx Hy Ht u Hu. specialize (Hx u Hu). specialize (Hy u Hu). unfold Rmin, Rmax in Ht. destruct (Rle_dec y x); lra. Qed.
Lemma integrand_ex h a m x y : okt a x -> okt a y -> ex_RInt (integrand h a m) y x.
Proof. intros Hx Hy. apply (ex_RInt_continuous (V := R_CompleteNormedModule)). intros t Ht. apply integrand_cont, (okt_between a x y t Hx Hy Ht). Qed.
Lemma okt_open a t : okt a t -> locally t (okt a).
Proof.
  induction a as [|u a IH]; intros H; [exists (mkposreal 1 Rlt_0_1); intros w _ v []|]. assert (H1 := IH (fun w Hw => H w (or_intror Hw))). assert (H2 : locally t (fun t => 0 < u + t)).
  { pose proof (H u (or_introl eq_refl)) as P. exists (mkposreal _ P). intros w Hw. unfold ball in Hw; cbn in Hw; unfold AbsRing_ball, abs, minus, plus, opp in Hw; cbn in Hw. apply Rabs_def2 in Hw. lra. }
  apply (filter_imp (fun t => okt a t /\ 0 < u + t)); [|apply filter_and; assumption]. intros w (A & B) v [<-|Hv]; [exact B|apply A, Hv].
Qed.
(** The limits *)
Lemma derive_upper h a m x y : okt a x -> okt a y -> is_derive (fun z => RInt (integrand h a m) y z) x (integrand h a m x).
Proof.
  intros Hx Hy. apply (is_derive_RInt (V := R_NormedModule) (integrand h a m) (fun z => RInt (integrand h a m) y z) y x); [|apply integrand_cont, Hx]. apply (filter_imp (okt a)); [|apply okt_open, Hx]. intros z Hz. apply (RInt_correct (V := R_CompleteNormedModule)), integrand_ex; assumption.
Qed.
Lemma derive_lower h a m x y : okt a x -> okt a y -> is_derive (fun z => RInt (integrand h a m) z x) y (- integrand h a m y).
Proof.
  intros Hx Hy. apply (is_derive_RInt' (V := R_NormedModule) (integrand h a m) (fun z => RInt (integrand h a m) z x) y x); [|apply integrand_cont, Hy]. apply (filter_imp (okt a)); [|apply okt_open, Hy]. intros z Hz. apply (RInt_correct (V := R_CompleteNormedModule)), integrand_ex; assumption.
Qed.
(** The parameters *)
Section Param.
Variables (b : bool) (k : Z) (rest : R -> R) (a0 x y : R).
Hypothesis Px : 0 < a0 + x.
Hypothesis Py : 0 < a0 + y.
Hypothesis Rc : forall t, Rmin y x <= t <= Rmax y x -> continuous rest t.
Definition gg (q : Z) (w : R) : R := powerRZ w q / (if b then sqrt w else 1).
Definition ck : R := IZR k - (if b then 1 / 2 else 0).
Lemma gg_derive w : 0 < w -> is_derive (gg k) w (ck * gg (k - 1) w).
Proof.
  intros Pw. pose proof (powerRZ_derive 0 w k ltac:(lra)) as D1. pose proof (sqrt_shift_derive 0 w ltac:(lra)) as D2. rewrite !Rplus_0_l in D1, D2.
  assert (D1' : is_derive (fun w => powerRZ w k) w (IZR k * powerRZ w (k - 1))) by (apply (is_derive_ext (fun t => powerRZ (0 + t) k)); [intros; f_equal; ring|exact D1]). assert (D2' : is_derive sqrt w (/ (2 * sqrt w))) by (apply (is_derive_ext (fun t => sqrt (0 + t))); [intros; f_equal; ring|exact D2]).
  pose proof (sqrt_lt_R0 w Pw) as Ps. assert (Eq : sqrt w * sqrt w = w) by (apply sqrt_sqrt; lra). assert (Ek : powerRZ w k = powerRZ w (k - 1) * w) by (rewrite <- powerRZ_S by lra; f_equal; lia).
  unfold gg, ck. destruct b.
  - eapply der_eq; [apply (is_derive_div (fun w => powerRZ w k) sqrt w _ _ D1' D2'); lra|]. cbv beta. rewrite Ek. set (W := powerRZ w (k - 1)). set (s := sqrt w) in *. rewrite <- Eq. field. lra.
  - eapply der_eq; [apply (is_derive_ext (fun w => powerRZ w k)); [intros; req; field|exact D1']|]. field.
Qed.
Lemma gg_cont q w : 0 < w -> continuity_pt (gg q) w.
Proof.
  intros Pw. apply continuity_pt_filterlim. apply (ex_derive_continuous (gg q)). unfold gg. apply (ex_derive_div (fun w => powerRZ w q) (fun w => if b then sqrt w else 1)).
  - apply (ex_derive_ext (fun t => powerRZ (0 + t) q)); [intros; f_equal; ring|]. eexists. apply powerRZ_derive. lra.
  - destruct b; [apply (ex_derive_ext (fun t => sqrt (0 + t))); [intros; f_equal; ring|]; eexists; apply sqrt_shift_derive; lra|apply ex_derive_const].
  - destruct b; [apply Rgt_not_eq, sqrt_lt_R0, Pw|lra].
Qed.
Lemma inner_derive u t : 0 < u + t -> is_derive (fun u => gg k (u + t) * rest t) u (ck * gg (k - 1) (u + t) * rest t).
Proof.
  intros P. pose proof (gg_derive (u + t) P) as D. eapply der_eq; [apply (is_derive_mult (fun u => gg k (u + t)) (fun _ => rest t) u (ck * gg (k - 1) (u + t)) 0); [|auto_derive; [exact I|reflexivity]|intros; apply Rmult_comm]|].
  - eapply der_eq; [apply (is_derive_comp (gg k) (fun u => u + t) u _ 1 D); auto_derive; [exact I|ring]|]. unfold scal; cbn; unfold mult; cbn. ring.
  - unfold plus, mult; cbn. ring.
Qed.
Lemma param_derive : is_derive (fun u => RInt (fun t => gg k (u + t) * rest t) y x) a0 (ck * RInt (fun t => gg (k - 1) (a0 + t) * rest t) y x).
Proof.
  assert (Near : locally a0 (fun u => 0 < u + x /\ 0 < u + y)).
  { apply filter_and; [exists (mkposreal _ Px)|exists (mkposreal _ Py)]; intros w Hw; unfold ball in Hw; cbn in Hw; unfold AbsRing_ball, abs, minus, plus, opp in Hw; cbn in Hw; apply Rabs_def2 in Hw; lra. }
  assert (Bt : forall u t, 0 < u + x /\ 0 < u + y -> Rmin y x <= t <= Rmax y x -> 0 < u + t) by (intros u t (A & B) Ht; unfold Rmin, Rmax in Ht; destruct (Rle_dec y x); lra).
  assert (Ic : forall q u t, 0 < u + x /\ 0 < u + y -> Rmin y x <= t <= Rmax y x -> continuous (fun t => gg q (u + t) * rest t) t).
  { intros q u t Hu Ht. apply (continuous_mult (fun t => gg q (u + t)) rest); [|apply Rc, Ht]. apply (continuous_comp (fun t => u + t) (gg q)); [apply (ex_derive_continuous (fun t => u + t)); auto_derive; exact I|]. apply continuity_pt_filterlim, gg_cont. apply (Bt u t Hu Ht). }
  replace (ck * _) with (RInt (fun t => Derive (fun u => gg k (u + t) * rest t) a0) y x).
  - apply (is_derive_RInt_param (fun u t => gg k (u + t) * rest t) y x a0).
    + apply (filter_imp (fun u => 0 < u + x /\ 0 < u + y)); [|exact Near]. intros u Hu t Ht. eexists. apply inner_derive, (Bt u t Hu Ht).
    + intros t Ht. pose proof (Bt a0 t (conj Px Py) Ht) as Pt. apply continuity_2d_pt_ext_loc with (f := fun u v => ck * gg (k - 1) (u + v) * rest v).
      * assert (Pt2 : 0 < (a0 + t) / 2) by lra. exists (mkposreal _ Pt2). intros u v Hu Hv. cbn in Hu, Hv. apply Rabs_def2 in Hu. apply Rabs_def2 in Hv. symmetry. apply is_derive_unique, inner_derive. lra.
      * apply continuity_2d_pt_mult; [apply continuity_2d_pt_mult; [apply continuity_2d_pt_const|]|].
        -- apply (continuity_1d_2d_pt_comp (gg (k - 1)) (fun u v => u + v)); [apply gg_cont, Pt|]. apply continuity_2d_pt_plus; [apply continuity_2d_pt_id1|apply continuity_2d_pt_id2].
        -- apply (continuity_1d_2d_pt_comp rest (fun _ v => v)); [apply continuity_pt_filterlim, Rc, Ht|apply continuity_2d_pt_id2].
    + apply (filter_imp (fun u => 0 < u + x /\ 0 < u + y)); [|exact Near]. intros u Hu. apply (ex_RInt_continuous (V := R_CompleteNormedModule)). intros t Ht. apply Ic; assumption.
  - etransitivity; [|apply (RInt_scal (V := R_CompleteNormedModule) (fun t => gg (k - 1) (a0 + t) * rest t) y x ck)].
    + apply (RInt_ext (V := R_CompleteNormedModule)). intros t Ht. etransitivity; [apply (is_derive_unique _ _ _ (inner_derive a0 t (Bt a0 t (conj Px Py) ltac:(lra))))|]. unfold scal; cbn; unfold mult; cbn. ring.
    + apply (ex_RInt_continuous (V := R_CompleteNormedModule)). intros t Ht. apply Ic; [split; assumption|exact Ht].
Qed.
End Param.
Lemma derive_param h a m x y j : (j < length a)%nat -> length m = length a -> okt a x -> okt a y ->
  is_derive (fun u => RInt (integrand h (replace_nth j u a) m) y x) (nth j a 0) ((IZR (nth j m 0%Z) - (if Nat.ltb j h then 1 / 2 else 0)) * RInt (integrand h a (dec j m)) y x).
Proof.
  intros Hj El Hx Hy. set (b := Nat.ltb j h). set (ra := remove_nth j a). set (rb := firstn (if b then h - 1 else h) ra). set (rest := fun t => numer ra (remove_nth j m) t / root rb t).
  assert (Or : forall t, okt a t -> okt ra t /\ okt rb t). { intros t Ht. assert (A : okt ra t) by (intros u Hu; apply Ht, (remove_incl u a j Hu)). split; [exact A|apply okt_firstn, A]. }
  assert (E : forall m' u t, length m' = length a -> remove_nth j m' = remove_nth j m -> integrand h (replace_nth j u a) m' t = gg b (nth j m' 0%Z) (u + t) * rest t).
  { intros m' u t El' Er. unfold integrand. rewrite numer_replace, root_replace by assumption. fold b. rewrite Er. fold ra. fold rb. unfold gg, rest, Rdiv. rewrite Rinv_mult. ring. }
  assert (IN : In (nth j a 0) a) by (apply nth_In, Hj).
  eapply (is_derive_ext (fun u => RInt (fun t => gg b (nth j m 0%Z) (u + t) * rest t) y x)).
  - intros u. apply (RInt_ext (V := R_CompleteNormedModule)). intros t _. symmetry. apply E; [exact El|reflexivity].
  - replace (RInt (integrand h a (dec j m)) y x) with (RInt (fun t => gg b (nth j m 0 - 1)%Z (nth j a 0 + t) * rest t) y x).
    + apply (param_derive b (nth j m 0%Z) rest (nth j a 0) x y); [apply Hx, IN|apply Hy, IN|]. intros t Ht. destruct (Or t (okt_between a x y t Hx Hy Ht)) as (A & B). apply quot_cont; assumption.
    + apply (RInt_ext (V := R_CompleteNormedModule)). intros t _. rewrite <- (replace_same a j Hj) at 2. rewrite E; [rewrite dec_nth by lia; reflexivity|rewrite dec_length; exact El|apply dec_remove].
Qed.
