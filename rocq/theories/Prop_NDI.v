(** * C68: sampling from a table of probabilities *)
From Coq Require Import List Bool Arith Lia Reals Lra Sorted.
From Verif Require Import Interp InterpFacts InterpND Prop_Interp NDI.
Import ListNotations.
Open Scope R_scope.

(** ** Inverting piecewise linear functions *)
Lemma increasing_nth l : (forall i, (S i < length l)%nat -> nth i l 0 < nth (S i) l 0) -> increasing l.
Proof.
  induction l as [|a l IH]; intros H; [constructor|]. assert (S1 : increasing l) by (apply IH; intros i Hi; apply (H (S i)); cbn; lia). constructor; [exact S1|]. destruct l as [|b l]; [constructor|]. pose proof (H 0%nat ltac:(cbn; lia)) as H0. cbn in H0. constructor; [exact H0|]. inversion S1 as [|? ? _ F]; subst. eapply Forall_impl; [|exact F]. cbv beta. intros; lra.
Qed.
Lemma bracket (c : list R) u : (2 <= length c)%nat -> nth 0 c 0 <= u <= nth (length c - 1) c 0 -> exists k, (k + 1 < length c)%nat /\ nth k c 0 <= u <= nth (k + 1) c 0.
Proof.
  intros L [H1 H2]. assert (G : forall n, (n < length c)%nat -> u <= nth n c 0 -> (0 < n)%nat -> exists k, (k + 1 < length c)%nat /\ nth k c 0 <= u <= nth (k + 1) c 0).
  { induction n as [|n IH]; intros Hn Hu P; [lia|]. destruct (Rle_or_lt (nth n c 0) u) as [K|K]; [exists n; rewrite Nat.add_1_r; split; [lia|split; assumption]|]. destruct n as [|n]; [lra|]. apply IH; [lia|lra|lia]. }
  apply (G (length c - 1)%nat); [lia|exact H2|lia].
Qed.
Definition on_line (c g : list R) (u x : R) (k : nat) (t : R) : Prop :=
  (k + 1 < length g)%nat /\ 0 <= t <= 1 /\ x = (1 - t) * nth k g 0 + t * nth (k + 1) g 0 /\ u = (1 - t) * nth k c 0 + t * nth (k + 1) c 0.
Lemma invert_linear c g u : increasing c -> increasing g -> length c = length g -> (2 <= length c)%nat -> nth 0 c 0 <= u <= nth (length c - 1) c 0 ->
  exists x k t, linear1d c g u = Some x /\ on_line c g u x k t /\ nth 0 g 0 <= x <= nth (length g - 1) g 0.
Proof.
  intros Ic Ig L Lc Hu. destruct (bracket c u Lc Hu) as (k & Hk & B). pose proof (C38_cell c g k u Ic L Hk ltac:(right; lra) ltac:(right; lra)) as E. cbv zeta in E. set (t := (u - nth k c 0) / (nth (k + 1) c 0 - nth k c 0)) in *. pose proof (increasing_lt c k (k + 1) Ic ltac:(lia)) as Lc1. pose proof (increasing_lt g k (k + 1) Ig ltac:(lia)) as Lg1.
  assert (T : 0 <= t <= 1). { unfold t. split; [apply Rmult_le_pos; [lra|left; apply Rinv_0_lt_compat; lra]|]. apply Rmult_le_reg_r with (nth (k + 1) c 0 - nth k c 0); [lra|]. unfold Rdiv. rewrite Rmult_assoc, Rinv_l by lra. lra. }
  assert (Eu : u = (1 - t) * nth k c 0 + t * nth (k + 1) c 0) by (unfold t; field; lra). clearbody t.
  set (x := (1 - t) * nth k g 0 + t * nth (k + 1) g 0) in *. assert (X : nth k g 0 <= x <= nth (k + 1) g 0) by (unfold x; nra). exists x, k, t. split; [exact E|]. split.
  - split; [lia|]. split; [exact T|]. split; [reflexivity|exact Eu].
  - pose proof (sorted_le g 0 k (increasing_sorted g Ig) ltac:(lia)). pose proof (sorted_le g (k + 1) (length g - 1) (increasing_sorted g Ig) ltac:(lia)). lra.
Qed.
Lemma on_line_mono c g u x k t u' x' k' t' : increasing c -> increasing g -> length c = length g -> on_line c g u x k t -> on_line c g u' x' k' t' -> u < u' -> x < x'.
Proof.
  intros Ic Ig L (K & T & X & U) (K' & T' & X' & U') H. pose proof (increasing_lt g k (k + 1) Ig ltac:(lia)) as G1. pose proof (increasing_lt c k (k + 1) Ic ltac:(lia)) as C1. pose proof (increasing_lt g k' (k' + 1) Ig ltac:(lia)) as G2. pose proof (increasing_lt c k' (k' + 1) Ic ltac:(lia)) as C2.
  destruct (lt_eq_lt_dec k k') as [[D|<-]|D].
  - pose proof (sorted_le g (k + 1) k' (increasing_sorted g Ig) ltac:(lia)) as G3. pose proof (sorted_le c (k + 1) k' (increasing_sorted c Ic) ltac:(lia)) as C3.
    assert (A : x <= nth (k + 1) g 0) by (subst x; nra). assert (B : nth k' g 0 <= x') by (subst x'; nra). destruct (Rlt_or_le x x') as [|Q]; [assumption|]. exfalso.
    assert (E1 : x = nth (k + 1) g 0) by lra. assert (E2 : x' = nth k' g 0) by lra. assert (E3 : nth (k + 1) g 0 = nth k' g 0) by lra.
    assert (t = 1) by (subst x; nra). assert (t' = 0) by (subst x'; nra). destruct (Nat.eq_dec (k + 1) k') as [<-|N]; [subst t t'; lra|]. pose proof (increasing_lt g (k + 1) k' Ig ltac:(lia)). lra.
  - assert (t < t') by (subst u u'; nra). subst x x'. nra.
  - pose proof (sorted_le c (k' + 1) k (increasing_sorted c Ic) ltac:(lia)) as C3. assert (nth k c 0 <= u) by (subst u; nra). assert (u' <= nth (k' + 1) c 0) by (subst u'; nra). lra.
Qed.

(** ** Cumulative sums *)
Lemma sumR_firstn_S l k : (k < length l)%nat -> sumR (firstn (S k) l) = sumR (firstn k l) + nth k l 0.
Proof.
  revert k. induction l as [|a l IH]; intros k Hk; [cbn in Hk; lia|]. destruct k as [|k]; [cbn; unfold sumR; cbn; ring|]. change (sumR (firstn (S (S k)) (a :: l))) with (a + sumR (firstn (S k) l)). change (sumR (firstn (S k) (a :: l))) with (a + sumR (firstn k l)). change (nth (S k) (a :: l) 0) with (nth k l 0). rewrite IH by (cbn in Hk; lia). ring.
Qed.
Lemma cumsum_length l : length (cumsum l) = length l. Proof. unfold cumsum. rewrite map_length, seq_length. reflexivity. Qed.
Lemma cumsum_nth l k : (k < length l)%nat -> nth k (cumsum l) 0 = sumR (firstn (S k) l).
Proof. intros Hk. unfold cumsum. rewrite (nth_indep _ 0 (sumR (firstn (S 0) l))) by (rewrite map_length, seq_length; exact Hk). rewrite (map_nth (fun k => sumR (firstn (S k) l))). rewrite seq_nth by exact Hk. reflexivity. Qed.
Lemma last_nth {A} (l : list A) d : last l d = nth (length l - 1) l d.
Proof. induction l as [|a l IH]; [reflexivity|]. destruct l as [|b l]; [reflexivity|]. change (last (a :: b :: l) d) with (last (b :: l) d). rewrite IH. cbn. rewrite Nat.sub_0_r. reflexivity. Qed.
Section Row.
Variables (pre : list nat) (n : nat) (F : list nat -> R) (rest : list nat).
Hypothesis Hn : (2 <= n)%nat.
Hypothesis Hm : forall k, (k + 1 < n)%nat -> 0 < mass pre F rest k.
Let m := map (mass pre F rest) (seq 0 (n - 1)).
Definition partial_mass (a : nat) : R := sumR (map (mass pre F rest) (seq 0 a)).
Lemma firstn_seq a b s : (a <= b)%nat -> firstn a (seq s b) = seq s a.
Proof. revert b s. induction a as [|a IH]; intros b s H; [reflexivity|]. destruct b as [|b]; [lia|]. cbn. rewrite IH by lia. reflexivity. Qed.
Lemma partial_S a : partial_mass (S a) = partial_mass a + mass pre F rest a.
Proof. unfold partial_mass. rewrite seq_S, map_app, sumR_app. change (sumR (map (mass pre F rest) [(0 + a)%nat])) with (mass pre F rest a + 0). ring. Qed.
Lemma partial_pos a : (0 < a)%nat -> (a < n)%nat -> 0 < partial_mass a.
Proof. induction a as [|a IH]; intros H1 H2; [lia|]. rewrite partial_S. pose proof (Hm a ltac:(lia)). destruct a as [|a]; [unfold partial_mass; cbn; unfold sumR; cbn; lra|]. pose proof (IH ltac:(lia) ltac:(lia)). lra. Qed.
Lemma row_length : length (marginal_cprobs pre n F rest) = n.
Proof. unfold marginal_cprobs. cbn [length]. rewrite map_length, cumsum_length, map_length, seq_length. lia. Qed.
Lemma row_last : last (cumsum m) 0 = partial_mass (n - 1).
Proof. rewrite last_nth, cumsum_length. unfold m at 1. rewrite map_length, seq_length. rewrite cumsum_nth by (unfold m; rewrite map_length, seq_length; lia). unfold m. rewrite firstn_map, firstn_seq by lia. replace (S (n - 1 - 1)) with (n - 1)%nat by lia. reflexivity. Qed.
Lemma row_nth a : (a < n)%nat -> nth a (marginal_cprobs pre n F rest) 0 = partial_mass a / partial_mass (n - 1).
Proof.
  intros Ha. unfold marginal_cprobs. fold m. destruct a as [|a]; [cbn; unfold partial_mass at 1; cbn; unfold sumR, Rdiv; cbn; ring|]. cbn [nth]. pose proof row_last as E. rewrite E. rewrite (nth_indep _ 0 (0 / partial_mass (n - 1))) by (rewrite map_length, cumsum_length; unfold m; rewrite map_length, seq_length; lia). rewrite (map_nth (fun v => v / partial_mass (n - 1))). f_equal.
  rewrite cumsum_nth by (unfold m; rewrite map_length, seq_length; lia). unfold m. rewrite firstn_map, firstn_seq by lia. reflexivity.
Qed.
Lemma row_step a : (a + 1 < n)%nat -> nth a (marginal_cprobs pre n F rest) 0 < nth (S a) (marginal_cprobs pre n F rest) 0.
Proof. intros Ha. rewrite !row_nth by lia. rewrite partial_S. pose proof (Hm a Ha). pose proof (partial_pos (n - 1) ltac:(lia) ltac:(lia)). apply Rmult_lt_compat_r; [apply Rinv_0_lt_compat; assumption|lra]. Qed.
Lemma row_first : nth 0 (marginal_cprobs pre n F rest) 0 = 0. Proof. reflexivity. Qed.
Lemma row_end : nth (n - 1) (marginal_cprobs pre n F rest) 0 = 1.
Proof. rewrite row_nth by lia. pose proof (partial_pos (n - 1) ltac:(lia) ltac:(lia)). field. lra. Qed.
End Row.

(** ** Weighted means *)
Lemma S_const ws : forall is_ v, S_ ws is_ (fun _ => v) = v.
Proof. induction ws as [|w ws IH]; intros is_ v; [reflexivity|]. destruct is_; [reflexivity|]. cbn [S_]. rewrite !IH. ring. Qed.
Lemma S_lt ws : forall is_ F G, length is_ = length ws -> Forall (fun w => 0 <= w <= 1) ws -> (forall d, length d = length ws -> Forall (fun k => k <= 1)%nat d -> F (plus_ is_ d) < G (plus_ is_ d)) -> S_ ws is_ F < S_ ws is_ G.
Proof.
  induction ws as [|w ws IH]; intros is_ F G L H B; destruct is_ as [|i is_]; try discriminate; [apply (B []); [reflexivity|constructor]|]. inversion H; subst. cbn [S_].
  assert (A : S_ ws is_ (fun js => F (i :: js)) < S_ ws is_ (fun js => G (i :: js))).
  { apply IH; auto. intros d Ld Fd. specialize (B (0%nat :: d) ltac:(simpl; lia) ltac:(constructor; [lia|assumption])). unfold plus_ in B. cbn [combine map fst snd] in B. rewrite Nat.add_0_r in B. exact B. }
  assert (A' : S_ ws is_ (fun js => F (S i :: js)) < S_ ws is_ (fun js => G (S i :: js))).
  { apply IH; auto. intros d Ld Fd. specialize (B (1%nat :: d) ltac:(simpl; lia) ltac:(constructor; [lia|assumption])). unfold plus_ in B. cbn [combine map fst snd] in B. rewrite Nat.add_1_r in B. exact B. }
  destruct (Req_dec w 0) as [->|N]; [lra|]. assert (0 < w) by lra. nra.
Qed.
Lemma S_ext ws : forall is_ F G, length is_ = length ws -> (forall d, length d = length ws -> Forall (fun k => k <= 1)%nat d -> F (plus_ is_ d) = G (plus_ is_ d)) -> S_ ws is_ F = S_ ws is_ G.
Proof.
  induction ws as [|w ws IH]; intros is_ F G L B; destruct is_ as [|i is_]; try discriminate; [apply (B []); [reflexivity|constructor]|]. cbn [S_]. f_equal; f_equal.
  - apply IH; auto. intros d Ld Fd. specialize (B (0%nat :: d) ltac:(simpl; lia) ltac:(constructor; [lia|assumption])). unfold plus_ in B. cbn [combine map fst snd] in B. rewrite Nat.add_0_r in B. exact B.
  - apply IH; auto. intros d Ld Fd. specialize (B (1%nat :: d) ltac:(simpl; lia) ltac:(constructor; [lia|assumption])). unfold plus_ in B. cbn [combine map fst snd] in B. rewrite Nat.add_1_r in B. exact B.
Qed.

(** ** The inverse *)
From Verif Require Import NDISpec.
Lemma row_cdf pre n F rest a : (2 <= n)%nat -> (a < n)%nat -> nth a (marginal_cprobs pre n F rest) 0 = knot_cdf pre n F rest a.
Proof. intros H1 H2. rewrite row_nth by assumption. reflexivity. Qed.
Lemma nth_map_seq (f : nat -> R) n a : (a < n)%nat -> nth a (map f (seq 0 n)) 0 = f a.
Proof. intros H. rewrite (nth_indep _ 0 (f 0%nat)) by (rewrite map_length, seq_length; exact H). rewrite (map_nth f), seq_nth by exact H. reflexivity. Qed.
Lemma cells_blend grids : forall x is_ ws F, cells grids x is_ ws -> blend grids F x (S_ ws is_ F).
Proof.
  induction grids as [|g gs IH]; intros x is_ ws F C; inversion C as [|? ? i w ? xs is' ws' _ Hi Hw Hx _ C' ]; subst; [constructor|]. cbn [S_]. replace (w * nth i g 0 + (1 - w) * nth (i + 1) g 0) with ((1 - (1 - w)) * nth i g 0 + (1 - w) * nth (i + 1) g 0) by ring.
  replace (w * S_ ws' is' (fun js => F (i :: js))) with ((1 - (1 - w)) * S_ ws' is' (fun js => F (i :: js))) by ring. apply blend_cons; [exact Hi|lra|apply IH, C'|]. rewrite Nat.add_1_r. apply IH, C'.
Qed.
Lemma blend_ext grids : forall x v f f', (forall r, f r = f' r) -> blend grids f x v -> blend grids f' x v.
Proof.
  induction grids as [|g gs IH]; intros x v f f' E B; inversion B as [|? ? ? k t xs v0 v1 Hk Ht B0 B1]; subst; [rewrite E; constructor|]. apply blend_cons; [exact Hk|exact Ht| |]; (eapply IH; [|eassumption]); intros r; apply E.
Qed.
Lemma table_ext shape F G : (forall rest, Forall2 lt rest shape -> F rest = G rest) -> table shape F = table shape G.
Proof.
  intros H. unfold table. apply map_ext_in. intros idx Hi. apply H. clear H F G. revert idx Hi. induction shape as [|n s IH]; intros idx Hi; cbn [multi_indices] in Hi; [destruct Hi as [<-|[]]; constructor|]. apply in_flat_map in Hi. destruct Hi as (i & Hi & H). apply in_map_iff in H. destruct H as (r & <- & H). apply in_seq in Hi. constructor; [lia|apply IH, H].
Qed.
(** the interpolated cumulative probabilities of one dimension *)
Lemma cinterp_ok F pre g later x : good_grid g -> Forall good_grid later -> Forall2 inside later x ->
  (forall rest, Forall2 lt rest (map (@length R) later) -> forall k, (k + 1 < length g)%nat -> 0 < cell_weight (map (@length R) pre) F rest k) ->
  exists c, cinterp (map (@length R) pre) (length g) F later x = Some c /\ increasing c /\ length c = length g /\ nth 0 c 0 = 0 /\ nth (length c - 1) c 0 = 1 /\
    forall a, (a < length g)%nat -> blend later (fun rest => knot_cdf (map (@length R) pre) (length g) F rest a) x (nth a c 0).
Proof.
  intros [Ig Lg] Gl Ix Pw. destruct (good_cells later x (conj Gl Ix)) as (is_ & ws & C). destruct (cells_lengths _ _ _ _ C) as (L1 & L2 & L3 & Fw & _ & Lt).
  set (pr := map (@length R) pre) in *. set (K := fun a rest => nth a (marginal_cprobs pr (length g) F rest) 0).
  assert (E : forall a, linear_nd later (map (@length R) later) (table (map (@length R) later) (K a)) x = Some (S_ ws is_ (K a))) by (intros a; apply (nd_S later x is_ ws (K a) C)).
  exists (map (fun a => S_ ws is_ (K a)) (seq 0 (length g))). assert (Lc : length (map (fun a => S_ ws is_ (K a)) (seq 0 (length g))) = length g) by (rewrite map_length, seq_length; reflexivity).
  split; [unfold cinterp; apply all_some_map; intros a _; apply E|]. split; [|split; [exact Lc|split; [|split]]].
  - apply increasing_nth. rewrite Lc. intros i Hi. rewrite !nth_map_seq by lia. apply S_lt; [lia|exact Fw|]. intros d Ld Fd. unfold K. apply row_step; [lia| |lia]. intros k Hk. apply (Pw (plus_ is_ d)); [apply Lt; [lia|exact Fd]|exact Hk].
  - rewrite nth_map_seq by lia. rewrite <- (S_const ws is_ 0). apply S_ext; [lia|]. intros d _ _. apply row_first.
  - rewrite Lc, nth_map_seq by lia. rewrite <- (S_const ws is_ 1). apply S_ext; [lia|]. intros d Ld Fd. apply row_end; [lia|]. intros k Hk. apply (Pw (plus_ is_ d)); [apply Lt; [lia|exact Fd]|exact Hk].
  - intros a Ha. rewrite nth_map_seq by exact Ha. apply (blend_ext _ _ _ (K a)); [intros rest; unfold K; apply row_cdf; lia|]. apply cells_blend, C.
Qed.
Lemma step_ok F pre g later x y : good_grid g -> Forall good_grid later -> Forall2 inside later x -> 0 <= y <= 1 ->
  (forall rest, Forall2 lt rest (map (@length R) later) -> forall k, (k + 1 < length g)%nat -> 0 < cell_weight (map (@length R) pre) F rest k) ->
  exists c xi, cinterp (map (@length R) pre) (length g) F later x = Some c /\ linear1d c g y = Some xi /\ inside g xi /\ blend (g :: later) (conditional_cdf pre g F) (xi :: x) y.
Proof.
  intros G Gl Ix Hy Pw. destruct (cinterp_ok F pre g later x G Gl Ix Pw) as (c & E & Ic & Lc & C0 & C1 & Hc). destruct G as [Ig Lg]. destruct (invert_linear c g y Ic Ig Lc ltac:(lia) ltac:(rewrite C0, C1; exact Hy)) as (xi & k & t & E1 & (Hk & Ht & -> & ->) & B).
  exists c, ((1 - t) * nth k g 0 + t * nth (k + 1) g 0). split; [exact E|]. split; [exact E1|]. split; [exact B|]. apply blend_cons; [exact Hk|exact Ht| |]; apply Hc; lia.
Qed.
Lemma app_snoc_cases {A} (l : list A) a pre g mid : l ++ [a] = pre ++ g :: mid -> (mid = [] /\ pre = l /\ g = a) \/ exists mid', mid = mid' ++ [a] /\ l = pre ++ g :: mid'.
Proof.
  intros H. destruct mid as [|b mid] using rev_ind; [left|right].
  - change (l ++ [a] = pre ++ [g]) in H. apply app_inj_tail in H. destruct H. auto.
  - clear IHmid. exists mid. rewrite app_comm_cons, app_assoc in H. apply app_inj_tail in H. destruct H as [H ->]. auto.
Qed.
Lemma app_eq_len {A} (a b c d : list A) : a ++ b = c ++ d -> length b = length d -> a = c /\ b = d.
Proof.
  intros H L. assert (La : length a = length c) by (apply (f_equal (@length A)) in H; rewrite !app_length in H; lia). revert c H La. induction a as [|x a IH]; intros [|y c] H La; try discriminate; [split; [reflexivity|exact H]|]. cbn in H. injection H as -> H. destruct (IH c H ltac:(cbn in La; lia)) as [-> ->]. auto.
Qed.
Lemma loop_ok F : forall todo later value x, Forall good_grid todo -> Forall good_grid later -> Forall2 inside later x -> length value = length todo -> Forall (fun u => 0 <= u <= 1) value ->
  positive_table (rev todo ++ later) F ->
  exists xs, icdf_loop F todo later value x = Some (xs ++ x) /\ Forall2 inside (rev todo) xs /\
    forall pre g mid xpre xi xmid, rev todo = pre ++ g :: mid -> xs = xpre ++ xi :: xmid -> length xmid = length mid -> blend (g :: (mid ++ later)) (conditional_cdf pre g F) (xi :: (xmid ++ x)) (nth (length mid) value 0).
Proof.
  induction todo as [|g todo IH]; intros later value x Gt Gl Ix Lv Hv Pw.
  - destruct value as [|y value]; [|discriminate]. exists []. split; [reflexivity|]. split; [constructor|]. intros pre g mid xpre xi xmid H. destruct pre; discriminate.
  - destruct value as [|y value]; [discriminate|]. inversion Gt as [|? ? Gg Gt']; subst. inversion Hv as [|? ? Hy Hv']; subst. cbn [rev] in Pw. rewrite <- app_assoc in Pw. cbn [app] in Pw.
    destruct (step_ok F (rev todo) g later x y Gg Gl Ix Hy (Pw (rev todo) g later eq_refl)) as (c & x1 & E1 & E2 & In1 & Inv1).
    destruct (IH (g :: later) value (x1 :: x) Gt' ltac:(constructor; assumption) ltac:(constructor; assumption) ltac:(cbn in Lv; lia) Hv' Pw) as (xs & E & Ins & Inv).
    exists (xs ++ [x1]). cbn [icdf_loop]. rewrite E1, E2, E. rewrite <- app_assoc. split; [reflexivity|]. cbn [rev]. split; [apply Forall2_app; [exact Ins|constructor; [exact In1|constructor]]|].
    intros pre g' mid xpre xi xmid H1 H2 L. destruct (app_snoc_cases _ _ _ _ _ H1) as [(-> & -> & ->)|(mid' & -> & H3)].
    + destruct xmid as [|? ?]; [|discriminate]. apply app_inj_tail in H2. destruct H2 as [_ <-]. exact Inv1.
    + rewrite app_length in L. cbn in L. destruct (app_snoc_cases _ _ _ _ _ H2) as [(-> & _)|(xmid' & -> & H4)]; [cbn in L; lia|]. rewrite app_length in L. cbn in L. rewrite app_length. cbn [length]. rewrite Nat.add_1_r. cbn [nth]. rewrite <- !app_assoc. cbn [app]. apply (Inv pre g' mid' xpre xi xmid' H3 H4). lia.
Qed.
Lemma nd_nil v : linear_nd [] [] [v] [] = Some v.
Proof. unfold linear_nd. cbn. rewrite Rabs_R1. f_equal. unfold sumR. cbn. field. Qed.
Lemma inside_nil : Forall2 inside [] []. Proof. constructor. Qed.
Theorem C68_icdf grids F us : (2 <= length grids)%nat -> Forall good_grid grids -> length us = length grids -> Forall (fun u => 0 <= u <= 1) us -> positive_table grids F ->
  exists xs, icdf grids F us = Some xs /\ Forall2 inside grids xs /\
    forall pre g post xpre x xpost, grids = pre ++ g :: post -> xs = xpre ++ x :: xpost -> length xpost = length post -> blend (g :: post) (conditional_cdf pre g F) (x :: xpost) (nth (length post) us 0).
Proof.
  intros N G L H Pw. unfold icdf. destruct (rev grids) as [|g todo] eqn:E; [exfalso; rewrite <- rev_length, E in N; cbn in N; lia|]. assert (Eg : grids = rev todo ++ [g]) by (rewrite <- (rev_involutive grids), E; reflexivity).
  destruct us as [|y us]; [exfalso; rewrite Eg, app_length in L; cbn in L; lia|]. assert (Gr : Forall good_grid (g :: todo)) by (rewrite <- E; apply Forall_rev, G). inversion Gr as [|? ? Gg Gt]; subst. inversion H as [|? ? Hy Hu]; subst. rewrite app_length, rev_length in L. cbn in L.
  destruct (step_ok F (rev todo) g [] [] y Gg (Forall_nil _) inside_nil Hy (Pw (rev todo) g [] eq_refl)) as (c & x0 & E1 & E2 & In0 & Inv0).
  assert (Ec : c = marginal_cprobs (map (@length R) (rev todo)) (length g) F []).
  { unfold cinterp in E1. cbn [map] in E1. rewrite (all_some_map _ (fun a => nth a (marginal_cprobs (map (@length R) (rev todo)) (length g) F []) 0)) in E1 by (intros a _; apply nd_nil). apply Some_inj in E1. rewrite <- E1. destruct Gg as [_ Lg]. pose proof (row_length (map (@length R) (rev todo)) (length g) F [] Lg) as Lr. set (M := marginal_cprobs (map (@length R) (rev todo)) (length g) F []) in *. rewrite <- Lr. clear. clearbody M. apply (nth_ext _ _ 0 0); [rewrite map_length, seq_length; reflexivity|]. intros a Ha. rewrite map_length, seq_length in Ha. apply nth_map_seq, Ha. }
  destruct todo as [|g2 todo]; [exfalso; cbn in N; lia|]. destruct us as [|u2 us]; [exfalso; cbn in L; lia|]. rewrite <- Ec, E2. destruct (loop_ok F (g2 :: todo) [g] (u2 :: us) [x0] Gt ltac:(constructor; [exact Gg|constructor]) ltac:(constructor; [exact In0|constructor]) ltac:(lia) Hu Pw) as (xs & El & Ins & Inv).
  exists (xs ++ [x0]). split; [exact El|]. split; [apply Forall2_app; [exact Ins|constructor; [exact In0|constructor]]|].
  intros pre g' post xpre x xpost H1 H2 Lp. destruct (app_snoc_cases _ _ _ _ _ H1) as [(-> & -> & ->)|(mid' & -> & H3)].
  - destruct xpost as [|? ?]; [|discriminate]. apply app_inj_tail in H2. destruct H2 as [_ <-]. exact Inv0.
  - rewrite app_length in Lp. cbn in Lp. destruct (app_snoc_cases _ _ _ _ _ H2) as [(-> & _)|(xmid' & -> & H4)]; [cbn in Lp; lia|]. rewrite app_length in Lp. cbn in Lp. rewrite app_length. cbn [length]. rewrite Nat.add_1_r. cbn [nth]. apply (Inv pre g' mid' xpre x xmid' H3 H4). lia.
Qed.
Print Assumptions C68_icdf.
(** Each coordinate increases strictly with its own value, the earlier values being the same. *)
Lemma step_mono F pre g later x y y' : good_grid g -> Forall good_grid later -> Forall2 inside later x -> 0 <= y -> y < y' -> y' <= 1 ->
  (forall rest, Forall2 lt rest (map (@length R) later) -> forall k, (k + 1 < length g)%nat -> 0 < cell_weight (map (@length R) pre) F rest k) ->
  exists c xi xi', cinterp (map (@length R) pre) (length g) F later x = Some c /\ linear1d c g y = Some xi /\ linear1d c g y' = Some xi' /\ xi < xi' /\ inside g xi /\ inside g xi'.
Proof.
  intros G Gl Ix Hy Hyy Hy' Pw. destruct (cinterp_ok F pre g later x G Gl Ix Pw) as (c & E & Ic & Lc & C0 & C1 & _). destruct G as [Ig Lg].
  destruct (invert_linear c g y Ic Ig Lc ltac:(lia) ltac:(rewrite C0, C1; lra)) as (xi & k & t & E1 & O1 & B1). destruct (invert_linear c g y' Ic Ig Lc ltac:(lia) ltac:(rewrite C0, C1; lra)) as (xi' & k' & t' & E2 & O2 & B2).
  exists c, xi, xi'. split; [exact E|]. split; [exact E1|]. split; [exact E2|]. split; [exact (on_line_mono c g y xi k t y' xi' k' t' Ic Ig Lc O1 O2 Hyy)|]. split; assumption.
Qed.
Lemma loop_mono F : forall todo later p u q u' q' x, Forall good_grid todo -> Forall good_grid later -> Forall2 inside later x -> length (p ++ u :: q) = length todo -> length q' = length q ->
  Forall (fun v => 0 <= v <= 1) (p ++ u :: q) -> Forall (fun v => 0 <= v <= 1) (u' :: q') -> u < u' -> positive_table (rev todo ++ later) F ->
  exists xs xs' z z' m, icdf_loop F todo later (p ++ u :: q) x = Some (xs ++ z :: m ++ x) /\ icdf_loop F todo later (p ++ u' :: q') x = Some (xs' ++ z' :: m ++ x) /\ length m = length p /\ z < z'.
Proof.
  induction todo as [|g todo IH]; intros later p u q u' q' x Gt Gl Ix L Lq H H' Hu Pw; [destruct p; discriminate|]. inversion Gt as [|? ? Gg Gt']; subst. cbn [rev] in Pw. rewrite <- app_assoc in Pw. cbn [app] in Pw. inversion H' as [|? ? Hu' Hq']; subst.
  destruct p as [|y p]; cbn [app] in *; inversion H as [|? ? Hy Hp]; subst.
  - destruct (step_mono F (rev todo) g later x u u' Gg Gl Ix ltac:(lra) Hu ltac:(lra) (Pw (rev todo) g later eq_refl)) as (c & z & z' & E & E1 & E2 & Z & I1 & I2).
    destruct (loop_ok F todo (g :: later) q (z :: x) Gt' ltac:(constructor; assumption) ltac:(constructor; assumption) ltac:(cbn in L; lia) Hp Pw) as (xs & R1 & _). destruct (loop_ok F todo (g :: later) q' (z' :: x) Gt' ltac:(constructor; assumption) ltac:(constructor; assumption) ltac:(cbn in L; lia) Hq' Pw) as (xs' & R2 & _).
    exists xs, xs', z, z', []. cbn [icdf_loop]. rewrite E, E1, E2, R1, R2. auto.
  - destruct (step_ok F (rev todo) g later x y Gg Gl Ix Hy (Pw (rev todo) g later eq_refl)) as (c & x1 & E1 & E2 & In1 & _).
    destruct (IH (g :: later) p u q u' q' (x1 :: x) Gt' ltac:(constructor; assumption) ltac:(constructor; assumption) ltac:(cbn in L; lia) Lq Hp H' Hu Pw) as (xs & xs' & z & z' & m & R1 & R2 & Lm & Z).
    exists xs, xs', z, z', (m ++ [x1]). cbn [icdf_loop]. rewrite E1, E2, R1, R2. rewrite <- app_assoc. cbn [app]. rewrite app_length. cbn. split; [reflexivity|]. split; [reflexivity|]. split; [lia|exact Z].
Qed.
Lemma icdf_as_loop grids F us : (2 <= length grids)%nat -> Forall good_grid grids -> length us = length grids -> icdf grids F us = icdf_loop F (rev grids) [] us [].
Proof.
  intros N G L. unfold icdf. assert (Gr : Forall good_grid (rev grids)) by (apply Forall_rev, G). rewrite <- (rev_length grids) in N, L. destruct (rev grids) as [|g todo]; [cbn in N; lia|]. destruct us as [|y us]; [discriminate|]. destruct todo as [|g2 todo]; [cbn in N; lia|]. destruct us as [|u2 us]; [discriminate|]. inversion Gr as [|? ? [_ Lg] _]; subst.
  cbn [icdf_loop]. set (T := g2 :: todo). unfold cinterp. cbn [map]. rewrite (all_some_map _ (fun a => nth a (marginal_cprobs (map (@length R) (rev T)) (length g) F []) 0)) by (intros a _; apply nd_nil).
  pose proof (row_length (map (@length R) (rev T)) (length g) F [] Lg) as Lr. set (M := marginal_cprobs (map (@length R) (rev T)) (length g) F []) in *.
  assert (Em : map (fun a => nth a M 0) (seq 0 (length g)) = M). { rewrite <- Lr. clear. clearbody M. apply (nth_ext _ _ 0 0); [rewrite map_length, seq_length; reflexivity|]. intros a Ha. rewrite map_length, seq_length in Ha. apply nth_map_seq, Ha. }
  rewrite Em. reflexivity.
Qed.
Theorem C68_monotone grids F p u q u' q' : (2 <= length grids)%nat -> Forall good_grid grids -> length (p ++ u :: q) = length grids -> length q' = length q ->
  Forall (fun v => 0 <= v <= 1) (p ++ u :: q) -> Forall (fun v => 0 <= v <= 1) (u' :: q') -> positive_table grids F -> u < u' ->
  exists xs xs' z z' m, icdf grids F (p ++ u :: q) = Some (xs ++ z :: m) /\ icdf grids F (p ++ u' :: q') = Some (xs' ++ z' :: m) /\ length m = length p /\ z < z'.
Proof.
  intros N G L Lq H H' Pw Hu. rewrite !icdf_as_loop; auto; [|rewrite !app_length in *; cbn in *; lia].
  destruct (loop_mono F (rev grids) [] p u q u' q' [] ltac:(apply Forall_rev, G) (Forall_nil _) inside_nil ltac:(rewrite rev_length; exact L) Lq H H' Hu ltac:(rewrite rev_involutive, app_nil_r; exact Pw)) as (xs & xs' & z & z' & m & R1 & R2 & Lm & Z).
  exists xs, xs', z, z', m. rewrite app_nil_r in R1, R2. auto.
Qed.
Print Assumptions C68_monotone.

(** ** What does not hold *)
(** one dimension, or one value: an exception *)
Theorem C68_one_dimension_refuted g F us u grids : icdf [g] F us = None /\ icdf grids F [u] = None.
Proof. split; [destruct us; reflexivity|]. unfold icdf. destruct (rev grids) as [|h [|h2 t]]; reflexivity. Qed.
Print Assumptions C68_one_dimension_refuted.
Lemma multi_indices_sizes shape : Forall (fun n => 0 < n)%nat shape -> multi_indices shape <> [].
Proof. induction 1 as [|n s Hn _ IH]; cbn; [discriminate|]. destruct n; [lia|]. cbn. intros E. apply app_eq_nil in E. destruct E as [E _]. apply map_eq_nil in E. contradiction. Qed.
Lemma total_pos {A} (f : A -> R) l : (forall a, In a l -> 0 < f a) -> l <> [] -> 0 < total f l.
Proof. unfold total. induction l as [|a l IH]; intros H N; [contradiction|]. cbn. pose proof (H a (or_introl eq_refl)). destruct l as [|b l]; [cbn; lra|]. pose proof (IH (fun c Hc => H c (or_intror Hc)) ltac:(discriminate)). lra. Qed.
(** positive probabilities make every cell weight positive *)
Lemma positive_entries grids F : Forall good_grid grids -> (forall idx, 0 < F idx) -> positive_table grids F.
Proof.
  intros G H pre g post -> rest _ k _. unfold cell_weight. apply total_pos; [intros p _; pose proof (H (p ++ k :: rest)); pose proof (H (p ++ S k :: rest)); lra|]. apply multi_indices_sizes. apply Forall_map. apply Forall_app in G. destruct G as [G _]. eapply Forall_impl; [|exact G]. intros a [_ La]. lia.
Qed.
(** The spacing of the knots is ignored: with constant probabilities, the median of the last coordinate is the middle knot wherever that is. *)
Theorem C68_spacing_refuted g h0 h1 h2 pr v : good_grid g -> h0 < h1 < h2 -> 0 < pr -> 0 <= v <= 1 -> exists x, icdf [g; [h0; h1; h2]] (fun _ => pr) [1 / 2; v] = Some [x; h1].
Proof.
  intros Gg Hh Hp Hv. assert (Gh : good_grid [h0; h1; h2]) by (split; [repeat constructor; lra|cbn; lia]). assert (G2 : Forall good_grid [g; [h0; h1; h2]]) by (constructor; [exact Gg|constructor; [exact Gh|constructor]]).
  destruct (C68_icdf [g; [h0; h1; h2]] (fun _ => pr) [1 / 2; v] ltac:(cbn; lia) G2 eq_refl ltac:(constructor; [lra|constructor; [lra|constructor]]) (positive_entries _ _ G2 (fun _ => Hp))) as (xs & E & I & B).
  inversion I as [|? x1 ? xs' _ I']; subst. inversion I' as [|? x2 ? xs'' _ I'']; subst. inversion I''; subst. exists x1. rewrite E. do 2 f_equal. specialize (B [g] [h0; h1; h2] [] [x1] x2 [] eq_refl eq_refl eq_refl). cbn [length nth] in B.
  set (w := cell_weight [length g] (fun _ => pr) []). assert (W : forall k, w k = w 0%nat) by reflexivity. assert (Wp : 0 < w 0%nat) by (apply (positive_entries [g; [h0; h1; h2]] (fun _ => pr) G2 (fun _ => Hp) [g] [h0; h1; h2] [] eq_refl [] (Forall2_nil _) 0%nat); cbn; lia).
  assert (K : forall a, conditional_cdf [g] [h0; h1; h2] (fun _ => pr) [a] = total w (seq 0 a) / (w 0%nat + w 1%nat)) by (intros a; unfold conditional_cdf, knot_cdf; fold w; cbn [length map]; f_equal; unfold total; cbn; fold w; ring).
  inversion B as [|? ? ? k t ? v0 v1 Hk Ht B0 B1]; subst. inversion B0; subst. inversion B1; subst. clear B0 B1. cbn [length] in Hk. rewrite !K in *. rewrite (W 1%nat) in *.
  assert (Hk' : k = 0%nat \/ k = 1%nat) by lia. destruct Hk' as [-> | ->]; cbn [Nat.add seq] in *; unfold total in *; cbn [map fold_right nth] in *; rewrite ?(W 1%nat) in *.
  - assert (t = 1). { match goal with H : ?a = 1 / 2 |- _ => rename H into Q; assert (T2 : a = t / 2) by (field; lra) end. lra. } subst t. f_equal. ring.
  - assert (t = 0). { match goal with H : ?a = 1 / 2 |- _ => rename H into Q; assert (T2 : a = (1 + t) / 2) by (field; lra) end. lra. } subst t. f_equal. ring.
Qed.
Print Assumptions C68_spacing_refuted.
(** Equal spacing makes the distribution at the knots that of the volume under the interpolant, when there are two knots before ... *)
Lemma total_scale {A} (f : A -> R) c l : total (fun a => c * f a) l = c * total f l.
Proof. unfold total. induction l as [|a l IH]; cbn; [ring|]. rewrite IH. ring. Qed.
Lemma total_ext {A} (f f' : A -> R) l : (forall a, In a l -> f a = f' a) -> total f l = total f' l.
Proof. unfold total. induction l as [|a l IH]; intros H; [reflexivity|]. cbn. rewrite H by (left; reflexivity). rewrite IH; [reflexivity|]. intros; apply H; right; assumption. Qed.
(** ... of the other grid; the spacing of that grid does not matter *)
Theorem C68_even_grid g0 g1 h F a d : g0 < g1 -> 0 < d -> (forall k, (S k < length h)%nat -> nth (S k) h 0 - nth k h 0 = d) -> (2 <= length h)%nat -> (a < length h)%nat -> (forall idx, 0 < F idx) ->
  conditional_cdf [[g0; g1]] h F [a] = volume_below [g0; g1] h F a / volume_below [g0; g1] h F (length h - 1).
Proof.
  intros Hg Hd He Lh Ha Hp. unfold conditional_cdf, knot_cdf. cbn [map length]. set (w := cell_weight [2%nat] F []).
  assert (V : forall b, (b < length h)%nat -> volume_below [g0; g1] h F b = (d * (g1 - g0) / 2) * total w (seq 0 b)).
  { intros b Hb. unfold volume_below, trapezoid. rewrite <- total_scale. apply total_ext. intros k Hk. apply in_seq in Hk. rewrite He by lia. unfold w, cell_weight, total. cbn. field. }
  rewrite !V by lia. assert (W : 0 < total w (seq 0 (length h - 1))).
  { apply total_pos; [intros k _; unfold w, cell_weight; apply total_pos; [intros p _; pose proof (Hp (p ++ k :: [])); pose proof (Hp (p ++ S k :: [])); lra|discriminate]|]. destruct (length h) as [|[|n]]; [lia|lia|discriminate]. }
  field. lra.
Qed.
Print Assumptions C68_even_grid.
(** With three knots in the other grid it is not, even with equal spacing: its end knots get the weight of the inner ones. *)
Definition spike (idx : list nat) : R := match idx with [0%nat; 0%nat] => 3 | _ => 1 end.
Theorem C68_marginal_refuted : exists F, (forall idx, 0 < F idx) /\ let g := [0; 1; 2] in
  (forall v, 0 <= v <= 1 -> exists x, icdf [g; g] F [4 / 7; v] = Some [x; 1]) /\ volume_below g g F 1 / volume_below g g F 2 = 5 / 9.
Proof.
  exists spike. assert (Sp : forall idx, 0 < spike idx) by (intros [|[|?] [|[|?] [|? ?]]]; cbn; lra). split; [exact Sp|]. intros g. split.
  - intros v Hv. assert (Gg : good_grid g) by (unfold g; split; [repeat constructor; lra|cbn; lia]). assert (G2 : Forall good_grid [g; g]) by (constructor; [exact Gg|constructor; [exact Gg|constructor]]).
    destruct (C68_icdf [g; g] spike [4 / 7; v] ltac:(cbn; lia) G2 eq_refl ltac:(constructor; [lra|constructor; [lra|constructor]]) (positive_entries _ _ G2 Sp)) as (xs & E & I & B).
    inversion I as [|? x1 ? xs' _ I']; subst. inversion I' as [|? x2 ? xs'' _ I'']; subst. inversion I''; subst. exists x1. rewrite E. do 2 f_equal. specialize (B [g] g [] [x1] x2 [] eq_refl eq_refl eq_refl). cbn [length nth] in B.
    inversion B as [|? ? ? k t ? v0 v1 Hk Ht B0 B1]; subst. inversion B0; subst. inversion B1; subst. clear B0 B1 B. unfold g in Hk. cbn [length] in Hk. assert (Hk' : k = 0%nat \/ k = 1%nat) by lia.
    match goal with H : ?a = 4 / 7 |- _ => rename H into Q end. destruct Hk' as [-> | ->]; cbn in Q; unfold knot_cdf, cell_weight, total in Q; cbn in Q; cbn; f_equal; lra.
  - unfold volume_below, trapezoid, total, g. cbn. field.
Qed.
Print Assumptions C68_marginal_refuted.
Example C68_nonvacuous : (2 <= length [[0; 1; 3]; [0; 1]])%nat /\ Forall good_grid [[0; 1; 3]; [0; 1]] /\ length [1 / 2; 1 / 3] = length [[0; 1; 3]; [0; 1]] /\ Forall (fun u => 0 <= u <= 1) [1 / 2; 1 / 3] /\ positive_table [[0; 1; 3]; [0; 1]] spike.
Proof.
  assert (G : Forall good_grid [[0; 1; 3]; [0; 1]]) by (constructor; [|constructor; [|constructor]]; (split; [repeat constructor; lra|cbn; lia])). split; [cbn; lia|]. split; [exact G|]. split; [reflexivity|]. split; [constructor; [lra|constructor; [lra|constructor]]|]. apply positive_entries; [exact G|]. intros [|[|?] [|[|?] [|? ?]]]; cbn; lra.
Qed.
