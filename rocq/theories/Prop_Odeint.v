(** * C67: the numerical driver of the cosmologies *)
From Coq Require Import List Bool Arith Lia Reals Lra.
From Coquelicot Require Import Hierarchy Continuity Derive RInt RInt_analysis AutoDerive ElemFct Rcomplements.
From Verif Require Import Interp InterpND Cosmo CosmoDist Odeint OdeintSpec.
Import ListNotations.
Open Scope R_scope.

(** ** Row-major order *)
Lemma mi_valid s : forall idx, In idx (multi_indices s) <-> valid s idx.
Proof.
  induction s as [|n s IH]; intros idx; cbn [multi_indices].
  - split; [intros [<-|[]]; constructor|intros H; inversion H; left; reflexivity].
  - rewrite in_flat_map. split.
    + intros (i & Hi & H). apply in_map_iff in H. destruct H as (r & <- & H). apply in_seq in Hi. constructor; [lia|apply IH, H].
    + intros H. inversion H as [|x y l l' Hx Hl]; subst. exists x. split; [apply in_seq; lia|]. apply in_map, IH. assumption.
Qed.
Lemma rm_lt s : forall idx, valid s idx -> (row_major s idx < prodn s)%nat.
Proof. induction s as [|n s IH]; intros idx H; inversion H as [|x y l l' Hx Hl]; subst; cbn; [lia|]. pose proof (IH l Hl). nia. Qed.
Lemma rm_nth s : forall idx, valid s idx -> nth_error (multi_indices s) (row_major s idx) = Some idx.
Proof.
  induction s as [|n s IH]; intros idx H; inversion H as [|x y l l' Hx Hl]; subst; [reflexivity|]. cbn [multi_indices row_major]. specialize (IH l Hl). pose proof (rm_lt s l Hl) as Lt. pose proof (mi_length s) as ML. set (k := row_major s l) in *. set (M := multi_indices s) in *. clearbody k M.
  assert (G : forall m a i, (i < m)%nat -> nth_error (flat_map (fun i => map (cons i) M) (seq a m)) (i * prodn s + k) = Some ((a + i)%nat :: l)).
  { induction m as [|m IHm]; intros a i Hi; [lia|]. cbn [seq flat_map]. destruct i as [|i].
    - rewrite nth_error_app1 by (rewrite map_length; lia). cbn. erewrite map_nth_error by exact IH. rewrite Nat.add_0_r. reflexivity.
    - rewrite nth_error_app2 by (rewrite map_length; nia). rewrite map_length, ML. replace (S i * prodn s + k - prodn s)%nat with (i * prodn s + k)%nat by nia. rewrite IHm by lia. do 2 f_equal. lia. }
  apply (G n 0%nat x Hx).
Qed.
Lemma valid_app a b i j : valid a i -> valid b j -> valid (a ++ b) (i ++ j).
Proof. intros H1 H2. apply Forall2_app; assumption. Qed.
Lemma rm_app a : forall b i j, valid a i -> valid b j -> row_major (a ++ b) (i ++ j) = (row_major a i * prodn b + row_major b j)%nat.
Proof. induction a as [|n a IH]; intros b i j H1 H2; inversion H1; subst; [reflexivity|]. cbn. rewrite IH by assumption. rewrite prodn_app. lia. Qed.
Lemma flatten_nth t i : valid (tshape t) i -> nth_error (flatten t) (row_major (tshape t) i) = Some (tat t i).
Proof. intros H. unfold flatten. apply map_nth_error. apply rm_nth, H. Qed.
Lemma flatten_length t : length (flatten t) = prodn (tshape t).
Proof. unfold flatten. rewrite map_length. apply mi_length. Qed.
Lemma concat_nth {A} (ls : list (list A)) n k r x : (forall l, In l ls -> length l = n) -> (r < n)%nat -> nth_error ls k = Some x -> nth_error (concat ls) (k * n + r) = nth_error x r.
Proof.
  intros H Hr. revert ls H. induction k as [|k IH]; intros [|l ls] H E; try discriminate; cbn [concat].
  - injection E as ->. rewrite nth_error_app1; [reflexivity|]. rewrite (H x) by (left; reflexivity). exact Hr.
  - pose proof (H l (or_introl eq_refl)). rewrite nth_error_app2 by nia. replace (S k * n + r - length l)%nat with (k * n + r)%nat by nia. apply IH; [intros; apply H; right; assumption|exact E].
Qed.
Lemma concat_length_const {A} (ls : list (list A)) n : (forall l, In l ls -> length l = n) -> length (concat ls) = (length ls * n)%nat.
Proof. induction ls as [|l ls IH]; intros H; [reflexivity|]. cbn. rewrite app_length, IH by (intros; apply H; right; assumption). rewrite (H l) by (left; reflexivity). reflexivity. Qed.

(** ** The integrands are continuous *)
Definition expansion (c : cls) (s : state) (E2 : R -> R) : Prop := forall z, -1 < z -> e2func c s z = Some (E2 z).
Lemma E2_cont c s E2 z : expansion c s E2 -> -1 < z -> continuous E2 z.
Proof.
  intros H Hz. assert (L : locally z (fun t => -1 < t)). { exists (mkposreal (1 + z) ltac:(lra)). intros t Ht. change (Rabs (t - z) < 1 + z) in Ht. apply Rabs_def2 in Ht. lra. }
  apply (continuous_ext_loc _ (fun z => match e2func c s z with Some e => e | None => 0 end)); [eapply filter_imp; [|exact L]; intros t Ht; cbv beta; rewrite (H t Ht); reflexivity|].
  pose proof (H z Hz) as E. revert E. unfold e2func, e2_zp1. destruct (s Om0) as [m|]; [|discriminate]. destruct (get_Ok0 c s) as [k|]; [|discriminate]. destruct (get_Ode0 c s) as [dd|]; [|discriminate]. cbn [bind]. unfold de_scale.
  destruct (de_of c); [|destruct (s w0) as [w|]; [|discriminate]..]; cbn [bind]; try (destruct (s wa) as [a|]; [|discriminate]; cbn [bind]); try (destruct (s zp) as [zz|]; [|discriminate]; cbn [bind]); try (destruct (s wz) as [b|]; [|discriminate]; cbn [bind]); (destruct (rad c); [destruct (s Or0) as [r|]; [|discriminate]; cbn [bind]|]); intros _; match goal with |- continuous ?f _ => apply (ex_derive_continuous f) end; unfold Rpower; auto_derive; repeat split; lra.
Qed.
Section Integrands.
Variables (c : cls) (s : state) (E2 : R -> R).
Hypothesis HE : expansion c s E2.
Lemma inv_value z : -1 < z -> inv_efunc c s z = Some (/ sqrt (E2 z)). Proof. intros H. unfold inv_efunc. rewrite (HE z H). reflexivity. Qed.
Lemma inv_cont z : -1 < z -> 0 < E2 z -> continuous (fun z => / sqrt (E2 z)) z.
Proof. intros H P. apply (continuous_comp (fun z => sqrt (E2 z)) Rinv); [apply (continuous_comp E2 sqrt); [eapply E2_cont; eassumption|apply (ex_derive_continuous sqrt); auto_derive; exact P]|]. apply (ex_derive_continuous Rinv). auto_derive. apply Rgt_not_eq, sqrt_lt_R0, P. Qed.
Lemma lookback_value z : -1 < z -> lookback_time_integrand c s z = Some (/ sqrt (E2 z) / (z + 1)). Proof. intros H. unfold lookback_time_integrand. rewrite (inv_value z H). reflexivity. Qed.
Lemma lookback_cont z : -1 < z -> 0 < E2 z -> continuous (fun z => / sqrt (E2 z) / (z + 1)) z.
Proof. intros H P. assert (C : continuous (fun z => / (z + 1)) z) by (apply (ex_derive_continuous (fun z => / (z + 1))); auto_derive; lra). exact (continuous_mult (K := R_AbsRing) _ _ z (inv_cont z H P) C). Qed.
Lemma abs_value z : -1 < z -> abs_distance_integrand c s z = Some ((z + 1) ^ 2 * / sqrt (E2 z)). Proof. intros H. unfold abs_distance_integrand. rewrite (inv_value z H). reflexivity. Qed.
Lemma abs_cont z : -1 < z -> 0 < E2 z -> continuous (fun z => (z + 1) ^ 2 * / sqrt (E2 z)) z.
Proof. intros H P. assert (C : continuous (fun z => (z + 1) ^ 2) z) by (apply (ex_derive_continuous (fun z => (z + 1) ^ 2)); auto_derive; exact I). exact (continuous_mult (K := R_AbsRing) _ _ z C (inv_cont z H P)). Qed.
End Integrands.

(** ** The driver *)
(** [t] is between the first redshift [x] and some element of [z2] *)
Definition reached (x : R) (z2 : value) (t : R) : Prop := t = x \/ exists i, valid (tshape (as_tensor z2)) i /\ Rmin x (tat (as_tensor z2) i) <= t <= Rmax x (tat (as_tensor z2) i).
(** the only element of a tensor *)
Definition single (z : value) (x : R) : Prop := numel (as_tensor z) = 1%nat /\ exists i, valid (tshape (as_tensor z)) i /\ tat (as_tensor z) i = x.
Lemma single_flatten z x : single z x -> flatten (as_tensor z) = [x].
Proof.
  intros (N & i & Hi & <-). pose proof (flatten_length (as_tensor z)) as L. fold (numel (as_tensor z)) in L. rewrite N in L. pose proof (flatten_nth _ i Hi) as E. pose proof (rm_lt _ i Hi) as Lt. fold (numel (as_tensor z)) in Lt. rewrite N in Lt. replace (row_major (tshape (as_tensor z)) i) with 0%nat in E by lia.
  destruct (flatten (as_tensor z)) as [|a [|b l]]; try discriminate. injection E as ->. reflexivity.
Qed.
Lemma number_single x : single (Num x) x. Proof. split; [reflexivity|]. exists []. split; [constructor|reflexivity]. Qed.
Section Solver.
Variable odeint : (R -> list nat -> option R) -> list nat -> list R -> option (list (list nat -> R)).
Hypothesis HO : exact_solver odeint.
Lemma integrate_ok c bs func g z1 z2 P x : param_shape c bs = Some P -> single z1 x -> monotone (x :: flatten (as_tensor z2)) ->
  (forall j t, valid P j -> reached x z2 t -> func c (state_at bs j) t = Some (g j t) /\ continuous (g j) t) ->
  exists r, integrate odeint c bs func z1 z2 = Some r /\ tshape r = tshape (as_tensor z2) ++ P /\
    forall i j, valid (tshape (as_tensor z2)) i -> valid P j -> is_RInt (g j) x (tat (as_tensor z2) i) (tat r (i ++ j)).
Proof.
  intros HP S1 M H. unfold integrate. rewrite HP, (single_flatten z1 x S1), (proj1 S1). cbn [Nat.eqb app]. set (Z := as_tensor z2) in *. set (ts := x :: flatten Z) in *.
  destruct (proj1 HO (fun z j => func c (state_at bs j) z) P ts g) as (ys & -> & Ly & HY); [discriminate|exact M| |].
  { intros j Hj t (k & Hk & Ht). apply H; [exact Hj|]. destruct k as [|k]; [left; unfold ts in Ht; cbn in Ht; rewrite Rmin_left, Rmax_left in Ht by lra; lra|]. right. unfold ts in Hk, Ht. cbn in Hk, Ht. rewrite flatten_length in Hk. pose proof (mi_length (tshape Z)) as ML. fold Z.
    destruct (nth_error (multi_indices (tshape Z)) k) as [i|] eqn:Ei; [|apply nth_error_None in Ei; lia]. exists i. split; [apply mi_valid; eapply nth_error_In; exact Ei|]. replace (nth k (flatten Z) 0) with (tat Z i) in Ht; [exact Ht|]. symmetry. apply nth_error_nth. unfold flatten. apply map_nth_error, Ei. }
  destruct ys as [|y0 ys]; [discriminate|]. cbn [tl]. unfold ts in Ly. cbn in Ly. injection Ly as Ly. rewrite flatten_length in Ly.
  assert (CL : forall l, In l (map (fun y => map y (multi_indices P)) ys) -> length l = prodn P) by (intros l Hl; apply in_map_iff in Hl; destruct Hl as (y & <- & _); rewrite map_length; apply mi_length).
  unfold reshape. rewrite (concat_length_const _ (prodn P) CL), map_length, Ly, prodn_app, Nat.eqb_refl. eexists. split; [reflexivity|]. split; [reflexivity|]. intros i j Hi Hj. cbn [tat]. rewrite rm_app by assumption. pose proof (rm_lt _ i Hi) as Ri. set (k := row_major (tshape Z) i) in *.
  destruct (nth_error ys k) as [y|] eqn:Ey; [|apply nth_error_None in Ey; lia]. pose proof (concat_nth _ _ k (row_major P j) _ CL (rm_lt P j Hj) (map_nth_error (fun y => map y (multi_indices P)) _ _ Ey)) as EC. rewrite (map_nth_error y _ _ (rm_nth P j Hj)) in EC. rewrite (nth_error_nth _ _ _ EC).
  specialize (HY (S k) j). cbn [nth] in HY. unfold ts in HY. cbn [nth length] in HY. rewrite flatten_length in HY. specialize (HY ltac:(lia) Hj). rewrite (nth_error_nth _ _ _ Ey) in HY. replace (nth k (flatten Z) 0) with (tat Z i) in HY; [exact HY|]. symmetry. apply nth_error_nth, flatten_nth, Hi.
Qed.

(** *** Distances and times are the integrals, for every redshift and every element of the parameters *)
Section Class.
Variables (c : cls) (bs : bstate) (P : list nat) (E2 : list nat -> R -> R).
Hypothesis HP : param_shape c bs = Some P.
Hypothesis HE : forall j, valid P j -> expansion c (state_at bs j) (E2 j).
(** sorted redshifts above -1 with E^2 > 0 on the way *)
Definition good_redshifts (x : R) (z2 : value) : Prop :=
  monotone (x :: flatten (as_tensor z2)) /\ forall t, reached x z2 t -> -1 < t /\ forall j, valid P j -> 0 < E2 j t.
Theorem C67_comoving z1 z2 x : single z1 x -> good_redshifts x z2 ->
  exists r, comoving_z1z2 odeint c bs z1 z2 = Some r /\ tshape r = tshape (as_tensor z2) ++ P /\
    forall i j, valid (tshape (as_tensor z2)) i -> valid P j -> is_RInt (fun z => / sqrt (E2 j z)) x (tat (as_tensor z2) i) (tat r (i ++ j)).
Proof. intros S [M G]. apply (integrate_ok c bs inv_efunc (fun j z => / sqrt (E2 j z)) z1 z2 P x HP S M). intros j t Hj Ht. destruct (G t Ht) as [A B]. split; [apply inv_value; auto|eapply inv_cont; eauto]. Qed.
Theorem C67_lookback z : good_redshifts 0 z ->
  exists r, lookback odeint c bs z = Some r /\ tshape r = tshape (as_tensor z) ++ P /\
    forall i j, valid (tshape (as_tensor z)) i -> valid P j -> is_RInt (fun z => / sqrt (E2 j z) / (z + 1)) 0 (tat (as_tensor z) i) (tat r (i ++ j)).
Proof. intros [M G]. apply (integrate_ok c bs lookback_time_integrand (fun j z => / sqrt (E2 j z) / (z + 1)) (Num 0) z P 0 HP (number_single 0) M). intros j t Hj Ht. destruct (G t Ht) as [A B]. split; [apply lookback_value; auto|eapply lookback_cont; eauto]. Qed.
Theorem C67_absorption z : good_redshifts 0 z ->
  exists r, absorption odeint c bs z = Some r /\ tshape r = tshape (as_tensor z) ++ P /\
    forall i j, valid (tshape (as_tensor z)) i -> valid P j -> is_RInt (fun z => (z + 1) ^ 2 * / sqrt (E2 j z)) 0 (tat (as_tensor z) i) (tat r (i ++ j)).
Proof. intros [M G]. apply (integrate_ok c bs abs_distance_integrand (fun j z => (z + 1) ^ 2 * / sqrt (E2 j z)) (Num 0) z P 0 HP (number_single 0) M). intros j t Hj Ht. destruct (G t Ht) as [A B]. split; [apply abs_value; auto|eapply abs_cont; eauto]. Qed.
End Class.

(** *** Inputs that the driver rejects *)
(** redshifts that are not strictly sorted away from the first one, in particular the first one itself *)
Theorem C67_unsorted_refuted c bs func z1 z2 x : single z1 x -> ~ monotone (x :: flatten (as_tensor z2)) -> integrate odeint c bs func z1 z2 = None.
Proof. intros S M. unfold integrate. destruct (param_shape c bs) as [P|]; [|reflexivity]. rewrite (single_flatten z1 x S), (proj1 S). cbn [Nat.eqb app]. rewrite (proj2 HO) by exact M. reflexivity. Qed.
Theorem C67_zero_refuted c bs : comoving_at odeint c bs (Num 0) = None /\ lookback odeint c bs (Num 0) = None /\ absorption odeint c bs (Num 0) = None.
Proof.
  assert (M : ~ monotone (0 :: flatten (as_tensor (Num 0)))) by (intros [H|H]; specialize (H 0%nat ltac:(cbn; lia)); cbn in H; lra).
  repeat split; apply (C67_unsorted_refuted c bs _ (Num 0) (Num 0) 0 (number_single 0) M).
Qed.
Theorem C67_many_first c bs func z1 z2 : numel (as_tensor z1) <> 1%nat -> integrate odeint c bs func z1 z2 = None.
Proof. intros N. unfold integrate. destruct (param_shape c bs) as [P|]; [|reflexivity]. apply Nat.eqb_neq in N. rewrite N. reflexivity. Qed.
End Solver.

(** ** Combining the result with the redshifts *)
Lemma bcr_nil_r a : bcr a [] = Some a. Proof. destruct a; reflexivity. Qed.
Lemma bcr_same a : bcr a a = Some a. Proof. induction a as [|n a IH]; [reflexivity|]. cbn. rewrite IH, Nat.eqb_refl. reflexivity. Qed.
Lemma bc_nil a : broadcast2 a [] = Some a. Proof. unfold broadcast2. cbn [rev]. rewrite bcr_nil_r. cbn. rewrite rev_involutive. reflexivity. Qed.
Lemma bc_same a : broadcast2 a a = Some a. Proof. unfold broadcast2. rewrite bcr_same. cbn. rewrite rev_involutive. reflexivity. Qed.
Lemma bidx_valid s i : Forall2 (fun i n => (i < n)%nat) i s -> bidx s i = i.
Proof. induction 1 as [|i n is_ s Hi H IH]; [reflexivity|]. cbn. rewrite IH. f_equal. destruct (Nat.eqb_spec n 1); lia. Qed.
Lemma F2_rev {A B} (Q : A -> B -> Prop) l l' : Forall2 Q l l' -> Forall2 Q (rev l) (rev l').
Proof. induction 1; cbn; [constructor|]. apply Forall2_app; [assumption|constructor; [assumption|constructor]]. Qed.
Lemma bget_valid t i : valid (tshape t) i -> bget t i = tat t i.
Proof. intros H. unfold bget. rewrite bidx_valid by (apply F2_rev, H). rewrite rev_involutive. reflexivity. Qed.
Section Lum.
Variable odeint : (R -> list nat -> option R) -> list nat -> list R -> option (list (list nat -> R)).
Lemma integrate_shape c bs func z1 z2 P r : param_shape c bs = Some P -> integrate odeint c bs func z1 z2 = Some r -> tshape r = tshape (as_tensor z2) ++ P.
Proof. intros HP. unfold integrate. rewrite HP. destruct (Nat.eqb _ 1); [|discriminate]. destruct (odeint _ _ _); [|discriminate]. unfold reshape. destruct (Nat.eqb _ _); [|discriminate]. intros E. injection E as <-. reflexivity. Qed.
Lemma transverse_shape c bs z P d : param_shape c bs = Some P -> transverse odeint c bs z = Some d -> tshape d = tshape (as_tensor z) ++ P.
Proof. intros HP. unfold transverse. destruct (comoving_at odeint c bs z) as [r|] eqn:E; [|discriminate]. cbn. intros Ed. injection Ed as <-. cbn. apply (integrate_shape c bs inv_efunc (Num 0) z P r HP E). Qed.
(** With numbers as parameters, or a single redshift, every element is the transverse distance times its own 1+z. *)
Theorem C67_luminosity c bs z P d : param_shape c bs = Some P -> transverse odeint c bs z = Some d -> P = [] \/ tshape (as_tensor z) = [] ->
  exists r, luminosity odeint c bs z = Some r /\ tshape r = tshape (as_tensor z) ++ P /\
    forall i j, valid (tshape (as_tensor z)) i -> valid P j -> tat r (i ++ j) = tat d (i ++ j) * (1 + tat (as_tensor z) i).
Proof.
  intros HP Hd H. pose proof (transverse_shape c bs z P d HP Hd) as Sd. unfold luminosity. rewrite Hd. unfold tmul. rewrite Sd. destruct H as [->|Hz].
  - rewrite app_nil_r in *. change (tshape (zp1 z)) with (tshape (as_tensor z)). rewrite bc_same. eexists. split; [reflexivity|]. split; [reflexivity|]. intros i j Hi Hj. inversion Hj; subst. rewrite app_nil_r. cbn [tat]. rewrite !bget_valid by (cbn; rewrite ?Sd; assumption). cbn. ring.
  - change (tshape (zp1 z)) with (tshape (as_tensor z)). rewrite Hz in *. cbn [app] in *. rewrite bc_nil. eexists. split; [reflexivity|]. split; [reflexivity|]. intros i j Hi Hj. destruct i as [|i0 i]; [|inversion Hi]. cbn [app tat]. rewrite (bget_valid d) by (rewrite Sd; exact Hj). unfold bget. cbn [zp1 tshape tat]. rewrite Hz. cbn. ring.
Qed.
(** With a vector of redshifts and a vector of parameters the redshifts meet the axis of the parameters: an error if the lengths differ, and a wrong
    factor if they agree. *)
Theorem C67_luminosity_lengths_refuted c bs z M N : tshape (as_tensor z) = [M] -> param_shape c bs = Some [N] -> M <> N -> M <> 1%nat -> N <> 1%nat -> luminosity odeint c bs z = None.
Proof.
  intros Hz HP H1 H2 H3. unfold luminosity. destruct (transverse odeint c bs z) as [d|] eqn:Ed; [|reflexivity]. pose proof (transverse_shape c bs z _ d HP Ed) as Sd. unfold tmul. change (tshape (zp1 z)) with (tshape (as_tensor z)). rewrite Sd, Hz. unfold broadcast2. cbn. rewrite (proj2 (Nat.eqb_neq N M)) by lia. rewrite (proj2 (Nat.eqb_neq N 1)), (proj2 (Nat.eqb_neq M 1)) by lia. reflexivity.
Qed.
Theorem C67_luminosity_axes_refuted c bs z M d : tshape (as_tensor z) = [M] -> param_shape c bs = Some [M] -> transverse odeint c bs z = Some d ->
  exists r, luminosity odeint c bs z = Some r /\ tshape r = [M; M] /\ forall i j, (i < M)%nat -> (j < M)%nat ->
    tat r [i; j] = tat d [i; j] * (1 + tat (as_tensor z) [j]) /\
    (tat d [i; j] <> 0 -> tat (as_tensor z) [i] <> tat (as_tensor z) [j] -> tat r [i; j] <> tat d [i; j] * (1 + tat (as_tensor z) [i])).
Proof.
  intros Hz HP Hd. pose proof (transverse_shape c bs z _ d HP Hd) as Sd. rewrite Hz in Sd. cbn in Sd. unfold luminosity. rewrite Hd. unfold tmul. change (tshape (zp1 z)) with (tshape (as_tensor z)). rewrite Sd, Hz. assert (B : broadcast2 [M; M] [M] = Some [M; M]) by (unfold broadcast2; cbn; rewrite Nat.eqb_refl; reflexivity). rewrite B. cbn [option_map]. eexists. split; [reflexivity|]. split; [reflexivity|].
  intros i j Hi Hj. cbn [tat]. rewrite (bget_valid d) by (rewrite Sd; repeat constructor; assumption). assert (E : bget (zp1 z) [i; j] = 1 + tat (as_tensor z) [j]). { unfold bget. cbn [zp1 tshape tat]. rewrite Hz. cbn. destruct (Nat.eqb_spec M 1); [|ring]. replace j with 0%nat by lia. ring. }
  rewrite E. split; [reflexivity|]. intros Nz Ne Eq. apply Rmult_eq_reg_l in Eq; [|exact Nz]. apply Ne. lra.
Qed.
End Lum.

(** ** The hypotheses are met *)
(** an exact solver *)
Definition monotone_b (ts : list R) : bool :=
  forallb (fun i => if Rlt_dec (nth i ts 0) (nth (S i) ts 0) then true else false) (seq 0 (length ts - 1)) || forallb (fun i => if Rlt_dec (nth (S i) ts 0) (nth i ts 0) then true else false) (seq 0 (length ts - 1)).
Lemma monotone_spec ts : monotone_b ts = true <-> monotone ts.
Proof.
  unfold monotone_b, monotone. rewrite orb_true_iff, !forallb_forall. split; intros [H|H]; [left|right|left|right]; intros i Hi; try (specialize (H i ltac:(apply in_seq; lia)); destruct (Rlt_dec _ _); [assumption|discriminate]); (apply in_seq in Hi; specialize (H i ltac:(lia)); destruct (Rlt_dec _ _); [reflexivity|contradiction]).
Qed.
Definition exact_odeint (f : R -> list nat -> option R) (shape : list nat) (ts : list R) : option (list (list nat -> R)) :=
  if monotone_b ts then Some (map (fun t j => RInt (fun u => match f u j with Some v => v | None => 0 end) (nth 0 ts 0) t) ts) else None.
Lemma exact_odeint_ok : exact_solver exact_odeint.
Proof.
  split.
  - intros f shape ts g N M H. unfold exact_odeint. rewrite (proj2 (monotone_spec ts) M). eexists. split; [reflexivity|]. split; [apply map_length|]. intros k j Hk Hj.
    assert (E : RInt (g j) (nth 0 ts 0) (nth k ts 0) = nth k (map (fun t j => RInt (fun u => match f u j with Some v => v | None => 0 end) (nth 0 ts 0) t) ts) (fun _ => 0) j).
    { set (F := fun (t : R) (j : list nat) => RInt (fun u => match f u j with Some v => v | None => 0 end) (nth 0 ts 0) t : R). rewrite (nth_indep (map F ts) (fun _ => 0) (F 0)) by (rewrite map_length; exact Hk). rewrite (map_nth F). unfold F. apply RInt_ext. intros t Ht. rewrite (proj1 (H j Hj t ltac:(exists k; split; [exact Hk|lra]))). reflexivity. }
    refine (eq_ind _ (fun v => is_RInt (g j) (nth 0 ts 0) (nth k ts 0) v) _ _ E). apply (RInt_correct (V := R_CompleteNormedModule) (g j)). apply (ex_RInt_continuous (V := R_CompleteNormedModule) (g j)). intros t Ht. apply (H j Hj t). exists k. split; assumption.
  - intros f shape ts M. unfold exact_odeint. destruct (monotone_b ts) eqn:E; [|reflexivity]. apply monotone_spec in E. contradiction.
Qed.
(** FlatLambdaCDM with two matter densities, at two redshifts *)
Definition ex_class := Cls CC false true.
Definition ex_state : bstate := fun p => match p with Om0 => Some (Ten (Tensor [2%nat] (fun i => match i with [0%nat] => 3 / 10 | _ => 4 / 10 end))) | _ => None end.
Definition ex_z : value := Ten (Tensor [2%nat] (fun i => match i with [0%nat] => 1 / 2 | _ => 1 end)).
Definition ex_m (j : list nat) : R := match j with [0%nat] => 3 / 10 | _ => 4 / 10 end.
Definition ex_E2 (j : list nat) (z : R) : R := (1 + z) ^ 2 * (ex_m j * (1 + z) + 0) + (1 - 0 - ex_m j).
Example C67_nonvacuous : exact_solver exact_odeint /\ param_shape ex_class ex_state = Some [2%nat] /\ (forall j, valid [2%nat] j -> expansion ex_class (state_at ex_state j) (ex_E2 j)) /\
  good_redshifts [2%nat] ex_E2 0 ex_z /\ exists d, transverse exact_odeint ex_class ex_state ex_z = Some d /\ (forall i j, (i < 2)%nat -> (j < 2)%nat -> tat d [i; j] <> 0) /\ tat (as_tensor ex_z) [0%nat] <> tat (as_tensor ex_z) [1%nat].
Proof.
  assert (A : forall j, valid [2%nat] j -> expansion ex_class (state_at ex_state j) (ex_E2 j)).
  { intros j Hj z Hz. inversion Hj as [|i n l l' Hi Hl]; subst. inversion Hl; subst. destruct i as [|[|i]]; [reflexivity|reflexivity|lia]. }
  assert (Pos : forall j z, 0 <= z -> 0 < ex_E2 j z). { intros j z Hz. unfold ex_E2. assert (0 < ex_m j < 1) by (unfold ex_m; repeat match goal with |- context [match ?x with _ => _ end] => destruct x end; lra). assert (0 < (1 + z) ^ 2 * (ex_m j * (1 + z) + 0)) by (apply Rmult_lt_0_compat; [apply pow_lt; lra|nra]). lra. }
  assert (G : good_redshifts [2%nat] ex_E2 0 ex_z).
  { split; [left; intros [|[|i]] Hi; cbn in *; [lra|lra|lia]|]. intros t [->|(i & Hi & Ht)]; [split; [lra|intros; apply Pos; lra]|]. assert (0 <= t) by (cbn in Ht; destruct i as [|[|i] [|? ?]]; rewrite Rmin_left in Ht by lra; lra). split; [lra|]. intros; apply Pos; assumption. }
  split; [exact exact_odeint_ok|]. split; [reflexivity|]. split; [exact A|]. split; [exact G|]. destruct (C67_comoving exact_odeint exact_odeint_ok ex_class ex_state [2%nat] ex_E2 eq_refl A (Num 0) ex_z 0 (number_single 0) G) as (r & Er & Sr & Hr).
  unfold transverse, comoving_at. rewrite Er. cbn [option_map]. eexists. split; [reflexivity|]. split; [|cbn; lra]. intros i j Hi Hj. cbn [tat]. change (tat r [i; j] <> 0). specialize (Hr [i] [j] (Forall2_cons i 2%nat Hi (Forall2_nil _)) (Forall2_cons j 2%nat Hj (Forall2_nil _))). cbn [app] in Hr. rewrite <- (is_RInt_unique _ _ _ _ Hr). apply Rgt_not_eq. assert (Z : 0 < tat (as_tensor ex_z) [i]) by (destruct i as [|[|i]]; cbn; lra).
  apply RInt_gt_0; [exact Z| |]; intros t Ht; [apply Rinv_0_lt_compat, sqrt_lt_R0, Pos; lra|]. apply (inv_cont ex_class (state_at ex_state [j]) (ex_E2 [j])); [apply A; constructor; [exact Hj|constructor]|lra|apply Pos; lra].
Qed.
Print Assumptions C67_comoving.
Print Assumptions C67_lookback.
Print Assumptions C67_absorption.
Print Assumptions C67_unsorted_refuted.
Print Assumptions C67_luminosity.
Print Assumptions C67_luminosity_axes_refuted.
(** ** C67: the shape of the parameters and the values that an element of the result sees *)
Lemma bcr_spec a : forall b r, bcr a b = Some r -> length r = Nat.max (length a) (length b) /\
  forall k, let x := nth k a 1%nat in let y := nth k b 1%nat in let z := nth k r 1%nat in (x = z \/ x = 1%nat) /\ (y = z \/ y = 1%nat) /\ (z = x \/ z = y).
Proof.
  induction a as [|x a IH]; intros [|y b] r H; cbn [bcr] in H.
  - assert (r = []) as -> by congruence. split; [reflexivity|]. intros k. cbv zeta. auto.
  - assert (r = y :: b) as -> by congruence. split; [reflexivity|]. intros k. cbv zeta. destruct k; cbn [nth]; auto.
  - assert (r = x :: a) as -> by congruence. split; [cbn; lia|]. intros k. cbv zeta. destruct k; cbn [nth]; auto.
  - destruct (bcr a b) as [q|] eqn:E; [|discriminate]. destruct (IH b q E) as [L K].
    destruct (Nat.eqb x y) eqn:E1; [apply Nat.eqb_eq in E1; subst y; assert (r = x :: q) as -> by congruence; split; [cbn [length]; lia|]; intros [|k]; [cbn [nth]; auto|apply K]|].
    destruct (Nat.eqb x 1) eqn:E2; [apply Nat.eqb_eq in E2; subst x; assert (r = y :: q) as -> by congruence; split; [cbn [length]; lia|]; intros [|k]; [cbn [nth]; auto|apply K]|].
    destruct (Nat.eqb y 1) eqn:E3; [apply Nat.eqb_eq in E3; subst y; assert (r = x :: q) as -> by congruence; split; [cbn [length]; lia|]; intros [|k]; [cbn [nth]; auto|apply K]|discriminate].
Qed.
Lemma broadcast2_spec a b r : broadcast2 a b = Some r -> length r = Nat.max (length a) (length b) /\ forall k, (size_at a k = size_at r k \/ size_at a k = 1%nat) /\ (size_at b k = size_at r k \/ size_at b k = 1%nat) /\ (size_at r k = size_at a k \/ size_at r k = size_at b k).
Proof.
  unfold broadcast2. intros H. destruct (bcr (rev a) (rev b)) as [q|] eqn:E; [|discriminate]. cbn in H. assert (r = rev q) as -> by congruence. destruct (bcr_spec _ _ _ E) as [L K]. rewrite !rev_length in L. split; [rewrite rev_length; exact L|]. intros k. unfold size_at. rewrite rev_involutive. apply K.
Qed.
Lemma broadcast_fold l : forall acc (seen : list nat -> Prop) P, broadcast_of seen acc -> fold_left (fun acc s => match acc with Some a => broadcast2 a s | None => None end) l (Some acc) = Some P -> broadcast_of (fun s => seen s \/ In s l) P.
Proof.
  assert (N : forall l, fold_left (fun acc s => match acc with Some a => broadcast2 a s | None => None end) l None = None) by (clear; induction l as [|s l IH]; [reflexivity|exact IH]).
  induction l as [|s l IH]; intros acc seen P B H; cbn [fold_left] in H.
  - assert (P = acc) as -> by congruence. destruct B as (B1 & B2 & B3). split; [intros t [Ht|[]]; apply B1, Ht|]. split; [destruct B2 as [B2|(t & Ht & E)]; [left; exact B2|right; exists t; auto]|]. intros k. destruct (B3 k) as [C1 C2]. split; [intros t [Ht|[]]; apply C1, Ht|]. destruct C2 as [C2|(t & Ht & E)]; [left; exact C2|right; exists t; auto].
  - destruct (broadcast2 acc s) as [q|] eqn:E; [|rewrite N in H; discriminate]. destruct (broadcast2_spec _ _ _ E) as [L K]. destruct B as (B1 & B2 & B3).
    assert (B' : broadcast_of (fun t => seen t \/ t = s) q).
    { split; [intros t [Ht| ->]; [specialize (B1 t Ht); lia|lia]|]. split.
      - destruct (Nat.le_gt_cases (length acc) (length s)) as [Q|Q]; [right; exists s; split; [right; reflexivity|lia]|]. destruct B2 as [B2|(t & Ht & Et)]; [lia|]. right. exists t. split; [left; exact Ht|lia].
      - intros k. destruct (B3 k) as [C1 C2]. destruct (K k) as (K1 & K2 & K3). split.
        + intros t [Ht| ->]; [destruct (C1 t Ht) as [C|C]; [left; exact C|]; destruct K1 as [K1|K1]; [right; congruence|left; congruence]|destruct K2; auto].
        + destruct K3 as [K3|K3]; [destruct C2 as [C2|(t & Ht & Et)]; [left; congruence|right; exists t; split; [left; exact Ht|congruence]]|right; exists s; split; [right; reflexivity|congruence]]. }
    specialize (IH q _ P B' H). destruct IH as (I1 & I2 & I3). assert (EQ : forall t, (seen t \/ t = s) \/ In t l <-> seen t \/ In t (s :: l)) by (intros t; cbn [In]; intuition congruence).
    split; [intros t Ht; apply I1, EQ, Ht|]. split; [destruct I2 as [I2|(t & Ht & Et)]; [left; exact I2|right; exists t; split; [apply EQ, Ht|exact Et]]|]. intros k. destruct (I3 k) as [C1 C2]. split; [intros t Ht; apply C1, EQ, Ht|]. destruct C2 as [C2|(t & Ht & Et)]; [left; exact C2|right; exists t; split; [apply EQ, Ht|exact Et]].
Qed.
(** The shape of the parameters is that to which the shapes of all tensors among the parameters of the class broadcast. *)
Definition parameter_tensor (c : cls) (bs : bstate) (p : pname) (t : tensor) : Prop := In p (parameters_of c) /\ bs p = Some (Ten t).
Theorem C67_parameter_shape c bs P : param_shape c bs = Some P -> broadcast_of (fun s => exists p t, parameter_tensor c bs p t /\ tshape t = s) P.
Proof.
  intros H. unfold param_shape, broadcast_shapes in H. assert (B0 : broadcast_of (fun _ => False) []) by (split; [intros s []|]; split; [left; reflexivity|]; intros k; split; [intros s []|left; unfold size_at; destruct k; reflexivity]).
  pose proof (broadcast_fold _ [] _ P B0 H) as (I1 & I2 & I3). assert (EQ : forall s, (exists p t, parameter_tensor c bs p t /\ tshape t = s) <-> False \/ In s (flat_map (fun p => match bs p with Some (Ten t) => [tshape t] | _ => [] end) (parameters_of c))).
  { intros s. rewrite in_flat_map. split; [intros (p & t & (Hp & Et) & Es); right; exists p; split; [exact Hp|]; rewrite Et; left; exact Es|]. intros [[]|(p & Hp & Hs)]. destruct (bs p) as [[x|t]|] eqn:Et; [destruct Hs| |destruct Hs]. destruct Hs as [Hs|[]]. exists p, t. split; [split; assumption|exact Hs]. }
  split; [intros t Ht; apply I1, EQ, Ht|]. split; [destruct I2 as [I2|(t & Ht & Et)]; [left; exact I2|right; exists t; split; [apply EQ, Ht|exact Et]]|]. intros k. destruct (I3 k) as [C1 C2]. split; [intros t Ht; apply C1, EQ, Ht|]. destruct C2 as [C2|(t & Ht & Et)]; [left; exact C2|right; exists t; split; [apply EQ, Ht|exact Et]].
Qed.
Lemma bidx_spec s : forall j k, (length s <= length j)%nat -> length (bidx s j) = length s /\ ((k < length s)%nat -> nth k (bidx s j) 0%nat = if Nat.eqb (nth k s 1%nat) 1 then 0%nat else nth k j 0%nat).
Proof.
  induction s as [|n s IH]; intros [|i j] k H; cbn [bidx length] in *; try lia. destruct (IH j (Nat.pred k) ltac:(lia)) as [L K]. split; [rewrite L; reflexivity|]. intros Hk. destruct k as [|k]; [reflexivity|]. apply K. cbn [Nat.pred]. lia.
Qed.
Lemma Forall2_nth_ {A B} (R : A -> B -> Prop) l m da db : length l = length m -> (forall k, (k < length l)%nat -> R (nth k l da) (nth k m db)) -> Forall2 R l m.
Proof. revert m. induction l as [|x l IH]; intros [|y m] L H; try discriminate; [constructor|]. constructor; [apply (H 0%nat); cbn; lia|]. apply IH; [cbn in L; lia|]. intros k Hk. apply (H (S k)). cbn. lia. Qed.
Lemma F2_length {A B} (R : A -> B -> Prop) l m : Forall2 R l m -> length l = length m.
Proof. intros H. induction H as [|x y l m Hx H IH]; [reflexivity|cbn; rewrite IH; reflexivity]. Qed.
Lemma F2_revR {A B} (R : A -> B -> Prop) l m : Forall2 R l m -> Forall2 R (rev l) (rev m).
Proof. intros H. induction H as [|x y l m Hx H IH]; [constructor|]. cbn [rev]. apply Forall2_app; [exact IH|constructor; [exact Hx|constructor]]. Qed.
Lemma Forall2_nth_inv {A B} (R : A -> B -> Prop) l m da db k : Forall2 R l m -> (k < length l)%nat -> R (nth k l da) (nth k m db).
Proof. intros H. revert k. induction H as [|x y l m Hx H IH]; intros k Hk; [cbn in Hk; lia|]. destruct k as [|k]; [exact Hx|]. apply IH. cbn in Hk. lia. Qed.
(** The element with index [j] is computed from the numbers given and, for a tensor, from its element with the last indices of [j], 0 where its size is 1. *)
Theorem C67_parameter_element c bs P p j : param_shape c bs = Some P -> valid P j -> In p (parameters_of c) ->
  (forall x, bs p = Some (Num x) -> state_at bs j p = Some x) /\
  forall t, bs p = Some (Ten t) -> exists i, valid (tshape t) i /\ state_at bs j p = Some (tat t i) /\ forall k, (k < length (tshape t))%nat -> nth k (rev i) 0%nat = if Nat.eqb (size_at (tshape t) k) 1 then 0%nat else nth k (rev j) 0%nat.
Proof.
  intros HP Hj Hp. split; [intros x E; unfold state_at; rewrite E; reflexivity|]. intros t Et. destruct (C67_parameter_shape c bs P HP) as (B1 & _ & B3). assert (Pt : exists q u, parameter_tensor c bs q u /\ tshape u = tshape t) by (exists p, t; split; [split; assumption|reflexivity]). specialize (B1 _ Pt).
  pose proof (F2_length _ _ _ Hj) as Lj. assert (Ls : (length (rev (tshape t)) <= length (rev j))%nat) by (rewrite !rev_length; lia). exists (rev (bidx (rev (tshape t)) (rev j))). assert (K : forall k, (k < length (tshape t))%nat -> nth k (bidx (rev (tshape t)) (rev j)) 0%nat = if Nat.eqb (size_at (tshape t) k) 1 then 0%nat else nth k (rev j) 0%nat) by (intros k Hk; apply bidx_spec; [exact Ls|rewrite rev_length; exact Hk]).
  pose proof (proj1 (bidx_spec (rev (tshape t)) (rev j) 0 Ls)) as Lb. rewrite rev_length in Lb. split; [|split; [unfold state_at; rewrite Et; reflexivity|intros k Hk; rewrite rev_involutive; apply K, Hk]].
  unfold valid. assert (G : Forall2 (fun i n => (i < n)%nat) (bidx (rev (tshape t)) (rev j)) (rev (tshape t))); [|apply F2_revR in G; rewrite rev_involutive in G; exact G]. apply (Forall2_nth_ _ _ _ 0%nat 1%nat); [rewrite rev_length; exact Lb|]. intros k Hk. rewrite Lb in Hk. rewrite (K k Hk). fold (size_at (tshape t) k). destruct (Nat.eqb (size_at (tshape t) k) 1) eqn:E; [apply Nat.eqb_eq in E; rewrite E; lia|]. apply Nat.eqb_neq in E. destruct (proj1 (B3 k) _ Pt) as [Q|Q]; [congruence|]. rewrite Q.
  unfold size_at. apply (Forall2_nth_inv (fun i n => (i < n)%nat) (rev j) (rev P) 0%nat 1%nat k); [apply F2_revR, Hj|rewrite rev_length in *; lia].
Qed.
