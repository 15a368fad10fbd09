(** * Property C51: physical constants (phytorch.constants)
    [textbook], [denotes], [has_value], [recommended2018] are in ConstSpec.v. *)
From Coq Require Import ZArith QArith Qcanon String List Bool Reals Ratan Lra Lia.
From Verif Require Import Frac FracFacts Units UnitSpec UnitsFacts UnitsThms Prefixes PrefixSpec Prop_Prefix Constants ConstSpec ConstFacts ConstVals ConstPkg Wien.
Import ListNotations.
Open Scope string_scope.
Open Scope list_scope.
Local Open Scope R_scope.

Lemma in_rows {V} (T : list (list string * V)) n : In n (List.concat (map fst T)) -> exists row, In row T /\ In n (fst row).
Proof.
  intros H. apply in_concat in H as (ns & H1 & H2). apply in_map_iff in H1 as (row & <- & H1). eauto.
Qed.
Lemma names_eq v : map fst (textbook v) = codata_names. Proof. reflexivity. Qed.
Lemma codata_row v n : In n codata_all -> exists row, In row (textbook v) /\ In n (fst row).
Proof.
  intros H. apply in_rows. rewrite names_eq.
  assert (C : forallb (fun n => inb n (List.concat codata_names)) codata_all = true) by (vm_compute; reflexivity).
  rewrite forallb_forall in C. apply inb_spec, C, H.
Qed.
Lemma nonzero_2018 : nonzero_vals codata2018_vals.
Proof. unfold nonzero_vals, codata2018_vals. cbn [v_c v_h v_k v_e v_alpha v_m_e v_m_p]. repeat apply conj; lra. Qed.
Lemma nonzero_2014 : nonzero_vals codata2014_vals.
Proof. unfold nonzero_vals, codata2014_vals. cbn [v_c v_h v_k v_e v_alpha v_m_e v_m_p]. repeat apply conj; lra. Qed.
Lemma pure_total so v : nonzero_vals v -> forall n, In n codata_all -> exists u, pure so v max_depth n = Some u.
Proof.
  intros Hv n Hn. destruct (codata_row v n Hn) as (row & H1 & H2). pose proof (constants_values so v Hv) as F. rewrite Forall_forall in F.
  destruct (F row H1 n H2) as (u & E & _). eauto.
Qed.

Lemma names_nodup : NoDup (List.concat codata_names).
Proof. apply PrefixFacts.nodupb_spec. vm_compute. reflexivity. Qed.
Lemma rows_unique {V} (T : list (list string * V)) n row : NoDup (List.concat (map fst T)) -> In row T -> In n (fst row) ->
  forall row', In row' T -> In n (fst row') -> row' = row.
Proof.
  intros ND H1 H2. induction T as [|r T IH]; [contradiction|]. cbn [map List.concat] in ND.
  assert (ND' : NoDup (List.concat (map fst T))) by (eapply PrefixFacts.NoDup_app_remove_l; exact ND).
  assert (X : forall q, In q T -> In n (fst q) -> In n (fst r) -> False).
  { intros q Hq Hnq Hnr. assert (In n (List.concat (map fst T))) by (apply in_concat; exists (fst q); split; [apply in_map, Hq|exact Hnq]).
    clear -ND H Hnr. induction (fst r) as [|x l IHl]; [contradiction|]. cbn [app] in ND. inversion ND; subst. destruct Hnr as [->|Hnr]; [apply H2, in_or_app; auto|auto]. }
  intros row' Hr Hn. destruct H1 as [->|H1], Hr as [->|Hr]; auto; exfalso; eauto.
Qed.
Lemma row_unique v n row : In row (textbook v) -> In n (fst row) -> forall row', In row' (textbook v) -> In n (fst row') -> row' = row.
Proof. apply rows_unique. rewrite names_eq. exact names_nodup. Qed.

Lemma attr_step_inv so v : nonzero_vals v -> forall s m, CInv so v s -> CInv so v (attr_step so v s m).
Proof.
  intros Hv s m I. unfold attr_step. destruct (inb m codata_all) eqn:Hm.
  - apply inb_spec in Hm. destruct (pure_total so v Hv m Hm) as (u & U).
    destruct (get_attr_ok so v max_depth (le_n _) m s u I U) as (c & s' & E & I' & _). rewrite E. exact I'.
  - apply inb_false in Hm. rewrite (get_attr_none _ _ _ _ _ I Hm). exact I.
Qed.
Lemma fold_left_inv {X Y} (P : X -> Prop) (f : X -> Y -> X) : (forall a b, P a -> P (f a b)) -> forall l a, P a -> P (fold_left f l a).
Proof. intros H. induction l as [|y l IH]; intros a Ha; [exact Ha|]. cbn [fold_left]. auto. Qed.
Lemma instance_inv so v : nonzero_vals v -> forall h s, CInv so v s -> CInv so v (instance_after so v h s).
Proof. intros Hv. unfold instance_after. apply fold_left_inv. intros s m. apply attr_step_inv, Hv. Qed.
(** On an instance built from any non-zero defining numbers, whatever was read before and in whatever order,
    each of the 32 names yields a constant with the textbook value and dimension; every other name raises. *)
Theorem C51_any_codata_set : forall so v history n, nonzero_vals v ->
  match get_attr so v max_depth n (instance_after so v history (0%nat, [])) with
  | Some (c, _) => exists row, In row (textbook v) /\ In n (fst row) /\
                    (forall row', In row' (textbook v) -> In n (fst row') -> row' = row) /\
                    k_name c = hd "" (fst row) /\ has_value (k_unit c) (fst (snd row)) (snd (snd row))
  | None => ~ In n (List.concat (map fst (textbook v)))
  end.
Proof.
  intros so v history n Hv.
  pose proof (instance_inv so v Hv history (0%nat, []) (cinv_empty so v 0)) as I.
  destruct (inb n codata_all) eqn:Hn.
  - apply inb_spec in Hn. destruct (pure_total so v Hv n Hn) as (u & U).
    destruct (get_attr_ok so v max_depth (le_n _) n _ u I U) as (c & s' & -> & I' & _ & G & E).
    destruct (codata_row v n Hn) as (row & H1 & H2). exists row. split; [exact H1|]. split; [exact H2|].
    pose proof (constants_values so v Hv) as F. rewrite Forall_forall in F. destruct (F row H1 n H2) as (u' & U' & _ & Hval).
    pose proof (row_unique v n row H1 H2) as Un.
    split; [exact Un|]. split; [|assert (u' = u) by congruence; subst; exact Hval].
    rewrite (ci_name _ _ _ I' _ _ G).
    pose proof (canonical_some _ Hn) as Cn. unfold canonical_name in Cn.
    rewrite <- (names_eq v) in Cn.
    destruct (find (fun ns => existsb (String.eqb n) ns) (map fst (textbook v))) as [ns|] eqn:Ef; [|discriminate].
    injection Cn as <-. apply find_some in Ef as [F1 F2]. apply in_map_iff in F1 as (row' & <- & Hr). f_equal. f_equal. apply Un; [exact Hr|]. apply inb_spec. exact F2.
  - apply inb_false in Hn. rewrite (get_attr_none _ _ _ _ _ I Hn). intros H. apply Hn.
    rewrite names_eq in H.
    assert (C : forallb (fun n => inb n codata_all) (List.concat codata_names) = true) by (vm_compute; reflexivity).
    rewrite forallb_forall in C. apply inb_spec, C, H.
Qed.
Print Assumptions C51_any_codata_set.

Ltac astro_entry E c K R so b i nm u r e d :=
  let X := fresh in
  assert (X : dict_get (acache so b) nm = Some (constant_new (i + b) nm (umulnum u r) d)) by reflexivity;
  rewrite X in E; injection E as <-;
  eapply (R [nm]); [unfold astro_values; repeat first [left; reflexivity|right]|left; reflexivity| |eapply (K u r e); [reflexivity|reflexivity|vm_compute; reflexivity|vm_compute; reflexivity|cbn; tauto]]; lra.
(** the values of live objects *)
Lemma live_value so p w k c : Good so p w -> live so w k c ->
  k_name c = snd k /\ exists row, In row (values_of (fst k)) /\ In (snd k) (fst row) /\ has_value (k_unit c) (fst (snd row)) (snd (snd row)).
Proof.
  intros G L. destruct k as [[| |] n]; unfold live in L; cbn [fst snd] in *.
  - destruct L as (i & d & H & E & O). destruct (gm14 _ _ _ G _ _ H) as [_ I]. rewrite (ci_name _ _ _ I _ _ E). split; [exact O|].
    assert (Hn : In n codata_all).
    { destruct (inb n codata_all) eqn:X; [apply inb_spec, X|]. apply inb_false in X. pose proof (ci_unit _ _ _ I _ _ E) as U.
      unfold max_depth in U. rewrite pure_eq in U. destruct (dict_get class_props n) eqn:Y; [|discriminate]. apply dget_in in Y. apply in_map_iff. exists (n, c0). auto. }
    destruct (codata_row codata2014_vals n Hn) as (row & H1 & H2). exists row. split; [exact H1|]. split; [exact H2|].
    pose proof (constants_values so _ nonzero_2014) as F. rewrite Forall_forall in F. destruct (F row H1 n H2) as (u & U & _ & V).
    pose proof (ci_unit _ _ _ I _ _ E) as U'. assert (u = k_unit c) by congruence. subst. exact V.
  - destruct L as (i & d & H & E & O). destruct (gm18 _ _ _ G _ _ H) as [_ I]. rewrite (ci_name _ _ _ I _ _ E). split; [exact O|].
    assert (Hn : In n codata_all).
    { destruct (inb n codata_all) eqn:X; [apply inb_spec, X|]. apply inb_false in X. pose proof (ci_unit _ _ _ I _ _ E) as U.
      unfold max_depth in U. rewrite pure_eq in U. destruct (dict_get class_props n) eqn:Y; [|discriminate]. apply dget_in in Y. apply in_map_iff. exists (n, c0). auto. }
    destruct (codata_row codata2018_vals n Hn) as (row & H1 & H2). exists row. split; [exact H1|]. split; [exact H2|].
    pose proof (constants_values so _ nonzero_2018) as F. rewrite Forall_forall in F. destruct (F row H1 n H2) as (u & U & _ & V).
    pose proof (ci_unit _ _ _ I _ _ E) as U'. assert (u = k_unit c) by congruence. subst. exact V.
  - destruct L as (b & H & E & O). split.
    + destruct (acache_some so b n (aindex_lt_acache _ _ _ _ E)) as (c' & m & E1 & E2 & E3 & _). assert (c' = c) by congruence. subst. congruence.
    + assert (Hn : In n (map (hd "") astro_names)).
      { unfold canonical_name in O. destruct (find (fun ns => existsb (String.eqb n) ns) astro_names) as [ns|] eqn:Ef; [|discriminate].
        injection O as <-. apply in_map. apply find_some in Ef. apply Ef. }
      assert (K : forall u r e l t m i th, k_unit c = unit_init (udim (umulnum u r)) (uval (umulnum u r)) -> u = ueval so e ->
                 integral e && keys_in ["L"; "T"; "M"; "I"; "Θ"] e = true ->
                 map (fun k => this (paper_exponent e k)) ["L"; "T"; "M"; "I"; "Θ"] = map (fun z => this (fint z)) [l; t; m; i; th] ->
                 ones e -> has_value (k_unit c) r (l, t, m, i, th)).
      { intros u r e l t m i th Eu -> X1 X2 X3. rewrite Eu. pose proof (renew_id _ (can_mulnum (ueval so e) r)) as Rn. unfold renew in Rn. rewrite Rn.
        split; [cbn [umulnum uval]; rewrite (ones_val so e X3); ring|].
        pose proof (dim_of_expr so e l t m i th X1 X2) as D. unfold has_dimension in *. rewrite !exp_mulnum by apply ueval_canonical.
        destruct D as (D1 & D2 & D3 & D4 & D5 & D6). repeat (split; [assumption|]). intros dd Hdd. rewrite exp_mulnum by apply ueval_canonical. auto. }
      assert (R : forall names x l t m i th x', In (row names x l t m i th) astro_values -> In n names -> x = x' ->
                has_value (k_unit c) x' (l, t, m, i, th) -> exists row, In row (values_of Astro) /\ In n (fst row) /\ has_value (k_unit c) (fst (snd row)) (snd (snd row))).
      { intros names x l t m i th x' Hi Hin <- Hv. exists (row names x l t m i th). auto. }
      clear O. unfold astro_names in Hn. cbn [map hd] in Hn.
      destruct Hn as [<-|Hn]; [astro_entry E c K R so b 0%nat "M_⊕" u_kg (597217 * 10 ^ 19) e_kg "Earth mass"|].
      destruct Hn as [<-|Hn]; [astro_entry E c K R so b 1%nat "R_⊕" u_m (63781366 / 10) e_m "Earth equatorial radius"|].
      destruct Hn as [<-|Hn]; [astro_entry E c K R so b 2%nat "M_♃" u_kg (1898125 * 10 ^ 21) e_kg "Jupiter mass"|].
      destruct Hn as [<-|Hn]; [astro_entry E c K R so b 3%nat "R_♃" u_m 71492000 e_m "Jupiter equatorial radius"|].
      destruct Hn as [<-|Hn]; [astro_entry E c K R so b 4%nat "M_☉" u_kg (198847 * 10 ^ 25) e_kg "solar mass"|].
      destruct Hn as [<-|Hn]; [astro_entry E c K R so b 5%nat "R_☉" u_m (6957 * 10 ^ 5) e_m "solar radius"|].
      destruct Hn as [<-|Hn]; [astro_entry E c K R so b 6%nat "L_☉" (u_W so) (3828 * 10 ^ 23) e_W "solar luminosity"|].
      contradiction.
Qed.

Lemma run_good so xs rs p : run so xs initial_state = (rs, p) ->
  exists w, Good so p w /\ Forall2 (fun x r => access_res so w x r) xs rs.
Proof.
  intros E. destruct (run_ok so (pure_total so _ nonzero_2018) (pure_total so _ nonzero_2014) xs initial_state (mkView None None None) rs p (good_init so) E)
    as (w & G & _ & F). eauto.
Qed.
Lemma forall2_nth {X Y} (P : X -> Y -> Prop) xs ys i x : Forall2 P xs ys -> nth_error xs i = Some x -> exists y, nth_error ys i = Some y /\ P x y.
Proof.
  intros F. revert i. induction F as [|a b xs ys H F IH]; intros [|i] E; try discriminate.
  - injection E as <-. exists b. auto.
  - apply IH, E.
Qed.

(** In any history of accesses to the package ([constants.x], [constants.codata2014.x], [constants.default.x], ...),
    every access that names a constant returns one with the name and the value of its table, whatever happened before ... *)
Theorem C51_value_in_any_history : forall so xs rs p i x, run so xs initial_state = (rs, p) -> nth_error xs i = Some x ->
  match denotes x with
  | Some (s, n) => exists c, nth_error rs i = Some (Some (OConst c)) /\ k_name c = n /\
       exists row, In row (values_of s) /\ In n (fst row) /\ has_value (k_unit c) (fst (snd row)) (snd (snd row))
  | None => exists r, nth_error rs i = Some r /\ forall c, r <> Some (OConst c)
  end.
Proof.
  intros so xs rs p i x E Hx. destruct (run_good so xs rs p E) as (w & G & F).
  destruct (forall2_nth _ _ _ _ _ F Hx) as (r & Hr & A). unfold access_res in A. destruct (denotes x) as [[s n]|].
  - destruct A as (c & -> & L). exists c. split; [exact Hr|]. exact (live_value so p w (s, n) c G L).
  - eauto.
Qed.
Print Assumptions C51_value_in_any_history.

(** ... and two accesses of one history return the same object exactly when they denote the same constant of the same table. *)
Theorem C51_one_object_per_constant : forall so xs rs p i j x y k k', run so xs initial_state = (rs, p) ->
  nth_error xs i = Some x -> nth_error xs j = Some y -> denotes x = Some k -> denotes y = Some k' ->
  exists c c', nth_error rs i = Some (Some (OConst c)) /\ nth_error rs j = Some (Some (OConst c')) /\
    (k = k' -> c = c') /\ (k <> k' -> k_id c <> k_id c').
Proof.
  intros so xs rs p i j x y k k' E Hx Hy Dx Dy. destruct (run_good so xs rs p E) as (w & G & F).
  destruct (forall2_nth _ _ _ _ _ F Hx) as (r & Hr & A). destruct (forall2_nth _ _ _ _ _ F Hy) as (r' & Hr' & B).
  unfold access_res in A, B. rewrite Dx in A. rewrite Dy in B. destruct A as (c & -> & L). destruct B as (c' & -> & L').
  exists c, c'. split; [exact Hr|]. split; [exact Hr'|]. split.
  - intros <-. eapply live_fun; eauto.
  - intros N Q. apply N. eapply live_inj; eauto.
Qed.
Print Assumptions C51_one_object_per_constant.

(** The derived constants of both tables agree with the values recommended by CODATA. *)
Lemma PI_bounds : 3.14159265358979 < PI < 3.14159265358980.
Proof.
  pose proof (PI_2_3_7_ineq 7) as [H1 H2]. cbn [Nat.mul Nat.add] in H1, H2.
  cbv [sum_f_R0 tg_alt PI_2_3_7_tg Ratan_seq Nat.mul Nat.add] in H1, H2. cbn [pow INR] in H1, H2. split; lra.
Qed.
Lemma pow_bounds n : 3.14159265358979 ^ n <= PI ^ n <= 3.14159265358980 ^ n.
Proof. pose proof PI_bounds. split; apply pow_incr; lra. Qed.

Definition rec_ok (v : codata_vals) (e : string * (R * R)) : Prop :=
  exists row, In row (textbook v) /\ In (fst e) (fst row) /\ Rabs (fst (snd row) - fst (snd e)) <= snd (snd e).
Lemma rec_intro v n x e (k : nat) r d : nth_error (textbook v) k = Some (r, (d, x)) -> In n r -> Rabs (d - fst e) <= snd e -> rec_ok v (n, e).
Proof. intros H1 H2 H3. exists (r, (d, x)). split; [eapply nth_error_In; eauto|]. split; [exact H2|exact H3]. Qed.
Lemma inv_pi n : PI ^ n <> 0. Proof. apply pow_nonzero, PI_neq. Qed.


Lemma rat_bounds (n : nat) (a q t lo hi : R) : lo <= PI ^ n <= hi -> 0 <= a -> q - t <= a * lo -> a * hi <= q + t -> Rabs (a * PI ^ n - q) <= t.
Proof. intros [H1 H2] Ha L U. apply Rabs_le. pose proof (Rmult_le_compat_l a _ _ Ha H1). pose proof (Rmult_le_compat_l a _ _ Ha H2). lra. Qed.
Lemma rat_bounds_inv (n : nat) (a q t lo hi : R) : 0 < lo -> lo <= PI ^ n <= hi -> 0 <= a -> a <= (q + t) * lo -> (q - t) * hi <= a -> 0 <= q - t -> Rabs (a / PI ^ n - q) <= t.
Proof.
  intros H0 [H1 H2] Ha L U Hq. pose proof (inv_pi n). assert (0 < PI ^ n) by lra. 
  assert (0 <= q + t).
  { destruct (Rle_lt_dec 0 (q + t)); [assumption|]. exfalso. pose proof (Rmult_lt_0_compat (- (q + t)) lo). lra. }
  apply Rabs_le. split.
  - apply Rplus_le_reg_r with q. replace (- t + q) with (q - t) by ring. replace (a / PI ^ n - q + q) with (a / PI ^ n) by ring.
    apply Rmult_le_reg_r with (PI ^ n); [assumption|]. replace (a / PI ^ n * PI ^ n) with a by (field; assumption).
    pose proof (Rmult_le_compat_l (q - t) _ _ Hq H2). lra.
  - apply Rplus_le_reg_r with q. replace (t + q) with (q + t) by ring. replace (a / PI ^ n - q + q) with (a / PI ^ n) by ring.
    apply Rmult_le_reg_r with (PI ^ n); [assumption|]. replace (a / PI ^ n * PI ^ n) with a by (field; assumption).
    pose proof (Rmult_le_compat_l (q + t) _ _ H4 H1). lra.
Qed.
Lemma rat_plain (a q t : R) : q - t <= a -> a <= q + t -> Rabs (a - q) <= t.
Proof. intros. apply Rabs_le. lra. Qed.
Ltac nz := repeat match goal with |- _ /\ _ => split | |- ?x <> 0 => first [assumption|apply PI_neq|lra] end.
Section Forms.
Context (c h k e al me : R) (Hc : c <> 0) (Hh : h <> 0) (Hk : k <> 0) (He : e <> 0) (Hal : al <> 0) (Hm : me <> 0).
Lemma f_hbar : h / (2 * PI) = h / 2 / PI ^ 1. Proof. field. nz. Qed.
Lemma f_mu0 : 4 * PI * al * (h / (2 * PI)) / (e ^ 2 * c) = 2 * al * h / (e ^ 2 * c). Proof. field. nz. Qed.
Lemma f_eps0 : 1 / (4 * PI * al * (h / (2 * PI)) / (e ^ 2 * c) * c ^ 2) = e ^ 2 / (2 * al * h * c). Proof. field. nz. Qed.
Lemma f_mag : e * (h / (2 * PI)) / (2 * me) = e * h / (4 * me) / PI ^ 1. Proof. field. nz. Qed.
Lemma f_ryd : me * e ^ 4 / (8 * (1 / (4 * PI * al * (h / (2 * PI)) / (e ^ 2 * c) * c ^ 2)) ^ 2 * h ^ 3 * c) = me * al ^ 2 * c / (2 * h).
Proof. field. nz. Qed.
Lemma f_a0 : 4 * PI * (1 / (4 * PI * al * (h / (2 * PI)) / (e ^ 2 * c) * c ^ 2)) * (h / (2 * PI)) ^ 2 / (me * e ^ 2) = h / (2 * al * c * me) / PI ^ 1.
Proof. field. nz. Qed.
Lemma f_sige : 8 * PI / 3 * (e ^ 2 / (4 * PI * (1 / (4 * PI * al * (h / (2 * PI)) / (e ^ 2 * c) * c ^ 2)) * me * c ^ 2)) ^ 2
  = 2 / 3 * (al * h / (me * c)) ^ 2 / PI ^ 1.
Proof. field. nz. Qed.
Lemma f_sig : 2 * PI ^ 5 * k ^ 4 / (15 * h ^ 3 * c ^ 2) = 2 * k ^ 4 / (15 * h ^ 3 * c ^ 2) * PI ^ 5. Proof. field. nz. Qed.
End Forms.
Ltac recrow i := eapply (rec_intro _ _ _ _ i); [reflexivity|left; reflexivity|];
  cbn [fst snd v_c v_h v_k v_e v_alpha v_m_e v_m_p codata2018_vals codata2014_vals].
Ltac prow := apply rat_plain; lra.
Ltac irow := apply (rat_bounds_inv 1) with (2 := pow_bounds 1); lra.
Lemma recommended_2018_l : Forall (rec_ok codata2018_vals) recommended2018.
Proof.
  unfold recommended2018. repeat apply Forall_cons; [..|apply Forall_nil].
  - recrow 13%nat. rewrite f_hbar. irow.
  - recrow 14%nat. rewrite f_mu0 by lra. prow.
  - recrow 15%nat. rewrite f_eps0 by lra. prow.
  - recrow 16%nat. rewrite f_mag by lra. irow.
  - recrow 17%nat. rewrite f_mag by lra. irow.
  - recrow 18%nat. rewrite f_ryd by lra. prow.
  - recrow 19%nat. rewrite f_a0 by lra. irow.
  - recrow 20%nat. rewrite f_sige by lra. irow.
  - recrow 21%nat. rewrite f_sig by lra. apply (rat_bounds 5 _ _ _ _ _ (pow_bounds 5)); lra.
  - recrow 22%nat. prow.
  - recrow 23%nat. prow.
Qed.
Lemma recommended_2014_l : Forall (rec_ok codata2014_vals) recommended2014.
Proof.
  unfold recommended2014. repeat apply Forall_cons; [..|apply Forall_nil].
  - recrow 13%nat. rewrite f_hbar. irow.
  - recrow 16%nat. rewrite f_mag by lra. irow.
  - recrow 17%nat. rewrite f_mag by lra. irow.
  - recrow 18%nat. rewrite f_ryd by lra. prow.
  - recrow 19%nat. rewrite f_a0 by lra. irow.
  - recrow 20%nat. rewrite f_sige by lra. irow.
  - recrow 21%nat. rewrite f_sig by lra. apply (rat_bounds 5 _ _ _ _ _ (pow_bounds 5)); lra.
  - recrow 22%nat. prow.
  - recrow 23%nat. prow.
Qed.

Lemma live_num so p w s n c : Good so p w -> live so w (s, n) c -> forall row, In row (values_of s) -> In n (fst row) ->
  (s = CODATA2018 \/ s = CODATA2014) -> uval (k_unit c) = fst (snd row).
Proof.
  intros G L row H1 H2 Hs. destruct (live_value so p w (s, n) c G L) as (_ & row' & H3 & H4 & H5). cbn [fst snd] in *.
  assert (row' = row).
  { destruct Hs as [-> | ->]; [apply (row_unique codata2018_vals n)|apply (row_unique codata2014_vals n)]; assumption. }
  subst row'. destruct (snd row) as [x ((((l, t), m), i), th)]. cbn [fst]. exact (proj1 H5).
Qed.
(** The derived constants a user reads, at whatever point of whatever history, agree with the values recommended by CODATA. *)
Theorem C51_recommended_values : forall so xs rs p i x s n q t, run so xs initial_state = (rs, p) -> nth_error xs i = Some x ->
  denotes x = Some (s, n) ->
  (s = CODATA2018 /\ In (n, (q, t)) recommended2018 \/ s = CODATA2014 /\ In (n, (q, t)) recommended2014) ->
  exists c, nth_error rs i = Some (Some (OConst c)) /\ Rabs (uval (k_unit c) - q) <= t.
Proof.
  intros so xs rs p i x s n q t E Hx D Hs. destruct (run_good so xs rs p E) as (w & G & F).
  destruct (forall2_nth _ _ _ _ _ F Hx) as (r & Hr & A). unfold access_res in A. rewrite D in A. destruct A as (c & -> & L).
  exists c. split; [exact Hr|]. pose proof recommended_2018_l as R18. pose proof recommended_2014_l as R14. rewrite Forall_forall in R18, R14.
  destruct Hs as [[-> Hi]|[-> Hi]]; [specialize (R18 _ Hi)|specialize (R14 _ Hi)].
  - destruct R18 as (row & H1 & H2 & H3). cbn [fst snd] in *. rewrite (live_num so p w _ _ _ G L row H1 H2) by auto. exact H3.
  - destruct R14 as (row & H1 & H2 & H3). cbn [fst snd] in *. rewrite (live_num so p w _ _ _ G L row H1 H2) by auto. exact H3.
Qed.
Print Assumptions C51_recommended_values.

(** Wien's displacement constants are where Planck's spectra peak: at temperature T the spectral radiance per wavelength,
    proportional to 1/(lambda^5 (exp (h c/(lambda k T)) - 1)), has one maximum, at lambda T within 10^-18 (relative) of [b];
    the radiance per frequency, proportional to nu^3/(exp (h nu/(k T)) - 1), has one at nu / T within 10^-18 of [b_prime]. *)
Definition radiance_lambda (v : codata_vals) (T lam : R) : R := 1 / (lam ^ 5 * (exp (v_h v * v_c v / (lam * (v_k v * T))) - 1)).
Definition radiance_nu (v : codata_vals) (T nu : R) : R := nu ^ 3 / (exp (v_h v * nu / (v_k v * T)) - 1).
Lemma rpower_pow (n : nat) x : 0 < x -> Rpower x (INR n) = x ^ n. Proof. apply Rpower_pow. Qed.
Lemma instance_num so v history n row c s' : nonzero_vals v -> get_attr so v max_depth n (instance_after so v history (0%nat, [])) = Some (c, s') ->
  In row (textbook v) -> In n (fst row) -> uval (k_unit c) = fst (snd row).
Proof.
  intros Hv E H1 H2. pose proof (C51_any_codata_set so v history n Hv) as H. rewrite E in H. destruct H as (row' & H3 & H4 & U & _ & H5).
  rewrite (U row H1 H2). destruct (snd row') as [x ((((l, t), m), i), th)]. cbn [fst]. exact (proj1 H5).
Qed.
Theorem C51_wien_wavelength : forall so v history c s' T, nonzero_vals v -> 0 < v_h v -> 0 < v_c v -> 0 < v_k v -> 0 < T ->
  get_attr so v max_depth "b" (instance_after so v history (0%nat, [])) = Some (c, s') ->
  exists peak, 0 < peak /\ (forall lam, 0 < lam -> lam <> peak -> radiance_lambda v T lam < radiance_lambda v T peak) /\
    Rabs (uval (k_unit c) - peak * T) <= peak * T / 10 ^ 18.
Proof.
  intros so v history c s' T Hv Hh Hc Hk HT E.
  rewrite (instance_num so v history "b" (nth 22 (textbook v) (row [] 0 0 0 0 0 0)) c s' Hv E); [|apply nth_In; cbn; lia|left; reflexivity].
  cbn [nth textbook row fst snd]. destruct wien_wavelength as (x0 & M & B).
  assert (B' : - (1 / 10 ^ 18) <= x0 - 4965114231744276303 / 10 ^ 18 <= 1 / 10 ^ 18) by (split; [pose proof (Rle_abs (- (x0 - 4965114231744276303 / 10 ^ 18))); rewrite Rabs_Ropp in *; lra|pose proof (Rle_abs (x0 - 4965114231744276303 / 10 ^ 18)); lra]).
  assert (Hx : 1 < x0) by lra. set (A := v_h v * v_c v / (v_k v * T)).
  assert (HA : 0 < A) by (unfold A; apply Rdiv_lt_0_compat; apply Rmult_lt_0_compat; assumption).
  exists (A / x0). assert (HP : 0 < A / x0) by (apply Rdiv_lt_0_compat; lra). split; [exact HP|].
  assert (Q : forall lam, 0 < lam -> radiance_lambda v T lam = planck 5 (A / lam) / A ^ 5).
  { intros lam Hl. assert (0 < A / lam) by (apply Rdiv_lt_0_compat; assumption). unfold radiance_lambda, planck.
    replace (v_h v * v_c v / (lam * (v_k v * T))) with (A / lam) by (unfold A; field; repeat apply conj; lra).
    replace 5 with (INR 5) by (cbn; lra). rewrite Rpower_pow by assumption. pose proof (exp_ineq1 (A / lam) ltac:(lra)). field. repeat apply conj; lra. }
  split.
  - intros lam Hl Ne. rewrite !Q by assumption. replace (A / (A / x0)) with x0 by (field; lra).
    apply Rmult_lt_compat_r; [apply Rinv_0_lt_compat, pow_lt, HA|]. apply M; [apply Rdiv_lt_0_compat; assumption|].
    intros X. apply Ne. rewrite <- X. field. split; lra.
  - replace (v_h v * v_c v / (v_k v * (4965114231744276303 / 10 ^ 18))) with (A / x0 * T * (x0 / (4965114231744276303 / 10 ^ 18)))
      by (unfold A; field; repeat apply conj; lra).
    assert (0 < A / x0 * T) by (apply Rmult_lt_0_compat; assumption).
    replace (A / x0 * T * (x0 / (4965114231744276303 / 10 ^ 18)) - A / x0 * T) with (A / x0 * T * ((x0 - 4965114231744276303 / 10 ^ 18) / (4965114231744276303 / 10 ^ 18))) by (field; lra).
    rewrite Rabs_mult, Rabs_right by lra. unfold Rdiv at 3. apply Rmult_le_compat_l; [lra|]. apply Rabs_le. split; lra.
Qed.
Print Assumptions C51_wien_wavelength.
Theorem C51_wien_frequency : forall so v history c s' T, nonzero_vals v -> 0 < v_h v -> 0 < v_k v -> 0 < T ->
  get_attr so v max_depth "b_prime" (instance_after so v history (0%nat, [])) = Some (c, s') ->
  exists peak, 0 < peak /\ (forall nu, 0 < nu -> nu <> peak -> radiance_nu v T nu < radiance_nu v T peak) /\
    Rabs (peak / T - uval (k_unit c)) <= uval (k_unit c) / 10 ^ 18.
Proof.
  intros so v history c s' T Hv Hh Hk HT E.
  rewrite (instance_num so v history "b_prime" (nth 23 (textbook v) (row [] 0 0 0 0 0 0)) c s' Hv E); [|apply nth_In; cbn; lia|left; reflexivity].
  cbn [nth textbook row fst snd]. destruct wien_frequency as (x0 & M & B).
  assert (B' : - (1 / 10 ^ 18) <= x0 - 2821439372122078893 / 10 ^ 18 <= 1 / 10 ^ 18) by (split; [pose proof (Rle_abs (- (x0 - 2821439372122078893 / 10 ^ 18))); rewrite Rabs_Ropp in *; lra|pose proof (Rle_abs (x0 - 2821439372122078893 / 10 ^ 18)); lra]).
  assert (Hx : 1 < x0) by lra. set (A := v_h v / (v_k v * T)).
  assert (HA : 0 < A) by (unfold A; apply Rdiv_lt_0_compat; [|apply Rmult_lt_0_compat]; assumption).
  exists (x0 / A). assert (HP : 0 < x0 / A) by (apply Rdiv_lt_0_compat; lra). split; [exact HP|].
  assert (Q : forall nu, 0 < nu -> radiance_nu v T nu = planck 3 (nu * A) / A ^ 3).
  { intros nu Hl. assert (0 < nu * A) by (apply Rmult_lt_0_compat; assumption). unfold radiance_nu, planck.
    replace (v_h v * nu / (v_k v * T)) with (nu * A) by (unfold A; field; repeat apply conj; lra).
    replace 3 with (INR 3) by (cbn; lra). rewrite Rpower_pow by assumption. pose proof (exp_ineq1 (nu * A) ltac:(lra)). field. repeat apply conj; lra. }
  split.
  - intros nu Hl Ne. rewrite !Q by assumption. replace (x0 / A * A) with x0 by (field; lra).
    apply Rmult_lt_compat_r; [apply Rinv_0_lt_compat, pow_lt, HA|]. apply M; [apply Rmult_lt_0_compat; assumption|].
    intros X. apply Ne. rewrite <- X. field. lra.
  - replace (x0 / A / T) with (x0 * (v_k v / v_h v)) by (unfold A; field; repeat apply conj; lra).
    replace (2821439372122078893 / 10 ^ 18 * v_k v / v_h v) with (2821439372122078893 / 10 ^ 18 * (v_k v / v_h v)) by (field; lra).
    assert (0 < v_k v / v_h v) by (apply Rdiv_lt_0_compat; assumption).
    replace (x0 * (v_k v / v_h v) - 2821439372122078893 / 10 ^ 18 * (v_k v / v_h v)) with ((v_k v / v_h v) * (x0 - 2821439372122078893 / 10 ^ 18)) by (field; lra).
    rewrite Rabs_mult, Rabs_right by lra. apply Rle_trans with (v_k v / v_h v * (2821439372122078893 / 10 ^ 18 / 10 ^ 18)); [|lra].
    apply Rmult_le_compat_l; [lra|]. apply Rabs_le. split; lra.
Qed.
Print Assumptions C51_wien_frequency.

(** *** The hypotheses are met: a history mixing both tables, aliases, the astronomical table and a name nobody has. *)
Example C51_nonvacuous : forall so, exists rs p,
  run so [Top "hbar"; Dot "codata2014" "h"; Top "nothing"; Dot "default" "ħ"; Top "solarMass"] initial_state = (rs, p) /\
  map denotes [Top "hbar"; Dot "codata2014" "h"; Top "nothing"; Dot "default" "ħ"; Top "solarMass"] =
    [Some (CODATA2018, "ħ"); Some (CODATA2014, "h"); None; Some (CODATA2018, "ħ"); Some (Astro, "M_☉")] /\
  exists c0 c1 c4, rs = [Some (OConst c0); Some (OConst c1); nth 2 rs None; Some (OConst c0); Some (OConst c4)] /\
    uval (k_unit c1) = 6626070040 / 10 ^ 43 /\ Rabs (uval (k_unit c0) - 1.054571817 * / 10 ^ 34) <= / 10 ^ 43.
Proof.
  intros so. set (xs := [Top "hbar"; Dot "codata2014" "h"; Top "nothing"; Dot "default" "ħ"; Top "solarMass"]).
  destruct (run so xs initial_state) as [rs p] eqn:E. exists rs, p. split; [reflexivity|].
  assert (D : map denotes xs = [Some (CODATA2018, "ħ"); Some (CODATA2014, "h"); None; Some (CODATA2018, "ħ"); Some (Astro, "M_☉")])
    by (vm_compute; reflexivity). split; [exact D|]. 
  assert (D0 : denotes (Top "hbar") = Some (CODATA2018, "ħ")) by (vm_compute; reflexivity).
  assert (D1 : denotes (Dot "codata2014" "h") = Some (CODATA2014, "h")) by (vm_compute; reflexivity).
  assert (D3 : denotes (Dot "default" "ħ") = Some (CODATA2018, "ħ")) by (vm_compute; reflexivity).
  assert (D4 : denotes (Top "solarMass") = Some (Astro, "M_☉")) by (vm_compute; reflexivity).
  destruct (C51_one_object_per_constant so xs rs p 0 3 _ _ _ _ E eq_refl eq_refl D0 D3) as (c0 & c3 & R0 & R3 & Q & _).
  specialize (Q eq_refl). subst c3.
  pose proof (C51_value_in_any_history so xs rs p 1 _ E eq_refl) as H1. rewrite D1 in H1. destruct H1 as (c1 & R1 & _ & rw & V1 & V2 & V3).
  pose proof (C51_value_in_any_history so xs rs p 4 _ E eq_refl) as H4. rewrite D4 in H4. destruct H4 as (c4 & R4 & _).
  destruct (C51_recommended_values so xs rs p 0 _ _ _ (1.054571817 * / 10 ^ 34) (1 * / 10 ^ 43) E eq_refl D0) as (c0' & R0' & B);
    [left; split; [reflexivity|left; reflexivity]|].
  assert (c0' = c0) by congruence. subst c0'. exists c0, c1, c4.
  assert (Len : List.length rs = 5%nat).
  { destruct (run_good so xs rs p E) as (w & _ & F). clear -F. change 5%nat with (List.length xs).
    induction F; cbn [List.length]; congruence. }
  split; [|split].
  - destruct rs as [|r0 [|r1 [|r2 [|r3 [|r4 [|]]]]]]; try discriminate Len. cbn [nth_error nth] in *. congruence.
  - assert (rw = nth 1 (textbook codata2014_vals) (row [] 0 0 0 0 0 0)) as ->.
    { apply (row_unique codata2014_vals "h"); [apply nth_In; cbn; lia|left; reflexivity|exact V1|exact V2]. }
    exact (proj1 V3).
  - lra.
Qed.
Print Assumptions C51_nonvacuous.
Example C51_nonvacuous_wien : forall so, nonzero_vals codata2018_vals /\ 0 < v_h codata2018_vals /\ 0 < v_c codata2018_vals /\ 0 < v_k codata2018_vals /\
  exists c s', get_attr so codata2018_vals max_depth "b" (instance_after so codata2018_vals ["hbar"; "x"] (0%nat, [])) = Some (c, s').
Proof.
  intros so. split; [exact nonzero_2018|]. unfold codata2018_vals at 1 2 3. cbn [v_h v_c v_k]. repeat (split; [lra|]).
  pose proof (C51_any_codata_set so codata2018_vals ["hbar"; "x"] "b" nonzero_2018) as H.
  destruct (get_attr so codata2018_vals max_depth "b" (instance_after so codata2018_vals ["hbar"; "x"] (0%nat, []))) as [[c s']|]; [eauto|].
  exfalso. apply H. rewrite names_eq. apply inb_spec. vm_compute. reflexivity.
Qed.
Print Assumptions C51_nonvacuous_wien.
