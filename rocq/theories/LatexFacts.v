From Coq Require Import ZArith QArith Qcanon String List Bool Reals Lra Lia.
From Verif Require Import Frac FracFacts Units UnitSpec UnitsFacts UnitsThms Prefixes PrefixSpec.
Import ListNotations.
Open Scope string_scope.
Open Scope list_scope.

(** [b] is a unit of the single dimension [d] with a positive scale. *)
Definition unit_of_dimension (b : unit_) (d : string) : Prop :=
  canonical (udim b) /\ (0 < uval b)%R /\ exponent b d = fint 1 /\ forall k, k <> d -> exponent b k = fint 0.

(** Product of the scales of the base units to the given powers. *)
Fixpoint base_scale (base : list (string * unit_)) (items : dims) : R :=
  match items with
  | [] => 1
  | (d, p) :: r => match dict_get base d with Some b => rpow (uval b) p | None => 1 end * base_scale base r
  end%R.

Lemma fint_0' : fint 0 = 0%Qc. Proof. apply Qc_is_canon. reflexivity. Qed.

Lemma base_from_items_ok so base : forall items acc,
  NoDup (map fst items) -> canonical (udim acc) ->
  Forall (fun kv => (fden (snd kv) <= max_den)%Z) items ->
  (forall d p, In (d, p) items -> exponent acc d = 0%Qc) ->
  (forall d p, In (d, p) items -> exists b, dict_get base d = Some b /\ unit_of_dimension b d) ->
  exists b, base_from_items so base items acc = Some b /\ canonical (udim b) /\
    uval b = (uval acc * base_scale base items)%R /\
    forall k, exponent b k = match dict_get items k with Some p => p | None => exponent acc k end.
Proof.
  induction items as [|[d p] items IH]; intros acc Hn Hc Hd Hz Hb; simpl.
  - exists acc. repeat split; auto; try apply Hc. ring.
  - destruct (Hb d p (or_introl eq_refl)) as (b0 & E0 & Hb1 & Hpos & Hb2 & Hb3). rewrite E0.
    simpl in Hn. inversion Hn as [|? ? Hni Hn']; subst. inversion Hd as [|? ? Hdp Hd']; subst. simpl in Hdp.
    assert (X : forall k, exponent (umul so acc (upow b0 p)) k = if String.eqb k d then p else exponent acc k).
    { intros k. rewrite exp_mul, exp_pow by exact Hb1. destruct (String.eqb_spec k d) as [->|Hk].
      - rewrite Hb2, fint_1, Qcmult_1_l, (Hz d p (or_introl eq_refl)), Qcplus_0_l.
        rewrite (limit_small p) by exact Hdp. apply limit_small, Hdp.
      - rewrite Hb3, fint_0', Qcmult_0_l by exact Hk. rewrite limit_0, Qcplus_0_r. apply exp_limit, Hc. }
    destruct (IH (umul so acc (upow b0 p))) as (b & E & Hbc & Hv & He).
    + exact Hn'.
    + apply can_mul.
    + exact Hd'.
    + intros d' p' Hi. rewrite X. destruct (String.eqb_spec d' d) as [->|Hne].
      * exfalso. apply Hni. apply in_map_iff. exists (d, p'). auto.
      * apply (Hz d' p'). right. exact Hi.
    + intros d' p' Hi. apply (Hb d' p'). right. exact Hi.
    + exists b. split; [exact E|]. split; [exact Hbc|]. split.
      * rewrite Hv. simpl. ring.
      * intros k. rewrite He, X. destruct (dict_get items k) as [q|] eqn:Eq.
        -- destruct (String.eqb_spec k d) as [->|]; [|reflexivity].
           exfalso. apply Hni. apply dict_get_in in Eq. apply in_map_iff. exists (d, q). auto.
        -- destruct (String.eqb k d); reflexivity.
Qed.

Lemma base_scale_pos base items :
  (forall d p, In (d, p) items -> exists b, dict_get base d = Some b /\ unit_of_dimension b d) ->
  (0 < base_scale base items)%R.
Proof.
  induction items as [|[d p] items IH]; intros H; simpl; [lra|].
  destruct (H d p (or_introl eq_refl)) as (b & -> & _ & Hp & _).
  apply Rmult_lt_0_compat; [|apply IH; intros d' p' Hi; apply (H d' p'); right; exact Hi].
  rewrite rpow_pos by exact Hp. apply exp_pos.
Qed.
