(** * A total function with the value of an improper integral wherever there is one *)
From Coq Require Import Reals Lra Lia.
From Coquelicot Require Import Rbar Rcomplements Lim_seq Hierarchy RInt.
From Verif Require Import EllipSpec Improper.
Open Scope R_scope.

Definition seq_improper (f : R -> R) : R := real (Lim_seq (fun n => RInt f (/ (INR n + 1)) (INR n + 1))).
Lemma seq_improper_ok f v : improper0 f v -> seq_improper f = v.
Proof.
  intros I. unfold seq_improper. rewrite (is_lim_seq_unique _ (Finite v)); [reflexivity|]. apply is_lim_seq_spec. intros e. destruct (I e (cond_pos e)) as (a0 & b0 & Pa & Hab & H).
  destruct (nfloor_ex (Rmax b0 (/ a0))) as (N & _ & HN). { apply (Rle_trans _ (/ a0)); [apply Rlt_le, Rinv_0_lt_compat, Pa|apply Rmax_r]. }
  exists (S N). intros n Hn'. apply le_INR in Hn'. rewrite S_INR in Hn'. assert (B1 : b0 < INR n + 1) by (pose proof (Rmax_l b0 (/ a0)); lra). assert (B2 : / a0 < INR n + 1) by (pose proof (Rmax_r b0 (/ a0)); lra). pose proof (Rinv_0_lt_compat _ Pa) as B3.
  destruct (H (/ (INR n + 1)) (INR n + 1)) as (w & Iw & Bw); [split; [apply Rinv_0_lt_compat; lra|rewrite <- (Rinv_inv a0) by lra; apply Rinv_lt_contravar; [apply Rmult_lt_0_compat; lra|exact B2]]|exact B1|].
  rewrite (is_RInt_unique (V := R_CompleteNormedModule) _ _ _ _ Iw). exact Bw.
Qed.
