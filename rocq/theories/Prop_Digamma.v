(** C73: [digamma] of a real number *)
From Coq Require Import List Arith ZArith Lia Bool Reals Lra Psatz.
From Coquelicot Require Import Rcomplements Hierarchy Derive.
From Verif Require Import EllipSpec Improper GammaSpec GammaInt GammaFun GammaFn GammaFnSpec GammaFnFacts LanczosPoly Lanczos Digamma DigammaSpec DigammaFacts.
Open Scope R_scope.

Lemma digamma_ends eps f x : 1/2 <= x -> exists v, digamma eps (S f) x = Ok v.
Proof. intros Hx. cbn [digamma]. rewrite (pos_goes_on eps x) by lra. destruct (Rlt_dec x 0.5) as [|_]; [lra|]. destruct (digamma_loop 14 x 0 0). eexists. reflexivity. Qed.
Lemma gld_nonpole x p : gamma_log_derivative x p -> nonpole x.
Proof. intros (G & r & Hr & HG & _). refine (proj1 (HG x _)). rewrite Rminus_eq_0, Rabs_R0. exact Hr. Qed.
(** Wherever it returns a number, this is the logarithmic derivative of the gamma function to an absolute error below 3e-15, which falls off away from 1/2 *)
Theorem C73_digamma eps fuel x v p :
  gamma_log_derivative x p -> digamma eps fuel x = Ok v -> Rabs (v - p) <= 425 / 10^17 / (Rmax x (1 - x) + 1).
Proof.
  intros G E. destruct fuel as [|f]; [discriminate|]. destruct (Rlt_le_dec x (1/2)) as [Hx|Hx].
  - destruct (gld_neg x p ltac:(lra) G) as [_ ->]. cbn [digamma] in E. destruct (is_int eps x && is_nonpositive x)%bool; [discriminate|]. destruct (Rlt_dec x 0.5) as [_|N]; [|lra]. destruct f as [|f]; [discriminate|].
    destruct (digamma eps (S f) (1 - x)) as [w| |] eqn:W; [|discriminate|discriminate]. injection E as <-. rewrite (digamma_right eps f (1 - x) w) by (lra || exact W). rewrite Rmax_right by lra.
    match goal with |- Rabs (?a - ?c - (?b - ?c)) <= _ => replace (a - c - (b - c)) with (a - b) by ring end. apply d_psi. lra.
  - rewrite (gld_pos x p ltac:(lra) G). rewrite (digamma_right eps f x v Hx E). rewrite Rmax_left by lra. apply d_psi, Hx.
Qed.
(** NaN exactly within 100 eps of a nonpositive integer (and not above 0); otherwise a number, after at most one recursive call *)
Theorem C73_nan eps fuel x : 0 < eps <= 1/1000 -> (2 <= fuel)%nat ->
  (digamma eps fuel x = Nan <-> x <= 0 /\ near_pole (100 * eps) x) /\ digamma eps fuel x <> Out.
Proof.
  intros He Hf. destruct fuel as [|[|f]]; try lia. pose proof (stop_iff eps x He) as SI.
  destruct (is_int eps x && is_nonpositive x)%bool eqn:B.
  - assert (Q : digamma eps (S (S f)) x = Nan) by (cbn [digamma]; rewrite B; reflexivity). rewrite Q. split; [|discriminate]. split; [intros _; apply SI; reflexivity|reflexivity].
  - assert (Q : exists v, digamma eps (S (S f)) x = Ok v).
    { destruct (Rlt_le_dec x (1/2)) as [Hx|Hx]; [|apply digamma_ends, Hx]. destruct (digamma_ends eps f (1 - x) ltac:(lra)) as [w W]. change (digamma eps (S (S f)) x) with (if (is_int eps x && is_nonpositive x)%bool then Nan else if Rlt_dec x 0.5 then match digamma eps (S f) (1 - x) with Ok v => Ok (v - PI * cos (PI * x) / sin (PI * x)) | o => o end else
        let (d, n) := digamma_loop 14 x 0 0 in let d := d + nth 0 digamma_c 0 in let zp := x + (polygamma_g - polygamma_h) in Ok (ln zp + (n / d - polygamma_g / zp))).
      rewrite B, W. destruct (Rlt_dec x 0.5) as [_|N]; [|lra]. eexists. reflexivity. }
    destruct Q as [v ->]. split; [|discriminate]. split; [discriminate|]. intros H. apply SI in H. discriminate H.
Qed.
(** The reflection formula holds exactly *)
Theorem C73_reflection eps fuel x v w : x <> 1/2 ->
  digamma eps fuel x = Ok v -> digamma eps fuel (1 - x) = Ok w -> w - v = PI * cos (PI * x) / sin (PI * x).
Proof.
  assert (H : forall y a b, y < 1/2 -> digamma eps fuel y = Ok a -> digamma eps fuel (1 - y) = Ok b -> b - a = PI * cos (PI * y) / sin (PI * y)).
  { intros y a b Hy A B. destruct fuel as [|f]; [discriminate|]. pose proof (digamma_right eps f (1 - y) b ltac:(lra) B) as ->. cbn [digamma] in A. destruct (is_int eps y && is_nonpositive y)%bool; [discriminate|]. destruct (Rlt_dec y 0.5) as [_|N]; [|lra].
    destruct f as [|f]; [discriminate|]. destruct (digamma eps (S f) (1 - y)) as [c| |] eqn:C; [|discriminate|discriminate]. injection A as <-. rewrite (digamma_right eps f (1 - y) c ltac:(lra) C). ring. }
  intros Hx V W. destruct (Rlt_le_dec x (1/2)) as [L|L]; [apply H; assumption|]. replace x with (1 - (1 - x)) in V by ring. pose proof (H (1 - x) w v ltac:(lra) W V) as E.
  replace (PI * (1 - x)) with (PI - PI * x) in E by ring. rewrite <- (sin_PI_x (PI * x)). replace (cos (PI - PI * x)) with (- cos (PI * x)) in E; [|rewrite Rtrigo_facts.cos_pi_minus; reflexivity]. unfold Rdiv in *. lra.
Qed.
(** The recurrence, and the elementary bounds *)
Theorem C73_recurrence eps fuel x v w : 0 < x ->
  digamma eps fuel x = Ok v -> digamma eps fuel (x + 1) = Ok w -> Rabs (w - v - / x) <= 5 / 10^15 /\ ln x - / x - 3 / 10^15 <= v <= ln x + 3 / 10^15.
Proof.
  intros Hx V W. destruct (gld_exists x (nonpole_pos x Hx)) as [p P]. destruct (gld_exists (x + 1) (nonpole_pos (x + 1) ltac:(lra))) as [q Q].
  pose proof (C73_digamma _ _ _ _ _ P V) as A. pose proof (C73_digamma _ _ _ _ _ Q W) as B. rewrite (gld_pos x p Hx P) in A. rewrite (gld_pos (x + 1) q ltac:(lra) Q), (psi_rec x Hx) in B. rewrite Rmax_left in B by lra. pose proof (psi_bounds x Hx) as C.
  assert (A' : 425 / 10 ^ 17 / (Rmax x (1 - x) + 1) <= 284 / 10^17). { assert (1/2 <= Rmax x (1 - x)) by (unfold Rmax; destruct (Rle_dec x (1 - x)); lra). apply (Rle_trans _ (425 / 10^17 * (2/3))); [|lra]. apply Rmult_le_compat_l; [lra|]. replace (2/3) with (/ (3/2)) by field. apply Rinv_le_contravar; lra. }
  assert (B' : 425 / 10 ^ 17 / (x + 1 + 1) <= 425 / 10^17 * (1/2)). { apply Rmult_le_compat_l; [lra|]. replace (1/2) with (/ 2) by field. apply Rinv_le_contravar; lra. }
  apply Rabs_le_between in A. apply Rabs_le_between in B. split; [apply Rabs_le_between|]; lra.
Qed.

(** ** The hypotheses are met *)
Example C73_ex_pos x : 0 < x -> exists v p, gamma_log_derivative x p /\ digamma (1/2^52) 2 x = Ok v.
Proof.
  intros Hx. destruct (gld_exists x (nonpole_pos x Hx)) as [p P]. destruct (C73_nan (1/2^52) 2 x ltac:(lra) ltac:(lia)) as [N O]. destruct (digamma (1/2^52) 2 x) as [v| |]; [exists v, p; split; [exact P|reflexivity]| |contradiction]. exfalso. assert (x <= 0) by (apply N; reflexivity). lra.
Qed.
Example C73_ex_neg n : exists v p, gamma_log_derivative (- INR n - 1/2) p /\ digamma (1/2^52) 2 (- INR n - 1/2) = Ok v.
Proof.
  set (x := - INR n - 1/2). assert (HF : forall d, 0 < d <= 1/2 -> ~ near_pole d x).
  { intros d Hd [k Hk]. unfold x in Hk. apply Rabs_lt_between in Hk. destruct (le_lt_dec k n) as [L|L]; [assert (INR k <= INR n) by (apply le_INR, L); lra|assert (INR n + 1 <= INR k) by (rewrite <- S_INR; apply le_INR, L); lra]. }
  assert (NP : nonpole x). { intros k E. apply (HF (1/2) ltac:(lra)). exists k. rewrite E. replace (- INR k + INR k) with 0 by ring. rewrite Rabs_R0. lra. }
  destruct (gld_exists x NP) as [p P]. destruct (C73_nan (1/2^52) 2 x ltac:(lra) ltac:(lia)) as [N O]. destruct (digamma (1/2^52) 2 x) as [v| |]; [exists v, p; split; [exact P|reflexivity]| |contradiction]. exfalso. assert (Q : x <= 0 /\ near_pole (100 * (1/2^52)) x) by (apply N; reflexivity). apply (HF (100 * (1/2^52)) ltac:(lra)), Q.
Qed.
