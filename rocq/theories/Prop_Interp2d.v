(** C76: two-dimensional interpolation on a regular grid *)
From Coq Require Import List Arith ZArith Lia Bool Reals Lra Psatz.
From Verif Require Import Interp2d.
Import ListNotations.
Open Scope R_scope.

(** ** Specification: interpolation linear in each variable between the values a, b, c, d at the corners of a cell *)
Definition bilinear (a b c d s t : R) : R := (1 - t) * ((1 - s) * a + s * b) + t * ((1 - s) * c + s * d).
(** the position of node i of n when the first and last are at the ends of the extent, and when they are in the middle of n equal cells *)
Definition node (e : R * R) (n : nat) (i : R) : R := fst e + i * ((snd e - fst e) / (INR n - 1)).
Definition centre (e : R * R) (n : nat) (i : R) : R := fst e + (i + 1/2) * ((snd e - fst e) / INR n).
Definition position (align : bool) (e : R * R) (n : nat) (i : R) : R := if align then node e n i else centre e n i.

Lemma position_ok align e n u : (2 <= n)%nat -> fst e <> snd e -> unnormalise align n (normalise e (position align e n u)) = u.
Proof.
  intros Hn He. assert (N : 2 <= INR n) by (apply (le_INR 2) in Hn; cbn [INR] in Hn; lra). unfold unnormalise, normalise, position, node, centre. destruct align; field; lra.
Qed.
Lemma int_part_ok i s : 0 <= s < 1 -> Int_part (IZR i + s) = i.
Proof. intros H. unfold Int_part. assert (E : (i + 1)%Z = up (IZR i + s)) by (apply tech_up; rewrite plus_IZR; lra). lia. Qed.
Lemma pixel_in H W im (h w : nat) : (h < H)%nat -> (w < W)%nat -> pixel H W im (Z.of_nat h) (Z.of_nat w) = im h w.
Proof. intros. unfold pixel. rewrite (proj2 (Z.leb_le _ _)), (proj2 (Z.ltb_lt _ _)), (proj2 (Z.leb_le _ _)), (proj2 (Z.ltb_lt _ _)), !Nat2Z.id by lia. reflexivity. Qed.

(** one axis: the two neighbours and their weights *)
Lemma axis (P : Z -> R) (i : nat) s ix : 0 <= s <= 1 -> ix = INR i + s ->
  P (Int_part ix) * (1 - (ix - IZR (Int_part ix))) + P (Int_part ix + 1)%Z * (ix - IZR (Int_part ix)) = (1 - s) * P (Z.of_nat i) + s * P (Z.of_nat (S i)).
Proof.
  intros Hs ->. rewrite INR_IZR_INZ. replace (Z.of_nat (S i)) with (Z.of_nat i + 1)%Z by lia. destruct (Rlt_dec s 1) as [L|L].
  - rewrite (int_part_ok (Z.of_nat i) s) by lra. ring.
  - assert (s = 1) by lra. subst s. replace (IZR (Z.of_nat i) + 1) with (IZR (Z.of_nat i + 1) + 0) by (rewrite plus_IZR; ring). rewrite int_part_ok by lra. ring.
Qed.
Lemma sample_cell align H W im i j s t gx gy : (S i < W)%nat -> (S j < H)%nat -> 0 <= s <= 1 -> 0 <= t <= 1 ->
  unnormalise align W gx = INR i + s -> unnormalise align H gy = INR j + t ->
  grid_sample align H W im gx gy = bilinear (im j i) (im j (S i)) (im (S j) i) (im (S j) (S i)) s t.
Proof.
  intros Hi Hj Hs Ht EX EY. unfold grid_sample. cbv zeta. set (ix := unnormalise align W gx) in *. set (iy := unnormalise align H gy) in *.
  pose proof (axis (fun w => pixel H W im (Int_part iy) w) i s ix Hs EX) as A1. pose proof (axis (fun w => pixel H W im (Int_part iy + 1) w) i s ix Hs EX) as A2. cbv beta in A1, A2.
  pose proof (axis (fun h => (1 - s) * pixel H W im h (Z.of_nat i) + s * pixel H W im h (Z.of_nat (S i))) j t iy Ht EY) as B. cbv beta in B.
  rewrite !pixel_in in B by lia. unfold bilinear. rewrite <- A1, <- A2 in B. set (u := ix - IZR (Int_part ix)) in *. set (v := iy - IZR (Int_part iy)) in *. lra.
Qed.

Section C76.
Variables (align : bool) (x y z r : tensor) (ex ey : R * R) (zb : list nat) (Nx Ny : nat).
Hypothesis Hex : fst ex <> snd ex.
Hypothesis Hey : fst ey <> snd ey.
Hypothesis Hz : shape z = zb ++ [Nx; Ny].
Hypothesis Hr : interp2d align x y z ex ey = Some r.
(** the grid of values that belongs to an index of the result *)
Let V (idx : list nat) (i j : nat) : R := at_ z (bidx zb idx ++ [i; j]).
Lemma result_at idx : at_ r idx = grid_sample align Ny Nx (fun h w => V idx w h) (normalise ex (bget x idx)) (normalise ey (bget y idx)).
Proof.
  clear Hex Hey. unfold interp2d in Hr. rewrite Hz, rev_app_distr in Hr. cbn [rev app] in Hr. destruct (broadcast_shapes _ _); [|discriminate]. destruct (broadcast_shapes _ _) as [batch|]; [|discriminate]. destruct (expandable _ _); [|discriminate]. destruct batch; [discriminate|].
  injection Hr as <-. cbn [at_]. rewrite rev_involutive. reflexivity.
Qed.
(** Inside a cell of the grid the result is the bilinear interpolation of the four values around it; at the nodes it is the value there.
    With align_corners the nodes divide the extent evenly, ends included; by default they are in the middle of Nx (Ny) equal parts of it. *)
Theorem C76_cell idx i j s t : (S i < Nx)%nat -> (S j < Ny)%nat -> 0 <= s <= 1 -> 0 <= t <= 1 ->
  bget x idx = position align ex Nx (INR i + s) -> bget y idx = position align ey Ny (INR j + t) ->
  at_ r idx = bilinear (V idx i j) (V idx (S i) j) (V idx i (S j)) (V idx (S i) (S j)) s t.
Proof.
  intros Hi Hj Hs Ht EX EY. rewrite result_at, EX, EY. apply (sample_cell align Ny Nx (fun h w => V idx w h)); try assumption; apply position_ok; try assumption; lia.
Qed.
Lemma split_node (n i : nat) : (2 <= n)%nat -> (i < n)%nat -> exists k s, (S k < n)%nat /\ INR i = INR k + s /\ (s = 0 /\ i = k \/ s = 1 /\ i = S k).
Proof.
  intros Hn Hi. destruct (Nat.lt_ge_cases (S i) n) as [L|L]; [exists i, 0; repeat split; [exact L|ring|left; auto]|]. destruct i as [|k]; [lia|]. exists k, 1. rewrite S_INR. repeat split; [lia|]. right; auto.
Qed.
Theorem C76_nodes idx i j : (2 <= Nx)%nat -> (2 <= Ny)%nat -> (i < Nx)%nat -> (j < Ny)%nat ->
  bget x idx = position align ex Nx (INR i) -> bget y idx = position align ey Ny (INR j) -> at_ r idx = V idx i j.
Proof.
  intros HX HY Hi Hj EX EY. destruct (split_node Nx i HX Hi) as (k & s & K1 & K2 & K3). destruct (split_node Ny j HY Hj) as (l & t & L1 & L2 & L3). rewrite K2 in EX. rewrite L2 in EY.
  rewrite (C76_cell idx k l s t K1 L1 ltac:(destruct K3; lra) ltac:(destruct L3; lra) EX EY). unfold bilinear. destruct K3 as [[-> ->]|[-> ->]], L3 as [[-> ->]|[-> ->]]; ring.
Qed.
(** A function that is linear in each variable is reproduced everywhere between the first and the last node. *)
Lemma cell_of (n : nat) u : (2 <= n)%nat -> 0 <= u <= INR n - 1 -> exists k s, (S k < n)%nat /\ 0 <= s <= 1 /\ u = INR k + s.
Proof.
  intros Hn. induction n as [|n IH]; [lia|]. intros Hu. rewrite S_INR in Hu. destruct (Nat.eq_dec n 1) as [->|N]; [exists O, u; cbn [INR] in *; repeat split; try lia; lra|].
  destruct (Rle_lt_dec u (INR n - 1)) as [L|L].
  - destruct (IH ltac:(lia) ltac:(lra)) as (k & s & K1 & K2 & K3). exists k, s. repeat split; try tauto; try lia; lra.
  - exists (n - 1)%nat, (u - INR (n - 1)). rewrite minus_INR by lia. cbn [INR]. repeat split; try lia; lra.
Qed.
Theorem C76_reproduces idx A B C D u v : (2 <= Nx)%nat -> (2 <= Ny)%nat ->
  (forall i j, (i < Nx)%nat -> (j < Ny)%nat -> let xi := position align ex Nx (INR i) in let yj := position align ey Ny (INR j) in V idx i j = A + B * xi + C * yj + D * xi * yj) ->
  0 <= u <= INR Nx - 1 -> 0 <= v <= INR Ny - 1 -> bget x idx = position align ex Nx u -> bget y idx = position align ey Ny v ->
  at_ r idx = A + B * bget x idx + C * bget y idx + D * bget x idx * bget y idx.
Proof.
  intros HX HY HV Hu Hv EX EY. destruct (cell_of Nx u HX Hu) as (k & s & K1 & K2 & ->). destruct (cell_of Ny v HY Hv) as (l & t & L1 & L2 & ->).
  rewrite (C76_cell idx k l s t K1 L1 K2 L2 EX EY), EX, EY, !HV by lia. cbv zeta. rewrite !S_INR. unfold bilinear, position, node, centre. destruct align; ring.
Qed.
(** The result lies between bounds of the values. *)
Theorem C76_between idx m M u v : (2 <= Nx)%nat -> (2 <= Ny)%nat -> (forall i j, (i < Nx)%nat -> (j < Ny)%nat -> m <= V idx i j <= M) ->
  0 <= u <= INR Nx - 1 -> 0 <= v <= INR Ny - 1 -> bget x idx = position align ex Nx u -> bget y idx = position align ey Ny v -> m <= at_ r idx <= M.
Proof.
  intros HX HY HV Hu Hv EX EY. destruct (cell_of Nx u HX Hu) as (k & s & K1 & K2 & ->). destruct (cell_of Ny v HY Hv) as (l & t & L1 & L2 & ->). rewrite (C76_cell idx k l s t K1 L1 K2 L2 EX EY).
  assert (W : forall a b q, m <= a <= M -> m <= b <= M -> 0 <= q <= 1 -> m <= (1 - q) * a + q * b <= M) by (intros; nra). unfold bilinear. apply W; [| |exact L2]; apply W; try exact K2; apply HV; lia.
Qed.
(** By default, at the corner of the extent the result is a quarter of the value at the first node, whatever that value: the half cells outside
    the outermost nodes are mixed with zeros. *)
Theorem C76_edge_refuted idx : align = false -> (1 <= Nx)%nat -> (1 <= Ny)%nat -> bget x idx = fst ex -> bget y idx = fst ey -> at_ r idx = V idx O O / 4.
Proof.
  intros Ha HX HY EX EY. rewrite result_at, EX, EY, Ha. unfold grid_sample. cbv zeta.
  assert (U : forall n e, fst e <> snd e -> unnormalise false n (normalise e (fst e)) = IZR (-1) + 1/2) by (intros n e He; unfold unnormalise, normalise; field; lra).
  rewrite !U by assumption. rewrite !int_part_ok by lra. change (-1 + 1)%Z with (Z.of_nat 0).
  rewrite pixel_in by lia. unfold pixel. cbn [Z.leb Z.compare andb]. rewrite Bool.andb_false_r. cbn [andb]. change (IZR (-1)) with (-1). lra.
Qed.
(** Points far outside get 0. *)
Theorem C76_outside idx u : (2 <= Nx)%nat -> u <= -1 \/ INR Nx <= u -> bget x idx = position align ex Nx u -> at_ r idx = 0.
Proof.
  intros HX Hu EX. rewrite result_at, EX. unfold grid_sample. cbv zeta. rewrite position_ok by assumption. pose proof (base_Int_part u) as [B1 B2]. set (k := Int_part u) in *.
  set (iy := unnormalise align Ny _). set (vk := Int_part iy).
  assert (Z0 : forall im h w, (w < 0 \/ Z.of_nat Nx <= w)%Z -> pixel Ny Nx im h w = 0).
  { intros im h w Hw. unfold pixel. destruct Hw as [Hw|Hw]; [rewrite (proj2 (Z.leb_gt 0 w)) by lia|rewrite (proj2 (Z.ltb_ge w _)) by lia]; rewrite ?Bool.andb_false_r; reflexivity. }
  destruct Hu as [Hu|Hu].
  - assert (K : (k <= -1)%Z) by (apply le_IZR; lra). destruct (Z.eq_dec k (-1)) as [E|N].
    + assert (u - IZR k = 0) by (rewrite E in *; change (IZR (-1)) with (-1) in *; lra). rewrite !(Z0 _ _ k) by lia. rewrite H. ring.
    + rewrite !Z0 by lia. ring.
  - assert (K : (Z.of_nat Nx <= k)%Z) by (apply Z.lt_succ_r, lt_IZR; rewrite succ_IZR, <- INR_IZR_INZ; lra). rewrite !Z0 by lia. ring.
Qed.
End C76.

(** ** What broadcasting means, for the indices and shapes above: shapes are aligned on the right, and an entry of a dimension of size 1 is used for every index. *)
Lemma bidx_rev_spec s : forall idx, (length s <= length idx)%nat ->
  length (bidx_rev s idx) = length s /\ forall k, (k < length s)%nat -> nth k (bidx_rev s idx) O = if Nat.eqb (nth k s 1%nat) 1 then O else nth k idx O.
Proof.
  induction s as [|d s IH]; intros idx H; cbn [bidx_rev length] in *; [split; [reflexivity|intros; lia]|]. destruct idx as [|i idx]; cbn [length] in H; [lia|]. destruct (IH idx ltac:(lia)) as [I1 I2]. cbn [length]. split; [lia|].
  intros [|k] Hk; [reflexivity|]. apply I2. lia.
Qed.
Theorem C76_broadcast_index s idx : (length s <= length idx)%nat ->
  length (bidx s idx) = length s /\
  forall k, (k < length s)%nat -> nth k (bidx s idx) O = if Nat.eqb (nth k s 1%nat) 1 then O else nth (length idx - length s + k) idx O.
Proof.
  intros H. destruct (bidx_rev_spec (rev s) (rev idx)) as [I1 I2]; [rewrite !rev_length; exact H|]. unfold bidx. rewrite rev_length in I1, I2. split; [rewrite rev_length; exact I1|]. intros k Hk.
  rewrite rev_nth by lia. rewrite I1, I2 by lia. rewrite !rev_nth by lia. replace (length s - S (length s - S k))%nat with k by lia. replace (length idx - S (length s - S k))%nat with (length idx - length s + k)%nat by lia. reflexivity.
Qed.
(** the k-th dimension from the right, 1 beyond the left end *)
Definition dim (a : list nat) (k : nat) : nat := nth k (rev a) 1%nat.
Lemma bc_spec a : forall b, match bc a b with
  | Some r => length r = Nat.max (length a) (length b) /\ forall k, let x := nth k a 1%nat in let y := nth k b 1%nat in (x = y \/ x = 1%nat \/ y = 1%nat) /\ nth k r 1%nat = (if Nat.eqb x 1 then y else x)
  | None => exists k, let x := nth k a 1%nat in let y := nth k b 1%nat in x <> y /\ x <> 1%nat /\ y <> 1%nat end.
Proof.
  induction a as [|x a IH]; intros b; cbn [bc]; [split; [reflexivity|intros [|k]; cbn; auto]|].
  destruct b as [|y b]; [split; [cbn; lia|]; intros k; cbv zeta; replace (nth k [] 1%nat) with 1%nat by (destruct k; reflexivity); split; [auto|]; destruct (Nat.eqb_spec (nth k (x :: a) 1%nat) 1); auto|].
  specialize (IH b). destruct (bc a b) as [r|].
  - destruct IH as [I1 I2]. assert (K : forall z, (x = y \/ x = 1%nat \/ y = 1%nat) -> z = (if Nat.eqb x 1 then y else x) -> length (z :: r) = Nat.max (length (x :: a)) (length (y :: b)) /\ forall k, let p := nth k (x :: a) 1%nat in let q := nth k (y :: b) 1%nat in (p = q \/ p = 1%nat \/ q = 1%nat) /\ nth k (z :: r) 1%nat = (if Nat.eqb p 1 then q else p)).
    { intros z H1 H2. split; [cbn [length]; lia|]. intros [|k]; [split; assumption|]. apply I2. }
    destruct (Nat.eqb_spec x y) as [E|N]; [apply K; [auto|subst; destruct (Nat.eqb_spec y 1); auto]|]. destruct (Nat.eqb_spec x 1) as [E1|N1]; [apply K; auto|]. destruct (Nat.eqb_spec y 1) as [E2|N2]; [apply K; auto|]. exists O. auto.
  - destruct IH as [k Hk]. exists (S k). exact Hk.
Qed.
Theorem C76_broadcast_shapes a b : match broadcast_shapes a b with
  | Some r => length r = Nat.max (length a) (length b) /\ forall k, (dim a k = dim b k \/ dim a k = 1%nat \/ dim b k = 1%nat) /\ dim r k = (if Nat.eqb (dim a k) 1 then dim b k else dim a k)
  | None => exists k, dim a k <> dim b k /\ dim a k <> 1%nat /\ dim b k <> 1%nat end.
Proof.
  unfold broadcast_shapes, dim. pose proof (bc_spec (rev a) (rev b)) as H. destruct (bc (rev a) (rev b)) as [r|]; cbn [option_map]; [|exact H]. rewrite !rev_length in H. rewrite rev_length, rev_involutive. exact H.
Qed.

(** ** Shapes: as long as x has at most two dimensions the result has the broadcast shape of x and y, for values without batch dimensions or with those. *)
Lemma bc_nil a : bc a [] = Some a. Proof. destruct a; reflexivity. Qed.
Lemma expandable_refl a : expandable a a = true. Proof. induction a; cbn; rewrite ?Nat.eqb_refl; auto. Qed.
Theorem C76_shape align x y z ex ey batch Nx Ny : (length (shape x) <= 2)%nat -> broadcast_shapes (shape x) (shape y) = Some batch -> batch <> [] ->
  shape z = [Nx; Ny] \/ shape z = batch ++ [Nx; Ny] -> exists r, interp2d align x y z ex ey = Some r /\ shape r = batch.
Proof.
  intros Hl Hb Hn Hz. unfold interp2d. rewrite Hb. replace (length (shape x) - 2)%nat with O by lia. cbn [firstn]. unfold broadcast_shapes at 1. cbn [rev]. rewrite bc_nil. cbn [option_map].
  assert (E : exists zb, rev (shape z) = Ny :: Nx :: zb /\ expandable zb (rev batch) = true).
  { destruct Hz as [-> | ->]; [exists []; split; reflexivity|exists (rev batch); rewrite rev_app_distr; split; [reflexivity|apply expandable_refl]]. }
  destruct E as (zb & -> & E). rewrite ?rev_involutive, E. destruct batch; [congruence|]. eexists. split; reflexivity.
Qed.
(** With three dimensions the first is broadcast against the last: unless they agree, or one of them is 1, every call is an exception *)
Theorem C76_batch_refuted align x y z ex ey a b c : shape x = [a; b; c] -> shape y = [a; b; c] -> a <> c -> a <> 1%nat -> c <> 1%nat -> interp2d align x y z ex ey = None.
Proof.
  intros Hx Hy H1 H2 H3. unfold interp2d. rewrite Hx, Hy. unfold broadcast_shapes at 1. cbn [rev app bc]. rewrite !Nat.eqb_refl. cbn [option_map rev app length Nat.sub firstn].
  unfold broadcast_shapes. cbn [rev app bc]. rewrite (proj2 (Nat.eqb_neq c a)), (proj2 (Nat.eqb_neq c 1)), (proj2 (Nat.eqb_neq a 1)) by auto. reflexivity.
Qed.
(** and when the last is 1 the result is larger than x and y. *)
Theorem C76_larger_refuted align x y z ex ey a b Nx Ny : shape x = [a; b; 1]%nat -> shape y = [a; b; 1]%nat -> shape z = [Nx; Ny] ->
  exists r, interp2d align x y z ex ey = Some r /\ shape r = [a; b; a].
Proof.
  intros Hx Hy Hz. unfold interp2d. rewrite Hx, Hy, Hz. unfold broadcast_shapes at 1. cbn [rev app bc]. rewrite !Nat.eqb_refl. cbn [option_map rev app length Nat.sub firstn].
  unfold broadcast_shapes. cbn [rev app bc]. rewrite Nat.eqb_refl. destruct (Nat.eqb 1 a) eqn:E; cbn [option_map rev app expandable]; eexists; (split; [reflexivity|]); cbn [shape]; [apply Nat.eqb_eq in E; subst|]; reflexivity.
Qed.
(** A single point, given by tensors without dimensions, is always an exception. *)
Theorem C76_scalar_refuted align x y z ex ey : shape x = [] -> shape y = [] -> interp2d align x y z ex ey = None.
Proof. intros Hx Hy. unfold interp2d. rewrite Hx, Hy. cbn. destruct (rev (shape z)) as [|? [|? zb]]; try reflexivity. destruct (expandable zb []); reflexivity. Qed.

(** A concrete case: a batch of two points in a grid of 3 by 2 over [0, 2] x [0, 1], ends included *)
Example C76_example : exists r,
  let x := Tensor [2%nat] (fun idx => match idx with [O] => 1/2 | _ => 2 end) in let y := Tensor [1%nat] (fun _ => 1/2) in
  let z := Tensor [3%nat; 2%nat] (fun idx => match idx with [i; j] => INR i + 10 * INR j | _ => 0 end) in
  interp2d true x y z (0, 2) (0, 1) = Some r /\ shape r = [2%nat] /\ at_ r [O] = 11/2 /\ at_ r [1%nat] = 7.
Proof.
  cbv zeta. set (x := Tensor [2%nat] _). set (y := Tensor [1%nat] _). set (z := Tensor [3%nat; 2%nat] _).
  destruct (C76_shape true x y z (0, 2) (0, 1) [2%nat] 3 2) as (r & Hr & Hs); [cbn; lia|reflexivity|congruence|left; reflexivity|]. exists r. split; [exact Hr|]. split; [exact Hs|].
  assert (N : (0 <> 2)%R) by lra. assert (N1 : (0 <> 1)%R) by lra. split.
  - rewrite (C76_cell true x y z r (0, 2) (0, 1) [] 3 2 N N1 eq_refl Hr [O] 0 0 (1/2) (1/2)); try lia; try lra; unfold bget, bidx, x, y, z, position, node, bilinear; cbn [shape at_ rev app bidx_rev Nat.eqb fst snd INR]; lra.
  - rewrite (C76_cell true x y z r (0, 2) (0, 1) [] 3 2 N N1 eq_refl Hr [1%nat] 1 0 1 (1/2)); try lia; try lra; unfold bget, bidx, x, y, z, position, node, bilinear; cbn [shape at_ rev app bidx_rev Nat.eqb fst snd INR]; lra.
Qed.
