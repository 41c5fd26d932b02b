(** Sums over the triangulated octant. *)
From Coq Require Import Reals List Arith Lia Lra Psatz.
From Verif Require Import RUtil Edge_Model Edge_Proofs Elem_Proofs ME_Model Rad_Quad_Model Rad_Quad_Proofs Rad_Quad_Proofs2.
Import ListNotations.
Local Open Scope R_scope.

Lemma sumn_shift m f : sumn (S m) f = f 0%nat + sumn m (fun k => f (S k)).
Proof. induction m; [rewrite sumn_S, !sumn_0; ring|]. rewrite sumn_S, IHm, sumn_S. ring. Qed.
Lemma sumn_const m c : sumn m (fun _ => c) = INR m * c.
Proof. induction m; [rewrite sumn_0; cbn; ring|]. rewrite sumn_S, IHm, S_INR. ring. Qed.

Lemma sumn_ge m q f : (q <= m)%nat -> (forall k, (q <= k < m)%nat -> f k = 0) -> sumn m f = sumn q f.
Proof.
  intros Hq H. induction m; [replace q with 0%nat by lia; reflexivity|].
  destruct (Nat.eq_dec q (S m)) as [->|]; [reflexivity|].
  rewrite sumn_S, IHm by (try lia; intros; apply H; lia). rewrite H by lia. ring.
Qed.


Section Comb.
Variables (n : nat) (A1 A2 A3 : nat -> nat -> R) (p : R).
Hypothesis Hn : (0 < n)%nat.
Hypothesis Hp : forall k j, (k + j <= n)%nat -> A1 k j + A2 k j + A3 k j = p.
Hypothesis C1 : A1 0%nat 0%nat = p/2.
Hypothesis C2 : A2 n 0%nat = p/2.
Hypothesis C3 : A3 0%nat n = p/2.

Definition row_up j := sumn (n-j) (fun k => A1 k j + A2 (S k) j + A3 k (S j) - p).
Definition row_down j := sumn (n-j-1) (fun k => A3 (S k) j + A1 (S k) (S j) + A2 k (S j) - p).

Lemma row_total j : (j <= n)%nat ->
  sumn (S (n-j)) (fun k => A1 k j) + sumn (S (n-j)) (fun k => A2 k j) + sumn (S (n-j)) (fun k => A3 k j)
  = (INR n - INR j + 1) * p.
Proof.
  intros Hj. rewrite <- !sumn_plus.
  rewrite (sumn_ext _ _ (fun _ => p)) by (intros; apply Hp; lia).
  rewrite sumn_const, S_INR, minus_INR by lia. reflexivity.
Qed.

Lemma rows_partial J : (J < n)%nat ->
  sumn (S J) (fun j => row_up j + row_down j)
  = (INR (S J) - INR n) * p + sumn (S (n - S J)) (fun k => A3 k (S J))
    + sumn (n - S J) (fun k => A1 (S k) (S J)) + sumn (n - S J) (fun k => A2 k (S J)).
Proof.
  induction J; intros HJ.
  - rewrite sumn_S, sumn_0. unfold row_up, row_down.
    rewrite !sumn_minus, !sumn_plus, !sumn_const.
    replace (n - 0 - 1)%nat with (n - 1)%nat by lia. replace (n - 0)%nat with (S (n - 1)) by lia.
    replace (S (n - 1)) with n by lia.
    pose proof (row_total 0 ltac:(lia)) as T.
    replace (S (n - 0)) with (S n) in T by lia.
    pose proof (sumn_shift n (fun k => A2 k 0%nat)) as S2.
    pose proof (sumn_S n (fun k => A1 k 0%nat)) as S1.
    pose proof (sumn_shift n (fun k => A3 k 0%nat)) as S3.
    assert (S3' : sumn n (fun k => A3 (S k) 0%nat) = sumn (n-1) (fun k => A3 (S k) 0%nat) + A3 n 0%nat).
    { replace n with (S (n-1)) at 1 by lia. rewrite sumn_S. replace (S (n-1)) with n by lia. reflexivity. }
    cbn beta in *.
    replace (S (n-1)) with n by lia.
    pose proof (Hp 0 0 ltac:(lia)) as P0. pose proof (Hp n 0 ltac:(lia)) as Pn.
    rewrite minus_INR by lia. cbn [INR] in *. lra.
  - rewrite sumn_S, IHJ by lia. clear IHJ. unfold row_up, row_down.
    rewrite !sumn_minus, !sumn_plus, !sumn_const.
    set (j := S J) in *. set (m := (n - j)%nat).
    replace (n - j - 1)%nat with (m - 1)%nat by (unfold m; lia).
    replace (n - S j)%nat with (m - 1)%nat by (unfold m; lia).
    assert (Hm : (0 < m)%nat) by (unfold m, j; lia).
    pose proof (row_total j ltac:(lia)) as T. fold m in T.
    pose proof (sumn_shift m (fun k => A2 k j)) as S2. pose proof (sumn_S m (fun k => A2 k j)) as S2'.
    pose proof (sumn_shift m (fun k => A1 k j)) as S1. pose proof (sumn_S m (fun k => A1 k j)) as S1'.
    pose proof (sumn_shift m (fun k => A3 k j)) as S3.
    assert (S3' : sumn m (fun k => A3 (S k) j) = sumn (m-1) (fun k => A3 (S k) j) + A3 m j).
    { replace m with (S (m-1)) at 1 by lia. rewrite sumn_S. replace (S (m-1)) with m by lia. reflexivity. }
    replace (S (m-1)) with m by lia.
    pose proof (Hp 0 j ltac:(lia)) as P0. pose proof (Hp m j ltac:(unfold m; lia)) as Pm.
    cbn beta in *.
    assert (Im : INR m = INR n - INR j) by (unfold m; apply minus_INR; lia).
    rewrite minus_INR, Im by lia. rewrite (S_INR j). cbn [INR].
    lra.
Qed.

Lemma rows_all : sumn n (fun j => row_up j + row_down j) = p/2.
Proof.
  destruct n as [|m] eqn:E; [lia|]. rewrite <- E in *.
  replace (S m) with n by lia. 
  pose proof (rows_partial m ltac:(lia)) as H. replace (S m) with n in H by lia.
  rewrite H. rewrite Nat.sub_diag. rewrite sumn_S, !sumn_0. rewrite C3. lra.
Qed.
End Comb.

(** lists to sums *)
Lemma lsum_app2 {A} (f : A -> R) l1 l2 : lsum f (l1 ++ l2) = lsum f l1 + lsum f l2.
Proof. unfold lsum. induction l1 as [|x l1 IH]; cbn; [ring|]. rewrite IH. ring. Qed.
Lemma lsum_map_seq {A} (f : A -> R) (g : nat -> A) m : lsum f (map g (seq 0 m)) = sumn m (fun k => f (g k)).
Proof.
  induction m; [reflexivity|]. rewrite seq_S, map_app, sumn_S, lsum_app2, IHm. unfold lsum. cbn. ring.
Qed.
Lemma lsum_flat_seq {A} (f : A -> R) (g : nat -> list A) m :
  lsum f (flat_map g (seq 0 m)) = sumn m (fun j => lsum f (g j)).
Proof.
  induction m; [reflexivity|]. rewrite seq_S, flat_map_app, lsum_app2, IHm, sumn_S. cbn [flat_map Nat.add].
  rewrite app_nil_r. reflexivity.
Qed.

Lemma tri_sum (g : tri -> R) n : (0 < n)%nat ->
  lsum g (triangles n)
  = sumn n (fun j => sumn (n-j) (fun k => g (up_tri n j k)) + sumn (n-j-1) (fun k => g (down_tri n j k))).
Proof.
  intros Hn. unfold triangles. rewrite lsum_app2, !lsum_flat_seq.
  rewrite sumn_plus. f_equal.
  - apply sumn_ext. intros. apply lsum_map_seq.
  - rewrite (sumn_ge n (n-1)); [|lia|].
    + apply sumn_ext. intros. apply lsum_map_seq.
    + intros k Hk. replace (n - k - 1)%nat with 0%nat by lia. reflexivity.
Qed.

Lemma tscale_eta c P Q R0 : tscale c (Tri P Q R0) = Tri (vscale c P) (vscale c Q) (vscale c R0).
Proof. reflexivity. Qed.

Lemma tweight_scale c t : 0 < c -> tdet t <> 0 -> weight (tscale c t) = weight t.
Proof. destruct t. intros. apply weight_scale; assumption. Qed.

(** the octant: total weight *)
Lemma octant_total n : (0 < n)%nat -> lsum weight (triangles n) = PI/2.
Proof.
  intros Hn. rewrite tri_sum by assumption.
  rewrite <- (rows_all n (fun k j => a1 (vtx (n-j-k) k j)) (fun k j => a2 (vtx (n-j-k) k j))
    (fun k j => a3 (vtx (n-j-k) k j)) PI Hn).
  - apply sumn_ext. intros j Hj. unfold row_up, row_down. f_equal; apply sumn_ext; intros k Hk.
    + rewrite (up_tri_lat n (n-1-j-k) k j) by lia.
      rewrite tweight_scale by (try apply up_lat_det0; apply ds_pos; assumption).
      rewrite up_weight. replace (S (n-1-j-k)) with (n-j-k)%nat by lia.
      replace (n-1-j-k)%nat with (n-j-S k)%nat by lia. replace (n-S j-k)%nat with (n-j-S k)%nat by lia. reflexivity.
    + rewrite (down_tri_lat n (n-2-j-k) k j) by lia.
      rewrite tweight_scale by (try apply down_lat_det0; apply ds_pos; assumption).
      rewrite down_weight. replace (S (n-2-j-k)) with (n-j-S k)%nat by lia.
      replace (n-2-j-k)%nat with (n-S j-S k)%nat by lia. replace (n-S j-k)%nat with (n-j-S k)%nat by lia. reflexivity.
  - intros k j H. apply angles_PI. unfold vtx; cbn [vx vy vz].
    rewrite <- !plus_INR. apply lt_0_INR. lia.
  - cbn [Nat.sub]. rewrite !Nat.sub_0_r. apply corner1; assumption.
  - rewrite Nat.sub_0_r, Nat.sub_diag. apply corner2; assumption.
  - rewrite Nat.sub_diag. apply corner3; assumption.
Qed.

(** cyclic symmetry of sums over a triangular index set *)
Definition tsum (m : nat) (f : nat -> nat -> nat -> R) : R :=
  sumn (S m) (fun z => sumn (S m - z) (fun y => f (m - y - z)%nat y z)).

Definition cube (m : nat) (f : nat -> nat -> nat -> R) : R :=
  sumn (S m) (fun z => sumn (S m) (fun y => sumn (S m) (fun x =>
    if Nat.eqb (x + y + z) m then f x y z else 0))).

Lemma sumn_single m i f : (i < m)%nat -> (forall k, (k < m)%nat -> k <> i -> f k = 0) -> sumn m f = f i.
Proof.
  induction m; intros Hi H; [lia|]. rewrite sumn_S. destruct (Nat.eq_dec i m) as [->|].
  - rewrite sumn_zero by (intros; apply H; lia). ring.
  - rewrite IHm by (try lia; intros; apply H; lia). rewrite (H m) by lia. ring.
Qed.
Lemma tsum_cube m f : tsum m f = cube m f.
Proof.
  unfold tsum, cube. apply sumn_ext. intros z Hz.
  rewrite (sumn_ge (S m) (S m - z)).
  - apply sumn_ext. intros y Hy. rewrite (sumn_single _ (m-y-z)%nat).
    + destruct (Nat.eqb_spec (m-y-z+y+z) m); [reflexivity|lia].
    + lia.
    + intros k _ Hk. destruct (Nat.eqb_spec (k+y+z) m); [lia|reflexivity].
  - lia.
  - intros y Hy. apply sumn_zero. intros x _. destruct (Nat.eqb_spec (x+y+z) m); [lia|reflexivity].
Qed.

Lemma cube_rot m f : cube m f = cube m (fun x y z => f y z x).
Proof.
  unfold cube. rewrite sumn_swap.
  transitivity (sumn (S m) (fun j => sumn (S m) (fun x => sumn (S m) (fun i =>
    if Nat.eqb (x + j + i) m then f x j i else 0)))).
  { apply sumn_ext. intros j _. apply sumn_swap. }
  apply sumn_ext. intros z _. apply sumn_ext. intros y _. apply sumn_ext. intros x _.
  replace (y + z + x)%nat with (x + y + z)%nat by lia. reflexivity.
Qed.
Lemma tsum_rot m f : tsum m f = tsum m (fun x y z => f y z x).
Proof. rewrite !tsum_cube. apply cube_rot. Qed.
