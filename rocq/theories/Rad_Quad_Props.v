(** C62: the discrete-ordinates quadrature set, for every quadrature order. *)
From Coq Require Import Reals List Arith Lia Lra Psatz.
From Verif Require Import RUtil Edge_Model Edge_Proofs Elem_Proofs ME_Model Rad_Quad_Model Rad_Quad_Proofs
  Rad_Quad_Proofs2 Rad_Quad_Proofs3.
Import ListNotations.
Local Open Scope R_scope.

(** ** triangles: the list is the lattice *)
Lemma triangles_in n t : (0 < n)%nat -> In t (triangles n) ->
  (exists x y z, (x + y + z + 1 = n)%nat /\ t = tscale (ds n) (up_lat x y z))
  \/ (exists x y z, (x + y + z + 2 = n)%nat /\ t = tscale (ds n) (down_lat x y z)).
Proof.
  intros Hn H. unfold triangles in H. apply in_app_or in H. destruct H as [H|H].
  - left. apply in_flat_map in H. destruct H as (j & Hj & H). apply in_map_iff in H.
    destruct H as (k & <- & Hk). apply in_seq in Hj. apply in_seq in Hk.
    exists (n-1-j-k)%nat, k, j. split; [lia|]. apply up_tri_lat. lia.
  - right. apply in_flat_map in H. destruct H as (j & Hj & H). apply in_map_iff in H.
    destruct H as (k & <- & Hk). apply in_seq in Hj. apply in_seq in Hk.
    exists (n-2-j-k)%nat, k, j. split; [lia|]. apply down_tri_lat. lia.
Qed.

Definition centroid (t : tri) : vec :=
  V ((vx (t0 t) + vx (t1 t) + vx (t2 t)) / 3) ((vy (t0 t) + vy (t1 t) + vy (t2 t)) / 3)
    ((vz (t0 t) + vz (t1 t) + vz (t2 t)) / 3).
Lemma direction_centroid t : direction t = to_sphere (centroid t).
Proof. reflexivity. Qed.
Lemma centroid_scale c t : centroid (tscale c t) = vscale c (centroid t).
Proof. destruct t. unfold centroid, tscale, vscale. un_t. cbn [vx vy vz]. f_equal; field. Qed.

Definition tpos (t : tri) : Prop :=
  (0 < vx (centroid t) /\ 0 < vy (centroid t) /\ 0 < vz (centroid t)) /\ tdet t <> 0.

Lemma up_lat_pos x y z : tpos (up_lat x y z).
Proof.
  split; [|apply up_lat_det0]. unfold centroid, up_lat, vtx. un_t. cbn [vx vy vz]. rewrite !S_INR.
  pose proof (pos_INR x). pose proof (pos_INR y). pose proof (pos_INR z). repeat split; lra.
Qed.
Lemma down_lat_pos x y z : tpos (down_lat x y z).
Proof.
  split; [|apply down_lat_det0]. unfold centroid, down_lat, vtx. un_t. cbn [vx vy vz]. rewrite !S_INR.
  pose proof (pos_INR x). pose proof (pos_INR y). pose proof (pos_INR z). repeat split; lra.
Qed.
Lemma cent_dot t : tpos t -> 0 < dot (centroid t) (centroid t).
Proof. intros [(a & b & c) _]. apply dot_pos. lra. Qed.

Lemma direction_scale c t : 0 < c -> tpos t -> direction (tscale c t) = direction t.
Proof. intros. rewrite !direction_centroid, centroid_scale. apply to_sphere_scale; [|apply cent_dot]; assumption. Qed.

Lemma triangle_cases n t : (0 < n)%nat -> In t (triangles n) ->
  exists t', tpos t' /\ weight t = weight t' /\ direction t = direction t'.
Proof.
  intros Hn H. pose proof (ds_pos n Hn).
  destruct (triangles_in n t Hn H) as [(x & y & z & _ & ->)|(x & y & z & _ & ->)].
  - exists (up_lat x y z). pose proof (up_lat_pos x y z) as T. repeat split; try apply T.
    + apply tweight_scale; [assumption | apply T].
    + apply direction_scale; assumption.
  - exists (down_lat x y z). pose proof (down_lat_pos x y z) as T. repeat split; try apply T.
    + apply tweight_scale; [assumption | apply T].
    + apply direction_scale; assumption.
Qed.

Lemma direction_ok t : tpos t ->
  dot (direction t) (direction t) = 1 /\ 0 < vx (direction t) /\ 0 < vy (direction t) /\ 0 < vz (direction t).
Proof.
  intros T. rewrite direction_centroid. pose proof (cent_dot t T) as D. split; [apply to_sphere_unit; assumption|].
  destruct T as [(a & b & c) _]. unfold to_sphere; cbn [vx vy vz].
  pose proof (sqrt_pos _ D) as S0. unfold dot in S0.
  repeat split; apply Rlt_div_r; lra.
Qed.

(** ** the mirrored set *)
Definition signs : list vec := V 1 1 1 :: qsgn.
Lemma mirror_id o : mirror (V 1 1 1) o = o.
Proof. destruct o as [[a b c] w]. unfold mirror; cbn. f_equal. f_equal; ring. Qed.
Lemma set_signs n : quadrature_set n = flat_map (fun s => map (mirror s) (first_octant n)) signs.
Proof.
  unfold quadrature_set, signs. cbn [flat_map]. f_equal.
  rewrite (map_ext _ (fun o => o)) by apply mirror_id. symmetry. apply map_id.
Qed.
Lemma signs_ok s : In s signs <-> (vx s = 1 \/ vx s = -1) /\ (vy s = 1 \/ vy s = -1) /\ (vz s = 1 \/ vz s = -1).
Proof.
  split.
  - unfold signs, qsgn. cbn [In]. intros H.
    repeat (destruct H as [<-|H]; [cbn [vx vy vz]; repeat split; lra|]). contradiction.
  - destruct s as [a b c]; cbn [vx vy vz]. intros ([->| ->] & [->| ->] & [->| ->]); unfold signs, qsgn; cbn [In]; tauto.
Qed.

Lemma set_in n o : (0 < n)%nat -> In o (quadrature_set n) ->
  exists t s, In t (triangles n) /\ In s signs /\ o = mirror s (Ord (direction t) (weight t)).
Proof.
  intros Hn H. rewrite set_signs in H. apply in_flat_map in H. destruct H as (s & Hs & H).
  apply in_map_iff in H. destruct H as (o' & <- & H). unfold first_octant in H. apply in_map_iff in H.
  destruct H as (t & <- & Ht). exists t, s. auto.
Qed.

(** *** [8 n^2] ordinates *)
Lemma triangles_length n : length (triangles n) = (n * n)%nat.
Proof.
  destruct n as [|n]; [reflexivity|].
  unfold triangles. rewrite app_length.
  assert (L : forall {A} (g : nat -> list A) (h : nat -> nat) m, (forall j, (j < m)%nat -> length (g j) = h j) ->
     length (flat_map g (seq 0 m)) = fold_right plus 0%nat (map h (seq 0 m))).
  { intros A g h m. induction m; intros Hg; [reflexivity|]. rewrite seq_S, flat_map_app, map_app, app_length, fold_right_app.
    rewrite IHm by (intros; apply Hg; lia). cbn [flat_map map fold_right Nat.add]. rewrite app_nil_r, Hg by lia.
    generalize (map h (seq 0 m)). intros l. induction l; cbn; lia. }
  rewrite (L _ _ (fun j => (S n - j)%nat)) by (intros; rewrite map_length, seq_length; reflexivity).
  rewrite (L _ _ (fun j => (S n - j - 1)%nat)) by (intros; rewrite map_length, seq_length; reflexivity).
  replace (S n - 1)%nat with n by lia. clear L.
  assert (T : forall m q, (m <= q)%nat -> (2 * fold_right plus 0 (map (fun j => (q - j)) (seq 0 m)) = 2*m*q + m - m*m)%nat).
  { intros m q. induction m; intros Hm; [reflexivity|].
    rewrite seq_S, map_app, fold_right_app. cbn [map fold_right Nat.add].
    assert (E : forall l a, fold_right plus a l = (fold_right plus 0 l + a)%nat) by (induction l; intros; cbn; [lia|rewrite IHl; lia]).
    rewrite E. specialize (IHm ltac:(lia)). nia. }
  assert (E2 : map (fun j => (S n - j - 1)%nat) (seq 0 n) = map (fun j => (n - j)%nat) (seq 0 n)) by (apply map_ext; intros; lia).
  rewrite E2. pose proof (T (S n) (S n) ltac:(lia)). pose proof (T n n ltac:(lia)). nia.
Qed.

Theorem C62_number_of_ordinates n : length (quadrature_set n) = (8 * (n * n))%nat.
Proof.
  rewrite set_signs.
  assert (L : forall ss, length (flat_map (fun s => map (mirror s) (first_octant n)) ss) = (length ss * (n*n))%nat).
  { induction ss; [reflexivity|]. cbn [flat_map length]. rewrite app_length, map_length, IHss.
    unfold first_octant. rewrite map_length, triangles_length. lia. }
  rewrite L. reflexivity.
Qed.

(** *** unit directions, none of them tangent to a coordinate plane; positive weights *)
Theorem C62_directions_unit n o : (0 < n)%nat -> In o (quadrature_set n) ->
  vx (o_dir o) ^ 2 + vy (o_dir o) ^ 2 + vz (o_dir o) ^ 2 = 1
  /\ vx (o_dir o) <> 0 /\ vy (o_dir o) <> 0 /\ vz (o_dir o) <> 0.
Proof.
  intros Hn H. destruct (set_in n o Hn H) as (t & s & Ht & Hs & ->).
  destruct (triangle_cases n t Hn Ht) as (t' & T & _ & ->).
  destruct (direction_ok t' T) as (U & a & b & c).
  apply signs_ok in Hs. destruct Hs as (sx & sy & sz).
  unfold mirror; cbn [o_dir vx vy vz]. unfold dot in U.
  split; [|repeat split].
  - replace ((vx (direction t') * vx s)^2 + (vy (direction t') * vy s)^2 + (vz (direction t') * vz s)^2)
      with (vx (direction t') * vx (direction t') * (vx s * vx s) + vy (direction t') * vy (direction t') * (vy s * vy s)
        + vz (direction t') * vz (direction t') * (vz s * vz s)) by ring.
    replace (vx s * vx s) with 1 by (destruct sx as [-> | ->]; ring).
    replace (vy s * vy s) with 1 by (destruct sy as [-> | ->]; ring).
    replace (vz s * vz s) with 1 by (destruct sz as [-> | ->]; ring). lra.
  - destruct sx as [-> | ->]; intros E; lra.
  - destruct sy as [-> | ->]; intros E; lra.
  - destruct sz as [-> | ->]; intros E; lra.
Qed.

Theorem C62_weights_positive n o : (0 < n)%nat -> In o (quadrature_set n) -> 0 < o_wt o.
Proof.
  intros Hn H. destruct (set_in n o Hn H) as (t & s & Ht & Hs & ->). cbn [mirror o_wt].
  destruct (triangle_cases n t Hn Ht) as (t' & T & -> & _). destruct t' as [P Q R0]. apply weight_pos. apply T.
Qed.

(** *** closed under the reflections of the three coordinate planes, with the same weight *)
Theorem C62_reflections n o sx sy sz : In o (quadrature_set n) ->
  (sx = 1 \/ sx = -1) -> (sy = 1 \/ sy = -1) -> (sz = 1 \/ sz = -1) ->
  exists o', In o' (quadrature_set n) /\ o_wt o' = o_wt o
    /\ o_dir o' = V (sx * vx (o_dir o)) (sy * vy (o_dir o)) (sz * vz (o_dir o)).
Proof.
  intros H Hx Hy Hz. rewrite set_signs in H. apply in_flat_map in H. destruct H as (s & Hs & H).
  apply in_map_iff in H. destruct H as (o0 & <- & H). apply signs_ok in Hs. destruct Hs as (a & b & c).
  set (s' := V (sx * vx s) (sy * vy s) (sz * vz s)).
  exists (mirror s' o0). split.
  - rewrite set_signs. apply in_flat_map. exists s'. split; [|apply in_map; assumption].
    apply signs_ok. unfold s'; cbn [vx vy vz].
    repeat split; [destruct Hx as [-> | ->], a as [-> | ->] | destruct Hy as [-> | ->], b as [-> | ->] |
      destruct Hz as [-> | ->], c as [-> | ->]]; lra.
  - split; [reflexivity|]. unfold s', mirror; cbn [o_dir vx vy vz]. f_equal; ring.
Qed.

(** ** moments *)
Definition oct8 (q : vec -> R) (v : vec) : R :=
  fold_right Rplus 0 (map (fun s => q (V (vx v * vx s) (vy v * vy s) (vz v * vz s))) signs).

Lemma set_moment n (q : vec -> R) :
  rsum (map (fun o => o_wt o * q (o_dir o)) (quadrature_set n))
  = lsum (fun t => weight t * oct8 q (direction t)) (triangles n).
Proof.
  rewrite set_signs.
  assert (L : forall ss, rsum (map (fun o => o_wt o * q (o_dir o)) (flat_map (fun s => map (mirror s) (first_octant n)) ss))
     = lsum (fun t => weight t * fold_right Rplus 0 (map (fun s => q (V (vx (direction t) * vx s) (vy (direction t) * vy s) (vz (direction t) * vz s))) ss)) (triangles n)).
  { induction ss as [|s ss IH]; cbn [flat_map map].
    - cbn. unfold lsum. induction (triangles n); cbn; [reflexivity|]. rewrite <- IHl. ring.
    - rewrite map_app. unfold rsum in *. 
      assert (A : forall l l' : list R, fold_right Rplus 0 (l ++ l') = fold_right Rplus 0 l + fold_right Rplus 0 l')
        by (induction l; intros; cbn; [ring|]; rewrite IHl; ring).
      rewrite A, IH. unfold first_octant. rewrite !map_map. unfold lsum. clear IH A.
      induction (triangles n) as [|t l IHl]; cbn [map fold_right]; [ring|].
      unfold mirror in *. cbn [o_dir o_wt fold_right] in *. rewrite <- IHl. ring. }
  exact (L signs).
Qed.

(** *** the weights sum to the solid angle of the sphere *)
Theorem C62_weights_total n : (0 < n)%nat -> rsum (map o_wt (quadrature_set n)) = 4 * PI.
Proof.
  intros Hn.
  transitivity (rsum (map (fun o => o_wt o * (fun _ : vec => 1) (o_dir o)) (quadrature_set n))).
  { f_equal. apply map_ext. intros. ring. }
  rewrite (set_moment n (fun _ : vec => 1)).
  rewrite (lsum_ext _ (fun t => 8 * weight t)) by (intros; unfold oct8; cbn; ring).
  unfold lsum. pose proof (octant_total n Hn) as T. unfold lsum in T.
  assert (E : forall l, fold_right Rplus 0 (map (fun t => 8 * weight t) l) = 8 * fold_right Rplus 0 (map weight l))
    by (induction l; cbn; [ring|]; rewrite IHl; ring).
  rewrite E, T. field.
Qed.

Lemma moment_zero n q : (forall v, oct8 q v = 0) -> rsum (map (fun o => o_wt o * q (o_dir o)) (quadrature_set n)) = 0.
Proof.
  intros H. rewrite set_moment. rewrite (lsum_ext _ (fun _ => 0)) by (intros; rewrite H; ring).
  unfold lsum. induction (triangles n); cbn; [reflexivity|]. rewrite IHl. ring.
Qed.

(** *** no net direction: an isotropic intensity carries no net flux *)
Theorem C62_first_moment_zero n :
  rsum (map (fun o => o_wt o * vx (o_dir o)) (quadrature_set n)) = 0
  /\ rsum (map (fun o => o_wt o * vy (o_dir o)) (quadrature_set n)) = 0
  /\ rsum (map (fun o => o_wt o * vz (o_dir o)) (quadrature_set n)) = 0.
Proof.
  repeat split; [apply (moment_zero n vx) | apply (moment_zero n vy) | apply (moment_zero n vz)];
    intros v; unfold oct8; cbn; ring.
Qed.

(** cyclic symmetry of the octant *)
Definition rotv (v : vec) : vec := V (vy v) (vz v) (vx v).

Lemma to_sphere_rotv P : to_sphere (rotv P) = rotv (to_sphere P).
Proof.
  unfold to_sphere, rotv; cbn [vx vy vz].
  replace (vy P * vy P + vz P * vz P + vx P * vx P) with (vx P * vx P + vy P * vy P + vz P * vz P) by ring. reflexivity.
Qed.
Lemma dot_rotv P Q : dot (rotv P) (rotv Q) = dot P Q.
Proof. unfold dot, rotv; cbn [vx vy vz]; ring. Qed.

Definition trot (t : tri) := Tri (rotv (t1 t)) (rotv (t2 t)) (rotv (t0 t)).
Lemma weight_trot t : tdet t <> 0 -> weight (trot t) = weight t.
Proof.
  destruct t as [P Q R0]. unfold tdet, trot. un_t. intros H. rewrite <- (weight_rot P Q R0 H).
  unfold weight. un_t. rewrite !to_sphere_rotv, !dot_rotv. reflexivity.
Qed.
Lemma direction_trot t : direction (trot t) = rotv (direction t).
Proof.
  rewrite !direction_centroid, <- to_sphere_rotv. f_equal. destruct t as [P Q R0].
  unfold centroid, trot, rotv. un_t. cbn [vx vy vz]. f_equal; field.
Qed.
Lemma up_lat_rot x y z : up_lat y z x = trot (up_lat x y z). Proof. reflexivity. Qed.
Lemma down_lat_rot x y z : down_lat y z x = trot (down_lat x y z). Proof. reflexivity. Qed.

Lemma octant_sum (g : tri -> R) n : (0 < n)%nat -> (forall c t, 0 < c -> tpos t -> g (tscale c t) = g t) ->
  lsum g (triangles n) = tsum (n-1) (fun x y z => g (up_lat x y z))
    + match n with 1%nat => 0 | _ => tsum (n-2) (fun x y z => g (down_lat x y z)) end.
Proof.
  intros Hn Hg. rewrite tri_sum by assumption. rewrite sumn_plus. f_equal.
  - unfold tsum. replace (S (n-1)) with n by lia. apply sumn_ext. intros j Hj. apply sumn_ext. intros k Hk.
    rewrite (up_tri_lat n (n-1-k-j) k j) by lia. apply Hg; [apply ds_pos; assumption | apply up_lat_pos].
  - destruct n as [|[|n]]; [lia | cbn; ring |]. 
    rewrite (sumn_ge (S (S n)) (S n)); [|lia|].
    + unfold tsum. replace (S (S n) - 2)%nat with n by lia. apply sumn_ext. intros j Hj.
      replace (S (S n) - j - 1)%nat with (S n - j)%nat by lia. apply sumn_ext. intros k Hk.
      rewrite (down_tri_lat (S (S n)) (n-k-j) k j) by lia. apply Hg; [apply ds_pos; assumption | apply down_lat_pos].
    + intros k Hk. replace (S (S n) - k - 1)%nat with 0%nat by lia. reflexivity.
Qed.

Lemma octant_rot n (q : vec -> R) : (0 < n)%nat ->
  lsum (fun t => weight t * q (direction t)) (triangles n)
  = lsum (fun t => weight t * q (rotv (direction t))) (triangles n).
Proof.
  intros Hn.
  assert (G : forall (q : vec -> R) c t, 0 < c -> tpos t -> weight (tscale c t) * q (direction (tscale c t)) = weight t * q (direction t)).
  { intros q0 c t Hc T. rewrite tweight_scale, direction_scale by (try assumption; apply T). reflexivity. }
  rewrite (octant_sum (fun t => weight t * q (direction t)) n Hn (G q)).
  rewrite (octant_sum (fun t => weight t * q (rotv (direction t))) n Hn (G (fun v => q (rotv v)))).
  f_equal.
  - rewrite tsum_rot. unfold tsum. apply sumn_ext. intros z _. apply sumn_ext. intros y _.
    rewrite up_lat_rot, weight_trot, direction_trot by apply up_lat_det0. reflexivity.
  - destruct n as [|[|n]]; [lia|reflexivity|].
    rewrite tsum_rot. unfold tsum. apply sumn_ext. intros z _. apply sumn_ext. intros y _.
    rewrite down_lat_rot, weight_trot, direction_trot by apply down_lat_det0. reflexivity.
Qed.

(** *** the second moment is isotropic: sum of w s_i s_j = (4 pi / 3) delta_ij *)
Theorem C62_second_moment n : (0 < n)%nat ->
  let M f g := rsum (map (fun o => o_wt o * (f (o_dir o) * g (o_dir o))) (quadrature_set n)) in
  M vx vx = 4 * PI / 3 /\ M vy vy = 4 * PI / 3 /\ M vz vz = 4 * PI / 3
  /\ M vx vy = 0 /\ M vy vz = 0 /\ M vx vz = 0.
Proof.
  intros Hn M. unfold M.
  assert (D : forall c : vec -> R, (forall v s, In s signs ->
       c (V (vx v * vx s) (vy v * vy s) (vz v * vz s)) * c (V (vx v * vx s) (vy v * vy s) (vz v * vz s)) = c v * c v) ->
     rsum (map (fun o => o_wt o * (c (o_dir o) * c (o_dir o))) (quadrature_set n))
     = 8 * lsum (fun t => weight t * (c (direction t) * c (direction t))) (triangles n)).
  { intros c Hc. rewrite (set_moment n (fun v => c v * c v)).
    rewrite (lsum_ext _ (fun t => 8 * (weight t * (c (direction t) * c (direction t))))).
    - unfold lsum. induction (triangles n); cbn; [ring|]. rewrite IHl. ring.
    - intros t _. unfold oct8. 
      rewrite (map_ext_in _ (fun _ => c (direction t) * c (direction t)))  by (intros s Hs; apply Hc; assumption).
      cbn. ring. }
  assert (Sg : forall v s, In s signs -> (vx v * vx s) * (vx v * vx s) = vx v * vx v /\ (vy v * vy s) * (vy v * vy s) = vy v * vy v
     /\ (vz v * vz s) * (vz v * vz s) = vz v * vz v).
  { intros v s Hs. apply signs_ok in Hs. destruct Hs as ([-> | ->] & [-> | ->] & [-> | ->]); repeat split; ring. }
  assert (Dx := D vx ltac:(intros v s Hs; apply (Sg v s Hs))).
  assert (Dy := D vy ltac:(intros v s Hs; apply (Sg v s Hs))).
  assert (Dz := D vz ltac:(intros v s Hs; apply (Sg v s Hs))).
  pose proof (octant_rot n (fun v => vx v * vx v) Hn) as R1.
  pose proof (octant_rot n (fun v => vy v * vy v) Hn) as R2. cbn [rotv vx vy vz] in R1, R2.
  assert (T : lsum (fun t => weight t * (vx (direction t) * vx (direction t))) (triangles n)
     + lsum (fun t => weight t * (vy (direction t) * vy (direction t))) (triangles n)
     + lsum (fun t => weight t * (vz (direction t) * vz (direction t))) (triangles n) = PI/2).
  { rewrite <- (octant_total n Hn).
    assert (U : forall t, In t (triangles n) -> dot (direction t) (direction t) = 1).
    { intros t Ht. destruct (triangle_cases n t Hn Ht) as (t' & T & _ & ->). apply (direction_ok t' T). }
    clear - U. unfold lsum. induction (triangles n) as [|t l IH]; cbn [map fold_right]; [ring|].
    rewrite <- IH by (intros; apply U; right; assumption).
    pose proof (U t (or_introl eq_refl)) as Ut. unfold dot in Ut.
    replace (weight t) with (weight t * (vx (direction t) * vx (direction t) + vy (direction t) * vy (direction t) + vz (direction t) * vz (direction t))) at 4
      by (rewrite Ut; ring).
    ring. }
  repeat split.
  - rewrite Dx. lra.
  - rewrite Dy. lra.
  - rewrite Dz. lra.
  - apply (moment_zero n (fun v => vx v * vy v)). intros v; unfold oct8; cbn; ring.
  - apply (moment_zero n (fun v => vy v * vz v)). intros v; unfold oct8; cbn; ring.
  - apply (moment_zero n (fun v => vx v * vz v)). intros v; unfold oct8; cbn; ring.
Qed.

(** *** but the half-range flux is not pi: with the lowest order an isotropic intensity [I] puts
    [2 pi/sqrt 3 * I] instead of [pi * I] on a wall normal to x. *)
Definition half_flux (n : nat) : R :=
  rsum (map (fun o => o_wt o * Rmax 0 (vx (o_dir o))) (quadrature_set n)).

Theorem C62_half_range_flux_refuted : half_flux 1 = 2 * PI / sqrt 3 /\ half_flux 1 <> PI.
Proof.
  assert (E : half_flux 1 = 2 * PI / sqrt 3).
  { unfold half_flux. rewrite (set_moment 1 (fun v => Rmax 0 (vx v))).
    assert (s3 : 0 < sqrt 3) by (apply sqrt_lt_R0; lra).
    assert (T : triangles 1 = [up_tri 1 0 0]) by reflexivity. 
    pose proof (octant_total 1 ltac:(lia)) as W. rewrite T in *. unfold lsum in *. cbn [map fold_right] in *.
    assert (Dx : vx (direction (up_tri 1 0 0)) = / sqrt 3).
    { rewrite (up_tri_lat 1 0 0 0) by reflexivity.
      rewrite direction_scale by (try apply up_lat_pos; apply ds_pos; lia).
      unfold direction, up_lat, vtx. un_t. cbn [vx vy vz]. cbn [INR].
      replace ((1 + 0 + 0)/3) with (/3) by field. replace ((0 + 1 + 0)/3) with (/3) by field. replace ((0 + 0 + 1)/3) with (/3) by field.
      replace (/3*/3 + /3*/3 + /3*/3) with (/3) by field. rewrite sqrt_inv.
      rewrite <- (sqrt_sqrt 3) at 1 by lra. field. lra. }
    assert (O : oct8 (fun v => Rmax 0 (vx v)) (direction (up_tri 1 0 0)) = 4 / sqrt 3).
    { unfold oct8. cbn [map fold_right signs qsgn vx vy vz]. rewrite Dx.
      assert (0 < / sqrt 3) by (apply Rinv_0_lt_compat; assumption).
      rewrite (Rmax_right 0 (/ sqrt 3 * 1)) by lra. rewrite (Rmax_left 0 (/ sqrt 3 * -1)) by lra. field. lra. }
    rewrite O. replace (weight (up_tri 1 0 0)) with (PI/2) by lra. field. lra. }
  split; [exact E|]. rewrite E. intros H.
  assert (s3 : 0 < sqrt 3) by (apply sqrt_lt_R0; lra).
  assert (sqrt 3 * sqrt 3 = 3) by (apply sqrt_sqrt; lra).
  assert (P := PI_RGT_0).
  assert (2 * PI = PI * sqrt 3) by (rewrite <- H at 2; field; lra).
  assert (sqrt 3 = 2) by nra. nra.
Qed.

(** the hypotheses are met: order 2 has 32 ordinates *)
Example C62_nonvacuous : length (quadrature_set 2) = 32%nat /\ rsum (map o_wt (quadrature_set 2)) = 4 * PI.
Proof. split; [rewrite C62_number_of_ordinates; reflexivity | apply C62_weights_total; lia]. Qed.
