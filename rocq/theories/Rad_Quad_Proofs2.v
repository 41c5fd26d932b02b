(** The weights of the quadrature set: angle sums over the triangulated octant. *)
From Coq Require Import Reals List Arith Lia Lra Psatz.
From Verif Require Import RUtil Edge_Model Edge_Proofs ME_Model Rad_Quad_Model Rad_Quad_Proofs.
Import ListNotations.
Local Open Scope R_scope.

Definition det (P Q R0 : vec) : R := dot P (cross Q R0).

Lemma sumsq0 a b c : a*a + b*b + c*c <= 0 -> a = 0 /\ b = 0 /\ c = 0.
Proof.
  intros H. pose proof (Rle_0_sqr a) as A. pose proof (Rle_0_sqr b) as B. pose proof (Rle_0_sqr c) as C.
  unfold Rsqr in *. repeat split; apply Rsqr_0_uniq; unfold Rsqr; lra.
Qed.
Lemma det_dot P Q R0 : det P Q R0 <> 0 -> 0 < dot P P.
Proof.
  intros H. destruct (Rle_or_lt (dot P P) 0) as [Hn|]; [exfalso|assumption].
  apply H. unfold dot in Hn.
  destruct (sumsq0 _ _ _ Hn) as (E1 & E2 & E3).
  unfold det, dot. rewrite E1, E2, E3. ring.
Qed.
Lemma det_rot P Q R0 : det P Q R0 = det Q R0 P.
Proof. unfold det, dot, cross; cbn [vx vy vz]; ring. Qed.
Lemma Bf_swap P Q : Bf P Q Q = Bf Q P P. Proof. vec_ring. Qed.
Lemma det_Bf P Q R0 : det P Q R0 <> 0 -> 0 < Bf P Q Q.
Proof.
  intros H. destruct (Rle_or_lt (Bf P Q Q) 0) as [Hn|]; [exfalso|assumption].
  apply H. rewrite Bf_lagrange in Hn. unfold Rsqr in Hn.
  destruct (sumsq0 _ _ _ Hn) as (E1 & E2 & E3).
  transitivity (vz R0 * (vx P * vy Q - vy P * vx Q) + vx R0 * (vy P * vz Q - vz P * vy Q)
     + vy R0 * (vz P * vx Q - vx P * vz Q)); [unfold det, dot, cross; cbn [vx vy vz]; ring|].
  rewrite E1, E2, E3. ring.
Qed.

Lemma interior_sym a b c : interior_angle a b c = interior_angle a c b.
Proof. unfold interior_angle. rewrite (Rmult_comm (cos b)), (Rmult_comm (sin b)). reflexivity. Qed.
Lemma vang_sym P a b : vang P a b = vang P b a.
Proof. unfold vang. rewrite gang_sym. f_equal. vec_ring. Qed.

Lemma weight_angles P Q R0 : det P Q R0 <> 0 ->
  weight (Tri P Q R0) = vang P Q R0 + vang Q R0 P + vang R0 P Q - PI.
Proof.
  intros H. assert (H1 : det Q R0 P <> 0) by (rewrite <- det_rot; assumption).
  assert (H2 : det R0 P Q <> 0) by (rewrite <- det_rot; assumption).
  pose proof (det_dot _ _ _ H). pose proof (det_dot _ _ _ H1). pose proof (det_dot _ _ _ H2).
  pose proof (det_Bf _ _ _ H) as b1. pose proof (det_Bf _ _ _ H1) as b2. pose proof (det_Bf _ _ _ H2) as b3.
  pose proof b1 as c1. rewrite Bf_swap in c1. pose proof b2 as c2. rewrite Bf_swap in c2. pose proof b3 as c3. rewrite Bf_swap in c3.
  unfold weight. cbn [Rad_Quad_Model.t0 Rad_Quad_Model.t1 Rad_Quad_Model.t2].
  rewrite acos_m1.
  rewrite <- (sphere_angle P Q R0), <- (sphere_angle Q R0 P), <- (sphere_angle R0 P Q) by assumption.
  rewrite (dot_sym (to_sphere P) (to_sphere R0)), (dot_sym (to_sphere Q) (to_sphere P)),
    (dot_sym (to_sphere R0) (to_sphere Q)).
  rewrite (interior_sym (acos (dot (to_sphere P) (to_sphere Q)))).
  rewrite (interior_sym (acos (dot (to_sphere Q) (to_sphere R0)))).
  rewrite (interior_sym (acos (dot (to_sphere R0) (to_sphere P)))).
  ring.
Qed.

Lemma to_sphere_scale c P : 0 < c -> 0 < dot P P -> to_sphere (vscale c P) = to_sphere P.
Proof.
  intros Hc HP. assert (0 < dot (vscale c P) (vscale c P)).
  { rewrite dot_scale. apply Rmult_lt_0_compat; nra. }
  rewrite !to_sphere_eq by assumption. unfold len. rewrite dot_scale.
  rewrite sqrt_mult by nra. rewrite sqrt_square by lra. pose proof (sqrt_pos _ HP).
  unfold vscale; cbn [vx vy vz]. f_equal; field; lra.
Qed.

Lemma weight_scale c P Q R0 : 0 < c -> det P Q R0 <> 0 ->
  weight (Tri (vscale c P) (vscale c Q) (vscale c R0)) = weight (Tri P Q R0).
Proof.
  intros Hc H. assert (H1 : det Q R0 P <> 0) by (rewrite <- det_rot; assumption).
  assert (H2 : det R0 P Q <> 0) by (rewrite <- det_rot; assumption).
  unfold weight. cbn [Rad_Quad_Model.t0 Rad_Quad_Model.t1 Rad_Quad_Model.t2].
  rewrite !to_sphere_scale by (try assumption; eapply det_dot; eassumption). reflexivity.
Qed.

Lemma weight_rot P Q R0 : det P Q R0 <> 0 -> weight (Tri Q R0 P) = weight (Tri P Q R0).
Proof.
  intros H. rewrite !weight_angles; [ring | assumption | rewrite <- det_rot; assumption].
Qed.

Lemma weight_pos P Q R0 : det P Q R0 <> 0 -> 0 < weight (Tri P Q R0).
Proof.
  intros H. assert (H1 : det Q R0 P <> 0) by (rewrite <- det_rot; assumption).
  assert (H2 : det R0 P Q <> 0) by (rewrite <- det_rot; assumption).
  pose proof (det_dot _ _ _ H) as dP. pose proof (det_dot _ _ _ H1) as dQ. pose proof (det_dot _ _ _ H2) as dR.
  unfold weight. cbn [Rad_Quad_Model.t0 Rad_Quad_Model.t1 Rad_Quad_Model.t2]. rewrite acos_m1.
  pose proof (to_sphere_unit _ dP) as up. pose proof (to_sphere_unit _ dQ) as uq. pose proof (to_sphere_unit _ dR) as ur.
  assert (Hd : det (to_sphere P) (to_sphere Q) (to_sphere R0) <> 0).
  { rewrite !to_sphere_eq by assumption.
    replace (det (vscale (/len P) P) (vscale (/len Q) Q) (vscale (/len R0) R0))
      with (/len P * /len Q * /len R0 * det P Q R0)
      by (unfold det, dot, cross, vscale; cbn [vx vy vz]; ring).
    pose proof (sqrt_pos _ dP). pose proof (sqrt_pos _ dQ). pose proof (sqrt_pos _ dR). unfold len.
    repeat apply Rmult_integral_contrapositive_currified; try apply Rinv_neq_0_compat; try lra; assumption. }
  set (p := to_sphere P) in *. set (q := to_sphere Q) in *. set (r := to_sphere R0) in *.
  pose proof (gram_pos p q r up uq ur) as G.
  assert (G0 : 0 < 1 + 2*dot p q*dot q r*dot r p - dot p q*dot p q - dot q r*dot q r - dot r p*dot r p).
  { rewrite G. apply Rlt_0_sqr. exact Hd. }
  assert (Hd1 : det q r p <> 0) by (rewrite <- det_rot; assumption).
  assert (Hd2 : det r p q <> 0) by (rewrite <- det_rot; assumption).
  assert (L : forall a b, dot a a = 1 -> dot b b = 1 -> 0 < Bf a b b -> -1 < dot a b < 1).
  { intros a b Ha Hb HB. unfold Bf in HB. rewrite Ha, Hb in HB. nra. }
  pose proof (L _ _ up uq (det_Bf _ _ _ Hd)) as X.
  pose proof (L _ _ uq ur (det_Bf _ _ _ Hd1)) as Y.
  pose proof (L _ _ ur up (det_Bf _ _ _ Hd2)) as Z.
  pose proof (excess_pos _ _ _ X Y Z G0) as EX.
  unfold interior_angle.
  rewrite !cos_acos, !sin_acos by lra. unfold Rsqr. lra.
Qed.

(** lattice directions and the three kinds of angle *)
Definition d1 := V (-1) 1 0.
Definition d2 := V 0 (-1) 1.
Definition d3 := V 1 0 (-1).
Definition a1 P := vang P d1 (vneg d3).
Definition a2 P := vang P d2 (vneg d1).
Definition a3 P := vang P d3 (vneg d2).

Lemma angles_PI P : 0 < vx P + vy P + vz P -> a1 P + a2 P + a3 P = PI.
Proof.
  intros H. unfold a1, a2, a3, vang.
  set (A := Bf P d1 d1). set (C := Bf P d2 d2). set (H0 := Bf P d1 d2).
  replace (Bf P (vneg d3) (vneg d3)) with (A + 2*H0 + C) by (unfold A, C, H0, d1, d2, d3; vec_ring).
  replace (Bf P d3 d3) with (A + 2*H0 + C) by (unfold A, C, H0, d1, d2, d3; vec_ring).
  replace (Bf P (vneg d1) (vneg d1)) with A by (unfold A, d1; vec_ring).
  replace (Bf P (vneg d2) (vneg d2)) with C by (unfold C, d2; vec_ring).
  replace (Bf P d1 (vneg d3)) with (A + H0) by (unfold A, H0, d1, d2, d3; vec_ring).
  replace (Bf P d2 (vneg d1)) with (- H0) by (unfold H0, d1, d2; vec_ring).
  replace (Bf P d3 (vneg d2)) with (H0 + C) by (unfold C, H0, d1, d2, d3; vec_ring).
  rewrite gang_neg, (gang_sym C A).
  pose proof (dot_pos P H) as DP.
  assert (ND : A * C - H0 * H0 = dot P P * ((vx P + vy P + vz P) * (vx P + vy P + vz P)))
    by (unfold A, C, H0, d1, d2; vec_ring).
  assert (ND0 : 0 < A * C - H0 * H0) by (rewrite ND; repeat apply Rmult_lt_0_compat; assumption).
  assert (HA : 0 < A).
  { destruct (Rle_or_lt A 0) as [Hn|]; [|assumption]. pose proof (Bf_nonneg P d1) as B1. fold A in B1. assert (A = 0) by lra.
    rewrite H1 in ND0. nra. }
  assert (HC : 0 < C).
  { destruct (Rle_or_lt C 0) as [Hn|]; [|assumption]. pose proof (Bf_nonneg P d2) as B1. fold C in B1. assert (C = 0) by lra.
    rewrite H1 in ND0. nra. }
  pose proof (gang_split A C H0 HA HC ND0). lra.
Qed.

Lemma vang_shift P a b : vang P (vadd P a) (vadd P b) = vang P a b.
Proof. unfold vang. f_equal; vec_ring. Qed.
Lemma vang_neg P a b : vang P (vneg a) (vneg b) = vang P a b.
Proof. unfold vang. f_equal; vec_ring. Qed.

Definition vtx (x y z : nat) : vec := V (INR x) (INR y) (INR z).

(** corners *)
Lemma corner1 n : (0 < n)%nat -> a1 (vtx n 0 0) = PI/2.
Proof.
  intros. unfold a1, vang. replace (Bf (vtx n 0 0) d1 (vneg d3)) with 0 by (unfold vtx; change (INR 0) with 0; unfold d1, d3; vec_ring).
  apply gang_zero.
Qed.
Lemma corner2 n : (0 < n)%nat -> a2 (vtx 0 n 0) = PI/2.
Proof.
  intros. unfold a2, vang. replace (Bf (vtx 0 n 0) d2 (vneg d1)) with 0 by (unfold vtx; change (INR 0) with 0; unfold d1, d2; vec_ring).
  apply gang_zero.
Qed.
Lemma corner3 n : (0 < n)%nat -> a3 (vtx 0 0 n) = PI/2.
Proof.
  intros. unfold a3, vang. replace (Bf (vtx 0 0 n) d3 (vneg d2)) with 0 by (unfold vtx; change (INR 0) with 0; unfold d2, d3; vec_ring).
  apply gang_zero.
Qed.

(** the two kinds of triangle, on the integer lattice *)
Definition up_lat (x y z : nat) : tri := Tri (vtx (S x) y z) (vtx x (S y) z) (vtx x y (S z)).
Definition down_lat (x y z : nat) : tri := Tri (vtx (S x) (S y) z) (vtx x (S y) (S z)) (vtx (S x) y (S z)).

Definition tscale (c : R) (t : tri) := Tri (vscale c (t0 t)) (vscale c (t1 t)) (vscale c (t2 t)).
Definition tdet (t : tri) := det (t0 t) (t1 t) (t2 t).

Ltac un_t := cbn [Rad_Quad_Model.t0 Rad_Quad_Model.t1 Rad_Quad_Model.t2].

Lemma up_lat_det x y z : tdet (up_lat x y z) = INR x + INR y + INR z + 1.
Proof. unfold tdet, up_lat, det, vtx, dot, cross. un_t. cbn [vx vy vz]. rewrite !S_INR. ring. Qed.
Lemma down_lat_det x y z : tdet (down_lat x y z) = INR x + INR y + INR z + 2.
Proof. unfold tdet, down_lat, det, vtx, dot, cross. un_t. cbn [vx vy vz]. rewrite !S_INR. ring. Qed.
Lemma up_lat_det0 x y z : tdet (up_lat x y z) <> 0.
Proof. rewrite up_lat_det. pose proof (pos_INR x). pose proof (pos_INR y). pose proof (pos_INR z). lra. Qed.
Lemma down_lat_det0 x y z : tdet (down_lat x y z) <> 0.
Proof. rewrite down_lat_det. pose proof (pos_INR x). pose proof (pos_INR y). pose proof (pos_INR z). lra. Qed.

Lemma up_tri_lat n x y z : (n = x + y + z + 1)%nat -> up_tri n z y = tscale (ds n) (up_lat x y z).
Proof.
  intros ->. unfold up_tri, tscale, up_lat, vtx, vscale, ds. un_t. cbn [vx vy vz].
  rewrite !plus_INR, !S_INR. cbn [INR].
  pose proof (pos_INR x). pose proof (pos_INR y). pose proof (pos_INR z).
  f_equal; f_equal; field; lra.
Qed.
Lemma down_tri_lat n x y z : (n = x + y + z + 2)%nat -> down_tri n z y = tscale (ds n) (down_lat x y z).
Proof.
  intros ->. unfold down_tri, tscale, down_lat, vtx, vscale, ds. un_t. cbn [vx vy vz].
  rewrite !plus_INR, !S_INR. cbn [INR].
  pose proof (pos_INR x). pose proof (pos_INR y). pose proof (pos_INR z).
  f_equal; f_equal; field; lra.
Qed.

Lemma ds_pos n : (0 < n)%nat -> 0 < ds n.
Proof. intros. unfold ds. apply lt_0_INR in H. apply Rlt_div_r; lra. Qed.

Lemma up_weight x y z :
  weight (up_lat x y z) = a1 (vtx (S x) y z) + a2 (vtx x (S y) z) + a3 (vtx x y (S z)) - PI.
Proof.
  pose proof (up_lat_det0 x y z) as H. unfold up_lat, tdet in *. cbn [Rad_Quad_Model.t0 Rad_Quad_Model.t1 Rad_Quad_Model.t2] in H.
  rewrite weight_angles by exact H.
  set (P := vtx (S x) y z) in *. set (Q := vtx x (S y) z) in *. set (R0 := vtx x y (S z)) in *.
  assert (E1 : Q = vadd P d1) by (unfold Q, P, vtx, vadd, d1; cbn [vx vy vz]; rewrite !S_INR; f_equal; ring).
  assert (E2 : R0 = vadd P (vneg d3)) by (unfold R0, P, vtx, vadd, vneg, d3; cbn [vx vy vz]; rewrite !S_INR; f_equal; ring).
  assert (E3 : R0 = vadd Q d2) by (unfold R0, Q, vtx, vadd, d2; cbn [vx vy vz]; rewrite !S_INR; f_equal; ring).
  assert (E4 : P = vadd Q (vneg d1)) by (unfold P, Q, vtx, vadd, vneg, d1; cbn [vx vy vz]; rewrite !S_INR; f_equal; ring).
  assert (E5 : P = vadd R0 d3) by (unfold P, R0, vtx, vadd, d3; cbn [vx vy vz]; rewrite !S_INR; f_equal; ring).
  assert (E6 : Q = vadd R0 (vneg d2)) by (unfold Q, R0, vtx, vadd, vneg, d2; cbn [vx vy vz]; rewrite !S_INR; f_equal; ring).
  assert (F1 : vang P Q R0 = a1 P) by (rewrite E1, E2; apply vang_shift).
  assert (F2 : vang Q R0 P = a2 Q) by (rewrite E3, E4; rewrite vang_shift; reflexivity).
  assert (F3 : vang R0 P Q = a3 R0) by (rewrite E5, E6; rewrite vang_shift; reflexivity).
  rewrite F1, F2, F3. reflexivity.
Qed.

Lemma down_weight x y z :
  weight (down_lat x y z) = a3 (vtx (S x) (S y) z) + a1 (vtx x (S y) (S z)) + a2 (vtx (S x) y (S z)) - PI.
Proof.
  pose proof (down_lat_det0 x y z) as H. unfold down_lat, tdet in *. cbn [Rad_Quad_Model.t0 Rad_Quad_Model.t1 Rad_Quad_Model.t2] in H.
  rewrite weight_angles by exact H.
  set (P := vtx (S x) (S y) z) in *. set (Q := vtx x (S y) (S z)) in *. set (R0 := vtx (S x) y (S z)) in *.
  assert (E1 : Q = vadd P (vneg d3)) by (unfold Q, P, vtx, vadd, vneg, d3; cbn [vx vy vz]; rewrite !S_INR; f_equal; ring).
  assert (E2 : R0 = vadd P d2) by (unfold R0, P, vtx, vadd, d2; cbn [vx vy vz]; rewrite !S_INR; f_equal; ring).
  assert (E3 : R0 = vadd Q (vneg d1)) by (unfold R0, Q, vtx, vadd, vneg, d1; cbn [vx vy vz]; rewrite !S_INR; f_equal; ring).
  assert (E4 : P = vadd Q d3) by (unfold P, Q, vtx, vadd, d3; cbn [vx vy vz]; rewrite !S_INR; f_equal; ring).
  assert (E5 : P = vadd R0 (vneg d2)) by (unfold P, R0, vtx, vadd, vneg, d2; cbn [vx vy vz]; rewrite !S_INR; f_equal; ring).
  assert (E6 : Q = vadd R0 d1) by (unfold Q, R0, vtx, vadd, d1; cbn [vx vy vz]; rewrite !S_INR; f_equal; ring).
  assert (NN : forall u, vneg (vneg u) = u) by (intros [u v w]; unfold vneg; cbn [vx vy vz]; f_equal; ring).
  assert (F1 : vang P Q R0 = a3 P).
  { rewrite E1, E2, vang_shift. unfold a3. rewrite <- (vang_neg P d3), NN. reflexivity. }
  assert (F2 : vang Q R0 P = a1 Q).
  { rewrite E3, E4, vang_shift. unfold a1. rewrite <- (vang_neg Q d1), NN. reflexivity. }
  assert (F3 : vang R0 P Q = a2 R0).
  { rewrite E5, E6, vang_shift. unfold a2. rewrite <- (vang_neg R0 d2), NN. reflexivity. }
  rewrite F1, F2, F3. reflexivity.
Qed.
