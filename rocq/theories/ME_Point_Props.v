(** * C33: finding the parametric coordinates of a point: distances, closed formulas *)
From Coq Require Import Reals List Arith Lra Lia Psatz.
From Verif Require Import ME_Model ME_Shape_Model ME_Shape_Spec ME_Shape_Props ME_Shape_Props2 ME_Point_Model ME_Point_Spec.
Import ListNotations.
Local Open Scope R_scope.

(** ** The returned distance is at most one exactly on the reference element *)
Lemma Rmax_le_iff a b c : Rmax a b <= c <-> a <= c /\ b <= c.
Proof. unfold Rmax. destruct (Rle_dec a b); lra. Qed.
Lemma upd_max a b : upd a b = Rmax a b.
Proof. unfold upd, Rmax. destruct (Rlt_dec a b), (Rle_dec a b); lra. Qed.
Lemma Rabs_le_iff a c : Rabs a <= c <-> - c <= a <= c.
Proof. unfold Rabs. destruct (Rcase_abs a); lra. Qed.

Theorem C33_distance_is_membership : forall s,
  (tet_dist s <= 1 <-> in_simplex3 s) /\
  (wed_dist s <= 1 <-> in_wedge s) /\
  (pyr_dist s <= 1 <-> in_pyramid s) /\
  (hex_dist s <= 1 <-> in_box3 1 s) /\
  (quad_dist s <= 1 <-> in_box2 1 s) /\
  (forall t, 0 <= t -> (face_dist t s <= 1 <-> in_box2 1 s /\ Rabs (vz s) <= t)).
Proof.
  intros s.
  assert (Q : forall a b, (if Rlt_dec b a then a else b) = Rmax b a).
  { intros a b. unfold Rmax. destruct (Rlt_dec b a), (Rle_dec b a); lra. }
  unfold tet_dist, wed_dist, pyr_dist, hex_dist, quad_dist, face_dist, in_simplex3, in_wedge, in_simplex2, in_pyramid,
    in_box3, in_box2; cbv zeta.
  split; [rewrite !Rmax_le_iff; lra|].
  split; [rewrite !Rmax_le_iff, !Rabs_le_iff; lra|].
  split.
  { rewrite Rmax_le_iff. rewrite !Rabs_le_iff.
    assert (E : 3/2 * (vz s - 1/3 + Rmax (Rabs (vx s)) (Rabs (vy s))) <= 1
                <-> Rmax (Rabs (vx s)) (Rabs (vy s)) <= 1 - vz s) by lra.
    rewrite E, Rmax_le_iff, !Rabs_le_iff. split; [|lra]. intros [[H1 H2] H3]. repeat split; lra. }
  split; [rewrite !upd_max, !Rmax_le_iff, !Rabs_le_iff; split; [lra|]; intros H; repeat split; lra|].
  split; [rewrite Q, Rmax_le_iff, !Rabs_le_iff; lra|].
  intros t Ht. rewrite upd_max.
  assert (M : Rmax (Rabs (vx s)) (Rabs (vy s)) <= 1 <-> -1 <= vx s <= 1 /\ -1 <= vy s <= 1)
    by (rewrite Rmax_le_iff, !Rabs_le_iff; lra).
  pose proof (Rabs_pos (vz s)).
  destruct (Rlt_dec t (Rabs (vz s))) as [h|h].
  - destruct (Rlt_dec (Rmax (Rabs (vx s)) (Rabs (vy s))) (1 + Rabs (vz s))); split; intros; lra.
  - rewrite <- M. split; intros; lra.
Qed.

(** ** Tetrahedron: the search inverts the element map *)
Lemma tet_place e s : place 4 tet4_shape e s
  = affine_map (e 0%nat) (vsub (e 1%nat) (e 0%nat)) (vsub (e 2%nat) (e 0%nat)) (vsub (e 3%nat) (e 0%nat)) s.
Proof. unfold place, interp, affine_map, tet4_shape, vadd, vsub, vscale. red_shape. f_equal; ring. Qed.
Definition tet_volume6 (e : nat -> vec) : R :=
  triple (vsub (e 1%nat) (e 0%nat)) (vsub (e 2%nat) (e 0%nat)) (vsub (e 3%nat) (e 0%nat)).
Lemma affine_inj a u v w s t : triple u v w <> 0 -> affine_map a u v w s = affine_map a u v w t -> s = t.
Proof.
  intros D E. destruct s as [s1 s2 s3], t as [t1 t2 t3].
  assert (X := f_equal vx E). assert (Y := f_equal vy E). assert (Z := f_equal vz E). clear E.
  unfold affine_map, triple, dot, cross in *. cbn in *.
  assert (G : forall d k, d <> 0 -> d * k = 0 -> k = 0).
  { intros d k Hd Hk. apply Rmult_integral in Hk. tauto. }
  set (d := vx u * (vy v * vz w - vz v * vy w) + vy u * (vz v * vx w - vx v * vz w) + vz u * (vx v * vy w - vy v * vx w)).
  assert (Hd : d <> 0) by (intros E; apply D; rewrite <- E; unfold d; ring).
  assert (A1 : d * (s1 - t1) = 0).
  { transitivity ((vy v * vz w - vz v * vy w) * ((vx a + (s1*vx u + (s2*vx v + s3*vx w))) - (vx a + (t1*vx u + (t2*vx v + t3*vx w))))
      + (vz v * vx w - vx v * vz w) * ((vy a + (s1*vy u + (s2*vy v + s3*vy w))) - (vy a + (t1*vy u + (t2*vy v + t3*vy w))))
      + (vx v * vy w - vy v * vx w) * ((vz a + (s1*vz u + (s2*vz v + s3*vz w))) - (vz a + (t1*vz u + (t2*vz v + t3*vz w)))));
    [unfold d; ring|rewrite X, Y, Z; ring]. }
  assert (A2 : d * (s2 - t2) = 0).
  { transitivity ((vy w * vz u - vz w * vy u) * ((vx a + (s1*vx u + (s2*vx v + s3*vx w))) - (vx a + (t1*vx u + (t2*vx v + t3*vx w))))
      + (vz w * vx u - vx w * vz u) * ((vy a + (s1*vy u + (s2*vy v + s3*vy w))) - (vy a + (t1*vy u + (t2*vy v + t3*vy w))))
      + (vx w * vy u - vy w * vx u) * ((vz a + (s1*vz u + (s2*vz v + s3*vz w))) - (vz a + (t1*vz u + (t2*vz v + t3*vz w)))));
    [unfold d; ring|rewrite X, Y, Z; ring]. }
  assert (A3 : d * (s3 - t3) = 0).
  { transitivity ((vy u * vz v - vz u * vy v) * ((vx a + (s1*vx u + (s2*vx v + s3*vx w))) - (vx a + (t1*vx u + (t2*vx v + t3*vx w))))
      + (vz u * vx v - vx u * vz v) * ((vy a + (s1*vy u + (s2*vy v + s3*vy w))) - (vy a + (t1*vy u + (t2*vy v + t3*vy w))))
      + (vx u * vy v - vy u * vx v) * ((vz a + (s1*vz u + (s2*vz v + s3*vz w))) - (vz a + (t1*vz u + (t2*vz v + t3*vz w)))));
    [unfold d; ring|rewrite X, Y, Z; ring]. }
  apply (G _ _ Hd) in A1. apply (G _ _ Hd) in A2. apply (G _ _ Hd) in A3. f_equal; lra.
Qed.

Theorem C33_tet_search : forall e p, tet_volume6 e <> 0 ->
  exists r, tet_is_in_element e p = Some r /\
    place 4 tet4_shape e (f_par r) = p /\
    (forall s, place 4 tet4_shape e s = p -> s = f_par r) /\
    (f_dist r <= 1 <-> exists s, in_simplex3 s /\ place 4 tet4_shape e s = p).
Proof.
  intros e p HV.
  assert (HV' := HV). unfold tet_volume6, triple, dot, cross, vsub in HV'. cbn [vx vy vz] in HV'.
  unfold tet_is_in_element. cbv zeta.
  match goal with |- context [Req_EM_T ?d 0] => set (det := d); destruct (Req_EM_T det 0) as [h|h] end.
  { exfalso. apply HV'. rewrite <- h. unfold det. ring. }
  eexists. split; [reflexivity|]. cbn [f_par f_dist].
  match goal with |- context [tet_dist ?q] => set (r := q) end.
  assert (P : place 4 tet4_shape e r = p).
  { rewrite tet_place. unfold affine_map, vadd, vsub, vscale, r. cbn [vx vy vz].
    destruct p as [p1 p2 p3]. cbn [vx vy vz]. f_equal; unfold det; field; exact h. }
  assert (U : forall s, place 4 tet4_shape e s = p -> s = r).
  { intros s Hs. rewrite <- P in Hs. rewrite !tet_place in Hs. eapply affine_inj; [|exact Hs]. exact HV. }
  repeat split; try assumption.
  - intros H. exists r. split; [|exact P]. apply (C33_distance_is_membership r). exact H.
  - intros [s [Hs Hp]]. apply U in Hp. subst s. apply (C33_distance_is_membership r). exact Hs.
Qed.
(** Non-vacuity *)
Example C33_tet_example : exists r, tet_is_in_element tet4_nodes (V (1/4) (1/4) (1/4)) = Some r /\ f_dist r <= 1.
Proof.
  destruct (C33_tet_search tet4_nodes (V (1/4) (1/4) (1/4))) as [r [E [P [U D]]]].
  - unfold tet_volume6, triple, dot, cross, vsub, tet4_nodes, of_list. cbn. intros E. lra.
  - exists r. split; [exact E|]. apply D. exists (V (1/4) (1/4) (1/4)). split; [unfold in_simplex3; cbn; lra|].
    rewrite tet_place. unfold affine_map, tet4_nodes, of_list, vadd, vsub, vscale. cbn [vx vy vz nth]. f_equal; field.
Qed.
