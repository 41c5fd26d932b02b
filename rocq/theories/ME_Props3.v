(** * C31: the hexahedral sub control volumes add up to the integral of the Jacobian determinant;
      planar elements; faces shared by two elements; sanity of the specification *)
From Coq Require Import Reals List Arith Lra Lia.
From Coquelicot Require Import Coquelicot.
From Verif Require Import ME_Model ME_Spec ME_Props ME_Props2.
Import ListNotations.
Local Open Scope R_scope.

Definition lerp (t : R) (a b : vec) : vec := vadd (vscale (1-t) a) (vscale t b).

Lemma int_w p q r s c :
  RInt (fun w => triple (lerp w p q) (lerp w r s) c) 0 1
  = (2 * triple p r c + triple p s c + triple q r c + 2 * triple q s c) / 6.
Proof.
  rewrite (RInt_simpson (fun w => triple (lerp w p q) (lerp w r s) c)).
  - unfold triple, dot, vprod, lerp. cbn. field.
  - intros w. unfold triple, dot, vprod, lerp. cbn. field.
Qed.
Definition bil (p0 p1 r c0 c1 : vec) : R :=
  (2 * triple p0 r c0 + triple p0 r c1 + triple p1 r c0 + 2 * triple p1 r c1) / 6.
Lemma int_v p0 p1 q0 q1 r s c0 c1 :
  RInt (fun v => (2 * triple (lerp v p0 p1) r (lerp v c0 c1) + triple (lerp v p0 p1) s (lerp v c0 c1)
                  + triple (lerp v q0 q1) r (lerp v c0 c1) + 2 * triple (lerp v q0 q1) s (lerp v c0 c1)) / 6) 0 1
  = (2 * bil p0 p1 r c0 c1 + bil p0 p1 s c0 c1 + bil q0 q1 r c0 c1 + 2 * bil q0 q1 s c0 c1) / 6.
Proof.
  rewrite (RInt_simpson (fun v => (2 * triple (lerp v p0 p1) r (lerp v c0 c1) + triple (lerp v p0 p1) s (lerp v c0 c1)
                  + triple (lerp v q0 q1) r (lerp v c0 c1) + 2 * triple (lerp v q0 q1) s (lerp v c0 c1)) / 6)).
  - unfold bil, triple, dot, vprod, lerp. cbn. field.
  - intros w. unfold triple, dot, vprod, lerp. cbn. field.
Qed.
Lemma bil_u p0 p1 r0 r1 a0 a1 b0 b1 u :
  let g := fun u => bil p0 p1 (lerp u r0 r1) (lerp u a0 a1) (lerp u b0 b1) in
  g u = g 0 + (4 * g (1/2) - 3 * g 0 - g 1) * u + (2 * g 0 + 2 * g 1 - 4 * g (1/2)) * (u * u).
Proof. cbv zeta beta. unfold bil, triple, dot, vprod, lerp. cbn. field. Qed.

Lemma hex_integral_closed X :
  let p0 := vsub (X 1%nat) (X 0%nat) in let p1 := vsub (X 2%nat) (X 3%nat) in
  let q0 := vsub (X 5%nat) (X 4%nat) in let q1 := vsub (X 6%nat) (X 7%nat) in
  let r0 := vsub (X 3%nat) (X 0%nat) in let r1 := vsub (X 2%nat) (X 1%nat) in
  let s0 := vsub (X 7%nat) (X 4%nat) in let s1 := vsub (X 6%nat) (X 5%nat) in
  let a0 := vsub (X 4%nat) (X 0%nat) in let a1 := vsub (X 5%nat) (X 1%nat) in
  let b0 := vsub (X 7%nat) (X 3%nat) in let b1 := vsub (X 6%nat) (X 2%nat) in
  let g := fun u => (2 * bil p0 p1 (lerp u r0 r1) (lerp u a0 a1) (lerp u b0 b1)
      + bil p0 p1 (lerp u s0 s1) (lerp u a0 a1) (lerp u b0 b1)
      + bil q0 q1 (lerp u r0 r1) (lerp u a0 a1) (lerp u b0 b1)
      + 2 * bil q0 q1 (lerp u s0 s1) (lerp u a0 a1) (lerp u b0 b1)) / 6 in
  hex_volume_integral X = (g 0 + 4 * g (1/2) + g 1) / 6.
Proof.
  intros p0 p1 q0 q1 r0 r1 s0 s1 a0 a1 b0 b1 g. unfold hex_volume_integral.
  rewrite <- (RInt_simpson g).
  - apply RInt_ext. intros u _.
    etransitivity; [|apply (int_v p0 p1 q0 q1 (lerp u r0 r1) (lerp u s0 s1) (lerp u a0 a1) (lerp u b0 b1))].
    apply RInt_ext. intros v _.
    exact (int_w (lerp v p0 p1) (lerp v q0 q1) (lerp u r0 r1) (lerp u s0 s1) (lerp v (lerp u a0 a1) (lerp u b0 b1))).
  - intros u. unfold g.
    generalize (bil_u p0 p1 r0 r1 a0 a1 b0 b1 u), (bil_u p0 p1 s0 s1 a0 a1 b0 b1 u),
      (bil_u q0 q1 r0 r1 a0 a1 b0 b1 u), (bil_u q0 q1 s0 s1 a0 a1 b0 b1 u).
    cbv zeta beta. intros -> -> -> ->. field.
Qed.
Lemma hex_enclosed_is_integral X : enclosed_volume hex_faces X = hex_volume_integral X.
Proof.
  rewrite hex_integral_closed. unfold enclosed_volume. cbn [hex_faces map face_flux rsum fold_right].
  rewrite !patch_flux_qf.
  unfold qf, facet_term, bil, triple, dot, vprod, lerp, avg4, vadd, vsub, vscale. cbn [vx vy vz].
  field.
Qed.

(** The eight sub control volumes of any hexahedron (any coordinates, warped faces included) add up to the
    volume of the trilinear element: the integral over the reference cube of the Jacobian
    determinant. *)
Theorem C31_hex8_volume_integral : forall X,
  rsum (map (hex_scv_volume X) (seq 0 8)) = hex_volume_integral X.
Proof. intros X. rewrite C31_hex8_volumes_fill. apply hex_enclosed_is_integral. Qed.

(** Sanity of the specification: [hex_du/dv/dw] are the partial difference quotients (hence the
    partial derivatives, the map being affine in each variable) of the trilinear interpolation
    [hex_map], which takes the node coordinates at the corners. *)
Lemma hex_map_partials X u v w h :
  hex_map X (u+h) v w = vadd (hex_map X u v w) (vscale h (hex_du X v w)) /\
  hex_map X u (v+h) w = vadd (hex_map X u v w) (vscale h (hex_dv X u w)) /\
  hex_map X u v (w+h) = vadd (hex_map X u v w) (vscale h (hex_dw X u v)).
Proof.
  unfold hex_map, hex_du, hex_dv, hex_dw. cbn [seq map vsum fold_right].
  unfold tri_weight. cbn [Nat.modulo Nat.divmod fst snd Nat.sub Nat.eqb Nat.ltb Nat.leb orb].
  repeat split; apply vec_ext; cbn; ring.
Qed.
Lemma hex_map_corner X n : (n < 8)%nat ->
  hex_map X (if orb (Nat.eqb (n mod 4) 1) (Nat.eqb (n mod 4) 2) then 1 else 0)
    (if Nat.ltb 1 (n mod 4) then 1 else 0) (if Nat.ltb 3 n then 1 else 0) = X n.
Proof.
  intros Hn. unfold hex_map. cbn [seq map vsum fold_right]. unfold tri_weight.
  do 8 (destruct n as [|n]; [cbn -[Rminus Rmult Rplus]; apply vec_ext; cbn; ring | try lia]).
Qed.

(** ** Planar elements *)
Definition emb (p : R * R) : vec := V (fst p) (snd p) 0.
Definition exposed_edge (x y : nat -> R) (nodes : list nat) (k : nat) : vec :=
  emb (edge2d_scs_det (fun n => x (nth n nodes 0%nat)) (fun n => y (nth n nodes 0%nat)) k).

Ltac close2 :=
  unfold closed_at, interior_area, boundary_area, exposed_edge, emb;
  cbn [length tri2d_lrscv quad2d_lrscv tri2d_side_nodes quad2d_side_nodes tri2d_ip_node quad2d_ip_node
    seq map nth Nat.eqb];
  apply vec_ext; cbn; field.
Theorem C31_tri3_2d_closes : forall x y i, (i < 3)%nat ->
  closed_at tri2d_lrscv (fun k => emb (tri2d_scs_area x y k)) tri2d_side_nodes tri2d_ip_node (exposed_edge x y) i.
Proof. intros x y i Hi. repeat (destruct i as [|i]; [ solve [close2] | try (exfalso; lia)]). Qed.
Theorem C31_quad4_2d_closes : forall x y i, (i < 4)%nat ->
  closed_at quad2d_lrscv (fun k => emb (quad2d_scs_area x y k)) quad2d_side_nodes quad2d_ip_node (exposed_edge x y) i.
Proof. intros x y i Hi. repeat (destruct i as [|i]; [ solve [close2] | try (exfalso; lia)]). Qed.

(** The sub areas of planar triangles and quadrilaterals add up to the (signed) area, whatever the
    rounding of the Gauss points; each triangle part is one third. *)
Theorem C31_tri3_2d_areas_fill : forall x y,
  rsum (map (tri2d_scv_volume x y) (seq 0 3)) = shoelace 3 x y.
Proof.
  intros x y. unfold tri2d_scv_volume, shoelace, quad_det_j, qsx, qsy, tri2d_sub_corner. cbn. field.
Qed.
Theorem C31_tri3_2d_equal_thirds : forall x y k, (k < 3)%nat ->
  tri2d_scv_volume x y k = shoelace 3 x y / 3.
Proof.
  intros x y k Hk. do 3 (destruct k as [|k]; [
    unfold tri2d_scv_volume, shoelace, quad_det_j, qsx, qsy, tri2d_sub_corner; cbn; field | try lia]).
Qed.
Theorem C31_quad4_2d_areas_fill : forall x y,
  rsum (map (quad2d_scv_volume x y) (seq 0 4)) = shoelace 4 x y.
Proof.
  intros x y. unfold quad2d_scv_volume, shoelace, quad_det_j, qsx, qsy. cbn. field.
Qed.

(** ** Faces shared by two elements: the neighbour sees the same nodes in the opposite sense, and
    the part of the face belonging to each node is the exact opposite, so that the control volumes of
    the dual mesh fit together. *)
Theorem C31_shared_quad_cancels : forall p k, (k < 4)%nat ->
  quad3d_scs_det (fun n => p (nth n [0;3;2;1]%nat 0%nat)) k
  = vneg (quad3d_scs_det p (nth k [0;3;2;1]%nat 0%nat)).
Proof. intros p k Hk. do 4 (destruct k as [|k]; [apply vec_ext; cbn; field | try lia]). Qed.
Theorem C31_shared_quad_rotation : forall p k, (k < 4)%nat ->
  quad3d_scs_det (fun n => p (nth n [1;2;3;0]%nat 0%nat)) k = quad3d_scs_det p (nth k [1;2;3;0]%nat 0%nat).
Proof. intros p k Hk. do 4 (destruct k as [|k]; [apply vec_ext; cbn; field | try lia]). Qed.
Theorem C31_shared_tri_cancels : forall p k, (k < 3)%nat ->
  tri3d_scs_det (fun n => p (nth n [0;2;1]%nat 0%nat)) k
  = vneg (tri3d_scs_det p (nth k [0;2;1]%nat 0%nat)).
Proof. intros p k Hk. do 3 (destruct k as [|k]; [apply vec_ext; cbn; field | try lia]). Qed.
Theorem C31_shared_tri_rotation : forall p k, (k < 3)%nat ->
  tri3d_scs_det (fun n => p (nth n [1;2;0]%nat 0%nat)) k = tri3d_scs_det p (nth k [1;2;0]%nat 0%nat).
Proof. intros p k Hk. do 3 (destruct k as [|k]; [apply vec_ext; cbn; field | try lia]). Qed.

(** Each third of a flat triangle and the four parts of a quadrilateral add up to the area vector of
    the face (half the cross product of two edges, of the diagonals). *)
Theorem C31_exposed_tri_area : forall p k, (k < 3)%nat ->
  tri3d_scs_det p k = vscale (1/6) (vprod (vsub (p 1%nat) (p 0%nat)) (vsub (p 2%nat) (p 0%nat))).
Proof. intros p k Hk. do 3 (destruct k as [|k]; [apply vec_ext; cbn; field | try lia]). Qed.
Theorem C31_exposed_quad_area : forall p,
  vsum (map (quad3d_scs_det p) (seq 0 4))
  = vscale (1/2) (vprod (vsub (p 2%nat) (p 0%nat)) (vsub (p 3%nat) (p 1%nat))).
Proof. intros p. apply vec_ext; cbn; field. Qed.

(** ** Orientation and a concrete case: for the unit cube every sub volume is 1/8 and the surface
    between nodes 0 and 1 is a quarter unit square pointing from 0 to 1; the reference tetrahedron. *)
Definition cube (n : nat) : vec :=
  match n with
  | 0%nat => V 0 0 0 | 1%nat => V 1 0 0 | 2%nat => V 1 1 0 | 3%nat => V 0 1 0
  | 4%nat => V 0 0 1 | 5%nat => V 1 0 1 | 6%nat => V 1 1 1 | _ => V 0 1 1
  end.
Example C31_unit_cube : (forall k, (k < 8)%nat -> hex_scv_volume cube k = 1/8) /\
  hex_scs_area cube 0 = V (1/4) 0 0 /\ hex_scs_area cube 8 = V 0 0 (1/4).
Proof.
  split; [|split].
  - intros k Hk. do 8 (destruct k as [|k]; [cbv -[Rplus Rmult Rminus Ropp Rinv Rdiv IZR]; field | try lia]).
  - apply vec_ext; cbv -[Rplus Rmult Rminus Ropp Rinv Rdiv IZR]; field.
  - apply vec_ext; cbv -[Rplus Rmult Rminus Ropp Rinv Rdiv IZR]; field.
Qed.
Definition ref_tet (n : nat) : vec :=
  match n with 0%nat => V 0 0 0 | 1%nat => V 1 0 0 | 2%nat => V 0 1 0 | _ => V 0 0 1 end.
Example C31_reference_tet : (forall k, (k < 4)%nat -> tet_scv_volume ref_tet k = 1/24).
Proof.
  intros k Hk. do 4 (destruct k as [|k]; [cbv -[Rplus Rmult Rminus Ropp Rinv Rdiv IZR]; field | try lia]).
Qed.

(** Orientation: on every tetrahedron the surface between two nodes has the same positive moment
    along the edge, half the volume (so with positive volume it points from the left to the right
    node); on every planar triangle, two thirds of the area. *)
Theorem C31_tet4_surface_orientation : forall X k, (k < 6)%nat ->
  let '(l, r) := nth k tet_lrscv (0, 0)%nat in
  dot (tet_scs_area X k) (vsub (X r) (X l)) = enclosed_volume tet_faces X / 2.
Proof.
  intros X k Hk. unfold enclosed_volume, tet_scs_area.
  do 6 (destruct k as [|k]; [cbn [nth tet_lrscv]; rewrite quad_area_diag;
    cbv -[Rplus Rmult Rminus Ropp Rinv Rdiv IZR]; field | try lia]).
Qed.
Theorem C31_tri3_2d_surface_orientation : forall x y k, (k < 3)%nat ->
  let '(l, r) := nth k tri2d_lrscv (0, 0)%nat in
  fst (tri2d_scs_area x y k) * (x r - x l) + snd (tri2d_scs_area x y k) * (y r - y l)
  = 2/3 * shoelace 3 x y.
Proof.
  intros x y k Hk. unfold shoelace. do 3 (destruct k as [|k]; [cbn; field | try lia]).
Qed.
