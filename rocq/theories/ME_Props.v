(** * C31: sub control surfaces close, sub control volumes fill the element *)
From Coq Require Import Reals List Arith Lra Lia.
From Coquelicot Require Import Coquelicot.
From Verif Require Import ME_Model ME_Spec.
Import ListNotations.
Local Open Scope R_scope.

Lemma vec_ext a b : vx a = vx b -> vy a = vy b -> vz a = vz b -> a = b.
Proof. destruct a, b; cbn; intros -> -> ->; reflexivity. Qed.

Lemma quad_area_diag q :
  quad_area_by_triangulation q
  = vscale (1/2) (cross (vsub (q 2%nat) (q 0%nat)) (vsub (q 3%nat) (q 1%nat))).
Proof.
  unfold quad_area_by_triangulation.
  destruct (q 0%nat), (q 1%nat), (q 2%nat), (q 3%nat).
  apply vec_ext; cbn; field.
Qed.

Ltac close_tac :=
  unfold closed_at, interior_area, boundary_area, exposed_area,
    hex_scs_area, tet_scs_area, wed_scs_area, pyr_scs_area;
  cbn [length hex_lrscv tet_lrscv wed_lrscv pyr_lrscv hex_side_nodes tet_side_nodes wed_side_nodes
    pyr_side_nodes hex_ip_node tet_ip_node wed_ip_node pyr_ip_node seq map nth Nat.eqb];
  rewrite ?quad_area_diag; unfold gather;
  apply vec_ext; cbn; field.
Ltac each_node i Hi := repeat (destruct i as [|i]; [ solve [close_tac] | try (exfalso; lia)]).

(** For every tetrahedron (any coordinates) the surfaces of every node's sub control volume close. *)
Theorem C31_tet4_closes : forall X i, (i < 4)%nat ->
  closed_at tet_lrscv (tet_scs_area X) tet_side_nodes tet_ip_node (exposed_area X) i.
Proof. intros X i Hi. each_node i Hi. Qed.
Theorem C31_hex8_closes : forall X i, (i < 8)%nat ->
  closed_at hex_lrscv (hex_scs_area X) hex_side_nodes hex_ip_node (exposed_area X) i.
Proof. intros X i Hi. each_node i Hi. Qed.
Theorem C31_wed6_closes : forall X i, (i < 6)%nat ->
  closed_at wed_lrscv (wed_scs_area X) wed_side_nodes wed_ip_node (exposed_area X) i.
Proof. intros X i Hi. each_node i Hi. Qed.
Theorem C31_pyr5_closes : forall X i, (i < 5)%nat ->
  closed_at pyr_lrscv (pyr_scs_area X) pyr_side_nodes pyr_ip_node (exposed_area X) i.
Proof. intros X i Hi. each_node i Hi. Qed.
