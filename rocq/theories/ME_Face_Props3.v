(** * C48 (continued): centroids on affine elements *)
From Coq Require Import Reals List Arith Lra Lia Psatz.
From Verif Require Import ME_Model ME_Shape_Model ME_Shape_Spec ME_Shape_Props ME_Shape_Props2
  ME_Point_Model ME_Point_Spec ME_Point_Props4 ME_Point_Props5 ME_Face_Model ME_Face_Spec ME_Face_Props ME_Props ME_Face_Props2.
Import ListNotations.
Local Open Scope R_scope.

(** ** On the reference elements *)
Definition facet_centroid (pts : nat -> vec) (row : list nat) (g : vec) : Prop :=
  quad_centroid (pts (nth 0 row 0%nat)) (pts (nth 1 row 0%nat)) (pts (nth 2 row 0%nat)) (pts (nth 3 row 0%nat)) g.
Ltac vconst := unfold tet4_nodes, wed6_nodes, pyr5_nodes, of_list, square; cbn [nth app].
Ltac fc k := exists k, (1 - k);
  match goal with |- exists A, _ /\ _ /\ _ /\ ?c1 = _ /\ ?c2 = _ /\ _ => exists (vadd c1 c2) end;
  split; [lra|]; split; [lra|]; split; [lra|];
  (split; [|split]); apply vec_ext; vred; lra.
Ltac ptsred f := unfold facet_centroid, quad_centroid; cbn [nth f]; vconst.
Lemma tet_ref_facets ip : (ip < 6)%nat -> facet_centroid (tet_points tet4_nodes) (nth ip tet_scs_table []) (nth ip tet_scs_loc vzero).
Proof.
  intros H. enum ip; cbn [tet_scs_table tet_scs_loc nth]; ptsred tet_points; [fc (1/2)|fc (1/3)|fc (1/2)|fc (1/2)|fc (2/3)|fc (2/3)].
Qed.
Lemma wed_ref_facets ip : (ip < 9)%nat -> facet_centroid (wed_points wed6_nodes) (nth ip wed_scs_table []) (nth ip wed_scs_loc vzero).
Proof.
  intros H. enum ip; cbn [wed_scs_table wed_scs_loc nth]; ptsred wed_points;
  [fc (1/2)|fc (1/2)|fc (1/2)|fc (1/2)|fc (1/2)|fc (1/2)|fc (1/2)|fc (3/4)|fc (1/4)].
Qed.
Lemma pyr_ref_facets ip : (ip < 12)%nat -> facet_centroid (pyr_points pyr5_nodes) (nth ip pyr_scs_table []) (nth ip pyr_scs_loc vzero).
Proof.
  intros H. enum ip; cbn [pyr_scs_table pyr_scs_loc nth]; ptsred pyr_points;
  [fc (3/7)|fc (3/7)|fc (3/7)|fc (4/7)|fc 0|fc 0|fc 0|fc 0|fc 0|fc 0|fc 0|fc 0].
Qed.
Ltac cellred f := unfold cell_of; cbn [seq length flat_map app nth fst snd Nat.eqb tet_lrscv tet_scs_table wed_lrscv wed_scs_table pyr_lrscv pyr_scs_table f];
  vconst; unfold cone_centroid, cone_volume, cone_moment, tet_vol; cbn [map rsum vsum fold_right]; cbv zeta; vred.
Lemma wed_ref_cells i : (i < 6)%nat -> cone_centroid (wed6_nodes i) (cell_of (wed_points wed6_nodes) wed_scs_table wed_lrscv i) (nth i wed_scv_loc vzero).
Proof. intros H. enum i; cbn [wed_scv_loc nth]; cellred wed_points; apply vec_ext; vred; field. Qed.
Lemma pyr_ref_cells i : (i < 5)%nat -> cone_centroid (pyr5_nodes i) (cell_of (pyr_points pyr5_nodes) pyr_scs_table pyr_lrscv i) (nth i pyr_scv_loc vzero).
Proof. intros H. enum i; cbn [pyr_scv_loc nth]; cellred pyr_points; apply vec_ext; vred; field. Qed.

(** ** Affine images *)
Lemma facet_centroid_affine a u v w pts pts' row g : (forall n, pts' n = affine_map a u v w (pts n)) ->
  facet_centroid pts row g -> facet_centroid pts' row (affine_map a u v w g).
Proof. intros H. unfold facet_centroid. rewrite !H. apply quad_centroid_affine. Qed.
Lemma place_affine n node N X a u v w s dom : nodal_basis n 3 dom node N -> dom s -> affine_element n node X a u v w ->
  place n N X s = affine_map a u v w s.
Proof.
  intros [U K L] Hs HE. unfold place.
  assert (L0 := L s 0%nat Hs ltac:(lia)). assert (L1 := L s 1%nat Hs ltac:(lia)). assert (L2 := L s 2%nat Hs ltac:(lia)).
  cbn [comp] in L0, L1, L2.
  assert (G : forall q, (forall p, q (affine_map a u v w p) = q a + (q u * vx p + (q v * vy p + q w * vz p))) ->
    interp n N s (fun i => q (X i)) = q (affine_map a u v w s)).
  { intros q Hq. rewrite (interp_ext _ _ _ _ (fun i => q a + (q u * vx (node i) + (q v * vy (node i) + q w * vz (node i)))))
      by (intros i Hi; rewrite HE by exact Hi; apply Hq).
    rewrite Hq, <- L0, <- L1, <- L2.
    rewrite (interp_ext _ _ _ _ (fun i => 1 * q a + 1 * (q u * vx (node i) + (q v * vy (node i) + q w * vz (node i))))) by (intros; ring).
    rewrite interp_lin, interp_const, (U s Hs).
    rewrite (interp_ext _ _ _ (fun i => q u * vx (node i) + (q v * vy (node i) + q w * vz (node i)))
       (fun i => q u * vx (node i) + 1 * (q v * vy (node i) + q w * vz (node i)))) by (intros; ring).
    rewrite !interp_lin. ring. }
  apply vec_ext; cbn [vx vy vz]; apply G; intros p; vred; ring.
Qed.
(** The nodes beyond the last are never used; make the element total. *)
Definition extend (n : nat) (node X : nat -> vec) a u v w (i : nat) : vec :=
  if Nat.ltb i n then X i else affine_map a u v w (node i).

(** ** Tetrahedra: every placement of the nodes is affine *)
Lemma tet_affine X : affine_element 4 tet4_nodes X (X 0%nat) (vsub (X 1%nat) (X 0%nat)) (vsub (X 2%nat) (X 0%nat)) (vsub (X 3%nat) (X 0%nat)).
Proof. intros i Hi. enum i; vconst; vec_eq. Qed.
Lemma tet_points_ext X Y n : (forall i, (i < 4)%nat -> X i = Y i) -> (n < 15)%nat -> tet_points X n = tet_points Y n.
Proof. intros H Hn. enum n; cbn [tet_points]; rewrite ?H by lia; reflexivity. Qed.
Lemma wed_points_ext X Y n : (forall i, (i < 6)%nat -> X i = Y i) -> (n < 21)%nat -> wed_points X n = wed_points Y n.
Proof. intros H Hn. enum n; cbn [wed_points]; rewrite ?H by lia; reflexivity. Qed.
Lemma pyr_points_ext X Y n : (forall i, (i < 5)%nat -> X i = Y i) -> (n < 19)%nat -> pyr_points X n = pyr_points Y n.
Proof. intros H Hn. enum n; cbn [pyr_points]; rewrite ?H by lia; reflexivity. Qed.
Lemma extend_eq n node X a u v w i : (i < n)%nat -> X i = extend n node X a u v w i.
Proof. intros H. unfold extend. destruct (Nat.ltb_spec i n); [reflexivity|lia]. Qed.
Lemma extend_all n node X a u v w : affine_element n node X a u v w -> forall i, extend n node X a u v w i = affine_map a u v w (node i).
Proof. intros H i. unfold extend. destruct (Nat.ltb_spec i n); [apply H; assumption|reflexivity]. Qed.

Theorem C48_tet_scs_points : forall X ip, (ip < 6)%nat ->
  facet_centroid (tet_points X) (nth ip tet_scs_table []) (place 4 tet4_shape X (nth ip tet_scs_loc vzero)).
Proof.
  intros X ip H. pose proof (tet_affine X) as HE.
  rewrite (place_affine _ _ _ _ _ _ _ _ _ _ C30_tet4_basis I HE).
  set (Y := extend 4 tet4_nodes X (X 0%nat) (vsub (X 1%nat) (X 0%nat)) (vsub (X 2%nat) (X 0%nat)) (vsub (X 3%nat) (X 0%nat))).
  assert (E : facet_centroid (tet_points Y) (nth ip tet_scs_table []) (affine_map (X 0%nat) (vsub (X 1%nat) (X 0%nat)) (vsub (X 2%nat) (X 0%nat)) (vsub (X 3%nat) (X 0%nat)) (nth ip tet_scs_loc vzero))).
  { eapply facet_centroid_affine; [|apply tet_ref_facets; exact H]. apply tet_points_affine. apply extend_all. exact HE. }
  revert E. unfold facet_centroid. rewrite !(tet_points_ext Y X); try tauto; intros; try (symmetry; apply extend_eq; assumption); enum ip; cbn; lia.
Qed.
(** The tetrahedron's volume points are the means of the eight corners of the control volumes, for
    any geometry, not their centroids. *)
Theorem C48_tet_scv_points : forall X ip, (ip < 4)%nat ->
  place 4 tet4_shape X (nth ip tet_scv_loc vzero) = corner_mean8 (tet_points X) (nth ip tet_scv_table []).
Proof.
  intros X ip H. enum ip; cbn [tet_scv_loc tet_scv_table nth]; unfold corner_mean8; cbn [map vsum fold_right tet_points]; pred;
  unfold tet4_shape; vec_eq.
Qed.
Theorem C48_tet_scv_centroid_refuted :
  ~ cone_centroid (tet4_nodes 0) (cell_of (tet_points tet4_nodes) tet_scs_table tet_lrscv 0) (place 4 tet4_shape tet4_nodes (nth 0 tet_scv_loc vzero)).
Proof.
  rewrite (place_affine _ _ _ _ _ _ _ _ _ _ C30_tet4_basis I (tet_affine tet4_nodes)).
  intros E. apply (f_equal vx) in E. revert E. cbn [tet_scv_loc nth]. cellred tet_points. lra.
Qed.
(** Their sum weighted with the (equal) volumes is nevertheless exact: the volume points integrate
    linear fields over the element exactly. *)
Theorem C48_tet_scv_linear_exact : forall f : nat -> R,
  1/4 * rsum (map (fun ip => interp 4 tet4_shape (nth ip tet_scv_loc vzero) f) (seq 0 4)) = (f 0%nat + f 1%nat + f 2%nat + f 3%nat)/4.
Proof.
  intros f. unfold interp. cbn [tet_scv_loc nth seq map rsum fold_right]. unfold tet4_shape. cbn [vx vy vz]. field.
Qed.

(** ** Wedges and pyramids: affine images of the reference element *)
Theorem C48_wedge_scs_points : forall X a u v w ip, affine_element 6 wed6_nodes X a u v w -> (ip < 9)%nat ->
  facet_centroid (wed_points X) (nth ip wed_scs_table []) (place 6 wed6_shape X (nth ip wed_scs_loc vzero)).
Proof.
  intros X a u v w ip HE H. rewrite (place_affine _ _ _ _ _ _ _ _ _ _ C30_wed6_basis I HE).
  set (Y := extend 6 wed6_nodes X a u v w).
  assert (E : facet_centroid (wed_points Y) (nth ip wed_scs_table []) (affine_map a u v w (nth ip wed_scs_loc vzero))).
  { eapply facet_centroid_affine; [|apply wed_ref_facets; exact H]. apply wed_points_affine. apply extend_all. exact HE. }
  revert E. unfold facet_centroid. rewrite !(wed_points_ext Y X); try tauto; intros; try (symmetry; apply extend_eq; assumption); enum ip; cbn; lia.
Qed.
Lemma pyr_locs_off ip : off_apex (nth ip pyr_scs_loc vzero) /\ off_apex (nth ip pyr_scv_loc vzero).
Proof.
  assert (G : forall s, vz s <= 3/4 -> off_apex s).
  { intros s Hs. unfold off_apex, dbl_epsilon. rewrite Rabs_right by lra. apply Rlt_le_trans with (/4); [|lra]. apply Rinv_lt_contravar; lra. }
  split; apply G.
  - do 12 (destruct ip as [|ip]; [cbn; lra|]). cbn. destruct ip; cbn; lra.
  - do 5 (destruct ip as [|ip]; [cbn; lra|]). cbn. destruct ip; cbn; lra.
Qed.
Theorem C48_pyramid_scs_points : forall X a u v w ip, affine_element 5 pyr5_nodes X a u v w -> (ip < 12)%nat ->
  facet_centroid (pyr_points X) (nth ip pyr_scs_table []) (place 5 pyr5_shape X (nth ip pyr_scs_loc vzero)).
Proof.
  intros X a u v w ip HE H. rewrite (place_affine _ _ _ _ _ _ _ _ _ _ C30_pyr5_basis (proj1 (pyr_locs_off ip)) HE).
  set (Y := extend 5 pyr5_nodes X a u v w).
  assert (E : facet_centroid (pyr_points Y) (nth ip pyr_scs_table []) (affine_map a u v w (nth ip pyr_scs_loc vzero))).
  { eapply facet_centroid_affine; [|apply pyr_ref_facets; exact H]. apply pyr_points_affine. apply extend_all. exact HE. }
  revert E. unfold facet_centroid. rewrite !(pyr_points_ext Y X); try tauto; intros; try (symmetry; apply extend_eq; assumption); enum ip; cbn; lia.
Qed.
Lemma cell_of_ext pts pts' tab lr i : (forall ip j, (ip < length lr)%nat -> (j < 4)%nat -> pts (nth j (nth ip tab []) 0%nat) = pts' (nth j (nth ip tab []) 0%nat)) ->
  cell_of pts tab lr i = cell_of pts' tab lr i.
Proof.
  intros H. unfold cell_of. rewrite !flat_map_concat_map. f_equal. apply map_ext_in. intros ip Hip. apply in_seq in Hip.
  cbv zeta. rewrite !H by lia. reflexivity.
Qed.
Theorem C48_wedge_scv_points : forall X a u v w i, affine_element 6 wed6_nodes X a u v w -> (i < 6)%nat ->
  cone_centroid (X i) (cell_of (wed_points X) wed_scs_table wed_lrscv i) (place 6 wed6_shape X (nth i wed_scv_loc vzero)).
Proof.
  intros X a u v w i HE H. rewrite (place_affine _ _ _ _ _ _ _ _ _ _ C30_wed6_basis I HE).
  set (Y := extend 6 wed6_nodes X a u v w).
  rewrite (cell_of_ext (wed_points X) (wed_points Y)).
  2: { intros ip j Hip Hj. apply wed_points_ext; [intros k Hk; apply extend_eq; exact Hk|]. cbn [length wed_lrscv] in Hip. enum ip; enum j; cbn; lia. }
  rewrite (cell_of_affine a u v w (wed_points wed6_nodes)) by (apply wed_points_affine; apply extend_all; exact HE).
  rewrite HE by exact H. apply cone_centroid_affine. apply wed_ref_cells. exact H.
Qed.
Theorem C48_pyramid_scv_points : forall X a u v w i, affine_element 5 pyr5_nodes X a u v w -> (i < 5)%nat ->
  cone_centroid (X i) (cell_of (pyr_points X) pyr_scs_table pyr_lrscv i) (place 5 pyr5_shape X (nth i pyr_scv_loc vzero)).
Proof.
  intros X a u v w i HE H. rewrite (place_affine _ _ _ _ _ _ _ _ _ _ C30_pyr5_basis (proj2 (pyr_locs_off i)) HE).
  set (Y := extend 5 pyr5_nodes X a u v w).
  rewrite (cell_of_ext (pyr_points X) (pyr_points Y)).
  2: { intros ip j Hip Hj. apply pyr_points_ext; [intros k Hk; apply extend_eq; exact Hk|]. cbn [length pyr_lrscv] in Hip. enum ip; enum j; cbn; lia. }
  rewrite (cell_of_affine a u v w (pyr_points pyr5_nodes)) by (apply pyr_points_affine; apply extend_all; exact HE).
  rewrite HE by exact H. apply cone_centroid_affine. apply pyr_ref_cells. exact H.
Qed.
(** The affine hypotheses are met by the reference elements themselves, whose cells have positive volume. *)
Example C48_hypotheses_met : affine_element 5 pyr5_nodes pyr5_nodes vzero (V 1 0 0) (V 0 1 0) (V 0 0 1) /\ cone_volume (pyr5_nodes 4) (cell_of (pyr_points pyr5_nodes) pyr_scs_table pyr_lrscv 4) = 52/135 /\ cone_volume (pyr5_nodes 0) (cell_of (pyr_points pyr5_nodes) pyr_scs_table pyr_lrscv 0) = 32/135.
Proof.
  split; [intros i _; destruct (pyr5_nodes i); vec_eq|].
  split; cellred pyr_points; field.
Qed.
(** Face elements: the points of Tri3DSCS are the centroids of its three quadrilaterals, those of
    Quad3DSCS the means of their corners. *)
Theorem C48_face_points : forall p : nat -> vec,
  (forall k, (k < 3)%nat ->
     let prev := nth k [2;0;1]%nat 0%nat in let next := nth k [1;2;0]%nat 0%nat in
     quad_centroid (p k) (avg2 (p k) (p next)) (avg3 (p 0%nat) (p 1%nat) (p 2%nat)) (avg2 (p prev) (p k))
       (place 3 tri3_shape p (nth k tri3d_loc vzero))) /\ (forall k, (k < 4)%nat ->
     let prev := nth k [3;0;1;2]%nat 0%nat in let next := nth k [1;2;3;0]%nat 0%nat in
     place 4 quad4_shape p (nth k quad3d_loc vzero) =
     avg4 (p k) (avg2 (p k) (p next)) (avg4 (p 0%nat) (p 1%nat) (p 2%nat) (p 3%nat)) (avg2 (p prev) (p k))).
Proof.
  intros p. split; intros k Hk; cbv zeta.
  - enum k; cbn [tri3d_loc nth]; unfold quad_centroid; exists (1/2), (1 - 1/2);
    match goal with |- exists A, _ /\ _ /\ _ /\ ?c1 = _ /\ ?c2 = _ /\ _ => exists (vadd c1 c2) end;
    (split; [lra|]); (split; [lra|]); (split; [lra|]); (split; [vec_eq|split; [vec_eq|]]); pred; unfold tri3_shape; vec_eq.
  - enum k; cbn [quad3d_loc nth]; pred; unfold quad4_shape; vec_eq.
Qed.
