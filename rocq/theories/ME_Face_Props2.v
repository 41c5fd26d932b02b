(** * C48: integration points are the centroids of the sub-control surfaces and volumes *)
From Coq Require Import Reals List Arith Lra Lia Psatz.
From Verif Require Import ME_Model ME_Shape_Model ME_Shape_Spec ME_Shape_Props ME_Shape_Props2
  ME_Point_Model ME_Point_Spec ME_Point_Props4 ME_Point_Props5 ME_Face_Model ME_Face_Spec ME_Face_Props ME_Props.
Import ListNotations.
Local Open Scope R_scope.

Ltac pred := unfold place, interp; cbn [seq map rsum fold_right].
Ltac vred := cbn [vx vy vz vadd vscale vsub vzero avg4 avg3 avg2 cross affine_map].
Ltac vec_eq := apply vec_ext; vred; field.

(** ** Any geometry *)
(** Hexahedra: the point of each sub-control surface is the mean of the four corners of that
    surface, for every placement of the eight nodes; likewise the eight corners of each volume. *)
Definition corner_mean4 (pts : nat -> vec) (row : list nat) : vec :=
  vscale (1/4) (vsum (map pts row)).
Definition corner_mean8 (pts : nat -> vec) (row : list nat) : vec :=
  vscale (1/8) (vsum (map pts row)).
Theorem C48_hex_scs_points : forall X ip, (ip < 12)%nat ->
  place 8 hex8_shape X (nth ip hex_scs_loc vzero) = corner_mean4 (subdivide_hex_8 X) (nth ip hex_scs_table []).
Proof.
  intros X ip H. enum ip; cbn [hex_scs_loc hex_scs_table nth]; unfold corner_mean4; cbn [map vsum fold_right subdivide_hex_8]; pred;
  unfold hex8_shape; cbn [vx vy vz]; vec_eq.
Qed.
Theorem C48_hex_scv_points : forall X ip, (ip < 8)%nat ->
  place 8 hex8_shape X (nth ip hex_scv_loc vzero) = corner_mean8 (subdivide_hex_8 X) (nth ip hex_scv_table []).
Proof.
  intros X ip H. enum ip; cbn [hex_scv_loc hex_scv_table nth]; unfold corner_mean8; cbn [map vsum fold_right subdivide_hex_8]; pred;
  unfold hex8_shape; cbn [vx vy vz]; vec_eq.
Qed.
(** Wedges: the six surfaces along the triangles' edges, any geometry. *)
Theorem C48_wedge_side_scs_points : forall X ip, (ip < 6)%nat ->
  place 6 wed6_shape X (nth ip wed_scs_loc vzero) = corner_mean4 (wed_points X) (nth ip wed_scs_table []).
Proof.
  intros X ip H. enum ip; cbn [wed_scs_loc wed_scs_table nth]; unfold corner_mean4; cbn [map vsum fold_right wed_points]; pred;
  unfold wed6_shape; cbn [vx vy vz]; vec_eq.
Qed.
(** In the plane: the point of a sub-control surface is the middle of its segment from the edge's
    midpoint to the mean of the nodes. *)
Theorem C48_tri2d_scs_points : forall X ip, (ip < 3)%nat ->
  place 3 tri3_shape X (nth ip tri2d_scs_loc vzero)
  = avg2 (avg2 (X (fst (nth ip tri2d_lrscv (0,0)%nat))) (X (snd (nth ip tri2d_lrscv (0,0)%nat)))) (avg3 (X 0%nat) (X 1%nat) (X 2%nat)).
Proof.
  intros X ip H. enum ip; cbn [tri2d_scs_loc tri2d_lrscv nth fst snd]; pred; unfold tri3_shape; cbn [vx vy vz]; vec_eq.
Qed.
Theorem C48_quad2d_scs_points : forall X ip, (ip < 4)%nat ->
  place 4 quad4_shape X (nth ip quad2d_scs_loc vzero)
  = avg2 (avg2 (X (fst (nth ip quad2d_lrscv (0,0)%nat))) (X (snd (nth ip quad2d_lrscv (0,0)%nat)))) (avg4 (X 0%nat) (X 1%nat) (X 2%nat) (X 3%nat)).
Proof.
  intros X ip H. enum ip; cbn [quad2d_scs_loc quad2d_lrscv nth fst snd]; pred; unfold quad4_shape; cbn [vx vy vz]; vec_eq.
Qed.
(** Shifted points: the midpoint of the edge joining the left and the right node. *)
Theorem C48_shifted_points : forall X ip,
  let mid := fun lr => avg2 (X (fst (nth ip lr (0,0)%nat))) (X (snd (nth ip lr (0,0)%nat))) in
  ((ip < 12)%nat -> place 8 hex8_shape X (nth ip hex_scs_shift vzero) = mid hex_lrscv) /\
  ((ip < 6)%nat -> place 4 tet4_shape X (nth ip tet_scs_shift vzero) = mid tet_lrscv) /\
  ((ip < 9)%nat -> place 6 wed6_shape X (nth ip wed_scs_shift vzero) = mid wed_lrscv) /\
  ((ip < 3)%nat -> place 3 tri3_shape X (nth ip tri2d_scs_shift vzero) = mid tri2d_lrscv) /\
  ((ip < 4)%nat -> place 4 quad4_shape X (nth ip quad2d_scs_shift vzero) = mid quad2d_lrscv) /\
  ((ip < 4)%nat -> place 5 pyr5s_shape X (nth ip pyr_scs_shift vzero) = mid pyr_lrscv).
Proof.
  intros X ip. cbv zeta. split; [|split; [|split; [|split; [|split]]]]; intros H.
  - enum ip; cbn [hex_scs_shift hex_lrscv nth fst snd]; pred; unfold hex8_shape; cbn [vx vy vz]; vec_eq.
  - enum ip; cbn [tet_scs_shift tet_lrscv nth fst snd]; pred; unfold tet4_shape; cbn [vx vy vz]; vec_eq.
  - enum ip; cbn [wed_scs_shift wed_lrscv nth fst snd]; pred; unfold wed6_shape; cbn [vx vy vz]; vec_eq.
  - enum ip; cbn [tri2d_scs_shift tri2d_lrscv nth fst snd]; pred; unfold tri3_shape; cbn [vx vy vz]; vec_eq.
  - enum ip; cbn [quad2d_scs_shift quad2d_lrscv nth fst snd]; pred; unfold quad4_shape; cbn [vx vy vz]; vec_eq.
  - enum ip; cbn [pyr_scs_shift pyr_lrscv nth fst snd]; pred; unfold pyr5s_shape; cbn [vx vy vz]; vec_eq.
Qed.
(** The shifted pyramid points of the four slanted edges do not sit at the edges' midpoints under
    the shape functions used with them. *)
Theorem C48_pyramid_shifted_slant_refuted :
  exists X, place 5 pyr5s_shape X (nth 4 pyr_scs_shift vzero) <> avg2 (X 0%nat) (X 4%nat).
Proof.
  exists (fun i => match i with 0%nat => V 1 0 0 | _ => vzero end). intros E. apply (f_equal vx) in E. revert E.
  cbn [pyr_scs_shift nth]. pred. unfold pyr5s_shape, avg2, vscale, vadd, vzero. cbn [vx vy vz]. lra.
Qed.

(** ** Affine geometry *)
Section Affine.
  Variables a u v w : vec.
  Let T := affine_map a u v w.
  Let L (s : vec) := vadd (vscale (vx s) (cross v w)) (vadd (vscale (vx s) vzero) (vadd (vscale (vy s) (cross w u)) (vscale (vz s) (cross u v)))).
  Lemma cross_affine p q r : cross (vsub (T p) (T q)) (vsub (T r) (T q)) = L (cross (vsub p q) (vsub r q)).
  Proof. unfold T, L. apply vec_ext; vred; ring. Qed.
  Lemma L_scale k s : L (vscale k s) = vscale k (L s).
  Proof. unfold L. apply vec_ext; vred; ring. Qed.
  Lemma quad_centroid_affine b c d e g : quad_centroid b c d e g -> quad_centroid (T b) (T c) (T d) (T e) (T g).
  Proof.
    intros [w1 [w2 [A [P1 [P2 [S [E1 [E2 ->]]]]]]]]. exists w1, w2, (L A).
    repeat split; try assumption.
    - rewrite cross_affine, E1. apply L_scale.
    - rewrite cross_affine, E2. apply L_scale.
    - replace w2 with (1 - w1) by lra. unfold T. vec_eq.
  Qed.
  Definition det3 := dot u (cross v w).
  Lemma tet_vol_affine o b c d : tet_vol (T o) (T b) (T c) (T d) = det3 * tet_vol o b c d.
  Proof. unfold tet_vol, T, det3, dot. cbv zeta. vred. field. Qed.
  Definition mapt (t : vec * vec * vec) := let '(b, c, d) := t in (T b, T c, T d).
  Lemma cone_volume_affine o l : cone_volume (T o) (map mapt l) = det3 * cone_volume o l.
  Proof.
    unfold cone_volume, rsum. induction l as [|[[b c] d] l IH]; cbn [map fold_right mapt]; [ring|]. rewrite IH, tet_vol_affine. ring.
  Qed.
  Lemma cone_moment_affine o l : cone_moment (T o) (map mapt l) =
    vscale det3 (vadd (vscale (cone_volume o l) a) (vadd (vscale (vx (cone_moment o l)) u)
      (vadd (vscale (vy (cone_moment o l)) v) (vscale (vz (cone_moment o l)) w)))).
  Proof.
    unfold cone_moment, cone_volume, vsum, rsum. induction l as [|[[b c] d] l IH]; cbn [map fold_right mapt].
    - vec_eq.
    - rewrite IH, tet_vol_affine.
      set (M := fold_right vadd vzero _). set (Vv := fold_right Rplus 0 _). clearbody M Vv. generalize (tet_vol o b c d). intros k.
      unfold T. vec_eq.
  Qed.
  Lemma cone_centroid_affine o l g : cone_centroid o l g -> cone_centroid (T o) (map mapt l) (T g).
  Proof.
    unfold cone_centroid. intros H. rewrite cone_moment_affine, cone_volume_affine, <- H.
    generalize (cone_volume o l). intros k. unfold T. vec_eq.
  Qed.
  Lemma cell_of_affine pts pts' tab lr i : (forall n, pts' n = T (pts n)) ->
    cell_of pts' tab lr i = map mapt (cell_of pts tab lr i).
  Proof.
    intros H. unfold cell_of. induction (seq 0 (length lr)) as [|ip l IH]; [reflexivity|].
    cbn [flat_map]. rewrite map_app, IH. f_equal. rewrite !H.
    destruct (Nat.eqb _ _); [reflexivity|]. destruct (Nat.eqb _ _); reflexivity.
  Qed.
  (* the derived points commute with affine maps *)
  Ltac pts_affine HE := repeat rewrite HE by lia;
    unfold T; vec_eq.
  Lemma tet_points_affine X : (forall i, X i = T (tet4_nodes i)) -> forall n, tet_points X n = T (tet_points tet4_nodes n).
  Proof. intros HE n. do 15 (destruct n as [|n]; [cbn [tet_points]; first [apply HE | pts_affine HE]|]). cbn [tet_points]. apply HE. Qed.
  Lemma wed_points_affine X : (forall i, X i = T (wed6_nodes i)) -> forall n, wed_points X n = T (wed_points wed6_nodes n).
  Proof. intros HE n. do 21 (destruct n as [|n]; [cbn [wed_points]; first [apply HE | pts_affine HE]|]). cbn [wed_points]. apply HE. Qed.
  Lemma pyr_points_affine X : (forall i, X i = T (pyr5_nodes i)) -> forall n, pyr_points X n = T (pyr_points pyr5_nodes n).
  Proof. intros HE n. do 19 (destruct n as [|n]; [cbn [pyr_points]; first [apply HE | pts_affine HE]|]). cbn [pyr_points]. apply HE. Qed.
End Affine.

