(** * Master elements, part 1: sub control surfaces and sub control volumes

    Models the geometric part of the linear master elements: the area vectors returned by
    [HexSCS/TetSCS/WedSCS/PyrSCS::determinant] and [Tri32DSCS/Quad42DSCS::determinant], the
    volumes returned by the corresponding [...SCV::determinant], the exposed-face areas returned by
    [Quad3DSCS/Tri3DSCS/Edge2DSCS::determinant], and the node tables the assembly loops use with
    them.  Arithmetic is over the reals (the code uses doubles / SIMD doubles), a coordinate array
    [coords(n,d)] is a function [nat -> vec]. *)
From Coq Require Import Reals List Arith.
Import ListNotations.
Local Open Scope R_scope.

(** A length-3 double array; src/master_element uses [DoubleType x[3]] throughout. *)
Record vec := V { vx : R; vy : R; vz : R }.
Definition vzero := V 0 0 0.
Definition vadd (a b : vec) := V (vx a + vx b) (vy a + vy b) (vz a + vz b).
Definition vsub (a b : vec) := V (vx a - vx b) (vy a - vy b) (vz a - vz b).
Definition vscale (k : R) (a : vec) := V (k * vx a) (k * vy a) (k * vz a).
Definition vneg (a : vec) := V (- vx a) (- vy a) (- vz a).
Definition vsum (l : list vec) : vec := fold_right vadd vzero l.
Definition rsum (l : list R) : R := fold_right Rplus 0 l.

(** The products used in quad_area_by_triangulation, Hex8GeometryFunctions.h 66-68:
    [area(ics,0) += r1[1]*r2[2] - r2[1]*r1[2]; ...]. *)
Definition cross (a b : vec) : vec :=
  V (vy a * vz b - vy b * vz a) (vz a * vx b - vz b * vx a) (vx a * vy b - vx b * vy a).

(** include/master_element/Hex8GeometryFunctions.h 31-77: quad_area_by_triangulation.  [q] is
    [areacoords]; the loop keeps [r1] and advances, which is the sum over consecutive corners. *)
Definition quad_area_by_triangulation (q : nat -> vec) : vec :=
  let xmid := vscale (1/4) (vadd (vadd (vadd (q 0%nat) (q 1%nat)) (q 2%nat)) (q 3%nat)) in
  let r := fun k => vsub (q k) xmid in
  vscale (1/2)
    (vadd (vadd (vadd (vadd vzero (cross (r 0%nat) (r 1%nat))) (cross (r 1%nat) (r 2%nat)))
       (cross (r 2%nat) (r 3%nat))) (cross (r 3%nat) (r 0%nat))).

(** Hex8GeometryFunctions.h 131-158 (and Pyr5CVFEM.C 276-296): the contribution of the
    triangular facet (p,q,r): [triFaceMid . dxv]. *)
Definition facet_term (p q r : vec) : R :=
  (vx p + vx q + vx r) * ((vy q - vy p) * (vz r - vz p) - (vy r - vy p) * (vz q - vz p))
  + (vy p + vy q + vy r) * ((vx r - vx p) * (vz q - vz p) - (vx q - vx p) * (vz r - vz p))
  + (vz p + vz q + vz r) * ((vx q - vx p) * (vy r - vy p) - (vx r - vx p) * (vy q - vy p)).

(** Hex8GeometryFunctions.h 117-126 and 217-226: triangular_facets (the same table in the plain
    and in the bent version). *)
Definition triangular_facets : list (nat * nat * nat) :=
  [ (0, 8, 1); (8, 2, 1); (3, 2, 8);
    (3, 8, 0); (6, 9, 5); (7, 9, 6);
    (4, 9, 7); (4, 5, 9); (10, 0, 1);
    (5, 10, 1); (4, 10, 5); (4, 0, 10);
    (7, 6, 11); (6, 2, 11); (2, 3, 11);
    (3, 7, 11); (6, 12, 2); (5, 12, 6);
    (5, 1, 12); (1, 2, 12); (0, 4, 13);
    (4, 7, 13); (7, 3, 13); (3, 0, 13) ]%nat.

(** Hex8GeometryFunctions.h 126-162, Pyr5CVFEM.C 259-302 (polyhedral_volume_by_faces): sum of the
    facet contributions divided by 18. *)
Definition polyhedral_volume_by_faces (c : nat -> vec) (tab : list (nat * nat * nat)) : R :=
  rsum (map (fun t => facet_term (c (fst (fst t))) (c (snd (fst t))) (c (snd t))) tab) / 18.

(** Face mid points of the Grandy hex, Hex8GeometryFunctions.h 99-115. *)
Definition avg4 (a b c d : vec) : vec := vscale (1/4) (vadd (vadd (vadd a b) c) d).
Definition avg3 (a b c : vec) : vec := vscale (1/3) (vadd (vadd a b) c).
Definition avg2 (a b : vec) : vec := vscale (1/2) (vadd a b).
Definition grandy_points (h : nat -> vec) (n : nat) : vec :=
  match n with
  | 8 => avg4 (h 0) (h 3) (h 2) (h 1)
  | 9 => avg4 (h 4) (h 5) (h 6) (h 7)
  | 10 => avg4 (h 0) (h 1) (h 5) (h 4)
  | 11 => avg4 (h 2) (h 3) (h 7) (h 6)
  | 12 => avg4 (h 1) (h 2) (h 6) (h 5)
  | 13 => avg4 (h 0) (h 4) (h 3) (h 7)
  | n => h n
  end%nat.
(** Hex8GeometryFunctions.h 79-163: hex_volume_grandy. *)
Definition hex_volume_grandy (h : nat -> vec) : R :=
  polyhedral_volume_by_faces (grandy_points h) triangular_facets.

(** Hex8GeometryFunctions.h 165-262: bhex_volume_grandy, whose top face (5,6,7,4) is bent along
    5-7. *)
Definition bent_points (h : nat -> vec) (n : nat) : vec :=
  match n with
  | 8 => avg4 (h 0) (h 1) (h 2) (h 3)
  | 9 => avg2 (h 5) (h 7)
  | 10 => avg4 (h 0) (h 1) (h 5) (h 4)
  | 11 => avg4 (h 3) (h 2) (h 6) (h 7)
  | 12 => avg4 (h 1) (h 2) (h 6) (h 5)
  | 13 => avg4 (h 0) (h 3) (h 7) (h 4)
  | n => h n
  end%nat.
Definition bhex_volume_grandy (h : nat -> vec) : R :=
  polyhedral_volume_by_faces (bent_points h) triangular_facets.

(** Pyr5CVFEM.C 304-356: octohedron_volume_by_triangle_facets. *)
Definition octohedron_points (v : nat -> vec) (n : nat) : vec :=
  match n with
  | 10 => avg2 (v 3) (v 9)
  | 11 => avg2 (v 3) (v 5)
  | 12 => avg2 (v 5) (v 7)
  | 13 => avg2 (v 7) (v 9)
  | n => v n
  end%nat.
Definition octohedron_facets : list (nat * nat * nat) :=
  [ (1, 3, 10); (2, 10, 3); (2, 9, 10); (10, 9, 1); (4, 3, 11); (3, 1, 11); (11, 1, 5); (4, 11, 5);
    (1, 12, 5); (1, 7, 12); (12, 7, 6); (5, 12, 6); (9, 8, 13); (13, 8, 7); (13, 7, 1); (9, 13, 1);
    (4, 5, 0); (5, 6, 0); (6, 7, 0); (7, 8, 0); (0, 8, 9); (0, 9, 2); (0, 2, 3); (0, 3, 4) ]%nat.
Definition octohedron_volume (v : nat -> vec) : R :=
  polyhedral_volume_by_faces (octohedron_points v) octohedron_facets.

(** [coordv[table[ip][n]]]: gather the corners of sub cell [ip]; used by every determinant. *)
Definition gather (pts : nat -> vec) (row : list nat) (n : nat) : vec := pts (nth n row 0%nat).

(** ** Hex8 *)
(** Hex8GeometryFunctions.h 264-330: subdivide_hex_8. *)
Definition subdivide_hex_8 (X : nat -> vec) (n : nat) : vec :=
  match n with
  | 8 => avg2 (X 0) (X 1) | 9 => avg2 (X 1) (X 2) | 10 => avg2 (X 2) (X 3) | 11 => avg2 (X 3) (X 0)
  | 12 => avg4 (X 0) (X 1) (X 2) (X 3)
  | 13 => avg2 (X 4) (X 5) | 14 => avg2 (X 5) (X 6) | 15 => avg2 (X 6) (X 7) | 16 => avg2 (X 7) (X 4)
  | 17 => avg4 (X 4) (X 5) (X 6) (X 7)
  | 18 => avg2 (X 1) (X 5) | 19 => avg2 (X 0) (X 4)
  | 20 => avg4 (X 0) (X 1) (X 4) (X 5)
  | 21 => avg2 (X 3) (X 7) | 22 => avg2 (X 2) (X 6)
  | 23 => avg4 (X 2) (X 3) (X 6) (X 7)
  | 24 => avg4 (X 1) (X 2) (X 5) (X 6)
  | 25 => avg4 (X 0) (X 3) (X 4) (X 7)
  | 26 => vscale (1/8) (vadd (vadd (vadd (vadd (vadd (vadd (vadd (vadd vzero (X 0)) (X 1)) (X 2)) (X 3))
            (X 4)) (X 5)) (X 6)) (X 7))
  | n => X n
  end%nat.
(** Hex8CVFEM.C 153-162: subDivisionTable. *)
Definition hex_scv_table : list (list nat) :=
  [ [ 0;  8; 12; 11; 19; 20; 26; 25];
    [ 8;  1;  9; 12; 20; 18; 24; 26];
    [12;  9;  2; 10; 26; 24; 22; 23];
    [11; 12; 10;  3; 25; 26; 23; 21];
    [19; 20; 26; 25;  4; 13; 17; 16];
    [20; 18; 24; 26; 13;  5; 14; 17];
    [26; 24; 22; 23; 17; 14;  6; 15];
    [25; 26; 23; 21; 16; 17; 15;  7] ]%nat.
(** Hex8CVFEM.C 149-178: HexSCV::determinant; entry [ip] of the result. *)
Definition hex_scv_volume (X : nat -> vec) (ip : nat) : R :=
  hex_volume_grandy (gather (subdivide_hex_8 X) (nth ip hex_scv_table [])).
(** Hex8CVFEM.C 551-564: hex_edge_facet_table. *)
Definition hex_scs_table : list (list nat) :=
  [ [20; 8; 12; 26]; [24; 9; 12; 26]; [10; 12; 26; 23]; [11; 25; 26; 12];
    [13; 20; 26; 17]; [17; 14; 24; 26]; [17; 15; 23; 26]; [16; 17; 26; 25];
    [19; 20; 26; 25]; [20; 18; 24; 26]; [22; 23; 26; 24]; [21; 25; 26; 23] ]%nat.
(** Hex8CVFEM.C 547-581: HexSCS::determinant. *)
Definition hex_scs_area (X : nat -> vec) (ip : nat) : vec :=
  quad_area_by_triangulation (gather (subdivide_hex_8 X) (nth ip hex_scs_table [])).
(** Hex8CVFEM.C 264-276: lrscv_, as pairs. *)
Definition hex_lrscv : list (nat * nat) :=
  [(0,1);(1,2);(2,3);(0,3);(4,5);(5,6);(6,7);(4,7);(0,4);(1,5);(2,6);(3,7)]%nat.
(** Hex8CVFEM.C 415-422: sideNodeOrdinals_. *)
Definition hex_side_nodes : list (list nat) :=
  [ [0;1;5;4]; [1;2;6;5]; [2;3;7;6]; [0;4;7;3]; [0;3;2;1]; [4;5;6;7] ]%nat.
(** Hex8CVFEM.C 380-393: ipNodeMap_ (node owning exposed-face ip, per side). *)
Definition hex_ip_node : list (list nat) :=
  [ [0;1;5;4]; [1;2;6;5]; [2;3;7;6]; [0;4;7;3]; [0;3;2;1]; [4;5;6;7] ]%nat.

(** ** Tet4 *)
(** Tet4CVFEM.C 120-190 (and 495-560): element, edge, face points and centroid. *)
Definition tet_points (X : nat -> vec) (n : nat) : vec :=
  match n with
  | 4 => avg2 (X 0) (X 1) | 5 => avg2 (X 1) (X 2) | 6 => avg2 (X 2) (X 0)
  | 7 => avg3 (X 0) (X 1) (X 2)
  | 8 => avg2 (X 2) (X 3) | 9 => avg2 (X 3) (X 1)
  | 10 => avg3 (X 1) (X 2) (X 3)
  | 11 => avg2 (X 0) (X 3)
  | 12 => avg3 (X 0) (X 2) (X 3)
  | 13 => avg3 (X 0) (X 1) (X 3)
  | 14 => vadd (vadd (vadd (vadd vzero (vscale (1/4) (X 0))) (vscale (1/4) (X 1)))
            (vscale (1/4) (X 2))) (vscale (1/4) (X 3))
  | n => X n
  end%nat.
(** Tet4CVFEM.C 113-118: tetSubcontrolNodeTable. *)
Definition tet_scv_table : list (list nat) :=
  [ [0; 4; 7; 6; 11; 13; 14; 12];
    [1; 5; 7; 4; 9; 10; 14; 13];
    [2; 6; 7; 5; 8; 12; 14; 10];
    [3; 9; 13; 11; 8; 10; 14; 12] ]%nat.
(** Tet4CVFEM.C 109-209: TetSCV::determinant. *)
Definition tet_scv_volume (X : nat -> vec) (ip : nat) : R :=
  hex_volume_grandy (gather (tet_points X) (nth ip tet_scv_table [])).
(** Tet4CVFEM.C 480-487: tetEdgeFacetTable. *)
Definition tet_scs_table : list (list nat) :=
  [ [4; 7; 14; 13]; [7; 14; 10; 5]; [6; 12; 14; 7]; [11; 13; 14; 12]; [13; 9; 10; 14];
    [10; 8; 12; 14] ]%nat.
(** Tet4CVFEM.C 476-578: TetSCS::determinant. *)
Definition tet_scs_area (X : nat -> vec) (ip : nat) : vec :=
  quad_area_by_triangulation (gather (tet_points X) (nth ip tet_scs_table [])).
(** Tet4CVFEM.C 329-335, 416-421, 406-414. *)
Definition tet_lrscv : list (nat * nat) := [(0,1);(1,2);(0,2);(0,3);(1,3);(2,3)]%nat.
Definition tet_side_nodes : list (list nat) := [ [0;1;3]; [1;2;3]; [0;3;2]; [0;2;1] ]%nat.
Definition tet_ip_node : list (list nat) := [ [0;1;3]; [1;2;3]; [0;3;2]; [0;2;1] ]%nat.

(** ** Wed6 *)
(** Wed6CVFEM.C 178-249 (and 581-651). *)
Definition wed_points (X : nat -> vec) (n : nat) : vec :=
  match n with
  | 6 => avg2 (X 0) (X 1) | 7 => avg2 (X 1) (X 2) | 8 => avg2 (X 2) (X 0)
  | 9 => avg3 (X 0) (X 1) (X 2)
  | 10 => avg2 (X 3) (X 4) | 11 => avg2 (X 4) (X 5) | 12 => avg2 (X 5) (X 3)
  | 13 => avg3 (X 3) (X 4) (X 5)
  | 14 => avg2 (X 1) (X 4) | 15 => avg2 (X 0) (X 3)
  | 16 => avg4 (X 0) (X 1) (X 4) (X 3)
  | 17 => avg2 (X 2) (X 5)
  | 18 => avg4 (X 1) (X 4) (X 5) (X 2)
  | 19 => avg4 (X 5) (X 3) (X 0) (X 2)
  | 20 => vadd (vadd (vadd (vadd (vadd (vadd vzero (vscale (1/6) (X 0))) (vscale (1/6) (X 1)))
            (vscale (1/6) (X 2))) (vscale (1/6) (X 3))) (vscale (1/6) (X 4))) (vscale (1/6) (X 5))
  | n => X n
  end%nat.
(** Wed6CVFEM.C 162-169: wedSubControlNodeTable. *)
Definition wed_scv_table : list (list nat) :=
  [ [0; 15; 16; 6; 8; 19; 20; 9];
    [9; 6; 1; 7; 20; 16; 14; 18];
    [8; 9; 7; 2; 19; 20; 18; 17];
    [19; 15; 16; 20; 12; 3; 10; 13];
    [20; 16; 14; 18; 13; 10; 4; 11];
    [19; 20; 18; 17; 12; 13; 11; 5] ]%nat.
(** Wed6CVFEM.C 158-262: WedSCV::determinant. *)
Definition wed_scv_volume (X : nat -> vec) (ip : nat) : R :=
  hex_volume_grandy (gather (wed_points X) (nth ip wed_scv_table [])).
(** Wed6CVFEM.C 560-570: wedEdgeFacetTable. *)
Definition wed_scs_table : list (list nat) :=
  [ [6; 9; 20; 16]; [7; 9; 20; 18]; [9; 8; 19; 20]; [10; 16; 20; 13]; [13; 11; 18; 20];
    [12; 13; 20; 19]; [15; 16; 20; 19]; [16; 14; 18; 20]; [19; 20; 18; 17] ]%nat.
(** Wed6CVFEM.C 556-664: WedSCS::determinant. *)
Definition wed_scs_area (X : nat -> vec) (ip : nat) : vec :=
  quad_area_by_triangulation (gather (wed_points X) (nth ip wed_scs_table [])).
(** Wed6CVFEM.C 386-395, 494-500, 481-492 (the fourth, empty, entries of the triangular sides are
    left out). *)
Definition wed_lrscv : list (nat * nat) :=
  [(0,1);(1,2);(0,2);(3,4);(4,5);(3,5);(0,3);(1,4);(2,5)]%nat.
Definition wed_side_nodes : list (list nat) :=
  [ [0;1;4;3]; [1;2;5;4]; [0;3;5;2]; [0;2;1]; [3;4;5] ]%nat.
Definition wed_ip_node : list (list nat) :=
  [ [0;1;4;3]; [1;2;5;4]; [0;3;5;2]; [0;2;1]; [3;4;5] ]%nat.

(** ** Pyr5 *)
(** Pyr5CVFEM.C 378-470 (and 843-931). *)
Definition pyr_points (X : nat -> vec) (n : nat) : vec :=
  match n with
  | 5 => avg2 (X 0) (X 1) | 6 => avg2 (X 1) (X 2) | 7 => avg2 (X 2) (X 3) | 8 => avg2 (X 3) (X 0)
  | 9 => avg4 (X 0) (X 1) (X 2) (X 3)
  | 10 => avg2 (X 1) (X 4) | 11 => avg2 (X 4) (X 0)
  | 12 => avg3 (X 0) (X 1) (X 4)
  | 13 => avg2 (X 2) (X 4)
  | 14 => avg3 (X 1) (X 2) (X 4)
  | 15 => avg2 (X 3) (X 4)
  | 16 => avg3 (X 3) (X 4) (X 2)
  | 17 => avg3 (X 0) (X 4) (X 3)
  | 18 => vadd (vadd (vadd (vadd (vadd vzero (vscale (1/5) (X 0))) (vscale (1/5) (X 1)))
            (vscale (1/5) (X 2))) (vscale (1/5) (X 3))) (vscale (1/5) (X 4))
  | n => X n
  end%nat.
(** Pyr5CVFEM.C 370-376: pyramidSubcontrolNodeTable (the -1 padding is left out). *)
Definition pyr_scv_table : list (list nat) :=
  [ [0; 5; 9; 8; 11; 12; 18; 17];
    [1; 6; 9; 5; 10; 14; 18; 12];
    [2; 7; 9; 6; 13; 16; 18; 14];
    [3; 8; 9; 7; 15; 17; 18; 16];
    [4; 18; 15; 17; 11; 12; 10; 14; 13; 16] ]%nat.
(** Pyr5CVFEM.C 360-494: PyrSCV::determinant: bent hexes for the base nodes, an octohedron for the
    apex. *)
Definition pyr_scv_volume (X : nat -> vec) (ip : nat) : R :=
  let c := gather (pyr_points X) (nth ip pyr_scv_table []) in
  if Nat.ltb ip 4 then bhex_volume_grandy c else octohedron_volume c.
(** Pyr5CVFEM.C 826-839: pyramidEdgeFacetTable. *)
Definition pyr_scs_table : list (list nat) :=
  [ [5; 9; 18; 12]; [6; 9; 18; 14]; [7; 9; 18; 16]; [8; 17; 18; 9];
    [12; 12; 18; 17]; [11; 12; 12; 17]; [14; 14; 18; 12]; [10; 14; 14; 12];
    [16; 16; 18; 14]; [13; 16; 16; 14]; [17; 17; 18; 16]; [15; 17; 17; 16] ]%nat.
(** Pyr5CVFEM.C 822-947: PyrSCS::determinant. *)
Definition pyr_scs_area (X : nat -> vec) (ip : nat) : vec :=
  quad_area_by_triangulation (gather (pyr_points X) (nth ip pyr_scs_table [])).
(** Pyr5CVFEM.C 645-657, 759-765, 767-777. *)
Definition pyr_lrscv : list (nat * nat) :=
  [(0,1);(1,2);(2,3);(0,3);(0,4);(0,4);(1,4);(1,4);(2,4);(2,4);(3,4);(3,4)]%nat.
Definition pyr_side_nodes : list (list nat) :=
  [ [0;1;4]; [1;2;4]; [2;3;4]; [0;4;3]; [0;3;2;1] ]%nat.
Definition pyr_ip_node : list (list nat) :=
  [ [0;1;4]; [1;2;4]; [2;3;4]; [0;4;3]; [0;3;2;1] ]%nat.

(** ** Exposed faces *)
(** MasterElementWork.F 1467-1575 (quad3d_scs_det) and 1578-1690 (tri3d_scs_det), called from
    Quad43DCVFEM.C 73-86 and MasterElement.C (Tri3DSCS::determinant): half the cross product of
    the diagonals of the sub quadrilateral (p_i, e_i, c, e_(i-1)).  Signs as written:
    [area(1)=half*(dz24*dy13-dz13*dy24)], .... *)
Definition half_diagonals (d13 d24 : vec) : vec :=
  V (1/2 * (vz d24 * vy d13 - vz d13 * vy d24))
    (1/2 * (vx d24 * vz d13 - vx d13 * vz d24))
    (1/2 * (vy d24 * vx d13 - vy d13 * vx d24)).
Definition quad3d_scs_det (p : nat -> vec) (ip : nat) : vec :=
  let e := fun k => match k with
             | 0 => avg2 (p 0) (p 1) | 1 => avg2 (p 1) (p 2)
             | 2 => avg2 (p 2) (p 3) | _ => avg2 (p 3) (p 0) end%nat in
  let c := avg4 (p 0%nat) (p 1%nat) (p 2%nat) (p 3%nat) in
  match ip with
  | 0 => half_diagonals (vsub c (p 0)) (vsub (e 3) (e 0))
  | 1 => half_diagonals (vsub c (p 1)) (vsub (e 0) (e 1))
  | 2 => half_diagonals (vsub c (p 2)) (vsub (e 1) (e 2))
  | _ => half_diagonals (vsub c (p 3)) (vsub (e 2) (e 3))
  end%nat.
Definition tri3d_scs_det (p : nat -> vec) (ip : nat) : vec :=
  let e := fun k => match k with
             | 0 => avg2 (p 0) (p 1) | 1 => avg2 (p 1) (p 2) | _ => avg2 (p 2) (p 0) end%nat in
  let c := avg3 (p 0%nat) (p 1%nat) (p 2%nat) in
  match ip with
  | 0 => half_diagonals (vsub c (p 0)) (vsub (e 2) (e 0))
  | 1 => half_diagonals (vsub c (p 1)) (vsub (e 0) (e 1))
  | _ => half_diagonals (vsub c (p 2)) (vsub (e 1) (e 2))
  end%nat.
(** The exposed-face area vector of ip [k] on a side with the given nodes: the face element is
    chosen by the side's topology (3 or 4 nodes). *)
Definition exposed_area (X : nat -> vec) (nodes : list nat) (k : nat) : vec :=
  if Nat.eqb (length nodes) 4 then quad3d_scs_det (gather X nodes) k
  else tri3d_scs_det (gather X nodes) k.

(** ** 2-D elements (coordinates as two functions) *)
(** Tri32DCVFEM.C 480-529: Tri32DSCS::determinant (rr = 1). *)
Definition tri2d_scs_area (x y : nat -> R) (ip : nat) : R * R :=
  let x1 := (x 0%nat + x 1%nat + x 2%nat) * (1/3) in
  let y1 := (y 0%nat + y 1%nat + y 2%nat) * (1/3) in
  let mid := fun (f : nat -> R) k => match k with
     | 0%nat => (f 0%nat + f 1%nat) * (1/2) | 1%nat => (f 1%nat + f 2%nat) * (1/2) | _ => (f 2%nat + f 0%nat) * (1/2) end in
  match ip with
  | 0%nat => (- (mid y 0%nat - y1), mid x 0%nat - x1)
  | 1%nat => (- (mid y 1%nat - y1), mid x 1%nat - x1)
  | _ => (mid y 2%nat - y1, - (mid x 2%nat - x1))
  end.
(** Quad42DCVFEM.C 469-529: Quad42DSCS::determinant. *)
Definition quad2d_scs_area (x y : nat -> R) (ip : nat) : R * R :=
  let x1 := (x 0%nat + x 1%nat + x 2%nat + x 3%nat) * (1/4) in
  let y1 := (y 0%nat + y 1%nat + y 2%nat + y 3%nat) * (1/4) in
  let mid := fun (f : nat -> R) k => match k with
     | 0%nat => (f 0%nat + f 1%nat) * (1/2) | 1%nat => (f 1%nat + f 2%nat) * (1/2)
     | 2%nat => (f 2%nat + f 3%nat) * (1/2) | _ => (f 3%nat + f 0%nat) * (1/2) end in
  match ip with
  | 0%nat => (- (mid y 0%nat - y1), mid x 0%nat - x1)
  | 1%nat => (- (mid y 1%nat - y1), mid x 1%nat - x1)
  | 2%nat => (- (mid y 2%nat - y1), mid x 2%nat - x1)
  | _ => (mid y 3%nat - y1, - (mid x 3%nat - x1))
  end.
Definition tri2d_lrscv : list (nat * nat) := [(0,1);(1,2);(0,2)]%nat.
Definition quad2d_lrscv : list (nat * nat) := [(0,1);(1,2);(2,3);(0,3)]%nat.
(** Tri32DCVFEM.C 416-427, Quad42DCVFEM.C 400-414. *)
Definition tri2d_side_nodes : list (list nat) := [[0;1];[1;2];[2;0]]%nat.
Definition tri2d_ip_node : list (list nat) := [[0;1];[1;2];[2;0]]%nat.
Definition quad2d_side_nodes : list (list nat) := [[0;1];[1;2];[2;3];[3;0]]%nat.
Definition quad2d_ip_node : list (list nat) := [[0;1];[1;2];[2;3];[3;0]]%nat.
(** MasterElementWork.F 1693-1782: edge2d_scs_det. *)
Definition edge2d_scs_det (x y : nat -> R) (ip : nat) : R * R :=
  let cx := (x 0%nat + x 1%nat) * (1/2) in
  let cy := (y 0%nat + y 1%nat) * (1/2) in
  match ip with
  | 0%nat => (- (y 0%nat - cy), x 0%nat - cx)
  | _ => (y 1%nat - cy, - (x 1%nat - cx))
  end.

(** Tri32DCVFEM.C 246-282 and Quad42DCVFEM.C 178-218: the Jacobian determinant of the bilinear map
    with corner coordinates (x,y) at (xi,eta) in [-1/2,1/2]^2. *)
Definition quad_det_j (x y : nat -> R) (xi eta : R) : R :=
  let d1 := fun f : nat -> R =>
    - (1/2 - eta) * f 0%nat + (1/2 - eta) * f 1%nat + (1/2 + eta) * f 2%nat + - (1/2 + eta) * f 3%nat in
  let d2 := fun f : nat -> R =>
    - (1/2 - xi) * f 0%nat + - (1/2 + xi) * f 1%nat + (1/2 + xi) * f 2%nat + (1/2 - xi) * f 3%nat in
  d1 x * d2 y - d1 y * d2 x.
(** The sign pattern of [xigp] (and of [xi] in the quad element), Tri32DCVFEM.C 197-198. *)
Definition qsx (k : nat) : R := match k with 0%nat | 3%nat => -1 | _ => 1 end.
Definition qsy (k : nat) : R := match k with 0%nat | 1%nat => -1 | _ => 1 end.
(** Tri32DCVFEM.C 179-284: Tri32DSCV::determinant: corners of sub volume [ki] and four-point
    quadrature. *)
Definition tri2d_sub_corner (f : nat -> R) (ki kn : nat) : R :=
  let fc := 1/3 * (f 0%nat + f 1%nat + f 2%nat) in
  match ki, kn with
  | 0%nat, 0%nat => f 0%nat | 0%nat, 1%nat => 1/2 * (f 0%nat + f 1%nat) | 0%nat, 2%nat => fc | 0%nat, _ => 1/2 * (f 2%nat + f 0%nat)
  | 1%nat, 0%nat => f 1%nat | 1%nat, 1%nat => 1/2 * (f 1%nat + f 2%nat) | 1%nat, 2%nat => fc | 1%nat, _ => 1/2 * (f 0%nat + f 1%nat)
  | _, 0%nat => f 2%nat | _, 1%nat => 1/2 * (f 2%nat + f 0%nat) | _, 2%nat => fc | _, _ => 1/2 * (f 1%nat + f 2%nat)
  end.
Definition tri2d_gpp : R := 288675134 / 1000000000.
Definition tri2d_scv_volume (x y : nat -> R) (ki : nat) : R :=
  rsum (map (fun kq => quad_det_j (tri2d_sub_corner x ki) (tri2d_sub_corner y ki)
                         (qsx kq * tri2d_gpp) (qsy kq * tri2d_gpp) * (1/4)) [0;1;2;3]%nat).
(** Quad42DCVFEM.C 149-220: Quad42DSCV::determinant. *)
Definition quad2d_gpp : R := 144337567 / 1000000000.
Definition quad2d_scv_volume (x y : nat -> R) (ki : nat) : R :=
  rsum (map (fun kq => quad_det_j x y (qsx ki * (1/4) + qsx kq * quad2d_gpp)
                         (qsy ki * (1/4) + qsy kq * quad2d_gpp) * (1/16)) [0;1;2;3]%nat).
