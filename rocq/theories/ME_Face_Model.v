(** Integration-point locations, exposed-face points, opposing tables and side-to-element maps of
    the master elements.  Decimal literals are written as fractions; 2-D points carry a third
    coordinate 0.  The flat arrays of the code are cut at the index arithmetic of their accessors. *)
From Coq Require Import Reals List Lia Lra.
Import ListNotations.
From Verif Require Import ME_Model ME_Shape_Model.
Open Scope R_scope.

(** ** Integration points of the sub-control surfaces and volumes *)
(** Hex8CVFEM.C 316-329 (HexSCS) *)
Definition hex_scs_loc : list vec :=
  [ V 0 (-(1/4)) (-(1/4)); V (1/4) 0 (-(1/4)); V 0 (1/4) (-(1/4)); V (-(1/4)) 0 (-(1/4));
    V 0 (-(1/4)) (1/4); V (1/4) 0 (1/4); V 0 (1/4) (1/4); V (-(1/4)) 0 (1/4);
    V (-(1/4)) (-(1/4)) 0; V (1/4) (-(1/4)) 0; V (1/4) (1/4) 0; V (-(1/4)) (1/4) 0 ].
(** Hex8CVFEM.C 332-345 *)
Definition hex_scs_shift : list vec :=
  [ V 0 (-(1/2)) (-(1/2)); V (1/2) 0 (-(1/2)); V 0 (1/2) (-(1/2)); V (-(1/2)) 0 (-(1/2));
    V 0 (-(1/2)) (1/2); V (1/2) 0 (1/2); V 0 (1/2) (1/2); V (-(1/2)) 0 (1/2);
    V (-(1/2)) (-(1/2)) 0; V (1/2) (-(1/2)) 0; V (1/2) (1/2) 0; V (-(1/2)) (1/2) 0 ].
(** Hex8CVFEM.C 87-96 (HexSCV) *)
Definition hex_scv_loc : list vec :=
  [ V (-(1/4)) (-(1/4)) (-(1/4)); V (1/4) (-(1/4)) (-(1/4)); V (1/4) (1/4) (-(1/4)); V (-(1/4)) (1/4) (-(1/4));
    V (-(1/4)) (-(1/4)) (1/4); V (1/4) (-(1/4)) (1/4); V (1/4) (1/4) (1/4); V (-(1/4)) (1/4) (1/4) ].
(** Tet4CVFEM.C 364-373 (TetSCS) *)
Definition tet_scs_loc : list vec :=
  [ V (13/36) (5/36) (5/36); V (13/36) (13/36) (5/36); V (5/36) (13/36) (5/36); V (5/36) (5/36) (13/36);
    V (13/36) (5/36) (13/36); V (5/36) (13/36) (13/36) ].
(** Tet4CVFEM.C 375-382 *)
Definition tet_scs_shift : list vec :=
  [ V (1/2) 0 0; V (1/2) (1/2) 0; V 0 (1/2) 0; V 0 0 (1/2);
    V (1/2) 0 (1/2); V 0 (1/2) (1/2) ].
(** Tet4CVFEM.C 70-77 (TetSCV) *)
Definition tet_scv_loc : list vec :=
  [ V (17/96) (17/96) (17/96); V (15/32) (17/96) (17/96); V (17/96) (15/32) (17/96); V (17/96) (17/96) (15/32) ].
(** Wed6CVFEM.C 429-445 (WedSCS) *)
Definition wed_scs_loc : list vec :=
  [ V (5/12) (1/6) (-(1/2)); V (5/12) (5/12) (-(1/2)); V (1/6) (5/12) (-(1/2)); V (5/12) (1/6) (1/2);
    V (5/12) (5/12) (1/2); V (1/6) (5/12) (1/2); V (7/36) (7/36) 0; V (11/18) (7/36) 0;
    V (7/36) (11/18) 0 ].
(** Wed6CVFEM.C 447-457 *)
Definition wed_scs_shift : list vec :=
  [ V (1/2) 0 (-1); V (1/2) (1/2) (-1); V 0 (1/2) (-1); V (1/2) 0 1;
    V (1/2) (1/2) 1; V 0 (1/2) 1; V 0 0 0; V 1 0 0;
    V 0 1 0 ].
(** Wed6CVFEM.C 118-127 (WedSCV) *)
Definition wed_scv_loc : list vec :=
  [ V (7/36) (7/36) (-(1/2)); V (11/18) (7/36) (-(1/2)); V (7/36) (11/18) (-(1/2)); V (7/36) (7/36) (1/2);
    V (11/18) (7/36) (1/2); V (7/36) (11/18) (1/2) ].
(** Pyr5CVFEM.C 696-714 (PyrSCS) *)
Definition pyr_scs_loc : list vec :=
  [ V 0 (-(29/63)) (41/315); V (29/63) 0 (41/315); V 0 (29/63) (41/315); V (-(29/63)) 0 (41/315);
    V (-(2/9)) (-(2/9)) (13/45); V (-(7/18)) (-(7/18)) (7/18); V (2/9) (-(2/9)) (13/45); V (7/18) (-(7/18)) (7/18);
    V (2/9) (2/9) (13/45); V (7/18) (7/18) (7/18); V (-(2/9)) (2/9) (13/45); V (-(7/18)) (7/18) (7/18) ].
(** Pyr5CVFEM.C 716-729 *)
Definition pyr_scs_shift : list vec :=
  [ V 0 (-1) 0; V 1 0 0; V 0 1 0; V (-1) 0 0;
    V (-(1/2)) (-(1/2)) (1/2); V (-(1/2)) (-(1/2)) (1/2); V (1/2) (-(1/2)) (1/2); V (1/2) (-(1/2)) (1/2);
    V (1/2) (1/2) (1/2); V (1/2) (1/2) (1/2); V (-(1/2)) (1/2) (1/2); V (-(1/2)) (1/2) (1/2) ].
(** Pyr5CVFEM.C 220-229 (PyrSCV) *)
Definition pyr_scv_loc : list vec :=
  [ V (-(169/384)) (-(169/384)) (577/3840); V (169/384) (-(169/384)) (577/3840); V (169/384) (169/384) (577/3840); V (-(169/384)) (169/384) (577/3840);
    V 0 0 (773/1560) ].
(** Tri32DCVFEM.C 387-393 (Tri32DSCS) *)
Definition tri2d_scs_loc : list vec :=
  [ V (5/12) (1/6) 0; V (5/12) (5/12) 0; V (1/6) (5/12) 0 ].
(** Tri32DCVFEM.C 395-399 *)
Definition tri2d_scs_shift : list vec :=
  [ V (1/2) 0 0; V (1/2) (1/2) 0; V 0 (1/2) 0 ].
(** Tri32DCVFEM.C 106-110 (Tri32DSCV) *)
Definition tri2d_scv_loc : list vec :=
  [ V (5/24) (5/24) 0; V (7/12) (5/24) 0; V (5/24) (7/12) 0 ].
(** Quad42DCVFEM.C 369-374 (Quad42DSCS) *)
Definition quad2d_scs_loc : list vec :=
  [ V 0 (-(1/4)) 0; V (1/4) 0 0; V 0 (1/4) 0; V (-(1/4)) 0 0 ].
(** Quad42DCVFEM.C 376-381 *)
Definition quad2d_scs_shift : list vec :=
  [ V 0 (-(1/2)) 0; V (1/2) 0 0; V 0 (1/2) 0; V (-(1/2)) 0 0 ].
(** Quad42DCVFEM.C 112-117 (Quad42DSCV) *)
Definition quad2d_scv_loc : list vec :=
  [ V (-(1/4)) (-(1/4)) 0; V (1/4) (-(1/4)) 0; V (1/4) (1/4) 0; V (-(1/4)) (1/4) 0 ].
(** Quad43DCVFEM.C 36-41 (Quad3DSCS, the face element) *)
Definition quad3d_loc : list vec :=
  [ V (-(1/4)) (-(1/4)) 0; V (1/4) (-(1/4)) 0; V (1/4) (1/4) 0; V (-(1/4)) (1/4) 0 ].
(** MasterElement.C 624-629 (Tri3DSCS, the face element) *)
Definition tri3d_loc : list vec :=
  [ V (7/36) (7/36) 0; V (11/18) (7/36) 0; V (7/36) (11/18) 0 ].
(** MasterElement.C 911-912 (Edge2DSCS, the face element) *)
Definition edge2d_loc : list vec :=
  [ V (-(1/4)) 0 0; V (1/4) 0 0 ].
(** ** Integration points of the exposed faces, seen from the element *)
(** Hex8CVFEM.C 346-377 *)
Definition hex_exp_face : list (list vec) :=
  [ [V (-(1/4)) (-(1/2)) (-(1/4)); V (1/4) (-(1/2)) (-(1/4)); V (1/4) (-(1/2)) (1/4); V (-(1/4)) (-(1/2)) (1/4)];
    [V (1/2) (-(1/4)) (-(1/4)); V (1/2) (1/4) (-(1/4)); V (1/2) (1/4) (1/4); V (1/2) (-(1/4)) (1/4)];
    [V (1/4) (1/2) (-(1/4)); V (-(1/4)) (1/2) (-(1/4)); V (-(1/4)) (1/2) (1/4); V (1/4) (1/2) (1/4)];
    [V (-(1/2)) (-(1/4)) (-(1/4)); V (-(1/2)) (-(1/4)) (1/4); V (-(1/2)) (1/4) (1/4); V (-(1/2)) (1/4) (-(1/4))];
    [V (-(1/4)) (-(1/4)) (-(1/2)); V (-(1/4)) (1/4) (-(1/2)); V (1/4) (1/4) (-(1/2)); V (1/4) (-(1/4)) (-(1/2))];
    [V (-(1/4)) (-(1/4)) (1/2); V (1/4) (-(1/4)) (1/2); V (1/4) (1/4) (1/2); V (-(1/4)) (1/4) (1/2)] ].
(** Tet4CVFEM.C 384-403 *)
Definition tet_exp_face : list (list vec) :=
  [ [V (7/36) 0 (7/36); V (11/18) 0 (7/36); V (7/36) 0 (11/18)];
    [V (11/18) (7/36) (7/36); V (7/36) (11/18) (7/36); V (7/36) (7/36) (11/18)];
    [V 0 (7/36) (7/36); V 0 (7/36) (11/18); V 0 (11/18) (7/36)];
    [V (7/36) (7/36) 0; V (11/18) (7/36) 0; V (7/36) (11/18) 0] ].
(** Wed6CVFEM.C 459-479 (the two blanks left out) *)
Definition wed_exp_face : list (list vec) :=
  [ [V (1/4) 0 (-(1/2)); V (3/4) 0 (-(1/2)); V (3/4) 0 (1/2); V (1/4) 0 (1/2)];
    [V (3/4) (1/4) (-(1/2)); V (1/4) (3/4) (-(1/2)); V (1/4) (3/4) (1/2); V (3/4) (1/4) (1/2)];
    [V 0 (1/4) (-(1/2)); V 0 (1/4) (1/2); V 0 (3/4) (1/2); V 0 (3/4) (-(1/2))];
    [V (7/36) (7/36) (-1); V (7/36) (11/18) (-1); V (11/18) (7/36) (-1)];
    [V (7/36) (7/36) 1; V (11/18) (7/36) 1; V (7/36) (11/18) 1] ].
(** Pyr5CVFEM.C 731-757 *)
Definition pyr_exp_face : list (list vec) :=
  [ [V (-(5/12)) (-(29/36)) (7/36); V (5/12) (-(29/36)) (7/36); V 0 (-(7/18)) (11/18)];
    [V (29/36) (-(5/12)) (7/36); V (29/36) (5/12) (7/36); V (7/18) 0 (11/18)];
    [V (5/12) (29/36) (7/36); V (-(5/12)) (29/36) (7/36); V 0 (7/18) (11/18)];
    [V (-(29/36)) (-(5/12)) (7/36); V (-(7/18)) 0 (11/18); V (-(29/36)) (5/12) (7/36)];
    [V (-(1/2)) (-(1/2)) 0; V (-(1/2)) (1/2) 0; V (1/2) (1/2) 0; V (1/2) (-(1/2)) 0] ].
(** Tri32DCVFEM.C 401-411 *)
Definition tri2d_exp_face : list (list vec) :=
  [ [V (1/4) 0 0; V (3/4) 0 0];
    [V (3/4) (1/4) 0; V (1/4) (3/4) 0];
    [V 0 (3/4) 0; V 0 (1/4) 0] ].
(** Quad42DCVFEM.C 383-396 *)
Definition quad2d_exp_face : list (list vec) :=
  [ [V (-(1/4)) (-(1/2)) 0; V (1/4) (-(1/2)) 0];
    [V (1/2) (-(1/4)) 0; V (1/2) (1/4) 0];
    [V (1/4) (1/2) 0; V (-(1/4)) (1/2) 0];
    [V (-(1/2)) (1/4) 0; V (-(1/2)) (-(1/4)) 0] ].
(** ** Opposing nodes and sub-control surfaces *)
(** Hex8CVFEM.C 287-300, 852-858 *)
Definition hex_opp_node : list (list nat) :=
  [ [3;2;6;7]; [0;3;7;4]; [1;0;4;5]; [1;5;6;2]; [4;7;6;5]; [0;1;2;3] ]%nat.
(** Hex8CVFEM.C 302-315, 863-869 *)
Definition hex_opp_face : list (list nat) :=
  [ [3;1;5;7]; [0;2;6;4]; [1;3;7;5]; [0;4;6;2]; [8;11;10;9]; [8;9;10;11] ]%nat.
(** Tet4CVFEM.C 342-351, 859-865 *)
Definition tet_opp_node : list (list nat) :=
  [ [2;2;2]; [0;0;0]; [1;1;1]; [3;3;3] ]%nat.
(** Tet4CVFEM.C 353-362, 870-876 *)
Definition tet_opp_face : list (list nat) :=
  [ [2;1;5]; [0;2;3]; [0;4;1]; [3;5;4] ]%nat.
(** Wed6CVFEM.C 403-414, 923-930 (-1 paddings left out) *)
Definition wed_opp_node : list (list nat) :=
  [ [2;2;5;5]; [0;0;3;3]; [1;4;4;1]; [3;5;4]; [0;1;2] ]%nat.
(** Wed6CVFEM.C 416-427, 935-942 *)
Definition wed_opp_face : list (list nat) :=
  [ [2;1;4;5]; [0;2;5;3]; [0;3;4;1]; [6;8;7]; [6;7;8] ]%nat.
(** Pyr5CVFEM.C 668-680, 1420-1426 (-1 paddings left out) *)
Definition pyr_opp_node : list (list nat) :=
  [ [3;2;2]; [0;3;3]; [1;0;0]; [1;1;2]; [4;4;4;4] ]%nat.
(** Pyr5CVFEM.C 682-694: the table filled by the constructor *)
Definition pyr_opp_face_table : list (list nat) :=
  [ [3;1;8]; [0;2;10]; [1;3;4]; [0;6;2]; [4;10;8;6] ]%nat.
(** Pyr5CVFEM.C 1431-1437: what opposingFace returns: an entry of oppNode_, not of oppFace_. *)
Definition pyr_opp_face : list (list nat) := pyr_opp_node.
(** Tri32DCVFEM.C 369-376, 855-861 *)
Definition tri2d_opp_node : list (list nat) :=
  [ [2;2]; [0;0]; [1;1] ]%nat.
(** Tri32DCVFEM.C 378-385, 866-872 *)
Definition tri2d_opp_face : list (list nat) :=
  [ [2;1]; [0;2]; [1;0] ]%nat.
(** Quad42DCVFEM.C 347-356, 819-825 *)
Definition quad2d_opp_node : list (list nat) :=
  [ [3;2]; [0;3]; [1;0]; [2;1] ]%nat.
(** Quad42DCVFEM.C 358-367, 830-836 *)
Definition quad2d_opp_face : list (list nat) :=
  [ [3;1]; [0;2]; [1;3]; [2;0] ]%nat.

(** ** sidePcoords_to_elemPcoords *)
(** Hex8CVFEM.C 1183-1235 (None: the thrown runtime_error) *)
Definition hex_side_map (k : nat) (x y : R) : option vec :=
  match k with
  | 0%nat => Some (V (1/2*x) (-(1/2)) (1/2*y))
  | 1%nat => Some (V (1/2) (1/2*x) (1/2*y))
  | 2%nat => Some (V (-(1/2)*x) (1/2) (1/2*y))
  | 3%nat => Some (V (-(1/2)) (1/2*y) (1/2*x))
  | 4%nat => Some (V (1/2*y) (1/2*x) (-(1/2)))
  | 5%nat => Some (V (1/2*x) (1/2*y) (1/2))
  | _ => None
  end.
(** Tet4CVFEM.C 1021-1060 *)
Definition tet_side_map (k : nat) (x y : R) : option vec :=
  match k with
  | 0%nat => Some (V x 0 y)
  | 1%nat => Some (V (1 - x - y) x y)
  | 2%nat => Some (V 0 y x)
  | 3%nat => Some (V y x 0)
  | _ => None
  end.
(** Wed6CVFEM.C 1234-1286 *)
Definition wed_side_map (k : nat) (x y : R) : option vec :=
  match k with
  | 0%nat => Some (V (1/2*(1+x)) 0 y)
  | 1%nat => Some (V (1/2*(1-x)) (1/2*(1+x)) y)
  | 2%nat => Some (V 0 (1/2*(1+y)) x)
  | 3%nat => Some (V y x (-1))
  | 4%nat => Some (V x y 1)
  | _ => None
  end.
(** Pyr5CVFEM.C 1454-1512 *)
Definition pyr_side_map (k : nat) (x y : R) : option vec :=
  match k with
  | 0%nat => Some (V (-1 + 2*x + y) (-1 + y) y)
  | 1%nat => Some (V (1 - y) (-1 + 2*x + y) y)
  | 2%nat => Some (V (1 - 2*x - y) (1 - y) y)
  | 3%nat => Some (V (-1 + x) (-1 + x + 2*y) x)
  | 4%nat => Some (V y x 0)
  | _ => None
  end.
(** Tri32DCVFEM.C 1030-1062 *)
Definition tri2d_side_map (k : nat) (x : R) : option vec :=
  match k with
  | 0%nat => Some (V (1/2*(1 + x)) 0 0)
  | 1%nat => Some (V (1 - 1/2*(x+1)) (1/2*(x+1)) 0)
  | 2%nat => Some (V 0 (1 - 1/2*(x+1)) 0)
  | _ => None
  end.
(** Quad42DCVFEM.C 1066-1100 *)
Definition quad2d_side_map (k : nat) (x : R) : option vec :=
  match k with
  | 0%nat => Some (V (1/2*x) (-(1/2)) 0)
  | 1%nat => Some (V (1/2) (1/2*x) 0)
  | 2%nat => Some (V (-(1/2)*x) (1/2) 0)
  | 3%nat => Some (V (-(1/2)) (-(1/2)*x) 0)
  | _ => None
  end.
(** MasterElement.C 957-968: Edge2DSCS::shape_fcn *)
Definition edge2d_ip_shape (s : vec) (i : nat) : R :=
  match i with 0%nat => 1/2 - vx s | 1%nat => 1/2 + vx s | _ => 0 end.
