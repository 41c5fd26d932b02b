(** Mesh geometry: dual nodal volumes, edge area vectors, exposed areas and the Jacobian check.
    Files: ComputeGeometryInteriorAlgorithm.C, ComputeGeometryBoundaryAlgorithm.C,
    ComputeGeometryAlgorithmDriver.C.  Element formulas come from ME_Model.
    Simplifications: real arithmetic; one process (parallel_sum and the periodic update of post_work
    are the subject of Sum_Model / Periodic_Model); the bucket loops are loops over lists; entities
    are natural numbers, the identifier of a node is the number itself. *)
Require Import Reals List Bool PeanoNat.
From Verif Require Import ME_Model.
Import ListNotations.
Open Scope R_scope.

(** what the algorithm uses of a pair of master elements (volume and surface) and of the stk topology *)
Record etype := mkType {
  t_npe : nat;                              (* nodesPerElement_ *)
  t_scvnode : list nat;                     (* meSCV->ipNodeMap() *)
  t_vol : (nat -> vec) -> nat -> R;         (* meSCV->determinant *)
  t_lr : list (nat * nat);                  (* meSCS->adjacentNodes() *)
  t_ord : list nat;                         (* meSCS->scsIpEdgeOrd() *)
  t_area : (nat -> vec) -> nat -> vec;      (* meSCS->determinant *)
  t_edges : list (nat * nat);               (* stk::topology edge nodes *)
  t_sides : list (list nat) }.              (* side node ordinals *)

(** stk::topology documentation (edge node ordinals); scsIpEdgeOrd_: Hex8CVFEM.C:279-285,
    Tet4CVFEM.C:338-340, Wed6CVFEM.C:398-401, Pyr5CVFEM.C:660-666, Tri32DCVFEM.C:366-367,
    Quad42DCVFEM.C:343-345; ipNodeMap_ of the volume elements: Hex8CVFEM.C:84-85, Tet4CVFEM.C:68,
    Wed6CVFEM.C:114-115, Pyr5CVFEM.C:217-218, Tri32DCVFEM.C:104, Quad42DCVFEM.C:110 *)
Definition hex_t : etype := mkType 8 [0;1;2;3;4;5;6;7]%nat hex_scv_volume hex_lrscv
  [0;1;2;3;4;5;6;7;8;9;10;11]%nat hex_scs_area
  [(0,1);(1,2);(2,3);(3,0);(4,5);(5,6);(6,7);(7,4);(0,4);(1,5);(2,6);(3,7)]%nat hex_side_nodes.
Definition tet_t : etype := mkType 4 [0;1;2;3]%nat tet_scv_volume tet_lrscv
  [0;1;2;3;4;5]%nat tet_scs_area [(0,1);(1,2);(2,0);(0,3);(1,3);(2,3)]%nat tet_side_nodes.
Definition wed_t : etype := mkType 6 [0;1;2;3;4;5]%nat wed_scv_volume wed_lrscv
  [0;1;2;3;4;5;6;7;8]%nat wed_scs_area
  [(0,1);(1,2);(2,0);(3,4);(4,5);(5,3);(0,3);(1,4);(2,5)]%nat wed_side_nodes.
Definition pyr_t : etype := mkType 5 [0;1;2;3;4]%nat pyr_scv_volume pyr_lrscv
  [0;1;2;3;4;4;5;5;6;6;7;7]%nat pyr_scs_area
  [(0,1);(1,2);(2,3);(3,0);(0,4);(1,4);(2,4);(3,4)]%nat pyr_side_nodes.
(** planar elements, embedded with z = 0 *)
Definition emb2 (p : R * R) : vec := V (fst p) (snd p) 0.
Definition tri_t : etype := mkType 3 [0;1;2]%nat
  (fun X => tri2d_scv_volume (fun n => vx (X n)) (fun n => vy (X n))) tri2d_lrscv
  [0;1;2]%nat (fun X k => emb2 (tri2d_scs_area (fun n => vx (X n)) (fun n => vy (X n)) k))
  [(0,1);(1,2);(2,0)]%nat tri2d_side_nodes.
Definition quad_t : etype := mkType 4 [0;1;2;3]%nat
  (fun X => quad2d_scv_volume (fun n => vx (X n)) (fun n => vy (X n))) quad2d_lrscv
  [0;1;2;3]%nat (fun X k => emb2 (quad2d_scs_area (fun n => vx (X n)) (fun n => vy (X n)) k))
  [(0,1);(1,2);(2,3);(3,0)]%nat quad2d_side_nodes.

(** a mesh element: topology, element->node relations, element->edge relations *)
Record elem := mkElem { el_type : etype; el_nodes : list nat; el_edges : list nat }.
(** gather of the nodal coordinates, ComputeGeometryInteriorAlgorithm.C:104-112 *)
Definition ws_coordinates (x : nat -> vec) (el : elem) : nat -> vec := gather x (el_nodes el).

(** lines 114-127: the dual volume contributions of one element *)
Definition scv_loop (x : nat -> vec) (el : elem) (dual : nat -> R) : nat -> R :=
  fold_left (fun d ip =>
      let node := nth (nth ip (t_scvnode (el_type el)) 0%nat) (el_nodes el) 0%nat in
      fun i => if Nat.eqb i node then d i + t_vol (el_type el) (ws_coordinates x el) ip else d i)
    (seq 0 (length (t_scvnode (el_type el)))) dual.
(** pre_work zeroing (ComputeGeometryAlgorithmDriver.C:63-77) and lines 79-129 *)
Definition dual_volume (x : nat -> vec) (els : list elem) : nat -> R :=
  fold_left (fun d el => scv_loop x el d) els (fun _ => 0).

(** lines 176-211: the edge area contributions of one element; en is the edge->node relation *)
Definition scs_loop (x : nat -> vec) (en : nat -> nat * nat) (el : elem) (av : nat -> vec) : nat -> vec :=
  fold_left (fun a ip =>
      let nedge := nth ip (t_ord (el_type el)) 0%nat in
      let edge := nth nedge (el_edges el) 0%nat in
      let iloc_L := fst (nth ip (t_lr (el_type el)) (0, 0)%nat) in
      let sign := if Nat.eqb (nth iloc_L (el_nodes el) 0%nat) (fst (en edge)) then 1 else -1 in
      fun e => if Nat.eqb e edge
               then vadd (a e) (vscale sign (t_area (el_type el) (ws_coordinates x el) ip)) else a e)
    (seq 0 (length (t_lr (el_type el)))) av.
(** pre_work zeroing (driver lines 80-101) and lines 134-214 *)
Definition edge_area (x : nat -> vec) (en : nat -> nat * nat) (els : list elem) : nat -> vec :=
  fold_left (fun a el => scs_loop x en el a) els (fun _ => vzero).

(** ComputeGeometryBoundaryAlgorithm.C:58-108: exposed_area_vector of a face with the given nodes *)
Definition face_area (x : nat -> vec) (face : list nat) (k : nat) : vec :=
  match face with
  | [_; _] => emb2 (edge2d_scs_det (fun n => vx (x (nth n face 0%nat))) (fun n => vy (x (nth n face 0%nat))) k)
  | _ => exposed_area x face k
  end.

(** check_jacobians, driver lines 145-220: the elements reported, and whether the run goes on *)
Definition bad_element (x : nat -> vec) (el : elem) : bool :=
  existsb (fun ip => if Rlt_dec (t_vol (el_type el) (ws_coordinates x el) ip) 0 then true else false)
          (seq 0 (length (t_scvnode (el_type el)))).
Definition bad_elements (x : nat -> vec) (els : list elem) : list elem := filter (bad_element x) els.
Definition check_jacobians_ok (x : nat -> vec) (els : list elem) : bool :=
  match bad_elements x els with [] => true | _ => false end.
