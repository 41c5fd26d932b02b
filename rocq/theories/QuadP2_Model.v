(** The quadratic quadrilateral's control volumes: MasterElement.C 88-190 (QuadrilateralP2Element: node map, quadrature rule, point
    locations, weights), Quad92DCVFEM.C 100-138, 157-197, 228-247 and 282-311 (Quad92DSCV: points, volumes), 338-441 (Quad92DSCS: faces), 587-663 and 908-952
    (area vectors). Real arithmetic; the error flag is left out. Shape functions are those of ME_Shape_Model. *)
Require Import Reals List Arith.
From Verif Require Import Edge_Model ME_Model ME_Shape_Model.
Import ListNotations.
Open Scope R_scope.

(** MasterElement.C 88-115: scsDist_ and the padded scs locations *)
Definition scs_dist : R := sqrt 3 / 3.
Definition scs_end (k : nat) : R := match k with O => -1 | 1%nat => - scs_dist | 2%nat => scs_dist | _ => 1 end.
(** 121-124: gaussAbscissae_, gaussWeight_, gaussAbscissaeShift_ *)
Definition gauss_abscissa (i : nat) : R := match i with O => - (sqrt 3 / 3) | _ => sqrt 3 / 3 end.
Definition gauss_weight (i : nat) : R := 1/2.
Definition gauss_shift (i : nat) : R := match i with O | 1%nat => -1 | 2%nat | 3%nat => 0 | _ => 1 end.
(** 55-61 isoparametric_mapping(b, a, xi) *)
Definition iso (b a xi : R) : R := xi * (b - a) / 2 + (a + b) / 2.
(** 133-136 *)
Definition node_at (i j : nat) : nat := nth (i + 3 * j) quad9_node_map 0%nat.
(** 142-160 *)
Definition gauss_loc (k i : nat) : R := iso (scs_end (k + 1)) (scs_end k) (gauss_abscissa i).
Definition shift_loc (k i : nat) : R := gauss_shift (k * 2 + i).
(** 164-191 *)
Definition weight2 (k l i j : nat) : R := (scs_end (k + 1) - scs_end k) * (scs_end (l + 1) - scs_end l) * gauss_weight i * gauss_weight j.
Definition weight1 (k i : nat) : R := (scs_end (k + 1) - scs_end k) * gauss_weight i.
(** Quad92DCVFEM.C 112-137: the integration points in order; a point is (k, l, i, j) *)
Definition scv_points : list (nat * nat * nat * nat) :=
  flat_map (fun l => flat_map (fun k => flat_map (fun j => map (fun i => (k, l, i, j)) [0;1]%nat) [0;1]%nat) [0;1;2]%nat) [0;1;2]%nat.
Definition scv_node (p : nat * nat * nat * nat) : nat := let '(k, l, i, j) := p in node_at k l.
(** 157-182 and 282-311: jacobian_determinant with the shape derivatives at a point *)
Definition jac_det (x y : nat -> R) (s t : R) : R :=
  let D c (q : nat -> R) := sumn 9 (fun n => quad9_deriv (V s t 0) n c * q n) in D 0%nat x * D 1%nat y - D 0%nat y * D 1%nat x.
(** 184-198 and 228-247: volumes *)
Definition scv_volume (x y : nat -> R) (p : nat * nat * nat * nat) : R :=
  let '(k, l, i, j) := p in weight2 k l i j * jac_det x y (gauss_loc k i) (gauss_loc l j).
(** the volume of a node: the sum over the points that ipNodeMap gives it *)
Definition node_volume (x y : nat -> R) (n : nat) : R :=
  fold_right (fun p a => (if Nat.eqb (scv_node p) n then scv_volume x y p else 0) + a) 0 scv_points.
(** 350-354 *)
Definition scs_loc (m : nat) : R := match m with O => - scs_dist | _ => scs_dist end.
Definition orientation (m : nat) : R := match m with O => -1 | _ => 1 end.
(** 357-441: the face points; (dir, m, l, j), dir true: the first half, constant-t lines *)
Definition scs_points : list (bool * nat * nat * nat) :=
  flat_map (fun dir => flat_map (fun m => flat_map (fun l => map (fun j => (dir, m, l, j)) [0;1]%nat) [0;1;2]%nat) [0;1]%nat) [true; false].
Definition scs_left (p : bool * nat * nat * nat) : nat :=
  let '(dir, m, l, j) := p in if dir then (if Nat.eqb m 0 then node_at l m else node_at l (m + 1)) else (if Nat.eqb m 0 then node_at m l else node_at (m + 1) l).
Definition scs_right (p : bool * nat * nat * nat) : nat :=
  let '(dir, m, l, j) := p in if dir then (if Nat.eqb m 0 then node_at l (m + 1) else node_at l m) else (if Nat.eqb m 0 then node_at (m + 1) l else node_at m l).
Definition scs_st (p : bool * nat * nat * nat) : R * R :=
  let '(dir, m, l, j) := p in if dir then (gauss_loc l j, scs_loc m) else (scs_loc m, gauss_loc l j).
Definition scs_weight (p : bool * nat * nat * nat) : R :=
  let '(dir, m, l, j) := p in if dir then orientation m * weight1 l j else - orientation m * weight1 l j.
(** 908-952: area_vector; s1Component is the other direction *)
Definition area_vector (x y : nat -> R) (dir : bool) (s t : R) : R * R :=
  let c := if dir then 0%nat else 1%nat in
  let D (q : nat -> R) := sumn 9 (fun n => quad9_deriv (V s t 0) n c * q n) in (D y, - D x).
(** 587-663: determinant *)
Definition scs_area (x y : nat -> R) (p : bool * nat * nat * nat) : R * R :=
  let a := area_vector x y (let '(dir, _, _, _) := p in dir) (fst (scs_st p)) (snd (scs_st p)) in (fst a * scs_weight p, snd a * scs_weight p).
(** the area vector between two nodes, as an assembly over lrscv accumulates it: to the left node plus, to the right minus *)
Definition area_between (x y : nat -> R) (L Rn : nat) : R * R :=
  fold_right (fun p a => if andb (Nat.eqb (scs_left p) L) (Nat.eqb (scs_right p) Rn) then (fst (scs_area x y p) + fst a, snd (scs_area x y p) + snd a) else a) (0, 0) scs_points.
Definition outward_total (x y : nat -> R) (n : nat) : R * R :=
  fold_right (fun p a => let v := scs_area x y p in let sg := (if Nat.eqb (scs_left p) n then 1 else 0) - (if Nat.eqb (scs_right p) n then 1 else 0) in
    (sg * fst v + fst a, sg * snd v + snd a)) (0, 0) scs_points.
(** 33-73 quad_gradient_operator at one point, from the shape derivatives there; small: 1.e6*realmin *)
Definition gradient_operator (small : R) (x y : nat -> R) (deriv : nat -> nat -> R) (kn c : nat) : R :=
  let dx_ds1 := sumn 9 (fun n => deriv n 0%nat * x n) in let dx_ds2 := sumn 9 (fun n => deriv n 1%nat * x n) in
  let dy_ds1 := sumn 9 (fun n => deriv n 0%nat * y n) in let dy_ds2 := sumn 9 (fun n => deriv n 1%nat * y n) in
  let det_j := dx_ds1 * dy_ds2 - dy_ds1 * dx_ds2 in let test := if Rlt_dec small det_j then det_j else 1 in let denom := 1 / test in
  match c with
  | O => deriv kn 0%nat * (denom * dy_ds2) + deriv kn 1%nat * (- denom * dy_ds1)
  | _ => deriv kn 0%nat * (- denom * dx_ds2) + deriv kn 1%nat * (denom * dx_ds1)
  end.
Definition scv_st (ip : nat) : R * R := let '(k, l, i, j) := nth ip scv_points (0,0,0,0)%nat in (gauss_loc k i, gauss_loc l j).
(** 200-211: Quad92DSCV::grad_op writes gradop(ki, kn, n) for ki < numScsIp_ = 24 only; the caller (ScratchViews.h 276, 530) passes room for
    numScvIp_ = 36 points; old: what the buffer held *)
Definition scv_grad_op (small : R) (x y : nat -> R) (old : nat -> nat -> nat -> R) (ki kn c : nat) : R :=
  if Nat.ltb ki 24 then gradient_operator small x y (fun n d => quad9_deriv (V (fst (scv_st ki)) (snd (scv_st ki)) 0) n d) kn c else old ki kn c.
(** 668-679: Quad92DSCS::grad_op, at the face points *)
Definition scs_grad_op (small : R) (x y : nat -> R) (old : nat -> nat -> nat -> R) (ki kn c : nat) : R :=
  let st := scs_st (nth ki scs_points (true,0,0,0)%nat) in
  if Nat.ltb ki 24 then gradient_operator small x y (fun n d => quad9_deriv (V (fst st) (snd st) 0) n d) kn c else old ki kn c.
(** 449-558: set_boundary_info; the k of a loop step of side f: backwards on the two reversed sides *)
Definition stk_face_nodes : list nat := [0;4;1; 1;5;2; 2;6;3; 3;7;0]%nat.
Definition face_node_number (number f : nat) : nat := nth (number + 3 * f) stk_face_nodes 0%nat.
Definition face_to_line (f : nat) : nat := nth f [0;3;1;2]%nat 0%nat.
Definition face_loc (f : nat) : R := match f with O | 3%nat => -1 | _ => 1 end.
(** step r of the loop over nodes (k = r on sides 0 and 1, k = 2 - r on 2 and 3), point j: near node, opposing node, opposing face point *)
Definition side_point (f r j : nat) : nat * nat * nat :=
  let idx := (2 * r + j)%nat in
  match f with
  | O => (face_node_number r 0, node_at r 1, idx + face_to_line 0 * 6)
  | 1%nat => (face_node_number r 1, node_at 1 r, idx + face_to_line 1 * 6)
  | 2%nat => let k := (2 - r)%nat in (face_node_number (2 - k) 2, node_at k 1, (5 - idx) + face_to_line 2 * 6)
  | _ => let k := (2 - r)%nat in (face_node_number (2 - k) 3, node_at 1 k, (5 - idx) + face_to_line 3 * 6)
  end%nat.
(** intgExpFace_: one coordinate of the opposing face point's location, the other that of the side *)
Definition side_st (f r j : nat) : R * R :=
  let o := scs_st (nth (snd (side_point f r j)) scs_points (true,0,0,0)%nat) in
  match f with O | 2%nat => (fst o, face_loc f) | _ => (face_loc f, snd o) end.
(** MasterElement.C 1094-1128, 1142-1170, 1175-1185, 1225-1251: the three-node side element Edge32DSCS; its nodes on side f of the quadrilateral:
    sideNodeOrdinals_, 105-110. A point is (r, j); ipNodeMap *)
Definition side_ordinal (f m : nat) : nat := nth (m + 3 * f) [0;1;4; 1;2;5; 2;3;6; 3;0;7]%nat 0%nat.
Definition edge3_node (r : nat) : nat := nth r [0;2;1]%nat 0%nat.
Definition edge3_area_vector (x y : nat -> R) (s : R) : R * R :=
  let d (q : nat -> R) := 1/2 * (q 1%nat - q 0%nat) + (q 1%nat - 2 * q 2%nat + q 0%nat) * s in (d y, - d x).
Definition edge3_area (x y : nat -> R) (r j : nat) : R * R :=
  let a := edge3_area_vector x y (gauss_loc r j) in (weight1 r j * fst a, weight1 r j * snd a).
Definition edge3_value (q : nat -> R) (s : R) : R := - s * (1 - s) * (1/2) * q 0%nat + s * (1 + s) * (1/2) * q 1%nat + (1 - s) * (1 + s) * q 2%nat.
(** 1142-1170 with several elements: where element e's point ip is stored in areav, in units of doubles; the caller's layout has 6 points per element *)
Definition edge3_offset (e ip : nat) : nat := (2 * ip + 2 * 3 * e)%nat.
