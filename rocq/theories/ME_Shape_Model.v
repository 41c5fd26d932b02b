(** * Master elements, part 2: shape functions and their derivative tables

    The tables are transcribed entry by entry from the cited source lines.  A parametric point
    [isoParCoord[...]] is a [vec] (the third component is unused by the planar elements), the flat
    arrays [shpfc[npe*ip+i]] / [deriv(ip,i,c)] become functions of the node [i] (and the direction
    [c]) at one point; entries outside the table are 0.  Reals instead of doubles. *)
From Coq Require Import Reals List Arith.
From Verif Require Import ME_Model.
Import ListNotations.
Local Open Scope R_scope.

(** ** Linear elements *)
(** Tri32DCVFEM.C 836-852 tri_shape_fcn (also MasterElement.C 575-588, 698-711) *)
Definition tri3_shape (s : vec) (i : nat) : R :=
  let xi := vx s in let eta := vy s in 
  match i with
  | 0%nat => 1 - xi - eta
  | 1%nat => xi
  | 2%nat => eta
  | _ => 0
  end.
(** Tri32DCVFEM.C 31-43 tri_derivative *)
Definition tri3_deriv (s : vec) (i c : nat) : R :=
  let xi := vx s in let eta := vy s in 
  match i, c with
  | 0%nat, 0%nat => -1
  | 0%nat, 1%nat => -1
  | 1%nat, 0%nat => 1
  | 1%nat, 1%nat => 0
  | 2%nat, 0%nat => 0
  | 2%nat, 1%nat => 1
  | _, _ => 0
  end.

(** Quad42DCVFEM.C 307-322 quad_shape_fcn, reference square [-1/2,1/2]^2 *)
Definition quad4_shape (s : vec) (i : nat) : R :=
  let s1 := vx s in let s2 := vy s in 
  match i with
  | 0%nat => 1/4 + (1/2)*(-s1 - s2 ) + s1*s2
  | 1%nat => 1/4 + (1/2)*( s1 - s2 ) - s1*s2
  | 2%nat => 1/4 + (1/2)*( s1 + s2 ) + s1*s2
  | 3%nat => 1/4 + (1/2)*(-s1 + s2 ) - s1*s2
  | _ => 0
  end.
(** Quad42DCVFEM.C 33-53 quad_derivative *)
Definition quad4_deriv (s : vec) (i c : nat) : R :=
  let s1 := vx s in let s2 := vy s in 
  match i, c with
  | 0%nat, 0%nat => - (1/2) + s2
  | 0%nat, 1%nat => - (1/2) + s1
  | 1%nat, 0%nat => (1/2) - s2
  | 1%nat, 1%nat => - (1/2) - s1
  | 2%nat, 0%nat => (1/2) + s2
  | 2%nat, 1%nat => (1/2) + s1
  | 3%nat, 0%nat => - (1/2) - s2
  | 3%nat, 1%nat => (1/2) - s1
  | _, _ => 0
  end.

(** Quad42DCVFEM.C 1006-1028 general_shape_fcn, reference square [-1,1]^2 (the same in Quad43DCVFEM.C) *)
Definition quad4g_shape (s : vec) (i : nat) : R :=
  let s1 := vx s in let s2 := vy s in 
  match i with
  | 0%nat => (1/4)*(1-s1)*(1-s2)
  | 1%nat => (1/4)*(1+s1)*(1-s2)
  | 2%nat => (1/4)*(1+s1)*(1+s2)
  | 3%nat => (1/4)*(1-s1)*(1+s2)
  | _ => 0
  end.

(** Tet4CVFEM.C 298-316 tet_shape_fcn *)
Definition tet4_shape (s : vec) (i : nat) : R :=
  let xi := vx s in let eta := vy s in let zeta := vz s in 
  match i with
  | 0%nat => 1 - xi - eta - zeta
  | 1%nat => xi
  | 2%nat => eta
  | 3%nat => zeta
  | _ => 0
  end.
(** Tet4CVFEM.C 33-55 tet_deriv *)
Definition tet4_deriv (s : vec) (i c : nat) : R :=
  let xi := vx s in let eta := vy s in let zeta := vz s in 
  match i, c with
  | 0%nat, 0%nat => -1
  | 0%nat, 1%nat => -1
  | 0%nat, 2%nat => -1
  | 1%nat, 0%nat => 1
  | 1%nat, 1%nat => 0
  | 1%nat, 2%nat => 0
  | 2%nat, 0%nat => 0
  | 2%nat, 1%nat => 1
  | 2%nat, 2%nat => 0
  | 3%nat, 0%nat => 0
  | 3%nat, 1%nat => 0
  | 3%nat, 2%nat => 1
  | _, _ => 0
  end.

(** Hex8CVFEM.C 487-518 hex8_shape_fcn, reference cube [-1/2,1/2]^3 *)
Definition hex8_shape (s : vec) (i : nat) : R :=
  let s1 := vx s in let s2 := vy s in let s3 := vz s in 
  match i with
  | 0%nat => (1/8) + (1/4)*(-s1 - s2 - s3) + (1/2)*( s2*s3 + s3*s1 + s1*s2 ) - s1*s2*s3
  | 1%nat => (1/8) + (1/4)*( s1 - s2 - s3) + (1/2)*( s2*s3 - s3*s1 - s1*s2 ) + s1*s2*s3
  | 2%nat => (1/8) + (1/4)*( s1 + s2 - s3) + (1/2)*(-s2*s3 - s3*s1 + s1*s2 ) - s1*s2*s3
  | 3%nat => (1/8) + (1/4)*(-s1 + s2 - s3) + (1/2)*(-s2*s3 + s3*s1 - s1*s2 ) + s1*s2*s3
  | 4%nat => (1/8) + (1/4)*(-s1 - s2 + s3) + (1/2)*(-s2*s3 - s3*s1 + s1*s2 ) + s1*s2*s3
  | 5%nat => (1/8) + (1/4)*( s1 - s2 + s3) + (1/2)*(-s2*s3 + s3*s1 - s1*s2 ) - s1*s2*s3
  | 6%nat => (1/8) + (1/4)*( s1 + s2 + s3) + (1/2)*( s2*s3 + s3*s1 + s1*s2 ) + s1*s2*s3
  | 7%nat => (1/8) + (1/4)*(-s1 + s2 + s3) + (1/2)*( s2*s3 - s3*s1 - s1*s2 ) - s1*s2*s3
  | _ => 0
  end.
(** Hex8CVFEM.C 25-70 hex8_derivative *)
Definition hex8_deriv (s : vec) (i c : nat) : R :=
  let s1 := vx s in let s2 := vy s in let s3 := vz s in let s1s2 := s1*s2 in let s2s3 := s2*s3 in let s1s3 := s1*s3 in 
  match i, c with
  | 0%nat, 0%nat => (1/2)*( s3 + s2 ) - s2s3 - (1/4)
  | 0%nat, 1%nat => (1/2)*( s3 + s1 ) - s1s3 - (1/4)
  | 0%nat, 2%nat => (1/2)*( s2 + s1 ) - s1s2 - (1/4)
  | 1%nat, 0%nat => (1/2)*(-s3 - s2 ) + s2s3 + (1/4)
  | 1%nat, 1%nat => (1/2)*( s3 - s1 ) + s1s3 - (1/4)
  | 1%nat, 2%nat => (1/2)*( s2 - s1 ) + s1s2 - (1/4)
  | 2%nat, 0%nat => (1/2)*(-s3 + s2 ) - s2s3 + (1/4)
  | 2%nat, 1%nat => (1/2)*(-s3 + s1 ) - s1s3 + (1/4)
  | 2%nat, 2%nat => (1/2)*(-s2 - s1 ) - s1s2 - (1/4)
  | 3%nat, 0%nat => (1/2)*( s3 - s2 ) + s2s3 - (1/4)
  | 3%nat, 1%nat => (1/2)*(-s3 - s1 ) + s1s3 + (1/4)
  | 3%nat, 2%nat => (1/2)*(-s2 + s1 ) + s1s2 - (1/4)
  | 4%nat, 0%nat => (1/2)*(-s3 + s2 ) + s2s3 - (1/4)
  | 4%nat, 1%nat => (1/2)*(-s3 + s1 ) + s1s3 - (1/4)
  | 4%nat, 2%nat => (1/2)*(-s2 - s1 ) + s1s2 + (1/4)
  | 5%nat, 0%nat => (1/2)*( s3 - s2 ) - s2s3 + (1/4)
  | 5%nat, 1%nat => (1/2)*(-s3 - s1 ) - s1s3 - (1/4)
  | 5%nat, 2%nat => (1/2)*(-s2 + s1 ) - s1s2 + (1/4)
  | 6%nat, 0%nat => (1/2)*( s3 + s2 ) + s2s3 + (1/4)
  | 6%nat, 1%nat => (1/2)*( s3 + s1 ) + s1s3 + (1/4)
  | 6%nat, 2%nat => (1/2)*( s2 + s1 ) + s1s2 + (1/4)
  | 7%nat, 0%nat => (1/2)*(-s3 - s2 ) - s2s3 - (1/4)
  | 7%nat, 1%nat => (1/2)*( s3 - s1 ) - s1s3 + (1/4)
  | 7%nat, 2%nat => (1/2)*( s2 - s1 ) - s1s2 + (1/4)
  | _, _ => 0
  end.

  (** Hex8FEM.C 271-295 hex8_fem_shape_fcn, reference cube [-1,1]^3; the same formulas in Hex8CVFEM.C
  1122-1146 general_shape_fcn *)
Definition hex8g_shape (s : vec) (i : nat) : R :=
  let s1 := vx s in let s2 := vy s in let s3 := vz s in 
  match i with
  | 0%nat => (1/8)*(1-s1)*(1-s2)*(1-s3)
  | 1%nat => (1/8)*(1+s1)*(1-s2)*(1-s3)
  | 2%nat => (1/8)*(1+s1)*(1+s2)*(1-s3)
  | 3%nat => (1/8)*(1-s1)*(1+s2)*(1-s3)
  | 4%nat => (1/8)*(1-s1)*(1-s2)*(1+s3)
  | 5%nat => (1/8)*(1+s1)*(1-s2)*(1+s3)
  | 6%nat => (1/8)*(1+s1)*(1+s2)*(1+s3)
  | 7%nat => (1/8)*(1-s1)*(1+s2)*(1+s3)
  | _ => 0
  end.
(** Hex8FEM.C 358-398 hex8_fem_derivative (view version) *)
Definition hex8g_deriv (s : vec) (i c : nat) : R :=
  let s1 := vx s in let s2 := vy s in let s3 := vz s in 
  match i, c with
  | 0%nat, 0%nat => -(1/8)*(1-s2)*(1-s3)
  | 0%nat, 1%nat => -(1/8)*(1-s1)*(1-s3)
  | 0%nat, 2%nat => -(1/8)*(1-s1)*(1-s2)
  | 1%nat, 0%nat => (1/8)*(1-s2)*(1-s3)
  | 1%nat, 1%nat => -(1/8)*(1+s1)*(1-s3)
  | 1%nat, 2%nat => -(1/8)*(1+s1)*(1-s2)
  | 2%nat, 0%nat => (1/8)*(1+s2)*(1-s3)
  | 2%nat, 1%nat => (1/8)*(1+s1)*(1-s3)
  | 2%nat, 2%nat => -(1/8)*(1+s1)*(1+s2)
  | 3%nat, 0%nat => -(1/8)*(1+s2)*(1-s3)
  | 3%nat, 1%nat => (1/8)*(1-s1)*(1-s3)
  | 3%nat, 2%nat => -(1/8)*(1-s1)*(1+s2)
  | 4%nat, 0%nat => -(1/8)*(1-s2)*(1+s3)
  | 4%nat, 1%nat => -(1/8)*(1-s1)*(1+s3)
  | 4%nat, 2%nat => (1/8)*(1-s1)*(1-s2)
  | 5%nat, 0%nat => (1/8)*(1-s2)*(1+s3)
  | 5%nat, 1%nat => -(1/8)*(1+s1)*(1+s3)
  | 5%nat, 2%nat => (1/8)*(1+s1)*(1-s2)
  | 6%nat, 0%nat => (1/8)*(1+s2)*(1+s3)
  | 6%nat, 1%nat => (1/8)*(1+s1)*(1+s3)
  | 6%nat, 2%nat => (1/8)*(1+s1)*(1+s2)
  | 7%nat, 0%nat => -(1/8)*(1+s2)*(1+s3)
  | 7%nat, 1%nat => (1/8)*(1-s1)*(1+s3)
  | 7%nat, 2%nat => (1/8)*(1-s1)*(1+s2)
  | _, _ => 0
  end.

(** Hex8FEM.C 322-356 hex8_fem_derivative (flat array version) *)
Definition hex8f_deriv (s : vec) (i c : nat) : R :=
  let s1 := vx s in let s2 := vy s in let s3 := vz s in 
  match i, c with
  | 0%nat, 0%nat => -(1/8)*(1-s2)*(1-s3)
  | 0%nat, 1%nat => -(1/8)*(1-s1)*(1-s3)
  | 0%nat, 2%nat => -(1/8)*(1-s1)*(1-s2)
  | 1%nat, 0%nat => (1/8)*(1-s2)*(1-s3)
  | 1%nat, 1%nat => -(1/8)*(1+s1)*(1-s3)
  | 1%nat, 2%nat => -(1/8)*(1+s1)*(1-s2)
  | 2%nat, 0%nat => (1/8)*(1+s2)*(1-s3)
  | 2%nat, 1%nat => (1/8)*(1+s1)*(1-s3)
  | 2%nat, 2%nat => -(1/8)*(1+s1)*(1+s2)
  | 3%nat, 0%nat => -(1/8)*(1+s2)*(1-s3)
  | 3%nat, 1%nat => (1/8)*(1-s1)*(1-s3)
  | 3%nat, 2%nat => -(1/8)*(1-s1)*(1+s2)
  | 4%nat, 0%nat => -(1/8)*(1-s2)*(1+s3)
  | 4%nat, 1%nat => -(1/8)*(1-s1)*(1+s3)
  | 4%nat, 2%nat => (1/8)*(1-s1)*(1-s2)
  | 5%nat, 0%nat => (1/8)*(1-s2)*(1+s3)
  | 5%nat, 1%nat => -(1/8)*(1+s1)*(1+s3)
  | 5%nat, 2%nat => (1/8)*(1+s1)*(1-s2)
  | 6%nat, 0%nat => (1/8)*(1+s2)*(1+s3)
  | 6%nat, 1%nat => (1/8)*(1+s1)*(1+s3)
  | 6%nat, 2%nat => (1/8)*(1+s1)*(1+s2)
  | 7%nat, 0%nat => -(1/8)*(1+s2)*(1+s3)
  | 7%nat, 1%nat => (1/8)*(1-s1)*(1+s3)
  | 7%nat, 2%nat => (1/8)*(1-s1)*(1+s2)
  | _, _ => 0
  end.

(** Wed6CVFEM.C 1151-1173 wedge_shape_fcn *)
Definition wed6_shape (s : vec) (i : nat) : R :=
  let r := vx s in let s_ := vy s in let xi := vz s in let t := 1 - r - s_ in 
  match i with
  | 0%nat => (1/2) * t * (1 - xi)
  | 1%nat => (1/2) * r * (1 - xi)
  | 2%nat => (1/2) * s_ * (1 - xi)
  | 3%nat => (1/2) * t * (1 + xi)
  | 4%nat => (1/2) * r * (1 + xi)
  | 5%nat => (1/2) * s_ * (1 + xi)
  | _ => 0
  end.
(** Wed6CVFEM.C 19-58 wed_deriv *)
Definition wed6_deriv (s : vec) (i c : nat) : R :=
  let r := vx s in let s_ := vy s in let xi := vz s in let t := 1 - r - s_ in 
  match i, c with
  | 0%nat, 0%nat => -(1/2) * (1 - xi)
  | 0%nat, 1%nat => -(1/2) * (1 - xi)
  | 0%nat, 2%nat => -(1/2) * t
  | 1%nat, 0%nat => (1/2) * (1 - xi)
  | 1%nat, 1%nat => 0
  | 1%nat, 2%nat => -(1/2) * r
  | 2%nat, 0%nat => 0
  | 2%nat, 1%nat => (1/2) * (1 - xi)
  | 2%nat, 2%nat => -(1/2) * s_
  | 3%nat, 0%nat => -(1/2) * (1 + xi)
  | 3%nat, 1%nat => -(1/2) * (1 + xi)
  | 3%nat, 2%nat => (1/2) * t
  | 4%nat, 0%nat => (1/2) * (1 + xi)
  | 4%nat, 1%nat => 0
  | 4%nat, 2%nat => (1/2) * r
  | 5%nat, 0%nat => 0
  | 5%nat, 1%nat => (1/2) * (1 + xi)
  | 5%nat, 2%nat => (1/2) * s_
  | _, _ => 0
  end.

(** Pyr5CVFEM.C 1396-1418 shifted_pyr_shape_fcn *)
Definition pyr5s_shape (s : vec) (i : nat) : R :=
  let r := vx s in let s_ := vy s in let t := vz s in 
  match i with
  | 0%nat => (1/4)*(1-r)*(1-s_)*(1-t)
  | 1%nat => (1/4)*(1+r)*(1-s_)*(1-t)
  | 2%nat => (1/4)*(1+r)*(1+s_)*(1-t)
  | 3%nat => (1/4)*(1-r)*(1+s_)*(1-t)
  | 4%nat => t
  | _ => 0
  end.
(** Pyr5CVFEM.C 82-115 shifted_pyr_deriv *)
Definition pyr5s_deriv (s : vec) (i c : nat) : R :=
  let r := vx s in let s_ := vy s in let t := vz s in 
  match i, c with
  | 0%nat, 0%nat => -(1/4)*(1-s_)*(1-t)
  | 0%nat, 1%nat => -(1/4)*(1-r)*(1-t)
  | 0%nat, 2%nat => -(1/4)*(1-r)*(1-s_)
  | 1%nat, 0%nat => (1/4)*(1-s_)*(1-t)
  | 1%nat, 1%nat => -(1/4)*(1+r)*(1-t)
  | 1%nat, 2%nat => -(1/4)*(1+r)*(1-s_)
  | 2%nat, 0%nat => (1/4)*(1+s_)*(1-t)
  | 2%nat, 1%nat => (1/4)*(1+r)*(1-t)
  | 2%nat, 2%nat => -(1/4)*(1+r)*(1+s_)
  | 3%nat, 0%nat => -(1/4)*(1+s_)*(1-t)
  | 3%nat, 1%nat => (1/4)*(1-r)*(1-t)
  | 3%nat, 2%nat => -(1/4)*(1-r)*(1+s_)
  | 4%nat, 0%nat => 0
  | 4%nat, 1%nat => 0
  | 4%nat, 2%nat => 1
  | _, _ => 0
  end.

(** Pyr5CVFEM.C 42, 51-52 and 1371, 1379-1380: [t] is moved off the apex when |1-t| <= epsilon.
    [copysign(eps, x)] is eps for x >= 0 (the +0 of 1.0-1.0 included) and -eps for x < 0. *)
Definition dbl_epsilon : R := / 4503599627370496.
Definition copysign_eps (x : R) : R := if Rlt_dec x 0 then - dbl_epsilon else dbl_epsilon.
Definition pyr_t (t_tmp : R) : R :=
  let one_minus_t := 1 - t_tmp in
  if Rlt_dec dbl_epsilon (Rabs one_minus_t) then t_tmp else 1 + copysign_eps one_minus_t.
(** Pyr5CVFEM.C 1365-1390 pyr_shape_fcn *)
Definition pyr5_shape (s : vec) (i : nat) : R :=
    let r := vx s in let s_ := vy s in let t_tmp := vz s in let t := pyr_t t_tmp in let quarter_inv_tm1 :=
  (1/4) / (1 - t) in
  match i with
  | 0%nat => (1 - r - t) * (1 - s_ - t) * quarter_inv_tm1
  | 1%nat => (1 + r - t) * (1 - s_ - t) * quarter_inv_tm1
  | 2%nat => (1 + r - t) * (1 + s_ - t) * quarter_inv_tm1
  | 3%nat => (1 - r - t) * (1 + s_ - t) * quarter_inv_tm1
  | 4%nat => t
  | _ => 0
  end.
(** Pyr5CVFEM.C 35-78 pyr_deriv *)
Definition pyr5_deriv (s : vec) (i c : nat) : R :=
    let r := vx s in let s_ := vy s in let t_tmp := vz s in let t := pyr_t t_tmp in let quarter_inv_tm1 :=
  (1/4) / (1 - t) in let t_term := 4 * r * s_ * quarter_inv_tm1 * quarter_inv_tm1 in
  match i, c with
  | 0%nat, 0%nat => -(1 - s_ - t) * quarter_inv_tm1
  | 0%nat, 1%nat => -(1 - r - t) * quarter_inv_tm1
  | 0%nat, 2%nat => (t_term - (1/4))
  | 1%nat, 0%nat => (1 - s_ - t) * quarter_inv_tm1
  | 1%nat, 1%nat => -(1 + r - t) * quarter_inv_tm1
  | 1%nat, 2%nat => (-t_term - (1/4))
  | 2%nat, 0%nat => (1 + s_ - t) * quarter_inv_tm1
  | 2%nat, 1%nat => (1 + r - t) * quarter_inv_tm1
  | 2%nat, 2%nat => (t_term - (1/4))
  | 3%nat, 0%nat => -(1 + s_ - t) * quarter_inv_tm1
  | 3%nat, 1%nat => (1 - r - t) * quarter_inv_tm1
  | 3%nat, 2%nat => (-t_term - (1/4))
  | 4%nat, 0%nat => 0
  | 4%nat, 1%nat => 0
  | 4%nat, 2%nat => 1
  | _, _ => 0
  end.

(** ** Quadratic elements *)
(** Tri6FEM.C 202-224 tri6_shape_fcn *)
Definition tri6_shape (s : vec) (i : nat) : R :=
  let s_ := vx s in let t := vy s in 
  match i with
  | 0%nat => (1-s_-t)*(1-2*s_-2*t)
  | 1%nat => s_*(2*s_-1)
  | 2%nat => t*(2*t-1)
  | 3%nat => 4*s_*(1-s_-t)
  | 4%nat => 4*s_*t
  | 5%nat => 4*t*(1-s_-t)
  | _ => 0
  end.
(** Tri6FEM.C 16-41 tri6_derivative *)
Definition tri6_deriv (s : vec) (i c : nat) : R :=
  let s_ := vx s in let t := vy s in 
  match i, c with
  | 0%nat, 0%nat => -1*(1-2*s_-2*t) - 2*(1-s_-t)
  | 0%nat, 1%nat => -1*(1-2*s_-2*t) - 2*(1-s_-t)
  | 1%nat, 0%nat => (2*s_-1) + 2*s_
  | 1%nat, 1%nat => 0
  | 2%nat, 0%nat => 0
  | 2%nat, 1%nat => (2*t-1) + 2*t
  | 3%nat, 0%nat => 4*(1-s_-t) - 4*s_
  | 3%nat, 1%nat => -4*s_
  | 4%nat, 0%nat => 4*t
  | 4%nat, 1%nat => 4*s_
  | 5%nat, 0%nat => -4*t
  | 5%nat, 1%nat => 4*(1-s_-t) - 4*t
  | _, _ => 0
  end.

(** Tet10FEM.C 554-580 tet10_fem_shape_fcn *)
Definition tet10_shape (s : vec) (i : nat) : R :=
  let s1 := vx s in let s2 := vy s in let s3 := vz s in 
  match i with
  | 0%nat => (1-2*s1-2*s2-2*s3)*(1-s1-s2-s3)
  | 1%nat => s1*(2*s1-1)
  | 2%nat => s2*(2*s2-1)
  | 3%nat => s3*(2*s3-1)
  | 4%nat => 4*s1*(1-s1-s2-s3)
  | 5%nat => 4*s1*s2
  | 6%nat => 4*s2*(1-s1-s2-s3)
  | 7%nat => 4*s3*(1-s1-s2-s3)
  | 8%nat => 4*s1*s3
  | 9%nat => 4*s2*s3
  | _ => 0
  end.
(** Tet10FEM.C 23-70 tet10_deriv *)
Definition tet10_deriv (s : vec) (i c : nat) : R :=
  let s1 := vx s in let s2 := vy s in let s3 := vz s in 
  match i, c with
  | 0%nat, 0%nat => 4*(s1+s2+s3)-3
  | 0%nat, 1%nat => 4*(s1+s2+s3)-3
  | 0%nat, 2%nat => 4*(s1+s2+s3)-3
  | 1%nat, 0%nat => 4*s1-1
  | 1%nat, 1%nat => 0
  | 1%nat, 2%nat => 0
  | 2%nat, 0%nat => 0
  | 2%nat, 1%nat => 4*s2-1
  | 2%nat, 2%nat => 0
  | 3%nat, 0%nat => 0
  | 3%nat, 1%nat => 0
  | 3%nat, 2%nat => 4*s3-1
  | 4%nat, 0%nat => 4*(1-2*s1-s2-s3)
  | 4%nat, 1%nat => -4*s1
  | 4%nat, 2%nat => -4*s1
  | 5%nat, 0%nat => 4*s2
  | 5%nat, 1%nat => 4*s1
  | 5%nat, 2%nat => 0
  | 6%nat, 0%nat => -4*s2
  | 6%nat, 1%nat => 4*(1-s1-2*s2-s3)
  | 6%nat, 2%nat => -4*s2
  | 7%nat, 0%nat => -4*s3
  | 7%nat, 1%nat => -4*s3
  | 7%nat, 2%nat => 4*(1-s1-s2-2*s3)
  | 8%nat, 0%nat => 4*s3
  | 8%nat, 1%nat => 0
  | 8%nat, 2%nat => 4*s1
  | 9%nat, 0%nat => 0
  | 9%nat, 1%nat => 4*s3
  | 9%nat, 2%nat => 4*s2
  | _, _ => 0
  end.

(** MasterElement.C 262-292 quad9_shape_fcn *)
Definition quad9_shape (s : vec) (i : nat) : R :=
    let s_ := vx s in let t := vy s in let one_m_s := 1 - s_ in let one_p_s := 1 + s_ in let one_m_t := 1 - t
  in let one_p_t := 1 + t in let one_m_ss := 1 - s_ * s_ in let one_m_tt := 1 - t * t in
  match i with
  | 0%nat => (1/4) * s_ * t * one_m_s * one_m_t
  | 1%nat => -(1/4) * s_ * t * one_p_s * one_m_t
  | 2%nat => (1/4) * s_ * t * one_p_s * one_p_t
  | 3%nat => -(1/4) * s_ * t * one_m_s * one_p_t
  | 4%nat => -(1/2) * t * one_p_s * one_m_s * one_m_t
  | 5%nat => (1/2) * s_ * one_p_t * one_m_t * one_p_s
  | 6%nat => (1/2) * t * one_p_s * one_m_s * one_p_t
  | 7%nat => -(1/2) * s_ * one_p_t * one_m_t * one_m_s
  | 8%nat => one_m_ss * one_m_tt
  | _ => 0
  end.
(** MasterElement.C 297-359 quad9_shape_deriv *)
Definition quad9_deriv (s : vec) (i c : nat) : R :=
  let s_ := vx s in let t := vy s in let s2 := s_*s_ in let t2 := t*t in 
  match i, c with
  | 0%nat, 0%nat => (1/4) * (2 * s_ * t2 - 2 * s_ * t - t2 + t)
  | 0%nat, 1%nat => (1/4) * (2 * s2 * t - 2 * s_ * t - s2 + s_)
  | 1%nat, 0%nat => (1/4) * (2 * s_ * t2 - 2 * s_ * t + t2 - t)
  | 1%nat, 1%nat => (1/4) * (2 * s2 * t + 2 * s_ * t - s2 - s_)
  | 2%nat, 0%nat => (1/4) * (2 * s_ * t2 + 2 * s_ * t + t2 + t)
  | 2%nat, 1%nat => (1/4) * (2 * s2 * t + 2 * s_ * t + s2 + s_)
  | 3%nat, 0%nat => (1/4) * (2 * s_ * t2 + 2 * s_ * t - t2 - t)
  | 3%nat, 1%nat => (1/4) * (2 * s2 * t - 2 * s_ * t + s2 - s_)
  | 4%nat, 0%nat => -(1/2) * (2 * s_ * t2 - 2 * s_ * t)
  | 4%nat, 1%nat => -(1/2) * (2 * s2 * t - s2 - 2 * t + 1)
  | 5%nat, 0%nat => -(1/2) * (2 * s_ * t2 + t2 - 2 * s_ - 1)
  | 5%nat, 1%nat => -(1/2) * (2 * s2 * t + 2 * s_ * t)
  | 6%nat, 0%nat => -(1/2) * (2 * s_ * t2 + 2 * s_ * t)
  | 6%nat, 1%nat => -(1/2) * (2 * s2 * t + s2 - 2 * t - 1)
  | 7%nat, 0%nat => -(1/2) * (2 * s_ * t2 - t2 - 2 * s_ + 1)
  | 7%nat, 1%nat => -(1/2) * (2 * s2 * t - 2 * s_ * t)
  | 8%nat, 0%nat => 2 * s_ * t2 - 2 * s_
  | 8%nat, 1%nat => 2 * s2 * t - 2 * t
  | _, _ => 0
  end.

(** Hex27CVFEM.C 356-419 hex27_shape_fcn *)
Definition hex27_shape (s : vec) (i : nat) : R :=
    let s_ := vx s in let t := vy s in let u := vz s in let stu := s_ * t * u in let st := s_ * t in let su :=
  s_ * u in let tu := t * u in let one_m_s := 1 - s_ in let one_p_s := 1 + s_ in let one_m_t := 1 - t in let
  one_p_t := 1 + t in let one_m_u := 1 - u in let one_p_u := 1 + u in let one_m_ss := 1 - s_ * s_ in let
  one_m_tt := 1 - t * t in let one_m_uu := 1 - u * u in
  match i with
  | 0%nat => -(1/8) * stu * one_m_s * one_m_t * one_m_u
  | 1%nat => (1/8) * stu * one_p_s * one_m_t * one_m_u
  | 2%nat => -(1/8) * stu * one_p_s * one_p_t * one_m_u
  | 3%nat => (1/8) * stu * one_m_s * one_p_t * one_m_u
  | 4%nat => (1/8) * stu * one_m_s * one_m_t * one_p_u
  | 5%nat => -(1/8) * stu * one_p_s * one_m_t * one_p_u
  | 6%nat => (1/8) * stu * one_p_s * one_p_t * one_p_u
  | 7%nat => -(1/8) * stu * one_m_s * one_p_t * one_p_u
  | 8%nat => (1/4) * tu * one_m_ss * one_m_t * one_m_u
  | 9%nat => -(1/4) * su * one_p_s * one_m_tt * one_m_u
  | 10%nat => -(1/4) * tu * one_m_ss * one_p_t * one_m_u
  | 11%nat => (1/4) * su * one_m_s * one_m_tt * one_m_u
  | 12%nat => (1/4) * st * one_m_s * one_m_t * one_m_uu
  | 13%nat => -(1/4) * st * one_p_s * one_m_t * one_m_uu
  | 14%nat => (1/4) * st * one_p_s * one_p_t * one_m_uu
  | 15%nat => -(1/4) * st * one_m_s * one_p_t * one_m_uu
  | 16%nat => -(1/4) * tu * one_m_ss * one_m_t * one_p_u
  | 17%nat => (1/4) * su * one_p_s * one_m_tt * one_p_u
  | 18%nat => (1/4) * tu * one_m_ss * one_p_t * one_p_u
  | 19%nat => -(1/4) * su * one_m_s * one_m_tt * one_p_u
  | 20%nat => one_m_ss * one_m_tt * one_m_uu
  | 21%nat => -(1/2) * u * one_m_ss * one_m_tt * one_m_u
  | 22%nat => (1/2) * u * one_m_ss * one_m_tt * one_p_u
  | 23%nat => -(1/2) * s_ * one_m_s * one_m_tt * one_m_uu
  | 24%nat => (1/2) * s_ * one_p_s * one_m_tt * one_m_uu
  | 25%nat => -(1/2) * t * one_m_ss * one_m_t * one_m_uu
  | 26%nat => (1/2) * t * one_m_ss * one_p_t * one_m_uu
  | _ => 0
  end.
(** Hex27CVFEM.C 421-628 hex27_shape_deriv *)
Definition hex27_deriv (s : vec) (i c : nat) : R :=
    let s_ := vx s in let t := vy s in let u := vz s in let stu := s_ * t * u in let st := s_ * t in let su :=
  s_ * u in let tu := t * u in let one_m_s := 1 - s_ in let one_p_s := 1 + s_ in let one_m_t := 1 - t in let
  one_p_t := 1 + t in let one_m_u := 1 - u in let one_p_u := 1 + u in let one_m_ss := 1 - s_ * s_ in let
  one_m_tt := 1 - t * t in let one_m_uu := 1 - u * u in let one_m_2s := 1 - 2 * s_ in let one_m_2t := 1 - 2 *
  t in let one_m_2u := 1 - 2 * u in let one_p_2s := 1 + 2 * s_ in let one_p_2t := 1 + 2 * t in let one_p_2u :=
  1 + 2 * u in
  match i, c with
  | 0%nat, 0%nat => -(1/8) * tu * one_m_2s * one_m_t * one_m_u
  | 0%nat, 1%nat => -(1/8) * su * one_m_s * one_m_2t * one_m_u
  | 0%nat, 2%nat => -(1/8) * st * one_m_s * one_m_t * one_m_2u
  | 1%nat, 0%nat => (1/8) * tu * one_p_2s * one_m_t * one_m_u
  | 1%nat, 1%nat => (1/8) * su * one_p_s * one_m_2t * one_m_u
  | 1%nat, 2%nat => (1/8) * st * one_p_s * one_m_t * one_m_2u
  | 2%nat, 0%nat => -(1/8) * tu * one_p_2s * one_p_t * one_m_u
  | 2%nat, 1%nat => -(1/8) * su * one_p_s * one_p_2t * one_m_u
  | 2%nat, 2%nat => -(1/8) * st * one_p_s * one_p_t * one_m_2u
  | 3%nat, 0%nat => (1/8) * tu * one_m_2s * one_p_t * one_m_u
  | 3%nat, 1%nat => (1/8) * su * one_m_s * one_p_2t * one_m_u
  | 3%nat, 2%nat => (1/8) * st * one_m_s * one_p_t * one_m_2u
  | 4%nat, 0%nat => (1/8) * tu * one_m_2s * one_m_t * one_p_u
  | 4%nat, 1%nat => (1/8) * su * one_m_s * one_m_2t * one_p_u
  | 4%nat, 2%nat => (1/8) * st * one_m_s * one_m_t * one_p_2u
  | 5%nat, 0%nat => -(1/8) * tu * one_p_2s * one_m_t * one_p_u
  | 5%nat, 1%nat => -(1/8) * su * one_p_s * one_m_2t * one_p_u
  | 5%nat, 2%nat => -(1/8) * st * one_p_s * one_m_t * one_p_2u
  | 6%nat, 0%nat => (1/8) * tu * one_p_2s * one_p_t * one_p_u
  | 6%nat, 1%nat => (1/8) * su * one_p_s * one_p_2t * one_p_u
  | 6%nat, 2%nat => (1/8) * st * one_p_s * one_p_t * one_p_2u
  | 7%nat, 0%nat => -(1/8) * tu * one_m_2s * one_p_t * one_p_u
  | 7%nat, 1%nat => -(1/8) * su * one_m_s * one_p_2t * one_p_u
  | 7%nat, 2%nat => -(1/8) * st * one_m_s * one_p_t * one_p_2u
  | 8%nat, 0%nat => -(1/2) * stu * one_m_t * one_m_u
  | 8%nat, 1%nat => (1/4) * u * one_m_ss * one_m_2t * one_m_u
  | 8%nat, 2%nat => (1/4) * t * one_m_ss * one_m_t * one_m_2u
  | 9%nat, 0%nat => -(1/4) * u * one_p_2s * one_m_tt * one_m_u
  | 9%nat, 1%nat => (1/2) * stu * one_p_s * one_m_u
  | 9%nat, 2%nat => -(1/4) * s_ * one_p_s * one_m_tt * one_m_2u
  | 10%nat, 0%nat => (1/2) * stu * one_p_t * one_m_u
  | 10%nat, 1%nat => -(1/4) * u * one_m_ss * one_p_2t * one_m_u
  | 10%nat, 2%nat => -(1/4) * t * one_m_ss * one_p_t * one_m_2u
  | 11%nat, 0%nat => (1/4) * u * one_m_2s * one_m_tt * one_m_u
  | 11%nat, 1%nat => -(1/2) * stu * one_m_s * one_m_u
  | 11%nat, 2%nat => (1/4) * s_ * one_m_s * one_m_tt * one_m_2u
  | 12%nat, 0%nat => (1/4) * t * one_m_2s * one_m_t * one_m_uu
  | 12%nat, 1%nat => (1/4) * s_ * one_m_s * one_m_2t * one_m_uu
  | 12%nat, 2%nat => -(1/2) * stu * one_m_s * one_m_t
  | 13%nat, 0%nat => -(1/4) * t * one_p_2s * one_m_t * one_m_uu
  | 13%nat, 1%nat => -(1/4) * s_ * one_p_s * one_m_2t * one_m_uu
  | 13%nat, 2%nat => (1/2) * stu * one_p_s * one_m_t
  | 14%nat, 0%nat => (1/4) * t * one_p_2s * one_p_t * one_m_uu
  | 14%nat, 1%nat => (1/4) * s_ * one_p_s * one_p_2t * one_m_uu
  | 14%nat, 2%nat => -(1/2) * stu * one_p_s * one_p_t
  | 15%nat, 0%nat => -(1/4) * t * one_m_2s * one_p_t * one_m_uu
  | 15%nat, 1%nat => -(1/4) * s_ * one_m_s * one_p_2t * one_m_uu
  | 15%nat, 2%nat => (1/2) * stu * one_m_s * one_p_t
  | 16%nat, 0%nat => (1/2) * stu * one_m_t * one_p_u
  | 16%nat, 1%nat => -(1/4) * u * one_m_ss * one_m_2t * one_p_u
  | 16%nat, 2%nat => -(1/4) * t * one_m_ss * one_m_t * one_p_2u
  | 17%nat, 0%nat => (1/4) * u * one_p_2s * one_m_tt * one_p_u
  | 17%nat, 1%nat => -(1/2) * stu * one_p_s * one_p_u
  | 17%nat, 2%nat => (1/4) * s_ * one_p_s * one_m_tt * one_p_2u
  | 18%nat, 0%nat => -(1/2) * stu * one_p_t * one_p_u
  | 18%nat, 1%nat => (1/4) * u * one_m_ss * one_p_2t * one_p_u
  | 18%nat, 2%nat => (1/4) * t * one_m_ss * one_p_t * one_p_2u
  | 19%nat, 0%nat => -(1/4) * u * one_m_2s * one_m_tt * one_p_u
  | 19%nat, 1%nat => (1/2) * stu * one_m_s * one_p_u
  | 19%nat, 2%nat => -(1/4) * s_ * one_m_s * one_m_tt * one_p_2u
  | 20%nat, 0%nat => -2 * s_ * one_m_tt * one_m_uu
  | 20%nat, 1%nat => -2 * t * one_m_ss * one_m_uu
  | 20%nat, 2%nat => -2 * u * one_m_ss * one_m_tt
  | 21%nat, 0%nat => su * one_m_tt * one_m_u
  | 21%nat, 1%nat => tu * one_m_ss * one_m_u
  | 21%nat, 2%nat => -(1/2) * one_m_ss * one_m_tt * one_m_2u
  | 22%nat, 0%nat => -su * one_m_tt * one_p_u
  | 22%nat, 1%nat => -tu * one_m_ss * one_p_u
  | 22%nat, 2%nat => (1/2) * one_m_ss * one_m_tt * one_p_2u
  | 23%nat, 0%nat => -(1/2) * one_m_2s * one_m_tt * one_m_uu
  | 23%nat, 1%nat => st * one_m_s * one_m_uu
  | 23%nat, 2%nat => su * one_m_s * one_m_tt
  | 24%nat, 0%nat => (1/2) * one_p_2s * one_m_tt * one_m_uu
  | 24%nat, 1%nat => -st * one_p_s * one_m_uu
  | 24%nat, 2%nat => -su * one_p_s * one_m_tt
  | 25%nat, 0%nat => st * one_m_t * one_m_uu
  | 25%nat, 1%nat => -(1/2) * one_m_ss * one_m_2t * one_m_uu
  | 25%nat, 2%nat => tu * one_m_ss * one_m_t
  | 26%nat, 0%nat => -st * one_p_t * one_m_uu
  | 26%nat, 1%nat => (1/2) * one_m_ss * one_p_2t * one_m_uu
  | 26%nat, 2%nat => -tu * one_m_ss * one_p_t
  | _, _ => 0
  end.


(** MasterElement.C 1090-1106: Edge2DSCS::general_shape_fcn. *)
Definition edge2_shape (s : vec) (i : nat) : R :=
  match i with 0%nat => 1/2 * (1 - vx s) | 1%nat => 1/2 * (1 + vx s) | _ => 0 end.

(** ** interpolatePoint *)
(** Quad42DCVFEM.C 981-1001 (Quad43DCVFEM.C the same). *)
Definition quad4_interpolate (s : vec) (f : nat -> R) : R :=
  let xi := vx s in let eta := vy s in
  1/4 * ((1-eta) * (1-xi) * f 0%nat + (1-eta) * (1+xi) * f 1%nat + (1+eta) * (1+xi) * f 2%nat
         + (1+eta) * (1-xi) * f 3%nat).
(** Hex8CVFEM.C 1084-1117. *)
Definition hex8_interpolate (s : vec) (f : nat -> R) : R :=
  let xi := vx s in let eta := vy s in let zeta := vz s in
  1/8 * ((1 - xi) * (1 - eta) * (1 - zeta) * f 0%nat + (1 + xi) * (1 - eta) * (1 - zeta) * f 1%nat
       + (1 + xi) * (1 + eta) * (1 - zeta) * f 2%nat + (1 - xi) * (1 + eta) * (1 - zeta) * f 3%nat
       + (1 - xi) * (1 - eta) * (1 + zeta) * f 4%nat + (1 + xi) * (1 - eta) * (1 + zeta) * f 5%nat
       + (1 + xi) * (1 + eta) * (1 + zeta) * f 6%nat + (1 - xi) * (1 + eta) * (1 + zeta) * f 7%nat).
(** Tet4CVFEM.C 950-972. *)
Definition tet4_interpolate (s : vec) (f : nat -> R) : R :=
  let psi1 := 1 - vx s - vy s - vz s in
  f 0%nat * psi1 + f 1%nat * vx s + f 2%nat * vy s + f 3%nat * vz s.
(** Wed6CVFEM.C 1126-1146. *)
Definition wed6_interpolate (s : vec) (f : nat -> R) : R :=
  fold_left (fun acc j => acc + wed6_shape s j * f j) [0;1;2;3;4;5]%nat 0.
(** Pyr5CVFEM.C 1169-1189. *)
Definition pyr5_interpolate (s : vec) (f : nat -> R) : R :=
  let u := pyr5_shape s in
  u 0%nat * f 0%nat + u 1%nat * f 1%nat + u 2%nat * f 2%nat + u 3%nat * f 3%nat + u 4%nat * f 4%nat.
(** MasterElement.C 833-850 (Tri3DSCS) and Tri32DCVFEM.C 976-994. *)
Definition tri3_interpolate (s : vec) (f : nat -> R) : R :=
  let r := vx s in let s' := vy s in let t := 1 - r - s' in
  t * f 0%nat + r * f 1%nat + s' * f 2%nat.
(** MasterElement.C 1049-1064: Edge2DSCS::interpolatePoint. *)
Definition edge2_interpolate (s : vec) (f : nat -> R) : R :=
  1/2 * (1 - vx s) * f 0%nat + 1/2 * (1 + vx s) * f 1%nat.
(** Tet10FEM.C 443-473: Tet10FEM::interpolatePoint. *)
Definition tet10_interpolate (s : vec) (f : nat -> R) : R :=
  let s1 := vx s in let s2 := vy s in let s3 := vz s in
  (1-2*s1-2*s2-2*s3)*(1-s1-s2-s3)*f 0%nat + s1*(2*s1-1)*f 1%nat + s2*(2*s2-1)*f 2%nat
  + s3*(2*s3-1)*f 3%nat + 4*s1*(1-s1-s2-s3)*f 4%nat + 4*s1*s2*f 5%nat + 4*s2*(1-s1-s2-s3)*f 6%nat
  + 4*s3*(1-s1-s2-s3)*f 7%nat + 4*s1*s3*f 8%nat + 4*s3*s2*f 9%nat.

(** MasterElement.C 99-103 and Hex27CVFEM.C 33-44: stkNodeMap_ (tensor-product index to node). *)
Definition quad9_node_map : list nat := [0;4;1; 7;8;5; 3;6;2]%nat.
Definition hex27_node_map : list nat :=
  [ 0;8;1; 11;21;9; 3;10;2; 12;25;13; 23;20;24; 15;26;14; 4;16;5; 19;22;17; 7;18;6 ]%nat.
(** Side node tables of the quadratic elements: MasterElement.C 105-110, Hex27CVFEM.C 46-53,
    Tet10FEM.C 158-161. *)
Definition quad9_side_nodes : list (list nat) := [[0;1;4];[1;2;5];[2;3;6];[3;0;7]]%nat.
Definition hex27_side_nodes : list (list nat) :=
  [ [0;1;5;4;8;13;16;12;25]; [1;2;6;5;9;14;17;13;24]; [2;3;7;6;10;15;18;14;26];
    [0;4;7;3;12;19;15;11;23]; [0;3;2;1;11;10;9;8;21]; [4;5;6;7;16;17;18;19;22] ]%nat.
Definition tet10_side_nodes : list (list nat) :=
  [ [0;1;3;4;8;7]; [1;2;3;5;9;8]; [0;3;2;7;9;6]; [0;2;1;6;5;4] ]%nat.
