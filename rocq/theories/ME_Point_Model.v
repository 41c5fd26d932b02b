(** * Master elements, part 3: finding the parametric coordinates of a point (isInElement)

    The nodal coordinates [elemNodalCoord] (component-major in the source) are a function from the
    node number to a [vec]; planar elements ignore the third component.  Reals instead of doubles;
    where the source divides by a zero determinant (giving inf/nan, after which no convergence test
    can succeed) the step is [None] and the search reports failure. *)
From Coq Require Import Reals List Arith.
From Verif Require Import ME_Model ME_Shape_Model.
From Verif Require Tensor_Model.
Import ListNotations.
Local Open Scope R_scope.

(** std::numeric_limits<double>::max() *)
Definition dbl_max : R := 2^1024 - 2^971.
(** MasterElement.C 63-83 within_tolerance / vector_norm_sq; isInElemConverged = 1.0e-16 *)
Definition converged_tol : R := 1 / 10^16.
Definition norm_sq (v : vec) : R := vx v * vx v + vy v * vy v + vz v * vz v.
Definition within_tolerance (v : R) : bool := if Rlt_dec (Rabs v) converged_tol then true else false.
(** The do/while loop common to all of them ("} while (!converged && ++i < maxIter)"): at most
    [fuel] steps; the result is the last two iterates if the last step was smaller than the
    tolerance, [None] if the iteration limit was reached. *)
Fixpoint newton (step : vec -> option vec) (fuel : nat) (cur : vec) : option (vec * vec) :=
  match fuel with
  | O => None
  | S n => match step cur with
           | None => None
           | Some nw => if within_tolerance (norm_sq (vsub nw cur)) then Some (cur, nw) else newton step n nw
           end
  end.
(** What isInElement hands back: the returned distance and isoParCoord. *)
Record found := { f_dist : R; f_par : vec }.
Definition report (bad : R) (dist : vec -> R) (r : option (vec * vec)) : found :=
  match r with
  | None => {| f_dist := bad; f_par := V bad bad bad |}
  | Some (_, s) => {| f_dist := dist s; f_par := s |}
  end.

(** ** parametric_distance *)
(** Tet4CVFEM.C 1065-1077, Tet10FEM.C 655-666 *)
Definition tet_dist (x : vec) : R :=
  let X := vx x - 1/4 in let Y := vy x - 1/4 in let Z := vz x - 1/4 in
  Rmax (Rmax (-4*X) (-4*Y)) (Rmax (-4*Z) (4*(X+Y+Z))).
(** Tri32DCVFEM.C 959-971 tri_parametric_distance *)
Definition tri_dist (x : vec) : R :=
  let X := vx x - 1/3 in let Y := vy x - 1/3 in Rmax (Rmax (-3*X) (-3*Y)) (3*(X+Y)).
(** MasterElement.C 816-830 Tri3DSCS::parametric_distance, ELEM_THICK = 0.01 *)
Definition tri3d_dist (x : vec) : R :=
  let dist := tri_dist x in let y := Rabs (vz x) in
  if Rlt_dec (1/100) y then if Rlt_dec dist (1 + y) then 1 + y else dist else dist.
(** MasterElement.C 1028-1035 Edge2DSCS::parametric_distance, elemThickness_ = 0.01 (line 899) *)
Definition edge_dist (x0 x1 : R) : R :=
  let dist := Rabs x0 in
  if Rlt_dec (1/100) x1 then if Rlt_dec dist (1 + x1) then 1 + x1 else dist else dist.
(** Quad42DCVFEM.C 970-971, MasterElement.C 363-368 *)
Definition quad_dist (x : vec) : R :=
  if Rlt_dec (Rabs (vy x)) (Rabs (vx x)) then Rabs (vx x) else Rabs (vy x).
(** Hex8CVFEM.C 1240-1254, Hex27CVFEM.C 76-91: "if (d < y[i]) d = y[i]" for i = 0, 1, 2 *)
Definition upd (d y : R) : R := if Rlt_dec d y then y else d.
Definition hex_dist (x : vec) : R := upd (upd (upd 0 (Rabs (vx x))) (Rabs (vy x))) (Rabs (vz x)).
(** Wed6CVFEM.C 1175-1198 *)
Definition wed_dist (x : vec) : R :=
  let X := vx x - 1/3 in let Y := vy x - 1/3 in
  let dist_t := Rmax (Rmax (-3*X) (-3*Y)) (3*(X+Y)) in Rmax (Rabs (vz x)) dist_t.
(** Pyr5CVFEM.C 1156-1165 *)
Definition pyr_dist (x : vec) : R :=
  let Z := vz x - 1/3 in
  Rmax ((3/2) * (Z + Rmax (Rabs (vx x)) (Rabs (vy x)))) (-3*Z).
(** Quad43DCVFEM.C 345-359 (elemThickness_ = 0.1, line 22), Hex27CVFEM.C 2440-2448 (ELEM_THICK = 0.01) *)
Definition face_dist (thick : R) (x : vec) : R :=
  let d := upd (Rabs (vx x)) (Rabs (vy x)) in
  if Rlt_dec thick (Rabs (vz x)) then if Rlt_dec d (1 + Rabs (vz x)) then 1 + Rabs (vz x) else d else d.

(** ** Elements with a closed formula *)
(** Tet4CVFEM.C 882-945 TetSCS::isInElement *)
Definition tet_is_in_element (e : nat -> vec) (p : vec) : option found :=
  let x1 := vx (e 0%nat) in let x2 := vx (e 1%nat) in let x3 := vx (e 2%nat) in let x4 := vx (e 3%nat) in
  let y1 := vy (e 0%nat) in let y2 := vy (e 1%nat) in let y3 := vy (e 2%nat) in let y4 := vy (e 3%nat) in
  let z1 := vz (e 0%nat) in let z2 := vz (e 1%nat) in let z3 := vz (e 2%nat) in let z4 := vz (e 3%nat) in
  let det := (x2 - x1)*((y3 - y1)*(z4 - z1) - (y4 - y1)*(z3 - z1)) -
             (x3 - x1)*((y2 - y1)*(z4 - z1) - (y4 - y1)*(z2 - z1)) +
             (x4 - x1)*((y2 - y1)*(z3 - z1) - (y3 - y1)*(z2 - z1)) in
  let m11 := y3*z4 - y1*z4 - y4*z3+y1*z3+y4*z1 - y3*z1 in
  let m12 := - (x3*z4 - x1*z4 - x4*z3+x1*z3+x4*z1 - x3*z1) in
  let m13 := x3*y4 - x1*y4 - x4*y3+x1*y3+x4*y1 - x3*y1 in
  let m21 := - (y2*z4 - y1*z4 - y4*z2+y1*z2+y4*z1 - y2*z1) in
  let m22 := x2*z4 - x1*z4 - x4*z2+x1*z2+x4*z1 - x2*z1 in
  let m23 := - (x2*y4 - x1*y4 - x4*y2+x1*y2+x4*y1 - x2*y1) in
  let m31 := y2*z3 - y1*z3 - y3*z2+y1*z2+y3*z1 - y2*z1 in
  let m32 := - (x2*z3 - x1*z3 - x3*z2+x1*z2+x3*z1 - x2*z1) in
  let m33 := x2*y3 - x1*y3 - x3*y2+x1*y2+x3*y1 - x2*y1 in
  let xx1 := vx p - x1 in let yy1 := vy p - y1 in let zz1 := vz p - z1 in
  if Req_EM_T det 0 then None else
  let invDet := 1/det in
  let s := V (invDet*(m11*xx1 + m12*yy1 + m13*zz1))
             (invDet*(m21*xx1 + m22*yy1 + m23*zz1))
             (invDet*(m31*xx1 + m32*yy1 + m33*zz1)) in
  Some {| f_dist := tet_dist s; f_par := s |}.

(** Tri32DCVFEM.C 878-953 Tri32DSCS::isInElement; [None] where it divides by zero (len12, len13 or
    the area) *)
Definition tri2d_is_in_element (e : nat -> vec) (p : vec) : option found :=
  let xa := vx (e 1%nat) - vx (e 0%nat) in let xb := vx (e 2%nat) - vx (e 0%nat) in
  let ya := vy (e 1%nat) - vy (e 0%nat) in let yb := vy (e 2%nat) - vy (e 0%nat) in
  let xp := vx p - vx (e 0%nat) in let yp := vy p - vy (e 0%nat) in
  let len12 := sqrt (xa*xa + ya*ya) in let len13 := sqrt (xb*xb + yb*yb) in
  let crs := xa*yb - xb*ya in
  let Area2 := sqrt (crs*crs) in
  if Req_EM_T Area2 0 then None else
  let sin_theta := Area2 / (len12 * len13) in
  let cos_theta := (xa*xb + ya*yb)/(len12 * len13) in
  let x_nod_new0 := len12 in let x_nod_new1 := len13*cos_theta in
  let y_nod_new1 := len13*sin_theta in
  let xnew0 := xa/len12 in let xnew1 := ya/len12 in
  let ynew0 := - xnew1 in let ynew1 := xnew0 in
  let xpnew := xnew0*xp + xnew1*yp in
  let ypnew := ynew0*xp + ynew1*yp in
  let w0 := 1 - xpnew / x_nod_new0 + ypnew*(x_nod_new1 - x_nod_new0) / Area2 in
  let w1 := (xpnew*y_nod_new1 - ypnew*x_nod_new1) / Area2 in
  Some {| f_dist := tri_dist (V w0 w1 0); f_par := V w1 (1 - w0 - w1) 0 |}.

(** MasterElement.C 718-812 Tri3DSCS::isInElement *)
Definition tri3d_is_in_element (e : nat -> vec) (p : vec) : option found :=
  let xa := vx (e 1%nat) - vx (e 0%nat) in let xb := vx (e 2%nat) - vx (e 0%nat) in
  let ya := vy (e 1%nat) - vy (e 0%nat) in let yb := vy (e 2%nat) - vy (e 0%nat) in
  let za := vz (e 1%nat) - vz (e 0%nat) in let zb := vz (e 2%nat) - vz (e 0%nat) in
  let xp := vx p - vx (e 0%nat) in let yp := vy p - vy (e 0%nat) in let zp := vz p - vz (e 0%nat) in
  let len12 := sqrt (xa*xa + ya*ya + za*za) in let len13 := sqrt (xb*xb + yb*yb + zb*zb) in
  let zn0 := ya*zb - yb*za in let zn1 := xb*za - xa*zb in let zn2 := xa*yb - xb*ya in
  let Area2 := sqrt (zn0*zn0 + zn1*zn1 + zn2*zn2) in
  if Req_EM_T Area2 0 then None else
  let sin_theta := Area2 / (len12 * len13) in
  let cos_theta := (xa*xb + ya*yb + za*zb)/(len12 * len13) in
  let x_nod_new0 := len12 in let x_nod_new1 := len13*cos_theta in
  let y_nod_new1 := len13*sin_theta in
  let xnew0 := xa/len12 in let xnew1 := ya/len12 in let xnew2 := za/len12 in
  let znew0 := zn0/Area2 in let znew1 := zn1/Area2 in let znew2 := zn2/Area2 in
  let ynew0 := znew1*xnew2 - xnew1*znew2 in
  let ynew1 := xnew0*znew2 - znew0*xnew2 in
  let ynew2 := znew0*xnew1 - xnew0*znew1 in
  let xpnew := xnew0*xp + xnew1*yp + xnew2*zp in
  let ypnew := ynew0*xp + ynew1*yp + ynew2*zp in
  let zpnew := znew0*xp + znew1*yp + znew2*zp in
  let w0 := 1 - xpnew / x_nod_new0 + ypnew*(x_nod_new1 - x_nod_new0) / Area2 in
  let w1 := (xpnew*y_nod_new1 - ypnew*x_nod_new1) / Area2 in
  let w2 := zpnew / sqrt Area2 in
  Some {| f_dist := tri3d_dist (V w0 w1 w2); f_par := V w1 (1 - w0 - w1) w2 |}.

(** MasterElement.C 987-1023 Edge2DSCS::isInElement (nDim_ = 2: the second coordinate is alpha) *)
Definition edge2d_is_in_element (e : nat -> vec) (p : vec) : option found :=
  let X1 := vx (e 1%nat) - vx (e 0%nat) in let X2 := vy (e 1%nat) - vy (e 0%nat) in
  let P1 := vx p - vx (e 0%nat) in let P2 := vy p - vy (e 0%nat) in
  let norm2 := X1*X1 + X2*X2 in
  if Req_EM_T norm2 0 then None else
  let xi := (P1*X1 + P2*X2) / norm2 in
  let alpha := Rabs (P1*X2 - P2*X1) / norm2 in
  Some {| f_dist := edge_dist (2*xi - 1) alpha; f_par := V (2*xi - 1) alpha 0 |}.

(** ** Quad4 in the plane *)
(** Quad42DCVFEM.C 895-899, 926-942: the Jacobian j[0..3] at the current guess *)
Definition quad42d_jac (e : nat -> vec) (s : vec) (k : nat) : R :=
  let xi := vx s in let eta := vy s in
  let x1 := vx (e 1%nat) - vx (e 0%nat) in
  let x2 := vx (e 2%nat) - vx (e 0%nat) in
  let x3 := vx (e 3%nat) - vx (e 0%nat) in
  let y1 := vy (e 1%nat) - vy (e 0%nat) in
  let y2 := vy (e 2%nat) - vy (e 0%nat) in
  let y3 := vy (e 3%nat) - vy (e 0%nat) in
  match k with
  | 0%nat => (1/4)*(1-eta)*x1 +(1/4)*(1+eta)*x2 -(1/4)*(1+eta)*x3
  | 1%nat => -(1/4)*(1+xi)*x1 +(1/4)*(1+xi)*x2 +(1/4)*(1-xi)*x3
  | 2%nat => (1/4)*(1-eta)*y1 +(1/4)*(1+eta)*y2 -(1/4)*(1+eta)*y3
  | 3%nat => -(1/4)*(1+xi)*y1 +(1/4)*(1+xi)*y2 +(1/4)*(1-xi)*y3
  | _ => 0
  end.

(** Quad42DCVFEM.C 904-907, 946-953: the residual f[0..1] *)
Definition quad42d_res (e : nat -> vec) (p s : vec) (k : nat) : R :=
  let xi := vx s in let eta := vy s in
  let x1 := vx (e 1%nat) - vx (e 0%nat) in
  let x2 := vx (e 2%nat) - vx (e 0%nat) in
  let x3 := vx (e 3%nat) - vx (e 0%nat) in
  let y1 := vy (e 1%nat) - vy (e 0%nat) in
  let y2 := vy (e 2%nat) - vy (e 0%nat) in
  let y3 := vy (e 3%nat) - vy (e 0%nat) in
  let xp := vx p - vx (e 0%nat) in let yp := vy p - vy (e 0%nat) in
  let shapefct0 := (1/4)*(1-eta)*(1-xi) in
  let shapefct1 := (1/4)*(1-eta)*(1+xi) in
  let shapefct2 := (1/4)*(1+eta)*(1+xi) in
  let shapefct3 := (1/4)*(1+eta)*(1-xi) in
  match k with
  | 0%nat => (shapefct1*x1+shapefct2*x2+shapefct3*x3) - xp
  | 1%nat => (shapefct1*y1+shapefct2*y2+shapefct3*y3) - yp
  | _ => 0
  end.

(** Quad42DCVFEM.C 944, 955-956: the Newton update *)
Definition quad42d_update (J f : nat -> R) (s : vec) : option vec :=
  let xi := vx s in let eta := vy s in let j0 := J 0%nat in let j1 := J 1%nat in let j2 := J 2%nat in let j3 := J 3%nat in let f0 := f 0%nat in let f1 := f 1%nat in
  let jdet := j0*j3 - j1*j2 in
  if Req_EM_T jdet 0 then None else Some (V (xi - ( f0*j3 - f1*j1)/jdet) (eta - (-f0*j2 + f1*j0)/jdet) 0).

(** ** Hex8 *)
(** Hex8CVFEM.C 884-908, 929-1011: the matrix j[0..8] (minus the Jacobian) at the current guess *)
Definition hex8_jac (e : nat -> vec) (s : vec) (k : nat) : R :=
  let xi := vx s in let eta := vy s in let zeta := vz s in
  let x1 := (1/8)*(vx (e 1%nat) - vx (e 0%nat)) in
  let x2 := (1/8)*(vx (e 2%nat) - vx (e 0%nat)) in
  let x3 := (1/8)*(vx (e 3%nat) - vx (e 0%nat)) in
  let x4 := (1/8)*(vx (e 4%nat) - vx (e 0%nat)) in
  let x5 := (1/8)*(vx (e 5%nat) - vx (e 0%nat)) in
  let x6 := (1/8)*(vx (e 6%nat) - vx (e 0%nat)) in
  let x7 := (1/8)*(vx (e 7%nat) - vx (e 0%nat)) in
  let y1 := (1/8)*(vy (e 1%nat) - vy (e 0%nat)) in
  let y2 := (1/8)*(vy (e 2%nat) - vy (e 0%nat)) in
  let y3 := (1/8)*(vy (e 3%nat) - vy (e 0%nat)) in
  let y4 := (1/8)*(vy (e 4%nat) - vy (e 0%nat)) in
  let y5 := (1/8)*(vy (e 5%nat) - vy (e 0%nat)) in
  let y6 := (1/8)*(vy (e 6%nat) - vy (e 0%nat)) in
  let y7 := (1/8)*(vy (e 7%nat) - vy (e 0%nat)) in
  let z1 := (1/8)*(vz (e 1%nat) - vz (e 0%nat)) in
  let z2 := (1/8)*(vz (e 2%nat) - vz (e 0%nat)) in
  let z3 := (1/8)*(vz (e 3%nat) - vz (e 0%nat)) in
  let z4 := (1/8)*(vz (e 4%nat) - vz (e 0%nat)) in
  let z5 := (1/8)*(vz (e 5%nat) - vz (e 0%nat)) in
  let z6 := (1/8)*(vz (e 6%nat) - vz (e 0%nat)) in
  let z7 := (1/8)*(vz (e 7%nat) - vz (e 0%nat)) in
  match k with
  | 0%nat => -(1-eta)*(1-zeta)*x1 -(1+eta)*(1-zeta)*x2 +(1+eta)*(1-zeta)*x3 +(1-eta)*(1+zeta)*x4 -(1-eta)*(1+zeta)*x5 -(1+eta)*(1+zeta)*x6 +(1+eta)*(1+zeta)*x7
  | 1%nat => (1+xi)*(1-zeta)*x1 -(1+xi)*(1-zeta)*x2 -(1-xi)*(1-zeta)*x3 +(1-xi)*(1+zeta)*x4 +(1+xi)*(1+zeta)*x5 -(1+xi)*(1+zeta)*x6 -(1-xi)*(1+zeta)*x7
  | 2%nat => (1-eta)*(1+xi)*x1 +(1+eta)*(1+xi)*x2 +(1+eta)*(1-xi)*x3 -(1-eta)*(1-xi)*x4 -(1-eta)*(1+xi)*x5 -(1+eta)*(1+xi)*x6 -(1+eta)*(1-xi)*x7
  | 3%nat => -(1-eta)*(1-zeta)*y1 -(1+eta)*(1-zeta)*y2 +(1+eta)*(1-zeta)*y3 +(1-eta)*(1+zeta)*y4 -(1-eta)*(1+zeta)*y5 -(1+eta)*(1+zeta)*y6 +(1+eta)*(1+zeta)*y7
  | 4%nat => (1+xi)*(1-zeta)*y1 -(1+xi)*(1-zeta)*y2 -(1-xi)*(1-zeta)*y3 +(1-xi)*(1+zeta)*y4 +(1+xi)*(1+zeta)*y5 -(1+xi)*(1+zeta)*y6 -(1-xi)*(1+zeta)*y7
  | 5%nat => (1-eta)*(1+xi)*y1 +(1+eta)*(1+xi)*y2 +(1+eta)*(1-xi)*y3 -(1-eta)*(1-xi)*y4 -(1-eta)*(1+xi)*y5 -(1+eta)*(1+xi)*y6 -(1+eta)*(1-xi)*y7
  | 6%nat => -(1-eta)*(1-zeta)*z1 -(1+eta)*(1-zeta)*z2 +(1+eta)*(1-zeta)*z3 +(1-eta)*(1+zeta)*z4 -(1-eta)*(1+zeta)*z5 -(1+eta)*(1+zeta)*z6 +(1+eta)*(1+zeta)*z7
  | 7%nat => (1+xi)*(1-zeta)*z1 -(1+xi)*(1-zeta)*z2 -(1-xi)*(1-zeta)*z3 +(1-xi)*(1+zeta)*z4 +(1+xi)*(1+zeta)*z5 -(1+xi)*(1+zeta)*z6 -(1-xi)*(1+zeta)*z7
  | 8%nat => (1-eta)*(1+xi)*z1 +(1+eta)*(1+xi)*z2 +(1+eta)*(1-xi)*z3 -(1-eta)*(1-xi)*z4 -(1-eta)*(1+xi)*z5 -(1+eta)*(1+xi)*z6 -(1+eta)*(1-xi)*z7
  | _ => 0
  end.

(** Hex8CVFEM.C 913-915, 1020-1043: the residual f[0..2] *)
Definition hex8_res (e : nat -> vec) (p s : vec) (k : nat) : R :=
  let xi := vx s in let eta := vy s in let zeta := vz s in
  let x1 := (1/8)*(vx (e 1%nat) - vx (e 0%nat)) in
  let x2 := (1/8)*(vx (e 2%nat) - vx (e 0%nat)) in
  let x3 := (1/8)*(vx (e 3%nat) - vx (e 0%nat)) in
  let x4 := (1/8)*(vx (e 4%nat) - vx (e 0%nat)) in
  let x5 := (1/8)*(vx (e 5%nat) - vx (e 0%nat)) in
  let x6 := (1/8)*(vx (e 6%nat) - vx (e 0%nat)) in
  let x7 := (1/8)*(vx (e 7%nat) - vx (e 0%nat)) in
  let y1 := (1/8)*(vy (e 1%nat) - vy (e 0%nat)) in
  let y2 := (1/8)*(vy (e 2%nat) - vy (e 0%nat)) in
  let y3 := (1/8)*(vy (e 3%nat) - vy (e 0%nat)) in
  let y4 := (1/8)*(vy (e 4%nat) - vy (e 0%nat)) in
  let y5 := (1/8)*(vy (e 5%nat) - vy (e 0%nat)) in
  let y6 := (1/8)*(vy (e 6%nat) - vy (e 0%nat)) in
  let y7 := (1/8)*(vy (e 7%nat) - vy (e 0%nat)) in
  let z1 := (1/8)*(vz (e 1%nat) - vz (e 0%nat)) in
  let z2 := (1/8)*(vz (e 2%nat) - vz (e 0%nat)) in
  let z3 := (1/8)*(vz (e 3%nat) - vz (e 0%nat)) in
  let z4 := (1/8)*(vz (e 4%nat) - vz (e 0%nat)) in
  let z5 := (1/8)*(vz (e 5%nat) - vz (e 0%nat)) in
  let z6 := (1/8)*(vz (e 6%nat) - vz (e 0%nat)) in
  let z7 := (1/8)*(vz (e 7%nat) - vz (e 0%nat)) in
  let xp := vx p - vx (e 0%nat) in let yp := vy p - vy (e 0%nat) in let zp := vz p - vz (e 0%nat) in
  let shapefct0 := (1-eta)*(1-xi)*(1-zeta) in
  let shapefct1 := (1-eta)*(1+xi)*(1-zeta) in
  let shapefct2 := (1+eta)*(1+xi)*(1-zeta) in
  let shapefct3 := (1+eta)*(1-xi)*(1-zeta) in
  let shapefct4 := (1-eta)*(1-xi)*(1+zeta) in
  let shapefct5 := (1-eta)*(1+xi)*(1+zeta) in
  let shapefct6 := (1+eta)*(1+xi)*(1+zeta) in
  let shapefct7 := (1+eta)*(1-xi)*(1+zeta) in
  match k with
  | 0%nat => xp-shapefct1*x1-shapefct2*x2-shapefct3*x3-shapefct4*x4- shapefct5*x5-shapefct6*x6-shapefct7*x7
  | 1%nat => yp-shapefct1*y1-shapefct2*y2-shapefct3*y3-shapefct4*y4- shapefct5*y5-shapefct6*y6-shapefct7*y7
  | 2%nat => zp-shapefct1*z1-shapefct2*z2-shapefct3*z3-shapefct4*z4- shapefct5*z5-shapefct6*z6-shapefct7*z7
  | _ => 0
  end.

(** Hex8CVFEM.C 1013-1019, 1045-1052: determinant test and Newton update *)
Definition hex8_update (J f : nat -> R) (s : vec) : option vec :=
  let xi := vx s in let eta := vy s in let zeta := vz s in let j0 := J 0%nat in let j1 := J 1%nat in let j2 := J 2%nat in let j3 := J 3%nat in let j4 := J 4%nat in let j5 := J 5%nat in let j6 := J 6%nat in let j7 := J 7%nat in let j8 := J 8%nat in 
  let f0 := f 0%nat in let f1 := f 1%nat in let f2 := f 2%nat in
  let jdet := -(j2*j4*j6)+j1*j5*j6+j2*j3*j7- j0*j5*j7-j1*j3*j8+j0*j4*j8 in
  if Req_EM_T jdet 0 then None else
  Some (V ((jdet*xi+f2*(j2*j4-j1*j5)-f1*j2*j7+f0*j5*j7+ f1*j1*j8-f0*j4*j8)/jdet)
          ((eta*jdet+f2*(-(j2*j3)+j0*j5)+f1*j2*j6-f0*j5*j6- f1*j0*j8+f0*j3*j8)/jdet)
          ((jdet*zeta+f2*(j1*j3-j0*j4)-f1*j1*j6+ f0*j4*j6+f1*j0*j7-f0*j3*j7)/jdet)).

(** ** Quadrilateral faces in space *)
(** Quad43DCVFEM.C 302-343 Quad3DSCS::non_unit_face_normal (the text of Hex27CVFEM.C 2395-2436
    Quad93DSCS::non_unit_face_normal is the same; it reads the four corner nodes) *)
Definition face_normal (e : nat -> vec) (s : vec) : vec :=
  let xi := vx s in let eta := vy s in
  let x0 := vx (e 1%nat) - vx (e 0%nat) in
  let x1 := vx (e 2%nat) - vx (e 0%nat) in
  let x2 := vx (e 3%nat) - vx (e 0%nat) in
  let y0 := vy (e 1%nat) - vy (e 0%nat) in
  let y1 := vy (e 2%nat) - vy (e 0%nat) in
  let y2 := vy (e 3%nat) - vy (e 0%nat) in
  let z0 := vz (e 1%nat) - vz (e 0%nat) in
  let z1 := vz (e 2%nat) - vz (e 0%nat) in
  let z2 := vz (e 3%nat) - vz (e 0%nat) in
  V ((1/8)*(xi*y2*z0+y0*z1+xi*y0*z1-y2*z1- xi*y0*z2+y1*(-((1+xi)*z0)+ (1+eta)*z2)+eta*(y2*z0-y2*z1-y0*z2)))
    ((1/8)*(-(xi*x2*z0)-x0*z1-xi*x0*z1+x2*z1+ xi*x0*z2+x1*((1+xi)*z0- (1+eta)*z2)+eta*(-(x2*z0)+x2*z1+x0*z2)))
    ((1/8)*(xi*x2*y0+x0*y1+xi*x0*y1-x2*y1- xi*x0*y2+x1*(-((1+xi)*y0)+ (1+eta)*y2)+eta*(x2*y0-x2*y1-x0*y2))).

(** Quad43DCVFEM.C 222-256 / Hex27CVFEM.C 2164-2186 (the same text): the Jacobian of
    x(xi,eta) + d n(xi,eta) - p *)
Definition face_jac (e : nat -> vec) (s : vec) (k : nat) : R :=
  let xi := vx s in let eta := vy s in let d := vz s in
  let x0 := vx (e 1%nat) - vx (e 0%nat) in
  let x1 := vx (e 2%nat) - vx (e 0%nat) in
  let x2 := vx (e 3%nat) - vx (e 0%nat) in
  let y0 := vy (e 1%nat) - vy (e 0%nat) in
  let y1 := vy (e 2%nat) - vy (e 0%nat) in
  let y2 := vy (e 3%nat) - vy (e 0%nat) in
  let z0 := vz (e 1%nat) - vz (e 0%nat) in
  let z1 := vz (e 2%nat) - vz (e 0%nat) in
  let z2 := vz (e 3%nat) - vz (e 0%nat) in
  let n := face_normal e s in
  match k with
  | 0%nat => (1/8)*(-2*(-1+eta)*x0 +(2*(1+eta)*(x1-x2)+d *(-(y1*z0)+y2*z0+y0*z1-y0*z2)))
  | 1%nat => (1/8)*(-2*(1+xi)*x0 +2*(1+xi)*x1-2 *(-1+xi)*x2+(d*(y2*(z0-z1)+(-y0+y1)*z2)))
  | 2%nat => vx n
  | 3%nat => (1/8)*(-2*(-1+eta)*y0 +(2*(1+eta)*(y1-y2) +d*(x1*z0-x2*z0-x0*z1+x0*z2)))
  | 4%nat => (1/8)*(-2*(1+xi)*y0 +2*(1+xi)*y1 -2*(-1+xi)*y2+(d*(x2*(-z0+z1)+(x0-x1)*z2)))
  | 5%nat => vy n
  | 6%nat => (1/8)*((d*(-(x1*y0)+x2*y0+x0*y1-x0*y2)) -2*((-1+eta)*z0 -(1+eta)*(z1-z2)))
  | 7%nat => (1/8)*((d*(x2*(y0-y1)+(-x0+x1)*y2)) -2*(1+xi)*z0+2 *(1+xi)*z1-2*(-1+xi)*z2)
  | 8%nat => vz n
  | _ => 0
  end.

(** Quad43DCVFEM.C 205-217 / Hex27CVFEM.C 2147-2160: the residual; [X] is interpolatePoint of the
    nodal coordinates *)
Definition face_res (X : vec -> vec) (e : nat -> vec) (p s : vec) (k : nat) : R :=
  let xcur := vsub (X s) (e 0%nat) in let n := face_normal e s in let q := vsub p (e 0%nat) in
  match k with
  | 0%nat => vx xcur - vx q + vz s * vx n
  | 1%nat => vy xcur - vy q + vz s * vy n
  | 2%nat => vz xcur - vz q + vz s * vz n
  | _ => 0
  end.

(** Quad43DCVFEM.C 258-268 / Hex27CVFEM.C 2190-2203: deltasol, added to solcur *)
Definition face_update (J gn : nat -> R) (s : vec) : option vec :=
  let j0 := J 0%nat in let j1 := J 1%nat in let j2 := J 2%nat in let j3 := J 3%nat in let j4 := J 4%nat in let j5 := J 5%nat in let j6 := J 6%nat in let j7 := J 7%nat in let j8 := J 8%nat in let gn0 := gn 0%nat in let gn1 := gn 1%nat in let gn2 := gn 2%nat in
  let jdet := -(j2*j4*j6)+j1*j5*j6+j2*j3*j7- j0*j5*j7-j1*j3*j8+j0*j4*j8 in
  if Req_EM_T jdet 0 then None else
  Some (vadd s (V ((gn2*(j2*j4-j1*j5)+gn1*(-(j2*j7)+ j1*j8)+gn0*(j5*j7-j4*j8))/jdet)
                  ((gn2*(-(j2*j3)+j0*j5)+gn1*(j2*j6- j0*j8)+gn0*(-(j5*j6)+j3*j8))/jdet)
                  ((gn2*(j1*j3-j0*j4)+gn1*(-(j1*j6)+ j0*j7)+gn0*(j4*j6-j3*j7))/jdet))).
(** ** Elements that iterate on their own shape functions *)
(** interpolation of the coordinates, and the Jacobian matrix (row = space, column = parametric
    direction), as in the loops of Pyr5CVFEM.C 1214-1241, Hex27CVFEM.C 130-160, MasterElement.C
    408-430, Tet10FEM.C 388-404 *)
Definition sumk (n : nat) (f : nat -> R) : R := rsum (map f (seq 0 n)).
Definition coord_at (n : nat) (N : vec -> nat -> R) (e : nat -> vec) (s : vec) : vec :=
  V (sumk n (fun k => N s k * vx (e k))) (sumk n (fun k => N s k * vy (e k))) (sumk n (fun k => N s k * vz (e k))).
Definition shape_jac (n : nat) (D : vec -> nat -> nat -> R) (e : nat -> vec) (s : vec) (r : nat) : R :=
  match r with
  | 0%nat => sumk n (fun k => D s k 0%nat * vx (e k)) | 1%nat => sumk n (fun k => D s k 1%nat * vx (e k))
  | 2%nat => sumk n (fun k => D s k 2%nat * vx (e k)) | 3%nat => sumk n (fun k => D s k 0%nat * vy (e k))
  | 4%nat => sumk n (fun k => D s k 1%nat * vy (e k)) | 5%nat => sumk n (fun k => D s k 2%nat * vy (e k))
  | 6%nat => sumk n (fun k => D s k 0%nat * vz (e k)) | 7%nat => sumk n (fun k => D s k 1%nat * vz (e k))
  | 8%nat => sumk n (fun k => D s k 2%nat * vz (e k)) | _ => 0
  end.
(** Pyr5CVFEM.C 1208-1250 and Hex27CVFEM.C 127-170: error, jact, solve33, guess += delta *)
Definition p2_step (n : nat) (N : vec -> nat -> R) (D : vec -> nat -> nat -> R) (e : nat -> vec) (p s : vec)
    : option vec :=
  let err := vsub p (coord_at n N e s) in
  let jact := shape_jac n D e s in
  if Req_EM_T (Tensor_Model.determinant33 jact) 0 then None else
  let delta := Tensor_Model.solve33 jact (Tensor_Model.of_list [vx err; vy err; vz err]) in
  Some (vadd s (V (delta 0%nat) (delta 1%nat) (delta 2%nat))).
(** MasterElement.C 402-436 QuadrilateralP2Element::isInElement, planar *)
Definition p2_step2d (n : nat) (N : vec -> nat -> R) (D : vec -> nat -> nat -> R) (e : nat -> vec) (p s : vec)
    : option vec :=
  let err := vsub p (coord_at n N e s) in
  let J := shape_jac n D e s in
  let jact := Tensor_Model.of_list [J 0%nat; J 1%nat; J 3%nat; J 4%nat] in
  if Req_EM_T (Tensor_Model.determinant22 jact) 0 then None else
  let delta := Tensor_Model.solve22 jact (Tensor_Model.of_list [vx err; vy err]) in
  Some (V (vx s + delta 0%nat) (vy s + delta 1%nat) 0).
(** Tet10FEM.C 352-430: the coordinates are translated by node 0, jac is inverted by cofactors *)
Definition tet10_step (e : nat -> vec) (p s : vec) : option vec :=
  let xn k := vsub (e k) (e 0%nat) in
  let xp := vsub p (e 0%nat) in
  let f := vsub (coord_at 10 tet10_shape xn s) xp in
  let J := shape_jac 10 tet10_deriv xn s in
  let a00 := J 0%nat in let a01 := J 1%nat in let a02 := J 2%nat in
  let a10 := J 3%nat in let a11 := J 4%nat in let a12 := J 5%nat in
  let a20 := J 6%nat in let a21 := J 7%nat in let a22 := J 8%nat in
  let det := a00*(a11*a22 - a12*a21) - a01*(a10*a22 - a12*a20) + a02*(a10*a21 - a11*a20) in
  if Req_EM_T det 0 then None else
  let det_inv := 1 / det in
  let i00 := (a11*a22 - a12*a21)*det_inv in let i01 := (a02*a21 - a01*a22)*det_inv in
  let i02 := (a01*a12 - a02*a11)*det_inv in let i10 := (a12*a20 - a10*a22)*det_inv in
  let i11 := (a00*a22 - a02*a20)*det_inv in let i12 := (a02*a10 - a00*a12)*det_inv in
  let i20 := (a10*a21 - a11*a20)*det_inv in let i21 := (a01*a20 - a00*a21)*det_inv in
  let i22 := (a00*a11 - a01*a10)*det_inv in
  Some (V (vx s + (- (i00 * vx f) - i01 * vy f - i02 * vz f))
          (vy s + (- (i10 * vx f) - i11 * vy f - i12 * vz f))
          (vz s + (- (i20 * vx f) - i21 * vy f - i22 * vz f))).
(** Wed6CVFEM.C 975-1096: translated coordinates, sums over k = 1..5, j = minus the Jacobian *)
Definition sum15 (f : nat -> R) : R := f 1%nat + f 2%nat + f 3%nat + f 4%nat + f 5%nat.
Definition wed6_jac (e : nat -> vec) (s : vec) (r : nat) : R :=
  let x k := vx (e k) - vx (e 0%nat) in let y k := vy (e k) - vy (e 0%nat) in let z k := vz (e k) - vz (e 0%nat) in
  let w c g := - sum15 (fun k => wed6_deriv s k c * g k) in
  match r with
  | 0%nat => w 0%nat x | 1%nat => w 1%nat x | 2%nat => w 2%nat x
  | 3%nat => w 0%nat y | 4%nat => w 1%nat y | 5%nat => w 2%nat y
  | 6%nat => w 0%nat z | 7%nat => w 1%nat z | 8%nat => w 2%nat z | _ => 0
  end.
Definition wed6_res (e : nat -> vec) (p s : vec) (r : nat) : R :=
  let g q := sum15 (fun k => wed6_shape s k * (q (e k) - q (e 0%nat))) in
  match r with
  | 0%nat => (vx p - vx (e 0%nat)) - g vx
  | 1%nat => (vy p - vy (e 0%nat)) - g vy
  | 2%nat => (vz p - vz (e 0%nat)) - g vz
  | _ => 0
  end.
Definition wed6_update (j f : nat -> R) (s : vec) : option vec :=
  let j00 := j 0%nat in let j01 := j 1%nat in let j02 := j 2%nat in
  let j10 := j 3%nat in let j11 := j 4%nat in let j12 := j 5%nat in
  let j20 := j 6%nat in let j21 := j 7%nat in let j22 := j 8%nat in
  let jdet := j00*(j11*j22 - j12*j21) - j01*(j10*j22 - j12*j20) + j02*(j10*j21 - j11*j20) in
  if Req_EM_T jdet 0 then None else
  let i00 := (j11*j22 - j12*j21)/jdet in let i01 := -(j01*j22 - j21*j02)/jdet in
  let i02 := (j12*j01 - j02*j11)/jdet in let i10 := -(j10*j22 - j20*j12)/jdet in
  let i11 := (j00*j22 - j02*j20)/jdet in let i12 := -(j00*j12 - j10*j02)/jdet in
  let i20 := (j10*j21 - j20*j11)/jdet in let i21 := -(j00*j21 - j20*j01)/jdet in
  let i22 := (j00*j11 - j01*j10)/jdet in
  let f0 := f 0%nat in let f1 := f 1%nat in let f2 := f 2%nat in
  Some (V (vx s - (f0*i00 + f1*i01 + f2*i02))
          (vy s - (f0*i10 + f1*i11 + f2*i12))
          (vz s - (f0*i20 + f1*i21 + f2*i22))).

(** ** The searches: start, iteration limit, distance, failure value *)
(** Quad42DCVFEM.C 881-973: limit 10, failure value 1.0e6 *)
Definition quad42d_step e p s := quad42d_update (quad42d_jac e s) (quad42d_res e p s) s.
Definition quad42d_is_in_element (e : nat -> vec) (p : vec) : found :=
  report (10^6) quad_dist (newton (quad42d_step e p) 10 (V (1/2) (1/2) 0)).
(** Hex8CVFEM.C 875-1078: limit 20 *)
Definition hex8_step e p s := hex8_update (hex8_jac e s) (hex8_res e p s) s.
Definition hex8_is_in_element (e : nat -> vec) (p : vec) : found :=
  report dbl_max hex_dist (newton (hex8_step e p) 20 (V (1/2) (1/2) (1/2))).
(** Wed6CVFEM.C 965-1125: limit 20, start at the centroid *)
Definition wed6_step e p s := wed6_update (wed6_jac e s) (wed6_res e p s) s.
Definition wed6_is_in_element (e : nat -> vec) (p : vec) : found :=
  report dbl_max wed_dist (newton (wed6_step e p) 20 (V (1/3) (1/3) 0)).
(** Pyr5CVFEM.C 1193-1266: limit 100 *)
Definition pyr5_step := p2_step 5 pyr5_shape pyr5_deriv.
Definition pyr5_is_in_element (e : nat -> vec) (p : vec) : found :=
  report dbl_max pyr_dist (newton (pyr5_step e p) 100 (V 0 0 (1/3))).
(** Tet10FEM.C 339-446: limit 10 *)
Definition tet10_is_in_element (e : nat -> vec) (p : vec) : found :=
  report dbl_max tet_dist (newton (tet10_step e p) 10 (V 0 0 0)).
(** Hex27CVFEM.C 115-187 and MasterElement.C 392-454: limit 100 *)
Definition hex27_step := p2_step 27 hex27_shape hex27_deriv.
Definition hex27_is_in_element (e : nat -> vec) (p : vec) : found :=
  report dbl_max hex_dist (newton (hex27_step e p) 100 (V 0 0 0)).
Definition quad9_step := p2_step2d 9 quad9_shape quad9_deriv.
Definition quad9_is_in_element (e : nat -> vec) (p : vec) : found :=
  report dbl_max quad_dist (newton (quad9_step e p) 100 (V 0 0 0)).
(** Quad43DCVFEM.C 154-300 (limit 20, thickness 0.1) and Hex27CVFEM.C 2105-2228 (limit 100,
    thickness 0.01): solcur starts at -1/2 + 1; the third coordinate is d times the square root of
    the length of the normal at the next-to-last iterate. *)
Definition face_is_in_element (X : vec -> vec) (lim : nat) (thick : R) (e : nat -> vec) (p : vec) : found :=
  match newton (fun s => face_update (face_jac e s) (face_res X e p s) s) lim (V (1/2) (1/2) (1/2)) with
  | None => {| f_dist := dbl_max; f_par := V dbl_max dbl_max dbl_max |}
  | Some (cur, nw) =>
      let length := sqrt (sqrt (norm_sq (face_normal e cur))) in
      let s := V (vx nw) (vy nw) (vz nw * length) in
      {| f_dist := face_dist thick s; f_par := s |}
  end.
Definition quad43d_is_in_element (e : nat -> vec) : vec -> found :=
  face_is_in_element (fun s => V (quad4_interpolate s (fun k => vx (e k))) (quad4_interpolate s (fun k => vy (e k)))
                                 (quad4_interpolate s (fun k => vz (e k)))) 20 (1/10) e.
(** Hex27CVFEM.C 2233-2269 Quad93DSCS::interpolatePoint *)
Definition quad93d_interpolate (p : vec) (f : nat -> R) : R :=
  let s := vx p in let t := vy p in
  (1/4)*s*t*(1-s)*(1-t)*f 0%nat + -(1/4)*s*t*(1+s)*(1-t)*f 1%nat + (1/4)*s*t*(1+s)*(1+t)*f 2%nat
  + -(1/4)*s*t*(1-s)*(1+t)*f 3%nat + -(1/2)*t*(1+s)*(1-s)*(1-t)*f 4%nat + (1/2)*s*(1+t)*(1-t)*(1+s)*f 5%nat
  + (1/2)*t*(1+s)*(1-s)*(1+t)*f 6%nat + -(1/2)*s*(1+t)*(1-t)*(1-s)*f 7%nat + (1-s*s)*(1-t*t)*f 8%nat.
Definition quad93d_is_in_element (e : nat -> vec) : vec -> found :=
  face_is_in_element (fun s => V (quad93d_interpolate s (fun k => vx (e k))) (quad93d_interpolate s (fun k => vy (e k)))
                                 (quad93d_interpolate s (fun k => vz (e k)))) 100 (1/100) e.
