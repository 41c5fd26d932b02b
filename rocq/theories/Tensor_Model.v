(** Model of /repo/include/master_element/TensorOps.h and
    /repo/include/master_element/MasterElementFunctions.h.
    Simplifications: ScalarType is R (one SIMD lane); a C array is a function of its flat index,
    A[3][3] is passed by its flat index 3*i+j (row-major, as in &A[0][0]); the debug-only
    STK_ThrowAssert on the determinant is not executed (it is a precondition of the theorems). *)
Require Import Reals List.
From Verif Require Import Edge_Model.
Import ListNotations.
Open Scope R_scope.

Definition arr := nat -> R.
Definition mat := nat -> nat -> R.
(** A[i][j]; m(i,j) (helpers so that literal indices are natural numbers) *)
Definition at33 (A : arr) (i j : nat) : R := A (3*i+j)%nat.
Definition at2 (m : mat) (i j : nat) : R := m i j.
Definition of_list (l : list R) : arr := fun k => nth k l 0.

(** ddot, lines 37-44 *)
Definition ddot (u v : arr) (n : nat) : R := fold_left (fun val i => val + u i * v i) (seq 0 n) 0.
(** vecnorm_sq3, lines 31-34 *)
Definition vecnorm_sq3 (x : arr) : R := x 0%nat*x 0%nat + x 1%nat*x 1%nat + x 2%nat*x 2%nat.
(** cross3, lines 46-52 *)
Definition cross3 (u v : arr) : arr := of_list [
  u 1%nat*v 2%nat - u 2%nat*v 1%nat;
  - (u 0%nat*v 2%nat - u 2%nat*v 0%nat);
  u 0%nat*v 1%nat - u 1%nat*v 0%nat].
(** determinant22, lines 54-59 *)
Definition determinant22 (m : arr) : R := m 0%nat*m 3%nat - m 1%nat*m 2%nat.
(** determinant33, lines 61-67; XX..ZZ = 0..8 *)
Definition determinant33 (m : arr) : R :=
  m 0%nat*(m 4%nat*m 8%nat - m 5%nat*m 7%nat)
  - m 1%nat*(m 3%nat*m 8%nat - m 5%nat*m 6%nat)
  + m 2%nat*(m 3%nat*m 7%nat - m 4%nat*m 6%nat).
(** invert_matrix33(A[3][3], Ainv[3][3]), lines 69-86 *)
Definition invert_matrix33_2d (A : arr) : arr :=
  let d := 1 / determinant33 A in
  of_list [
   d*(at33 A 1 1 * at33 A 2 2 - at33 A 2 1 * at33 A 1 2); d*(at33 A 1 2 * at33 A 2 0 - at33 A 2 2 * at33 A 1 0); d*(at33 A 1 0 * at33 A 2 1 - at33 A 2 0 * at33 A 1 1);
   d*(at33 A 0 2 * at33 A 2 1 - at33 A 2 2 * at33 A 0 1); d*(at33 A 0 0 * at33 A 2 2 - at33 A 2 0 * at33 A 0 2); d*(at33 A 0 1 * at33 A 2 0 - at33 A 2 1 * at33 A 0 0);
   d*(at33 A 0 1 * at33 A 1 2 - at33 A 1 1 * at33 A 0 2); d*(at33 A 0 2 * at33 A 1 0 - at33 A 1 2 * at33 A 0 0); d*(at33 A 0 0 * at33 A 1 1 - at33 A 1 0 * at33 A 0 1)].
(** invert_matrix33(const T* A, T* Ainv), lines 88-106 *)
Definition invert_matrix33_ptr (A : arr) : arr :=
  let d := 1 / determinant33 A in
  let XX := A 0%nat in let XY := A 1%nat in let XZ := A 2%nat in
  let YX := A 3%nat in let YY := A 4%nat in let YZ := A 5%nat in
  let ZX := A 6%nat in let ZY := A 7%nat in let ZZ := A 8%nat in
  of_list [
   d*(YY*ZZ - ZY*YZ); d*(YZ*ZX - ZZ*YX); d*(YX*ZY - ZX*YY);
   d*(XZ*ZY - ZZ*XY); d*(XX*ZZ - ZX*XZ); d*(XY*ZX - ZY*XX);
   d*(XY*YZ - YY*XZ); d*(XZ*YZ - YZ*XX); d*(XX*YY - YX*XY)].
(** solve22, lines 108-121 *)
Definition solve22 (A b : arr) : arr :=
  let inv := 1 / determinant22 A in
  of_list [ (A 3%nat*b 0%nat - A 1%nat*b 1%nat)*inv; - (A 2%nat*b 0%nat - A 0%nat*b 1%nat)*inv ].
(** solve33, lines 124-149 *)
Definition solve33 (A b : arr) : arr :=
  let XX := A 0%nat in let XY := A 1%nat in let XZ := A 2%nat in
  let YX := A 3%nat in let YY := A 4%nat in let YZ := A 5%nat in
  let ZX := A 6%nat in let ZY := A 7%nat in let ZZ := A 8%nat in
  let inv := 1 / determinant33 A in
  let X := b 0%nat in let Y := b 1%nat in let Z := b 2%nat in
  of_list [
   ((YY*ZZ - YZ*ZY)*X + (XZ*ZY - XY*ZZ)*Y + (XY*YZ - XZ*YY)*Z)*inv;
   ((YZ*ZX - YX*ZZ)*X + (XX*ZZ - XZ*ZX)*Y + (XZ*YX - XX*YZ)*Z)*inv;
   ((YX*ZY - YY*ZX)*X + (XY*ZX - XX*ZY)*Y + (XX*YY - XY*YX)*Z)*inv].
(** matvec22, lines 151-156 *)
Definition matvec22 (A x : arr) : arr := of_list [
  A 0%nat*x 0%nat + A 1%nat*x 1%nat; A 2%nat*x 0%nat + A 3%nat*x 1%nat].
(** mxm22, lines 158-165 *)
Definition mxm22 (A B : arr) : arr := of_list [
  A 0%nat*B 0%nat + A 1%nat*B 2%nat; A 0%nat*B 1%nat + A 1%nat*B 3%nat;
  A 2%nat*B 0%nat + A 3%nat*B 2%nat; A 2%nat*B 1%nat + A 3%nat*B 3%nat].
(** mxm33, lines 167-180 *)
Definition mxm33 (A B : arr) : arr := of_list [
  A 0%nat*B 0%nat + A 1%nat*B 3%nat + A 2%nat*B 6%nat;
  A 0%nat*B 1%nat + A 1%nat*B 4%nat + A 2%nat*B 7%nat;
  A 0%nat*B 2%nat + A 1%nat*B 5%nat + A 2%nat*B 8%nat;
  A 3%nat*B 0%nat + A 4%nat*B 3%nat + A 5%nat*B 6%nat;
  A 3%nat*B 1%nat + A 4%nat*B 4%nat + A 5%nat*B 7%nat;
  A 3%nat*B 2%nat + A 4%nat*B 5%nat + A 5%nat*B 8%nat;
  A 6%nat*B 0%nat + A 7%nat*B 3%nat + A 8%nat*B 6%nat;
  A 6%nat*B 1%nat + A 7%nat*B 4%nat + A 8%nat*B 7%nat;
  A 6%nat*B 2%nat + A 7%nat*B 5%nat + A 8%nat*B 8%nat].
(** matvec33, lines 182-188 *)
Definition matvec33 (A x : arr) : arr := of_list [
  A 0%nat*x 0%nat + A 1%nat*x 1%nat + A 2%nat*x 2%nat;
  A 3%nat*x 0%nat + A 4%nat*x 1%nat + A 5%nat*x 2%nat;
  A 6%nat*x 0%nat + A 7%nat*x 1%nat + A 8%nat*x 2%nat].
(** transpose22, lines 190-197; transpose33, lines 199-213 *)
Definition transpose22 (A : arr) : arr := of_list [A 0%nat; A 2%nat; A 1%nat; A 3%nat].
Definition transpose33 (A : arr) : arr := of_list [
  A 0%nat; A 3%nat; A 6%nat; A 1%nat; A 4%nat; A 7%nat; A 2%nat; A 5%nat; A 8%nat].

(* ---------------------------------------------------------------- MasterElementFunctions.h *)
(** cofactorMatrix 3-D, lines 31-43, and 2-D, lines 44-49 *)
Definition cofactor3 (j : mat) : mat := fun r c => nth c (nth r [
  [at2 j 1 1 * at2 j 2 2 - at2 j 2 1 * at2 j 1 2; at2 j 1 2 * at2 j 2 0 - at2 j 2 2 * at2 j 1 0; at2 j 1 0 * at2 j 2 1 - at2 j 2 0 * at2 j 1 1];
  [at2 j 0 2 * at2 j 2 1 - at2 j 2 2 * at2 j 0 1; at2 j 0 0 * at2 j 2 2 - at2 j 2 0 * at2 j 0 2; at2 j 0 1 * at2 j 2 0 - at2 j 2 1 * at2 j 0 0];
  [at2 j 0 1 * at2 j 1 2 - at2 j 1 1 * at2 j 0 2; at2 j 0 2 * at2 j 1 0 - at2 j 1 2 * at2 j 0 0; at2 j 0 0 * at2 j 1 1 - at2 j 1 0 * at2 j 0 1]] []) 0.
Definition cofactor2 (j : mat) : mat := fun r c => nth c (nth r [
  [at2 j 1 1; - at2 j 1 0]; [- at2 j 0 1; at2 j 0 0]] []) 0.
Definition cofactor (dim : nat) : mat -> mat := if Nat.eqb dim 2 then cofactor2 else cofactor3.

(** generic_grad_op, lines 51-110, at one integration point: [ref n j] reference gradients,
    [x n i] nodal coordinates, [nodes] = nodesPerElement_. Returns (det, weights). *)
Definition jacobian (nodes : nat) (ref x : mat) : mat :=
  fun i j => fold_left (fun a n => a + ref n j * x n i) (seq 0 nodes) 0.
Definition grad_op_det (dim nodes : nat) (ref x : mat) : R :=
  let jact := jacobian nodes ref x in
  fold_left (fun d i => d + jact i 0%nat * cofactor dim jact i 0%nat) (seq 0 dim) 0.
Definition grad_op (dim nodes : nat) (ref x : mat) : mat :=
  let adj := cofactor dim (jacobian nodes ref x) in
  let inv := 1 / grad_op_det dim nodes ref x in
  fun n i => fold_left (fun w j => w + adj i j * ref n j) (seq 0 dim) 0 * inv.

(** generic_gij_3d, lines 170-243: contravariant and covariant metric at one point *)
Definition gup (nodes : nat) (ref x : mat) : mat :=
  let jac := jacobian nodes ref x in
  fun i j => jac i 0%nat*jac j 0%nat + jac i 1%nat*jac j 1%nat + jac i 2%nat*jac j 2%nat.
Definition glo_of (g : mat) : mat :=
  let inv := 1 / (g 0%nat 0%nat*(g 1%nat 1%nat*g 2%nat 2%nat - g 1%nat 2%nat*g 1%nat 2%nat)
                - g 0%nat 1%nat*(g 0%nat 1%nat*g 2%nat 2%nat - g 1%nat 2%nat*g 0%nat 2%nat)
                + g 0%nat 2%nat*(g 0%nat 1%nat*g 1%nat 2%nat - g 1%nat 1%nat*g 0%nat 2%nat)) in
  let g01 := inv*(g 0%nat 2%nat*g 1%nat 2%nat - g 0%nat 1%nat*g 2%nat 2%nat) in
  let g02 := inv*(g 0%nat 1%nat*g 1%nat 2%nat - g 0%nat 2%nat*g 1%nat 1%nat) in
  let g12 := inv*(g 0%nat 2%nat*g 0%nat 1%nat - g 0%nat 0%nat*g 1%nat 2%nat) in
  fun r c => nth c (nth r [
   [inv*(g 1%nat 1%nat*g 2%nat 2%nat - g 1%nat 2%nat*g 1%nat 2%nat); g01; g02];
   [g01; inv*(g 0%nat 0%nat*g 2%nat 2%nat - g 0%nat 2%nat*g 0%nat 2%nat); g12];
   [g02; g12; inv*(g 0%nat 0%nat*g 1%nat 1%nat - g 0%nat 1%nat*g 0%nat 1%nat)]] []) 0.
(** generic_determinant_3d, lines 245-272 *)
Definition det_op (nodes : nat) (ref x : mat) : R :=
  let jac := jacobian nodes ref x in
  determinant33 (fun k => jac (k / 3)%nat (k mod 3)%nat).
