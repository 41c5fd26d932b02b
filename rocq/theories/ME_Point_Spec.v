(** * Specification vocabulary for the point search (C33) *)
From Coq Require Import Reals List Arith.
From Verif Require Import ME_Model ME_Shape_Spec.
Import ListNotations.
Local Open Scope R_scope.

(** Where the element with nodal coordinates [e] and shape functions [N] puts the parametric point [s]. *)
Definition place (n : nat) (N : vec -> nat -> R) (e : nat -> vec) (s : vec) : vec :=
  V (interp n N s (fun i => vx (e i))) (interp n N s (fun i => vy (e i))) (interp n N s (fun i => vz (e i))).
(** The same point of the plane. *)
Definition same2 (a b : vec) : Prop := vx a = vx b /\ vy a = vy b.
(** a + s1 u + s2 v + s3 w *)
Definition affine_map (a u v w s : vec) : vec :=
  vadd a (vadd (vscale (vx s) u) (vadd (vscale (vy s) v) (vscale (vz s) w))).
(** The element is the image of its reference element under an affine map (a parallelogram, a
    parallelepiped, a straight-edged tetrahedron with mid-edge nodes, a pyramid over a
    parallelogram, ...). *)
Definition affine_element (n : nat) (node : nat -> vec) (e : nat -> vec) (a u v w : vec) : Prop :=
  forall i, (i < n)%nat -> e i = affine_map a u v w (node i).
Definition dot (a b : vec) : R := vx a * vx b + vy a * vy b + vz a * vz b.
Definition triple (u v w : vec) : R := dot u (cross v w).
Definition cross2 (u v : vec) : R := vx u * vy v - vy u * vx v.
(** Largest coordinate difference. *)
Definition coords_within (n : nat) (D : R) (e : nat -> vec) (c : vec) : Prop :=
  forall i, (i < n)%nat -> Rabs (vx (e i) - vx c) <= D /\ Rabs (vy (e i) - vy c) <= D /\ Rabs (vz (e i) - vz c) <= D.
Definition near (D : R) (a b : vec) : Prop :=
  Rabs (vx a - vx b) <= D /\ Rabs (vy a - vy b) <= D /\ Rabs (vz a - vz b) <= D.
