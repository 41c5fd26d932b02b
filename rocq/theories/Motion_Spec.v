(** Independent specification of rigid rotation, Euler angles and Runge-Kutta, in textbook form. *)
Require Import Reals List.
From Verif Require Import Motion_Model.
Import ListNotations.
Open Scope R_scope.

Definition dot (a b : v3) : R := vx a * vx b + vy a * vy b + vz a * vz b.
Definition cross (a b : v3) : v3 :=
  V3 (vy a * vz b - vz a * vy b) (vz a * vx b - vx a * vz b) (vx a * vy b - vy a * vx b).
Definition unit3 (u : v3) : Prop := dot u u = 1.
(** squared distance, signed volume of the tetrahedron a,b,c,d (times 6) *)
Definition dist2 (a b : v3) : R := dot (vsub a b) (vsub a b).
Definition volume6 (a b c d : v3) : R := dot (vsub b a) (cross (vsub c a) (vsub d a)).

(** Rodrigues: the rotation by angle th about the axis through cen with unit direction u *)
Definition rodrigues (cen u : v3) (th : R) (p : v3) : v3 :=
  let c := vsub p cen in
  vadd cen (vadd (vscale (cos th) c) (vadd (vscale (sin th) (cross u c)) (vscale ((1 - cos th) * dot u c) u))).

(** elementary rotations about the coordinate axes *)
Definition rot_x (a : R) (v : v3) : v3 := V3 (vx v) (cos a * vy v - sin a * vz v) (sin a * vy v + cos a * vz v).
Definition rot_y (a : R) (v : v3) : v3 := V3 (cos a * vx v + sin a * vz v) (vy v) (- sin a * vx v + cos a * vz v).
Definition rot_z (a : R) (v : v3) : v3 := V3 (cos a * vx v - sin a * vy v) (sin a * vx v + cos a * vy v) (vz v).

Definition qnorm2 (q : quat) : R := qw q*qw q + qx q*qx q + qy q*qy q + qz q*qz q.

(** the classical fourth-order Runge-Kutta step for y' = f y over a state with y + h*k available *)
Definition rk4 {S} (axpy : S -> R -> S -> S) (f : S -> S) (h : R) (y : S) : S :=
  let k1 := f y in
  let k2 := f (axpy y (h/2) k1) in
  let k3 := f (axpy y (h/2) k2) in
  let k4 := f (axpy y h k3) in
  axpy (axpy (axpy (axpy y (h/6) k1) (h/3) k2) (h/3) k3) (h/6) k4.
Definition vaxpy (a : v3) (f : R) (b : v3) : v3 := vadd a (vscale f b).
(** Euler's equations of a rigid body in its principal frame: I w' = M - w x (I w) *)
Definition rigid_rhs (mom ine w : v3) : v3 :=
  V3 ((vx mom - (vz ine - vy ine)*vz w*vy w)/vx ine)
     ((vy mom - (vx ine - vz ine)*vx w*vz w)/vy ine)
     ((vz mom - (vy ine - vx ine)*vy w*vx w)/vz ine).

(** node k is moved by motion m and by no motion listed after it *)
Definition moved_by (k : nat) (m : rotation) (ms : list rotation) : Prop :=
  exists l1 l2, ms = l1 ++ m :: l2 /\ (exists P, In P (m_blocks m) /\ P k = true) /\
    (forall m' P, In m' l2 -> In P (m_blocks m') -> P k = false).
