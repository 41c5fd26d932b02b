(** * Specification vocabulary for the control-volume geometry (C31)

    Written independently of how the code computes areas and volumes: integrals are Riemann
    integrals ([RInt] of Coquelicot) of the isoparametric maps themselves. *)
From Coq Require Import Reals List Arith.
From Coquelicot Require Import Coquelicot.
From Verif Require Import ME_Model.
Import ListNotations.
Local Open Scope R_scope.

Definition dot (a b : vec) : R := vx a * vx b + vy a * vy b + vz a * vz b.
(** The vector product, written in the usual way. *)
Definition vprod (a b : vec) : vec :=
  V (vy a * vz b - vz a * vy b) (vz a * vx b - vx a * vz b) (vx a * vy b - vy a * vx b).

(** Sum of the area vectors of the interior surfaces of node [i]'s sub control volume, outward:
    surface k separates the nodes (L,R) and its vector points from L to R. *)
Definition interior_area (lr : list (nat * nat)) (A : nat -> vec) (i : nat) : vec :=
  vsum (map (fun k => let '(l, r) := nth k lr (0, 0)%nat in
                      vsub (if Nat.eqb l i then A k else vzero) (if Nat.eqb r i then A k else vzero))
            (seq 0 (length lr))).
(** Sum of the parts of the element boundary that belong to node [i]: ip [k] of a side belongs to
    the node the ip table names. *)
Definition boundary_area (sides ipnode : list (list nat)) (B : list nat -> nat -> vec) (i : nat) : vec :=
  vsum (map (fun s => vsum (map (fun k =>
           if Nat.eqb (nth k (nth s ipnode []) 0%nat) i then B (nth s sides []) k else vzero)
           (seq 0 (length (nth s ipnode [])))))
         (seq 0 (length sides))).
(** The control volume of node [i] is closed. *)
Definition closed_at lr A sides ipnode B (i : nat) : Prop :=
  vadd (interior_area lr A i) (boundary_area sides ipnode B i) = vzero.

(** The bilinear patch with corners a,b,c,d (u,v in [0,1]) and its tangents. *)
Definition patch (a b c d : vec) (u v : R) : vec :=
  vadd (vadd (vscale ((1-u)*(1-v)) a) (vscale (u*(1-v)) b)) (vadd (vscale (u*v) c) (vscale ((1-u)*v) d)).
Definition patch_u (a b c d : vec) (v : R) : vec :=
  vadd (vscale (1-v) (vsub b a)) (vscale v (vsub c d)).
Definition patch_v (a b c d : vec) (u : R) : vec :=
  vadd (vscale (1-u) (vsub d a)) (vscale u (vsub c b)).
(** Flux of the position vector through the patch. *)
Definition patch_flux (a b c d : vec) : R :=
  RInt (fun u => RInt (fun v =>
    dot (patch a b c d u v) (vprod (patch_u a b c d v) (patch_v a b c d u))) 0 1) 0 1.
(** Flux of the position vector through the flat triangle a,b,c: centroid dot area vector. *)
Definition triangle_flux (a b c : vec) : R :=
  dot (vscale (1/3) (vadd (vadd a b) c)) (vscale (1/2) (vprod (vsub b a) (vsub c a))).
Definition face_flux (X : nat -> vec) (nodes : list nat) : R :=
  match nodes with
  | [a;b;c] => triangle_flux (X a) (X b) (X c)
  | [a;b;c;d] => patch_flux (X a) (X b) (X c) (X d)
  | _ => 0
  end.
(** Volume enclosed by a closed outward-oriented surface (divergence theorem for x/3). *)
Definition enclosed_volume (sides : list (list nat)) (X : nat -> vec) : R :=
  rsum (map (face_flux X) sides) / 3.

(** The sides of the element types, in the numbering of the exodus/stk topologies, outward. *)
Definition hex_faces : list (list nat) := [[0;1;5;4];[1;2;6;5];[2;3;7;6];[0;4;7;3];[0;3;2;1];[4;5;6;7]]%nat.
Definition tet_faces : list (list nat) := [[0;1;3];[1;2;3];[0;3;2];[0;2;1]]%nat.
Definition wed_faces : list (list nat) := [[0;1;4;3];[1;2;5;4];[0;3;5;2];[0;2;1];[3;4;5]]%nat.
Definition pyr_faces : list (list nat) := [[0;1;4];[1;2;4];[2;3;4];[0;4;3];[0;3;2;1]]%nat.

(** The volume of a trilinear hexahedron: the integral of the Jacobian determinant of the
    trilinear map over the unit cube. *)
Definition tri_weight (n : nat) (u v w : R) : R :=
  (if orb (Nat.eqb (n mod 4) 1) (Nat.eqb (n mod 4) 2) then u else 1 - u) *
  (if Nat.ltb 1 (n mod 4) then v else 1 - v) * (if Nat.ltb 3 n then w else 1 - w).
Definition triple (a b c : vec) : R := dot a (vprod b c).
Definition hex_du (X : nat -> vec) (v w : R) : vec :=
  vadd (vscale (1-w) (vadd (vscale (1-v) (vsub (X 1%nat) (X 0%nat))) (vscale v (vsub (X 2%nat) (X 3%nat)))))
       (vscale w (vadd (vscale (1-v) (vsub (X 5%nat) (X 4%nat))) (vscale v (vsub (X 6%nat) (X 7%nat))))).
Definition hex_dv (X : nat -> vec) (u w : R) : vec :=
  vadd (vscale (1-w) (vadd (vscale (1-u) (vsub (X 3%nat) (X 0%nat))) (vscale u (vsub (X 2%nat) (X 1%nat)))))
       (vscale w (vadd (vscale (1-u) (vsub (X 7%nat) (X 4%nat))) (vscale u (vsub (X 6%nat) (X 5%nat))))).
Definition hex_dw (X : nat -> vec) (u v : R) : vec :=
  vadd (vscale (1-v) (vadd (vscale (1-u) (vsub (X 4%nat) (X 0%nat))) (vscale u (vsub (X 5%nat) (X 1%nat)))))
       (vscale v (vadd (vscale (1-u) (vsub (X 7%nat) (X 3%nat))) (vscale u (vsub (X 6%nat) (X 2%nat))))).
Definition hex_map (X : nat -> vec) (u v w : R) : vec :=
  vsum (map (fun n => vscale (tri_weight n u v w) (X n)) (seq 0 8)).
Definition hex_volume_integral (X : nat -> vec) : R :=
  RInt (fun u => RInt (fun v => RInt (fun w =>
    triple (hex_du X v w) (hex_dv X u w) (hex_dw X u v)) 0 1) 0 1) 0 1.

(** Planar polygon area (shoelace). *)
Definition shoelace (n : nat) (x y : nat -> R) : R :=
  rsum (map (fun k => x k * y (S k mod n)%nat - x (S k mod n)%nat * y k) (seq 0 n)) / 2.
