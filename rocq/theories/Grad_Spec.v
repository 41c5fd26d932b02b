(** Vocabulary for the nodal-gradient properties (C91). *)
Require Import Reals List Bool Arith.
From Verif Require Import Edge_Model Edge_Proofs Elem_Model Vof_Model Vof_Model2 Grad_Model.
Import ListNotations.
Open Scope R_scope.

Definition at_node (a n : nat) : R := if Nat.eqb a n then 1 else 0.
(** outward surface integral over the control volume of node a of a quantity with value Q at the sub-control surfaces
    (positive from the left to the right node) and QB at the boundary points, direction j *)
Definition inner_surface (es : list velem) (Q : velem -> nat -> R) (a j : nat) : R :=
  lsum (fun e => let m := ve_me e in
     sumn (nscs m) (fun ip => (at_node a (ve_node e (lrL m ip)) - at_node a (ve_node e (lrR m ip))) * (Q e ip * area m ip j))) es.
Definition outer_surface (fs : list gface) (QB : gface -> nat -> R) (a j : nat) : R :=
  lsum (fun f => sumn (gf_nip f) (fun ip => at_node a (gf_node f (gf_near f ip)) * (QB f ip * gf_A f ip j))) fs.
(** total over the boundary *)
Definition boundary_total (fs : list gface) (QB : gface -> nat -> R) (j : nat) : R :=
  lsum (fun f => sumn (gf_nip f) (fun ip => QB f ip * gf_A f ip j)) fs.
(** a nodal field at the points *)
Definition at_ip (q : nat -> R) (e : velem) (ip : nat) : R := sumn (npe (ve_me e)) (fun ic => Ns (ve_me e) ip ic * q (ve_node e ic)).
Definition at_bip (q : nat -> R) (f : gface) (ip : nat) : R := sumn (gf_npf f) (fun ic => gf_N f ip ic * q (gf_node f ic)).
(** shape functions add up to one *)
Definition ip_unity (es : list velem) : Prop := forall e, In e es -> forall ip, (ip < nscs (ve_me e))%nat -> sumn (npe (ve_me e)) (Ns (ve_me e) ip) = 1.
Definition bip_unity (fs : list gface) : Prop := forall f, In f fs -> forall ip, (ip < gf_nip f)%nat -> sumn (gf_npf f) (gf_N f ip) = 1.
(** the control volume of node a is closed; the integral of x_k n_j over its surface is its volume if k = j, else 0
    (Gauss's theorem for the coordinates) *)
Definition cv_closed (d : nat) (es : list velem) (fs : list gface) (a : nat) : Prop :=
  forall j, (j < d)%nat -> inner_surface es (fun _ _ => 1) a j + outer_surface fs (fun _ _ => 1) a j = 0.
Definition cv_gauss (d : nat) (V : nat -> R) (X : nat -> nat -> R) (es : list velem) (fs : list gface) (a : nat) : Prop :=
  forall j k, (j < d)%nat -> (k < d)%nat ->
    inner_surface es (at_ip (fun n => X n k)) a j + outer_surface fs (at_bip (fun n => X n k)) a j = if Nat.eqb k j then V a else 0.
(** a linear field of the nodal positions *)
Definition linear_field (d : nat) (c : R) (g : nat -> R) (X : nat -> nat -> R) (q : nat -> R) : Prop :=
  forall n, q n = c + sumn d (fun k => g k * X n k).
