(** Vocabulary for the volume-of-fluid properties (C86). *)
Require Import Reals List.
From Verif Require Import Edge_Model Edge_Proofs Elem_Model Elem_Spec Vof_Model Vof_Model2.
Open Scope R_scope.

(** what a kernel adds to row i of the right-hand side, and to the matrix *)
Definition gain (k : esys -> esys) (s : esys) (i : nat) : R := eB (k s) i - eB s i.
Definition gainL (k : esys -> esys) (s : esys) (i j : nat) : R := eL_ (k s) i j - eL_ s i j.

(** integral over node i's part of the element of a function given at the sub-control-volume points *)
Definition cv_int (m : me) (f : nat -> R) (i : nat) : R :=
  sumn (nscv m) (fun ip => if Nat.eqb i (nearest m ip) then vol m ip * f ip else 0).
(** integral over the element *)
Definition el_int (m : me) (f : nat -> R) : R := sumn (nscv m) (fun ip => vol m ip * f ip).
(** integral over the part of an exposed face that belongs to element node i *)
Definition face_sum (f : vface) (F : nat -> R) (i : nat) : R :=
  sumn (vf_nip f) (fun ip => if Nat.eqb i (vf_near f ip) then F ip else 0).

(** dot product, and component j of a flat vector field interpolated to point ip with weights N *)
Definition dotn (d : nat) (a b : nat -> R) : R := sumn d (fun j => a j * b j).
Definition vec_at (n d : nat) (N : nat -> nat -> R) (v : nat -> R) (ip j : nat) : R := sumn n (fun ic => N ip ic * v (ic*d+j)%nat).
(** gradient of a nodal scalar and divergence of a nodal vector field (flat) with gradient operator D *)
Definition grad_at (n : nat) (D : nat -> nat -> nat -> R) (q : nat -> R) (ip j : nat) : R := sumn n (fun ic => D ip ic j * q ic).
Definition div_at (n d : nat) (D : nat -> nat -> nat -> R) (v : nat -> R) (ip : nat) : R :=
  sumn d (fun j => sumn n (fun ic => D ip ic j * v (ic*d+j)%nat)).

(** gradient operator at the sub-control-volume points: kills constants; exact on linear fields of x *)
Definition dv_unity (m : me) (dv : nat -> nat -> nat -> R) : Prop :=
  forall ip j, (ip < nscv m)%nat -> (j < ndim m)%nat -> sumn (npe m) (fun ic => dv ip ic j) = 0.
Definition dv_linear (m : me) (dv : nat -> nat -> nat -> R) (x : nat -> nat -> R) : Prop :=
  dv_unity m dv /\
  forall ip j k, (ip < nscv m)%nat -> (j < ndim m)%nat -> (k < ndim m)%nat ->
    sumn (npe m) (fun ic => dv ip ic j * x ic k) = if Nat.eqb j k then 1 else 0.

(** faces: element nodes of the face, points and their node belong to the element *)
Definition face_ok (f : vface) : Prop :=
  (forall ic, (ic < vf_npf f)%nat -> (vf_ord f ic < vf_npe f)%nat) /\
  (forall ip, (ip < vf_nip f)%nat -> (vf_near f ip < vf_npe f)%nat).
Definition face_unity (f : vface) : Prop := forall ip, (ip < vf_nip f)%nat -> sumn (vf_npf f) (vf_N f ip) = 1.

(** mesh: every sub-control volume is positive, the dual volume of a node is the sum of the sub-control volumes
    around it, local nodes belong to the element *)
Definition scv_total (els : list velem) (f : velem -> nat -> R) (a : nat) : R :=
  lsum (fun e => sumn (nscv (ve_me e)) (fun ip =>
     if Nat.eqb a (ve_node e (nearest (ve_me e) ip)) then vol (ve_me e) ip * f e ip else 0)) els.
Definition mesh_good (els : list velem) (V : nat -> R) : Prop :=
  (forall e, In e els -> forall ip, (ip < nscv (ve_me e))%nat -> 0 < vol (ve_me e) ip) /\
  (forall e, In e els -> maps_ok (ve_me e)) /\
  forall a, V a = scv_total els (fun _ _ => 1) a.
