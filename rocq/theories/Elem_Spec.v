(** Vocabulary for the element-kernel properties. [n] is the number of local rows. *)
Require Import Reals List.
From Verif Require Import Edge_Model Elem_Model.
Open Scope R_scope.

(** what a kernel adds to the local system does not change the sum of the right-hand side over the
    rows, nor any column sum of the matrix: what leaves one control volume enters another *)
Definition conservative (n : nat) (k : esys -> esys) : Prop :=
  forall s, sumn n (eB (k s)) = sumn n (eB s)
         /\ forall j, sumn n (fun i => eL_ (k s) i j) = sumn n (fun i => eL_ s i j).

(** the same, separately for every component of a [d]-component system with row index node*d+i *)
Definition conservative_vec (d nodes : nat) (k : esys -> esys) : Prop :=
  forall s i, (i < d)%nat ->
    sumn nodes (fun a => eB (k s) (a*d+i)%nat) = sumn nodes (fun a => eB s (a*d+i)%nat)
    /\ forall j, sumn nodes (fun a => eL_ (k s) (a*d+i)%nat j) = sumn nodes (fun a => eL_ s (a*d+i)%nat j).

(** the added matrix is the exact sensitivity of minus the added right-hand side with respect to the
    unknown: for every increment of the unknown, rhs(q+d) = rhs(q) - lhs(q)*d *)
Definition exact_newton (n : nat) (k : (nat -> R) -> esys -> esys) : Prop :=
  forall q d s i, (i < n)%nat ->
    eB (k (fun a => q a + d a) s) i
    = eB (k q s) i - sumn n (fun j => (eL_ (k q s) i j - eL_ s i j) * d j).

(** the kernel only adds: its contribution does not depend on what is already in the system, so
    contributions of different kernels and elements may be summed in any order *)
Definition additive (k : esys -> esys) : Prop :=
  forall s s' i, (forall j, eL_ (k s) i j - eL_ s i j = eL_ (k s') i j - eL_ s' i j)
              /\ eB (k s) i - eB s i = eB (k s') i - eB s' i.

(** node maps of the element stay inside the element *)
Definition maps_ok (m : me) : Prop :=
  (forall ip, (ip < nscs m)%nat -> (lrL m ip < npe m)%nat /\ (lrR m ip < npe m)%nat)
  /\ (forall ip, (ip < nscv m)%nat -> (nearest m ip < npe m)%nat).

(** partition of unity and its gradient, at every integration point *)
Definition unity (n np : nat) (N : nat -> nat -> R) : Prop :=
  forall ip, (ip < np)%nat -> sumn n (N ip) = 1.
Definition grad_unity (m : me) : Prop :=
  forall ip j, (ip < nscs m)%nat -> (j < ndim m)%nat -> sumn (npe m) (fun ic => dndx m ip ic j) = 0.
(** the gradient operator is exact on linear fields of the nodal positions x *)
Definition grad_linear_exact (m : me) (x : nat -> nat -> R) : Prop :=
  grad_unity m /\
  forall ip j k, (ip < nscs m)%nat -> (j < ndim m)%nat -> (k < ndim m)%nat ->
    sumn (npe m) (fun ic => dndx m ip ic j * x ic k) = if Nat.eqb j k then 1 else 0.

(** net outflow of the point fluxes [F] from node i's control volume *)
Definition net_out (m : me) (F : nat -> R) (i : nat) : R :=
  sumn (nscs m) (fun ip => (if Nat.eqb i (lrL m ip) then F ip else 0) - (if Nat.eqb i (lrR m ip) then F ip else 0)).
