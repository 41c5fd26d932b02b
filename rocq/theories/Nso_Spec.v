(** Vocabulary for the nonlinear stabilisation (C87). *)
Require Import Reals List.
From Verif Require Import Edge_Model Elem_Model Elem_Spec Vof_Spec Nso_Model.
Open Scope R_scope.

(** diffusive flux along the metric: -nu A_i g^ij (d_j q - f*G_j), G interpolated from the nodes *)
Definition metric_flux (m : me) (gU : nat -> nat -> nat -> R) (f : R) (nu : nat -> R) (G : nat -> nat -> R) (q : nat -> R) (ip : nat) : R :=
  - nu ip * sumn (ndim m) (fun i => area m ip i * sumn (ndim m) (fun j => gU ip i j *
      (grad_at (npe m) (dndx m) q ip j - f * sumn (npe m) (fun ic => Ns m ip ic * G ic j)))).
(** component k of a flat velocity and its nodal gradient *)
Definition cmp (d : nat) (u : nat -> R) (k : nat) : nat -> R := fun ic => u (ic*d+k)%nat.
Definition gcmp (d : nat) (Gu : nat -> R) (k : nat) : nat -> nat -> R := fun ic j => Gu ((ic*d+k)*d+j)%nat.
Definition gvec (d : nat) (G : nat -> R) : nat -> nat -> R := fun ic j => G (ic*d+j)%nat.
(** the metric is positive semi-definite / symmetric *)
Definition psd (d : nat) (g : nat -> nat -> R) : Prop := forall w : nat -> R, 0 <= sumn d (fun i => sumn d (fun j => w i * g i j * w j)).
(** q is linear in the positions x of the element nodes, with gradient g, and its nodal gradient is g *)
Definition linear_field (m : me) (x : nat -> nat -> R) (g : nat -> R) (c : R) (q : nat -> R) : Prop :=
  forall ic, (ic < npe m)%nat -> q ic = c + sumn (ndim m) (fun j => g j * x ic j).
