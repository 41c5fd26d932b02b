(** Vocabulary of the solid-displacement properties. *)
Require Import Reals List.
From Verif Require Import Edge_Model Elem_Model Elem_Spec.
Open Scope R_scope.

(** gradient of the displacement field at integration point ip: d(disp_i)/dx_j *)
Definition grad_disp (m : me) (disp : nat -> R) (ip i j : nat) : R :=
  sumn (npe m) (fun ic => dndx m ip ic j * disp (ic*ndim m+i)%nat).
Definition delta (i j : nat) : R := if Nat.eqb i j then 1 else 0.

(** Hooke's law: traction component i of stress mu (D + D^T) + lambda tr(D) 1 on the area vector A *)
Definition hooke_traction (d : nat) (mu lambda : R) (D : nat -> nat -> R) (A : nat -> R) (i : nat) : R :=
  sumn d (fun j => (mu * (D i j + D j i) + lambda * delta i j * sumn d (fun l => D l l)) * A j).

(** stable neo-Hookean solid: Cauchy stress (mu beta/J) F F^T + (lambda (J-1) - 3/4 mu) 1, with
    beta = 1 - 1/(1+|F|^2) *)
Definition frob2 (d : nat) (F : nat -> nat -> R) : R := sumn d (fun i => sumn d (fun j => F i j * F i j)).
Definition det3 (F : nat -> nat -> R) : R :=
  F 0%nat 0%nat * (F 1%nat 1%nat * F 2%nat 2%nat - F 1%nat 2%nat * F 2%nat 1%nat)
  - F 0%nat 1%nat * (F 1%nat 0%nat * F 2%nat 2%nat - F 1%nat 2%nat * F 2%nat 0%nat)
  + F 0%nat 2%nat * (F 1%nat 0%nat * F 2%nat 1%nat - F 1%nat 1%nat * F 2%nat 0%nat).
Definition det2 (F : nat -> nat -> R) : R := F 0%nat 0%nat * F 1%nat 1%nat - F 0%nat 1%nat * F 1%nat 0%nat.
Definition det (d : nat) (F : nat -> nat -> R) : R := if Nat.eqb d 3 then det3 F else det2 F.
Definition neo_traction (d : nat) (mu lambda : R) (F : nat -> nat -> R) (A : nat -> R) (i : nat) : R :=
  let b := 1 - 1/(1 + frob2 d F) in let J := det d F in
  sumn d (fun j => (mu*b/J * sumn d (fun k => F i k * F j k) + (lambda*(J-1) - 3/4*mu) * delta i j) * A j).

(** the displaced nodes are the original ones moved as a rigid body, to first order: translation c plus
    an infinitesimal rotation (antisymmetric W) *)
Definition small_rigid (m : me) (x : nat -> nat -> R) (disp : nat -> R) (c : nat -> R) (W : nat -> nat -> R) : Prop :=
  (forall i j, (i < ndim m)%nat -> (j < ndim m)%nat -> W i j = - W j i) /\
  forall ic i, (ic < npe m)%nat -> (i < ndim m)%nat -> disp (ic*ndim m+i)%nat = c i + sumn (ndim m) (fun j => W i j * x ic j).
(** ... or finitely: x -> c + Q x with Q orthogonal *)
Definition rigid (m : me) (x : nat -> nat -> R) (disp : nat -> R) (c : nat -> R) (Q : nat -> nat -> R) : Prop :=
  (forall i j, (i < ndim m)%nat -> (j < ndim m)%nat -> sumn (ndim m) (fun k => Q i k * Q j k) = delta i j) /\
  forall ic i, (ic < npe m)%nat -> (i < ndim m)%nat -> x ic i + disp (ic*ndim m+i)%nat = c i + sumn (ndim m) (fun j => Q i j * x ic j).
