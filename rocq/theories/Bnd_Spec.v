(** Vocabulary for the boundary-condition properties; nothing here mentions the kernels' own helpers. *)
Require Import Reals List Bool.
From Verif Require Import Edge_Model Elem_Model Elem_Spec Bnd_Model.
Open Scope R_scope.

(** total of the point quantities F over the np boundary points whose node is i *)
Definition out_at (np : nat) (nn : nat -> nat) (F : nat -> R) (i : nat) : R :=
  sumn np (fun ip => if Nat.eqb i (nn ip) then F ip else 0).
(** a mass flow [m] (positive = leaving the domain) carries the inside value out, the outside value in *)
Definition carried (m inside outside : R) : R := if Rlt_dec 0 m then m*inside else m*outside.
(** the exposed face's node maps stay in the element and are mutually consistent *)
Definition face_ok (f : fe) : Prop :=
  (forall ic, (ic < f_npf f)%nat -> (f_ord f ic < f_npe f)%nat) /\
  (forall ip, (ip < f_ip f)%nat -> (f_lf f ip < f_npf f)%nat /\ f_nn f ip = f_ord f (f_lf f ip)).
Definition opp_ok (f : fe) : Prop := forall ip, (ip < f_npf f)%nat -> (f_op f ip < f_npe f)%nat.
(** component-wise vectors *)
Definition dotp (d : nat) (a b : nat -> R) : R := sumn d (fun i => a i * b i).
Definition normal_part (d : nat) (n T : nat -> R) (i : nat) : R := n i * dotp d n T.
Definition tangential_part (d : nat) (n T : nat -> R) (i : nat) : R := T i - normal_part d n T i.
(** velocity gradient du_i/dx_j at a face point, element scheme *)
Definition grad_u (f : fe) (u : nat -> R) (ip i j : nat) : R :=
  sumn (f_npe f) (fun ic => f_dn f ip ic j * u (ic*f_d f+i)%nat).
(** minus the Newtonian viscous force on area A: (-mu (g + g^T) + 2/3 mu incl (tr g) I) A *)
Definition viscous_flux (d : nat) (mu incl : R) (g : nat -> nat -> R) (A : nat -> R) (i : nat) : R :=
  - mu * sumn d (fun j => (g i j + g j i) * A j) + 2/3*mu*incl*sumn d (fun j => g j j) * A i.
(** gradient operator at the face points is exact on linear fields of the nodal positions *)
Definition face_grad_exact (f : fe) (x : nat -> nat -> R) : Prop :=
  (forall ip j, (ip < f_ip f)%nat -> (j < f_d f)%nat -> sumn (f_npe f) (fun ic => f_dn f ip ic j) = 0) /\
  (forall ip j k, (ip < f_ip f)%nat -> (j < f_d f)%nat -> (k < f_d f)%nat ->
     sumn (f_npe f) (fun ic => f_dn f ip ic j * x ic k) = if Nat.eqb j k then 1 else 0).

(** value leaving through a face point in the element scheme: Peclet blend of the face average and the
    nearest node's value extrapolated along its gradient *)
Definition face_avg (f : fe) (q : nat -> R) (ip : nat) : R := sumn (f_npf f) (fun ic => f_Na f ip ic * q (f_ord f ic)).
Definition leaving_value (f : fe) (o : oupw) (G : nat -> nat -> R) (q : nat -> R) (ip : nat) : R :=
  let nR := f_nn f ip in
  let dx j := face_avg f (fun a => ou_x o (a*f_d f+j)%nat) ip - ou_x o (nR*f_d f+j)%nat in
  let upwind := q nR + ou_hoUpw o * sumn (f_d f) (fun j => dx j * G nR j) in
  ou_pec o ip*(ou_alphaUpw o*upwind + (1 - ou_alphaUpw o)*face_avg f q ip) + (1 - ou_pec o ip)*face_avg f q ip.
