(** Vocabulary for the finite-element kernels (C85). *)
Require Import Reals List.
From Verif Require Import Edge_Model Elem_Model Elem_Spec Fem_Model.
Open Scope R_scope.

(** quadrature of a point function over the element *)
Definition integral (m : fem) (f : nat -> R) : R := sumn (f_ngp m) (fun ip => f_det m ip * f_wt m ip * f ip).
(** value and gradient at a point of the finite-element field with nodal values q; component i of a flat vector field *)
Definition value (m : fem) (q : nat -> R) (ip : nat) : R := sumn (f_npe m) (fun ic => f_N m ip ic * q ic).
Definition grad (m : fem) (q : nat -> R) (ip j : nat) : R := sumn (f_npe m) (fun ic => f_dn m ip ic j * q ic).
Definition comp (d : nat) (u : nat -> R) (i : nat) : nat -> R := fun ic => u (ic*d+i)%nat.
(** scalar product of point vectors *)
Definition dot (d : nat) (a b : nat -> R) : R := sumn d (fun j => a j * b j).
(** shape function a and its gradient at a point *)
Definition shape (m : fem) (a : nat) (ip : nat) : R := f_N m ip a.
Definition dshape (m : fem) (a : nat) (ip : nat) : nat -> R := f_dn m ip a.

(** mass flux: interpolated product of density and velocity; with pressure stabilisation *)
Definition mass_flux (m : fem) (rho v : nat -> R) (ip j : nat) : R :=
  sumn (f_npe m) (fun ic => f_N m ip ic * rho ic * v (ic*f_dim m+j)%nat).
Definition stab_flux (m : fem) (tau : R) (rho p v Gp : nat -> R) (ip j : nat) : R :=
  mass_flux m rho v ip j - tau * (grad m p ip j - value m (comp (f_dim m) Gp j) ip).

(** the shape functions sum to one, their gradients to zero; gradients of linear fields are exact; points have positive volume *)
Definition fem_unity (m : fem) : Prop := forall ip, (ip < f_ngp m)%nat -> sumn (f_npe m) (f_N m ip) = 1.
Definition fem_grad_unity (m : fem) : Prop :=
  forall ip j, (ip < f_ngp m)%nat -> (j < f_dim m)%nat -> sumn (f_npe m) (fun ic => f_dn m ip ic j) = 0.
Definition fem_linear_exact (m : fem) (x : nat -> nat -> R) : Prop :=
  forall ip j k, (ip < f_ngp m)%nat -> (j < f_dim m)%nat -> (k < f_dim m)%nat ->
    sumn (f_npe m) (fun ic => f_dn m ip ic j * x ic k) = if Nat.eqb j k then 1 else 0.
Definition fem_positive (m : fem) : Prop := forall ip, (ip < f_ngp m)%nat -> 0 <= f_det m ip * f_wt m ip.

(** entries a kernel adds *)
Definition added (k : esys -> esys) (s : esys) (a b : nat) : R := eL_ (k s) a b - eL_ s a b.
Definition added_rhs (k : esys -> esys) (s : esys) (a : nat) : R := eB (k s) a - eB s a.
Definition symmetric (n : nat) (k : esys -> esys) : Prop :=
  forall s a b, (a < n)%nat -> (b < n)%nat -> added k s a b = added k s b a.
Definition energy (n : nat) (k : esys -> esys) (s : esys) (x : nat -> R) : R :=
  sumn n (fun a => sumn n (fun b => x a * added k s a b * x b)).

(** boundary face: quadrature over the face, value of a face field, value and gradient of the element field *)
Definition f_integral (m : ffem) (f : nat -> R) : R := sumn (ff_nip m) (fun ip => ff_det m ip * ff_wt m ip * f ip).
Definition f_value (m : ffem) (q : nat -> R) (ip : nat) : R := sumn (ff_npf m) (fun ic => ff_N m ip ic * q ic).
Definition trace (m : ffem) (q : nat -> R) : nat -> R := fun ic => q (ff_ord m ic).
Definition f_grad (m : ffem) (q : nat -> R) (ip j : nat) : R := sumn (ff_npe m) (fun ic => ff_dn m ip ic j * q ic).
(** the element's shape function a restricted to the face *)
Definition f_shape (m : ffem) (a ip : nat) : R :=
  sumn (ff_npf m) (fun ir => if Nat.eqb a (ff_ord m ir) then ff_N m ip ir else 0).
Definition ff_unity (m : ffem) : Prop := forall ip, (ip < ff_nip m)%nat -> sumn (ff_npf m) (ff_N m ip) = 1.
Definition ff_map_ok (m : ffem) : Prop := forall ir, (ir < ff_npf m)%nat -> (ff_ord m ir < ff_npe m)%nat.
Definition ff_grad_unity (m : ffem) : Prop :=
  forall ip j, (ip < ff_nip m)%nat -> (j < ff_dim m)%nat -> sumn (ff_npe m) (fun ic => ff_dn m ip ic j) = 0.
Definition ff_unit_normal (m : ffem) : Prop :=
  forall ip, (ip < ff_nip m)%nat -> sumn (ff_dim m) (fun j => ff_nrm m ip j * ff_nrm m ip j) = 1.

(** mass flux out through a point of an open face: interpolated rho*u minus the pressure stabilisation, plus a
    penalty on the difference between pressure and specified pressure less the dynamic pressure *)
Definition open_mass_flux (m : ffem) (o : fopen) (ip : nat) : R :=
  dot (ff_dim m) (fun j => sumn (ff_npf m) (fun ic => ff_N m ip ic * o_rho o ic * o_v o (ic*ff_dim m+j)%nat)
       - o_tau o * (f_grad m (o_pE o) ip j - f_value m (comp (ff_dim m) (o_Gp o) j) ip)) (ff_nrm m ip)
  + o_pen o * o_tau o * invL m ip * (f_value m (o_p o) ip - (f_value m (o_pbc o) ip - o_dyn o ip)).
(** rate of strain pieces: gradient of component i in direction j *)
Definition gradu (m : fem) (u : nat -> R) (ip i j : nat) : R := grad m (comp (f_dim m) u i) ip j.
Definition div (m : fem) (u : nat -> R) (ip : nat) : R := sumn (f_dim m) (fun i => gradu m u ip i i).
(** gradient of velocity component i in direction j at a face point; viscous traction mu (grad u + grad u^T) n *)
Definition f_gradu (m : ffem) (u : nat -> R) (ip i j : nat) : R := f_grad m (comp (ff_dim m) u i) ip j.
Definition f_traction (m : ffem) (mu u : nat -> R) (ip i : nat) : R :=
  f_value m mu ip * dot (ff_dim m) (fun j => f_gradu m u ip i j + f_gradu m u ip j i) (ff_nrm m ip).
(** tangential part of a point vector *)
Definition f_tangential (m : ffem) (t : nat -> R) (ip i : nat) : R := t i - ff_nrm m ip i * dot (ff_dim m) t (ff_nrm m ip).

(** advected velocity at an open face: the interior velocity on outflow; on inflow the normal speed of the entrained
    fluid (the mass flux per density, plus the mesh correction) along the normal and the specified tangential velocity *)
Definition open_velocity (m : ffem) (o : fopen) (mvcf : R) (ubc vm u : nat -> R) (ip i : nat) : R :=
  let d := ff_dim m in let n := ff_nrm m ip in
  if Rlt_dec 0 (open_mass_flux m o ip) then f_value m (trace m (comp d u i)) ip else
    (open_mass_flux m o ip + mvcf * dot d (fun j => sumn (ff_npf m) (fun ic => ff_N m ip ic * o_rho o ic * vm (ic*d+j)%nat)) n) / f_value m (o_rho o) ip * n i
     + f_tangential m (fun j => f_value m (comp d ubc j) ip) ip i.

