(** Body forces and heat sources: nodal supplemental algorithms (src/*NodeSuppAlg.C) and element kernels (src/kernel).
    Simplifications: real arithmetic; one node or one element at a time; gathered scalar fields are functions of the
    local node number, vector fields of the flat index node*nDim+component. *)
Require Import Reals List Bool.
From Verif Require Import Edge_Model Elem_Model Turb_Model.
Open Scope R_scope.

(* ------------------------------------------------------------------ nodal momentum sources: (row i of the node's block) *)
(** MomentumBuoyancySrcNodeSuppAlg.C:71-80 *)
Definition buoyancy_node (d : nat) (rhoRef : R) (g : nat -> R) (rho V : R) (s0 : esys) : esys :=
  let fac := (rho - rhoRef)*V in loop d (fun i s => addB i (fac*g i) s) s0.
(** MomentumBoussinesqSrcNodeSuppAlg.C:73-79 *)
Definition boussinesq_node (d : nat) (tRef rhoRef beta : R) (g : nat -> R) (T V : R) (s0 : esys) : esys :=
  let fac := - rhoRef*beta*(T - tRef)*V in loop d (fun i s => addB i (fac*g i) s) s0.
(** MomentumBodyForceSrcNodeSuppAlg.C:63-67 *)
Definition body_force_node (d : nat) (params : nat -> R) (V : R) (s0 : esys) : esys :=
  loop d (fun i s => addB i (V*params i) s) s0.
(** MomentumActuatorSrcNodeSuppAlg.C:63-75; srcLHS is the first component of actuator_source_lhs *)
Definition actuator_node (d : nat) (src srcLHS : nat -> R) (V : R) (s0 : esys) : esys :=
  loop d (fun i s => addL i i (srcLHS 0%nat*V) (addB i (src i*V) s)) s0.

(* ------------------------------------------------------------------ element momentum sources *)
(** MomentumBuoyancySrcElemKernel.C:68-87 *)
Definition buoyancy_elem (m : me) (rhoRef : R) (g rho : nat -> R) (s0 : esys) : esys :=
  loop (nscv m) (fun ip s =>
    let nn := (nearest m ip*ndim m)%nat in
    let fac := (at_scv m rho ip - rhoRef)*vol m ip in
    loop (ndim m) (fun j s => addB (nn+j)%nat (fac*g j) s) s) s0.
(** MomentumBuoyancyBoussinesqSrcElemKernel.C:72-91 *)
Definition boussinesq_elem (m : me) (tRef rhoRef beta : R) (g T : nat -> R) (s0 : esys) : esys :=
  loop (nscv m) (fun ip s =>
    let nn := (nearest m ip*ndim m)%nat in
    let fac := - rhoRef*beta*(at_scv m T ip - tRef)*vol m ip in
    loop (ndim m) (fun j s => addB (nn+j)%nat (fac*g j) s) s) s0.
(** MomentumBodyForceElemKernel.C:76-86 *)
Definition body_force_elem (m : me) (bf : nat -> R) (s0 : esys) : esys :=
  loop (nscv m) (fun ip s =>
    let nn := (nearest m ip*ndim m)%nat in
    loop (ndim m) (fun i s => addB (nn+i)%nat (vol m ip*bf i) s) s) s0.
(** MomentumActuatorSrcElemKernel.C:76-102 *)
Definition actuator_elem (m : me) (src srcLHS : nat -> R) (s0 : esys) : esys :=
  loop (nscv m) (fun ip s =>
    let nn := (nearest m ip*ndim m)%nat in
    loop (ndim m) (fun j s =>
      addL (nn+j)%nat (nn+j)%nat (srcLHS (nearest m ip*ndim m+j)%nat*vol m ip)
        (addB (nn+j)%nat (at_scv m (fun ic => src (ic*ndim m+j)%nat) ip*vol m ip) s)) s) s0.

(* ------------------------------------------------------------------ scalar sources *)
(** VolumetricSrcElemKernel.C:62-68 *)
Definition volumetric_elem (m : me) (src : R) (s0 : esys) : esys :=
  loop (nscv m) (fun ip s => addB (nearest m ip) (src*vol m ip) s) s0.
(** TurbKineticEnergyRodiNodeSourceSuppAlg.C:72-79 *)
Definition rodi_node (d : nat) (beta Pr : R) (g dhdx : nat -> R) (cp mut V : R) (s : nsys) : nsys :=
  (fst s, snd s + beta*mut/Pr*sumn d (fun i => g i*dhdx i)/cp*V).
(** TurbKineticEnergyRodiSrcElemKernel.C:78-91 *)
Definition rodi_elem (m : me) (beta Pr : R) (g dhdx cp mut : nat -> R) (s0 : esys) : esys :=
  loop (nscv m) (fun ip s =>
    let n := nearest m ip in
    addB n (beta*mut n/Pr*sumn (ndim m) (fun i => g i*dhdx (n*ndim m+i)%nat)/cp n*vol m ip) s) s0.
(** TurbKineticEnergyKsgsBuoyancySrcElemKernel.C:132-139 *)
Definition cross_mag (w g : nat -> R) : R :=
  let cx := w 1%nat*g 2%nat - w 2%nat*g 1%nat in
  let cy := - (w 0%nat*g 2%nat - w 2%nat*g 0%nat) in
  let cz := w 0%nat*g 1%nat - w 1%nat*g 0%nat in
  sqrt (cx*cx + cy*cy + cz*cz).
(** lines 88-127 (3-D only); cbrt is the real cube root *)
Definition cbrt (x : R) : R := cpow x (1/3).
Definition ksgs_buoyancy_elem (m : me) (dv : nat -> nat -> nat -> R) (Cb : R) (g rho tke dualVol : nat -> R) (s0 : esys) : esys :=
  loop (nscv m) (fun ip s =>
    let w := fun j => sumn (npe m) (fun ic => dv ip ic j*rho ic) in
    let dotp := sumn 3 (fun i => w i*g i) in
    addB (nearest m ip) (Cb*cbrt (at_scv m dualVol ip)*sqrt (at_scv m tke ip)*(cross_mag w g - dotp)*vol m ip) s) s0.
(** EnthalpyViscousWorkNodeSuppAlg.C:66-91; dudx flat nDim*i+j *)
Definition viscous_work (d : nat) (incl mu : R) (dudx : nat -> R) : R :=
  let divU := sumn d (fun j => dudx (j*d+j)%nat) in
  mu * sumn d (fun i => sumn d (fun j =>
     dudx (d*i+j)%nat*(dudx (d*i+j)%nat + dudx (d*j+i)%nat) - (if Nat.eqb i j then dudx (d*i+j)%nat*2/3*divU*incl else 0))).
Definition viscous_work_node (d : nat) (incl mu : R) (dudx : nat -> R) (V : R) (s : nsys) : nsys :=
  (fst s + 0, snd s + viscous_work d incl mu dudx*V).
(** EnthalpyPressureWorkNodeSuppAlg.C:56-66 *)
Definition pressure_work_node (d : nat) (u dpdx : nat -> R) (V : R) (s : nsys) : nsys :=
  (fst s + 0, snd s + sumn d (fun j => u j*dpdx j)*V).
(** EnthalpyLowSpeedCompressibleNodeSuppAlg.C:62-68 *)
Definition enthalpy_low_speed (dt pN pNp1 V : R) (s : nsys) : nsys := (fst s + 0, snd s + (pNp1 - pN)*V/dt).
(** ContinuityLowSpeedCompressibleNodeSuppAlg.C:66-73 *)
Definition continuity_low_speed (t : dts) (rho p V : R) (s : nsys) : nsys :=
  let tau := dt t/ga1 t in (fst s + rho/p*V/dt t/tau, snd s + 0).
(** EnthalpyPmrSrcNodeSuppAlg.C:55-62, TemperaturePmrSrcNodeSuppAlg.C:54-60 *)
Definition pmr_enthalpy (divQ divQLin cp V : R) (s : nsys) : nsys := (fst s + divQLin/cp*V, snd s - divQ*V).
Definition pmr_temperature (divQ divQLin V : R) (s : nsys) : nsys := (fst s + divQLin*V, snd s - divQ*V).
