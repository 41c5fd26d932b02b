(** Solid / mesh displacement equation.
    Files: kernel/MeshDisplacementElasticElemKernel.C, kernel/MeshDisplacementSimplifiedNeohookeanElemKernel.C,
    kernel/MeshDisplacementMassElemKernel.C, mesh_motion/MeshDisplacementEquationSystem.C,
    mesh_motion/AssemblePressureForceBCSolverAlgorithm.C, Realm.C (setup_property, constant properties).
    Simplifications: real arithmetic, one SIMD lane, one element (the local system of Elem_Model); nodal
    displacements are functions of the flat index node*nDim+component. The choice between model and current
    coordinates (deformWrtModelCoords_) only selects which master-element data [m] is passed in. *)
Require Import Reals List Bool.
From Verif Require Import Edge_Model Elem_Model.
Import ListNotations.
Open Scope R_scope.

(** kd[] of MeshDisplacementElasticElemKernel.C:92-99 *)
Definition kd (i j : nat) : R := if Nat.eqb i j then 1 else 0.

(** MeshDisplacementElasticElemKernel.C:108-168 *)
Definition elastic (m : me) (mu lambda disp : nat -> R) (s0 : esys) : esys :=
  let d := ndim m in
  loop (nscs m) (fun ip s =>
    let il := (lrL m ip * d)%nat in let ir := (lrR m ip * d)%nat in
    let muIp := at_scs m mu ip in
    let lambdaIp := at_scs m lambda ip in
    loop (npe m) (fun ic s =>
      let icN := (ic*d)%nat in
      loop d (fun i s =>
        let indexL := (il+i)%nat in let indexR := (ir+i)%nat in
        let '(s, riC) := loop d (fun j st =>
            let '(s, acc) := st in
            let axj := area m ip j in
            let dxj := disp (icN+j)%nat in
            let f_i := - muIp * dndx m ip ic j * axj in
            let acc := acc + f_i in
            let f_j := - muIp * dndx m ip ic i * axj in
            let s := addL indexL (icN+j)%nat f_j s in
            let s := addL indexR (icN+j)%nat (- f_j) s in
            let s := addB indexL (- (f_j*dxj)) s in
            let s := addB indexR (f_j*dxj) s in
            let s := loop d (fun l s =>
                let fDiv := - lambdaIp * kd i j * dndx m ip ic l * axj in
                let s := addL indexL (icN+l)%nat fDiv s in
                let s := addL indexR (icN+l)%nat (- fDiv) s in
                let dxl := disp (icN+l)%nat in
                let s := addB indexL (- (fDiv*dxl)) s in
                addB indexR (fDiv*dxl) s) s in
            (s, acc)) (s, 0) in
        let s := addL indexL (icN+i)%nat riC s in
        let s := addL indexR (icN+i)%nat (- riC) s in
        let dxi := disp (icN+i)%nat in
        let s := addB indexL (- (riC*dxi)) s in
        addB indexR (riC*dxi) s) s) s) s0.

(* ------------------------------------------------------------------ simplified neo-Hookean *)
(** MeshDisplacementSimplifiedNeohookeanElemKernel.C:124-141: lagged deformation gradient *)
Definition gradTens (m : me) (disp : nat -> R) (ip i j : nat) : R :=
  sumn (npe m) (fun ic => dndx m ip ic j * disp (ic*ndim m+i)%nat) + kd i j.
(** lines 143-152; the two unrolled branches are sums over the columns *)
Definition Iconst (m : me) (disp : nat -> R) (ip : nat) : R :=
  let F := gradTens m disp ip in
  if Nat.eqb (ndim m) 3
  then sumn 3 (fun i => F 0%nat i * F 0%nat i + F 1%nat i * F 1%nat i + F 2%nat i * F 2%nat i)
  else sumn (ndim m) (fun i => F 0%nat i * F 0%nat i + F 1%nat i * F 1%nat i).
(** line 154 *)
Definition beta (m : me) (disp : nat -> R) (ip : nat) : R := 1 - 1/(1 + Iconst m disp ip).
(** lines 155-158 *)
Definition Jdet (m : me) (disp : nat -> R) (ip : nat) : R :=
  let F := gradTens m disp ip in
  if Nat.eqb (ndim m) 3
  then F 0%nat 0%nat * (F 1%nat 1%nat * F 2%nat 2%nat - F 2%nat 1%nat * F 1%nat 2%nat)
     - F 0%nat 1%nat * (F 1%nat 0%nat * F 2%nat 2%nat - F 2%nat 0%nat * F 1%nat 2%nat)
     + F 0%nat 2%nat * (F 1%nat 0%nat * F 2%nat 1%nat - F 2%nat 0%nat * F 1%nat 1%nat)
  else F 0%nat 0%nat * F 1%nat 1%nat - F 1%nat 0%nat * F 0%nat 1%nat.

(** lines 106-217; the lagged quantities of one point are computed before the assembly loops *)
Definition neohookean (m : me) (mu lambda disp : nat -> R) (s0 : esys) : esys :=
  let d := ndim m in
  loop (nscs m) (fun ip s =>
    let il := (lrL m ip * d)%nat in let ir := (lrR m ip * d)%nat in
    let muIp := at_scs m mu ip in
    let lambdaIp := at_scs m lambda ip in
    let F := gradTens m disp ip in
    let be := beta m disp ip in
    let J := Jdet m disp ip in
    let s := loop (npe m) (fun ic s =>
      let icN := (ic*d)%nat in
      loop d (fun i s =>
        let indexL := (il+i)%nat in let indexR := (ir+i)%nat in
        let dxi := disp (icN+i)%nat in
        let '(s, riC) := loop d (fun j st =>
            let '(s, acc) := st in
            let axj := area m ip j in
            let dxj := disp (icN+j)%nat in
            let s := loop d (fun k s =>
                let factor := F i k / J in
                let f_k := - (muIp*be) * factor * dndx m ip ic k * axj in
                let s := addL indexL (icN+j)%nat f_k s in
                let s := addL indexR (icN+j)%nat (- f_k) s in
                let s := addB indexL (- (f_k*dxj)) s in
                addB indexR (f_k*dxj) s) s in
            let f_j := - ((muIp*be)/J) * dndx m ip ic j * axj in
            let acc := acc + f_j in
            let f_i := - ((muIp*be)/J) * dndx m ip ic i * axj in
            let s := addL indexL (icN+j)%nat f_i s in
            let s := addL indexR (icN+j)%nat (- f_i) s in
            let s := addB indexL (- (f_i*dxj)) s in
            let s := addB indexR (f_i*dxj) s in
            (s, acc)) (s, 0) in
        let s := addL indexL (icN+i)%nat riC s in
        let s := addL indexR (icN+i)%nat (- riC) s in
        let s := addB indexL (- (riC*dxi)) s in
        addB indexR (riC*dxi) s) s) s in
    loop d (fun i s =>
      let indexL := (il+i)%nat in let indexR := (ir+i)%nat in
      loop d (fun j s =>
        let axj := area m ip j in
        let v := lambdaIp * kd i j * axj * (J - (1 + 75/100*muIp/lambdaIp)) + (muIp*be/J) * kd i j * axj in
        let s := addB indexL v s in
        addB indexR (- v) s) s) s) s0.

(* ------------------------------------------------------------------ inertia *)
(** MeshDisplacementMassElemKernel.C:76-85, setup: second-derivative weights from the two last time steps *)
Record gam2 := mkG2 { gm1 : R; gm2 : R; gm3 : R }.
Definition disp_gamma (dt dtm : R) : gam2 :=
  let dt_avg := (1/2)*dt + dtm in
  mkG2 (1/(dt*dt_avg)) (- 1/(dt*dt_avg) - 1/(dtm*dt_avg)) (1/(dtm*dt_avg)).
(** line 44-45: with two stored states the older state is the current one *)
Definition disp_nm1 (numStates : nat) (dn dnm1 : nat -> R) : nat -> R := if Nat.eqb numStates 2 then dn else dnm1.

(** lines 108-152 *)
Definition disp_mass (m : me) (g : gam2) (rho d1 d0 dm : nat -> R) (s0 : esys) : esys :=
  let d := ndim m in
  loop (nscv m) (fun ip s =>
    let nn := (nearest m ip * d)%nat in
    let rhoIp := at_scv m rho ip in
    let V := vol m ip in
    let s := loop (npe m) (fun ic s =>
      let lhsMass := rhoIp * Nv m ip ic * gm1 g in
      let icN := (ic*d)%nat in
      loop d (fun j s => addL (nn+j)%nat (icN+j)%nat (lhsMass*V) s) s) s in
    loop d (fun j s =>
      let a1 := at_scv m (fun ic => d1 (ic*d+j)%nat) ip in
      let a0 := at_scv m (fun ic => d0 (ic*d+j)%nat) ip in
      let am := at_scv m (fun ic => dm (ic*d+j)%nat) ip in
      let mass := rhoIp * (gm1 g*a1 + gm2 g*a0 + gm3 g*am) in
      addB (nn+j)%nat (- (mass*V)) s) s) s0.

(* ------------------------------------------------------------------ pressure load *)
(** AssemblePressureForceBCSolverAlgorithm.C:203-222: one exposed face; [ord ip] is the element's local node of
    face node ip, [N ip ic] the face shape functions, [A ip i] the exposed area vector *)
Definition pressure_force (d npf : nat) (ord : nat -> nat) (N A : nat -> nat -> R) (p : nat -> R) (s0 : esys) : esys :=
  loop npf (fun ip s =>
    let pBip := sumn npf (fun ic => N ip ic * p ic) in
    loop d (fun i s => addB (ord ip*d+i)%nat (- (pBip * A ip i)) s) s) s0.

(* ------------------------------------------------------------------ after the solve *)
(** MeshDisplacementEquationSystem.C:578-603 (one node and component; the states as in [disp_nm1]) *)
Definition current_coordinate (x d1 : R) : R := x + d1.
Definition mesh_velocity (t : dts) (d1 d0 dm : R) : R := (ga1 t*d1 + ga2 t*d0 + ga3 t*dm)/dt t.
(** lines 630-635; [dvdx] is the nodal gradient, flat nDim*i+j *)
Definition div_mesh_velocity (d : nat) (dvdx : nat -> R) : R := sumn d (fun j => dvdx (d*j+j)%nat).

(* ------------------------------------------------------------------ elastic constants *)
(** Enums.h:110-137: the two property identifiers the solid needs, and their names in the input file *)
Inductive lame_id := LAME_MU_ID | LAME_LAMBDA_ID.
(** the fields read by the stress kernels (MeshDisplacementElasticElemKernel.C:45-46) *)
Inductive lame_field := F_lame_mu | F_lame_lambda.
(** MeshDisplacementEquationSystem.C:199-200, property id -> field; [propertyMap_[id] = field], Realm.C:1596 *)
Definition lame_property_map (p : lame_id) : lame_field :=
  match p with LAME_MU_ID => F_lame_lambda | LAME_LAMBDA_ID => F_lame_mu end.
(** Realm.C:1036-1057 and the constant branch: every registered property writes its specified constant to
    its registered field; the value [spec p] is the one given in the input file for that property name *)
Definition lame_constant (spec : lame_id -> R) (f : lame_field) (old : R) : R :=
  fold_left (fun v p => match lame_property_map p, f with
                        | F_lame_mu, F_lame_mu => spec p
                        | F_lame_lambda, F_lame_lambda => spec p
                        | _, _ => v end) [LAME_MU_ID; LAME_LAMBDA_ID] old.
