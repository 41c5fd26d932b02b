(** Finite-element (Galerkin) kernels.
    Files: kernel/ScalarDiffFemKernel.C, ScalarAdvFemKernel.C, ScalarMassFemKernel.C, HeatCondMassFemKernel.C,
    ScalarPngFemKernel.C, ScalarPngBcFemKernel.C, ScalarOpenAdvFemKernel.C, ScalarFluxPenaltyFemKernel.C,
    ContinuityAdvFemKernel.C, ContinuityInflowFemKernel.C, ContinuityOpenFemKernel.C, MomentumAdvFemKernel.C,
    MomentumDiffFemKernel.C, MomentumMassFemKernel.C, MomentumBodyForceFemKernel.C, MomentumOpenAdvDiffFemKernel.C,
    master_element/Hex8FEM.C, Tet10FEM.C, Tri6FEM.C.
    Simplifications: real arithmetic, one SIMD lane, one element (the local system of Elem_Model); nodal vectors are
    functions of the flat index node*nDim+component; the element data are collected in a record. *)
Require Import Reals List Bool.
From Verif Require Import ME_Model ME_Shape_Model Tensor_Model Edge_Model Elem_Model.
Import ListNotations.
Open Scope R_scope.

(** what a volume kernel reads of one element: nodesPerElement_, numGp_, nDim_, v_shape_function_(ip,ic),
    dndx_fem(ip,ic,j), det_j_fem(ip), v_ip_weight_(ip) *)
Record fem := mkFem { f_npe : nat; f_ngp : nat; f_dim : nat;
  f_N : nat -> nat -> R; f_dn : nat -> nat -> nat -> R; f_det : nat -> R; f_wt : nat -> R }.
(** ipFactor, e.g. ScalarDiffFemKernel.C:90 *)
Definition ipF (m : fem) (ip : nat) : R := f_det m ip * f_wt m ip.
(** interpolation loops, e.g. ScalarDiffFemKernel.C:83-87 *)
Definition at_gp (m : fem) (q : nat -> R) (ip : nat) : R := sumn (f_npe m) (fun ic => f_N m ip ic * q ic).

(** ScalarDiffFemKernel.C:80-113 *)
Definition fem_diff (m : fem) (coef q : nat -> R) (s0 : esys) : esys :=
  loop (f_ngp m) (fun ip s =>
    let k := at_gp m coef ip in
    loop (f_npe m) (fun ir s =>
      let '(s, rhsSum) := loop (f_npe m) (fun ic st =>
          let '(s, rhsSum) := st in
          let '(lhsSum, rhsSum) := loop (f_dim m) (fun j x =>
              let fac := f_dn m ip ir j * f_dn m ip ic j in
              (fst x + fac, snd x + fac*q ic)) (0, rhsSum) in
          (addL ir ic (lhsSum*k*ipF m ip) s, rhsSum)) (s, 0) in
      addB ir (- (rhsSum*k*ipF m ip)) s) s) s0.

(** ScalarAdvFemKernel.C:80-121; the density and velocity are interpolated as a product; [v] flat *)
Definition rhoU_gp (m : fem) (rho v : nat -> R) (ip j : nat) : R :=
  sumn (f_npe m) (fun ic => f_N m ip ic * rho ic * v (ic*f_dim m+j)%nat).
Definition fem_adv (m : fem) (rho v q : nat -> R) (s0 : esys) : esys :=
  loop (f_ngp m) (fun ip s =>
    let qIp := at_gp m q ip in
    loop (f_npe m) (fun ir s =>
      let massFlux := loop (f_dim m) (fun j a => a - rhoU_gp m rho v ip j * f_dn m ip ir j) 0 in
      let s := loop (f_npe m) (fun ic s => addL ir ic (massFlux*f_N m ip ic*ipF m ip) s) s in
      addB ir (- (massFlux*qIp*ipF m ip)) s) s) s0.

(** ScalarMassFemKernel.C:102-143 *)
Definition fem_mass (m : fem) (t : dts) (r1 r0 rm q1 q0 qm : nat -> R) (s0 : esys) : esys :=
  loop (f_ngp m) (fun ip s =>
    loop (f_npe m) (fun ir s =>
      let w := f_N m ip ir in
      let s := loop (f_npe m) (fun ic s =>
          addL ir ic (ga1 t*at_gp m r1 ip*w*f_N m ip ic/dt t*ipF m ip) s) s in
      addB ir (- (w*(ga1 t*at_gp m q1 ip*at_gp m r1 ip + ga2 t*at_gp m q0 ip*at_gp m r0 ip
                     + ga3 t*at_gp m qm ip*at_gp m rm ip)/dt t*ipF m ip)) s) s) s0.

(** HeatCondMassFemKernel.C:98-134 *)
Definition fem_heat_mass (m : fem) (t : dts) (rho cp t1 t0 tm : nat -> R) (s0 : esys) : esys :=
  loop (f_ngp m) (fun ip s =>
    let F := at_gp m rho ip * at_gp m cp ip * f_det m ip * f_wt m ip in
    loop (f_npe m) (fun ir s =>
      let w := f_N m ip ir in
      let '(s, rhsSum) := loop (f_npe m) (fun ic st =>
          let '(s, rhsSum) := st in
          let tdot := (ga1 t*t1 ic + ga2 t*t0 ic + ga3 t*tm ic)/dt t in
          let fac := w*f_N m ip ic in
          (addL ir ic (ga1 t*F*fac/dt t) s, rhsSum + fac*tdot)) (s, 0) in
      addB ir (- (rhsSum*F)) s) s) s0.

(** ScalarPngFemKernel.C:90-120: projected nodal gradient, [G] flat *)
Definition fem_png (m : fem) (q G : nat -> R) (s0 : esys) : esys :=
  let d := f_dim m in
  loop (f_ngp m) (fun ip s =>
    let qIp := at_gp m q ip in
    loop (f_npe m) (fun ir s =>
      let w := f_N m ip ir in
      loop d (fun j s =>
        let s := loop (f_npe m) (fun ic s => addL (ir*d+j)%nat (ic*d+j)%nat (w*f_N m ip ic*ipF m ip) s) s in
        addB (ir*d+j)%nat (- ((w*at_gp m (fun ic => G (ic*d+j)%nat) ip + f_dn m ip ir j*qIp)*ipF m ip)) s) s) s) s0.

(** ContinuityAdvFemKernel.C:122-167; shiftedGradOp_ and reducedSensitivities_ select the same dndx_fem in both
    branches (lines 121-124), so there is one gradient operator; [v], [Gp] flat *)
Definition fem_continuity (m : fem) (tau : R) (rho p v Gp : nat -> R) (s0 : esys) : esys :=
  let d := f_dim m in
  loop (f_ngp m) (fun ip s =>
    let dpdx := fun j => sumn (f_npe m) (fun ic => f_dn m ip ic j * p ic) in
    let GpIp := fun j => sumn (f_npe m) (fun ic => f_N m ip ic * Gp (ic*d+j)%nat) in
    loop (f_npe m) (fun ir s =>
      let rhsSum := loop d (fun j a => a - (rhoU_gp m rho v ip j - tau*(dpdx j - GpIp j))*f_dn m ip ir j) 0 in
      let s := loop (f_npe m) (fun ic s =>
          let lhsSum := loop d (fun j a => a + f_dn m ip ir j * f_dn m ip ic j) 0 in
          addL ir ic (lhsSum*ipF m ip) s) s in
      addB ir (- (rhsSum*ipF m ip/tau)) s) s) s0.

(** MomentumAdvFemKernel.C:116-183; [skew] = skewFac_, [pstab] = includePstab_ *)
Definition fem_mom_adv (m : fem) (skew pstab tau : R) (rho p v Gp u : nat -> R) (s0 : esys) : esys :=
  let d := f_dim m in
  loop (f_ngp m) (fun ip s =>
    let dpdx := fun j => sumn (f_npe m) (fun ic => f_dn m ip ic j * p ic) in
    let GpIp := fun j => sumn (f_npe m) (fun ic => f_N m ip ic * Gp (ic*d+j)%nat) in
    loop (f_npe m) (fun ir s =>
      let w := f_N m ip ir in
      let massFlux := loop d (fun j a => a - (rhoU_gp m rho v ip j - pstab*(tau*(dpdx j - GpIp j)))*f_dn m ip ir j) 0 in
      loop (f_npe m) (fun ic s =>
        loop d (fun i s =>
          let f1 := skew*massFlux*f_N m ip ic*ipF m ip in
          let s := addL (ir*d+i)%nat (ic*d+i)%nat f1 s in
          let s := addB (ir*d+i)%nat (- (f1*u (ic*d+i)%nat)) s in
          let '(s, sum2) := loop d (fun j st =>
              let '(s, a) := st in
              let a := a + (1 - skew)*w*rhoU_gp m rho v ip j*f_dn m ip ic j*ipF m ip in
              let f3 := (1 - skew)*w*rhoU_gp m rho v ip j*f_dn m ip ic i*ipF m ip in
              let s := addL (ir*d+i)%nat (ic*d+j)%nat (f3*0) s in
              (addB (ir*d+i)%nat (- (f3*u (ic*d+j)%nat)) s, a)) (s, 0) in
          let s := addL (ir*d+i)%nat (ic*d+i)%nat sum2 s in
          addB (ir*d+i)%nat (- (sum2*u (ic*d+i)%nat)) s) s) s) s) s0.
(** MomentumAdvFemKernel.h: skewFac_(1.0), includePstab_ from the constructor: the shipped kernel *)
Definition fem_mom_adv_shipped (m : fem) (tau : R) := fem_mom_adv m 1 1 tau.

(** MomentumDiffFemKernel.C:90-141 *)
Definition fem_divU (m : fem) (u : nat -> R) (ip : nat) : R :=
  sumn (f_npe m) (fun ic => sumn (f_dim m) (fun j => f_dn m ip ic j * u (ic*f_dim m+j)%nat)).
Definition fem_mom_diff (m : fem) (includeDivU : R) (mu u : nat -> R) (s0 : esys) : esys :=
  let d := f_dim m in
  loop (f_ngp m) (fun ip s =>
    let muIp := at_gp m mu ip in
    let divUstress := 2/3*muIp*fem_divU m u ip*includeDivU in
    loop (f_npe m) (fun ir s =>
      loop (f_npe m) (fun ic s =>
        loop d (fun i s =>
          let s := addB (ir*d+i)%nat (- (- divUstress*f_dn m ip ir i*ipF m ip)) s in
          let '(s, lhsSum) := loop d (fun j st =>
              let '(s, a) := st in
              let a := a + muIp*f_dn m ip ir j*f_dn m ip ic j*ipF m ip in
              let f := muIp*f_dn m ip ir j*f_dn m ip ic i*ipF m ip in
              let s := addL (ir*d+i)%nat (ic*d+j)%nat f s in
              (addB (ir*d+i)%nat (- (f*u (ic*d+j)%nat)) s, a)) (s, 0) in
          let s := addL (ir*d+i)%nat (ic*d+i)%nat lhsSum s in
          addB (ir*d+i)%nat (- (lhsSum*u (ic*d+i)%nat)) s) s) s) s) s0.

(** MomentumMassFemKernel.C:116-152 *)
Definition fem_mom_mass (m : fem) (t : dts) (r1 r0 rm u1 u0 um Gp : nat -> R) (s0 : esys) : esys :=
  let d := f_dim m in
  loop (f_ngp m) (fun ip s =>
    loop (f_npe m) (fun ir s =>
      let w := f_N m ip ir in
      loop (f_npe m) (fun ic s =>
        loop d (fun i s =>
          let s := addL (ir*d+i)%nat (ic*d+i)%nat (w*ga1 t*at_gp m r1 ip*f_N m ip ic/dt t*ipF m ip) s in
          addB (ir*d+i)%nat (- (w*((ga1 t*at_gp m r1 ip*u1 (ic*d+i)%nat + ga2 t*at_gp m r0 ip*u0 (ic*d+i)%nat
                 + ga3 t*at_gp m rm ip*um (ic*d+i)%nat)/dt t + Gp (ic*d+i)%nat)*f_N m ip ic*ipF m ip)) s) s) s) s) s0.

(** MomentumBodyForceFemKernel.C:87-102 *)
Definition fem_body_force (m : fem) (bf : nat -> R) (s0 : esys) : esys :=
  let d := f_dim m in
  loop (f_ngp m) (fun ip s =>
    loop (f_npe m) (fun ir s =>
      loop d (fun i s => addB (ir*d+i)%nat (f_N m ip ir*bf i*ipF m ip) s) s) s) s0.

(* ------------------------------------------------------------------ faces *)
(** what a face kernel reads: nodesPerFace_, numFaceIp_, the element's nodesPerElement_ and nDim_,
    side_node_ordinals, vf_shape_function_(ip,ic), dndx_fc_elem(ip,ic,j), det_j*weight, unit normal *)
Record ffem := mkFF { ff_npf : nat; ff_nip : nat; ff_npe : nat; ff_dim : nat; ff_ord : nat -> nat;
  ff_N : nat -> nat -> R; ff_dn : nat -> nat -> nat -> R; ff_det : nat -> R; ff_wt : nat -> R; ff_nrm : nat -> nat -> R }.
Definition ff_ipF (m : ffem) (ip : nat) : R := ff_det m ip * ff_wt m ip.
Definition at_fip (m : ffem) (q : nat -> R) (ip : nat) : R := sumn (ff_npf m) (fun ic => ff_N m ip ic * q ic).

(** ScalarPngBcFemKernel.C:75-97: a face system; nodesPerElement_ of the face topology = nodesPerFace_ *)
Definition fem_png_bc (m : ffem) (q : nat -> R) (s0 : esys) : esys :=
  let d := ff_dim m in
  loop (ff_nip m) (fun ip s =>
    loop (ff_npf m) (fun ir s =>
      loop d (fun j s => addB (ir*d+j)%nat (ff_N m ip ir*at_fip m q ip*ff_ipF m ip*ff_nrm m ip j) s) s) s) s0.

(** ContinuityInflowFemKernel.C:94-125 *)
Definition fem_inflow (m : ffem) (tau : R) (rho v : nat -> R) (s0 : esys) : esys :=
  let d := ff_dim m in
  loop (ff_nip m) (fun ip s =>
    let massFlux := loop d (fun j a => a + sumn (ff_npf m) (fun ic => ff_N m ip ic*rho ic*v (ic*d+j)%nat)*ff_nrm m ip j) 0 in
    loop (ff_npf m) (fun ir s => addB ir (- (ff_N m ip ir*massFlux/tau*ff_ipF m ip)) s) s) s0.

(** L^-1, e.g. ContinuityOpenFemKernel.C:136-142 *)
Definition invL (m : ffem) (ip : nat) : R :=
  sumn (ff_npf m) (fun ic => sumn (ff_dim m) (fun j => ff_dn m ip (ff_ord m ic) j * ff_nrm m ip j)).

(** open-boundary data: face fields (indexed by face node), except pE = element pressure *)
Record fopen := mkFO { o_pen : R; o_tau : R; o_rho : nat -> R; o_v : nat -> R; o_Gp : nat -> R;
  o_p : nat -> R; o_pbc : nat -> R; o_dyn : nat -> R; o_pE : nat -> R }.
(** ContinuityOpenFemKernel.C:144-175 = ScalarOpenAdvFemKernel.C:156-187 = MomentumOpenAdvDiffFemKernel.C:172-211 *)
Definition open_flux (m : ffem) (o : fopen) (ip : nat) : R :=
  let d := ff_dim m in
  let pBip := at_fip m (o_p o) ip in
  let pbcBip := - o_dyn o ip + at_fip m (o_pbc o) ip in
  loop d (fun j a => a + (sumn (ff_npf m) (fun ic => ff_N m ip ic*o_rho o ic*o_v o (ic*d+j)%nat)
      - o_tau o*(sumn (ff_npe m) (fun ic => ff_dn m ip ic j*o_pE o ic)
                 - sumn (ff_npf m) (fun ic => ff_N m ip ic*o_Gp o (ic*d+j)%nat)))*ff_nrm m ip j)
    (o_pen o*o_tau o*invL m ip*(pBip - pbcBip)).

(** ContinuityOpenFemKernel.C:125-199 *)
Definition fem_cont_open (m : ffem) (o : fopen) (s0 : esys) : esys :=
  loop (ff_nip m) (fun ip s =>
    let F := ff_ipF m ip in
    loop (ff_npf m) (fun ir s =>
      let w := ff_N m ip ir in let r := ff_ord m ir in
      let s := loop (ff_npf m) (fun ic s => addL r (ff_ord m ic) (w*ff_N m ip ic*o_pen o*invL m ip*F) s) s in
      let s := loop (ff_npe m) (fun ic s =>
          let lhsFac := loop (ff_dim m) (fun j a => a + - ff_dn m ip ic j*ff_nrm m ip j) 0 in
          addL r ic (w*lhsFac*F) s) s in
      addB r (- (w*open_flux m o ip/o_tau o*F)) s) s) s0.

(** ScalarOpenAdvFemKernel.C:135-224; [q] element field, [qbc] face field; the face values of q are those of
    the element's face nodes *)
Definition fem_scalar_open (m : ffem) (o : fopen) (q qbc : nat -> R) (s0 : esys) : esys :=
  loop (ff_nip m) (fun ip s =>
    let F := ff_ipF m ip in
    let massFlux := open_flux m o ip in
    let qBip := at_fip m (fun ic => q (ff_ord m ic)) ip in
    let qEnt := at_fip m qbc ip in
    let leaving := if Rlt_dec 0 massFlux then 1 else 0 in
    let advL := massFlux*qBip*F in
    let advE := massFlux*qEnt*F in
    let facL := massFlux*F*leaving in
    loop (ff_npf m) (fun ir s =>
      let w := ff_N m ip ir in let r := ff_ord m ir in
      let s := addB r (- (w*advL*leaving)) s in
      let s := loop (ff_npf m) (fun ic s => addL r (ff_ord m ic) (w*ff_N m ip ic*facL) s) s in
      addB r (- (w*advE*(1 - leaving))) s) s) s0.

(** ScalarFluxPenaltyFemKernel.C:107-172; penaltyFac_ = 2 (line 38) *)
Definition fem_flux_penalty (m : ffem) (pen : R) (coef : nat -> R) (q qbc : nat -> R) (s0 : esys) : esys :=
  loop (ff_nip m) (fun ip s =>
    let qBip := at_fip m (fun ic => q (ff_ord m ic)) ip in
    let qbcBip := at_fip m qbc ip in
    let k := at_fip m coef ip in
    let flux := loop (ff_dim m) (fun j a => a - k*sumn (ff_npe m) (fun ic => ff_dn m ip ic j*q ic)*ff_nrm m ip j)
                  (pen*k*invL m ip*(qBip - qbcBip)) in
    let F := ff_ipF m ip in
    loop (ff_npf m) (fun ir s =>
      let w := ff_N m ip ir in let r := ff_ord m ir in
      let s := addB r (- (w*flux*F)) s in
      let s := loop (ff_npf m) (fun ic s => addL r (ff_ord m ic) (w*ff_N m ip ic*pen*k*invL m ip*F) s) s in
      loop (ff_npe m) (fun ic s =>
          let lhsFac := loop (ff_dim m) (fun j a => a + - ff_dn m ip ic j*ff_nrm m ip j) 0 in
          addL r ic (w*k*lhsFac*F) s) s) s) s0.

(** MomentumOpenAdvDiffFemKernel.C:149-340; [u] element field (flat), [ubc], [vm] face fields (flat): specified
    entrainment velocity and mesh velocity; [mvcf] = meshVelocityCorrection_ *)
Definition fem_mom_open (m : ffem) (o : fopen) (includeDivU mvcf : R) (mu ubc vm u : nat -> R) (s0 : esys) : esys :=
  let d := ff_dim m in
  loop (ff_nip m) (fun ip s =>
    let F := ff_ipF m ip in
    let visc := at_fip m mu ip in
    let rhoB := at_fip m (o_rho o) ip in
    let massFlux := open_flux m o ip in
    let leaving := if Rlt_dec 0 massFlux then 1 else 0 in
    let uB := fun i => at_fip m (fun ic => u (ff_ord m ic*d+i)%nat) ip in
    let uspec := fun i => at_fip m (fun ic => ubc (ic*d+i)%nat) ip in
    let mvc := loop d (fun j a => a + sumn (ff_npf m) (fun ic => ff_N m ip ic*o_rho o ic*vm (ic*d+j)%nat)*ff_nrm m ip j) 0 in
    let uEnt := massFlux/rhoB + mvc/rhoB*mvcf in
    let uspecn := loop d (fun j a => a + uspec j*ff_nrm m ip j) 0 in
    let s := loop d (fun i s =>
      let advL := massFlux*uB i*F in
      let facL := massFlux*F*leaving in
      loop (ff_npf m) (fun ir s =>
        let w := ff_N m ip ir in
        let r := (ff_ord m ir*d+i)%nat in
        let s := addB r (- (w*advL*leaving)) s in
        let s := loop (ff_npf m) (fun ic s => addL r (ff_ord m ic*d+i)%nat (w*ff_N m ip ic*facL) s) s in
        let nxi := ff_nrm m ip i in
        let advE := (massFlux*uEnt*nxi + massFlux*(uspec i - uspecn*nxi))*F in
        addB r (- (w*advE*(1 - leaving))) s) s) s in
    loop (ff_npf m) (fun ir s =>
      let w := ff_N m ip ir in
      loop (ff_npe m) (fun ic s =>
        loop d (fun j s =>
          let nj := ff_nrm m ip j in
          let dndxj := ff_dn m ip ic j in
          let uxj := u (ic*d+j)%nat in
          let divUstress := w*2/3*visc*dndxj*uxj*nj*includeDivU*F in
          loop d (fun i s =>
            let r := (ff_ord m ir*d+i)%nat in
            let dndxi := ff_dn m ip ic i in
            let uxi := u (ic*d+i)%nat in
            let nxi := ff_nrm m ip i in
            let om := 1 - nxi*nxi in
            let l1 := - w*visc*dndxj*nj*om*F in
            let s := addL r (ic*d+i)%nat l1 s in
            let s := addB r (- (l1*uxi + divUstress*om)) s in
            let l2 := - w*visc*dndxi*nj*om*F in
            let s := addL r (ic*d+j)%nat l2 s in
            let s := addB r (- (l2*uxj)) s in
            loop d (fun l s =>
              if Nat.eqb i l then s else
                let nxinxl := nxi*ff_nrm m ip l in
                let uxl := u (ic*d+l)%nat in
                let dndxl := ff_dn m ip ic l in
                let l3 := w*visc*dndxj*nj*nxinxl*F in
                let s := addL r (ic*d+l)%nat l3 s in
                let s := addB r (- (l3*uxl + divUstress*nxinxl)) s in
                let l4 := w*visc*dndxl*nj*nxinxl*F in
                let s := addL r (ic*d+j)%nat l4 s in
                addB r (- (l4*uxj)) s) s) s) s) s) s) s0.

(* ------------------------------------------------------------------ master elements *)
(** element data from shape functions N and derivatives D at given points: MasterElementFunctions.h:111-166
    (generic_grad_op_fem) evaluates [grad_op] and [grad_op_det]; [x n j] nodal coordinates *)
Definition fem_of (n ngp : nat) (N : ME_Model.vec -> nat -> R) (D : ME_Model.vec -> nat -> nat -> R)
  (pt : nat -> ME_Model.vec) (wt : nat -> R) (x : nat -> nat -> R) : fem :=
  mkFem n ngp 3 (fun ip => N (pt ip)) (fun ip => grad_op 3 n (D (pt ip)) x) (fun ip => grad_op_det 3 n (D (pt ip)) x) wt.
(** Hex8FEM.C:36-50: unit weights, points +-sqrt(3)/3 *)
Definition hex8_gp (ip : nat) : ME_Model.vec :=
  let g := sqrt 3 / 3 in
  nth ip [V (-g) (-g) (-g); V g (-g) (-g); V g g (-g); V (-g) g (-g);
          V (-g) (-g) g; V g (-g) g; V g g g; V (-g) g g] (V 0 0 0).
(** Hex8FEM.C:108-117 grad_op_fem with the view overloads of shape functions and derivatives *)
Definition hex8_fem (x : nat -> nat -> R) : fem := fem_of 8 8 hex8g_shape hex8g_deriv hex8_gp (fun _ => 1) x.
(** Tet10FEM.C: any points and weights *)
Definition tet10_fem (ngp : nat) (pt : nat -> ME_Model.vec) (wt : nat -> R) (x : nat -> nat -> R) : fem :=
  fem_of 10 ngp tet10_shape tet10_deriv pt wt x.
(** Tri6FEM.C:87-156: area factor and unit normal of a 6-node face at one point; [x n j] face node coordinates *)
Definition tri6_tangent (s : ME_Model.vec) (x : nat -> nat -> R) (c j : nat) : R :=
  sumn 6 (fun n => tri6_deriv s n c * x n j).
Definition tri6_areavec (s : ME_Model.vec) (x : nat -> nat -> R) (j : nat) : R :=
  let ds := tri6_tangent s x 0 in let dt := tri6_tangent s x 1 in
  match j with
  | 0%nat => ds 1%nat*dt 2%nat - dt 1%nat*ds 2%nat
  | 1%nat => - ds 0%nat*dt 2%nat + dt 0%nat*ds 2%nat
  | _ => ds 0%nat*dt 1%nat - dt 0%nat*ds 1%nat end.
Definition tri6_det (s : ME_Model.vec) (x : nat -> nat -> R) : R :=
  sqrt (tri6_areavec s x 2*tri6_areavec s x 2 + tri6_areavec s x 0*tri6_areavec s x 0 + tri6_areavec s x 1*tri6_areavec s x 1).
Definition tri6_normal (s : ME_Model.vec) (x : nat -> nat -> R) (j : nat) : R := tri6_areavec s x j / tri6_det s x.
(** Tri6FEM.C:54-61 weights *)
Definition tri6_weights : list R :=
  [1125/10000; 629695902724135/10000000000000000; 629695902724135/10000000000000000; 629695902724135/10000000000000000;
   66197076394253/1000000000000000; 66197076394253/1000000000000000; 66197076394253/1000000000000000].
