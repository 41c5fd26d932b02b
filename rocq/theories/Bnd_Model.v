(** Open, inflow and symmetry boundary conditions of the low-Mach solver, and the mass closure report.
    Edge scheme: AssembleScalarEdgeOpenSolverAlgorithm.C, ComputeMdotEdgeOpenAlgorithm.C,
      AssembleContinuityEdgeOpenSolverAlgorithm.C, AssembleMomentumEdgeOpenSolverAlgorithm.C,
      AssembleMomentumEdgeSymmetrySolverAlgorithm.C.
    Element scheme: kernel/ScalarOpenAdvElemKernel.C, kernel/ContinuityOpenElemKernel.C,
      ComputeMdotElemOpenAlgorithm.C, kernel/MomentumOpenAdvDiffElemKernel.C,
      kernel/MomentumSymmetryElemKernel.C, kernel/ContinuityInflowElemKernel.C,
      ComputeMdotInflowAlgorithm.C, ComputeDynamicPressureAlgorithm.C, ComputeMdotAlgorithmDriver.C.
    Simplifications: real arithmetic, one SIMD lane; one exposed face at a time with its single parent
    element; fields are functions of the parent element's node number (the code's separate gather "off
    of the face" reads the same nodes through face_node_ordinals); vectors are flat, index
    node*nDim+component. Node numbers may equally be read as mesh node numbers, since the local system
    is then scattered additively to the mesh nodes (apply_coeff, see Sum_Model). Shape functions,
    gradients, areas and node maps are data here; their values are the subject of the ME_* files. *)
Require Import Reals List Bool.
From Verif Require Import Edge_Model Elem_Model.
Import ListNotations.
Open Scope R_scope.

(** an exposed face with its parent element *)
Record fe := mkFe {
  f_ip : nat; f_npf : nat; f_npe : nat; f_d : nat;   (* numFaceIp_, nodesPerFace_, nodesPerElement_, nDim_ *)
  f_ord : nat -> nat;                                 (* side_node_ordinals(face)[ic]: element node of face node ic *)
  f_nn : nat -> nat;                                  (* ipNodeMap(face)[ip]: nearest element node of point ip *)
  f_lf : nat -> nat;                                  (* faceIpNodeMap_[ip]: nearest face node *)
  f_op : nat -> nat;                                  (* opposingNodes(face,ip) *)
  f_N : nat -> nat -> R;                              (* vf_shape_function_(ip,ic) *)
  f_Na : nat -> nat -> R;                             (* vf_adv_shape_function_(ip,ic) *)
  f_dn : nat -> nat -> nat -> R;                      (* v_dndx_fc_elem(ip,ic,j) *)
  f_dnl : nat -> nat -> nat -> R;                     (* v_dndx_fc_elem_lhs(ip,ic,j) *)
  f_A : nat -> nat -> R }.                            (* exposed_area_vector(ip,j) *)

(** face interpolation of an element-node field, and its advection variant *)
Definition at_face (f : fe) (q : nat -> R) (ip : nat) : R := sumn (f_npf f) (fun ic => f_N f ip ic * q (f_ord f ic)).
Definition at_face_adv (f : fe) (q : nat -> R) (ip : nat) : R := sumn (f_npf f) (fun ic => f_Na f ip ic * q (f_ord f ic)).
Definition f_asq (f : fe) (ip : nat) : R := sumn (f_d f) (fun j => f_A f ip j * f_A f ip j).
Definition f_amag (f : fe) (ip : nat) : R := sqrt (f_asq f ip).
Definition f_n (f : fe) (ip i : nat) : R := f_A f ip i / f_amag f ip.

(* ------------------------------------------------------------------ scalar, edge scheme *)
(** AssembleScalarEdgeOpenSolverAlgorithm.C:166-200 *)
Definition scalar_open_edge (f : fe) (mdot q qE : nat -> R) (s0 : esys) : esys :=
  loop (f_npf f) (fun ip s =>
    let nn := f_ord f ip in let tm := mdot ip in
    if Rlt_dec 0 tm then addL nn nn tm (addB nn (- (tm * q nn)) s)
    else addB nn (- (tm * qE nn)) s) s0.

(* ------------------------------------------------------------------ mass flow, edge scheme *)
Record ofields := mkOf {
  of_x : nat -> R; of_p : nat -> R; of_rho : nat -> R; of_v : nat -> R; of_Gp : nat -> R;
  of_pbc : nat -> R; of_dynp : nat -> R }.     (* vectors flat; of_dynp by integration point *)

(** half the edge vector: coordR - 0.5*(coordR+coordL), ComputeMdotEdgeOpenAlgorithm.C:175-176 *)
Definition o_dx (f : fe) (x : nat -> R) (ip j : nat) : R :=
  let R_ := (f_ord f ip * f_d f + j)%nat in let L_ := (f_op f ip * f_d f + j)%nat in
  x R_ - (1/2)*(x R_ + x L_).
Definition o_axdx (f : fe) (x : nat -> R) (ip : nat) : R := sumn (f_d f) (fun j => f_A f ip j * o_dx f x ip j).
(** ComputeMdotEdgeOpenAlgorithm.C:157-194 *)
Definition mdot_open_edge (f : fe) (tau noc : R) (c : ofields) (ip : nat) : R :=
  let nR := f_ord f ip in let nL := f_op f ip in
  let pIp := (1/2)*(of_p c nL + of_p c nR) in
  let bcP := of_pbc c nR - of_dynp c ip in
  let asq := f_asq f ip in let inv := 1 / o_axdx f (of_x c) ip in
  fold_left (fun t j =>
    let axj := f_A f ip j in let dxj := o_dx f (of_x c) ip j in
    let kxj := axj - asq*inv*dxj in
    let G := of_Gp c (nR*f_d f + j)%nat in
    t + ((of_rho c nR * of_v c (nR*f_d f + j)%nat + tau*G)*axj - tau*kxj*G*noc)) (seq 0 (f_d f))
   (- tau*(bcP - pIp)*asq*inv).
(** AssembleContinuityEdgeOpenSolverAlgorithm.C:190-232; the mass flow rate is computed again *)
Definition continuity_open_edge (f : fe) (tau noc : R) (c : ofields) (s0 : esys) : esys :=
  loop (f_npf f) (fun ip s =>
    let nR := f_ord f ip in let nL := f_op f ip in
    let pIp := (1/2)*(of_p c nL + of_p c nR) in
    let bcP := of_pbc c nR - of_dynp c ip in
    let asq := f_asq f ip in let inv := 1 / o_axdx f (of_x c) ip in
    let tmdot := fold_left (fun t j =>
      let axj := f_A f ip j in let dxj := o_dx f (of_x c) ip j in
      let kxj := axj - asq*inv*dxj in
      let G := of_Gp c (nR*f_d f + j)%nat in
      t + ((of_rho c nR * of_v c (nR*f_d f + j)%nat + tau*G)*axj - tau*kxj*G*noc)) (seq 0 (f_d f))
     (- tau*(bcP - pIp)*asq*inv) in
    let s := addB nR (- (tmdot/tau)) s in
    let lhsfac := asq*inv in
    let s := addL nR nR ((1/2)*lhsfac) s in
    addL nR nL ((1/2)*lhsfac) s) s0.

(* ------------------------------------------------------------------ momentum, edge scheme *)
Record vfields := mkVf {
  vf_x : nat -> R; vf_mu : nat -> R; vf_rho : nat -> R;
  vf_G : nat -> nat -> nat -> R;          (* dudx at node: (node, i, j) *)
  vf_bc : nat -> R;                        (* velocity_bc, flat *)
  vf_mv : nat -> R;                        (* mesh velocity, flat *)
  vf_incl : R; vf_noc : R; vf_mvc : R }.   (* includeDivU_, nocFac, meshVelocityCorrection_ *)

Definition v_dx (f : fe) (x : nat -> R) (ip j : nat) : R :=
  x (f_ord f ip * f_d f + j)%nat - x (f_op f ip * f_d f + j)%nat.
Definition v_axdx (f : fe) (x : nat -> R) (ip : nat) : R := sumn (f_d f) (fun j => f_A f ip j * v_dx f x ip j).
(** AssembleMomentumEdgeOpenSolverAlgorithm.C:232-259, AssembleMomentumEdgeSymmetrySolverAlgorithm.C:201-228 *)
Definition v_duidxj (f : fe) (w : vfields) (u : nat -> R) (ip i j : nat) : R :=
  let nR := f_ord f ip in let nL := f_op f ip in
  let uidiff := u (nR*f_d f + i)%nat - u (nL*f_d f + i)%nat in
  let Gl := sumn (f_d f) (fun l => vf_G w nR i l * v_dx f (vf_x w) ip l) in
  vf_G w nR i j * vf_noc w + (uidiff - Gl * vf_noc w) * f_A f ip j * (1 / v_axdx f (vf_x w) ip).
(** open 262-280, symmetry 231-244: the viscous flux of component i *)
Definition v_F (f : fe) (w : vfields) (u : nat -> R) (ip i : nat) : R :=
  let mu := vf_mu w (f_ord f ip) in
  let divU := sumn (f_d f) (fun j => v_duidxj f w u ip j j) in
  fold_left (fun a j => a + - mu*(v_duidxj f w u ip i j + v_duidxj f w u ip j i)*f_A f ip j) (seq 0 (f_d f))
    (2/3*mu*divU*f_A f ip i*vf_incl w).
(** open 281, symmetry 245: its normal component *)
Definition v_Fn (f : fe) (w : vfields) (u : nat -> R) (ip : nat) : R :=
  sumn (f_d f) (fun i => f_n f ip i * v_F f w u ip i).

(** the four accumulations [lhs(rR, L) -= fac; lhs(rR, R) += fac] *)
Definition addRL (row colL colR : nat) (v : R) (s : esys) : esys := addL row colR v (addL row colL (- v) s).

(** AssembleMomentumEdgeOpenSolverAlgorithm.C:288-347: viscous part of one integration point *)
Definition mom_open_visc (f : fe) (w : vfields) (u : nat -> R) (ip : nat) (s0 : esys) : esys :=
  let d := f_d f in let nR := f_ord f ip in let nL := f_op f ip in
  let mu := vf_mu w nR in let asq := f_asq f ip in let inv := 1 / v_axdx f (vf_x w) ip in
  let n := f_n f ip in let A := f_A f ip in
  loop d (fun i s =>
    let rR := (nR*d+i)%nat in let cL := (nL*d+i)%nat in
    let om := 1 - n i * n i in
    let s := addB rR (- (v_F f w u ip i - n i * v_Fn f w u ip)) s in
    let s := addRL rR cL rR (- mu*asq*inv*om) s in
    loop d (fun j s =>
      let s := addRL rR (nL*d+j)%nat (nR*d+j)%nat (- mu*A i*A j*inv*om) s in
      if Nat.eqb i j then s else
      let s := addRL rR (nL*d+j)%nat (nR*d+j)%nat (mu*asq*inv*(n i*n j)) s in
      let s := addRL rR (nL*d+j)%nat (nR*d+j)%nat (mu*A j*A j*inv*(n i*n j)) s in
      addRL rR cL rR (mu*A j*A i*inv*(n i*n j)) s) s) s0.
(** lines 349-388: advection *)
Definition mom_open_adv (f : fe) (w : vfields) (mdot u : nat -> R) (ip : nat) (s0 : esys) : esys :=
  let d := f_d f in let nR := f_ord f ip in let tm := mdot ip in
  let n := f_n f ip in let amag := f_amag f ip in let rho := vf_rho w nR in
  if Rlt_dec 0 tm then
    loop d (fun i s => let rR := (nR*d+i)%nat in addL rR rR tm (addB rR (- (tm * u rR)) s)) s0
  else
    let mvc := sumn d (fun j => rho * vf_mv w (nR*d+j)%nat * f_A f ip j) in
    let uEnt := tm/(rho*amag) + mvc/(rho*amag)*vf_mvc w in
    let uspecxnx := sumn d (fun i => n i * vf_bc w (nR*d+i)%nat) in
    loop d (fun i s => let rR := (nR*d+i)%nat in
      let s := addB rR (- (tm * uEnt * n i)) s in
      addB rR (- (tm * (vf_bc w (nR*d+i)%nat - uspecxnx * n i))) s) s0.
(** AssembleMomentumEdgeOpenSolverAlgorithm.C:193-389 *)
Definition momentum_open_edge (f : fe) (w : vfields) (mdot u : nat -> R) (s0 : esys) : esys :=
  loop (f_npf f) (fun ip s => mom_open_adv f w mdot u ip (mom_open_visc f w u ip s)) s0.

(** AssembleMomentumEdgeSymmetrySolverAlgorithm.C:164-314. The two terms of lines 304 and 308 carry
    no inv_axdx factor in the source. *)
Definition momentum_sym_edge (f : fe) (w : vfields) (u : nat -> R) (s0 : esys) : esys :=
  let d := f_d f in
  loop (f_npf f) (fun ip s =>
    let nR := f_ord f ip in let nL := f_op f ip in
    let mu := vf_mu w nR in let asq := f_asq f ip in let inv := 1 / v_axdx f (vf_x w) ip in
    let n := f_n f ip in let A := f_A f ip in
    loop d (fun i s =>
      let rR := (nR*d+i)%nat in let cL := (nL*d+i)%nat in
      let s := addB rR (- (v_Fn f w u ip * n i)) s in
      let s := addRL rR cL rR (- mu*asq*inv*(n i)*(n i)) s in
      loop d (fun j s =>
        let s := addRL rR (nL*d+j)%nat (nR*d+j)%nat (- mu*A i*A j*inv*(n i*n i)) s in
        if Nat.eqb i j then s else
        let s := addRL rR (nL*d+j)%nat (nR*d+j)%nat (- mu*asq*inv*(n i)*(n j)) s in
        let s := addRL rR (nL*d+j)%nat (nR*d+j)%nat (- mu*A j*A j*(n i)*(n j)) s in
        addRL rR cL rR (- mu*A j*A i*(n i)*(n j)) s) s) s) s0.

(* ------------------------------------------------------------------ scalar, element scheme *)
(** pecfac at a face point is a function of frozen fields (velocityRTM, diffusivity, density);
    kernel/ScalarOpenAdvElemKernel.C:146-162 *)
Record oupw := mkOu { ou_pec : nat -> R; ou_alphaUpw : R; ou_hoUpw : R; ou_x : nat -> R }.
Definition of_xb (f : fe) (o : oupw) (ip j : nat) : R := at_face_adv f (fun a => ou_x o (a*f_d f+j)%nat) ip.
(** lines 141-152, 172: extrapolated upwind value; [G n j] is the nodal gradient at element node n *)
Definition oqUpw (f : fe) (o : oupw) (G : nat -> nat -> R) (q : nat -> R) (ip : nat) : R :=
  let ln := f_ord f (f_lf f ip) in
  q ln + fold_left (fun a i => a + (of_xb f o ip i - ou_x o (f_nn f ip * f_d f + i)%nat) * G ln i * ou_hoUpw o)
           (seq 0 (f_d f)) 0.
(** kernel/ScalarOpenAdvElemKernel.C:118-195 *)
Definition scalar_open_elem (f : fe) (o : oupw) (G : nat -> nat -> R) (mdot q qE : nat -> R) (s0 : esys) : esys :=
  loop (f_ip f) (fun ip s =>
    let nR := f_nn f ip in
    let qIp := at_face_adv f q ip in
    let qIpE := at_face_adv f qE ip in
    let qIpUpw := oqUpw f o G q ip in
    let pf := ou_pec o ip in
    let tm := mdot ip in
    let leaving := if Rlt_dec 0 tm then 1 else 0 in
    let qUp := ou_alphaUpw o * qIpUpw + (1 - ou_alphaUpw o) * qIp in
    let aflux := tm*(pf*qUp + (1-pf)*qIp) in
    let s := addB nR (- (aflux*leaving)) s in
    let s := addL nR nR (tm*pf*ou_alphaUpw o*leaving) s in
    let fac := tm*(pf*(1 - ou_alphaUpw o) + (1-pf))*leaving in
    let s := loop (f_npf f) (fun ic s => addL nR (f_ord f ic) (f_Na f ip ic * fac) s) s in
    addB nR (- (tm*qIpE*(1 - leaving))) s) s0.

(* ------------------------------------------------------------------ mass flow, element scheme *)
(** ComputeMdotElemOpenAlgorithm.C:256-306; [pen] = penaltyFac_ *)
Definition invL (f : fe) (ip : nat) : R :=
  sumn (f_npf f) (fun ic => sumn (f_d f) (fun j => f_dn f ip (f_ord f ic) j * f_A f ip j)) / f_amag f ip.
Definition o_dp (f : fe) (p : nat -> R) (ip j : nat) : R := sumn (f_npe f) (fun ic => f_dn f ip ic j * p ic).
Definition mdot_open_elem (f : fe) (pen tau : R) (c : ofields) (ip : nat) : R :=
  let pB := at_face f (of_p c) ip in
  let pbcB := fold_left (fun a ic => a + f_N f ip ic * of_pbc c (f_ord f ic)) (seq 0 (f_npf f)) (- of_dynp c ip) in
  fold_left (fun t j =>
    let rhoU := sumn (f_npf f) (fun ic => f_N f ip ic * of_rho c (f_ord f ic) * of_v c (f_ord f ic * f_d f + j)%nat) in
    let Gp := sumn (f_npf f) (fun ic => f_N f ip ic * of_Gp c (f_ord f ic * f_d f + j)%nat) in
    t + (rhoU - tau*(o_dp f (of_p c) ip j - Gp))*f_A f ip j) (seq 0 (f_d f))
   (pen*tau*invL f ip*(pB - pbcB)*f_amag f ip).
(** kernel/ContinuityOpenElemKernel.C:128-199; the mass flow rate is computed again *)
Definition continuity_open_elem (f : fe) (pen tau : R) (c : ofields) (s0 : esys) : esys :=
  loop (f_ip f) (fun ip s =>
    let nR := f_nn f ip in
    let pB := at_face f (of_p c) ip in
    let pbcB := fold_left (fun a ic => a + f_N f ip ic * of_pbc c (f_ord f ic)) (seq 0 (f_npf f)) (- of_dynp c ip) in
    let md := fold_left (fun t j =>
      let rhoU := sumn (f_npf f) (fun ic => f_N f ip ic * of_rho c (f_ord f ic) * of_v c (f_ord f ic * f_d f + j)%nat) in
      let Gp := sumn (f_npf f) (fun ic => f_N f ip ic * of_Gp c (f_ord f ic * f_d f + j)%nat) in
      t + (rhoU - tau*(o_dp f (of_p c) ip j - Gp))*f_A f ip j) (seq 0 (f_d f))
     (pen*tau*invL f ip*(pB - pbcB)*f_amag f ip) in
    let s := loop (f_npf f) (fun ic s => addL nR (f_ord f ic) (f_N f ip ic * pen * invL f ip * f_amag f ip) s) s in
    let s := loop (f_npe f) (fun ic s =>
        addL nR ic (sumn (f_d f) (fun j => - f_dnl f ip ic j * f_A f ip j)) s) s in
    addB nR (- (md/tau)) s) s0.

(** kernel/ContinuityInflowElemKernel.C:84-110, AssembleContinuityInflowSolverAlgorithm.C:160-185 and
    ComputeMdotInflowAlgorithm.C:143-165 (the sum reported) *)
Definition mdot_inflow (f : fe) (rho ubc : nat -> R) (ip : nat) : R :=
  sumn (f_d f) (fun j => sumn (f_npf f) (fun ic => f_N f ip ic * rho (f_ord f ic) * ubc (f_ord f ic * f_d f + j)%nat) * f_A f ip j).
Definition continuity_inflow (f : fe) (tau : R) (rho ubc : nat -> R) (s0 : esys) : esys :=
  loop (f_ip f) (fun ip s => addB (f_nn f ip) (- (mdot_inflow f rho ubc ip / tau)) s) s0.

(** ComputeDynamicPressureAlgorithm.C:138-160 *)
Definition dynamic_pressure (f : fe) (rho mdot : nat -> R) (ip : nat) : R :=
  let rhoB := at_face f rho ip in
  let uB := mdot ip / (rhoB * f_amag f ip) in
  if Rlt_dec uB 0 then (1/2)*rhoB*uB*uB else 0.

(* ------------------------------------------------------------------ momentum, element scheme *)
(** kernel/MomentumOpenAdvDiffElemKernel.C:205-276: advection at one point *)
Definition mom_open_adv_elem (f : fe) (o : oupw) (w : vfields) (mdot u : nat -> R) (ip : nat) (s0 : esys) : esys :=
  let d := f_d f in let nR := f_nn f ip in let tm := mdot ip in
  let n := f_n f ip in let amag := f_amag f ip in
  let rhoB := at_face f (vf_rho w) ip in
  let ub j := at_face_adv f (fun a => vf_bc w (a*d+j)%nat) ip in
  let mvc := sumn d (fun j => sumn (f_npf f) (fun ic => f_N f ip ic * vf_rho w (f_ord f ic) * vf_mv w (f_ord f ic * d + j)%nat) * f_A f ip j) in
  let uEnt := tm/(rhoB*amag) + mvc/(rhoB*amag)*vf_mvc w in
  let uspecn := sumn d (fun j => ub j * n j) in
  let leaving := if Rlt_dec 0 tm then 1 else 0 in
  let pf := ou_pec o ip in
  loop d (fun i s =>
    let rR := (nR*d+i)%nat in
    let uiIp := at_face_adv f (fun a => u (a*d+i)%nat) ip in
    let duR := fold_left (fun a j => a + (of_xb f o ip j - ou_x o (nR*d+j)%nat) * vf_G w (f_ord f (f_lf f ip)) i j * ou_hoUpw o) (seq 0 d) 0 in
    let uUpw := ou_alphaUpw o * (u rR + duR) + (1 - ou_alphaUpw o)*uiIp in
    let aflux := tm*(pf*uUpw + (1-pf)*uiIp) in
    let s := addB rR (- (aflux*leaving)) s in
    let s := addL rR rR (tm*pf*ou_alphaUpw o*leaving) s in
    let fac := tm*(pf*(1 - ou_alphaUpw o) + (1-pf))*leaving in
    let s := loop (f_npf f) (fun ic s => addL rR (f_ord f ic * d + i)%nat (f_Na f ip ic * fac) s) s in
    let afluxE := tm*uEnt*n i + tm*(ub i - uspecn*n i) in
    addB rR (- (afluxE*(1 - leaving))) s) s0.
(** lines 281-336 (open, sgn = -1, om = 1 - ni*ni) and kernel/MomentumSymmetryElemKernel.C:117-165
    (symmetry, sgn = 1, om = ni*ni): the two kernels have the same loop nest. [open] selects:
      open:      own = 1-ni*ni,  cross factor of the viscous terms = + ni*nl
      symmetry:  own = ni*ni,    cross factor of the viscous terms = - ni*nl
    and both add  divUstress*own  and  divUstress*ni*nl  to the flux. *)
Definition mom_visc_elem (open : bool) (f : fe) (mu incl : R) (u : nat -> R) (ip : nat) (s0 : esys) : esys :=
  let d := f_d f in let nR := f_nn f ip in let n := f_n f ip in let A := f_A f ip in
  loop (f_npe f) (fun ic s =>
    loop d (fun j s =>
      let axj := A j in let dndxj := f_dn f ip ic j in let uxj := u (ic*d+j)%nat in
      let divUs := 2/3*mu*dndxj*uxj*axj*incl in
      loop d (fun i s =>
        let rR := (nR*d+i)%nat in
        let dndxi := f_dn f ip ic i in let uxi := u (ic*d+i)%nat in
        let own := if open then 1 - n i * n i else n i * n i in
        let l1 := - mu*dndxj*axj*own in
        let s := addL rR (ic*d+i)%nat l1 s in
        let s := addB rR (- (l1*uxi + divUs*own)) s in
        let l2 := - mu*dndxi*axj*own in
        let s := addL rR (ic*d+j)%nat l2 s in
        let s := addB rR (- (l2*uxj)) s in
        loop d (fun l s =>
          if Nat.eqb i l then s else
          let nl := n i * n l in
          let uxl := u (ic*d+l)%nat in let dndxl := f_dn f ip ic l in
          let l3 := (if open then mu else - mu)*dndxj*axj*nl in
          let s := addL rR (ic*d+l)%nat l3 s in
          let s := addB rR (- (l3*uxl + divUs*nl)) s in
          let l4 := (if open then mu else - mu)*dndxl*axj*nl in
          let s := addL rR (ic*d+j)%nat l4 s in
          addB rR (- (l4*uxj)) s) s) s) s) s0.
Definition momentum_open_elem (f : fe) (o : oupw) (w : vfields) (mdot u : nat -> R) (s0 : esys) : esys :=
  loop (f_ip f) (fun ip s =>
    mom_visc_elem true f (at_face f (vf_mu w) ip) (vf_incl w) u ip (mom_open_adv_elem f o w mdot u ip s)) s0.
(** kernel/MomentumSymmetryElemKernel.C:91-167 *)
Definition momentum_sym_elem (f : fe) (mu : nat -> R) (incl : R) (u : nat -> R) (s0 : esys) : esys :=
  loop (f_ip f) (fun ip s => mom_visc_elem false f (at_face f mu ip) incl u ip s) s0.

(* ------------------------------------------------------------------ mass closure report *)
(** ComputeMdotAlgorithmDriver.C:238-275: one element's density accumulation *)
Definition accum_elem (m : me) (t : dts) (rp1 rn rm1 : nat -> R) : R :=
  fold_left (fun a ip => a + (ga1 t*at_scv m rp1 ip + ga2 t*at_scv m rn ip + ga3 t*at_scv m rm1 ip)/dt t*vol m ip)
    (seq 0 (nscv m)) 0.
(** compute_accumulation, lines 193-275: the loop runs over every element bucket that carries the
    density field on this rank. The selector (lines 199-200) has no locally_owned_part(), so copies of
    other ranks' elements present on this rank (aura, custom ghosting) are visited too:
    [visible rank] lists the elements present, owned or ghosted. *)
Definition compute_accumulation (visible : list nat) (acc : nat -> R) : R :=
  fold_left (fun a e => a + acc e) visible 0.
(** post_work, lines 124-140, and provide_output, lines 281-294: the rank sums, then the total *)
Definition mass_closure (ranks : list (list nat * (R * R))) (acc : nat -> R) (hasMass : bool) : R :=
  let sum g := fold_left (fun a r => a + g r) ranks 0 in
  let accum := sum (fun r => if hasMass then compute_accumulation (fst r) acc else 0) in
  let inflow := sum (fun r => fst (snd r)) in
  let open := sum (fun r => snd (snd r)) in
  accum + inflow + open.
