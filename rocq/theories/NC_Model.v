(** Non-conformal (sliding-mesh, DG) interface: contributions of one Gauss point of the current face.
    src/AssembleScalarNonConformalSolverAlgorithm.C, AssembleScalarDiffNonConformalSolverAlgorithm.C, AssembleMomentumNonConformalSolverAlgorithm.C,
    AssembleContinuityNonConformalSolverAlgorithm.C, ComputeMdotNonConformalAlgorithm.C, AssembleVofNonConformalSolverAlgorithm.C,
    AssemblePNGNonConformalSolverAlgorithm.C, AssembleNodalGradNonConformalAlgorithm.C, AssembleNodalGradUNonConformalAlgorithm.C.
    Simplifications: real arithmetic; the rows of the local system are addressed by global node number (what apply_coeff does with
    connected_nodes); face nodes are the element nodes listed by side_node_ordinals; [interpolatePoint] and [general_shape_fcn] enter as the
    shape-function values at the point (C30), [general_face_grad_op] as the derivatives there. *)
Require Import Reals List Bool Arith.
From Verif Require Import Edge_Model Elem_Model.
Import ListNotations.
Open Scope R_scope.

(** one side of the interface at a Gauss point: the element's nodes, its exposed face's local nodes, the face shape functions and the
    element shape-function derivatives at the point, and the outward normal found by general_normal (read on the opposing side only) *)
Record side := mkSide { s_npe : nat; s_node : nat -> nat; s_nf : nat; s_ord : nat -> nat; s_r : nat -> R; s_dndx : nat -> nat -> R; s_n : nat -> R }.
(** DgInfo.h 39-113: a Gauss point with its current and opposing side; d_nn = ipNodeMap(currentFaceOrdinal)[currentGaussPointId] (local node
    of the current element), d_A = exposed area vector at the point *)
Record dg := mkDg { d_c : side; d_o : side; d_nn : nat; d_A : nat -> R }.
Record ncopt := mkNc { nd : nat; eta : R; useCurrent : bool }.

Section Kernel.
Variable o : ncopt.
Variable g : dg.
Let c := d_c g.
Let op := d_o g.

(** e.g. AssembleScalarNonConformalSolverAlgorithm.C 311-328 *)
Definition c_amag : R := sqrt (sumn (nd o) (fun j => d_A g j * d_A g j)).
Definition cNx (i : nat) : R := d_A g i / c_amag.
Definition oNx (i : nat) : R := if useCurrent o then - cNx i else s_n op i.
(** 352-361, 376-385 *)
Definition inv_length (s : side) (n : nat -> R) : R := sumn (s_nf s) (fun ic => sumn (nd o) (fun j => s_dndx s (s_ord s ic) j * n j)).
(** interpolatePoint on the face, 388-414 *)
Definition face_value (s : side) (q : nat -> R) : R := sumn (s_nf s) (fun ic => s_r s ic * q (s_node s (s_ord s ic))).
(** 340-350, 365-374 *)
Definition diff_flux (s : side) (n q : nat -> R) : R := sumn (s_npe s) (fun ic => sumn (nd o) (fun j => - (s_dndx s ic j * n j * q (s_node s ic)))).
(** 458-467, 480-488 *)
Definition lhscd (s : side) (n : nat -> R) (ic : nat) : R := sumn (nd o) (fun j => - (s_dndx s ic j * n j)).

(** *** scalar transport, AssembleScalarNonConformalSolverAlgorithm.C 340-492 *)
Definition nc_scalar_flux (tmdot : R) (mu q : nat -> R) : R :=
  let muC := face_value c mu in let muO := face_value op mu in
  let currentDiffFluxBip := diff_flux c cNx q * muC in
  let opposingDiffFluxBip := diff_flux op oNx q * muO in
  let abs_tmdot := Rabs tmdot in
  let penaltyIp := (muC * inv_length c cNx + muO * inv_length op oNx) / 2 in
  let ncDiffFlux := (currentDiffFluxBip - opposingDiffFluxBip) / 2 in
  let qC := face_value c q in let qO := face_value op q in
  let ncAdv := tmdot*(qC + qO)/2 + eta o*abs_tmdot*(qC - qO)/2 in
  (ncDiffFlux + penaltyIp*(qC - qO))*c_amag + ncAdv.
Definition nc_scalar (tmdot : R) (mu q : nat -> R) (s0 : esys) : esys :=
  let muC := face_value c mu in let muO := face_value op mu in
  let abs_tmdot := Rabs tmdot in
  let penaltyIp := (muC * inv_length c cNx + muO * inv_length op oNx) / 2 in
  let row := s_node c (d_nn g) in
  let s := addB row (- nc_scalar_flux tmdot mu q) s0 in
  let lhsFacC := penaltyIp*c_amag + (eta o*abs_tmdot + tmdot)/2 in
  let s := loop (s_nf c) (fun ic s => addL row (s_node c (s_ord c ic)) (s_r c ic * lhsFacC) s) s in
  let s := loop (s_npe c) (fun ic s => addL row (s_node c ic) (muC * lhscd c cNx ic * c_amag/2) s) s in
  let lhsFacO := penaltyIp*c_amag + (eta o*abs_tmdot - tmdot)/2 in
  let s := loop (s_nf op) (fun ic s => addL row (s_node op (s_ord op ic)) (- (s_r op ic * lhsFacO)) s) s in
  loop (s_npe op) (fun ic s => addL row (s_node op ic) (- (muO * lhscd op oNx ic * c_amag/2)) s) s.

(** *** pure diffusion, AssembleScalarDiffNonConformalSolverAlgorithm.C 335-480 *)
Definition nc_diff (mu q : nat -> R) (s0 : esys) : esys :=
  let muC := face_value c mu in let muO := face_value op mu in
  let penaltyIp := (1/2)*(muC * inv_length c cNx + muO * inv_length op oNx) in
  let ncDiffFlux := (diff_flux c cNx q * muC - diff_flux op oNx q * muO) / 2 in
  let row := s_node c (d_nn g) in
  let s := addB row (- ((ncDiffFlux + penaltyIp*(face_value c q - face_value op q))*c_amag)) s0 in
  let lhsFac := penaltyIp*c_amag in
  let s := loop (s_nf c) (fun ic s => addL row (s_node c (s_ord c ic)) (s_r c ic * lhsFac) s) s in
  let s := loop (s_npe c) (fun ic s => addL row (s_node c ic) (muC * lhscd c cNx ic * c_amag/2) s) s in
  let s := loop (s_nf op) (fun ic s => addL row (s_node op (s_ord op ic)) (- (s_r op ic * lhsFac)) s) s in
  loop (s_npe op) (fun ic s => addL row (s_node op ic) (- (muO * lhscd op oNx ic * c_amag/2)) s) s.

(** *** volume of fluid, AssembleVofNonConformalSolverAlgorithm.C 337-369: the residual is always upwinded, the matrix with eta *)
Definition nc_vof (tvdot : R) (q : nat -> R) (s0 : esys) : esys :=
  let qC := face_value c q in let qO := face_value op q in
  let ncAdv := tvdot*(qC + qO)/2 + Rabs tvdot*(qC - qO)/2 in
  let row := s_node c (d_nn g) in
  let s := addB row (- ncAdv) s0 in
  let s := loop (s_nf c) (fun ic s => addL row (s_node c (s_ord c ic)) (s_r c ic * ((eta o*Rabs tvdot + tvdot)/2)) s) s in
  loop (s_nf op) (fun ic s => addL row (s_node op (s_ord op ic)) (- (s_r op ic * ((eta o*Rabs tvdot - tvdot)/2))) s) s.

(** *** mass flow rate, ComputeMdotNonConformalAlgorithm.C 340-502; vector fields by node and component *)
Record mfields := mkM { m_p : nat -> R; m_rho : nat -> R; m_u : nat -> nat -> R; m_v : nat -> nat -> R; m_G : nat -> nat -> R }.
Definition grad_at (s : side) (p : nat -> R) (j : nat) : R := sumn (s_npe s) (fun ic => s_dndx s ic j * p (s_node s ic)).
Definition nc_mdot (projTimeScale includePstab meshMotionFac : R) (f : mfields) : R :=
  let penaltyIp := projTimeScale*(1/2)*(inv_length c cNx + inv_length op oNx) in
  let ncFlux := sumn (nd o) (fun j =>
     (1/2)*(face_value c (fun k => m_u f k j * m_rho f k) * cNx j - face_value op (fun k => m_u f k j * m_rho f k) * oNx j)
     - meshMotionFac * face_value c (fun k => m_v f k j * m_rho f k) * cNx j) in
  let ncPstabFlux := sumn (nd o) (fun j =>
     let cPstab := grad_at c (m_p f) j - face_value c (fun k => m_G f k j) in
     let oPstab := grad_at op (m_p f) j - face_value op (fun k => m_G f k j) in
     (1/2)*(cPstab * cNx j - oPstab * oNx j)) in
  (ncFlux - includePstab*projTimeScale*ncPstabFlux + penaltyIp*(face_value c (m_p f) - face_value op (m_p f)))*c_amag.
(** *** continuity, AssembleContinuityNonConformalSolverAlgorithm.C 404-593 *)
Definition nc_continuity (projTimeScale includePstab meshMotionFac : R) (f : mfields) (s0 : esys) : esys :=
  let penaltyIp := projTimeScale*(1/2)*(inv_length c cNx + inv_length op oNx) in
  let ncFlux := sumn (nd o) (fun j =>
     (1/2)*(face_value c (fun k => m_u f k j * m_rho f k) * cNx j - face_value op (fun k => m_u f k j * m_rho f k) * oNx j)
     - meshMotionFac * face_value c (fun k => m_v f k j * m_rho f k) * cNx j) in
  let ncPstabFlux := sumn (nd o) (fun j =>
     let cPstab := grad_at c (m_p f) j - face_value c (fun k => m_G f k j) in
     let oPstab := grad_at op (m_p f) j - face_value op (fun k => m_G f k j) in
     (1/2)*(cPstab * cNx j - oPstab * oNx j)) in
  let mdot := (ncFlux - includePstab*projTimeScale*ncPstabFlux + penaltyIp*(face_value c (m_p f) - face_value op (m_p f)))*c_amag in
  let row := s_node c (d_nn g) in
  let s := addB row (- (mdot/projTimeScale)) s0 in
  let lhsFac := penaltyIp*c_amag/projTimeScale in
  let s := loop (s_nf c) (fun ic s => addL row (s_node c (s_ord c ic)) (s_r c ic * lhsFac) s) s in
  let s := loop (s_npe c) (fun ic s => addL row (s_node c ic) ((1/2)*lhscd c cNx ic*c_amag*includePstab) s) s in
  let s := loop (s_nf op) (fun ic s => addL row (s_node op (s_ord op ic)) (- (s_r op ic * lhsFac)) s) s in
  loop (s_npe op) (fun ic s => addL row (s_node op ic) (- ((1/2)*lhscd op oNx ic*c_amag*includePstab)) s) s.

(** *** momentum, AssembleMomentumNonConformalSolverAlgorithm.C 375-543; row and column index node*nDim + component *)
Definition mom_flux (s : side) (n : nat -> R) (mu incl : R) (u : nat -> R) (i : nat) : R :=
  sumn (s_npe s) (fun ic => sumn (nd o) (fun j =>
     let divUstress := 2/3*mu*s_dndx s ic j*u (s_node s ic * nd o + j)%nat*n j*incl in
     (- mu*s_dndx s ic j*n j*u (s_node s ic * nd o + i)%nat + divUstress) + (- mu*s_dndx s ic i*n j*u (s_node s ic * nd o + j)%nat))).
Definition nc_mom_flux (incl tmdot : R) (mu u : nat -> R) (i : nat) : R :=
  let muC := face_value c mu in let muO := face_value op mu in
  let penaltyIp := (muC * inv_length c cNx + muO * inv_length op oNx) / 2 in
  let ncDiffFlux := (mom_flux c cNx muC incl u i - mom_flux op oNx muO incl u i) / 2 in
  let uC := face_value c (fun k => u (k*nd o + i)%nat) in let uO := face_value op (fun k => u (k*nd o + i)%nat) in
  let ncAdv := tmdot*(uC + uO)/2 + eta o*Rabs tmdot*(uC - uO)/2 in
  (ncDiffFlux + penaltyIp*(uC - uO))*c_amag + ncAdv.
Definition nc_momentum (incl tmdot : R) (mu u : nat -> R) (s0 : esys) : esys :=
  let muC := face_value c mu in let muO := face_value op mu in
  let penaltyIp := (muC * inv_length c cNx + muO * inv_length op oNx) / 2 in
  loop (nd o) (fun i s =>
    let row := (s_node c (d_nn g) * nd o + i)%nat in
    let s := addB row (- nc_mom_flux incl tmdot mu u i) s in
    let lhsFacC := penaltyIp*c_amag + (eta o*Rabs tmdot + tmdot)/2 in
    let s := loop (s_nf c) (fun ic s => addL row (s_node c (s_ord c ic) * nd o + i)%nat (s_r c ic * lhsFacC) s) s in
    let s := loop (s_npe c) (fun ic s => loop (nd o) (fun j s =>
        addL row (s_node c ic * nd o + j)%nat (- muC*s_dndx c ic i*cNx j*c_amag/2)
          (addL row (s_node c ic * nd o + i)%nat (- muC*s_dndx c ic j*cNx j*c_amag/2) s)) s) s in
    let lhsFacO := penaltyIp*c_amag + (eta o*Rabs tmdot - tmdot)/2 in
    let s := loop (s_nf op) (fun ic s => addL row (s_node op (s_ord op ic) * nd o + i)%nat (- (s_r op ic * lhsFacO)) s) s in
    loop (s_npe op) (fun ic s => loop (nd o) (fun j s =>
        addL row (s_node op ic * nd o + j)%nat (- (- muO*s_dndx op ic i*oNx j*c_amag/2))
          (addL row (s_node op ic * nd o + i)%nat (- (- muO*s_dndx op ic j*oNx j*c_amag/2)) s)) s) s) s0.

(** *** nodal gradient, AssembleNodalGradNonConformalAlgorithm.C 147-188: what is added to dqdx(j) of the nearest face node; fn = that
    node (faceIpNodeMap), vol its dual volume.  AssembleNodalGradUNonConformalAlgorithm.C is the same per component *)
Definition nc_grad (vol : nat -> R) (fn : nat) (q : nat -> R) (j : nat) : R :=
  let ncScalarQ := (1/2)*(face_value c q + face_value op q) in
  ncScalarQ * d_A g j * (1/vol fn).

(** *** projected nodal gradient, AssemblePNGNonConformalSolverAlgorithm.C 393-444; G has index node*nDim + component *)
Definition nc_png (penaltyFac : R) (q G : nat -> R) (s0 : esys) : esys :=
  let penaltyIp := (1/2)*(1/inv_length c cNx + 1/inv_length op oNx)*penaltyFac in
  let ncScalarQ := (1/2)*(face_value c q + face_value op q) in
  loop (nd o) (fun i s =>
    let row := (s_node c (d_nn g) * nd o + i)%nat in
    let s := addB row (ncScalarQ * d_A g i + penaltyIp*(face_value c (fun k => G (k*nd o + i)%nat) - face_value op (fun k => G (k*nd o + i)%nat))*c_amag) s in
    let lhsFac := penaltyIp*c_amag in
    let s := loop (s_nf c) (fun ic s => addL row (s_node c (s_ord c ic) * nd o + i)%nat (- (s_r c ic * lhsFac)) s) s in
    loop (s_nf op) (fun ic s => addL row (s_node op (s_ord op ic) * nd o + i)%nat (s_r op ic * lhsFac) s) s) s0.
End Kernel.

(** execute(): all Gauss points of all interfaces in turn, each with the mass flow rate stored for it (ncMassFlowRate) *)
Definition nc_scalar_all (o : ncopt) (mdot : dg -> R) (mu q : nat -> R) (l : list dg) (s : esys) : esys :=
  fold_left (fun s g => nc_scalar o g (mdot g) mu q s) l s.
Definition nc_continuity_all (o : ncopt) (tau pstab mm : R) (f : mfields) (l : list dg) (s : esys) : esys :=
  fold_left (fun s g => nc_continuity o g tau pstab mm f s) l s.
Definition nc_momentum_all (o : ncopt) (incl : R) (mdot : dg -> R) (mu u : nat -> R) (l : list dg) (s : esys) : esys :=
  fold_left (fun s g => nc_momentum o g incl (mdot g) mu u s) l s.
