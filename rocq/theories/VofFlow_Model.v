(** * Volume and mass flow rates of the volume-of-fluid method, and its pressure equation across a sliding interface

    Files: src/ComputeMdotVofElemAlgorithm.C, src/ComputeMdotVofElemOpenAlgorithm.C, src/ComputeMdotVofInflowAlgorithm.C,
    src/ComputeMdotVofNonConformalAlgorithm.C, src/AssembleContinuityVofNonConformalSolverAlgorithm.C.
    Simplifications: real arithmetic (sums may be regrouped); one element, face or Gauss point at a time, then lists of them;
    shape functions, gradients and area vectors are data of the element (C30, C31); pow is [vpow] of Vof_Model. *)
From Coq Require Import Reals List Bool Arith.
From Verif Require Import Edge_Model Elem_Model Vof_Model NC_Model.
Import ListNotations.
Open Scope R_scope.

(** ComputeMdotVofElemAlgorithm.C 227-276: (volume flow rate, mass flow rate) of a sub-control surface *)
Definition stored_interior (m : me) (c : cvof) (p : nat -> R) (ip : nat) : R * R :=
  let d := ndim m in
  let rhoIp := sumn (npe m) (fun ic => Ns m ip ic * cv_rho c ic) in
  let sigmaKappaIp := sumn (npe m) (fun ic => Ns m ip ic * cv_sigma c ic * cv_kappa c ic) in
  let vofIp := sumn (npe m) (fun ic => Ns m ip ic * cv_vof c ic) in
  let dvofdaIp := sumn (npe m) (fun ic => sumn d (fun j => dndx m ip ic j * cv_vof c ic * area m ip j)) in
  let sigmaKappaIp := sigmaKappaIp * (cv_c c * vpow vofIp (cv_n c) * vpow (1 - vofIp) (cv_m c)) in
  let tvdot := cv_tau c*sigmaKappaIp*dvofdaIp/rhoIp +
    sumn d (fun j => (sumn (npe m) (fun ic => Ns m ip ic * cv_v c (ic*d+j)%nat)
      - cv_tau c*((sumn (npe m) (fun ic => dndx m ip ic j * p ic) - cv_bw c*rhoIp*cv_g c j)/rhoIp
                  - sumn (npe m) (fun ic => Ns m ip ic * cv_Gp c (ic*d+j)%nat))) * area m ip j) in
  (tvdot, rhoIp*tvdot).

(** ComputeMdotVofElemOpenAlgorithm.C 261-350. p_vof is gathered from the nodes of the element (242-248) but read with the
    face-node counter (306); the other face quantities are gathered from the nodes of the face. *)
Definition stored_open (f : vface) (pen : R) (c : cvof) (pbc dyn p : nat -> R) (ip : nat) : R * R :=
  let d := vf_dim f in
  let pBip := sumn (vf_npf f) (fun ic => vf_N f ip ic * p (vf_ord f ic)) in
  let pbcBip := - dyn ip + sumn (vf_npf f) (fun ic => vf_N f ip ic * pbc (vf_ord f ic)) in
  let rhoBip := sumn (vf_npf f) (fun ic => vf_N f ip ic * cv_rho c (vf_ord f ic)) in
  let sigmaKappaBip := sumn (vf_npf f) (fun ic => vf_N f ip ic * cv_sigma c (vf_ord f ic) * cv_kappa c (vf_ord f ic)) in
  let vofBip := sumn (vf_npf f) (fun ic => vf_N f ip ic * cv_vof c ic) in
  let dvofdaBip := sumn (vf_npe f) (fun ic => sumn d (fun j => vf_dn f ip ic j * cv_vof c ic * vf_A f ip j)) in
  let sigmaKappaBip := sigmaKappaBip * (cv_c c * vpow vofBip (cv_n c) * vpow (1 - vofBip) (cv_m c)) in
  let tvdot := pen*cv_tau c/rhoBip*vf_invL f ip*(pBip - pbcBip)*vf_amag f ip + cv_tau c*sigmaKappaBip*dvofdaBip/rhoBip +
    sumn d (fun j => (sumn (vf_npf f) (fun ic => vf_N f ip ic * cv_v c (vf_ord f ic*d+j)%nat)
       - cv_tau c*((sumn (vf_npe f) (fun ic => vf_dn f ip ic j * p ic) - cv_bw c*rhoBip*cv_g c j)/rhoBip
                   - sumn (vf_npf f) (fun ic => vf_N f ip ic * cv_Gp c (vf_ord f ic*d+j)%nat))) * vf_A f ip j) in
  (tvdot, rhoBip*tvdot).

(** ComputeMdotVofInflowAlgorithm.C 134-163: the mass entering through the inflow faces, added to mdotAlgInflow_ *)
Definition inflow_point (f : vface) (rho vbc : nat -> R) (ip : nat) : R :=
  let rhoBip := sumn (vf_npf f) (fun ic => vf_N f ip ic * rho ic) in
  let vdot := sumn (vf_dim f) (fun j => sumn (vf_npf f) (fun ic => vf_N f ip ic * vbc (ic*vf_dim f+j)%nat) * vf_A f ip j) in
  rhoBip*vdot.
Definition mdot_inflow (faces : list (vface * (nat -> R) * (nat -> R))) : R :=
  fold_left (fun s x => let '(f, rho, vbc) := x in fold_left (fun s ip => s + inflow_point f rho vbc ip) (seq 0 (vf_nip f)) s) faces 0.

(** ** non-conformal interface *)
(** nodal fields: pressure, density, volume fraction, surface tension times curvature; velocity, mesh velocity, Gjp *)
Record vfields := mkVf { v_p : nat -> R; v_rho : nat -> R; v_vof : nat -> R; v_sk : nat -> R;
  v_u : nat -> nat -> R; v_mesh : nat -> nat -> R; v_G : nat -> nat -> R }.
(** projection time scale, include pressure stabilisation, mesh motion factor, buoyancy weight, gravity, c_, n_, m_ *)
Record vopts := mkVo { o_tau : R; o_ps : R; o_mm : R; o_bw : R; o_g : nat -> R; o_c : R; o_n : R; o_m : R }.
Section NC.
Variable o : ncopt.
Variable w : vopts.
Variable g : dg.
Variable f : vfields.
Let c := d_c g.
Let op := d_o g.
Definition nc_sk (s : side) : R :=
  let vofBip := face_value s (v_vof f) in face_value s (v_sk f) * (o_c w * vpow vofBip (o_n w) * vpow (1 - vofBip) (o_m w)).
Definition nc_density : R := 1/2*(face_value c (v_rho f) + face_value op (v_rho f)).
Definition nc_penalty : R := o_tau w*(1/2)*(inv_length o c (cNx o g) + inv_length o op (oNx o g))/nc_density.
(** ComputeMdotVofNonConformalAlgorithm.C 563-600 (the assembly repeats it, 575-604) *)
Definition nc_pstab (s : side) (j : nat) : R :=
  (grad_at s (v_p f) j - o_bw w*face_value s (v_rho f)*o_g w j + nc_sk s*grad_at s (v_vof f) j)/face_value s (v_rho f) - face_value s (fun k => v_G f k j).
Definition nc_vdot : R :=
  let ncFlux := sumn (nd o) (fun j =>
     1/2*(face_value c (fun k => v_u f k j) * cNx o g j - face_value op (fun k => v_u f k j) * oNx o g j)
     - o_mm w * face_value c (fun k => v_mesh f k j) * cNx o g j) in
  let ncPstabFlux := sumn (nd o) (fun j => 1/2*(nc_pstab c j * cNx o g j - nc_pstab op j * oNx o g j)) in
  (ncFlux - o_ps w*o_tau w*ncPstabFlux + nc_penalty*(face_value c (v_p f) - face_value op (v_p f)))*c_amag o g.
Definition stored_interface : R * R := (nc_vdot, nc_vdot*nc_density).
(** AssembleContinuityVofNonConformalSolverAlgorithm.C 604-668 *)
Definition nc_cont_vof (s0 : esys) : esys :=
  let row := s_node c (d_nn g) in
  let s := addB row (- (nc_vdot/o_tau w)) s0 in
  let lhsFac := nc_penalty*c_amag o g/o_tau w in
  let s := loop (s_nf c) (fun ic s => addL row (s_node c (s_ord c ic)) (s_r c ic * lhsFac) s) s in
  let s := loop (s_npe c) (fun ic s => addL row (s_node c ic) (1/2*lhscd o c (cNx o g) ic*c_amag o g/face_value c (v_rho f)*o_ps w) s) s in
  let s := loop (s_nf op) (fun ic s => addL row (s_node op (s_ord op ic)) (- (s_r op ic * lhsFac)) s) s in
  loop (s_npe op) (fun ic s => addL row (s_node op ic) (- (1/2*lhscd o op (oNx o g) ic*c_amag o g/face_value op (v_rho f)*o_ps w)) s) s.
End NC.
Definition nc_cont_vof_all (o : ncopt) (w : vopts) (f : vfields) (l : list dg) (s : esys) : esys := fold_left (fun s g => nc_cont_vof o w g f s) l s.
