(** Wall heat fluxes: boundary terms of the temperature/enthalpy equations and the heat-transfer data of a coupled wall.
    Simplifications: real arithmetic; a division whose divisor may vanish for admissible data returns None when it does;
    one face (or one list of boundary points) at a time; the parallel and periodic sums are the sum over all points (C14, C45). *)
Require Import Reals List Bool.
From Verif Require Import Edge_Model Elem_Model Vof_Model Aux_Model.
Import ListNotations.
Open Scope R_scope.

(* ------------------------------------------------------------------ face systems; rows and columns are face nodes *)
(** AssembleHeatCondWallSolverAlgorithm.C:168-205 *)
Definition heat_cond_wall (f : vface) (alpha q tRef T : nat -> R) (s0 : esys) : esys :=
  loop (vf_nip f) (fun ip s =>
    let magA := vf_amag f ip in
    let nn := vf_near f ip in
    let aB := at_face f alpha ip in
    let flux := (at_face f q ip + aB*(at_face f tRef ip - at_face f T ip))*magA in
    let s := addB nn flux s in
    let lhsFac := aB*magA in
    loop (vf_npf f) (fun ic s => addL nn ic (vf_N f ip ic*lhsFac) s) s) s0.
(** AssembleHeatCondIrradWallSolverAlgorithm.C:166-199 *)
Definition irrad_wall (f : vface) (sigma : R) (irr emis T : nat -> R) (s0 : esys) : esys :=
  loop (vf_nip f) (fun ip s =>
    let magA := vf_amag f ip in
    let nn := vf_near f ip in
    let eB := at_face f emis ip in
    let tB := at_face f T ip in
    let s := addB nn (eB*(at_face f irr ip - sigma*tB^4)*magA) s in
    let lhsFac := 4*sigma*eB*magA*tB^3 in
    loop (vf_npf f) (fun ic s => addL nn ic (vf_N f ip ic*lhsFac) s) s) s0.
(** AssembleScalarFluxBCSolverAlgorithm.C:165-186 *)
Definition scalar_flux_bc (f : vface) (q : nat -> R) (s0 : esys) : esys :=
  loop (vf_nip f) (fun ip s => addB (vf_near f ip) (at_face f q ip*vf_amag f ip) s) s0.
(** AssembleTemperatureNormalGradientBCSolverAlgorithm.C:180-209 *)
Definition normal_gradient_bc (f : vface) (g evisc cp : nat -> R) (s0 : esys) : esys :=
  loop (vf_nip f) (fun ip s =>
    let qn := - at_face f evisc ip*at_face f cp ip*at_face f g ip in
    addB (vf_near f ip) (qn*vf_amag f ip) s) s0.
(** ScalarFluxPenaltyElemKernel.C:100-166; rows and columns are element nodes *)
Definition flux_penalty_elem (f : vface) (pen : R) (coef qbc q : nat -> R) (s0 : esys) : esys :=
  loop (vf_nip f) (fun ip s =>
    let nn := vf_near f ip in
    let aMag := vf_amag f ip in
    let invL := sumn (vf_npf f) (fun ic => sumn (vf_dim f) (fun j => vf_dn f ip (vf_ord f ic) j*vf_A f ip j))/aMag in
    let qB := at_face f (on_face f q) ip in
    let cB := at_face f (on_face f coef) ip in
    let flux := pen*cB*invL*(qB - at_face f (on_face f qbc) ip)*aMag
              - sumn (vf_dim f) (fun j => cB*sumn (vf_npe f) (fun ic => vf_dn f ip ic j*q ic)*vf_A f ip j) in
    let s := addB nn (- flux) s in
    let s := loop (vf_npf f) (fun ic s => addL nn (vf_ord f ic) (vf_N f ip ic*pen*cB*invL*aMag) s) s in
    loop (vf_npe f) (fun ic s => addL nn ic (cB*sumn (vf_dim f) (fun j => - vf_dn f ip ic j*vf_A f ip j)) s) s) s0.

(* ------------------------------------------------------------------ heat transfer at a coupled wall *)
(** one boundary point's contribution to its node: wall area, reference temperature, coefficient, flux, coupling *)
Record wc := mkWc { w_node : nat; w_area : R; w_tref : R; w_h : R; w_q : R; w_alpha : R }.
(** ComputeHeatTransferElemWallAlgorithm.C:306-313 and ComputeHeatTransferEdgeWallAlgorithm.C:217-224 *)
Definition coupling (kappa h chi : R) : R :=
  let A := 1 + chi - 1/(1 + chi + sqrt (chi*(chi+2))) in A*kappa/h.
(** nodesOnFace / nodesOffFace: lines 194-214; one write per boundary point *)
Definition on_off (f : vface) : (nat -> R) * (nat -> R) :=
  fold_left (fun st ip => let nn := vf_near f ip in
      ((fun k => if Nat.eqb k nn then 1 else fst st k), (fun k => if Nat.eqb k nn then 0 else snd st k)))
    (seq 0 (vf_nip f)) ((fun _ => 0), (fun _ => 1)).
(** ComputeHeatTransferElemWallAlgorithm.C:221-289; [lam] conductivity, [rho], [cp] on face nodes, [T] on element nodes,
    [conn] the element's global nodes *)
Definition heat_elem (f : vface) (conn : nat -> nat) (dt : R) (lam rho cp T : nat -> R) (ip : nat) : wc :=
  let on := fst (on_off f) in let off := snd (on_off f) in
  let k := at_face f lam ip in let r := at_face f rho ip in let c := at_face f cp ip in
  let dTdA := fun ic j => vf_dn f ip ic j*vf_A f ip j*T ic in
  let all := sumn (vf_npe f) (fun ic => sumn (vf_dim f) (dTdA ic)) in
  let dOn := sumn (vf_npe f) (fun ic => sumn (vf_dim f) (fun j => dTdA ic j*on ic)) in
  let dOff := sumn (vf_npe f) (fun ic => sumn (vf_dim f) (fun j => dTdA ic j*off ic)) in
  let invLen := sumn (vf_npe f) (fun ic => sumn (vf_dim f) (fun j => vf_dn f ip ic j*vf_A f ip j*on ic)) in
  let aMag := vf_amag f ip in
  let len := aMag/invLen in
  let chi := r*c*len*len/(2*k*dt) in
  mkWc (conn (vf_near f ip)) aMag (- (k*dOff)) (- (k*dOn)) (- (k*all)) (coupling k len chi*aMag).
Definition heat_elem_face (f : vface) (conn : nat -> nat) (dt : R) (lam rho cp T : nat -> R) : list wc :=
  map (heat_elem f conn dt lam rho cp T) (seq 0 (vf_nip f)).
(** ComputeHeatTransferEdgeWallAlgorithm.C:131-198; L the opposing node, R the wall node *)
Definition heat_edge (d : nat) (noc dt : R) (node : nat) (A xL xR : nat -> R) (tL tR : R) (dhdx : nat -> R) (rho lam cp : R) : wc :=
  let asq := sumn d (fun j => A j*A j) in
  let axdx := sumn d (fun j => A j*(xR j - xL j)) in
  let inv := 1/axdx in
  let aMag := sqrt asq in
  let len := axdx/aMag in
  let nonOrth := sumn d (fun j => - lam*(A j - asq*inv*(xR j - xL j))*(dhdx j/cp)) in
  let chi := rho*cp*len*len/(2*lam*dt) in
  mkWc node aMag (lam*tL*asq*inv - nonOrth*noc) (- lam*tR*asq*inv) (lam*(tL - tR)*asq*inv - nonOrth*noc) (coupling lam len chi*aMag).
(** AssembleWallHeatTransferAlgorithmDriver.C: pre_work zeroes, the points add, post_work sums over ranks *)
Definition acc_at (pick : wc -> R) (l : list wc) (n : nat) : R :=
  fold_left (fun a c => if Nat.eqb n (w_node c) then a + pick c else a) l 0.
(** post_work 145-160; temperature T of the node; result (htc, reference temperature, flux, coupling) *)
Definition wall_node (l : list wc) (T : R) (n : nat) : option (R * R * R * R) :=
  let ak := acc_at w_area l n in
  match divo (- acc_at w_h l n) ak with None => None | Some x =>
  match divo x T with None => None | Some htc =>
  match divo (acc_at w_tref l n) (ak*htc) with None => None | Some tref =>
  match divo (acc_at w_q l n) ak with None => None | Some q =>
  match divo (acc_at w_alpha l n) ak with None => None | Some al => Some (htc, tref, q, al) end end end end end.
