(** The element operators as assembled without the consolidated kernels ("legacy" algorithms): the local
    matrix is one flat array lhs[row*numRows+col], the geometry flat arrays too.
    Files: AssembleScalarElemSolverAlgorithm.C, AssembleScalarElemDiffSolverAlgorithm.C,
    AssembleContinuityElemSolverAlgorithm.C, AssembleMomentumElemSolverAlgorithm.C,
    AssembleScalarElemOpenSolverAlgorithm.C, AssembleContinuityElemOpenSolverAlgorithm.C,
    AssembleMomentumElemOpenSolverAlgorithm.C, AssembleMomentumElemSymmetrySolverAlgorithm.C.
    Simplifications: real arithmetic; gathered nodal values are functions of the local node number (flat
    index node*nDim+component for vectors); arrays are functions of the index; a loop over the components of
    a work array is written as one pointwise update; the supplemental algorithms called after the loop and
    the scatter (apply_coeff, C15/C43) are not repeated here. *)
Require Import Reals List Bool Arith.
From Verif Require Import Edge_Model Elem_Model Bnd_Model.
Import ListNotations.
Open Scope R_scope.

(** p_lhs, p_rhs *)
Record fsys := mkFS { fl : nat -> R; fb : nat -> R }.
(** [p_lhs[i] += v], [p_rhs[i] += v] *)
Definition incL (i : nat) (v : R) (s : fsys) : fsys := mkFS (fun a => if Nat.eqb a i then fl s a + v else fl s a) (fb s).
Definition incB (i : nat) (v : R) (s : fsys) : fsys := mkFS (fl s) (fun a => if Nat.eqb a i then fb s a + v else fb s a).
(** AssembleScalarElemSolverAlgorithm.C:238-242: zero lhs/rhs *)
Definition fzero : fsys := mkFS (fun _ => 0) (fun _ => 0).

(** flat element data: AssembleScalarElemSolverAlgorithm.C:200-227, 279-288 *)
Record fel := mkFel {
  le_n : nat; le_ip : nat; le_d : nat;      (* nodesPerElement, numScsIp, nDim *)
  le_lr : nat -> nat;                        (* lrscv *)
  le_N : nat -> R; le_Na : nat -> R;         (* p_shape_function, p_adv_shape_function *)
  le_dn : nat -> R; le_dnl : nat -> R;       (* p_dndx, p_dndx_lhs *)
  le_A : nat -> R }.                         (* p_scs_areav *)

(* ------------------------------------------------------------------ scalar *)
(** AssembleScalarElemDiffSolverAlgorithm.C:200-262: the integration-point loop *)
Definition leg_scalar_diff (m : fel) (coef q : nat -> R) (s0 : fsys) : fsys :=
  let n := le_n m in let d := le_d m in
  loop (le_ip m) (fun ip s =>
    let il := le_lr m (2*ip)%nat in let ir := le_lr m (2*ip+1)%nat in
    let rowL := (il*n)%nat in let rowR := (ir*n)%nat in
    let offSetSF := (ip*n)%nat in
    let muIp := loop n (fun ic a => a + le_N m (offSetSF+ic)%nat * coef ic) 0 in
    let '(s, qDiff) := loop n (fun ic st =>
        let '(s, qD) := st in
        let off := (d*n*ip + ic*d)%nat in
        let f := loop d (fun j a => a + - muIp * le_dn m (off+j)%nat * le_A m (ip*d+j)%nat) 0 in
        let qD := qD + f * q ic in
        let s := incL (rowL+ic)%nat f s in
        let s := incL (rowR+ic)%nat (- f) s in
        (s, qD)) (s, 0) in
    incB ir qDiff (incB il (- qDiff) s)) s0.

(** AssembleScalarElemSolverAlgorithm.C:290-411; [G] = p_dqdx (flat) *)
Definition leg_scalar (m : fel) (o : upw) (G : nat -> R) (mdot coef q : nat -> R) (s0 : fsys) : fsys :=
  let n := le_n m in let d := le_d m in
  let x := u_x o in let v := u_v o in let rho := u_rho o in
  let small := u_small o in let alpha := u_alpha o in let alphaUpw := u_alphaUpw o in
  let om_alpha := 1 - alpha in let om_alphaUpw := 1 - alphaUpw in
  loop (le_ip m) (fun ip s =>
    let il := le_lr m (2*ip)%nat in let ir := le_lr m (2*ip+1)%nat in
    let rowL := (il*n)%nat in let rowR := (ir*n)%nat in
    let tmdot := mdot ip in
    let offSetSF := (ip*n)%nat in
    let '(muIp, (qIp, xip)) := loop n (fun ic st =>
        let '(mu, (qi, xi)) := st in
        let r := le_N m (offSetSF+ic)%nat in let rAdv := le_Na m (offSetSF+ic)%nat in
        (mu + r*coef ic, (qi + rAdv*q ic, fun i => xi i + rAdv * x (ic*d+i)%nat))) (0, (0, fun _ => 0)) in
    let diffIp := (1/2)*(coef il/rho il + coef ir/rho ir) in
    let udotx := loop d (fun j a =>
        let dxj := x (ir*d+j)%nat - x (il*d+j)%nat in
        let uj := (1/2)*(v (il*d+j)%nat + v (ir*d+j)%nat) in a + uj*dxj) 0 in
    let pecfac := u_pec o (Rabs udotx/(diffIp+small)) in
    let om_pecfac := 1 - pecfac in
    let '(dqL, dqR) := loop d (fun j st =>
        let '(a, b) := st in
        let dxjL := xip j - x (il*d+j)%nat in
        let dxjR := x (ir*d+j)%nat - xip j in
        (a + dxjL*G (d*il+j)%nat, b + dxjR*G (d*ir+j)%nat)) (0, 0) in
    let '(limitL, limitR) := if u_lim o then
        let dq := q ir - q il in
        (van_leer (2*2*dqL - dq) dq small, van_leer (2*2*dqR - dq) dq small) else (1, 1) in
    let qIpL := q il + dqL*u_ho o*limitL in
    let qIpR := q ir - dqR*u_ho o*limitR in
    let qUpwind := if Rlt_dec 0 tmdot then alphaUpw*qIpL + om_alphaUpw*qIp else alphaUpw*qIpR + om_alphaUpw*qIp in
    let qHatL := alpha*qIpL + om_alpha*qIp in
    let qHatR := alpha*qIpR + om_alpha*qIp in
    let qCds := (1/2)*(qHatL + qHatR) in
    let aflux := tmdot*(pecfac*qUpwind + om_pecfac*qCds) in
    let s := incB il (- aflux) s in
    let s := incB ir aflux s in
    let aL := (1/2)*(tmdot+Rabs tmdot)*pecfac*alphaUpw + (1/2)*alpha*om_pecfac*tmdot in
    let s := incL (rowL+il)%nat aL s in
    let s := incL (rowR+il)%nat (- aL) s in
    let aR := (1/2)*(tmdot-Rabs tmdot)*pecfac*alphaUpw + (1/2)*alpha*om_pecfac*tmdot in
    let s := incL (rowR+ir)%nat (- aR) s in
    let s := incL (rowL+ir)%nat aR s in
    let '(s, qDiff) := loop n (fun ic st =>
        let '(s, qD) := st in
        let fA := le_Na m (offSetSF+ic)%nat*tmdot*(pecfac*om_alphaUpw + om_pecfac*om_alpha) in
        let s := incL (rowL+ic)%nat fA s in
        let s := incL (rowR+ic)%nat (- fA) s in
        let off := (d*n*ip + ic*d)%nat in
        let f := loop d (fun j a => a + - muIp * le_dn m (off+j)%nat * le_A m (ip*d+j)%nat) 0 in
        let qD := qD + f * q ic in
        let s := incL (rowL+ic)%nat f s in
        let s := incL (rowR+ic)%nat (- f) s in
        (s, qD)) (s, 0) in
    incB ir qDiff (incB il (- qDiff) s)) s0.

(* ------------------------------------------------------------------ continuity *)
(** AssembleContinuityElemSolverAlgorithm.C:185, 245-252: which gradient operator enters residual and matrix *)
Definition grad_choice (shiftPoisson reduced : bool) (plain shifted : nat -> R) : (nat -> R) * (nat -> R) :=
  let dn := if shiftPoisson then shifted else plain in
  (dn, if shiftPoisson then dn else if reduced then shifted else dn).
(** AssembleContinuityElemSolverAlgorithm.C:254-308 *)
Definition leg_continuity (m : fel) (tau : R) (c : cfields) (s0 : fsys) : fsys :=
  let n := le_n m in let d := le_d m in
  loop (le_ip m) (fun ip s =>
    let il := le_lr m (2*ip)%nat in let ir := le_lr m (2*ip+1)%nat in
    let rowL := (il*n)%nat in let rowR := (ir*n)%nat in
    let offSet := (ip*n)%nat in
    let '(s, (rhoU, (Gp, dp))) := loop n (fun ic st =>
        let '(s, (rhoU, (Gp, dp))) := st in
        let r := le_N m (offSet+ic)%nat in
        let off := (d*n*ip + ic*d)%nat in
        let lhsfac := loop d (fun j a => a + - le_dnl m (off+j)%nat * le_A m (ip*d+j)%nat) 0 in
        let s := incL (rowL+ic)%nat lhsfac s in
        let s := incL (rowR+ic)%nat (- lhsfac) s in
        (s, ((fun j => rhoU j + r * cf_rho c ic * cf_v c (d*ic+j)%nat),
            ((fun j => Gp j + r * cf_Gp c (d*ic+j)%nat),
             (fun j => dp j + le_dn m (off+j)%nat * cf_p c ic)))))
        (s, ((fun _ => 0), ((fun _ => 0), (fun _ => 0)))) in
    let md := loop d (fun j a => a + (rhoU j - tau*(dp j - Gp j)) * le_A m (ip*d+j)%nat) 0 in
    incB ir (md/tau) (incB il (- (md/tau)) s)) s0.

(* ------------------------------------------------------------------ momentum *)
(** AssembleMomentumElemSolverAlgorithm.C:469-513: one node's contribution *)
Definition leg_mom_node (m : fel) (muIp : R) (u : nat -> R) (lhsfacAdv : R) (ip ic : nat) (s0 : fsys) : fsys :=
  let n := le_n m in let d := le_d m in
  let ilN := (le_lr m (2*ip) * d)%nat in let irN := (le_lr m (2*ip+1) * d)%nat in let icN := (ic*d)%nat in
  loop d (fun i s =>
    let indexL := (ilN+i)%nat in let indexR := (irN+i)%nat in
    let rowL := (indexL*n*d)%nat in let rowR := (indexR*n*d)%nat in
    let rLiC := (rowL+icN+i)%nat in let rRiC := (rowR+icN+i)%nat in
    let s := incL rLiC lhsfacAdv s in
    let s := incL rRiC (- lhsfacAdv) s in
    let off := (d*n*ip + icN)%nat in
    let '(s, riC) := loop d (fun j st =>
        let '(s, a) := st in
        let axj := le_A m (ip*d+j)%nat in
        let uj := u (icN+j)%nat in
        let f_i := - muIp * le_dn m (off+j)%nat * axj in
        let a := a + f_i in
        let f_j := - muIp * le_dn m (off+i)%nat * axj in
        let s := incL (rowL+icN+j)%nat f_j s in
        let s := incL (rowR+icN+j)%nat (- f_j) s in
        let s := incB indexL (- (f_j*uj)) s in
        let s := incB indexR (f_j*uj) s in
        (s, a)) (s, 0) in
    let s := incL rLiC riC s in
    let s := incL rRiC (- riC) s in
    let ui := u (icN+i)%nat in
    let s := incB indexL (- (riC*ui)) s in
    incB indexR (riC*ui) s) s0.
(** AssembleMomentumElemSolverAlgorithm.C:323-515; [G] = p_dudx (flat). The limiter arrays hold 1 when the
    limiter is off (lines 128-133). *)
Definition leg_momentum (m : fel) (o : upw) (G : nat -> R) (includeDivU : R) (mdot mu u : nat -> R) (s0 : fsys) : fsys :=
  let n := le_n m in let d := le_d m in
  let x := u_x o in let v := u_v o in let rho := u_rho o in
  let small := u_small o in let alpha := u_alpha o in let alphaUpw := u_alphaUpw o in
  let om_alpha := 1 - alpha in let om_alphaUpw := 1 - alphaUpw in
  loop (le_ip m) (fun ip s =>
    let il := le_lr m (2*ip)%nat in let ir := le_lr m (2*ip+1)%nat in
    let offSetSF := (ip*n)%nat in
    let tmdot := mdot ip in
    let ilN := (il*d)%nat in let irN := (ir*d)%nat in
    let '(muIp, (divU, (xip, uIp))) := loop n (fun ic st =>
        let '(mu', (dv, (xi, ui))) := st in
        let r := le_N m (offSetSF+ic)%nat in let rAdv := le_Na m (offSetSF+ic)%nat in
        let off := (d*n*ip + ic*d)%nat in
        (mu' + r*mu ic, (loop d (fun j a => a + u (ic*d+j)%nat * le_dn m (off+j)%nat) dv,
          ((fun j => xi j + rAdv * x (ic*d+j)%nat), (fun j => ui j + rAdv * u (ic*d+j)%nat)))))
        (0, (0, ((fun _ => 0), (fun _ => 0)))) in
    let duL := fun i => loop d (fun j a => a + (xip j - x (ilN+j)%nat) * G (il*d*d + i*d + j)%nat) 0 in
    let duR := fun i => loop d (fun j a => a + (x (irN+j)%nat - xip j) * G (ir*d*d + i*d + j)%nat) 0 in
    let udotx := loop d (fun i a =>
        let dxi := x (irN+i)%nat - x (ilN+i)%nat in
        let ui := (1/2)*(v (ilN+i)%nat + v (irN+i)%nat) in a + ui*dxi) 0 in
    let diffIp := (1/2)*(mu il/rho il + mu ir/rho ir) in
    let pecfac := u_pec o (Rabs udotx/(diffIp+small)) in
    let om_pecfac := 1 - pecfac in
    let dq := fun i => u (irN+i)%nat - u (ilN+i)%nat in
    let limitL := fun i => if u_lim o then van_leer (2*2*duL i - dq i) (dq i) small else 1 in
    let limitR := fun i => if u_lim o then van_leer (2*2*duR i - dq i) (dq i) small else 1 in
    let uIpL := fun i => u (ilN+i)%nat + duL i*u_ho o*limitL i in
    let uIpR := fun i => u (irN+i)%nat - duR i*u_ho o*limitR i in
    let s := loop d (fun i s =>
        let uiIp := uIp i in
        let uiUpwind := if Rlt_dec 0 tmdot then alphaUpw*uIpL i + om_alphaUpw*uiIp else alphaUpw*uIpR i + om_alphaUpw*uiIp in
        let uiHatL := alpha*uIpL i + om_alpha*uiIp in
        let uiHatR := alpha*uIpR i + om_alpha*uiIp in
        let uiCds := (1/2)*(uiHatL + uiHatR) in
        let aflux := tmdot*(pecfac*uiUpwind + om_pecfac*uiCds) in
        let divUstress := 2/3*muIp*divU*le_A m (ip*d+i)%nat*includeDivU in
        let indexL := (ilN+i)%nat in let indexR := (irN+i)%nat in
        let rowL := (indexL*n*d)%nat in let rowR := (indexR*n*d)%nat in
        let s := incB indexL (- (aflux + divUstress)) s in
        let s := incB indexR (aflux + divUstress) s in
        let aL := (1/2)*(tmdot+Rabs tmdot)*pecfac*alphaUpw + (1/2)*alpha*om_pecfac*tmdot in
        let s := incL (rowL+ilN+i)%nat aL s in
        let s := incL (rowR+ilN+i)%nat (- aL) s in
        let aR := (1/2)*(tmdot-Rabs tmdot)*pecfac*alphaUpw + (1/2)*alpha*om_pecfac*tmdot in
        let s := incL (rowR+irN+i)%nat (- aR) s in
        incL (rowL+irN+i)%nat aR s) s in
    loop n (fun ic s =>
      leg_mom_node m muIp u (le_Na m (offSetSF+ic)%nat*tmdot*(pecfac*om_alphaUpw + om_pecfac*om_alpha)) ip ic s) s) s0.

(* ------------------------------------------------------------------ exposed faces *)
(** flat face data: AssembleScalarElemOpenSolverAlgorithm.C:150-262 *)
Record ffc := mkFfc {
  lf_ip : nat; lf_npf : nat; lf_n : nat; lf_d : nat;   (* numScsBip, nodesPerFace, nodesPerElement, nDim *)
  lf_ord : nat -> nat;                                  (* face_node_ordinals *)
  lf_nn : nat -> nat;                                   (* ipNodeMap(face_ordinal) *)
  lf_lf : nat -> nat;                                   (* faceIpNodeMap *)
  lf_op : nat -> nat;                                   (* opposingNodes *)
  lf_N : nat -> R; lf_Na : nat -> R;                    (* p_face_shape_function, p_adv_face_shape_function *)
  lf_dn : nat -> R; lf_dnl : nat -> R; lf_A : nat -> R }.

(** face-node gathers: the face's node ic is the element's node face_node_ordinals[ic] *)
Definition off_face (m : ffc) (q : nat -> R) (ic : nat) : R := q (lf_ord m ic).
Definition off_face_v (m : ffc) (q : nat -> R) (k : nat) : R := q (lf_ord m (k / lf_d m) * lf_d m + k mod lf_d m)%nat.

(** AssembleScalarElemOpenSolverAlgorithm.C:255-343; [pecfac ip] is the Peclet factor of lines 303-305 *)
Definition leg_scalar_open (m : ffc) (o : oupw) (G : nat -> nat -> R) (mdot q qE : nat -> R) (s0 : fsys) : fsys :=
  let n := lf_n m in let d := lf_d m in let nf := lf_npf m in
  let alphaUpw := ou_alphaUpw o in let om_alphaUpw := 1 - alphaUpw in
  let qf := off_face m q in let qEf := off_face m qE in let xf := off_face_v m (ou_x o) in
  loop (lf_ip m) (fun ip s =>
    let nearestNode := lf_nn m ip in
    let offSF := (ip*nf)%nat in
    let '(qIp, (qIpE, xB)) := loop nf (fun ic st =>
        let '(a, (b, xb)) := st in
        let rAdv := lf_Na m (offSF+ic)%nat in
        (a + rAdv*qf ic, (b + rAdv*qEf ic, fun j => xb j + rAdv * xf (ic*d+j)%nat))) (0, (0, fun _ => 0)) in
    let dqR := loop d (fun i a => a + (xB i - ou_x o (nearestNode*d+i)%nat)*G nearestNode i*ou_hoUpw o) 0 in
    let qIpUpw := q nearestNode + dqR in
    let pecfac := ou_pec o ip in let om_pecfac := 1 - pecfac in
    let tmdot := mdot ip in
    let rowR := (nearestNode*n)%nat in
    if Rlt_dec 0 tmdot then
      let qUpwind := alphaUpw*qIpUpw + om_alphaUpw*qIp in
      let aflux := tmdot*(pecfac*qUpwind + om_pecfac*qIp) in
      let s := incB nearestNode (- aflux) s in
      let s := incL (rowR+nearestNode)%nat (tmdot*pecfac*alphaUpw) s in
      let fac := tmdot*(pecfac*om_alphaUpw + om_pecfac) in
      loop nf (fun ic s => incL (rowR+lf_ord m ic)%nat (lf_Na m (offSF+ic)%nat*fac) s) s
    else
      let aflux := tmdot*qIpE in
      incB nearestNode (- aflux) s) s0.

(** AssembleContinuityElemOpenSolverAlgorithm.C:287-374 *)
Definition leg_continuity_open (m : ffc) (pen tau : R) (c : ofields) (s0 : fsys) : fsys :=
  let n := lf_n m in let d := lf_d m in let nf := lf_npf m in
  let pbcf := off_face m (of_pbc c) in let rhof := off_face m (of_rho c) in
  let vf := off_face_v m (of_v c) in let Gf := off_face_v m (of_Gp c) in
  loop (lf_ip m) (fun ip s =>
    let nearestNode := lf_nn m ip in
    let aMag := sqrt (loop d (fun j a => a + lf_A m (ip*d+j)%nat*lf_A m (ip*d+j)%nat) 0) in
    let invL := loop nf (fun ic a =>
        let off := (d*n*ip + lf_ord m ic*d)%nat in
        loop d (fun j a => a + lf_dn m (off+j)%nat*lf_A m (ip*d+j)%nat) a) 0 / aMag in
    let offSF := (ip*nf)%nat in
    let '(pB, (pbcB, (rhoU, Gp))) := loop nf (fun ic st =>
        let '(a, (b, (ru, gp))) := st in
        let r := lf_N m (offSF+ic)%nat in
        (a + r*of_p c (lf_ord m ic), (b + r*pbcf ic,
          ((fun j => ru j + r*rhof ic*vf (ic*d+j)%nat), (fun j => gp j + r*Gf (ic*d+j)%nat)))))
        (0, (- of_dynp c ip, ((fun _ => 0), (fun _ => 0)))) in
    let dp := loop n (fun ic (dp : nat -> R) => fun j => dp j + lf_dn m (d*n*ip + ic*d + j)%nat*of_p c ic) (fun _ => 0) in
    let md := loop d (fun j a => a + (rhoU j - tau*(dp j - Gp j))*lf_A m (ip*d+j)%nat) (pen*tau*invL*(pB - pbcB)*aMag) in
    let rowR := (nearestNode*n)%nat in
    let s := loop nf (fun ic s => incL (rowR+lf_ord m ic)%nat (lf_N m (offSF+ic)%nat*pen*invL*aMag) s) s in
    let s := loop n (fun ic s =>
        incL (rowR+ic)%nat (loop d (fun j a => a + - lf_dnl m (d*n*ip + ic*d + j)%nat*lf_A m (ip*d+j)%nat) 0) s) s in
    incB nearestNode (- (md/tau)) s) s0.

(** AssembleMomentumElemOpenSolverAlgorithm.C:472-527 (open) and
    AssembleMomentumElemSymmetrySolverAlgorithm.C:262-316 (symmetry): the same loop nest with
    own = 1-ni*ni, cross factor +mu*ni*nl (open) and own = ni*ni, cross factor -mu*ni*nl (symmetry) *)
Definition leg_visc_face (open : bool) (m : ffc) (visc incl : R) (nx : nat -> R) (u : nat -> R) (ip : nat) (s0 : fsys) : fsys :=
  let n := lf_n m in let d := lf_d m in let nearestNode := lf_nn m ip in
  loop n (fun ic s =>
    let off := (d*n*ip + ic*d)%nat in
    loop d (fun j s =>
      let axj := lf_A m (ip*d+j)%nat in let dndxj := lf_dn m (off+j)%nat in let uxj := u (ic*d+j)%nat in
      let divUstress := 2/3*visc*dndxj*uxj*axj*incl in
      loop d (fun i s =>
        let indexR := (nearestNode*d+i)%nat in let rowR := (indexR*n*d)%nat in
        let dndxi := lf_dn m (off+i)%nat in let uxi := u (ic*d+i)%nat in
        let nxi := nx i in
        let own := if open then 1 - nxi*nxi else nxi*nxi in
        let l1 := - visc*dndxj*axj*own in
        let s := incL (rowR+ic*d+i)%nat l1 s in
        let s := incB indexR (- (l1*uxi + divUstress*own)) s in
        let l2 := - visc*dndxi*axj*own in
        let s := incL (rowR+ic*d+j)%nat l2 s in
        let s := incB indexR (- (l2*uxj)) s in
        loop d (fun l s =>
          if Nat.eqb i l then s else
          let nxinxl := nxi*nx l in
          let uxl := u (ic*d+l)%nat in let dndxl := lf_dn m (off+l)%nat in
          let l3 := (if open then visc else - visc)*dndxj*axj*nxinxl in
          let s := incL (rowR+ic*d+l)%nat l3 s in
          let s := incB indexR (- (l3*uxl + divUstress*nxinxl)) s in
          let l4 := (if open then visc else - visc)*dndxl*axj*nxinxl in
          let s := incL (rowR+ic*d+j)%nat l4 s in
          incB indexR (- (l4*uxj)) s) s) s) s) s0.

(** AssembleMomentumElemOpenSolverAlgorithm.C:325-529 *)
Definition leg_momentum_open (m : ffc) (o : oupw) (w : vfields) (mdot u : nat -> R) (s0 : fsys) : fsys :=
  let n := lf_n m in let d := lf_d m in let nf := lf_npf m in
  let alphaUpw := ou_alphaUpw o in let om_alphaUpw := 1 - alphaUpw in
  let rhof := off_face m (vf_rho w) in let muf := off_face m (vf_mu w) in
  let bcf := off_face_v m (vf_bc w) in let mvf := off_face_v m (vf_mv w) in
  let Gf := fun ic i j => vf_G w (lf_ord m ic) i j in
  loop (lf_ip m) (fun ip s =>
    let nearestNode := lf_nn m ip in let localFaceNode := lf_lf m ip in
    let offSF := (ip*nf)%nat in
    let amag := sqrt (loop d (fun j a => a + lf_A m (ip*d+j)%nat*lf_A m (ip*d+j)%nat) 0) in
    let '(rhoB, (viscB, (uspec, (uB, (xB, rhoV))))) := loop nf (fun ic st =>
        let '(a, (b, (us, (ub, (xb, rv))))) := st in
        let r := lf_N m (offSF+ic)%nat in let rAdv := lf_Na m (offSF+ic)%nat in
        let nn := lf_ord m ic in
        (a + r*rhof ic, (b + r*muf ic, ((fun j => us j + rAdv*bcf (ic*d+j)%nat), ((fun j => ub j + rAdv*u (nn*d+j)%nat),
          ((fun j => xb j + rAdv*ou_x o (nn*d+j)%nat), (fun j => rv j + r*rhof ic*mvf (ic*d+j)%nat)))))))
        (0, (0, ((fun _ => 0), ((fun _ => 0), ((fun _ => 0), (fun _ => 0)))))) in
    let nx := fun i => lf_A m (ip*d+i)%nat/amag in
    let uExt := fun i => u (nearestNode*d+i)%nat
        + loop d (fun j a => a + (xB j - ou_x o (nearestNode*d+j)%nat)*Gf localFaceNode i j*ou_hoUpw o) 0 in
    let pecfac := ou_pec o ip in let om_pecfac := 1 - pecfac in
    let tmdot := mdot ip in
    let s :=
      if Rlt_dec 0 tmdot then
        loop d (fun i s =>
          let indexR := (nearestNode*d+i)%nat in let rowR := (indexR*n*d)%nat in
          let uiIp := uB i in
          let uiUpwind := alphaUpw*uExt i + om_alphaUpw*uiIp in
          let aflux := tmdot*(pecfac*uiUpwind + om_pecfac*uiIp) in
          let s := incB indexR (- aflux) s in
          let s := incL (rowR+indexR)%nat (tmdot*pecfac*alphaUpw) s in
          let fac := tmdot*(pecfac*om_alphaUpw + om_pecfac) in
          loop nf (fun ic s => incL (rowR+lf_ord m ic*d+i)%nat (lf_Na m (offSF+ic)%nat*fac) s) s) s
      else
        let mvc := loop d (fun j a => a + rhoV j*lf_A m (ip*d+j)%nat) 0 in
        let uEntrain := tmdot/(rhoB*amag) + mvc/(rhoB*amag)*vf_mvc w in
        let uspecn := loop d (fun j a => a + uspec j*nx j) 0 in
        loop d (fun i s =>
          let indexR := (nearestNode*d+i)%nat in
          let aflux := tmdot*uEntrain*nx i + tmdot*(uspec i - uspecn*nx i) in
          incB indexR (- aflux) s) s in
    leg_visc_face true m viscB (vf_incl w) nx u ip s) s0.

(** AssembleMomentumElemSymmetrySolverAlgorithm.C:231-319 *)
Definition leg_momentum_sym (m : ffc) (mu : nat -> R) (incl : R) (u : nat -> R) (s0 : fsys) : fsys :=
  let d := lf_d m in let nf := lf_npf m in let muf := off_face m mu in
  loop (lf_ip m) (fun ip s =>
    let amag := sqrt (loop d (fun j a => a + lf_A m (ip*d+j)%nat*lf_A m (ip*d+j)%nat) 0) in
    let nx := fun i => lf_A m (ip*d+i)%nat/amag in
    let viscB := loop nf (fun ic a => a + lf_N m (ip*nf+ic)%nat*muf ic) 0 in
    leg_visc_face false m viscB incl nx u ip s) s0.
