(** Element-based kernels (one element, before assembly) and nodal time terms.
    Files: kernel/ScalarAdvDiffElemKernel.C, ScalarDiffElemKernel.C, ScalarUpwAdvDiffElemKernel.C,
    MomentumAdvDiffElemKernel.C, MomentumUpwAdvDiffElemKernel.C, ContinuityAdvElemKernel.C,
    ScalarMassElemKernel.C, MomentumMassElemKernel.C, ContinuityMassElemKernel.C, ScalarGclElemKernel.C,
    MomentumGclElemKernel.C, ContinuityGclElemKernel.C, ComputeMdotElemAlgorithm.C and the
    *Mass{BDF2,BackwardEuler}NodeSuppAlg.C, *Gcl*NodeSuppAlg.C files of src/.
    Simplifications: real arithmetic, one SIMD lane; gathered nodal fields are functions of the local
    node number, vector fields functions of the flat index node*nDim+component (the layout of the
    local rows); the master-element data (shape functions, gradients, area vectors, volumes, node maps)
    are parameters here, their values are the subject of the ME_* files. *)
Require Import Reals List Bool.
From Verif Require Import Edge_Model.
Import ListNotations.
Open Scope R_scope.

(** the element's local system; [lhs(i,j) += v] and [rhs(i) += v] *)
Record esys := mkE { eL_ : nat -> nat -> R; eB : nat -> R }.
Definition addL (i j : nat) (v : R) (s : esys) : esys :=
  mkE (fun a b => if (Nat.eqb a i && Nat.eqb b j)%bool then eL_ s a b + v else eL_ s a b) (eB s).
Definition addB (i : nat) (v : R) (s : esys) : esys :=
  mkE (eL_ s) (fun a => if Nat.eqb a i then eB s a + v else eB s a).

(** [for (int k = 0; k < n; ++k) body(k)] *)
Definition loop {S : Type} (n : nat) (body : nat -> S -> S) (s : S) : S :=
  fold_left (fun a k => body k a) (seq 0 n) s.

(** master-element data read by the kernels *)
Record me := mkMe {
  npe : nat; nscs : nat; nscv : nat; ndim : nat;
  lrL : nat -> nat; lrR : nat -> nat;          (* lrscv_[2*ip], lrscv_[2*ip+1] *)
  Ns : nat -> nat -> R;                         (* v_shape_function_(ip,ic) at the scs points *)
  Na : nat -> nat -> R;                         (* v_adv_shape_function_(ip,ic), shifted if skew-symmetric *)
  dndx : nat -> nat -> nat -> R;                (* v_dndx(ip,ic,j) *)
  dndx_lhs : nat -> nat -> nat -> R;            (* v_dndx_lhs, ContinuityAdvElemKernel.C:108-109 *)
  area : nat -> nat -> R;                       (* v_scs_areav(ip,j) *)
  nearest : nat -> nat;                         (* ipNodeMap_[ip] *)
  Nv : nat -> nat -> R;                         (* v_shape_function_(ip,ic) at the scv points *)
  vol : nat -> R }.                             (* v_scv_volume(ip) *)

(** ScalarDiffElemKernel.C:80-110 / ScalarAdvDiffElemKernel.C:112-115: diffusive coefficient of node ic *)
Definition lhsfacDiff (m : me) (coefIp : R) (ip ic : nat) : R :=
  sumn (ndim m) (fun j => - coefIp * dndx m ip ic j * area m ip j).
(** interpolation loops, e.g. ScalarDiffElemKernel.C:87-91 *)
Definition at_scs (m : me) (f : nat -> R) (ip : nat) : R := sumn (npe m) (fun ic => Ns m ip ic * f ic).
Definition at_adv (m : me) (f : nat -> R) (ip : nat) : R := sumn (npe m) (fun ic => Na m ip ic * f ic).
Definition at_scv (m : me) (f : nat -> R) (ip : nat) : R := sumn (npe m) (fun ic => Nv m ip ic * f ic).

(** ScalarDiffElemKernel.C:80-110 *)
Definition scalar_diff (m : me) (coef q : nat -> R) (s0 : esys) : esys :=
  loop (nscs m) (fun ip s =>
    let il := lrL m ip in let ir := lrR m ip in
    let cIp := at_scs m coef ip in
    let '(s, qDiff) := loop (npe m) (fun ic st =>
        let '(s, qD) := st in
        let f := lhsfacDiff m cIp ip ic in
        let qD := qD + f * q ic in
        let s := addL il ic f s in
        let s := addL ir ic (- f) s in
        (s, qD)) (s, 0) in
    addB ir qDiff (addB il (- qDiff) s)) s0.

(** ScalarAdvDiffElemKernel.C:86-126 *)
Definition scalar_advdiff (m : me) (mdot : nat -> R) (coef q : nat -> R) (s0 : esys) : esys :=
  loop (nscs m) (fun ip s =>
    let il := lrL m ip in let ir := lrR m ip in
    let tmdot := mdot ip in
    let cIp := at_scs m coef ip in
    let '(s, (qAdv, qDiff)) := loop (npe m) (fun ic st =>
        let '(s, (qA, qD)) := st in
        let fA := Na m ip ic * tmdot in
        let fD := lhsfacDiff m cIp ip ic in
        let s := addL il ic (fA + fD) s in
        let s := addL ir ic (- (fA + fD)) s in
        (s, (qA + fA * q ic, qD + fD * q ic))) (s, (0, 0)) in
    addB ir (qAdv + qDiff) (addB il (- (qAdv + qDiff)) s)) s0.

(* ------------------------------------------------------------------ upwinded scalar *)
(** options and nodal fields of the upwind kernels *)
Record upw := mkUpw {
  u_alpha : R; u_alphaUpw : R; u_ho : R; u_lim : bool; u_small : R; u_pec : R -> R;
  u_x : nat -> R;        (* coordinates, flat *)
  u_v : nat -> R;        (* velocity_rtm, flat *)
  u_rho : nat -> R }.

(** ScalarUpwAdvDiffElemKernel.C:161-170 / MomentumUpwAdvDiffElemKernel.C:176-196 *)
Definition pec_of (m : me) (o : upw) (coef : nat -> R) (ip : nat) : R :=
  let il := lrL m ip in let ir := lrR m ip in let d := ndim m in
  let diffIp := (1/2)*(coef il / u_rho o il + coef ir / u_rho o ir) in
  let udotx := sumn d (fun j => ((1/2)*(u_v o (il*d+j)%nat + u_v o (ir*d+j)%nat))
                                 * (u_x o (ir*d+j)%nat - u_x o (il*d+j)%nat)) in
  u_pec o (Rabs udotx / (diffIp + u_small o)).
(** lines 155-157: coordinates of the integration point with the advection shape functions *)
Definition xIp (m : me) (o : upw) (ip j : nat) : R := sumn (npe m) (fun ic => Na m ip ic * u_x o (ic*ndim m + j)%nat).
(** lines 174-196: extrapolated left and right states; [G node j] is the nodal gradient *)
Definition qL_of (m : me) (o : upw) (G : nat -> nat -> R) (q : nat -> R) (ip : nat) : R :=
  let il := lrL m ip in let ir := lrR m ip in
  let dqL := sumn (ndim m) (fun j => (xIp m o ip j - u_x o (il*ndim m+j)%nat) * G il j) in
  let dq := q ir - q il in
  let limitL := if u_lim o then van_leer (2*2*dqL - dq) dq (u_small o) else 1 in
  q il + dqL * u_ho o * limitL.
Definition qR_of (m : me) (o : upw) (G : nat -> nat -> R) (q : nat -> R) (ip : nat) : R :=
  let il := lrL m ip in let ir := lrR m ip in
  let dqR := sumn (ndim m) (fun j => (u_x o (ir*ndim m+j)%nat - xIp m o ip j) * G ir j) in
  let dq := q ir - q il in
  let limitR := if u_lim o then van_leer (2*2*dqR - dq) dq (u_small o) else 1 in
  q ir - dqR * u_ho o * limitR.
(** lines 198-209: the advected face value *)
Definition face_val (m : me) (o : upw) (G : nat -> nat -> R) (coef q : nat -> R) (tmdot : R) (ip : nat) : R :=
  let pf := pec_of m o coef ip in
  let qIp := at_adv m q ip in
  let qIpL := qL_of m o G q ip in let qIpR := qR_of m o G q ip in
  let qUpwind := if Rlt_dec 0 tmdot then u_alphaUpw o*qIpL + (1 - u_alphaUpw o)*qIp
                 else u_alphaUpw o*qIpR + (1 - u_alphaUpw o)*qIp in
  let qHatL := u_alpha o*qIpL + (1 - u_alpha o)*qIp in
  let qHatR := u_alpha o*qIpR + (1 - u_alpha o)*qIp in
  let qCds := (1/2)*(qHatL + qHatR) in
  pf*qUpwind + (1 - pf)*qCds.

(** ScalarUpwAdvDiffElemKernel.C:133-253 *)
Definition scalar_upw (m : me) (o : upw) (G : nat -> nat -> R) (mdot : nat -> R) (coef q : nat -> R) (s0 : esys) : esys :=
  loop (nscs m) (fun ip s =>
    let il := lrL m ip in let ir := lrR m ip in
    let tmdot := mdot ip in
    let cIp := at_scs m coef ip in
    let pf := pec_of m o coef ip in
    let aflux := tmdot * face_val m o G coef q tmdot ip in
    let s := addB il (- aflux) s in
    let s := addB ir aflux s in
    let aL := (1/2)*(tmdot + Rabs tmdot)*pf*u_alphaUpw o + (1/2)*u_alpha o*(1-pf)*tmdot in
    let s := addL il il aL s in
    let s := addL ir il (- aL) s in
    let aR := (1/2)*(tmdot - Rabs tmdot)*pf*u_alphaUpw o + (1/2)*u_alpha o*(1-pf)*tmdot in
    let s := addL ir ir (- aR) s in
    let s := addL il ir aR s in
    let '(s, qDiff) := loop (npe m) (fun ic st =>
        let '(s, qD) := st in
        let fA := Na m ip ic * tmdot * (pf*(1 - u_alphaUpw o) + (1-pf)*(1 - u_alpha o)) in
        let s := addL il ic fA s in
        let s := addL ir ic (- fA) s in
        let fD := lhsfacDiff m cIp ip ic in
        let qD := qD + fD * q ic in
        let s := addL il ic fD s in
        let s := addL ir ic (- fD) s in
        (s, qD)) (s, 0) in
    addB ir qDiff (addB il (- qDiff) s)) s0.

(* ------------------------------------------------------------------ momentum *)
(** MomentumAdvDiffElemKernel.C:107-116: velocity divergence at the point *)
Definition divU_of (m : me) (u : nat -> R) (ip : nat) : R :=
  sumn (npe m) (fun ic => sumn (ndim m) (fun j => u (ic*ndim m+j)%nat * dndx m ip ic j)).

(** MomentumAdvDiffElemKernel.C:145-183 / MomentumUpwAdvDiffElemKernel.C:269-307: one node's
    advection coefficient [fA] and viscous stress contribution *)
Definition viscous_node (m : me) (muIp : R) (u : nat -> R) (fA : R) (ip ic : nat) (s0 : esys) : esys :=
  let d := ndim m in let il := (lrL m ip * d)%nat in let ir := (lrR m ip * d)%nat in let icN := (ic*d)%nat in
  loop d (fun i s =>
    let indexL := (il+i)%nat in let indexR := (ir+i)%nat in
    let s := addL indexL (icN+i)%nat fA s in
    let s := addL indexR (icN+i)%nat (- fA) s in
    let '(s, riC) := loop d (fun j st =>
        let '(s, acc) := st in
        let axj := area m ip j in
        let uj := u (icN+j)%nat in
        let f_i := - muIp * dndx m ip ic j * axj in
        let acc := acc + f_i in
        let f_j := - muIp * dndx m ip ic i * axj in
        let s := addL indexL (icN+j)%nat f_j s in
        let s := addL indexR (icN+j)%nat (- f_j) s in
        let s := addB indexL (- (f_j*uj)) s in
        let s := addB indexR (f_j*uj) s in
        (s, acc)) (s, 0) in
    let s := addL indexL (icN+i)%nat riC s in
    let s := addL indexR (icN+i)%nat (- riC) s in
    let ui := u (icN+i)%nat in
    let s := addB indexL (- (riC*ui)) s in
    addB indexR (riC*ui) s) s0.

(** MomentumAdvDiffElemKernel.C:88-185 *)
Definition momentum_advdiff (m : me) (includeDivU : R) (mdot : nat -> R) (mu u : nat -> R) (s0 : esys) : esys :=
  let d := ndim m in
  loop (nscs m) (fun ip s =>
    let il := (lrL m ip * d)%nat in let ir := (lrR m ip * d)%nat in
    let tmdot := mdot ip in
    let muIp := at_scs m mu ip in
    let divU := divU_of m u ip in
    let s := loop d (fun i s =>
        let uiIp := at_adv m (fun ic => u (ic*d+i)%nat) ip in
        let aflux := tmdot*uiIp in
        let divUstress := 2/3*muIp*divU*area m ip i*includeDivU in
        let s := addB (il+i)%nat (- (aflux + divUstress)) s in
        addB (ir+i)%nat (aflux + divUstress) s) s in
    loop (npe m) (fun ic s => viscous_node m muIp u (Na m ip ic * tmdot) ip ic s) s) s0.

(** MomentumUpwAdvDiffElemKernel.C:141-309; [G node i j] is dui/dxj *)
Definition momentum_upw (m : me) (o : upw) (G : nat -> nat -> nat -> R) (includeDivU : R) (mdot : nat -> R)
    (mu u : nat -> R) (s0 : esys) : esys :=
  let d := ndim m in
  loop (nscs m) (fun ip s =>
    let il := (lrL m ip * d)%nat in let ir := (lrR m ip * d)%nat in
    let tmdot := mdot ip in
    let muIp := at_scs m mu ip in
    let divU := divU_of m u ip in
    let pf := pec_of m o mu ip in
    let s := loop d (fun i s =>
        let aflux := tmdot * face_val m o (fun n j => G n i j) mu (fun ic => u (ic*d+i)%nat) tmdot ip in
        let divUstress := 2/3*muIp*divU*area m ip i*includeDivU in
        let s := addB (il+i)%nat (- (aflux + divUstress)) s in
        let s := addB (ir+i)%nat (aflux + divUstress) s in
        let aL := (1/2)*(tmdot + Rabs tmdot)*pf*u_alphaUpw o + (1/2)*u_alpha o*(1-pf)*tmdot in
        let s := addL (il+i)%nat (il+i)%nat aL s in
        let s := addL (ir+i)%nat (il+i)%nat (- aL) s in
        let aR := (1/2)*(tmdot - Rabs tmdot)*pf*u_alphaUpw o + (1/2)*u_alpha o*(1-pf)*tmdot in
        let s := addL (ir+i)%nat (ir+i)%nat (- aR) s in
        addL (il+i)%nat (ir+i)%nat aR s) s in
    loop (npe m) (fun ic s =>
      viscous_node m muIp u (Na m ip ic * tmdot * (pf*(1 - u_alphaUpw o) + (1-pf)*(1 - u_alpha o))) ip ic s) s) s0.

(* ------------------------------------------------------------------ continuity *)
Record cfields := mkC { cf_rho : nat -> R; cf_p : nat -> R; cf_v : nat -> R; cf_Gp : nat -> R }.   (* vectors flat *)

(** the integration-point mass flow rate as in ComputeMdotElemAlgorithm.C:215-247 *)
Definition mdot_elem (m : me) (tau : R) (c : cfields) (ip : nat) : R :=
  let d := ndim m in
  sumn d (fun j =>
     (sumn (npe m) (fun ic => Ns m ip ic * cf_rho c ic * cf_v c (ic*d+j)%nat)
      - tau*(sumn (npe m) (fun ic => dndx m ip ic j * cf_p c ic)
             - sumn (npe m) (fun ic => Ns m ip ic * cf_Gp c (ic*d+j)%nat))) * area m ip j).

(** ContinuityAdvElemKernel.C:111-147 *)
Definition continuity_adv (m : me) (tau : R) (c : cfields) (s0 : esys) : esys :=
  let d := ndim m in
  loop (nscs m) (fun ip s =>
    let il := lrL m ip in let ir := lrR m ip in
    let '(s, (rhoU, (Gp, dp))) := loop (npe m) (fun ic st =>
        let '(s, (rhoU, (Gp, dp))) := st in
        let r := Ns m ip ic in
        let Gp' := fun j => Gp j + r * cf_Gp c (ic*d+j)%nat in
        let rhoU' := fun j => rhoU j + r * cf_rho c ic * cf_v c (ic*d+j)%nat in
        let dp' := fun j => dp j + dndx m ip ic j * cf_p c ic in
        let lhsfac := sumn d (fun j => - dndx_lhs m ip ic j * area m ip j) in
        let s := addL il ic lhsfac s in
        let s := addL ir ic (- lhsfac) s in
        (s, (rhoU', (Gp', dp')))) (s, ((fun _ => 0), ((fun _ => 0), (fun _ => 0)))) in
    let md := sumn d (fun j => (rhoU j - tau*(dp j - Gp j)) * area m ip j) in
    addB ir (md / tau) (addB il (- (md / tau)) s)) s0.

(* ------------------------------------------------------------------ element time and GCL terms *)
Record dts := mkDt { dt : R; ga1 : R; ga2 : R; ga3 : R }.   (* get_time_step, get_gamma1..3 *)

(** ScalarMassElemKernel.C:113-157 *)
Definition scalar_mass_elem (m : me) (t : dts) (rp1 rn rm1 qp1 qn qm1 : nat -> R) (s0 : esys) : esys :=
  loop (nscv m) (fun ip s =>
    let nn := nearest m ip in
    let r1 := at_scv m rp1 ip in let r0 := at_scv m rn ip in let rm := at_scv m rm1 ip in
    let q1 := at_scv m qp1 ip in let q0 := at_scv m qn ip in let qm := at_scv m qm1 ip in
    let s := addB nn (- (ga1 t*r1*q1 + ga2 t*r0*q0 + ga3 t*rm*qm) * vol m ip / dt t) s in
    loop (npe m) (fun ic s => addL nn ic (Nv m ip ic * ga1 t*r1*vol m ip/dt t) s) s) s0.

(** MomentumMassElemKernel.C:120-168; [densFac] is 1 for the balanced-force algorithm and 0 otherwise *)
Definition momentum_mass_elem (m : me) (t : dts) (densFac : R) (rp1 rn rm1 up1 un um1 Gp : nat -> R) (s0 : esys) : esys :=
  let d := ndim m in
  loop (nscv m) (fun ip s =>
    let nn := (nearest m ip * d)%nat in
    let r1 := at_scv m rp1 ip in let r0 := at_scv m rn ip in let rm := at_scv m rm1 ip in
    let df := r1*densFac + (1 - densFac) in
    let s := loop d (fun j s =>
        let u1 := at_scv m (fun ic => up1 (ic*d+j)%nat) ip in
        let u0 := at_scv m (fun ic => un (ic*d+j)%nat) ip in
        let um := at_scv m (fun ic => um1 (ic*d+j)%nat) ip in
        let g := at_scv m (fun ic => Gp (ic*d+j)%nat) ip in
        addB (nn+j)%nat (- (ga1 t*r1*u1 + ga2 t*r0*u0 + ga3 t*rm*um) * vol m ip / dt t - g * vol m ip * df) s) s in
    loop (npe m) (fun ic s =>
      let f := Nv m ip ic * ga1 t*r1*vol m ip/dt t in
      loop d (fun j s => addL (nn+j)%nat (ic*d+j)%nat f s) s) s) s0.

(** ContinuityMassElemKernel.C:100-121 *)
Definition continuity_mass_elem (m : me) (t : dts) (rp1 rn rm1 : nat -> R) (s0 : esys) : esys :=
  let tau := dt t / ga1 t in
  loop (nscv m) (fun ip s =>
    let r1 := at_scv m rp1 ip in let r0 := at_scv m rn ip in let rm := at_scv m rm1 ip in
    addB (nearest m ip) (- (ga1 t*r1 + ga2 t*r0 + ga3 t*rm) * vol m ip / dt t / tau) s) s0.

(** ScalarGclElemKernel.C:82-107 *)
Definition scalar_gcl_elem (m : me) (rho divV q : nat -> R) (s0 : esys) : esys :=
  loop (nscv m) (fun ip s =>
    let nn := nearest m ip in
    let r := at_scv m rho ip in let dv := at_scv m divV ip in let qi := at_scv m q ip in
    let s := addB nn (- (r*qi*dv*vol m ip)) s in
    let f := r*dv*vol m ip in
    loop (npe m) (fun ic s => addL nn ic (Nv m ip ic * f) s) s) s0.

(** MomentumGclElemKernel.C: same layout with nDim components *)
Definition momentum_gcl_elem (m : me) (rho divV u : nat -> R) (s0 : esys) : esys :=
  let d := ndim m in
  loop (nscv m) (fun ip s =>
    let nn := (nearest m ip * d)%nat in
    let r := at_scv m rho ip in let dv := at_scv m divV ip in
    let s := loop d (fun i s => addB (nn+i)%nat (- (r*at_scv m (fun ic => u (ic*d+i)%nat) ip*dv*vol m ip)) s) s in
    loop (npe m) (fun ic s =>
      let f := Nv m ip ic * r*dv*vol m ip in
      loop d (fun j s => addL (nn+j)%nat (ic*d+j)%nat f s) s) s) s0.

(** ContinuityGclElemKernel.C: [densFac] is 0 for the balanced-force algorithm and 1 otherwise
    (densFac_ and om_densFac_ of its constructor) *)
Definition continuity_gcl_elem (m : me) (t : dts) (densFac : R) (rho divV : nat -> R) (s0 : esys) : esys :=
  let tau := dt t / ga1 t in
  loop (nscv m) (fun ip s =>
    let r := at_scv m rho ip in let dv := at_scv m divV ip in
    addB (nearest m ip) (- ((densFac*r + (1 - densFac))*dv*vol m ip/tau)) s) s0.

(* ------------------------------------------------------------------ nodal (lumped) time and GCL terms *)
(** a node's (lhs, rhs) entry for a scalar equation *)
Definition nsys := (R * R)%type.

(** ScalarMassBDF2NodeSuppAlg.C:76-94 *)
Definition scalar_mass_bdf2 (t : dts) (V rp1 rn rm1 qp1 qn qm1 : R) (s : nsys) : nsys :=
  let lhsTime := ga1 t*rp1*V/dt t in
  (fst s + lhsTime, snd s - (ga1 t*rp1*qp1 + ga2 t*qn*rn + ga3 t*qm1*rm1)*V/dt t).
(** ScalarMassBackwardEulerNodeSuppAlg.C (node_execute) *)
Definition scalar_mass_be (t : dts) (V rp1 rn qp1 qn : R) (s : nsys) : nsys :=
  let lhsTime := rp1*V/dt t in
  (fst s + lhsTime, snd s - (rp1*qp1 - qn*rn)*V/dt t).
(** HeatCondMassBDF2NodeSuppAlg.C:77-87 *)
Definition heat_mass_bdf2 (t : dts) (V rho cp tp1 tn tm1 : R) (s : nsys) : nsys :=
  let lhsTime := rho*cp*V/dt t in
  (fst s + lhsTime, snd s - lhsTime*(ga1 t*tp1 + ga2 t*tn + ga3 t*tm1)).
(** HeatCondMassBackwardEulerNodeSuppAlg.C:71-79 *)
Definition heat_mass_be (t : dts) (V rho cp tp1 tn : R) (s : nsys) : nsys :=
  let lhsTime := rho*cp*V/dt t in
  (fst s + lhsTime, snd s - lhsTime*(tp1 - tn)).
(** ContinuityMassBDF2NodeSuppAlg.C (node_execute) *)
Definition continuity_mass_bdf2 (t : dts) (V rp1 rn rm1 : R) (s : nsys) : nsys :=
  let tau := dt t/ga1 t in
  (fst s + 0, snd s - (ga1 t*rp1 + ga2 t*rn + ga3 t*rm1)*V/dt t/tau).
(** ContinuityMassBackwardEulerNodeSuppAlg.C:66-73 *)
Definition continuity_mass_be (t : dts) (V rp1 rn : R) (s : nsys) : nsys :=
  let tau := dt t in
  (fst s + 0, snd s - (rp1 - rn)*V/dt t/tau).
(** ScalarGclNodeSuppAlg.C:67-74 *)
Definition scalar_gcl (V rp1 qp1 divV : R) (s : nsys) : nsys := (fst s + 0, snd s - rp1*qp1*divV*V).
(** ContinuityGclNodeSuppAlg.C:68-75 *)
Definition continuity_gcl (t : dts) (V rp1 divV : R) (s : nsys) : nsys :=
  let tau := dt t/ga1 t in (fst s + 0, snd s - rp1*divV*V/tau).

(** MomentumMassBDF2NodeSuppAlg.C:95-102; the node's nDim x nDim block *)
Definition momentum_mass_bdf2 (d : nat) (t : dts) (V rp1 rn rm1 : R) (up1 un um1 dpdx : nat -> R) (s0 : esys) : esys :=
  let lhsfac := ga1 t*rp1*V/dt t in
  loop d (fun i s =>
    let s := addB i (- (ga1 t*rp1*up1 i + ga2 t*rn*un i + ga3 t*rm1*um1 i)*V/dt t - dpdx i*V) s in
    addL i i lhsfac s) s0.
(** MomentumMassBackwardEulerNodeSuppAlg.C:84-90 *)
Definition momentum_mass_be (d : nat) (t : dts) (V rp1 rn : R) (up1 un dpdx : nat -> R) (s0 : esys) : esys :=
  let lhsfac := rp1*V/dt t in
  loop d (fun i s =>
    let s := addB i (- (rp1*up1 i - rn*un i)*V/dt t - dpdx i*V) s in
    addL i i lhsfac s) s0.
(** MomentumGclSrcNodeSuppAlg.C:70-79 *)
Definition momentum_gcl (d : nat) (V rp1 divV : R) (up1 : nat -> R) (s0 : esys) : esys :=
  let fac := rp1*divV*V in
  loop d (fun i s => addB i (- (fac*up1 i)) s) s0.
