(** Edge-based operators, one edge at a time, and their assembly over a list of edges.
    Files: AssembleScalarEdgeSolverAlgorithm.C, AssembleMomentumEdgeSolverAlgorithm.C,
    AssembleContinuityEdgeSolverAlgorithm.C, ComputeMdotEdgeAlgorithm.C,
    AssembleNodalGradEdgeAlgorithm.C, AssembleNodalGradBoundaryAlgorithm.C, PecletFunction.C,
    LowMachEquationSystem.C (project_nodal_velocity).
    Simplifications: real arithmetic; nodes are natural numbers, fields are functions of the node;
    apply_coeff is modelled by its effect, addition into the nodes' rows. *)
Require Import Reals List Bool.
Import ListNotations.
Open Scope R_scope.

(** for (int j = 0; j < nDim; ++j) sum += f(j) *)
Definition sumn (n : nat) (f : nat -> R) : R := fold_left (fun a j => a + f j) (seq 0 n) 0.

Definition vec := nat -> R.

Record edge := mkEdge { eL : nat; eR : nat; eA : vec }.   (* node ids and edge_area_vector *)

(* ------------------------------------------------------------------ Peclet functions *)
(** PecletFunction.C:77-81 *)
Definition classic_peclet (hf pe : R) : R :=
  let m := hf*pe in m*m/(5 + m*m).
(** PecletFunction.C:115-119 *)
Definition tanh_peclet (c1 c2 x : R) : R := (1/2)*(1 + tanh ((x - c1)/c2)).

(** van_leer, AssembleScalarEdgeSolverAlgorithm.C:324-332 *)
Definition van_leer (dqm dqp small : R) : R :=
  (2*(dqm*dqp + Rabs (dqm*dqp))) / ((dqm+dqp)*(dqm+dqp) + small).

(* ------------------------------------------------------------------ scalar edge operator *)
(** options and fields used by execute(), lines 101-118 *)
Record sc_opts := mkOpts {
  o_ndim : nat; o_small : R;
  o_alpha : R; o_alphaUpw : R; o_hoUpwind : R; o_limiter : bool; o_noc : bool;
  o_peclet : R -> R }.
Record sc_fields := mkFields {
  f_x : nat -> vec; f_dqdx : nat -> vec; f_vrtm : nat -> vec;
  f_q : nat -> R; f_rho : nat -> R; f_diff : nat -> R }.

Record edge_sys := mkSys { s00 : R; s01 : R; s10 : R; s11 : R; sr0 : R; sr1 : R }.

(** lines 203-212 *)
Definition dxj (x : nat -> vec) (e : edge) (j : nat) : R := x (eR e) j - x (eL e) j.
Definition e_axdx (n : nat) (x : nat -> vec) (e : edge) : R := sumn n (fun j => eA e j * dxj x e j).
Definition e_asq (n : nat) (e : edge) : R := sumn n (fun j => eA e j * eA e j).
Definition e_udotx (n : nat) (x v : nat -> vec) (e : edge) : R :=
  sumn n (fun j => (1/2) * dxj x e j * (v (eL e) j + v (eR e) j)).

(** lines 217-222 *)
Definition visc_ip (d : nat -> R) (e : edge) : R := (1/2)*(d (eL e) + d (eR e)).
Definition diff_ip (d rho : nat -> R) (e : edge) : R := (1/2)*(d (eL e)/rho (eL e) + d (eR e)/rho (eR e)).
Definition pecfac_of (o : sc_opts) (f : sc_fields) (e : edge) : R :=
  o_peclet o (Rabs (e_udotx (o_ndim o) (f_x f) (f_vrtm f) e) / (diff_ip (f_diff f) (f_rho f) e + o_small o)).

(** lines 225-237: half-edge extrapolation increments and non-orthogonal term *)
Definition e_dq (n : nat) (x dq : nat -> vec) (e : edge) (node : nat) : R :=
  sumn n (fun j => (1/2) * dxj x e j * dq node j).
Definition e_nonorth (n : nat) (f : sc_fields) (e : edge) : R :=
  let asq := e_asq n e in let inv := 1 / e_axdx n (f_x f) e in
  sumn n (fun j => - visc_ip (f_diff f) e * (eA e j - asq*inv*dxj (f_x f) e j)
                   * ((1/2)*(f_dqdx f (eL e) j + f_dqdx f (eR e) j))).

(** lines 240-252: limited extrapolation to the integration point *)
Definition e_limit (o : sc_opts) (dqs dq : R) : R :=
  if o_limiter o then van_leer (2*2*dqs - dq) dq (o_small o) else 1.
Definition e_qIpL (o : sc_opts) (f : sc_fields) (e : edge) : R :=
  let dqL := e_dq (o_ndim o) (f_x f) (f_dqdx f) e (eL e) in
  f_q f (eL e) + dqL * o_hoUpwind o * e_limit o dqL (f_q f (eR e) - f_q f (eL e)).
Definition e_qIpR (o : sc_opts) (f : sc_fields) (e : edge) : R :=
  let dqR := e_dq (o_ndim o) (f_x f) (f_dqdx f) e (eR e) in
  f_q f (eR e) - dqR * o_hoUpwind o * e_limit o dqR (f_q f (eR e) - f_q f (eL e)).

(** lines 257-258: diffusive flux *)
Definition e_lhsfac (o : sc_opts) (f : sc_fields) (e : edge) : R :=
  - visc_ip (f_diff f) e * e_asq (o_ndim o) e * (1 / e_axdx (o_ndim o) (f_x f) e).
Definition e_diffFlux (o : sc_opts) (f : sc_fields) (e : edge) : R :=
  e_lhsfac o f e * (f_q f (eR e) - f_q f (eL e)) + e_nonorth (o_ndim o) f e * (if o_noc o then 1 else 0).

(** lines 275-288: face value (the factor of tmdot in aflux) *)
Definition e_face (o : sc_opts) (f : sc_fields) (mdot : R) (e : edge) : R :=
  let pf := pecfac_of o f e in
  let qIpL := e_qIpL o f e in let qIpR := e_qIpR o f e in
  let qIp := (1/2)*(f_q f (eL e) + f_q f (eR e)) in
  let qUpwind := if Rlt_dec 0 mdot then o_alphaUpw o*qIpL + (1 - o_alphaUpw o)*qIp
                 else o_alphaUpw o*qIpR + (1 - o_alphaUpw o)*qIp in
  let qHatL := o_alpha o*qIpL + (1 - o_alpha o)*qIp in
  let qHatR := o_alpha o*qIpR + (1 - o_alpha o)*qIp in
  let qCds := (1/2)*(qHatL + qHatR) in
  pf*qUpwind + (1 - pf)*qCds.

(** lines 260-316: the complete 2x2 contribution, accumulated in the code's order *)
Definition scalar_edge (o : sc_opts) (f : sc_fields) (mdot : edge -> R) (e : edge) : edge_sys :=
  let lhsfac := e_lhsfac o f e in
  let diffFlux := e_diffFlux o f e in
  let l0 := - lhsfac in let l1 := lhsfac in let r0 := - diffFlux in
  let l2 := lhsfac in let l3 := - lhsfac in let r1 := diffFlux in
  let m := mdot e in
  let pf := pecfac_of o f e in
  let aflux := m * e_face o f m e in
  let a1 := (1/2)*(m + Rabs m)*pf*o_alphaUpw o + (1/2)*o_alpha o*(1-pf)*m in
  let l0 := l0 + a1 in let l2 := l2 - a1 in
  let a2 := (1/2)*(m - Rabs m)*pf*o_alphaUpw o + (1/2)*o_alpha o*(1-pf)*m in
  let l3 := l3 - a2 in let l1 := l1 + a2 in
  let a3 := (1/2)*m*(pf*(1 - o_alphaUpw o) + (1-pf)*(1 - o_alpha o)) in
  let l0 := l0 + a3 in let l1 := l1 + a3 in
  let l2 := l2 - a3 in let l3 := l3 - a3 in
  mkSys l0 l1 l2 l3 (r0 - aflux) (r1 + aflux).

(* ------------------------------------------------------------------ assembly *)
(** apply_coeff -> sumInto: add the edge's rows to the rows of its two nodes *)
Definition add_rhs (s : edge_sys) (e : edge) (i : nat) : R :=
  (if Nat.eqb (eL e) i then sr0 s else 0) + (if Nat.eqb (eR e) i then sr1 s else 0).
Definition add_lhs (s : edge_sys) (e : edge) (i j : nat) : R :=
  (if (Nat.eqb (eL e) i && Nat.eqb (eL e) j)%bool then s00 s else 0)
  + (if (Nat.eqb (eL e) i && Nat.eqb (eR e) j)%bool then s01 s else 0)
  + (if (Nat.eqb (eR e) i && Nat.eqb (eL e) j)%bool then s10 s else 0)
  + (if (Nat.eqb (eR e) i && Nat.eqb (eR e) j)%bool then s11 s else 0).
Definition assembled_rhs (op : edge -> edge_sys) (es : list edge) (i : nat) : R :=
  fold_left (fun a e => a + add_rhs (op e) e i) es 0.
Definition assembled_lhs (op : edge -> edge_sys) (es : list edge) (i j : nat) : R :=
  fold_left (fun a e => a + add_lhs (op e) e i j) es 0.

(* ------------------------------------------------------------------ continuity / mdot *)
Record ct_fields := mkCt {
  c_x : nat -> vec; c_Gp : nat -> vec; c_vrtm : nat -> vec; c_p : nat -> R; c_rho : nat -> R }.

(** the mass flow rate formula as written in ComputeMdotEdgeAlgorithm.C:144-153 *)
Definition mdot_edge (n : nat) (tau noc : R) (c : ct_fields) (e : edge) : R :=
  let asq := e_asq n e in let inv := 1 / e_axdx n (c_x c) e in
  fold_left (fun t j =>
     let axj := eA e j in let dx := dxj (c_x c) e j in
     let kxj := axj - asq*inv*dx in
     let rhoUjIp := (1/2)*(c_rho c (eR e)*c_vrtm c (eR e) j + c_rho c (eL e)*c_vrtm c (eL e) j) in
     let GjIp := (1/2)*(c_Gp c (eR e) j + c_Gp c (eL e) j) in
     t + ((rhoUjIp + tau*GjIp)*axj - tau*kxj*GjIp*noc)) (seq 0 n)
   (- tau*(c_p c (eR e) - c_p c (eL e))*asq*inv).

(** the same loop as written in AssembleContinuityEdgeSolverAlgorithm.C:156-181 with the 2x2
    contribution of lines 167-181 *)
Definition continuity_edge (n : nat) (tau noc : R) (c : ct_fields) (e : edge) : edge_sys :=
  let asq := e_asq n e in let inv := 1 / e_axdx n (c_x c) e in
  let tmdot := fold_left (fun t j =>
     let axj := eA e j in let dx := dxj (c_x c) e j in
     let kxj := axj - asq*inv*dx in
     let rhoUjIp := (1/2)*(c_rho c (eR e)*c_vrtm c (eR e) j + c_rho c (eL e)*c_vrtm c (eL e) j) in
     let GjIp := (1/2)*(c_Gp c (eR e) j + c_Gp c (eL e) j) in
     t + ((rhoUjIp + tau*GjIp)*axj - tau*kxj*GjIp*noc)) (seq 0 n)
   (- tau*(c_p c (eR e) - c_p c (eL e))*asq*inv) in
  let lhsfac := - asq*inv in
  mkSys (- lhsfac) lhsfac lhsfac (- lhsfac) (- tmdot/tau) (tmdot/tau).

(** LowMachEquationSystem.C:825-831: pressure_ += pTmp_ (field_axpby with both factors 1) *)
Definition update_pressure (c : ct_fields) (dp : nat -> R) : ct_fields :=
  mkCt (c_x c) (c_Gp c) (c_vrtm c) (fun i => 1*dp i + 1*c_p c i) (c_rho c).

(** project_nodal_velocity, LowMachEquationSystem.C:884-972: u -= (tau/denom)*(Gp_new - Gp_old) on
    projected nodes. [balanced] = solutionOptions_->balancedForce_. *)
Definition project_velocity (tau : R) (balanced : bool) (rho : nat -> R) (projected : nat -> bool)
    (u Gold Gnew : nat -> vec) : nat -> vec :=
  fun i j => if projected i
             then let denom := (if balanced then 1 else 0) + (if balanced then 0 else 1)*rho i in
                  u i j - tau/denom*(Gnew i j - Gold i j)
             else u i j.

(* ------------------------------------------------------------------ nodal gradients *)
(** AssembleNodalGradEdgeAlgorithm.C:101-112, one edge, component j, contribution to node i *)
Definition grad_edge (vol q : nat -> R) (e : edge) (i j : nat) : R :=
  let qip := (1/2)*(q (eL e) + q (eR e)) in
  (if Nat.eqb (eL e) i then eA e j * qip * (1/vol (eL e)) else 0)
  - (if Nat.eqb (eR e) i then eA e j * qip * (1/vol (eR e)) else 0).
(** AssembleNodalGradBoundaryAlgorithm.C:119-151, one boundary integration point: nearest node,
    exposed area vector, shape function weights at the face nodes *)
Record bip := mkBip { b_nn : nat; b_A : vec; b_N : list (R*nat) }.
Definition grad_bip (vol q : nat -> R) (b : bip) (i j : nat) : R :=
  let qIp := fold_left (fun a p => a + fst p * q (snd p)) (b_N b) 0 in
  if Nat.eqb (b_nn b) i then qIp * b_A b j * (1/vol (b_nn b)) else 0.
Definition nodal_grad (vol q : nat -> R) (es : list edge) (bs : list bip) (i j : nat) : R :=
  fold_left (fun a b => a + grad_bip vol q b i j) bs
   (fold_left (fun a e => a + grad_edge vol q e i j) es 0).

(* ------------------------------------------------------------------ momentum edge operator *)
Record mo_fields := mkMo {
  m_x : nat -> vec; m_dudx : nat -> nat -> vec; (* node, i, j : du_i/dx_j *)
  m_vrtm : nat -> vec; m_u : nat -> vec; m_rho : nat -> R; m_mu : nat -> R }.

(** lines 249-275: du_i/dx_j at the edge, over-relaxed non-orthogonal correction *)
Definition e_duidxj (n : nat) (noc : R) (f : mo_fields) (e : edge) (i j : nat) : R :=
  let G k := (1/2)*(m_dudx f (eL e) i k + m_dudx f (eR e) i k) in
  let uidiff := m_u f (eR e) i - m_u f (eL e) i in
  let Gdx := sumn n (fun l => G l * dxj (m_x f) e l) in
  G j * noc + (uidiff - Gdx*noc) * eA e j * (1 / e_axdx n (m_x f) e).

(** lines 321-340: viscous flux of component i; [incl] = includeDivU_ *)
Definition e_dflux (n : nat) (noc incl : R) (f : mo_fields) (e : edge) (i : nat) : R :=
  let mu := visc_ip (m_mu f) e in
  let divU := sumn n (fun j => e_duidxj n noc f e j j) in
  fold_left (fun a j => a + (- mu*(e_duidxj n noc f e i j + e_duidxj n noc f e j i) * eA e j)) (seq 0 n)
    (2/3*mu*divU*eA e i*incl).

(** component i seen as a scalar for the advection part (lines 186-246, 300-318 repeat the scalar
    formulas with du instead of dq) *)
Definition comp_fields (f : mo_fields) (i : nat) : sc_fields :=
  mkFields (m_x f) (fun nd j => m_dudx f nd i j) (m_vrtm f) (fun nd => m_u f nd i) (m_rho f) (m_mu f).

(** right-hand side of component i: lines 342-351 *)
Definition momentum_rhs (o : sc_opts) (incl : R) (f : mo_fields) (mdot : edge -> R) (e : edge) (i : nat) : R * R :=
  let aflux := mdot e * e_face o (comp_fields f i) (mdot e) e in
  let tflux := aflux + e_dflux (o_ndim o) (if o_noc o then 1 else 0) incl f e i in
  (- tflux, tflux).

(** left-hand side entry (row: side s, component i; column: side t, component k); lines 353-411.
    [false] = left node, [true] = right node. *)
Definition momentum_lhs (o : sc_opts) (f : mo_fields) (mdot : edge -> R) (e : edge)
    (s : bool) (i : nat) (t : bool) (k : nat) : R :=
  let m := mdot e in
  let pf := pecfac_of o (comp_fields f i) e in
  let inv := 1 / e_axdx (o_ndim o) (m_x f) e in
  let mu := visc_ip (m_mu f) e in
  let a1 := (1/2)*(m + Rabs m)*pf*o_alphaUpw o + (1/2)*o_alpha o*(1-pf)*m in
  let a2 := (1/2)*(m - Rabs m)*pf*o_alphaUpw o + (1/2)*o_alpha o*(1-pf)*m in
  let a3 := (1/2)*m*(pf*(1 - o_alphaUpw o) + (1-pf)*(1 - o_alpha o)) in
  let dl := - mu*e_asq (o_ndim o) e*inv in
  let ns := - mu*eA e i*eA e k*inv in
  (if Nat.eqb i k then
     match s, t with
     | false, false => a1 + a3 - dl
     | false, true => a2 + a3 + dl
     | true, false => - a1 - a3 + dl
     | true, true => - a2 - a3 - dl
     end else 0)
  + match s, t with
    | false, false => - ns | false, true => ns
    | true, false => ns | true, true => - ns
    end.
