(** * Radiative transport: one ordinate's discrete equation, and the outer iteration

    Files: src/pmr/AssembleRadTransEdgeSolverAlgorithm.C, AssembleRadTransEdgeUpwindSolverAlgorithm.C,
    AssembleRadTransWallSolverAlgorithm.C, RadTransWallElemKernel.C, RadTransBlackBodyNodeSuppAlg.C,
    RadTransIsoScatteringNodeSuppAlg.C, RadTransAdvectionSUCVElemKernel.C,
    RadTransAbsorptionBlackBodyElemKernel.C, RadTransIsotropicScatteringElemKernel.C and the iteration in
    RadiativeTransportEquationSystem.C 828-1486.
    Simplifications: real arithmetic; nodes are natural numbers, nodal fields are functions of the node;
    one processor (no aura, no periodic pairs) except where [div_norm] takes the list of ranks; the
    linear solver is a parameter (any function of the assembled system). *)
From Coq Require Import Reals List Bool Arith.
From Verif Require Import Edge_Model Elem_Model.
Import ListNotations.
Local Open Scope R_scope.

(** nodal fields read by the algorithms *)
Record rfields := mkRF {
  r_x : nat -> vec;        (* coordinates *)
  r_mua : nat -> R;        (* absorption_coefficient *)
  r_mus : nat -> R;        (* scattering_coefficient *)
  r_G : nat -> R;          (* scalar_flux *)
  r_src : nat -> R;        (* radiation_source *)
  r_vol : nat -> R;        (* dual_nodal_volume *)
  r_Ibc : nat -> R }.      (* intensity_bc *)

(** [sjaj += p_Sk[j]*p_areaVec[j]] *)
Definition sjaj (n : nat) (S : vec) (A : vec) : R := sumn n (fun j => S j * A j).

(** AssembleRadTransEdgeSolverAlgorithm.C 168-240 (useEdgeH = true, so [h_vol] is dead) *)
Definition ext_ip (f : rfields) (e : edge) : R :=
  (1/2) * ((r_mua f (eL e) + r_mus f (eL e)) + (r_mua f (eR e) + r_mus f (eR e))).
Definition sucv_tau (n : nat) (f : rfields) (e : edge) : R :=
  let aMag := sqrt (e_asq n e) in
  let h := sumn n (fun j => eA e j / aMag * dxj (r_x f) e j) in
  sqrt (1 / ((2/h)*(2/h) + ext_ip f e * ext_ip f e)).
Definition sucv_residual (n : nat) (S : vec) (f : rfields) (I : nat -> R) (e : edge) : R :=
  let inv_axdx := 1 / e_axdx n (r_x f) e in
  let muI := ext_ip f e * (1/2) * (I (eL e) + I (eR e)) in
  let eP := (1/2) * (r_src f (eL e) + r_src f (eR e)) in
  let iso := (1/2) * (r_mus f (eL e) * r_G f (eL e) + r_mus f (eR e) * r_G f (eR e)) / 4 * (1/PI) in
  muI - eP - iso + sumn n (fun j => S j * (I (eR e) - I (eL e)) * eA e j * inv_axdx).

Definition rad_edge_sucv (n : nat) (S : vec) (f : rfields) (I : nat -> R) (e : edge) : edge_sys :=
  let s := sjaj n S (eA e) in
  let tau := sucv_tau n f e in
  let inv_axdx := 1 / e_axdx n (r_x f) e in
  let c := (1/2) * s in                                 (* 195 *)
  let d := - tau * s * s * inv_axdx in                  (* 209 *)
  let m := - tau * s * (1/2) * ext_ip f e in            (* 218 *)
  let Iip := (1/2) * (I (eL e) + I (eR e)) in
  let sucv := - tau * s * sucv_residual n S f I e in
  mkSys (c - d + m) (c + d + m) (- c + d - m) (- c - d - m)
        (- s * Iip - sucv) (s * Iip + sucv).

(** AssembleRadTransEdgeUpwindSolverAlgorithm.C 128-150 *)
Definition rad_edge_upwind (n : nat) (S : vec) (I : nat -> R) (e : edge) : edge_sys :=
  let s := sjaj n S (eA e) in
  let l := (1/2) * (s + Rabs s) in
  let r := (1/2) * (s - Rabs s) in
  let Iip := if Rlt_dec 0 s then I (eL e) else I (eR e) in
  mkSys l r (- l) (- r) (- s * Iip) (s * Iip).

(** interpolation to a boundary integration point,
    AssembleRadTransWallSolverAlgorithm.C 170-178 / RadTransWallElemKernel.C 86-92 *)
Definition at_bip (b : bip) (q : nat -> R) : R := fold_left (fun a p => a + fst p * q (snd p)) (b_N b) 0.

(** AssembleRadTransWallSolverAlgorithm.C 180-202: row and matrix entry of one boundary point.
    [b_nn] is the node of the row ([nearestNode]).  RadTransWallElemKernel.C 94-117 writes the same
    two cases with a 0/1 factor. *)
Definition wall_rhs (n : nat) (S : vec) (f : rfields) (I : nat -> R) (b : bip) (i : nat) : R :=
  let a := sjaj n S (b_A b) in
  if Nat.eqb (b_nn b) i then
    if Rlt_dec 0 a then - (at_bip b I * a) else - (at_bip b (r_Ibc f) * a)
  else 0.
Definition wall_lhs (n : nat) (S : vec) (b : bip) (i j : nat) : R :=
  let a := sjaj n S (b_A b) in
  if Nat.eqb (b_nn b) i then
    if Rlt_dec 0 a then fold_left (fun acc p => acc + (if Nat.eqb (snd p) j then a * fst p else 0)) (b_N b) 0 else 0
  else 0.

(** RadTransBlackBodyNodeSuppAlg.C 71-76; RadTransIsoScatteringNodeSuppAlg.C 60-64, the latter only
    when scattering is activated (RadiativeTransportEquationSystem.C 531-535) *)
Definition node_rhs (scat : bool) (f : rfields) (I : nat -> R) (i : nat) : R :=
  - (((r_mua f i + r_mus f i) * I i - r_src f i) * r_vol f i)
  + (if scat then r_mus f i * r_G f i / 4 * (1/PI) * r_vol f i else 0).
Definition node_lhs (f : rfields) (i : nat) : R := (r_mua f i + r_mus f i) * r_vol f i.

(** the system assembled by [assemble_and_solve] for one ordinate, edge-based realm
    (RadiativeTransportEquationSystem.C 499-540 selects the algorithms) *)
Inductive scheme := Sucv | Upwind.
Definition edge_op (k : scheme) (n : nat) (S : vec) (f : rfields) (I : nat -> R) : edge -> edge_sys :=
  match k with Sucv => rad_edge_sucv n S f I | Upwind => rad_edge_upwind n S I end.
Definition rad_rhs (k : scheme) (scat : bool) (n : nat) (S : vec) (f : rfields) (es : list edge) (bs : list bip)
    (I : nat -> R) (i : nat) : R :=
  assembled_rhs (edge_op k n S f I) es i
  + fold_right Rplus 0 (map (fun b => wall_rhs n S f I b i) bs) + node_rhs scat f I i.
Definition rad_lhs (k : scheme) (n : nat) (S : vec) (f : rfields) (es : list edge) (bs : list bip)
    (I : nat -> R) (i j : nat) : R :=
  assembled_lhs (edge_op k n S f I) es i j
  + fold_right Rplus 0 (map (fun b => wall_lhs n S b i j) bs) + (if Nat.eqb i j then node_lhs f i else 0).

(* ------------------------------------------------------------------ element kernels *)
(** nodal fields of one element *)
Record refields := mkRE { q_mua : nat -> R; q_mus : nat -> R; q_G : nat -> R; q_src : nat -> R; q_x : nat -> R }.

(** RadTransAdvectionSUCVElemKernel.C 132-205, [fac] is [sucvFac_], [S] is [v_Sk_] *)
Definition rad_sucv_kernel (m : me) (S : vec) (fac : R) (f : refields) (I : nat -> R) (s0 : esys) : esys :=
  loop (nscs m) (fun ip s =>
    let il := lrL m ip in let ir := lrR m ip in
    let sa := sumn (ndim m) (fun j => S j * area m ip j) in
    let aMag := sqrt (sumn (ndim m) (fun j => area m ip j * area m ip j)) in
    let Iscs := at_scs m I ip in
    let ext := at_scs m (fun c => q_mua f c + q_mus f c) ip in
    let eP := at_scs m (q_src f) ip in
    let iso := sumn (npe m) (fun ic => Ns m ip ic * q_mus f ic * q_G f ic * (1/PI/4)) in
    let s := loop (npe m) (fun ic s => addL ir ic (- (sa * Ns m ip ic)) (addL il ic (sa * Ns m ip ic) s)) s in
    let s := addB ir (Iscs * sa) (addB il (- (Iscs * sa)) s) in
    let h := sumn (ndim m) (fun j => area m ip j / aMag * (q_x f (ir * ndim m + j)%nat - q_x f (il * ndim m + j)%nat)) in
    let tau := sqrt (1 / ((2/h)*(2/h) + ext*ext)) * fac in
    let '(s, sidIdxi) := loop (npe m) (fun ic st =>
        let '(s, acc) := st in
        let s := addL il ic (- tau * sa * Ns m ip ic * ext) s in
        let s := addL ir ic (- (- tau * sa * Ns m ip ic * ext)) s in
        let sdN := sumn (ndim m) (fun j => S j * dndx m ip ic j) in
        let s := addL il ic (tau * sa * (- sdN)) s in
        let s := addL ir ic (- (tau * sa * (- sdN))) s in
        (s, acc + sdN * I ic)) (s, 0) in
    let residual := - tau * sa * (sidIdxi + ext * Iscs - eP - iso) in
    addB ir residual (addB il (- residual) s)) s0.

(** RadTransAbsorptionBlackBodyElemKernel.C 79-105 *)
Definition rad_bb_kernel (m : me) (f : refields) (I : nat -> R) (s0 : esys) : esys :=
  loop (nscv m) (fun ip s =>
    let nn := nearest m ip in
    let ext := at_scv m (fun c => q_mua f c + q_mus f c) ip in
    let s := addB nn (- ((ext * at_scv m I ip - at_scv m (q_src f) ip) * Elem_Model.vol m ip)) s in
    loop (npe m) (fun ic s => addL nn ic (Nv m ip ic * ext * Elem_Model.vol m ip) s) s) s0.

(** RadTransIsotropicScatteringElemKernel.C 73-87 *)
Definition rad_scat_kernel (m : me) (f : refields) (s0 : esys) : esys :=
  loop (nscv m) (fun ip s =>
    addB (nearest m ip) (at_scv m (fun c => q_mus f c * q_G f c) ip * (1/PI/4) * Elem_Model.vol m ip) s) s0.

(* ------------------------------------------------------------------ outer iteration *)
(** an ordinate as read by set_current_ordinate_info, 743-764 *)
Record ordn := mkOrd { od_S : vec; od_w : R }.

(** 972-975, 1079: black-body intensity; 1035-1043: wall intensity *)
Definition blackbody (sb T : R) : R := 1/PI * sb * T * T * T * T.
Definition wall_intensity (sb eps tau T envT irr : R) : R :=
  1/PI * (tau * sb * envT * envT * envT * envT + eps * sb * T * T * T * T + (1 - eps - tau) * irr).

(** 1075-1079: the emission term given to every ordinate's equation *)
Definition rad_source (sb mua T : R) : R := mua * sb * T * T * T * T * (1/PI).

(** 1358-1389: one boundary point's contribution to the irradiation of its nearest node *)
Definition irr_bip (n : nat) (o : ordn) (I : nat -> R) (b : bip) (i : nat) : R :=
  let amag := sqrt (sumn n (fun j => b_A b j * b_A b j)) in
  let dot := sumn n (fun j => b_A b j / amag * od_S o j) in
  if Nat.eqb (b_nn b) i then if Rlt_dec 0 dot then od_w o * at_bip b I * dot * amag else 0 else 0.
(** 1186-1207: assembled boundary area *)
Definition bnd_area (n : nat) (bs : list bip) (i : nat) : R :=
  fold_right Rplus 0 (map (fun b => if Nat.eqb (b_nn b) i then sqrt (sumn n (fun j => b_A b j * b_A b j)) else 0) bs).

(** what the ordinate loop accumulates: 1239-1277 (scalar flux and heat flux), 1285-1392 (irradiation) *)
Record racc := mkAcc { ac_G : nat -> R; ac_q : nat -> nat -> R; ac_H : nat -> R }.
Definition zero_acc : racc := mkAcc (fun _ => 0) (fun _ _ => 0) (fun _ => 0).
Definition accumulate (n : nat) (bs : list bip) (o : ordn) (I : nat -> R) (a : racc) : racc :=
  mkAcc (fun i => ac_G a i + I i * od_w o)
        (fun i j => ac_q a i j + I i * od_S o j * od_w o)
        (fun i => ac_H a i + fold_right Rplus 0 (map (fun b => irr_bip n o I b i) bs)).

(** 858-887: the ordinate loop.  [solve G o I] is the increment returned by [assemble_and_solve] for
    ordinate [o] when the scalar_flux field holds [G] and the intensity field holds [I]. *)
Fixpoint ordinate_loop (n : nat) (bs : list bip) (solve : (nat -> R) -> ordn -> (nat -> R) -> nat -> R)
    (os : list (ordn * (nat -> R))) (a : racc) : list (ordn * (nat -> R)) * racc :=
  match os with
  | [] => ([], a)
  | (o, Io) :: rest =>
      let I' := fun i => 1 * solve (ac_G a) o Io i + 1 * Io i in
      let '(rest', a') := ordinate_loop n bs solve rest (accumulate n bs o I' a) in
      ((o, I') :: rest', a')
  end.

(** state of the equation system between iterations *)
Record rstate := mkRS { rs_I : list (ordn * (nat -> R)); rs_G : nat -> R; rs_q : nat -> nat -> R; rs_irr : nat -> R }.

(** 844-905: one iteration: wall intensities from the last irradiation, zeroed fields, ordinate loop,
    normalisation of the irradiation by the assembled boundary area (1400-1432). *)
Definition iteration (n : nat) (bs : list bip) (ibc : (nat -> R) -> nat -> R)
    (solve : (nat -> R) -> (nat -> R) -> ordn -> (nat -> R) -> nat -> R) (st : rstate) : rstate :=
  let Ibc := ibc (rs_irr st) in
  let '(os, a) := ordinate_loop n bs (solve Ibc) (rs_I st) zero_acc in
  mkRS os (ac_G a) (ac_q a) (fun i => ac_H a i / bnd_area n bs i).

(** 1465-1467 *)
Definition div_qr (sb mua T G : R) : R := mua * (4 * sb * T * T * T * T - G).
Definition div_qr_lin (sb mua T : R) : R := 16 * sb * mua * T * T * T.
(** 1452-1481: every rank sums the squares over its (owned or shared) nodes, takes the root, and the
    roots are added *)
Definition div_norm (ranks : list (list nat)) (scaling : R) (G Gold : nat -> R) : R :=
  fold_right Rplus 0 (map (fun nodes => sqrt (fold_right Rplus 0 (map (fun i => (G i - Gold i) * (G i - Gold i)) nodes))) ranks)
  / scaling.
