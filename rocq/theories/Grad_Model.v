(** Nodal gradients: the element, edge and boundary Green-Gauss algorithms for scalars and vectors, the area-weighted
    pressure gradient of the balanced-force scheme, and the projected-nodal-gradient equation system.
    Files: AssembleNodalGradElemAlgorithm.C, AssembleNodalGradUElemAlgorithm.C, AssembleNodalGradUEdgeAlgorithm.C,
    AssembleNodalGradUBoundaryAlgorithm.C, AssembleNodalGradBoundaryAlgorithm.C, AssembleNodalGradPBoundaryAlgorithm.C,
    AssembleNodalGradAlgorithmDriver.C, AssembleNodalGradUAlgorithmDriver.C, AssembleNodalGradPAWElemAlgorithm.C,
    AssembleNodalGradPAWBoundaryAlgorithm.C, AssemblePNGElemSolverAlgorithm.C, AssemblePNGBoundarySolverAlgorithm.C,
    AssemblePNGPressureBoundarySolverAlgorithm.C, ProjectedNodalGradientEquationSystem.C.
    Simplifications: real arithmetic; the bucket loops are loops over lists of elements, faces and edges; nodes are
    numbers; master-element data are parameters ([Ns] is shape_fcn, or shifted_shape_fcn if useShifted_); the overset and
    periodic updates of post_work are the subject of C77 and C20. *)
Require Import Reals List Bool Arith.
From Verif Require Import Edge_Model Elem_Model Vof_Model Vof_Model2.
Import ListNotations.
Open Scope R_scope.

(** nodal fields with components: node -> component -> value; a face of the mesh: face nodes and their number in the
    element, integration points with nearest face node, shape functions, exposed area vectors, and for the
    area-weighted version the element behind it with its gradient operator at the face points *)
Record gface := mkGF {
  gf_npf : nat; gf_nip : nat; gf_near : nat -> nat; gf_N : nat -> nat -> R; gf_A : nat -> nat -> R;
  gf_node : nat -> nat;                                            (* face_node_rels *)
  gf_npe : nat; gf_enode : nat -> nat; gf_ord : nat -> nat; gf_dn : nat -> nat -> nat -> R }.

(** AssembleNodalGradElemAlgorithm.C:101-133 *)
Definition grad_elem (d : nat) (V q : nat -> R) (F0 : nat -> nat -> R) (e : velem) : nat -> nat -> R :=
  let m := ve_me e in
  loop (nscs m) (fun ip F =>
    let il := lrL m ip in let ir := lrR m ip in
    let qIp := sumn (npe m) (fun ic => Ns m ip ic * q (ve_node e ic)) in
    let inv_volL := 1 / V (ve_node e il) in
    let inv_volR := 1 / V (ve_node e ir) in
    acc2 (ve_node e ir) (fun j => if Nat.ltb j d then - (qIp * area m ip j * inv_volR) else 0)
      (acc2 (ve_node e il) (fun j => if Nat.ltb j d then qIp * area m ip j * inv_volL else 0) F)) F0.
(** AssembleNodalGradBoundaryAlgorithm.C:119-151 (dynP = 0) and AssembleNodalGradPBoundaryAlgorithm.C:127-155 *)
Definition grad_face (d : nat) (V : nat -> R) (dynP : gface -> nat -> R) (q : nat -> R) (F0 : nat -> nat -> R) (f : gface) : nat -> nat -> R :=
  loop (gf_nip f) (fun ip F =>
    let nn := gf_node f (gf_near f ip) in
    let pIp := fold_left (fun a ic => a + gf_N f ip ic * q (gf_node f ic)) (seq 0 (gf_npf f)) (- dynP f ip) in
    let inv_volNN := 1 / V nn in
    acc2 nn (fun j => if Nat.ltb j d then pIp * gf_A f ip j * inv_volNN else 0) F) F0.
(** AssembleNodalGradAlgorithmDriver.C:66-105: zero, then the algorithms of one rank.  [es] the elements, [fs] the ordinary
    boundary faces with the field used there, [os] the open faces of the pressure gradient with theirs *)
Definition rank_grad (d : nat) (V q qb : nat -> R) (dynP : gface -> nat -> R) (es : list velem) (fs : list gface) (os : list gface) : nat -> nat -> R :=
  fold_left (grad_face d V dynP qb) os
    (fold_left (grad_face d V (fun _ _ => 0) qb) fs
      (fold_left (grad_elem d V q) es (fun _ _ => 0))).
(** parallel_sum of post_work: the value of a shared node is the sum of the ranks' values (see C14) *)
Definition parallel_grad (d : nat) (V q qb : nat -> R) (dynP : gface -> nat -> R) (ranks : list (list velem * list gface * list gface)) : nat -> nat -> R :=
  fun a j => fold_left (fun s r => s + rank_grad d V q qb dynP (fst (fst r)) (snd (fst r)) (snd r) a j) ranks 0.

(** AssembleNodalGradUElemAlgorithm.C:144-190: gradQ[i*nDim+j]; u is the nodal vector field *)
Definition add_at (n k : nat) (v : R) (F : nat -> nat -> R) : nat -> nat -> R :=
  fun a c => if (Nat.eqb a n && Nat.eqb c k)%bool then F a c + v else F a c.
Definition gradu_elem (d : nat) (V : nat -> R) (u : nat -> nat -> R) (F0 : nat -> nat -> R) (e : velem) : nat -> nat -> R :=
  let m := ve_me e in
  loop (nscs m) (fun ip F =>
    let nL := ve_node e (lrL m ip) in let nR := ve_node e (lrR m ip) in
    let qIp := fun i => sumn (npe m) (fun ic => Ns m ip ic * u (ve_node e ic) i) in
    loop d (fun i F => loop d (fun j F =>
      let fac := qIp i * area m ip j in
      add_at nR (i*d+j) (- (fac * (1 / V nR))) (add_at nL (i*d+j) (fac * (1 / V nL)) F)) F) F) F0.
(** AssembleNodalGradUEdgeAlgorithm.C:81-113; cj = counter++ runs through i*nDim+j *)
Definition gradu_edge (d : nat) (V : nat -> R) (u : nat -> nat -> R) (F0 : nat -> nat -> R) (e : edge) : nat -> nat -> R :=
  fst (loop d (fun i st =>
    let uip := (1/2)*(u (eL e) i + u (eR e) i) in
    loop d (fun j st =>
      let '(F, counter) := st in
      let ajUip := eA e j * uip in
      let cj := counter in
      (add_at (eR e) cj (- (ajUip * (1 / V (eR e)))) (add_at (eL e) cj (ajUip * (1 / V (eL e))) F), S counter)) st) (F0, 0%nat)).
(** AssembleNodalGradUBoundaryAlgorithm.C:130-168 *)
Definition gradu_face (d : nat) (V : nat -> R) (u : nat -> nat -> R) (F0 : nat -> nat -> R) (f : gface) : nat -> nat -> R :=
  loop (gf_nip f) (fun ip F =>
    let nn := gf_node f (gf_near f ip) in
    let qIp := fun i => sumn (gf_npf f) (fun ic => gf_N f ip ic * u (gf_node f ic) i) in
    loop d (fun i F => loop d (fun j F => add_at nn (i*d+j) (qIp i * gf_A f ip j * (1 / V nn)) F) F) F) F0.
Definition gradu (d : nat) (V : nat -> R) (u ub : nat -> nat -> R) (es : list velem) (fs : list gface) : nat -> nat -> R :=
  fold_left (gradu_face d V ub) fs (fold_left (gradu_elem d V u) es (fun _ _ => 0)).
Definition gradu_on_edges (d : nat) (V : nat -> R) (u ub : nat -> nat -> R) (es : list edge) (fs : list gface) : nat -> nat -> R :=
  fold_left (gradu_face d V ub) fs (fold_left (gradu_edge d V u) es (fun _ _ => 0)).

(** *** area-weighted pressure gradient.  What the balanced-force scheme reads at a node *)
Record paw := mkPaw {
  w_p : nat -> R; w_rho : nat -> R; w_kappa : nat -> R; w_sigma : nat -> R; w_vof : nat -> R;
  w_g : nat -> R; w_buoy : R; w_c : R; w_n : R; w_m : R }.
(** the driver's two fields, dpdx and png_area_weight *)
Definition pawst : Type := ((nat -> nat -> R) * (nat -> nat -> R))%type.
Definition paw_add (n : nat) (d : nat) (v w : nat -> R) (st : pawst) : pawst :=
  (acc2 n (fun j => if Nat.ltb j d then v j else 0) (fst st), acc2 n (fun j => if Nat.ltb j d then w j else 0) (snd st)).
(** AssembleNodalGradPAWElemAlgorithm.C:186-241 *)
Definition paw_elem (d : nat) (W : paw) (st0 : pawst) (e : velem) : pawst :=
  let m := ve_me e in
  loop (nscs m) (fun ip st =>
    let rhoIp := sumn (npe m) (fun ic => Ns m ip ic * w_rho W (ve_node e ic)) in
    let vofIp := sumn (npe m) (fun ic => Ns m ip ic * w_vof W (ve_node e ic)) in
    let sk := sumn (npe m) (fun ic => Ns m ip ic * w_sigma W (ve_node e ic) * w_kappa W (ve_node e ic)) in
    let dpdxIp := fun j => sumn (npe m) (fun ic => dndx m ip ic j * w_p W (ve_node e ic)) in
    let dvofdxIp := fun j => sumn (npe m) (fun ic => dndx m ip ic j * w_vof W (ve_node e ic)) in
    let sigmaKappaIp := sk * (w_c W * vpow vofIp (w_n W) * vpow (1 - vofIp) (w_m W)) in
    let absArea := fun j => Rabs (area m ip j) in
    let v := fun j => absArea j / rhoIp * (dpdxIp j - rhoIp * w_g W j * w_buoy W - sigmaKappaIp * dvofdxIp j) in
    paw_add (ve_node e (lrR m ip)) d v absArea (paw_add (ve_node e (lrL m ip)) d v absArea st)) st0.
(** AssembleNodalGradPAWBoundaryAlgorithm.C:161-288.  Lines 207-211: the face nodes' pressures are overridden with the
    boundary values [bcp] if overrideFacePressure_; line 261 reads p_vof[ic], which was gathered with the ELEMENT's
    nodes (line 197), with the FACE node number ic *)
Definition override_face (f : gface) (on : bool) (bcp p : nat -> R) (ic : nat) : R :=
  if on then loop (gf_npf f) (fun k P => fun a => if Nat.eqb a (gf_ord f k) then bcp (gf_node f k) else P a) (fun a => p (gf_enode f a)) ic
  else p (gf_enode f ic).
Definition paw_face (d : nat) (W : paw) (on : bool) (bcp : nat -> R) (st0 : pawst) (f : gface) : pawst :=
  let vofE := fun ic => w_vof W (gf_enode f ic) in
  let P := override_face f on bcp (w_p W) in
  loop (gf_nip f) (fun ip st =>
    let rhoBip := sumn (gf_npf f) (fun ic => gf_N f ip ic * w_rho W (gf_node f ic)) in
    let sk := sumn (gf_npf f) (fun ic => gf_N f ip ic * w_sigma W (gf_node f ic) * w_kappa W (gf_node f ic)) in
    let vofBip := sumn (gf_npf f) (fun ic => gf_N f ip ic * vofE ic) in
    let sigmaKappaBip := sk * (w_c W * vpow vofBip (w_n W) * vpow (1 - vofBip) (w_m W)) in
    let dpdxBip := fun j => sumn (gf_npe f) (fun ic => gf_dn f ip ic j * P ic) in
    let dvofdxBip := fun j => sumn (gf_npe f) (fun ic => gf_dn f ip ic j * vofE ic) in
    let absArea := fun j => Rabs (gf_A f ip j) in
    paw_add (gf_node f (gf_near f ip)) d
      (fun j => absArea j / rhoBip * (dpdxBip j - w_buoy W * rhoBip * w_g W j - sigmaKappaBip * dvofdxBip j)) absArea st) st0.
(** AssembleNodalGradAlgorithmDriver.C:66-103 and normalize_by_area, 147-181 *)
Definition paw_grad (d : nat) (W : paw) (on : bool) (bcp : nat -> R) (es : list velem) (fs : list gface) : nat -> nat -> R :=
  let st := fold_left (paw_face d W on bcp) fs (fold_left (paw_elem d W) es (fun _ _ => 0, fun _ _ => 0)) in
  fun a j => fst st a j / snd st a j.

(** *** projected nodal gradient: element system, rows node*nDim+component *)
(** AssemblePNGElemSolverAlgorithm.C:196-283 *)
Definition png_elem (m : me) (q G : nat -> R) (s0 : esys) : esys :=
  let d := ndim m in
  let s := loop (nscs m) (fun ip s =>
    let scalarQIp := sumn (npe m) (fun ic => Ns m ip ic * q ic) in
    loop d (fun i s =>
      let rhsFac := - scalarQIp * area m ip i in
      addB (lrR m ip * d + i) rhsFac (addB (lrL m ip * d + i) (- rhsFac) s)) s) s0 in
  loop (nscv m) (fun ip s =>
    let nn := nearest m ip in
    let scV := vol m ip in
    let dqdxScv := fun j => sumn (npe m) (fun ic => Nv m ip ic * G (ic*d+j)%nat) in
    let s := loop d (fun i s => addB (nn*d+i) (- (dqdxScv i * scV)) s) s in
    loop (npe m) (fun ic s => loop d (fun i s => addL (nn*d+i) (ic*d+i) (Nv m ip ic * scV) s) s) s) s.
(** AssemblePNGBoundarySolverAlgorithm.C:134-177 (dynP = 0), AssemblePNGPressureBoundarySolverAlgorithm.C:138-181;
    the matrix is zeroed and never written *)
Definition png_face (d : nat) (f : gface) (dynP : nat -> R) (q : nat -> R) (s0 : esys) : esys :=
  loop (gf_nip f) (fun ip s =>
    let nn := gf_near f ip in
    let scalarQBip := fold_left (fun a ic => a + gf_N f ip ic * q ic) (seq 0 (gf_npf f)) (- dynP ip) in
    loop d (fun i s => addB (nn*d+i) (scalarQBip * gf_A f ip i) s) s) s0.
(** apply_coeff: rows and columns of the local system to node*nDim+component of the mesh *)
Definition scatter (n d : nat) (node : nat -> nat) (loc : esys) (S0 : esys) : esys :=
  let gid := fun r => (node (r / d) * d + r mod d)%nat in
  loop (n*d) (fun r S =>
    loop (n*d) (fun c S => addL (gid r) (gid c) (eL_ loc r c) S) (addB (gid r) (eB loc r) S)) S0.
Definition zero_esys : esys := mkE (fun _ _ => 0) (fun _ => 0).
(** the assembled system for the current gradient G (flat, node*nDim+component) *)
Definition png_system (d : nat) (q qb : nat -> R) (dynP : gface -> nat -> R) (es : list velem) (fs : list gface) (G : nat -> R) : esys :=
  fold_left (fun S f => scatter (gf_npf f) d (gf_node f)
      (png_face d f (dynP f) (fun ic => qb (gf_node f ic)) zero_esys) S) fs
    (fold_left (fun S e => scatter (npe (ve_me e)) d (ve_node e)
      (png_elem (ve_me e) (fun ic => q (ve_node e ic)) (fun r => G (ve_node e (r / d) * d + r mod d)%nat) zero_esys) S) es zero_esys).
(** ProjectedNodalGradientEquationSystem.C:502-519: solve_and_update_external; [solve] is the linear solver *)
Definition png_solve (solve : esys -> nat -> R) (maxIterations : nat) (sys : (nat -> R) -> esys) (G : nat -> R) : nat -> R :=
  loop maxIterations (fun _ G => let tmp := solve (sys G) in fun r => 1 * tmp r + 1 * G r) G.
