(** Surface force and moment post-processing: src/SurfaceForceAndMomentAlgorithm.C (resolved walls),
    src/SurfaceForceAndMomentWallFunctionAlgorithm.C (wall-function walls) and
    src/SurfaceForceAndMomentAlgorithmDriver.C.
    Simplifications: real arithmetic; a surface is the list of its boundary integration points in the order
    the loops visit them, one list per rank (only locally owned faces are visited); the fields interpolated
    to a point are computed from the face's nodes; parallel_sum adds the ranks' nodal values; periodic
    update is the subject of C19; the text file is the tuple of numbers written. *)
Require Import Reals List Bool Arith.
From Verif Require Import Edge_Model Elem_Model Wall_Model.
Import ListNotations.
Open Scope R_scope.

(** one boundary integration point with the data the loop reads there *)
Record spt := mkPt {
  s_nn : nat;                      (* node face_node_rels[faceIpNodeMap[ip]] *)
  s_A : vec;                       (* areaVec at ip *)
  s_N : list (R * nat);            (* face shape functions at ip with their nodes *)
  s_opp : nat;                     (* node elem_node_rels[opposingNode] *)
  s_yp : R; s_ut : R }.            (* wall_normal_distance_bip, wall_friction_velocity_bip (wall function only) *)
(** nodal fields *)
Record sfields := mkSF {
  q_x : nat -> vec; q_p : nat -> R; q_rho : nat -> R; q_mu : nat -> R;
  q_dudx : nat -> nat -> nat -> R; q_u : nat -> vec; q_ubc : nat -> vec }.
(** SurfaceForceAndMomentAlgorithm.C:249-258: interpolation to the point *)
Definition ipol (b : spt) (q : nat -> R) : R := fold_left (fun a p => a + fst p * q (snd p)) (s_N b) 0.

(** the work arrays have three entries, zero beyond nDim (lines 146-152) *)
Definition pad (n : nat) (v : vec) : vec := fun i => if (i <? n)%nat then v i else 0.
(** cross_product, lines 468-475 *)
Definition cross_product (force rad : vec) : vec := fun k =>
  match k with
  | 0%nat => rad 1%nat * force 2%nat - rad 2%nat * force 1%nat
  | 1%nat => - (rad 0%nat * force 2%nat - rad 2%nat * force 0%nat)
  | _ => rad 0%nat * force 1%nat - rad 1%nat * force 0%nat end.

(** what one point contributes *)
Record contrib := mkC { k_pf : vec; k_vf : vec; k_tau : R; k_yplus : R; k_am : R }.
(** SurfaceForceAndMomentAlgorithm.C:269-349; [incl] = includeDivU_ *)
Definition resolved (n : nat) (incl : R) (f : sfields) (b : spt) : contrib :=
  let pB := ipol b (q_p f) in let rhoB := ipol b (q_rho f) in let muB := ipol b (q_mu f) in
  let g := q_dudx f (s_nn b) in
  let divU := sumn n (fun j => g j j) in
  let aMag := amag n (s_A b) in
  let m := nrm n (s_A b) in
  let vf i := 2/3*muB*divU*incl*s_A b i
     + fold_left (fun a j => a + - muB*(g i j + g j i)*s_A b j) (seq 0 n) 0 in
  let tau i := fold_left (fun a j => a + - muB*(g i j + g j i)*m j) (seq 0 n) 0 in
  let ttan i := fold_left (fun a j => if Nat.eqb i j then a else a - m i*m j*tau j) (seq 0 n) ((1 - m i*m i)*tau i) in
  let tauTangential := sumn n (fun i => ttan i * ttan i) in
  let xR := q_x f (s_nn b) in let xL := q_x f (s_opp b) in
  let yp := sqrt (sumn n (fun j => m j*(xR j - xL j)*m j*(xR j - xL j))) in
  let tauW := sqrt tauTangential in
  let uTau := sqrt (tauW/rhoB) in
  mkC (pad n (fun i => pB*s_A b i)) (pad n vf) tauW (rhoB*yp/muB*uTau) aMag.
(** SurfaceForceAndMomentWallFunctionAlgorithm.C:258-372 *)
Definition modelled (n : nat) (kappa : R) (f : sfields) (b : spt) : contrib :=
  let pB := ipol b (q_p f) in let rhoB := ipol b (q_rho f) in let muB := ipol b (q_mu f) in
  let aMag := amag n (s_A b) in
  let m := nrm n (s_A b) in
  let uB j := ipol b (fun a => q_u f a j) in let ucB j := ipol b (fun a => q_ubc f a j) in
  let udiff i := tanv n m uB i - tanv n m ucB i in
  let yplus := rhoB*s_yp b*s_ut b/muB in
  let lam := if Rlt_dec yplusCrit yplus then rhoB*kappa*s_ut b/ln (elog*yplus)*aMag else muB/s_yp b*aMag in
  let upar := sumn n (fun i => udiff i * udiff i) in
  mkC (pad n (fun i => pB*s_A b i)) (pad n (fun i => lam*udiff i)) (lam*sqrt upar/aMag) yplus aMag.

(** running quantities: the nine sums, the nodal fields, the extremes *)
Record acc := mkA { l_fm : nat -> R; n_pf : nat -> nat -> R; n_tau : nat -> R; n_yp : nat -> R; y_min : R; y_max : R }.
Definition bump (a : nat) (v : R) (q : nat -> R) : nat -> R := fun b => if Nat.eqb b a then q b + v else q b.
(** lines 294-349, 366-371: the moment uses the nearest node's position, the wall shear stress and y+ are
    weighted by the point's share of the node's area. (The wall-function file writes lambda*|du|/assembledArea,
    which is the same number since lambda contains aMag.) *)
Definition visit (n : nat) (cen : vec) (area : nat -> R) (f : sfields) (c : spt -> contrib) (st : acc) (b : spt) : acc :=
  let k := c b in
  let rad := pad n (fun i => q_x f (s_nn b) i - cen i) in
  let tf i := k_pf k i + k_vf k i in
  let mom := cross_product (pad n tf) rad in
  let fac := k_am k/area (s_nn b) in
  mkA (fun j => l_fm st j + (if (j <? 3)%nat then k_pf k j else if (j <? 6)%nat then k_vf k (j - 3)%nat else mom (j - 6)%nat))
      (fun a i => if (i <? n)%nat then bump (s_nn b) (k_pf k i) (fun a => n_pf st a i) a else n_pf st a i)
      (bump (s_nn b) (k_tau k*fac) (n_tau st)) (bump (s_nn b) (k_yplus k*fac) (n_yp st))
      (Rmin (y_min st) (k_yplus k)) (Rmax (y_max st) (k_yplus k)).
(** pre_work, lines 432-457 *)
Definition add_area (n : nat) (pts : list spt) (q : nat -> R) : nat -> R :=
  fold_left (fun q b => bump (s_nn b) (amag n (s_A b)) q) pts q.

(** one post-processing request: wall-function surface or not, centroid, points per rank *)
Record alg := mkAlg { a_wf : bool; a_cen : vec; a_pts : list (list spt) }.
Definition kern (n : nat) (incl kappa : R) (f : sfields) (a : alg) : spt -> contrib :=
  if a_wf a then modelled n kappa f else resolved n incl f.
Definition rank_pts (a : alg) (r : nat) : list spt := nth r (a_pts a) [].
(** SurfaceForceAndMomentAlgorithmDriver.C:170-180: zero, pre_work of every request, parallel_sum of the two
    area fields (one shared by all resolved requests, one by all wall-function requests) *)
Definition area_of (n nr : nat) (algs : list alg) (wf : bool) (a : nat) : R :=
  sumn nr (fun r => fold_left (fun q g => if Bool.eqb (a_wf g) wf then add_area n (rank_pts g r) q else q) algs (fun _ => 0) a).
(** execute of one request on one rank: sums and extremes start afresh (lines 113-143), nodal fields go on *)
Definition run_rank (n nr : nat) (incl kappa : R) (f : sfields) (algs : list alg) (g : alg) (r : nat)
    (pf : nat -> nat -> R) (tau yp : nat -> R) : acc :=
  fold_left (visit n (a_cen g) (area_of n nr algs (a_wf g)) f (kern n incl kappa f g)) (rank_pts g r)
    (mkA (fun _ => 0) pf tau yp (10^8) (- 10^8)).
(** lines 183-186: all requests in turn on rank r; returns the nodal fields of that rank *)
Definition rank_fields (n nr : nat) (incl kappa : R) (f : sfields) (algs : list alg) (r : nat)
    : (nat -> nat -> R) * (nat -> R) * (nat -> R) :=
  fold_left (fun st g => let a := run_rank n nr incl kappa f algs g r (fst (fst st)) (snd (fst st)) (snd st) in
                         (n_pf a, n_tau a, n_yp a)) algs (fun _ _ => 0, fun _ => 0, fun _ => 0).
(** parallel_assemble_fields *)
Definition nodal_pressure_force n nr incl kappa f algs a i := sumn nr (fun r => fst (fst (rank_fields n nr incl kappa f algs r)) a i).
Definition nodal_tau_wall n nr incl kappa f algs a := sumn nr (fun r => snd (fst (rank_fields n nr incl kappa f algs r)) a).
Definition nodal_yplus n nr incl kappa f algs a := sumn nr (fun r => snd (rank_fields n nr incl kappa f algs r) a).
(** the line written for one request: nine sums and the two extremes (lines 373-399) *)
Definition report_fm n nr incl kappa f algs g k : R :=
  sumn nr (fun r => l_fm (run_rank n nr incl kappa f algs g r (fun _ _ => 0) (fun _ => 0) (fun _ => 0)) k).
Definition report_min n nr incl kappa f algs g : R :=
  fold_left Rmin (map (fun r => y_min (run_rank n nr incl kappa f algs g r (fun _ _ => 0) (fun _ => 0) (fun _ => 0))) (seq 0 nr)) (10^8).
Definition report_max n nr incl kappa f algs g : R :=
  fold_left Rmax (map (fun r => y_max (run_rank n nr incl kappa f algs g r (fun _ _ => 0) (fun _ => 0) (fun _ => 0))) (seq 0 nr)) (- 10^8).
(** execute only on every frequency-th step, lines 160-168 *)
Definition process_me (step freq : nat) : bool := Nat.eqb (step mod freq) 0.
