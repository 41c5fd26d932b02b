(** * Compressible flow across a non-conformal (sliding) interface

    File: src/gas_dynamics/AssembleGasDynamicsNonConformalAlgorithm.C (execute, 99-741).
    Simplifications: real arithmetic (sums may be regrouped); the interface is a list of Gauss points ([dg] of NC_Model) in the order
    of the loops over nonConformalInfoVec_, faces and points; shape functions, derivatives and the opposing normal are data of the
    point (C30, C46); one process (the ghosted values are those of the owner).
    [d_nn g] is here ipNodeMap()[currentGaussPointId] of the face element, a local node of the current face (604-606). *)
From Coq Require Import Reals List Bool Arith.
From Verif Require Import Edge_Model NC_Model Gas_Model.
Import ListNotations.
Open Scope R_scope.

(** nodal fields, 306-347 *)
Record gnf := mkGnf { n_rho : nat -> R; n_mom : nat -> nat -> R; n_vel : nat -> nat -> R; n_H : nat -> R; n_p : nat -> R; n_T : nat -> R;
  n_c : nat -> R; n_mu : nat -> R; n_k : nat -> R; n_mesh : nat -> nat -> R }.

(** the gather of a vector field into the opposing face's array: for each face node ni and component i the entry
    i*current_num_face_nodes + ni is written (345-352); [stale] is what the array held before *)
Definition gather_vec (cnf onf d : nat) (v : nat -> nat -> R) (stale : nat -> R) : nat -> R :=
  fold_left (fun a ni => fold_left (fun a i => fun k => if Nat.eqb k (i*cnf + ni) then v ni i else a k) (seq 0 d) a) (seq 0 onf) stale.
(** interpolatePoint reads entry i*npf + ni *)
Definition interp_vec (npf : nat) (r : nat -> R) (a : nat -> R) (i : nat) : R := sumn npf (fun ni => r ni * a (i*npf + ni)%nat).

(** the two stress arrays ws_tauCurrentIp, ws_tauOpposingIp, declared before the loops (125-126) *)
Definition taus := ((nat -> nat -> R) * (nat -> nat -> R))%type.
(** row i of a stress array after the momentum loop (673-681): only the diagonal is set, the others are added to *)
Definition tau_row (mu div : R) (du old : nat -> nat -> R) (i j : nat) : R :=
  (if Nat.eqb i j then - (2/3)*mu*div else old i j) + mu*(du i j + du j i).

Section Point.
Variable o : ncopt.
Variable mm : R.          (* meshMotionFac_ *)
Variable f : gnf.
Variable g : dg.
Variable stM stU : nat -> R.   (* what the two opposing vector arrays held *)
Let c := d_c g.
Let op := d_o g.
Let d := nd o.

Definition gA (j : nat) : R := d_A g j.
(** vectors interpolated to the point: current 566-600, opposing *)
Definition c_vec (v : nat -> nat -> R) (i : nat) : R := face_value c (fun k => v k i).
Definition o_vec (st : nat -> R) (v : nat -> nat -> R) (i : nat) : R :=
  interp_vec (s_nf op) (s_r op) (gather_vec (s_nf c) (s_nf op) d (fun ni i => v (s_node op (s_ord op ni)) i) st) i.
(** 457-492: temperature gradient; the velocity gradient entry [i][j] is accumulated with the derivative in direction i *)
Definition gT (s : side) (i : nat) : R := sumn (s_npe s) (fun ic => s_dndx s ic i * n_T f (s_node s ic)).
Definition gU (s : side) (i j : nat) : R := sumn (s_npe s) (fun ic => s_dndx s ic i * n_vel f (s_node s ic) i).
Definition gdiv (s : side) : R := sumn d (fun i => gU s i i).
(** 608-618 *)
Definition machC : R := sumn d (fun j => (c_vec (n_vel f) j - mm*c_vec (n_mesh f) j)*cNx o g j / ((1/2)*(face_value c (n_c f) + face_value op (n_c f)))).
Definition machO : R := sumn d (fun j => o_vec stU (n_vel f) j*cNx o g j / ((1/2)*(face_value c (n_c f) + face_value op (n_c f)))).
(** 626-655; the test for the opposing Mach number is absMO > 1.0 (632) *)
Definition mCO : R := scriptMp machC + scriptMm_open machO.
Definition pCO : R := scriptPp machC * face_value c (n_p f) + scriptPm machO * face_value op (n_p f).
Definition adv (qC qO : R) : R := g_adv (c_amag o g) mCO (qC*face_value c (n_c f)) (qO*face_value op (n_c f)).
(** 657-691 *)
Definition nc_fm (i : nat) : R :=
  let muC := face_value c (n_mu f) in let muO := face_value op (n_mu f) in
  let mC := c_vec (n_mom f) i in let mO := o_vec stM (n_mom f) i in
  let fmCO := adv mC mO + pCO*gA i in
  let dfmNc := 2/3*muC*gdiv c*cNx o g i + sumn d (fun j => - muC*(gU c i j + gU c j i)*cNx o g j) in
  let dfmNo := 2/3*muO*gdiv op*cNx o g i + sumn d (fun j => - muO*(gU op i j + gU op j i)*oNx o g j) in
  let penaltyMomIp := (muC*inv_length o c (cNx o g) + muO*inv_length o op (oNx o g))/2 in
  fmCO + ((1/2)*(dfmNc - dfmNo) + penaltyMomIp*(mC - mO))*c_amag o g.
(** the stress arrays after the momentum loop *)
Definition next_tau (t : taus) : taus :=
  (fun i j => if (Nat.ltb i d && Nat.ltb j d)%bool then tau_row (face_value c (n_mu f)) (gdiv c) (gU c) (fst t) i j else fst t i j,
   fun i j => if (Nat.ltb i d && Nat.ltb j d)%bool then tau_row (face_value op (n_mu f)) (gdiv op) (gU op) (snd t) i j else snd t i j).
(** 693-698 *)
Definition nc_fc : R := adv (face_value c (n_rho f)) (face_value op (n_rho f)).
(** 700-737; [t] are the arrays after the momentum loop of this point *)
Definition nc_fe (t : taus) : R :=
  let kC := face_value c (n_k f) in let kO := face_value op (n_k f) in
  let dfeNc := sumn d (fun i => - kC*gT c i*cNx o g i + sumn d (fun j => - c_vec (n_vel f) i*fst t i j*cNx o g j)) in
  let dfeNo := sumn d (fun i => - kO*gT op i*oNx o g i + sumn d (fun j => - o_vec stU (n_vel f) i*snd t i j*oNx o g j)) in
  let penaltyTeIp := (kC*inv_length o c (cNx o g) + kO*inv_length o op (oNx o g))/2 in
  adv (face_value c (n_H f)) (face_value op (n_H f))
  + ((1/2)*(dfeNc - dfeNo) + penaltyTeIp*(face_value c (n_T f) - face_value op (n_T f)))*c_amag o g.
(** what the point subtracts from the row of its node: momentum, mass, energy *)
Definition nc_gas_flux (t : taus) (k : nat) : R :=
  if Nat.ltb k d then nc_fm k else if Nat.eqb k d then nc_fc else nc_fe (next_tau t).
End Point.

(** the loop: right hand side and the two stress arrays; [stM], [stU] per point *)
Definition nc_gas_step (o : ncopt) (mm : R) (f : gnf) (stM stU : dg -> nat -> R) (s : gas_rhs * taus) (g : dg) : gas_rhs * taus :=
  let F := nc_gas_flux o mm f g (stM g) (stU g) (snd s) in
  (add_to (fst s) (s_node (d_c g) (s_ord (d_c g) (d_nn g))) (fun k => - F k), next_tau o f g (snd s)).
Definition nc_gas_loop (o : ncopt) (mm : R) (f : gnf) (stM stU : dg -> nat -> R) (l : list dg) (s : gas_rhs * taus) : gas_rhs * taus :=
  fold_left (nc_gas_step o mm f stM stU) l s.
