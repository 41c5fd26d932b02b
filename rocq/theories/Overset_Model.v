(** Overset (chimera) coupling.
    src/overset/AssembleOversetSolverConstraintAlgorithm.C, src/overset/OversetManager.C, TpetraLinearSystem::prepareConstraints.
    Simplifications: real arithmetic; one global system indexed by (node, dof) stands for the sum of the ranks' contributions;
    master elements enter through their shape function values at the donor point ([general_shape_fcn]), and [interpolatePoint]
    is the corresponding sum (C30 proves that for every topology). *)
Require Import Reals List Bool Arith.
From Verif Require Import Edge_Model.
Import ListNotations.
Open Scope R_scope.

(** OversetInfo: constraint node, the rank that owns it, donor element's nodes and the shape functions at the donor point *)
Record oinfo := mkO { o_node : nat; o_owner : nat; o_npe : nat; o_elem : nat -> nat; o_w : nat -> R }.
(** linear system indexed by node and dof *)
Record osys := mkOS { oA : nat -> nat -> nat -> nat -> R; oB : nat -> nat -> R }.

(** TpetraLinearSystem.C 1656-1704 prepareConstraints: the rows of every constraint node are zeroed *)
Definition prepare_constraints (nd : nat) (infos : list oinfo) (s : osys) : osys :=
  fold_left (fun s o => fold_left (fun s d =>
     mkOS (fun i a j b => if (Nat.eqb i (o_node o) && Nat.eqb a d)%bool then 0 else oA s i a j b)
          (fun i a => if (Nat.eqb i (o_node o) && Nat.eqb a d)%bool then 0 else oB s i a)) (seq 0 nd) s) infos s.

Definition set_at (k : nat) (v : R) (a : nat -> R) : nat -> R := fun i => if Nat.eqb i k then v else a i.
(** lines 165-178: gather of the dof vector, elemNodalQ[i*npe + ni] *)
Definition gather_dof (nd npe : nat) (elem : nat -> nat) (q : nat -> nat -> R) : nat -> R :=
  fold_left (fun a ni => fold_left (fun a i => set_at (i*npe + ni) (q (elem ni) i) a) (seq 0 nd) a) (seq 0 npe) (fun _ => 0).
(** interpolatePoint on a (npe, ncomp) array *)
Definition interpolate_point (npe : nat) (w : nat -> R) (field : nat -> R) (i : nat) : R := sumn npe (fun ni => w ni * field (i*npe + ni)%nat).
(** lines 180-190: averages and the scaling *)
Definition system_scaling (nDim : nat) (scaleFac : R) (npe : nat) (elem : nat -> nat) (rho dnv : nat -> R) : R :=
  let elemRho := sumn npe (fun ni => rho (elem ni)) / INR npe in
  let elemDnv := sumn npe (fun ni => dnv (elem ni)) / INR npe in
  scaleFac * Rpower elemDnv (1/INR nDim) / elemRho + (1 - scaleFac).
(** lines 202-218: local matrix and right-hand side, flat row-major *)
Definition overset_local (nd npe : nat) (s : R) (w : nat -> R) (qn qc : nat -> R) : (nat -> R) * (nat -> R) :=
  fold_left (fun lr i =>
    let rowOi := (i * (npe+1) * nd)%nat in
    let rhs := set_at i (- (qn i - qc i) * s) (snd lr) in
    let lhs := set_at (rowOi + i) (fst lr (rowOi + i)%nat + 1*s) (fst lr) in
    let lhs := fold_left (fun a ic => let k := (rowOi + (i + nd*(ic+1)))%nat in set_at k (a k - w ic * s) a) (seq 0 npe) lhs in
    (lhs, rhs)) (seq 0 nd) (fun _ => 0, fun _ => 0).
(** apply_coeff / sumInto: local row r belongs to connected node r / nd, dof r mod nd *)
Definition apply_coeff (nd m : nat) (conn : nat -> nat) (lhs rhs : nat -> R) (s : osys) : osys :=
  let R' := (m*nd)%nat in
  fold_left (fun s r =>
    let s1 := fold_left (fun s c => mkOS (fun i a j b => oA s i a j b +
        (if (Nat.eqb i (conn (r / nd)%nat) && Nat.eqb a (r mod nd)%nat && Nat.eqb j (conn (c / nd)%nat) && Nat.eqb b (c mod nd)%nat)%bool then lhs (r*R' + c)%nat else 0)) (oB s)) (seq 0 R') s in
    mkOS (oA s1) (fun i a => oB s1 i a + (if (Nat.eqb i (conn (r / nd)%nat) && Nat.eqb a (r mod nd)%nat)%bool then rhs r else 0))) (seq 0 R') s.
(** lines 112-222, one info object on one rank *)
Definition overset_info (nDim nd : nat) (scaleFac : R) (rho dnv : nat -> R) (q : nat -> nat -> R) (rank : nat) (s : osys) (o : oinfo) : osys :=
  if Nat.eqb rank (o_owner o) then
    let npe := o_npe o in
    let qc := interpolate_point npe (o_w o) (gather_dof nd npe (o_elem o) q) in
    let sc := system_scaling nDim scaleFac npe (o_elem o) rho dnv in
    let lr := overset_local nd npe sc (o_w o) (q (o_node o)) qc in
    let conn k := match k with 0%nat => o_node o | S k => o_elem o k end in
    apply_coeff nd (npe+1) conn (fst lr) (snd lr) s
  else s.
(** execute on every rank: each rank's info vector holds its owned and shared constraint nodes *)
Definition overset_execute (nDim nd : nat) (scaleFac : R) (rho dnv : nat -> R) (q : nat -> nat -> R) (ranks : list (list oinfo)) (s : osys) : osys :=
  let s0 := prepare_constraints nd (concat ranks) s in
  fold_left (fun s r => fold_left (overset_info nDim nd scaleFac rho dnv q r) (nth r ranks []) s) (seq 0 (length ranks)) s0.

(** OversetManager.C 125-138: gather of a sizeRow x sizeCol field; None = write past the end of elemNodalQ *)
Definition gather_field (nr nc npe : nat) (elem : nat -> nat) (q : nat -> nat -> R) : option (nat -> R) :=
  fold_left (fun oa ni => fold_left (fun oa i => fold_left (fun oa j =>
     match oa with None => None | Some a =>
       let k := (i*npe*nr + j*npe + ni)%nat in
       if (k <? npe*nr*nc)%nat then Some (set_at k (q (elem ni) (i*nc + j)%nat) a) else None end)
    (seq 0 nc) oa) (seq 0 nr) oa) (seq 0 npe) (Some (fun _ => 0)).
(** lines 140-156 *)
Definition field_update1 (nr nc : nat) (oq : option (nat -> nat -> R)) (o : oinfo) : option (nat -> nat -> R) :=
  match oq with None => None | Some q =>
    match gather_field nr nc (o_npe o) (o_elem o) q with None => None | Some f =>
      let v := interpolate_point (o_npe o) (o_w o) f in
      Some (fun k c => if Nat.eqb k (o_node o) then (if (c <? nr*nc)%nat then v c else q k c) else q k c) end end.
(** lines 86-157 overset_constraint_node_field_update_gen (one rank, after the ghost communication) *)
Definition field_update (nr nc : nat) (infos : list oinfo) (q : nat -> nat -> R) : option (nat -> nat -> R) :=
  fold_left (field_update1 nr nc) infos (Some q).
