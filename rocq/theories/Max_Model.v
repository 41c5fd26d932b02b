(** The complete linear system of one scalar transport equation in the edge-based scheme: edges, open faces, lumped time
    term, nodal source and strong Dirichlet rows, and the update of the unknown.
    Simplifications: real arithmetic, exact linear solve, one rank (C14 and C15 relate ranks to this global system). *)
Require Import Reals List Bool Arith.
From Verif Require Import Edge_Model Elem_Model Bnd_Model.
Import ListNotations.
Open Scope R_scope.

(** an open face (nodes numbered globally) with its stored open_mass_flow_rate *)
Definition oface := (fe * (nat -> R))%type.
(** EquationSystem::assemble_and_solve (src/EquationSystem.C:263-300): all solver algorithms add to one zeroed system.
    Open faces: AssembleScalarEdgeOpenSolverAlgorithm (Bnd_Model.scalar_open_edge). *)
Definition opens (faces : list oface) (q qE : nat -> R) : esys :=
  fold_left (fun s F => scalar_open_edge (fst F) (snd F) q qE s) faces (mkE (fun _ _ => 0) (fun _ => 0)).
(** one scalar equation *)
Record teq := mkT {
  t_o : sc_opts; t_f : sc_fields;           (* options; fields, f_q is the current iterate *)
  t_mdot : edge -> R; t_es : list edge;
  t_faces : list oface; t_qE : nat -> R;    (* open faces and entrainment values *)
  t_time : nat -> nsys;                     (* nodal (lhs, rhs) of the time term, AssembleNodeSolverAlgorithm.C:93-104 *)
  t_src : nat -> nsys;                      (* nodal (lhs, rhs) of further nodal sources *)
  t_dir : nat -> bool; t_bc : nat -> R }.   (* Dirichlet nodes and values *)
(** before the Dirichlet rows are overwritten *)
Definition raw_lhs (T : teq) (i j : nat) : R :=
  assembled_lhs (scalar_edge (t_o T) (t_f T) (t_mdot T)) (t_es T) i j + eL_ (opens (t_faces T) (f_q (t_f T)) (t_qE T)) i j
  + (if Nat.eqb i j then fst (t_time T i) + fst (t_src T i) else 0).
Definition raw_rhs (T : teq) (i : nat) : R :=
  assembled_rhs (scalar_edge (t_o T) (t_f T) (t_mdot T)) (t_es T) i + eB (opens (t_faces T) (f_q (t_f T)) (t_qE T)) i
  + (snd (t_time T i) + snd (t_src T i)).
(** TpetraLinearSystem.C:1575-1643 (applyDirichletBCs): zero row, unit diagonal, rhs = bc - solution *)
Definition sys_lhs (T : teq) (i j : nat) : R := if t_dir T i then (if Nat.eqb i j then 1 else 0) else raw_lhs T i j.
Definition sys_rhs (T : teq) (i : nat) : R := if t_dir T i then t_bc T i - f_q (t_f T) i else raw_rhs T i.
(** MixtureFractionEquationSystem.C:946, 992 (and the field_axpby of its siblings): solve for the increment, add it *)
Definition solved (N : nat) (T : teq) (q' : nat -> R) : Prop :=
  forall i, (i < N)%nat -> sumn N (fun j => sys_lhs T i j * (q' j - f_q (t_f T) j)) = sys_rhs T i.
(** time terms of the nodes (Elem_Model): backward Euler and BDF2 *)
Definition be_time (t : dts) (V rp1 rn q qn : nat -> R) (i : nat) : nsys := scalar_mass_be t (V i) (rp1 i) (rn i) (q i) (qn i) (0, 0).
Definition bdf2_time (t : dts) (V rp1 rn rm1 q qn qm1 : nat -> R) (i : nat) : nsys :=
  scalar_mass_bdf2 t (V i) (rp1 i) (rn i) (rm1 i) (q i) (qn i) (qm1 i) (0, 0).
(** MixtureFractionEquationSystem.C:965-1009 (update_and_clip): new values, and how many were clipped at each end *)
Definition clip (delta z : R) : R :=
  if Rlt_dec z (0 - delta) then 0 - delta else if Rlt_dec (1 + delta) z then 1 + delta else z.
Definition num_clip (N : nat) (delta : R) (z : nat -> R) : nat * nat :=
  fold_left (fun c i => if Rlt_dec (z i) (0 - delta) then (S (fst c), snd c) else if Rlt_dec (1 + delta) (z i) then (fst c, S (snd c)) else c)
    (seq 0 N) (0%nat, 0%nat).
