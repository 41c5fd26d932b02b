(** Model of boundary condition imposition, parallel completion, residual reporting and the nonlinear
    iteration:
    /repo/src/TpetraLinearSystem.C lines 1575-1643 (applyDirichletBCs), 1645-1696 (prepareConstraints),
    1698-1751 (resetRows), 1753-1776 (loadComplete), 1778-1850 (solve);
    /repo/include/TpetraLinearSystem.h lines 128-131 (lookup_myLID);
    /repo/src/LinearSystem.C lines 55-61; /repo/src/EquationSystem.C lines 127-173, 235-247;
    /repo/src/EquationSystems.C lines 806-877; /repo/src/Realm.C lines 1720-1741, 3220-3253.
    Simplifications: real arithmetic; the Krylov solver is outside; Tpetra's doExport(ADD) is the sum
    over ranks of the rows with equal global id (columns matched by global id). *)
From Coq Require Import Reals List Arith Bool Lia.
Import ListNotations.
Open Scope R_scope.

(* ------------------------------------------------------------------ one rank's part of the system *)
(** rows 0..nOwned-1 are owned, nOwned..nTotal-1 shared-not-owned; row r has the local columns rcols r *)
Record rank := { nOwned : nat; nTotal : nat; rgid : nat -> nat; cgid : nat -> nat;
                 rcols : nat -> list nat; rval : nat -> nat -> R; rrhs : nat -> R }.

Definition set1 {A} (f : nat -> A) (r : nat) (a : A) : nat -> A := fun i => if Nat.eqb i r then a else f i.

(** body of the loop over constrained (node, dof), lines 1619-1641; None = the logic_error throw.
    [res] = bcValues - solution *)
Definition dirichlet_row (q : rank) (localId : nat) (res : R) : option rank :=
  let useOwned := Nat.ltb localId (nOwned q) in
  if Nat.ltb (nTotal q) localId then None else
  let diagonal_value := if useOwned then 1 else 0 in
  Some {| nOwned := nOwned q; nTotal := nTotal q; rgid := rgid q; cgid := cgid q; rcols := rcols q;
          rval := set1 (rval q) localId (fun c => if Nat.eqb c localId then diagonal_value else 0);
          rrhs := set1 (rrhs q) localId (if useOwned then res else 0) |}.
Fixpoint applyDirichletBCs (q : rank) (l : list (nat * R)) : option rank :=
  match l with
  | [] => Some q
  | (localId, res) :: t => match dirichlet_row q localId res with None => None | Some q' => applyDirichletBCs q' t end
  end.
(** prepareConstraints / resetRows, lines 1665-1695 and 1722-1750: whole row and rhs to zero *)
Definition reset_row (q : rank) (localId : nat) : rank :=
  {| nOwned := nOwned q; nTotal := nTotal q; rgid := rgid q; cgid := cgid q; rcols := rcols q;
     rval := set1 (rval q) localId (fun _ => 0); rrhs := set1 (rrhs q) localId 0 |}.
Definition resetRows (q : rank) (l : list nat) : rank := fold_left reset_row l q.

Definition rsum {A} (f : A -> R) (l : list A) : R := fold_right (fun x s => f x + s) 0 l.
(** loadComplete, lines 1753-1776: the assembled global entry and right-hand side *)
Definition rank_entry (q : rank) (g h : nat) : R :=
  rsum (fun r => if Nat.eqb (rgid q r) g
                 then rsum (fun c => if Nat.eqb (cgid q c) h then rval q r c else 0) (rcols q r) else 0) (seq 0 (nTotal q)).
Definition rank_rhs (q : rank) (g : nat) : R :=
  rsum (fun r => if Nat.eqb (rgid q r) g then rrhs q r else 0) (seq 0 (nTotal q)).
Definition global_entry (qs : list rank) (g h : nat) : R := rsum (fun q => rank_entry q g h) qs.
Definition global_rhs (qs : list rank) (g : nat) : R := rsum (fun q => rank_rhs q g) qs.

(** lookup_myLID: operator[] of the map, which inserts and returns 0 for a missing key *)
Fixpoint lookup_myLID (myLIDs : list (nat * nat)) (id : nat) : nat :=
  match myLIDs with [] => 0%nat | (k, v) :: t => if Nat.eqb k id then v else lookup_myLID t id end.

(* ------------------------------------------------------------------ residual report *)
(** LinearSystem state used by solve; initial values LinearSystem.C 55-61 *)
Record resid := { firstTimeStepSolve : bool; firstNonLinearResidual : R; nonLinearResidual : R; scaledNonLinearResidual : R }.
Definition resid0 : resid := {| firstTimeStepSolve := true; firstNonLinearResidual := 100000000; nonLinearResidual := 0; scaledNonLinearResidual := 100000000 |}.
Definition dbl_eps : R := / 2 ^ 52.
(** solve, lines 1824-1833 and 1846; [n2] is the norm of the owned rhs *)
Definition solve_resid (l2Scaling : R) (s : resid) (n2 : R) : resid :=
  let nl := l2Scaling * n2 in
  let f := if firstTimeStepSolve s then nl else firstNonLinearResidual s in
  {| firstTimeStepSolve := false; firstNonLinearResidual := f; nonLinearResidual := nl; scaledNonLinearResidual := nl / Rmax dbl_eps f |}.
(** EquationSystem::pre_timestep_work *)
Definition pre_timestep_work (s : resid) : resid :=
  {| firstTimeStepSolve := true; firstNonLinearResidual := firstNonLinearResidual s; nonLinearResidual := nonLinearResidual s; scaledNonLinearResidual := scaledNonLinearResidual s |}.
(** one time step: pre_timestep_work then the solves *)
Definition resid_step (l2 : R) (s : resid) (norms : list R) : resid := fold_left (solve_resid l2) norms (pre_timestep_work s).

(** provide_system_norm, EquationSystems.C 853-861, and system_is_converged, EquationSystem.C 129-137,
    for the systems owning a linear system *)
Definition system_is_converged (tol : R) (s : resid) : bool := if Rlt_dec (scaledNonLinearResidual s) tol then true else false.
Definition provide_system_norm (l : list resid) : R := fold_left (fun m s => Rmax m (scaledNonLinearResidual s)) l (-10000000000000000).
(** solve_and_update, EquationSystems.C 834-846 *)
Definition overall_converged (l : list (R * resid)) : bool :=
  fold_left (fun ok ts => if negb (system_is_converged (fst ts) (snd ts)) then false else ok) l true.

(** nonlinear loop, Realm.C 1720-1741: [conv i] = what solve_and_update returns at iteration i (from 1);
    result: the iterations executed with their isFinalOuterIter_ flag *)
Fixpoint nonlinear_loop (conv : nat -> bool) (num i fuel : nat) : list (nat * bool) :=
  match fuel with
  | O => []
  | S f => if Nat.ltb i num
           then (S i, Nat.eqb (S i) num) :: (if conv (S i) then [] else nonlinear_loop conv num (S i) f)
           else []
  end.
Definition advance_nonlinear (conv : nat -> bool) (num : nat) : list (nat * bool) := nonlinear_loop conv num 0 num.

(* ------------------------------------------------------------------ linear iteration statistics *)
Record stats := { avgIt : R; minIt : R; maxIt : R; cntIt : nat }.
Definition stats0 : stats := {| avgIt := 0; minIt := 10000000000; maxIt := 0; cntIt := 0 |}.
(** update_iteration_statistics, EquationSystem.C 235-247 *)
Definition update_iteration_statistics (s : stats) (iters : nat) : stats :=
  let it := INR iters in
  {| avgIt := (INR (cntIt s) * avgIt s + it) / (INR (cntIt s) + 1); maxIt := Rmax (maxIt s) it; minIt := Rmin (minIt s) it; cntIt := S (cntIt s) |}.
