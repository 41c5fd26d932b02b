(** * Wall functions: wall distance, friction velocity, wall traction, wall values of k and omega

    Files: src/ComputeWallFrictionVelocityAlgorithm.C, src/AssembleMomentumElemWallFunctionSolverAlgoirthm.C,
    src/AssembleMomentumEdgeWallFunctionSolverAlgoirthm.C, src/kernel/MomentumWallFunctionElemKernel.C,
    src/ComputeTurbKineticEnergyWallFunctionAlgorithm.C, src/WallFunctionParamsAlgorithmDriver.C,
    src/ComputeLowReynoldsSDRWallAlgorithm.C, src/ComputeWallModelSDRWallAlgorithm.C,
    src/SpecificDissipationRateEquationSystem.C 798-861, src/ShearStressTransportEquationSystem.C 364-473.
    Simplifications: real arithmetic; decimal literals are exact rationals; nodal assembly is a sum over the list of
    boundary integration points (parallel_sum and periodic assembly are the subject of C14, C19). *)
From Coq Require Import Reals List Bool Arith.
From Verif Require Import Edge_Model Elem_Model.
Import ListNotations.
Local Open Scope R_scope.

(** ComputeWallFrictionVelocityAlgorithm.C 206-214 *)
Definition amag (n : nat) (A : vec) : R := sqrt (sumn n (fun j => A j * A j)).
Definition nrm (n : nat) (A : vec) : vec := fun j => A j / amag n A.
(** 236-244, and the same loop in ComputeLowReynoldsSDRWallAlgorithm.C, ComputeWallModelSDRWallAlgorithm.C and
    ShearStressTransportEquationSystem.C 447-454 *)
Definition ypbip (n : nat) (A xL xR : vec) : R :=
  sqrt (sumn n (fun j => let nj := nrm n A j in let ej := (1/4) * (xR j - xL j) in nj * ej * nj * ej)).
(** 256-275 *)
Definition tanv (n : nat) (m u : vec) : vec :=
  fun i => sumn n (fun j => let ninj := m i * m j in if Nat.eqb i j then (1 - ninj) * u j else - (ninj * u j)).
Definition utang (n : nat) (A u bc : vec) : R :=
  sqrt (sumn n (fun i => (tanv n (nrm n A) u i - tanv n (nrm n A) bc i) * (tanv n (nrm n A) u i - tanv n (nrm n A) bc i))).

(** 46-50 *)
Definition yplusCrit : R := 1163/100.
Definition elog : R := 98/10.
Definition maxIt : nat := 20.
Definition wtol : R := 1/10^6.
(** compute_utau, 292-334: the loop with [k] iterations left; result: utau and the converged flag *)
Fixpoint utau_loop (k : nat) (A kup tol u : R) : R * bool :=
  match k with
  | O => (u, false)
  | S k' =>
      let wrk := ln (A * u) in
      let fPrime := - (1 + wrk) in
      let f := kup - u * wrk in
      let df := f / fPrime in
      let u' := u - df in
      if Rlt_dec (Rabs df) tol then (u', true) else utau_loop k' A kup tol u'
  end.
Definition compute_utau (kappa up yp rho mu utau : R) : R * bool :=
  utau_loop maxIt (elog * rho * yp / mu) (kappa * up) wtol utau.
(** 286-290 *)
Definition friction_velocity (kappa : R) (n : nat) (A xL xR u bc : vec) (rho mu : R) : R * bool :=
  let yp := ypbip n A xL xR in
  compute_utau kappa (utang n A u bc) yp rho mu (yplusCrit * mu / rho / yp).

(** AssembleMomentumElemWallFunctionSolverAlgoirthm.C 240-250; MomentumWallFunctionElemKernel.C 130-134 *)
Definition wlambda (kappa rho mu yp utau am : R) : R :=
  let yplus := rho * yp * utau / mu in
  if Rlt_dec yplusCrit yplus then rho * kappa * utau / ln (elog * yplus) * am else mu / yp * am.

(** a wall face: nodes, integration points, shape functions, nearest node, area vectors *)
Record wface := mkWF { fnod : nat; fip : nat; fdim : nat; fN : nat -> nat -> R; fmap : nat -> nat; fA : nat -> vec }.
Definition at_f (f : wface) (q : nat -> R) (ip : nat) : R := sumn (fnod f) (fun ic => fN f ip ic * q ic).
Definition uat_f (f : wface) (u : nat -> R) (ip : nat) : vec := fun j => sumn (fnod f) (fun ic => fN f ip ic * u (ic * fdim f + j)%nat).

(** AssembleMomentumElemWallFunctionSolverAlgoirthm.C 203-277 = MomentumWallFunctionElemKernel.C 86-165;
    [yp], [ut] are the stored wall_normal_distance_bip and wall_friction_velocity_bip *)
Definition wall_traction (f : wface) (kappa : R) (rho mu : nat -> R) (yp ut : nat -> R) (bc u : nat -> R) (s0 : esys) : esys :=
  loop (fip f) (fun ip s =>
    let n := fdim f in
    let nn := fmap f ip in
    let am := amag n (fA f ip) in
    let m := nrm n (fA f ip) in
    let lam := wlambda kappa (at_f f rho ip) (at_f f mu ip) (yp ip) (ut ip) am in
    loop n (fun i s =>
      let s := loop n (fun j s =>
        let ninj := m i * m j in
        loop (fnod f) (fun ic s =>
          if Nat.eqb i j then addL (nn*n+i) (ic*n+i) (lam * (1 - ninj) * fN f ip ic) s
          else addL (nn*n+i) (ic*n+j) (- (lam * ninj * fN f ip ic)) s) s) s in
      addB (nn*n+i) (- (lam * (tanv n m (uat_f f u ip) i - tanv n m (uat_f f bc ip) i))) s) s) s0.
(** AssembleMomentumEdgeWallFunctionSolverAlgoirthm.C 157-222: values of the nearest node instead of interpolated ones *)
Definition wall_traction_edge (f : wface) (kappa : R) (rho mu : nat -> R) (yp ut : nat -> R) (bc u : nat -> R) (s0 : esys) : esys :=
  loop (fip f) (fun ip s =>
    let n := fdim f in
    let nn := fmap f ip in
    let am := amag n (fA f ip) in
    let m := nrm n (fA f ip) in
    let lam := wlambda kappa (rho nn) (mu nn) (yp ip) (ut ip) am in
    loop n (fun i s =>
      let s := loop n (fun j s =>
        let ninj := m i * m j in
        if Nat.eqb i j then addL (nn*n+i) (nn*n+i) (lam * (1 - ninj)) s
        else addL (nn*n+i) (nn*n+j) (- (lam * ninj)) s) s in
      addB (nn*n+i) (- (lam * (tanv n m (fun j => u (nn*n+j)%nat) i - tanv n m (fun j => bc (nn*n+j)%nat) i))) s) s) s0.

(** nodal wall values: (node, area, value) per boundary point; zeroed, summed, divided
    (WallFunctionParamsAlgorithmDriver.C 57-128, SpecificDissipationRateEquationSystem.C 815-859,
     ComputeTurbKineticEnergyWallFunctionAlgorithm.C 63-225) *)
Definition wpt := (nat * (R * R))%type.
Definition assemble_wall (l : list wpt) (a : nat) : R * R :=
  fold_left (fun acc p => if Nat.eqb (fst p) a then (fst acc + fst (snd p), snd acc + fst (snd p) * snd (snd p)) else acc) l (0, 0).
Definition wall_value (l : list wpt) (a : nat) : R := snd (assemble_wall l a) / fst (assemble_wall l a).
(** ComputeTurbKineticEnergyWallFunctionAlgorithm.C 118-119 *)
Definition tke_bip (cMu utau : R) : R := utau * utau / sqrt cMu.
(** ComputeLowReynoldsSDRWallAlgorithm.C 216; ComputeWallModelSDRWallAlgorithm.C 163 *)
Definition sdr_low (wallFactor betaOne nu yp : R) : R := wallFactor * 6 * nu / betaOne / yp / yp.
Definition sdr_wf (sqrtBetaStar kappa utau yp : R) : R := utau / sqrtBetaStar / kappa / yp.
(** ShearStressTransportEquationSystem.C 457-459: running maximum over the wall points of a node *)
Definition clip_min_d (l : list (nat * R)) (a : nat) (d0 : R) : R :=
  fold_left (fun d p => if Nat.eqb (fst p) a then Rmax d (snd p) else d) l d0.
