(** * Projected wall functions and the one-dimensional (ODE) wall model

    Files: src/PointInfo.C, include/PointInfo.h, src/ComputeWallFrictionVelocityProjectedAlgorithm.C,
    src/AssembleMomentumElemWallFunctionProjectedSolverAlgorithm.C,
    src/SurfaceForceAndMomentWallFunctionProjectedAlgorithm.C.
    Simplifications: real arithmetic, decimal literals exact; the search that finds the element holding the exchange
    point is the one modelled for transfers (Xfer_Model) and is not repeated: the velocity interpolated there
    is an argument; the ghosting of elements is not modelled. *)
From Coq Require Import Reals List Bool Arith.
From Verif Require Import Edge_Model Elem_Model Wall_Model Force_Model Aux_Model.
Import ListNotations.
Local Open Scope R_scope.

(** ComputeWallFrictionVelocityProjectedAlgorithm.C 655-665: the exchange point, [x] the integration point *)
Definition exchange_point (n : nat) (x A : vec) (pD : R) : vec := fun j => x j - pD * nrm n A j.
(** PointInfo.C 78-83 *)
Definition ode_length (n : nat) (x xP : vec) : R := sqrt (sumn n (fun i => (xP i - x i) * (xP i - x i))).

(** PointInfo.C 39-40 *)
Definition numPoints : nat := 50.
Definition bias : R := 200.
(** PointInfo.C 70-75, 86; [np] points, np-1 segments *)
Definition ode_r (np : nat) (b : R) : R := Rpower b (1 / INR (np - 2)).
Definition ode_L1 (np : nat) (b L : R) : R :=
  L * (1 - Rpower b (1 / INR (np - 2))) / (1 - Rpower b (INR (np - 1) / INR (np - 2))).
(** PointInfo.C 97-102 *)
Fixpoint ode_dy (np : nat) (b L : R) (k : nat) : R :=
  match k with O => ode_L1 np b L | S k' => ode_dy np b L k' * ode_r np b end.
(** PointInfo.C 105-110 *)
Fixpoint ode_coord (np : nat) (b L : R) (k : nat) : R :=
  match k with O => 0 | S k' => ode_coord np b L k' + ode_dy np b L k' end.

(** PointInfo.C 157-174 *)
Definition Aplus : R := 17.
Definition ode_visc (tau rho mu kappa : R) (y : nat -> R) (k : nat) : R :=
  let yk := y k - y 0%nat in
  let yplus := yk * sqrt (rho * tau) / mu in
  let blend := 1 - exp (- yplus / Aplus) in
  mu + kappa * rho * sqrt (tau / rho) * yk * blend * blend.

(** include/PointInfo.h 42-51 *)
Record row := mkRow { Aw : R; Ap : R; Ae : R; rhs : R }.
Definition zrow : row := mkRow 0 0 0 0.
Definition upd (ns : nat -> row) (k : nat) (r : row) : nat -> row := fun a => if Nat.eqb a k then r else ns a.
(** PointInfo.C 130-139: left row il, right row ir *)
Definition scatter (il ir : nat) (a0 a1 a2 a3 r0 r1 : R) (ns : nat -> row) : nat -> row :=
  let l := ns il in
  let ns := upd ns il (mkRow (Aw l) (Ap l + a0) (Ae l + a1) (rhs l + r0)) in
  let r := ns ir in
  upd ns ir (mkRow (Aw r + a2) (Ap r + a3) (Ae r) (rhs r + r1)).
(** PointInfo.C 144-150 *)
Definition dirichlet (k : nat) (du : R) (ns : nat -> row) : nat -> row := upd ns k (mkRow 0 1 0 du).
(** PointInfo.C 179-232; lrscv[k] = (k, k+1) (118-120) *)
Definition assemble (np : nat) (y u visc : nat -> R) : nat -> row :=
  fold_left (fun ns k =>
    let dx := y (k + 1)%nat - y k in
    let lhsfac := - (1/2) * (visc (k + 1)%nat + visc k) / dx in
    let diffFlux := lhsfac * (u (k + 1)%nat - u k) * 0 in
    scatter k (k + 1) (- lhsfac) lhsfac lhsfac (- lhsfac) (- diffFlux) diffFlux ns)
    (seq 0 (np - 1)) (fun _ => zrow).
(** PointInfo.C 241-246 *)
Definition forward (np : nat) (ns : nat -> row) : nat -> row :=
  fold_left (fun ns k =>
    let p := ns (k - 1)%nat in
    let r := ns k in
    let m := Aw r / Ap p in
    upd ns k (mkRow (Aw r) (Ap r - m * Ae p) (Ae r) (rhs r - m * rhs p)))
    (seq 1 (np - 1)) ns.
Definition setv (u : nat -> R) (k : nat) (v : R) : nat -> R := fun a => if Nat.eqb a k then v else u a.
(** PointInfo.C 249-252 *)
Definition backward (np : nat) (ns : nat -> row) (u : nat -> R) : nat -> R :=
  fold_left (fun u k => setv u k ((rhs (ns k) - Ae (ns k) * u (k + 1)%nat) / Ap (ns k)))
    (rev (seq 0 (np - 1)))
    (setv u (np - 1) (rhs (ns (np - 1)%nat) / Ap (ns (np - 1)%nat))).
Definition tdma (np : nat) (ns : nat -> row) (u : nat -> R) : nat -> R := backward np (forward np ns) u.

(** PointInfo.C 276-287: one pass of the loop body up to the new wall stress; returns the velocities *)
Definition ode_profile (np : nat) (y : nat -> R) (uEx uWall rho mu kappa tau : R) (u : nat -> R) : nat -> R :=
  let visc := ode_visc tau rho mu kappa y in
  let ns := assemble np y u visc in
  let ns := dirichlet 0 uWall ns in
  let ns := dirichlet (np - 1) uEx ns in
  tdma np ns u.
(** PointInfo.C 290-291 *)
Definition ode_stress (y : nat -> R) (mu : R) (u : nat -> R) : R := mu * (u 1%nat - u 0%nat) / (y 1%nat - y 0%nat).
(** PointInfo.C 274-303; [k] iterations left; result: the wall stress kept, the flag and the velocities *)
Fixpoint ode_loop (k np : nat) (y : nat -> R) (uEx uWall rho mu kappa tol tau : R) (u : nat -> R) : R * bool * (nat -> R) :=
  match k with
  | O => (tau, false, u)
  | S k' =>
      let u' := ode_profile np y uEx uWall rho mu kappa tau u in
      let tauC := ode_stress y mu u' in
      let norm := (tauC - tau) * (tauC - tau) in
      if Rlt_dec (sqrt norm) tol then (tau, true, u')
      else ode_loop k' np y uEx uWall rho mu kappa tol tauC u'
  end.
(** PointInfo.C 266-267 *)
Definition MAX_ITER : nat := 1000.
Definition TOLERANCE : R := 1 / 10^6.
(** PointInfo.C 260-316; tauWall_ is set to -1 by the constructor (41) and never again, so the guess is always the
    one provided; [u0] is velocityVec_ left by the last call *)
Definition ode_solve (np : nat) (y : nat -> R) (uEx uWall rho mu kappa tauGuess : R) (u0 : nat -> R) : R * bool :=
  let res := ode_loop MAX_ITER np y uEx uWall rho mu kappa TOLERANCE tauGuess u0 in
  (sqrt (fst (fst res) / rho), snd (fst res)).
(** ComputeWallFrictionVelocityProjectedAlgorithm.C 457-466 *)
Definition compute_utau_ode (np : nat) (y : nat -> R) (uTan rho mu kappa utau : R) (u0 : nat -> R) : R * bool :=
  ode_solve np y uTan 0 rho mu kappa (rho * utau * utau) u0.
(** ComputeWallFrictionVelocityProjectedAlgorithm.C 339-387: slip speed between exchange point velocity and wall
    velocity, both tangential; wall distance = projected distance *)
Definition friction_velocity_projected (kappa : R) (n : nat) (A uP bc : vec) (pD ode rho mu : R) (L : R) (u0 : nat -> R) : R * bool :=
  let up := utang n A uP bc in
  let guess := yplusCrit * mu / rho / pD in
  if Rlt_dec 0 ode then compute_utau_ode numPoints (ode_coord numPoints bias L) up rho mu kappa guess u0
  else compute_utau kappa up pD rho mu guess.

(** AssembleMomentumElemWallFunctionProjectedSolverAlgorithm.C 308-320 (and
    SurfaceForceAndMomentWallFunctionProjectedAlgorithm.C 391-405) *)
Definition plambda (kappa ode rho mu yp utau am : R) : R :=
  wlambda kappa rho mu yp utau am * (1 - ode) + ode * rho * utau * utau * am.
(** 347 (and 416): the division, None when the divisor is zero *)
Definition normalize (ode uT : R) : option R := divo 1 (1 - ode + ode * uT).
(** 203-356: the rows of one face; [uP ip] the velocity at the exchange point of ip. The matrix is not touched.
    None: a division by zero somewhere *)
Definition wall_traction_projected (f : wface) (kappa ode : R) (rho mu : nat -> R) (yp ut : nat -> R) (bc : nat -> R)
    (uP : nat -> vec) (s0 : esys) : option esys :=
  fold_left (fun os ip =>
    match os with None => None | Some s =>
      let n := fdim f in
      let nn := fmap f ip in
      let am := amag n (fA f ip) in
      let m := nrm n (fA f ip) in
      let lam := plambda kappa ode (at_f f rho ip) (at_f f mu ip) (yp ip) (ut ip) am in
      let uB := uat_f f bc ip in
      match normalize ode (utang n (fA f ip) (uP ip) uB) with
      | None => None
      | Some nf => Some (loop n (fun i s => addB (nn*n+i) (- (lam * (tanv n m (uP ip) i - tanv n m uB i) * nf)) s) s)
      end
    end) (seq 0 (fip f)) (Some s0).

(** SurfaceForceAndMomentWallFunctionProjectedAlgorithm.C 333-444: what a point contributes; [uP] as above, the
    face values of p, rho, mu, wall velocity as in [modelled]. The wall stress stored is lambda*normalizeFacT/aMag
    (the code divides by assembledArea: [visit] multiplies by aMag/assembledArea) *)
Definition modelled_projected (n : nat) (kappa ode : R) (f : sfields) (b : spt) (uP : vec) : option contrib :=
  let pB := ipol b (q_p f) in let rhoB := ipol b (q_rho f) in let muB := ipol b (q_mu f) in
  let aMag := amag n (s_A b) in
  let m := nrm n (s_A b) in
  let ucB j := ipol b (fun a => q_ubc f a j) in
  let udiff i := tanv n m uP i - tanv n m ucB i in
  let uT := utang n (s_A b) uP ucB in
  let yplus := rhoB*s_yp b*s_ut b/muB in
  let lam := plambda kappa ode rhoB muB (s_yp b) (s_ut b) aMag in
  match normalize ode uT with
  | None => None
  | Some nf => Some (mkC (pad n (fun i => pB*s_A b i)) (pad n (fun i => lam*udiff i*nf))
                         (lam*(ode + (1 - ode)*uT)/aMag) yplus aMag)
  end.
