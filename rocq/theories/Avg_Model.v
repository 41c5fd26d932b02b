(** Model of the turbulence averaging post-processor, at one mesh node.
    /repo/src/TurbulenceAveragingPostProcessing.C, /repo/src/MovingAveragePostProcessor.C.
    Simplifications: real arithmetic; one averaging specification; the values of all averaged
    primitive fields of the node are flattened into one function [smp_q : nat -> R] whose first
    nDim entries are the velocity and whose entry number nDim is the temperature; the same list of
    primitives is used for the Reynolds, Favre and resolved averages (the code keeps three lists). *)
Require Import Reals List Lra Bool.
Import ListNotations.
Open Scope R_scope.

(** One call of execute(): current time, time step, density and primitive values at the node. *)
Record sample := mkSample { smp_time : R; smp_dt : R; smp_rho : R; smp_q : nat -> R }.

(** AveragingType, TurbulenceAveragingPostProcessing.h; cited fields from the ctor lines 54-67. *)
Inductive avg_type := NALU_CLASSIC | MOVING_EXPONENTIAL.

Record avg_cfg := mkCfg {
  cfg_type : avg_type;
  cfg_interval : R;      (* timeFilterInterval_ *)
  cfg_start : R;         (* startTime_ *)
  cfg_ndim : nat }.      (* realm_.spatialDimension_ *)

Record avg_state := mkAvg {
  av_cur : R;            (* currentTimeFilter_ *)
  av_forced : bool;      (* forcedReset_ *)
  av_rhoRA : R;          (* density_ra_ *)
  av_RA : nat -> R;      (* *_ra_ fields *)
  av_FA : nat -> R;      (* *_fa_ fields *)
  av_res : nat -> R;     (* *_resa_ fields *)
  av_rstress : list R;   (* reynolds_stress, one list entry per stored component *)
  av_fstress : list R;   (* favre_stress *)
  av_resstress : list R; (* resolved_stress *)
  av_tflux : nat -> R;   (* temperature_resolved_flux *)
  av_tvar : R;           (* temperature_variance *)
  av_tke : R }.          (* resolved_turbulent_ke *)

(** execute() lines 641-664: (oldTimeFilter, currentTimeFilter_, zeroCurrent). *)
Definition filter_update (c : avg_cfg) (cur : R) (forced : bool) (dt : R) : R * R * R :=
  match cfg_type c with
  | NALU_CLASSIC =>
      let reset := orb (if Rlt_dec (cfg_interval c) (cur + dt) then true else false) forced in
      (cur, if reset then dt else cur + dt, if reset then 0 else 1)
  | MOVING_EXPONENTIAL =>
      let tf := cur + dt in
      let z := if forced then 0 else 1 in
      if Rlt_dec (cfg_interval c) tf
      then (cfg_interval c - dt, cfg_interval c, z)
      else (cur, tf, z)
  end.

(** lines 711-719: Reynolds average of one component. *)
Definition reynolds_upd (old cur z dt avg prim : R) : R := (avg*old*z + prim*dt)/cur.

(** lines 729-738: Favre average of one component. *)
Definition favre_upd (old cur z dt oldRhoRA rhoRA rho avg prim : R) : R :=
  (avg*oldRhoRA*old*z + prim*rho*dt)/cur/rhoRA.

(** lines 749-752: resolved average of one component. *)
Definition resolved_upd (old cur z dt rho avg prim : R) : R := (avg*old*z + rho*prim*dt)/cur.

(** The (i,j) pairs visited by "for i < nDim, for j = i .. nDim-1" with componentCount++ (lines
    915-934, 990-1008, 1102-1114). *)
Definition upper_pairs (n : nat) : list (nat*nat) :=
  flat_map (fun i => map (fun j => (i,j)) (seq i (n-i))) (seq 0 n).

Definition stress_loop (n : nat) (f : nat -> nat -> R -> R) (stress : list R) : list R :=
  map (fun p => f (fst (fst p)) (snd (fst p)) (snd p)) (combine (upper_pairs n) stress).

(** compute_reynolds_stress lines 916-932 for one component. *)
Definition rstress_upd (old cur z dt ui uj uiA ujA stress : R) : R :=
  let uiAOld := (cur*uiA - ui*dt)/old in
  let ujAOld := (cur*ujA - uj*dt)/old in
  ((stress+uiAOld*ujAOld)*old*z + ui*uj*dt)/cur - uiA*ujA.

(** compute_favre_stress lines 978-1006 for one component. *)
Definition fstress_upd (old cur z dt rho rhoA ui uj uiA ujA stress : R) : R :=
  let rhoAOld := (cur*rhoA - rho*dt)/old in
  let rhoAOldByRhoA := rhoAOld/rhoA in
  let rhoByRhoA := rho/rhoA in
  let uiAOld := (cur*rhoA*uiA - rho*ui*dt)/old/rhoAOld in
  let ujAOld := (cur*rhoA*ujA - rho*uj*dt)/old/rhoAOld in
  ((stress + uiAOld*ujAOld)*rhoAOldByRhoA*old*z + rhoByRhoA*ui*uj*dt)/cur - uiA*ujA.

(** compute_resolved_stress lines 1107-1111 for one component. *)
Definition resstress_upd (old cur z dt rho ui uj stress : R) : R :=
  (stress*old*z + rho*ui*uj*dt)/cur.

(** compute_temperature_resolved_flux lines 1046-1056: note that the variance update sits inside
    the loop over the nDim flux components. *)
Fixpoint tflux_loop (dims : list nat) (old cur z dt rho T : R) (u : nat -> R)
    (flux : nat -> R) (var : R) : (nat -> R) * R :=
  match dims with
  | nil => (flux, var)
  | i :: ds =>
      let flux' := fun k => if Nat.eqb k i then (flux k*old*z + rho*u i*T*dt)/cur else flux k in
      let var' := (var*old*z + rho*T*T*dt)/cur in
      tflux_loop ds old cur z dt rho T u flux' var'
  end.

(** compute_tke lines 868-875. *)
Definition tke_of (n : nat) (u uA : nat -> R) : R :=
  fold_left (fun sum j => sum + (1/2)*(u j - uA j)*(u j - uA j)) (seq 0 n) 0.

(** execute() lines 634-828, one node. *)
Definition execute (c : avg_cfg) (st : avg_state) (s : sample) : avg_state :=
  if Rle_dec (cfg_start c) (smp_time s) then
    let dt := smp_dt s in
    let '(old, cur, z) := filter_update c (av_cur st) (av_forced st) dt in
    let rho := smp_rho s in
    let q := smp_q s in
    let oldRhoRA := av_rhoRA st in
    let rhoRA := reynolds_upd old cur z dt (av_rhoRA st) rho in
    let RA := fun k => reynolds_upd old cur z dt (av_RA st k) (q k) in
    let FA := fun k => favre_upd old cur z dt oldRhoRA rhoRA rho (av_FA st k) (q k) in
    let res := fun k => resolved_upd old cur z dt rho (av_res st k) (q k) in
    let n := cfg_ndim c in
    let tke := tke_of n q RA in
    if Rlt_dec 0 old then
      let fs := stress_loop n (fun i j => fstress_upd old cur z dt rho rhoRA (q i) (q j) (FA i) (FA j)) (av_fstress st) in
      let rs := stress_loop n (fun i j => rstress_upd old cur z dt (q i) (q j) (RA i) (RA j)) (av_rstress st) in
      let ss := stress_loop n (fun i j => resstress_upd old cur z dt rho (q i) (q j)) (av_resstress st) in
      let tf := tflux_loop (seq 0 n) old cur z dt rho (q n) q (av_tflux st) (av_tvar st) in
      mkAvg cur false rhoRA RA FA res rs fs ss (fst tf) (snd tf) tke
    else
      mkAvg cur false rhoRA RA FA res (av_rstress st) (av_fstress st) (av_resstress st)
            (av_tflux st) (av_tvar st) tke
  else st.

(** Restart: currentTimeFilter_ is read back (Realm.C:3918) together with the averaged fields, which
    are put on the restart list; a new object is built whose forcedReset_ comes from the input
    file (TurbulenceAveragingPostProcessing.C:95). *)
Inductive event := Step (s : sample) | Restart (forced : bool).

Definition event_step (c : avg_cfg) (st : avg_state) (e : event) : avg_state :=
  match e with
  | Step s => execute c st s
  | Restart f =>
      mkAvg (av_cur st) f (av_rhoRA st) (av_RA st) (av_FA st) (av_res st) (av_rstress st)
            (av_fstress st) (av_resstress st) (av_tflux st) (av_tvar st) (av_tke st)
  end.

Definition avg_run (c : avg_cfg) (st : avg_state) (h : list event) : avg_state :=
  fold_left (event_step c) h st.

Definition zeros (n : nat) : list R := map (fun _ => 0) (upper_pairs n).

(** A new simulation: constructor values, STK fields zero initialised. *)
Definition fresh (c : avg_cfg) (forced : bool) : avg_state :=
  mkAvg 0 forced 0 (fun _ => 0) (fun _ => 0) (fun _ => 0)
        (zeros (cfg_ndim c)) (zeros (cfg_ndim c)) (zeros (cfg_ndim c)) (fun _ => 0) 0 0.

(** ExponentialMovingAverager, MovingAveragePostProcessor.C:34-60 and execute() 92-117 for one
    value of one field. [None]: the STK_ThrowAssert of line 43 is a debug-only check, not modelled. *)
Record ema := mkEma { ema_scale : R; ema_init : bool }.

Definition ema_alpha (e : ema) (dt : R) : R :=
  if ema_init e then 1 else Rmin 1 (dt / ema_scale e).

Definition ema_execute (p : ema * R) (s : R * R) : ema * R :=
  let '(e, avg) := p in
  let '(dt, v) := s in
  let alpha := ema_alpha e dt in
  (mkEma (ema_scale e) false, alpha * v + (1 - alpha) * avg).

Definition ema_run (e : ema) (avg : R) (l : list (R*R)) : R :=
  snd (fold_left ema_execute l (e, avg)).

(** compute_vorticity lines 1278-1296 (3-D; in 2-D the missing entries are zero). *)
Definition vorticity (du : nat -> nat -> R) : R*R*R :=
  (du 2%nat 1%nat - du 1%nat 2%nat, du 0%nat 2%nat - du 2%nat 0%nat, du 1%nat 0%nat - du 0%nat 1%nat).

(** compute_q_criterion lines 1325-1349. *)
Definition q_criterion (n : nat) (du : nat -> nat -> R) : R :=
  let sumij f := fold_left (fun a i => fold_left (fun b j => b + f i j) (seq 0 n) a) (seq 0 n) 0 in
  let Sij := sumij (fun i j => let s := (1/2)*(du i j + du j i) in s*s) in
  let Oij := sumij (fun i j => let w := (1/2)*(du i j - du j i) in w*w) in
  let div := if Nat.eqb n 2 then du 0%nat 0%nat + du 1%nat 1%nat
             else du 0%nat 0%nat + du 1%nat 1%nat + du 2%nat 2%nat in
  (1/2)*(Oij - Sij) + (1/2)*(div*div).

(** compute_lambda_ci 2-D branch lines 1383-1409: the imaginary part of the complex root
    -B/2 + sqrt(B*B-4AC)/2 for a negative discriminant. *)
Definition lambda_ci_2d (a11 a12 a21 a22 : R) : R :=
  let trace := a11 + a22 in
  let det := a11*a22 - a12*a21 in
  let discrim := (-trace)*(-trace) - 4*1*det in
  if Rle_dec 0 discrim then 0 else Rmax (sqrt (-discrim) / 2) (- (sqrt (-discrim) / 2)).

(** compute_sfs_stress lines 1178-1213: the velocity gradient of the k-th node of a bucket is read
    with the stride 6 of the stress field ([dudx_[k*offSet+...]], offSet = 6). *)
Definition sfs_grad_index (n k i j : nat) : nat := (k*6 + (n*i+j))%nat.
(** ... while field dudx stores nDim*nDim values per node (compute_vorticity line 1285). *)
Definition dudx_index (n k i j : nat) : nat := (n*n*k + i*n + j)%nat.
