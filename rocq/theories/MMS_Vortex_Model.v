(** The wind-energy Taylor vortex: src/user_functions/WindEnergyTaylorVortexAuxFunction.C and
    WindEnergyTaylorVortexPressureAuxFunction.C.  Exact real arithmetic; x/0 is Coq's arbitrary value,
    which wv_Re below makes visible. *)
From Coq Require Import Reals List.
From Verif Require Import MMS_Model.
Import ListNotations.
Open Scope R_scope.

Record vortex := mkVortex { v_cx : R; v_cy : R; v_r : R; v_beta : R; v_uinf : R; v_rho : R; v_mu : R }.
(** WindEnergyTaylorVortexAuxFunction.C 25-31 and WindEnergyTaylorVortexPressureAuxFunction.C 25-30, 84-90 *)
Definition vortex_default : vortex := mkVortex (- 5/2) 0 (1/4) 15 10 (1/1000) (1/10000).
(** WindEnergyTaylorVortexAuxFunction.C 33-53 (velocity) and
    WindEnergyTaylorVortexPressureAuxFunction.C 92-112 (pressure gradient): same test and assignments.
    None = std::runtime_error. *)
Definition vortex_params (p : list R) : option vortex :=
  let d := vortex_default in
  match p with
  | [] => Some d
  | [a;b;r;be;u] => Some (mkVortex a b r be u (v_rho d) (v_mu d))
  | [a;b;r;be;u;rho] => Some (mkVortex a b r be u rho (v_mu d))
  | [a;b;r;be;u;rho;mu] => Some (mkVortex a b r be u rho mu)
  | _ => None end.
(** WindEnergyTaylorVortexPressureAuxFunction.C 32-47 (pressure): 5 or 6 parameters, no viscosity member;
    the record's v_mu is not used by wv_pressure. *)
Definition vortex_pressure_params (p : list R) : option vortex :=
  let d := vortex_default in
  match p with
  | [] => Some d
  | [a;b;r;be;u] => Some (mkVortex a b r be u (v_rho d) (v_mu d))
  | [a;b;r;be;u;rho] => Some (mkVortex a b r be u rho (v_mu d))
  | _ => None end.

(** WindEnergyTaylorVortexAuxFunction.C 79-81 *)
Definition wv_tiny : R := / 10 ^ 30.
Definition wv_that (v : vortex) (t : R) : R := if Rlt_dec wv_tiny (v_mu v) then t * v_beta v / v_r v else 0.
Definition wv_Re (v : vortex) : R := if Rlt_dec wv_tiny (v_mu v) then v_rho v * v_beta v * v_r v / v_mu v else 0.
Definition wv_tfac (v : vortex) (t : R) : R := 1 + 2 * wv_that v t / wv_Re v.
(** WindEnergyTaylorVortexAuxFunction.C 83-95; components 0 and 1 (a third component, if any, is not written) *)
Definition wv_velocity (v : vortex) (i : nat) : field := fun t x y z =>
  let cDx := x - (v_cx v + v_uinf v * t) in
  let cDy := y - v_cy v in
  let radius := sqrt (cDx * cDx + cDy * cDy) / v_r v in
  let factor := v_beta v / (v_r v * wv_tfac v t * wv_tfac v t) * exp (1/2 * (1 - radius * radius / wv_tfac v t)) in
  match i with
  | 0%nat => - factor * cDy + v_uinf v
  | 1%nat => factor * cDx
  | _ => 0 end.
(** WindEnergyTaylorVortexPressureAuxFunction.C 73-83: no time dependence *)
Definition wv_pressure (v : vortex) : field := fun t x y z =>
  let coeff := - (1/2) * exp 1 * v_beta v * v_beta v * v_rho v in
  let cDx := x - v_cx v in
  let cDy := y - v_cy v in
  let radius := sqrt (cDx * cDx + cDy * cDy) / v_r v in
  coeff * exp (- radius * radius).
(** std::atan2 (C99 7.12.4.4; signed zeros not distinguished) *)
Definition atan2 (y x : R) : R :=
  if Rlt_dec 0 x then atan (y / x)
  else if Rlt_dec x 0 then (if Rle_dec 0 y then atan (y / x) + PI else atan (y / x) - PI)
  else if Rlt_dec 0 y then PI / 2 else if Rlt_dec y 0 then - (PI / 2) else 0.
(** WindEnergyTaylorVortexPressureAuxFunction.C 142-166: no guard on the viscosity here *)
Definition wv_gradp (v : vortex) (i : nat) : field := fun t x y z =>
  let tHat := t * v_beta v / v_r v in
  let Re := v_rho v * v_beta v * v_r v / v_mu v in
  let tFac := 1 + 2 * tHat / Re in
  let cDx := x - (v_cx v + v_uinf v * t) in
  let cDy := y - v_cy v in
  let radius := sqrt (cDx * cDx + cDy * cDy) / v_r v in
  let utheta := v_beta v / (v_r v * tFac * tFac) * exp (1/2 * (1 - radius * radius / tFac)) in
  let gradFac := v_rho v * utheta * utheta in
  let theta := atan2 cDy cDx in
  match i with
  | 0%nat => gradFac * radius * v_r v * cos theta
  | 1%nat => gradFac * radius * v_r v * sin theta
  | _ => 0 end.
