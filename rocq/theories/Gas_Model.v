(** Explicit compressible flow: AUSM+ edge flux, open and symmetry boundary contributions, explicit
    update and state conversions.
    Files: gas_dynamics/AssembleGasDynamicsFluxAlgorithm.C, AssembleGasDynamicsOpenAlgorithm.C,
    AssembleGasDynamicsSymmetryAlgorithm.C, AssembleGasDynamicsAlgorithmDriver.C,
    GasDynamicsEquationSystem.C.
    Simplifications: real arithmetic; one process (the parallel and periodic sums of post_work are
    the subject of Sum_Model / Periodic_Model); fields are functions of the node; the loops over
    buckets are loops over a list of edges / faces / nodes; the overset and non-conformal
    contributions are not modelled here. *)
Require Import Reals List Bool.
From Verif Require Import Edge_Model.
Import ListNotations.
Open Scope R_scope.

(** the fields read by AssembleGasDynamicsFluxAlgorithm::execute, lines 127-176 *)
Record gas_fields := mkGas {
  g_x : nat -> vec; g_rho : nat -> R; g_mom : nat -> vec; g_vel : nat -> vec; g_vrtm : nat -> vec;
  g_H : nat -> R; g_p : nat -> R; g_T : nat -> R; g_c : nat -> R; g_mu : nat -> R; g_kappa : nat -> R }.

(** lines 233-234: machNumber > 0.0 ? 1.0 : -1.0 *)
Definition sgn (m : R) : R := if Rlt_dec 0 m then 1 else -1.
(** std::pow(x, 2.0) *)
Definition pow2 (x : R) : R := x*x.

(** script{M}+, lines 237-240 *)
Definition scriptMp (m : R) : R :=
  if Rle_dec 1 (Rabs m) then (1/2)*(m + Rabs m)
  else (1/4)*pow2 (m + 1) + (1/8)*pow2 (m*m - 1).
(** script{M}-, lines 242-245 *)
Definition scriptMm (m : R) : R :=
  if Rle_dec 1 (Rabs m) then (1/2)*(m - Rabs m)
  else - (1/4)*pow2 (m - 1) - (1/8)*pow2 (m*m - 1).
(** script{P}+, lines 248-251 *)
Definition scriptPp (m : R) : R :=
  if Rle_dec 1 (Rabs m) then (1/2)*(1 + sgn m)
  else (1/4)*pow2 (m + 1)*(2 - m) + (3/16)*m*pow2 (m*m - 1).
(** script{P}-, lines 253-256 *)
Definition scriptPm (m : R) : R :=
  if Rle_dec 1 (Rabs m) then (1/2)*(1 - sgn m)
  else (1/4)*pow2 (m - 1)*(2 + m) - (3/16)*m*pow2 (m*m - 1).

(** lines 180-190 *)
Definition g_amag (n : nat) (e : edge) : R := sqrt (e_asq n e).
(** lines 200-218: dui/dxj without the non-orthogonal correction, in the code's ws_duidxj[nDim*i+j] *)
Definition g_dudx (n : nat) (g : gas_fields) (e : edge) (i j : nat) : R :=
  (g_vel g (eR e) i - g_vel g (eL e) i) * eA e j * (1 / e_axdx n (g_x g) e).
(** lines 220-223 *)
Definition g_divU (n : nat) (g : gas_fields) (e : edge) : R := sumn n (fun j => g_dudx n g e j j).
(** lines 225-232: the Mach number of one side, with the mean speed of sound *)
Definition g_mach (n : nat) (g : gas_fields) (e : edge) (node : nat) : R :=
  sumn n (fun j => g_vrtm g node j * (eA e j / g_amag n e)
                   / ((1/2)*(g_c g (eL e) + g_c g (eR e)))).
(** lines 259-260 *)
Definition g_mLR (n : nat) (g : gas_fields) (e : edge) : R :=
  scriptMp (g_mach n g e (eL e)) + scriptMm (g_mach n g e (eR e)).
Definition g_pLR (n : nat) (g : gas_fields) (e : edge) : R :=
  scriptPp (g_mach n g e (eL e)) * g_p g (eL e) + scriptPm (g_mach n g e (eR e)) * g_p g (eR e).

(** the advective interface flux used three times (lines 269, 291, 300) *)
Definition g_adv (amag m fL fR : R) : R :=
  amag*((1/2)*m*(fL + fR) - (1/2)*Rabs m*(fR - fL)).

(** lines 263, 273-282: tauIp[i][j] after the momentum loop; row i is first zeroed, its diagonal is
    set to -2/3*mu*divU and then the j loop adds the symmetric part *)
Definition g_muIp (g : gas_fields) (e : edge) : R := (1/2)*(g_mu g (eL e) + g_mu g (eR e)).
Definition g_tau (n : nat) (g : gas_fields) (e : edge) (i j : nat) : R :=
  (if Nat.eqb i j then - 2/3 * g_muIp g e * g_divU n g e else 0)
  + g_muIp g e * (g_dudx n g e i j + g_dudx n g e j i).

(** lines 266-282: momentum component i *)
Definition g_fm (n : nat) (g : gas_fields) (e : edge) (i : nat) : R :=
  g_adv (g_amag n e) (g_mLR n g e) (g_mom g (eL e) i * g_c g (eL e)) (g_mom g (eR e) i * g_c g (eR e))
  + g_pLR n g e * eA e i.
Definition g_dfm (n : nat) (g : gas_fields) (e : edge) (i : nat) : R :=
  fold_left (fun t j => t + - g_muIp g e * (g_dudx n g e i j + g_dudx n g e j i) * eA e j) (seq 0 n)
    (2/3 * g_muIp g e * g_divU n g e * eA e i).
(** lines 289-292 *)
Definition g_fc (n : nat) (g : gas_fields) (e : edge) : R :=
  g_adv (g_amag n e) (g_mLR n g e) (g_rho g (eL e) * g_c g (eL e)) (g_rho g (eR e) * g_c g (eR e)).
(** lines 297-311 *)
Definition g_fe (n : nat) (g : gas_fields) (e : edge) : R :=
  g_adv (g_amag n e) (g_mLR n g e) (g_H g (eL e) * g_c g (eL e)) (g_H g (eR e) * g_c g (eR e)).
Definition g_dfe (n : nat) (g : gas_fields) (e : edge) : R :=
  let thermalCondIp := (1/2)*(g_kappa g (eL e) + g_kappa g (eR e)) in
  fold_left (fun t i =>
     let uiIp := (1/2)*(g_vel g (eR e) i + g_vel g (eL e) i) in
     fold_left (fun t j => t + - uiIp * g_tau n g e i j * eA e j) (seq 0 n) t) (seq 0 n)
   (- thermalCondIp * e_asq n e * (1 / e_axdx n (g_x g) e) * (g_T g (eR e) - g_T g (eL e))).

(** what one edge subtracts from rhs_gas_dynamics of its left node and adds to its right node
    (lines 285-286, 294-295, 313-314); components 0..nDim-1 momentum, nDim mass, nDim+1 energy *)
Definition gas_flux (n : nat) (g : gas_fields) (e : edge) (c : nat) : R :=
  if Nat.ltb c n then g_fm n g e c + g_dfm n g e c
  else if Nat.eqb c n then g_fc n g e
  else g_fe n g e + g_dfe n g e.

(** rhs_gas_dynamics : node -> component -> value *)
Definition gas_rhs := nat -> nat -> R.
Definition add_to (r : gas_rhs) (node : nat) (d : nat -> R) : gas_rhs :=
  fun i c => if Nat.eqb i node then r i c + d c else r i c.

(** the loop over edges, lines 110-317 *)
Definition gas_edge_loop (n : nat) (g : gas_fields) (es : list edge) (r0 : gas_rhs) : gas_rhs :=
  fold_left (fun r e =>
    let F := gas_flux n g e in
    add_to (add_to r (eL e) (fun c => - F c)) (eR e) F) es r0.

(* ------------------------------------------------------------------ boundaries *)
(** one integration point of a boundary face: nearest node and exposed area vector *)
Record bip := mkBip { b_node : nat; b_A : vec }.

(** AssembleGasDynamicsSymmetryAlgorithm.C:77-104 *)
Definition gas_symmetry_loop (n : nat) (p : nat -> R) (bs : list bip) (r0 : gas_rhs) : gas_rhs :=
  fold_left (fun r b => add_to r (b_node b) (fun c => if Nat.ltb c n then - (p (b_node b) * b_A b c) else 0)) bs r0.

(** fields of the open algorithm, AssembleGasDynamicsOpenAlgorithm.C:128-152 *)
Record gas_open := mkOpen {
  o_rho : nat -> R; o_mom : nat -> vec; o_vrtm : nat -> vec; o_H : nat -> R;
  o_bcp : nat -> R; o_bcT : nat -> R; o_cp : nat -> R; o_gamma : nat -> R }.

(** lines 116-121 *)
Definition b_amag (n : nat) (A : vec) : R := sqrt (sumn n (fun i => A i * A i)).
(** lines 158-165 *)
Definition ob_inout (n : nat) (v A : vec) : R := sumn n (fun j => v j * (A j / b_amag n A)).
(** uSq as accumulated by the code: the components are summed, not squared (line 164) *)
Definition ob_uSq (n : nat) (v : vec) : R := sumn n (fun j => v j).
Definition ob_mach (n : nat) (v A : vec) (c : R) : R := sumn n (fun j => v j * (A j / b_amag n A) / c).
(** scriptM of the entering branch tests absM > 1.0 (line 206) *)
Definition scriptMm_open (m : R) : R :=
  if Rlt_dec 1 (Rabs m) then (1/2)*(m - Rabs m)
  else - (1/4)*pow2 (m - 1) - (1/8)*pow2 (m*m - 1).

(** what one integration point subtracts from the nearest node's row, lines 167-231 *)
Definition open_flux (n : nat) (o : gas_open) (b : bip) (c : nat) : R :=
  let nn := b_node b in let A := b_A b in let v := o_vrtm o nn in
  let aMag := b_amag n A in let uSq := ob_uSq n v in
  if Rlt_dec 0 (ob_inout n v A) then
    let cs := sqrt (o_gamma o nn * o_bcp o nn / o_rho o nn) in
    let m := ob_mach n v A cs in
    if Nat.ltb c n then aMag * scriptMp m * o_mom o nn c * cs + scriptPp m * o_bcp o nn * A c
    else if Nat.eqb c n then aMag * scriptMp m * o_rho o nn * cs
    else aMag * scriptMp m * o_H o nn * cs
  else
    let ps := o_bcp o nn - (1/2) * o_rho o nn * uSq in
    let cs := sqrt (o_gamma o nn * ps / o_rho o nn) in
    let m := ob_mach n v A cs in
    let cT := o_bcT o nn / (1 + o_gamma o nn * m * m) in
    let Hh := o_rho o nn * (o_cp o nn * cT + (1/2) * uSq) in
    if Nat.ltb c n then aMag * scriptMm_open m * o_mom o nn c * cs + scriptPm m * ps * A c
    else if Nat.eqb c n then aMag * scriptMm_open m * o_rho o nn * cs
    else aMag * scriptMm_open m * Hh * cs.
Definition gas_open_loop (n : nat) (o : gas_open) (bs : list bip) (r0 : gas_rhs) : gas_rhs :=
  fold_left (fun r b => add_to r (b_node b) (fun c => - open_flux n o b c)) bs r0.

(* ------------------------------------------------------------------ explicit update *)
(** conserved state; GasDynamicsEquationSystem.C:836-876, non-Dirichlet nodes *)
Record cons := mkCons { k_mom : nat -> vec; k_rho : nat -> R; k_rhoE : nat -> R }.
Definition gas_update (n : nat) (dt : R) (vol : nat -> R) (dirichlet : nat -> bool)
    (rhs : gas_rhs) (old new : cons) : cons :=
  mkCons (fun i j => if dirichlet i then k_mom new i j else k_mom old i j + 1*dt/vol i * rhs i j)
         (fun i => if dirichlet i then k_rho new i else k_rho old i + 1*dt/vol i * rhs i n)
         (fun i => if dirichlet i then k_rhoE new i else k_rhoE old i + 1*dt/vol i * rhs i (S n)).

(** predict_state, lines 748-764: N+1 := N *)
Definition gas_predict (old : cons) : cons := old.

(* ------------------------------------------------------------------ state conversions, one node *)
Definition usq (n : nat) (u : vec) : R := sumn n (fun j => u j * u j).
(** compute_momentum, lines 1036-1062 *)
Definition compute_momentum (rho : R) (u : vec) : vec := fun j => rho * u j.
(** compute_total_energy, lines 1067-1098 *)
Definition compute_total_energy (n : nat) (p gamma rho : R) (u : vec) : R :=
  p/(gamma - 1) + (1/2)*rho*usq n u.
(** compute_total_enthalpy, lines 1103-1132 *)
Definition compute_total_enthalpy (n : nat) (rho h : R) (u : vec) : R := rho*(h + (1/2)*usq n u).
(** compute_velocity, lines 1137-1163 *)
Definition compute_velocity (rho : R) (mom : vec) : vec := fun j => mom j * (1/rho).
(** compute_pressure, lines 1168-1198 *)
Definition compute_pressure (n : nat) (gamma rhoE rho : R) (u : vec) : R :=
  (gamma - 1)*(rhoE - (1/2)*rho*usq n u).
(** compute_temperature, lines 1203-1234 *)
Definition compute_temperature (n : nat) (rhoE rho cv : R) (u : vec) : R :=
  (rhoE/rho - (1/2)*usq n u)/cv.
(** compute_speed_of_sound, lines 1239-1259 *)
Definition compute_speed_of_sound (gamma p rho : R) : R := sqrt (gamma*p/rho).
(** compute_mach_number, lines 1264-1289 *)
Definition compute_mach_number (n : nat) (gamma p rho : R) (u : vec) : R :=
  sqrt (usq n u)/sqrt (gamma*p/rho).

(** lines 886-892: the aux update after a step; static enthalpy = cp*T (enthalpyAlg_ with Tref = 0) *)
Record prim := mkPrim { m_u : vec; m_p : R; m_T : R; m_h : R; m_H : R; m_c : R; m_M : R }.
Definition aux_update (n : nat) (gamma cp cv rho : R) (mom : vec) (rhoE : R) : prim :=
  let u := compute_velocity rho mom in
  let p := compute_pressure n gamma rhoE rho u in
  let T := compute_temperature n rhoE rho cv u in
  let h := cp * T in
  mkPrim u p T h (compute_total_enthalpy n rho h u) (compute_speed_of_sound gamma p rho)
         (compute_mach_number n gamma p rho u).
