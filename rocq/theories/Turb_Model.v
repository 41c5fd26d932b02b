(** * Turbulence closures: eddy viscosities, blending, sources, clipping

    Files: src/TurbVisc{SST,Smagorinsky,Wale,Ksgs,KEpsilon}Algorithm.C, src/ShearStressTransportEquationSystem.C,
    src/Effective{SST,}DiffFluxCoeffAlgorithm.C, src/TurbKineticEnergy{SST,SSTDES,Ksgs,KEpsilon}NodeSourceSuppAlg.C,
    src/SpecificDissipationRateSST{,DES}NodeSourceSuppAlg.C, src/TurbDissipationKEpsilonNodeSourceSuppAlg.C,
    src/kernel/TurbKineticEnergy{SST,Ksgs,KEpsilon}SrcElemKernel.C,
    src/kernel/SpecificDissipationRateSSTSrcElemKernel.C, src/kernel/TurbDissipationKEpsilonSrcElemKernel.C,
    src/TurbKineticEnergyEquationSystem.C.
    Simplifications: real arithmetic; one node (or one element) at a time, which is how the loops work;
    decimal literals are exact rationals. [g i j] is dudx[nDim*i+j]. *)
From Coq Require Import Reals List Bool Arith.
From Verif Require Import Edge_Model Elem_Model.
Import ListNotations.
Local Open Scope R_scope.

(** C's pow for a non-negative base and positive exponent (Coq's Rpower 0 y is 1) *)
Definition cpow (x y : R) : R := if Req_EM_T x 0 then 0 else Rpower x y.

Definition mat := nat -> nat -> R.

(** TurbViscSSTAlgorithm.C 92-101, TurbViscSmagorinskyAlgorithm.C 84-93 *)
Definition sij (g : mat) : mat := fun i j => (1/2) * (g i j + g j i).
Definition sijMag (n : nat) (g : mat) : R := sqrt (2 * sumn n (fun i => sumn n (fun j => sij g i j * sij g i j))).

(** TurbViscSSTAlgorithm.C 103-110 *)
Record sst_in := mkSst { s_rho : R; s_mu : R; s_tke : R; s_sdr : R; s_d : R }.
Definition trbDiss (betaStar : R) (s : sst_in) : R := sqrt (s_tke s) / betaStar / s_sdr s / s_d s.
Definition lamDiss (s : sst_in) : R := 500 * s_mu s / s_rho s / s_sdr s / (s_d s * s_d s).
Definition fTwo (betaStar : R) (s : sst_in) : R :=
  let a := Rmax (2 * trbDiss betaStar s) (lamDiss s) in tanh (a * a).
Definition tvisc_sst (n : nat) (aOne betaStar : R) (s : sst_in) (g : mat) : R :=
  aOne * s_rho s * s_tke s / Rmax (aOne * s_sdr s) (sijMag n g * fTwo betaStar s).

(** ShearStressTransportEquationSystem.C 522-540 *)
Definition fOne (betaStar sigmaWTwo : R) (n : nat) (s : sst_in) (dk dw : vec) : R :=
  let crossDiff := sumn n (fun j => dk j * dw j) in
  let CDkw := Rmax (2 * s_rho s * sigmaWTwo * crossDiff / s_sdr s) (1/10^10) in
  let a := Rmin (Rmax (trbDiss betaStar s) (lamDiss s)) (4 * s_rho s * sigmaWTwo * s_tke s / CDkw / (s_d s * s_d s)) in
  tanh (a * a * a * a).

(** EffectiveSSTDiffFluxCoeffAlgorithm.C 78-81; EffectiveDiffFluxCoeffAlgorithm.C (turbulent branch) *)
Definition evisc_sst (s1 s2 f mu mut : R) : R := mu + mut * (f * s1 + (1 - f) * s2).
Definition evisc (sLam sTurb mu mut : R) : R := mu * (1 / sLam) + mut * (1 / sTurb).

(** TurbViscSmagorinskyAlgorithm.C 95-96 *)
Definition filter_of (n : nat) (vol : R) : R := cpow vol (1 / INR n).
Definition tvisc_smag (n : nat) (cs rho vol : R) (g : mat) : R :=
  cs * cs * rho * filter_of n vol * filter_of n vol * sijMag n g.

(** TurbViscWaleAlgorithm.C 92-126 *)
Definition gsq (n : nat) (g : mat) : mat := fun i j => sumn n (fun l => g i l * g l j).
Definition gkkSq (n : nat) (g : mat) : R := sumn n (fun m => sumn n (fun k => g m k * g k m)).
Definition kd (i j : nat) : R := if Nat.eqb i j then 1 else 0.
Definition sijd (n : nat) (g : mat) : mat := fun i j => (1/2) * (gsq n g i j + gsq n g j i) - kd i j / 3 * gkkSq n g.
Definition frob2 (n : nat) (m : mat) : R := sumn n (fun i => sumn n (fun j => m i j * m i j)).
Definition tvisc_wale (n : nat) (cw rho vol : R) (g : mat) : R :=
  let small := 1 / 10^8 in
  let S := frob2 n (sij g) in
  let Sd := frob2 n (sijd n g) in
  let Ls := cw * filter_of n vol in
  let numer := cpow Sd (3/2) + small * small in
  let denom := cpow S (5/2) + cpow Sd (5/4) + small in
  rho * Ls * Ls * numer / denom.

(** TurbViscKsgsAlgorithm.C 109-121; [lr] is lrksgsfac_ (1 for the low-Reynolds form, else 0) *)
Definition fmu_ksgs (lr cEps mu rho tke filter dist dsqrtkSq : R) : R :=
  let dsq := lr * dsqrtkSq in
  let md := lr * dist in
  let nu := mu / rho in
  let eps := lr * (cEps * cpow tke (3/2) / filter + 2 * nu * dsq) in
  let upeps := cpow (nu * eps) (1/4) * sqrt (4 * md / filter) in
  let ypeps := md * upeps / nu in
  lr * (1 - exp (- cpow (cpow (ypeps / 20) (2/3)) 2)) + (1 - lr).
Definition tvisc_ksgs (n : nat) (lr cmuEps cEps mu rho tke vol dist dsqrtkSq : R) : R :=
  let filter := filter_of n vol in
  fmu_ksgs lr cEps mu rho tke filter dist dsqrtkSq * cmuEps * rho * sqrt tke * filter.

(** TurbViscKEpsilonAlgorithm.C 76 *)
Definition tvisc_keps (cmu rho tke eps : R) : R := cmu * rho * tke * tke / (eps + 1/10^16).

(* ------------------------------------------------------------------ sources *)
(** the double loop computing Pk in every source (e.g. TurbKineticEnergySSTNodeSourceSuppAlg.C 85-92) *)
Definition prod2 (n : nat) (g : mat) : R := sumn n (fun i => sumn n (fun j => g i j * (g i j + g j i))).
(** [if ( Pk > tkeProdLimitRatio_*Dk ) Pk = tkeProdLimitRatio_*Dk], also written as min in the kernels *)
Definition limited (ratio P D : R) : R := if Rlt_dec (ratio * D) P then ratio * D else P.

(** a nodal source: what is added to (lhs[0], rhs[0]) *)
Definition nsrc := (R * R)%type.

(** TurbKineticEnergySSTNodeSourceSuppAlg.C 84-101 *)
Definition src_tke_sst (n : nat) (ratio betaStar rho tke sdr mut vol : R) (g : mat) : nsrc :=
  let Dk := betaStar * rho * sdr * tke in
  let Pk := limited ratio (prod2 n g * mut) Dk in
  (betaStar * rho * sdr * vol, (Pk - Dk) * vol).

(** SpecificDissipationRateSSTNodeSourceSuppAlg.C 93-124 *)
Record sst_c := mkSC { c_ratio : R; c_bs : R; c_b1 : R; c_b2 : R; c_g1 : R; c_g2 : R; c_sw2 : R }.
Definition src_sdr (c : sst_c) (n : nat) (f rho sdr mut vol Dk : R) (g : mat) (dk dw : vec) : nsrc :=
  let Pk := limited (c_ratio c) (prod2 n g * mut) Dk in
  let cross := sumn n (fun i => dk i * dw i) in
  let beta := f * c_b1 c + (1 - f) * c_b2 c in
  let gamma := f * c_g1 c + (1 - f) * c_g2 c in
  let sigmaD := 2 * (1 - f) * c_sw2 c in
  let Pw := gamma * rho * Pk / Rmax mut (1/10^16) in
  let Dw := beta * rho * sdr * sdr in
  let Sw := sigmaD * rho * cross / sdr in
  ((2 * beta * rho * sdr + Rmax (Sw / sdr) 0) * vol, (Pw - Dw + Sw) * vol).
Definition src_sdr_sst (c : sst_c) (n : nat) (f rho tke sdr mut vol : R) (g : mat) (dk dw : vec) : nsrc :=
  src_sdr c n f rho sdr mut vol (c_bs c * rho * sdr * tke) g dk dw.

(** TurbKineticEnergySSTDESNodeSourceSuppAlg.C 99-116; SpecificDissipationRateSSTDESNodeSourceSuppAlg.C 109-141 *)
Definition l_des (betaStar cDESkw cDESke f tke sdr lmax : R) : R :=
  let cDES := f * cDESkw + (1 - f) * cDESke in
  let lSST := sqrt tke / betaStar / sdr in
  Rmax (1/10^16) (Rmin lSST (cDES * lmax)).
Definition src_tke_des (n : nat) (ratio betaStar cDESkw cDESke f rho tke sdr mut lmax vol : R) (g : mat) : nsrc :=
  let l := l_des betaStar cDESkw cDESke f tke sdr lmax in
  let Dk := rho * tke * sqrt tke / l in
  let Pk := limited ratio (prod2 n g * mut) Dk in
  (1.5 * rho / l * sqrt tke * vol, (Pk - Dk) * vol).
Definition src_sdr_des (c : sst_c) (n : nat) (cDESkw cDESke f rho tke sdr mut lmax vol : R) (g : mat) (dk dw : vec) : nsrc :=
  let l := l_des (c_bs c) cDESkw cDESke f tke sdr lmax in
  src_sdr c n f rho sdr mut vol (rho * tke * sqrt tke / l) g dk dw.

(** TurbKineticEnergyKsgsNodeSourceSuppAlg.C *)
Definition src_ksgs (n : nat) (ratio lr cEps rho tke mu mut dsqrtkSq vol : R) (g : mat) : nsrc :=
  let filter := filter_of n vol in
  let Dk := cEps * rho * cpow tke (3/2) / filter + lr * 2 * mu * dsqrtkSq in
  let Pk := limited ratio (prod2 n g * mut) Dk in
  (1.5 * cEps * rho * sqrt tke / filter * vol, (Pk - Dk) * vol).

(** TurbKineticEnergyKEpsilonNodeSourceSuppAlg.C, TurbDissipationKEpsilonNodeSourceSuppAlg.C;
    [inc] is includeDivU_, [tiny] is numeric_limits<double>::min() *)
Definition tiny : R := / 2 ^ 1022.
Definition prod_keps (n : nat) (inc rho tke mut : R) (g : mat) : R :=
  let divU := sumn n (fun i => g i i * inc) in
  Rmax 0 (mut * (prod2 n g - 2/3 * divU * divU) - 2/3 * rho * tke * divU).
Definition src_tke_keps (n : nat) (ratio inc rho tke eps mut vol : R) (g : mat) : nsrc :=
  let tkeC := Rmax tiny tke in
  let Dk := rho * eps in
  let Pk := limited ratio (prod_keps n inc rho tke mut g) Dk in
  (rho * eps / tkeC * vol, (Pk - Dk) * vol).
Definition src_eps_keps (n : nat) (ratio inc ce1 ce2 rho tke eps mut vol : R) (g : mat) : nsrc :=
  let tkeC := Rmax tiny tke in
  let Dk := rho * eps in
  let Pk := limited ratio (prod_keps n inc rho tke mut g) Dk in
  (ce2 * rho * eps / tkeC * vol, eps / tkeC * (ce1 * Pk - ce2 * Dk) * vol).

(* ------------------------------------------------------------------ element kernels *)
(** velocity gradient at a sub-control-volume point: w_dudx[i][j], from dndx_scv [dv ip ic j] *)
Definition gradv (m : me) (dv : nat -> nat -> nat -> R) (u : nat -> nat -> R) (ip : nat) : mat :=
  fun i j => sumn (npe m) (fun ic => dv ip ic j * u ic i).
Definition gradsc (m : me) (dv : nat -> nat -> nat -> R) (q : nat -> R) (ip : nat) : vec :=
  fun j => sumn (npe m) (fun ic => dv ip ic j * q ic).

(** consistent assembly of a point source: rhs at the nearest node, lhs spread by the shape functions *)
Definition consistent (m : me) (src : nat -> nsrc) (s0 : esys) : esys :=
  loop (nscv m) (fun ip s =>
    let nn := nearest m ip in
    let s := addB nn (snd (src ip)) s in
    loop (npe m) (fun ic s => addL nn ic (Nv m ip ic * fst (src ip)) s) s) s0.
(** lumped assembly *)
Definition lumpedk (m : me) (src : nat -> nsrc) (s0 : esys) : esys :=
  loop (nscv m) (fun ip s =>
    let nn := nearest m ip in
    addL nn nn (fst (src ip)) (addB nn (snd (src ip)) s)) s0.

(** TurbKineticEnergySSTSrcElemKernel.C 106-160 *)
Definition k_tke_sst (m : me) (dv : nat -> nat -> nat -> R) (ratio betaStar : R) (rho tke sdr mut : nat -> R) (u : nat -> nat -> R) (s : esys) : esys :=
  consistent m (fun ip => src_tke_sst (ndim m) ratio betaStar (at_scv m rho ip) (at_scv m tke ip) (at_scv m sdr ip) (at_scv m mut ip)
                            (Elem_Model.vol m ip) (gradv m dv u ip)) s.
(** SpecificDissipationRateSSTSrcElemKernel.C 118-200 *)
Definition k_sdr_sst (m : me) (dv : nat -> nat -> nat -> R) (c : sst_c) (f rho tke sdr mut : nat -> R) (u : nat -> nat -> R) (s : esys) : esys :=
  consistent m (fun ip => src_sdr_sst c (ndim m) (at_scv m f ip) (at_scv m rho ip) (at_scv m tke ip) (at_scv m sdr ip) (at_scv m mut ip)
                            (Elem_Model.vol m ip) (gradv m dv u ip) (gradsc m dv tke ip) (gradsc m dv sdr ip)) s.
(** TurbKineticEnergyKEpsilonSrcElemKernel.C, TurbDissipationKEpsilonSrcElemKernel.C *)
Definition k_tke_keps (m : me) (dv : nat -> nat -> nat -> R) (ratio inc : R) (rho tke eps mut : nat -> R) (u : nat -> nat -> R) (s : esys) : esys :=
  consistent m (fun ip => src_tke_keps (ndim m) ratio inc (at_scv m rho ip) (at_scv m tke ip) (at_scv m eps ip) (at_scv m mut ip)
                            (Elem_Model.vol m ip) (gradv m dv u ip)) s.
Definition k_eps_keps (m : me) (dv : nat -> nat -> nat -> R) (ratio inc ce1 ce2 : R) (rho tke eps mut : nat -> R) (u : nat -> nat -> R) (s : esys) : esys :=
  consistent m (fun ip => src_eps_keps (ndim m) ratio inc ce1 ce2 (at_scv m rho ip) (at_scv m tke ip) (at_scv m eps ip) (at_scv m mut ip)
                            (Elem_Model.vol m ip) (gradv m dv u ip)) s.
(** TurbKineticEnergyKsgsSrcElemKernel.C 108-142: nodal quantities, 2-D and 3-D forms of the filter *)
Definition ksgs_fac (n : nat) (cEps rho tke dualVol : R) : R :=
  if Nat.eqb n 2 then cEps * rho * sqrt (tke / dualVol) else cEps * rho * sqrt tke / cpow dualVol (1/3).
Definition k_ksgs (m : me) (ratio lr : R) (cEps rho tke mu mut dsq dualVol : nat -> R) (G : nat -> mat) (s : esys) : esys :=
  lumpedk m (fun ip =>
    let a := nearest m ip in
    let fac := ksgs_fac (ndim m) (cEps a) (rho a) (tke a) (dualVol a) in
    let Dk := fac * tke a + lr * 2 * mu a * dsq a in
    let Pk := limited ratio (prod2 (ndim m) (G a) * mut a) Dk in
    (1.5 * fac * Elem_Model.vol m ip, (Pk - Dk) * Elem_Model.vol m ip)) s.

(* ------------------------------------------------------------------ clipping *)
(** ShearStressTransportEquationSystem.C 224-229, 257-279: (tke, sdr) *)
Definition sst_initial (rho mu tke sdr : R) : R * R :=
  let clip := 1 / 10^8 in
  if Rle_dec 0 tke then
    if Rlt_dec 0 sdr then (tke, sdr) else (tke, rho * tke / mu)
  else if Rlt_dec sdr 0 then (clip, rho * clip / mu)
  else (mu * sdr / rho, sdr).
(** 326-354: (tke, sdr, tvisc) from the old values, the increments and the old viscosity *)
Definition sst_update (rho mu tke sdr dk dw mut : R) : R * R * R :=
  let clip := 1 / 10^8 in
  let k := tke + dk in let w := sdr + dw in
  if Rle_dec 0 k then
    if Rlt_dec 0 w then (k, w, mut) else (k, rho * k / mu, mu)
  else if Rlt_dec w 0 then (clip, rho * clip / mu, mu)
  else (mu * w / rho, w, mu).
(** TurbKineticEnergyEquationSystem.C 1640-1649 *)
Definition tke_update (tke dk : R) : R := if Rlt_dec (tke + dk) 0 then 1 / 10^16 else tke + dk.
