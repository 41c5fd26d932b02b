(** Model of the thermophysical property evaluators (src/property_evaluator) and of the temperature extraction from enthalpy
    (src/EnthalpyEquationSystem.C).  Species are numbered 0..n-1 in the order of the std::map iteration; doubles are reals. *)
Require Import Reals List Bool.
From Verif Require Import Edge_Model.
Open Scope R_scope.

(** IdealGasPropertyEvaluator.C:43-49, 133-144, 166-172, 261-272, 295-301: mixture molecular weight *)
Definition mixture_mw (n : nat) (Y mw : nat -> R) : R := 1 / sumn n (fun k => Y k / mw k).
(** :68 and 114 and 187 and 243 and 318: pRef_*mwRef_/R_/T.  The five evaluators differ in which of P, T, Yk is a stored reference
    value (the constructor argument) and which is read at the node. *)
Definition ideal_PrefTYkref (pRef Ru : R) (n : nat) (Yref mw : nat -> R) (T : R) : R := pRef * mixture_mw n Yref mw / Ru / T.
Definition ideal_PrefTYk (pRef Ru : R) (n : nat) (mw : nat -> R) (Y : nat -> R) (T : R) : R := pRef * mixture_mw n Y mw / Ru / T.
Definition ideal_PTYkref (Ru : R) (n : nat) (Yref mw : nat -> R) (P T : R) : R := P * mixture_mw n Yref mw / Ru / T.
Definition ideal_PrefTrefYk (pRef tRef Ru : R) (n : nat) (mw : nat -> R) (Y : nat -> R) : R := pRef * mixture_mw n Y mw / Ru / tRef.
Definition ideal_PrefTrefYkref (pRef tRef Ru : R) (n : nat) (Yref mw : nat -> R) : R := pRef * mixture_mw n Yref mw / Ru / tRef.

(** SpecificHeatPropertyEvaluator.C:90-101 compute_cp_r *)
Definition cp_r (T : R) (p : nat -> R) : R := p 0%nat + p 1%nat*T + p 2%nat*T*T + p 3%nat*T*T*T + p 4%nat*T*T*T*T.
(** PolynomialPropertyEvaluator.C:34 TlowHigh_ *)
Definition TlowHigh : R := 1000.
(** SpecificHeatPropertyEvaluator.C:64-85 (reference Yk) and 140-165 (nodal Yk) *)
Definition specific_heat (n : nat) (Y mw : nat -> R) (lo hi : nat -> nat -> R) (Ru T : R) : R :=
  (if Rlt_dec T TlowHigh then sumn n (fun k => Y k * cp_r T (lo k) / mw k) else sumn n (fun k => Y k * cp_r T (hi k) / mw k)) * Ru.
(** EnthalpyPropertyEvaluator.C:91-103 compute_h_rt *)
Definition h_rt (T : R) (p : nat -> R) : R := p 0%nat + p 1%nat*T/2 + p 2%nat*T*T/3 + p 3%nat*T*T*T/4 + p 4%nat*T*T*T*T/5 + p 5%nat/T.
(** EnthalpyPropertyEvaluator.C:64-86 and 142-165 *)
Definition enthalpy (n : nat) (Y mw : nat -> R) (lo hi : nat -> nat -> R) (Ru T : R) : R :=
  (if Rlt_dec T TlowHigh then sumn n (fun k => Y k * h_rt T (lo k) / mw k) else sumn n (fun k => Y k * h_rt T (hi k) / mw k)) * Ru * T.
(** SpecificHeatPropertyEvaluator.C:216-231 and EnthalpyPropertyEvaluator.C:208-214, 269-284: constant specific heats *)
Definition specific_heat_const (n : nat) (Y cp : nat -> R) : R := sumn n (fun k => Y k * cp k).
Definition enthalpy_const_spec_heat (cp Tref T : R) : R := cp * (T - Tref).
Definition enthalpy_const (n : nat) (Y cp hf : nat -> R) (Tref T : R) : R := sumn n (fun k => Y k * (cp k * (T - Tref) + hf k)).

(** SutherlandsPropertyEvaluator.C:103-116 mole_fraction_from_mass_fraction *)
Definition mole_fraction (n : nat) (mw Y : nat -> R) (k : nat) : R := Y k / mw k / sumn n (fun k => Y k / mw k).
(** :121-132 compute_viscosity; std::pow is Rpower, which agrees with it for a positive base *)
Definition species_viscosity (T : R) (p : nat -> R) : R :=
  p 0%nat * Rpower (T / p 1%nat) (3/2) * (p 1%nat + p 2%nat) / (T + p 2%nat).
(** :160-178, 206-229, 258-281, 307-323 Herning and Zipperer; the four evaluators differ in the source of T and Yk *)
Definition sutherland_mu (n : nat) (mw Y : nat -> R) (p : nat -> nat -> R) (T : R) : R :=
  sumn n (fun k => species_viscosity T (p k) * mole_fraction n mw Y k * sqrt (mw k))
  / sumn n (fun k => mole_fraction n mw Y k * sqrt (mw k)).

(** LinearPropAlgorithm.C:59-61, InversePropAlgorithm.C:62-64, ThermalConductivityFromPrandtlPropAlgorithm.C:69,
    InverseDualVolumePropAlgorithm.C:61 *)
Definition linear_prop (primary secondary z : R) : R := z * primary + (1 - z) * secondary.
Definition inverse_prop (primary secondary z : R) : R := 1 / (z/primary + (1 - z)/secondary).
Definition conductivity_from_prandtl (cp mu Pr : R) : R := cp * mu / Pr.

(** WaterPropertyEvaluator.C:33-53, 73-94, 112-138, 148-199, 209-234 *)
Definition water_rho (T : R) : R := 76533/100 + T*(18142/10000 + T*(-35/10000)).
Definition water_mu (T : R) : R := 967/10000 + T*(-8207/10000000 + T*(2344/1000000000 + T*(-2244/1000000000000))).
Definition water_cp (T : R) : R :=
  (2807/100 + T*(-2817/10000 + T*(125/100000 + T*(-248/100000000 + T*(1857/1000000000000)))))*1000.
Definition water_h0 (T : R) : R :=
  T*(2807/100 + T*(-2817/10000/2 + T*(125/100000/3 + T*(-248/100000000/4 + T*(1857/1000000000000)/5))))*1000.
Definition water_Tref : R := 300.
Definition water_hRef : R :=
  (2807/100 + water_Tref*(-2817/10000 + water_Tref*(125/100000 + water_Tref*(-248/100000000 + water_Tref*(1857/1000000000000)))))*1000*water_Tref.
Definition water_h (T : R) : R := water_h0 T - water_h0 water_Tref + water_hRef.
Definition water_k (T : R) : R := -5752/10000 + T*(6397/1000000 + T*(-8151/1000000000)).

(** EnthalpyEquationSystem.C:1182-1302 extract_temperature at one node, for any enthalpy evaluator H and specific heat evaluator Cp.
    maxIter = 25, relax = 1.0, tolerance = 1.0e-8 (lines 1184-1188). *)
Section Extract.
Variables (H Cp : R -> R) (minT maxT : R).
Definition tolerance : R := 1/100000000.
(** lines 1235-1256: the iteration; the flag is convergedT *)
Fixpoint newton_T (fuel : nat) (h T : R) : R * bool :=
  match fuel with
  | O => (T, false)
  | S f => let tDiff := (h - H T) / Cp T in
           let T' := T + tDiff in
           if Rlt_dec (Rabs tDiff) (T' * tolerance) then (T', true) else newton_T f h T'
  end.
(** lines 1258-1290: result temperature, enthalpy and the trouble flag.  relax = 1: troubleT = TNp1*1 + 0*Tsave. *)
Record node_T := mkT { nT : R; nh : R; trouble : bool }.
Definition extract_temperature (h Tsave : R) : node_T :=
  let '(T, converged) := newton_T 25 h Tsave in
  let trouble0 := negb converged in
  let '(T1, trouble1) := if Rlt_dec T minT then (minT, true) else (T, trouble0) in
  let '(T2, trouble2) := if Rgt_dec T1 maxT then (maxT, true) else (T1, trouble1) in
  if trouble2 then let troubleT := T2 * 1 + (1 - 1) * Tsave in mkT troubleT (H troubleT) true
  else mkT T2 h false.
End Extract.
