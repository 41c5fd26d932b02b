(** Choosing the evaluators of the material properties: Realm.C 1023-1560 (setup_property), MaterialProperty.C 413-434
    (extract_universal_constant), MaterialPropertys.C 50-92, HDF5FilePtr use at Realm.C 1484-1487.
    Part lookup, output and the table's auxiliary variable (1501-1520) are left out; propertyEvalMap_[ENTHALPY_ID], kept per block there, is recorded per target; a property is its number in Enums.h 110-122 (0 density, 1 viscosity, 2 specific heat, 5 enthalpy,
    10 gamma); species are in the order of the block's map (by name), a species being (molecular weight, reference mass fraction). *)
From Coq Require Import Reals List Bool String Lra.
From Verif Require Import Prop_Model.
Import ListNotations.
Open Scope R_scope.

(** what a specification asks for: MaterialProperty.C 118-405. A constant: value (0 when only species constants are given), species heats, heats of formation *)
Inductive spec :=
| SConst (v : R) (cpk hfk : list R) | SMix (primary secondary : R) | SVof (one two : R) | SPoly (poly low high : nat -> nat -> R)
| SIdeal | SGeom | STable | SGeneric (name : string).
Record block := mkBlock { b_targets : list string; b_spec : nat -> option spec; b_T : option R; b_p : option R; b_R : option R; b_species : list (R * R); b_table : string }.
Record flags := mkFlags { uniform : bool; isothermal : bool; needsH : bool; gasDyn : bool; acoustic : bool }.
(** Realm.C 1027-1029: declared before the loop over the blocks *)
Record refs := mkRefs { pRef : R; tRef : R; Ru : R }.
Definition refs0 := mkRefs 101325 298.15 8314.4621.
(** extract_universal_constant with useDefault: overwritten when given, else left as it stands *)
Definition get_T (b : block) (r : refs) : refs := match b_T b with Some v => mkRefs (pRef r) v (Ru r) | None => r end.
Definition get_p (b : block) (r : refs) : refs := match b_p b with Some v => mkRefs v (tRef r) (Ru r) | None => r end.
Definition get_R (b : block) (r : refs) : refs := match b_R b with Some v => mkRefs (pRef r) (tRef r) v | None => r end.

Inductive evaluator :=
| EConst (v : R) | ECpk (cpk : list R) | EInverse (p s : R) | ELinearZ (p s : R) | ELinearVof (a b : R)
| ESutherland (ref : bool) (T : option R) (poly : nat -> nat -> R) (sp : list (R * R)) | ECpPoly (ref : bool) (low high : nat -> nat -> R) (R_ : R) (sp : list (R * R))
| ERho_PrefTrefYkref (p t r : R) (sp : list (R * R)) | ERho_PTYkref (r : R) (sp : list (R * R)) | ERho_PrefTYkref (p r : R) (sp : list (R * R))
| ERho_PrefTrefYk (p t r : R) (sp : list (R * R)) | ERho_PrefTYk (p r : R) (sp : list (R * R))
| EGeom | ETable (file : string) | EWater (name : string).
Inductive enthalpy_of := HConst (cp t : R) | HCpk (cpk hfk : list R) (t : R) | HPoly (ref : bool) (low high : nat -> nat -> R) (R_ : R) (sp : list (R * R)) | HWater.
(** the field an algorithm fills: a property's field, or the specific heat at constant volume *)
Inductive fld := F (p : nat) | FCv.
Record state := mkSt { s_refs : refs; s_file : option string; s_regs : list (string * fld * evaluator); s_h : list (string * enthalpy_of) }.
Definition state0 := mkSt refs0 None [] [].

Definition mw_ (sp : list (R * R)) (k : nat) : R := fst (nth k sp (0, 0)).
Definition yref (sp : list (R * R)) (k : nat) : R := snd (nth k sp (0, 0)).
Definition put (t : string) (r : refs) (fl : option string) (l : list (fld * evaluator)) (h : option enthalpy_of) (s : state) : state :=
  mkSt r fl (s_regs s ++ map (fun fe => (t, fst fe, snd fe)) l) (match h with Some x => s_h s ++ [(t, x)] | None => s_h s end).
Definition is_nil {A} (l : list A) : bool := match l with [] => true | _ => false end.
Definition water_names : list string := ["water_viscosity_T"; "water_density_T"; "water_specific_heat_T"; "water_thermal_conductivity_T"]%string.
(** one property of one target: the body of the loop, 1046-1556; None is a thrown exception *)
Definition step (fl : flags) (b : block) (t : string) (s : state) (p : nat) : option state :=
  let r := s_refs s in let f := s_file s in
  match b_spec b p with
  | None => None
  | Some (SConst v cpk hfk) =>
    if (Nat.eqb p 2 && needsH fl)%bool then
      let r1 := get_T b r in
      if negb (is_nil cpk) then (if uniform fl then None else Some (put t r1 f [(F p, ECpk cpk)] (Some (HCpk cpk hfk (tRef r1))) s))
      else Some (put t r1 f [(F p, EConst v)] (Some (HConst v (tRef r1))) s)
    else if Nat.eqb p 10 then
      if negb (gasDyn fl) then None else if negb (is_nil cpk) then None else if negb (acoustic fl) then None else
      let r1 := get_R b (get_T b r) in
      let m := mixture_mw (List.length (b_species b)) (yref (b_species b)) (mw_ (b_species b)) in
      let cp := v * Ru r1 / m / (v - 1) in let cv := Ru r1 / m / (v - 1) in
      Some (put t r1 f [(F p, EConst v); (F 2, EConst cp); (FCv, EConst cv)] (Some (HConst cp (tRef r1))) s)
    else Some (put t r f [(F p, EConst v)] None s)
  | Some (SMix a c) => Some (put t r f [(F p, if Nat.eqb p 0 then EInverse a c else ELinearZ a c)] None s)
  | Some (SVof a c) => Some (put t r f [(F p, ELinearVof a c)] None s)
  | Some (SPoly poly low high) =>
    match p with
    | 1%nat => let r1 := if isothermal fl then get_T b r else r in
               Some (put t r1 f [(F p, ESutherland (uniform fl) (if isothermal fl then Some (tRef r1) else None) poly (b_species b))] None s)
    | 5%nat => Some (put t r f [] None s)
    | 2%nat => let r1 := get_R b r in
               Some (put t r1 f [(F p, ECpPoly (uniform fl) low high (Ru r1) (b_species b))] (Some (HPoly (uniform fl) low high (Ru r1) (b_species b))) s)
    | _ => None end
  | Some SIdeal =>
    if Nat.eqb p 0 then
      let r1 := get_R b r in
      let sp := b_species b in
      let reg r e := Some (put t r f (if gasDyn fl then [] else [(F p, e)]) None s) in
      if uniform fl then
        if isothermal fl then let r2 := get_T b (get_p b r1) in reg r2 (ERho_PrefTrefYkref (pRef r2) (tRef r2) (Ru r2) sp)
        else if acoustic fl then reg r1 (ERho_PTYkref (Ru r1) sp)
        else let r2 := get_p b r1 in reg r2 (ERho_PrefTYkref (pRef r2) (Ru r2) sp)
      else if isothermal fl then
        if acoustic fl then None else let r2 := get_T b (get_p b r1) in reg r2 (ERho_PrefTrefYk (pRef r2) (tRef r2) (Ru r2) sp)
      else if acoustic fl then None
      else let r2 := get_p b r1 in reg r2 (ERho_PrefTYk (pRef r2) (Ru r2) sp)
    else None
  | Some SGeom => Some (put t r f [(F p, EGeom)] None s)
  | Some STable => let file := match f with Some x => x | None => b_table b end in Some (put t r (Some file) [(F p, ETable file)] None s)
  | Some (SGeneric nm) =>
    if existsb (String.eqb nm) water_names then Some (put t r f [(F p, EWater nm)] (if String.eqb nm "water_specific_heat_T" then Some HWater else None) s) else None
  end.
Fixpoint foldo {A S} (f : S -> A -> option S) (l : list A) (s : S) : option S :=
  match l with [] => Some s | x :: r => match f s x with Some s' => foldo f r s' | None => None end end.
(** the three loops, 1032-1048; pm is the realm's property map, in increasing order *)
Definition on_target (fl : flags) (pm : list nat) (b : block) (s : state) (t : string) : option state := foldo (step fl b t) pm s.
Definition on_block (fl : flags) (pm : list nat) (s : state) (b : block) : option state := foldo (on_target fl pm b) (b_targets b) s.
Definition setup (fl : flags) (pm : list nat) (bs : list block) : option state := foldo (on_block fl pm) bs state0.

(** what an evaluator gives at a node: the property algorithms with the evaluators of Prop_Model; n_scale is the smallest dual volume of the
    mesh or 1 (InverseDualVolumePropAlgorithm.C 42-44, 63) *)
Record node := mkNode { n_p : R; n_T : R; n_Y : nat -> R; n_Z : R; n_vof : R; n_vol : R; n_scale : R }.
Section Value.
Variable tab : string -> node -> R.
Definition value (e : evaluator) (n : node) : R :=
  match e with
  | EConst v => v | ECpk cpk => specific_heat_const (List.length cpk) (n_Y n) (fun k => nth k cpk 0)
  | EInverse a c => inverse_prop a c (n_Z n) | ELinearZ a c => linear_prop a c (n_Z n) | ELinearVof a c => linear_prop a c (n_vof n)
  | ESutherland ref t poly sp => sutherland_mu (List.length sp) (mw_ sp) (if ref then yref sp else n_Y n) poly (match t with Some x => x | None => n_T n end)
  | ECpPoly ref low high r sp => specific_heat (List.length sp) (if ref then yref sp else n_Y n) (mw_ sp) low high r (n_T n)
  | ERho_PrefTrefYkref p t r sp => ideal_PrefTrefYkref p t r (List.length sp) (yref sp) (mw_ sp)
  | ERho_PTYkref r sp => ideal_PTYkref r (List.length sp) (yref sp) (mw_ sp) (n_p n) (n_T n)
  | ERho_PrefTYkref p r sp => ideal_PrefTYkref p r (List.length sp) (yref sp) (mw_ sp) (n_T n)
  | ERho_PrefTrefYk p t r sp => ideal_PrefTrefYk p t r (List.length sp) (mw_ sp) (n_Y n)
  | ERho_PrefTYk p r sp => ideal_PrefTYk p r (List.length sp) (mw_ sp) (n_Y n) (n_T n)
  | EGeom => n_scale n / n_vol n
  | ETable f => tab f n
  | EWater nm => if String.eqb nm "water_viscosity_T" then water_mu (n_T n) else if String.eqb nm "water_density_T" then water_rho (n_T n)
                 else if String.eqb nm "water_specific_heat_T" then water_cp (n_T n) else water_k (n_T n)
  end.
End Value.

(** the enthalpy evaluators registered beside them, as functions of the temperature: EnthalpyPropertyEvaluator.C, WaterPropertyEvaluator.C *)
Definition hvalue (h : enthalpy_of) (n : node) (T : R) : R :=
  match h with
  | HConst cp t => enthalpy_const_spec_heat cp t T
  | HCpk cpk hfk t => enthalpy_const (List.length cpk) (n_Y n) (fun k => nth k cpk 0) (fun k => nth k hfk 0) t T
  | HPoly ref low high r sp => enthalpy (List.length sp) (if ref then yref sp else n_Y n) (mw_ sp) low high r T
  | HWater => water_h T
  end.
