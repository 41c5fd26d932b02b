(** * Reading boundary conditions, initial conditions, material property names and solver blocks from the input file

    Files: src/NaluParsing.C, include/NaluParsing.h (constructors), src/BoundaryConditions.C, include/BoundaryConditions.h,
    src/InitialConditions.C, src/Realm.C (setup_initial_conditions), src/HeatCondEquationSystem.C (register_wall_bc),
    src/EquationSystem.C (bc_data_specified, get_bc_data_type, get_bc_function_name), src/LinearSolvers.C, src/MaterialProperty.C.
    Simplifications: the members of a user-data struct are a map from member name to value; a flag that the constructor
    leaves uninitialised is absent from its map; an exception is [None]; yaml nodes and conversions as in Opt_Model.
    A sequence of "if (node[key])" statements is a list of entries read in the order of the code. *)
From Coq Require Import Reals List Bool String Arith ZArith.
From Coq Require Ascii.
From Verif Require Import Opt_Model.
Import ListNotations.
Open Scope string_scope.

Inductive val := VR (r : R) | VB (b : bool) | V3 (x y z : R) | VL (l : list R) | VS (s : string) | VLS (l : list string) | VI (z : Z).
Inductive kind := KVel | KNum | KDbl | KBool | KSeq | KStr | KStrs | KInt.
Inductive ud := CONSTANT_UD | FUNCTION_UD.
(** UserData and its derived structs, NaluParsing.h 149-330 *)
Record udata := mkU { mem : smap val; flg : smap bool; spc : smap bool; typ : smap ud; fn : smap string; par : smap (list R); spar : smap (list string) }.
(** e_test: key of the condition, e_key: key that is read, e_map: recorded in bcDataSpecifiedMap_ and bcDataTypeMap_,
    e_req: absence throws *)
Record entry := mkE { e_test : string; e_key : string; e_kind : kind; e_mem : string; e_flag : option string; e_map : bool; e_req : bool }.

Section Load.
Variables (as_d : yaml -> option R) (as_b : yaml -> option bool) (as_s : yaml -> option string) (as_i : yaml -> option Z).

(** NaluParsing.C 499-765 (decode of the data types) *)
Definition conv (k : kind) (y : yaml) : option val :=
  match k with
  | KVel => match y with
            | YSeq (a :: b :: r) => match as_d a, as_d b with
                | Some x, Some y => match r with [] => Some (V3 x y 0%R) | c :: _ => option_map (V3 x y) (as_d c) end
                | _, _ => None end
            | _ => None end
  | KNum => match y with YScalar _ => option_map VR (as_d y) | _ => None end
  | KDbl => option_map VR (as_d y)
  | KBool => option_map VB (as_b y)
  | KSeq => match y with YSeq l => option_map VL (conv_list as_d l) | _ => None end
  | KStr => option_map VS (as_s y)
  | KStrs => match y with YScalar _ => option_map (fun s => VLS [s]) (as_s y) | YSeq l => option_map VLS (conv_list as_s l) | _ => None end
  | KInt => option_map VI (as_i y)
  end.
Definition set_entry (e : entry) (q : val) (u : udata) : udata :=
  mkU (upd (mem u) (e_mem e) q) (match e_flag e with Some f => upd (flg u) f true | None => flg u end)
      (if e_map e then upd (spc u) (e_key e) true else spc u) (if e_map e then upd (typ u) (e_key e) CONSTANT_UD else typ u)
      (fn u) (par u) (spar u).
Definition load_entry (y : yaml) (e : entry) (u : udata) : option udata :=
  match yget (e_test e) y with
  | None => if e_req e then None else Some u
  | Some _ => match yget (e_key e) y with
              | None => None
              | Some v => option_map (fun q => set_entry e q u) (conv (e_kind e) v)
              end
  end.
Fixpoint load_entries (y : yaml) (l : list entry) (u : udata) : option udata :=
  match l with [] => Some u | e :: r => match load_entry y e u with Some u' => load_entries y r u' | None => None end end.

(** NaluParsing.C 918-955 (wall) and 1017-1052 (inflow): user functions *)
Fixpoint load_fns (kvs : list (string * yaml)) (u : udata) : option udata :=
  match kvs with
  | [] => Some u
  | (k, v) :: r => match as_s v with
      | Some s => load_fns r (mkU (mem u) (flg u) (upd (spc u) k true) (upd (typ u) k FUNCTION_UD) (upd (fn u) k s) (par u) (spar u))
      | None => None end
  end.
Definition dvec (y : yaml) : option (list R) := match y with YSeq l => conv_list as_d l | _ => None end.
Definition load_functions (y : yaml) (u : udata) : option udata :=
  match yget "user_function_name" y with
  | None => Some u
  | Some (YMap kvs) =>
      match load_fns kvs u with
      | None => None
      | Some u => match (match yget "user_function_parameters" y with
                         | None => Some u
                         | Some (YMap p) => option_map (fun m => mkU (mem u) (flg u) (spc u) (typ u) (fn u) m (spar u)) (read_map dvec p sempty)
                         | Some _ => None end) with
          | None => None
          | Some u => match yget "user_function_string_parameters" y with
                      | None => Some u
                      | Some (YMap p) => option_map (fun m => mkU (mem u) (flg u) (spc u) (typ u) (fn u) (par u) m) (read_vmap as_s p sempty)
                      | Some _ => None end
          end
      end
  | Some _ => None
  end.

Definition ent (k : string) (c : kind) (m : string) : entry := mkE k k c m None false false.
Definition entf (k : string) (c : kind) (m f : string) : entry := mkE k k c m (Some f) false false.
Definition entm (k : string) (c : kind) (m : string) : entry := mkE k k c m None true false.
Definition entr (k : string) (c : kind) (m : string) : entry := mkE k k c m None false true.
Definition of_list {V} (l : list (string * V)) : smap V := fun k => match find (fun e => String.eqb (fst e) k) l with Some e => Some (snd e) | None => None end.

(** WallUserData: constructor NaluParsing.h 208-226 (emissSpec_ is not initialised), decode NaluParsing.C 767-959 *)
Definition wall0 : udata := mkU
  (of_list [("u_", V3 0 0 0); ("dx_", V3 0 0 0); ("tke_", VR 0); ("temperature_", VR 0); ("mixFrac_", VR 0); ("massFraction_", VL []); ("vof_", VR 0);
            ("emissivity_", VR 1); ("transmissivity_", VR 0); ("environmentalT_", VR 298); ("isAdiabatic_", VB false); ("isInterface_", VB false);
            ("externalData_", VB false); ("ppHeatFlux_", VB false); ("referenceTemperature_", VR 298); ("heatTransferCoefficient_", VR 0);
            ("irradiation_", VR 1); ("robinCouplingParameter_", VR 0); ("wallFunctionApproach_", VB false); ("wallFunctionProjectedApproach_", VB false);
            ("neumann_", VB false); ("projectedDistance_", VR 1); ("projectedDistanceOde_", VB false); ("pressure_", VR 0); ("isFsiInterface_", VB false);
            ("q_", VR 0)]%R)
  (of_list [("tempSpec_", false); ("heatFluxSpec_", false); ("refTempSpec_", false); ("htcSpec_", false); ("robinParameterSpec_", false); ("irradSpec_", false)])
  sempty sempty sempty sempty sempty.
Definition wall_entries : list entry :=
  [entm "velocity" KVel "u_"; entm "mesh_displacement" KVel "dx_"; entm "turbulent_ke" KNum "tke_";
   mkE "temperature" "temperature" KNum "temperature_" (Some "tempSpec_") true false;
   entm "mixture_fraction" KNum "mixFrac_"; entm "mass_fraction" KSeq "massFraction_"; entm "volume_of_fluid" KNum "vof_";
   entf "emissivity" KNum "emissivity_" "emissSpec_"; ent "transmissivity" KNum "transmissivity_"; ent "environmental_temperature" KNum "environmentalT_";
   ent "adiabatic" KBool "isAdiabatic_"; ent "interface" KBool "isInterface_"; ent "external_data" KBool "externalData_";
   ent "post_process_heat_flux" KBool "ppHeatFlux_"; entf "reference_temperature" KNum "referenceTemperature_" "refTempSpec_";
   entf "heat_transfer_coefficient" KNum "heatTransferCoefficient_" "htcSpec_"; entf "irradiation" KNum "irradiation_" "irradSpec_";
   entf "robin_coupling_parameter" KNum "robinCouplingParameter_" "robinParameterSpec_"; ent "use_wall_function" KBool "wallFunctionApproach_";
   ent "use_wall_function_projected" KBool "wallFunctionProjectedApproach_"; ent "use_neumann_condition" KBool "neumann_";
   ent "projected_distance" KDbl "projectedDistance_"; ent "projected_distance_ode" KBool "projectedDistanceOde_"; entm "pressure" KNum "pressure_";
   ent "fsi_interface" KBool "isFsiInterface_"].
Definition load_wall (y : yaml) : option udata :=
  match load_entries y wall_entries wall0 with
  | None => None
  | Some u => match yget "specific_dissipation_rate" y, yget "turbulent_dissipation" y with
              | None, None => match load_entry y (entf "heat_flux" KNum "q_" "heatFluxSpec_") u with Some u => load_functions y u | None => None end
              | _, _ => None end
  end.

(** InflowUserData: NaluParsing.h 229-252, NaluParsing.C 975-1061 *)
Definition inflow0 : udata := mkU
  (of_list [("u_", V3 0 0 0); ("tke_", VR 0); ("sdr_", VR 0); ("eps_", VR 0); ("mixFrac_", VR 0); ("massFraction_", VL []); ("vof_", VR 0);
            ("temperature_", VR 0); ("externalData_", VB false)]%R)
  (of_list [("uSpec_", false); ("tkeSpec_", false); ("sdrSpec_", false); ("epsSpec_", false); ("mixFracSpec_", false); ("massFractionSpec_", false);
            ("vofSpec_", false); ("tempSpec_", false)]) sempty sempty sempty sempty sempty.
Definition inflow_entries : list entry :=
  [entf "velocity" KVel "u_" "uSpec_"; entf "turbulent_ke" KNum "tke_" "tkeSpec_"; entf "specific_dissipation_rate" KNum "sdr_" "sdrSpec_";
   entf "turbulent_dissipation" KNum "eps_" "epsSpec_"; entf "mixture_fraction" KNum "mixFrac_" "mixFracSpec_";
   entf "mass_fraction" KSeq "massFraction_" "massFractionSpec_"; entf "volume_of_fluid" KNum "vof_" "vofSpec_"; entf "temperature" KNum "temperature_" "tempSpec_"].
Definition load_inflow (y : yaml) : option udata :=
  match load_entries y inflow_entries inflow0 with
  | None => None
  | Some u => match load_functions y u with None => None | Some u => load_entry y (ent "external_data" KBool "externalData_") u end
  end.

(** OpenUserData: NaluParsing.h 254-278, NaluParsing.C 1063-1134.  The condition for the dissipation rate tests
    "turbulent_dissipation_" (1085), with a trailing underscore. *)
Definition open0 : udata := mkU
  (of_list [("u_", V3 0 0 0); ("tke_", VR 0); ("sdr_", VR 0); ("eps_", VR 0); ("p_", VR 0); ("mixFrac_", VR 0); ("massFraction_", VL []); ("vof_", VR 0);
            ("temperature_", VR 0); ("useTotalP_", VB false)]%R)
  (of_list [("uSpec_", false); ("pSpec_", false); ("tkeSpec_", false); ("sdrSpec_", false); ("epsSpec_", false); ("mixFracSpec_", false);
            ("massFractionSpec_", false); ("vofSpec_", false); ("tempSpec_", false)]) sempty sempty sempty sempty sempty.
Definition open_entries : list entry :=
  [entf "velocity" KVel "u_" "uSpec_"; entf "turbulent_ke" KNum "tke_" "tkeSpec_"; entf "specific_dissipation_rate" KNum "sdr_" "sdrSpec_";
   mkE "turbulent_dissipation_" "turbulent_dissipation" KNum "eps_" (Some "epsSpec_") false false; entf "pressure" KNum "p_" "pSpec_";
   entf "mixture_fraction" KNum "mixFrac_" "mixFracSpec_"; entf "mass_fraction" KSeq "massFraction_" "massFractionSpec_";
   entf "temperature" KNum "temperature_" "tempSpec_"; entf "volume_of_fluid" KNum "vof_" "vofSpec_"; ent "use_total_pressure" KBool "useTotalP_"].
Definition load_open (y : yaml) : option udata := load_entries y open_entries open0.

(** the remaining kinds: NaluParsing.h 280-372, NaluParsing.C 1136-1278 *)
Definition none0 (m : list (string * val)) (f : list (string * bool)) : udata := mkU (of_list m) (of_list f) sempty sempty sempty sempty sempty.
Definition overset0 : udata := none0 [("percentOverlap_", VR 10); ("percentOverlapInner_", VR 20); ("clipIsoParametricCoords_", VB false); ("detailedOutput_", VB false);
   ("backgroundBlock_", VS "na"); ("backgroundSurface_", VS "na"); ("backgroundCutBlock_", VS "na"); ("backgroundInnerBlock_", VS "na");
   ("oversetSurface_", VS "na"); ("cuttingShape_", VS "aabb"); ("cuttingAxis_", VI 2); ("oversetBlockVec_", VLS [])]%R [].
Definition overset_entries : list entry :=
  [entr "percent_overlap" KDbl "percentOverlap_"; ent "percent_overlap_inner" KDbl "percentOverlapInner_"; entr "background_block" KStr "backgroundBlock_";
   entr "overset_block" KStrs "oversetBlockVec_"; entr "background_cut_block" KStr "backgroundCutBlock_"; entr "background_cut_surface" KStr "backgroundSurface_";
   ent "background_cut_block_inner" KStr "backgroundInnerBlock_"; entr "overset_surface" KStr "oversetSurface_";
   ent "clip_isoparametric_coordinates" KBool "clipIsoParametricCoords_"; ent "detailed_output" KBool "detailedOutput_"; ent "cutting_shape" KStr "cuttingShape_";
   ent "cutting_shape_axial_dir" KInt "cuttingAxis_"].
Definition load_overset (y : yaml) : option udata := load_entries y overset_entries overset0.
Definition load_symmetry (y : yaml) : option udata :=
  load_entries y [entf "normal_temperature_gradient" KNum "normalTemperatureGradient_" "normalTemperatureGradientSpec_"]
    (none0 [("normalTemperatureGradient_", VR 0)]%R [("normalTemperatureGradientSpec_", false)]).
Definition periodic0 : udata := none0 [("searchTolerance_", VR (1/100000000)); ("searchMethodName_", VS "na")]%R [].
Definition load_periodic (y : yaml) : option udata :=
  load_entries y [entr "search_tolerance" KDbl "searchTolerance_"; ent "search_method" KStr "searchMethodName_"] periodic0.
Definition nonconf0 : udata := none0 [("searchMethodName_", VS "na"); ("expandBoxPercentage_", VR 0); ("clipIsoParametricCoords_", VB false);
   ("searchTolerance_", VR (1/10000000000000000)); ("dynamicSearchTolAlg_", VB false)]%R [].
Definition load_nonconf (y : yaml) : option udata :=
  load_entries y [ent "search_method" KStr "searchMethodName_"; ent "expand_box_percentage" KDbl "expandBoxPercentage_";
    ent "clip_isoparametric_coordinates" KBool "clipIsoParametricCoords_"; ent "search_tolerance" KDbl "searchTolerance_";
    ent "activate_dynamic_search_algorithm" KBool "dynamicSearchTolAlg_"] nonconf0.

(** ** one boundary condition: NaluParsing.C 89-270 *)
Inductive bckind := Wall | Inflow | Open | Symmetry | Periodic | NonConformal | Overset.
Inductive target := T1 (s : string) | T2 (monarch subject : string) | TL (current opposing : list string) | TNone.
Record bc := mkBc { b_kind : bckind; b_name : string; b_target : target; b_data : udata }.
(** node["..."].as<...>() throws on an undefined node, and subscripting a scalar throws *)
Definition need {V} (c : yaml -> option V) (k : string) (y : yaml) : option V := match yget k y with Some v => c v | None => None end.
Definition user_data (f : yaml -> option udata) (v : yaml) : option udata := match v with YScalar _ => None | _ => f v end.
Definition simple (kd : bckind) (key ukey : string) (f : yaml -> option udata) (rogue : bool) (y : yaml) : option bc :=
  match need as_s key y, need as_s "target_name" y, need (user_data f) ukey y with
  | Some n, Some t, Some u => if (rogue && match yget "user_function_name" y with Some _ => true | None => false end)%bool then None else Some (mkBc kd n (T1 t) u)
  | _, _, _ => None end.
Definition monarch_subject (y : yaml) : option target :=
  match y with YSeq [a; b] => match as_s a, as_s b with Some m, Some s => Some (T2 m s) | _, _ => None end | _ => None end.
Definition nc_targets (y : yaml) : option target :=
  match yget "target_name" y with
  | Some (YSeq [a; b]) => match as_s a, as_s b with Some c, Some o => Some (TL [c] [o]) | _, _ => None end
  | Some _ => None
  | None => match yget "current_target_name" y, yget "opposing_target_name" y with
            | Some c, Some o => match conv_targets as_s c, conv_targets as_s o with Some lc, Some lo => Some (TL lc lo) | _, _ => None end
            | _, _ => None end
  end.
(** BoundaryConditions.C 40-97: the first of the seven keys that is present decides *)
Definition load_bc (y : yaml) : option bc :=
  match yget "wall_boundary_condition" y with
  | Some _ => simple Wall "wall_boundary_condition" "wall_user_data" load_wall true y
  | None => match yget "inflow_boundary_condition" y with
  | Some _ => simple Inflow "inflow_boundary_condition" "inflow_user_data" load_inflow true y
  | None => match yget "open_boundary_condition" y with
  | Some _ => simple Open "open_boundary_condition" "open_user_data" load_open true y
  | None => match yget "symmetry_boundary_condition" y with
  | Some _ => simple Symmetry "symmetry_boundary_condition" "symmetry_user_data" load_symmetry false y
  | None => match yget "periodic_boundary_condition" y with
  | Some _ => match need as_s "periodic_boundary_condition" y, need monarch_subject "target_name" y, need (user_data load_periodic) "periodic_user_data" y with
              | Some n, Some t, Some u => Some (mkBc Periodic n t u) | _, _, _ => None end
  | None => match yget "non_conformal_boundary_condition" y with
  | Some _ => match need as_s "non_conformal_boundary_condition" y, need (user_data load_nonconf) "non_conformal_user_data" y, nc_targets y with
              | Some n, Some u, Some t => Some (mkBc NonConformal n t u) | _, _, _ => None end
  | None => match yget "overset_boundary_condition" y with
  | Some _ => match need as_s "overset_boundary_condition" y,
                    (match yget "overset_connectivity_type" y with None => Some "nalu_stk" | Some v => as_s v end),
                    need (user_data load_overset) "overset_user_data" y with
              | Some n, Some a, Some u => if String.eqb a "nalu_stk" then Some (mkBc Overset n TNone u) else None | _, _, _ => None end
  | None => None
  end end end end end end end.
(** BoundaryConditions.h 66-83: the list in the order of the file *)
Fixpoint load_bcs (l : list yaml) : option (list bc) :=
  match l with [] => Some [] | y :: r => match load_bc y with Some b => option_map (cons b) (load_bcs r) | None => None end end.

(** ** initial conditions: NaluParsing.C 272-384, InitialConditions.C 40-58 *)
Fixpoint has_comma (s : string) : bool := match s with EmptyString => false | String c r => (Ascii.eqb c (Ascii.ascii_of_nat 44) || has_comma r)%bool end.
Definition ic_targets (check : bool) (y : yaml) : option (list string) :=
  match yget "target_name" y with
  | None => None
  | Some (YScalar s) => match as_s (YScalar s) with Some t => if (check && has_comma t)%bool then None else Some [t] | None => None end
  | Some v => conv_targets as_s v
  end.
(** 356-383: a value is the list of its entries or one number *)
Definition ic_value (v : yaml) : option (list R) :=
  match v with YSeq (a :: l) => conv_list as_d (a :: l) | YMap (_ :: _) => None | _ => option_map (fun x => [x]) (as_d v) end.
Fixpoint ic_values (kvs : list (string * yaml)) : option (list (string * list R)) :=
  match kvs with [] => Some []
  | (k, v) :: r => match ic_value v, ic_values r with Some x, Some xs => Some ((k, x) :: xs) | _, _ => None end end.
Definition load_constant_ic (y : yaml) : option (list string * list (string * list R)) :=
  match need as_s "constant" y, ic_targets true y with
  | Some _, Some ts => match yget "value" y with
                       | Some (YMap kvs) => option_map (fun v => (ts, v)) (ic_values kvs)
                       | None | Some YNull => Some (ts, [])
                       | _ => None end
  | _, _ => None end.
End Load.

(** ** setting initial values: Realm.C 956-1018 registers, for each condition, target and field in order, an algorithm that
    writes the value at every node of the target; they are executed in that order.  [inpart] : part -> node -> bool. *)
Definition write {V} (f : string -> nat -> V) (field : string) (sel : nat -> bool) (v : V) : string -> nat -> V :=
  fun g n => if (String.eqb g field && sel n)%bool then v else f g n.
Definition run_ics {V} (inpart : string -> nat -> bool) (ics : list (list string * list (string * V))) (f : string -> nat -> V) : string -> nat -> V :=
  fold_left (fun f ic => fold_left (fun f t => fold_left (fun f fv => write f (fst fv) (inpart t) (snd fv)) (snd ic) f) (fst ic) f) ics f.

(** ** thermal walls of the heat conduction equation: HeatCondEquationSystem.C 570-963 *)
Inductive wallkind := Fixed (byFunction : bool) | Flux | Irradiated | Convective | Robin | Insulated.
(** [Unset]: the decision reads an uninitialised flag *)
Inductive outcome := Does (w : wallkind) | Rejected | Unset.
Definition on (u : udata) (f : string) : bool := match flg u f with Some true => true | _ => false end.
Definition heat_wall (u : udata) : outcome :=
  let fnType := match typ u "temperature" with Some FUNCTION_UD => true | _ => false end in
  if (on u "tempSpec_" || fnType)%bool then
    (if fnType then match fn u "temperature" with
        | Some n => if (String.eqb n "steady_2d_thermal" || String.eqb n "steady_3d_thermal")%bool then Does (Fixed true) else Rejected
        | None => Rejected end
     else Does (Fixed false))
  else if (on u "heatFluxSpec_" && negb (on u "robinParameterSpec_"))%bool then Does Flux
  else if on u "irradSpec_" then match flg u "emissSpec_" with Some true => Does Irradiated | Some false => Rejected | None => Unset end
  else if (on u "htcSpec_" || on u "refTempSpec_" || on u "robinParameterSpec_")%bool then
    (if on u "robinParameterSpec_" then
       (if negb (on u "refTempSpec_") then Rejected else if negb (on u "heatFluxSpec_") then Rejected else Does Robin)
     else (if negb (on u "refTempSpec_") then Rejected else if negb (on u "htcSpec_") then Rejected else Does Convective))
  else Does Insulated.
(** 944-960: one WALL_CHT algorithm; the coefficient field is that of the wall registered first *)
Definition alpha_field (w : wallkind) : option string :=
  match w with Convective => Some "heat_transfer_coefficient" | Robin => Some "robin_coupling_parameter" | _ => None end.
Definition register_cht (walls : list (string * wallkind)) : option (string * list string) :=
  fold_left (fun a pw => match alpha_field (snd pw) with
    | None => a
    | Some f => match a with None => Some (f, [fst pw]) | Some (g, ps) => Some (g, (ps ++ [fst pw])%list) end end) walls None.
(** the coefficient field read on a part *)
Definition field_read (walls : list (string * wallkind)) (p : string) : option string :=
  match register_cht walls with Some (g, ps) => if existsb (String.eqb p) ps then Some g else None | None => None end.

(** ** names looked up in lists *)
(** LinearSolvers.C 33-89: blocks by name, the last of a name replaces the earlier; unknown types and names throw *)
Definition load_solvers {C} (l : list (string * string * C)) : option (smap C) :=
  fold_left (fun m x => match m with None => None | Some m => let '(ty, nm, c) := x in if String.eqb ty "tpetra" then Some (upd m nm c) else None end) l (Some sempty).
(** EquationSystems.C 264-278 and LinearSolvers.C 57-89 *)
Definition solver_of {C} (spec : smap string) (m : smap C) (eq : string) : option C := match spec eq with Some nm => m nm | None => None end.
(** MaterialProperty.C 122-145, 337: properties by name; Enums.h 110-136 *)
Definition PropertyIdentifierNames : list string := ["density"; "viscosity"; "specific_heat"; "thermal_conductivity"; "absorption_coefficient"; "enthalpy";
  "lame_mu"; "lame_lambda"; "scattering_coefficient"; "surface_tension"; "gamma"].
Definition load_props {D} (l : list (string * D)) : option (nat -> option D) :=
  fold_left (fun m x => match m with None => None | Some m => match index_of (String.eqb (fst x)) PropertyIdentifierNames with
     | Some k => Some (fun j => if Nat.eqb j k then Some (snd x) else m j) | None => None end end) l (Some (fun _ => None)).
