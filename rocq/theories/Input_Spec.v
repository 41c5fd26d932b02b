(** * What the input file means: the documented keywords of the boundary conditions
    Independent of the order in which the code reads them.  (keyword, form, member it sets, value when it is not given,
    flag that tells the equations it was given) *)
From Coq Require Import Reals List Bool String ZArith.
From Verif Require Import Opt_Model Input_Model.
Import ListNotations.
Open Scope string_scope.
Open Scope R_scope.

Record doc := mkD { d_key : string; d_kind : kind; d_mem : string; d_dflt : val; d_flag : option string }.
Definition vel0 : val := V3 0 0 0.
Definition no : val := VB false.
Definition zero : val := VR 0.

Definition wall_doc : list doc :=
  [mkD "velocity" KVel "u_" vel0 None; mkD "mesh_displacement" KVel "dx_" vel0 None; mkD "pressure" KNum "pressure_" zero None;
   mkD "temperature" KNum "temperature_" zero (Some "tempSpec_"); mkD "heat_flux" KNum "q_" zero (Some "heatFluxSpec_");
   mkD "turbulent_ke" KNum "tke_" zero None; mkD "mixture_fraction" KNum "mixFrac_" zero None; mkD "mass_fraction" KSeq "massFraction_" (VL []) None;
   mkD "volume_of_fluid" KNum "vof_" zero None;
   mkD "emissivity" KNum "emissivity_" (VR 1) (Some "emissSpec_"); mkD "irradiation" KNum "irradiation_" (VR 1) (Some "irradSpec_");
   mkD "transmissivity" KNum "transmissivity_" zero None; mkD "environmental_temperature" KNum "environmentalT_" (VR 298) None;
   mkD "reference_temperature" KNum "referenceTemperature_" (VR 298) (Some "refTempSpec_");
   mkD "heat_transfer_coefficient" KNum "heatTransferCoefficient_" zero (Some "htcSpec_");
   mkD "robin_coupling_parameter" KNum "robinCouplingParameter_" zero (Some "robinParameterSpec_");
   mkD "adiabatic" KBool "isAdiabatic_" no None; mkD "interface" KBool "isInterface_" no None; mkD "external_data" KBool "externalData_" no None;
   mkD "fsi_interface" KBool "isFsiInterface_" no None; mkD "post_process_heat_flux" KBool "ppHeatFlux_" no None;
   mkD "use_wall_function" KBool "wallFunctionApproach_" no None; mkD "use_wall_function_projected" KBool "wallFunctionProjectedApproach_" no None;
   mkD "use_neumann_condition" KBool "neumann_" no None; mkD "projected_distance" KDbl "projectedDistance_" (VR 1) None;
   mkD "projected_distance_ode" KBool "projectedDistanceOde_" no None].
Definition inflow_doc : list doc :=
  [mkD "velocity" KVel "u_" vel0 (Some "uSpec_"); mkD "temperature" KNum "temperature_" zero (Some "tempSpec_");
   mkD "turbulent_ke" KNum "tke_" zero (Some "tkeSpec_"); mkD "specific_dissipation_rate" KNum "sdr_" zero (Some "sdrSpec_");
   mkD "turbulent_dissipation" KNum "eps_" zero (Some "epsSpec_"); mkD "mixture_fraction" KNum "mixFrac_" zero (Some "mixFracSpec_");
   mkD "mass_fraction" KSeq "massFraction_" (VL []) (Some "massFractionSpec_"); mkD "volume_of_fluid" KNum "vof_" zero (Some "vofSpec_");
   mkD "external_data" KBool "externalData_" no None].
Definition open_doc : list doc :=
  [mkD "velocity" KVel "u_" vel0 (Some "uSpec_"); mkD "pressure" KNum "p_" zero (Some "pSpec_"); mkD "temperature" KNum "temperature_" zero (Some "tempSpec_");
   mkD "turbulent_ke" KNum "tke_" zero (Some "tkeSpec_"); mkD "specific_dissipation_rate" KNum "sdr_" zero (Some "sdrSpec_");
   mkD "turbulent_dissipation" KNum "eps_" zero (Some "epsSpec_"); mkD "mixture_fraction" KNum "mixFrac_" zero (Some "mixFracSpec_");
   mkD "mass_fraction" KSeq "massFraction_" (VL []) (Some "massFractionSpec_"); mkD "volume_of_fluid" KNum "vof_" zero (Some "vofSpec_");
   mkD "use_total_pressure" KBool "useTotalP_" no None].
(** overset: (keyword, form, member, default or required) *)
Definition overset_required : list (string * kind * string) :=
  [("percent_overlap", KDbl, "percentOverlap_"); ("background_block", KStr, "backgroundBlock_"); ("overset_block", KStrs, "oversetBlockVec_");
   ("background_cut_block", KStr, "backgroundCutBlock_"); ("background_cut_surface", KStr, "backgroundSurface_"); ("overset_surface", KStr, "oversetSurface_")].
Definition overset_optional : list doc :=
  [mkD "percent_overlap_inner" KDbl "percentOverlapInner_" (VR 20) None; mkD "background_cut_block_inner" KStr "backgroundInnerBlock_" (VS "na") None;
   mkD "clip_isoparametric_coordinates" KBool "clipIsoParametricCoords_" no None; mkD "detailed_output" KBool "detailedOutput_" no None;
   mkD "cutting_shape" KStr "cuttingShape_" (VS "aabb") None; mkD "cutting_shape_axial_dir" KInt "cuttingAxis_" (VI 2) None].
Definition nonconf_doc : list doc :=
  [mkD "search_tolerance" KDbl "searchTolerance_" (VR (1/10000000000000000)) None; mkD "search_method" KStr "searchMethodName_" (VS "na") None;
   mkD "expand_box_percentage" KDbl "expandBoxPercentage_" zero None; mkD "activate_dynamic_search_algorithm" KBool "dynamicSearchTolAlg_" no None;
   mkD "clip_isoparametric_coordinates" KBool "clipIsoParametricCoords_" no None].

Section Spec.
Variables (as_d : yaml -> option R) (as_b : yaml -> option bool) (as_s : yaml -> option string) (as_i : yaml -> option Z).
Definition present (k : string) (y : yaml) : bool := match yget k y with Some _ => true | None => false end.
(** the member holds what the file says, or the documented default *)
Definition value_ok (y : yaml) (u : udata) (d : doc) : Prop :=
  match yget (d_key d) y with
  | Some v => exists q, conv as_d as_b as_s as_i (d_kind d) v = Some q /\ mem u (d_mem d) = Some q
  | None => mem u (d_mem d) = Some (d_dflt d)
  end.
(** its flag tells whether it was given *)
Definition flag_ok (y : yaml) (u : udata) (d : doc) : Prop :=
  match d_flag d with Some f => flg u f = Some (present (d_key d) y) | None => True end.
Definition readable (y : yaml) (d : doc) : Prop :=
  match yget (d_key d) y with Some v => conv as_d as_b as_s as_i (d_kind d) v <> None | None => True end.
End Spec.
(** quantities an equation asks for at a wall *)
Definition wall_quantities : list string :=
  ["velocity"; "mesh_displacement"; "turbulent_ke"; "temperature"; "mixture_fraction"; "mass_fraction"; "volume_of_fluid"; "pressure"].
(** user functions named in the file *)
Definition function_of (y : yaml) (q : string) : option yaml := match yget "user_function_name" y with Some m => yget q m | None => None end.
