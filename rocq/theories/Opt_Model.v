(** Model of the solution-option store: src/SolutionOptions.C, src/NaluParsing.C and the query functions of src/Realm.C.
    An exception (std::runtime_error) is [None].  YAML nodes are trees; scalars are strings and the conversions
    as<double>, as<bool>, as<int> of yaml-cpp are parameters ([None] = bad conversion, an exception). *)
Require Import Reals List Bool String Arith.
From Coq Require Ascii.
Import ListNotations.
Open Scope string_scope.

Inductive yaml : Type :=
  | YNull | YScalar (s : string) | YSeq (l : list yaml) | YMap (l : list (string * yaml)).

(** node[key] of yaml-cpp: first entry with that key, undefined ([None]) for anything that is not a map. *)
Definition yget (k : string) (y : yaml) : option yaml :=
  match y with YMap l => match find (fun e => String.eqb (fst e) k) l with Some e => Some (snd e) | None => None end | _ => None end.

(** std::map<std::string,V> as a partial function; mapName[k] = v is [upd]. *)
Definition smap (V : Type) := string -> option V.
Definition sempty {V} : smap V := fun _ => None.
Definition upd {V} (m : smap V) (k : string) (v : V) : smap V := fun k' => if String.eqb k' k then Some v else m k'.

(** option maps of include/SolutionOptions.h:161-194, grouped by value type *)
Inductive dopt := Hybrid | Alpha | AlphaUpw | Upw | LamSc | LamPr | TurbSc | TurbPr | TanhTrans | TanhWidth.
Inductive bopt := Limiter | Noc | ShiftedGrad | SkewSym | ConsMM.
Inductive sopt := TanhForm | NodalGrad | InputVar.
Inductive vsopt := SrcTerms | ElemSrcTerms.
Inductive vdopt := SrcParam | ElemSrcParam.
Scheme Equality for dopt.
Scheme Equality for bopt.
Scheme Equality for sopt.
Scheme Equality for vsopt.
Scheme Equality for vdopt.

(** include/Enums.h:156-177: the index in this list is the enumerator *)
Definition TurbulenceModelNames : list string :=
  ["laminar"; "ksgs"; "smagorinsky"; "wale"; "sst"; "sst_des"; "k_epsilon"; "lr_ksgs"].
Definition LAMINAR := 0%nat. Definition KSGS := 1%nat. Definition SST := 4%nat. Definition SST_DES := 5%nat. Definition LRKSGS := 7%nat.

(** include/Enums.h:179-238 without the trailing "END", which the search loop (k < TM_END) never reaches *)
Definition TurbulenceModelConstantNames : list string :=
  ["cMu"; "kappa"; "cDESke"; "cDESkw"; "tkeProdLimitRatio"; "cmuEps"; "cEps"; "betaStar"; "aOne"; "betaOne"; "betaTwo";
   "gammaOne"; "gammaTwo"; "sigmaKOne"; "sigmaKTwo"; "sigmaWOne"; "sigmaWTwo"; "cmuCs"; "Cw"; "Cb2"; "SDRWallFactor";
   "Z_CV"; "ci"; "Elog"; "yplus_crit"; "cEpsOne"; "cEpsTwo"].

(** SolutionOptions data members that are modelled (include/SolutionOptions.h).  Mesh motion, pressure reference and
    error-indicator blocks are not modelled. *)
Record opts := mkOpts {
  dm : dopt -> smap R; bm : bopt -> smap bool; sm : sopt -> smap string;
  vsm : vsopt -> smap (list string); vdm : vdopt -> smap (list R);
  tconst : nat -> option R;                       (* turbModelConstantMap_ *)
  turbModel : nat; isTurbulent : bool;
  rho_ref : R; t_ref : R; therm_exp : R; stefan : R; gravity : list R;
  ncGL : bool; ncUpw : bool; ncPstab : bool; ncDetail : bool; ncCoin : bool; ncCurNorm : bool; ncPng : bool;
  divU : R; extDef : bool; shiftMdot : bool; reducedSens : bool; consAlg : bool; consBc : bool;
  eigPerturb : bool; eigDelta : R; eigBias : nat; eigKe : R;
  vofJm : R; vofM : R; vofN : R; vofC : R; quadType : string; acoustic : bool; balForce : bool; buoyStab : bool;
  volSrc : R; wetInit : bool; wetDist : R; scaleGeom : bool;
  dynProc : bool; dynClip : R; restTime : R; interpTime : bool; perTime : R }.

(** src/SolutionOptions.C:32-99 constructor.  [buoyStab] is uninitialised in the code before load(); the model starts it at
    false, load() always assigns it. *)
Definition initial : opts := 
  mkOpts (fun _ => sempty) (fun _ => sempty) (fun _ => sempty) (fun _ => sempty) (fun _ => sempty) (fun _ => None)
    LAMINAR false
    0 298 1 (56704/1000000000000) [0%R;0%R;0%R]
    true true true false false false true
    0 false false false false false
    false 0 3%nat 0
    (3/1000) 0 0 1 "GaussLegendre" false false false
    0 false (-1) false
    false 0 100000000 false 0.

(** default values of the per-field queries: hybridDefault_ ... tanhWidthDefault_ (SolutionOptions.C:33-47), 1.0 for the
    laminar Prandtl number (Realm.C:4333), false for the limiter (Realm.C:4299), consistentMMPngDefault_ (line 78). *)
Definition ddefault (o : dopt) : R :=
  match o with Hybrid => 0 | Alpha => 0 | AlphaUpw => 1 | Upw => 1 | LamSc => 1 | LamPr => 1 | TurbSc => 1 | TurbPr => 1
             | TanhTrans => 2 | TanhWidth => 4 end%R.
Definition bdefault (o : bopt) : bool :=
  match o with Limiter => false | Noc => true | ShiftedGrad => false | SkewSym => false | ConsMM => false end.

(** Realm.C:4231-4405 and SolutionOptions.C:774-890: get_hybrid_factor, get_alpha_factor, get_alpha_upw_factor, get_upw_factor,
    get_lam_schmidt, get_lam_prandtl, get_turb_schmidt, get_turb_prandtl, get_tanh_trans, get_tanh_width *)
Definition get_d (st : opts) (o : dopt) (dof : string) : R := match dm st o dof with Some v => v | None => ddefault o end.
(** the prProvided flag of get_lam_prandtl, Realm.C:4328-4345 *)
Definition lam_prandtl_provided (st : opts) (dof : string) : bool := match dm st LamPr dof with Some _ => true | None => false end.
(** primitive_uses_limiter, get_noc_usage, get_shifted_grad_op, get_skew_symmetric, get_consistent_mass_matrix_png *)
Definition get_b (st : opts) (o : bopt) (dof : string) : bool := match bm st o dof with Some v => v | None => bdefault o end.
(** get_tanh_functional_form, Realm.C:4413-4424 *)
Definition get_tanh_form (st : opts) (dof : string) : string := match sm st TanhForm dof with Some v => v | None => "classic" end.
(** get_turb_model_constant, SolutionOptions.C:856-868 *)
Definition get_turb_model_constant (st : opts) (k : nat) : option R := tconst st k.

(** case_insensitive_compare, NaluParsing.C:485-490 *)
Definition tolower (c : Ascii.ascii) : Ascii.ascii :=
  let n := Ascii.nat_of_ascii c in if (Nat.leb 65 n && Nat.leb n 90)%bool then Ascii.ascii_of_nat (n + 32) else c.
Fixpoint lower (s : string) : string := match s with EmptyString => EmptyString | String c s' => String (tolower c) (lower s') end.
Definition case_insensitive_compare (s1 s2 : string) : bool := String.eqb (lower s1) (lower s2).

(** first index at which a list satisfies a predicate: the for/break loops of SolutionOptions.C:190-196 and 316-323 *)
Fixpoint index_of {A} (f : A -> bool) (l : list A) : option nat :=
  match l with [] => None | a :: l' => if f a then Some 0%nat else option_map S (index_of f l') end.

(** initialize_turbulence_constants, SolutionOptions.C:737-768 *)
Definition default_constants (model : nat) : list R :=
  [9/100; 41/100; 61/100; 78/100; (if (Nat.eqb model SST || Nat.eqb model SST_DES)%bool then 10 else 500); 856/10000; 845/1000; 9/100;
   31/100; 75/1000; 828/10000; 5/9; 44/100; 85/100; 1; 50/100; 856/1000; 17/100; 325/1000; 35/100; 1; 5/10; 9/10; 98/10;
   1163/100; 144/100; 192/100]%R.

Section Load.
Variables (as_d : yaml -> option R) (as_b : yaml -> option bool) (as_s : yaml -> option string) (as_n : yaml -> option nat).

(** NaluParsing.C:386-429 operator>> into std::map<std::string,T>: every key of the node is assigned in order *)
Fixpoint read_map {V} (conv : yaml -> option V) (kvs : list (string * yaml)) (m : smap V) : option (smap V) :=
  match kvs with
  | [] => Some m
  | (k, y) :: r => match conv y with Some v => read_map conv r (upd m k v) | None => None end
  end.

Fixpoint conv_list {V} (conv : yaml -> option V) (l : list yaml) : option (list V) :=
  match l with [] => Some [] | y :: r => match conv y, conv_list conv r with Some v, Some vs => Some (v :: vs) | _, _ => None end end.
(** NaluParsing.C:443-455 / 470-481: a scalar or the elements of a sequence.  A map with entries makes targets[it] undefined
    and as<T>() throw; an empty node gives nothing. *)
Definition conv_targets {V} (conv : yaml -> option V) (y : yaml) : option (list V) :=
  match y with YScalar s => option_map (fun v => [v]) (conv y) | YSeq l => conv_list conv l
             | YNull => Some [] | YMap [] => Some [] | YMap _ => None end.
(** NaluParsing.C:431-483 operator>> into std::map<std::string,std::vector<T>>: push_back on what is already there *)
Fixpoint read_vmap {V} (conv : yaml -> option V) (kvs : list (string * yaml)) (m : smap (list V)) : option (smap (list V)) :=
  match kvs with
  | [] => Some m
  | (k, y) :: r => match conv_targets conv y with
      | Some vs => read_vmap conv r (upd m k ((match m k with Some old => old | None => [] end) ++ vs)%list)
      | None => None end
  end.

(** NaluParsing.h:447-456 get_if_present *)
Definition get_if_present {V} (conv : yaml -> option V) (y : yaml) (key : string) (dflt : V) : option V :=
  match yget key y with Some v => conv v | None => Some dflt end.

Definition set_dm st o m := mkOpts (fun o' => if dopt_beq o' o then m else dm st o') (bm st) (sm st) (vsm st) (vdm st) (tconst st)
  (turbModel st) (isTurbulent st) (rho_ref st) (t_ref st) (therm_exp st) (stefan st) (gravity st)
  (ncGL st) (ncUpw st) (ncPstab st) (ncDetail st) (ncCoin st) (ncCurNorm st) (ncPng st)
  (divU st) (extDef st) (shiftMdot st) (reducedSens st) (consAlg st) (consBc st) (eigPerturb st) (eigDelta st) (eigBias st) (eigKe st)
  (vofJm st) (vofM st) (vofN st) (vofC st) (quadType st) (acoustic st) (balForce st) (buoyStab st)
  (volSrc st) (wetInit st) (wetDist st) (scaleGeom st) (dynProc st) (dynClip st) (restTime st) (interpTime st) (perTime st).
Definition set_bm st o m := mkOpts (dm st) (fun o' => if bopt_beq o' o then m else bm st o') (sm st) (vsm st) (vdm st) (tconst st)
  (turbModel st) (isTurbulent st) (rho_ref st) (t_ref st) (therm_exp st) (stefan st) (gravity st)
  (ncGL st) (ncUpw st) (ncPstab st) (ncDetail st) (ncCoin st) (ncCurNorm st) (ncPng st)
  (divU st) (extDef st) (shiftMdot st) (reducedSens st) (consAlg st) (consBc st) (eigPerturb st) (eigDelta st) (eigBias st) (eigKe st)
  (vofJm st) (vofM st) (vofN st) (vofC st) (quadType st) (acoustic st) (balForce st) (buoyStab st)
  (volSrc st) (wetInit st) (wetDist st) (scaleGeom st) (dynProc st) (dynClip st) (restTime st) (interpTime st) (perTime st).
Definition set_sm st o m := mkOpts (dm st) (bm st) (fun o' => if sopt_beq o' o then m else sm st o') (vsm st) (vdm st) (tconst st)
  (turbModel st) (isTurbulent st) (rho_ref st) (t_ref st) (therm_exp st) (stefan st) (gravity st)
  (ncGL st) (ncUpw st) (ncPstab st) (ncDetail st) (ncCoin st) (ncCurNorm st) (ncPng st)
  (divU st) (extDef st) (shiftMdot st) (reducedSens st) (consAlg st) (consBc st) (eigPerturb st) (eigDelta st) (eigBias st) (eigKe st)
  (vofJm st) (vofM st) (vofN st) (vofC st) (quadType st) (acoustic st) (balForce st) (buoyStab st)
  (volSrc st) (wetInit st) (wetDist st) (scaleGeom st) (dynProc st) (dynClip st) (restTime st) (interpTime st) (perTime st).
Definition set_vsm st o m := mkOpts (dm st) (bm st) (sm st) (fun o' => if vsopt_beq o' o then m else vsm st o') (vdm st) (tconst st)
  (turbModel st) (isTurbulent st) (rho_ref st) (t_ref st) (therm_exp st) (stefan st) (gravity st)
  (ncGL st) (ncUpw st) (ncPstab st) (ncDetail st) (ncCoin st) (ncCurNorm st) (ncPng st)
  (divU st) (extDef st) (shiftMdot st) (reducedSens st) (consAlg st) (consBc st) (eigPerturb st) (eigDelta st) (eigBias st) (eigKe st)
  (vofJm st) (vofM st) (vofN st) (vofC st) (quadType st) (acoustic st) (balForce st) (buoyStab st)
  (volSrc st) (wetInit st) (wetDist st) (scaleGeom st) (dynProc st) (dynClip st) (restTime st) (interpTime st) (perTime st).
Definition set_vdm st o m := mkOpts (dm st) (bm st) (sm st) (vsm st) (fun o' => if vdopt_beq o' o then m else vdm st o') (tconst st)
  (turbModel st) (isTurbulent st) (rho_ref st) (t_ref st) (therm_exp st) (stefan st) (gravity st)
  (ncGL st) (ncUpw st) (ncPstab st) (ncDetail st) (ncCoin st) (ncCurNorm st) (ncPng st)
  (divU st) (extDef st) (shiftMdot st) (reducedSens st) (consAlg st) (consBc st) (eigPerturb st) (eigDelta st) (eigBias st) (eigKe st)
  (vofJm st) (vofM st) (vofN st) (vofC st) (quadType st) (acoustic st) (balForce st) (buoyStab st)
  (volSrc st) (wetInit st) (wetDist st) (scaleGeom st) (dynProc st) (dynClip st) (restTime st) (interpTime st) (perTime st).
Definition set_tconst st f := mkOpts (dm st) (bm st) (sm st) (vsm st) (vdm st) f
  (turbModel st) (isTurbulent st) (rho_ref st) (t_ref st) (therm_exp st) (stefan st) (gravity st)
  (ncGL st) (ncUpw st) (ncPstab st) (ncDetail st) (ncCoin st) (ncCurNorm st) (ncPng st)
  (divU st) (extDef st) (shiftMdot st) (reducedSens st) (consAlg st) (consBc st) (eigPerturb st) (eigDelta st) (eigBias st) (eigKe st)
  (vofJm st) (vofM st) (vofN st) (vofC st) (quadType st) (acoustic st) (balForce st) (buoyStab st)
  (volSrc st) (wetInit st) (wetDist st) (scaleGeom st) (dynProc st) (dynClip st) (restTime st) (interpTime st) (perTime st).
Definition set_consts st a b c d g := mkOpts (dm st) (bm st) (sm st) (vsm st) (vdm st) (tconst st)
  (turbModel st) (isTurbulent st) a b c d g
  (ncGL st) (ncUpw st) (ncPstab st) (ncDetail st) (ncCoin st) (ncCurNorm st) (ncPng st)
  (divU st) (extDef st) (shiftMdot st) (reducedSens st) (consAlg st) (consBc st) (eigPerturb st) (eigDelta st) (eigBias st) (eigKe st)
  (vofJm st) (vofM st) (vofN st) (vofC st) (quadType st) (acoustic st) (balForce st) (buoyStab st)
  (volSrc st) (wetInit st) (wetDist st) (scaleGeom st) (dynProc st) (dynClip st) (restTime st) (interpTime st) (perTime st).
Definition set_nc st a b c d e f g := mkOpts (dm st) (bm st) (sm st) (vsm st) (vdm st) (tconst st)
  (turbModel st) (isTurbulent st) (rho_ref st) (t_ref st) (therm_exp st) (stefan st) (gravity st) a b c d e f g
  (divU st) (extDef st) (shiftMdot st) (reducedSens st) (consAlg st) (consBc st) (eigPerturb st) (eigDelta st) (eigBias st) (eigKe st)
  (vofJm st) (vofM st) (vofN st) (vofC st) (quadType st) (acoustic st) (balForce st) (buoyStab st)
  (volSrc st) (wetInit st) (wetDist st) (scaleGeom st) (dynProc st) (dynClip st) (restTime st) (interpTime st) (perTime st).
Definition set_reduced st b := mkOpts (dm st) (bm st) (sm st) (vsm st) (vdm st) (tconst st)
  (turbModel st) (isTurbulent st) (rho_ref st) (t_ref st) (therm_exp st) (stefan st) (gravity st)
  (ncGL st) (ncUpw st) (ncPstab st) (ncDetail st) (ncCoin st) (ncCurNorm st) (ncPng st)
  (divU st) (extDef st) (shiftMdot st) b (consAlg st) (consBc st) (eigPerturb st) (eigDelta st) (eigBias st) (eigKe st)
  (vofJm st) (vofM st) (vofN st) (vofC st) (quadType st) (acoustic st) (balForce st) (buoyStab st)
  (volSrc st) (wetInit st) (wetDist st) (scaleGeom st) (dynProc st) (dynClip st) (restTime st) (interpTime st) (perTime st).

(** SolutionOptions.C:304-331: each constant is matched by exact name; an unknown name is only reported *)
Fixpoint read_consts (kvs : list (string * R)) (f : nat -> option R) : nat -> option R :=
  match kvs with
  | [] => f
  | (k, v) :: r => read_consts r (match index_of (String.eqb k) TurbulenceModelConstantNames with
                                  | Some i => fun j => if Nat.eqb j i then Some v else f j | None => f end)
  end.
(** the std::map turbConstMap filled first (NaluParsing.C:401-414); the later entry of a repeated name prevails and each name is
    visited once.  Visiting the pairs in input order has the same effect, and that is what [read_consts] does. *)
Fixpoint conv_pairs {V} (conv : yaml -> option V) (kvs : list (string * yaml)) : option (list (string * V)) :=
  match kvs with [] => Some [] | (k, y) :: r =>
    match conv y, conv_pairs conv r with Some v, Some vs => Some ((k, v) :: vs) | _, _ => None end end.

(** gravity_[i] = ..., SolutionOptions.C:340-345: std::array<double,3>; writing element 3 or beyond is undefined behaviour,
    modelled as a failed load. *)
Fixpoint over_write (old new : list R) : list R :=
  match new, old with [], _ => old | v :: r, _ :: o => v :: over_write o r | _ :: _, [] => [] end.

Inductive action := AD (o : dopt) | AB (o : bopt) | AS (o : sopt) | AVS (o : vsopt) | AVD (o : vdopt) | AConst | AUser | ANC.
(** SolutionOptions.C:252-379: the else-if chain, in order *)
Definition chain : list (string * action) :=
  [("hybrid_factor", AD Hybrid); ("alpha", AD Alpha); ("alpha_upw", AD AlphaUpw); ("upw_factor", AD Upw); ("limiter", AB Limiter);
   ("laminar_schmidt", AD LamSc); ("laminar_prandtl", AD LamPr); ("turbulent_schmidt", AD TurbSc); ("turbulent_prandtl", AD TurbPr);
   ("source_terms", AVS SrcTerms); ("element_source_terms", AVS ElemSrcTerms);
   ("source_term_parameters", AVD SrcParam); ("element_source_term_parameters", AVD ElemSrcParam);
   ("projected_nodal_gradient", AS NodalGrad); ("noc_correction", AB Noc); ("shifted_gradient_operator", AB ShiftedGrad);
   ("skew_symmetric_advection", AB SkewSym); ("input_variables_from_file", AS InputVar);
   ("turbulence_model_constants", AConst); ("user_constants", AUser); ("non_conformal", ANC);
   ("peclet_function_form", AS TanhForm); ("peclet_function_tanh_transition", AD TanhTrans); ("peclet_function_tanh_width", AD TanhWidth);
   ("blending_function_form", AS TanhForm); ("tanh_transition", AD TanhTrans); ("tanh_width", AD TanhWidth);
   ("consistent_mass_matrix_png", AB ConsMM)].

Definition act (a : action) (kvs : list (string * yaml)) (st : opts) : option opts :=
  match a with
  | AD o => option_map (set_dm st o) (read_map as_d kvs (dm st o))
  | AB o => option_map (set_bm st o) (read_map as_b kvs (bm st o))
  | AS o => option_map (set_sm st o) (read_map as_s kvs (sm st o))
  | AVS o => option_map (set_vsm st o) (read_vmap as_s kvs (vsm st o))
  | AVD o => option_map (set_vdm st o) (read_vmap as_d kvs (vdm st o))
  | AConst => option_map (fun ps => set_tconst st (read_consts ps (tconst st))) (conv_pairs as_d kvs)
  | AUser =>
      let y := YMap kvs in
      match get_if_present as_d y "reference_density" (rho_ref st), get_if_present as_d y "reference_temperature" (t_ref st),
            get_if_present as_d y "thermal_expansion_coefficient" (therm_exp st), get_if_present as_d y "stefan_boltzmann" (stefan st) with
      | Some a, Some b, Some c, Some d =>
          match yget "gravity" y with
          | None => Some (set_consts st a b c d (gravity st))
          | Some (YSeq l) => match conv_list as_d l with
              | Some g => if Nat.leb (List.length g) 3 then Some (set_consts st a b c d (over_write (gravity st) g)) else None
              | None => None end
          | Some _ => None
          end
      | _, _, _, _ => None
      end
  | ANC =>
      let y := YMap kvs in
      match get_if_present as_b y "gauss_labatto_quadrature" (ncGL st), get_if_present as_b y "upwind_advection" (ncUpw st),
            get_if_present as_b y "include_pstab" (ncPstab st), get_if_present as_b y "detailed_output" (ncDetail st),
            get_if_present as_b y "activate_coincident_node_error_check" (ncCoin st), get_if_present as_b y "current_normal" (ncCurNorm st),
            get_if_present as_b y "include_png_penalty" (ncPng st) with
      | Some a, Some b, Some c, Some d, Some e, Some f, Some g => Some (set_nc st a b c d e f g)
      | _, _, _, _, _, _, _ => None
      end
  end.

(** one entry of the sequence: the first key of the chain that the entry has; expect_map throws if its value is not a map;
    no key of the chain: "unknown solution option" *)
Fixpoint run_chain (c : list (string * action)) (e : yaml) (st : opts) : option opts :=
  match c with
  | [] => None
  | (k, a) :: c' => match yget k e with
      | None => run_chain c' e st
      | Some (YMap kvs) => act a kvs st
      | Some _ => None
      end
  end.
Fixpoint load_options (l : list yaml) (st : opts) : option opts :=
  match l with [] => Some st | e :: r => match run_chain chain e st with Some st' => load_options r st' | None => None end end.

Definition bind {A B} (x : option A) (f : A -> option B) : option B := match x with Some a => f a | None => None end.
Notation "'do' x <- e ; k" := (bind e (fun x => k)) (at level 200, x name, e at level 100, k at level 200).

(** SolutionOptions.C:121-250 and 705-712: the scalar commands, the turbulence model, the options sequence and the final sanity
    check (a shifted pressure gradient operator forces reduced sensitivities).  Output is not modelled; get_required "name" is
    modelled as a presence test. *)
Definition load (y_node : yaml) (st : opts) : option opts :=
  match yget "solution_options" y_node with
  | None => Some st
  | Some (YMap kvs) =>
    let y := YMap kvs in
    do nm <- match yget "name" y with Some v => as_s v | None => None end;
    do divU' <- get_if_present as_d y "divU_stress_scaling" (divU st);
    do extDef' <- get_if_present as_b y "externally_provided_mesh_deformation" (extDef st);
    do shift' <- get_if_present as_b y "shift_cvfem_mdot" (shiftMdot st);
    do dep <- match yget "shift_cvfem_poisson" y with Some _ => None | None => Some tt end;
    do red' <- get_if_present as_b y "reduced_sens_cvfem_poisson" (reducedSens st);
    do consA' <- get_if_present as_b y "use_consolidated_solver_algorithm" (consAlg st);
    do consB' <- get_if_present as_b y "use_consolidated_face_elem_bc_algorithm" (consBc st);
    do eigP' <- get_if_present as_b y "eigenvalue_perturbation" false;
    do eigD' <- get_if_present as_d y "eigenvalue_perturbation_delta" 0%R;
    do eigB' <- get_if_present as_n y "eigenvalue_perturbation_bias_towards" 0%nat;
    do eigK' <- get_if_present as_d y "eigenvalue_perturbation_turbulent_ke" 0%R;
    do jm' <- get_if_present as_d y "local_vof_jm" (vofJm st);
    do m' <- get_if_present as_d y "local_vof_m" (vofM st);
    do n' <- get_if_present as_d y "local_vof_n" (vofN st);
    do c' <- get_if_present as_d y "local_vof_c" (vofC st);
    do quad' <- get_if_present as_s y "high_order_quadrature_type" "";
    do acou' <- get_if_present as_b y "use_accoustically_compressible_algorithm" false;
    do bal' <- get_if_present as_b y "activate_balanced_force_algorithm" (balForce st);
    do buoy' <- get_if_present as_b y "activate_buoyancy_pressure_stabilization" (if bal' then true else false);
    do vol' <- get_if_present as_d y "volumetric_source" (volSrc st);
    do wetI' <- get_if_present as_b y "activate_wetted_wall_initialization" (wetInit st);
    do wetD' <- get_if_present as_d y "wetted_wall_initialization_distance" (wetDist st);
    do scale' <- get_if_present as_b y "scale_geometric_properties" (scaleGeom st);
    do tm <- get_if_present as_s y "turbulence_model" "laminar";
    do model <- index_of (case_insensitive_compare tm) TurbulenceModelNames;
    let isT := if Nat.eqb model LAMINAR then isTurbulent st else true in
    let cs := fun k => match nth_error (default_constants model) k with Some v => Some v | None => tconst st k end in
    do dyn' <- get_if_present as_b y "activate_dynamic_turbulence_procedure" (dynProc st);
    do chk <- (if dyn' then (if (Nat.eqb model KSGS || Nat.eqb model LRKSGS)%bool then Some tt else None) else Some tt);
    do clip' <- get_if_present as_d y "dynamic_turbulence_clipping_factor" (dynClip st);
    do rest' <- get_if_present as_d y "input_variables_from_file_restoration_time" (restTime st);
    do int' <- get_if_present as_b y "input_variables_interpolate_in_time" (interpTime st);
    do per' <- get_if_present as_d y "input_variables_from_file_periodic_time" (perTime st);
    let st1 := mkOpts (dm st) (bm st) (sm st) (vsm st) (vdm st) cs model isT (rho_ref st) (t_ref st) (therm_exp st) (stefan st) (gravity st)
      (ncGL st) (ncUpw st) (ncPstab st) (ncDetail st) (ncCoin st) (ncCurNorm st) (ncPng st)
      divU' extDef' shift' red' consA' consB' eigP' eigD' eigB' eigK' jm' m' n' c' quad' acou' bal' buoy' vol' wetI' wetD' scale'
      dyn' clip' rest' int' per' in
    do st2 <- match yget "options" y with None => Some st1 | Some (YSeq l) => load_options l st1 | Some _ => None end;
    Some (if get_b st2 ShiftedGrad "pressure" then set_reduced st2 true else st2)
  | Some _ => None
  end.
End Load.
