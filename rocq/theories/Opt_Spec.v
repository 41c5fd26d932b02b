(** What the user's manual promises about solution options, without reference to how they are stored.
    The documented form of the [options] list is a sequence of entries "- keyword: {field: value, ...}". *)
Require Import Reals List Bool String.
From Verif Require Import Opt_Model.
Import ListNotations.
Open Scope string_scope.

(** one documented entry of the options list *)
Definition entry : Type := (string * list (string * yaml))%type.
Definition to_yaml (e : entry) : yaml := YMap [(fst e, YMap (snd e))].

(** all values given for [field] under one of the keywords, in the order written *)
Definition given (keywords : list string) (es : list entry) (field : string) : list yaml :=
  flat_map (fun e : entry => if existsb (String.eqb (fst e)) keywords
                             then map snd (filter (fun p => String.eqb (fst p) field) (snd e)) else []) es.
Fixpoint last_of {A} (l : list A) : option A := match l with [] => None | [a] => Some a | _ :: r => last_of r end.

(** keywords of each option *)
Definition d_keywords (o : dopt) : list string :=
  match o with
  | Hybrid => ["hybrid_factor"] | Alpha => ["alpha"] | AlphaUpw => ["alpha_upw"] | Upw => ["upw_factor"]
  | LamSc => ["laminar_schmidt"] | LamPr => ["laminar_prandtl"] | TurbSc => ["turbulent_schmidt"] | TurbPr => ["turbulent_prandtl"]
  | TanhTrans => ["peclet_function_tanh_transition"; "tanh_transition"] | TanhWidth => ["peclet_function_tanh_width"; "tanh_width"]
  end.
Definition b_keywords (o : bopt) : list string :=
  match o with Limiter => ["limiter"] | Noc => ["noc_correction"] | ShiftedGrad => ["shifted_gradient_operator"]
             | SkewSym => ["skew_symmetric_advection"] | ConsMM => ["consistent_mass_matrix_png"] end.
Definition s_keywords (o : sopt) : list string :=
  match o with TanhForm => ["peclet_function_form"; "blending_function_form"] | NodalGrad => ["projected_nodal_gradient"]
             | InputVar => ["input_variables_from_file"] end.
Definition vs_keywords (o : vsopt) : list string := match o with SrcTerms => ["source_terms"] | ElemSrcTerms => ["element_source_terms"] end.
Definition vd_keywords (o : vdopt) : list string :=
  match o with SrcParam => ["source_term_parameters"] | ElemSrcParam => ["element_source_term_parameters"] end.

(** defaults *)
Definition d_default (o : dopt) : R :=
  match o with Hybrid => 0 | Alpha => 0 | AlphaUpw => 1 | Upw => 1 | LamSc => 1 | LamPr => 1 | TurbSc => 1 | TurbPr => 1
             | TanhTrans => 2 | TanhWidth => 4 end%R.
Definition b_default (o : bopt) : bool :=
  match o with Limiter => false | Noc => true | ShiftedGrad => false | SkewSym => false | ConsMM => false end.

(** [doc] is an input deck whose options list is [es] *)
Definition deck_options (doc : yaml) (es : list entry) : Prop :=
  exists kvs, yget "solution_options" doc = Some (YMap kvs) /\ yget "options" (YMap kvs) = Some (YSeq (map to_yaml es)).

(** a query [q] honours the values [ys] given (last one wins) with conversion [conv], and the default otherwise *)
Definition honours {V} (conv : yaml -> option V) (ys : list yaml) (dflt q : V) : Prop :=
  match last_of ys with Some y => conv y = Some q | None => q = dflt end.

(** turbulence model constants by enumerator *)
Definition turbulence_constants_default (model : nat) : list R :=
  let sst := orb (Nat.eqb model 4) (Nat.eqb model 5) in
  [0.09; 0.41; 0.61; 0.78; (if sst then 10 else 500); 0.0856; 0.845; 0.09; 0.31; 0.075; 0.0828; 5/9; 0.44; 0.85; 1; 0.5; 0.856;
   0.17; 0.325; 0.35; 1; 0.5; 0.9; 9.8; 11.63; 1.44; 1.92]%R.
