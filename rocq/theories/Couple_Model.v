(** * Coupled realms: reading transfers, attaching them to realms, and running them from the time integrator

    Files: src/xfer/Transfer.C (load, breadboard), src/xfer/Transfers.C, include/Realms.h (find_realm), src/Realms.C,
    src/Realm.C 1748-1753, 3702-3764, 4615-4720 (augment_transfer_vector, process_*_transfer), src/TimeIntegrator.C
    (through Time_Model).
    Simplifications: an exception is [None]; search_method, search_tolerance, search_expansion_factor and
    clipped_variables are read into members modelled in Xfer_Model and left out here; mesh parts are not looked up;
    output forced by a wall-time limit is left out (C07); what a transfer does to fields is C81, here its execution is
    recorded. *)
From Coq Require Import Reals ZArith List Bool String.
From Verif Require Import Opt_Model Time_Model.
Import ListNotations.
Open Scope string_scope.

(** yaml-cpp: as<std::string>(), size(), [i] *)
Definition as_string (y : yaml) : option string := match y with YScalar s => Some s | YNull => Some "null" | _ => None end.
Definition ysize (y : yaml) : nat := match y with YSeq l => List.length l | YMap l => List.length l | _ => 0 end.
Definition yat (y : yaml) (i : nat) : option yaml := match y with YSeq l => nth_error l i | _ => None end.
Definition bind {A B} (a : option A) (f : A -> option B) : option B := match a with Some x => f x | None => None end.
(** the idiom of Transfer.C 105-109, 124-130, 196-200: exactly two strings *)
Definition two_strings (y : yaml) : option (string * string) :=
  if Nat.eqb (ysize y) 2 then
    bind (bind (yat y 0) as_string) (fun a => bind (bind (yat y 1) as_string) (fun b => Some (a, b)))
  else None.
Fixpoint all_some {A} (l : list (option A)) : option (list A) :=
  match l with [] => Some [] | None :: _ => None | Some a :: l' => option_map (cons a) (all_some l') end.
(** Transfer.C 139-163: one name or a sequence of names *)
Definition names (y : yaml) : option (list string) :=
  match y with
  | YScalar s => Some [s]
  | YSeq l => all_some (map as_string l)
  | _ => Some [] end.

Record xdecl := mkX { x_name : string; x_type : string; x_objective : string; x_realms : string * string;
  x_fromParts : list string; x_toParts : list string; x_vars : list (string * string) }.
(** Transfer.C 221-273 *)
Definition physics_vars (phys : string) : option (list (string * string)) :=
  if String.eqb phys "fluids_cht" then
    Some [("heat_transfer_coefficient", "heat_transfer_coefficient"); ("reference_temperature", "reference_temperature")]
  else if String.eqb phys "fluids_robin" then
    Some [("normal_heat_flux", "normal_heat_flux"); ("temperature", "reference_temperature");
          ("robin_coupling_parameter", "robin_coupling_parameter")]
  else if String.eqb phys "thermal_cht" then Some [("temperature", "temperature"); ("temperature", "temperature_bc")]
  else if String.eqb phys "thermal_robin" then Some [("temperature", "temperature"); ("temperature", "temperature_bc")]
  else None.
(** Transfer.C 113-163 *)
Definition load_parts (n : yaml) : option (list string * list string) :=
  match yget "mesh_part_pair" n with
  | Some p =>
      match yget "from_target_name" n, yget "to_target_name" n with
      | None, None => option_map (fun ab => ([fst ab], [snd ab])) (two_strings p)
      | _, _ => None end
  | None =>
      match yget "from_target_name" n, yget "to_target_name" n with
      | Some f, Some t => bind (names f) (fun f => bind (names t) (fun t => Some (f, t)))
      | _, _ => None end
  end.
(** Transfer.C 188-219 and the choice between named variables and physics *)
Definition load_vars (n : yaml) : option (list (string * string)) :=
  match yget "transfer_variables" n, yget "coupling_physics" n with
  | Some v, None => match v with YSeq l => all_some (map two_strings l) | _ => Some [] end
  | None, Some p => bind (as_string p) physics_vars
  | _, _ => None end.
(** Transfer.C 88-275 *)
Definition load (n : yaml) : option xdecl :=
  bind (bind (yget "name" n) as_string) (fun nm =>
  bind (bind (yget "type" n) as_string) (fun ty =>
  bind (match yget "objective" n with Some o => as_string o | None => Some "multi_physics" end) (fun ob =>
  bind (bind (yget "realm_pair" n) two_strings) (fun rp =>
  bind (load_parts n) (fun ps =>
  bind (load_vars n) (fun vs => Some (mkX nm ty ob rp (fst ps) (snd ps) vs))))))).
(** Transfers.C 54-64 *)
Definition load_all (root : yaml) : option (list xdecl) :=
  match yget "transfers" root with
  | None => Some []
  | Some (YSeq l) => all_some (map load l)
  | Some _ => Some [] end.

(** include/Realms.h 55-63: first realm of that name; realms are numbered in the order of the input file *)
Definition find_realm (realmNames : list string) (s : string) : option nat := index_of (fun r => String.eqb r s) realmNames.
Inductive objective := MultiPhysics | Initialization | InputOutput | ExternalData.
(** the four strings of Realm::augment_transfer_vector *)
Definition objective_of (s : string) : option objective :=
  if String.eqb s "multi_physics" then Some MultiPhysics
  else if String.eqb s "initialization" then Some Initialization
  else if String.eqb s "input_output" then Some InputOutput
  else if String.eqb s "external_data" then Some ExternalData else None.
(** the four vectors of a realm; a transfer is its position in transferVector_ *)
Record rlists := mkRL { l_multi : list nat; l_init : list nat; l_io : list nat; l_ext : list nat }.
(** Realm.C 4615-4639, called on the from realm with the to realm *)
Definition augment (x : nat) (o : objective) (from to : nat) (L : nat -> rlists) : nat -> rlists :=
  let put r (f : rlists -> rlists) := fun a => if Nat.eqb a r then f (L a) else L a in
  match o with
  | MultiPhysics => put from (fun l => mkRL ((l_multi l ++ [x])%list) (l_init l) (l_io l) (l_ext l))
  | Initialization => put from (fun l => mkRL (l_multi l) ((l_init l ++ [x])%list) (l_io l) (l_ext l))
  | InputOutput => put to (fun l => mkRL (l_multi l) (l_init l) ((l_io l ++ [x])%list) (l_ext l))
  | ExternalData => put to (fun l => mkRL (l_multi l) (l_init l) (l_io l) ((l_ext l ++ [x])%list))
  end.
(** Transfer.C 280-296: both realms must exist *)
Definition resolve (realmNames : list string) (d : xdecl) : option (objective * nat * nat) :=
  bind (find_realm realmNames (fst (x_realms d))) (fun f =>
  bind (find_realm realmNames (snd (x_realms d))) (fun t =>
  bind (objective_of (x_objective d)) (fun o => Some (o, f, t)))).
(** Transfers.C 66-72; k is the position of the next transfer *)
Fixpoint breadboard (realmNames : list string) (k : nat) (ds : list xdecl) (L : nat -> rlists) : option (nat -> rlists) :=
  match ds with
  | [] => Some L
  | d :: ds' => bind (resolve realmNames d) (fun oft =>
      breadboard realmNames (S k) ds' (augment k (fst (fst oft)) (snd (fst oft)) (snd oft) L))
  end.
Definition no_lists : nat -> rlists := fun _ => mkRL [] [] [] [].

(** what is recorded: transfer x ran, realm r was solved, realm r wrote results; with the step count *)
Inductive action := Ran (x : nat) (c : Z) | Solved (r : nat) (c : Z) | Wrote (r : nat) (c : Z).
(** solveFrequency_ and the output block of a realm *)
Record rcfg := mkRC { rc_solve : Z; rc_hasOut : bool; rc_outFreq : Z; rc_outStart : Z }.
Definition ran (l : list nat) (c : Z) : list action := map (fun x => Ran x c) l.
(** Realm.C 1748-1753 (undefined for frequency 0) *)
Definition active (f : rcfg) (c : Z) : bool := match active_time_step c (rc_solve f) with Some b => b | None => false end.
(** Realm.C 4641-4720; Realm::advance_time_step 1686-1687; Realm::provide_output 3702-3764 without forced output.
    The IO test is timeStepCount % outputFreq_ == 0 (4690), undefined for frequency 0 *)
Definition did (L : nat -> rlists) (cf : nat -> rcfg) (p : phase) (r : nat) (c : Z) : list action :=
  match p with
  | InitXfer => ran (l_init (L r)) c
  | IoXfer => if (Z.rem c (rc_outFreq (cf r)) =? 0)%Z then ran (l_io (L r)) c else []
  | ExtXfer => ran (l_ext (L r)) c
  | MultiXfer forced => if active (cf r) c || forced then ran (l_multi (L r)) c else []
  | Advance => if active (cf r) c then [Solved r c] else []
  | Output => if fst (provide_output (rc_hasOut (cf r)) (rc_outFreq (cf r)) (rc_outStart (cf r)) c false false) then [Wrote r c] else []
  | _ => [] end.
(** the integrator of Time_Model over the realms [rs] named in its realms list *)
Definition coupled (L : nat -> rlists) (cf : nat -> rcfg) (rs : list nat) (inT : nat -> option R) (rst : nat -> option restart_db)
    (prop : nat -> TI -> list action -> R) : Env :=
  mkEnv (list action) rs (fun p r t w => (w ++ did L cf p r (count t))%list) inT rst prop (fun _ => true) (fun _ _ => 0%R).
