(** Transfer of fields between realms: include/xfer/LinInterp.h, FromMesh.h, ToMesh.h, src/xfer/Transfer.C.
    Simplifications: real arithmetic; the topologies are the linear tetrahedron and hexahedron (isInElement and interpolatePoint as in
    ME_Point_Model and ME_Shape_Model); one rank's view, the ghosted copies of from-elements being equal to the originals;
    stk::transfer's coarse search (Trilinos) is any map from points to candidate elements. *)
Require Import Reals List Bool Arith String.
From Verif Require Import ME_Model ME_Shape_Model ME_Point_Model Opt_Model.
Import ListNotations.
Open Scope R_scope.

(** MasterElementRepo::get_surface_master_element *)
Inductive topo := TET4 | HEX8.
Definition npe (t : topo) : nat := match t with TET4 => 4 | HEX8 => 8 end.
(** isInElement; [None] where it divides by zero (degenerate tetrahedron), the comparison nearestDistance < bestX_ is then taken as false *)
Definition is_in (t : topo) (e : nat -> vec) (p : vec) : option found :=
  match t with TET4 => tet_is_in_element e p | HEX8 => Some (hex8_is_in_element e p) end.
(** interpolatePoint for one component *)
Definition interpolate (t : topo) (s : vec) (f : nat -> R) : R := match t with TET4 => tet4_interpolate s f | HEX8 => hex8_interpolate s f end.

(** the from mesh: topology and nodes of each element, coordinates of each node *)
Record fmesh := mkF { f_topo : nat -> topo; f_conn : nat -> nat -> nat; f_coord : nat -> vec }.
Definition elem_coords (m : fmesh) (b ni : nat) : vec := f_coord m (f_conn m b ni).
(** LinInterp.h 88-118: gather of the element coordinates and isInElement for to-point coordinates [p] *)
Definition locate (m : fmesh) (p : vec) (b : nat) : option found := is_in (f_topo m b) (elem_coords m b) p.

(** TransferInfo_ of ToMesh.h: std::map<EntityKey, isoParCoords> *)
Definition tinfo := nat -> option vec.
(** EntityKeyMap: std::multimap<point key, element key>, in iteration order *)
Definition keymap := list (nat * nat).
(** locals of the candidate loop *)
Record cand := mkC { c_best : R; c_near : option nat; c_info : tinfo; c_max : R; c_count : nat }.
(** LinInterp.h 86-129, one candidate [b] of point [pt] *)
Definition cand_step (m : fmesh) (x : nat -> vec) (pt : nat) (st : cand) (b : nat) : cand :=
  let n := S (c_count st) in
  match locate m (x pt) b with
  | None => mkC (c_best st) (c_near st) (c_info st) (c_max st) n
  | Some r =>
      if Rlt_dec (f_dist r) (c_best st) then
        mkC (f_dist r) (Some b) (fun k => if Nat.eqb k pt then Some (f_par r) else c_info st k) (Rmax (c_max st) (f_dist r)) n
      else mkC (c_best st) (c_near st) (c_info st) (c_max st) n
  end.
(** equal_range of the first key: its run and what follows *)
Fixpoint run (k : nat) (m : keymap) : list nat * keymap :=
  match m with
  | (k', b) :: r => if Nat.eqb k' k then let (g, rest) := run k r in (b :: g, rest) else ([], m)
  | [] => ([], [])
  end.
(** diagnostics of one rank: maxBestX and maxCandidateBoundingBox *)
Record diag := mkD { d_max : R; d_count : nat }.
(** LinInterp.h 53-140 filter_to_nearest: [fuel] is the number of pairs; all pairs of the key but the nearest are erased (all of them
    if no candidate came below DBL_MAX) *)
Fixpoint filter_loop (fuel : nat) (m : fmesh) (x : nat -> vec) (km : keymap) (info : tinfo) (d : diag) : keymap * tinfo * diag :=
  match fuel, km with
  | S n, (pt, b) :: r =>
      let (g, rest) := run pt r in
      let st := fold_left (cand_step m x pt) (b :: g) (mkC dbl_max None info (d_max d) 0) in
      let keep := match c_near st with Some b' => [(pt, b')] | None => [] end in
      let '(km', info', d') := filter_loop n m x rest (c_info st) (mkD (c_max st) (Nat.max (d_count d) (c_count st))) in
      ((keep ++ km')%list, info', d')
  | _, _ => ([], info, d)
  end.
Definition filter_to_nearest (m : fmesh) (x : nat -> vec) (km : keymap) (info : tinfo) : keymap * tinfo * diag :=
  filter_loop (List.length km) m x km info (mkD (- dbl_max) 0).

(** a nodal field: number of components, values *)
Record field := mkFld { fl_size : nat; fl_val : nat -> nat -> R }.
(** theField[j] of a node: beyond the field's size the read is out of bounds ([None]) *)
Definition fread (f : field) (node j : nat) : option R := if (j <? fl_size f)%nat then Some (fl_val f node j) else None.
Definition fwrite (f : field) (node j : nat) (v : R) : field :=
  mkFld (fl_size f) (fun n i => if (Nat.eqb n node && Nat.eqb i j)%bool then v else fl_val f n i).
(** gather of component [j] on the element's nodes *)
Fixpoint gather (f : field) (conn : nat -> nat) (j n : nat) : option (list R) :=
  match n with
  | O => Some []
  | S k => match gather f conn j k, fread f (conn k) j with Some l, Some v => Some (l ++ [v])%list | _, _ => None end
  end.
(** clipMap_ lookup by the name of the to-field, LinInterp.h 189-197 *)
Definition clip_of (clips : smap (R * R)) (name : string) : R * R := match clips name with Some c => c | None => (- dbl_max, dbl_max) end.
Definition clip (c : R * R) (v : R) : R := Rmin (snd c) (Rmax v (fst c)).
(** one transferred variable: from-field, name and contents of the to-field *)
Record var := mkV { v_from : field; v_name : string; v_to : field }.
(** LinInterp.h 199-232: gather, interpolate, clip; the number of components is that of the to-field *)
Fixpoint apply_comps (m : fmesh) (clips : smap (R * R)) (from : field) (name : string) (pt b : nat) (s : vec) (comps : list nat) (to : field) : option field :=
  match comps with
  | [] => Some to
  | j :: r => match gather from (f_conn m b) j (npe (f_topo m b)) with
      | None => None
      | Some q => apply_comps m clips from name pt b s r
          (fwrite to pt j (clip (clip_of clips name) (interpolate (f_topo m b) s (fun ni => nth ni q 0))))
      end
  end.
Definition apply_var (m : fmesh) (clips : smap (R * R)) (pt b : nat) (s : vec) (v : var) : option var :=
  option_map (mkV (v_from v) (v_name v)) (apply_comps m clips (v_from v) (v_name v) pt b s (seq 0 (fl_size (v_to v))) (v_to v)).
Fixpoint apply_vars (m : fmesh) (clips : smap (R * R)) (pt b : nat) (s : vec) (vs : list var) : option (list var) :=
  match vs with
  | [] => Some []
  | v :: r => match apply_var m clips pt b s v, apply_vars m clips pt b s r with Some v', Some r' => Some (v' :: r') | _, _ => None end
  end.
(** LinInterp.h 142-234 apply; a missing TransferInfo_ entry throws.  The from and to meshes are different, so that the from-fields
    are not changed; two entries for the same to-field are kept apart here. *)
Fixpoint apply (m : fmesh) (clips : smap (R * R)) (km : keymap) (info : tinfo) (vs : list var) : option (list var) :=
  match km with
  | [] => Some vs
  | (pt, b) :: r => match info pt with
      | None => None
      | Some s => match apply_vars m clips pt b s vs with Some vs' => apply m clips r info vs' | None => None end
      end
  end.

(** Transfer.C 83-260 load *)
Record xfer := mkX { x_realms : string * string; x_from : list string; x_to : list string; x_obj : string;
  x_vars : list (string * string); x_clips : smap (R * R); x_tol : R; x_expand : R }.
Section Load.
Variables (as_d : yaml -> option R) (as_s : yaml -> option string).
Open Scope string_scope.
(** 107-139 one or several part names *)
Definition parts (y : yaml) : option (list string) :=
  match y with YScalar _ => option_map (fun s => [s]) (as_s y) | YSeq l => conv_list as_s l | YNull => Some [] | YMap _ => None end.
Definition pair_of (y : yaml) : option (string * string) :=
  match y with YSeq [a; b] => match as_s a, as_s b with Some a, Some b => Some (a, b) | _, _ => None end | _ => None end.
(** 157-170 *)
Fixpoint read_clips (l : list yaml) (c : smap (R * R)) : option (smap (R * R)) :=
  match l with
  | [] => Some c
  | YSeq [n; lo; hi] :: r => match as_s n, as_d lo, as_d hi with
      | Some n, Some lo, Some hi => read_clips r (upd c n (lo, hi)) | _, _, _ => None end
  | _ => None
  end.
Fixpoint read_pairs (l : list yaml) : option (list (string * string)) :=
  match l with [] => Some [] | y :: r => match pair_of y, read_pairs r with Some p, Some ps => Some (p :: ps) | _, _ => None end end.
(** 203-258 *)
Definition physics_vars (name : string) : option (list (string * string)) :=
  if String.eqb name "fluids_cht" then Some [("heat_transfer_coefficient", "heat_transfer_coefficient"); ("reference_temperature", "reference_temperature")]
  else if String.eqb name "fluids_robin" then Some [("normal_heat_flux", "normal_heat_flux"); ("temperature", "reference_temperature"); ("robin_coupling_parameter", "robin_coupling_parameter")]
  else if String.eqb name "thermal_cht" then Some [("temperature", "temperature"); ("temperature", "temperature_bc")]
  else if String.eqb name "thermal_robin" then Some [("temperature", "temperature"); ("temperature", "temperature_bc")]
  else None.
Definition seq_of (y : yaml) : list yaml := match y with YSeq l => l | _ => [] end.
Definition load_transfer (node : yaml) : option xfer :=
  match yget "name" node, yget "type" node with
  | Some _, Some _ =>
    match get_if_present as_s node "objective" "multi_physics" with None => None | Some obj =>
    match match yget "coupling_physics" node with None => Some None | Some y => option_map Some (as_s y) end with None => None | Some phys =>
    match match yget "realm_pair" node with Some y => pair_of y | None => None end with None => None | Some rp =>
    match match yget "mesh_part_pair" node, yget "from_target_name" node, yget "to_target_name" node with
          | Some y, None, None => option_map (fun p => ([fst p], [snd p])) (pair_of y)
          | Some _, _, _ => None
          | None, Some f, Some t => match parts f, parts t with Some f, Some t => Some (f, t) | _, _ => None end
          | None, _, _ => None
          end with None => None | Some ps =>
    match get_if_present as_d node "search_tolerance" (1/10000)%R with None => None | Some tol =>
    match get_if_present as_d node "search_expansion_factor" (3/2)%R with None => None | Some ex =>
    match match yget "clipped_variables" node with Some y => read_clips (seq_of y) sempty | None => Some sempty end with None => None | Some cl =>
    match match yget "transfer_variables" node with Some y => option_map Some (read_pairs (seq_of y)) | None => Some None end with None => None | Some vars =>
    match phys, vars with
    | Some _, Some _ => None
    | None, None => None
    | None, Some v => Some (mkX rp (fst ps) (snd ps) obj v cl tol ex)
    | Some p, None => option_map (fun v => mkX rp (fst ps) (snd ps) obj v cl tol ex) (physics_vars p)
    end end end end end end end end end
  | _, _ => None
  end.
End Load.

(** Realm.C 4615-4639 augment_transfer_vector: which realm executes the transfer and in which list it goes *)
Inductive objective := MultiPhysics | Initialization | InputOutput | ExternalData.
Definition objective_of (s : string) : option (objective * bool) :=
  (if String.eqb s "multi_physics" then Some (MultiPhysics, false)
   else if String.eqb s "initialization" then Some (Initialization, false)
   else if String.eqb s "input_output" then Some (InputOutput, true)
   else if String.eqb s "external_data" then Some (ExternalData, true) else None)%string.

(** FromMesh.h 153-205 bounding_boxes, one element: minima and maxima starting from 1e16 and -1e16 *)
Definition from_box (m : fmesh) (b : nat) : vec * vec :=
  let l := map (elem_coords m b) (seq 0 (npe (f_topo m b))) in
  let mn f := fold_left (fun a p => Rmin a (f p)) l (10^16) in
  let mx f := fold_left (fun a p => Rmax a (f p)) l (-(10^16)) in
  (V (mn vx) (mn vy) (mn vz), V (mx vx) (mx vy) (mx vz)).
