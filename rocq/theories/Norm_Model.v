(** Solution norms against analytic fields: src/SolutionNormPostProcessing.C.
    Simplifications: real arithmetic; a node is a number; a bucket is the list of its nodes and, for each
    field, its contiguous storage read through the flat index of the code; one list of buckets per rank holds
    the locally owned, active nodes of the target parts (stk's selector); all_reduce_sum/max combine the
    ranks' values; the text file is the list of rows written, a division 0/0 is None. *)
Require Import String.
Require Import Reals List Bool Arith.
From Verif Require Import Edge_Model Opt_Model.
Import ListNotations.
Open Scope R_scope.
Open Scope list_scope.

(** one dof: the sizes saved by setup (line 198: max_size) and the actual number of components stored *)
Record fpair := mkF {
  f_size : nat;                       (* sizeOfEachField_[j] *)
  f_stride : nat;                     (* field_scalars_per_entity of the dof field on these buckets *)
  f_dof : nat -> nat -> R;            (* dof field: node, component *)
  f_exact : nat -> nat -> R }.        (* exact field: node, component *)
Definition bucket := list nat.
(** field_data(field, b): flat storage of the bucket with the field's own stride *)
Definition field_data (stride : nat) (q : nat -> nat -> R) (b : bucket) (m : nat) : R :=
  q (nth (m / stride) b O) (m mod stride).

(** the local counters: l_LooNorm, l_L12Norm, l_nodeCount *)
Record norms := mkN { n_oo : nat -> R; n_12 : nat -> R; n_count : nat }.
(** lines 349-354 *)
Definition init_norms : norms := mkN (fun _ => - (10 ^ 16)) (fun _ => 0) 0.
Definition put (v : nat -> R) (a : nat) (x : R) : nat -> R := fun m => if Nat.eqb m a then x else v m.
(** lines 384-390: one component of one node *)
Definition component (total offSet : nat) (f : fpair) (b : bucket) (k : nat) (s : norms) (i : nat) : norms :=
  let diff := Rabs (field_data (f_stride f) (f_dof f) b (k * f_size f + i)
                    - field_data (f_size f) (f_exact f) b (k * f_size f + i)) in
  mkN (put (n_oo s) (offSet + i) (Rmax diff (n_oo s (offSet + i)%nat)))
      (let v := put (n_12 s) (offSet + i) (n_12 s (offSet + i)%nat + diff) in
       put v (offSet + i + total) (v (offSet + i + total)%nat + diff * diff))
      (n_count s).
(** lines 381-391 *)
Definition field_loop (total offSet : nat) (f : fpair) (b : bucket) (s : norms) : norms :=
  fold_left (fun s k => fold_left (component total offSet f b k) (seq 0 (f_size f)) s) (seq 0 (List.length b)) s.
(** lines 357-395: one bucket; the offset is advanced after each field *)
Definition bucket_loop (total : nat) (fs : list fpair) (s : norms) (b : bucket) : norms :=
  let s := mkN (n_oo s) (n_12 s) (n_count s + List.length b) in
  fst (fold_left (fun st f => (field_loop total (snd st) f b (fst st), (snd st + f_size f)%nat)) fs (s, O)).
(** setup lines 195-204: totalDofCompSize_ *)
Definition total_size (fs : list fpair) : nat := fold_left (fun a f => (a + f_size f)%nat) fs O.
Definition rank_norms (fs : list fpair) (bs : list bucket) : norms :=
  fold_left (bucket_loop (total_size fs) fs) bs init_norms.
(** lines 397-413 *)
Definition reduce_max (vs : list R) : R := fold_left Rmax (tl vs) (hd 0 vs).
Definition reduce_sum (vs : list R) : R := fold_left Rplus vs 0.
Definition all_norms (fs : list fpair) (ranks : list (list bucket)) : norms :=
  let ls := map (rank_norms fs) ranks in
  mkN (fun m => reduce_max (map (fun l => n_oo l m) ls)) (fun m => reduce_sum (map (fun l => n_12 l m) ls))
      (fold_left (fun a l => (a + n_count l)%nat) ls O).
(** one line of the file, 426-436 *)
Record row := mkRow { w_field : nat; w_comp : nat; w_count : nat; w_oo : R; w_1 : option R; w_2 : option R }.
Definition div_count (x : R) (c : nat) : option R := if Nat.eqb c 0 then None else Some (x / INR c).
Definition rows (fs : list fpair) (g : norms) : list row :=
  let total := total_size fs in
  fst (fold_left (fun st (jf : nat * fpair) =>
         (fst st ++ map (fun i => mkRow (fst jf) i (n_count g) (n_oo g (snd st + i)%nat)
             (div_count (n_12 g (snd st + i)%nat) (n_count g))
             (option_map sqrt (div_count (n_12 g (snd st + i + total)%nat) (n_count g)))) (seq 0 (f_size (snd jf))),
          (snd st + f_size (snd jf))%nat))
       (combine (seq 0 (List.length fs)) fs) (@nil row, O)).
(** lines 322-326: execute at a step; the outer None is the undefined modulus by zero *)
Definition execute (freq step : nat) (fs : list fpair) (ranks : list (list bucket)) : option (list row) :=
  if Nat.eqb freq 0 then None
  else if Nat.eqb (step mod freq) 0 then Some (rows fs (all_norms fs ranks)) else Some [].

(** Population of the exact fields: setup lines 186-225 and lines 333-334.  The exact field of a dof is found
    by its name, so two pairs with the same dof name share it; the algorithms run in the order created. *)
Definition mesh_part := list nat.
Definition function := nat -> nat -> R.       (* an analytic function evaluated at the current time: node, component *)
Definition populate (pairs : list (string * function)) (parts : list mesh_part)
  (ex : string -> nat -> nat -> R) : string -> nat -> nat -> R :=
  fold_left (fun ex (p : string * function) =>
    fold_left (fun ex (part : mesh_part) => fun nm a i =>
      if String.eqb nm (fst p) && existsb (Nat.eqb a) part then snd p a i else ex nm a i) parts ex) pairs ex.

(** load, lines 87-143 *)
Record settings := mkS { z_freq : string; z_file : string; z_w : string; z_prec : string;
  z_targets : list string; z_pairs : list (string * string) }.
(** get_if_present of a scalar with the member as its own default; reading a scalar can fail *)
Definition get_scalar (y : yaml) (k : string) (old : string) : option string :=
  match yget k y with
  | None => Some old
  | Some (YScalar v) => Some v
  | Some _ => None end.
Definition as_string (y : yaml) : option string := match y with YScalar v => Some v | _ => None end.
Fixpoint all_some {A B} (f : A -> option B) (l : list A) : option (list B) :=
  match l with
  | [] => Some []
  | x :: l => match f x, all_some f l with Some y, Some r => Some (y :: r) | _, _ => None end end.
Definition read_targets (y : yaml) : option (list string) :=
  match yget "target_name"%string y with
  | None => None                                        (* line 125 throws *)
  | Some (YScalar v) => Some [v]
  | Some (YSeq l) => all_some as_string l
  | Some _ => None end.
Definition read_pair (y : yaml) : option (string * string) :=
  match y with
  | YSeq [a; b] => match as_string a, as_string b with Some a, Some b => Some (a, b) | _, _ => None end
  | _ => None end.                                      (* line 138 throws *)
Definition read_pairs (y : yaml) : option (list (string * string)) :=
  match yget "dof_user_function_pair"%string y with
  | None => Some []
  | Some (YSeq l) => all_some read_pair l
  | Some (YScalar _) => Some []                         (* size() of a scalar is 0 *)
  | Some YNull => Some []
  | Some _ => None end.
Definition defaults : settings := mkS "100" "norms.dat" "12" "6" [] [].
Definition load_norm (node : yaml) : option settings :=
  match yget "solution_norm"%string node with
  | None => Some defaults
  | Some y =>
    match get_scalar y "output_frequency" (z_freq defaults), get_scalar y "file_name" (z_file defaults),
          get_scalar y "spacing" (z_w defaults), get_scalar y "percision" (z_prec defaults) with
    | Some fr, Some fl, Some w, Some p =>
      match get_scalar y "precision" p, read_targets y, read_pairs y with
      | Some p, Some ts, Some ps => Some (mkS fr fl w p ts ps)
      | _, _, _ => None end
    | _, _, _, _ => None end end.
(** analytical_function_factory, lines 232-311: the names it accepts *)
Definition known_functions : list string :=
  ["steady_2d_thermal"; "steady_3d_thermal"; "steady_3d_thermal_dtdx"; "SteadyTaylorVortexVelocity";
   "VariableDensityVelocity"; "VariableDensityNonIsoVelocity"; "SteadyTaylorVortexGradPressure";
   "VariableDensityMixtureFraction"; "VariableDensityNonIsoTemperature"; "BoussinesqNonIsoVelocity";
   "BoussinesqNonIsoTemperature"; "kovasznay"; "kovasznay_dpdx"; "convecting_taylor_vortex";
   "convecting_taylor_vortex_dpdx"; "OneTwoTenVelocity"; "wind_energy_taylor_vortex";
   "wind_energy_taylor_vortex_dpdx"; "concentric"]%string.
(** setup, lines 160-226: which configurations are accepted; [parts] and [fields] are the names in the mesh *)
Definition setup_ok (parts fields : list string) (s : settings) : bool :=
  let known l x := existsb (String.eqb x) l in
  forallb (known parts) (z_targets s)
  && forallb (fun p => known fields (fst p)
                       && (Nat.eqb (List.length (z_targets s)) 0 || known known_functions (snd p))) (z_pairs s).
