(** * Assembly of a linear system: element and face loops, the algorithms registered for a system, boundary data

    Files: include/AssembleElemSolverAlgorithm.h 52-105, src/AssembleElemSolverAlgorithm.C 72-100,
    include/AssembleFaceElemSolverAlgorithm.h 45-131, src/AssembleFaceElemSolverAlgorithm.C 75-105,
    include/kernel/KernelBuilder.h 290-414 (build_or_add_part_to_...), src/SolverAlgorithmDriver.C 93-122,
    src/DirichletBC.C, src/FixPressureAtNodeAlgorithm.C 53-79, src/AuxFunctionAlgorithm.C, src/CopyFieldAlgorithm.C,
    src/EquationSystems.C 905-928, src/Realm.C 4006-4013.
    Simplifications: one rank (C14-C16 treat the export to owners); the row search of sumInto is C14, here its effect is the
    sum over the pairs of local degrees of freedom; Kokkos loops are sequential; a kernel is any function of the data of its
    SIMD lanes. *)
From Coq Require Import Reals List Bool Arith ZArith.
From Verif Require Import Simd_Model Edge_Model.
Import ListNotations.
Open Scope R_scope.

(** dense local system: left-hand side row by row, right-hand side *)
Record loc := mkL { l_L : nat -> R; l_B : nat -> R }.
Definition loc0 : loc := mkL (fun _ => 0) (fun _ => 0).
Definition ladd (a b : loc) : loc := mkL (fun i => l_L a i + l_L b i) (fun i => l_B a i + l_B b i).
(** global system *)
Record gsys := mkG { g_A : nat -> nat -> R; g_b : nat -> R }.
Definition gzero : gsys := mkG (fun _ _ => 0) (fun _ => 0).
Definition gadd (a b : gsys) : gsys := mkG (fun r c => g_A a r c + g_A b r c) (fun r => g_b a r + g_b b r).
Definition hit (a b : nat) : R := if Nat.eqb a b then 1 else 0.
(** apply_coeff: what a dense local system with degrees of freedom [ids] adds (C14) *)
Definition scatter (ids : list nat) (l : loc) : gsys :=
  let n := length ids in
  mkG (fun r c => sumn n (fun i => sumn n (fun j => hit (nth i ids 0%nat) r * hit (nth j ids 0%nat) c * l_L l (i*n+j)%nat)))
      (fun r => sumn n (fun i => hit (nth i ids 0%nat) r * l_B l i)).
Definition apply_coeff (ids : list nat) (l : loc) (s : gsys) : gsys := gadd s (scatter ids l).

Section Loops.
Variable D : Type.                       (* fields gathered for one entity and its master-element data *)
Variable gather : nat -> D.              (* fill_pre_req_data, fill_master_element_views *)
Variable dofs : nat -> list nat.         (* degrees of freedom of the entity's nodes *)
Variable W : nat.                        (* simdLen *)
(** Kernel::execute on SIMD data; lanes are indexed first *)
Definition kernel := (nat -> D) -> (nat -> loc) -> (nat -> loc).
(** copy_and_interleave (C25): lanes below [n] are replaced, the others keep what was there *)
Definition put_lanes (n : nat) (views : nat -> D) (old : nat -> D) : nat -> D := fun l => if Nat.ltb l n then views l else old l.
(** AssembleElemSolverAlgorithm.C 82-98 for one group of entities; the shared data survives to the next group *)
Definition group (ks : list kernel) (es : list nat) (st : (nat -> D) * gsys) : (nat -> D) * gsys :=
  let n := length es in
  let data := put_lanes n (fun l => gather (nth l es 0%nat)) (fst st) in
  let acc := fold_left (fun a k => k data a) ks (fun _ => loc0) in
  (data, fold_left (fun s l => apply_coeff (dofs (nth l es 0%nat)) (acc l) s) (seq 0 n) (snd st)).
(** groups of a bucket, .h 81-94 *)
Definition groups (b : list nat) : list (list nat) :=
  map (fun g => map (fun lane => nth (g*W + lane) b 0%nat)
                    (seq 0 (Z.to_nat (get_length_of_next_simd_group (Z.of_nat W) (Z.of_nat g) (Z.of_nat (length b))))))
      (seq 0 (get_num_simd_groups W (length b))).
(** run_algorithm; every bucket has its own shared data *)
Definition elem_execute (ks : list kernel) (fresh : nat -> D) (buckets : list (list nat)) (s : gsys) : gsys :=
  fold_left (fun s b => snd (fold_left (fun st es => group ks es st) (groups b) (fresh, s))) buckets s.

(** AssembleFaceElemSolverAlgorithm.h 95-130: inside a group, runs of faces with the same ordinal in their element *)
Variable ordinal : nat -> nat.
Definition fkernel := nat -> kernel.
(** the inner while: faces taken until one has another ordinal *)
Fixpoint take_run (o : nat) (l : list nat) : list nat :=
  match l with [] => [] | f :: l' => if Nat.eqb (ordinal f) o then f :: take_run o l' else [] end.
(** the do-while; the fuel is the number of faces left *)
Fixpoint runs (fuel : nat) (l : list nat) : list (list nat) :=
  match fuel, l with
  | S fuel', f :: _ => let r := take_run (ordinal f) l in r :: runs fuel' (skipn (length r) l)
  | _, _ => [] end.
Definition face_group (ks : list fkernel) (es : list nat) (st : (nat -> D) * gsys) : (nat -> D) * gsys :=
  group (map (fun k => k (ordinal (hd 0%nat es))) ks) es st.
Definition face_execute (ks : list fkernel) (fresh : nat -> D) (buckets : list (list nat)) (s : gsys) : gsys :=
  fold_left (fun s b => snd (fold_left (fun st g => fold_left (fun st es => face_group ks es st) (runs (length g) g) st) (groups b) (fresh, s))) buckets s.
End Loops.

(** ** registration: std::map keyed by name or algorithm type; parts of an existing entry are extended *)
(** KernelBuilder.h 308-322: a part already there is not added again *)
Fixpoint register (k : nat) (p : nat) (m : list (nat * list nat)) : list (nat * list nat) :=
  match m with
  | [] => [(k, [p])]
  | (k', ps) :: m' => if Nat.eqb k k' then (k', if existsb (Nat.eqb p) ps then ps else ps ++ [p]) :: m'
                      else if Nat.ltb k k' then (k, [p]) :: (k', ps) :: m' else (k', ps) :: register k p m'
  end.
Definition register_all (l : list (nat * nat)) : list (nat * list nat) := fold_left (fun m kp => register (fst kp) (snd kp) m) l [].
(** selectUnion(partVec_): each entity of the mesh once *)
Definition selected (member : nat -> nat -> bool) (ps : list nat) (mesh : list nat) : list nat :=
  filter (fun e => existsb (fun p => member p e) ps) mesh.

(** ** SolverAlgorithmDriver::execute *)
(** DirichletBC: rows and the fields read; FixPressureAtNodeAlgorithm: a node and the reference pressure.
    One degree of freedom per node *)
Inductive dir := Dirichlet (rows : nat -> bool) (bc : nat -> R) | RefPressure (node : nat) (p : R).
Definition dir_rows (d : dir) (r : nat) : bool := match d with Dirichlet rows _ => rows r | RefPressure n _ => Nat.eqb r n end.
Definition dir_value (d : dir) (r : nat) : R := match d with Dirichlet _ bc => bc r | RefPressure _ p => p end.
Definition apply_dir (q : nat -> R) (s : gsys) (d : dir) : gsys :=
  mkG (fun r c => if dir_rows d r then hit r c else g_A s r c) (fun r => if dir_rows d r then dir_value d r - q r else g_b s r).
(** prepareConstraints then the constraint rows *)
Definition apply_con (s : gsys) (con : (nat -> bool) * gsys) : gsys :=
  gadd (mkG (fun r c => if fst con r then 0 else g_A s r c) (fun r => if fst con r then 0 else g_b s r)) (snd con).
(** lines 97-119: named algorithms, typed algorithms, constraints, boundary values in the order of their keys *)
Definition driver (named typed : list gsys) (cons : list ((nat -> bool) * gsys)) (dirs : list dir) (q : nat -> R) : gsys :=
  fold_left (apply_dir q) dirs (fold_left apply_con cons (fold_left gadd typed (fold_left gadd named gzero))).

(** register_inflow_bc etc. (e.g. VolumeOfFluidEquationSystem.C 478-490, 636-650): one DirichletBC per algorithm type, with
    the field of the first registration; later parts are appended to it. Entries are (type, rows, field) *)
Fixpoint reg_dir (k : nat) (part : nat -> bool) (field : nat) (m : list (nat * (nat -> bool) * nat)) : list (nat * (nat -> bool) * nat) :=
  match m with
  | [] => [(k, part, field)]
  | (k', rows, f') :: m' => if Nat.eqb k k' then (k', fun n => rows n || part n, f') :: m'
                            else if Nat.ltb k k' then (k, part, field) :: m else (k', rows, f') :: reg_dir k part field m'
  end.
Definition reg_dirs (l : list (nat * (nat -> bool) * nat)) : list (nat * (nat -> bool) * nat) :=
  fold_left (fun m e => reg_dir (fst (fst e)) (snd (fst e)) (snd e) m) l [].
Definition dirs_of (m : list (nat * (nat -> bool) * nat)) (values : nat -> nat -> R) : list dir :=
  map (fun e => Dirichlet (snd (fst e)) (values (snd e))) m.

(** ** boundary data *)
(** a registered AuxFunctionAlgorithm: nodes of its part, field written, function of time and node *)
Record bcalg := mkBC { b_nodes : nat -> bool; b_field : nat; b_fun : R -> nat -> R }.
Definition fields := nat -> nat -> R.    (* field, node *)
Definition run_bc (t : R) (f : fields) (a : bcalg) : fields :=
  fun k n => if Nat.eqb k (b_field a) && b_nodes a n then b_fun a t n else f k n.
(** populate_boundary_data: algorithms in the order of registration *)
Definition populate (t : R) (l : list bcalg) (f : fields) : fields := fold_left (run_bc t) l f.
(** CopyFieldAlgorithm, boundary_data_to_state_data: (nodes, from field), in the order of registration *)
Definition to_state (l : list ((nat -> bool) * nat)) (f : fields) (q : nat -> R) : nat -> R :=
  fold_left (fun (q : nat -> R) (a : (nat -> bool) * nat) => fun n : nat => if fst a n then f (snd a) n else q n) l q.
