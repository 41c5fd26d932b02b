(** Model of the sparsity graph construction:
    /repo/include/LinearSolver.h lines 54-122 (LocalGraphArrays) and
    /repo/src/TpetraLinearSystem.C (numbering macros, insert_connection, addConnections, row lengths,
    insertion, extra dof rows, removal of unused entries).
    Simplifications: one MPI rank, so every active node is an owned row and the communication and
    shared-not-owned branches do nothing; entities are natural numbers (local_offset); [idx e] is
    entityToLID_[e]/numDof_ = entityToColLID_[e]/numDof_ (equal on one rank, where the column map
    starts with the owned rows, lines 1060-1100); the consistency checks that throw are not modelled.
    Memory is a function from addresses (Z) to values, so that reads outside the allocated range are
    visible in the model instead of being undefined. *)
Require Import ZArith List Lia Bool.
From Coq Require Import Sorting.Mergesort.
Import ListNotations.
Open Scope Z_scope.

(* ------------------------------------------------------------------ numbering *)
(** macros GID_, LID_, GLOBAL_ENTITY_ID, GLOBAL_ENTITY_ID_IDOF, lines 71-75 (C integer division
    and remainder, Z.quot/Z.rem) *)
Definition GID_ (gid ndof idof : Z) : Z := ndof*(gid-1) + idof + 1.
Definition GLOBAL_ENTITY_ID (gid ndof : Z) : Z := Z.quot (gid-1) ndof + 1.
Definition GLOBAL_ENTITY_ID_IDOF (gid ndof : Z) : Z := Z.rem (gid-1) ndof.
(** beginLinearSystemConstruction, lines 259-296: the gids of the owned rows then those of the
    shared-not-owned rows; myLIDs_[id] = numDof_*localId++ *)
Definition gids_of (ndof : nat) (ids : list Z) : list Z :=
  flat_map (fun id => map (fun d => GID_ id (Z.of_nat ndof) (Z.of_nat d)) (seq 0 ndof)) ids.
Fixpoint myLIDs (ndof localId : Z) (ids : list Z) (id : Z) : option Z :=
  match ids with
  | [] => None
  | x :: l => match myLIDs ndof (localId+1) l id with   (* map assignment: the last one wins *)
              | Some v => Some v
              | None => if x =? id then Some (ndof*localId) else None
              end
  end.

(* ------------------------------------------------------------------ LocalGraphArrays *)
Definition INVALID : Z := 2147483647.                       (* line 54 *)
Definition mem := Z -> Z.
Definition upd (m : mem) (a v : Z) : mem := fun x => if x =? a then v else m x.

(** compute_row_pointers, lines 94-106 *)
Fixpoint row_ptr (lens : list nat) (i : nat) : nat :=
  match i, lens with
  | O, _ => 0%nat
  | S k, l :: ls => (l + row_ptr ls k)%nat
  | S _, [] => 0%nat
  end.

(** std::find(row, row+rowLen, INVALID) *)
Fixpoint find_invalid (m : mem) (p : Z) (len : nat) : Z :=
  match len with
  | O => p
  | S k => if m p =? INVALID then p else find_invalid m (p+1) k
  end.
(** std::lower_bound(row, rowEnd, ind): first position whose element is not less than ind (the
    result the standard requires on a sorted range) *)
Fixpoint lower_bound (m : mem) (p : Z) (n : nat) (ind : Z) : Z :=
  match n with
  | O => p
  | S k => if m p <? ind then lower_bound m (p+1) k ind else p
  end.
(** insert, lines 113-121 *)
Definition shift_addrs (ip rowEnd : Z) : list Z :=
  map (fun k => rowEnd - 1 - Z.of_nat k) (seq 0 (Z.to_nat (rowEnd - 1 - ip))).
Definition insert (m : mem) (ind : Z) (ndof : nat) (ip rowEnd : Z) : mem :=
  let m1 := fold_left (fun m ptr => upd m ptr (m (ptr - Z.of_nat ndof))) (shift_addrs ip rowEnd) m in
  fold_left (fun m i => upd m (ip + Z.of_nat i) (ind + Z.of_nat i)) (seq 0 ndof) m1.
(** insertIndices, lines 77-92 *)
Definition insert_step (p : Z) (ndof : nat) (s : mem * Z) (ind : Z) : mem * Z :=
  let '(m, rowEnd) := s in
  let ip := lower_bound m p (Z.to_nat (rowEnd - p)) ind in
  if (ip <=? rowEnd) && negb (m ip =? ind)
  then (insert m ind ndof ip (rowEnd + Z.of_nat ndof), rowEnd + Z.of_nat ndof)
  else (m, rowEnd).
Definition insertIndices (m : mem) (p : Z) (len : nat) (inds : list Z) (ndof : nat) : mem :=
  fst (fold_left (insert_step p ndof) inds (m, find_invalid m p len)).
(** addresses read by the shifting loop *)
Definition insert_reads (ndof : nat) (ip rowEnd : Z) : list Z :=
  map (fun a => a - Z.of_nat ndof) (shift_addrs ip rowEnd).

(* ------------------------------------------------------------------ connections *)
Section Graph.
Variable idx : nat -> nat.          (* entity -> row block *)
Variable gid : nat -> nat.          (* entity -> naluGlobalId *)

(** insert_connection, lines 329-349 *)
Definition insert_connection (c : nat -> list nat) (a b : nat) : nat -> list nat :=
  fun i => if Nat.eqb i (idx a)
           then (if existsb (Nat.eqb b) (c i) then c i else c i ++ [b])
           else c i.
(** addConnections, lines 351-367 *)
Fixpoint add_pairs (c : nat -> list nat) (a : nat) (rest : list nat) : nat -> list nat :=
  match rest with
  | [] => c
  | b :: r =>
      let a_then_b := Nat.ltb (gid a) (gid b) in
      let c' := insert_connection c (if a_then_b then a else b) (if a_then_b then b else a) in
      add_pairs c' a r
  end.
Fixpoint addConnections (c : nat -> list nat) (entities : list nat) : nat -> list nat :=
  match entities with
  | [] => c
  | a :: rest => addConnections (add_pairs (insert_connection c a a) a rest) rest
  end.
(** buildConnectedNodeGraph and the other build*Graph functions, lines 369-510: addConnections for
    every edge/face/element *)
Definition build (elems : list (list nat)) : nat -> list nat :=
  fold_left addConnections elems (fun _ => []).

(* ------------------------------------------------------------------ finalizeLinearSystem *)
Variable ndof : nat.
Variable rowEntities : list nat.    (* ownedAndSharedNodes_ *)
Notation N := (length rowEntities).

(** sort_connections, lines 659-664 *)
Definition sorted_conn (c : nat -> list nat) : nat -> list nat := fun i => NatSort.sort (c i).

(** the insertions of insert_graph_connections (lines 884-925) and, in the same order, the
    additions of compute_graph_row_lengths (lines 800-856): (row block, column entities) *)
Definition requests (c : nat -> list nat) : list (nat * list nat) :=
  flat_map (fun i =>
     let a := nth i rowEntities 0%nat in
     match c i with
     | [] => []
     | cols => (idx a, cols) :: map (fun b => (idx b, [a])) (filter (fun b => negb (Nat.eqb b a)) cols)
     end) (seq 0 N).
(** row lengths: for each dof of the row block, numDof*numColEntities is added (add_to_length,
    lines 666-677) *)
Definition block_len (reqs : list (nat * list nat)) (i : nat) : nat :=
  fold_left (fun n r => if Nat.eqb (fst r) i then (n + ndof * length (snd r))%nat else n) reqs 0%nat.
Definition row_lengths (reqs : list (nat * list nat)) : list nat :=
  flat_map (fun i => map (fun _ => block_len reqs i) (seq 0 ndof)) (seq 0 N).
(** insert_single_dof_row_into_graph (lines 858-867): only the row of the first dof is filled *)
Definition insert_requests (lens : list nat) (reqs : list (nat * list nat)) (m : mem) : mem :=
  fold_left (fun m r =>
     let row := (ndof * fst r)%nat in
     insertIndices m (Z.of_nat (row_ptr lens row)) (nth row lens 0%nat)
       (map (fun e => Z.of_nat (ndof * idx e)) (snd r)) ndof) reqs m.
(** fill_in_extra_dof_rows_per_node, lines 1219-1240 *)
Definition copy_row (m : mem) (src dst : Z) (len : nat) : mem :=
  fold_left (fun m j => upd m (dst + Z.of_nat j) (m (src + Z.of_nat j))) (seq 0 len) m.
Definition fill_extra (lens : list nat) (m : mem) : mem :=
  if Nat.eqb ndof 1 then m else
  fold_left (fun m i =>
     let row := (ndof * i)%nat in
     let rowLen := nth row lens 0%nat in
     let p := Z.of_nat (row_ptr lens row) in
     fold_left (fun m d => copy_row m p (p + Z.of_nat rowLen * Z.of_nat d) rowLen) (seq 1 (ndof-1)) m)
   (seq 0 N) m.
(** remove_invalid_indices, lines 1187-1217 *)
Fixpoint used_len (m : mem) (p : Z) (j old : nat) : nat :=   (* loop j-1 .. 0 *)
  match j with
  | O => old
  | S k => if negb (m (p + Z.of_nat k) =? INVALID) then S k else used_len m p k old
  end.
Definition read_row (m : mem) (p : Z) (n : nat) : list Z := map (fun k => m (p + Z.of_nat k)) (seq 0 n).
Definition remove_invalid (lens : list nat) (m : mem) : list nat * list Z :=
  let nrows := length lens in
  let newLens := map (fun i => used_len m (Z.of_nat (row_ptr lens i)) (nth i lens 0%nat) (nth i lens 0%nat)) (seq 0 nrows) in
  let newNnz := row_ptr newLens nrows in
  let nnz := row_ptr lens nrows in
  if Nat.ltb newNnz nnz
  then (newLens, flat_map (fun i => read_row m (Z.of_nat (row_ptr lens i)) (nth i newLens 0%nat)) (seq 0 nrows))
  else (newLens, read_row m 0 nnz).

(** finalizeLinearSystem, lines 1262-1300: the CSR arrays handed to the matrix *)
Definition finalize (elems : list (list nat)) : list nat * list Z :=
  let c := sorted_conn (build elems) in
  let reqs := requests c in
  let lens := row_lengths reqs in
  let m := insert_requests lens reqs (fun _ => INVALID) in
  remove_invalid lens (fill_extra lens m).
(** row r of CSR arrays (lengths, column indices) *)
Definition csr_row (g : list nat * list Z) (r : nat) : list Z :=
  firstn (nth r (fst g) 0%nat) (skipn (row_ptr (fst g) r) (snd g)).
End Graph.
