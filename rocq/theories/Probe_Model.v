(** Data probes: src/DataProbePostProcessing.C.
    Simplifications: real arithmetic; the points of a probe are numbered by their position in nodeVec; stk's
    declare_entity / bucket iteration enter through the number of probe nodes held by each rank; the transfer of
    values is that of Xfer_Model (C81); the file is the list of lines written to it (None: does not exist). *)
Require Import String.
Require Import Reals List Bool Arith.
From Verif Require Import Edge_Model Opt_Model.
Import ListNotations.
Open Scope R_scope.
Open Scope list_scope.

Definition rvec := nat -> R.
(** the three kinds of probe with what load() reads for them, lines 212-390 *)
Inductive shape :=
| Line (n : nat) (tip tail : rvec)                                  (* line_of_site_specifications *)
| Plane (n1 n2 : nat) (tail tip1 tip2 : rvec)                       (* plane_specifications *)
| Ring (n nline : nat) (tip tail normal origin : rvec).             (* ring_specifications *)
(** numTotalPoints_, lines 243, 303, 360 *)
Definition total_points (s : shape) : nat :=
  match s with Line n _ _ => n | Plane n1 n2 _ _ _ => n1 * n2 | Ring n nl _ _ _ _ => n * nl end.

Record probe := mkP { p_name : string; p_shape : shape }.
(** lines 195-200: divProcProbe = max(numProcs/numProbes, numProcs); None: division by zero *)
Definition div_proc_probe (numProcs numProbes : nat) : option nat :=
  match numProbes with O => None | S _ => Some (Nat.max (numProcs / numProbes) numProcs) end.
(** lines 214-222 etc.: the rank of the probe with the given counter; lines are counted first, then planes, then rings *)
Definition candidate_id (d counter : nat) : nat := if (0 <? d)%nat then counter mod d else O.
Definition load_probes (numProcs : nat) (lines planes rings : list probe) : option (list (probe * nat)) :=
  let ps := lines ++ planes ++ rings in
  match div_proc_probe numProcs (List.length ps) with
  | None => None
  | Some d => Some (combine ps (map (candidate_id d) (seq 0 (List.length ps)))) end.
(** initialize, lines 546-563 (fresh part): every rank generates the ids, the chosen rank declares all the nodes;
    number of nodes in nodeVec on a rank *)
Definition nodes_on_rank (s : shape) (chosen rank : nat) : nat := if Nat.eqb chosen rank then total_points s else O.
(** lines 564-601 (part found in the mesh, e.g. after a restart): nodeVec are the probe nodes this rank owns, and the
    probe is on this rank if it owns any *)
Definition restart_on_rank (owned : nat) : bool := negb (Nat.eqb owned 0).

(** compute_R, lines 967-986 *)
Definition compute_R (theta : R) (u : rvec) : nat -> R :=
  let sT := sin theta in let cT := cos theta in let om := 1 - cT in
  fun k => match k with
  | 0%nat => cT + u 0%nat*u 0%nat*om | 1%nat => u 0%nat*u 1%nat*om - u 2%nat*sT | 2%nat => u 0%nat*u 2%nat*om + u 1%nat*sT
  | 3%nat => u 1%nat*u 0%nat*om + u 2%nat*sT | 4%nat => cT + u 1%nat*u 1%nat*om | 5%nat => u 1%nat*u 2%nat*om - u 0%nat*sT
  | 6%nat => u 2%nat*u 0%nat*om - u 1%nat*sT | 7%nat => u 2%nat*u 1%nat*om + u 0%nat*sT | _ => cT + u 2%nat*u 2%nat*om
  end.
(** mat_vec, lines 988-1000 *)
Definition mat_vec (coord : rvec) (M : nat -> R) : rvec := fun i => sumn 3 (fun j => coord j * M (i*3 + j)%nat).

Definition coords := nat -> rvec.
Definition set_pt (c : coords) (n : nat) (v : rvec) : coords := fun m => if Nat.eqb m n then v else c m.
(** lines 640-655: line of site; [size] is nodeVec.size() *)
Definition fill_line (n : nat) (tip tail : rvec) (size : nat) (c : coords) : coords :=
  let d := INR (Nat.max 1 (n - 1)) in
  let dx p := (tip p - tail p) / d in
  fold_left (fun c k => set_pt c k (fun i => tail i + INR k * dx i)) (seq 0 size) c.
(** lines 656-715: ring; for every line point the inner loop runs to the end of nodeVec *)
Definition fill_ring (nDim n nline : nat) (tip tail normal origin : rvec) (size : nat) (c : coords) : coords :=
  let d := INR (Nat.max 1 (nline - 1)) in
  let dx p := (tip p - tail p) / d in
  fold_left (fun c k =>
    let seed : rvec := fun tc => if (tc <? nDim)%nat then tail tc + INR k * dx tc - origin tc else 0 in
    let dTheta := 2 * acos (-1) / INR n in
    fst (fold_left (fun (st : coords * R) m =>
           let new := mat_vec seed (compute_R (snd st) normal) in
           (set_pt (fst st) m (fun i => new i + origin i), snd st + dTheta))
         (seq (k*n) (size - k*n)) (c, 0))) (seq 0 nline) c.
(** lines 716-755: plane *)
Definition fill_plane (n1 n2 : nat) (tail tip1 tip2 : rvec) (size : nat) (c : coords) : coords :=
  let d1 := INR (Nat.max 1 (n1 - 1)) in
  let d2 := INR (Nat.max 2 (n2 - 1)) in
  let dx1 p := (tip1 p - tail p) / d1 in let dx2 p := (tip2 p - tail p) / d2 in
  fold_left (fun c k => set_pt c k (fun i => tail i + INR (k mod n1) * dx1 i + INR (k / n1) * dx2 i)) (seq 0 size) c.
Definition fill (nDim : nat) (s : shape) (size : nat) (c : coords) : coords :=
  match s with
  | Line n tip tail => fill_line n tip tail size c
  | Ring n nl tip tail nm o => fill_ring nDim n nl tip tail nm o size c
  | Plane n1 n2 tail t1 t2 => fill_plane n1 n2 tail t1 t2 size c end.

(** provide_output, lines 869-958: the file of one probe.  A row is time, node and the values of all its columns *)
Inductive line := Banner (columns : list (string * nat)) | Row (time : R) (node : nat) (xs : list R) (vals : list R).
Definition columns (fields : list (string * nat)) : list (string * nat) :=
  flat_map (fun f => map (fun j => (fst f, j)) (seq 0 (snd f))) fields.
Definition write_probe (nDim : nat) (fields : list (string * nat)) (x : coords) (val : nat -> string -> nat -> R)
    (size : nat) (time : R) (file : option (list line)) : option (list line) :=
  let start := match file with None => [Banner (columns fields)] | Some l => l end in
  Some (start ++ map (fun n => Row time n (map (x n) (seq 0 nDim))
         (map (fun c => val n (fst c) (snd c)) (columns fields))) (seq 0 size)).
(** execute, lines 845-860: output steps only; None: modulus by zero *)
Definition execute (nDim freq step : nat) (fields : list (string * nat)) (x : coords) (val : nat -> string -> nat -> R)
    (on_rank : bool) (size : nat) (time : R) (file : option (list line)) : option (option (list line)) :=
  match freq with
  | O => None
  | S _ => Some (if Nat.eqb (step mod freq) 0 then if on_rank then write_probe nDim fields x val size time file else file else file) end.
