(** Pressure reference: src/FixPressureAtNodeAlgorithm.C.
    Simplifications: real arithmetic; each rank's system is its contribution to the global matrix and right-hand side (the
    exported sum is the global system, C14/C15); [big] stands for numeric_limits<double>::max(). *)
Require Import Reals List Bool Arith.
From Verif Require Import Edge_Model.
Import ListNotations.
Open Scope R_scope.

(** a locally owned node of the search parts *)
Record pnode := mkPn { pn_id : nat; pn_x : vec }.
(** lines 123-131 *)
Definition dist2 (n : nat) (loc x : vec) : R := fold_left (fun a j => a + (loc j - x j)*(loc j - x j)) (seq 0 n) 0.
(** lines 117-137: one rank; the node is the default entity (None) until one beats the initial distance *)
Definition nearest_local (n : nat) (big : R) (loc : vec) (nodes : list pnode) : R * option pnode :=
  fold_left (fun st p => let d := dist2 n loc (pn_x p) in if Rlt_dec d (fst st) then (d, Some p) else st) nodes (big, None).
(** lines 140-151: Allgather, then the first rank with the smallest distance; None = minDistProc -1 *)
Definition min_proc (big : R) (ds : list R) : option nat :=
  snd (fold_left (fun st r => let d := nth r ds 0 in if Rlt_dec d (fst st) then (d, Some r) else st) (seq 0 (length ds)) (big, None)).
(** lines 154-160: the chosen rank contributes its node's identifier, all others 0; all_reduce_max *)
Definition determine_nearest_node (n : nat) (big : R) (loc : vec) (ranks : list (list pnode)) : nat :=
  let res := map (nearest_local n big loc) ranks in
  let mp := min_proc big (map fst res) in
  let contrib r := match mp with
    | Some r0 => if Nat.eqb r r0 then match snd (nth r res (big, None)) with Some p => pn_id p | None => 0%nat end else 0%nat
    | None => 0%nat end in
  fold_left Nat.max (map contrib (seq 0 (length ranks))) 0%nat.

(** one rank's view: does it own / share the node *)
Record prank := mkPr { pr_owned : nat -> bool; pr_shared : nat -> bool; pr_lhs : nat -> nat -> R; pr_rhs : nat -> R }.
(** lines 166-193 (process_pressure_fix_node) and 48-76 (execute): reset the row wherever the node is known, add the unit row
    and refPressure - pressure on the owner *)
Definition fix_rank (k : nat) (ref : R) (p : nat -> R) (q : prank) : prank :=
  if (pr_owned q k || pr_shared q k)%bool then
    let own := pr_owned q k in
    mkPr (pr_owned q) (pr_shared q)
      (fun i j => if Nat.eqb i k then (if (own && Nat.eqb j k)%bool then 1 else 0) else pr_lhs q i j)
      (fun i => if Nat.eqb i k then (if own then ref - p k else 0) else pr_rhs q i)
  else q.
Definition fix_pressure (k : nat) (ref : R) (p : nat -> R) (ranks : list prank) : list prank := map (fix_rank k ref p) ranks.
(** the global system *)
Definition glob_lhs (ranks : list prank) (i j : nat) : R := fold_right Rplus 0 (map (fun q => pr_lhs q i j) ranks).
Definition glob_rhs (ranks : list prank) (i : nat) : R := fold_right Rplus 0 (map (fun q => pr_rhs q i) ranks).
