(** * Balancing the ownership of nodes between processes

    File: src/InterfaceBalancer.C (balance_node_entities 29-65, getInterfaceDescription 67-90, getGlobalLoadImbalance 91-121, exchangeLocalSizes 122-155,
    changeOwnersOfNodes 157-198), src/Realm.C 649-654 and 5002-5006 (how the options reach it).
    A node is a number with the list of processes that hold it (comm_shared_procs plus the process itself, ascending); ownership is a function of the
    node. Every process runs changeOwnersOfNodes on the counts exchanged at the start of the round, so a round is: all processes decide, then
    change_entity_owner applies all moves. Simplifications: STK's change_entity_owner is taken to do what it documents (the listed nodes get the listed
    owner on every process; sharing is unchanged because no element moves); counts are unbounded integers; the quotients of counts, compared as doubles
    in the code, are compared exactly, with n/0 = infinity and 0/0 = NaN as in IEEE arithmetic (exact for counts below 2^26). The order of the map keyed by
    Entity is a parameter, one per process. *)
Require Import List Arith Bool Reals.
Import ListNotations.

Definition node := nat. Definition rank := nat.
Record mesh := mkMesh {
  nranks : nat;
  nds : list node;                     (** all nodes *)
  shr : node -> list rank;             (** processes that hold the node *)
  ord : rank -> list node }.           (** the shared nodes a process sees, in the order of its map *)
Definition owners := node -> rank.

(** getInterfaceDescription 82-86: comm_shared_procs of a node seen from process r *)
Definition others (m : mesh) (r : rank) (n : node) : list rank := filter (fun p => negb (Nat.eqb p r)) (shr m n).
(** getInterfaceDescription 85: the processes r exchanges counts with *)
Definition neighbours (m : mesh) (r : rank) : list rank := nodup Nat.eq_dec (flat_map (others m r) (ord m r)).
(** getGlobalLoadImbalance 97-104: locally owned nodes of r *)
Definition count (m : mesh) (own : owners) (r : rank) : nat := length (filter (fun n => Nat.eqb (own n) r) (nds m)).
Definition most (m : mesh) (own : owners) : nat := fold_right Nat.max 0 (map (count m own) (seq 0 (nranks m))).
Definition least (m : mesh) (own : owners) : nat := fold_right Nat.min (most m own) (map (count m own) (seq 0 (nranks m))).

(** a quotient of counts as the code compares it: a/b > c/d, with infinity and NaN *)
Definition gt_frac (a b : nat * nat) : bool := Nat.ltb (fst b * snd a) (fst a * snd b).
(** changeOwnersOfNodes 175-186: the process the node goes to *)
Definition choose (k : nat) (t : rank -> nat) (r : rank) (procs : list rank) : rank :=
  snd (fold_left (fun (s : (nat * nat) * rank) p =>
         let load := (k, t p) in if gt_frac load (fst s) then (load, p) else s) procs ((1, 1), r)).
(** changeOwnersOfNodes 160-195: what one process does with its list of nodes: remaining own count, table of the others' counts, moves so far *)
Record view := mkView { v_k : nat; v_t : rank -> nat; v_mv : list (node * rank) }.
Definition give (m : mesh) (own : owners) (r : rank) (s : view) (n : node) : view :=
  if Nat.eqb (own n) r then
    let d := choose (v_k s) (v_t s) r (others m r n) in
    if Nat.eqb d r then s
    else mkView (v_k s - 1) (fun p => if Nat.eqb p d then v_t s p + 1 else v_t s p) (v_mv s ++ [(n, d)])
  else s.
Definition decide (m : mesh) (own : owners) (r : rank) : view :=
  fold_left (give m own r) (ord m r) (mkView (count m own r) (count m own) []).
(** change_entity_owner with the lists of all processes; only the owner lists a node *)
Definition moved_to (l : list (node * rank)) (n : node) : option rank := option_map snd (find (fun e => Nat.eqb (fst e) n) l).
Definition round (m : mesh) (own : owners) : owners :=
  fun n => match moved_to (v_mv (decide m own (own n))) n with Some p => p | None => own n end.
(** balance_node_entities 41-47: [loadFactor <= target]; 0/0 and n/0 are never below a target *)
Definition converged (target : R) (m : mesh) (own : owners) : bool :=
  if Nat.eqb (least m own) 0 then false else if Rle_dec (INR (most m own) / INR (least m own)) target then true else false.
(** balance_node_entities 33-64 *)
Fixpoint rounds (target : R) (m : mesh) (fuel : nat) (own : owners) : owners :=
  match fuel with
  | 0 => own
  | S f => if converged target m own then own else rounds target m f (round m own)
  end.
Definition balance (target : R) (maxIt : nat) (m : mesh) (own : owners) : owners := if Nat.eqb (nranks m) 1 then own else rounds target m maxIt own.
(** Realm.C 649-654: is balancing on? [on] is the value of balance_nodes, the other two say whether the keys are present *)
Definition balancing_on (on : option bool) (iterations target : bool) : bool := if (iterations || target)%bool then true else match on with Some b => b | None => false end.
