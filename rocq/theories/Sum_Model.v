(** Model of the assembly of dense element contributions into the local matrices:
    /repo/src/TpetraLinearSystem.C lines 1377-1560 (sum_into_row_vec_3, sum_into_row, sumInto).
    Simplifications: real arithmetic, values never Inf/NaN; serial execution (forceAtomic = false, the
    atomic branch performs the same additions); shellSortKeysAndValues (Tpetra) is replaced by an
    arbitrary reordering of the (key, value) pairs with non-decreasing keys, quantified over in the
    theorems; the two sumInto overloads (views lines 1455-1523, vectors lines 1525-1570) perform the
    same operations and are one function here. A matrix row is its column array [cols] (local column
    index at each position), its [len] and its value array. *)
From Coq Require Import Reals List ZArith Bool.
Import ListNotations.
Open Scope R_scope.

Definition addat (v : nat -> R) (k : nat) (x : R) : nat -> R := fun i => if Nat.eqb i k then v i + x else v i.

(** the while loop, lines 1437-1439: [n] = length - offset *)
Fixpoint seek (cols : nat -> Z) (n off : nat) (key : Z) : nat :=
  match n with
  | O => off
  | S n' => if Z.eqb (cols off) key then off else seek cols n' (S off) key
  end.
(** sum_into_row for numDof <> 3, lines 1428-1451; a pair is (localIds[j], sort_permutation[j]) *)
Definition row_step (cols : nat -> Z) (len : nat) (input : nat -> R) (s : (nat -> R) * nat) (kp : Z * nat) : (nat -> R) * nat :=
  let off := seek cols (len - snd s) (snd s) (fst kp) in
  (if Nat.ltb off len then addat (fst s) off (input (snd kp)) else fst s, off).
Definition sum_into_row_gen (cols : nat -> Z) (len : nat) (pairs : list (Z * nat)) (input : nat -> R) (v : nat -> R) : nat -> R :=
  fst (fold_left (row_step cols len input) pairs (v, 0%nat)).

(** the while loop of sum_into_row_vec_3, lines 1396-1399; None = the early return *)
Fixpoint seek3 (cols : nat -> Z) (fuel len off : nat) (key : Z) : option nat :=
  if Z.eqb (cols off) key then Some off else
  let off' := (off + 3)%nat in
  if Nat.leb len off' then None else
  match fuel with O => None | S f => seek3 cols f len off' key end.
(** sum_into_row_vec_3, lines 1391-1413: entity j uses localIds[3j] and sort_permutation[3j] *)
Fixpoint vec_3_loop (cols : nat -> Z) (len : nat) (input : nat -> R) (pairs : list (Z * nat)) (v : nat -> R) (off : nat) : nat -> R :=
  match pairs with
  | (key, e) :: _ :: _ :: rest =>
      match seek3 cols len len off key with
      | None => v
      | Some o => vec_3_loop cols len input rest
                    (addat (addat (addat v o (input e)) (o+1) (input (e+1)%nat)) (o+2) (input (e+2)%nat)) (o+3)
      end
  | _ => v
  end.
(** sum_into_row, lines 1417-1427 *)
Definition sum_into_row (ndof : nat) (cols : nat -> Z) (len : nat) (pairs : list (Z * nat)) (input : nat -> R) (v : nat -> R) : nat -> R :=
  if Nat.eqb ndof 3 then vec_3_loop cols len input pairs v 0 else sum_into_row_gen cols len pairs input v.

(** local matrices and right-hand sides: owned rows and shared-not-owned rows *)
Record sys := { ov : nat -> nat -> R; orhs : nat -> R; sv : nat -> nat -> R; srhs : nat -> R }.
Definition setrow (m : nat -> nat -> R) (r : nat) (row : nat -> R) : nat -> nat -> R := fun i => if Nat.eqb i r then row else m i.

Section SumInto.
Variable ndof maxOwned maxShared : nat.       (* numDof_, maxOwnedRowId_, maxSharedNotOwnedRowId_ *)
Variable ocols scols : nat -> nat -> Z.       (* column arrays of the two graphs *)
Variable olen slen : nat -> nat.
(** one local dof row r = (sorted key, perm index p), lines 1497-1521 *)
Definition sum_row_step (rowLID : nat -> nat) (pairs : list (Z * nat)) (lhs : nat -> nat -> R) (rhs : nat -> R) (s : sys) (kp : Z * nat) : sys :=
  let p := snd kp in
  let rowLid := (rowLID (p / ndof) + p mod ndof)%nat in
  if Nat.ltb rowLid maxOwned then
    {| ov := setrow (ov s) rowLid (sum_into_row ndof (ocols rowLid) (olen rowLid) pairs (lhs p) (ov s rowLid));
       orhs := addat (orhs s) rowLid (rhs p); sv := sv s; srhs := srhs s |}
  else if Nat.ltb rowLid maxShared then
    let a := (rowLid - maxOwned)%nat in
    {| ov := ov s; orhs := orhs s;
       sv := setrow (sv s) a (sum_into_row ndof (scols a) (slen a) pairs (lhs p) (sv s a));
       srhs := addat (srhs s) a (rhs p) |}
  else s.
(** the keys before sorting, lines 1474-1485: entity i (position in the element), dof d *)
Definition unsorted_pairs (n : nat) (colLID : nat -> Z) : list (Z * nat) :=
  map (fun p => ((colLID (p / ndof)%nat + Z.of_nat (p mod ndof))%Z, p)) (seq 0 (n * ndof)).
(** sumInto given the sorted pairs *)
Definition sumInto (rowLID : nat -> nat) (pairs : list (Z * nat)) (lhs : nat -> nat -> R) (rhs : nat -> R) (s : sys) : sys :=
  fold_left (sum_row_step rowLID pairs lhs rhs) pairs s.
End SumInto.
