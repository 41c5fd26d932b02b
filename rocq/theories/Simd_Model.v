(** Model of SIMD grouping, /repo/include/SimdInterface.h lines 37-60, its use in the element loops
    (/repo/include/AssembleElemSolverAlgorithm.h lines 80-96) and of
    /repo/include/CopyAndInterleave.h. *)
Require Import ZArith List Lia.
Import ListNotations.

(** get_num_simd_groups, lines 37-46 *)
Definition get_num_simd_groups (simdLen length : nat) : nat :=
  let n := length / simdLen in
  let remainder := length mod simdLen in
  if Nat.ltb 0 remainder then n + 1 else n.

(** get_length_of_next_simd_group, lines 48-60 (int arithmetic) *)
Definition get_length_of_next_simd_group (simdLen index length : Z) : Z :=
  let nextLength := if (length - index*simdLen <? simdLen)%Z then (length - index*simdLen)%Z else simdLen in
  if ((nextLength <? 0)%Z || (simdLen <? nextLength)%Z)%bool then 0%Z else nextLength.

(** AssembleElemSolverAlgorithm.h:81-95, the element loop: for each group, for each lane < simdElems, element
    b[simdGroupIdx*simdLen + simdElemIndex] *)
Definition visited (simdLen length : nat) : list nat :=
  flat_map (fun g =>
     map (fun lane => g*simdLen + lane)
         (seq 0 (Z.to_nat (get_length_of_next_simd_group (Z.of_nat simdLen) (Z.of_nat g) (Z.of_nat length)))))
   (seq 0 (get_num_simd_groups simdLen length)).

(** interleave (CopyAndInterleave.h:55-91): dest[i] lane <- views[lane][i] for i < dim, for
    lane < simdElems; other lanes keep their previous contents. A SIMD view is nat -> nat -> A
    (entry, lane). *)
Definition set_data {A} (v : nat -> nat -> A) (i lane : nat) (a : A) : nat -> nat -> A :=
  fun i' l' => if (Nat.eqb i' i && Nat.eqb l' lane)%bool then a else v i' l'.
Definition interleave {A} (dim simdElems : nat) (views : nat -> nat -> A) (dest : nat -> nat -> A) : nat -> nat -> A :=
  fold_left (fun d i => fold_left (fun d lane => set_data d i lane (views lane i)) (seq 0 simdElems) d) (seq 0 dim) dest.
(** extract_vector_lane (CopyAndInterleave.h:161-182): r[i] = get_data(sr[i], lane) *)
Definition extract_lane {A} (src : nat -> nat -> A) (lane i : nat) : A := src i lane.
