(** Specification of table interpolation, independent of how the table is searched. *)
From Coq Require Import Reals List Arith Permutation.
From Verif Require Import Aux_Model.
Import ListNotations.
Open Scope R_scope.

(** a one-dimensional table given by the user, in any order, no abscissa twice, at least two entries *)
Definition proper (l : list (R * R)) : Prop := NoDup (map fst l) /\ (2 <= length l)%nat.
(** the parameters that carry such a table *)
Definition flat (l : list (R * R)) : list R := flat_map (fun p => [fst p; snd p]) l.
(** a and b are neighbours in the table *)
Definition neighbours (l : list (R * R)) (a b : R * R) : Prop :=
  In a l /\ In b l /\ fst a < fst b /\ forall c, In c l -> fst c <= fst a \/ fst b <= fst c.
(** the straight line through a and b *)
Definition chord (a b : R * R) (x : R) : R := snd a + (snd b - snd a) / (fst b - fst a) * (x - fst a).

(** a two-dimensional table on the grid gx 0 < gx 1 < ... , gy 0 < gy 1 < ..., written with y running fastest *)
Definition grid_rows (sx sy : nat) (gx gy : nat -> R) (gh : nat -> nat -> R) : list row :=
  flat_map (fun i => map (fun j => mkRow (gx i) (gy j) (gh i j)) (seq 0 sy)) (seq 0 sx).
Definition ascending (n : nat) (g : nat -> R) : Prop := forall i j, (i < j)%nat -> (j < n)%nat -> g i < g j.
(** the bilinear form on the cell (i,j) *)
Definition bilinear (gx gy : nat -> R) (gh : nat -> nat -> R) (i j : nat) (x y : R) : R :=
  let a := (x - gx i) / (gx (S i) - gx i) in
  let b := (y - gy j) / (gy (S j) - gy j) in
  (1 - a) * (1 - b) * gh i j + a * (1 - b) * gh (S i) j + (1 - a) * b * gh i (S j) + a * b * gh (S i) (S j).
Definition clampr (lo hi x : R) : R := Rmax lo (Rmin hi x).
