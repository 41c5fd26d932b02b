(** Dense LU solver of the tabulated-property package.  File: tabular_props/LU.C.
    Simplifications: real arithmetic; the matrix and the right-hand side are total functions (entries
    outside the dimension are never touched); the band width is ignored, as in the code. *)
Require Import Reals List PeanoNat.
Import ListNotations.
Open Scope R_scope.

Definition mat := nat -> nat -> R.
Definition upd2 (M : mat) (i j : nat) (v : R) : mat :=
  fun r c => if Nat.eqb r i then if Nat.eqb c j then v else M r c else M r c.
Definition upd1 (b : nat -> R) (i : nat) (v : R) : nat -> R := fun r => if Nat.eqb r i then v else b r.

(** LU.C:34-35 and 38-39: sumterm = AA(i,j); for k<m: sumterm -= AA(i,k)*AA(k,j) *)
Definition sumterm (M : mat) (i j m : nat) : R :=
  fold_left (fun s k => s - M i k * M k j) (seq 0 m) (M i j).
(** LU.C:33-37 *)
Definition upper_loop (M : mat) (j : nat) : mat :=
  fold_left (fun M i => upd2 M i j (sumterm M i j i)) (seq 0 j) M.
(** LU.C:38-42 *)
Definition lower_loop (dim : nat) (M : mat) (j : nat) : mat :=
  fold_left (fun M i => upd2 M i j (sumterm M i j j)) (seq j (dim - j)) M.
(** LU.C:43-46 (the loop is empty for the last column, so the test j < dim-1 changes nothing) *)
Definition scale_loop (dim : nat) (M : mat) (j : nat) : mat :=
  let tmp := 1 / M j j in
  fold_left (fun M i => upd2 M i j (M i j * tmp)) (seq (j + 1) (dim - (j + 1))) M.
(** LU.C:28-49: LU::decompose *)
Definition decompose (dim : nat) (M : mat) : mat :=
  fold_left (fun M j => scale_loop dim (lower_loop dim (upper_loop M j) j) j) (seq 0 dim) M.

(** LU.C:61-67: forward substitution *)
Definition forward_subs (dim : nat) (F : mat) (b : nat -> R) : nat -> R :=
  fold_left (fun b i => upd1 b i (fold_left (fun s j => s - F i j * b j) (seq 0 i) (b i)))
            (seq 1 (dim - 1)) b.
(** LU.C:72-78: one row of the back substitution; rhs[i] is written in every pass of the inner loop *)
Definition back_row (dim : nat) (F : mat) (b : nat -> R) (i : nat) : nat -> R :=
  snd (fold_left (fun sb j => let s := fst sb - F i j * snd sb j in (s, upd1 (snd sb) i (s / F i i)))
                 (seq (i + 1) (dim - (i + 1))) (b i, b)).
(** LU.C:52-79: LU::back_subs (after decompose) *)
Definition back_subs (dim : nat) (F : mat) (rhs : nat -> R) : nat -> R :=
  let b := forward_subs dim F rhs in
  let b := upd1 b (dim - 1) (b (dim - 1)%nat / F (dim - 1)%nat (dim - 1)%nat) in
  fold_left (back_row dim F) (rev (seq 0 (dim - 1))) b.
(** what a user of the class does: fill, decompose, solve *)
Definition lu_solve (dim : nat) (A : mat) (rhs : nat -> R) : nat -> R := back_subs dim (decompose dim A) rhs.
