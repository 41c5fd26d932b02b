(** Model of /repo/include/utils/LinearInterpolation.h (T = double as R).
    Reading past the end of a std::vector is the outcome [UB]; a C++ exception is [Throw]. *)
Require Import Reals List.
Import ListNotations.
Open Scope R_scope.

Inductive bound_limits := LOWLIM | UPLIM | VALID.               (* lines 15-20 *)
Inductive oob_action := OOB_ERROR | OOB_WARN | OOB_CLAMP | OOB_EXTRAPOLATE.  (* lines 23-28 *)

Inductive outcome (A : Type) := Throw | UB | Val (a : A).
Arguments Throw {A}. Arguments UB {A}. Arguments Val {A}.

Definition obind {A B} (x : outcome A) (f : A -> outcome B) : outcome B :=
  match x with Throw => Throw | UB => UB | Val a => f a end.
Definition read (l : list R) (i : nat) : outcome R :=
  match nth_error l i with Some v => Val v | None => UB end.

(** check_bounds, lines 46-63 *)
Definition check_bounds (xs : list R) (x : R) : outcome (bound_limits * nat) :=
  let sz := length xs in
  if Nat.ltb sz 2 then Throw else
  obind (read xs 0) (fun x0 =>
  if Rlt_dec x x0 then Val (LOWLIM, 0%nat) else
  obind (read xs (sz-1)) (fun xn =>
  if Rlt_dec xn x then Val (UPLIM, (sz-1)%nat) else Val (VALID, 0%nat))).

(** the loop of find_index, lines 83-88: [fuel] = sz - i remaining iterations *)
Fixpoint find_loop (xs : list R) (x : R) (i fuel : nat) : outcome (option nat) :=
  match fuel with
  | O => Val None
  | S f => obind (read xs i) (fun xi => if Rle_dec x xi then Val (Some (i-1)%nat) else find_loop xs x (S i) f)
  end.

(** find_index, lines 75-91 *)
Definition find_index (xs : list R) (x : R) : outcome (bound_limits * nat) :=
  obind (check_bounds xs x) (fun idx =>
  match fst idx with
  | UPLIM | LOWLIM => Val idx
  | VALID => obind (find_loop xs x 1 (length xs - 1)) (fun o =>
      match o with Some j => Val (VALID, j) | None => Val idx end)
  end).

(** linear_interp, lines 96-143; the WARN message is not modelled *)
Definition linear_interp (xs ys : list R) (x : R) (oob : oob_action) : outcome R :=
  obind (find_index xs x) (fun idx =>
  match fst idx with
  | LOWLIM | UPLIM =>
      match oob with
      | OOB_ERROR => Throw
      | OOB_WARN | OOB_CLAMP => read ys (snd idx)
      | OOB_EXTRAPOLATE =>
          let ii := if Nat.eqb (snd idx + 1) (length xs) then (snd idx - 1)%nat else snd idx in
          obind (read ys ii) (fun y0 => obind (read ys (ii+1)) (fun y1 =>
          obind (read xs ii) (fun x0 => obind (read xs (ii+1)) (fun x1 =>
          Val (y0 + (y1 - y0)/(x1 - x0)*(x - x0))))))
      end
  | VALID =>
      let j := snd idx in
      obind (read xs j) (fun x0 => obind (read xs (j+1)) (fun x1 =>
      let fac := (x - x0)/(x1 - x0) in
      obind (read ys j) (fun y0 => obind (read ys (j+1)) (fun y1 =>
      Val ((1 - fac)*y0 + fac*y1)))))
  end).
