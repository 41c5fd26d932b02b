(** * Vocabulary for the time-integration properties, independent of the model. *)
From Coq Require Import Reals ZArith List.
Import ListNotations.
Open Scope R_scope.

(** a three-level difference formula with coefficients a,b,c on levels t, t-h1, t-h1-h2 *)
Definition difference3 (a b c h1 h2 : R) (q : R -> R) (t : R) : R :=
  (a * q t + b * q (t - h1) + c * q (t - h1 - h2)) / h1.

(** exact on every polynomial of degree <= 2, at every time *)
Definition exact_for_quadratics (a b c h1 h2 : R) : Prop :=
  forall p2 p1 p0 t d,
    derivable_pt_lim (fun x => p2 * x ^ 2 + p1 * x + p0) t d ->
    difference3 a b c h1 h2 (fun x => p2 * x ^ 2 + p1 * x + p0) t = d.

(** two-level formula exact on every polynomial of degree <= 1 *)
Definition exact_for_linears (a b h1 : R) : Prop :=
  forall p1 p0 t d,
    derivable_pt_lim (fun x => p1 * x + p0) t d ->
    (a * (p1 * t + p0) + b * (p1 * (t - h1) + p0)) / h1 = d.

Definition sumR (l : list R) : R := fold_right Rplus 0 l.

(** every occurrence of a [P] comes before every occurrence of a [Q] *)
Definition all_before {A} (P Q : A -> Prop) (l : list A) : Prop :=
  forall i j x y, nth_error l i = Some x -> nth_error l j = Some y -> P x -> Q y -> (i < j)%nat.

(** consecutive integers a+1 .. a+n *)
Definition counts_from (a : Z) (n : nat) : list Z :=
  map (fun k => (a + 1 + Z.of_nat k)%Z) (seq 0 n).
