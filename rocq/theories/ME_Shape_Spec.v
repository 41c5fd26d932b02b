(** * Specification vocabulary for shape functions (C30) *)
From Coq Require Import Reals List Arith.
From Verif Require Import ME_Model.
Import ListNotations.
Local Open Scope R_scope.

Definition comp (c : nat) (v : vec) : R := match c with 0%nat => vx v | 1%nat => vy v | _ => vz v end.
(** [v] moved by [h] in parametric direction [c]. *)
Definition shift (c : nat) (h : R) (v : vec) : vec :=
  match c with
  | 0%nat => V (vx v + h) (vy v) (vz v) | 1%nat => V (vx v) (vy v + h) (vz v) | _ => V (vx v) (vy v) (vz v + h)
  end.
(** Interpolation of nodal values with weights N(s,.). *)
Definition interp (n : nat) (N : vec -> nat -> R) (s : vec) (f : nat -> R) : R :=
  rsum (map (fun i => N s i * f i) (seq 0 n)).

(** A nodal basis on the reference nodes [node 0..n-1] in [d] parametric directions, valid at the
    points satisfying [dom]: the functions add up to one, function i is one at node i and zero at
    the others, and the parametric coordinates themselves are reproduced. *)
Record nodal_basis (n d : nat) (dom : vec -> Prop) (node : nat -> vec) (N : vec -> nat -> R) : Prop := {
  nb_unity : forall s, dom s -> rsum (map (N s) (seq 0 n)) = 1;
  nb_kronecker : forall i j, (i < n)%nat -> (j < n)%nat -> dom (node j) ->
    N (node j) i = if Nat.eqb i j then 1 else 0;
  nb_linear : forall s c, dom s -> (c < d)%nat -> interp n N s (fun i => comp c (node i)) = comp c s
}.
(** The derivative table is the table of partial derivatives. *)
Definition derivative_table (n d : nat) (dom : vec -> Prop) (N : vec -> nat -> R)
    (D : vec -> nat -> nat -> R) : Prop :=
  forall s i c, dom s -> (i < n)%nat -> (c < d)%nat ->
    derivable_pt_lim (fun h => N (shift c h s) i) 0 (D s i c).
(** Quadratic completeness. *)
Definition reproduces_quadratics (n d : nat) (node : nat -> vec) (N : vec -> nat -> R) : Prop :=
  forall s a b, (a < d)%nat -> (b < d)%nat ->
    interp n N s (fun i => comp a (node i) * comp b (node i)) = comp a s * comp b s.

(** Reference nodes, as in the exodus documentation. *)
Definition of_list (l : list vec) (i : nat) : vec := nth i l vzero.
Definition tri3_nodes := of_list [V 0 0 0; V 1 0 0; V 0 1 0].
Definition square (a : R) : list vec := [V (-a) (-a) 0; V a (-a) 0; V a a 0; V (-a) a 0].
Definition quad4_nodes (a : R) := of_list (square a).
Definition tet4_nodes := of_list [V 0 0 0; V 1 0 0; V 0 1 0; V 0 0 1].
Definition hex8_nodes (a : R) := of_list
  [V (-a) (-a) (-a); V a (-a) (-a); V a a (-a); V (-a) a (-a); V (-a) (-a) a; V a (-a) a; V a a a; V (-a) a a].
Definition wed6_nodes := of_list [V 0 0 (-1); V 1 0 (-1); V 0 1 (-1); V 0 0 1; V 1 0 1; V 0 1 1].
Definition pyr5_nodes := of_list (square 1 ++ [V 0 0 1]).
Definition edge2_nodes := of_list [V (-1) 0 0; V 1 0 0].
Definition tri6_nodes := of_list [V 0 0 0; V 1 0 0; V 0 1 0; V (1/2) 0 0; V (1/2) (1/2) 0; V 0 (1/2) 0].
(** corners, then the middles of the edges 01 12 02 03 13 23 *)
Definition tet10_nodes := of_list [V 0 0 0; V 1 0 0; V 0 1 0; V 0 0 1; V (1/2) 0 0; V (1/2) (1/2) 0; V 0 (1/2) 0;
  V 0 0 (1/2); V (1/2) 0 (1/2); V 0 (1/2) (1/2)].
Definition quad9_nodes := of_list (square 1 ++ [V 0 (-1) 0; V 1 0 0; V 0 1 0; V (-1) 0 0; V 0 0 0]).
Definition hex27_nodes := of_list
  [V (-1) (-1) (-1); V 1 (-1) (-1); V 1 1 (-1); V (-1) 1 (-1); V (-1) (-1) 1; V 1 (-1) 1; V 1 1 1; V (-1) 1 1;
   V 0 (-1) (-1); V 1 0 (-1); V 0 1 (-1); V (-1) 0 (-1);
   V (-1) (-1) 0; V 1 (-1) 0; V 1 1 0; V (-1) 1 0;
   V 0 (-1) 1; V 1 0 1; V 0 1 1; V (-1) 0 1;
   V 0 0 0; V 0 0 (-1); V 0 0 1; V (-1) 0 0; V 1 0 0; V 0 (-1) 0; V 0 1 0].

(** The reference elements. *)
Definition in_simplex2 (s : vec) : Prop := 0 <= vx s /\ 0 <= vy s /\ vx s + vy s <= 1.
Definition in_simplex3 (s : vec) : Prop := 0 <= vx s /\ 0 <= vy s /\ 0 <= vz s /\ vx s + vy s + vz s <= 1.
Definition in_box2 (a : R) (s : vec) : Prop := -a <= vx s <= a /\ -a <= vy s <= a.
Definition in_box3 (a : R) (s : vec) : Prop := -a <= vx s <= a /\ -a <= vy s <= a /\ -a <= vz s <= a.
Definition in_wedge (s : vec) : Prop := in_simplex2 s /\ -1 <= vz s <= 1.
(** base square at z = 0, apex (0,0,1) *)
Definition in_pyramid (s : vec) : Prop :=
  0 <= vz s <= 1 /\ Rabs (vx s) <= 1 - vz s /\ Rabs (vy s) <= 1 - vz s.
