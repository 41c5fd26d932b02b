(** C111, sides: the points on the sides of the quadratic quadrilateral and the interior faces opposite to them. *)
Require Import Reals List Arith Lra Lia.
From Verif Require Import RUtil Edge_Model Edge_Proofs ME_Model ME_Shape_Model QuadP2_Model QuadP2_Props.
Import ListNotations.
Open Scope R_scope.

(** Specification: side f runs from corner f to corner f+1 (counter-clockwise) of the unit square; the r-th third met on the way, cut as the
    sub-boxes are, belongs to its node *)
Definition corner (f : nat) : R * R := match f with 0%nat => (-1,-1) | 1%nat => (1,-1) | 2%nat => (1,1) | _ => (-1,1) end.
Definition along (f : nat) (u : R) : R * R :=   (* u from -1 to 1 *)
  match f with 0%nat => (u, -1) | 1%nat => (1, u) | 2%nat => (- u, 1) | _ => (-1, - u) end.
Definition node_place (n : nat) : R * R := (ref_x n, ref_y n).
Definition side_nodes (f : nat) : list nat := match f with 0%nat => [0;4;1] | 1%nat => [1;5;2] | 2%nat => [2;6;3] | _ => [3;7;0] end%nat.

Lemma g_pos : 0 < sqrt 3 / 3. Proof. assert (0 < sqrt 3) by (apply sqrt_lt_R0; lra). lra. Qed.
Lemma g_lt1 : sqrt 3 / 3 < 1. Proof. pose proof gg. pose proof g_pos. nra. Qed.
Lemma cut_up k : (k < 3)%nat -> cut k < cut (k + 1).
Proof. intros H. rewrite !cut_is. pose proof g_pos; pose proof g_lt1. destruct k as [|[|[|k]]]; try lia; cbn; unfold scs_dist; lra. Qed.
(** every quadrature point lies inside its third *)
Theorem C111_points_inside : forall k i, (k < 3)%nat -> cut k < gauss_loc k i < cut (k + 1).
Proof.
  intros k i H. pose proof (cut_up k H) as U. rewrite !cut_is in *. unfold gauss_loc, iso. pose proof g_pos; pose proof g_lt1. set (q := sqrt 3 / 3) in *.
  assert (A : - q * (scs_end (k+1) - scs_end k) <= gauss_abscissa i * (scs_end (k+1) - scs_end k) <= q * (scs_end (k+1) - scs_end k)) by (destruct i; cbn; fold q; nra).
  assert (0 < (1 - q) * (scs_end (k+1) - scs_end k)) by nra. nra.
Qed.
(** the nodes met along a side are its corners and midpoint, in order; each point is at its node's third of the side *)
Theorem C111_side_points : forall f r j, (f < 4)%nat -> (r < 3)%nat -> (j < 2)%nat ->
  let near := fst (fst (side_point f r j)) in
  near = nth r (side_nodes f) 0%nat /\ node_place near = along f (INR r - 1) /\ exists u, side_st f r j = along f u /\ cut r < u < cut (r + 1).
Proof.
  intros f r j Hf Hr Hj near.
  assert (S : forall k, (k < 3)%nat -> cut (2 - k) = - cut (k + 1) /\ cut (2 - k + 1) = - cut k).
  { intros k H. rewrite !cut_is. destruct k as [|[|[|k]]]; try lia; cbn; unfold scs_dist; split; lra. }
  assert (S' : - -1 = 1) by lra.
  split; [|split].
  - unfold near. destruct f as [|[|[|[|f]]]]; try lia; destruct r as [|[|[|r]]]; try lia; reflexivity.
  - unfold near, node_place. destruct f as [|[|[|[|f]]]]; try lia; destruct r as [|[|[|r]]]; try lia; cbn; f_equal; lra.
  - destruct f as [|[|[|[|f]]]]; try lia.
    + exists (gauss_loc r j). split; [|apply C111_points_inside; exact Hr]. destruct r as [|[|[|r]]]; try lia; destruct j as [|[|j]]; try lia; reflexivity.
    + exists (gauss_loc r j). split; [|apply C111_points_inside; exact Hr]. destruct r as [|[|[|r]]]; try lia; destruct j as [|[|j]]; try lia; reflexivity.
    + exists (- gauss_loc (2 - r) (1 - j)). split.
      * destruct r as [|[|[|r]]]; try lia; destruct j as [|[|j]]; try lia; cbn; f_equal; ring.
      * pose proof (C111_points_inside (2 - r) (1 - j) ltac:(lia)) as B. destruct (S r Hr) as [S1 S2]. rewrite S1, S2 in B. lra.
    + exists (- gauss_loc (2 - r) (1 - j)). split.
      * destruct r as [|[|[|r]]]; try lia; destruct j as [|[|j]]; try lia; cbn; f_equal; ring.
      * pose proof (C111_points_inside (2 - r) (1 - j) ltac:(lia)) as B. destruct (S r Hr) as [S1 S2]. rewrite S1, S2 in B. lra.
Qed.
(** the opposing face point is an interior face point between the same node and the opposing node, which is its neighbour across, and it lies
    straight across from the side point; different side points of a side have different opposing points *)
Theorem C111_opposing : forall f r j, (f < 4)%nat -> (r < 3)%nat -> (j < 2)%nat ->
  let '(near, opp, of) := side_point f r j in let p := nth of scs_points (true,0,0,0)%nat in
  (of < 24)%nat /\ scs_left p = near /\ scs_right p = opp /\ (neighbours near opp \/ neighbours opp near) /\
  (match f with 0%nat | 2%nat => fst (scs_st p) = fst (side_st f r j) /\ Rabs (snd (scs_st p) - snd (side_st f r j)) = 1 - 1 / sqrt 3
                | _ => snd (scs_st p) = snd (side_st f r j) /\ Rabs (fst (scs_st p) - fst (side_st f r j)) = 1 - 1 / sqrt 3 end).
Proof.
  intros f r j Hf Hr Hj. destruct (side_point f r j) as [[near opp] of] eqn:E. cbv zeta.
  assert (P : (of < 24)%nat /\ scs_left (nth of scs_points (true,0,0,0)%nat) = near /\ scs_right (nth of scs_points (true,0,0,0)%nat) = opp).
  { destruct f as [|[|[|[|f]]]]; try lia; destruct r as [|[|[|r]]]; try lia; destruct j as [|[|j]]; try lia; cbn in E; injection E as <- <- <-; cbn; repeat split; lia. }
  destruct P as (P1 & P2 & P3). split; [exact P1|]. split; [exact P2|]. split; [exact P3|]. split.
  - rewrite <- P2, <- P3. apply C111_faces_join_neighbours. apply nth_In. cbn. exact P1.
  - rewrite g_inv. pose proof g_lt1. pose proof g_pos. unfold side_st. rewrite E. cbn [snd fst].
    destruct f as [|[|[|[|f]]]]; try lia; destruct r as [|[|[|r]]]; try lia; destruct j as [|[|j]]; try lia; cbn in E; injection E as <- <- <-; (split; [reflexivity|]); cbn -[Rabs]; unfold scs_dist;
      ((rewrite Rabs_right by lra) || (rewrite Rabs_left by lra)); lra.
Qed.
Theorem C111_sides_nonvacuous : side_point 2 0 1 = (2, 5, 10)%nat /\ side_nodes 2 = [2;6;3]%nat /\ along 2 (-1) = corner 2 /\ (forall f, (f < 4)%nat -> along f 1 = corner (if Nat.eqb f 3 then 0 else f + 1)%nat /\ along f (-1) = corner f).
Proof.
  split; [reflexivity|]. split; [reflexivity|]. split; [cbn; f_equal; lra|]. intros f H. destruct f as [|[|[|[|f]]]]; try lia; cbn; split; f_equal; lra.
Qed.
