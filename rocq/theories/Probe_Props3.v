(** C83 continued: values sampled on a line, by the transfer of C81 *)
Require Import String.
Require Import Reals List Bool Arith Lra Lia.
From Verif Require Import ME_Model ME_Shape_Model ME_Shape_Spec ME_Shape_Props ME_Shape_Props2 ME_Point_Model ME_Point_Spec ME_Point_Props ME_Point_Props3 ME_Point_Props4 Opt_Model Xfer_Model Xfer_Props Xfer_Props2.
From Verif Require Probe_Model Probe_Props.
Import ListNotations.
Open Scope R_scope.
Open Scope list_scope.

(** position of point k of a line probe *)
Definition line_point (n : nat) (tip tail : vec) (k : nat) : vec :=
  let f (v : vec) (i : nat) := match i with 0%nat => vx v | 1%nat => vy v | _ => vz v end in
  let x := Probe_Model.fill 3 (Probe_Model.Line n (f tip) (f tail)) n (fun _ _ => 0) k in
  V (x 0%nat) (x 1%nat) (x 2%nat).
Lemma line_lin n tip tail k a g : (2 <= n)%nat -> (k < n)%nat ->
  lin a g (line_point n tip tail k) = lin a g tail + INR k / INR (n - 1) * (lin a g tip - lin a g tail).
Proof.
  intros H2 Hk. unfold line_point. set (f := fun (v : vec) (i : nat) => match i with 0%nat => vx v | 1%nat => vy v | _ => vz v end).
  assert (E : forall i, Probe_Model.fill 3 (Probe_Model.Line n (f tip) (f tail)) n (fun _ _ => 0) k i = f tail i + INR k / INR (n - 1) * (f tip i - f tail i)).
  { intros i. exact (proj1 (proj2 (proj2 (Probe_Props.C83_line 3 n (f tip) (f tail) (fun _ _ => 0) k i Hk))) H2). }
  unfold lin. cbn [vx vy vz]. rewrite !E. unfold f. ring.
Qed.
(** Sampling a linear field of a tetrahedral mesh along a line gives the linear profile between its end values, at every point for which
    the search found an element. *)
Theorem C83_linear_profile : forall m n tip tail x km km' info' d' from name to a g,
  (forall k, (k < n)%nat -> x k = line_point n tip tail k) -> (2 <= n)%nat ->
  (forall b, f_topo m b = TET4 /\ tet_volume6 (elem_coords m b) <> 0) ->
  (forall node, fl_val from node 0%nat = lin a g (f_coord m node)) ->
  by_key km -> filter_to_nearest m x km (fun _ => None) = (km', info', d') ->
  (0 < fl_size to <= fl_size from)%nat ->
  exists v', apply m sempty km' info' [mkV from name to] = Some [v'] /\
  forall k, (k < n)%nat -> (exists b r, In b (candidates k km) /\ locatable m (x k) b r) ->
    Rabs (lin a g (line_point n tip tail k)) <= dbl_max ->
    fl_val (v_to v') k 0%nat = lin a g tail + INR k / INR (n - 1) * (lin a g tip - lin a g tail).
Proof.
  intros m n tip tail x km km' info' d' from name to a g HX H2 HM HF HB E HS.
  destruct (C81_transfer m x km km' info' d' sempty [mkV from name to] HB E) as (vs' & Ea & F).
  { intros v [<-|[]]. cbn [v_to v_from]. lia. }
  inversion F as [|v0 v' l l' (F1 & F2 & F3 & F4) F' E1 E2]; subst. inversion F'; subst. exists v'. split; [exact Ea|].
  intros k Hk (b0 & r0 & Hb0 & L0) HR. destruct (F4 k 0%nat) as [(b & r & NE & _ & V)|([N|N] & _)].
  - rewrite V. cbn [v_from v_name]. destruct NE as (l1 & l2 & _ & (L & _) & _). destruct (HM b) as (ET & HV).
    assert (PL : place (npe (f_topo m b)) (Xfer_Props2.shape (f_topo m b)) (elem_coords m b) (f_par r) = x k).
    { unfold locate, is_in in L. rewrite ET in *. cbn [npe Xfer_Props2.shape]. destruct (C33_tet_search (elem_coords m b) (x k) HV) as (r' & E' & Pl & _).
      rewrite L in E'. injection E' as <-. exact Pl. }
    destruct (C81_linear_fields m (x k) b r sempty from name 0 a g L eq_refl) as (T & _ & _).
    + intros i Hi. apply HF.
    + rewrite PL, HX by exact Hk. exact HR.
    + rewrite (T ET HV), HX by exact Hk. apply line_lin; assumption.
  - exfalso. exact (N b0 r0 Hb0 L0).
  - exfalso. cbn [v_to] in N. lia.
Qed.
