(** C70: walls attached to a moving mesh move with it. *)
From Coq Require Import Reals List Arith Bool Lia Lra.
From Verif Require Import RUtil Edge_Model Motion_Model Motion_Spec Motion_Props Aux_Model.
Import ListNotations.
Open Scope R_scope.

(** The velocity the "wind_energy" boundary function gives a wall node of a rotating block is the mesh velocity
    of that node, for every ramp form, time and set of motions, in three dimensions. *)
Theorem C70_rotating_wall_moves_with_the_mesh : forall form t ms s k m j, moved_by k m ms -> (j < 3)%nat ->
  let s' := process_mesh_motion 3 form t ms s in
  wind_energy_velocity 3 form t (m_omega m) (m_unit m) (m_centroid m) (f_cur s' k) j = f_vel s' k j.
Proof.
  intros form t ms s k m j H Hj s'. destruct (process_at 3 form t ms s k m H) as [_ B]. destruct (B j Hj) as (_ & _ & E). fold s' in E. rewrite E.
  unfold wind_energy_velocity. cbv zeta. destruct (Nat.ltb_spec j 3); [|lia].
  destruct j as [|[|[|j]]]; [| | |lia]; unfold aux_cross, mesh_velocity_cross_product, vscale, vsub, load; cbn [comp vx vy vz Nat.ltb Nat.leb]; ring.
Qed.
(** In two dimensions the same holds for rotation about the z axis. *)
Theorem C70_rotating_wall_moves_with_the_mesh_2d : forall form t ms s k m j, moved_by k m ms -> (j < 2)%nat -> vx (m_unit m) = 0 -> vy (m_unit m) = 0 ->
  let s' := process_mesh_motion 2 form t ms s in
  wind_energy_velocity 2 form t (m_omega m) (m_unit m) (m_centroid m) (f_cur s' k) j = f_vel s' k j.
Proof.
  intros form t ms s k m j H Hj Ux Uy s'. destruct (process_at 2 form t ms s k m H) as [_ B]. destruct (B j Hj) as (_ & _ & E). fold s' in E. rewrite E.
  unfold wind_energy_velocity. cbv zeta. destruct (Nat.ltb_spec j 2); [|lia].
  destruct j as [|[|j]]; [| |lia]; unfold aux_cross, mesh_velocity_cross_product, vscale, vsub, load; cbn [comp vx vy vz Nat.ltb Nat.leb]; rewrite ?Ux, ?Uy; ring.
Qed.
(** So the velocity relative to the mesh vanishes on such a wall and no mass crosses it. *)
Theorem C70_no_relative_velocity_at_the_wall : forall form t ms s k m j u vrtm, moved_by k m ms -> (j < 3)%nat ->
  let s' := process_mesh_motion 3 form t ms s in
  (forall i, u k i = wind_energy_velocity 3 form t (m_omega m) (m_unit m) (m_centroid m) (f_cur s' k) i) ->
  compute_vrtm 3 u (f_vel s') vrtm k j = 0.
Proof.
  intros form t ms s k m j u vrtm H Hj s' Hu. unfold compute_vrtm. destruct (Nat.ltb_spec j 3); [|lia]. rewrite Hu.
  pose proof (C70_rotating_wall_moves_with_the_mesh form t ms s k m j H Hj) as E. cbv zeta in E. fold s' in E. rewrite E. ring.
Qed.
(** The "mesh_motion" boundary function gives the velocity of the six-degrees-of-freedom mesh, in three dimensions
    and, for a body turning about the z axis, in two. *)
Theorem C70_six_dof_wall : forall omega cen disp vel x j,
  ((j < 3)%nat -> mesh_motion_velocity 3 omega cen disp vel x j = comp (velocity_six_dof (load 3 x) cen disp omega vel) j) /\
  ((j < 2)%nat -> vx omega = 0 -> vy omega = 0 -> mesh_motion_velocity 2 omega cen disp vel x j = comp (velocity_six_dof (load 2 x) cen disp omega vel) j).
Proof.
  intros omega cen disp vel x j. split.
  - intros Hj. unfold mesh_motion_velocity. cbv zeta. destruct (Nat.ltb_spec j 3); [|lia].
    destruct j as [|[|[|j]]]; [| | |lia]; unfold velocity_six_dof, aux_cross, mesh_velocity_cross_product, vadd, vsub, load; cbn [comp vx vy vz Nat.ltb Nat.leb]; ring.
  - intros Hj Ox Oy. unfold mesh_motion_velocity. cbv zeta. destruct (Nat.ltb_spec j 2); [|lia].
    destruct j as [|[|j]]; [| |lia]; unfold velocity_six_dof, aux_cross, mesh_velocity_cross_product, vadd, vsub, load; cbn [comp vx vy vz Nat.ltb Nat.leb]; rewrite ?Ox, ?Oy; ring.
Qed.
(** The wall velocity is that of a rigid body: the distance of any two wall points does not change, to first order. *)
Theorem C70_wall_velocity_is_rigid : forall omega cen disp vel x y,
  let u := mesh_motion_velocity 3 omega cen disp vel x in let v := mesh_motion_velocity 3 omega cen disp vel y in
  (x 0%nat - y 0%nat) * (u 0%nat - v 0%nat) + (x 1%nat - y 1%nat) * (u 1%nat - v 1%nat) + (x 2%nat - y 2%nat) * (u 2%nat - v 2%nat) = 0.
Proof. intros. unfold u, v, mesh_motion_velocity, aux_cross, load. cbn [comp vx vy vz Nat.ltb Nat.leb]. ring. Qed.
(** Not true in general in two dimensions: with an axis out of the z direction and a centroid off the plane the mesh
    takes the z distance of the centroid into account and the wall function does not. *)
Theorem C70_two_dimensional_wall_refuted : exists form t ms s k m j, moved_by k m ms /\ (j < 2)%nat /\ unit3 (m_unit m) /\
  wind_energy_velocity 2 form t (m_omega m) (m_unit m) (m_centroid m) (f_cur (process_mesh_motion 2 form t ms s) k) j <> f_vel (process_mesh_motion 2 form t ms s) k j.
Proof.
  pose (m := mkRot [fun _ => true] 1 (V3 0 0 1) (V3 0 1 0)). pose (s := mkF (fun _ _ => 0) (fun _ _ => 0) (fun _ _ => 0) (fun _ _ => 0) (fun _ => 0)).
  exists None, 0, [m], s, 0%nat, m, 0%nat. assert (M : moved_by 0 m [m]).
  { exists [], []. split; auto. split; [exists (fun _ => true); split; [left; auto|auto]|]. intros m' P []. }
  split; [exact M|]. split; [lia|]. split; [unfold unit3, dot; cbn; ring|].
  destruct (process_at 2 None 0 [m] s 0 m M) as [_ B]. destruct (B 0%nat ltac:(lia)) as (_ & _ & E). rewrite E.
  unfold wind_energy_velocity, aux_cross, mesh_velocity_cross_product, vscale, vsub, load. cbn [comp vx vy vz Nat.ltb Nat.leb m m_omega m_unit m_centroid get_tanh_blending]. lra.
Qed.
(** One rotating block meets the hypotheses. *)
Example C70_example : let m := mkRot [fun k => Nat.eqb k 5] 2 (V3 0 0 0) (V3 0 0 1) in moved_by 5 m [m] /\
  wind_energy_velocity 3 None 1 2 (V3 0 0 1) (V3 0 0 0) (fun i => INR i + 1) 0%nat = - 4.
Proof.
  cbv zeta. split.
  - exists [], []. split; auto. split; [exists (fun k => Nat.eqb k 5); split; [left; auto|auto]|]. intros m' P [].
  - unfold wind_energy_velocity, aux_cross, vscale, load. cbn [comp vx vy vz Nat.ltb Nat.leb get_tanh_blending INR]. ring.
Qed.
