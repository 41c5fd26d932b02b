Require Import Reals List Arith Bool Lra Lia Nsatz Ranalysis Ratan.
From Verif Require Import RUtil Edge_Model Motion_Model Motion_Spec.
Import ListNotations.
Open Scope R_scope.

(* ------------------------------------------------------------------ algebra of rotations *)
Lemma v3_ext a b : vx a = vx b -> vy a = vy b -> vz a = vz b -> a = b.
Proof. destruct a, b; cbn; intros; subst; reflexivity. Qed.

Lemma sc2 x : sin x * sin x + cos x * cos x = 1.
Proof. pose proof (sin2_cos2 x) as H. unfold Rsqr in H. exact H. Qed.

(** the code's rotation is Rodrigues' *)
Lemma rotated_displacement_rodrigues th cen u p :
  unit3 u -> vadd p (rotated_displacement (th*(1/2)) cen u p) = rodrigues cen u th p.
Proof.
  intros Hu. unfold unit3, dot in Hu.
  unfold rotated_displacement, rodrigues, vadd, vsub, vscale, cross, dot.
  assert (Hc : cos th = cos (th*(1/2)) * cos (th*(1/2)) - sin (th*(1/2)) * sin (th*(1/2))).
  { rewrite <- cos_plus. f_equal. lra. }
  assert (Hs : sin th = 2 * (sin (th*(1/2)) * cos (th*(1/2)))).
  { replace th with (th*(1/2) + th*(1/2)) at 1 by lra. rewrite sin_plus. ring. }
  pose proof (sc2 (th*(1/2))) as H1.
  rewrite Hc, Hs. clear Hc Hs.
  set (C := cos (th*(1/2))) in *. set (S := sin (th*(1/2))) in *. clearbody C S.
  destruct u as [a b c], p as [x y z], cen as [e f g]. cbn [vx vy vz] in *.
  apply v3_ext; cbn [vx vy vz]; nsatz.
Qed.

(** quaternion rotation about the origin *)
Definition qrot (q : quat) (c : v3) : v3 :=
  V3 ((qw q*qw q + qx q*qx q - qy q*qy q - qz q*qz q)*vx c + 2*(qx q*qy q - qw q*qz q)*vy c + 2*(qw q*qy q + qx q*qz q)*vz c)
     (2*(qx q*qy q + qw q*qz q)*vx c + (qw q*qw q - qx q*qx q + qy q*qy q - qz q*qz q)*vy c + 2*(qy q*qz q - qw q*qx q)*vz c)
     (2*(qx q*qz q - qw q*qy q)*vx c + 2*(qw q*qx q + qy q*qz q)*vy c + (qw q*qw q - qx q*qx q - qy q*qy q + qz q*qz q)*vz c).
Definition axis_quat (u : v3) (th : R) : quat :=
  Q4 (cos (th*(1/2))) (sin (th*(1/2)) * vx u) (sin (th*(1/2)) * vy u) (sin (th*(1/2)) * vz u).
Definition qmul (p q : quat) : quat :=
  Q4 (qw p*qw q - qx p*qx q - qy p*qy q - qz p*qz q)
     (qw p*qx q + qx p*qw q + qy p*qz q - qz p*qy q)
     (qw p*qy q - qx p*qz q + qy p*qw q + qz p*qx q)
     (qw p*qz q + qx p*qy q - qy p*qx q + qz p*qw q).

Lemma axis_quat_unit u th : unit3 u -> qnorm2 (axis_quat u th) = 1.
Proof.
  unfold unit3, dot, qnorm2, axis_quat. intros H. cbn [qw qx qy qz].
  pose proof (sc2 (th*(1/2))) as E. set (C := cos (th*(1/2))) in *. set (S := sin (th*(1/2))) in *.
  transitivity (S*S*(vx u*vx u + vy u*vy u + vz u*vz u) + C*C); [ring|]. rewrite H. lra.
Qed.

Lemma rodrigues_qrot cen u th p :
  unit3 u -> rodrigues cen u th p = vadd cen (qrot (axis_quat u th) (vsub p cen)).
Proof.
  intros H. rewrite <- rotated_displacement_rodrigues by exact H.
  unfold rotated_displacement, qrot, axis_quat, vadd, vsub. apply v3_ext; cbn [vx vy vz qw qx qy qz]; ring.
Qed.

Lemma qrot_sub q a b : vsub (qrot q a) (qrot q b) = qrot q (vsub a b).
Proof. unfold qrot, vsub. apply v3_ext; cbn [vx vy vz]; ring. Qed.
Lemma qrot_dot q a b : dot (qrot q a) (qrot q b) = qnorm2 q * qnorm2 q * dot a b.
Proof. unfold dot, qrot, qnorm2. cbn [vx vy vz]. ring. Qed.
Lemma qrot_cross q a b : cross (qrot q a) (qrot q b) = vscale (qnorm2 q) (qrot q (cross a b)).
Proof. unfold cross, qrot, qnorm2, vscale. apply v3_ext; cbn [vx vy vz]; ring. Qed.
Lemma qrot_mul p q c : qrot p (qrot q c) = qrot (qmul p q) c.
Proof. unfold qrot, qmul. apply v3_ext; cbn [vx vy vz qw qx qy qz]; ring. Qed.
Lemma axis_quat_plus u a b : unit3 u -> qmul (axis_quat u a) (axis_quat u b) = axis_quat u (a + b).
Proof.
  unfold unit3, dot. intros H. unfold qmul, axis_quat. cbn [qw qx qy qz].
  replace ((a+b)*(1/2)) with (a*(1/2) + b*(1/2)) by lra. rewrite cos_plus, sin_plus.
  set (Ca := cos (a*(1/2))). set (Sa := sin (a*(1/2))). set (Cb := cos (b*(1/2))). set (Sb := sin (b*(1/2))).
  f_equal; try ring.
  transitivity (Ca*Cb - Sa*Sb*(vx u*vx u + vy u*vy u + vz u*vz u)); [ring|]. rewrite H. ring.
Qed.
Lemma vsub_vadd_same c a b : vsub (vadd c a) (vadd c b) = vsub a b.
Proof. unfold vsub, vadd. apply v3_ext; cbn [vx vy vz]; ring. Qed.
Lemma vsub_vsub_same c a b : vsub (vsub a c) (vsub b c) = vsub a b.
Proof. unfold vsub. apply v3_ext; cbn [vx vy vz]; ring. Qed.
Lemma vsub_vadd c a : vsub (vadd c a) c = a.
Proof. unfold vsub, vadd. apply v3_ext; cbn [vx vy vz]; ring. Qed.

Lemma rodrigues_isometry cen u th p q : unit3 u -> dist2 (rodrigues cen u th p) (rodrigues cen u th q) = dist2 p q.
Proof.
  intros H. unfold dist2. rewrite !rodrigues_qrot, vsub_vadd_same, qrot_sub, vsub_vsub_same, qrot_dot, axis_quat_unit by exact H.
  ring.
Qed.
Lemma rodrigues_volume cen u th a b c d : unit3 u ->
  volume6 (rodrigues cen u th a) (rodrigues cen u th b) (rodrigues cen u th c) (rodrigues cen u th d) = volume6 a b c d.
Proof.
  intros H. unfold volume6. rewrite !rodrigues_qrot, !vsub_vadd_same, !qrot_sub, !vsub_vsub_same, qrot_cross by exact H.
  rewrite axis_quat_unit by exact H.
  replace (vscale 1 (qrot (axis_quat u th) (cross (vsub c a) (vsub d a)))) with (qrot (axis_quat u th) (cross (vsub c a) (vsub d a)))
    by (unfold vscale; apply v3_ext; cbn [vx vy vz]; ring).
  rewrite qrot_dot, axis_quat_unit by exact H. ring.
Qed.
Lemma rodrigues_compose cen u a b p : unit3 u -> rodrigues cen u a (rodrigues cen u b p) = rodrigues cen u (a + b) p.
Proof.
  intros H. rewrite !rodrigues_qrot, vsub_vadd, qrot_mul, axis_quat_plus by exact H. reflexivity.
Qed.
Lemma rodrigues_axis cen u th r : unit3 u -> rodrigues cen u th (vadd cen (vscale r u)) = vadd cen (vscale r u).
Proof.
  unfold unit3, dot. intros H. unfold rodrigues. rewrite vsub_vadd.
  unfold vadd, vscale, cross, dot. apply v3_ext; cbn [vx vy vz].
  1: transitivity (vx cen + (cos th*(r*vx u) + (1-cos th)*r*(vx u*vx u + vy u*vy u + vz u*vz u)*vx u)); [ring|rewrite H; ring].
  1: transitivity (vy cen + (cos th*(r*vy u) + (1-cos th)*r*(vx u*vx u + vy u*vy u + vz u*vz u)*vy u)); [ring|rewrite H; ring].
  1: transitivity (vz cen + (cos th*(r*vz u) + (1-cos th)*r*(vx u*vx u + vy u*vy u + vz u*vz u)*vz u)); [ring|rewrite H; ring].
Qed.
Lemma rodrigues_zero cen u p : rodrigues cen u 0 p = p.
Proof. unfold rodrigues, vadd, vscale, vsub, cross, dot. rewrite cos_0, sin_0. apply v3_ext; cbn [vx vy vz]; ring. Qed.

(* ------------------------------------------------------------------ fields after process_mesh_motion *)
Definition at_node (nDim : nat) (form : option (R*R)) (t : R) (m : rotation) (s : fields) (k : nat) (s' : fields) : Prop :=
  let om := m_omega m * get_tanh_blending form t in
  let d := rotated_displacement (om*t*(1/2)) (m_centroid m) (m_unit m) (load nDim (f_model s k)) in
  f_om s' k = om /\
  (forall j, (j < nDim)%nat -> f_dx s' k j = comp d j /\ f_cur s' k j = f_model s k j + comp d j /\
     f_vel s' k j = comp (mesh_velocity_cross_product (vscale om (m_unit m)) (vsub (load nDim (f_cur s' k)) (m_centroid m))) j).

Lemma move_block_model nDim form t m s P : f_model (move_block nDim form t m s P) = f_model s.
Proof. reflexivity. Qed.
Lemma move_block_other nDim form t m s P k : P k = false ->
  let s' := move_block nDim form t m s P in
  f_om s' k = f_om s k /\ f_dx s' k = f_dx s k /\ f_cur s' k = f_cur s k /\ f_vel s' k = f_vel s k.
Proof. intros E. cbn. unfold on. rewrite E. auto. Qed.
Lemma move_block_in nDim form t m s P k : P k = true -> at_node nDim form t m s k (move_block nDim form t m s P).
Proof.
  intros E. unfold at_node. split.
  - cbn. unfold on. rewrite E. reflexivity.
  - intros j Hj. unfold move_block, set_mesh_velocity, set_current_coordinates, set_current_displacement, set_omega, on.
    cbn [f_model f_dx f_cur f_vel f_om]. rewrite E. unfold store.
    assert (Hj' : (j <? nDim)%nat = true) by (apply Nat.ltb_lt; exact Hj). rewrite Hj'.
    split; [reflexivity|]. split; reflexivity.
Qed.
Lemma at_node_ext nDim form t m s k a b :
  f_om b k = f_om a k -> f_dx b k = f_dx a k -> f_cur b k = f_cur a k -> f_vel b k = f_vel a k ->
  at_node nDim form t m s k a -> at_node nDim form t m s k b.
Proof.
  unfold at_node. intros E1 E2 E3 E4 [A B]. rewrite E1. split; [exact A|].
  intros j Hj. rewrite E2, E3, E4. apply B, Hj.
Qed.
Lemma at_node_model nDim form t m s s0 k a : f_model s k = f_model s0 k ->
  at_node nDim form t m s k a -> at_node nDim form t m s0 k a.
Proof. unfold at_node. intros ->. auto. Qed.

Lemma blocks_model nDim form t m bl : forall s, f_model (fold_left (move_block nDim form t m) bl s) = f_model s.
Proof. induction bl as [|P bl IH]; intros s; [reflexivity|]. cbn [fold_left]. rewrite IH. reflexivity. Qed.
Lemma blocks_keep nDim form t m k bl : forall s0 s, f_model s k = f_model s0 k ->
  at_node nDim form t m s0 k s -> at_node nDim form t m s0 k (fold_left (move_block nDim form t m) bl s).
Proof.
  induction bl as [|P bl IH]; intros s0 s Em H; [exact H|]. cbn [fold_left]. apply IH; [exact Em|].
  destruct (P k) eqn:E.
  - apply (at_node_model _ _ _ _ s); [exact Em|]. apply move_block_in, E.
  - destruct (move_block_other nDim form t m s P k E) as (A & B & C & D).
    revert H. apply at_node_ext; assumption.
Qed.
Lemma blocks_in nDim form t m k bl : forall s, (exists P, In P bl /\ P k = true) ->
  at_node nDim form t m s k (fold_left (move_block nDim form t m) bl s).
Proof.
  induction bl as [|P bl IH]; intros s (P0 & Hin & E); [destruct Hin|]. cbn [fold_left].
  destruct (P k) eqn:EP.
  - apply blocks_keep; [reflexivity|]. apply move_block_in, EP.
  - destruct Hin as [->|Hin]; [congruence|].
    apply (at_node_model _ _ _ _ (move_block nDim form t m s P)); [reflexivity|]. apply IH. eauto.
Qed.
Lemma blocks_out nDim form t m k bl : forall s, (forall P, In P bl -> P k = false) ->
  let s' := fold_left (move_block nDim form t m) bl s in
  f_om s' k = f_om s k /\ f_dx s' k = f_dx s k /\ f_cur s' k = f_cur s k /\ f_vel s' k = f_vel s k.
Proof.
  induction bl as [|P bl IH]; intros s H; [cbn; auto|]. cbn [fold_left].
  destruct (IH (move_block nDim form t m s P) (fun P' HP' => H P' (or_intror HP'))) as (A & B & C & D).
  destruct (move_block_other nDim form t m s P k (H P (or_introl eq_refl))) as (A' & B' & C' & D').
  cbv zeta. rewrite A, B, C, D. auto.
Qed.
Lemma process_model nDim form t ms : forall s, f_model (process_mesh_motion nDim form t ms s) = f_model s.
Proof.
  unfold process_mesh_motion. induction ms as [|m ms IH]; intros s; [reflexivity|]. cbn [fold_left].
  rewrite IH. apply blocks_model.
Qed.
Lemma process_out nDim form t k l2 : forall s,
  (forall m' P, In m' l2 -> In P (m_blocks m') -> P k = false) ->
  let s' := process_mesh_motion nDim form t l2 s in
  f_om s' k = f_om s k /\ f_dx s' k = f_dx s k /\ f_cur s' k = f_cur s k /\ f_vel s' k = f_vel s k.
Proof.
  unfold process_mesh_motion. induction l2 as [|m l2 IH]; intros s H; [cbn; auto|]. cbn [fold_left].
  destruct (blocks_out nDim form t m k (m_blocks m) s (fun P HP => H m P (or_introl eq_refl) HP)) as (A & B & C & D).
  destruct (IH (fold_left (move_block nDim form t m) (m_blocks m) s) (fun m' P Hm HP => H m' P (or_intror Hm) HP)) as (A' & B' & C' & D').
  cbv zeta. rewrite A', B', C', D'. auto.
Qed.
Lemma process_at nDim form t ms s k m : moved_by k m ms -> at_node nDim form t m s k (process_mesh_motion nDim form t ms s).
Proof.
  intros (l1 & l2 & -> & Hin & Hout). unfold process_mesh_motion. rewrite fold_left_app. cbn [fold_left].
  change (fold_left (fun s0 m0 => fold_left (move_block nDim form t m0) (m_blocks m0) s0) l1 s) with (process_mesh_motion nDim form t l1 s).
  set (s1 := process_mesh_motion nDim form t l1 s).
  destruct (process_out nDim form t k l2 (fold_left (move_block nDim form t m) (m_blocks m) s1) Hout) as (A & B & C & D).
  unfold process_mesh_motion in A, B, C, D.
  refine (at_node_ext _ _ _ _ _ _ (fold_left (move_block nDim form t m) (m_blocks m) s1) _ A B C D _).
  apply (at_node_model _ _ _ _ s1); [unfold s1; rewrite process_model; reflexivity|]. apply blocks_in, Hin.
Qed.

Lemma load3_cur form t ms s k m : moved_by k m ms ->
  load 3 (f_cur (process_mesh_motion 3 form t ms s) k) =
  vadd (load 3 (f_model s k)) (rotated_displacement (m_omega m * get_tanh_blending form t * t * (1/2)) (m_centroid m) (m_unit m) (load 3 (f_model s k))).
Proof.
  intros H. destruct (process_at 3 form t ms s k m H) as [_ B].
  destruct (B 0%nat ltac:(lia)) as (_ & E0 & _). destruct (B 1%nat ltac:(lia)) as (_ & E1 & _). destruct (B 2%nat ltac:(lia)) as (_ & E2 & _).
  unfold load at 1. cbn [Nat.ltb Nat.leb]. rewrite E0, E1, E2. reflexivity.
Qed.

(* ------------------------------------------------------------------ C09 *)
(** In 3-D the current coordinates of every node of a rotating block are the rotation of its model coordinates by
    the angle omega*t about the axis, whatever the fields held before and whatever the other motions are. *)
Theorem C09_current_coordinates_are_the_rotation t ms s k m : moved_by k m ms -> unit3 (m_unit m) ->
  load 3 (f_cur (process_mesh_motion 3 None t ms s) k) =
  rodrigues (m_centroid m) (m_unit m) (m_omega m * t) (load 3 (f_model s k)).
Proof.
  intros H Hu. rewrite (load3_cur None t ms s k m H). cbn [get_tanh_blending].
  replace (m_omega m * 1 * t * (1/2)) with ((m_omega m * t) * (1/2)) by ring.
  apply rotated_displacement_rodrigues, Hu.
Qed.
(** distances, oriented volumes *)
Theorem C09_isometry form t ms s k k' m : moved_by k m ms -> moved_by k' m ms -> unit3 (m_unit m) ->
  let cur := fun n => load 3 (f_cur (process_mesh_motion 3 form t ms s) n) in
  dist2 (cur k) (cur k') = dist2 (load 3 (f_model s k)) (load 3 (f_model s k')).
Proof.
  intros H H' Hu. cbv beta zeta. rewrite (load3_cur form t ms s k m H), (load3_cur form t ms s k' m H').
  rewrite !rotated_displacement_rodrigues by exact Hu. apply rodrigues_isometry, Hu.
Qed.
Theorem C09_orientation form t ms s a b c d m :
  moved_by a m ms -> moved_by b m ms -> moved_by c m ms -> moved_by d m ms -> unit3 (m_unit m) ->
  let cur := fun n => load 3 (f_cur (process_mesh_motion 3 form t ms s) n) in
  let mdl := fun n => load 3 (f_model s n) in
  volume6 (cur a) (cur b) (cur c) (cur d) = volume6 (mdl a) (mdl b) (mdl c) (mdl d).
Proof.
  intros Ha Hb Hc Hd Hu. cbv beta zeta.
  rewrite (load3_cur form t ms s a m Ha), (load3_cur form t ms s b m Hb), (load3_cur form t ms s c m Hc), (load3_cur form t ms s d m Hd).
  rewrite !rotated_displacement_rodrigues by exact Hu. apply rodrigues_volume, Hu.
Qed.
Theorem C09_axis_is_fixed form t ms s k m r : moved_by k m ms -> unit3 (m_unit m) ->
  load 3 (f_model s k) = vadd (m_centroid m) (vscale r (m_unit m)) ->
  load 3 (f_cur (process_mesh_motion 3 form t ms s) k) = load 3 (f_model s k).
Proof.
  intros H Hu E. rewrite (load3_cur form t ms s k m H), rotated_displacement_rodrigues by exact Hu.
  rewrite E. apply rodrigues_axis, Hu.
Qed.
(** at time 0 nothing moves, in any dimension and for any direction vector *)
Theorem C09_identity_at_time_zero nDim form ms s k m j : moved_by k m ms -> (j < nDim)%nat -> (nDim <= 3)%nat ->
  let s' := process_mesh_motion nDim form 0 ms s in
  f_cur s' k j = f_model s k j /\ f_dx s' k j = 0.
Proof.
  intros H Hj Hn. destruct (process_at nDim form 0 ms s k m H) as [_ B]. destruct (B j Hj) as (E1 & E2 & _).
  cbv zeta. rewrite E1, E2.
  assert (Z : comp (rotated_displacement (m_omega m * get_tanh_blending form 0 * 0 * (1/2)) (m_centroid m) (m_unit m) (load nDim (f_model s k))) j = 0).
  { replace (m_omega m * get_tanh_blending form 0 * 0 * (1/2)) with 0 by ring. unfold rotated_displacement. rewrite cos_0, sin_0.
    destruct j as [|[|j]]; cbn [comp vx vy vz]; ring. }
  rewrite Z. split; ring.
Qed.
(** moving for t1, then taking the moved mesh as the model mesh and moving for t2, is moving for t1+t2 *)
Theorem C09_motions_compose t1 t2 ms s s2 k m : moved_by k m ms -> unit3 (m_unit m) ->
  (forall j, f_model s2 k j = f_cur (process_mesh_motion 3 None t1 ms s) k j) ->
  load 3 (f_cur (process_mesh_motion 3 None t2 ms s2) k) = load 3 (f_cur (process_mesh_motion 3 None (t1 + t2) ms s) k).
Proof.
  intros H Hu E. rewrite !(C09_current_coordinates_are_the_rotation _ ms _ k m H Hu).
  replace (load 3 (f_model s2 k)) with (load 3 (f_cur (process_mesh_motion 3 None t1 ms s) k))
    by (unfold load; cbn [Nat.ltb Nat.leb]; rewrite !E; reflexivity).
  rewrite (C09_current_coordinates_are_the_rotation _ ms _ k m H Hu), rodrigues_compose by exact Hu.
  f_equal. ring.
Qed.
(** in 2-D with the default axis (0,0,1) the motion is the plane rotation about the centroid *)
Theorem C09_planar_rotation t ms s k m : moved_by k m ms -> m_unit m = V3 0 0 1 ->
  let th := m_omega m * t in
  let x := f_model s k 0%nat - vx (m_centroid m) in let y := f_model s k 1%nat - vy (m_centroid m) in
  f_cur (process_mesh_motion 2 None t ms s) k 0%nat = vx (m_centroid m) + (cos th * x - sin th * y) /\
  f_cur (process_mesh_motion 2 None t ms s) k 1%nat = vy (m_centroid m) + (sin th * x + cos th * y).
Proof.
  intros H Eu. destruct (process_at 2 None t ms s k m H) as [_ B].
  destruct (B 0%nat ltac:(lia)) as (_ & E0 & _). destruct (B 1%nat ltac:(lia)) as (_ & E1 & _).
  rewrite E0, E1, Eu. cbn [get_tanh_blending]. unfold rotated_displacement. cbn [comp vx vy vz load Nat.ltb Nat.leb].
  set (th := m_omega m * t). replace (m_omega m * 1 * t * (1/2)) with (th*(1/2)) by (unfold th; ring).
  assert (Hc : cos th = cos (th*(1/2)) * cos (th*(1/2)) - sin (th*(1/2)) * sin (th*(1/2))) by (rewrite <- cos_plus; f_equal; lra).
  assert (Hs : sin th = 2 * (sin (th*(1/2)) * cos (th*(1/2)))).
  { replace th with (th*(1/2) + th*(1/2)) at 1 by lra. rewrite sin_plus. ring. }
  cbv zeta. rewrite Hc, Hs. split; ring.
Qed.
(** the initial displacement is the rotation by the given number of degrees *)
Theorem C09_initial_displacement cen u ang s P k : P k = true -> unit3 u ->
  load 3 (f_cur (set_current_coordinates 3 P (set_initial_displacement 3 P cen u ang s)) k) =
  rodrigues cen u (ang * PI / 180) (load 3 (f_model s k)).
Proof.
  intros E Hu. rewrite <- rotated_displacement_rodrigues by exact Hu.
  unfold load at 1. cbn [Nat.ltb Nat.leb set_current_coordinates set_initial_displacement f_cur f_model f_dx].
  unfold on. rewrite E. reflexivity.
Qed.
(** nodes in no block of any motion keep all their fields *)
Theorem C09_other_nodes_untouched nDim form t ms s k :
  (forall m P, In m ms -> In P (m_blocks m) -> P k = false) ->
  let s' := process_mesh_motion nDim form t ms s in
  f_cur s' k = f_cur s k /\ f_dx s' k = f_dx s k /\ f_vel s' k = f_vel s k.
Proof. intros H. destruct (process_out nDim form t k ms s H) as (A & B & C & D). cbv zeta. auto. Qed.

(** The direction is used as given: with a vector that is not of unit length (the input is not normalised or
    checked) the "rotation" stretches the mesh. *)
Theorem C09_non_unit_axis_is_not_rigid_refuted :
  ~ (forall m t ms s k k', moved_by k m ms -> moved_by k' m ms ->
       let cur := fun n => load 3 (f_cur (process_mesh_motion 3 None t ms s) n) in
       dist2 (cur k) (cur k') = dist2 (load 3 (f_model s k)) (load 3 (f_model s k'))).
Proof.
  intros H.
  set (m := mkRot ((fun _ => true) :: nil) 1 (V3 0 0 0) (V3 0 0 2)).
  set (s := mkF (fun n i => if (n =? 0)%nat then 0 else if (i =? 0)%nat then 1 else 0) (fun _ _ => 0) (fun _ _ => 0) (fun _ _ => 0) (fun _ => 0)).
  assert (M : forall k, moved_by k m (m :: nil)).
  { intros k. exists nil, nil. split; [reflexivity|]. split; [|intros ? ? []]. exists (fun _ => true). split; [left|]; reflexivity. }
  specialize (H m PI (m :: nil) s 0%nat 1%nat (M _) (M _)). cbv beta zeta in H.
  rewrite !(load3_cur None PI (m :: nil) s _ m (M _)) in H.
  cbn [get_tanh_blending] in H. unfold rotated_displacement in H.
  cbn [m m_omega m_unit m_centroid vx vy vz] in H.
  replace (1 * 1 * PI * (1/2)) with (PI/2) in H by lra. rewrite cos_PI2, sin_PI2 in H.
  unfold dist2, dot, vsub, vadd, load in H. cbn [s f_model vx vy vz Nat.ltb Nat.leb Nat.eqb] in H. lra.
Qed.
