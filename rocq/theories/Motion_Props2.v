Require Import Reals List Arith Bool Lra Lia Ranalysis Ratan.
From Verif Require Import RUtil Edge_Model Motion_Model Motion_Spec Motion_Props.
Import ListNotations.
Open Scope R_scope.

(* ------------------------------------------------------------------ C10 *)
Lemma dpl_ext (f g : R -> R) x l : (forall y, f y = g y) -> derivable_pt_lim g x l -> derivable_pt_lim f x l.
Proof. intros E H eps He. destruct (H eps He) as [d Hd]. exists d. intros h H1 H2. rewrite !E. apply Hd; assumption. Qed.

Lemma dpl_trig (th : R -> R) (a b c t w : R) : derivable_pt_lim th t w ->
  derivable_pt_lim (fun t => a + (b * cos (th t) + c * sin (th t))) t (w * (c * cos (th t) - b * sin (th t))).
Proof.
  intros H.
  replace (w * (c * cos (th t) - b * sin (th t))) with (0 + (b * (- sin (th t) * w) + c * (cos (th t) * w))) by ring.
  apply (derivable_pt_lim_plus (fun _ => a) (fun t => b * cos (th t) + c * sin (th t))); [apply derivable_pt_lim_const|].
  apply (derivable_pt_lim_plus (fun t => b * cos (th t)) (fun t => c * sin (th t))).
  - apply (derivable_pt_lim_scal (fun t => cos (th t)) b).
    apply (derivable_pt_lim_comp th cos); [exact H|apply derivable_pt_lim_cos].
  - apply (derivable_pt_lim_scal (fun t => sin (th t)) c).
    apply (derivable_pt_lim_comp th sin); [exact H|apply derivable_pt_lim_sin].
Qed.

Lemma dpl_linear w t : derivable_pt_lim (fun t => w * t) t w.
Proof.
  pose proof (derivable_pt_lim_scal id w t 1 (derivable_pt_lim_id t)) as H. rewrite Rmult_1_r in H. exact H.
Qed.

Lemma rodrigues_cs cen u th p j :
  comp (rodrigues cen u th p) j =
  (comp cen j + dot u (vsub p cen) * comp u j) +
  ((comp (vsub p cen) j - dot u (vsub p cen) * comp u j) * cos th + comp (cross u (vsub p cen)) j * sin th).
Proof. destruct j as [|[|j]]; unfold rodrigues, vadd, vscale; cbn [comp vx vy vz]; ring. Qed.

Lemma rodrigues_velocity cen u th p w j : unit3 u ->
  w * (comp (cross u (vsub p cen)) j * cos th - (comp (vsub p cen) j - dot u (vsub p cen) * comp u j) * sin th) =
  comp (mesh_velocity_cross_product (vscale w u) (vsub (rodrigues cen u th p) cen)) j.
Proof.
  unfold unit3. intros Hu. unfold rodrigues. rewrite vsub_vadd.
  set (c := vsub p cen).
  assert (D : dot u u = 1) by exact Hu. unfold dot in D.
  destruct j as [|[|j]]; unfold mesh_velocity_cross_product, vadd, vscale, cross, dot; cbn [comp vx vy vz].
  - transitivity (w * ((vy u * vz c - vz u * vy c) * cos th + - (vx c*1 - (vx u * vx c + vy u * vy c + vz u * vz c) * vx u) * sin th)); [ring|].
    rewrite <- D. ring.
  - transitivity (w * ((vz u * vx c - vx u * vz c) * cos th + - (vy c*1 - (vx u * vx c + vy u * vy c + vz u * vz c) * vy u) * sin th)); [ring|].
    rewrite <- D. ring.
  - transitivity (w * ((vx u * vy c - vy u * vx c) * cos th + - (vz c*1 - (vx u * vx c + vy u * vy c + vz u * vz c) * vz u) * sin th)); [ring|].
    rewrite <- D. ring.
Qed.

Lemma comp_load3 f j : (j < 3)%nat -> comp (load 3 f) j = f j.
Proof. destruct j as [|[|[|j]]]; intros H; try reflexivity. lia. Qed.

(** 3-D: the mesh velocity field is the time derivative of the current coordinates, for constant omega *)
Theorem C10_mesh_velocity_is_derivative t ms s k m j : moved_by k m ms -> unit3 (m_unit m) -> (j < 3)%nat ->
  derivable_pt_lim (fun t => f_cur (process_mesh_motion 3 None t ms s) k j) t
                   (f_vel (process_mesh_motion 3 None t ms s) k j).
Proof.
  intros H Hu Hj.
  destruct (process_at 3 None t ms s k m H) as [_ B]. destruct (B j Hj) as (_ & _ & Ev). rewrite Ev.
  cbn [get_tanh_blending]. rewrite (C09_current_coordinates_are_the_rotation t ms s k m H Hu).
  rewrite Rmult_1_r, <- rodrigues_velocity by exact Hu.
  refine (dpl_ext _ _ _ _ _ (dpl_trig (fun t => m_omega m * t) _ _ _ t (m_omega m) (dpl_linear _ _))).
  intros y. cbv beta. rewrite <- rodrigues_cs.
  rewrite <- (C09_current_coordinates_are_the_rotation y ms s k m H Hu). symmetry. apply comp_load3, Hj.
Qed.
(** 2-D, default axis *)
Theorem C10_mesh_velocity_is_derivative_2d t ms s k m j : moved_by k m ms -> m_unit m = V3 0 0 1 -> (j < 2)%nat ->
  derivable_pt_lim (fun t => f_cur (process_mesh_motion 2 None t ms s) k j) t
                   (f_vel (process_mesh_motion 2 None t ms s) k j).
Proof.
  intros H Eu Hj.
  destruct (process_at 2 None t ms s k m H) as [_ B]. destruct (B j Hj) as (_ & _ & Ev). rewrite Ev, Eu.
  cbn [get_tanh_blending].
  destruct (C09_planar_rotation t ms s k m H Eu) as [P0 P1]. cbv zeta in P0, P1.
  unfold mesh_velocity_cross_product, vscale, vsub, load. cbn [vx vy vz Nat.ltb Nat.leb]. rewrite P0, P1.
  set (x := f_model s k 0%nat - vx (m_centroid m)). set (y := f_model s k 1%nat - vy (m_centroid m)).
  assert (j = 0 \/ j = 1)%nat as [-> | ->] by lia; cbn [comp vx vy vz].
  - match goal with |- derivable_pt_lim _ _ ?l => replace l with (m_omega m * (- y * cos (m_omega m * t) - x * sin (m_omega m * t))) by ring end.
    refine (dpl_ext _ _ _ _ _ (dpl_trig (fun t => m_omega m * t) (vx (m_centroid m)) x (-y) t (m_omega m) (dpl_linear _ _))).
    intros r. destruct (C09_planar_rotation r ms s k m H Eu) as [Q0 _]. cbv zeta in Q0. rewrite Q0. fold x y. ring.
  - match goal with |- derivable_pt_lim _ _ ?l => replace l with (m_omega m * (x * cos (m_omega m * t) - y * sin (m_omega m * t))) by ring end.
    refine (dpl_ext _ _ _ _ _ (dpl_trig (fun t => m_omega m * t) (vy (m_centroid m)) y x t (m_omega m) (dpl_linear _ _))).
    intros r. destruct (C09_planar_rotation r ms s k m H Eu) as [_ Q1]. cbv zeta in Q1. rewrite Q1. fold x y. ring.
Qed.
(** velocity relative to the mesh vanishes for a fluid moving with the mesh, and differs by exactly the mesh velocity *)
Theorem C10_relative_velocity nDim u v w k j : (j < nDim)%nat -> compute_vrtm nDim u v w k j + v k j = u k j.
Proof. intros H. unfold compute_vrtm. apply Nat.ltb_lt in H. rewrite H. ring. Qed.

Lemma tanh_0 : tanh 0 = 0.
Proof. unfold tanh, sinh, cosh. rewrite Ropp_0, exp_0. lra. Qed.
Lemma dpl_tanh_0 : derivable_pt_lim tanh 0 1.
Proof.
  assert (E : cosh 0 = 1) by (unfold cosh; rewrite Ropp_0, exp_0; lra).
  assert (E' : sinh 0 = 0) by (unfold sinh; rewrite Ropp_0, exp_0; lra).
  pose proof (derivable_pt_lim_div sinh cosh 0 _ _ (derivable_pt_lim_sinh 0) (derivable_pt_lim_cosh 0)) as H.
  rewrite E, E' in H. specialize (H ltac:(lra)).
  replace ((1*1 - 0*0)/Rsqr 1) with 1 in H by (unfold Rsqr; field). exact H.
Qed.

(** With a tanh ramp of omega the displacement uses omega(t)*t as the angle, whose derivative is not omega(t):
    the mesh velocity is then not the derivative of the mesh position. *)
Theorem C10_ramped_omega_velocity_refuted :
  ~ (forall c1 c2 t ms s k m j, 0 < c2 -> moved_by k m ms -> unit3 (m_unit m) -> (j < 3)%nat ->
       derivable_pt_lim (fun t => f_cur (process_mesh_motion 3 (Some (c1, c2)) t ms s) k j) t
                        (f_vel (process_mesh_motion 3 (Some (c1, c2)) t ms s) k j)).
Proof.
  intros H.
  set (m := mkRot [fun _ => true] 1 (V3 0 0 0) (V3 0 0 1)).
  set (s := mkF (fun n i => if (i =? 0)%nat then 1 else 0) (fun _ _ => 0) (fun _ _ => 0) (fun _ _ => 0) (fun _ => 0)).
  assert (M : forall k, moved_by k m [m]).
  { intros k. exists [], []. split; [reflexivity|]. split; [|intros ? ? []]. exists (fun _ => true). split; [left|]; reflexivity. }
  assert (Hu : unit3 (m_unit m)) by (unfold unit3, dot; cbn; ring).
  specialize (H 1 1 1 [m] s 0%nat m 1%nat ltac:(lra) (M _) Hu ltac:(lia)).
  set (th := fun t : R => tanh_peclet 1 1 t * t).
  assert (C : forall t, load 3 (f_cur (process_mesh_motion 3 (Some (1,1)) t [m] s) 0%nat) = V3 (cos (th t)) (sin (th t)) 0).
  { intros t. rewrite (load3_cur (Some (1,1)) t [m] s 0%nat m (M _)). cbn [get_tanh_blending].
    change (m_omega m) with 1. replace (1 * tanh_peclet 1 1 t * t * (1/2)) with (th t * (1/2)) by (unfold th; ring).
    rewrite rotated_displacement_rodrigues by exact Hu.
    unfold rodrigues, vadd, vscale, vsub, cross, dot, load. apply v3_ext; cbn; ring. }
  assert (B1 : tanh_peclet 1 1 1 = 1/2).
  { unfold tanh_peclet. replace ((1-1)/1) with 0 by field. rewrite tanh_0. lra. }
  assert (Dth : derivable_pt_lim th 1 1).
  { assert (D1 : derivable_pt_lim (fun y => y - 1) 1 1).
    { pose proof (derivable_pt_lim_minus id (fun _ => 1) 1 1 0 (derivable_pt_lim_id 1) (derivable_pt_lim_const 1 1)) as D.
      rewrite Rminus_0_r in D. exact D. }
    assert (D2 : derivable_pt_lim tanh (1 - 1) 1) by (replace (1 - 1) with 0 by lra; apply dpl_tanh_0).
    pose proof (derivable_pt_lim_comp (fun y => y - 1) tanh 1 1 1 D1 D2) as D3. rewrite Rmult_1_r in D3.
    pose proof (derivable_pt_lim_plus (fun _ => 1) (Ranalysis1.comp tanh (fun y => y - 1)) 1 0 1 (derivable_pt_lim_const 1 1) D3) as D4.
    rewrite Rplus_0_l in D4.
    pose proof (derivable_pt_lim_scal _ (1/2) 1 1 D4) as D5. rewrite Rmult_1_r in D5.
    assert (D6 : derivable_pt_lim (tanh_peclet 1 1) 1 (1/2)).
    { refine (dpl_ext _ _ _ _ _ D5). intros y. unfold tanh_peclet, mult_real_fct, plus_fct, Ranalysis1.comp.
      replace ((y - 1)/1) with (y - 1) by field. reflexivity. }
    pose proof (derivable_pt_lim_mult (tanh_peclet 1 1) id 1 _ _ D6 (derivable_pt_lim_id 1)) as D7.
    rewrite B1 in D7. unfold id in D7 at 2. replace (1/2*1 + 1/2*1) with 1 in D7 by lra. exact D7. }
  assert (Hth : th 1 = 1/2) by (unfold th; rewrite B1; lra).
  assert (D : derivable_pt_lim (fun t => f_cur (process_mesh_motion 3 (Some (1,1)) t [m] s) 0%nat 1%nat) 1 (1 * (1 * cos (th 1) - 0 * sin (th 1)))).
  { refine (dpl_ext _ _ _ _ _ (dpl_trig th 0 0 1 1 1 Dth)). intros y. rewrite <- comp_load3 by lia. rewrite C. cbn [comp vy]. ring. }
  pose proof (uniqueness_limite _ _ _ _ H D) as U.
  destruct (process_at 3 (Some (1,1)) 1 [m] s 0%nat m (M _)) as [_ B]. destruct (B 1%nat ltac:(lia)) as (_ & _ & Ev).
  rewrite Ev, C in U. cbn [get_tanh_blending] in U. rewrite B1 in U. rewrite Hth in U.
  unfold mesh_velocity_cross_product, vscale, vsub in U. cbn [comp m m_omega m_unit m_centroid vx vy vz] in U.
  assert (0 < cos (1/2)).
  { apply cos_gt_0; [pose proof PI_RGT_0; lra|]. pose proof PI2_1. lra. }
  lra.
Qed.

(* ------------------------------------------------------------------ C11 *)
Lemma raw_unit a : qnorm2 (euler_quat_raw a) = 1.
Proof.
  unfold qnorm2, euler_quat_raw. cbn [qw qx qy qz].
  pose proof (sc2 (vx a*(1/2))) as A. pose proof (sc2 (vy a*(1/2))) as B. pose proof (sc2 (vz a*(1/2))) as C.
  set (c0 := cos (vx a*(1/2))) in *. set (s0 := sin (vx a*(1/2))) in *. set (c1 := cos (vy a*(1/2))) in *.
  set (s1 := sin (vy a*(1/2))) in *. set (c2 := cos (vz a*(1/2))) in *. set (s2 := sin (vz a*(1/2))) in *.
  transitivity ((s0*s0 + c0*c0)*(s1*s1 + c1*c1)*(s2*s2 + c2*c2)); [ring|]. rewrite A, B, C. ring.
Qed.
Lemma quat_is_raw a : get_quat_from_eulerxyz a = euler_quat_raw a.
Proof.
  unfold get_quat_from_eulerxyz. pose proof (raw_unit a) as H. unfold qnorm2 in H. cbv zeta. rewrite H, sqrt_1.
  destruct (euler_quat_raw a) as [w x y z]. cbn. f_equal; field.
Qed.
Theorem C11_quaternion_has_unit_norm a : qnorm2 (get_quat_from_eulerxyz a) = 1.
Proof. rewrite quat_is_raw. apply raw_unit. Qed.

Lemma double_angle a : cos a = cos (a*(1/2)) * cos (a*(1/2)) - sin (a*(1/2)) * sin (a*(1/2)) /\ sin a = 2 * (sin (a*(1/2)) * cos (a*(1/2))).
Proof.
  split.
  - rewrite <- cos_plus. f_equal. lra.
  - replace a with (a*(1/2) + a*(1/2)) at 1 by lra. rewrite sin_plus. ring.
Qed.

Lemma rotmat_qrot q v : qnorm2 q = 1 -> mv (rotmat q) v = qrot q v.
Proof.
  unfold qnorm2. intros H. destruct q as [w x y z]. unfold mv, rotmat, qrot. cbn [r0 r1 r2 r3 r4 r5 r6 r7 r8 qw qx qy qz] in *.
  apply v3_ext; cbn [vx vy vz].
  1: transitivity ((2*(w*w + x*x) - 1)*vx v + 2*(x*y - w*z)*vy v + 2*(x*z + w*y)*vz v); [lra|].
  2: transitivity (2*(x*y + w*z)*vx v + (2*(w*w + y*y) - 1)*vy v + 2*(y*z - w*x)*vz v); [lra|].
  3: transitivity (2*(x*z - w*y)*vx v + 2*(y*z + w*x)*vy v + (2*(w*w + z*z) - 1)*vz v); [lra|].
  all: rewrite <- H; ring.
Qed.

(** the attitude matrix built from Euler angles is Rz(a2) Ry(a1) Rx(a0) *)
Theorem C11_matrix_is_the_euler_rotation a v :
  mv (get_rotmat_from_quat (get_quat_from_eulerxyz a) true) v = rot_z (vz a) (rot_y (vy a) (rot_x (vx a) v)).
Proof.
  unfold get_rotmat_from_quat. rewrite rotmat_qrot by apply C11_quaternion_has_unit_norm. rewrite quat_is_raw.
  unfold qrot, euler_quat_raw, rot_z, rot_y, rot_x. cbn [qw qx qy qz vx vy vz].
  destruct (double_angle (vx a)) as [Ca Sa]. destruct (double_angle (vy a)) as [Cb Sb]. destruct (double_angle (vz a)) as [Cc Sc].
  rewrite Ca, Sa, Cb, Sb, Cc, Sc.
  pose proof (sc2 (vx a*(1/2))) as A. pose proof (sc2 (vy a*(1/2))) as B. pose proof (sc2 (vz a*(1/2))) as C. clear - A B C.
  set (c0 := cos (vx a*(1/2))) in *. set (s0 := sin (vx a*(1/2))) in *. set (c1 := cos (vy a*(1/2))) in *.
  set (s1 := sin (vy a*(1/2))) in *. set (c2 := cos (vz a*(1/2))) in *. set (s2 := sin (vz a*(1/2))) in *.
  clearbody c0 s0 c1 s1 c2 s2. destruct v as [x y z]. cbn [vx vy vz].
  f_equal.
  - transitivity ((s0*s0+c0*c0)*((c2*c2 - s2*s2)*(c1*c1 - s1*s1)*x) +
      ((c2*c2 - s2*s2)*(2*(s1*c1))*(2*(s0*c0)) - 2*(s2*c2)*(c0*c0-s0*s0)*(s1*s1+c1*c1))*y +
      ((c2*c2 - s2*s2)*(2*(s1*c1))*(c0*c0-s0*s0) + 2*(s2*c2)*(2*(s0*c0))*(s1*s1+c1*c1))*z); [ring|].
    rewrite A, B. ring.
  - transitivity ((s0*s0+c0*c0)*(2*(s2*c2)*(c1*c1 - s1*s1)*x) +
      (2*(s2*c2)*(2*(s1*c1))*(2*(s0*c0)) + (c2*c2-s2*s2)*(c0*c0-s0*s0)*(s1*s1+c1*c1))*y +
      (2*(s2*c2)*(2*(s1*c1))*(c0*c0-s0*s0) - (c2*c2-s2*s2)*(2*(s0*c0))*(s1*s1+c1*c1))*z); [ring|].
    rewrite A, B. ring.
  - transitivity (- ((s2*s2+c2*c2)*(s0*s0+c0*c0)*(2*(s1*c1))*x) + (s2*s2+c2*c2)*((c1*c1-s1*s1)*(2*(s0*c0))*y + (c1*c1-s1*s1)*(c0*c0-s0*s0)*z)); [ring|].
    rewrite A, C. ring.
Qed.

(** the matrix of a unit quaternion is orthogonal and orientation preserving *)
Theorem C11_matrix_orthogonal q a b : qnorm2 q = 1 ->
  dot (mv (get_rotmat_from_quat q true) a) (mv (get_rotmat_from_quat q true) b) = dot a b /\
  cross (mv (get_rotmat_from_quat q true) a) (mv (get_rotmat_from_quat q true) b) = mv (get_rotmat_from_quat q true) (cross a b).
Proof.
  intros H. unfold get_rotmat_from_quat. rewrite !rotmat_qrot by exact H. rewrite qrot_dot, qrot_cross, H.
  split; [ring|]. unfold vscale. apply v3_ext; cbn [vx vy vz]; ring.
Qed.

Definition mdet (m : m3) : R := r0 m*(r4 m*r8 m - r7 m*r5 m) - r1 m*(r3 m*r8 m - r6 m*r5 m) + r2 m*(r3 m*r7 m - r4 m*r6 m).
Lemma rotmat_det q : qnorm2 q = 1 -> mdet (rotmat q) = 1.
Proof.
  unfold qnorm2. intros H. destruct q as [w x y z]. unfold mdet, rotmat. cbn [r0 r1 r2 r3 r4 r5 r6 r7 r8 qw qx qy qz] in *.
  set (n := w*w + x*x + y*y + z*z) in *.
  transitivity ( (2*(w*w+x*x) - 1)*((2*(w*w+y*y) - 1)*(2*(w*w+z*z) - 1) - 2*(y*z+w*x)*(2*(y*z-w*x)))
     - 2*(x*y-w*z)*(2*(x*y+w*z)*(2*(w*w+z*z) - 1) - 2*(x*z-w*y)*(2*(y*z-w*x)))
     + 2*(x*z+w*y)*(2*(x*y+w*z)*(2*(y*z+w*x)) - (2*(w*w+y*y) - 1)*(2*(x*z-w*y)))).
  { f_equal; [f_equal|]; ring_simplify; try reflexivity; try field. }
  transitivity ( (2*(w*w+x*x) - n)*((2*(w*w+y*y) - n)*(2*(w*w+z*z) - n) - 2*(y*z+w*x)*(2*(y*z-w*x)))
     - 2*(x*y-w*z)*(2*(x*y+w*z)*(2*(w*w+z*z) - n) - 2*(x*z-w*y)*(2*(y*z-w*x)))
     + 2*(x*z+w*y)*(2*(x*y+w*z)*(2*(y*z+w*x)) - (2*(w*w+y*y) - n)*(2*(x*z-w*y)))).
  { rewrite H. reflexivity. }
  transitivity (n*n*n); [unfold n; ring|]. rewrite H. ring.
Qed.
Theorem C11_matrix_determinant_one q : qnorm2 q = 1 -> mdet (get_rotmat_from_quat q true) = 1.
Proof. apply rotmat_det. Qed.

Lemma FLT_MIN_lt_1 : FLT_MIN < 1.
Proof.
  unfold FLT_MIN. rewrite <- Rinv_1. apply Rinv_lt_contravar; [|apply Rlt_pow_R1; [lra|lia]].
  rewrite Rmult_1_l. apply pow_lt. lra.
Qed.
Lemma FLT_MIN_pos : 0 < FLT_MIN.
Proof. unfold FLT_MIN. apply Rinv_0_lt_compat, pow_lt. lra. Qed.

Lemma inverse_matrix q v : qnorm2 q = 1 ->
  mv (get_rotmat_from_quat q false) (mv (rotmat q) v) = v /\ mv (rotmat q) (mv (get_rotmat_from_quat q false) v) = v.
Proof.
  intros H. pose proof (rotmat_det q H) as D. unfold get_rotmat_from_quat. cbv zeta.
  fold (mdet (rotmat q)). rewrite D. pose proof FLT_MIN_lt_1.
  destruct (Rlt_dec 1 FLT_MIN) as [C|_]; [lra|].
  unfold mdet in D. destruct (rotmat q) as [a b c d e f g h i]. cbn [r0 r1 r2 r3 r4 r5 r6 r7 r8] in *.
  unfold mv. cbn [r0 r1 r2 r3 r4 r5 r6 r7 r8 vx vy vz]. destruct v as [x y z]. cbn [vx vy vz].
  split; f_equal.
  1: transitivity ((a*(e*i - h*f) - b*(d*i - g*f) + c*(d*h - e*g))*x); [field|rewrite D; ring].
  1: transitivity ((a*(e*i - h*f) - b*(d*i - g*f) + c*(d*h - e*g))*y); [field|rewrite D; ring].
  1: transitivity ((a*(e*i - h*f) - b*(d*i - g*f) + c*(d*h - e*g))*z); [field|rewrite D; ring].
  1: transitivity ((a*(e*i - h*f) - b*(d*i - g*f) + c*(d*h - e*g))*x); [field|rewrite D; ring].
  1: transitivity ((a*(e*i - h*f) - b*(d*i - g*f) + c*(d*h - e*g))*y); [field|rewrite D; ring].
  1: transitivity ((a*(e*i - h*f) - b*(d*i - g*f) + c*(d*h - e*g))*z); [field|rewrite D; ring].
Qed.
(** to the body frame and back, and the other way round, for every attitude *)
Theorem C11_frame_round_trip v a :
  convert_vect_to_orig_frame (convert_vect_to_orig_frame v a false) a true = v /\
  convert_vect_to_orig_frame (convert_vect_to_orig_frame v a true) a false = v.
Proof.
  unfold convert_vect_to_orig_frame. set (q := get_quat_from_eulerxyz a).
  destruct (inverse_matrix q v (C11_quaternion_has_unit_norm a)) as [A B]. split; [exact B|exact A].
Qed.

(* -------- Euler angles are recovered *)
Lemma atan2_polar r th : 0 < r -> - PI < th <= PI -> atan2 (r * sin th) (r * cos th) = th.
Proof.
  intros Hr [H1 H2]. pose proof PI_RGT_0 as HP. unfold atan2.
  assert (Q : cos th <> 0 -> r * sin th / (r * cos th) = tan th) by (intros; unfold tan; field; split; lra).
  destruct (Rlt_dec 0 (r * cos th)) as [C|C].
  - assert (0 < cos th) by (apply (Rmult_lt_reg_l r); lra).
    rewrite Q by lra. assert (- (PI/2) < th < PI/2).
    { split.
      - apply Rnot_le_lt. intros N. destruct (Req_dec th (-(PI/2))) as [->|N'].
        + rewrite cos_neg, cos_PI2 in *. lra.
        + assert (cos (-th) < 0) by (apply cos_lt_0; lra). rewrite cos_neg in *. lra.
      - apply Rnot_le_lt. intros N. destruct (Req_dec th (PI/2)) as [->|N'].
        + rewrite cos_PI2 in *. lra.
        + assert (cos th < 0) by (apply cos_lt_0; lra). lra. }
    apply atan_tan; lra.
  - destruct (Rlt_dec (r * cos th) 0) as [C'|C'].
    + assert (cos th < 0) by (apply (Rmult_lt_reg_l r); lra). rewrite Q by lra.
      destruct (Rle_dec 0 (r * sin th)) as [S|S].
      * assert (0 <= sin th) by (apply (Rmult_le_reg_l r); lra).
        assert (PI/2 < th).
        { apply Rnot_le_lt. intros N. destruct (Rle_dec (-(PI/2)) th) as [N'|N'].
          - assert (0 <= cos th) by (apply cos_ge_0; lra). lra.
          - assert (sin (-th) > 0) by (apply sin_gt_0; lra). rewrite sin_neg in *. lra. }
        replace (tan th) with (tan (th - PI)); [rewrite atan_tan by lra; lra|].
        unfold tan. rewrite sin_minus, cos_minus, sin_PI, cos_PI. field. lra.
      * assert (sin th < 0) by (apply Rnot_le_lt; intros N; apply S; apply Rmult_le_pos; lra).
        assert (th < -(PI/2)).
        { apply Rnot_le_lt. intros N. destruct (Rle_dec th (PI/2)) as [N'|N'].
          - assert (0 <= cos th) by (apply cos_ge_0; lra). lra.
          - assert (0 <= sin th) by (apply sin_ge_0; lra). lra. }
        replace (tan th) with (tan (th + PI)); [rewrite atan_tan by lra; lra|].
        unfold tan. rewrite sin_plus, cos_plus, sin_PI, cos_PI. field. lra.
    + assert (Z : cos th = 0). { assert (r * cos th = 0) by lra. apply Rmult_integral in H. destruct H; lra. }
      assert (E : th = PI/2 \/ th = -(PI/2)).
      { destruct (Rlt_dec th (-(PI/2))) as [A|A].
        - assert (cos (-th) < 0) by (apply cos_lt_0; lra). rewrite cos_neg in *. lra.
        - destruct (Rlt_dec (PI/2) th) as [B|B].
          + assert (cos th < 0) by (apply cos_lt_0; lra). lra.
          + destruct (Req_dec th (PI/2)); [left; assumption|]. destruct (Req_dec th (-(PI/2))); [right; assumption|].
            assert (0 < cos th) by (apply cos_gt_0; lra). lra. }
      destruct E as [-> | ->].
      * rewrite sin_PI2. destruct (Rlt_dec 0 (r*1)); lra.
      * rewrite sin_neg, sin_PI2. destruct (Rlt_dec 0 (r*(-(1)))) as [G|_]; [lra|]. destruct (Rlt_dec (r*(-(1))) 0); lra.
Qed.

(** the matrix entries read by get_eulerxyz_from_quat, in terms of the angles *)
Lemma euler_entries a : let q := euler_quat_raw a in
  2*(qw q*qx q + qy q*qz q) = cos (vy a) * sin (vx a) /\
  qw q*qw q - qx q*qx q - qy q*qy q + qz q*qz q = cos (vy a) * cos (vx a) /\
  -(2)*(qx q*qz q - qw q*qy q) = sin (vy a) /\
  2*(qy q*qx q + qw q*qz q) = cos (vy a) * sin (vz a) /\
  qw q*qw q + qx q*qx q - qy q*qy q - qz q*qz q = cos (vy a) * cos (vz a).
Proof.
  cbv zeta.
  pose proof (C11_matrix_is_the_euler_rotation a (V3 1 0 0)) as E1.
  pose proof (C11_matrix_is_the_euler_rotation a (V3 0 1 0)) as E2.
  pose proof (C11_matrix_is_the_euler_rotation a (V3 0 0 1)) as E3.
  unfold get_rotmat_from_quat in E1, E2, E3. rewrite rotmat_qrot in E1, E2, E3 by apply C11_quaternion_has_unit_norm.
  rewrite quat_is_raw in E1, E2, E3. set (q := euler_quat_raw a) in *. clearbody q.
  unfold qrot, rot_z, rot_y, rot_x in *. cbn [vx vy vz] in *.
  injection E1 as A1 A2 A3. injection E2 as B1 B2 B3. injection E3 as C1 C2 C3.
  repeat split; lra.
Qed.
Theorem C11_euler_angles_recovered a :
  - PI < vx a <= PI -> - (PI/2) < vy a < PI/2 -> - PI < vz a <= PI ->
  get_eulerxyz_from_quat (get_quat_from_eulerxyz a) = a.
Proof.
  intros Hx Hy Hz. rewrite quat_is_raw. destruct (euler_entries a) as (E1 & E2 & E3 & E4 & E5).
  unfold get_eulerxyz_from_quat. rewrite E1, E2, E3, E4, E5.
  assert (0 < cos (vy a)) by (apply cos_gt_0; lra).
  rewrite !atan2_polar by assumption. rewrite asin_sin by lra. destruct a; reflexivity.
Qed.
(** hypotheses are met by a general attitude *)
Example C11_euler_angles_example : get_eulerxyz_from_quat (get_quat_from_eulerxyz (V3 (-2) 1 3)) = V3 (-2) 1 3.
Proof.
  pose proof PI_4 as P4. pose proof PI2_1. pose proof PI2_3_2. apply C11_euler_angles_recovered; cbn; lra.
Qed.
(** at pitch 90 degrees the angles, and the attitude itself, are lost *)
Theorem C11_gimbal_lock_loses_attitude_refuted :
  ~ (forall a v, mv (get_rotmat_from_quat (get_quat_from_eulerxyz (get_eulerxyz_from_quat (get_quat_from_eulerxyz a))) true) v =
                 mv (get_rotmat_from_quat (get_quat_from_eulerxyz a) true) v).
Proof.
  intros H. specialize (H (V3 (PI/2) (PI/2) 0) (V3 0 1 0)).
  rewrite (quat_is_raw (V3 (PI/2) (PI/2) 0)) in H.
  destruct (euler_entries (V3 (PI/2) (PI/2) 0)) as (E1 & E2 & E3 & E4 & E5).
  rewrite <- (quat_is_raw (V3 (PI/2) (PI/2) 0)) in H.
  assert (E : get_eulerxyz_from_quat (get_quat_from_eulerxyz (V3 (PI/2) (PI/2) 0)) = V3 0 (PI/2) 0).
  { rewrite quat_is_raw. unfold get_eulerxyz_from_quat. rewrite E1, E2, E3, E4, E5. cbn [vx vy vz].
    rewrite cos_PI2, !Rmult_0_l. unfold atan2. destruct (Rlt_dec 0 0) as [C|_]; [lra|].
    rewrite asin_sin by (pose proof PI_RGT_0; lra). reflexivity. }
  rewrite E, !C11_matrix_is_the_euler_rotation in H. unfold rot_x, rot_y, rot_z in H. cbn [vx vy vz] in H.
  rewrite sin_PI2, cos_PI2, sin_0, cos_0 in H. injection H. intros. lra.
Qed.

(** six-dof points: rigid motion; the two implementations agree *)
Theorem C11_six_dof_points_move_rigidly p q cen disp ang :
  dist2 (rotate_translate_point p cen disp ang) (rotate_translate_point q cen disp ang) = dist2 p q /\
  rotate_translate_point cen cen disp ang = vadd cen disp /\
  vadd p (displacement_six_dof p cen disp ang) = rotate_translate_point p cen disp ang.
Proof.
  split; [|split].
  - unfold dist2, rotate_translate_point, get_rotmat_from_quat. rewrite !rotmat_qrot by apply C11_quaternion_has_unit_norm.
    set (u := get_quat_from_eulerxyz ang). set (a := qrot u (vsub p cen)). set (b := qrot u (vsub q cen)).
    replace (vsub (vadd (vadd a cen) disp) (vadd (vadd b cen) disp)) with (vsub a b)
      by (unfold vsub, vadd; apply v3_ext; cbn [vx vy vz]; ring).
    unfold a, b. rewrite qrot_sub, vsub_vsub_same, qrot_dot. unfold u. rewrite C11_quaternion_has_unit_norm. ring.
  - unfold rotate_translate_point, mv, vadd, vsub. apply v3_ext; cbn [vx vy vz]; ring.
  - unfold rotate_translate_point, displacement_six_dof, mv, vadd, vsub. cbv zeta. apply v3_ext; cbn [vx vy vz]; ring.
Qed.
