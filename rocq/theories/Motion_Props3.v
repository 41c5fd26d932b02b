Require Import Reals List Arith Bool Lra Lia Ranalysis Ratan.
From Verif Require Import RUtil Edge_Model Motion_Model Motion_Spec Motion_Props Motion_Props2.
Import ListNotations.
Open Scope R_scope.

(* ------------------------------------------------------------------ C12: kinematics *)
Lemma quat_ext p q : qw p = qw q -> qx p = qx q -> qy p = qy q -> qz p = qz q -> p = q.
Proof. destruct p, q; cbn; intros; subst; reflexivity. Qed.

(** the quaternion right-hand side keeps the norm *)
Theorem C12_quaternion_rate_is_tangent q w : let d := evaluate_quat_rhs q w in
  qw q*qw d + qx q*qx d + qy q*qy d + qz q*qz d = 0.
Proof. unfold evaluate_quat_rhs. cbn [qw qx qy qz]. field. Qed.

Lemma dpl_mul f g x a b : derivable_pt_lim f x a -> derivable_pt_lim g x b ->
  derivable_pt_lim (fun t => f t * g t) x (a * g x + f x * b).
Proof. apply derivable_pt_lim_mult. Qed.
Lemma dpl_add f g x a b : derivable_pt_lim f x a -> derivable_pt_lim g x b -> derivable_pt_lim (fun t => f t + g t) x (a + b).
Proof. apply derivable_pt_lim_plus. Qed.
Lemma dpl_sub f g x a b : derivable_pt_lim f x a -> derivable_pt_lim g x b -> derivable_pt_lim (fun t => f t - g t) x (a - b).
Proof. apply derivable_pt_lim_minus. Qed.
Lemma dpl_c c x : derivable_pt_lim (fun _ => c) x 0.
Proof. apply derivable_pt_lim_const. Qed.
Lemma dpl_eq f x a b : a = b -> derivable_pt_lim f x a -> derivable_pt_lim f x b.
Proof. intros ->. auto. Qed.
Ltac dpl := repeat first [ eassumption | apply dpl_c | apply dpl_sub | apply dpl_add | apply dpl_mul ].

(** An attitude whose quaternion follows evaluate_quat_rhs moves every body point, in the lab frame, with velocity
    omega x (position - centre) : the rate used for the attitude and the mesh velocity of set_mesh_velocity_six_dof
    describe the same rigid motion. *)
Theorem C12_attitude_rate_matches_mesh_velocity (q : R -> quat) (disp : R -> v3) (w vel cen p : v3) t i :
  (forall r, qnorm2 (q r) = 1) ->
  derivable_pt_lim (fun r => qw (q r)) t (qw (evaluate_quat_rhs (q t) w)) ->
  derivable_pt_lim (fun r => qx (q r)) t (qx (evaluate_quat_rhs (q t) w)) ->
  derivable_pt_lim (fun r => qy (q r)) t (qy (evaluate_quat_rhs (q t) w)) ->
  derivable_pt_lim (fun r => qz (q r)) t (qz (evaluate_quat_rhs (q t) w)) ->
  derivable_pt_lim (fun r => vx (disp r)) t (vx vel) ->
  derivable_pt_lim (fun r => vy (disp r)) t (vy vel) ->
  derivable_pt_lim (fun r => vz (disp r)) t (vz vel) ->
  let position := fun r => vadd (vadd (mv (get_rotmat_from_quat (q r) true) (vsub p cen)) cen) (disp r) in
  derivable_pt_lim (fun r => comp (position r) i) t (comp (velocity_six_dof (position t) cen (disp t) w vel) i).
Proof.
  intros HN Hw Hx Hy Hz Dx Dy Dz. cbv beta zeta.
  assert (E : velocity_six_dof (vadd (vadd (mv (get_rotmat_from_quat (q t) true) (vsub p cen)) cen) (disp t)) cen (disp t) w vel =
              vadd (mesh_velocity_cross_product w (qrot (q t) (vsub p cen))) vel).
  { unfold velocity_six_dof. f_equal. f_equal. unfold get_rotmat_from_quat. rewrite rotmat_qrot by apply HN.
    unfold vsub, vadd. apply v3_ext; cbn [vx vy vz]; ring. }
  rewrite E. clear E.
  assert (F : forall r, vadd (vadd (mv (get_rotmat_from_quat (q r) true) (vsub p cen)) cen) (disp r) =
                        vadd (vadd (qrot (q r) (vsub p cen)) cen) (disp r)).
  { intros r. unfold get_rotmat_from_quat. rewrite rotmat_qrot by apply HN. reflexivity. }
  apply (dpl_ext _ (fun r => comp (vadd (vadd (qrot (q r) (vsub p cen)) cen) (disp r)) i)).
  { intros r. rewrite F. reflexivity. }
  clear F. set (c := vsub p cen). clearbody c. specialize (HN t).
  destruct i as [|[|i]]; unfold vadd, qrot, mesh_velocity_cross_product, evaluate_quat_rhs in *; cbn [comp vx vy vz qw qx qy qz] in *.
  all: eapply dpl_eq; [|dpl]; cbv beta; destruct (q t) as [a b d e]; unfold qnorm2 in HN; cbn [qw qx qy qz] in *; field.
Qed.

(* ------------------------------------------------------------------ C12: attitude step *)
Definition lam (w : v3) : R := (vx w*vx w + vy w*vy w + vz w*vz w)/4.
Lemma rhs_axpy q f k w : evaluate_quat_rhs (qaxpy q f k) w = qaxpy (evaluate_quat_rhs q w) f (evaluate_quat_rhs k w).
Proof. unfold evaluate_quat_rhs, qaxpy. apply quat_ext; cbn [qw qx qy qz]; ring. Qed.
Lemma rhs_rhs q w : evaluate_quat_rhs (evaluate_quat_rhs q w) w = qaxpy (Q4 0 0 0 0) (- lam w) q.
Proof. unfold evaluate_quat_rhs, qaxpy, lam. apply quat_ext; cbn [qw qx qy qz]; field. Qed.
Lemma rhs_zero w : evaluate_quat_rhs (Q4 0 0 0 0) w = Q4 0 0 0 0.
Proof. unfold evaluate_quat_rhs. apply quat_ext; cbn [qw qx qy qz]; ring. Qed.
(** closed form of the attitude step of the code, against that of the classical RK4 step *)
Theorem C12_attitude_step_closed_form_partial q w dt :
  advance_quat q w dt =
  qaxpy (qaxpy q (- lam w*dt^3/2 + lam w*lam w*dt^7/24) q) (dt - lam w*dt^5/6) (evaluate_quat_rhs q w).
Proof.
  unfold advance_quat. repeat (rewrite rhs_axpy || rewrite rhs_rhs || rewrite rhs_zero).
  set (l := lam w). set (d := evaluate_quat_rhs q w). clearbody l d. unfold qaxpy. apply quat_ext; cbn [qw qx qy qz]; field.
Qed.
Theorem C12_rk4_closed_form q w dt :
  rk4 qaxpy (fun y => evaluate_quat_rhs y w) dt q =
  qaxpy (qaxpy q (- lam w*dt^2/2 + lam w*lam w*dt^4/24) q) (dt - lam w*dt^3/6) (evaluate_quat_rhs q w).
Proof.
  unfold rk4. cbv beta zeta. repeat (rewrite rhs_axpy || rewrite rhs_rhs || rewrite rhs_zero).
  set (l := lam w). set (d := evaluate_quat_rhs q w). clearbody l d. unfold qaxpy. apply quat_ext; cbn [qw qx qy qz]; field.
Qed.
(** the stage increments carry an extra factor dt, so the step is not the RK4 step *)
Theorem C12_attitude_step_is_not_rk4_refuted :
  ~ (forall q w dt, qnorm2 q = 1 -> 0 < dt -> advance_quat q w dt = rk4 qaxpy (fun y => evaluate_quat_rhs y w) dt q).
Proof.
  intros H. specialize (H (Q4 1 0 0 0) (V3 1 0 0) (1/2)). unfold qnorm2 in H. cbn [qw qx qy qz] in H.
  specialize (H ltac:(ring) ltac:(lra)).
  rewrite C12_attitude_step_closed_form_partial, C12_rk4_closed_form in H.
  unfold qaxpy, lam, evaluate_quat_rhs in H. cbn [qw qx qy qz vx vy vz] in H. injection H. intros. lra.
Qed.
(** what does hold: no spin, no rotation; and the step is consistent (its difference from q + dt q' is of order dt^3) *)
Theorem C12_no_spin_no_rotation q dt : advance_quat q (V3 0 0 0) dt = q.
Proof.
  rewrite C12_attitude_step_closed_form_partial. unfold lam, qaxpy, evaluate_quat_rhs. apply quat_ext; cbn [qw qx qy qz vx vy vz]; field.
Qed.

(* ------------------------------------------------------------------ C12: angular velocity step *)
Definition heavy (i : v3) : Prop := FLT_MIN < vx i /\ FLT_MIN < vy i /\ FLT_MIN < vz i.
Theorem C12_euler_equations mom ine w : heavy ine -> euler_rhs mom ine w = rigid_rhs mom ine w.
Proof.
  intros (A & B & C). unfold euler_rhs, rigid_rhs, assess_rigid_euler_rhs.
  destruct (Rlt_dec FLT_MIN (vx ine)); [|contradiction]. destruct (Rlt_dec FLT_MIN (vy ine)); [|contradiction].
  destruct (Rlt_dec FLT_MIN (vz ine)); [|contradiction]. reflexivity.
Qed.
(** for equal principal moments of inertia the step is the exact one (and the RK4 one) *)
Theorem C12_spherical_body_exact_partial ome i mom dt : FLT_MIN < i ->
  advance_omega_dt ome (V3 i i i) mom dt = vadd ome (vscale (dt/i) mom) /\
  advance_omega_dt ome (V3 i i i) mom dt = rk4 vaxpy (rigid_rhs mom (V3 i i i)) dt ome.
Proof.
  intros H. pose proof FLT_MIN_pos as HP.
  assert (Hh : heavy (V3 i i i)) by (repeat split; exact H).
  assert (A : advance_omega_dt ome (V3 i i i) mom dt = vadd ome (vscale (dt/i) mom)).
  { unfold advance_omega_dt. rewrite !C12_euler_equations by exact Hh. unfold rigid_rhs, vadd, vscale.
    apply v3_ext; cbn [vx vy vz]; field; lra. }
  split; [exact A|]. rewrite A.
  assert (E : forall w, rigid_rhs mom (V3 i i i) w = vscale (/i) mom).
  { intros w. unfold rigid_rhs, vscale. apply v3_ext; cbn [vx vy vz]; field; lra. }
  unfold rk4. rewrite !E. unfold vaxpy, vadd, vscale. apply v3_ext; cbn [vx vy vz]; field; lra.
Qed.
(** otherwise the stages add dt*rk_fact instead of rk_fact*k: a body at rest with no moment acting starts to spin *)
Theorem C12_body_at_rest_starts_to_spin_refuted :
  ~ (forall ine dt, heavy ine -> 0 < dt -> advance_omega_dt (V3 0 0 0) ine (V3 0 0 0) dt = V3 0 0 0).
Proof.
  intros H. pose proof FLT_MIN_lt_1 as HF.
  assert (Hh : heavy (V3 1 2 3)) by (repeat split; cbn; lra).
  specialize (H (V3 1 2 3) 1 Hh ltac:(lra)). unfold advance_omega_dt in H. cbv zeta in H.
  rewrite !C12_euler_equations in H by exact Hh. unfold rigid_rhs in H. cbn [vx vy vz] in H. injection H. intros. lra.
Qed.
Theorem C12_omega_step_is_not_rk4_refuted :
  ~ (forall ome ine mom dt, heavy ine -> 0 < dt -> advance_omega_dt ome ine mom dt = rk4 vaxpy (rigid_rhs mom ine) dt ome).
Proof.
  intros H. apply C12_body_at_rest_starts_to_spin_refuted. intros ine dt Hh Hd. rewrite (H _ _ _ _ Hh Hd).
  pose proof FLT_MIN_pos as HP. destruct Hh as (A & B & C).
  assert (E : rigid_rhs (V3 0 0 0) ine (V3 0 0 0) = V3 0 0 0).
  { unfold rigid_rhs. apply v3_ext; cbn [vx vy vz]; field; lra. }
  assert (Z : forall f, vaxpy (V3 0 0 0) f (V3 0 0 0) = V3 0 0 0).
  { intros f. unfold vaxpy, vadd, vscale. apply v3_ext; cbn [vx vy vz]; ring. }
  unfold rk4. cbv zeta. repeat (rewrite E || rewrite Z). reflexivity.
Qed.

(* ------------------------------------------------------------------ C12: whole-body update *)
Lemma convert_linear a b ang d : convert_vect_to_orig_frame (vadd a b) ang d =
  vadd (convert_vect_to_orig_frame a ang d) (convert_vect_to_orig_frame b ang d).
Proof. unfold convert_vect_to_orig_frame, mv, vadd. apply v3_ext; cbn [vx vy vz]; ring. Qed.
Lemma convert_scale r b ang d : convert_vect_to_orig_frame (vscale r b) ang d = vscale r (convert_vect_to_orig_frame b ang d).
Proof. unfold convert_vect_to_orig_frame, mv, vscale. apply v3_ext; cbn [vx vy vz]; ring. Qed.

(** spherical body: the new angular velocity is the old one plus dt/I times the moment ROTATED by the attitude *)
Theorem C12_spin_of_spherical_body_partial b dt i : FLT_MIN < i -> b_inertia b = V3 i i i ->
  b_omega (update_body_vel b dt) = vadd (b_omega b) (vscale (dt/i) (convert_vect_to_orig_frame (b_mom b) (b_angle b) true)).
Proof.
  intros Hi E. unfold update_body_vel. cbn [b_omega]. rewrite E.
  rewrite (proj1 (C12_spherical_body_exact_partial _ i (b_mom b) dt Hi)).
  rewrite convert_linear, convert_scale, (proj1 (C11_frame_round_trip (b_omega b) (b_angle b))). reflexivity.
Qed.
(** hence wrong unless the body is unrotated: the lab-frame moment is integrated as if it were a body-frame one *)
Theorem C12_moment_in_wrong_frame_refuted :
  ~ (forall b dt i, FLT_MIN < i -> b_inertia b = V3 i i i ->
       b_omega (update_body_vel b dt) = vadd (b_omega b) (vscale (dt/i) (b_mom b))).
Proof.
  intros H. pose proof FLT_MIN_lt_1 as HF.
  set (z := V3 0 0 0).
  set (b := mkB z (V3 0 0 (PI/2)) z (V3 1 1 1) z z (V3 1 0 0) z z 0).
  specialize (H b 1 1 HF eq_refl). rewrite (C12_spin_of_spherical_body_partial b 1 1 HF eq_refl) in H.
  unfold convert_vect_to_orig_frame in H. rewrite C11_matrix_is_the_euler_rotation in H.
  unfold rot_x, rot_y, rot_z in H. cbn [b b_angle b_mom b_omega z vx vy vz] in H.
  rewrite sin_PI2, cos_PI2, sin_0, cos_0 in H. unfold vadd, vscale in H. cbn [vx vy vz] in H. injection H. intros. lra.
Qed.

Lemma iter_shift {A} (f : A -> A) n : forall x, Nat.iter n f (f x) = f (Nat.iter n f x).
Proof. induction n as [|n IH]; intros x; [reflexivity|]. cbn [Nat.iter nat_rect]. f_equal. apply IH. Qed.
(** n blocks attached to a body: it is advanced n times per time step *)
Theorem C12_one_block_one_update P b dt : update_six_dof_motion [P] b dt = update_body_cc (update_body_vel b dt) dt.
Proof. reflexivity. Qed.
Theorem C12_advanced_once_per_block blocks b dt :
  update_six_dof_motion blocks b dt = Nat.iter (length blocks) (fun b => update_body_cc (update_body_vel b dt) dt) b.
Proof.
  unfold update_six_dof_motion. revert b. induction blocks as [|P l IH]; intros b; [reflexivity|].
  cbn [fold_left length]. rewrite IH. exact (iter_shift (fun b => update_body_cc (update_body_vel b dt) dt) (length l) b).
Qed.
Theorem C12_two_blocks_double_the_motion_refuted :
  ~ (forall blocks b dt, blocks <> [] -> update_six_dof_motion blocks b dt = update_body_cc (update_body_vel b dt) dt).
Proof.
  intros H. set (z := V3 0 0 0).
  specialize (H [fun _ => true; fun _ => true] (mkB z z z z (V3 1 0 0) z z z z 0) 1 ltac:(discriminate)).
  apply (f_equal (fun b => vx (b_disp b))) in H.
  unfold update_six_dof_motion in H. cbn [fold_left] in H. unfold update_body_cc, update_body_vel in H.
  cbn [b_disp b_vel b_mass b_accel] in H. destruct (Rlt_dec 0 0) as [C|_]; [lra|].
  unfold vadd, vscale in H. cbn [vx vy vz] in H. unfold z in H. cbn [vx] in H. lra.
Qed.

(** translation: position += dt * velocity; velocity += dt * acceleration; the acceleration is half old, half new *)
Theorem C12_translation_update b dt : 0 < b_mass b ->
  let b' := update_body_cc (update_body_vel b dt) dt in
  b_vel b' = vadd (b_vel b) (vscale dt (b_accel b')) /\ b_disp b' = vadd (b_disp b) (vscale dt (b_vel b')) /\
  vscale (2 * b_mass b) (b_accel b') = vadd (vscale (b_mass b) (b_accel b)) (vadd (b_force b) (b_applied b)).
Proof.
  intros H. cbv zeta. unfold update_body_cc, update_body_vel. cbn [b_vel b_disp b_accel b_mass].
  destruct (Rlt_dec 0 (b_mass b)) as [_|C]; [|contradiction]. repeat split.
  unfold vscale, vadd. apply v3_ext; cbn [vx vy vz]; field; lra.
Qed.
Lemma step_consts b dt : let b' := update_body_cc (update_body_vel b dt) dt in
  b_mass b' = b_mass b /\ b_force b' = b_force b /\ b_applied b' = b_applied b.
Proof. cbn. auto. Qed.
(** under a constant force the acceleration error halves every step: it converges to force/mass but never equals it *)
Theorem C12_acceleration_lag b dt n : 0 < b_mass b ->
  let F := vadd (b_force b) (b_applied b) in
  let bn := Nat.iter n (fun b => update_body_cc (update_body_vel b dt) dt) b in
  vsub (b_accel bn) (vscale (/ b_mass b) F) = vscale (/ 2^n) (vsub (b_accel b) (vscale (/ b_mass b) F)).
Proof.
  intros H. cbv zeta. set (F := vadd (b_force b) (b_applied b)).
  set (step := fun b => update_body_cc (update_body_vel b dt) dt).
  assert (G : forall n, b_mass (Nat.iter n step b) = b_mass b /\ vadd (b_force (Nat.iter n step b)) (b_applied (Nat.iter n step b)) = F /\
     vsub (b_accel (Nat.iter n step b)) (vscale (/ b_mass b) F) = vscale (/ 2^n) (vsub (b_accel b) (vscale (/ b_mass b) F))).
  { intros j. induction j as [|k (IM & IF & IA)].
    - split; [reflexivity|]. split; [reflexivity|]. change (Nat.iter 0 step b) with b. change (2^0) with 1. rewrite Rinv_1. unfold vscale, vsub. apply v3_ext; cbn [vx vy vz]; ring.
    - cbn [Nat.iter nat_rect]. change (nat_rect (fun _ => body) b (fun _ => step) k) with (Nat.iter k step b).
      set (bk := Nat.iter k step b) in *. split; [exact IM|]. split; [exact IF|].
      assert (E : b_accel (step bk) = vadd (vscale (1/2) (b_accel bk)) (vscale ((1/2)/b_mass b) F)).
      { unfold step, update_body_cc, update_body_vel. cbn [b_accel b_mass]. rewrite IM, IF.
        destruct (Rlt_dec 0 (b_mass b)) as [_|C]; [reflexivity|contradiction]. }
      rewrite E.
      transitivity (vscale (1/2) (vsub (b_accel bk) (vscale (/ b_mass b) F))).
      { unfold vscale, vsub, vadd. apply v3_ext; cbn [vx vy vz]; field; lra. }
      rewrite IA. unfold vscale, vsub. assert (2^k <> 0) by (apply pow_nonzero; lra).
      apply v3_ext; cbn [vx vy vz pow]; field; lra. }
  apply (proj2 (proj2 (G n))).
Qed.

(* ------------------------------------------------------------------ centroid (part of C09's set-up) *)
Lemma fold_min_spec l : forall a, let m := fold_left (fun a x => Rmin a x) l a in
  m <= a /\ (forall x, In x l -> m <= x) /\ (m = a \/ In m l).
Proof.
  induction l as [|y l IH]; intros a; cbn [fold_left].
  - cbv zeta. split; [lra|]. split; [intros x []|left; reflexivity].
  - specialize (IH (Rmin a y)). cbv zeta in *. set (m := fold_left (fun a x => Rmin a x) l (Rmin a y)) in *.
    destruct IH as (A & B & C). pose proof (Rmin_l a y). pose proof (Rmin_r a y).
    split; [lra|]. split.
    + intros x [->|Hx]; [lra|auto].
    + destruct C as [C|C]; [|right; right; exact C]. rewrite C. unfold Rmin. destruct (Rle_dec a y); [left; reflexivity|right; left; reflexivity].
Qed.
Lemma fold_max_spec l : forall a, let m := fold_left (fun a x => Rmax a x) l a in
  a <= m /\ (forall x, In x l -> x <= m) /\ (m = a \/ In m l).
Proof.
  induction l as [|y l IH]; intros a; cbn [fold_left].
  - cbv zeta. split; [lra|]. split; [intros x []|left; reflexivity].
  - specialize (IH (Rmax a y)). cbv zeta in *. set (m := fold_left (fun a x => Rmax a x) l (Rmax a y)) in *.
    destruct IH as (A & B & C). pose proof (Rmax_l a y). pose proof (Rmax_r a y).
    split; [lra|]. split.
    + intros x [->|Hx]; [lra|auto].
    + destruct C as [C|C]; [|right; right; exact C]. rewrite C. unfold Rmax. destruct (Rle_dec a y); [right; left; reflexivity|left; reflexivity].
Qed.
Lemma all_reduce_min l : l <> [] -> let m := all_reduce Rmin l in In m l /\ (forall x, In x l -> m <= x).
Proof.
  destruct l as [|a l]; [congruence|]. intros _. cbn [all_reduce]. destruct (fold_min_spec l a) as (A & B & C). cbv zeta.
  change (fold_left Rmin l a) with (fold_left (fun a x => Rmin a x) l a).
  split; [destruct C as [C|C]; [left; symmetry; exact C|right; exact C]|]. intros x [->|Hx]; auto.
Qed.
Lemma all_reduce_max l : l <> [] -> let m := all_reduce Rmax l in In m l /\ (forall x, In x l -> x <= m).
Proof.
  destruct l as [|a l]; [congruence|]. intros _. cbn [all_reduce]. destruct (fold_max_spec l a) as (A & B & C). cbv zeta.
  change (fold_left Rmax l a) with (fold_left (fun a x => Rmax a x) l a).
  split; [destruct C as [C|C]; [left; symmetry; exact C|right; exact C]|]. intros x [->|Hx]; auto.
Qed.
(** The automatically computed centroid is the middle of the bounding box of all the nodes of the blocks, however
    they are distributed over ranks (some ranks may own none), as long as coordinates are below 1e16 in size. *)
Theorem C09_computed_centroid ranks lo hi : concat ranks <> [] ->
  (forall x, In x (concat ranks) -> lo <= x <= hi) -> In lo (concat ranks) -> In hi (concat ranks) ->
  -(10^16) <= lo -> hi <= 10^16 -> centroid_coord ranks = (lo + hi)/2.
Proof.
  intros Hne Hb Hlo Hhi L1 L2.
  assert (Hr : ranks <> []) by (intros ->; apply Hne; reflexivity).
  assert (Mn : all_reduce Rmin (map rank_min ranks) = lo).
  { destruct (all_reduce_min (map rank_min ranks)) as [A B]; [destruct ranks; [congruence|discriminate]|].
    set (m := all_reduce Rmin (map rank_min ranks)) in *. apply Rle_antisym.
    - apply in_concat in Hlo. destruct Hlo as (l & Hl & Hx).
      apply Rle_trans with (rank_min l); [apply B, in_map, Hl|].
      unfold rank_min. destruct (fold_min_spec l (10^16)) as (_ & C & _). apply C, Hx.
    - apply in_map_iff in A. destruct A as (l & E & Hl). rewrite <- E. unfold rank_min.
      destruct (fold_min_spec l (10^16)) as (_ & _ & [C|C]); cbv zeta in C.
      + rewrite C. assert (lo <= hi) by (destruct (Hb _ Hhi); lra). lra.
      + apply Hb. apply in_concat. exists l. split; [exact Hl|exact C]. }
  assert (Mx : all_reduce Rmax (map rank_max ranks) = hi).
  { destruct (all_reduce_max (map rank_max ranks)) as [A B]; [destruct ranks; [congruence|discriminate]|].
    set (m := all_reduce Rmax (map rank_max ranks)) in *. apply Rle_antisym.
    - apply in_map_iff in A. destruct A as (l & E & Hl). rewrite <- E. unfold rank_max.
      destruct (fold_max_spec l (-(10^16))) as (_ & _ & [C|C]); cbv zeta in C.
      + rewrite C. assert (lo <= hi) by (destruct (Hb _ Hhi); lra). lra.
      + apply Hb. apply in_concat. exists l. split; [exact Hl|exact C].
    - apply in_concat in Hhi. destruct Hhi as (l & Hl & Hx).
      apply Rle_trans with (rank_max l); [|apply B, in_map, Hl].
      unfold rank_max. destruct (fold_max_spec l (-(10^16))) as (_ & C & _). apply C, Hx. }
  unfold centroid_coord. rewrite Mn, Mx. field.
Qed.
Example C09_centroid_example : centroid_coord [[1; 4]; []; [2; 7; -3]] = 2.
Proof.
  rewrite (C09_computed_centroid _ (-3) 7).
  - field.
  - discriminate.
  - cbn. intros x H. repeat (destruct H as [<-|H]; [lra|]). destruct H.
  - cbn; tauto.
  - cbn; tauto.
  - assert (10^16 = 10000000000000000) by (cbn; lra). lra.
  - assert (10^16 = 10000000000000000) by (cbn; lra). lra.
Qed.
