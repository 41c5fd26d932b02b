(** Model of the mesh-motion part of /repo/src/Realm.C (lines 2178-2332, 2335-2659, 2665-3098,
    3150-3186) and of Realm::get_tanh_blending (4984-4997).
    Simplifications: doubles are reals, so std::acos(-1.0) is PI and FLT_MIN is exactly 2^-126; a field
    is a total function of the node number; a part is the set of its nodes; an std::vector<double> of
    size 3 or 4 is a record; the log output and the "part not found" exception are not modelled. *)
Require Import Reals List Arith Bool Ranalysis Ratan.
From Verif Require Import Edge_Model.
Import ListNotations.
Open Scope R_scope.

Record v3 := V3 { vx : R; vy : R; vz : R }.
Record quat := Q4 { qw : R; qx : R; qy : R; qz : R }.
(** rotMat[0..8], row major *)
Record m3 := M3 { r0 : R; r1 : R; r2 : R; r3 : R; r4 : R; r5 : R; r6 : R; r7 : R; r8 : R }.

(** FLT_MIN of <cfloat> for IEEE binary32 *)
Definition FLT_MIN : R := / 2^126.

Definition comp (v : v3) (i : nat) : R := match i with O => vx v | S O => vy v | _ => vz v end.
(** "double mcX[3] = {0.0,...}; for (i < nDim) mcX[i] = mCoords[kNdim+i]" *)
Definition load (nDim : nat) (f : vec) : v3 :=
  V3 (if (0 <? nDim)%nat then f 0%nat else 0) (if (1 <? nDim)%nat then f 1%nat else 0) (if (2 <? nDim)%nat then f 2%nat else 0).
(** "for (i < nDim) dx[kNdim+i] = rcX[i]" *)
Definition store (nDim : nat) (v : v3) (old : vec) : vec := fun i => if (i <? nDim)%nat then comp v i else old i.

(* ------------------------------------------------------------------ prescribed rotation *)
(** the rotated coordinates minus model plus centroid: 2699-2716 with the half-angle h = theO*currentTime*0.5;
    identical text at 2917-2934 with h = theAngleInRad*0.5 *)
Definition rotated_displacement (h : R) (cen uv mc : v3) : v3 :=
  let cX := vx mc - vx cen in
  let cY := vy mc - vy cen in
  let cZ := vz mc - vz cen in
  let q0 := cos h in
  let q1 := sin h * vx uv in
  let q2 := sin h * vy uv in
  let q3 := sin h * vz uv in
  V3 ((q0*q0 + q1*q1 - q2*q2 - q3*q3)*cX + 2*(q1*q2 - q0*q3)*cY + 2*(q0*q2 + q1*q3)*cZ - vx mc + vx cen)
     (2*(q1*q2 + q0*q3)*cX + (q0*q0 - q1*q1 + q2*q2 - q3*q3)*cY + 2*(q2*q3 - q0*q1)*cZ - vy mc + vy cen)
     (2*(q1*q3 - q0*q2)*cX + 2*(q0*q1 + q2*q3)*cY + (q0*q0 - q1*q1 - q2*q2 + q3*q3)*cZ - vz mc + vz cen).

(** the nodal fields the motion code touches *)
Record fields := mkF {
  f_model : nat -> vec;      (* coordinates *)
  f_dx : nat -> vec;         (* mesh_displacement *)
  f_cur : nat -> vec;        (* current_coordinates *)
  f_vel : nat -> vec;        (* mesh_velocity *)
  f_om : nat -> R }.         (* omega *)

Definition part := nat -> bool.
(** loop over the nodes of the buckets selected by a part *)
Definition on {A} (P : part) (g : nat -> A) (old : nat -> A) : nat -> A := fun k => if P k then g k else old k.

(** Realm::get_tanh_blending, 4984-4997; None = no tanh form requested for "omega" *)
Definition get_tanh_blending (form : option (R*R)) (t : R) : R :=
  match form with None => 1 | Some (c1, c2) => tanh_peclet c1 c2 t end.

(** Realm::set_omega, 2639-2659 *)
Definition set_omega (form : option (R*R)) (t : R) (P : part) (scalarOmega : R) (s : fields) : fields :=
  mkF (f_model s) (f_dx s) (f_cur s) (f_vel s) (on P (fun _ => scalarOmega * get_tanh_blending form t) (f_om s)).

(** Realm::set_current_displacement, 2665-2727 *)
Definition set_current_displacement (nDim : nat) (t : R) (P : part) (cen uv : v3) (s : fields) : fields :=
  mkF (f_model s)
      (on P (fun k => store nDim (rotated_displacement (f_om s k * t * (1/2)) cen uv (load nDim (f_model s k))) (f_dx s k)) (f_dx s))
      (f_cur s) (f_vel s) (f_om s).

(** Realm::set_initial_displacement, 2884-2945 *)
Definition set_initial_displacement (nDim : nat) (P : part) (cen uv : v3) (theAngle : R) (s : fields) : fields :=
  let theAngleInRad := theAngle*PI/180 in
  mkF (f_model s)
      (on P (fun k => store nDim (rotated_displacement (theAngleInRad * (1/2)) cen uv (load nDim (f_model s k))) (f_dx s k)) (f_dx s))
      (f_cur s) (f_vel s) (f_om s).

(** Realm::set_current_coordinates, 2951-2981 *)
Definition set_current_coordinates (nDim : nat) (P : part) (s : fields) : fields :=
  mkF (f_model s) (f_dx s)
      (on P (fun k j => if (j <? nDim)%nat then f_model s k j + f_dx s k j else f_cur s k j) (f_cur s))
      (f_vel s) (f_om s).

(** Realm::mesh_velocity_cross_product, 3088-3094 *)
Definition mesh_velocity_cross_product (o c : v3) : v3 :=
  V3 (vy o * vz c - vz o * vy c) (vz o * vx c - vx o * vz c) (vx o * vy c - vy o * vx c).

Definition vsub (a b : v3) : v3 := V3 (vx a - vx b) (vy a - vy b) (vz a - vz b).
Definition vadd (a b : v3) : v3 := V3 (vx a + vx b) (vy a + vy b) (vz a + vz b).
Definition vscale (r : R) (a : v3) : v3 := V3 (r * vx a) (r * vy a) (r * vz a).

(** Realm::set_mesh_velocity, 3031-3083 *)
Definition set_mesh_velocity (nDim : nat) (P : part) (cen uv : v3) (s : fields) : fields :=
  mkF (f_model s) (f_dx s) (f_cur s)
      (on P (fun k => store nDim (mesh_velocity_cross_product (vscale (f_om s k) uv) (vsub (load nDim (f_cur s k)) cen)) (f_vel s k)) (f_vel s))
      (f_om s).

(** the part of MeshMotionInfo used for a prescribed rotation *)
Record rotation := mkRot { m_blocks : list part; m_omega : R; m_centroid : v3; m_unit : v3 }.

(** body of the loop over blocks of Realm::process_mesh_motion, 2259-2264 *)
Definition move_block (nDim : nat) (form : option (R*R)) (t : R) (m : rotation) (s : fields) (P : part) : fields :=
  set_mesh_velocity nDim P (m_centroid m) (m_unit m)
   (set_current_coordinates nDim P
     (set_current_displacement nDim t P (m_centroid m) (m_unit m)
       (set_omega form t P (m_omega m) s))).
(** Realm::process_mesh_motion, 2212-2268, for rotations with a user supplied centroid; the map is
    iterated in key order, which is the order of the list *)
Definition process_mesh_motion (nDim : nat) (form : option (R*R)) (t : R) (ms : list rotation) (s : fields) : fields :=
  fold_left (fun s m => fold_left (move_block nDim form t m) (m_blocks m) s) ms s.

(** Realm::init_current_coordinates, 3188-3214, on all nodes *)
Definition init_current_coordinates (nDim : nat) (s : fields) : fields :=
  mkF (f_model s)
      (fun k j => if (j <? nDim)%nat then 0 else f_dx s k j)
      (fun k j => if (j <? nDim)%nat then f_model s k j else f_cur s k j)
      (f_vel s) (f_om s).

(** Realm::compute_vrtm, 3150-3182 (mesh motion or external deformation active) *)
Definition compute_vrtm (nDim : nat) (u v vrtm : nat -> vec) : nat -> vec :=
  fun k j => if (j <? nDim)%nat then u k j - v k j else vrtm k j.

(* ------------------------------------------------------------------ centroid *)
(** Realm::compute_centroid_on_parts, 2273-2332: per-rank min/max over the nodes of the parts, all_reduce,
    mid point; one coordinate direction j < nDim.  ranks = the j-th coordinates of the selected nodes, per rank *)
Definition rank_min (l : list R) : R := fold_left (fun a x => Rmin a x) l (10^16).
Definition rank_max (l : list R) : R := fold_left (fun a x => Rmax a x) l (-(10^16)).
Definition all_reduce (op : R -> R -> R) (l : list R) : R :=
  match l with [] => 0 | x :: r => fold_left op r x end.
Definition centroid_coord (ranks : list (list R)) : R :=
  (1/2)*(all_reduce Rmax (map rank_max ranks) + all_reduce Rmin (map rank_min ranks)).

(* ------------------------------------------------------------------ six degrees of freedom *)
(** the rotation matrix of get_rotmat_from_quat, 2341-2349 *)
Definition rotmat (q : quat) : m3 :=
  M3 (2*(qw q*qw q + qx q*qx q - 1/2)) (2*(qx q*qy q - qw q*qz q)) (2*(qx q*qz q + qw q*qy q))
     (2*(qx q*qy q + qw q*qz q)) (2*(qw q*qw q + qy q*qy q - 1/2)) (2*(qy q*qz q - qw q*qx q))
     (2*(qx q*qz q - qw q*qy q)) (2*(qy q*qz q + qw q*qx q)) (2*(qw q*qw q + qz q*qz q - 1/2)).
(** Realm::get_rotmat_from_quat, 2335-2380 *)
Definition get_rotmat_from_quat (q : quat) (to_frame : bool) : m3 :=
  let m := rotmat q in
  if to_frame then m else
  let det := r0 m*(r4 m*r8 m - r7 m*r5 m) - r1 m*(r3 m*r8 m - r6 m*r5 m) + r2 m*(r3 m*r7 m - r4 m*r6 m) in
  if Rlt_dec det FLT_MIN then M3 1 0 0 0 1 0 0 0 1
  else
  let d := 1/det in
  M3 ((r4 m*r8 m - r5 m*r7 m)*d) (-(r1 m*r8 m - r2 m*r7 m)*d) ((r1 m*r5 m - r2 m*r4 m)*d)
     (-(r3 m*r8 m - r5 m*r6 m)*d) ((r0 m*r8 m - r2 m*r6 m)*d) (-(r0 m*r5 m - r3 m*r2 m)*d)
     ((r3 m*r7 m - r4 m*r6 m)*d) (-(r0 m*r7 m - r1 m*r6 m)*d) ((r0 m*r4 m - r1 m*r3 m)*d).

(** std::atan2 (C11 7.12.4.4, finite arguments, no signed zero) *)
Definition atan2 (y x : R) : R :=
  if Rlt_dec 0 x then atan (y/x)
  else if Rlt_dec x 0 then (if Rle_dec 0 y then atan (y/x) + PI else atan (y/x) - PI)
  else if Rlt_dec 0 y then PI/2 else if Rlt_dec y 0 then -(PI/2) else 0.
(** Realm::get_eulerxyz_from_quat, 2387-2399 *)
Definition get_eulerxyz_from_quat (q : quat) : v3 :=
  V3 (atan2 (2*(qw q*qx q + qy q*qz q)) (qw q*qw q - qx q*qx q - qy q*qy q + qz q*qz q))
     (asin (-(2)*(qx q*qz q - qw q*qy q)))
     (atan2 (2*(qy q*qx q + qw q*qz q)) (qw q*qw q + qx q*qx q - qy q*qy q - qz q*qz q)).
(** Realm::get_quat_from_eulerxyz, 2404-2433 *)
Definition euler_quat_raw (a : v3) : quat :=
  let c0 := cos (vx a * (1/2)) in let c1 := cos (vy a * (1/2)) in let c2 := cos (vz a * (1/2)) in
  let s0 := sin (vx a * (1/2)) in let s1 := sin (vy a * (1/2)) in let s2 := sin (vz a * (1/2)) in
  Q4 (c0*c1*c2 + s0*s1*s2) (s0*c1*c2 - c0*s1*s2) (c0*s1*c2 + s0*c1*s2) (c0*c1*s2 - s0*s1*c2).
Definition get_quat_from_eulerxyz (a : v3) : quat :=
  let q := euler_quat_raw a in
  let qmag := sqrt (qw q*qw q + qx q*qx q + qy q*qy q + qz q*qz q) in
  Q4 (qw q/qmag) (qx q/qmag) (qy q/qmag) (qz q/qmag).
Definition mv (m : m3) (v : v3) : v3 :=
  V3 (r0 m*vx v + r1 m*vy v + r2 m*vz v) (r3 m*vx v + r4 m*vy v + r5 m*vz v) (r6 m*vx v + r7 m*vy v + r8 m*vz v).
(** Realm::convert_vect_to_orig_frame, 2439-2459 *)
Definition convert_vect_to_orig_frame (v angle : v3) (to_lab_frame : bool) : v3 :=
  mv (get_rotmat_from_quat (get_quat_from_eulerxyz angle) to_lab_frame) v.

(** Realm::rotate_translate_point, 2786-2815 *)
Definition rotate_translate_point (p cen disp angle : v3) : v3 :=
  vadd (vadd (mv (get_rotmat_from_quat (get_quat_from_eulerxyz angle) true) (vsub p cen)) cen) disp.
(** Realm::set_displacement_six_dof, 2820-2878: the displacement of one node *)
Definition displacement_six_dof (mc cen disp angle : v3) : v3 :=
  let m := get_rotmat_from_quat (get_quat_from_eulerxyz angle) true in
  let c := vsub mc cen in
  V3 (r0 m*vx c + r1 m*vy c + r2 m*vz c - vx mc + vx cen + vx disp)
     (r3 m*vx c + r4 m*vy c + r5 m*vz c - vy mc + vy cen + vy disp)
     (r6 m*vx c + r7 m*vy c + r8 m*vz c - vz mc + vz cen + vz disp).
(** Realm::set_mesh_velocity_six_dof, 2983-3025: the velocity of one node *)
Definition velocity_six_dof (cc cen disp omega vel : v3) : v3 :=
  vadd (mesh_velocity_cross_product omega (vsub cc (vadd cen disp))) vel.

(** Realm::assess_rigid_euler_rhs, 2465-2481 *)
Definition assess_rigid_euler_rhs (M w1 w2 i0 i1 i2 : R) : R :=
  if Rlt_dec FLT_MIN i0 then (M - (i1 - i2)*w1*w2)/i0 else 0.
(** the three calls at 2570-2587 *)
Definition euler_rhs (mom ine w : v3) : v3 :=
  V3 (assess_rigid_euler_rhs (vx mom) (vz w) (vy w) (vx ine) (vz ine) (vy ine))
     (assess_rigid_euler_rhs (vy mom) (vx w) (vz w) (vy ine) (vx ine) (vz ine))
     (assess_rigid_euler_rhs (vz mom) (vy w) (vx w) (vz ine) (vy ine) (vx ine)).
(** Realm::advance_omega_dt, 2543-2597; note that the intermediate stage adds rk_fact[i]*dt, not rk_fact[i]*k *)
Definition advance_omega_dt (ome ine mom : v3) (dt : R) : v3 :=
  let stage f := V3 (vx ome + f*dt) (vy ome + f*dt) (vz ome + f*dt) in
  let k0 := euler_rhs mom ine ome in
  let k1 := euler_rhs mom ine (stage ((1/2)*dt)) in
  let k2 := euler_rhs mom ine (stage ((1/2)*dt)) in
  let k3 := euler_rhs mom ine (stage dt) in
  V3 (vx ome + (dt/6)*(vx k0 + 2*vx k1 + 2*vx k2 + vx k3))
     (vy ome + (dt/6)*(vy k0 + 2*vy k1 + 2*vy k2 + vy k3))
     (vz ome + (dt/6)*(vz k0 + 2*vz k1 + 2*vz k2 + vz k3)).
(** Realm::evaluate_quat_rhs, 2486-2496 *)
Definition evaluate_quat_rhs (q : quat) (w : v3) : quat :=
  Q4 ((- qx q*vx w - qy q*vy w - qz q*vz w)*(1/2))
     ((qw q*vx w + qz q*vy w - qy q*vz w)*(1/2))
     ((- qz q*vx w + qw q*vy w + qx q*vz w)*(1/2))
     ((qy q*vx w - qx q*vy w + qw q*vz w)*(1/2)).
Definition qaxpy (q : quat) (f : R) (k : quat) : quat :=
  Q4 (qw q + f*qw k) (qx q + f*qx k) (qy q + f*qy k) (qz q + f*qz k).
(** the quaternion update of Realm::update_body_cc, 2512-2533; the stage factor is dt*rk_fact[i] with
    rk_fact = {0.5*dt, 0.5*dt, dt, 0} *)
Definition advance_quat (q : quat) (w : v3) (dt : R) : quat :=
  let k0 := evaluate_quat_rhs q w in
  let k1 := evaluate_quat_rhs (qaxpy q (dt*((1/2)*dt)) k0) w in
  let k2 := evaluate_quat_rhs (qaxpy q (dt*((1/2)*dt)) k1) w in
  let k3 := evaluate_quat_rhs (qaxpy q (dt*dt) k2) w in
  let fin a b c d e := a + dt/6*(b + 2*c + 2*d + e) in
  Q4 (fin (qw q) (qw k0) (qw k1) (qw k2) (qw k3)) (fin (qx q) (qx k0) (qx k1) (qx k2) (qx k3))
     (fin (qy q) (qy k0) (qy k1) (qy k2) (qy k3)) (fin (qz q) (qz k0) (qz k1) (qz k2) (qz k3)).

(** the body state in MeshMotionInfo *)
Record body := mkB {
  b_disp : v3; b_angle : v3; b_omega : v3; b_inertia : v3; b_vel : v3; b_force : v3; b_mom : v3;
  b_applied : v3; b_accel : v3; b_mass : R }.
(** Realm::update_body_cc, 2501-2538 *)
Definition update_body_cc (b : body) (dt : R) : body :=
  mkB (vadd (b_disp b) (vscale dt (b_vel b)))
      (get_eulerxyz_from_quat (advance_quat (get_quat_from_eulerxyz (b_angle b)) (b_omega b) dt))
      (b_omega b) (b_inertia b) (b_vel b) (b_force b) (b_mom b) (b_applied b) (b_accel b) (b_mass b).
(** Realm::update_body_vel, 2599-2633; bodyFrameMom is computed but bodyMom_ is what is passed on *)
Definition update_body_vel (b : body) (dt : R) : body :=
  let accel := if Rlt_dec 0 (b_mass b)
    then vadd (vscale (1/2) (b_accel b)) (vscale ((1/2)/b_mass b) (vadd (b_force b) (b_applied b)))
    else b_accel b in
  let vel := if Rlt_dec 0 (b_mass b) then vadd (b_vel b) (vscale dt accel) else b_vel b in
  let bodyFrameOme := convert_vect_to_orig_frame (b_omega b) (b_angle b) false in
  let ome := advance_omega_dt bodyFrameOme (b_inertia b) (b_mom b) dt in
  mkB (b_disp b) (b_angle b) (convert_vect_to_orig_frame ome (b_angle b) true) (b_inertia b) vel
      (b_force b) (b_mom b) (b_applied b) accel (b_mass b).
(** Realm::update_six_dof_motion, 2178-2206, for one six-dof body: the update is inside the loop over its blocks *)
Definition update_six_dof_motion (blocks : list part) (b : body) (dt : R) : body :=
  fold_left (fun b _ => update_body_cc (update_body_vel b dt) dt) blocks b.
