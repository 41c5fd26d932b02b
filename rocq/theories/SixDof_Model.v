(** Loads on a free-floating body ("six_dof" mesh motion): src/SixDofSurfaceForceAndMomentAlgorithm.C, its driver, the tether
    part of src/SolutionOptions.C.
    Simplifications: real arithmetic; a surface is the list of its boundary integration points, one list per rank (as in
    Force_Model); a division by zero gives None; printing is left out; the periodic update of the nodal area is C20. *)
Require Import Reals List Bool Arith.
From Verif Require Import Edge_Model Elem_Model Wall_Model Aux_Model Motion_Model Force_Model.
Import ListNotations.
Open Scope R_scope.

(** SolutionOptions.C:535-550, MeshMotionInfo.C:90-95: the nine numbers of one tether *)
Record tether := mkT { t_slack : R; t_len : R; t_k : R; t_body : v3; t_fix : v3 }.
(** SolutionOptions.C:536-549; None: the exception "Incorrect tether format" *)
Definition tether_at (l : list R) (i : nat) : tether :=
  let c j := nth (9*i+j) l 0 in
  mkT (c 0%nat) (c 1%nat) (c 2%nat) (V3 (c 3%nat) (c 4%nat) (c 5%nat)) (V3 (c 6%nat) (c 7%nat) (c 8%nat)).
Definition load_tethers (l : list R) : option (list tether) :=
  if Nat.eqb (length l mod 9) 0 then Some (map (tether_at l) (seq 0 (length l / 9))) else None.

(** cross_product, lines 486-493 *)
Definition cross3 (force rad : v3) : v3 :=
  V3 (vy rad*vz force - vz rad*vy force) (- (vx rad*vz force - vz rad*vx force)) (vx rad*vy force - vy rad*vx force).
(** lines 364-368: where the tether is attached now *)
Definition tether_point (b : body) (cen : v3) (t : tether) : v3 :=
  vadd (convert_vect_to_orig_frame (t_body t) (b_angle b) true) (vadd (b_disp b) cen).
(** lines 376-380 *)
Definition tether_dist (b : body) (cen : v3) (t : tether) : R :=
  let p := tether_point b cen t in
  sqrt ((vx p - vx (t_fix t))^2 + (vy p - vy (t_fix t))^2 + (vz p - vz (t_fix t))^2).
(** lines 382-392: force on the body *)
Definition tether_force (b : body) (cen : v3) (t : tether) : option v3 :=
  let p := tether_point b cen t in
  let dist := tether_dist b cen t in
  let displacement := dist - t_len t in
  let pull :=
    match divo (t_k t*displacement*(vx (t_fix t) - vx p)) dist, divo (t_k t*displacement*(vy (t_fix t) - vy p)) dist,
          divo (t_k t*displacement*(vz (t_fix t) - vz p)) dist with
    | Some x, Some y, Some z => Some (V3 x y z) | _, _, _ => None end in
  if Rlt_dec (1/2) (t_slack t) then (if Rlt_dec 0 displacement then pull else Some (V3 0 0 0)) else pull.
(** lines 370-374, 394 *)
Definition tether_moment (b : body) (cen : v3) (t : tether) (f : v3) : v3 :=
  let p := tether_point b cen t in cross3 f (vsub p (vadd cen (b_disp b))).
(** lines 349-404: the tethers are added to the pressure part of the sums *)
Fixpoint add_tethers (b : body) (cen : v3) (ts : list tether) (g : nat -> R) : option (nat -> R) :=
  match ts with [] => Some g | t :: ts =>
    match tether_force b cen t with None => None | Some f =>
      let m := tether_moment b cen t f in
      add_tethers b cen ts (fun j => if (j <? 3)%nat then g j + comp f j else if (j <? 6)%nat then g j else if (j <? 9)%nat then g j + comp m (j - 6) else g j) end end.

(** one six-dof motion: body, centroid, tethers, the boundary points of its forcing surfaces on every rank *)
Record sixdof := mkSD { d_body : body; d_cen : v3; d_teth : list tether; d_pts : list (list spt) }.
(** the centre of the body now, lines 122-125, 268 *)
Definition centre (g : sixdof) : vec := fun i => comp (d_cen g) i + comp (b_disp (d_body g)) i.
(** driver 99-112: zero the area, pre_work (lines 418-480) of all motions, parallel_sum *)
Definition sd_area (n nr : nat) (gs : list sixdof) (a : nat) : R :=
  sumn nr (fun r => fold_left (fun q g => add_area n (nth r (d_pts g) []) q) gs (fun _ => 0) a).
(** lines 133-338 on one rank: [pf], [tau], [yp] are what the nodal fields hold on this rank before: nothing zeroes them *)
Definition sd_rank (n nr : nat) (incl : R) (f : sfields) (gs : list sixdof) (g : sixdof) (r : nat)
    (pf : nat -> nat -> R) (tau yp : nat -> R) : acc :=
  fold_left (visit n (centre g) (sd_area n nr gs) f (resolved n incl f)) (nth r (d_pts g) [])
    (mkA (fun _ => 0) pf tau yp 0 0).
(** line 346: all_reduce_sum *)
Definition sd_sums (n nr : nat) (incl : R) (f : sfields) (gs : list sixdof) (g : sixdof) (k : nat) : R :=
  sumn nr (fun r => l_fm (sd_rank n nr incl f gs g r (fun _ _ => 0) (fun _ => 0) (fun _ => 0)) k).
(** lines 407-411: bodyForce_ and bodyMom_ *)
Definition body_load (n nr : nat) (incl : R) (f : sfields) (gs : list sixdof) (g : sixdof) : option (v3 * v3) :=
  match add_tethers (d_body g) (d_cen g) (d_teth g) (sd_sums n nr incl f gs g) with None => None | Some s =>
    Some (V3 (s 0%nat + s 3%nat) (s 1%nat + s 4%nat) (s 2%nat + s 5%nat), V3 (s 6%nat) (s 7%nat) (s 8%nat)) end.
Definition set_load (b : body) (fm : v3 * v3) : body :=
  mkB (b_disp b) (b_angle b) (b_omega b) (b_inertia b) (b_vel b) (fst fm) (snd fm) (b_applied b) (b_accel b) (b_mass b).
(** the nodal fields one rank holds after [execute] of every motion *)
Definition sd_fields (n nr : nat) (incl : R) (f : sfields) (gs : list sixdof) (r : nat)
    (st : (nat -> nat -> R) * (nat -> R) * (nat -> R)) : (nat -> nat -> R) * (nat -> R) * (nat -> R) :=
  fold_left (fun st g => let a := sd_rank n nr incl f gs g r (fst (fst st)) (snd (fst st)) (snd st) in (n_pf a, n_tau a, n_yp a)) gs st.
