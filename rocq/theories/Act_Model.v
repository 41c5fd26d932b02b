(** Actuator lines (src/ActuatorLinePointDrag.C). Simplifications: real arithmetic (acos(-1) is PI, std::cbrt the real
    cube root of a non-negative number); mesh search results, gathered fields and sub-control volumes are given data;
    nodes are numbered globally; std::set of nodes is a duplicate-free list. *)
Require Import Reals List Bool Arith.
From Verif Require Import Edge_Model Turb_Model Src_Model.
Import ListNotations.
Open Scope R_scope.

(** load 257: rank of machine [ispec] out of [numTowers] *)
Definition act_proc (numProcs numTowers ispec : nat) : nat :=
  let div := Nat.max (numProcs / numTowers)%nat numProcs in
  if Nat.ltb 0 div then Nat.modulo ispec div else 0%nat.

(* ------------------------------------------------------------------ points of a line; components 0,1,2 *)
(** create_actuator_line_point_info_map 690-713 *)
Definition line_dx (n : nat) (tip tail : nat -> R) (j : nat) : R := (tip j - tail j)/INR (Nat.max (n-1) 1).
Definition line_mid (tip tail : nat -> R) (j : nat) : R := (tip j + tail j)/2.
Definition model_point (n : nat) (tip tail : nat -> R) (k j : nat) : R := tail j + INR k*line_dx n tip tail j.
(** set_current_coordinates 748-762 *)
Definition current_point (c x : nat -> R) (omega t : R) (j : nat) : R :=
  let cY := x 1%nat - c 1%nat in let cZ := x 2%nat - c 2%nat in
  let s := sin (omega*t) in let k := cos (omega*t) in
  match j with 1%nat => s*cZ + k*cY + c 1%nat | 2%nat => k*cZ - s*cY + c 2%nat | _ => x j end.
(** set_current_velocity 767-779 *)
Definition current_velocity (c x : nat -> R) (omega : R) (j : nat) : R :=
  let cY := x 1%nat - c 1%nat in let cZ := x 2%nat - c 2%nat in
  match j with 0%nat => 0 | 1%nat => - omega*cZ | _ => omega*cY end.
(** 706-715: the k-th point of the line at time t and its velocity *)
Definition line_point (n : nat) (tip tail : nat -> R) (omega t : R) (k : nat) : nat -> R :=
  current_point (line_mid tip tail) (model_point n tip tail k) omega t.
Definition line_velocity (n : nat) (tip tail : nat -> R) (omega t : R) (k : nat) : nat -> R :=
  current_velocity (line_mid tip tail) (line_point n tip tail omega t k) omega.

(* ------------------------------------------------------------------ drag *)
(** compute_point_drag 174-208 *)
Definition rel_mag (d : nat) (v u : nat -> R) : R := sqrt (sumn d (fun j => (v j - u j)*(v j - u j))).
Definition drag_factor (Re : R) : R :=
  let c := if Rlt_dec Re 1000 then cbrt Re else 0 in
  if Rlt_dec Re 1000 then 1 + c*c/6 else 424/1000/24*Re.
Definition drag_re (d : nat) (r : R) (v u : nat -> R) (mu rho : R) : R := 2*rho*r*rel_mag d v u/mu.
Definition point_lhs (d : nat) (r : R) (v u : nat -> R) (mu rho : R) : R := 6*PI*mu*r*drag_factor (drag_re d r v u mu rho).
Definition point_force (d : nat) (r : R) (v u : nat -> R) (mu rho : R) (j : nat) : R := 6*PI*mu*r*drag_factor (drag_re d r v u mu rho)*(v j - u j).
(** compute_node_drag_given_radius 213-233 *)
Definition node_weight (d : nat) (radius eps : R) : R :=
  (if Nat.eqb d 2 then 1/(eps*eps*PI) else 1/(eps*eps*eps*Rpower PI (3/2))) * exp (- radius*radius/eps*eps).
(** compute_radius 964-975 *)
Definition act_radius (d : nat) (x c : nat -> R) : R := sqrt (sumn d (fun j => (x j - c j)*(x j - c j))).

(* ------------------------------------------------------------------ assembly *)
(** one point with what its search and interpolation delivered *)
Record apoint := mkAp { a_c : nat -> R; a_v : nat -> R; a_r : R; a_eps : R; a_nodes : list nat;
  a_u : nat -> R; a_mu : R; a_rho : R;                              (* gas velocity, viscosity, density at the point *)
  a_nscv : nat; a_near : nat -> nat; a_vol : nat -> R }.            (* best element: global node of each sub-volume *)
Definition fields := ((nat -> nat -> R) * (nat -> nat -> R))%type.   (* actuator_source, actuator_source_lhs *)
(** assemble_lhs_to_best_elem_nodes 980-1015 (volume: compute_volume 905-929) *)
Definition best_lhs (d : nat) (p : apoint) (L : nat -> nat -> R) : nat -> nat -> R :=
  let V := sumn (a_nscv p) (a_vol p) in
  fold_left (fun L ip n j => if Nat.eqb n (a_near p ip) && Nat.ltb j d then L n j + a_vol p ip/V*point_lhs d (a_r p) (a_v p) (a_u p) (a_mu p) (a_rho p) else L n j)
    (seq 0 (a_nscv p)) L.
(** spread_actuator_force_to_node_vec 1018-1046: the node's source is assigned *)
Definition spread (d : nat) (x : nat -> nat -> R) (p : apoint) (S : nat -> nat -> R) : nat -> nat -> R :=
  fold_left (fun S nd n j => if Nat.eqb n nd && Nat.ltb j d
      then point_force d (a_r p) (a_v p) (a_u p) (a_mu p) (a_rho p) j * node_weight d (act_radius d (x nd) (a_c p)) (a_eps p) else S n j)
    (a_nodes p) S.
(** execute 421-440 (zero), 452-508 (points in map order) *)
Definition act_rank (d : nat) (x : nat -> nat -> R) (pts : list apoint) : fields :=
  fold_left (fun st p => (spread d x p (fst st), best_lhs d p (snd st))) pts ((fun _ _ => 0), (fun _ _ => 0)).
(** 510-514: parallel_sum_including_ghosts *)
Definition act_execute (d : nat) (x : nat -> nat -> R) (ranks : list (list apoint)) : fields :=
  fold_right (fun pts st => ((fun n j => fst (act_rank d x pts) n j + fst st n j), (fun n j => snd (act_rank d x pts) n j + snd st n j)))
    ((fun _ _ => 0), (fun _ _ => 0)) ranks.

(* ------------------------------------------------------------------ best element *)
(** complete_search 806-880: candidates in sorted order, (distance, element); start 1e16 and no element *)
Definition best_elem (cands : list (R * nat)) : R * option nat :=
  fold_left (fun st c => if Rlt_dec (fst c) (fst st) then (fst c, Some (snd c)) else st) cands (10^16, None).
(** nodeVec_: every node of every candidate *)
Definition node_set (conn : nat -> list nat) (cands : list (R * nat)) : list nat :=
  nodup Nat.eq_dec (flat_map (fun c => conn (snd c)) cands).
