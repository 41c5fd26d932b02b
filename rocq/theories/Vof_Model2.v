(** Nodal steps of VolumeOfFluidEquationSystem.C: clipping, interface normal, curvature, smoothing, wetted wall.
    Simplification: the elements of all ranks in one list (the parallel_sum of 1145, 1279, 1470 adds the
    ranks' contributions, see C14); periodic and overset updates not included. *)
Require Import Reals List Bool.
From Verif Require Import Edge_Model Elem_Model.
Import ListNotations.
Open Scope R_scope.

(** VolumeOfFluidEquationSystem.C:929-972: vof += vofTmp, clipped to [0-delta, 1+delta] *)
Definition update_and_clip (delta : R) (vof tmp : nat -> R) : nat -> R := fun k =>
  let lowBound := 0 - delta in let highBound := 1 + delta in
  let v := vof k + tmp k in
  if Rlt_dec v lowBound then lowBound else if Rlt_dec highBound v then highBound else v.
(** numClip, lines 959 and 964: how many nodes of the list are clipped below and above *)
Definition clip_counts (delta : R) (vof tmp : nat -> R) (nodes : list nat) : nat * nat :=
  fold_left (fun c k => let v := vof k + tmp k in
     if Rlt_dec v (0 - delta) then (S (fst c), snd c)
     else if Rlt_dec (1 + delta) v then (fst c, S (snd c)) else c) nodes (0%nat, 0%nat).

(** an element: master-element data, nodes, gradient operator at the scv points, nodal coordinates (flat) *)
Record velem := mkVE { ve_me : me; ve_node : nat -> nat; ve_dv : nat -> nat -> nat -> R; ve_x : nat -> R }.

(** field[j] at node n += v *)
Definition acc1 (n : nat) (v : R) (F : nat -> R) : nat -> R := fun a => if Nat.eqb a n then F a + v else F a.
Definition acc2 (n : nat) (v : nat -> R) (F : nat -> nat -> R) : nat -> nat -> R :=
  fun a j => if Nat.eqb a n then F a j + v j else F a j.

(** lines 1107-1142 *)
Definition ip_grad (e : velem) (q : nat -> R) (ip j : nat) : R :=
  sumn (npe (ve_me e)) (fun ic => ve_dv e ip ic j * q (ve_node e ic)).
Definition ip_normal (small : R) (e : velem) (q : nat -> R) (ip j : nat) : R :=
  let d := ndim (ve_me e) in
  let mag := sqrt (small + sumn d (fun j => ip_grad e q ip j * ip_grad e q ip j)) in
  ip_grad e q ip j / mag.
Definition interface_normal (small : R) (els : list velem) (V : nat -> R) (q : nat -> R) : nat -> nat -> R :=
  fold_left (fun F e =>
    let m := ve_me e in
    loop (nscv m) (fun ip F =>
      let nn := nearest m ip in
      let volumeFac := vol m ip / V (ve_node e nn) in
      acc2 (ve_node e nn) (fun j => ip_normal small e q ip j * volumeFac) F) F) els (fun _ _ => 0).

(** lines 1245-1276 *)
Definition interface_curvature (els : list velem) (V : nat -> R) (nrm : nat -> nat -> R) : nat -> R :=
  fold_left (fun F e =>
    let m := ve_me e in
    loop (nscv m) (fun ip F =>
      let divN := sumn (npe m) (fun ic => sumn (ndim m) (fun j => ve_dv e ip ic j * nrm (ve_node e ic) j)) in
      let nn := nearest m ip in
      acc1 (ve_node e nn) (- divN * vol m ip / V (ve_node e nn)) F) F) els (fun _ => 0).

(** smooth_vof_execute, lines 1423-1466 *)
Definition smooth_flux (e : velem) (q : nat -> R) (ip : nat) : R :=
  sumn (npe (ve_me e)) (fun ic =>
    sumn (ndim (ve_me e)) (fun j => - dndx (ve_me e) ip ic j * area (ve_me e) ip j) * q (ve_node e ic)).
Definition smoothed_rhs (els : list velem) (V : nat -> R) (q : nat -> R) : nat -> R :=
  fold_left (fun F e =>
    let m := ve_me e in
    loop (nscs m) (fun ip F =>
      let nl := ve_node e (lrL m ip) in let nr := ve_node e (lrR m ip) in
      let qDiff := smooth_flux e q ip in
      acc1 nr (qDiff / V nr) (acc1 nl (- (qDiff / V nl)) F)) F) els (fun _ => 0).
(** lines 1332, 1430-1439, 1480 *)
Definition ip_dx (e : velem) (ip : nat) : R :=
  let m := ve_me e in let d := ndim m in
  sqrt (sumn d (fun j => (ve_x e (lrR m ip*d+j)%nat - ve_x e (lrL m ip*d+j)%nat)
                        * (ve_x e (lrR m ip*d+j)%nat - ve_x e (lrL m ip*d+j)%nat))).
Definition dx_min (els : list velem) : R :=
  fold_left (fun a e => loop (nscs (ve_me e)) (fun ip a => Rmin a (ip_dx e ip)) a) els (10^16).
(** smooth_vof, lines 1301-1322: [iter] sweeps of vofSmoothed += Fo*dxMin^2*rhs *)
Definition smooth_step (Fo : R) (els : list velem) (V : nat -> R) (q : nat -> R) : nat -> R :=
  fun a => Fo*dx_min els*dx_min els*smoothed_rhs els V q a + 1*q a.
Definition smooth_vof (on : bool) (iter : nat) (Fo : R) (els : list velem) (V : nat -> R) (vof old : nat -> R) : nat -> R :=
  if on then Nat.iter iter (smooth_step Fo els V) vof else old.

(** wetted_wall_init, lines 1535-1580: the same value goes to every state *)
Definition wetted_wall (spec : R) (dist : nat -> R) : nat -> R := fun k => if Rlt_dec (dist k) spec then 1 else 0.
