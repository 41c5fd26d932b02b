(** Vocabulary for the surface force and moment properties (C74). *)
Require Import Reals List Bool Arith Permutation.
From Verif Require Import Edge_Model Edge_Proofs Elem_Model Wall_Model Bnd_Spec Force_Model.
Import ListNotations.
Open Scope R_scope.

(** all integration points of the surface, whichever rank owns them *)
Definition points (g : alg) : list spt := concat (a_pts g).
(** face-interpolated value *)
Definition at_pt (b : spt) (q : nat -> R) : R := lsum (fun p => fst p * q (snd p)) (s_N b).
(** pressure force on the wall at a point *)
Definition p_force (f : sfields) (b : spt) (i : nat) : R := at_pt b (q_p f) * s_A b i.
(** viscous force on the wall at a point of a resolved wall: minus the Newtonian stress on the outward area *)
Definition v_force (n : nat) (incl : R) (f : sfields) (b : spt) (i : nat) : R :=
  viscous_flux n (at_pt b (q_mu f)) incl (q_dudx f (s_nn b)) (s_A b) i.
(** velocity of the fluid relative to the wall at a point *)
Definition slip (f : sfields) (b : spt) (i : nat) : R := at_pt b (fun a => q_u f a i) - at_pt b (fun a => q_ubc f a i).
(** viscous force at a point of a wall-function wall *)
Definition wf_force (n : nat) (kappa : R) (f : sfields) (b : spt) (i : nat) : R :=
  wlambda kappa (at_pt b (q_rho f)) (at_pt b (q_mu f)) (s_yp b) (s_ut b) (amag n (s_A b))
  * tangential_part n (nrm n (s_A b)) (slip f b) i.
Definition force (n : nat) (incl kappa : R) (f : sfields) (g : alg) (b : spt) (i : nat) : R :=
  p_force f b i + (if a_wf g then wf_force n kappa f b i else v_force n incl f b i).
(** components 0,1,2 of r x F *)
Definition vcross (r F : vec) (k : nat) : R :=
  match k with
  | 0%nat => r 1%nat * F 2%nat - r 2%nat * F 1%nat
  | 1%nat => r 2%nat * F 0%nat - r 0%nat * F 2%nat
  | _ => r 0%nat * F 1%nat - r 1%nat * F 0%nat end.
(** magnitude of a vector *)
Definition mag (n : nat) (v : vec) : R := sqrt (dotp n v v).
(** traction (force per area) on a resolved wall without the pressure and the div(u) part *)
Definition traction (n : nat) (f : sfields) (b : spt) (i : nat) : R :=
  viscous_flux n (at_pt b (q_mu f)) 0 (q_dudx f (s_nn b)) (nrm n (s_A b)) i.
(** the points of all the requests of one kind *)
Definition kind_points (algs : list alg) (wf : bool) : list spt :=
  flat_map points (filter (fun g => Bool.eqb (a_wf g) wf) algs).
(** area-weighted mean of a point quantity over the points of node a *)
Definition node_area (n : nat) (pts : list spt) (a : nat) : R :=
  lsum (fun b => if Nat.eqb (s_nn b) a then amag n (s_A b) else 0) pts.
Definition node_mean (n : nat) (pts : list spt) (q : spt -> R) (a : nat) : R :=
  lsum (fun b => if Nat.eqb (s_nn b) a then amag n (s_A b) * q b else 0) pts / node_area n pts a.
(** same requests, decomposed or ordered differently *)
Definition same_request (nr nr' : nat) (g g' : alg) : Prop :=
  a_wf g = a_wf g' /\ (forall i, a_cen g i = a_cen g' i) /\ length (a_pts g) = nr /\ length (a_pts g') = nr' /\
  Permutation (points g) (points g').
