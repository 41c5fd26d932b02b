(** Vocabulary for the maximum principle (C75). *)
Require Import Reals List Bool Arith.
From Verif Require Import Edge_Model Edge_Proofs Edge_Props Elem_Model Bnd_Model Bnd_Spec Max_Model.
Import ListNotations.
Open Scope R_scope.

(** mass leaving node i through the open faces *)
Definition open_out (faces : list oface) (i : nat) : R :=
  lsum (fun F => out_at (f_npf (fst F)) (f_ord (fst F)) (snd F) i) faces.
(** the mesh: nodes 0..N-1, edges with A.dx > 0, non-negative diffusivity; edges orthogonal if the correction is on *)
Definition mesh_fine (N : nat) (T : teq) : Prop :=
  (forall e, In e (t_es T) -> (eL e < N)%nat /\ (eR e < N)%nat /\ eL e <> eR e /\
     0 < e_axdx (o_ndim (t_o T)) (f_x (t_f T)) e /\
     (o_noc (t_o T) = true -> exists c, forall j, (j < o_ndim (t_o T))%nat -> eA e j = c * dxj (f_x (t_f T)) e j)) /\
  (forall i, (i < N)%nat -> 0 <= f_diff (t_f T) i) /\
  (forall F ip, In F (t_faces T) -> (ip < f_npf (fst F))%nat -> (f_ord (fst F) ip < N)%nat).
(** fraction of upwinding at the edge, and its diffusive conductance mu A.A/(A.dx) *)
Definition upwinding (T : teq) (e : edge) : R := pecfac_of (t_o T) (t_f T) e * o_alphaUpw (t_o T).
Definition conductance (T : teq) (e : edge) : R :=
  visc_ip (f_diff (t_f T)) e * e_asq (o_ndim (t_o T)) e / e_axdx (o_ndim (t_o T)) (f_x (t_f T)) e.
(** no higher-order extrapolation, and the centrally weighted part of the flux is dominated by diffusion: always true for
    full upwinding, otherwise a cell-Peclet condition *)
Definition monotone_scheme (T : teq) : Prop :=
  o_hoUpwind (t_o T) = 0 /\
  forall e, In e (t_es T) -> upwinding T e <= 1 /\ Rabs (t_mdot T e) * (1 - upwinding T e) / 2 <= conductance T e.
(** the discrete continuity equation with backward Euler holds at the nodes where the scalar is solved *)
Definition continuity_holds (N : nat) (T : teq) (t : dts) (V rp1 rn : nat -> R) : Prop :=
  forall i, (i < N)%nat -> t_dir T i = false ->
    (rp1 i - rn i)*V i/dt t + net_outflow (t_mdot T) (t_es T) i + open_out (t_faces T) i = 0.
(** values supplied from outside: entrainment values and Dirichlet values lie in [lo,hi] *)
Definition supplied_within (N : nat) (T : teq) (lo hi : R) : Prop :=
  (forall F ip, In F (t_faces T) -> (ip < f_npf (fst F))%nat -> snd F ip <= 0 -> lo <= t_qE T (f_ord (fst F) ip) <= hi) /\
  (forall i, (i < N)%nat -> t_dir T i = true -> lo <= t_bc T i <= hi).
Definition within (N : nat) (q : nat -> R) (lo hi : R) : Prop := forall i, (i < N)%nat -> lo <= q i <= hi.
