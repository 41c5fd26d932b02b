(** C92 continued: the momentum residual reported next to the filtered fields. *)
Require Import Reals List Bool Lra Lia Arith.
From Verif Require Import RUtil Edge_Model Edge_Proofs Elem_Model Elem_Spec Elem_Proofs Elem_Props3 Rad_Quad_Proofs3 Sum_Proofs.
From Verif Require Import Vof_Model Vof_Model2 Vof_Spec Vof_Props3 Vof_Props6 Grad_Model Grad_Spec Grad_Props Filter_Model.
From Verif Require Grad_Props4 Grad_Props5.
Import ListNotations.
Open Scope R_scope.

(** *** specification *)
(** value and j-th derivative of a nodal field at a sub-control-volume point *)
Definition val (e : velem) (q : nat -> R) (ip : nat) : R := sumn (npe (ve_me e)) (fun ic => Nv (ve_me e) ip ic * q (ve_node e ic)).
Definition der (e : velem) (q : nat -> R) (ip j : nat) : R := sumn (npe (ve_me e)) (fun ic => ve_dv e ip ic j * q (ve_node e ic)).
(** time derivative by the three-level formula *)
Definition ddt (t : dts) (q1 q0 qm : R) : R := (ga1 t * q1 + ga2 t * q0 + ga3 t * qm) / dt t.
Definition mass_residual (t : dts) (F : rfields) (e : velem) (ip : nat) : R :=
  ddt t (val e (r_rho1 F) ip) (val e (r_rho0 F) ip) (val e (r_rhom F) ip) + sumn (ndim (ve_me e)) (fun j => der e (fun n => r_rho1 F n * r_u1 F n j) ip j).
Definition divergence (F : rfields) (e : velem) (ip : nat) : R := sumn (ndim (ve_me e)) (fun j => der e (fun n => r_u1 F n j) ip j).
(** viscous stress at a node, with the divergence of the point *)
Definition stress (d : nat) (F : rfields) (divu : R) (n i j : nat) : R :=
  r_mu F n * (r_G F n (i*d+j)%nat + r_G F n (j*d+i)%nat - r_divU F * (if Nat.eqb i j then 2/3 * divu else 0)).
(** d(rho u_i)/dt + div(rho u u_i) - div tau_i + dp/dx_i - (rho - rho_ref) g_i, less u_i times the mass residual *)
Definition strong (t : dts) (F : rfields) (e : velem) (ip i : nat) : R :=
  let d := ndim (ve_me e) in
  ddt t (val e (r_rho1 F) ip * val e (fun n => r_u1 F n i) ip) (val e (r_rho0 F) ip * val e (fun n => r_u0 F n i) ip) (val e (r_rhom F) ip * val e (fun n => r_um F n i) ip)
  + sumn d (fun j => der e (fun n => r_rho1 F n * r_u1 F n j * r_u1 F n i) ip j)
  - sumn d (fun j => der e (fun n => stress d F (divergence F e ip) n i j) ip j)
  + der e (r_p F) ip i - (val e (r_rho1 F) ip - r_rhoRef F) * r_g F i
  - val e (fun n => r_u1 F n i) ip * mass_residual t F e ip.
(** sum over the points belonging to node a, with a given volume for each point *)
Definition over_points (es : list velem) (w : velem -> nat -> R) (f : velem -> nat -> R) (a : nat) : R :=
  lsum (fun e => sumn (nscv (ve_me e)) (fun ip => at_node a (ve_node e (nearest (ve_me e) ip)) * (w e ip * f e ip))) es.

Lemma residual_ip_value t F e ip i : residual_ip t F e ip i = strong t F e ip i.
Proof.
  unfold residual_ip, strong, mass_residual, ddt. cbv zeta.
  assert (A : forall (h : nat -> nat -> R), sumn (npe (ve_me e)) (fun ic => sumn (ndim (ve_me e)) (fun j => h (ve_node e ic) j * ve_dv e ip ic j)) = sumn (ndim (ve_me e)) (fun j => der e (fun n => h n j) ip j)).
  { intros h. rewrite (sumn_swap (npe (ve_me e)) (ndim (ve_me e))). apply sumn_ext. intros j _. unfold der. apply sumn_ext. intros; ring. }
  rewrite (A (fun n j => r_rho1 F n * r_u1 F n j)), (A (fun n j => r_u1 F n j)), (A (fun n j => r_rho1 F n * r_u1 F n j * r_u1 F n i)).
  change (sumn (ndim (ve_me e)) (fun j => der e (fun n => r_u1 F n j) ip j)) with (divergence F e ip).
  rewrite (A (fun n j => r_mu F n * (r_G F n (i * ndim (ve_me e) + j)%nat + r_G F n (j * ndim (ve_me e) + i)%nat - 2/3 * divergence F e ip * (if Nat.eqb i j then 1 else 0) * r_divU F))).
  rewrite (sumn_ext (ndim (ve_me e)) (fun j => der e (fun n => r_mu F n * (r_G F n (i * ndim (ve_me e) + j)%nat + r_G F n (j * ndim (ve_me e) + i)%nat - 2/3 * divergence F e ip * (if Nat.eqb i j then 1 else 0) * r_divU F)) ip j)
     (fun j => der e (fun n => stress (ndim (ve_me e)) F (divergence F e ip) n i j) ip j)).
  2:{ intros j _. unfold der, stress. apply sumn_ext. intros ic _. destruct (Nat.eqb i j); ring. }
  replace (sumn (npe (ve_me e)) (fun ic => r_p F (ve_node e ic) * ve_dv e ip ic i)) with (der e (r_p F) ip i) by (unfold der; apply sumn_ext; intros; ring).
  unfold val. unfold Rdiv. ring.
Qed.
Lemma residual_elem_value t F R0 e a i : maps_ok (ve_me e) -> residual_elem t F R0 e a i = R0 a i
  - sumn (nscv (ve_me e)) (fun ip => at_node a (ve_node e (nearest (ve_me e) ip)) * (vol (ve_me e) (nearest (ve_me e) ip) * strong t F e ip i)).
Proof.
  intros [_ M2]. unfold residual_elem. cbv zeta. set (m := ve_me e) in *.
  assert (P : forall ni, loop (nscv m) (fun ip P => acc2 (nearest m ip) (fun i => residual_ip t F e ip i * vol m (nearest m ip)) P) (fun _ _ => 0) ni i
     = sumn (nscv m) (fun ip => at_node ni (nearest m ip) * (vol m (nearest m ip) * strong t F e ip i))).
  { intros ni. rewrite (loop_gain (nscv m) _ (fun P : nat -> nat -> R => P ni i) (fun ip => at_node ni (nearest m ip) * (vol m (nearest m ip) * strong t F e ip i))); [ring|].
    intros ip P _. rewrite acc2_at, residual_ip_value. ring. }
  rewrite (loop_gain (npe m) _ (fun R : nat -> nat -> R => R a i) (fun ni => at_node a (ve_node e ni) * - sumn (nscv m) (fun ip => at_node ni (nearest m ip) * (vol m (nearest m ip) * strong t F e ip i)))).
  2:{ intros ni R _. rewrite acc2_at, P. reflexivity. }
  rewrite (sumn_ext (npe m) _ (fun ni => - sumn (nscv m) (fun ip => at_node a (ve_node e ni) * (dl ni (nearest m ip) * (vol m (nearest m ip) * strong t F e ip i))))).
  2:{ intros ni _. rewrite sumn_scal. change dl with at_node. ring. }
  rewrite sumn_opp, (sumn_swap (npe m) (nscv m)).
  rewrite (sumn_ext (nscv m) _ (fun ip => at_node a (ve_node e (nearest m ip)) * (vol m (nearest m ip) * strong t F e ip i))); [ring|].
  intros ip Hip. apply Grad_Props4.sum_at. apply M2, Hip.
Qed.
(** ** C92: the residual at a node is minus the sum, over the sub-control-volume points of the node, of the strong form of the momentum
    equation, weighted with the volume number nn (the point's node), divided by the dual volume if normalised *)
Theorem C92_residual_value : forall t F (nrm : bool) V es a i, (forall e, In e es -> maps_ok (ve_me e)) ->
  residual t F nrm V es a i = - over_points es (fun e ip => vol (ve_me e) (nearest (ve_me e) ip)) (fun e ip => strong t F e ip i) a / (if nrm then V a else 1).
Proof.
  intros t F nrm V es a i M. unfold residual. cbv zeta.
  assert (G : forall l R0, (forall e, In e l -> In e es) -> fold_left (residual_elem t F) l R0 a i = R0 a i - over_points l (fun e ip => vol (ve_me e) (nearest (ve_me e) ip)) (fun e ip => strong t F e ip i) a).
  { induction l as [|e l IH]; intros R0 H; cbn [fold_left]; [unfold over_points, lsum; cbn; ring|]. rewrite IH by (intros; apply H; right; assumption).
    rewrite residual_elem_value by (apply M, H; left; reflexivity). unfold over_points. rewrite lsum_cons. ring. }
  destruct nrm; rewrite G by auto; unfold Rdiv; [ring|]. rewrite Rinv_1. ring.
Qed.
(** ** C92: with one point per node, numbered like the nodes - all linear elements - each point has its own volume *)
Theorem C92_residual_linear_elements : forall t F (nrm : bool) V es a i, (forall e, In e es -> maps_ok (ve_me e) /\ forall ip, (ip < nscv (ve_me e))%nat -> nearest (ve_me e) ip = ip) ->
  residual t F nrm V es a i = - scv_total es (fun e ip => strong t F e ip i) a / (if nrm then V a else 1).
Proof.
  intros t F nrm V es a i M. rewrite C92_residual_value by (intros; apply M; assumption). f_equal. f_equal. unfold over_points, scv_total. apply lsum_ext. intros e He. apply sumn_ext. intros ip Hip.
  rewrite (proj2 (M e He) ip Hip). unfold at_node. destruct (Nat.eqb _ _); ring.
Qed.
(** not otherwise: an element with two points for one node takes the first point's volume twice *)
Definition two_pts : velem := mkVE (mkMe 2 0 3 1 (fun _ => 0%nat) (fun _ => 1%nat) (fun _ _ => 1/2) (fun _ _ => 1/2) (fun _ _ _ => 0) (fun _ _ _ => 0) (fun _ _ => 0)
   (fun ip => match ip with 2%nat => 1%nat | _ => 0%nat end) (fun ip ic => if Nat.eqb ic (match ip with 2%nat => 1%nat | _ => 0%nat end) then 1 else 0)
   (fun ip => match ip with 0%nat => 1/8 | 1%nat => 3/8 | _ => 1/2 end)) (fun k => k) (fun _ ic _ => match ic with 0%nat => -1 | _ => 1 end) (fun _ => 0).
Definition still (g : R) : rfields := mkRF (fun _ _ => 0) (fun _ _ => 0) (fun _ _ => 0) (fun _ => 1) (fun _ => 1) (fun _ => 1) (fun _ => 0) (fun _ => 0) (fun _ _ => 0) (fun _ => g) 0 0.
Theorem C92_residual_volume_refuted : maps_ok (ve_me two_pts) /\
  residual (mkDt 1 1 (-1) 0) (still 1) false (fun _ => 1) [two_pts] 0 0 = 1/4 /\
  - scv_total [two_pts] (fun e ip => strong (mkDt 1 1 (-1) 0) (still 1) e ip 0) 0 = 1/2.
Proof.
  assert (M : maps_ok (ve_me two_pts)). { split; cbn [ve_me two_pts nscs nscv npe lrL lrR nearest]; intros ip Hip; [lia|destruct ip as [|[|[|]]]; lia]. }
  assert (S1 : forall ip, (ip < 3)%nat -> strong (mkDt 1 1 (-1) 0) (still 1) two_pts ip 0 = -1).
  { intros ip Hip. unfold strong, mass_residual, ddt, val, der, stress, divergence, still. cbn [ve_me two_pts npe ndim ve_node ve_dv Nv r_rho1 r_rho0 r_rhom r_u1 r_u0 r_um r_mu r_G r_p r_g r_rhoRef r_divU ga1 ga2 ga3 dt]. 
    rewrite !sumn_S, !sumn_0. destruct ip as [|[|[|]]]; [| | |lia]; cbn [Nat.eqb]; field. }
  split; [exact M|]. split.
  - rewrite C92_residual_value by (intros e [<- | []]; exact M). unfold over_points, lsum. cbn [map fold_right]. cbn [ve_me two_pts nscv]. rewrite !sumn_S, sumn_0.
    change (mkVE _ _ _ _) with two_pts. rewrite !S1 by lia. cbn [ve_me two_pts nearest ve_node vol]. unfold at_node. cbn [Nat.eqb]. field.
  - unfold scv_total, lsum. cbn [map fold_right]. cbn [ve_me two_pts nscv]. rewrite !sumn_S, sumn_0. change (mkVE _ _ _ _) with two_pts. rewrite !S1 by lia.
    cbn [ve_me two_pts nearest ve_node vol Nat.eqb]. field.
Qed.
(** ** C92: a uniform stream leaves no residual, whatever the density does: the mass residual is taken out *)
Definition scv_unity (es : list velem) : Prop := forall e, In e es -> forall ip, (ip < nscv (ve_me e))%nat ->
  sumn (npe (ve_me e)) (Nv (ve_me e) ip) = 1 /\ forall j, (j < ndim (ve_me e))%nat -> sumn (npe (ve_me e)) (fun ic => ve_dv e ip ic j) = 0.
Lemma val_const e q ip c : sumn (npe (ve_me e)) (Nv (ve_me e) ip) = 1 -> (forall n, q n = c) -> val e q ip = c.
Proof. intros U H. unfold val. rewrite (sumn_ext _ _ (fun ic => c * Nv (ve_me e) ip ic)) by (intros; rewrite H; ring). rewrite sumn_scal, U. ring. Qed.
Lemma der_scal e q ip j c q' : (forall n, q' n = c * q n) -> der e q' ip j = c * der e q ip j.
Proof. intros H. unfold der. rewrite <- sumn_scal. apply sumn_ext. intros. rewrite H. ring. Qed.
Lemma der_const e q ip j c : sumn (npe (ve_me e)) (fun ic => ve_dv e ip ic j) = 0 -> (forall n, q n = c) -> der e q ip j = 0.
Proof. intros U H. unfold der. rewrite (sumn_ext _ _ (fun ic => c * ve_dv e ip ic j)) by (intros; rewrite H; ring). rewrite sumn_scal, U. ring. Qed.
Lemma strong_uniform t F e ip i u : sumn (npe (ve_me e)) (Nv (ve_me e) ip) = 1 -> 
  (forall n j, r_u1 F n j = u j /\ r_u0 F n j = u j /\ r_um F n j = u j) -> (forall n k, r_G F n k = 0) -> r_divU F = 0 ->
  strong t F e ip i = der e (r_p F) ip i - (val e (r_rho1 F) ip - r_rhoRef F) * r_g F i.
Proof.
  intros U HU HG HD. unfold strong, mass_residual. cbv zeta.
  rewrite (val_const e (fun n => r_u1 F n i) ip (u i) U) by (intros; apply HU). rewrite (val_const e (fun n => r_u0 F n i) ip (u i) U) by (intros; apply HU). rewrite (val_const e (fun n => r_um F n i) ip (u i) U) by (intros; apply HU).
  rewrite (sumn_ext (ndim (ve_me e)) (fun j => der e (fun n => r_rho1 F n * r_u1 F n j * r_u1 F n i) ip j) (fun j => u i * der e (fun n => r_rho1 F n * r_u1 F n j) ip j)).
  2:{ intros j _. apply der_scal. intros n. rewrite (proj1 (HU n i)). ring. }
  rewrite sumn_scal. rewrite (sumn_zero (ndim (ve_me e)) (fun j => der e (fun n => stress (ndim (ve_me e)) F (divergence F e ip) n i j) ip j)).
  2:{ intros j _. unfold der. apply sumn_zero. intros ic _. unfold stress. rewrite !HG, HD. ring. }
  unfold ddt, Rdiv. ring.
Qed.
Theorem C92_uniform_stream : forall t F (nrm : bool) V es a i u, (forall e, In e es -> maps_ok (ve_me e)) -> scv_unity es ->
  (forall n j, r_u1 F n j = u j /\ r_u0 F n j = u j /\ r_um F n j = u j) -> (forall n k, r_G F n k = 0) -> r_divU F = 0 ->
  (forall e ip, In e es -> (ip < nscv (ve_me e))%nat -> der e (r_p F) ip i = (val e (r_rho1 F) ip - r_rhoRef F) * r_g F i) ->
  residual t F nrm V es a i = 0.
Proof.
  intros t F nrm V es a i u M U HU HG HD HP. rewrite C92_residual_value by exact M. unfold over_points. rewrite lsum_zero; [unfold Rdiv; ring|].
  intros e He. apply sumn_zero. intros ip Hip. rewrite (strong_uniform t F e ip i u); try assumption; [|apply U; assumption]. rewrite HP by assumption. ring.
Qed.
(** ** C92: gas released from rest without pressure gradient: the residual is the buoyancy; normalised, the force per volume, exactly, on any
    mesh of linear elements *)
Theorem C92_buoyancy : forall t F V es a i rho, (forall e, In e es -> maps_ok (ve_me e) /\ forall ip, (ip < nscv (ve_me e))%nat -> nearest (ve_me e) ip = ip) -> scv_unity es ->
  (forall n j, r_u1 F n j = 0 /\ r_u0 F n j = 0 /\ r_um F n j = 0) -> (forall n k, r_G F n k = 0) -> r_divU F = 0 -> (forall n, r_rho1 F n = rho) ->
  (forall e ip, In e es -> (ip < nscv (ve_me e))%nat -> der e (r_p F) ip i = 0) -> (forall b, V b = scv_total es (fun _ _ => 1) b) -> V a <> 0 ->
  residual t F false V es a i = (rho - r_rhoRef F) * r_g F i * V a /\ residual t F true V es a i = (rho - r_rhoRef F) * r_g F i.
Proof.
  intros t F V es a i rho M U HU HG HD HR HP HV Va.
  assert (E : scv_total es (fun e ip => strong t F e ip i) a = - ((rho - r_rhoRef F) * r_g F i) * V a).
  { rewrite HV, <- scv_total_scal. apply scv_total_ext. intros e ip He Hip. rewrite (strong_uniform t F e ip i (fun _ => 0)); try assumption; [|apply U; assumption].
    rewrite HP by assumption. rewrite (val_const e (r_rho1 F) ip rho) by (try apply U; assumption). ring. }
  split; rewrite C92_residual_linear_elements by exact M; rewrite E; field; exact Va.
Qed.
Definition ex_fe : velem := mkVE tri_el (fun k => k) tri_dv (fun _ => 0).
Example C92_buoyancy_meets : (forall e, In e [ex_fe] -> maps_ok (ve_me e) /\ forall ip, (ip < nscv (ve_me e))%nat -> nearest (ve_me e) ip = ip) /\ scv_unity [ex_fe]
  /\ (forall e ip, In e [ex_fe] -> (ip < nscv (ve_me e))%nat -> der e (r_p (still 1)) ip 0 = 0) /\ scv_total [ex_fe] (fun _ _ => 1) 0 <> 0.
Proof.
  destruct tri_el_ok as (M & U & _ & [L0 _] & _). split; [|split; [|split]].
  - intros e [<- | []]. split; [exact M|]. reflexivity.
  - intros e [<- | []] ip Hip. split; [exact (U ip Hip)|]. intros j Hj. exact (L0 ip j Hip Hj).
  - intros e ip _ _. unfold der. apply sumn_zero. intros. cbn [r_p still]. ring.
  - unfold scv_total, lsum. cbn [map fold_right ex_fe ve_me tri_el nscv]. rewrite !sumn_S, sumn_0. cbn [ex_fe ve_me ve_node tri_el nearest vol Nat.eqb]. lra.
Qed.
