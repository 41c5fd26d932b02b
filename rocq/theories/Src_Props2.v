(** C88 continued: viscous heating, pressure work, compressibility and radiation sources; concrete cases. *)
Require Import Reals List Lia Lra.
From Coquelicot Require Import Coquelicot.
From Verif Require Import Edge_Model Edge_Proofs Elem_Model Elem_Spec Elem_Proofs Elem_Props Turb_Model Turb_Props Vof_Model2 Vof_Spec Vof_Props Vof_Props3 Rad_Model Src_Model Src_Props.
Open Scope R_scope.

(* ------------------------------------------------------------------ viscous heating *)
(** component (i,j) of the gradient stored in the flat array *)
Definition gr (d : nat) (G : nat -> R) (i j : nat) : R := G (i*d+j)%nat.
(** the heating is the contraction of the velocity gradient with the Newtonian stress *)
Theorem C88_viscous_work_is_stress_power : forall d incl mu G,
  viscous_work d incl mu G
  = sumn d (fun i => sumn d (fun j => gr d G i j * (mu*(gr d G i j + gr d G j i) - (if Nat.eqb i j then 2/3*mu*incl*sumn d (fun k => gr d G k k) else 0)))).
Proof.
  intros d incl mu G. unfold viscous_work, gr. cbv zeta. rewrite <- sumn_scal. apply sumn_ext. intros i _. rewrite <- sumn_scal. apply sumn_ext. intros j _.
  rewrite (Nat.mul_comm d i), (Nat.mul_comm d j). destruct (Nat.eqb i j); field.
Qed.
Theorem C88_viscous_work_heats : forall d incl mu G, (d <= 3)%nat -> 0 <= incl <= 1 -> 0 <= mu -> 0 <= viscous_work d incl mu G.
Proof.
  intros d incl mu G Hd Hi Hmu. unfold viscous_work. cbv zeta. apply Rmult_le_pos; [assumption|].
  destruct d as [|[|[|[|d]]]]; [right; reflexivity| | | |lia]; unfold sumn; cbn [seq fold_left Nat.eqb Nat.mul Nat.add].
  - pose proof (Rle_0_sqr (G 0%nat)). unfold Rsqr in *. set (a := G 0%nat) in *. replace (_ + _) with (a*a*(2 - 2/3*incl)) by field. apply Rmult_le_pos; lra.
  - set (a := G 0%nat); set (b := G 1%nat); set (c := G 2%nat); set (e := G 3%nat).
    replace (_ + _) with ((b+c)*(b+c) + 2/3*incl*((a-e)*(a-e)) + (2 - 4/3*incl)*(a*a + e*e)) by field.
    pose proof (Rle_0_sqr (b+c)). pose proof (Rle_0_sqr (a-e)). pose proof (Rle_0_sqr a). pose proof (Rle_0_sqr e). unfold Rsqr in *.
    apply Rplus_le_le_0_compat; [apply Rplus_le_le_0_compat; [assumption|apply Rmult_le_pos; lra]|apply Rmult_le_pos; lra].
  - set (a := G 0%nat); set (b := G 1%nat); set (c := G 2%nat); set (e := G 3%nat); set (f := G 4%nat); set (g := G 5%nat); set (h := G 6%nat); set (k := G 7%nat); set (l := G 8%nat).
    replace (_ + _) with ((b+e)*(b+e) + (c+h)*(c+h) + (g+k)*(g+k) + 2/3*incl*((a-f)*(a-f) + (a-l)*(a-l) + (f-l)*(f-l)) + (2 - 2*incl)*(a*a + f*f + l*l)) by field.
    pose proof (Rle_0_sqr (b+e)). pose proof (Rle_0_sqr (c+h)). pose proof (Rle_0_sqr (g+k)). pose proof (Rle_0_sqr (a-f)). pose proof (Rle_0_sqr (a-l)). pose proof (Rle_0_sqr (f-l)).
    pose proof (Rle_0_sqr a). pose proof (Rle_0_sqr f). pose proof (Rle_0_sqr l). unfold Rsqr in *.
    repeat apply Rplus_le_le_0_compat; try assumption; apply Rmult_le_pos; lra.
Qed.
Theorem C88_rigid_motion_makes_no_heat : forall d incl mu G, (forall i j, (i < d)%nat -> (j < d)%nat -> gr d G i j = - gr d G j i) -> viscous_work d incl mu G = 0.
Proof.
  intros d incl mu G HA. rewrite C88_viscous_work_is_stress_power. apply sumn_zero. intros i Hi. apply sumn_zero. intros j Hj.
  assert (Z : sumn d (fun k => gr d G k k) = 0) by (apply sumn_zero; intros k Hk; pose proof (HA k k Hk Hk); lra).
  rewrite Z, (HA i j Hi Hj). destruct (Nat.eqb i j); ring.
Qed.
(** with the full stress a three-dimensional uniform expansion makes no heat *)
Theorem C88_uniform_expansion_makes_no_heat : forall mu c G, (forall i j, (i < 3)%nat -> (j < 3)%nat -> gr 3 G i j = if Nat.eqb i j then c else 0) -> viscous_work 3 1 mu G = 0.
Proof.
  intros mu c G HA. rewrite C88_viscous_work_is_stress_power. unfold sumn. cbn [seq fold_left Nat.eqb]. rewrite !HA by lia. cbn [Nat.eqb]. field.
Qed.
Theorem C88_work_terms_explicit : forall d incl mu G u dp V s,
  viscous_work_node d incl mu G V s = (fst s, snd s + viscous_work d incl mu G * V) /\
  pressure_work_node d u dp V s = (fst s, snd s + dotn d u dp * V).
Proof. intros. split; unfold viscous_work_node, pressure_work_node, dotn; rewrite Rplus_0_r; reflexivity. Qed.

(* ------------------------------------------------------------------ low-speed compressibility *)
(** the pressure derivative is exact for a pressure that changes at a constant rate *)
Theorem C88_pressure_rate_exact_for_linear_history : forall dt p0 c tn V s, dt <> 0 ->
  snd (enthalpy_low_speed dt (p0 + c*tn) (p0 + c*(tn + dt)) V s) = snd s + c*V.
Proof. intros. unfold enthalpy_low_speed. cbn [snd]. field. assumption. Qed.
(** a second-order derivative (BDF2) would also be exact for a quadratic history; the one used is not *)
Theorem C88_pressure_rate_second_order_refuted :
  exists V s dt tn, dt <> 0 /\ snd (enthalpy_low_speed dt (tn*tn) ((tn+dt)*(tn+dt)) V s) <> snd s + 2*(tn + dt)*V.
Proof. exists 1, (0,0), 1, 0. split; [lra|]. unfold enthalpy_low_speed. cbn [snd]. lra. Qed.
(** ideal gas at fixed temperature, rho = c p: the matrix entry is the derivative of the backward-Euler residual of continuity *)
Theorem C88_compressible_matrix_backward_euler : forall t c p p' rn V s, ga1 t = 1 -> dt t <> 0 -> p <> 0 ->
  (fst (continuity_low_speed t (c*p) p V s) - fst s) * (p' - p)
  = snd (continuity_mass_be t V (c*p) rn s) - snd (continuity_mass_be t V (c*p') rn s).
Proof. intros t c p p' rn V s H1 Hd Hp. unfold continuity_low_speed, continuity_mass_be. cbv zeta. cbn [fst snd]. rewrite H1. field. split; assumption. Qed.
Theorem C88_compressible_matrix_bdf2 : forall t c p p' rn rm V s, ga1 t <> 0 -> dt t <> 0 -> p <> 0 ->
  ga1 t * ((fst (continuity_low_speed t (c*p) p V s) - fst s) * (p' - p))
  = snd (continuity_mass_bdf2 t V (c*p) rn rm s) - snd (continuity_mass_bdf2 t V (c*p') rn rm s).
Proof. intros t c p p' rn rm V s H1 Hd Hp. unfold continuity_low_speed, continuity_mass_bdf2. cbv zeta. cbn [fst snd]. field. repeat split; assumption. Qed.
Theorem C88_compressible_matrix_bdf2_exact_refuted :
  exists t c p p' rn rm V s, 0 < dt t /\ 0 < p /\ 0 < V /\ ga1 t = 3/2 /\
  (fst (continuity_low_speed t (c*p) p V s) - fst s) * (p' - p)
  <> snd (continuity_mass_bdf2 t V (c*p) rn rm s) - snd (continuity_mass_bdf2 t V (c*p') rn rm s).
Proof.
  exists (mkDt 1 (3/2) (-2) (1/2)), 1, 1, 2, 1, 1, 1, (0,0). cbn [dt ga1]. repeat split; try lra.
  rewrite <- C88_compressible_matrix_bdf2 by (cbn [dt ga1]; lra). unfold continuity_low_speed. cbn [dt ga1 fst snd].
  intros E. assert (X : 1*1/1*1/1/(1/(3/2)) = 3/2) by field. rewrite X in E. lra.
Qed.

(* ------------------------------------------------------------------ radiation *)
(** the radiation source is minus the emission less absorption; its matrix entry is the exact derivative in temperature *)
Theorem C88_radiation_source_temperature : forall sb mua T G V s,
  snd (pmr_temperature (div_qr sb mua T G) (div_qr_lin sb mua T) V s) = snd s - mua*(4*sb*T^4 - G)*V /\
  is_derive (fun T => - snd (pmr_temperature (div_qr sb mua T G) (div_qr_lin sb mua T) V s)) T
    (fst (pmr_temperature (div_qr sb mua T G) (div_qr_lin sb mua T) V s) - fst s).
Proof.
  intros. unfold pmr_temperature, div_qr, div_qr_lin. cbn [fst snd]. split; [ring|]. auto_derive; [trivial|]. ring.
Qed.
(** for enthalpy h = cp T + h0 the entry is the exact derivative in enthalpy *)
Theorem C88_radiation_source_enthalpy : forall sb mua cp h0 h G V s, cp <> 0 ->
  let T h := (h - h0)/cp in
  is_derive (fun h => - snd (pmr_enthalpy (div_qr sb mua (T h) G) (div_qr_lin sb mua (T h)) cp V s)) h
    (fst (pmr_enthalpy (div_qr sb mua (T h) G) (div_qr_lin sb mua (T h)) cp V s) - fst s).
Proof.
  intros sb mua cp h0 h G V s Hc T. unfold pmr_enthalpy, div_qr, div_qr_lin, T. cbn [fst snd]. auto_derive; [trivial|]. field. assumption.
Qed.
Theorem C88_radiation_equilibrium : forall sb mua cp T V s,
  snd (pmr_temperature (div_qr sb mua T (4*sb*T^4)) (div_qr_lin sb mua T) V s) = snd s /\
  snd (pmr_enthalpy (div_qr sb mua T (4*sb*T^4)) (div_qr_lin sb mua T) cp V s) = snd s.
Proof. intros. unfold pmr_temperature, pmr_enthalpy, div_qr. cbn [snd]. split; ring. Qed.
Theorem C88_radiation_matrix_stabilises : forall sb mua cp T V s, 0 <= sb -> 0 <= mua -> 0 < cp -> 0 <= T -> 0 <= V -> forall G,
  fst s <= fst (pmr_temperature (div_qr sb mua T G) (div_qr_lin sb mua T) V s) /\
  fst s <= fst (pmr_enthalpy (div_qr sb mua T G) (div_qr_lin sb mua T) cp V s).
Proof.
  intros sb mua cp T V s H1 H2 H3 H4 H5 G. unfold pmr_temperature, pmr_enthalpy, div_qr_lin. cbn [fst].
  assert (P : 0 <= 16*sb*mua*T*T*T) by (repeat apply Rmult_le_pos; try assumption; lra).
  assert (0 <= 16*sb*mua*T*T*T*V) by (apply Rmult_le_pos; assumption).
  assert (0 <= 16*sb*mua*T*T*T/cp*V) by (unfold Rdiv; repeat (apply Rmult_le_pos; try assumption); left; apply Rinv_0_lt_compat; assumption). lra.
Qed.

(* ------------------------------------------------------------------ actuator, nodal form *)
Lemma actuator_node_eff d src srcLHS V s :
  eff s (actuator_node d src srcLHS V s) (fun row col => sumn d (fun j => dl row j * dl col j * (srcLHS 0%nat*V))) (fun row => sumn d (fun j => dl row j * (src j*V))).
Proof.
  unfold actuator_node. apply (eff_loop d _ (fun j row col => dl row j * dl col j * (srcLHS 0%nat*V)) (fun j row => dl row j * (src j*V))). intros j s2 _.
  eapply eff_ext; [eapply eff_trans; [apply eff_addB|apply eff_addL]|intros; cbv beta; ring|intros; cbv beta; ring].
Qed.
Theorem C88_actuator_node : forall d src srcLHS V s i, (i < d)%nat ->
  gain (actuator_node d src srcLHS V) s i = src i * V /\ gainL (actuator_node d src srcLHS V) s i i = srcLHS 0%nat * V.
Proof.
  intros d src srcLHS V s i Hi. destruct (actuator_node_eff d src srcLHS V s) as [EL EB]. unfold gain, gainL. rewrite EL, EB. split.
  - rewrite (sumn_ext d _ (fun j => dl j i * (src j*V))) by (intros; rewrite dl_sym; reflexivity). rewrite (sumn_dl d i (fun j => src j*V)) by assumption. ring.
  - rewrite (sumn_ext d _ (fun j => dl j i * (dl i j * (srcLHS 0%nat*V)))) by (intros; rewrite (dl_sym i j) at 1; ring).
    rewrite (sumn_dl d i (fun j => dl i j * (srcLHS 0%nat*V))) by assumption. unfold dl. rewrite Nat.eqb_refl. ring.
Qed.
(** each row's own coefficient is not used: unlike the element kernel the nodal algorithm reuses the first one *)
Theorem C88_actuator_node_own_coefficient_refuted : exists d src srcLHS V s i, (i < d)%nat /\ gainL (actuator_node d src srcLHS V) s i i <> srcLHS i * V.
Proof.
  exists 2%nat, (fun _ => 0), (fun i => if Nat.eqb i 0 then 0 else 1), 1, (mkE (fun _ _ => 0) (fun _ => 0)), 1%nat. split; [lia|].
  rewrite (proj2 (C88_actuator_node 2 (fun _ => 0) (fun i => if Nat.eqb i 0 then 0 else 1) 1 (mkE (fun _ _ => 0) (fun _ => 0)) 1 ltac:(lia))). cbn. lra.
Qed.

(* ------------------------------------------------------------------ the hypotheses are met *)
Theorem C88_case_buoyancy : forall s,
  maps_ok tri_el /\ unity 3 3 (Nv tri_el) /\
  sumn 3 (fun a => gain (buoyancy_elem tri_el 1 (fun j => if Nat.eqb j 1 then -10 else 0) (fun _ => 3)) s (a*2+1)) = -10 /\
  sumn 3 (gain (volumetric_elem tri_el 4) s) = 2.
Proof.
  intros s. destruct tri_el_ok as (HM & HU & _). split; [exact HM|]. split; [exact HU|]. split.
  - pose proof (C88_buoyancy_total_weight tri_el 1 (fun j => if Nat.eqb j 1 then -10 else 0) (fun _ => 3) s 1 HM ltac:(cbn; lia)) as E.
    change (sumn 3 (fun a => gain (buoyancy_elem tri_el 1 (fun j => if Nat.eqb j 1 then -10 else 0) (fun _ => 3)) s (a*2+1)) = (el_int tri_el (fun ip => at_scv tri_el (fun _ => 3) ip) - 1 * el_int tri_el (fun _ => 1)) * (-10)) in E. rewrite E. unfold el_int, at_scv. cbn [nscv npe vol Nv tri_el Nat.eqb]. unfold sumn. cbn [seq fold_left Nat.eqb]. field.
  - pose proof (C88_volumetric_source_total tri_el 4 s HM) as E. cbn [npe tri_el] in E. rewrite E. unfold el_int. cbn [nscv vol tri_el]. unfold sumn. cbn [seq fold_left]. field.
Qed.
Theorem C88_case_shear_heats : viscous_work 2 1 3 (fun k => if Nat.eqb k 1 then 2 else 0) = 12 /\
  (forall i j, (i < 2)%nat -> (j < 2)%nat -> gr 2 (fun k => match k with 1%nat => 5 | 2%nat => -5 | _ => 0 end) i j = - gr 2 (fun k => match k with 1%nat => 5 | 2%nat => -5 | _ => 0 end) j i).
Proof.
  split.
  - unfold viscous_work, sumn. cbn [seq fold_left Nat.eqb Nat.mul Nat.add]. field.
  - intros i j Hi Hj. unfold gr. destruct i as [|[|i]]; [| |lia]; destruct j as [|[|j]]; try lia; cbn; lra.
Qed.
