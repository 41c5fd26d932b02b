(** C86: evaporation, streamline-upwind / nonlinear stabilisation, continuity with surface tension. *)
Require Import Reals List Bool Lra Lia Arith.
From Verif Require Import RUtil Edge_Model Edge_Proofs Elem_Model Elem_Spec Elem_Proofs Elem_Proofs2 Elem_Props2 Elem_Props3 Time_Model Rad_Quad_Proofs3.
From Verif Require Import Turb_Model Vof_Model Vof_Model2 Vof_Spec Vof_Props Vof_Props2.
Import ListNotations.
Open Scope R_scope.

(* ------------------------------------------------------------------ example: the unit right triangle *)
Definition tri_dn (ic j : nat) : R := match ic, j with 0%nat, _ => -1 | 1%nat, 0%nat => 1 | 1%nat, _ => 0 | _, 0%nat => 0 | _, _ => 1 end.
Definition tri_el : me := mkMe 3 3 3 2 (fun ip => match ip with 0%nat => 0 | 1%nat => 1 | _ => 0 end%nat) (fun ip => match ip with 0%nat => 1 | _ => 2 end%nat)
  (fun _ _ => 1/3) (fun _ _ => 1/3) (fun _ ic j => tri_dn ic j) (fun _ ic j => tri_dn ic j)
  (fun ip j => match ip, j with 0%nat, 0%nat => 1/3 | 0%nat, _ => 1/6 | 1%nat, 0%nat => -1/6 | 1%nat, _ => 1/6 | _, 0%nat => 1/6 | _, _ => 1/3 end)
  (fun ip => ip) (fun ip ic => if Nat.eqb ip ic then 7/12 else 5/24) (fun _ => 1/6).
Definition tri_xy (ic j : nat) : R := match ic, j with 1%nat, 0%nat => 1 | 2%nat, 1%nat => 1 | _, _ => 0 end.
Definition tri_dv : nat -> nat -> nat -> R := fun _ ic j => tri_dn ic j.
Lemma tri_el_ok : maps_ok tri_el /\ unity 3 3 (Nv tri_el) /\ unity 3 3 (Ns tri_el) /\ dv_linear tri_el tri_dv tri_xy /\ grad_linear_exact tri_el tri_xy.
Proof.
  split; [|split; [|split; [|split]]].
  - split; cbn [nscs nscv npe tri_el lrL lrR nearest]; intros ip Hip; [destruct ip as [|[|[|]]]; lia|lia].
  - intros ip Hip. cbn [Nv tri_el]. destruct ip as [|[|[|]]]; [| | |lia]; unfold sumn; cbn; lra.
  - intros ip Hip. unfold sumn. cbn. lra.
  - split; cbn [nscv ndim npe tri_el].
    + intros ip j _ Hj. cbn [ndim tri_el npe] in *. destruct j as [|[|]]; [| |lia]; unfold sumn, tri_dv; cbn; lra.
    + intros ip j k _ Hj Hk. destruct j as [|[|]]; [| |lia]; (destruct k as [|[|]]; [| |lia]); unfold sumn, tri_dv, tri_xy; cbn; lra.
  - split; cbn [nscs ndim npe tri_el].
    + intros ip j _ Hj. cbn [ndim tri_el npe] in *. destruct j as [|[|]]; [| |lia]; unfold sumn; cbn; lra.
    + intros ip j k _ Hj Hk. destruct j as [|[|]]; [| |lia]; (destruct k as [|[|]]; [| |lia]); unfold sumn, tri_xy; cbn; lra.
Qed.

(* ------------------------------------------------------------------ evaporation *)
Lemma evap_acc_value m dv q ip :
  fst (evap_acc m dv q ip) = at_scv m q ip /\
  forall j, snd (evap_acc m dv q ip) j = sumn (npe m) (fun ic => sumn (S ic) (fun k => Nv m ip k * q k) * dv ip ic j).
Proof.
  unfold evap_acc, at_scv. generalize (npe m). induction n as [|n [IH1 IH2]]; [split; reflexivity|].
  rewrite loop_S. destruct (loop n _ _) as [a g]. cbn [fst snd] in *. split.
  - rewrite IH1, sumn_S. reflexivity.
  - intros j. rewrite (sumn_S n (fun ic => _ * dv ip ic j)), IH2, IH1. rewrite (sumn_S n (fun k => Nv m ip k * q k)). reflexivity.
Qed.
(** evaporation rate per unit volume at a point, as documented (c alpha^n (1-alpha)^m |g| jm), with g the vector the kernel accumulates *)
Definition evap_vec (m : me) (dv : nat -> nat -> nat -> R) (q : nat -> R) (ip j : nat) : R :=
  sumn (npe m) (fun ic => sumn (S ic) (fun k => Nv m ip k * q k) * dv ip ic j).
Lemma evap_sM_value m dv e q ip : evap_sM m dv e q ip =
  ev_c e * vpow (at_scv m q ip) (ev_n e) * vpow (1 - at_scv m q ip) (ev_m e) * sqrt (dotn (ndim m) (evap_vec m dv q ip) (evap_vec m dv q ip)) * ev_jm e.
Proof.
  unfold evap_sM. destruct (evap_acc_value m dv q ip) as [H1 H2]. destruct (evap_acc m dv q ip) as [a g]. cbn [fst snd] in H1, H2. rewrite H1.
  f_equal. f_equal. f_equal. unfold dotn. apply sumn_ext. intros. rewrite !H2. reflexivity.
Qed.
Lemma vof_evap_cvk m dv e q : cvk m (vof_evap m dv e q) (fun _ _ => 0) (fun ip => - (vol m ip * (ev_c e * evap_sM m dv e q ip / ev_rhoL e))).
Proof. unfold vof_evap. apply cvk_loop. intros ip s Hip. eapply eff_ext; [apply eff_addB| |]; intros; cbv beta; ring. Qed.
Lemma cont_evap_cvk m dv e q : cvk m (cont_evap m dv e q) (fun _ _ => 0) (fun ip => - (vol m ip * (ev_c e * evap_sM m dv e q ip * (1/ev_rhoG e - 1/ev_rhoL e)))).
Proof. unfold cont_evap. apply cvk_loop. intros ip s Hip. eapply eff_ext; [apply eff_addB| |]; intros; cbv beta; ring. Qed.
Lemma vpow_nonneg x y : 0 <= vpow x y.
Proof. unfold vpow, cpow. destruct (Req_EM_T y 0); [lra|]. destruct (Req_EM_T x 0); [lra|]. unfold Rpower. left. apply exp_pos. Qed.
(** liquid only disappears: the volume-of-fluid source is never positive *)
Theorem C86_evaporation_never_condenses : forall m dv e q s i, 0 <= ev_jm e -> 0 < ev_rhoL e -> (forall ip, (ip < nscv m)%nat -> 0 <= vol m ip) ->
  gain (vof_evap m dv e q) s i <= 0 /\ forall j, gainL (vof_evap m dv e q) s i j = 0.
Proof.
  intros m dv e q s i HJ HR HV. split.
  - rewrite (cvk_gain _ _ _ _ s i _ (vof_evap_cvk m dv e q) (fun ip _ => eq_refl)).
    assert (H : 0 <= cv_int m (fun ip => ev_c e * evap_sM m dv e q ip / ev_rhoL e) i); [|lra].
    unfold cv_int. apply sumn_nonneg. intros ip Hip.
    destruct (Nat.eqb _ _); [|lra]. apply Rmult_le_pos; [apply HV; assumption|]. rewrite evap_sM_value. unfold Rdiv. apply Rmult_le_pos; [|left; apply Rinv_0_lt_compat; assumption].
    set (A := vpow _ _). set (B := vpow _ (ev_m e)). set (G := sqrt _).
    assert (0 <= A) by apply vpow_nonneg. assert (0 <= B) by apply vpow_nonneg. assert (0 <= G) by apply sqrt_pos.
    replace (ev_c e * (ev_c e * A * B * G * ev_jm e)) with ((ev_c e * ev_c e) * (A * B * G * ev_jm e)) by ring.
    apply Rmult_le_pos; [apply Rle_0_sqr|]. repeat apply Rmult_le_pos; assumption.
  - intros j. unfold gainL. rewrite (proj1 (vof_evap_cvk m dv e q s)). rewrite sumn_zero by (intros; ring). ring.
Qed.
(** with positive exponents a pure phase does not evaporate *)
Theorem C86_evaporation_none_in_pure_phase : forall m dv e q c s i, 0 < ev_n e -> 0 < ev_m e -> unity (npe m) (nscv m) (Nv m) ->
  c = 0 \/ c = 1 -> (forall a, (a < npe m)%nat -> q a = c) -> gain (vof_evap m dv e q) s i = 0 /\ gain (cont_evap m dv e q) s i = 0.
Proof.
  intros m dv e q c s i Hn Hm U Hc E.
  assert (Z : forall ip, (ip < nscv m)%nat -> evap_sM m dv e q ip = 0).
  { intros ip Hip. rewrite evap_sM_value, (at_scv_const m ip q c U Hip E). unfold vpow, cpow.
    destruct (Req_EM_T (ev_n e) 0); [lra|]. destruct (Req_EM_T (ev_m e) 0); [lra|].
    destruct Hc as [-> | ->].
    - destruct (Req_EM_T 0 0); [ring|lra].
    - destruct (Req_EM_T (1-1) 0); [ring|lra]. }
  split.
  - rewrite (cvk_gain _ _ _ _ s i (fun _ => 0*1) (vof_evap_cvk m dv e q)); [rewrite cv_int_scal; ring|]. intros ip Hip. rewrite Z by assumption. unfold Rdiv. ring.
  - rewrite (cvk_gain _ _ _ _ s i (fun _ => 0*1) (cont_evap_cvk m dv e q)); [rewrite cv_int_scal; ring|]. intros ip Hip. rewrite Z by assumption. ring.
Qed.
(** the two equations use the same mass rate: the continuity term is the volume-of-fluid term times the expansion rho_l (1/rho_g - 1/rho_l) *)
Theorem C86_evaporation_same_mass_rate : forall m dv e q s s' i, ev_rhoL e <> 0 ->
  gain (cont_evap m dv e q) s i = ev_rhoL e * (1/ev_rhoG e - 1/ev_rhoL e) * gain (vof_evap m dv e q) s' i.
Proof.
  intros. rewrite (cvk_gain _ _ _ _ s i _ (cont_evap_cvk m dv e q) (fun ip _ => eq_refl)), (cvk_gain _ _ _ _ s' i _ (vof_evap_cvk m dv e q) (fun ip _ => eq_refl)).
  rewrite <- Ropp_mult_distr_r. f_equal. rewrite <- cv_int_scal. apply cv_int_ext. intros. set (k := 1/ev_rhoG e - 1/ev_rhoL e). field. assumption.
Qed.
(** the user's constant c enters twice *)
Theorem C86_evaporation_linear_in_c_refuted : forall m dv q rhoL rhoG jm mm n c s i,
  gain (vof_evap m dv (mkEv rhoL rhoG jm mm n (2*c)) q) s i = 4 * gain (vof_evap m dv (mkEv rhoL rhoG jm mm n c) q) s i.
Proof.
  intros. rewrite (cvk_gain _ _ _ _ s i _ (vof_evap_cvk m dv (mkEv rhoL rhoG jm mm n (2*c)) q) (fun ip _ => eq_refl)), (cvk_gain _ _ _ _ s i _ (vof_evap_cvk m dv (mkEv rhoL rhoG jm mm n c) q) (fun ip _ => eq_refl)).
  rewrite <- Ropp_mult_distr_r. f_equal. rewrite <- cv_int_scal. apply cv_int_ext. intros. rewrite !evap_sM_value. cbn [ev_c ev_n ev_m ev_jm ev_rhoL]. unfold Rdiv. ring.
Qed.
(** the gradient is formed from the partially interpolated value, so a fluid with uniform volume fraction - no
    interface at all - evaporates: unit triangle, the code's default constants *)
Theorem C86_evaporation_without_interface_refuted : forall c rhoL rhoG s, c <> 0 -> 0 < rhoL ->
  (forall ip j, grad_at 3 tri_dv (fun _ => c) ip j = 0 \/ (2 <= j)%nat) /\
  gain (vof_evap tri_el tri_dv (mkEv rhoL rhoG (3/1000) 0 0 1) (fun _ => c)) s 0 < 0.
Proof.
  intros c rhoL rhoG s Hc HR. split.
  - intros ip j. destruct j as [|[|j]]; [left|left|right; lia]; unfold grad_at, sumn, tri_dv; cbn; ring.
  - rewrite (cvk_gain _ _ _ _ s 0%nat _ (vof_evap_cvk tri_el tri_dv _ (fun _ => c)) (fun ip _ => eq_refl)).
    unfold cv_int. cbn [nscv tri_el nearest vol]. unfold sumn. cbn [seq fold_left Nat.eqb]. rewrite evap_sM_value. cbn [ev_c ev_n ev_m ev_jm ev_rhoL ndim tri_el].
    unfold vpow. destruct (Req_EM_T 0 0); [|lra].
    assert (E0 : evap_vec tri_el tri_dv (fun _ => c) 0 0 = c * (5/24)) by (unfold evap_vec, sumn; cbn; field).
    assert (E1 : evap_vec tri_el tri_dv (fun _ => c) 0 1 = c * (5/12)) by (unfold evap_vec, sumn; cbn; field).
    assert (P : 0 < sqrt (dotn 2 (evap_vec tri_el tri_dv (fun _ => c) 0) (evap_vec tri_el tri_dv (fun _ => c) 0))).
    { apply sqrt_lt_R0. unfold dotn. rewrite !sumn_S. change (sumn 0 _) with 0. rewrite E0, E1. assert (0 < c*c) by (destruct (Rlt_dec 0 c); nra). nra. }
    set (r := sqrt _) in *. assert (Q : 0 < 1 * (1 * 1 * 1 * r * (3 / 1000)) / rhoL) by (apply Rdiv_lt_0_compat; lra). lra.
Qed.

(* ------------------------------------------------------------------ streamline upwind and nonlinear stabilisation *)
Lemma pair_cols n s l r (c : nat -> R) :
  eff s (loop n (fun ic s => addL r ic (- c ic) (addL l ic (c ic) s)) s) (fun i j => (dl i l - dl i r) * sumn n (fun ic => dl j ic * c ic)) (fun _ => 0).
Proof.
  eapply eff_ext.
  - apply (eff_loop n _ (fun ic i j => (dl i l - dl i r) * (dl j ic * c ic)) (fun _ _ => 0)). intros. eapply eff_ext; [eapply eff_trans; apply eff_addL| |]; intros; cbv beta; ring.
  - intros. rewrite <- sumn_scal. apply sumn_ext. intros; ring.
  - intros. apply sumn_zero. reflexivity.
Qed.
Definition sucv_row (m : me) (o : sucv) (t : dts) (nu : nat -> R) (ip j : nat) : R :=
  sumn (npe m) (fun ic => dl j ic * (su_tau m o t ip*su_ujaj m o ip*(- su_udN m o ip ic)*su_fac o))
  + sumn (npe m) (fun ic => dl j ic * (nu ip*(- su_gdN m o ip ic)*su_nso o)).
(** flux through a face: upwind part proportional to the residual of the equation, and a diffusive part along the metric *)
Definition sucv_flux (m : me) (o : sucv) (t : dts) (a0 am q : nat -> R) (ip : nat) : R :=
  - su_tau m o t ip*su_ujaj m o ip*su_residual m o t q a0 am ip*su_fac o
  - su_nu m o t q a0 am ip*sumn (npe m) (fun ic => su_gdN m o ip ic*q ic)*su_nso o.
Lemma vof_sucv_pairk m o t a0 am q : pairk m (vof_sucv m o t a0 am q) (sucv_row m o t (su_nu m o t q a0 am)) (sucv_flux m o t a0 am q).
Proof.
  unfold vof_sucv. cbv zeta. apply pairk_loop. intros ip s Hip. set (il := lrL m ip). set (ir := lrR m ip). set (nu := su_nu m o t q a0 am ip).
  match goal with |- context [loop (npe m) ?b (addB ir ?x ?s1, 0)] => set (body := b); set (s2 := addB ir x s1) end.
  destruct (loop_acc (npe m) body (fun ic a => a + su_gdN m o ip ic * q ic)
    (fun ic i j => (dl i il - dl i ir) * (dl j ic * (nu*(- su_gdN m o ip ic)*su_nso o))) (fun _ _ => 0) s2 0) as [H1 H2].
  - reflexivity.
  - intros ic s1 a _. cbn [body fst]. eapply eff_ext; [eapply eff_trans; apply eff_addL| |]; intros; cbv beta; ring.
  - destruct (loop (npe m) body (s2, 0)) as [s3 a1]. cbn [fst snd] in H1, H2. rewrite loop_sum in H1.
    eapply eff_ext.
    + eapply eff_trans; [|eapply eff_trans; apply eff_addB]. eapply eff_trans; [|exact H2]. unfold s2. eapply eff_trans; [|eapply eff_trans; apply eff_addB].
      apply (pair_cols (npe m) s il ir (fun ic => su_tau m o t ip * su_ujaj m o ip * - su_udN m o ip ic * su_fac o)).
    + intros i j. cbv beta. rewrite sumn_scal. unfold sucv_row. fold nu. ring.
    + intros i. cbv beta. rewrite (sumn_zero (npe m)) by reflexivity. rewrite H1. unfold sucv_flux. fold nu. ring.
Qed.
Theorem C86_stabilisation_conservative : forall m o t a0 am q, maps_ok m -> conservative (npe m) (vof_sucv m o t a0 am q).
Proof. intros. eapply pairk_conservative; [assumption|apply vof_sucv_pairk]. Qed.
(** residual-based: wherever the equation is satisfied at a face point the stabilisation flux there is zero *)
Theorem C86_stabilisation_vanishes_with_residual : forall m o t a0 am q s i,
  (forall ip, (ip < nscs m)%nat -> su_residual m o t q a0 am ip = 0) -> 0 <= su_Cupw o ->
  gain (vof_sucv m o t a0 am q) s i = 0.
Proof.
  intros m o t a0 am q s i H HC. rewrite (pairk_gain _ _ _ _ _ _ (vof_sucv_pairk m o t a0 am q)).
  rewrite (net_out_ext m _ (fun ip => 0 * 1)); [rewrite net_out_scal; ring|]. intros ip Hip. unfold sucv_flux.
  assert (N : su_nu m o t q a0 am ip = 0).
  { unfold su_nu. cbv zeta. rewrite H by assumption. replace (0*0 / _) with 0 by (unfold Rdiv; ring). rewrite sqrt_0.
    apply Rmin_right. apply Rmult_le_pos; [exact HC|apply sqrt_pos]. }
  rewrite N, H by assumption. ring.
Qed.
(** in particular a steady uniform volume fraction is untouched by any flow *)
Theorem C86_stabilisation_uniform : forall m o ti q c s i, 0 < dtN ti -> 0 < dtNm1 ti -> 0 <= su_Cupw o ->
  grad_unity m -> (forall a, (a < npe m)%nat -> q a = c) ->
  gain (vof_sucv m o (dts_of (compute_gamma ti)) q q q) s i = 0.
Proof.
  intros m o ti q c s i T1 T2 HC HG E. apply C86_stabilisation_vanishes_with_residual; [|assumption]. intros ip Hip. unfold su_residual.
  pose proof (gamma_sum ti T1 T2) as G. cbn [dts_of ga1 ga2 ga3 dt]. rewrite <- !Rmult_plus_distr_r, G.
  rewrite (sumn_ext (npe m) _ (fun ic => sumn (ndim m) (fun i0 => c * (su_u m o ip i0 * dndx m ip ic i0)))).
  - rewrite sumn_swap. rewrite sumn_zero; [unfold Rdiv; ring|]. intros j Hj. rewrite sumn_scal, sumn_scal, HG by assumption. ring.
  - intros ic Hic. apply sumn_ext. intros. rewrite E by assumption. ring.
Qed.
(** the nonlinear viscosity is never negative and never more than the first-order one *)
Theorem C86_stabilisation_viscosity_bounded : forall m o t a0 am q ip, 0 <= su_Cupw o ->
  0 <= su_nu m o t q a0 am ip <= su_Cupw o * sqrt (su_ugu m o ip).
Proof.
  intros. unfold su_nu. cbv zeta. split; [|apply Rmin_l]. apply Rmin_glb; [apply Rmult_le_pos; [assumption|apply sqrt_pos]|apply sqrt_pos].
Qed.
(** the stabilisation flux through each face: an upwind part proportional to the residual of the equation, and a
    diffusive part along the metric tensor *)
Theorem C86_stabilisation_flux : forall m o t a0 am q s i,
  gain (vof_sucv m o t a0 am q) s i
  = - net_out m (fun ip => - su_tau m o t ip*su_ujaj m o ip*su_residual m o t q a0 am ip*su_fac o
        - su_nu m o t q a0 am ip*dotn (ndim m) (fun i => sumn (ndim m) (fun j => su_gU o ip i j / su_gijC o * grad_at (npe m) (dndx m) q ip j)) (area m ip)*su_nso o) i.
Proof.
  intros. rewrite (pairk_gain _ _ _ _ _ _ (vof_sucv_pairk m o t a0 am q)). f_equal. apply net_out_ext. intros ip Hip. unfold sucv_flux. f_equal. f_equal. f_equal.
  unfold su_gdN, dotn, grad_at.
  rewrite (sumn_ext (npe m) _ (fun ic => sumn (ndim m) (fun i0 => sumn (ndim m) (fun j => su_gU o ip i0 j / su_gijC o * (dndx m ip ic j * q ic) * area m ip i0)))).
  - rewrite sumn_swap. apply sumn_ext. intros i0 _. rewrite sumn_swap, <- sumn_scal_r. apply sumn_ext. intros j _. rewrite sumn_scal_r, sumn_scal. reflexivity.
  - intros ic _. rewrite <- sumn_scal_r. apply sumn_ext. intros i0 _. rewrite <- sumn_scal_r. apply sumn_ext. intros; ring.
Qed.

(* ------------------------------------------------------------------ continuity *)
Lemma cont_vof_pairk m c p : pairk m (cont_vof_adv m c p)
  (fun ip j => sumn (npe m) (fun ic => dl j ic * (sumn (ndim m) (fun k => - dndx_lhs m ip ic k * area m ip k) / at_scs m (cv_rho c) ip)))
  (fun ip => cvof_vdot m c p ip / cv_tau c).
Proof.
  unfold cont_vof_adv. cbv zeta. apply pairk_loop. intros ip s Hip. eapply eff_ext.
  - eapply eff_trans; [|eapply eff_trans; apply eff_addB]. apply (pair_cols (npe m) s (lrL m ip) (lrR m ip) (fun ic => sumn (ndim m) (fun k => - dndx_lhs m ip ic k * area m ip k) / at_scs m (cv_rho c) ip)).
  - intros. cbv beta. ring.
  - intros. cbv beta. ring.
Qed.
(** volume flow rate with the pressure, gravity and surface-tension forces balanced at the face *)
Definition vof_flow (m : me) (c : cvof) (p : nat -> R) (ip : nat) : R :=
  let d := ndim m in let rho := at_scs m (cv_rho c) ip in
  let sk := at_scs m (fun ic => cv_sigma c ic * cv_kappa c ic) ip * loc_fac c (at_scs m (cv_vof c) ip) in
  let F := fun j => grad_at (npe m) (dndx m) p ip j - cv_bw c * rho * cv_g c j - sk * grad_at (npe m) (dndx m) (cv_vof c) ip j in
  dotn d (vec_at (npe m) d (Ns m) (cv_v c) ip) (area m ip)
  - cv_tau c * dotn d (fun j => F j / rho - vec_at (npe m) d (Ns m) (cv_Gp c) ip j) (area m ip).
Lemma cvof_vdot_flow m c p ip : cvof_vdot m c p ip = vof_flow m c p ip.
Proof.
  unfold cvof_vdot, vof_flow. cbv zeta. set (rho := at_scs m (cv_rho c) ip). set (L := loc_fac c _).
  assert (E1 : sumn (npe m) (fun ic => Ns m ip ic * cv_sigma c ic * cv_kappa c ic) = at_scs m (fun ic => cv_sigma c ic * cv_kappa c ic) ip) by (unfold at_scs; apply sumn_ext; intros; ring).
  rewrite E1. set (K := at_scs m (fun ic => cv_sigma c ic * cv_kappa c ic) ip).
  assert (E2 : sumn (npe m) (fun ic => sumn (ndim m) (fun j => dndx m ip ic j * cv_vof c ic * area m ip j)) = sumn (ndim m) (fun j => grad_at (npe m) (dndx m) (cv_vof c) ip j * area m ip j)).
  { rewrite sumn_swap. apply sumn_ext. intros. unfold grad_at. rewrite sumn_scal_r. reflexivity. }
  rewrite E2. unfold dotn, Rdiv. rewrite <- sumn_scal, <- sumn_scal, <- sumn_scal_r, <- sumn_plus, <- sumn_minus. apply sumn_ext. intros j Hj.
  fold (grad_at (npe m) (dndx m) p ip j). fold (vec_at (npe m) (ndim m) (Ns m) (cv_v c) ip j). fold (vec_at (npe m) (ndim m) (Ns m) (cv_Gp c) ip j). ring.
Qed.
Theorem C86_continuity_residual : forall m c p s i, gain (cont_vof_adv m c p) s i = - net_out m (fun ip => vof_flow m c p ip / cv_tau c) i.
Proof. intros. rewrite (pairk_gain _ _ _ _ _ _ (cont_vof_pairk m c p)). f_equal. apply net_out_ext. intros. rewrite cvof_vdot_flow. reflexivity. Qed.
Theorem C86_continuity_conservative : forall m c p, maps_ok m -> conservative (npe m) (cont_vof_adv m c p).
Proof. intros. eapply pairk_conservative; [assumption|apply cont_vof_pairk]. Qed.
Theorem C86_continuity_newton : forall m c, cv_tau c <> 0 -> (forall ip ic j, dndx_lhs m ip ic j = dndx m ip ic j) ->
  (forall ip, (ip < nscs m)%nat -> at_scs m (cv_rho c) ip <> 0) -> exact_newton (npe m) (cont_vof_adv m c).
Proof.
  intros m c HT HL HR. eapply pairk_newton; [intros; apply cont_vof_pairk|]. intros q d ip Hip. cbv beta. rewrite cols_pick, !cvof_vdot_flow.
  unfold vof_flow. cbv zeta. set (rho := at_scs m (cv_rho c) ip). assert (R0 : rho <> 0) by (apply HR; assumption).
  rewrite (sumn_ext (npe m) _ (fun ic => (- (1/rho)) * (sumn (ndim m) (fun k => dndx m ip ic k * area m ip k) * d ic))).
  2:{ intros ic _. rewrite (sumn_ext (ndim m) _ (fun k => - (dndx m ip ic k * area m ip k))) by (intros; rewrite HL; ring). rewrite sumn_opp. field. assumption. }
  rewrite sumn_scal.
  assert (E : sumn (npe m) (fun ic => sumn (ndim m) (fun k => dndx m ip ic k * area m ip k) * d ic) = sumn (ndim m) (fun k => grad_at (npe m) (dndx m) d ip k * area m ip k)).
  { rewrite (sumn_ext (npe m) _ (fun ic => sumn (ndim m) (fun k => dndx m ip ic k * d ic * area m ip k))) by (intros; rewrite <- sumn_scal_r; apply sumn_ext; intros; ring).
    rewrite sumn_swap. apply sumn_ext. intros. unfold grad_at. rewrite sumn_scal_r. reflexivity. }
  rewrite E. unfold dotn.
  set (X := sumn (ndim m) (fun j => vec_at _ _ _ (cv_v c) ip j * area m ip j)).
  match goal with |- (X - cv_tau c * ?Y) / cv_tau c = (X - cv_tau c * ?Z) / cv_tau c + - (1/rho) * ?W =>
    assert (YZ : Y = Z + 1/rho * W) end.
  { rewrite <- sumn_scal, <- sumn_plus. apply sumn_ext. intros j _. rewrite grad_at_plus. field. assumption. }
  rewrite YZ. field. split; assumption.
Qed.
(** no spurious currents: fluid at rest stays at rest when pressure gradient, weight and surface tension balance at
    the faces (and the stored nodal value of that balance is zero) *)
Theorem C86_balanced_forces_no_flow : forall m c p s i,
  (forall a, cv_v c a = 0) -> (forall a, cv_Gp c a = 0) ->
  (forall ip j, (ip < nscs m)%nat -> (j < ndim m)%nat -> grad_at (npe m) (dndx m) p ip j
     = cv_bw c * at_scs m (cv_rho c) ip * cv_g c j
       + at_scs m (fun ic => cv_sigma c ic * cv_kappa c ic) ip * loc_fac c (at_scs m (cv_vof c) ip) * grad_at (npe m) (dndx m) (cv_vof c) ip j) ->
  gain (cont_vof_adv m c p) s i = 0.
Proof.
  intros m c p s i HV HG HB. rewrite C86_continuity_residual. rewrite (net_out_ext m _ (fun ip => 0 * 1)); [rewrite net_out_scal; ring|].
  intros ip Hip. unfold vof_flow, dotn, vec_at. cbv zeta. rewrite sumn_zero.
  2:{ intros j _. rewrite sumn_zero; [ring|]. intros. rewrite HV. ring. }
  rewrite sumn_zero; [unfold Rdiv; ring|]. intros j Hj. rewrite HB by assumption.
  rewrite (sumn_zero (npe m)) by (intros; rewrite HG; ring). unfold Rdiv. ring.
Qed.
Lemma grad_scs_const m q k ip j : grad_unity m -> (ip < nscs m)%nat -> (j < ndim m)%nat -> (forall a, (a < npe m)%nat -> q a = k) -> grad_at (npe m) (dndx m) q ip j = 0.
Proof. intros H Hip Hj E. unfold grad_at. rewrite (sumn_ext (npe m) _ (fun ic => dndx m ip ic j * k)) by (intros; rewrite E by assumption; reflexivity). rewrite sumn_scal_r, H by assumption. ring. Qed.
(** with constant surface tension coefficient and curvature and the default localisation (m = n = 0, c = 1) the
    pressure p0 + sigma kappa alpha is such a state for every volume-fraction field: Laplace's law holds exactly *)
Theorem C86_laplace_pressure_at_rest : forall m c sig kap p0 s i, unity (npe m) (nscs m) (Ns m) -> grad_unity m ->
  (forall a, cv_v c a = 0) -> (forall a, cv_Gp c a = 0) -> cv_bw c = 0 -> cv_c c = 1 -> cv_n c = 0 -> cv_m c = 0 ->
  (forall a, cv_sigma c a = sig) -> (forall a, cv_kappa c a = kap) ->
  gain (cont_vof_adv m c (fun a => p0 + sig * kap * cv_vof c a)) s i = 0.
Proof.
  intros m c sig kap p0 s i U HG HV HP HB H1 Hn Hm HS HK. apply C86_balanced_forces_no_flow; [assumption|assumption|]. intros ip j Hip Hj.
  rewrite HB. unfold loc_fac, vpow. rewrite H1, Hn, Hm. destruct (Req_EM_T 0 0); [|lra].
  rewrite (at_scs_const m ip (fun ic => cv_sigma c ic * cv_kappa c ic) (sig*kap) U Hip) by (intros; rewrite HS, HK; reflexivity).
  rewrite (grad_at_plus (npe m) (dndx m) (fun _ => p0) (fun a => sig*kap*cv_vof c a) ip j).
  rewrite (grad_scs_const m (fun _ => p0) p0 ip j HG Hip Hj) by reflexivity.
  unfold grad_at. rewrite (sumn_ext (npe m) _ (fun ic => sig*kap*(dndx m ip ic j * cv_vof c ic))) by (intros; ring). rewrite sumn_scal. ring.
Qed.
(** only pressure differences matter *)
Theorem C86_pressure_level_irrelevant : forall m c p k s s' i, grad_unity m -> 
  gain (cont_vof_adv m c (fun a => p a + k)) s i = gain (cont_vof_adv m c p) s' i.
Proof.
  intros m c p k s s' i HG. rewrite !C86_continuity_residual. f_equal. apply net_out_ext. intros ip Hip. unfold vof_flow. cbv zeta. f_equal. f_equal. f_equal.
  unfold dotn. apply sumn_ext. intros j Hj. rewrite (grad_at_plus (npe m) (dndx m) p (fun _ => k) ip j), (grad_scs_const m (fun _ => k) k ip j HG Hip Hj) by reflexivity. f_equal. f_equal. f_equal. ring.
Qed.
(** evaporation makes vapour of lower density, so fluid must be pushed out of the control volume; the kernel's sign
    makes the converged flow draw fluid in, and the amount depends on the time step *)
Theorem C86_evaporation_pushes_fluid_out_refuted : forall m dv c e q p s i, cv_tau c <> 0 ->
  gain (fun s => cont_evap m dv e q (cont_vof_adv m c p s)) s i = 0 ->
  net_out m (vof_flow m c p) i = - cv_tau c * cv_int m (fun ip => ev_c e * evap_sM m dv e q ip * (1/ev_rhoG e - 1/ev_rhoL e)) i.
Proof.
  intros m dv c e q p s i HT H.
  assert (G : gain (fun s => cont_evap m dv e q (cont_vof_adv m c p s)) s i = gain (cont_evap m dv e q) (cont_vof_adv m c p s) i + gain (cont_vof_adv m c p) s i) by (unfold gain; ring).
  rewrite G, C86_continuity_residual, (cvk_gain _ _ _ _ _ i _ (cont_evap_cvk m dv e q) (fun ip _ => eq_refl)) in H.
  rewrite (net_out_ext m _ (fun ip => / cv_tau c * vof_flow m c p ip)) in H by (intros; unfold Rdiv; ring). rewrite net_out_scal in H.
  set (N := net_out m (vof_flow m c p) i) in *. set (I0 := cv_int m _ i) in *.
  assert (E : / cv_tau c * N = - I0) by lra. apply (Rmult_eq_compat_l (cv_tau c)) in E. rewrite <- Rmult_assoc, Rinv_r, Rmult_1_l in E by assumption. rewrite E. ring.
Qed.
(** the stabilisation time: at most half the time step, half of it exactly at rest, and smaller the faster the flow *)
Theorem C86_stabilisation_time m o t ip : su_time o = 1 -> 0 < dt t -> 0 <= su_ugu m o ip ->
  0 < su_tau m o t ip <= dt t / 2 /\ (su_ugu m o ip = 0 -> su_tau m o t ip = dt t / 2).
Proof.
  intros H1 Hd Hu. unfold su_tau. rewrite H1, Rmult_1_r. set (u := su_ugu m o ip) in *. assert (P : 0 < 2/dt t) by (apply Rdiv_lt_0_compat; lra).
  assert (S0 : 2/dt t <= sqrt ((2/dt t)*(2/dt t) + u)).
  { apply Rle_trans with (sqrt ((2/dt t)*(2/dt t))); [rewrite sqrt_square by lra; lra|apply sqrt_le_1_alt; lra]. }
  assert (E2 : 1 / (2/dt t) = dt t / 2) by (field; lra). split; [split|].
  - apply Rdiv_lt_0_compat; lra.
  - rewrite <- E2. unfold Rdiv at 1 4. apply Rmult_le_compat_l; [lra|]. apply Rinv_le_contravar; [exact P|exact S0].
  - intros ->. rewrite Rplus_0_r, sqrt_square by lra. exact E2.
Qed.
