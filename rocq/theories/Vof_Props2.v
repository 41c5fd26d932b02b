(** C86: volume terms of the volume-of-fluid equation: advective form, divergence correction, moving mesh,
    interface sharpening, evaporation. *)
Require Import Reals List Bool Lra Lia Arith.
From Verif Require Import RUtil Edge_Model Edge_Proofs Elem_Model Elem_Spec Elem_Proofs Elem_Proofs2 Elem_Props2 Elem_Props3 Time_Model Rad_Quad_Proofs3.
From Verif Require Import Turb_Model Vof_Model Vof_Model2 Vof_Spec Vof_Props.
Import ListNotations.
Open Scope R_scope.

Lemma cvk_gain_plus m k C B s i f : cvk m k C B -> (forall ip, (ip < nscv m)%nat -> B ip = vol m ip * f ip) -> gain k s i = cv_int m f i.
Proof.
  intros H E. rewrite (cvk_gain m k C B s i (fun ip => - f ip) H) by (intros ip Hip; rewrite E by assumption; ring).
  rewrite (cv_int_ext m _ (fun ip => (-1) * f ip)) by (intros; ring). rewrite cv_int_scal. ring.
Qed.
Lemma div_at_swap m dv v ip : vof_divU m dv v ip = div_at (npe m) (ndim m) dv v ip.
Proof. unfold vof_divU, div_at. rewrite sumn_swap. apply sumn_ext. intros. apply sumn_ext. intros; ring. Qed.

(* ------------------------------------------------------------------ advective form *)
Lemma vof_scv_adv_cvk m dv v q : cvk m (vof_scv_adv m dv v q)
  (fun ip j => sumn (npe m) (fun ic => dl j ic * (dotn (ndim m) (vec_at (npe m) (ndim m) (Nv m) v ip) (dv ip ic) * vol m ip)))
  (fun ip => - (vol m ip * dotn (ndim m) (vec_at (npe m) (ndim m) (Nv m) v ip) (grad_at (npe m) dv q ip))).
Proof.
  unfold vof_scv_adv. cbv zeta. apply cvk_loop. intros ip s Hip.
  change (fun j => sumn (npe m) (fun ic => Nv m ip ic * v (ic * ndim m + j)%nat)) with (vec_at (npe m) (ndim m) (Nv m) v ip).
  set (U := vec_at (npe m) (ndim m) (Nv m) v ip).
  match goal with |- context [loop (npe m) ?b (s, 0)] => set (body := b) end.
  destruct (loop_acc (npe m) body (fun ic a => a + dotn (ndim m) U (dv ip ic) * q ic)
    (fun ic i j => dl i (nearest m ip) * (dl j ic * (dotn (ndim m) U (dv ip ic) * vol m ip))) (fun _ _ => 0) s 0) as [H1 H2].
  - reflexivity.
  - intros ic s1 a _. cbn [body fst]. eapply eff_ext; [apply eff_addL| |]; [intros i j; cbv beta; change (dl i (nearest m ip) * dl j ic * (dotn (ndim m) U (dv ip ic) * vol m ip) = dl i (nearest m ip) * (dl j ic * (dotn (ndim m) U (dv ip ic) * vol m ip))); ring|reflexivity].
  - destruct (loop (npe m) body (s, 0)) as [s1 a1]. cbn [fst snd] in H1, H2. rewrite loop_sum in H1.
    eapply eff_ext.
    + eapply eff_trans; [exact H2|]. apply eff_addB.
    + intros i j. cbv beta. rewrite sumn_scal. ring.
    + intros i. cbv beta. rewrite sumn_zero by reflexivity. rewrite H1.
      assert (E : sumn (npe m) (fun ic => dotn (ndim m) U (dv ip ic) * q ic) = dotn (ndim m) U (grad_at (npe m) dv q ip)).
      { unfold dotn, grad_at. rewrite (sumn_ext (npe m) _ (fun ic => sumn (ndim m) (fun j => U j * (dv ip ic j * q ic)))) by (intros; rewrite <- sumn_scal_r; apply sumn_ext; intros; ring).
        rewrite sumn_swap. apply sumn_ext. intros. rewrite sumn_scal. reflexivity. }
      rewrite E. ring.
Qed.
(** advective form: velocity times gradient of the volume fraction, integrated over the control volume *)
Theorem C86_advective_form : forall m dv v q s i,
  gain (vof_scv_adv m dv v q) s i
  = - cv_int m (fun ip => dotn (ndim m) (vec_at (npe m) (ndim m) (Nv m) v ip) (grad_at (npe m) dv q ip)) i.
Proof. intros. apply (cvk_gain _ _ _ _ s i _ (vof_scv_adv_cvk m dv v q)). reflexivity. Qed.
Lemma grad_at_plus n D q d ip j : grad_at n D (fun a => q a + d a) ip j = grad_at n D q ip j + grad_at n D d ip j.
Proof. unfold grad_at. rewrite <- sumn_plus. apply sumn_ext. intros; ring. Qed.
Lemma dotn_plus_r d a b c : dotn d a (fun j => b j + c j) = dotn d a b + dotn d a c.
Proof. unfold dotn. rewrite <- sumn_plus. apply sumn_ext. intros; ring. Qed.
Lemma dotn_ext d a b c e : (forall j, (j < d)%nat -> a j = c j) -> (forall j, (j < d)%nat -> b j = e j) -> dotn d a b = dotn d c e.
Proof. intros H1 H2. unfold dotn. apply sumn_ext. intros j Hj. rewrite H1, H2 by assumption. reflexivity. Qed.
Lemma dotn_grad n d D q ip (U : nat -> R) : sumn n (fun ic => dotn d U (D ip ic) * q ic) = dotn d U (grad_at n D q ip).
Proof.
  unfold dotn, grad_at. rewrite (sumn_ext n _ (fun ic => sumn d (fun j => U j * (D ip ic j * q ic)))) by (intros; rewrite <- sumn_scal_r; apply sumn_ext; intros; ring).
  rewrite sumn_swap. apply sumn_ext. intros. rewrite sumn_scal. reflexivity.
Qed.
Theorem C86_advective_form_newton : forall m dv v, exact_newton (npe m) (vof_scv_adv m dv v).
Proof.
  intros. eapply cvk_newton; [intros; apply vof_scv_adv_cvk|]. intros q d ip Hip. cbv beta. rewrite cols_pick.
  set (U := vec_at (npe m) (ndim m) (Nv m) v ip).
  rewrite (dotn_ext (ndim m) U (grad_at (npe m) dv (fun a => q a + d a) ip) U (fun j => grad_at (npe m) dv q ip j + grad_at (npe m) dv d ip j)) by (intros; try reflexivity; apply grad_at_plus).
  rewrite dotn_plus_r.
  rewrite (sumn_ext (npe m) _ (fun ic => vol m ip * (dotn (ndim m) U (dv ip ic) * d ic))) by (intros; ring).
  rewrite sumn_scal, dotn_grad. ring.
Qed.
Lemma grad_at_const m dv q c ip j : dv_unity m dv -> (forall a, (a < npe m)%nat -> q a = c) -> (ip < nscv m)%nat -> (j < ndim m)%nat -> grad_at (npe m) dv q ip j = 0.
Proof.
  intros H E Hip Hj. unfold grad_at. rewrite (sumn_ext (npe m) _ (fun ic => dv ip ic j * c)) by (intros; rewrite E by assumption; reflexivity).
  rewrite sumn_scal_r, H by assumption. ring.
Qed.
Lemma grad_at_linear m dv x q a (g : nat -> R) ip j : dv_linear m dv x ->
  (forall ic, (ic < npe m)%nat -> q ic = a + sumn (ndim m) (fun k => g k * x ic k)) -> (ip < nscv m)%nat -> (j < ndim m)%nat ->
  grad_at (npe m) dv q ip j = g j.
Proof.
  intros [H0 H1] E Hip Hj. unfold grad_at.
  rewrite (sumn_ext (npe m) _ (fun ic => dv ip ic j * a + sumn (ndim m) (fun k => g k * (dv ip ic j * x ic k)))).
  - rewrite sumn_plus, sumn_scal_r, H0 by assumption. rewrite sumn_swap.
    rewrite (sumn_ext (ndim m) _ (fun k => dl j k * g k)).
    + rewrite (sumn_dl' (ndim m) j g Hj). ring.
    + intros k Hk. rewrite sumn_scal, H1 by assumption. unfold dl. destruct (Nat.eqb j k); ring.
  - intros ic Hic. rewrite E by assumption. rewrite Rmult_plus_distr_l. f_equal. rewrite <- sumn_scal. apply sumn_ext. intros; ring.
Qed.
(** a uniform volume fraction is not changed by any velocity field, and a linear one is advected exactly *)
Theorem C86_advective_form_uniform : forall m dv v q c s i, dv_unity m dv -> (forall a, (a < npe m)%nat -> q a = c) ->
  gain (vof_scv_adv m dv v q) s i = 0.
Proof.
  intros m dv v q c s i H E. rewrite C86_advective_form. rewrite (cv_int_ext m _ (fun ip => 0 * 1)); [rewrite cv_int_scal; ring|].
  intros ip Hip. unfold dotn. rewrite sumn_zero; [ring|]. intros j Hj. rewrite (grad_at_const m dv q c ip j H E Hip Hj). ring.
Qed.
Theorem C86_advective_form_linear : forall m dv v q x a (g : nat -> R) s i, dv_linear m dv x ->
  (forall ic, (ic < npe m)%nat -> q ic = a + sumn (ndim m) (fun k => g k * x ic k)) ->
  gain (vof_scv_adv m dv v q) s i = - cv_int m (fun ip => dotn (ndim m) (vec_at (npe m) (ndim m) (Nv m) v ip) g) i.
Proof.
  intros m dv v q x a g s i H E. rewrite C86_advective_form. f_equal. apply cv_int_ext. intros ip Hip. apply dotn_ext; [reflexivity|].
  intros j Hj. apply (grad_at_linear m dv x q a g ip j H E Hip Hj).
Qed.

(* ------------------------------------------------------------------ divergence correction and moving mesh *)
Lemma vof_div_cvk m dv v q : cvk m (vof_div m dv v q)
  (fun ip j => sumn (npe m) (fun ic => dl j ic * - (Nv m ip ic*vof_divU m dv v ip*vol m ip)))
  (fun ip => at_scv m q ip*vof_divU m dv v ip*vol m ip).
Proof.
  unfold vof_div. cbv zeta. apply cvk_loop. intros ip s Hip. eapply eff_ext.
  - eapply eff_trans; [apply (cols_eff (npe m) s (nearest m ip) (fun ic => - (Nv m ip ic*vof_divU m dv v ip*vol m ip)))|apply eff_addB].
  - intros. cbv beta. ring.
  - intros. cbv beta. ring.
Qed.
Theorem C86_divergence_correction : forall m dv v q s i,
  gain (vof_div m dv v q) s i = cv_int m (fun ip => at_scv m q ip * div_at (npe m) (ndim m) dv v ip) i.
Proof. intros. apply (cvk_gain_plus _ _ _ _ s i _ (vof_div_cvk m dv v q)). intros. rewrite div_at_swap. ring. Qed.
Theorem C86_divergence_correction_newton : forall m dv v, exact_newton (npe m) (vof_div m dv v).
Proof.
  intros. eapply cvk_newton; [intros; apply vof_div_cvk|]. intros q d ip Hip. cbv beta. rewrite cols_pick, at_scv_plus.
  rewrite (sumn_ext (npe m) _ (fun ic => - (vof_divU m dv v ip*vol m ip) * (Nv m ip ic * d ic))) by (intros; ring).
  rewrite sumn_scal. fold (at_scv m d ip). ring.
Qed.
(** conservative advection plus the divergence correction leaves every uniform volume fraction alone, for any
    velocity field whose outflow through the element's faces matches the integral of its divergence *)
Theorem C86_uniform_field_kept : forall m dv vdot v q c s i, unity (npe m) (nscs m) (Ns m) -> unity (npe m) (nscv m) (Nv m) ->
  (forall a, (a < npe m)%nat -> q a = c) -> net_out m vdot i = cv_int m (div_at (npe m) (ndim m) dv v) i ->
  gain (fun s => vof_div m dv v q (vof_scs_adv m vdot q s)) s i = 0.
Proof.
  intros m dv vdot v q c s i U1 U2 E H.
  assert (G : gain (fun s => vof_div m dv v q (vof_scs_adv m vdot q s)) s i = gain (vof_div m dv v q) (vof_scs_adv m vdot q s) i + gain (vof_scs_adv m vdot q) s i) by (unfold gain; ring).
  rewrite G, C86_divergence_correction, (C86_uniform_advection m vdot q c) by assumption. rewrite H.
  rewrite (cv_int_ext m _ (fun ip => c * div_at (npe m) (ndim m) dv v ip)); [rewrite cv_int_scal; ring|].
  intros ip Hip. rewrite (at_scv_const m ip q c U2 Hip E). reflexivity.
Qed.
(** in general the two together are minus the integral of u.grad(alpha) with alpha taken at the faces: nothing but
    a change of volume fraction across the element is transported *)
Theorem C86_uniform_shift_invariant : forall m dv vdot v q c s s' i, unity (npe m) (nscs m) (Ns m) -> unity (npe m) (nscv m) (Nv m) ->
  net_out m vdot i = cv_int m (div_at (npe m) (ndim m) dv v) i ->
  gain (fun s => vof_div m dv v (fun a => q a + c) (vof_scs_adv m vdot (fun a => q a + c) s)) s i
  = gain (fun s => vof_div m dv v q (vof_scs_adv m vdot q s)) s' i.
Proof.
  intros m dv vdot v q c s s' i U1 U2 H.
  assert (G : forall q s, gain (fun s => vof_div m dv v q (vof_scs_adv m vdot q s)) s i = gain (vof_div m dv v q) (vof_scs_adv m vdot q s) i + gain (vof_scs_adv m vdot q) s i) by (intros; unfold gain; ring).
  rewrite !G, !C86_divergence_correction, !C86_advection_residual.
  rewrite (net_out_ext m _ (fun ip => vdot ip * at_scs m q ip + c * vdot ip)).
  2:{ intros ip Hip. unfold at_scs. rewrite (sumn_ext (npe m) (fun ic => Ns m ip ic * (q ic + c)) (fun ic => Ns m ip ic * q ic + Ns m ip ic * c)) by (intros; ring).
      rewrite sumn_plus, (sumn_scal_r (npe m) c), U1 by assumption. ring. }
  assert (E1 : net_out m (fun ip => vdot ip * at_scs m q ip + c * vdot ip) i = net_out m (fun ip => vdot ip * at_scs m q ip) i + c * net_out m vdot i).
  { rewrite !net_out_dl, <- sumn_scal, <- sumn_plus. apply sumn_ext. intros; ring. }
  rewrite E1, H.
  assert (E2 : cv_int m (fun ip => at_scv m (fun a => q a + c) ip * div_at (npe m) (ndim m) dv v ip) i
     = cv_int m (fun ip => at_scv m q ip * div_at (npe m) (ndim m) dv v ip) i + c * cv_int m (div_at (npe m) (ndim m) dv v) i).
  { rewrite !cv_int_dl, <- sumn_scal, <- sumn_plus. apply sumn_ext. intros ip Hip. rewrite at_scv_plus.
    rewrite (at_scv_const m ip (fun _ => c) c U2 Hip) by reflexivity. ring. }
  rewrite E2. ring.
Qed.

Lemma vof_gcl_cvk m divV q : cvk m (vof_gcl m divV q)
  (fun ip j => sumn (npe m) (fun ic => dl j ic * (Nv m ip ic*(at_scv m divV ip*vol m ip))))
  (fun ip => - (vol m ip * (at_scv m q ip*at_scv m divV ip))).
Proof.
  unfold vof_gcl. cbv zeta. apply cvk_loop. intros ip s Hip. eapply eff_ext.
  - eapply eff_trans; [apply eff_addB|apply (cols_eff (npe m) _ (nearest m ip) (fun ic => Nv m ip ic*(at_scv m divV ip*vol m ip)))].
  - intros. cbv beta. ring.
  - intros. cbv beta. ring.
Qed.
Theorem C86_moving_mesh_term : forall m divV q s i,
  gain (vof_gcl m divV q) s i = - cv_int m (fun ip => at_scv m q ip * at_scv m divV ip) i.
Proof. intros. apply (cvk_gain _ _ _ _ s i _ (vof_gcl_cvk m divV q)). reflexivity. Qed.
Theorem C86_moving_mesh_newton : forall m divV, exact_newton (npe m) (vof_gcl m divV).
Proof.
  intros. eapply cvk_newton; [intros; apply vof_gcl_cvk|]. intros q d ip Hip. cbv beta. rewrite cols_pick, at_scv_plus.
  rewrite (sumn_ext (npe m) _ (fun ic => (at_scv m divV ip*vol m ip) * (Nv m ip ic * d ic))) by (intros; ring).
  rewrite sumn_scal. fold (at_scv m d ip). ring.
Qed.
(** on a moving mesh a uniform volume fraction stays uniform when the relative flow rate closes with the mesh
    divergence: time term, advection and mesh term together vanish *)
Theorem C86_moving_mesh_uniform : forall m ti vdot divV q c s i, 0 < dtN ti -> 0 < dtNm1 ti ->
  unity (npe m) (nscs m) (Ns m) -> unity (npe m) (nscv m) (Nv m) -> (forall a, (a < npe m)%nat -> q a = c) ->
  net_out m vdot i = - cv_int m (at_scv m divV) i ->
  gain (fun s => vof_gcl m divV q (vof_scs_adv m vdot q (vof_mass m (dts_of (compute_gamma ti)) q q q s))) s i = 0.
Proof.
  intros m ti vdot divV q c s i T1 T2 U1 U2 E H.
  set (t := dts_of (compute_gamma ti)).
  assert (G : gain (fun s => vof_gcl m divV q (vof_scs_adv m vdot q (vof_mass m t q q q s))) s i
    = gain (vof_gcl m divV q) (vof_scs_adv m vdot q (vof_mass m t q q q s)) i + gain (vof_scs_adv m vdot q) (vof_mass m t q q q s) i + gain (vof_mass m t q q q) s i) by (unfold gain; ring).
  rewrite G. unfold t. rewrite C86_time_term_steady by assumption. rewrite C86_moving_mesh_term, (C86_uniform_advection m vdot q c) by assumption.
  rewrite H. rewrite (cv_int_ext m _ (fun ip => c * at_scv m divV ip)); [rewrite cv_int_scal; ring|].
  intros ip Hip. rewrite (at_scv_const m ip q c U2 Hip E). reflexivity.
Qed.

(* ------------------------------------------------------------------ interface sharpening *)
(** compression velocity of a node, times the volume fraction of the two phases *)
Definition sharp_flux (m : me) (cA : R) (v nrm q : nat -> R) (k : nat) : R :=
  let d := ndim m in
  cA * sqrt (sumn d (fun j => v (k/d*d+j)%nat * v (k/d*d+j)%nat)) * nrm k * (q (k/d)%nat * (1 - q (k/d)%nat)).
Definition sharp_c (m : me) (dv : nat -> nat -> nat -> R) (cA : R) (v nrm : nat -> R) (ip ic : nat) : R :=
  sumn (ndim m) (fun j => comp_u (ndim m) cA v nrm ic j * dv ip ic j).
Lemma vof_sharpen_cvk m dv cA v nrm q : cvk m (vof_sharpen m dv cA v nrm q)
  (fun ip j => sumn (npe m) (fun ic => dl j ic * (sharp_c m dv cA v nrm ip ic * vol m ip)))
  (fun ip => - (vol m ip * sumn (npe m) (fun ic => sharp_c m dv cA v nrm ip ic * (q ic*(1 - q ic))))).
Proof.
  unfold vof_sharpen. cbv zeta. apply cvk_loop. intros ip s Hip.
  match goal with |- context [loop (npe m) ?b (s, 0)] => set (body := b) end.
  destruct (loop_acc (npe m) body (fun ic a => a + sharp_c m dv cA v nrm ip ic * (q ic*(1 - q ic)))
    (fun ic i j => dl i (nearest m ip) * (dl j ic * (sharp_c m dv cA v nrm ip ic * vol m ip))) (fun _ _ => 0) s 0) as [H1 H2].
  - reflexivity.
  - intros ic s1 a _. cbn [body fst]. eapply eff_ext; [apply eff_addL| |]; intros; cbv beta; fold (sharp_c m dv cA v nrm ip ic); ring.
  - destruct (loop (npe m) body (s, 0)) as [s1 a1]. cbn [fst snd] in H1, H2. rewrite loop_sum in H1.
    eapply eff_ext.
    + eapply eff_trans; [exact H2|]. apply eff_addB.
    + intros i j. cbv beta. rewrite sumn_scal. ring.
    + intros i. cbv beta. rewrite sumn_zero by reflexivity. rewrite H1. ring.
Qed.
(** sharpening is the divergence of the compression flux c|u| n alpha(1-alpha) *)
Theorem C86_sharpening_is_divergence : forall m dv cA v nrm q s i,
  gain (vof_sharpen m dv cA v nrm q) s i = - cv_int m (div_at (npe m) (ndim m) dv (sharp_flux m cA v nrm q)) i.
Proof.
  intros. apply (cvk_gain _ _ _ _ s i _ (vof_sharpen_cvk m dv cA v nrm q)). intros ip Hip. f_equal. f_equal.
  unfold div_at. rewrite (sumn_swap (ndim m)). apply sumn_ext. intros ic _. unfold sharp_c. rewrite <- sumn_scal_r. apply sumn_ext. intros j Hj.
  unfold sharp_flux. cbv zeta. rewrite Nat.div_add_l, Nat.div_small, Nat.add_0_r by lia. unfold comp_u, mag_u. ring.
Qed.
(** no sharpening in either pure phase, nor in fluid at rest *)
Theorem C86_sharpening_none_in_pure_phases : forall m dv cA v nrm q s i,
  (forall a, (a < npe m)%nat -> q a = 0 \/ q a = 1) -> gain (vof_sharpen m dv cA v nrm q) s i = 0.
Proof.
  intros m dv cA v nrm q s i H. rewrite (cvk_gain _ _ _ _ s i (fun _ => 0 * 1) (vof_sharpen_cvk m dv cA v nrm q)); [rewrite cv_int_scal; ring|].
  intros ip Hip. rewrite sumn_zero; [ring|]. intros ic Hic. destruct (H ic Hic) as [-> | ->]; ring.
Qed.
Theorem C86_sharpening_none_at_rest : forall m dv cA v nrm q s i,
  (forall a, v a = 0) -> gain (vof_sharpen m dv cA v nrm q) s i = 0.
Proof.
  intros m dv cA v nrm q s i H. rewrite (cvk_gain _ _ _ _ s i (fun _ => 0 * 1) (vof_sharpen_cvk m dv cA v nrm q)); [rewrite cv_int_scal; ring|].
  intros ip Hip. rewrite sumn_zero; [ring|]. intros ic Hic. unfold sharp_c. rewrite sumn_zero; [ring|]. intros j Hj. unfold comp_u, mag_u.
  rewrite (sumn_zero (ndim m)) by (intros; rewrite H; ring). rewrite sqrt_0. ring.
Qed.
(** turning a symmetric state round (swapping the phases and the normal) reverses the sharpening *)
Theorem C86_sharpening_phase_symmetric : forall m dv cA v nrm q s s' i,
  gain (vof_sharpen m dv cA v (fun a => - nrm a) (fun a => 1 - q a)) s i = - gain (vof_sharpen m dv cA v nrm q) s' i.
Proof.
  intros. rewrite (cvk_gain _ _ _ _ s i _ (vof_sharpen_cvk m dv cA v (fun a => - nrm a) (fun a => 1 - q a)) (fun ip _ => eq_refl)).
  rewrite (cvk_gain _ _ _ _ s' i _ (vof_sharpen_cvk m dv cA v nrm q) (fun ip _ => eq_refl)).
  rewrite <- (Rmult_1_l (- - _)). replace (1 * - - cv_int m (fun ip => sumn (npe m) (fun ic => sharp_c m dv cA v nrm ip ic * (q ic * (1 - q ic)))) i)
    with (- ((-1) * cv_int m (fun ip => sumn (npe m) (fun ic => sharp_c m dv cA v nrm ip ic * (q ic * (1 - q ic)))) i)) by ring.
  f_equal. rewrite <- cv_int_scal. apply cv_int_ext. intros ip Hip. rewrite <- sumn_scal. apply sumn_ext. intros ic _.
  assert (E : sharp_c m dv cA v (fun a => - nrm a) ip ic = - sharp_c m dv cA v nrm ip ic).
  { unfold sharp_c. rewrite <- sumn_opp. apply sumn_ext. intros. unfold comp_u. ring. }
  rewrite E. ring.
Qed.
(** the matrix is lagged: it treats (1-alpha) as 1, so the linearisation error is the quadratic part *)
Theorem C86_sharpening_matrix_lagged_partial : forall m dv cA v nrm q d s i, (i < npe m)%nat ->
  eB (vof_sharpen m dv cA v nrm (fun a => q a + d a) s) i
  = eB (vof_sharpen m dv cA v nrm q s) i
    - sumn (npe m) (fun j => (eL_ (vof_sharpen m dv cA v nrm q s) i j - eL_ s i j) * d j)
    + cv_int m (fun ip => sumn (npe m) (fun ic => sharp_c m dv cA v nrm ip ic * (2*q ic + d ic)*d ic)) i.
Proof.
  intros m dv cA v nrm q d s i Hi. pose proof (vof_sharpen_cvk m dv cA v nrm) as H.
  rewrite (proj2 (H (fun a => q a + d a) s)), (proj2 (H q s)).
  rewrite (sumn_ext (npe m) _ (fun j => sumn (nscv m) (fun ip => dl i (nearest m ip) * (sumn (npe m) (fun ic => dl j ic * (sharp_c m dv cA v nrm ip ic * vol m ip)) * d j)))).
  2:{ intros j _. rewrite (proj1 (H q s)). rewrite Rplus_comm. unfold Rminus. rewrite Rplus_assoc, Rplus_opp_r, Rplus_0_r, <- sumn_scal_r. apply sumn_ext. intros; ring. }
  rewrite (sumn_swap (npe m)). rewrite cv_int_dl.
  match goal with |- _ + ?a = _ + ?b - ?c + ?e => assert (a = b - c + e) as -> end; [|ring].
  rewrite <- sumn_minus, <- sumn_plus. apply sumn_ext. intros ip Hip. rewrite sumn_scal, cols_pick.
  rewrite (sumn_ext (npe m) (fun ic => sharp_c m dv cA v nrm ip ic * vol m ip * d ic) (fun ic => vol m ip * (sharp_c m dv cA v nrm ip ic * d ic))) by (intros; ring).
  rewrite sumn_scal.
  assert (E : sumn (npe m) (fun ic => sharp_c m dv cA v nrm ip ic * ((q ic + d ic) * (1 - (q ic + d ic))))
    = sumn (npe m) (fun ic => sharp_c m dv cA v nrm ip ic * (q ic * (1 - q ic))) + sumn (npe m) (fun ic => sharp_c m dv cA v nrm ip ic * d ic)
      - sumn (npe m) (fun ic => sharp_c m dv cA v nrm ip ic * (2 * q ic + d ic) * d ic)).
  { rewrite <- sumn_plus, <- sumn_minus. apply sumn_ext. intros; ring. }
  rewrite E. ring.
Qed.
