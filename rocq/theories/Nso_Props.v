(** C87: nonlinear stabilisation operators. *)
Require Import Reals List Bool Lra Lia Arith.
From Verif Require Import RUtil Edge_Model Edge_Proofs Elem_Model Elem_Spec Elem_Proofs Elem_Proofs2 Elem_Proofs3 Elem_Props2 Elem_Props3 Rad_Quad_Proofs3.
From Verif Require Import Vof_Model Vof_Model2 Vof_Spec Vof_Props Vof_Props2 Vof_Props3 Vof_Props5 Fem_Model Nso_Model Nso_Spec.
Import ListNotations.
Open Scope R_scope.

Lemma n_grad_at m q ip j : n_grad m q ip j = grad_at (npe m) (dndx m) q ip j.
Proof. unfold n_grad, grad_at. apply sumn_ext. intros; ring. Qed.
(** the accumulated factor is the flux over -nu *)
Lemma fac_flux m o nu G q ip : - nu ip * sumn (npe m) (fun ic => n_fac m o ip ic * q ic - n_facG m o G ip ic * n_fourth o) = metric_flux m (n_gU o) (n_fourth o) nu G q ip.
Proof.
  unfold metric_flux. f_equal. set (n := npe m). set (d := ndim m).
  rewrite (sumn_ext n _ (fun ic => sumn d (fun i => area m ip i * sumn d (fun j => n_gU o ip i j * (dndx m ip ic j * q ic - n_fourth o * (Ns m ip ic * G ic j)))))).
  - rewrite (sumn_swap n d). apply sumn_ext. intros i _. rewrite sumn_scal. f_equal. rewrite (sumn_swap n d). apply sumn_ext. intros j _.
    rewrite sumn_scal. f_equal. rewrite sumn_minus, sumn_scal. reflexivity.
  - intros ic _. unfold n_fac, n_facG. fold d. rewrite <- !sumn_scal_r, <- sumn_minus. apply sumn_ext. intros i _.
    rewrite <- !sumn_scal_r, <- sumn_scal, <- sumn_minus. apply sumn_ext. intros; ring.
Qed.
Lemma assemble_eff m o st k nu G q ip s :
  eff s (n_assemble m o st k (nu ip) G q ip s)
   (fun row col => (dl row (lrL m ip*st+k) - dl row (lrR m ip*st+k)) * sumn (npe m) (fun ic => dl col (ic*st+k) * (nu ip * - n_fac m o ip ic)))
   (fun row => - ((dl row (lrL m ip*st+k) - dl row (lrR m ip*st+k)) * metric_flux m (n_gU o) (n_fourth o) nu G q ip)).
Proof.
  unfold n_assemble. cbv zeta. set (il := (lrL m ip*st+k)%nat). set (ir := (lrR m ip*st+k)%nat).
  match goal with |- context [loop (npe m) ?b (s, 0)] => set (body := b) end.
  destruct (loop_acc (npe m) body (fun ic a => a + (n_fac m o ip ic * q ic - n_facG m o G ip ic * n_fourth o))
    (fun ic i j => (dl i il - dl i ir) * (dl j (ic*st+k) * (nu ip * - n_fac m o ip ic))) (fun _ _ => 0) s 0) as [H1 H2].
  - reflexivity.
  - intros ic s1 a _. cbn [body fst]. eapply eff_ext; [eapply eff_trans; apply eff_addL| |]; intros; cbv beta; ring.
  - destruct (loop (npe m) body (s, 0)) as [s1 a1]. cbn [fst snd] in H1, H2. rewrite loop_sum, Rplus_0_l in H1.
    eapply eff_ext.
    + eapply eff_trans; [exact H2|]. eapply eff_trans; apply eff_addB.
    + intros i j. cbv beta. rewrite sumn_scal. ring.
    + intros i. cbv beta. rewrite sumn_zero by reflexivity. rewrite H1, fac_flux. ring.
Qed.

(* ------------------------------------------------------------------ scalar kernels with a given coefficient *)
(** the assembly with coefficient nu; both scalar kernels are of this form *)
Definition scalar_with (m : me) (o : nso) (nu : nat -> R) (G : nat -> nat -> R) (q : nat -> R) (s0 : esys) : esys :=
  loop (nscs m) (fun ip s => n_assemble m o 1 0 (nu ip) G q ip s) s0.
Lemma scalar_with_pairk m o nu G q : pairk m (scalar_with m o nu G q)
  (fun ip j => sumn (npe m) (fun ic => dl j ic * (nu ip * - n_fac m o ip ic))) (metric_flux m (n_gU o) (n_fourth o) nu G q).
Proof.
  apply pairk_loop. intros ip s Hip. eapply eff_ext; [apply (assemble_eff m o 1 0 nu G q ip s)| |]; intros; cbv beta; rewrite !Nat.mul_1_r, !Nat.add_0_r; [|reflexivity].
  f_equal. apply sumn_ext. intros ic _. rewrite Nat.mul_1_r, Nat.add_0_r. reflexivity.
Qed.
Lemma fac_pick m o nu ip d : sumn (npe m) (fun ic => nu * - n_fac m o ip ic * d ic) = metric_flux m (n_gU o) 0 (fun _ => nu) (fun _ _ => 0) d ip.
Proof.
  set (o' := mkNso (n_r1 o) (n_r0 o) (n_rm o) (n_v o) (n_gU o) (n_gL o) (n_Cupw o) (n_small o) 0 (n_alt o) (n_ncf o)).
  etransitivity; [|exact (fac_flux m o' (fun _ => nu) (fun _ _ => 0) d ip)].
  rewrite <- sumn_scal. apply sumn_ext. intros ic _. change (n_fac m o' ip ic) with (n_fac m o ip ic). change (n_fourth o') with 0. ring.
Qed.
Lemma metric_flux_plus m gU f nu G q d ip :
  metric_flux m gU f nu G (fun a => q a + d a) ip = metric_flux m gU f nu G q ip + metric_flux m gU 0 (fun _ => nu ip) (fun _ _ => 0) d ip.
Proof.
  unfold metric_flux. rewrite <- Rmult_plus_distr_l, <- sumn_plus. f_equal. apply sumn_ext. intros i _. rewrite <- Rmult_plus_distr_l, <- sumn_plus. f_equal.
  apply sumn_ext. intros j _. rewrite grad_at_plus. ring.
Qed.
(** what the stabilisation adds: the net flux -nu A_i g^ij (d_j q - f G_j) with the coefficient of the current solution *)
Theorem C87_scalar_residual : forall m o t mu G q0 qm q1 s i,
  gain (scalar_nso m o t mu G q0 qm q1) s i
  = - net_out m (metric_flux m (n_gU o) (n_fourth o) (n_scalar_nu m o t mu G q1 q0 qm) (gvec (ndim m) G) q1) i.
Proof. intros. exact (pairk_gain _ _ _ _ _ _ (scalar_with_pairk m o (n_scalar_nu m o t mu G q1 q0 qm) (gvec (ndim m) G) q1)). Qed.
Theorem C87_scalar_ke_residual : forall m o tc u p Gp G q s i,
  gain (scalar_nso_ke m o tc u p Gp G q) s i
  = - net_out m (metric_flux m (n_gU o) (n_fourth o) (n_ke_nu m o tc u p Gp) (gvec (ndim m) G) q) i.
Proof. intros. exact (pairk_gain _ _ _ _ _ _ (scalar_with_pairk m o (n_ke_nu m o tc u p Gp) (gvec (ndim m) G) q)). Qed.
Theorem C87_scalar_conservative : forall m o t mu G q0 qm q1, maps_ok m -> conservative (npe m) (scalar_nso m o t mu G q0 qm q1).
Proof. intros. eapply pairk_conservative; [assumption|]. exact (scalar_with_pairk m o (n_scalar_nu m o t mu G q1 q0 qm) (gvec (ndim m) G) q1). Qed.
Theorem C87_scalar_ke_conservative : forall m o tc u p Gp G q, maps_ok m -> conservative (npe m) (scalar_nso_ke m o tc u p Gp G q).
Proof. intros. eapply pairk_conservative; [assumption|]. exact (scalar_with_pairk m o (n_ke_nu m o tc u p Gp) (gvec (ndim m) G) q). Qed.
(** the matrix is the exact derivative of the flux with the coefficient (and the nodal gradient) held at the current solution *)
Theorem C87_scalar_newton_coefficient_held : forall m o t mu G q0 qm q1 d s i, (i < npe m)%nat ->
  - net_out m (metric_flux m (n_gU o) (n_fourth o) (n_scalar_nu m o t mu G q1 q0 qm) (gvec (ndim m) G) (fun a => q1 a + d a)) i
  = gain (scalar_nso m o t mu G q0 qm q1) s i - sumn (npe m) (fun j => gainL (scalar_nso m o t mu G q0 qm q1) s i j * d j).
Proof.
  intros m o t mu G q0 qm q1 d s i Hi. set (nu := n_scalar_nu m o t mu G q1 q0 qm).
  assert (N : exact_newton (npe m) (scalar_with m o nu (gvec (ndim m) G))).
  { eapply pairk_newton; [intros; apply scalar_with_pairk|]. intros q e ip Hip. cbv beta. rewrite cols_pick, fac_pick. apply metric_flux_plus. }
  specialize (N q1 d s i Hi). rewrite <- (pairk_gain _ _ _ _ s i (scalar_with_pairk m o nu (gvec (ndim m) G) (fun a => q1 a + d a))).
  unfold gain. rewrite N. unfold gainL. change (scalar_nso m o t mu G q0 qm q1) with (scalar_with m o nu (gvec (ndim m) G) q1). ring.
Qed.
Theorem C87_scalar_ke_newton : forall m o tc u p Gp G, exact_newton (npe m) (scalar_nso_ke m o tc u p Gp G).
Proof.
  intros. change (exact_newton (npe m) (scalar_with m o (n_ke_nu m o tc u p Gp) (gvec (ndim m) G))).
  eapply pairk_newton; [intros; apply scalar_with_pairk|]. intros q e ip Hip. cbv beta. rewrite cols_pick, fac_pick. apply metric_flux_plus.
Qed.

(* ------------------------------------------------------------------ the coefficient *)
(** never negative, at most the upwind-like value, at most the residual over the metric gradient; zero with no flow or no residual *)
Theorem C87_coefficient_bounds : forall m o res g ip, 0 <= n_Cupw o -> 0 <= g -> 0 < n_small o ->
  let nu := n_nu m o res g ip in
  0 <= nu /\ nu <= n_Cupw o * sqrt (n_quad (ndim m) (n_gL o) (n_rhoV m o ip) ip) /\ nu * sqrt (g + n_small o) <= Rabs res.
Proof.
  intros m o res g ip HC Hg Hs nu. unfold nu, n_nu. set (a := n_Cupw o * _). set (b := sqrt (res*res/(g + n_small o))).
  assert (Ha : 0 <= a) by (apply Rmult_le_pos; [assumption|apply sqrt_pos]). assert (Hb : 0 <= b) by apply sqrt_pos.
  assert (E : b * sqrt (g + n_small o) = Rabs res).
  { unfold b. rewrite <- sqrt_mult_alt by (apply Rmult_le_pos; [apply Rle_0_sqr|left; apply Rinv_0_lt_compat; lra]).
    replace (res*res/(g+n_small o)*(g+n_small o)) with (Rsqr res) by (unfold Rsqr; field; lra). apply sqrt_Rsqr_abs. }
  split; [apply Rmin_glb; assumption|]. split; [apply Rmin_l|]. rewrite <- E. apply Rmult_le_compat_r; [apply sqrt_pos|apply Rmin_r].
Qed.
Lemma nu_zero_res m o g ip : 0 <= n_Cupw o -> n_nu m o 0 g ip = 0.
Proof.
  intros HC. unfold n_nu. replace (0*0/(g + n_small o)) with 0 by (unfold Rdiv; ring). rewrite sqrt_0. apply Rmin_right.
  apply Rmult_le_pos; [assumption|apply sqrt_pos].
Qed.
Theorem C87_no_residual_no_stabilisation : forall m o t mu G q0 qm q1 s i, 0 <= n_Cupw o ->
  (forall ip, (ip < nscs m)%nat -> n_residual m o t q1 q0 qm (n_dif m mu G ip) 0 ip = 0) ->
  gain (scalar_nso m o t mu G q0 qm q1) s i = 0.
Proof.
  intros m o t mu G q0 qm q1 s i HC HR. rewrite C87_scalar_residual.
  rewrite (net_out_ext m _ (fun ip => 0 * 1)); [rewrite (net_out_scal m 0 (fun _ => 1)); ring|]. intros ip Hip. unfold metric_flux, n_scalar_nu.
  rewrite HR by assumption. rewrite nu_zero_res by assumption. ring.
Qed.
Theorem C87_still_fluid_no_stabilisation : forall m o t mu G q0 qm q1 s i,
  (forall ic, n_v o ic = 0) -> gain (scalar_nso m o t mu G q0 qm q1) s i = 0.
Proof.
  intros m o t mu G q0 qm q1 s i HV. rewrite C87_scalar_residual.
  rewrite (net_out_ext m _ (fun ip => 0 * 1)); [rewrite (net_out_scal m 0 (fun _ => 1)); ring|]. intros ip Hip. unfold metric_flux.
  assert (Z : n_scalar_nu m o t mu G q1 q0 qm ip = 0).
  { unfold n_scalar_nu, n_nu. assert (Q : n_quad (ndim m) (n_gL o) (n_rhoV m o ip) ip = 0).
    { unfold n_quad. apply sumn_zero. intros a _. apply sumn_zero. intros b _. assert (R0 : n_rhoV m o ip a = 0) by (unfold n_rhoV; apply sumn_zero; intros; rewrite HV; ring).
      rewrite R0. ring. }
    rewrite Q, sqrt_0, Rmult_0_r. apply Rmin_left. apply sqrt_pos. }
  rewrite Z. ring.
Qed.

(* ------------------------------------------------------------------ fields left alone *)
Lemma grad_const m q c ip j : grad_unity m -> (ip < nscs m)%nat -> (j < ndim m)%nat -> (forall ic, (ic < npe m)%nat -> q ic = c) -> grad_at (npe m) (dndx m) q ip j = 0.
Proof.
  intros HU Hip Hj HQ. unfold grad_at. rewrite (sumn_ext _ _ (fun ic => dndx m ip ic j * c)) by (intros; rewrite HQ by assumption; reflexivity).
  rewrite sumn_scal_r, HU by assumption. ring.
Qed.
Lemma grad_lin m x g c q ip j : grad_linear_exact m x -> linear_field m x g c q -> (ip < nscs m)%nat -> (j < ndim m)%nat -> grad_at (npe m) (dndx m) q ip j = g j.
Proof.
  intros [HU HX] HQ Hip Hj. unfold grad_at.
  rewrite (sumn_ext _ _ (fun ic => dndx m ip ic j * c + sumn (ndim m) (fun k => g k * (dndx m ip ic j * x ic k)))).
  - rewrite sumn_plus, sumn_scal_r, HU by assumption. rewrite sumn_swap. rewrite (sumn_ext (ndim m) _ (fun k => dl k j * g k)).
    + rewrite (sumn_dl (ndim m) j g) by assumption. ring.
    + intros k Hk. rewrite sumn_scal, HX by assumption. unfold dl. rewrite (Nat.eqb_sym k j). destruct (Nat.eqb j k); ring.
  - intros ic Hic. rewrite HQ by assumption. rewrite Rmult_plus_distr_l, <- sumn_scal. f_equal. apply sumn_ext. intros; ring.
Qed.
Lemma metric_flux_zero m gU f nu G q ip :
  (forall j, (j < ndim m)%nat -> grad_at (npe m) (dndx m) q ip j = f * sumn (npe m) (fun ic => Ns m ip ic * G ic j)) -> metric_flux m gU f nu G q ip = 0.
Proof.
  intros H. unfold metric_flux. rewrite (sumn_zero (ndim m)); [ring|]. intros i _. rewrite (sumn_zero (ndim m)); [ring|]. intros j Hj. rewrite H by assumption. ring.
Qed.
(** a uniform field (nodal gradient zero) is never touched, whatever the flow and the form of the residual *)
Theorem C87_uniform_field : forall m o t mu G q0 qm q1 c s i, grad_unity m -> (forall ic, (ic < npe m)%nat -> q1 ic = c) ->
  (forall a, G a = 0) -> gain (scalar_nso m o t mu G q0 qm q1) s i = 0.
Proof.
  intros m o t mu G q0 qm q1 c s i HU HQ HG. rewrite C87_scalar_residual.
  rewrite (net_out_ext m _ (fun ip => 0 * 1)); [rewrite (net_out_scal m 0 (fun _ => 1)); ring|]. intros ip Hip. rewrite Rmult_0_l.
  apply metric_flux_zero. intros j Hj. rewrite (grad_const m q1 c) by assumption. rewrite (sumn_zero (npe m)) by (intros; unfold gvec; rewrite HG; ring). ring.
Qed.
(** with the fourth-order option a linear field with its exact nodal gradient is not diffused at all *)
Theorem C87_fourth_order_keeps_linear_fields : forall m o t mu G q0 qm q1 x g c s i, grad_linear_exact m x -> unity (npe m) (nscs m) (Ns m) ->
  n_fourth o = 1 -> linear_field m x g c q1 -> (forall ic j, (ic < npe m)%nat -> (j < ndim m)%nat -> G (ic*ndim m+j)%nat = g j) ->
  gain (scalar_nso m o t mu G q0 qm q1) s i = 0.
Proof.
  intros m o t mu G q0 qm q1 x g c s i HX HN H4 HQ HG. rewrite C87_scalar_residual.
  rewrite (net_out_ext m _ (fun ip => 0 * 1)); [rewrite (net_out_scal m 0 (fun _ => 1)); ring|]. intros ip Hip. rewrite Rmult_0_l.
  apply metric_flux_zero. intros j Hj. rewrite (grad_lin m x g c q1 ip j HX HQ Hip Hj), H4.
  rewrite (sumn_ext (npe m) _ (fun ic => Ns m ip ic * g j)) by (intros; unfold gvec; rewrite HG by assumption; reflexivity).
  rewrite sumn_scal_r, HN by assumption. ring.
Qed.
(** without it the linear field is diffused along its gradient with the coefficient *)
Theorem C87_second_order_flux_of_linear_field : forall m o nu G q x g c ip, grad_linear_exact m x -> n_fourth o = 0 -> linear_field m x g c q -> (ip < nscs m)%nat ->
  metric_flux m (n_gU o) (n_fourth o) nu G q ip = - nu ip * sumn (ndim m) (fun i => area m ip i * sumn (ndim m) (fun j => n_gU o ip i j * g j)).
Proof.
  intros m o nu G q x g c ip HX H4 HQ Hip. unfold metric_flux. rewrite H4. f_equal. apply sumn_ext. intros i _. f_equal. apply sumn_ext. intros j Hj.
  rewrite (grad_lin m x g c q ip j HX HQ Hip Hj). ring.
Qed.

(* ------------------------------------------------------------------ the residuals *)
Lemma n_adv_plus m o q c ip : (forall ic, (ic < npe m)%nat -> True) -> n_adv m o (fun a => q a + c) ip = n_adv m o q ip + c * n_cont m o ip.
Proof.
  intros _. unfold n_adv, n_cont. rewrite <- sumn_scal, <- sumn_plus. apply sumn_ext. intros ic _. rewrite <- sumn_scal, <- sumn_plus. apply sumn_ext. intros; ring.
Qed.
(** the linearised residual does not depend on the reference level of the scalar... *)
Theorem C87_linearised_residual_level : forall m o q c ip, unity (npe m) (nscs m) (Ns m) -> grad_unity m -> (ip < nscs m)%nat ->
  n_resAlt m o (fun a => q a + c) ip = n_resAlt m o q ip.
Proof.
  intros m o q c ip HN HU Hip. unfold n_resAlt. rewrite n_adv_plus by trivial.
  assert (A : at_scs m (fun a => q a + c) ip = at_scs m q ip + c).
  { unfold at_scs. rewrite (sumn_ext _ _ (fun ic => Ns m ip ic * q ic + Ns m ip ic * c)) by (intros; ring). rewrite sumn_plus, sumn_scal_r, HN by assumption. ring. }
  rewrite A. rewrite (sumn_ext (ndim m) (fun j => n_rhoV m o ip j * n_grad m (fun a => q a + c) ip j) (fun j => n_rhoV m o ip j * n_grad m q ip j)); [ring|].
  intros j Hj. rewrite !n_grad_at, grad_at_plus. change (grad_at (npe m) (dndx m) (fun a => c) ip j) with (grad_at (npe m) (dndx m) (fun _ => c) ip j).
  rewrite (grad_const m (fun _ => c) c ip j HU Hip Hj) by reflexivity. ring.
Qed.
(** ... so with that form the whole stabilisation is the same for q and q + c (temperatures in Kelvin or Celsius) *)
Theorem C87_independent_of_level : forall m o t mu G q0 qm q1 c s i, unity (npe m) (nscs m) (Ns m) -> grad_unity m -> n_alt o = 1 ->
  gain (scalar_nso m o t mu G (fun a => q0 a + c) (fun a => qm a + c) (fun a => q1 a + c)) s i = gain (scalar_nso m o t mu G q0 qm q1) s i.
Proof.
  intros m o t mu G q0 qm q1 c s i HN HU HA. rewrite !C87_scalar_residual. f_equal. apply net_out_ext. intros ip Hip.
  assert (GE : forall j, (j < ndim m)%nat -> grad_at (npe m) (dndx m) (fun a => q1 a + c) ip j = grad_at (npe m) (dndx m) q1 ip j).
  { intros j Hj. rewrite grad_at_plus. change (grad_at (npe m) (dndx m) (fun a => c) ip j) with (grad_at (npe m) (dndx m) (fun _ => c) ip j).
    rewrite (grad_const m (fun _ => c) c ip j HU Hip Hj) by reflexivity. ring. }
  assert (NU : n_scalar_nu m o t mu G (fun a => q1 a + c) (fun a => q0 a + c) (fun a => qm a + c) ip = n_scalar_nu m o t mu G q1 q0 qm ip).
  { unfold n_scalar_nu. f_equal.
    - unfold n_residual. rewrite HA, C87_linearised_residual_level by assumption. ring.
    - unfold n_quad. apply sumn_ext. intros a Ha. apply sumn_ext. intros b Hb. rewrite !n_grad_at, !GE by assumption. reflexivity. }
  unfold metric_flux. rewrite NU. f_equal. apply sumn_ext. intros a Ha. f_equal. apply sumn_ext. intros b Hb. rewrite GE by assumption. reflexivity.
Qed.
(** in a uniform mass flux the linearised residual is zero for every field: no stabilisation there *)
Theorem C87_linearised_residual_uniform_flow : forall m o q W ip, grad_unity m -> unity (npe m) (nscs m) (Ns m) -> (ip < nscs m)%nat ->
  (forall ic j, (ic < npe m)%nat -> (j < ndim m)%nat -> n_r1 o ic * n_v o (ic*ndim m+j)%nat = W j) -> n_resAlt m o q ip = 0.
Proof.
  intros m o q W ip HU HN Hip HW. unfold n_resAlt.
  assert (C0 : n_cont m o ip = 0).
  { unfold n_cont. rewrite (sumn_ext _ _ (fun ic => sumn (ndim m) (fun j => W j * dndx m ip ic j))) by (intros; apply sumn_ext; intros; rewrite HW by assumption; reflexivity).
    rewrite sumn_swap. apply sumn_zero. intros j Hj. rewrite sumn_scal, HU by assumption. ring. }
  assert (R1 : forall j, (j < ndim m)%nat -> n_rhoV m o ip j = W j).
  { intros j Hj. unfold n_rhoV. rewrite (sumn_ext _ _ (fun ic => Ns m ip ic * W j)) by (intros; rewrite Rmult_assoc, HW by assumption; reflexivity). rewrite sumn_scal_r, HN by assumption. ring. }
  assert (A1 : n_adv m o q ip = sumn (ndim m) (fun j => n_rhoV m o ip j * n_grad m q ip j)).
  { unfold n_adv. rewrite (sumn_ext _ _ (fun ic => sumn (ndim m) (fun j => W j * (q ic * dndx m ip ic j)))) by (intros; apply sumn_ext; intros; rewrite HW by assumption; ring).
    rewrite sumn_swap. apply sumn_ext. intros j Hj. rewrite R1 by assumption. rewrite sumn_scal. reflexivity. }
  rewrite C0, A1. ring.
Qed.
(** the equation residual of a uniform steady scalar is its value times the continuity residual *)
Theorem C87_equation_residual_uniform : forall m o t mu G c q1 q0 qm ip, unity (npe m) (nscs m) (Ns m) -> (ip < nscs m)%nat -> n_ncf o = 0 ->
  (forall ic, (ic < npe m)%nat -> q1 ic = c /\ q0 ic = c /\ qm ic = c) -> (forall a, G a = 0) ->
  n_resPde m o t q1 q0 qm (n_dif m mu G ip) 0 ip = c * n_contRes m o t ip.
Proof.
  intros m o t mu G c q1 q0 qm ip HN Hip HF HQ HG. unfold n_resPde, n_contRes. rewrite HF.
  rewrite (at_scs_const m ip q1 c), (at_scs_const m ip q0 c), (at_scs_const m ip qm c) by (try assumption; intros; apply HQ; assumption).
  assert (D0 : n_dif m mu G ip = 0) by (unfold n_dif; apply sumn_zero; intros; apply sumn_zero; intros; rewrite HG; ring).
  assert (A0 : n_adv m o q1 ip = c * n_cont m o ip).
  { unfold n_adv, n_cont. rewrite <- sumn_scal. apply sumn_ext. intros ic Hic. rewrite <- sumn_scal. apply sumn_ext. intros j Hj. destruct (HQ ic Hic) as [-> _]. ring. }
  rewrite D0, A0. unfold Rdiv. ring.
Qed.
Example C87_hypotheses_met : maps_ok tri_el /\ grad_unity tri_el /\ unity 3 3 (Ns tri_el) /\ grad_linear_exact tri_el tri_xy /\
  linear_field tri_el tri_xy (fun j => INR (S j)) 5 (fun ic => 5 + INR ic).
Proof.
  destruct tri_el_ok as (A & _ & B & _ & C). split; [exact A|]. split; [exact (proj1 C)|]. split; [exact B|]. split; [exact C|].
  intros ic Hic. cbn [npe ndim tri_el] in *. unfold sumn, tri_xy. destruct ic as [|[|[|]]]; [| | |lia]; cbn; lra.
Qed.
