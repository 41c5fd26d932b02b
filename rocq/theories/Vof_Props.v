(** C86: volume-of-fluid transport kernels. *)
Require Import Reals List Bool Lra Lia Arith.
From Verif Require Import RUtil Edge_Model Edge_Proofs Elem_Model Elem_Spec Elem_Proofs Elem_Proofs2 Elem_Props2 Elem_Props3 Time_Model Rad_Quad_Proofs3.
From Verif Require Import Turb_Model Vof_Model Vof_Model2 Vof_Spec.
Import ListNotations.
Open Scope R_scope.

(* ------------------------------------------------------------------ generic shapes of the kernels *)
(** volume kernels: the point's value B and matrix row C go to the nearest node's equation *)
Definition cvk (m : me) (k : esys -> esys) (C : nat -> nat -> R) (B : nat -> R) : Prop :=
  forall s, eff s (k s) (fun i j => sumn (nscv m) (fun ip => dl i (nearest m ip) * C ip j))
                        (fun i => sumn (nscv m) (fun ip => dl i (nearest m ip) * B ip)).
(** surface kernels: flux F with matrix row A leaves the left node and enters the right one *)
Definition pairk (m : me) (k : esys -> esys) (A : nat -> nat -> R) (F : nat -> R) : Prop :=
  forall s, eff s (k s) (fun i j => sumn (nscs m) (fun ip => (dl i (lrL m ip) - dl i (lrR m ip)) * A ip j))
                        (fun i => sumn (nscs m) (fun ip => - ((dl i (lrL m ip) - dl i (lrR m ip)) * F ip))).

Lemma cols_eff n s r (c : nat -> R) :
  eff s (loop n (fun ic s => addL r ic (c ic) s) s) (fun i j => dl i r * sumn n (fun ic => dl j ic * c ic)) (fun _ => 0).
Proof.
  eapply eff_ext.
  - apply (eff_loop n _ (fun ic i j => dl i r * dl j ic * c ic) (fun _ _ => 0)). intros. apply eff_addL.
  - intros. rewrite <- sumn_scal. apply sumn_ext. intros; ring.
  - intros. apply sumn_zero. reflexivity.
Qed.
Lemma cols_acc n s r (c : nat -> R) (g : nat -> R) a :
  let st := loop n (fun ic st => (addL r ic (c ic) (fst st), snd st + g ic)) (s, a) in
  snd st = a + sumn n g /\ eff s (fst st) (fun i j => dl i r * sumn n (fun ic => dl j ic * c ic)) (fun _ => 0).
Proof.
  cbv zeta.
  destruct (loop_acc n (fun ic st => (addL r ic (c ic) (fst st), snd st + g ic)) (fun ic a => a + g ic) (fun ic i j => dl i r * dl j ic * c ic) (fun _ _ => 0) s a) as [H1 H2].
  - reflexivity.
  - intros. apply eff_addL.
  - split; [rewrite H1; apply loop_sum|]. eapply eff_ext; [exact H2| |].
    + intros. rewrite <- sumn_scal. apply sumn_ext. intros; ring.
    + intros. apply sumn_zero. reflexivity.
Qed.
Lemma cvk_loop m (body : nat -> esys -> esys) C B :
  (forall ip s, (ip < nscv m)%nat -> eff s (body ip s) (fun i j => dl i (nearest m ip) * C ip j) (fun i => dl i (nearest m ip) * B ip)) ->
  cvk m (fun s => loop (nscv m) body s) C B.
Proof. intros H s. apply (eff_loop (nscv m) body (fun ip i j => dl i (nearest m ip) * C ip j) (fun ip i => dl i (nearest m ip) * B ip)). assumption. Qed.
Lemma pairk_loop m (body : nat -> esys -> esys) A F :
  (forall ip s, (ip < nscs m)%nat -> eff s (body ip s) (fun i j => (dl i (lrL m ip) - dl i (lrR m ip)) * A ip j) (fun i => - ((dl i (lrL m ip) - dl i (lrR m ip)) * F ip))) ->
  pairk m (fun s => loop (nscs m) body s) A F.
Proof. intros H s. apply (eff_loop (nscs m) body (fun ip i j => (dl i (lrL m ip) - dl i (lrR m ip)) * A ip j) (fun ip i => - ((dl i (lrL m ip) - dl i (lrR m ip)) * F ip))). assumption. Qed.
Lemma cv_int_dl m f i : cv_int m f i = sumn (nscv m) (fun ip => dl i (nearest m ip) * (vol m ip * f ip)).
Proof. unfold cv_int. apply sumn_ext. intros. unfold dl. destruct (Nat.eqb _ _); ring. Qed.
Lemma cv_int_ext m f g i : (forall ip, (ip < nscv m)%nat -> f ip = g ip) -> cv_int m f i = cv_int m g i.
Proof. intros H. unfold cv_int. apply sumn_ext. intros ip Hip. rewrite H by assumption. reflexivity. Qed.
Lemma cv_int_scal m c f i : cv_int m (fun ip => c * f ip) i = c * cv_int m f i.
Proof. rewrite !cv_int_dl, <- sumn_scal. apply sumn_ext. intros; ring. Qed.
Lemma cv_int_total m f : maps_ok m -> sumn (npe m) (cv_int m f) = el_int m f.
Proof.
  intros [_ HM]. rewrite (sumn_ext _ _ _ (fun i _ => cv_int_dl m f i)), sumn_swap. apply sumn_ext. intros ip Hip.
  apply (sumn_dl (npe m) (nearest m ip) (fun _ => vol m ip * f ip)). apply HM. assumption.
Qed.
Lemma cvk_gain m k C B s i f : cvk m k C B -> (forall ip, (ip < nscv m)%nat -> B ip = - (vol m ip * f ip)) -> gain k s i = - cv_int m f i.
Proof.
  intros H E. unfold gain. rewrite (proj2 (H s)), cv_int_dl, <- sumn_opp. unfold Rminus. rewrite Rplus_comm, <- Rplus_assoc, Rplus_opp_l, Rplus_0_l.
  apply sumn_ext. intros ip Hip. rewrite E by assumption. ring.
Qed.
Lemma pairk_gain m k A F s i : pairk m k A F -> gain k s i = - net_out m F i.
Proof. intros H. unfold gain. rewrite (eff_net m s (k s) _ F i (H s)). ring. Qed.
Lemma cvk_newton m (k : (nat -> R) -> esys -> esys) C B : (forall q, cvk m (k q) C (B q)) ->
  (forall q d ip, (ip < nscv m)%nat -> B (fun a => q a + d a) ip = B q ip - sumn (npe m) (fun j => C ip j * d j)) -> exact_newton (npe m) k.
Proof.
  intros H L q d s i Hi. rewrite (proj2 (H (fun a => q a + d a) s)), (proj2 (H q s)).
  rewrite (sumn_ext (npe m) _ (fun j => sumn (nscv m) (fun ip => dl i (nearest m ip) * (C ip j * d j)))).
  2:{ intros j _. rewrite (proj1 (H q s)). rewrite Rplus_comm. unfold Rminus. rewrite Rplus_assoc, Rplus_opp_r, Rplus_0_r, <- sumn_scal_r. apply sumn_ext. intros; ring. }
  rewrite (sumn_swap (npe m)).
  rewrite (sumn_ext (nscv m) (fun ip => _ * B (fun a => q a + d a) ip) (fun ip => dl i (nearest m ip) * B q ip - sumn (npe m) (fun j => dl i (nearest m ip) * (C ip j * d j)))).
  - rewrite sumn_minus. ring.
  - intros ip Hip. rewrite L by assumption. rewrite sumn_scal. ring.
Qed.
Lemma cols_pick n c (d : nat -> R) : sumn n (fun j => sumn n (fun ic => dl j ic * c ic) * d j) = sumn n (fun ic => c ic * d ic).
Proof.
  rewrite (sumn_ext n _ (fun j => sumn n (fun ic => dl j ic * (c ic * d j)))) by (intros; rewrite <- sumn_scal_r; apply sumn_ext; intros; ring).
  rewrite sumn_swap. apply sumn_ext. intros ic Hic. apply (sumn_dl n ic (fun j => c ic * d j)). assumption.
Qed.
Lemma pairk_newton m (k : (nat -> R) -> esys -> esys) A F : (forall q, pairk m (k q) A (F q)) ->
  (forall q d ip, (ip < nscs m)%nat -> F (fun a => q a + d a) ip = F q ip + sumn (npe m) (fun j => A ip j * d j)) -> exact_newton (npe m) k.
Proof. intros H L. apply (pair_newton (npe m) k (nscs m) (lrL m) (lrR m) A F); [exact H|exact L]. Qed.
Lemma pairk_conservative m k A F : maps_ok m -> pairk m k A F -> conservative (npe m) k.
Proof. intros [HM _] H. apply (pair_conservative (npe m) k (nscs m) (lrL m) (lrR m) A F); [exact H|exact HM]. Qed.
Lemma at_scv_sum m q ip : at_scv m q ip = sumn (npe m) (fun ic => Nv m ip ic * q ic). Proof. reflexivity. Qed.

(* ------------------------------------------------------------------ time term *)
Lemma vof_mass_cvk m t a1 a0 am : cvk m (vof_mass m t a1 a0 am)
  (fun ip j => sumn (npe m) (fun ic => dl j ic * (Nv m ip ic * ga1 t / dt t * vol m ip)))
  (fun ip => - (vol m ip * ((ga1 t*at_scv m a1 ip + ga2 t*at_scv m a0 ip + ga3 t*at_scv m am ip) / dt t))).
Proof.
  unfold vof_mass. cbv zeta. apply cvk_loop. intros ip s Hip. eapply eff_ext.
  - eapply eff_trans; [apply cols_eff|apply eff_addB].
  - intros. cbv beta. ring.
  - intros. cbv beta. ring.
Qed.
(** the time term of node i is the rate of change of the volume of fluid in its part of the element *)
Theorem C86_time_term : forall m t a1 a0 am s i,
  gain (vof_mass m t a1 a0 am) s i
  = - cv_int m (fun ip => (ga1 t*at_scv m a1 ip + ga2 t*at_scv m a0 ip + ga3 t*at_scv m am ip) / dt t) i.
Proof. intros. apply (cvk_gain _ _ _ _ s i _ (vof_mass_cvk m t a1 a0 am)). reflexivity. Qed.
Theorem C86_time_term_newton : forall m t a0 am, exact_newton (npe m) (fun q => vof_mass m t q a0 am).
Proof.
  intros. eapply cvk_newton; [intros; apply vof_mass_cvk|]. intros q d ip Hip. cbv beta. rewrite cols_pick, at_scv_plus.
  rewrite (sumn_ext (npe m) (fun ic => Nv m ip ic * ga1 t / dt t * vol m ip * d ic) (fun ic => (ga1 t / dt t * vol m ip) * (Nv m ip ic * d ic))) by (intros; unfold Rdiv; ring).
  rewrite sumn_scal. fold (at_scv m d ip). unfold Rdiv. ring.
Qed.
(** an unchanging field has no time term, for every time-step history *)
Theorem C86_time_term_steady : forall m ti q s i, 0 < dtN ti -> 0 < dtNm1 ti ->
  gain (vof_mass m (dts_of (compute_gamma ti)) q q q) s i = 0.
Proof.
  intros m ti q s i H1 H2. rewrite C86_time_term. rewrite (cv_int_ext m _ (fun ip => 0 * 1)).
  - rewrite cv_int_scal. ring.
  - intros ip _. pose proof (gamma_sum ti H1 H2) as G. cbn [dts_of ga1 ga2 ga3 dt].
    rewrite <- !Rmult_plus_distr_r, G. unfold Rdiv. ring.
Qed.

(* ------------------------------------------------------------------ central advection *)
Lemma vof_scs_adv_pairk m vdot q : pairk m (vof_scs_adv m vdot q)
  (fun ip j => sumn (npe m) (fun ic => dl j ic * (Ns m ip ic * vdot ip))) (fun ip => vdot ip * at_scs m q ip).
Proof.
  unfold vof_scs_adv. cbv zeta. apply pairk_loop. intros ip s Hip. set (il := lrL m ip). set (ir := lrR m ip).
  match goal with |- context [loop (npe m) ?b (s, 0)] => set (body := b) end.
  destruct (loop_acc (npe m) body (fun ic a => a + Ns m ip ic * vdot ip * q ic)
    (fun ic i j => (dl i il - dl i ir) * (dl j ic * (Ns m ip ic * vdot ip))) (fun _ _ => 0) s 0) as [H1 H2].
  - reflexivity.
  - intros ic s1 a _. cbn [body fst]. eapply eff_ext; [eapply eff_trans; apply eff_addL| |]; intros; cbv beta; ring.
  - destruct (loop (npe m) body (s, 0)) as [s1 a1]. cbn [fst snd] in H1, H2. rewrite loop_sum in H1.
    eapply eff_ext.
    + eapply eff_trans; [exact H2|]. eapply eff_trans; apply eff_addB.
    + intros i j. cbv beta. rewrite sumn_scal. ring.
    + intros i. cbv beta. rewrite sumn_zero by reflexivity. rewrite H1. unfold at_scs. rewrite <- sumn_scal.
      rewrite (sumn_ext (npe m) (fun ic => Ns m ip ic * vdot ip * q ic) (fun ic => vdot ip * (Ns m ip ic * q ic))) by (intros; ring). ring.
Qed.
(** fluid leaves a control volume at the rate flow rate times volume fraction through each face *)
Theorem C86_advection_residual : forall m vdot q s i,
  gain (vof_scs_adv m vdot q) s i = - net_out m (fun ip => vdot ip * at_scs m q ip) i.
Proof. intros. apply (pairk_gain _ _ _ _ _ _ (vof_scs_adv_pairk m vdot q)). Qed.
Theorem C86_advection_conservative : forall m vdot q, maps_ok m -> conservative (npe m) (vof_scs_adv m vdot q).
Proof. intros. eapply pairk_conservative; [assumption|apply vof_scs_adv_pairk]. Qed.
Theorem C86_advection_newton : forall m vdot, exact_newton (npe m) (vof_scs_adv m vdot).
Proof.
  intros. eapply pairk_newton; [intros; apply vof_scs_adv_pairk|]. intros q d ip Hip. cbv beta. rewrite cols_pick.
  unfold at_scs. rewrite (sumn_ext (npe m) (fun ic => Ns m ip ic * vdot ip * d ic) (fun ic => vdot ip * (Ns m ip ic * d ic))) by (intros; ring).
  rewrite sumn_scal, <- Rmult_plus_distr_l, <- sumn_plus. f_equal. apply sumn_ext. intros; ring.
Qed.
(** without a stored flow rate the velocity interpolated to the face point is used *)
Theorem C86_flow_rate_without_stabilisation : forall m v q s i,
  gain (vof_scs_adv m (vdot_nopstab m v) q) s i
  = - net_out m (fun ip => dotn (ndim m) (vec_at (npe m) (ndim m) (Ns m) v ip) (area m ip) * at_scs m q ip) i.
Proof. intros. apply C86_advection_residual. Qed.
Lemma at_scs_const m ip q c : unity (npe m) (nscs m) (Ns m) -> (ip < nscs m)%nat ->
  (forall a, (a < npe m)%nat -> q a = c) -> at_scs m q ip = c.
Proof. intros U Hip E. unfold at_scs. rewrite (sumn_ext (npe m) _ (fun ic => Ns m ip ic * c)) by (intros; rewrite E by assumption; reflexivity). rewrite sumn_scal_r, U by assumption. ring. Qed.
Lemma net_out_scal m c F i : net_out m (fun ip => c * F ip) i = c * net_out m F i.
Proof. rewrite !net_out_dl, <- sumn_scal. apply sumn_ext. intros; ring. Qed.
(** a uniform volume fraction is only changed by a net outflow of volume *)
Theorem C86_uniform_advection : forall m vdot q c s i, unity (npe m) (nscs m) (Ns m) -> (forall a, (a < npe m)%nat -> q a = c) ->
  gain (vof_scs_adv m vdot q) s i = - c * net_out m vdot i.
Proof.
  intros m vdot q c s i U E. rewrite C86_advection_residual. rewrite (net_out_ext m _ (fun ip => c * vdot ip)).
  - rewrite net_out_scal. ring.
  - intros ip Hip. rewrite (at_scs_const m ip q c U Hip E). ring.
Qed.

(* ------------------------------------------------------------------ upwinded advection *)
Definition upw_cols (m : me) (vdot : nat -> R) (ip j : nat) : R :=
  dl j (lrL m ip) * ((1/2)*(vdot ip + Rabs (vdot ip)) - (1/2)*(vdot ip - Rabs (vdot ip))).
Lemma vof_scs_upw_pairk m o vdot q : pairk m (vof_scs_upw m o vdot q) (upw_cols m vdot) (fun ip => vdot ip * vof_upwind m o vdot q ip).
Proof.
  unfold vof_scs_upw. cbv zeta. apply pairk_loop. intros ip s Hip. set (adv := vdot ip * _). eapply eff_ext.
  - eapply eff_trans; [|apply eff_addL]. eapply eff_trans; [|apply eff_addL]. eapply eff_trans; [|apply eff_addL]. eapply eff_trans; [|apply eff_addL].
    eapply eff_trans; apply eff_addB.
  - intros i j. cbv beta. unfold upw_cols. ring.
  - intros i. cbv beta. ring.
Qed.
Theorem C86_upwind_residual : forall m o vdot q s i,
  gain (vof_scs_upw m o vdot q) s i
  = - net_out m (fun ip => vdot ip * (if Rlt_dec 0 (vdot ip) then vof_left m o q ip else vof_right m o q ip)) i.
Proof. intros. apply (pairk_gain _ _ _ _ _ _ (vof_scs_upw_pairk m o vdot q)). Qed.
Theorem C86_upwind_conservative : forall m o vdot q, maps_ok m -> conservative (npe m) (vof_scs_upw m o vdot q).
Proof. intros. eapply pairk_conservative; [assumption|apply vof_scs_upw_pairk]. Qed.
(** with the limiter the advected value never leaves the interval spanned by the two nodes, whatever the nodal
    gradients and the flow: no new minimum or maximum of the volume fraction is advected *)
Theorem C86_limited_value_between_nodes : forall m o vdot q ip, vu_lim o = true -> 0 < vu_small o -> 0 <= vu_ho o <= 1 ->
  Rmin (q (lrL m ip)) (q (lrR m ip)) <= vof_upwind m o vdot q ip <= Rmax (q (lrL m ip)) (q (lrR m ip)).
Proof.
  intros m o vdot q ip HL HS HO.
  assert (K : forall dq x, let inc := x * vu_ho o * van_leer (2*2*x - dq) dq (vu_small o) in (0 <= inc <= dq) \/ (dq <= inc <= 0)).
  { intros dq x inc. pose proof (limited_increment (2*2*x - dq) dq (vu_small o) HS) as H. cbv zeta in H.
    replace ((2*2*x - dq + dq)/4) with x in H by field.
    assert (E : inc = vu_ho o * (x * van_leer (2*2*x - dq) dq (vu_small o))) by (unfold inc; ring).
    set (w := x * van_leer _ _ _) in *. rewrite E. clearbody w. clear inc E.
    assert (P : forall y, 0 <= y -> 0 <= vu_ho o * y <= y).
    { intros y Hy. split; [apply Rmult_le_pos; lra|]. apply Rle_trans with (1*y); [apply Rmult_le_compat_r; lra|lra]. }
    destruct H as [H|H]; [left; specialize (P w)|right; specialize (P (-w))]; lra. }
  unfold vof_upwind, vof_left, vof_right. rewrite HL. unfold Rmin, Rmax.
  destruct (Rlt_dec 0 (vdot ip)).
  - set (x := sumn _ _). specialize (K (q (lrR m ip) - q (lrL m ip)) x). cbv zeta in K. destruct (Rle_dec _ _); destruct K; lra.
  - set (x := sumn _ _). specialize (K (q (lrR m ip) - q (lrL m ip)) x). cbv zeta in K. destruct (Rle_dec _ _); destruct K; lra.
Qed.
(** first order: the upstream nodal value itself *)
Theorem C86_first_order_upstream_value : forall m o vdot q ip, vu_ho o = 0 ->
  vof_upwind m o vdot q ip = if Rlt_dec 0 (vdot ip) then q (lrL m ip) else q (lrR m ip).
Proof. intros m o vdot q ip H. unfold vof_upwind, vof_left, vof_right. rewrite H. destruct (Rlt_dec _ _); ring. Qed.
(** linear fields are advected exactly when the limiter is off and the order factor is one *)
Theorem C86_linear_field_extrapolated_exactly : forall m o vdot q ip a (g : nat -> R), maps_ok m -> (ip < nscs m)%nat ->
  unity (npe m) (nscs m) (Ns m) -> vu_lim o = false -> vu_ho o = 1 ->
  (forall ic, (ic < npe m)%nat -> q ic = a + sumn (ndim m) (fun j => g j * vu_x o (ic*ndim m+j)%nat)) ->
  (forall ic j, (ic < npe m)%nat -> (j < ndim m)%nat -> vu_G o (ic*ndim m+j)%nat = g j) ->
  vof_upwind m o vdot q ip = at_scs m q ip.
Proof.
  intros m o vdot q ip a g [HM _] Hip U HL HO HQ HG. destruct (HM ip Hip) as [Hl Hr].
  assert (E : at_scs m q ip = a + sumn (ndim m) (fun j => g j * vof_xip m o ip j)).
  { unfold at_scs. rewrite (sumn_ext (npe m) _ (fun ic => Ns m ip ic * a + sumn (ndim m) (fun j => g j * (Ns m ip ic * vu_x o (ic*ndim m+j)%nat)))).
    - rewrite sumn_plus, sumn_scal_r, U by assumption. rewrite sumn_swap. rewrite Rmult_1_l. f_equal. apply sumn_ext. intros j _. rewrite sumn_scal. reflexivity.
    - intros ic Hic. rewrite HQ by assumption. rewrite Rmult_plus_distr_l. f_equal. rewrite <- sumn_scal. apply sumn_ext. intros; ring. }
  unfold vof_upwind, vof_left, vof_right. rewrite HL, HO, E. destruct (Rlt_dec _ _).
  - rewrite (HQ _ Hl). rewrite !Rmult_1_r, Rplus_assoc. f_equal. rewrite <- sumn_plus. apply sumn_ext. intros j Hj. rewrite HG by assumption. ring.
  - rewrite (HQ _ Hr). rewrite !Rmult_1_r. unfold Rminus. rewrite Rplus_assoc. f_equal. rewrite <- sumn_opp, <- sumn_plus. apply sumn_ext. intros j Hj. rewrite HG by assumption. ring.
Qed.
Theorem C86_upwind_uniform : forall m o vdot q c s i, maps_ok m -> (forall a, (a < npe m)%nat -> q a = c) -> (forall a, vu_G o a = 0) ->
  gain (vof_scs_upw m o vdot q) s i = - c * net_out m vdot i.
Proof.
  intros m o vdot q c s i [HM _] E HG. rewrite (pairk_gain _ _ _ _ _ _ (vof_scs_upw_pairk m o vdot q)).
  rewrite (net_out_ext m _ (fun ip => c * vdot ip)); [rewrite net_out_scal; ring|]. intros ip Hip. destruct (HM ip Hip) as [Hl Hr].
  unfold vof_upwind, vof_left, vof_right. rewrite (sumn_zero (ndim m)) by (intros; rewrite HG; ring). rewrite (sumn_zero (ndim m)) by (intros; rewrite HG; ring).
  rewrite (E _ Hl), (E _ Hr). destruct (Rlt_dec _ _); ring.
Qed.
(** the matrix of the first-order scheme is exact where the flow goes from left to right ... *)
Theorem C86_upwind_newton_forward_partial : forall m o vdot, maps_ok m -> vu_ho o = 0 -> (forall ip, (ip < nscs m)%nat -> 0 <= vdot ip) ->
  exact_newton (npe m) (vof_scs_upw m o vdot).
Proof.
  intros m o vdot [HM _] HO HV. eapply pairk_newton; [intros; apply vof_scs_upw_pairk|]. intros q d ip Hip. destruct (HM ip Hip) as [Hl Hr].
  cbv beta. rewrite !C86_first_order_upstream_value by assumption. unfold upw_cols. rewrite (Rabs_right (vdot ip)) by (apply Rle_ge; apply HV; assumption).
  rewrite (sumn_ext (npe m) _ (fun j => dl j (lrL m ip) * (vdot ip * d j))) by (intros; field).
  rewrite (sumn_dl (npe m) (lrL m ip) (fun j => vdot ip * d j)) by assumption.
  destruct (Rlt_dec 0 (vdot ip)); [ring|]. assert (vdot ip = 0) as -> by (specialize (HV ip Hip); lra). ring.
Qed.
(** ... and wrong wherever the flow goes from right to left: the sensitivity to the upstream (right) node is put
    in the left node's column with the wrong sign, at every point with distinct nodes *)
Theorem C86_upwind_newton_refuted : forall m o vdot ip, maps_ok m -> (ip < nscs m)%nat -> lrL m ip <> lrR m ip ->
  vu_ho o = 0 -> vdot ip < 0 -> (forall k, (k < nscs m)%nat -> k <> ip -> vdot k = 0) -> ~ exact_newton (npe m) (vof_scs_upw m o vdot).
Proof.
  intros m o vdot ip [HM _] L0 Hne HO HV HZ HN. destruct (HM ip L0) as [Hl Hr].
  set (l := lrL m ip) in *. set (r := lrR m ip) in *.
  specialize (HN (fun _ => 0) (fun a => dl a r) (mkE (fun _ _ => 0) (fun _ => 0)) l Hl).
  pose proof (vof_scs_upw_pairk m o vdot (fun _ => 0) (mkE (fun _ _ => 0) (fun _ => 0))) as [EL E0].
  pose proof (vof_scs_upw_pairk m o vdot (fun a => 0 + dl a r) (mkE (fun _ _ => 0) (fun _ => 0))) as [_ E1].
  cbv beta in E0, E1, EL. cbn [eB eL_] in EL, E0, E1.
  rewrite E1, E0 in HN.
  assert (S1 : forall X : nat -> R, sumn (nscs m) (fun k => - ((dl l (lrL m k) - dl l (lrR m k)) * (vdot k * X k))) = - ((dl l l - dl l r) * (vdot ip * X ip))).
  { intros X. rewrite (sumn_single (nscs m) ip); [reflexivity|assumption|]. intros k Hk Hn. rewrite HZ by assumption. ring. }
  rewrite !S1 in HN.
  rewrite (C86_first_order_upstream_value m o vdot (fun _ => 0) ip HO) in HN.
  rewrite (C86_first_order_upstream_value m o vdot (fun a => 0 + dl a r) ip HO) in HN.
  destruct (Rlt_dec 0 (vdot ip)); [lra|]. 
  rewrite (sumn_ext (npe m) _ (fun j => dl j r * eL_ (vof_scs_upw m o vdot (fun _ => 0) (mkE (fun _ _ => 0) (fun _ => 0))) l j)) in HN by (intros; cbn [eL_]; ring).
  rewrite (sumn_dl (npe m) r) in HN by assumption. rewrite EL in HN.
  rewrite (sumn_single (nscs m) ip) in HN; [|assumption|].
  2:{ intros k Hk Hn. unfold upw_cols. rewrite HZ, Rabs_R0 by assumption. ring. }
  unfold upw_cols in HN. fold l r in HN.
  assert (D0 : dl r l = 0) by (unfold dl; destruct (Nat.eqb_spec r l); [congruence|reflexivity]).
  assert (D1 : dl l r = 0) by (rewrite dl_sym; assumption).
  assert (D2 : forall k, dl k k = 1) by (intros; unfold dl; rewrite Nat.eqb_refl; reflexivity).
  rewrite D0, D1, !D2 in HN. lra.
Qed.
