(** * Element kernels: conservation, Newton consistency, preserved solutions (C49-C52). *)
Require Import Reals List Bool Lra Lia Arith.
From Verif Require Import RUtil Edge_Model Edge_Proofs Elem_Model Elem_Spec Elem_Proofs Elem_Proofs2 Elem_Proofs3.
Import ListNotations.
Open Scope R_scope.

Lemma sum_col n d (f : nat -> R) : sumn n (fun j => sumn n (fun ic => dl j ic * f ic) * d j) = sumn n (fun ic => f ic * d ic).
Proof.
  rewrite (sumn_ext n _ (fun j => sumn n (fun ic => dl j ic * f ic * d j))) by (intros; symmetry; apply sumn_scal_r).
  rewrite sumn_swap. apply sumn_ext. intros ic Hic.
  rewrite (sumn_ext n _ (fun j => dl j ic * (f ic * d j))) by (intros; ring). apply sumn_dl. assumption.
Qed.
Lemma sum_col' n d (f : nat -> R) k : (k < n)%nat -> sumn n (fun j => dl j k * f j * d j) = f k * d k.
Proof. intros. rewrite (sumn_ext n _ (fun j => dl j k * (f j * d j))) by (intros; ring). apply sumn_dl. assumption. Qed.

(** ** C49: what a flux kernel takes from one node's balance it gives to another's *)
Theorem C49_scalar_diff_conservative : forall m coef q, maps_ok m -> conservative (npe m) (scalar_diff m coef q).
Proof. intros m coef q [H _]. eapply pair_conservative; [intros; apply scalar_diff_eff|exact H]. Qed.
Theorem C49_scalar_advdiff_conservative : forall m mdot coef q, maps_ok m -> conservative (npe m) (scalar_advdiff m mdot coef q).
Proof. intros m mdot coef q [H _]. eapply pair_conservative; [intros; apply scalar_advdiff_eff|exact H]. Qed.
Theorem C49_scalar_upwind_conservative : forall m o G mdot coef q, maps_ok m ->
  conservative (npe m) (scalar_upw m o G mdot coef q).
Proof. intros m o G mdot coef q [H _]. eapply pair_conservative; [intros; apply scalar_upw_eff|exact H]. Qed.
Theorem C49_continuity_conservative : forall m tau c, maps_ok m -> conservative (npe m) (continuity_adv m tau c).
Proof. intros m tau c [H _]. eapply pair_conservative; [intros; apply continuity_eff|exact H]. Qed.
Theorem C49_momentum_conservative : forall m inc mdot mu u, maps_ok m ->
  conservative_vec (ndim m) (npe m) (momentum_advdiff m inc mdot mu u).
Proof. intros. eapply (vec_conservative m H _ (fun u => momentum_advdiff m inc mdot mu u)). intros; apply momentum_eff. Qed.
Theorem C49_momentum_upwind_conservative : forall m o G inc mdot mu u, maps_ok m ->
  conservative_vec (ndim m) (npe m) (momentum_upw m o G inc mdot mu u).
Proof. intros. eapply (vec_conservative m H _ (fun u => momentum_upw m o G inc mdot mu u)). intros; apply momentum_upw_eff. Qed.

(** the contribution does not depend on what other kernels have already added *)
Lemma eff_additive k A b : (forall s, eff s (k s) A b) -> additive k.
Proof. intros H s s' i. destruct (H s) as [H1 H2], (H s') as [H3 H4]. split; intros; [rewrite H1, H3|rewrite H2, H4]; lra. Qed.
Theorem C49_kernels_additive : forall m o G Gu inc tau c mdot coef q u,
  additive (scalar_diff m coef q) /\ additive (scalar_advdiff m mdot coef q) /\ additive (scalar_upw m o G mdot coef q)
  /\ additive (continuity_adv m tau c) /\ additive (momentum_advdiff m inc mdot coef u) /\ additive (momentum_upw m o Gu inc mdot coef u).
Proof.
  intros. repeat apply conj; eapply eff_additive; intros s.
  - apply scalar_diff_eff. - apply scalar_advdiff_eff. - apply scalar_upw_eff. - apply continuity_eff.
  - apply momentum_eff. - apply momentum_upw_eff.
Qed.

(** ** C50: the matrix is the exact sensitivity of the residual *)
Theorem C50_scalar_diff_newton : forall m coef, exact_newton (npe m) (scalar_diff m coef).
Proof.
  intros m coef. eapply (pair_newton _ _ _ _ _ _ (fun q ip => sumn (npe m) (fun ic => diff_coef m coef ip ic * q ic))).
  - intros; apply scalar_diff_eff.
  - intros q d ip Hip. cbv beta. rewrite sum_col, <- sumn_plus. apply sumn_ext. intros; ring.
Qed.
Theorem C50_scalar_advdiff_newton : forall m mdot coef, exact_newton (npe m) (scalar_advdiff m mdot coef).
Proof.
  intros m mdot coef. eapply (pair_newton _ _ _ _ _ _ (fun q ip => sumn (npe m) (fun ic => adv_coef m mdot coef ip ic * q ic))).
  - intros; apply scalar_advdiff_eff.
  - intros q d ip Hip. cbv beta. rewrite sum_col, <- sumn_plus. apply sumn_ext. intros; ring.
Qed.

Lemma at_adv_plus m q d ip : at_adv m (fun a => q a + d a) ip = at_adv m q ip + at_adv m d ip.
Proof. unfold at_adv. rewrite <- sumn_plus. apply sumn_ext. intros; ring. Qed.

(** upwind kernel with the limiter off: exact, with the nodal gradient used in the extrapolation held fixed *)
Lemma face_newton m o G coef q d md ip : u_lim o = false -> 
  md * face_val m o G coef (fun a => q a + d a) md ip = md * face_val m o G coef q md ip
   + (upL o (pec_of m o coef ip) md * d (lrL m ip) + upR o (pec_of m o coef ip) md * d (lrR m ip)
      + md * upC o (pec_of m o coef ip) * at_adv m d ip).
Proof.
  intros Hl. unfold face_val, qL_of, qR_of. rewrite Hl. cbv zeta. rewrite at_adv_plus. unfold upL, upR, upC.
  destruct (Rlt_dec 0 md) as [h|h].
  - rewrite (Rabs_right md) by lra. field.
  - rewrite (Rabs_left1 md) by lra. field.
Qed.
Theorem C50_scalar_upwind_newton : forall m o G mdot coef, maps_ok m -> u_lim o = false ->
  exact_newton (npe m) (scalar_upw m o G mdot coef).
Proof.
  intros m o G mdot coef [Hm _] Hl.
  eapply (pair_newton _ _ _ _ _ _ (fun q ip => upw_flux m o G mdot coef q ip)).
  - intros; apply scalar_upw_eff.
  - intros q d ip Hip. unfold upw_flux, upw_row. cbv zeta. rewrite face_newton by assumption.
    destruct (Hm ip Hip) as [H1 H2].
    rewrite (sumn_ext (npe m) (fun j => (_ + _ + _) * d j)
       (fun j => dl j (lrL m ip) * (upL o (pec_of m o coef ip) (mdot ip) * d j) + dl j (lrR m ip) * (upR o (pec_of m o coef ip) (mdot ip) * d j)
         + sumn (npe m) (fun ic => dl j ic * (Na m ip ic * mdot ip * upC o (pec_of m o coef ip) + diff_coef m coef ip ic)) * d j)) by (intros; ring).
    rewrite !sumn_plus, !sumn_dl by assumption. rewrite sum_col.
    rewrite (sumn_ext (npe m) (fun ic => (_ + diff_coef m coef ip ic) * d ic) (fun ic => mdot ip * upC o (pec_of m o coef ip) * (Na m ip ic * d ic) + diff_coef m coef ip ic * d ic)) by (intros; ring).
    rewrite sumn_plus, sumn_scal.
    rewrite (sumn_ext (npe m) (fun ic => diff_coef m coef ip ic * (q ic + d ic)) (fun ic => diff_coef m coef ip ic * q ic + diff_coef m coef ip ic * d ic)) by (intros; ring).
    rewrite sumn_plus. unfold at_adv. ring.
Qed.

Definition with_p (c : cfields) (p : nat -> R) : cfields := mkC (cf_rho c) p (cf_v c) (cf_Gp c).
(** pressure Poisson system, full sensitivities (dndx_lhs = dndx) and projected gradient held fixed *)
Theorem C50_continuity_newton : forall m tau c, tau <> 0 ->
  (forall ip ic j, dndx_lhs m ip ic j = dndx m ip ic j) ->
  exact_newton (npe m) (fun p => continuity_adv m tau (with_p c p)).
Proof.
  intros m tau c Ht Hd.
  eapply (pair_newton _ (fun p => continuity_adv m tau (with_p c p)) _ _ _ _ (fun p ip => mdot_elem m tau (with_p c p) ip / tau)).
  - intros; apply continuity_eff.
  - intros q d ip Hip. cbv beta. rewrite sum_col. unfold mdot_elem, with_p. cbn [cf_p cf_rho cf_v cf_Gp].
    match goal with |- ?a / tau = ?b / tau + ?c0 => enough (E : a = b + tau * c0) by (rewrite E; field; assumption) end.
    rewrite (sumn_ext (npe m) (fun ic => sumn (ndim m) _ * d ic) (fun ic => sumn (ndim m) (fun k => - dndx m ip ic k * area m ip k * d ic))).
    2:{ intros ic _. rewrite <- sumn_scal_r. apply sumn_ext. intros; rewrite Hd; reflexivity. }
    rewrite sumn_swap, <- sumn_scal, <- sumn_plus. apply sumn_ext. intros j _.
    rewrite (sumn_ext (npe m) (fun ic => dndx m ip ic j * (q ic + d ic)) (fun ic => dndx m ip ic j * q ic + dndx m ip ic j * d ic)) by (intros; ring).
    rewrite sumn_plus.
    rewrite (sumn_ext (npe m) (fun ic => - dndx m ip ic j * area m ip j * d ic) (fun ic => (- area m ip j) * (dndx m ip ic j * d ic))) by (intros; ring).
    rewrite sumn_scal. ring.
Qed.

(** momentum: exact when the explicit div(u) stress is off *)
Lemma node_newton m muIp fA (d : nat -> R) ip ic i : (ic < npe m)%nat -> (i < ndim m)%nat ->
  sumn (npe m*ndim m) (fun col => node_row m muIp fA ip ic i col * d col) = fA * d (ic*ndim m+i)%nat + node_flux m muIp d ip ic i.
Proof.
  intros Hc Hi. unfold node_row, node_flux.
  assert (B : forall j, (j < ndim m)%nat -> (ic*ndim m+j < npe m*ndim m)%nat) by (intros; nia).
  rewrite (sumn_ext (npe m*ndim m) _ (fun col => dl col (ic*ndim m+i) * ((fA + visc_lap m muIp ip ic) * d col)
      + sumn (ndim m) (fun j => dl col (ic*ndim m+j) * (visc_sym m muIp ip ic i j * d col)))).
  2:{ intros col _. rewrite Rmult_plus_distr_r, <- sumn_scal_r. f_equal; [ring|apply sumn_ext; intros; ring]. }
  rewrite sumn_plus, sumn_dl by auto. rewrite sumn_swap.
  rewrite (sumn_ext (ndim m) (fun j => sumn (npe m*ndim m) _) (fun j => visc_sym m muIp ip ic i j * d (ic*ndim m+j)%nat)).
  - ring.
  - intros j Hj. apply (sumn_dl (npe m*ndim m) (ic*ndim m+j) (fun col => visc_sym m muIp ip ic i j * d col)). auto.
Qed.
Lemma node_flux_plus m muIp u d ip ic i : node_flux m muIp (fun a => u a + d a) ip ic i = node_flux m muIp u ip ic i + node_flux m muIp d ip ic i.
Proof.
  unfold node_flux. rewrite (sumn_ext (ndim m) (fun j => _ * (u _ + d _)) (fun j => visc_sym m muIp ip ic i j * u (ic*ndim m+j)%nat + visc_sym m muIp ip ic i j * d (ic*ndim m+j)%nat)) by (intros; ring).
  rewrite sumn_plus. ring.
Qed.
Lemma mom_row_newton m mu mdot fA d ip i : (i < ndim m)%nat ->
  sumn (npe m*ndim m) (fun col => mom_row m mu mdot fA ip i col * d col)
  = sumn (npe m) (fun ic => fA ip ic * d (ic*ndim m+i)%nat) + mom_visc m mu d ip i.
Proof.
  intros Hi. unfold mom_row, mom_visc.
  rewrite (sumn_ext (npe m*ndim m) _ (fun col => sumn (npe m) (fun ic => node_row m (at_scs m mu ip) (fA ip ic) ip ic i col * d col))) by (intros; symmetry; apply sumn_scal_r).
  rewrite sumn_swap, <- sumn_plus. apply sumn_ext. intros ic Hic. apply (node_newton m _ _ d); assumption.
Qed.
Lemma mom_visc_plus m mu u d ip i : mom_visc m mu (fun a => u a + d a) ip i = mom_visc m mu u ip i + mom_visc m mu d ip i.
Proof. unfold mom_visc. rewrite <- sumn_plus. apply sumn_ext. intros. apply node_flux_plus. Qed.

Theorem C50_momentum_newton : forall m mdot mu, maps_ok m ->
  exact_newton (npe m*ndim m) (momentum_advdiff m 0 mdot mu).
Proof.
  intros m mdot mu Hm.
  eapply (vec_newton m _ _ (fun u => mom_flux m 0 mdot mu u)).
  - intros; apply momentum_eff.
  - intros u d ip i Hip Hi. rewrite mom_row_newton by assumption. unfold mom_flux, mom_divu. rewrite mom_visc_plus, at_adv_plus.
    rewrite (sumn_ext (npe m) _ (fun ic => mdot ip * (Na m ip ic * d (ic*ndim m+i)%nat))) by (intros; ring).
    rewrite sumn_scal. unfold at_adv. ring.
Qed.
Theorem C50_momentum_upwind_newton : forall m o G mdot mu, maps_ok m -> u_lim o = false ->
  exact_newton (npe m*ndim m) (momentum_upw m o G 0 mdot mu).
Proof.
  intros m o G mdot mu Hm Hl.
  eapply (vec_newton m _ _ (fun u => mupw_flux m o G 0 mdot mu u)).
  - intros; apply momentum_upw_eff.
  - intros u d ip i Hip Hi. destruct (proj1 Hm ip Hip) as [H1 H2].
    unfold mupw_row. cbv zeta.
    rewrite (sumn_ext (npe m*ndim m) (fun col => (_ + _ + mom_row m mu mdot _ ip i col) * d col)
       (fun col => dl col (lrL m ip*ndim m+i) * (upL o (pec_of m o mu ip) (mdot ip) * d col)
         + dl col (lrR m ip*ndim m+i) * (upR o (pec_of m o mu ip) (mdot ip) * d col)
         + mom_row m mu mdot (fun ip0 ic => Na m ip0 ic * mdot ip0 * upC o (pec_of m o mu ip0)) ip i col * d col)) by (intros; ring).
    rewrite !sumn_plus, !sumn_dl by nia. rewrite mom_row_newton by assumption.
    unfold mupw_flux, mom_divu. rewrite (face_newton m o _ mu (fun ic => u (ic*ndim m+i)%nat) (fun ic => d (ic*ndim m+i)%nat)) by assumption.
    rewrite mom_visc_plus.
    rewrite (sumn_ext (npe m) _ (fun ic => mdot ip * upC o (pec_of m o mu ip) * (Na m ip ic * d (ic*ndim m+i)%nat))) by (intros; ring).
    rewrite sumn_scal. unfold at_adv. ring.
Qed.
