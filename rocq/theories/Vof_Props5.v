(** C86: momentum kernels of the volume-of-fluid scheme: capillary stabilisation and sharpening flux. *)
Require Import Reals List Bool Lra Lia Arith.
From Verif Require Import RUtil Edge_Model Edge_Proofs Elem_Model Elem_Spec Elem_Proofs Elem_Proofs2 Elem_Proofs3 Elem_Props2 Elem_Props3 Rad_Quad_Proofs3.
From Verif Require Import Turb_Model Vof_Model Vof_Model2 Vof_Spec Vof_Props Vof_Props2 Vof_Props3 Vof_Props4.
Import ListNotations.
Open Scope R_scope.

(** derivative of velocity component l along the area vector of point ip *)
Definition along (m : me) (u : nat -> R) (ip l : nat) : R :=
  dotn (ndim m) (fun j => grad_at (npe m) (dndx m) (fun ic => u (ic*ndim m+l)%nat) ip j) (area m ip).
(** interface normal at the point, volume-fraction gradient magnitude *)
Definition alpha_slope (m : me) (vof : nat -> R) (ip : nat) : R :=
  sqrt (dotn (ndim m) (grad_at (npe m) (dndx m) vof ip) (grad_at (npe m) (dndx m) vof ip)).
(** flux of the stabilising term: sigma*dt*|grad alpha| times the part of du/dA tangential to the interface *)
Definition cap_stress (m : me) (dtm : R) (sigma vof nrm u : nat -> R) (ip i : nat) : R :=
  let n := vec_at (npe m) (ndim m) (Ns m) nrm ip in
  - (at_scs m sigma ip * dtm * alpha_slope m vof ip) * (along m u ip i - n i * dotn (ndim m) n (along m u ip)).

Lemma along_sum m u ip l : sumn (npe m) (fun ic => dotn (ndim m) (dndx m ip ic) (area m ip) * u (ic*ndim m+l)%nat) = along m u ip l.
Proof.
  unfold along, dotn, grad_at.
  rewrite (sumn_ext (npe m) _ (fun ic => sumn (ndim m) (fun j => dndx m ip ic j * u (ic*ndim m+l)%nat * area m ip j))) by (intros; rewrite <- sumn_scal_r; apply sumn_ext; intros; ring).
  rewrite sumn_swap. apply sumn_ext. intros. apply sumn_scal_r.
Qed.
Lemma cap_mu_slope m dtm sigma vof ip : cap_mu m dtm sigma vof ip = at_scs m sigma ip * dtm * alpha_slope m vof ip.
Proof.
  unfold cap_mu, alpha_slope, dotn. f_equal. f_equal. apply sumn_ext. intros j _. unfold grad_at.
  rewrite (sumn_ext (npe m) (fun ic => vof ic * dndx m ip ic j) (fun ic => dndx m ip ic j * vof ic)) by (intros; ring). reflexivity.
Qed.
Lemma cap_flux_stress m dtm sigma vof nrm u ip i : (i < ndim m)%nat ->
  cap_flux m (cap_mu m dtm sigma vof) nrm u ip i = cap_stress m dtm sigma vof nrm u ip i.
Proof.
  intros Hi. unfold cap_flux, cap_stress. cbv zeta. rewrite <- cap_mu_slope. set (mu := cap_mu m dtm sigma vof ip).
  rewrite sumn_swap. unfold cap_coef. fold (cap_n m nrm ip).
  change (vec_at (npe m) (ndim m) (Ns m) nrm ip) with (cap_n m nrm ip).
  rewrite (sumn_ext (ndim m) _ (fun l => - mu * (dl i l * along m u ip l - cap_n m nrm ip i * (cap_n m nrm ip l * along m u ip l)))).
  - rewrite sumn_scal. f_equal. rewrite sumn_minus, sumn_scal. f_equal.
    rewrite (sumn_ext (ndim m) _ (fun l => dl l i * along m u ip l)) by (intros; rewrite dl_sym; reflexivity).
    apply (sumn_dl (ndim m) i (along m u ip)). assumption.
  - intros l _. rewrite <- along_sum.
    rewrite (sumn_ext (npe m) _ (fun ic => (- mu * (dl i l - cap_n m nrm ip i * cap_n m nrm ip l)) * (dotn (ndim m) (dndx m ip ic) (area m ip) * u (ic*ndim m+l)%nat))) by (intros; ring).
    rewrite sumn_scal. ring.
Qed.

(** what the kernel adds to component i of node a's balance: the net stabilising flux *)
Theorem C86_capillary_residual : forall m dtm sigma vof nrm u s a i, (i < ndim m)%nat ->
  gain (mom_capillary m dtm sigma vof nrm u) s (a*ndim m+i) = - net_out m (fun ip => cap_stress m dtm sigma vof nrm u ip i) a.
Proof.
  intros m dtm sigma vof nrm u s a i Hi. unfold gain. rewrite (proj2 (cap_eff m dtm sigma vof nrm u s)).
  unfold net_out. rewrite <- sumn_opp. match goal with |- ?b + ?x - ?b = ?y => replace (b + x - b) with x by ring end. apply sumn_ext. intros ip _. rewrite side_row_opp by assumption. rewrite cap_flux_stress by assumption.
  unfold dl. destruct (Nat.eqb a (lrL m ip)), (Nat.eqb a (lrR m ip)); ring.
Qed.

Theorem C86_capillary_conservative : forall m dtm sigma vof nrm u, maps_ok m ->
  conservative_vec (ndim m) (npe m) (mom_capillary m dtm sigma vof nrm u).
Proof.
  intros m dtm sigma vof nrm u HM.
  exact (vec_conservative m HM (cap_row m (cap_mu m dtm sigma vof) nrm) (mom_capillary m dtm sigma vof nrm) (cap_flux m (cap_mu m dtm sigma vof) nrm) (fun u s => cap_eff m dtm sigma vof nrm u s) u).
Qed.
Lemma flat_row_pick n d (c : nat -> nat -> R) (e : nat -> R) :
  sumn (n*d) (fun col => sumn n (fun ic => sumn d (fun l => dl col (ic*d+l) * c ic l)) * e col) = sumn n (fun ic => sumn d (fun l => c ic l * e (ic*d+l)%nat)).
Proof.
  rewrite (sumn_ext (n*d) _ (fun col => sumn n (fun ic => sumn d (fun l => dl col (ic*d+l) * (c ic l * e col))))).
  - rewrite (sumn_swap (n*d) n). apply sumn_ext. intros ic Hic. rewrite (sumn_swap (n*d) d). apply sumn_ext. intros l Hl.
    apply (sumn_dl (n*d) (ic*d+l) (fun col => c ic l * e col)). nia.
  - intros col _. rewrite <- sumn_scal_r. apply sumn_ext. intros ic _. rewrite <- sumn_scal_r. apply sumn_ext. intros; ring.
Qed.
(** the matrix is the exact sensitivity to the velocity *)
Theorem C86_capillary_newton : forall m dtm sigma vof nrm, maps_ok m ->
  exact_newton (npe m * ndim m) (mom_capillary m dtm sigma vof nrm).
Proof.
  intros m dtm sigma vof nrm HM.
  apply (vec_newton m (cap_row m (cap_mu m dtm sigma vof) nrm) (mom_capillary m dtm sigma vof nrm) (cap_flux m (cap_mu m dtm sigma vof) nrm) (fun u s => cap_eff m dtm sigma vof nrm u s)).
  intros u d ip i Hip Hi. unfold cap_row. rewrite flat_row_pick. unfold cap_flux. rewrite <- sumn_plus. apply sumn_ext. intros ic _.
  rewrite <- sumn_plus. apply sumn_ext. intros; ring.
Qed.
(** a uniform velocity feels nothing, and neither does any flow away from the interface (uniform volume fraction) *)
Theorem C86_capillary_uniform_velocity : forall m dtm sigma vof nrm u U s a i, (i < ndim m)%nat -> grad_unity m ->
  (forall ic l, (ic < npe m)%nat -> (l < ndim m)%nat -> u (ic*ndim m+l)%nat = U l) ->
  gain (mom_capillary m dtm sigma vof nrm u) s (a*ndim m+i) = 0.
Proof.
  intros m dtm sigma vof nrm u U s a i Hi HG HU. rewrite C86_capillary_residual by assumption.
  assert (Z : forall ip l, (ip < nscs m)%nat -> (l < ndim m)%nat -> along m u ip l = 0).
  { intros ip l Hip Hl. unfold along, dotn. rewrite (sumn_ext (ndim m) _ (fun _ => 0)); [apply sumn_zero; reflexivity|]. intros j Hj.
    unfold grad_at. rewrite (sumn_ext (npe m) _ (fun ic => dndx m ip ic j * U l)) by (intros; rewrite HU by assumption; reflexivity).
    rewrite sumn_scal_r, HG by assumption. ring. }
  rewrite (net_out_ext m _ (fun ip => 0 * 1)); [rewrite (net_out_scal m 0 (fun _ => 1)); ring|]. intros ip Hip. unfold cap_stress. cbv zeta.
  rewrite Z by assumption. unfold dotn. rewrite (sumn_ext (ndim m) _ (fun _ => 0)) by (intros; rewrite Z by assumption; ring).
  rewrite sumn_zero by reflexivity. ring.
Qed.
Theorem C86_capillary_away_from_interface : forall m dtm sigma vof nrm u c s a i, (i < ndim m)%nat -> grad_unity m ->
  (forall ic, (ic < npe m)%nat -> vof ic = c) ->
  gain (mom_capillary m dtm sigma vof nrm u) s (a*ndim m+i) = 0.
Proof.
  intros m dtm sigma vof nrm u c s a i Hi HG HC. rewrite C86_capillary_residual by assumption.
  rewrite (net_out_ext m _ (fun ip => 0 * 1)); [rewrite (net_out_scal m 0 (fun _ => 1)); ring|]. intros ip Hip. unfold cap_stress. cbv zeta.
  assert (Z : alpha_slope m vof ip = 0).
  { unfold alpha_slope, dotn. rewrite (sumn_ext (ndim m) _ (fun _ => 0)); [rewrite sumn_zero by reflexivity; apply sqrt_0|]. intros j Hj. unfold grad_at.
    rewrite (sumn_ext (npe m) _ (fun ic => dndx m ip ic j * c)) by (intros; rewrite HC by assumption; reflexivity).
    rewrite sumn_scal_r, HG by assumption. ring. }
  rewrite Z. ring.
Qed.
(** where the interpolated interface normal has unit length the stabilising stress acts in the interface only *)
Theorem C86_capillary_tangential : forall m dtm sigma vof nrm u ip,
  let n := vec_at (npe m) (ndim m) (Ns m) nrm ip in
  dotn (ndim m) n n = 1 -> dotn (ndim m) n (cap_stress m dtm sigma vof nrm u ip) = 0.
Proof.
  intros m dtm sigma vof nrm u ip n H. unfold dotn, cap_stress. cbv zeta. fold n. set (mu := at_scs m sigma ip * dtm * alpha_slope m vof ip).
  set (q := dotn (ndim m) n (along m u ip)).
  rewrite (sumn_ext (ndim m) _ (fun j => - mu * (n j * along m u ip j - q * (n j * n j)))) by (intros; ring).
  rewrite sumn_scal, sumn_minus, sumn_scal. change (sumn (ndim m) (fun j => n j * along m u ip j)) with q.
  change (sumn (ndim m) (fun j => n j * n j)) with (dotn (ndim m) n n). rewrite H. ring.
Qed.
(** a tangential velocity gradient is opposed with viscosity sigma*dt*|grad alpha| *)
Theorem C86_capillary_viscosity : forall m dtm sigma vof nrm u ip i,
  let n := vec_at (npe m) (ndim m) (Ns m) nrm ip in
  dotn (ndim m) n (along m u ip) = 0 ->
  cap_stress m dtm sigma vof nrm u ip i = - (at_scs m sigma ip * dtm * alpha_slope m vof ip) * along m u ip i.
Proof. intros m dtm sigma vof nrm u ip i n H. unfold cap_stress. cbv zeta. fold n. rewrite H. ring. Qed.
(** and it dissipates: work of the stress on the velocity gradient is never positive when |n| <= 1 *)
Theorem C86_capillary_dissipates : forall m dtm sigma vof nrm u ip,
  let n := vec_at (npe m) (ndim m) (Ns m) nrm ip in
  dotn (ndim m) n n <= 1 -> 0 <= at_scs m sigma ip -> 0 <= dtm ->
  dotn (ndim m) (cap_stress m dtm sigma vof nrm u ip) (along m u ip) <= 0.
Proof.
  intros m dtm sigma vof nrm u ip n Hn Hs Hd. unfold dotn, cap_stress. cbv zeta. fold n. set (w := along m u ip).
  set (q := dotn (ndim m) n w). set (mu := at_scs m sigma ip * dtm * alpha_slope m vof ip).
  assert (Hm : 0 <= mu) by (apply Rmult_le_pos; [apply Rmult_le_pos; assumption|apply sqrt_pos]).
  rewrite (sumn_ext (ndim m) _ (fun j => - mu * (w j * w j - q * (n j * w j)))) by (intros; ring).
  rewrite sumn_scal, sumn_minus, sumn_scal. change (sumn (ndim m) (fun j => n j * w j)) with q.
  change (sumn (ndim m) (fun j => w j * w j)) with (dotn (ndim m) w w).
  assert (CS : q*q <= dotn (ndim m) w w).
  { assert (P : 0 <= dotn (ndim m) (fun j => w j - q * n j) (fun j => w j - q * n j)) by (apply sumn_nonneg; intros; apply Rle_0_sqr).
    assert (E : dotn (ndim m) (fun j => w j - q * n j) (fun j => w j - q * n j) = dotn (ndim m) w w - 2*q*q + q*q*dotn (ndim m) n n).
    { unfold dotn. rewrite (sumn_ext (ndim m) _ (fun j => (w j * w j - 2*q*(n j * w j)) + q*q*(n j * n j))) by (intros; ring).
      rewrite sumn_plus, sumn_minus, !sumn_scal. change (sumn (ndim m) (fun j => n j * w j)) with q. ring. }
    assert (0 <= q*q) by apply Rle_0_sqr. nra. }
  nra.
Qed.

(* ------------------------------------------------------------------ sharpening flux in the momentum equation *)
Lemma sharp_eff m cA dd v nrm vof u s : eff s (mom_sharpen m cA dd v nrm vof u s)
   (fun row col => sumn (nscs m) (fun ip => sumn (ndim m) (fun i => side m ip row i *
       sumn (npe m) (fun ic => sumn (ndim m) (fun l => dl col (ic*ndim m+l) * (dl l i * (Ns m ip ic * msharp m cA dd v nrm vof ip)))))))
   (fun row => sumn (nscs m) (fun ip => sumn (ndim m) (fun i => - (side m ip row i *
       (vec_at (npe m) (ndim m) (Ns m) u ip i * msharp m cA dd v nrm vof ip))))).
Proof.
  unfold mom_sharpen. cbv zeta. set (d := ndim m).
  apply (eff_loop (nscs m) _ (fun ip row col => sumn d (fun i => side m ip row i *
       sumn (npe m) (fun ic => sumn d (fun l => dl col (ic*d+l) * (dl l i * (Ns m ip ic * msharp m cA dd v nrm vof ip))))))
    (fun ip row => sumn d (fun i => - (side m ip row i * (vec_at (npe m) d (Ns m) u ip i * msharp m cA dd v nrm vof ip))))).
  intros ip s1 Hip. set (sh := msharp m cA dd v nrm vof ip). eapply eff_ext.
  - eapply eff_trans; swap 1 2.
    + apply (eff_loop (npe m) _ (fun ic row col => sumn d (fun i => side m ip row i * (dl col (ic*d+i) * (Ns m ip ic * sh)))) (fun _ _ => 0)).
      intros ic s2 Hic. eapply eff_ext.
      * apply (eff_loop d _ (fun i row col => side m ip row i * (dl col (ic*d+i) * (Ns m ip ic * sh))) (fun _ _ => 0)).
        intros i s3 Hi. eapply eff_ext; [eapply eff_trans; apply eff_addL| |]; intros; cbv beta; unfold side, d; ring.
      * intros; reflexivity.
      * intros; cbv beta. apply sumn_zero; reflexivity.
    + apply (eff_loop d _ (fun _ _ _ => 0) (fun i row => - (side m ip row i * (vec_at (npe m) d (Ns m) u ip i * sh)))).
      intros i s3 Hi. eapply eff_ext; [eapply eff_trans; apply eff_addB| |]; intros; cbv beta; unfold side, vec_at, d; ring.
  - intros row col. cbv beta. rewrite (sumn_zero d (fun _ => 0)) by reflexivity. rewrite Rplus_0_l.
    rewrite (sumn_swap (npe m) d). apply sumn_ext. intros i Hi. rewrite sumn_scal. f_equal. apply sumn_ext. intros ic _.
    rewrite (sumn_ext d _ (fun l => dl l i * (dl col (ic*d+l) * (Ns m ip ic * sh)))) by (intros; ring).
    rewrite (sumn_dl d i (fun l => dl col (ic*d+l) * (Ns m ip ic * sh))) by assumption. reflexivity.
  - intros row. cbv beta. rewrite (sumn_zero (npe m) (fun _ => 0)) by reflexivity. ring.
Qed.
(** the momentum carried by the sharpening (compressive) volume flux: (rho1-rho2)*Sum_ic N c|u|n alpha(1-alpha) . A *)
Definition compressive_flux (m : me) (cA : R) (v nrm vof : nat -> R) (ip : nat) : R :=
  dotn (ndim m) (fun j => sumn (npe m) (fun ic => Ns m ip ic *
     (cA * sqrt (sumn (ndim m) (fun k => v (ic*ndim m+k)%nat * v (ic*ndim m+k)%nat)) * nrm (ic*ndim m+j)%nat * (vof ic * (1 - vof ic))))) (area m ip).
Lemma msharp_flux m cA dd v nrm vof ip : msharp m cA dd v nrm vof ip = dd * compressive_flux m cA v nrm vof ip.
Proof.
  unfold msharp, compressive_flux, dotn. cbv zeta. f_equal. rewrite sumn_swap. apply sumn_ext. intros j _. rewrite <- sumn_scal_r.
  apply sumn_ext. intros ic _. unfold comp_u, mag_u. ring.
Qed.
Theorem C86_momentum_sharpen_residual : forall m cA dd v nrm vof u s a i, (i < ndim m)%nat ->
  gain (mom_sharpen m cA dd v nrm vof u) s (a*ndim m+i)
  = - net_out m (fun ip => vec_at (npe m) (ndim m) (Ns m) u ip i * (dd * compressive_flux m cA v nrm vof ip)) a.
Proof.
  intros m cA dd v nrm vof u s a i Hi. unfold gain. rewrite (proj2 (sharp_eff m cA dd v nrm vof u s)).
  unfold net_out. rewrite <- sumn_opp. match goal with |- ?b + ?x - ?b = ?y => replace (b + x - b) with x by ring end. apply sumn_ext.
  intros ip _. rewrite (side_row_opp m ip a i (fun i => vec_at (npe m) (ndim m) (Ns m) u ip i * msharp m cA dd v nrm vof ip)) by assumption. rewrite <- msharp_flux.
  unfold dl. destruct (Nat.eqb a (lrL m ip)), (Nat.eqb a (lrR m ip)); ring.
Qed.
Theorem C86_momentum_sharpen_conservative : forall m cA dd v nrm vof u, maps_ok m ->
  conservative_vec (ndim m) (npe m) (mom_sharpen m cA dd v nrm vof u).
Proof.
  intros m cA dd v nrm vof u HM.
  exact (vec_conservative m HM _ (mom_sharpen m cA dd v nrm vof) _ (fun u s => sharp_eff m cA dd v nrm vof u s) u).
Qed.
Theorem C86_momentum_sharpen_newton : forall m cA dd v nrm vof, maps_ok m ->
  exact_newton (npe m * ndim m) (mom_sharpen m cA dd v nrm vof).
Proof.
  intros m cA dd v nrm vof HM.
  apply (vec_newton m _ (mom_sharpen m cA dd v nrm vof) _ (fun u s => sharp_eff m cA dd v nrm vof u s)).
  intros u d ip i Hip Hi. cbv beta. set (sh := msharp m cA dd v nrm vof ip).
  rewrite (flat_row_pick (npe m) (ndim m) (fun ic l => dl l i * (Ns m ip ic * sh)) d).
  unfold vec_at. rewrite (sumn_ext (npe m) (fun ic => sumn (ndim m) _) (fun ic => sh * (Ns m ip ic * d (ic*ndim m+i)%nat))).
  - rewrite sumn_scal. rewrite (sumn_ext (npe m) (fun ic => Ns m ip ic * (u (ic*ndim m+i)%nat + d (ic*ndim m+i)%nat)) (fun ic => Ns m ip ic * u (ic*ndim m+i)%nat + Ns m ip ic * d (ic*ndim m+i)%nat)) by (intros; ring).
    rewrite sumn_plus. ring.
  - intros ic _. rewrite (sumn_ext (ndim m) _ (fun l => dl l i * (Ns m ip ic * sh * d (ic*ndim m+l)%nat))) by (intros; ring).
    rewrite (sumn_dl (ndim m) i (fun l => Ns m ip ic * sh * d (ic*ndim m+l)%nat)) by assumption. ring.
Qed.
(** nothing where the densities are equal or every node is in a pure phase *)
Theorem C86_momentum_sharpen_pure_phase : forall m cA dd v nrm vof u s a i, (i < ndim m)%nat ->
  dd = 0 \/ (forall ic, (ic < npe m)%nat -> vof ic = 0 \/ vof ic = 1) ->
  gain (mom_sharpen m cA dd v nrm vof u) s (a*ndim m+i) = 0.
Proof.
  intros m cA dd v nrm vof u s a i Hi H. rewrite C86_momentum_sharpen_residual by assumption.
  rewrite (net_out_ext m _ (fun ip => 0 * 1)); [rewrite (net_out_scal m 0 (fun _ => 1)); ring|]. intros ip Hip.
  destruct H as [->|H]; [ring|]. assert (Z : compressive_flux m cA v nrm vof ip = 0).
  { unfold compressive_flux, dotn. rewrite (sumn_ext (ndim m) _ (fun _ => 0)); [apply sumn_zero; reflexivity|]. intros j _.
    rewrite (sumn_ext (npe m) _ (fun _ => 0)); [rewrite sumn_zero by reflexivity; ring|]. intros ic Hic. destruct (H ic Hic) as [->| ->]; ring. }
  rewrite Z. ring.
Qed.
(** the example triangle meets the hypotheses *)
Example C86_momentum_hypotheses_met : maps_ok tri_el /\ grad_unity tri_el /\ (1 < ndim tri_el)%nat.
Proof. destruct tri_el_ok as (A & B & C). split; [assumption|]. split; [|cbn; lia]. first [assumption | apply B | apply C]. Qed.
