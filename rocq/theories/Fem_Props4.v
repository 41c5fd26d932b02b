(** C85: face kernels of the finite-element scheme. *)
Require Import Reals List Bool Lra Lia Arith.
From Verif Require Import RUtil ME_Model ME_Shape_Model Tensor_Model.
From Verif Require Import Edge_Model Edge_Proofs Elem_Model Elem_Spec Elem_Proofs Elem_Proofs2 Elem_Props3.
From Verif Require Import Fem_Model Fem_Spec Fem_Props Fem_Props2.
Import ListNotations.
Open Scope R_scope.

(* ------------------------------------------------------------------ weighted face integrals *)
Lemma f_shape_dl m a ip : f_shape m a ip = sumn (ff_npf m) (fun ir => dl a (ff_ord m ir) * ff_N m ip ir).
Proof. unfold f_shape. apply sumn_ext. intros. unfold dl. destruct (Nat.eqb _ _); ring. Qed.
Lemma f_shape_sum m ip : ff_map_ok m -> ff_unity m -> (ip < ff_nip m)%nat -> sumn (ff_npe m) (fun a => f_shape m a ip) = 1.
Proof.
  intros HM HU Hip. rewrite (sumn_ext _ _ _ (fun a _ => f_shape_dl m a ip)), sumn_swap. rewrite <- (HU ip Hip). apply sumn_ext. intros ir Hir.
  apply (sumn_dl (ff_npe m) (ff_ord m ir) (fun _ => ff_N m ip ir)). apply HM. assumption.
Qed.
Definition fw (m : ffem) (k : esys -> esys) (al : nat -> nat -> R) (be : nat -> R) : Prop :=
  forall s, eff s (k s) (fun row col => f_integral m (fun ip => f_shape m row ip * al ip col))
                        (fun row => - f_integral m (fun ip => f_shape m row ip * be ip)).
Lemma fw_loop m (body : nat -> nat -> esys -> esys) al be :
  (forall ip ir s, (ip < ff_nip m)%nat -> (ir < ff_npf m)%nat ->
     eff s (body ip ir s) (fun row col => dl row (ff_ord m ir) * (ff_N m ip ir * (ff_ipF m ip * al ip col)))
                          (fun row => dl row (ff_ord m ir) * - (ff_N m ip ir * (ff_ipF m ip * be ip)))) ->
  fw m (fun s => loop (ff_nip m) (fun ip s => loop (ff_npf m) (body ip) s) s) al be.
Proof.
  intros H s. eapply eff_ext.
  - apply (eff_loop (ff_nip m) _ (fun ip row col => sumn (ff_npf m) (fun ir => dl row (ff_ord m ir) * (ff_N m ip ir * (ff_ipF m ip * al ip col))))
      (fun ip row => sumn (ff_npf m) (fun ir => dl row (ff_ord m ir) * - (ff_N m ip ir * (ff_ipF m ip * be ip))))).
    intros ip s1 Hip. apply (eff_loop (ff_npf m) (body ip) (fun ir row col => dl row (ff_ord m ir) * (ff_N m ip ir * (ff_ipF m ip * al ip col)))
      (fun ir row => dl row (ff_ord m ir) * - (ff_N m ip ir * (ff_ipF m ip * be ip)))). intros ir s2 Hir. apply H; assumption.
  - intros row col. unfold f_integral. apply sumn_ext. intros ip _. rewrite f_shape_dl, <- sumn_scal_r, <- sumn_scal. apply sumn_ext. intros. unfold ff_ipF. ring.
  - intros row. unfold f_integral. rewrite <- sumn_opp. apply sumn_ext. intros ip _. rewrite f_shape_dl, <- sumn_scal_r, <- sumn_scal, <- sumn_opp. apply sumn_ext. intros. unfold ff_ipF. ring.
Qed.
Lemma fw_rhs m k al be s a : fw m k al be -> added_rhs k s a = - f_integral m (fun ip => f_shape m a ip * be ip).
Proof. intros H. unfold added_rhs. rewrite (proj2 (H s)). ring. Qed.
Lemma fw_added m k al be s a b : fw m k al be -> added k s a b = f_integral m (fun ip => f_shape m a ip * al ip b).
Proof. intros H. unfold added. rewrite (proj1 (H s)). ring. Qed.
Lemma fw_total m k al be s : ff_map_ok m -> ff_unity m -> fw m k al be -> sumn (ff_npe m) (added_rhs k s) = - f_integral m be.
Proof.
  intros HM HU H. rewrite (sumn_ext _ _ _ (fun a _ => fw_rhs _ _ _ _ s a H)), sumn_opp. f_equal. unfold f_integral. rewrite sumn_swap. apply sumn_ext. intros ip Hip.
  rewrite (sumn_ext _ _ (fun a => f_shape m a ip * (ff_det m ip * ff_wt m ip * be ip))) by (intros; ring). rewrite sumn_scal_r, (f_shape_sum m ip HM HU Hip). ring.
Qed.
Lemma fw_newton m (k : (nat -> R) -> esys -> esys) al be : (forall q, fw m (k q) al (be q)) ->
  (forall q e ip, (ip < ff_nip m)%nat -> be (fun a => q a + e a) ip = be q ip + sumn (ff_npe m) (fun b => al ip b * e b)) ->
  exact_newton (ff_npe m) k.
Proof.
  intros H L q e s i Hi. rewrite (proj2 (H (fun a => q a + e a) s)), (proj2 (H q s)).
  rewrite (sumn_ext (ff_npe m) _ (fun j => f_integral m (fun ip => f_shape m i ip * (al ip j * e j)))).
  2:{ intros j _. rewrite (proj1 (H q s)). unfold f_integral. rewrite Rplus_comm. unfold Rminus. rewrite Rplus_assoc, Rplus_opp_r, Rplus_0_r, <- sumn_scal_r. apply sumn_ext. intros; ring. }
  assert (E : f_integral m (fun ip => f_shape m i ip * be (fun a => q a + e a) ip) =
     f_integral m (fun ip => f_shape m i ip * be q ip) + sumn (ff_npe m) (fun j => f_integral m (fun ip => f_shape m i ip * (al ip j * e j)))).
  { unfold f_integral. rewrite (sumn_swap (ff_npe m)), <- sumn_plus. apply sumn_ext. intros ip Hip. rewrite L by assumption.
    rewrite (sumn_ext (ff_npe m) (fun i0 => _ * (_ * (al ip i0 * e i0))) (fun b => (ff_det m ip * ff_wt m ip * f_shape m i ip) * (al ip b * e b))) by (intros; ring).
    rewrite sumn_scal. ring. }
  rewrite E. ring.
Qed.
(** linear functionals of a field, applied to the unit fields *)
Lemma f_value_cols m e ip : ff_map_ok m -> sumn (ff_npe m) (fun b => f_value m (trace m (fun x => dl b x)) ip * e b) = f_value m (trace m e) ip.
Proof.
  intros HM. unfold f_value, trace. rewrite (sumn_ext (ff_npe m) _ (fun b => sumn (ff_npf m) (fun ic => dl b (ff_ord m ic) * (ff_N m ip ic * e b)))).
  - rewrite sumn_swap. apply sumn_ext. intros ic Hic. rewrite sumn_dl; [reflexivity|apply HM; assumption].
  - intros b _. rewrite <- sumn_scal_r. apply sumn_ext. intros; ring.
Qed.
Lemma f_value_dl m b ip : f_value m (trace m (fun x => dl b x)) ip = f_shape m b ip.
Proof. rewrite f_shape_dl. unfold f_value, trace. apply sumn_ext. intros; ring. Qed.
Lemma f_grad_dl m b ip j : (b < ff_npe m)%nat -> f_grad m (fun x => dl b x) ip j = ff_dn m ip b j.
Proof. intros Hb. unfold f_grad. rewrite (sumn_ext _ _ (fun ic => dl b ic * ff_dn m ip ic j)) by (intros; ring). apply (sumn_dl' (ff_npe m) b (fun ic => ff_dn m ip ic j)). assumption. Qed.
Lemma f_grad_cols m e ip : sumn (ff_npe m) (fun b => dot (ff_dim m) (f_grad m (fun x => dl b x) ip) (ff_nrm m ip) * e b) = dot (ff_dim m) (f_grad m e ip) (ff_nrm m ip).
Proof.
  rewrite (sumn_ext (ff_npe m) _ (fun b => sumn (ff_dim m) (fun j => ff_dn m ip b j * e b * ff_nrm m ip j))).
  - rewrite sumn_swap. unfold dot, f_grad. apply sumn_ext. intros j _. rewrite <- sumn_scal_r. reflexivity.
  - intros b Hb. unfold dot. rewrite <- sumn_scal_r. apply sumn_ext. intros j _. rewrite f_grad_dl by assumption. ring.
Qed.
Lemma f_value_plus m q e ip : f_value m (fun a => q a + e a) ip = f_value m q ip + f_value m e ip.
Proof. unfold f_value. rewrite <- sumn_plus. apply sumn_ext. intros; ring. Qed.
Lemma f_grad_plus m q e ip j : f_grad m (fun a => q a + e a) ip j = f_grad m q ip j + f_grad m e ip j.
Proof. unfold f_grad. rewrite <- sumn_plus. apply sumn_ext. intros; ring. Qed.
Lemma dot_f_grad_plus m q e ip : dot (ff_dim m) (f_grad m (fun a => q a + e a) ip) (ff_nrm m ip) =
  dot (ff_dim m) (f_grad m q ip) (ff_nrm m ip) + dot (ff_dim m) (f_grad m e ip) (ff_nrm m ip).
Proof. unfold dot. rewrite <- sumn_plus. apply sumn_ext. intros. rewrite f_grad_plus. ring. Qed.
Lemma f_value_const m c ip : ff_unity m -> (ip < ff_nip m)%nat -> f_value m (fun _ => c) ip = c.
Proof. intros H Hip. unfold f_value. rewrite sumn_scal_r, H by assumption. ring. Qed.
Lemma f_grad_const m c ip j : ff_grad_unity m -> (ip < ff_nip m)%nat -> (j < ff_dim m)%nat -> f_grad m (fun _ => c) ip j = 0.
Proof. intros H Hip Hj. unfold f_grad. rewrite sumn_scal_r, H by assumption. ring. Qed.

(** the matrix loops *)
Lemma face_cols m s r ip c : 
  eff s (loop (ff_npf m) (fun ic s => addL r (ff_ord m ic) (ff_N m ip ic * c) s) s)
    (fun row col => dl row r * (f_value m (trace m (fun x => dl col x)) ip * c)) (fun _ => 0).
Proof.
  eapply eff_ext.
  - apply (eff_loop (ff_npf m) _ (fun ic row col => dl row r * dl col (ff_ord m ic) * (ff_N m ip ic * c)) (fun _ _ => 0)). intros. apply eff_addL.
  - intros. unfold f_value, trace. rewrite <- sumn_scal_r, <- sumn_scal. apply sumn_ext. intros; ring.
  - intros. apply sumn_zero. reflexivity.
Qed.
Lemma elem_cols m s r ip c :
  eff s (loop (ff_npe m) (fun ic s => addL r ic (c * sumn (ff_dim m) (fun j => - ff_dn m ip ic j * ff_nrm m ip j)) s) s)
    (fun row col => dl row r * - (c * dot (ff_dim m) (f_grad m (fun x => dl col x) ip) (ff_nrm m ip))) (fun _ => 0).
Proof.
  eapply eff_ext; [apply cols_loop| |].
  - intros row j0. cbv beta. f_equal. unfold dot, f_grad.
    rewrite (sumn_ext (ff_dim m) _ (fun j => sumn (ff_npe m) (fun ic => ff_dn m ip ic j * dl j0 ic * ff_nrm m ip j))) by (intros; rewrite <- sumn_scal_r; reflexivity).
    rewrite sumn_swap, <- sumn_scal, <- sumn_opp. apply sumn_ext. intros ic _.
    rewrite <- !sumn_scal, <- sumn_opp. apply sumn_ext. intros. ring.
  - intros. reflexivity.
Qed.
Lemma loop_ext_body {S} n (b1 b2 : nat -> S -> S) s : (forall k x, (k < n)%nat -> b1 k x = b2 k x) -> loop n b1 s = loop n b2 s.
Proof. induction n; intros H; [reflexivity|]. rewrite !loop_S, IHn by (intros; apply H; lia). apply H. lia. Qed.
Lemma open_flux_spec m o ip : open_flux m o ip = open_mass_flux m o ip.
Proof.
  unfold open_flux, open_mass_flux. cbv zeta. rewrite loop_sum. unfold dot. rewrite Rplus_comm. f_equal. 
  unfold at_fip, f_value, Rminus. rewrite Ropp_plus_distr, Ropp_involutive. ring.
Qed.

(* ------------------------------------------------------------------ continuity at an open face *)
Lemma cont_open_fw m o : fw m (fem_cont_open m o)
  (fun ip col => o_pen o * invL m ip * f_value m (trace m (fun x => dl col x)) ip - dot (ff_dim m) (f_grad m (fun x => dl col x) ip) (ff_nrm m ip))
  (fun ip => open_mass_flux m o ip / o_tau o).
Proof.
  unfold fem_cont_open. cbv zeta. apply fw_loop. intros ip ir s Hip Hir. rewrite open_flux_spec.
  set (w := ff_N m ip ir). set (F := ff_ipF m ip). set (r := ff_ord m ir).
  rewrite (loop_ext_body (ff_npf m) _ (fun ic s => addL r (ff_ord m ic) (ff_N m ip ic * (w * o_pen o * invL m ip * F)) s)) by (intros; f_equal; ring).
  match goal with |- context [loop (ff_npe m) ?b ?s1] =>
    rewrite (loop_ext_body (ff_npe m) b (fun ic s => addL r ic ((w*F) * sumn (ff_dim m) (fun j => - ff_dn m ip ic j * ff_nrm m ip j)) s)) by (intros; rewrite loop_sum; f_equal; ring) end.
  eapply eff_ext.
  - eapply eff_trans; [|apply eff_addB]. eapply eff_trans; [apply face_cols|]. apply elem_cols.
  - intros. cbv beta. ring.
  - intros. cbv beta. unfold Rdiv. ring.
Qed.
(** the mass flux through the face is put into each element node's equation, weighted by its shape function *)
Theorem C85_open_continuity_weak_form : forall m o s a,
  added_rhs (fem_cont_open m o) s a = - f_integral m (fun ip => f_shape m a ip * (open_mass_flux m o ip / o_tau o)).
Proof. intros. apply (fw_rhs _ _ _ _ s a (cont_open_fw m o)). Qed.
Theorem C85_open_continuity_total : forall m o s, ff_map_ok m -> ff_unity m ->
  sumn (ff_npe m) (added_rhs (fem_cont_open m o) s) = - f_integral m (fun ip => open_mass_flux m o ip / o_tau o).
Proof. intros m o s HM HU. apply (fw_total _ _ _ _ s HM HU (cont_open_fw m o)). Qed.
(** the matrix is the exact derivative with respect to the element pressure, whose face values enter the penalty *)
Theorem C85_open_continuity_newton : forall m pen tau rho v Gp pbc dyn, ff_map_ok m -> tau <> 0 ->
  exact_newton (ff_npe m) (fun p => fem_cont_open m (mkFO pen tau rho v Gp (trace m p) pbc dyn p)).
Proof.
  intros m pen tau rho v Gp pbc dyn HM Ht.
  apply (fw_newton m (fun p => fem_cont_open m (mkFO pen tau rho v Gp (trace m p) pbc dyn p))
    (fun ip col => pen * invL m ip * f_value m (trace m (fun x => dl col x)) ip - dot (ff_dim m) (f_grad m (fun x => dl col x) ip) (ff_nrm m ip))
    (fun p ip => open_mass_flux m (mkFO pen tau rho v Gp (trace m p) pbc dyn p) ip / tau) (fun p => cont_open_fw m (mkFO pen tau rho v Gp (trace m p) pbc dyn p))).
  intros p e ip Hip. cbv beta.
  rewrite (sumn_ext (ff_npe m) _ (fun b => (pen * invL m ip) * (f_value m (trace m (fun x => dl b x)) ip * e b) - dot (ff_dim m) (f_grad m (fun x => dl b x) ip) (ff_nrm m ip) * e b)) by (intros; ring).
  rewrite sumn_minus, sumn_scal, f_value_cols, f_grad_cols by assumption.
  unfold open_mass_flux. cbn [o_pen o_tau o_rho o_v o_Gp o_p o_pbc o_dyn o_pE].
  change (trace m (fun a => p a + e a)) with (fun a => trace m p a + trace m e a). rewrite f_value_plus.
  assert (E : dot (ff_dim m) (fun j => sumn (ff_npf m) (fun ic => ff_N m ip ic * rho ic * v (ic * ff_dim m + j)%nat) - tau * (f_grad m (fun a => p a + e a) ip j - f_value m (comp (ff_dim m) Gp j) ip)) (ff_nrm m ip) =
     dot (ff_dim m) (fun j => sumn (ff_npf m) (fun ic => ff_N m ip ic * rho ic * v (ic * ff_dim m + j)%nat) - tau * (f_grad m p ip j - f_value m (comp (ff_dim m) Gp j) ip)) (ff_nrm m ip) - tau * dot (ff_dim m) (f_grad m e ip) (ff_nrm m ip)).
  { unfold dot. rewrite <- sumn_scal, <- sumn_minus. apply sumn_ext. intros j _. rewrite f_grad_plus. ring. }
  rewrite E. field. assumption.
Qed.
(** nothing is added when the specified flow is satisfied: no mass flux and the pressure equal to the specified one *)
Theorem C85_open_penalty_vanishes : forall m o ip, f_value m (o_p o) ip = f_value m (o_pbc o) ip - o_dyn o ip ->
  open_mass_flux m o ip = dot (ff_dim m) (fun j => sumn (ff_npf m) (fun ic => ff_N m ip ic * o_rho o ic * o_v o (ic*ff_dim m+j)%nat)
       - o_tau o * (f_grad m (o_pE o) ip j - f_value m (comp (ff_dim m) (o_Gp o) j) ip)) (ff_nrm m ip).
Proof. intros m o ip H. unfold open_mass_flux. rewrite H. ring. Qed.

(* ------------------------------------------------------------------ scalar at an open face *)
Definition upw (mf a b : R) : R := if Rlt_dec 0 mf then a else b.
Lemma scalar_open_fw m o q qbc : fw m (fem_scalar_open m o q qbc)
  (fun ip col => open_mass_flux m o ip * upw (open_mass_flux m o ip) 1 0 * f_value m (trace m (fun x => dl col x)) ip)
  (fun ip => open_mass_flux m o ip * upw (open_mass_flux m o ip) (f_value m (trace m q) ip) (f_value m qbc ip)).
Proof.
  unfold fem_scalar_open. cbv zeta. apply fw_loop. intros ip ir s Hip Hir. rewrite open_flux_spec.
  set (w := ff_N m ip ir). set (F := ff_ipF m ip). set (r := ff_ord m ir). set (mf := open_mass_flux m o ip).
  change (at_fip m (fun ic => q (ff_ord m ic)) ip) with (f_value m (trace m q) ip). change (at_fip m qbc ip) with (f_value m qbc ip).
  rewrite (loop_ext_body (ff_npf m) _ (fun ic s => addL r (ff_ord m ic) (ff_N m ip ic * (w * (mf * F * (if Rlt_dec 0 mf then 1 else 0)))) s)) by (intros; f_equal; ring).
  eapply eff_ext.
  - eapply eff_trans; [|apply eff_addB]. eapply eff_trans; [apply eff_addB|]. apply face_cols.
  - intros. cbv beta. unfold upw. destruct (Rlt_dec 0 mf); ring.
  - intros. cbv beta. unfold upw. destruct (Rlt_dec 0 mf); ring.
Qed.
(** flux of a scalar through an open face: upwinded between the interior and the entrained value *)
Theorem C85_open_scalar_upwind : forall m o q qbc s a,
  added_rhs (fem_scalar_open m o q qbc) s a =
  - f_integral m (fun ip => f_shape m a ip * (open_mass_flux m o ip *
       (if Rlt_dec 0 (open_mass_flux m o ip) then f_value m (trace m q) ip else f_value m qbc ip))).
Proof. intros. apply (fw_rhs _ _ _ _ s a (scalar_open_fw m o q qbc)). Qed.
Theorem C85_open_scalar_newton : forall m o qbc, ff_map_ok m -> exact_newton (ff_npe m) (fun q => fem_scalar_open m o q qbc).
Proof.
  intros m o qbc HM. apply (fw_newton m (fun q => fem_scalar_open m o q qbc) _ _ (fun q => scalar_open_fw m o q qbc)). intros q e ip Hip.
  rewrite (sumn_ext (ff_npe m) _ (fun b => (open_mass_flux m o ip * upw (open_mass_flux m o ip) 1 0) * (f_value m (trace m (fun x => dl b x)) ip * e b))) by (intros; ring).
  rewrite sumn_scal, f_value_cols by assumption. change (trace m (fun a => q a + e a)) with (fun a => trace m q a + trace m e a). rewrite f_value_plus.
  unfold upw. destruct (Rlt_dec _ _); ring.
Qed.
(** a uniform scalar is carried out of the face exactly in proportion to the mass the continuity kernel removes *)
Theorem C85_open_scalar_consistent_with_continuity : forall m o c s a, ff_unity m -> o_tau o <> 0 ->
  added_rhs (fem_scalar_open m o (fun _ => c) (fun _ => c)) s a = c * o_tau o * added_rhs (fem_cont_open m o) s a.
Proof.
  intros m o c s a HU Ht. rewrite C85_open_scalar_upwind, C85_open_continuity_weak_form. unfold f_integral. rewrite Ropp_mult_distr_r_reverse, <- sumn_scal. f_equal. apply sumn_ext.
  intros ip Hip. change (trace m (fun _ => c)) with (fun _ : nat => c). rewrite (f_value_const m c ip HU Hip). destruct (Rlt_dec _ _); field; assumption.
Qed.

(* ------------------------------------------------------------------ flux penalty *)
Definition penalty_flux (m : ffem) (pen : R) (coef q qbc : nat -> R) (ip : nat) : R :=
  f_value m coef ip * (pen * invL m ip * (f_value m (trace m q) ip - f_value m qbc ip) - dot (ff_dim m) (f_grad m q ip) (ff_nrm m ip)).
Lemma flux_penalty_fw m pen coef q qbc : fw m (fem_flux_penalty m pen coef q qbc)
  (fun ip col => f_value m coef ip * (pen * invL m ip * f_value m (trace m (fun x => dl col x)) ip - dot (ff_dim m) (f_grad m (fun x => dl col x) ip) (ff_nrm m ip)))
  (penalty_flux m pen coef q qbc).
Proof.
  unfold fem_flux_penalty. cbv zeta. apply fw_loop. intros ip ir s Hip Hir.
  change (at_fip m (fun ic => q (ff_ord m ic)) ip) with (f_value m (trace m q) ip). change (at_fip m qbc ip) with (f_value m qbc ip). change (at_fip m coef ip) with (f_value m coef ip).
  set (w := ff_N m ip ir). set (F := ff_ipF m ip). set (r := ff_ord m ir). set (k := f_value m coef ip).
  rewrite (loop_ext_body (ff_npf m) _ (fun ic s => addL r (ff_ord m ic) (ff_N m ip ic * (w * pen * k * invL m ip * F)) s)) by (intros; f_equal; ring).
  match goal with |- context [loop (ff_npe m) ?b (loop (ff_npf m) ?b2 ?s1)] =>
    rewrite (loop_ext_body (ff_npe m) b (fun ic s => addL r ic ((w*k*F) * sumn (ff_dim m) (fun j => - ff_dn m ip ic j * ff_nrm m ip j)) s)) by (intros; rewrite loop_sum; f_equal; ring) end.
  rewrite loop_neg.
  assert (E : sumn (ff_dim m) (fun j => k * sumn (ff_npe m) (fun ic => ff_dn m ip ic j * q ic) * ff_nrm m ip j) = k * dot (ff_dim m) (f_grad m q ip) (ff_nrm m ip)).
  { unfold dot, f_grad. rewrite <- sumn_scal. apply sumn_ext. intros; ring. }
  rewrite E. eapply eff_ext.
  - eapply eff_trans; [|apply elem_cols]. eapply eff_trans; [apply eff_addB|]. apply face_cols.
  - intros. cbv beta. ring.
  - intros. cbv beta. unfold penalty_flux. fold k. ring.
Qed.
Theorem C85_flux_penalty_weak_form : forall m pen coef q qbc s a,
  added_rhs (fem_flux_penalty m pen coef q qbc) s a =
  - f_integral m (fun ip => f_shape m a ip * (f_value m coef ip *
      (pen * invL m ip * (f_value m (trace m q) ip - f_value m qbc ip) - dot (ff_dim m) (f_grad m q ip) (ff_nrm m ip)))).
Proof. intros. apply (fw_rhs _ _ _ _ s a (flux_penalty_fw m pen coef q qbc)). Qed.
Theorem C85_flux_penalty_newton : forall m pen coef qbc, ff_map_ok m -> exact_newton (ff_npe m) (fun q => fem_flux_penalty m pen coef q qbc).
Proof.
  intros m pen coef qbc HM. apply (fw_newton m (fun q => fem_flux_penalty m pen coef q qbc) _ _ (fun q => flux_penalty_fw m pen coef q qbc)). intros q e ip Hip.
  rewrite (sumn_ext (ff_npe m) _ (fun b => (f_value m coef ip * pen * invL m ip) * (f_value m (trace m (fun x => dl b x)) ip * e b)
      - f_value m coef ip * (dot (ff_dim m) (f_grad m (fun x => dl b x) ip) (ff_nrm m ip) * e b))) by (intros; ring).
  rewrite sumn_minus, !sumn_scal, f_value_cols, f_grad_cols by assumption. unfold penalty_flux.
  change (trace m (fun a => q a + e a)) with (fun a => trace m q a + trace m e a). rewrite f_value_plus, dot_f_grad_plus. ring.
Qed.
(** the penalty is consistent: it vanishes once the boundary value is attained, leaving the physical flux; nothing
    is added at all for a uniform field at its boundary value *)
Theorem C85_flux_penalty_consistent : forall m pen coef q qbc s a,
  (forall ip, (ip < ff_nip m)%nat -> f_value m (trace m q) ip = f_value m qbc ip) ->
  added_rhs (fem_flux_penalty m pen coef q qbc) s a =
  f_integral m (fun ip => f_shape m a ip * (f_value m coef ip * dot (ff_dim m) (f_grad m q ip) (ff_nrm m ip))).
Proof.
  intros m pen coef q qbc s a H. rewrite C85_flux_penalty_weak_form. unfold f_integral. rewrite <- sumn_opp. apply sumn_ext. intros ip Hip. rewrite H by assumption. ring.
Qed.
Theorem C85_flux_penalty_uniform : forall m pen coef c s a, ff_unity m -> ff_grad_unity m ->
  added_rhs (fem_flux_penalty m pen coef (fun _ => c) (fun _ => c)) s a = 0.
Proof.
  intros m pen coef c s a HU HG. rewrite C85_flux_penalty_consistent by reflexivity. unfold f_integral. apply sumn_zero. intros ip Hip.
  assert (E : dot (ff_dim m) (f_grad m (fun _ => c) ip) (ff_nrm m ip) = 0). { unfold dot. apply sumn_zero. intros j Hj. rewrite f_grad_const by assumption. ring. }
  rewrite E. ring.
Qed.

(* ------------------------------------------------------------------ inflow *)
Theorem C85_inflow_weak_form : forall m tau rho v s a, (a < ff_npf m)%nat ->
  added_rhs (fem_inflow m tau rho v) s a =
  - f_integral m (fun ip => ff_N m ip a * (dot (ff_dim m) (fun j => sumn (ff_npf m) (fun ic => ff_N m ip ic * rho ic * v (ic*ff_dim m+j)%nat)) (ff_nrm m ip) / tau)).
Proof.
  intros m tau rho v s a Ha. unfold added_rhs, fem_inflow. cbv zeta.
  set (mf := fun ip => dot (ff_dim m) (fun j => sumn (ff_npf m) (fun ic => ff_N m ip ic * rho ic * v (ic*ff_dim m+j)%nat)) (ff_nrm m ip)).
  match goal with |- eB (loop _ ?b s) a - _ = _ =>
    destruct (eff_loop (ff_nip m) b (fun _ _ _ => 0) (fun ip row => sumn (ff_npf m) (fun ir => dl row ir * - (ff_N m ip ir * mf ip / tau * ff_ipF m ip))) s) as [_ E] end.
  - intros ip s1 Hip. eapply eff_ext.
    + apply (eff_loop (ff_npf m) _ (fun _ _ _ => 0) (fun ir row => dl row ir * - (ff_N m ip ir * mf ip / tau * ff_ipF m ip))). intros ir s2 Hir.
      rewrite loop_sum, Rplus_0_l. apply eff_addB.
    + intros. apply sumn_zero. reflexivity.
    + reflexivity.
  - rewrite E. unfold f_integral. rewrite <- sumn_opp. unfold Rminus. rewrite Rplus_comm, <- Rplus_assoc, Rplus_opp_l, Rplus_0_l. apply sumn_ext. intros ip _.
    rewrite sumn_dl' by assumption. unfold ff_ipF, Rdiv. fold (mf ip). ring.
Qed.
Theorem C85_inflow_total : forall m tau rho v s, ff_unity m ->
  sumn (ff_npf m) (added_rhs (fem_inflow m tau rho v) s) =
  - f_integral m (fun ip => dot (ff_dim m) (fun j => sumn (ff_npf m) (fun ic => ff_N m ip ic * rho ic * v (ic*ff_dim m+j)%nat)) (ff_nrm m ip) / tau).
Proof.
  intros m tau rho v s HU. rewrite (sumn_ext _ _ _ (fun a Ha => C85_inflow_weak_form m tau rho v s a Ha)), sumn_opp. f_equal. unfold f_integral.
  rewrite sumn_swap. apply sumn_ext. intros ip Hip. rewrite sumn_scal, sumn_scal_r, (HU ip Hip). ring.
Qed.

(* ------------------------------------------------------------------ projected nodal gradient: boundary term *)
Theorem C85_png_boundary_weak_form : forall m q s a i, (a < ff_npf m)%nat -> (i < ff_dim m)%nat ->
  added_rhs (fem_png_bc m q) s (a*ff_dim m+i) = f_integral m (fun ip => ff_N m ip a * (f_value m q ip * ff_nrm m ip i)).
Proof.
  intros m q s a i Ha Hi. unfold added_rhs, fem_png_bc. cbv zeta. 
  match goal with |- eB (loop _ ?b s) _ - _ = _ =>
    destruct (eff_loop (ff_nip m) b (fun _ _ _ => 0) (fun ip row => sumn (ff_npf m) (fun ir => sumn (ff_dim m) (fun j => dl row (ir*ff_dim m+j) * (ff_N m ip ir * at_fip m q ip * ff_ipF m ip * ff_nrm m ip j)))) s) as [_ E] end.
  - intros ip s1 Hip. eapply eff_ext.
    + apply (eff_loop (ff_npf m) _ (fun _ _ _ => 0) (fun ir row => sumn (ff_dim m) (fun j => dl row (ir*ff_dim m+j) * (ff_N m ip ir * at_fip m q ip * ff_ipF m ip * ff_nrm m ip j)))). intros ir s2 Hir.
      eapply eff_ext.
      * apply (eff_loop (ff_dim m) _ (fun _ _ _ => 0) (fun j row => dl row (ir*ff_dim m+j) * (ff_N m ip ir * at_fip m q ip * ff_ipF m ip * ff_nrm m ip j))). intros j s3 Hj. apply eff_addB.
      * intros. apply sumn_zero. reflexivity.
      * reflexivity.
    + intros. apply sumn_zero. reflexivity.
    + reflexivity.
  - rewrite E. unfold f_integral. unfold Rminus. rewrite Rplus_comm, <- Rplus_assoc, Rplus_opp_l, Rplus_0_l. apply sumn_ext. intros ip _.
    rewrite (flat_pick (ff_npf m) (ff_dim m) a i (fun ir j => ff_N m ip ir * at_fip m q ip * ff_ipF m ip * ff_nrm m ip j)) by assumption.
    unfold ff_ipF, at_fip. fold (f_value m q ip). ring.
Qed.
Theorem C85_png_boundary_total : forall m q s i, ff_unity m -> (i < ff_dim m)%nat ->
  sumn (ff_npf m) (fun a => added_rhs (fem_png_bc m q) s (a*ff_dim m+i)) = f_integral m (fun ip => f_value m q ip * ff_nrm m ip i).
Proof.
  intros m q s i HU Hi. rewrite (sumn_ext _ _ _ (fun a Ha => C85_png_boundary_weak_form m q s a i Ha Hi)). unfold f_integral.
  rewrite sumn_swap. apply sumn_ext. intros ip Hip. rewrite sumn_scal, sumn_scal_r, (HU ip Hip). ring.
Qed.
(** what the faces of an element add to element node a: through the side node ordinals *)
Definition faces_add (fs : list ffem) (q : nat -> R) (s : esys) (a i : nat) : R :=
  lsum (fun f => sumn (ff_npf f) (fun ir => if Nat.eqb a (ff_ord f ir) then added_rhs (fem_png_bc f (trace f q)) s (ir*ff_dim f+i) else 0)) fs.
(** integration by parts: on an element whose quadrature satisfies Green's identity for its own shape functions,
    the element and its faces together ask for zero correction when the nodal gradient is the gradient of q *)
Definition green (m : fem) (fs : list ffem) (q : nat -> R) : Prop :=
  forall a i, (a < f_npe m)%nat -> (i < f_dim m)%nat ->
    integral m (fun ip => shape m a ip * grad m q ip i) + integral m (fun ip => dshape m a ip i * value m q ip) =
    lsum (fun f => f_integral f (fun ip => f_shape f a ip * (f_value f (trace f q) ip * ff_nrm f ip i))) fs.
Theorem C85_png_integration_by_parts : forall m fs q G s a i, green m fs q -> (a < f_npe m)%nat -> (i < f_dim m)%nat ->
  (forall f, In f fs -> ff_dim f = f_dim m) ->
  (forall ip, (ip < f_ngp m)%nat -> value m (comp (f_dim m) G i) ip = grad m q ip i) ->
  added_rhs (fem_png m q G) s (a*f_dim m+i) + faces_add fs q s a i = 0.
Proof.
  intros m fs q G s a i HG Ha Hi Hd HV. rewrite C85_png_weak_form by assumption.
  assert (E1 : integral m (fun ip => shape m a ip * value m (comp (f_dim m) G i) ip) = integral m (fun ip => shape m a ip * grad m q ip i)).
  { unfold integral. apply sumn_ext. intros ip Hip. rewrite HV by assumption. reflexivity. }
  assert (E2 : faces_add fs q s a i = lsum (fun f => f_integral f (fun ip => f_shape f a ip * (f_value f (trace f q) ip * ff_nrm f ip i))) fs).
  { unfold faces_add. apply lsum_ext. intros f Hf. 
    rewrite (sumn_ext (ff_npf f) _ (fun ir => dl a (ff_ord f ir) * f_integral f (fun ip => ff_N f ip ir * (f_value f (trace f q) ip * ff_nrm f ip i)))).
    - unfold f_integral. rewrite (sumn_ext (ff_npf f) _ (fun ir => sumn (ff_nip f) (fun ip => ff_det f ip * ff_wt f ip * (dl a (ff_ord f ir) * ff_N f ip ir * (f_value f (trace f q) ip * ff_nrm f ip i))))) by (intros; rewrite <- sumn_scal; apply sumn_ext; intros; ring).
      rewrite sumn_swap. apply sumn_ext. intros ip _. rewrite f_shape_dl, <- sumn_scal_r, <- sumn_scal. apply sumn_ext. intros; ring.
    - intros ir Hir. rewrite C85_png_boundary_weak_form; [|assumption|rewrite (Hd f Hf); assumption]. unfold dl. destruct (Nat.eqb _ _); ring. }
  rewrite E1, E2, <- (HG a i Ha Hi). ring.
Qed.
(** a line element with Simpson points and its two end points satisfies it for every field *)
Definition line_fem : fem := mkFem 2 3 1 (fun ip a => let s := INR ip / 2 in match a with 0%nat => 1 - s | _ => s end)
  (fun _ a _ => match a with 0%nat => -1 | _ => 1 end) (fun _ => 1) (fun ip => match ip with 1%nat => 4/6 | _ => 1/6 end).
Definition line_end (k : nat) : ffem := mkFF 1 1 2 1 (fun _ => k) (fun _ _ => 1) (fun _ a _ => match a with 0%nat => -1 | _ => 1 end) (fun _ => 1) (fun _ => 1)
  (fun _ _ => match k with 0%nat => -1 | _ => 1 end).
Example C85_green_line : forall q, green line_fem [line_end 0; line_end 1] q.
Proof.
  intros q a i Ha Hi. cbn in Ha, Hi. replace i with 0%nat by lia. unfold integral, f_integral, f_value, f_shape, grad, value, shape, dshape, trace, lsum. cbn.
  destruct a as [|[|a]]; [| |lia]; cbn; field.
Qed.
Example C85_gradient_of_line : forall q s a, (a < 2)%nat ->
  added_rhs (fem_png line_fem q (fun _ => q 1%nat - q 0%nat)) s (a*1+0) + faces_add [line_end 0; line_end 1] q s a 0 = 0.
Proof.
  intros q s a Ha. apply (C85_png_integration_by_parts line_fem [line_end 0; line_end 1] q (fun _ => q 1%nat - q 0%nat) s a 0 (C85_green_line q)); cbn; [assumption|lia| |].
  - intros f [<-|[<-|[]]]; reflexivity.
  - intros ip Hip. unfold value, grad, comp. cbn. field.
Qed.
