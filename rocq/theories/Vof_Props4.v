(** C86: boundary faces and momentum kernels of the volume-of-fluid scheme. *)
Require Import Reals List Bool Lra Lia Arith.
From Verif Require Import RUtil Edge_Model Edge_Proofs Elem_Model Elem_Spec Elem_Proofs Elem_Proofs2 Elem_Proofs3 Elem_Props2 Elem_Props3 Time_Model Rad_Quad_Proofs3.
From Verif Require Import Turb_Model Vof_Model Vof_Model2 Vof_Spec Vof_Props Vof_Props2 Vof_Props3.
Import ListNotations.
Open Scope R_scope.

(* ------------------------------------------------------------------ faces *)
Definition facek (f : vface) (k : esys -> esys) (C : nat -> nat -> R) (F : nat -> R) : Prop :=
  forall s, eff s (k s) (fun i j => sumn (vf_nip f) (fun ip => dl i (vf_near f ip) * C ip j))
                        (fun i => sumn (vf_nip f) (fun ip => - (dl i (vf_near f ip) * F ip))).
Lemma facek_loop f (body : nat -> esys -> esys) C F :
  (forall ip s, (ip < vf_nip f)%nat -> eff s (body ip s) (fun i j => dl i (vf_near f ip) * C ip j) (fun i => - (dl i (vf_near f ip) * F ip))) ->
  facek f (fun s => loop (vf_nip f) body s) C F.
Proof. intros H s. apply (eff_loop (vf_nip f) body (fun ip i j => dl i (vf_near f ip) * C ip j) (fun ip i => - (dl i (vf_near f ip) * F ip))). assumption. Qed.
Lemma face_sum_dl f F i : face_sum f F i = sumn (vf_nip f) (fun ip => dl i (vf_near f ip) * F ip).
Proof. unfold face_sum. apply sumn_ext. intros. unfold dl. destruct (Nat.eqb _ _); ring. Qed.
Lemma facek_gain f k C F s i : facek f k C F -> gain k s i = - face_sum f F i.
Proof. intros H. unfold gain. rewrite (proj2 (H s)), face_sum_dl, <- sumn_opp. ring. Qed.
Lemma face_sum_ext f F G i : (forall ip, (ip < vf_nip f)%nat -> F ip = G ip) -> face_sum f F i = face_sum f G i.
Proof. intros H. unfold face_sum. apply sumn_ext. intros. rewrite H by assumption. reflexivity. Qed.
Lemma face_sum_total f F n : (forall ip, (ip < vf_nip f)%nat -> (vf_near f ip < n)%nat) -> sumn n (face_sum f F) = sumn (vf_nip f) F.
Proof.
  intros H. rewrite (sumn_ext _ _ _ (fun i _ => face_sum_dl f F i)), sumn_swap. apply sumn_ext. intros ip Hip.
  apply (sumn_dl n (vf_near f ip) (fun _ => F ip)). apply H. assumption.
Qed.
Lemma facek_newton f (k : (nat -> R) -> esys -> esys) C F : (forall q, facek f (k q) C (F q)) ->
  (forall q d ip, (ip < vf_nip f)%nat -> F (fun a => q a + d a) ip = F q ip + sumn (vf_npe f) (fun j => C ip j * d j)) -> exact_newton (vf_npe f) k.
Proof.
  intros H L q d s i Hi. rewrite (proj2 (H (fun a => q a + d a) s)), (proj2 (H q s)).
  rewrite (sumn_ext (vf_npe f) _ (fun j => sumn (vf_nip f) (fun ip => dl i (vf_near f ip) * (C ip j * d j)))).
  2:{ intros j _. rewrite (proj1 (H q s)). rewrite Rplus_comm. unfold Rminus. rewrite Rplus_assoc, Rplus_opp_r, Rplus_0_r, <- sumn_scal_r. apply sumn_ext. intros; ring. }
  rewrite (sumn_swap (vf_npe f)).
  rewrite (sumn_ext (vf_nip f) (fun ip => - (_ * F (fun a => q a + d a) ip)) (fun ip => - (dl i (vf_near f ip) * F q ip) - sumn (vf_npe f) (fun j => dl i (vf_near f ip) * (C ip j * d j)))).
  - rewrite sumn_minus. ring.
  - intros ip Hip. rewrite L by assumption. rewrite sumn_scal. ring.
Qed.
Lemma ord_cols f s r (c : nat -> R) :
  eff s (loop (vf_npf f) (fun ic s => addL r (vf_ord f ic) (c ic) s) s) (fun i j => dl i r * sumn (vf_npf f) (fun ic => dl j (vf_ord f ic) * c ic)) (fun _ => 0).
Proof.
  eapply eff_ext.
  - apply (eff_loop (vf_npf f) _ (fun ic i j => dl i r * dl j (vf_ord f ic) * c ic) (fun _ _ => 0)). intros. apply eff_addL.
  - intros. rewrite <- sumn_scal. apply sumn_ext. intros; ring.
  - intros. apply sumn_zero. reflexivity.
Qed.
Lemma ord_pick f c (d : nat -> R) : face_ok f -> sumn (vf_npe f) (fun j => sumn (vf_npf f) (fun ic => dl j (vf_ord f ic) * c ic) * d j) = sumn (vf_npf f) (fun ic => c ic * on_face f d ic).
Proof.
  intros [HO _]. rewrite (sumn_ext (vf_npe f) _ (fun j => sumn (vf_npf f) (fun ic => dl j (vf_ord f ic) * (c ic * d j)))) by (intros; rewrite <- sumn_scal_r; apply sumn_ext; intros; ring).
  rewrite sumn_swap. apply sumn_ext. intros ic Hic. apply (sumn_dl (vf_npe f) (vf_ord f ic) (fun j => c ic * d j)). apply HO. assumption.
Qed.

(** inflow: the specified velocity through the face *)
Theorem C86_inflow_residual : forall f tau vbc s i,
  gain (cont_vof_inflow f tau vbc) s i
  = - face_sum f (fun ip => dotn (vf_dim f) (vec_at (vf_npf f) (vf_dim f) (vf_N f) vbc ip) (vf_A f ip) / tau) i.
Proof.
  intros. apply (facek_gain f _ (fun _ _ => 0) _ s i). unfold cont_vof_inflow. cbv zeta. apply facek_loop. intros ip s0 Hip.
  eapply eff_ext; [apply eff_addB| |]; intros; cbv beta; [ring|]. unfold dotn, vec_at, Rdiv. ring.
Qed.
Theorem C86_inflow_uniform_velocity : forall f tau vbc (u : nat -> R) n s, (forall ip, (ip < vf_nip f)%nat -> (vf_near f ip < n)%nat) -> face_unity f ->
  (forall ic j, (ic < vf_npf f)%nat -> (j < vf_dim f)%nat -> vbc (ic*vf_dim f+j)%nat = u j) -> tau <> 0 ->
  tau * sumn n (gain (cont_vof_inflow f tau vbc) s) = - dotn (vf_dim f) u (fun j => sumn (vf_nip f) (fun ip => vf_A f ip j)).
Proof.
  intros f tau vbc u n s HN HU HV HT. rewrite (sumn_ext _ _ _ (fun i _ => C86_inflow_residual f tau vbc s i)), sumn_opp, face_sum_total by assumption.
  rewrite <- Ropp_mult_distr_r. f_equal. rewrite <- sumn_scal. unfold dotn.
  rewrite (sumn_ext (vf_nip f) _ (fun ip => sumn (vf_dim f) (fun j => u j * vf_A f ip j))).
  - rewrite sumn_swap. apply sumn_ext. intros. rewrite sumn_scal. reflexivity.
  - intros ip Hip. replace (tau * (sumn (vf_dim f) (fun j => vec_at (vf_npf f) (vf_dim f) (vf_N f) vbc ip j * vf_A f ip j) / tau)) with (sumn (vf_dim f) (fun j => vec_at (vf_npf f) (vf_dim f) (vf_N f) vbc ip j * vf_A f ip j)) by (field; assumption).
    apply sumn_ext. intros j Hj. f_equal. unfold vec_at. rewrite (sumn_ext (vf_npf f) _ (fun ic => vf_N f ip ic * u j)) by (intros; rewrite HV by assumption; reflexivity).
    rewrite sumn_scal_r, HU by assumption. ring.
Qed.

(** open boundary *)
Lemma cont_vof_open_facek f pen c pbc dyn p : facek f (cont_vof_open f pen c pbc dyn p)
  (fun ip j => sumn (vf_npf f) (fun ic => dl j (vf_ord f ic) * (vf_N f ip ic*pen/at_face f (on_face f (cv_rho c)) ip*vf_invL f ip*vf_amag f ip))
     + sumn (vf_npe f) (fun ic => dl j ic * (sumn (vf_dim f) (fun k => - vf_dnl f ip ic k * vf_A f ip k) / at_face f (on_face f (cv_rho c)) ip)))
  (fun ip => vopen_vdot f pen c pbc dyn p ip / cv_tau c).
Proof.
  unfold cont_vof_open. cbv zeta. apply facek_loop. intros ip s Hip. set (rho := at_face f (on_face f (cv_rho c)) ip). eapply eff_ext.
  - eapply eff_trans; [|apply eff_addB]. eapply eff_trans; [apply (ord_cols f s (vf_near f ip) (fun ic => vf_N f ip ic*pen/rho*vf_invL f ip*vf_amag f ip))|].
    apply (cols_eff (vf_npe f) _ (vf_near f ip) (fun ic => sumn (vf_dim f) (fun k => - vf_dnl f ip ic k * vf_A f ip k) / rho)).
  - intros. cbv beta. ring.
  - intros. cbv beta. ring.
Qed.
(** volume flow rate out of an open face: interpolated velocity, the balance of forces, and a penalty that drives
    the pressure to the specified one (less the dynamic pressure of entrained fluid) *)
Definition open_flow (f : vface) (pen : R) (c : cvof) (pbc dyn p : nat -> R) (ip : nat) : R :=
  let d := vf_dim f in let rho := at_face f (on_face f (cv_rho c)) ip in
  let sk := at_face f (fun ic => on_face f (cv_sigma c) ic * on_face f (cv_kappa c) ic) ip * loc_fac c (at_face f (on_face f (cv_vof c)) ip) in
  let F := fun j => grad_at (vf_npe f) (vf_dn f) p ip j - cv_bw c * rho * cv_g c j - sk * grad_at (vf_npe f) (vf_dn f) (cv_vof c) ip j in
  dotn d (fun j => sumn (vf_npf f) (fun ic => vf_N f ip ic * cv_v c (vf_ord f ic*d+j)%nat)) (vf_A f ip)
  - cv_tau c * dotn d (fun j => F j / rho - sumn (vf_npf f) (fun ic => vf_N f ip ic * cv_Gp c (vf_ord f ic*d+j)%nat)) (vf_A f ip)
  + pen * cv_tau c / rho * vf_invL f ip * (at_face f (on_face f p) ip - (at_face f (on_face f pbc) ip - dyn ip)) * vf_amag f ip.
Lemma vopen_flow f pen c pbc dyn p ip : vopen_vdot f pen c pbc dyn p ip = open_flow f pen c pbc dyn p ip.
Proof.
  unfold vopen_vdot, open_flow. cbv zeta. set (rho := at_face f (on_face f (cv_rho c)) ip). set (L := loc_fac c _).
  assert (E1 : sumn (vf_npf f) (fun ic => vf_N f ip ic * on_face f (cv_sigma c) ic * on_face f (cv_kappa c) ic) = at_face f (fun ic => on_face f (cv_sigma c) ic * on_face f (cv_kappa c) ic) ip) by (unfold at_face; apply sumn_ext; intros; ring).
  rewrite E1. set (K := at_face f (fun ic => _ * _) ip).
  assert (E2 : sumn (vf_npe f) (fun ic => sumn (vf_dim f) (fun j => vf_dn f ip ic j * cv_vof c ic * vf_A f ip j)) = sumn (vf_dim f) (fun j => grad_at (vf_npe f) (vf_dn f) (cv_vof c) ip j * vf_A f ip j)).
  { rewrite sumn_swap. apply sumn_ext. intros. unfold grad_at. rewrite sumn_scal_r. reflexivity. }
  rewrite E2. unfold dotn. 
  match goal with |- ?P + cv_tau c * (K*L) * ?W / rho + ?X = ?Y - cv_tau c * ?Z + ?P' => assert (E3 : cv_tau c * (K*L) * W / rho + X = Y - cv_tau c * Z) end.
  { unfold Rdiv. rewrite <- sumn_scal, <- sumn_scal, <- sumn_scal_r, <- sumn_plus, <- sumn_minus. apply sumn_ext. intros j Hj. fold (grad_at (vf_npe f) (vf_dn f) p ip j). ring. }
  rewrite Rplus_assoc, E3. replace (- dyn ip + at_face f (on_face f pbc) ip) with (at_face f (on_face f pbc) ip - dyn ip) by ring. ring.
Qed.
Theorem C86_open_residual : forall f pen c pbc dyn p s i,
  gain (cont_vof_open f pen c pbc dyn p) s i = - face_sum f (fun ip => open_flow f pen c pbc dyn p ip / cv_tau c) i.
Proof. intros. rewrite (facek_gain _ _ _ _ s i (cont_vof_open_facek f pen c pbc dyn p)). f_equal. apply face_sum_ext. intros. rewrite vopen_flow. reflexivity. Qed.
Theorem C86_open_newton : forall f pen c pbc dyn, face_ok f -> cv_tau c <> 0 -> (forall ip ic j, vf_dnl f ip ic j = vf_dn f ip ic j) ->
  (forall ip, (ip < vf_nip f)%nat -> at_face f (on_face f (cv_rho c)) ip <> 0) -> exact_newton (vf_npe f) (cont_vof_open f pen c pbc dyn).
Proof.
  intros f pen c pbc dyn HF HT HL HR. eapply facek_newton; [intros; apply cont_vof_open_facek|]. intros q d ip Hip. cbv beta. rewrite !vopen_flow.
  unfold open_flow. cbv zeta. set (rho := at_face f (on_face f (cv_rho c)) ip). assert (R0 : rho <> 0) by (apply HR; assumption).
  rewrite (sumn_ext (vf_npe f) _ (fun j => sumn (vf_npf f) (fun ic => dl j (vf_ord f ic) * (vf_N f ip ic*pen/rho*vf_invL f ip*vf_amag f ip)) * d j
     + sumn (vf_npe f) (fun ic => dl j ic * (sumn (vf_dim f) (fun k => - vf_dnl f ip ic k * vf_A f ip k) / rho)) * d j)) by (intros; ring).
  rewrite sumn_plus, ord_pick, cols_pick by assumption.
  rewrite (sumn_ext (vf_npf f) _ (fun ic => (pen/rho*vf_invL f ip*vf_amag f ip) * (vf_N f ip ic * on_face f d ic))) by (intros; unfold Rdiv; ring).
  rewrite sumn_scal. fold (at_face f (on_face f d) ip).
  rewrite (sumn_ext (vf_npe f) _ (fun ic => (- (1/rho)) * (sumn (vf_dim f) (fun k => vf_dn f ip ic k * vf_A f ip k) * d ic))).
  2:{ intros ic _. rewrite (sumn_ext (vf_dim f) _ (fun k => - (vf_dn f ip ic k * vf_A f ip k))) by (intros; rewrite HL; ring). rewrite sumn_opp. field. assumption. }
  rewrite sumn_scal.
  assert (E : sumn (vf_npe f) (fun ic => sumn (vf_dim f) (fun k => vf_dn f ip ic k * vf_A f ip k) * d ic) = sumn (vf_dim f) (fun k => grad_at (vf_npe f) (vf_dn f) d ip k * vf_A f ip k)).
  { rewrite (sumn_ext (vf_npe f) _ (fun ic => sumn (vf_dim f) (fun k => vf_dn f ip ic k * d ic * vf_A f ip k))) by (intros; rewrite <- sumn_scal_r; apply sumn_ext; intros; ring).
    rewrite sumn_swap. apply sumn_ext. intros. unfold grad_at. rewrite sumn_scal_r. reflexivity. }
  rewrite E. unfold dotn.
  assert (EP : at_face f (on_face f (fun a => q a + d a)) ip = at_face f (on_face f q) ip + at_face f (on_face f d) ip).
  { unfold at_face, on_face. rewrite <- sumn_plus. apply sumn_ext. intros; ring. }
  rewrite EP. set (X := sumn (vf_dim f) (fun j => sumn _ _ * vf_A f ip j)).
  match goal with |- (X - cv_tau c * ?Y + _) / cv_tau c = (X - cv_tau c * ?Z + _) / cv_tau c + (_ + - (1/rho) * ?W) =>
    assert (YZ : Y = Z + 1/rho * W) end.
  { rewrite <- sumn_scal, <- sumn_plus. apply sumn_ext. intros j _. rewrite grad_at_plus. field. assumption. }
  rewrite YZ. field. split; assumption.
Qed.
(** hydrostatic and surface-tension balance at an open face whose specified pressure is met: no flow *)
Theorem C86_open_balanced_no_flow : forall f pen c pbc dyn p s i,
  (forall a, cv_v c a = 0) -> (forall a, cv_Gp c a = 0) -> (forall ip, (ip < vf_nip f)%nat -> dyn ip = 0) ->
  (forall ic, (ic < vf_npf f)%nat -> on_face f p ic = on_face f pbc ic) ->
  (forall ip j, (ip < vf_nip f)%nat -> (j < vf_dim f)%nat -> grad_at (vf_npe f) (vf_dn f) p ip j
     = cv_bw c * at_face f (on_face f (cv_rho c)) ip * cv_g c j
       + at_face f (fun ic => on_face f (cv_sigma c) ic * on_face f (cv_kappa c) ic) ip * loc_fac c (at_face f (on_face f (cv_vof c)) ip) * grad_at (vf_npe f) (vf_dn f) (cv_vof c) ip j) ->
  gain (cont_vof_open f pen c pbc dyn p) s i = 0.
Proof.
  intros f pen c pbc dyn p s i HV HG HD HP HB. rewrite C86_open_residual. rewrite (face_sum_ext f _ (fun _ => 0)).
  - rewrite face_sum_dl, sumn_zero by (intros; ring). ring.
  - intros ip Hip. unfold open_flow, dotn. cbv zeta. rewrite sumn_zero.
    2:{ intros j _. rewrite sumn_zero; [ring|]. intros. rewrite HV. ring. }
    rewrite (sumn_zero (vf_dim f)).
    2:{ intros j Hj. rewrite HB by assumption. rewrite (sumn_zero (vf_npf f)) by (intros; rewrite HG; ring). unfold Rdiv. ring. }
    assert (E : at_face f (on_face f p) ip = at_face f (on_face f pbc) ip) by (unfold at_face; apply sumn_ext; intros; rewrite HP by assumption; reflexivity).
    rewrite E, HD by assumption. unfold Rdiv. ring.
Qed.

(** advection through an open face: what leaves carries the fluid's own volume fraction, what enters the specified one *)
Lemma vof_open_facek f vdot qbc q : facek f (vof_open_adv f vdot qbc q)
  (fun ip j => sumn (vf_npf f) (fun ic => dl j (vf_ord f ic) * (vf_N f ip ic * (vdot ip * (if Rlt_dec 0 (vdot ip) then 1 else 0)))))
  (fun ip => vdot ip * (if Rlt_dec 0 (vdot ip) then at_face f (on_face f q) ip else at_face f (on_face f qbc) ip)).
Proof.
  unfold vof_open_adv. cbv zeta. apply facek_loop. intros ip s Hip. set (lv := if Rlt_dec 0 (vdot ip) then 1 else 0). eapply eff_ext.
  - eapply eff_trans; [|apply eff_addB]. eapply eff_trans; [apply eff_addB|].
    apply (ord_cols f _ (vf_near f ip) (fun ic => vf_N f ip ic * (vdot ip * lv))).
  - intros. cbv beta. ring.
  - intros. cbv beta. unfold lv. destruct (Rlt_dec 0 (vdot ip)); ring.
Qed.
Theorem C86_open_advection : forall f vdot qbc q s i,
  gain (vof_open_adv f vdot qbc q) s i
  = - face_sum f (fun ip => vdot ip * (if Rlt_dec 0 (vdot ip) then at_face f (on_face f q) ip else at_face f (on_face f qbc) ip)) i.
Proof. intros. apply (facek_gain _ _ _ _ s i (vof_open_facek f vdot qbc q)). Qed.
Theorem C86_open_advection_newton : forall f vdot qbc, face_ok f -> exact_newton (vf_npe f) (vof_open_adv f vdot qbc).
Proof.
  intros f vdot qbc HF. eapply facek_newton; [intros; apply vof_open_facek|]. intros q d ip Hip. cbv beta. rewrite ord_pick by assumption.
  rewrite (sumn_ext (vf_npf f) _ (fun ic => (vdot ip * (if Rlt_dec 0 (vdot ip) then 1 else 0)) * (vf_N f ip ic * on_face f d ic))) by (intros; ring).
  rewrite sumn_scal. fold (at_face f (on_face f d) ip). destruct (Rlt_dec 0 (vdot ip)); [|ring].
  assert (EP : at_face f (on_face f (fun a => q a + d a)) ip = at_face f (on_face f q) ip + at_face f (on_face f d) ip).
  { unfold at_face, on_face. rewrite <- sumn_plus. apply sumn_ext. intros; ring. }
  rewrite EP. ring.
Qed.
(** total fluid through the face: never more than outflow + inflow when volume fractions are in [0,1] *)
Theorem C86_open_advection_total : forall f vdot qbc q s, face_ok f ->
  sumn (vf_npe f) (gain (vof_open_adv f vdot qbc q) s)
  = - sumn (vf_nip f) (fun ip => vdot ip * (if Rlt_dec 0 (vdot ip) then at_face f (on_face f q) ip else at_face f (on_face f qbc) ip)).
Proof. intros f vdot qbc q s [_ HN]. rewrite (sumn_ext _ _ _ (fun i _ => C86_open_advection f vdot qbc q s i)), sumn_opp, face_sum_total by assumption. reflexivity. Qed.

(* ------------------------------------------------------------------ capillary viscosity *)
(** matrix row and flux of component i at a face: -mu (I - n n)_il grad u_l . A *)
Definition cap_n (m : me) (nrm : nat -> R) (ip j : nat) : R := vec_at (npe m) (ndim m) (Ns m) nrm ip j.
Definition cap_coef (m : me) (mu : R) (nrm : nat -> R) (ip ic i l : nat) : R :=
  - mu * dotn (ndim m) (dndx m ip ic) (area m ip) * (dl i l - cap_n m nrm ip i * cap_n m nrm ip l).
Definition cap_row (m : me) (mu : nat -> R) (nrm : nat -> R) (ip i col : nat) : R :=
  sumn (npe m) (fun ic => sumn (ndim m) (fun l => dl col (ic*ndim m+l) * cap_coef m (mu ip) nrm ip ic i l)).
Definition cap_flux (m : me) (mu : nat -> R) (nrm u : nat -> R) (ip i : nat) : R :=
  sumn (npe m) (fun ic => sumn (ndim m) (fun l => cap_coef m (mu ip) nrm ip ic i l * u (ic*ndim m+l)%nat)).
Lemma cap_eff m dtm sigma vof nrm u s :
  eff s (mom_capillary m dtm sigma vof nrm u s)
   (fun row col => sumn (nscs m) (fun ip => sumn (ndim m) (fun i => side m ip row i * cap_row m (cap_mu m dtm sigma vof) nrm ip i col)))
   (fun row => sumn (nscs m) (fun ip => sumn (ndim m) (fun i => - (side m ip row i * cap_flux m (cap_mu m dtm sigma vof) nrm u ip i)))).
Proof.
  unfold mom_capillary. cbv zeta.
  apply (eff_loop (nscs m) _ (fun ip row col => sumn (ndim m) (fun i => side m ip row i * cap_row m (cap_mu m dtm sigma vof) nrm ip i col))
     (fun ip row => sumn (ndim m) (fun i => - (side m ip row i * cap_flux m (cap_mu m dtm sigma vof) nrm u ip i)))).
  intros ip s1 Hip. set (mu := cap_mu m dtm sigma vof ip). set (d := ndim m).
  assert (HN : forall i, sumn (npe m) (fun ic => Ns m ip ic * nrm (ic*d+i)%nat) = cap_n m nrm ip i) by reflexivity.
  eapply eff_ext.
  - apply (eff_loop (npe m) _ (fun ic row col => sumn d (fun j => sumn d (fun i => side m ip row i * sumn d (fun l => dl col (ic*d+l) * (- mu * dndx m ip ic j * area m ip j * (dl i l - cap_n m nrm ip i * cap_n m nrm ip l))))))
      (fun ic row => sumn d (fun j => sumn d (fun i => - (side m ip row i * sumn d (fun l => - mu * dndx m ip ic j * area m ip j * (dl i l - cap_n m nrm ip i * cap_n m nrm ip l) * u (ic*d+l)%nat)))))).
    intros ic s2 Hic.
    apply (eff_loop d _ (fun j row col => sumn d (fun i => side m ip row i * sumn d (fun l => dl col (ic*d+l) * (- mu * dndx m ip ic j * area m ip j * (dl i l - cap_n m nrm ip i * cap_n m nrm ip l)))))
      (fun j row => sumn d (fun i => - (side m ip row i * sumn d (fun l => - mu * dndx m ip ic j * area m ip j * (dl i l - cap_n m nrm ip i * cap_n m nrm ip l) * u (ic*d+l)%nat))))).
    intros j s3 Hj.
    apply (eff_loop d _ (fun i row col => side m ip row i * sumn d (fun l => dl col (ic*d+l) * (- mu * dndx m ip ic j * area m ip j * (dl i l - cap_n m nrm ip i * cap_n m nrm ip l))))
      (fun i row => - (side m ip row i * sumn d (fun l => - mu * dndx m ip ic j * area m ip j * (dl i l - cap_n m nrm ip i * cap_n m nrm ip l) * u (ic*d+l)%nat)))).
    intros i s4 Hi. rewrite !HN. set (g := dndx m ip ic j * area m ip j).
    eapply eff_ext.
    + eapply eff_trans; swap 1 2.
      * apply (eff_loop d _ (fun l row col => if Nat.eqb i l then 0 else side m ip row i * (dl col (ic*d+l) * (mu * g * (cap_n m nrm ip i * cap_n m nrm ip l))))
          (fun l row => if Nat.eqb i l then 0 else - (side m ip row i * (mu * g * (cap_n m nrm ip i * cap_n m nrm ip l) * u (ic*d+l)%nat)))).
        intros l s5 Hl. destruct (Nat.eqb i l); [apply eff_refl|]. rewrite !HN. eapply eff_ext.
        -- eapply eff_trans; [|apply eff_addB]. eapply eff_trans; [|apply eff_addB]. eapply eff_trans; apply eff_addL.
        -- intros. cbv beta. unfold side, g, d. ring.
        -- intros. cbv beta. unfold side, g, d. ring.
      * eapply eff_trans; [|apply eff_addB]. eapply eff_trans; [|apply eff_addB]. eapply eff_trans; apply eff_addL.
    + intros row col. cbv beta.
      assert (E : sumn d (fun l => dl col (ic*d+l) * (- mu * dndx m ip ic j * area m ip j * (dl i l - cap_n m nrm ip i * cap_n m nrm ip l)))
        = dl col (ic*d+i) * (- mu * g * (1 - cap_n m nrm ip i * cap_n m nrm ip i)) + sumn d (fun l => if Nat.eqb i l then 0 else dl col (ic*d+l) * (mu * g * (cap_n m nrm ip i * cap_n m nrm ip l)))).
      { rewrite (sumn_ext d _ (fun l => dl l i * (dl col (ic*d+i) * (- mu * g * (1 - cap_n m nrm ip i * cap_n m nrm ip i))) + (if Nat.eqb i l then 0 else dl col (ic*d+l) * (mu * g * (cap_n m nrm ip i * cap_n m nrm ip l))))).
        - rewrite sumn_plus, (sumn_dl d i (fun _ => dl col (ic*d+i) * (- mu * g * (1 - cap_n m nrm ip i * cap_n m nrm ip i)))) by assumption. reflexivity.
        - intros l Hl. unfold dl at 2 3, g. rewrite (Nat.eqb_sym l i). destruct (Nat.eqb_spec i l) as [->|]; ring. }
      rewrite E, Rmult_plus_distr_l, <- sumn_scal. f_equal.
      * unfold side, d, g. ring.
      * apply sumn_ext. intros l _. destruct (Nat.eqb i l); ring.
    + intros row. cbv beta.
      assert (E : sumn d (fun l => - mu * dndx m ip ic j * area m ip j * (dl i l - cap_n m nrm ip i * cap_n m nrm ip l) * u (ic*d+l)%nat)
        = (- mu * g * (1 - cap_n m nrm ip i * cap_n m nrm ip i)) * u (ic*d+i)%nat + sumn d (fun l => if Nat.eqb i l then 0 else (mu * g * (cap_n m nrm ip i * cap_n m nrm ip l)) * u (ic*d+l)%nat)).
      { rewrite (sumn_ext d _ (fun l => dl l i * ((- mu * g * (1 - cap_n m nrm ip i * cap_n m nrm ip i)) * u (ic*d+i)%nat) + (if Nat.eqb i l then 0 else (mu * g * (cap_n m nrm ip i * cap_n m nrm ip l)) * u (ic*d+l)%nat))).
        - rewrite sumn_plus, (sumn_dl d i (fun _ => (- mu * g * (1 - cap_n m nrm ip i * cap_n m nrm ip i)) * u (ic*d+i)%nat)) by assumption. reflexivity.
        - intros l Hl. unfold dl, g. rewrite (Nat.eqb_sym l i). destruct (Nat.eqb_spec i l) as [->|]; ring. }
      rewrite E, Rmult_plus_distr_l, Ropp_plus_distr, <- sumn_scal, <- sumn_opp. f_equal.
      * unfold side, d, g. ring.
      * apply sumn_ext. intros l _. destruct (Nat.eqb i l); ring.
  - intros row col. cbv beta.
    assert (SW : forall ic, sumn d (fun j => sumn d (fun i => side m ip row i * sumn d (fun l => dl col (ic*d+l) * (- mu * dndx m ip ic j * area m ip j * (dl i l - cap_n m nrm ip i * cap_n m nrm ip l)))))
      = sumn d (fun i => side m ip row i * sumn d (fun l => dl col (ic*d+l) * cap_coef m mu nrm ip ic i l))).
    { intros ic. rewrite sumn_swap. apply sumn_ext. intros i _. rewrite sumn_scal. f_equal. rewrite sumn_swap. apply sumn_ext. intros l _.
      rewrite sumn_scal. f_equal. unfold cap_coef, dotn. fold d. rewrite <- sumn_scal, <- sumn_scal_r. apply sumn_ext. intros; ring. }
    rewrite (sumn_ext (npe m) _ _ (fun ic _ => SW ic)). apply (sum_side m ip row (npe m) (fun ic i => sumn d (fun l => dl col (ic*d+l) * cap_coef m mu nrm ip ic i l))).
  - intros row. cbv beta.
    assert (SW : forall ic, sumn d (fun j => sumn d (fun i => - (side m ip row i * sumn d (fun l => - mu * dndx m ip ic j * area m ip j * (dl i l - cap_n m nrm ip i * cap_n m nrm ip l) * u (ic*d+l)%nat))))
      = - sumn d (fun i => side m ip row i * sumn d (fun l => cap_coef m mu nrm ip ic i l * u (ic*d+l)%nat))).
    { intros ic. rewrite sumn_swap, <- sumn_opp. apply sumn_ext. intros i _. rewrite sumn_opp, sumn_scal. f_equal. f_equal. rewrite sumn_swap. apply sumn_ext. intros l _.
      rewrite sumn_scal_r. f_equal. unfold cap_coef, dotn. fold d. rewrite <- sumn_scal, <- sumn_scal_r. apply sumn_ext. intros; ring. }
    rewrite (sumn_ext (npe m) _ _ (fun ic _ => SW ic)), sumn_opp, sumn_opp. f_equal.
    apply (sum_side m ip row (npe m) (fun ic i => sumn d (fun l => cap_coef m mu nrm ip ic i l * u (ic*d+l)%nat))).
Qed.
