(** C89: heat-flux boundary terms. *)
Require Import Reals List Bool Lra Lia Arith.
From Coquelicot Require Import Coquelicot.
From Verif Require Import RUtil Edge_Model Edge_Proofs Elem_Model Elem_Spec Elem_Proofs Elem_Proofs2 Elem_Proofs3 Rad_Quad_Proofs3 Bnd_Props.
From Verif Require Import Turb_Model Vof_Model Vof_Model2 Vof_Spec Vof_Props Vof_Props2 Vof_Props4 Aux_Model Aux_Props Heat_Model.
Import ListNotations.
Open Scope R_scope.

(** a boundary face whose rows are its own nodes *)
Definition own_face (f : vface) : Prop := forall ip, (ip < vf_nip f)%nat -> (vf_near f ip < vf_npf f)%nat.
Definition face_area (f : vface) : R := sumn (vf_nip f) (vf_amag f).

Lemma at_face_plus f q d ip : at_face f (fun a => q a + d a) ip = at_face f q ip + at_face f d ip.
Proof. unfold at_face. rewrite <- sumn_plus. apply sumn_ext. intros; ring. Qed.
Lemma at_face_const f c ip : face_unity f -> (ip < vf_nip f)%nat -> at_face f (fun _ => c) ip = c.
Proof. intros HU Hip. unfold at_face. rewrite sumn_scal_r, HU by assumption. ring. Qed.
Lemma face_eff f (body : nat -> esys -> esys) (C : nat -> nat -> R) F :
  (forall ip s, (ip < vf_nip f)%nat -> eff s (body ip s) (fun i j => dl i (vf_near f ip) * C ip j) (fun i => dl i (vf_near f ip) * F ip)) ->
  facek f (fun s => loop (vf_nip f) body s) C (fun ip => - F ip).
Proof. intros H. apply facek_loop. intros ip s Hip. eapply eff_ext; [apply H; assumption|reflexivity|]. intros; cbv beta; ring. Qed.
Lemma face_sum_neg f F i : - face_sum f (fun ip => - F ip) i = face_sum f F i.
Proof. unfold face_sum. rewrite <- sumn_opp. apply sumn_ext. intros. destruct (Nat.eqb _ _); ring. Qed.

(* ------------------------------------------------------------------ convective (Robin) wall *)
Definition robin_flux (f : vface) (alpha q tRef T : nat -> R) (ip : nat) : R :=
  (at_face f q ip + at_face f alpha ip * (at_face f tRef ip - at_face f T ip)) * vf_amag f ip.
Lemma robin_facek f alpha q tRef T : facek f (heat_cond_wall f alpha q tRef T)
  (fun ip j => sumn (vf_npf f) (fun ic => dl j ic * (vf_N f ip ic * (at_face f alpha ip * vf_amag f ip)))) (fun ip => - robin_flux f alpha q tRef T ip).
Proof.
  unfold heat_cond_wall. cbv zeta. apply face_eff. intros ip s Hip. eapply eff_ext.
  - eapply eff_trans; [apply eff_addB|]. apply (cols_eff (vf_npf f) _ (vf_near f ip) (fun ic => vf_N f ip ic * (at_face f alpha ip * vf_amag f ip))).
  - intros; cbv beta; ring.
  - intros; cbv beta. unfold robin_flux. ring.
Qed.
Theorem C89_robin_wall_flux : forall f alpha q tRef T s a, gain (heat_cond_wall f alpha q tRef T) s a = face_sum f (robin_flux f alpha q tRef T) a.
Proof. intros. rewrite (facek_gain _ _ _ _ s a (robin_facek f alpha q tRef T)). apply face_sum_neg. Qed.
Theorem C89_robin_wall_newton : forall f alpha q tRef, own_face f -> exact_newton (vf_npf f) (heat_cond_wall f alpha q tRef).
Proof.
  intros f alpha q tRef HF. apply (row_newton (vf_npf f) (heat_cond_wall f alpha q tRef) (vf_nip f) (vf_near f)
    (fun ip j => sumn (vf_npf f) (fun ic => dl j ic * (vf_N f ip ic * (at_face f alpha ip * vf_amag f ip)))) (fun T ip => - robin_flux f alpha q tRef T ip)).
  - intros T s. apply (robin_facek f alpha q tRef T).
  - intros T d ip Hip. rewrite cols_pick. unfold robin_flux. rewrite at_face_plus.
    rewrite (sumn_ext (vf_npf f) _ (fun ic => (at_face f alpha ip * vf_amag f ip) * (vf_N f ip ic * d ic))) by (intros; ring). rewrite sumn_scal. fold (at_face f d ip). ring.
Qed.
(** a wall at the reference temperature with no imposed flux exchanges nothing; otherwise the exchange is towards it *)
Theorem C89_robin_equilibrium : forall f alpha T s a, gain (heat_cond_wall f alpha (fun _ => 0) T T) s a = 0.
Proof.
  intros. rewrite C89_robin_wall_flux. unfold face_sum. apply sumn_zero. intros ip _. destruct (Nat.eqb _ _); [|reflexivity]. unfold robin_flux, at_face at 1.
  rewrite sumn_zero by (intros; ring). ring.
Qed.
Theorem C89_robin_uniform_total : forall f al q t0 t1 s, own_face f -> face_unity f ->
  sumn (vf_npf f) (gain (heat_cond_wall f (fun _ => al) (fun _ => q) (fun _ => t0) (fun _ => t1)) s) = (q + al*(t0 - t1)) * face_area f.
Proof.
  intros f al q t0 t1 s HF HU. rewrite (sumn_ext _ _ _ (fun a _ => C89_robin_wall_flux f _ _ _ _ s a)), face_sum_total by assumption.
  unfold face_area. rewrite <- sumn_scal. apply sumn_ext. intros ip Hip. unfold robin_flux. rewrite !at_face_const by assumption. reflexivity.
Qed.
(* ------------------------------------------------------------------ irradiated wall *)
Definition irrad_flux (f : vface) (sigma : R) (irr emis T : nat -> R) (ip : nat) : R :=
  at_face f emis ip * (at_face f irr ip - sigma * at_face f T ip ^ 4) * vf_amag f ip.
Lemma irrad_facek f sigma irr emis T : facek f (irrad_wall f sigma irr emis T)
  (fun ip j => sumn (vf_npf f) (fun ic => dl j ic * (vf_N f ip ic * (4*sigma*at_face f emis ip*vf_amag f ip*at_face f T ip^3)))) (fun ip => - irrad_flux f sigma irr emis T ip).
Proof.
  unfold irrad_wall. cbv zeta. apply face_eff. intros ip s Hip. eapply eff_ext.
  - eapply eff_trans; [apply eff_addB|]. apply (cols_eff (vf_npf f) _ (vf_near f ip) (fun ic => vf_N f ip ic * (4*sigma*at_face f emis ip*vf_amag f ip*at_face f T ip^3))).
  - intros; cbv beta; ring.
  - intros; cbv beta. unfold irrad_flux. ring.
Qed.
Theorem C89_irradiation_flux : forall f sigma irr emis T s a, gain (irrad_wall f sigma irr emis T) s a = face_sum f (irrad_flux f sigma irr emis T) a.
Proof. intros. rewrite (facek_gain _ _ _ _ s a (irrad_facek f sigma irr emis T)). apply face_sum_neg. Qed.
(** the matrix is minus the derivative of the residual in every direction *)
Lemma is_derive_sumn' n (F : nat -> R -> R) (D : nat -> R) x : (forall k, (k < n)%nat -> is_derive (F k) x (D k)) -> is_derive (fun t => sumn n (fun k => F k t)) x (sumn n D).
Proof.
  induction n as [|n IH]; intros H.
  - apply (is_derive_ext (fun _ => 0)); [reflexivity|]. change (sumn 0 D) with 0. apply (@is_derive_const R_AbsRing R_NormedModule).
  - apply (is_derive_ext (fun t => sumn n (fun k => F k t) + F n t)); [intros; rewrite sumn_S; reflexivity|]. rewrite sumn_S.
    apply (@is_derive_plus R_AbsRing R_NormedModule); [apply IH; intros; apply H; lia|apply H; lia].
Qed.
Theorem C89_irradiation_matrix_is_derivative : forall f sigma irr emis T d s a, own_face f -> (a < vf_npf f)%nat ->
  is_derive (fun h => gain (irrad_wall f sigma irr emis (fun k => T k + h * d k)) s a) 0
    (- sumn (vf_npf f) (fun j => gainL (irrad_wall f sigma irr emis T) s a j * d j)).
Proof.
  intros f sigma irr emis T d s a HF Ha.
  apply (is_derive_ext (fun h => sumn (vf_nip f) (fun ip => dl a (vf_near f ip) * (at_face f emis ip * (at_face f irr ip - sigma*(at_face f T ip + h*at_face f d ip)^4) * vf_amag f ip)))).
  - intros h. rewrite C89_irradiation_flux, face_sum_dl. apply sumn_ext. intros ip _. unfold irrad_flux. rewrite at_face_plus. do 2 f_equal. 
    assert (E : at_face f (fun a => h * d a) ip = h * at_face f d ip) by (unfold at_face; rewrite <- sumn_scal; apply sumn_ext; intros; ring). rewrite E. reflexivity.
  - match goal with |- is_derive _ _ ?D => assert (E : D = sumn (vf_nip f) (fun ip => - (dl a (vf_near f ip) * (4*sigma*at_face f emis ip*vf_amag f ip*at_face f T ip^3 * at_face f d ip)))) end.
    { unfold gainL. rewrite (sumn_ext (vf_npf f) _ (fun j => sumn (vf_nip f) (fun ip => dl a (vf_near f ip) * (sumn (vf_npf f) (fun ic => dl j ic * (vf_N f ip ic * (4*sigma*at_face f emis ip*vf_amag f ip*at_face f T ip^3))) * d j)))).
      - rewrite (sumn_swap (vf_npf f)), <- sumn_opp. apply sumn_ext. intros ip Hip. rewrite sumn_scal, cols_pick.
        rewrite (sumn_ext (vf_npf f) _ (fun ic => (4*sigma*at_face f emis ip*vf_amag f ip*at_face f T ip^3) * (vf_N f ip ic * d ic))) by (intros; ring). rewrite sumn_scal. fold (at_face f d ip). ring.
      - intros j _. rewrite (proj1 (irrad_facek f sigma irr emis T s)). rewrite Rplus_comm. unfold Rminus. rewrite Rplus_assoc, Rplus_opp_r, Rplus_0_r, <- sumn_scal_r. apply sumn_ext. intros; ring. }
    rewrite E. apply (is_derive_sumn' (vf_nip f) (fun ip h => dl a (vf_near f ip) * (at_face f emis ip * (at_face f irr ip - sigma*(at_face f T ip + h*at_face f d ip)^4) * vf_amag f ip))). intros ip Hip.
    auto_derive; [trivial|]. ring.
Qed.
Theorem C89_radiative_equilibrium : forall f sigma emis t s a, face_unity f -> gain (irrad_wall f sigma (fun _ => sigma*t^4) emis (fun _ => t)) s a = 0.
Proof.
  intros f sigma emis t s a HU. rewrite C89_irradiation_flux. unfold face_sum. apply sumn_zero. intros ip Hip. destruct (Nat.eqb _ _); [|reflexivity]. unfold irrad_flux. rewrite !at_face_const by assumption. ring.
Qed.
(** a hotter wall receives less: the flux decreases with the wall temperature *)
Theorem C89_irradiation_monotone : forall f sigma irr e t1 t2 s a, face_unity f -> 0 <= sigma -> 0 <= e -> 0 <= t1 <= t2 ->
  gain (irrad_wall f sigma irr (fun _ => e) (fun _ => t2)) s a <= gain (irrad_wall f sigma irr (fun _ => e) (fun _ => t1)) s a.
Proof.
  intros f sigma irr e t1 t2 s a HU Hs He [H0 H12]. rewrite !C89_irradiation_flux. unfold face_sum.
  assert (P : 0 <= sumn (vf_nip f) (fun ip => (if Nat.eqb a (vf_near f ip) then irrad_flux f sigma irr (fun _ => e) (fun _ => t1) ip else 0) - (if Nat.eqb a (vf_near f ip) then irrad_flux f sigma irr (fun _ => e) (fun _ => t2) ip else 0))).
  { apply sumn_nonneg. intros ip Hip. destruct (Nat.eqb _ _); [|lra]. unfold irrad_flux. rewrite !at_face_const by assumption.
    replace (_ - _) with (e*sigma*(t2^4 - t1^4)*vf_amag f ip) by ring. pose proof (pow_incr t1 t2 4 (conj H0 H12)).
    repeat apply Rmult_le_pos; try assumption; [lra|apply sqrt_pos]. }
  rewrite sumn_minus in P. lra.
Qed.
(* ------------------------------------------------------------------ specified fluxes *)
Theorem C89_flux_bc : forall f q s a, gain (scalar_flux_bc f q) s a = face_sum f (fun ip => at_face f q ip * vf_amag f ip) a.
Proof.
  intros. rewrite (facek_gain f (scalar_flux_bc f q) (fun _ _ => 0) (fun ip => - (at_face f q ip * vf_amag f ip))); [apply face_sum_neg|].
  unfold scalar_flux_bc. apply face_eff. intros. eapply eff_ext; [apply eff_addB| |]; intros; cbv beta; ring.
Qed.
Theorem C89_flux_bc_total : forall f q s, own_face f -> sumn (vf_npf f) (gain (scalar_flux_bc f q) s) = sumn (vf_nip f) (fun ip => at_face f q ip * vf_amag f ip).
Proof. intros. rewrite (sumn_ext _ _ _ (fun a _ => C89_flux_bc f q s a)). apply face_sum_total. assumption. Qed.
Theorem C89_normal_gradient_bc : forall f g evisc cp s a,
  gain (normal_gradient_bc f g evisc cp) s a = face_sum f (fun ip => - (at_face f evisc ip * at_face f cp ip * at_face f g ip) * vf_amag f ip) a.
Proof.
  intros. rewrite (facek_gain f (normal_gradient_bc f g evisc cp) (fun _ _ => 0) (fun ip => - (- (at_face f evisc ip * at_face f cp ip * at_face f g ip) * vf_amag f ip))); [apply face_sum_neg|].
  unfold normal_gradient_bc. cbv zeta. apply face_eff. intros. eapply eff_ext; [apply eff_addB| |]; intros; cbv beta; ring.
Qed.
Theorem C89_specified_fluxes_leave_matrix : forall f q g evisc cp s i j,
  eL_ (scalar_flux_bc f q s) i j = eL_ s i j /\ eL_ (normal_gradient_bc f g evisc cp s) i j = eL_ s i j.
Proof.
  assert (K : forall (fn : nat -> nat) v n s i j, eL_ (loop n (fun ip s => addB (fn ip) (v ip) s) s) i j = eL_ s i j).
  { intros fn v n s i j. unfold loop. generalize (seq 0 n). intros l. revert s. induction l as [|x l IH]; intros s; [reflexivity|]. cbn [fold_left]. rewrite IH. reflexivity. }
  intros. split; [apply (K (vf_near f) (fun ip => at_face f q ip*vf_amag f ip))|]. unfold normal_gradient_bc. cbv zeta. apply (K (vf_near f) (fun ip => - at_face f evisc ip*at_face f cp ip*at_face f g ip*vf_amag f ip)).
Qed.
(* ------------------------------------------------------------------ penalty form of a specified value *)
Definition pen_flux (f : vface) (pen : R) (coef qbc q : nat -> R) (ip : nat) : R :=
  let invL := sumn (vf_npf f) (fun ic => dotn (vf_dim f) (vf_dn f ip (vf_ord f ic)) (vf_A f ip)) / vf_amag f ip in
  let c := at_face f (on_face f coef) ip in
  pen*c*invL*(at_face f (on_face f q) ip - at_face f (on_face f qbc) ip)*vf_amag f ip - c * dotn (vf_dim f) (grad_at (vf_npe f) (vf_dn f) q ip) (vf_A f ip).
Lemma pen_facek f pen coef qbc q : let invL := fun ip => sumn (vf_npf f) (fun ic => dotn (vf_dim f) (vf_dn f ip (vf_ord f ic)) (vf_A f ip)) / vf_amag f ip in
  facek f (flux_penalty_elem f pen coef qbc q)
  (fun ip j => sumn (vf_npf f) (fun ic => dl j (vf_ord f ic) * (vf_N f ip ic*pen*at_face f (on_face f coef) ip*invL ip*vf_amag f ip))
     + sumn (vf_npe f) (fun ic => dl j ic * (at_face f (on_face f coef) ip * sumn (vf_dim f) (fun k => - vf_dn f ip ic k * vf_A f ip k))))
  (pen_flux f pen coef qbc q).
Proof.
  intros invL. unfold flux_penalty_elem. cbv zeta. apply facek_loop. intros ip s Hip. eapply eff_ext.
  - eapply eff_trans; [eapply eff_trans; [apply eff_addB|]|].
    + apply (ord_cols f _ (vf_near f ip) (fun ic => vf_N f ip ic*pen*at_face f (on_face f coef) ip*invL ip*vf_amag f ip)).
    + apply (cols_eff (vf_npe f) _ (vf_near f ip) (fun ic => at_face f (on_face f coef) ip * sumn (vf_dim f) (fun k => - vf_dn f ip ic k * vf_A f ip k))).
  - intros; cbv beta; ring.
  - intros; cbv beta. unfold pen_flux. cbv zeta. fold (invL ip).
    assert (E : sumn (vf_dim f) (fun j => at_face f (on_face f coef) ip * sumn (vf_npe f) (fun ic => vf_dn f ip ic j * q ic) * vf_A f ip j) = at_face f (on_face f coef) ip * dotn (vf_dim f) (grad_at (vf_npe f) (vf_dn f) q ip) (vf_A f ip)).
    { unfold dotn, grad_at. rewrite <- sumn_scal. apply sumn_ext. intros; ring. }
    rewrite E. unfold invL, dotn. ring.
Qed.
Theorem C89_penalty_flux : forall f pen coef qbc q s a, gain (flux_penalty_elem f pen coef qbc q) s a = - face_sum f (pen_flux f pen coef qbc q) a.
Proof. intros. apply (facek_gain _ _ _ _ s a (pen_facek f pen coef qbc q)). Qed.
Theorem C89_penalty_newton : forall f pen coef qbc, face_ok f -> exact_newton (vf_npe f) (flux_penalty_elem f pen coef qbc).
Proof.
  intros f pen coef qbc HF. eapply facek_newton; [intros; apply pen_facek|]. intros q d ip Hip. cbv beta.
  set (invL := sumn (vf_npf f) (fun ic => dotn (vf_dim f) (vf_dn f ip (vf_ord f ic)) (vf_A f ip)) / vf_amag f ip). set (c := at_face f (on_face f coef) ip).
  rewrite (sumn_ext (vf_npe f) _ (fun j => sumn (vf_npf f) (fun ic => dl j (vf_ord f ic) * (vf_N f ip ic*pen*c*invL*vf_amag f ip)) * d j
     + sumn (vf_npe f) (fun ic => dl j ic * (c * sumn (vf_dim f) (fun k => - vf_dn f ip ic k * vf_A f ip k))) * d j)) by (intros; ring).
  rewrite sumn_plus, ord_pick, cols_pick by assumption.
  rewrite (sumn_ext (vf_npf f) _ (fun ic => (pen*c*invL*vf_amag f ip) * (vf_N f ip ic * on_face f d ic))) by (intros; ring). rewrite sumn_scal. fold (at_face f (on_face f d) ip).
  assert (E : sumn (vf_npe f) (fun ic => c * sumn (vf_dim f) (fun k => - vf_dn f ip ic k * vf_A f ip k) * d ic) = - (c * dotn (vf_dim f) (grad_at (vf_npe f) (vf_dn f) d ip) (vf_A f ip))).
  { unfold dotn, grad_at. rewrite (sumn_ext (vf_npe f) _ (fun ic => sumn (vf_dim f) (fun k => - (c * (vf_dn f ip ic k * d ic * vf_A f ip k))))).
    - rewrite sumn_swap. rewrite <- sumn_scal, <- sumn_opp. apply sumn_ext. intros k _. rewrite sumn_opp, sumn_scal, sumn_scal_r. ring.
    - intros ic _. rewrite <- sumn_scal, <- sumn_scal_r. apply sumn_ext. intros; ring. }
  rewrite E. unfold pen_flux. cbv zeta. fold invL c.
  assert (E1 : at_face f (on_face f (fun a => q a + d a)) ip = at_face f (on_face f q) ip + at_face f (on_face f d) ip) by (unfold on_face; apply (at_face_plus f (fun ic => q (vf_ord f ic)) (fun ic => d (vf_ord f ic)))).
  assert (E2 : dotn (vf_dim f) (grad_at (vf_npe f) (vf_dn f) (fun a => q a + d a) ip) (vf_A f ip) = dotn (vf_dim f) (grad_at (vf_npe f) (vf_dn f) q ip) (vf_A f ip) + dotn (vf_dim f) (grad_at (vf_npe f) (vf_dn f) d ip) (vf_A f ip)).
  { unfold dotn, grad_at. rewrite <- sumn_plus. apply sumn_ext. intros j _. rewrite <- Rmult_plus_distr_r, <- sumn_plus. f_equal. apply sumn_ext. intros; ring. }
  rewrite E1, E2. ring.
Qed.
(** at the specified value only the diffusive flux of the field is left, whatever the penalty *)
Theorem C89_penalty_consistent : forall f pen coef qbc q s a, (forall ic, (ic < vf_npf f)%nat -> q (vf_ord f ic) = qbc (vf_ord f ic)) ->
  gain (flux_penalty_elem f pen coef qbc q) s a = face_sum f (fun ip => at_face f (on_face f coef) ip * dotn (vf_dim f) (grad_at (vf_npe f) (vf_dn f) q ip) (vf_A f ip)) a.
Proof.
  intros f pen coef qbc q s a H. rewrite C89_penalty_flux, <- (face_sum_neg f (fun ip => at_face f (on_face f coef) ip * dotn (vf_dim f) (grad_at (vf_npe f) (vf_dn f) q ip) (vf_A f ip)) a). f_equal. apply face_sum_ext. intros ip Hip. unfold pen_flux. cbv zeta.
  assert (E : at_face f (on_face f q) ip = at_face f (on_face f qbc) ip) by (unfold at_face, on_face; apply sumn_ext; intros; rewrite H by assumption; reflexivity). rewrite E. ring.
Qed.
