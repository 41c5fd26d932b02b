(** * C67 (continued): wall distance, tangential projection, traction assembly, wall values *)
From Coq Require Import Reals List Bool Arith Lia Lra Psatz Permutation.
From Verif Require Import RUtil Edge_Model Edge_Proofs Elem_Model Elem_Spec Elem_Proofs Elem_Proofs2 Elem_Props Elem_Props3 Geom_Props Turb_Model Turb_Props Turb_Props2 Turb_Props3 Wall_Model Wall_Props.
Import ListNotations.
Local Open Scope R_scope.

Definition dotn n (a b : vec) : R := sumn n (fun j => a j * b j).
Lemma sq_nonneg n (f : vec) : 0 <= sumn n (fun j => f j * f j).
Proof. apply Edge_Proofs.sumn_nonneg. intros; apply Rle_0_sqr. Qed.
Lemma nrm_unit n A : 0 < amag n A -> dotn n (nrm n A) (nrm n A) = 1.
Proof.
  intros H. unfold dotn, nrm. rewrite (sumn_ext n _ (fun j => (/ amag n A * / amag n A) * (A j * A j))) by (intros; unfold Rdiv; ring).
  rewrite sumn_scal. unfold amag in *. rewrite <- (sqrt_sqrt (sumn n (fun j => A j * A j))) at 3 by apply sq_nonneg. field. lra.
Qed.
Lemma tanv_proj n m u i : (i < n)%nat -> tanv n m u i = u i - m i * dotn n m u.
Proof.
  intros Hi. unfold tanv, dotn. cbv zeta.
  rewrite (sumn_ext n _ (fun j => kd j i * u j - m i * (m j * u j))).
  - rewrite sumn_minus, sumn_kd by exact Hi. rewrite sumn_scal. reflexivity.
  - intros j _. unfold kd. rewrite (Nat.eqb_sym j i). destruct (Nat.eqb i j); ring.
Qed.
Lemma tanv_linear n m a b u v i : tanv n m (fun j => a * u j + b * v j) i = a * tanv n m u i + b * tanv n m v i.
Proof. unfold tanv. cbv zeta. rewrite <- !sumn_scal, <- sumn_plus. apply sumn_ext. intros j _. destruct (Nat.eqb i j); ring. Qed.
Lemma dotn_tanv n m u v : dotn n m m = 1 -> dotn n (tanv n m u) v = dotn n (tanv n m u) (tanv n m v).
Proof.
  intros H. unfold dotn at 1 2.
  rewrite (sumn_ext n _ (fun i => u i * v i - dotn n m u * (m i * v i))) by (intros i Hi; rewrite tanv_proj by exact Hi; ring).
  rewrite (sumn_ext n (fun i => tanv n m u i * tanv n m v i)
     (fun i => u i * v i - dotn n m v * (m i * u i) - dotn n m u * (m i * v i) + dotn n m u * dotn n m v * (m i * m i)))
    by (intros i Hi; rewrite !tanv_proj by exact Hi; ring).
  rewrite sumn_plus, !sumn_minus, !sumn_scal. change (sumn n (fun i => m i * v i)) with (dotn n m v).
  change (sumn n (fun i => m i * u i)) with (dotn n m u). change (sumn n (fun j => m j * m j)) with (dotn n m m). rewrite H. ring.
Qed.
Lemma normal_free n m u : dotn n m m = 1 -> dotn n m (tanv n m u) = 0.
Proof.
  intros H. unfold dotn. rewrite (sumn_ext n _ (fun i => m i * u i - dotn n m u * (m i * m i))) by (intros i Hi; rewrite tanv_proj by exact Hi; ring).
  rewrite sumn_minus, sumn_scal. change (sumn n (fun i => m i * u i)) with (dotn n m u). change (sumn n (fun j => m j * m j)) with (dotn n m m). rewrite H. ring.
Qed.
(** the slip speed fed to the log law is the length of the tangential part of the velocity difference *)
Theorem C67_tangential_slip_speed n A u bc : 0 < amag n A ->
  utang n A u bc = sqrt (sumn n (fun i => (u i - bc i) ^ 2) - (sumn n (fun i => nrm n A i * (u i - bc i))) ^ 2) /\
  (forall c, utang n A (fun i => u i + c * nrm n A i) bc = utang n A u bc) /\
  (forall w, utang n A (fun i => u i + w i) (fun i => bc i + w i) = utang n A u bc).
Proof.
  intros H. pose proof (nrm_unit n A H) as U. set (m := nrm n A) in *.
  assert (D : forall u bc i, (i < n)%nat -> tanv n m u i - tanv n m bc i = tanv n m (fun j => u j - bc j) i).
  { intros u0 b0 i Hi. rewrite !tanv_proj by exact Hi. unfold dotn. rewrite (sumn_ext n (fun j => m j * (u0 j - b0 j)) (fun j => m j * u0 j - m j * b0 j)) by (intros; ring). rewrite sumn_minus. ring. }
  assert (V : forall u bc, utang n A u bc = sqrt (dotn n (tanv n m (fun j => u j - bc j)) (tanv n m (fun j => u j - bc j)))).
  { intros. unfold utang. fold m. f_equal. unfold dotn. apply sumn_ext. intros i Hi. rewrite D by exact Hi. reflexivity. }
  split; [|split].
  - rewrite V, <- dotn_tanv by exact U. f_equal. unfold dotn at 1.
    rewrite (sumn_ext n _ (fun i => (u i - bc i) ^ 2 - dotn n m (fun j => u j - bc j) * (m i * (u i - bc i)))) by (intros i Hi; rewrite tanv_proj by exact Hi; ring).
    rewrite sumn_minus, sumn_scal. unfold dotn. ring.
  - intros c. rewrite !V. f_equal. unfold dotn. apply sumn_ext. intros i Hi.
    assert (E : tanv n m (fun j => u j + c * m j - bc j) i = tanv n m (fun j => u j - bc j) i).
    { rewrite !tanv_proj by exact Hi. unfold dotn. rewrite (sumn_ext n (fun j => m j * (u j + c * m j - bc j)) (fun j => m j * (u j - bc j) + c * (m j * m j))) by (intros; ring).
      rewrite sumn_plus, sumn_scal. unfold dotn in U. rewrite U. ring. }
    rewrite E. reflexivity.
  - intros w. rewrite !V. f_equal. unfold dotn. apply sumn_ext. intros i Hi.
    assert (E : forall i, tanv n m (fun j => u j + w j - (bc j + w j)) i = tanv n m (fun j => u j - bc j) i).
    { intros. unfold tanv. apply sumn_ext. intros j _. cbv zeta. destruct (Nat.eqb i0 j); ring. }
    rewrite E. reflexivity.
Qed.

(* ------------------------------------------------------------ wall distance *)
Theorem C67_wall_distance_axis_aligned n A xL xR k : (k < n)%nat -> A k <> 0 -> (forall j, (j < n)%nat -> j <> k -> A j = 0) ->
  ypbip n A xL xR = Rabs (xR k - xL k) / 4.
Proof.
  intros Hk HA HZ.
  assert (S1 : forall f : vec, (forall j, (j < n)%nat -> j <> k -> f j = 0) -> sumn n f = f k).
  { intros f Hf. rewrite (sumn_ext n f (fun j => kd j k * f j)); [apply sumn_kd; exact Hk|].
    intros j Hj. unfold kd. destruct (Nat.eqb_spec j k) as [->|E]; [ring|rewrite Hf by assumption; ring]. }
  assert (EA : amag n A = Rabs (A k)).
  { unfold amag. rewrite (S1 (fun j => A j * A j)) by (intros j Hj E; rewrite (HZ j Hj E); ring). apply sqrt_Rsqr_abs. }
  assert (PA : 0 < Rabs (A k)) by (apply Rabs_pos_lt; exact HA).
  unfold ypbip. cbv zeta. rewrite (S1 (fun j => nrm n A j * (1 / 4 * (xR j - xL j)) * nrm n A j * (1 / 4 * (xR j - xL j)))).
  2:{ intros j Hj E. unfold nrm. rewrite (HZ j Hj E). unfold Rdiv. ring. }
  unfold nrm. rewrite EA. set (d := xR k - xL k).
  assert (E1 : A k / Rabs (A k) * (A k / Rabs (A k)) = 1).
  { assert (A k * A k = Rabs (A k) * Rabs (A k)) by (rewrite <- Rabs_mult; rewrite Rabs_pos_eq; [reflexivity|apply Rle_0_sqr]).
    replace (A k / Rabs (A k) * (A k / Rabs (A k))) with (A k * A k / (Rabs (A k) * Rabs (A k))) by (field; lra). rewrite H. field. lra. }
  set (q := A k / Rabs (A k)) in *.
  replace (q * (1 / 4 * d) * q * (1 / 4 * d)) with ((q * q) * ((d / 4) * (d / 4))) by field. rewrite E1, Rmult_1_l.
  change (sqrt ((d / 4)²) = Rabs d / 4). rewrite sqrt_Rsqr_abs. unfold Rdiv. rewrite Rabs_mult, (Rabs_pos_eq (/ 4)) by lra. reflexivity.
Qed.
(** in general it is at most a quarter of the edge length, and at least the normal distance over sqrt(nDim) *)
Theorem C67_wall_distance_bounds n A xL xR : 0 < amag n A ->
  0 <= ypbip n A xL xR <= sqrt (sumn n (fun j => (xR j - xL j) ^ 2)) / 4 /\
  Rabs (sumn n (fun j => nrm n A j * (xR j - xL j))) / 4 <= sqrt (INR n) * ypbip n A xL xR.
Proof.
  intros H. pose proof (nrm_unit n A H) as U. set (m := nrm n A) in *.
  assert (M1 : forall j, (j < n)%nat -> m j * m j <= 1).
  { intros j Hj. rewrite <- U. unfold dotn. rewrite <- (sumn_kd n j (fun j => m j * m j) Hj). apply Prop_Props.sumn_le.
    intros i _. unfold kd. pose proof (Rle_0_sqr (m i)) as Z. unfold Rsqr in Z. destruct Nat.eqb; lra. }
  assert (Y : ypbip n A xL xR = sqrt (sumn n (fun j => (m j * (xR j - xL j)) * (m j * (xR j - xL j)))) / 4).
  { unfold ypbip. fold m. cbv zeta. rewrite (sumn_ext n _ (fun j => /16 * ((m j * (xR j - xL j)) * (m j * (xR j - xL j))))) by (intros; field).
    rewrite sumn_scal, sqrt_mult by (try lra; apply sq_nonneg). replace (sqrt (/ 16)) with (/ 4); [field|].
    symmetry. replace (/ 16) with (/ 4 * / 4) by field. apply sqrt_square. lra. }
  split; [split|].
  - apply sqrt_pos.
  - rewrite Y. unfold Rdiv. apply Rmult_le_compat_r; [lra|]. apply sqrt_le_1; [apply sq_nonneg|apply Edge_Proofs.sumn_nonneg; intros; apply pow2_ge_0|].
    apply Prop_Props.sumn_le. intros j Hj. specialize (M1 j Hj). set (d := xR j - xL j).
    replace (m j * d * (m j * d)) with ((m j * m j) * (d * d)) by ring. replace (d ^ 2) with (1 * (d * d)) by ring. apply Rmult_le_compat_r; [apply Rle_0_sqr|exact M1].
  - rewrite Y. set (f := fun j => m j * (xR j - xL j)). change (Rabs (sumn n f) / 4 <= sqrt (INR n) * (sqrt (sumn n (fun j => f j * f j)) / 4)).
    pose proof (trace_cs n f) as C. replace (sqrt (INR n) * (sqrt (sumn n (fun j => f j * f j)) / 4)) with (sqrt (INR n * sumn n (fun j => f j * f j)) / 4)
      by (rewrite sqrt_mult by (try apply pos_INR; apply sq_nonneg); field).
    unfold Rdiv. apply Rmult_le_compat_r; [lra|]. rewrite <- sqrt_Rsqr_abs. apply sqrt_le_1; [apply Rle_0_sqr|apply Rmult_le_pos; [apply pos_INR|apply sq_nonneg]|]. exact C.
Qed.
(** It is not the normal distance: for a wall inclined at 45 degrees, with the edge along the normal, it is too small by
    the factor 1/sqrt 2 (so the wall distance changes when the mesh is rotated). *)
Theorem C67_wall_distance_is_normal_distance_refuted : exists A xL xR, 0 < amag 2 A /\
  (Rabs (sumn 2 (fun j => nrm 2 A j * (xR j - xL j))) / 4) ^ 2 = 2 * (ypbip 2 A xL xR) ^ 2 /\ 0 < ypbip 2 A xL xR.
Proof.
  exists (fun _ => 1), (fun _ => 0), (fun _ => 1).
  assert (E : amag 2 (fun _ => 1) = sqrt 2) by (unfold amag; rewrite !sumn_S, sumn_0; f_equal; ring).
  assert (P : 0 < sqrt 2) by (apply sqrt_lt_R0; lra). assert (S2 : sqrt 2 * sqrt 2 = 2) by (apply sqrt_sqrt; lra).
  assert (Y : ypbip 2 (fun _ => 1) (fun _ => 0) (fun _ => 1) = 1 / 4).
  { unfold ypbip, nrm. cbv zeta. rewrite E, !sumn_S, sumn_0. transitivity (sqrt (1/4 * (1/4))); [|apply sqrt_square; lra]. f_equal.
    replace (1 / sqrt 2 * (1 / 4 * (1 - 0)) * (1 / sqrt 2) * (1 / 4 * (1 - 0))) with (1 / 16 / (sqrt 2 * sqrt 2)) by (field; lra). rewrite S2. field. }
  rewrite Y, E. split; [exact P|]. split; [|lra].
  unfold nrm. rewrite E, !sumn_S, sumn_0.
  rewrite Rabs_pos_eq by (assert (0 < 1 / sqrt 2) by (apply Rdiv_lt_0_compat; lra); lra).
  replace (((0 + 1 / sqrt 2 * (1 - 0) + 1 / sqrt 2 * (1 - 0)) / 4) ^ 2) with (4 / 16 / (sqrt 2 * sqrt 2)) by (field; lra). rewrite S2. field.
Qed.

(* ------------------------------------------------------------ assembled traction *)
Definition Pm (m : vec) (i j : nat) : R := if Nat.eqb i j then 1 - m i * m j else - (m i * m j).
Lemma tanv_Pm n m u i : tanv n m u i = sumn n (fun j => Pm m i j * u j).
Proof. unfold tanv, Pm. apply sumn_ext. intros j _. cbv zeta. destruct (Nat.eqb i j); ring. Qed.
Definition wlam (f : wface) kappa rho mu (yp ut : nat -> R) ip := wlambda kappa (at_f f rho ip) (at_f f mu ip) (yp ip) (ut ip) (amag (fdim f) (fA f ip)).
Definition wn (f : wface) ip := nrm (fdim f) (fA f ip).

Lemma wall_traction_eff f kappa rho mu yp ut bc u s : eff s (wall_traction f kappa rho mu yp ut bc u s)
  (fun a b => sumn (fip f) (fun ip => sumn (fdim f) (fun i => dl a (fmap f ip * fdim f + i) *
      sumn (fdim f) (fun j => sumn (fnod f) (fun ic => dl b (ic * fdim f + j) * (wlam f kappa rho mu yp ut ip * Pm (wn f ip) i j * fN f ip ic))))))
  (fun a => sumn (fip f) (fun ip => sumn (fdim f) (fun i => dl a (fmap f ip * fdim f + i) *
      (- (wlam f kappa rho mu yp ut ip * (tanv (fdim f) (wn f ip) (uat_f f u ip) i - tanv (fdim f) (wn f ip) (uat_f f bc ip) i)))))).
Proof.
  unfold wall_traction.
  apply (eff_loop (fip f) _ (fun ip a b => sumn (fdim f) (fun i => dl a (fmap f ip * fdim f + i) *
      sumn (fdim f) (fun j => sumn (fnod f) (fun ic => dl b (ic * fdim f + j) * (wlam f kappa rho mu yp ut ip * Pm (wn f ip) i j * fN f ip ic)))))
    (fun ip a => sumn (fdim f) (fun i => dl a (fmap f ip * fdim f + i) *
      (- (wlam f kappa rho mu yp ut ip * (tanv (fdim f) (wn f ip) (uat_f f u ip) i - tanv (fdim f) (wn f ip) (uat_f f bc ip) i)))))).
  clear s. intros ip s _. cbv zeta. fold (wn f ip). fold (wlam f kappa rho mu yp ut ip).
  apply (eff_loop (fdim f) _ (fun i a b => dl a (fmap f ip * fdim f + i) *
      sumn (fdim f) (fun j => sumn (fnod f) (fun ic => dl b (ic * fdim f + j) * (wlam f kappa rho mu yp ut ip * Pm (wn f ip) i j * fN f ip ic))))
    (fun i a => dl a (fmap f ip * fdim f + i) *
      (- (wlam f kappa rho mu yp ut ip * (tanv (fdim f) (wn f ip) (uat_f f u ip) i - tanv (fdim f) (wn f ip) (uat_f f bc ip) i))))).
  clear s. intros i s _. eapply eff_ext.
  - eapply eff_trans; [|eff1].
    apply (eff_loop (fdim f) _ (fun j a b => dl a (fmap f ip * fdim f + i) * sumn (fnod f) (fun ic => dl b (ic * fdim f + j) * (wlam f kappa rho mu yp ut ip * Pm (wn f ip) i j * fN f ip ic))) (fun _ _ => 0)).
    clear s. intros j s _. eapply eff_ext.
    + apply (eff_loop (fnod f) _ (fun ic a b => dl a (fmap f ip * fdim f + i) * (dl b (ic * fdim f + j) * (wlam f kappa rho mu yp ut ip * Pm (wn f ip) i j * fN f ip ic))) (fun _ _ => 0)).
      clear s. intros ic s _. unfold Pm. destruct (Nat.eqb_spec i j) as [->|]; (eapply eff_ext; [eff1| |]; intros; cbv beta; ring).
    + intros; cbv beta. apply sumn_scal.
    + intros; cbv beta. apply sumn_zero. reflexivity.
  - intros; cbv beta. rewrite sumn_scal. ring.
  - intros; cbv beta. rewrite sumn_zero by reflexivity. ring.
Qed.
Definition fmap_ok (f : wface) : Prop := forall ip, (ip < fip f)%nat -> (fmap f ip < fnod f)%nat.
Lemma uat_f_plus f u d ip j : uat_f f (fun a => u a + d a) ip j = uat_f f u ip j + uat_f f d ip j.
Proof. unfold uat_f. rewrite <- sumn_plus. apply sumn_ext. intros; ring. Qed.
(** for a frozen friction velocity the matrix is the exact derivative of the wall traction *)
Theorem C67_traction_jacobian_exact f kappa rho mu yp ut bc :
  exact_newton (fnod f * fdim f) (fun u => wall_traction f kappa rho mu yp ut bc u).
Proof.
  intros u d s a Ha. destruct (wall_traction_eff f kappa rho mu yp ut bc u s) as [HL HB].
  destruct (wall_traction_eff f kappa rho mu yp ut bc (fun a => u a + d a) s) as [_ HB2]. rewrite HB, HB2.
  assert (E : sumn (fnod f * fdim f) (fun b => (eL_ (wall_traction f kappa rho mu yp ut bc u s) a b - eL_ s a b) * d b)
    = sumn (fip f) (fun ip => sumn (fdim f) (fun i => dl a (fmap f ip * fdim f + i) * (wlam f kappa rho mu yp ut ip * tanv (fdim f) (wn f ip) (uat_f f d ip) i)))).
  { rewrite (sumn_ext _ _ (fun b => sumn (fip f) (fun ip => sumn (fdim f) (fun i => dl a (fmap f ip * fdim f + i) *
      (sumn (fdim f) (fun j => sumn (fnod f) (fun ic => dl b (ic * fdim f + j) * (wlam f kappa rho mu yp ut ip * Pm (wn f ip) i j * fN f ip ic))) * d b))))).
    2:{ intros b _. rewrite HL, pm. rewrite <- sumn_scal_r. apply sumn_ext. intros ip _. rewrite <- sumn_scal_r. apply sumn_ext. intros i _. ring. }
    rewrite sumn_swap. apply sumn_ext. intros ip _. rewrite sumn_swap. apply sumn_ext. intros i _. rewrite sumn_scal. f_equal.
    rewrite tanv_Pm, <- sumn_scal.
    rewrite (sumn_ext (fnod f * fdim f) _ (fun b => sumn (fdim f) (fun j => sumn (fnod f) (fun ic => dl b (ic * fdim f + j) * (wlam f kappa rho mu yp ut ip * Pm (wn f ip) i j * fN f ip ic * d b))))).
    2:{ intros b _. rewrite <- sumn_scal_r. apply sumn_ext. intros j _. rewrite <- sumn_scal_r. apply sumn_ext. intros; ring. }
    rewrite sumn_swap. apply sumn_ext. intros j Hj. rewrite sumn_swap. unfold uat_f.
    rewrite (sumn_ext (fnod f) _ (fun ic => (wlam f kappa rho mu yp ut ip * Pm (wn f ip) i j) * (fN f ip ic * d (ic * fdim f + j)%nat))).
    - rewrite sumn_scal. ring.
    - intros ic Hic. rewrite (sumn_dl (fnod f * fdim f) (ic * fdim f + j) (fun b => wlam f kappa rho mu yp ut ip * Pm (wn f ip) i j * fN f ip ic * d b)) by nia. ring. }
  rewrite E. rewrite Rplus_minus_a. f_equal. rewrite <- sumn_minus. apply sumn_ext. intros ip _. rewrite <- sumn_minus. apply sumn_ext. intros i _.
  assert (T : tanv (fdim f) (wn f ip) (uat_f f (fun a => u a + d a) ip) i = tanv (fdim f) (wn f ip) (uat_f f u ip) i + tanv (fdim f) (wn f ip) (uat_f f d ip) i).
  { rewrite !tanv_Pm, <- sumn_plus. apply sumn_ext. intros j _. rewrite uat_f_plus. ring. }
  rewrite T. ring.
Qed.
(** row of node a, component i *)
Lemma rhs_row f kappa rho mu yp ut bc u s a i : (i < fdim f)%nat ->
  eB (wall_traction f kappa rho mu yp ut bc u s) (a * fdim f + i) - eB s (a * fdim f + i)
  = - sumn (fip f) (fun ip => dl a (fmap f ip) * (wlam f kappa rho mu yp ut ip * tanv (fdim f) (wn f ip) (fun j => uat_f f u ip j - uat_f f bc ip j) i)).
Proof.
  intros Hi. destruct (wall_traction_eff f kappa rho mu yp ut bc u s) as [_ HB]. rewrite HB, pm, <- sumn_opp. apply sumn_ext. intros ip _.
  rewrite (sumn_ext (fdim f) _ (fun k => dl i k * (dl a (fmap f ip) * (- (wlam f kappa rho mu yp ut ip * (tanv (fdim f) (wn f ip) (uat_f f u ip) k - tanv (fdim f) (wn f ip) (uat_f f bc ip) k)))))).
  - rewrite sumn_dl' by exact Hi. rewrite !tanv_Pm, <- sumn_minus. rewrite (sumn_ext (fdim f) _ (fun j => Pm (wn f ip) i j * (uat_f f u ip j - uat_f f bc ip j))) by (intros; ring). ring.
  - intros k Hk. rewrite dl_flat by assumption. ring.
Qed.
(** The force the wall exerts through a face is minus the sum over its points of lambda times the tangential slip; at each
    point it has no component along the wall normal. *)
Theorem C67_wall_force f kappa rho mu yp ut bc u s : fmap_ok f ->
  (forall i, (i < fdim f)%nat ->
    sumn (fnod f) (fun a => eB (wall_traction f kappa rho mu yp ut bc u s) (a * fdim f + i) - eB s (a * fdim f + i))
    = - sumn (fip f) (fun ip => wlam f kappa rho mu yp ut ip *
          ((uat_f f u ip i - uat_f f bc ip i) - wn f ip i * sumn (fdim f) (fun j => wn f ip j * (uat_f f u ip j - uat_f f bc ip j))))) /\
  (forall ip, (ip < fip f)%nat -> 0 < amag (fdim f) (fA f ip) ->
    sumn (fdim f) (fun i => wn f ip i * tanv (fdim f) (wn f ip) (fun j => uat_f f u ip j - uat_f f bc ip j) i) = 0).
Proof.
  intros HM. split.
  - intros i Hi. rewrite (sumn_ext (fnod f) _ _ (fun a _ => rhs_row f kappa rho mu yp ut bc u s a i Hi)).
    rewrite sumn_opp, sumn_swap. f_equal. apply sumn_ext. intros ip Hip.
    rewrite (sumn_dl (fnod f) (fmap f ip) (fun _ => wlam f kappa rho mu yp ut ip * tanv (fdim f) (wn f ip) (fun j => uat_f f u ip j - uat_f f bc ip j) i)) by (apply HM; exact Hip).
    rewrite tanv_proj by exact Hi. reflexivity.
  - intros ip Hip HA. apply (normal_free (fdim f) (wn f ip) _ (nrm_unit _ _ HA)).
Qed.
(** no slip, no force: if the fluid moves with the wall (plus any normal velocity) the right-hand side is untouched *)
Theorem C67_no_slip_no_force f kappa rho mu yp ut bc u s a i : (i < fdim f)%nat -> 
  (forall ip, (ip < fip f)%nat -> 0 < amag (fdim f) (fA f ip) /\ exists c, forall j, (j < fdim f)%nat -> uat_f f u ip j = uat_f f bc ip j + c * wn f ip j) ->
  eB (wall_traction f kappa rho mu yp ut bc u s) (a * fdim f + i) = eB s (a * fdim f + i).
Proof.
  intros Hi H. pose proof (rhs_row f kappa rho mu yp ut bc u s a i Hi) as E. rewrite sumn_zero in E; [lra|].
  intros ip Hip. destruct (H ip Hip) as (HA & c & Hc). rewrite tanv_proj by exact Hi. pose proof (nrm_unit _ _ HA) as U. fold (wn f ip) in U.
  unfold dotn in *. rewrite (sumn_ext (fdim f) (fun j => wn f ip j * (uat_f f u ip j - uat_f f bc ip j)) (fun j => c * (wn f ip j * wn f ip j))).
  - rewrite sumn_scal, U, Hc by exact Hi. ring.
  - intros j Hj. rewrite Hc by exact Hj. ring.
Qed.

(** The edge-based assembly is the element assembly with the shape functions concentrated at the nodes. *)
Definition concentrated (f : wface) : Prop := forall ip ic, (ip < fip f)%nat -> (ic < fnod f)%nat -> fN f ip ic = dl ic (fmap f ip).
Lemma at_f_conc f q ip : concentrated f -> fmap_ok f -> (ip < fip f)%nat -> at_f f q ip = q (fmap f ip).
Proof. intros HC HM Hip. unfold at_f. rewrite (sumn_ext _ _ (fun ic => dl ic (fmap f ip) * q ic)) by (intros; rewrite HC by assumption; reflexivity). apply sumn_dl. apply HM. exact Hip. Qed.
Lemma uat_f_conc f u ip j : concentrated f -> fmap_ok f -> (ip < fip f)%nat -> uat_f f u ip j = u (fmap f ip * fdim f + j)%nat.
Proof. intros HC HM Hip. unfold uat_f. rewrite (sumn_ext _ _ (fun ic => dl ic (fmap f ip) * u (ic * fdim f + j)%nat)) by (intros; rewrite HC by assumption; reflexivity). apply (sumn_dl (fnod f) (fmap f ip) (fun ic => u (ic * fdim f + j)%nat)). apply HM. exact Hip. Qed.
Definition elam (f : wface) kappa (rho mu yp ut : nat -> R) ip := wlambda kappa (rho (fmap f ip)) (mu (fmap f ip)) (yp ip) (ut ip) (amag (fdim f) (fA f ip)).
Lemma wall_edge_eff f kappa rho mu yp ut bc u s : eff s (wall_traction_edge f kappa rho mu yp ut bc u s)
  (fun a b => sumn (fip f) (fun ip => sumn (fdim f) (fun i => dl a (fmap f ip * fdim f + i) *
      sumn (fdim f) (fun j => dl b (fmap f ip * fdim f + j) * (elam f kappa rho mu yp ut ip * Pm (wn f ip) i j)))))
  (fun a => sumn (fip f) (fun ip => sumn (fdim f) (fun i => dl a (fmap f ip * fdim f + i) *
      (- (elam f kappa rho mu yp ut ip * (tanv (fdim f) (wn f ip) (fun j => u (fmap f ip * fdim f + j)%nat) i - tanv (fdim f) (wn f ip) (fun j => bc (fmap f ip * fdim f + j)%nat) i)))))).
Proof.
  unfold wall_traction_edge.
  apply (eff_loop (fip f) _ (fun ip a b => sumn (fdim f) (fun i => dl a (fmap f ip * fdim f + i) *
      sumn (fdim f) (fun j => dl b (fmap f ip * fdim f + j) * (elam f kappa rho mu yp ut ip * Pm (wn f ip) i j))))
    (fun ip a => sumn (fdim f) (fun i => dl a (fmap f ip * fdim f + i) *
      (- (elam f kappa rho mu yp ut ip * (tanv (fdim f) (wn f ip) (fun j => u (fmap f ip * fdim f + j)%nat) i - tanv (fdim f) (wn f ip) (fun j => bc (fmap f ip * fdim f + j)%nat) i)))))).
  clear s. intros ip s _. cbv zeta. fold (wn f ip). fold (elam f kappa rho mu yp ut ip).
  apply (eff_loop (fdim f) _ (fun i a b => dl a (fmap f ip * fdim f + i) *
      sumn (fdim f) (fun j => dl b (fmap f ip * fdim f + j) * (elam f kappa rho mu yp ut ip * Pm (wn f ip) i j)))
    (fun i a => dl a (fmap f ip * fdim f + i) *
      (- (elam f kappa rho mu yp ut ip * (tanv (fdim f) (wn f ip) (fun j => u (fmap f ip * fdim f + j)%nat) i - tanv (fdim f) (wn f ip) (fun j => bc (fmap f ip * fdim f + j)%nat) i))))).
  clear s. intros i s _. eapply eff_ext.
  - eapply eff_trans; [|eff1].
    apply (eff_loop (fdim f) _ (fun j a b => dl a (fmap f ip * fdim f + i) * (dl b (fmap f ip * fdim f + j) * (elam f kappa rho mu yp ut ip * Pm (wn f ip) i j))) (fun _ _ => 0)).
    clear s. intros j s _. unfold Pm. destruct (Nat.eqb_spec i j) as [->|]; (eapply eff_ext; [eff1| |]; intros; cbv beta; ring).
  - intros; cbv beta. rewrite sumn_scal. ring.
  - intros; cbv beta. rewrite sumn_zero by reflexivity. ring.
Qed.
Theorem C67_edge_is_concentrated_element f kappa rho mu yp ut bc u s : concentrated f -> fmap_ok f ->
  (forall a, eB (wall_traction_edge f kappa rho mu yp ut bc u s) a = eB (wall_traction f kappa rho mu yp ut bc u s) a) /\
  (forall a b, eL_ (wall_traction_edge f kappa rho mu yp ut bc u s) a b = eL_ (wall_traction f kappa rho mu yp ut bc u s) a b).
Proof.
  intros HC HM. destruct (wall_traction_eff f kappa rho mu yp ut bc u s) as [HL HB]. destruct (wall_edge_eff f kappa rho mu yp ut bc u s) as [EL EB].
  assert (LA : forall ip, (ip < fip f)%nat -> wlam f kappa rho mu yp ut ip = elam f kappa rho mu yp ut ip)
    by (intros ip Hip; unfold wlam, elam; rewrite !at_f_conc by assumption; reflexivity).
  split; intros.
  - rewrite HB, EB. f_equal. apply sumn_ext. intros ip Hip. apply sumn_ext. intros i Hi. rewrite LA by exact Hip. f_equal. f_equal. f_equal.
    rewrite !tanv_Pm. f_equal; apply sumn_ext; intros j _; rewrite uat_f_conc by assumption; reflexivity.
  - rewrite HL, EL. f_equal. apply sumn_ext. intros ip Hip. apply sumn_ext. intros i Hi. f_equal. apply sumn_ext. intros j Hj. rewrite LA by exact Hip.
    rewrite (sumn_ext (fnod f) _ (fun ic => dl ic (fmap f ip) * (dl b (ic * fdim f + j) * (elam f kappa rho mu yp ut ip * Pm (wn f ip) i j)))).
    + symmetry. apply (sumn_dl (fnod f) (fmap f ip) (fun ic => dl b (ic * fdim f + j) * (elam f kappa rho mu yp ut ip * Pm (wn f ip) i j))). apply HM. exact Hip.
    + intros ic Hic. rewrite HC by assumption. ring.
Qed.
(** The wall does non-positive work on the slip: the edge-based (or shifted) traction takes energy out, exactly lambda times
    the squared tangential slip at each point. *)
Theorem C67_traction_dissipates f kappa rho mu yp ut bc u s : concentrated f -> fmap_ok f ->
  (forall ip, (ip < fip f)%nat -> 0 < amag (fdim f) (fA f ip) /\ 0 <= wlam f kappa rho mu yp ut ip) ->
  let slip ip i := u (fmap f ip * fdim f + i)%nat - bc (fmap f ip * fdim f + i)%nat in
  let work := sumn (fnod f) (fun a => sumn (fdim f) (fun i =>
     (eB (wall_traction f kappa rho mu yp ut bc u s) (a * fdim f + i) - eB s (a * fdim f + i)) * (u (a * fdim f + i)%nat - bc (a * fdim f + i)%nat))) in
  work = - sumn (fip f) (fun ip => wlam f kappa rho mu yp ut ip * sumn (fdim f) (fun i => tanv (fdim f) (wn f ip) (slip ip) i ^ 2)) /\ work <= 0.
Proof.
  intros HC HM HL slip work.
  assert (E : work = - sumn (fip f) (fun ip => wlam f kappa rho mu yp ut ip * sumn (fdim f) (fun i => tanv (fdim f) (wn f ip) (slip ip) i ^ 2))).
  { unfold work.
    rewrite (sumn_ext (fnod f) _ (fun a => - sumn (fip f) (fun ip => dl a (fmap f ip) * (wlam f kappa rho mu yp ut ip * dotn (fdim f) (tanv (fdim f) (wn f ip) (slip ip)) (slip ip))))).
    - rewrite sumn_opp, sumn_swap. f_equal. apply sumn_ext. intros ip Hip. 
      rewrite (sumn_dl (fnod f) (fmap f ip) (fun _ => wlam f kappa rho mu yp ut ip * dotn (fdim f) (tanv (fdim f) (wn f ip) (slip ip)) (slip ip))) by (apply HM; exact Hip).
      f_equal. rewrite dotn_tanv by (apply nrm_unit; apply HL; exact Hip). unfold dotn. apply sumn_ext. intros; ring.
    - intros a Ha. rewrite <- sumn_opp.
      rewrite (sumn_ext (fdim f) _ (fun i => sumn (fip f) (fun ip => - (dl a (fmap f ip) * (wlam f kappa rho mu yp ut ip * (tanv (fdim f) (wn f ip) (slip ip) i * slip ip i)))))).
      + rewrite sumn_swap. apply sumn_ext. intros ip Hip. rewrite sumn_opp, sumn_scal, sumn_scal. reflexivity.
      + intros i Hi. rewrite rhs_row by exact Hi. rewrite <- sumn_opp, <- sumn_scal_r. apply sumn_ext. intros ip Hip.
        replace (tanv (fdim f) (wn f ip) (fun j => uat_f f u ip j - uat_f f bc ip j) i) with (tanv (fdim f) (wn f ip) (slip ip) i).
        * unfold dl. destruct (Nat.eqb_spec a (fmap f ip)) as [->|]; [unfold slip; ring|ring].
        * rewrite !tanv_Pm. apply sumn_ext. intros j Hj. rewrite !uat_f_conc by assumption. reflexivity. }
  split; [exact E|]. rewrite E.
  assert (0 <= sumn (fip f) (fun ip => wlam f kappa rho mu yp ut ip * sumn (fdim f) (fun i => tanv (fdim f) (wn f ip) (slip ip) i ^ 2))); [|lra].
  apply Edge_Proofs.sumn_nonneg. intros ip Hip. apply Rmult_le_pos; [apply HL; exact Hip|]. apply Edge_Proofs.sumn_nonneg. intros. apply pow2_ge_0.
Qed.

(* ------------------------------------------------------------ nodal wall values *)
Lemma assemble_wall_gen l a acc : fold_left (fun acc (p : wpt) => if Nat.eqb (fst p) a then (fst acc + fst (snd p), snd acc + fst (snd p) * snd (snd p)) else acc) l acc
  = (fst acc + lsum (fun p : wpt => if Nat.eqb (fst p) a then fst (snd p) else 0) l, snd acc + lsum (fun p : wpt => if Nat.eqb (fst p) a then fst (snd p) * snd (snd p) else 0) l).
Proof.
  revert acc. induction l as [|p l IH]; intros acc; cbn [fold_left].
  - unfold lsum. cbn. destruct acc; cbn. f_equal; ring.
  - rewrite IH. unfold lsum. cbn [fold_right map]. destruct (Nat.eqb (fst p) a); cbn [fst snd]; apply f_equal2; ring.
Qed.
Definition here (a : nat) (p : wpt) : bool := Nat.eqb (fst p) a.
Lemma assemble_wall_sum l a : assemble_wall l a = (lsum (fun p : wpt => if here a p then fst (snd p) else 0) l, lsum (fun p : wpt => if here a p then fst (snd p) * snd (snd p) else 0) l).
Proof. unfold assemble_wall. rewrite assemble_wall_gen. cbn [fst snd]. f_equal; apply Rplus_0_l. Qed.
(** The wall value stored at a node is the area-weighted mean of the values at its boundary points: it lies between their
    bounds and does not depend on the order in which faces are visited. *)
Theorem C67_wall_value_between l a lo hi : (forall p, In p l -> 0 < fst (snd p)) -> (exists p, In p l /\ fst p = a) ->
  (forall p, In p l -> fst p = a -> lo <= snd (snd p) <= hi) -> lo <= wall_value l a <= hi.
Proof.
  intros HA HE HB. unfold wall_value. rewrite assemble_wall_sum. cbn [fst snd].
  assert (K : 0 < lsum (fun p : wpt => if here a p then fst (snd p) else 0) l /\
     lo * lsum (fun p : wpt => if here a p then fst (snd p) else 0) l <= lsum (fun p : wpt => if here a p then fst (snd p) * snd (snd p) else 0) l <= hi * lsum (fun p : wpt => if here a p then fst (snd p) else 0) l).
  { assert (G : forall m, (forall p, In p m -> In p l) -> 0 <= lsum (fun p : wpt => if here a p then fst (snd p) else 0) m /\
       ((exists p, In p m /\ fst p = a) -> 0 < lsum (fun p : wpt => if here a p then fst (snd p) else 0) m) /\
       lo * lsum (fun p : wpt => if here a p then fst (snd p) else 0) m <= lsum (fun p : wpt => if here a p then fst (snd p) * snd (snd p) else 0) m <= hi * lsum (fun p : wpt => if here a p then fst (snd p) else 0) m).
    { induction m as [|p m IH]; intros Hm.
      - unfold lsum. cbn. split; [lra|split; [intros (p & [] & _)|lra]].
      - destruct IH as (I1 & I2 & I3); [intros; apply Hm; right; assumption|]. unfold lsum in *. cbn [map fold_right].
        pose proof (HA p (Hm p (or_introl eq_refl))) as PA. 
        set (SA := fold_right Rplus 0 (map (fun p : wpt => if here a p then fst (snd p) else 0) m)) in *.
        set (SV := fold_right Rplus 0 (map (fun p : wpt => if here a p then fst (snd p) * snd (snd p) else 0) m)) in *.
        destruct (here a p) eqn:E; unfold here in E; [apply Nat.eqb_eq in E|apply Nat.eqb_neq in E].
        + pose proof (HB p (Hm p (or_introl eq_refl)) E) as PB. split; [lra|]. split; [intros _; lra|]. split; nra.
        + split; [lra|]. split; [|lra]. intros (q & [->|Hq] & Eq); [contradiction|]. rewrite Rplus_0_l. apply I2. exists q; split; assumption. }
    destruct (G l (fun p H => H)) as (_ & G2 & G3). split; [apply G2; exact HE|exact G3]. }
  destruct K as (K1 & K2 & K3). split; [apply Rle_div_r; lra|apply Rle_div_l; lra].
Qed.
Theorem C67_wall_value_order_free l m a : Permutation l m -> wall_value l a = wall_value m a.
Proof. intros H. unfold wall_value. rewrite !assemble_wall_sum. cbn [fst snd]. rewrite !(Geom_Props.lsum_perm' _ _ _ H). reflexivity. Qed.
(** hence positive wall k and omega *)
Theorem C67_wall_k_and_omega_positive l a (u yp nu : nat -> R) cMu sbs kappa wf b1 :
  0 < cMu -> 0 < sbs -> 0 < kappa -> 0 < wf -> 0 < b1 ->
  (exists k, In k l /\ fst k = a) -> (forall k, In k l -> 0 < snd k) -> (forall i, 0 < u i /\ 0 < yp i /\ 0 < nu i) ->
  let pts (v : nat -> R) := map (fun p : (nat * R) * nat => (fst (fst p), (snd (fst p), v (snd p)))) (combine l (seq 0 (length l))) in
  0 < wall_value (pts (fun i => tke_bip cMu (u i))) a /\ 0 < wall_value (pts (fun i => sdr_wf sbs kappa (u i) (yp i))) a /\
  0 < wall_value (pts (fun i => sdr_low wf b1 (nu i) (yp i))) a.
Proof.
  intros H1 H2 H3 H4 H5 (k0 & Hk0 & Ek0) HA HP pts.
  assert (G : forall v : nat -> R, (forall i, 0 < v i) -> 0 < wall_value (pts v) a).
  { intros v Hv.
    assert (exists m, 0 < m /\ forall p, In p (pts v) -> m <= snd (snd p)).
    { clear - Hv. assert (HV : forall p, In p (pts v) -> 0 < snd (snd p)).
      { unfold pts. intros p Hp. apply in_map_iff in Hp. destruct Hp as (q & <- & _). cbn. apply Hv. }
      revert HV. generalize (pts v). intros L. induction L as [|p L IH]; intros HV.
      - exists 1. split; [lra|]. intros p [].
      - destruct IH as (m & Pm & HM); [intros; apply HV; right; assumption|]. pose proof (HV p (or_introl eq_refl)).
        exists (Rmin m (snd (snd p))). split; [apply Rmin_glb_lt; assumption|]. intros q [<-|Hq]; [apply Rmin_r|]. eapply Rle_trans; [apply Rmin_l|apply HM; exact Hq]. }
    destruct H as (m & Pm & HM). eapply Rlt_le_trans; [exact Pm|].
    assert (exists M, forall p, In p (pts v) -> snd (snd p) <= M).
    { generalize (pts v). intros L. induction L as [|p L (M & HM')]; [exists 0; intros p []|]. exists (Rmax M (snd (snd p))).
      intros q [<-|Hq]; [apply Rmax_r|]. eapply Rle_trans; [apply HM'; exact Hq|apply Rmax_l]. }
    destruct H as (M & HM'). apply (C67_wall_value_between (pts v) a m M).
    - intros p Hp. unfold pts in Hp. apply in_map_iff in Hp. destruct Hp as (q & <- & Hq). cbn. apply HA. destruct q. apply in_combine_l in Hq. exact Hq.
    - apply (In_nth _ _ (0%nat, 0)) in Hk0. destruct Hk0 as (i & Hi & Ei).
      exists (fst k0, (snd k0, v i)). split; [|exact Ek0]. unfold pts. apply in_map_iff. exists (k0, i). split; [reflexivity|].
      replace (k0, i) with (nth i (combine l (seq 0 (length l))) ((0%nat, 0), 0%nat)).
      + apply nth_In. rewrite combine_length, seq_length. lia.
      + rewrite combine_nth by (rewrite seq_length; reflexivity). rewrite Ei, seq_nth by exact Hi. reflexivity.
    - intros p Hp _. split; [apply HM; exact Hp|apply HM'; exact Hp]. }
  assert (0 < sqrt cMu) by (apply sqrt_lt_R0; assumption).
  split; [|split]; apply G; intros i; destruct (HP i) as (p1 & p2 & p3).
  - unfold tke_bip. apply Rdiv_lt_0_compat; [nra|assumption].
  - unfold sdr_wf. repeat apply Rdiv_lt_0_compat; assumption.
  - unfold sdr_low. repeat apply Rdiv_lt_0_compat; try assumption. nra.
Qed.
(** The stored wall distance of a node is the largest of its old value and the point values, whatever the order. *)
Theorem C67_min_distance_clip l a d0 :
  d0 <= clip_min_d l a d0 /\ (forall p, In p l -> fst p = a -> snd p <= clip_min_d l a d0) /\
  (clip_min_d l a d0 = d0 \/ exists p, In p l /\ fst p = a /\ clip_min_d l a d0 = snd p).
Proof.
  unfold clip_min_d. revert d0. induction l as [|p l IH]; intros d0; cbn [fold_left].
  - split; [lra|split; [intros p []|left; reflexivity]].
  - destruct (Nat.eqb_spec (fst p) a) as [E|E].
    + destruct (IH (Rmax d0 (snd p))) as (I1 & I2 & I3). pose proof (Rmax_l d0 (snd p)). pose proof (Rmax_r d0 (snd p)).
      split; [lra|]. split; [intros q [<-|Hq] Eq; [lra|apply I2; assumption]|].
      destruct I3 as [I3|(q & Hq & Eq & I3)]; [|right; exists q; split; [right; exact Hq|split; assumption]].
      rewrite I3. destruct (Rle_dec d0 (snd p)) as [C|C].
      * right. exists p. split; [left; reflexivity|split; [exact E|apply Rmax_right; exact C]].
      * left. apply Rmax_left. lra.
    + destruct (IH d0) as (I1 & I2 & I3). split; [exact I1|]. split; [intros q [<-|Hq] Eq; [contradiction|apply I2; assumption]|].
      destruct I3 as [I3|(q & Hq & Eq & I3)]; [left; exact I3|right; exists q; split; [right; exact Hq|split; assumption]].
Qed.

(** Non-vacuity: a 3-D wall face (unit square, normal y) with 4 nodes and points, air-like state *)
Definition exF : wface := mkWF 4 4 3 (fun ip ic => dl ic ip) (fun ip => ip) (fun _ j => if Nat.eqb j 1 then 1/4 else 0).
Example C67_nonvacuous : fmap_ok exF /\ concentrated exF /\ (forall ip, 0 < amag 3 (fA exF ip)) /\
  snd (compute_utau (41/100) 10 (1/100) 1 (1/10^5) (yplusCrit * (1/10^5) / 1 / (1/100))) = true /\
  exists r, log_law (elog * 1 * (1/100) / (1/10^5)) (41/100 * 10) r.
Proof.
  split; [intros ip Hip; exact Hip|]. split; [intros ip ic _ _; reflexivity|]. split.
  - intros ip. unfold amag. apply sqrt_lt_R0. rewrite !sumn_S, sumn_0. cbn. lra.
  - split.
    + apply C67_friction_velocity_converges; try lra. unfold yplusCrit. lra.
    + destruct (C67_friction_velocity_well_defined (elog * 1 * (1/100) / (1/10^5)) (41/100 * 10)) as (r & H & _); [unfold elog; lra|lra|exists r; exact H].
Qed.
