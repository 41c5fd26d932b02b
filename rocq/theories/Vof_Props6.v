(** C86: nodal steps of the volume-of-fluid scheme: clipping, interface normal, curvature, smoothing, wetted wall. *)
Require Import Reals List Bool Lra Lia Arith.
From Verif Require Import RUtil Edge_Model Edge_Proofs Elem_Model Elem_Spec Elem_Proofs Elem_Proofs2 Elem_Proofs3 Elem_Props2 Elem_Props3 Rad_Quad_Proofs3 Sum_Proofs.
From Verif Require Import Turb_Model Vof_Model Vof_Model2 Vof_Spec Vof_Props Vof_Props2 Vof_Props3.
Import ListNotations.
Open Scope R_scope.

(* ------------------------------------------------------------------ clipping *)
(** the stored volume fraction is the updated one forced into [-delta, 1+delta] *)
Theorem C86_clip : forall delta vof tmp k, 0 <= delta ->
  let v := vof k + tmp k in let r := update_and_clip delta vof tmp k in
  - delta <= r <= 1 + delta /\ (- delta <= v <= 1 + delta -> r = v) /\ (v < - delta -> r = - delta) /\ (1 + delta < v -> r = 1 + delta).
Proof.
  intros delta vof tmp k H v r. unfold r, update_and_clip. cbv zeta. fold v.
  destruct (Rlt_dec v (0 - delta)); [repeat split; intros; lra|]. destruct (Rlt_dec (1 + delta) v); repeat split; intros; lra.
Qed.
Theorem C86_clip_counts : forall delta vof tmp nodes, 0 <= delta ->
  clip_counts delta vof tmp nodes = (length (filter (fun k => if Rlt_dec (vof k + tmp k) (- delta) then true else false) nodes),
                                     length (filter (fun k => if Rlt_dec (1 + delta) (vof k + tmp k) then true else false) nodes)).
Proof.
  intros delta vof tmp nodes H. unfold clip_counts. cbv zeta.
  assert (G : forall l c, fold_left (fun c k => if Rlt_dec (vof k + tmp k) (0 - delta) then (S (fst c), snd c) else if Rlt_dec (1 + delta) (vof k + tmp k) then (fst c, S (snd c)) else c) l c
    = ((fst c + length (filter (fun k => if Rlt_dec (vof k + tmp k) (- delta) then true else false) l))%nat, (snd c + length (filter (fun k => if Rlt_dec (1 + delta) (vof k + tmp k) then true else false) l))%nat)).
  { induction l as [|i l IH]; intros c; cbn [fold_left filter]; [cbn; rewrite !Nat.add_0_r; destruct c; reflexivity|]. rewrite IH.
    destruct (Rlt_dec (vof i + tmp i) (0 - delta)), (Rlt_dec (vof i + tmp i) (- delta)), (Rlt_dec (1 + delta) (vof i + tmp i)); try (exfalso; lra); cbn [fst snd length]; f_equal; lia. }
  rewrite G. reflexivity.
Qed.

(* ------------------------------------------------------------------ accumulation over the mesh *)
Lemma acc1_at n v F a : acc1 n v F a = F a + (if Nat.eqb a n then v else 0).
Proof. unfold acc1. destruct (Nat.eqb a n); ring. Qed.
Lemma loop_acc1 n (N : nat -> nat) (w : nat -> R) F a :
  loop n (fun ip F => acc1 (N ip) (w ip) F) F a = F a + sumn n (fun ip => if Nat.eqb a (N ip) then w ip else 0).
Proof. induction n; [rewrite loop_0, sumn_0; ring|]. rewrite loop_S, sumn_S. unfold acc1 at 1. destruct (Nat.eqb a (N n)); rewrite IHn; ring. Qed.
Lemma loop_acc2 n (N : nat -> nat) (w : nat -> nat -> R) F a j :
  loop n (fun ip F => acc2 (N ip) (w ip) F) F a j = F a j + sumn n (fun ip => if Nat.eqb a (N ip) then w ip j else 0).
Proof. induction n; [rewrite loop_0, sumn_0; ring|]. rewrite loop_S, sumn_S. unfold acc2 at 1. destruct (Nat.eqb a (N n)); rewrite IHn; ring. Qed.
Lemma mesh_acc {A} (step : (nat -> R) -> A -> (nat -> R)) (c : A -> nat -> R) els : forall F a,
  (forall e, In e els -> forall F a, step F e a = F a + c e a) -> fold_left step els F a = F a + lsum (fun e => c e a) els.
Proof.
  induction els as [|e els IH]; intros F a H; cbn [fold_left]; [unfold lsum; cbn; ring|].
  rewrite IH by (intros; apply H; right; assumption). rewrite H by (left; reflexivity). rewrite lsum_cons. ring.
Qed.
Lemma mesh_acc2 {A} (step : (nat -> nat -> R) -> A -> (nat -> nat -> R)) (c : A -> nat -> nat -> R) els : forall F a j,
  (forall e, In e els -> forall F a j, step F e a j = F a j + c e a j) -> fold_left step els F a j = F a j + lsum (fun e => c e a j) els.
Proof.
  induction els as [|e els IH]; intros F a j H; cbn [fold_left]; [unfold lsum; cbn; ring|].
  rewrite IH by (intros; apply H; right; assumption). rewrite H by (left; reflexivity). rewrite lsum_cons. ring.
Qed.
Lemma lsum_div {A} (f : A -> R) c l : lsum (fun x => f x / c) l = lsum f l / c.
Proof. unfold Rdiv. rewrite (lsum_ext _ (fun x => / c * f x)) by (intros; ring). rewrite lsum_scal. ring. Qed.
Lemma sumn_div n (f : nat -> R) c : sumn n (fun x => f x / c) = sumn n f / c.
Proof. unfold Rdiv. apply sumn_scal_r. Qed.

(* ------------------------------------------------------------------ interface normal *)
(** the nodal normal is the volume average, over the node's control volume, of the point normals *)
Theorem C86_interface_normal_average : forall small els V q a j,
  interface_normal small els V q a j = scv_total els (fun e ip => ip_normal small e q ip j) a / V a.
Proof.
  intros. unfold interface_normal. cbv zeta.
  rewrite (mesh_acc2 _ (fun e a j => sumn (nscv (ve_me e)) (fun ip => if Nat.eqb a (ve_node e (nearest (ve_me e) ip)) then vol (ve_me e) ip * ip_normal small e q ip j else 0) / V a)).
  - rewrite lsum_div. unfold scv_total. ring.
  - clear. intros e _ F a j. rewrite loop_acc2. f_equal. rewrite <- sumn_div. apply sumn_ext. intros ip _.
    destruct (Nat.eqb_spec a (ve_node e (nearest (ve_me e) ip))) as [<-|]; unfold Rdiv; ring.
Qed.
(** curvature: minus the volume average of the divergence of the normal *)
Theorem C86_curvature_average : forall els V nrm a,
  interface_curvature els V nrm a
  = - scv_total els (fun e ip => sumn (ndim (ve_me e)) (fun j => ip_grad e (fun b => nrm b j) ip j)) a / V a.
Proof.
  intros. unfold interface_curvature. cbv zeta.
  rewrite (mesh_acc _ (fun e a => (- sumn (nscv (ve_me e)) (fun ip => if Nat.eqb a (ve_node e (nearest (ve_me e) ip)) then vol (ve_me e) ip * sumn (ndim (ve_me e)) (fun j => ip_grad e (fun b => nrm b j) ip j) else 0)) / V a)).
  - rewrite lsum_div. unfold scv_total. rewrite (lsum_ext _ (fun e => (-1) * sumn (nscv (ve_me e)) (fun ip => if Nat.eqb a (ve_node e (nearest (ve_me e) ip)) then vol (ve_me e) ip * sumn (ndim (ve_me e)) (fun j => ip_grad e (fun b => nrm b j) ip j) else 0))) by (intros; ring).
    rewrite lsum_scal. unfold Rdiv. ring.
  - clear. intros e _ F a. rewrite loop_acc1. f_equal. rewrite <- sumn_opp, <- sumn_div. apply sumn_ext. intros ip _.
    destruct (Nat.eqb_spec a (ve_node e (nearest (ve_me e) ip))) as [<-|]; [|unfold Rdiv; ring].
    unfold ip_grad. rewrite (sumn_swap (ndim (ve_me e)) (npe (ve_me e))). unfold Rdiv. ring.
Qed.
Lemma scv_total_ext els f g a : (forall e ip, In e els -> (ip < nscv (ve_me e))%nat -> f e ip = g e ip) -> scv_total els f a = scv_total els g a.
Proof. intros H. unfold scv_total. apply lsum_ext. intros e He. apply sumn_ext. intros ip Hip. rewrite H by assumption. reflexivity. Qed.
Lemma scv_total_scal els f c a : scv_total els (fun e ip => c * f e ip) a = c * scv_total els f a.
Proof. unfold scv_total. rewrite <- lsum_scal. apply lsum_ext. intros e _. rewrite <- sumn_scal. apply sumn_ext. intros ip _. destruct (Nat.eqb _ _); ring. Qed.
Lemma scv_total_le els f g a : (forall e ip, In e els -> (ip < nscv (ve_me e))%nat -> 0 < vol (ve_me e) ip /\ f e ip <= g e ip) -> scv_total els f a <= scv_total els g a.
Proof.
  intros H. unfold scv_total.
  assert (P : 0 <= lsum (fun e => sumn (nscv (ve_me e)) (fun ip => if Nat.eqb a (ve_node e (nearest (ve_me e) ip)) then vol (ve_me e) ip * (g e ip - f e ip) else 0)) els).
  { clear - H. induction els as [|e els IH]; [unfold lsum; cbn; lra|]. rewrite lsum_cons. apply Rplus_le_le_0_compat; [|apply IH; intros; apply H; [right|]; assumption].
    apply sumn_nonneg. intros ip Hip. destruct (H e ip (or_introl eq_refl) Hip). destruct (Nat.eqb _ _); [apply Rmult_le_pos; lra|lra]. }
  assert (E : lsum (fun e => sumn (nscv (ve_me e)) (fun ip => if Nat.eqb a (ve_node e (nearest (ve_me e) ip)) then vol (ve_me e) ip * g e ip else 0)) els
     = lsum (fun e => sumn (nscv (ve_me e)) (fun ip => if Nat.eqb a (ve_node e (nearest (ve_me e) ip)) then vol (ve_me e) ip * f e ip else 0)) els
      + lsum (fun e => sumn (nscv (ve_me e)) (fun ip => if Nat.eqb a (ve_node e (nearest (ve_me e) ip)) then vol (ve_me e) ip * (g e ip - f e ip) else 0)) els).
  { rewrite <- lsum_plus. apply lsum_ext. intros e _. rewrite <- sumn_plus. apply sumn_ext. intros ip _. destruct (Nat.eqb _ _); ring. }
  lra.
Qed.
Lemma scv_total_sumn els d (f : nat -> velem -> nat -> R) a : scv_total els (fun e ip => sumn d (fun j => f j e ip)) a = sumn d (fun j => scv_total els (f j) a).
Proof.
  induction d; [rewrite sumn_0; rewrite (scv_total_ext els _ (fun e ip => 0 * 0)) by (intros; rewrite sumn_0; ring); rewrite scv_total_scal; ring|].
  rewrite sumn_S, <- IHd. unfold scv_total. rewrite <- lsum_plus. apply lsum_ext. intros e _. rewrite <- sumn_plus. apply sumn_ext. intros ip _. rewrite sumn_S. destruct (Nat.eqb _ _); ring.
Qed.
Lemma ip_normal_unit small e q ip : 0 <= small -> sumn (ndim (ve_me e)) (fun j => ip_normal small e q ip j * ip_normal small e q ip j) <= 1.
Proof.
  intros Hs. unfold ip_normal. cbv zeta. set (g := ip_grad e q ip). set (d := ndim (ve_me e)). set (G := sumn d (fun j => g j * g j)).
  assert (HG : 0 <= G) by (apply sumn_nonneg; intros; apply Rle_0_sqr).
  destruct (Req_dec (small + G) 0) as [Z|NZ].
  - assert (G0 : G = 0) by lra. rewrite (sumn_ext d _ (fun j => (/ sqrt (small+G) * / sqrt (small+G)) * (g j * g j))) by (intros; unfold Rdiv; ring).
    rewrite sumn_scal. fold G. rewrite G0. lra.
  - assert (P : 0 < small + G) by lra. rewrite (sumn_ext d _ (fun j => / (small+G) * (g j * g j))).
    + rewrite sumn_scal. fold G. apply (Rmult_le_reg_l (small + G)); [assumption|]. rewrite <- Rmult_assoc, Rinv_r by lra. lra.
    + intros j _. rewrite <- (sqrt_sqrt (small+G)) at 3 by lra. unfold Rdiv. rewrite Rinv_mult. ring.
Qed.
(** the nodal normal is never longer than one *)
Theorem C86_interface_normal_bounded : forall small els V q d a, 0 <= small -> mesh_good els V ->
  (forall e, In e els -> ndim (ve_me e) = d) -> 0 < V a ->
  sumn d (fun j => interface_normal small els V q a j * interface_normal small els V q a j) <= 1.
Proof.
  intros small els V q d a Hs (HV & _ & HT) Hd HVa. set (n := interface_normal small els V q a). set (S := sumn d (fun j => n j * n j)).
  assert (E : S * V a = scv_total els (fun e ip => sumn d (fun j => n j * ip_normal small e q ip j)) a).
  { rewrite (scv_total_sumn els d (fun j e ip => n j * ip_normal small e q ip j)). unfold S. rewrite <- sumn_scal_r. apply sumn_ext. intros j _.
    rewrite scv_total_scal. unfold n at 2. rewrite C86_interface_normal_average. field. lra. }
  assert (B : scv_total els (fun e ip => sumn d (fun j => n j * ip_normal small e q ip j)) a <= scv_total els (fun _ _ => (S + 1)/2 * 1) a).
  { apply scv_total_le. intros e ip He Hip. split; [apply HV; assumption|].
    pose proof (ip_normal_unit small e q ip Hs) as U. rewrite (Hd e He) in U.
    assert (P : 0 <= sumn d (fun j => (n j - ip_normal small e q ip j) * (n j - ip_normal small e q ip j))) by (apply sumn_nonneg; intros; apply Rle_0_sqr).
    rewrite (sumn_ext d _ (fun j => (n j * n j + ip_normal small e q ip j * ip_normal small e q ip j) - 2 * (n j * ip_normal small e q ip j))) in P by (intros; ring).
    rewrite sumn_minus, sumn_plus, sumn_scal in P. fold S in P. lra. }
  rewrite scv_total_scal, <- HT, <- E in B. assert (S <= (S+1)/2) by (apply (Rmult_le_reg_r (V a)); assumption). lra.
Qed.
Lemma ip_normal_zero small e q ip j : (j < ndim (ve_me e))%nat -> (forall k, (k < ndim (ve_me e))%nat -> ip_grad e q ip k = 0) -> ip_normal small e q ip j = 0.
Proof. intros Hj H. unfold ip_normal. cbv zeta. rewrite H by assumption. unfold Rdiv. ring. Qed.
(** no normal where the volume fraction is uniform around the node *)
Theorem C86_interface_normal_uniform : forall small els V q c d a j, mesh_good els V -> (forall e, In e els -> ndim (ve_me e) = d) ->
  (forall e, In e els -> dv_unity (ve_me e) (ve_dv e)) -> (j < d)%nat ->
  (forall e ic, In e els -> (ic < npe (ve_me e))%nat -> q (ve_node e ic) = c) -> interface_normal small els V q a j = 0.
Proof.
  intros small els V q c d a j _ Hd HU Hj HC. rewrite C86_interface_normal_average.
  rewrite (scv_total_ext els _ (fun _ _ => 0 * 1)); [rewrite scv_total_scal; unfold Rdiv; ring|]. intros e ip He Hip. rewrite Rmult_0_l.
  apply ip_normal_zero; [rewrite (Hd e He); assumption|]. intros k Hk. unfold ip_grad.
  rewrite (sumn_ext _ _ (fun ic => ve_dv e ip ic k * c)) by (intros; rewrite (HC e) by assumption; reflexivity).
  rewrite sumn_scal_r, (HU e He) by assumption. ring.
Qed.
(** elements whose gradient operator is exact on linear fields of the positions X of the mesh nodes *)
Definition linear_mesh (els : list velem) (d : nat) (X : nat -> nat -> R) : Prop :=
  forall e, In e els -> ndim (ve_me e) = d /\ dv_linear (ve_me e) (ve_dv e) (fun ic => X (ve_node e ic)).
Lemma ip_grad_linear els d X e q c (g : nat -> R) ip j : linear_mesh els d X -> In e els -> (ip < nscv (ve_me e))%nat -> (j < d)%nat ->
  (forall b, q b = c + sumn d (fun k => g k * X b k)) -> ip_grad e q ip j = g j.
Proof.
  intros HL He Hip Hj HQ. destruct (HL e He) as [Ed [HU HX]]. unfold ip_grad.
  rewrite (sumn_ext _ _ (fun ic => ve_dv e ip ic j * c + sumn d (fun k => g k * (ve_dv e ip ic j * X (ve_node e ic) k)))).
  - rewrite sumn_plus, sumn_scal_r, HU by (first [assumption | rewrite Ed; assumption]). rewrite sumn_swap.
    rewrite (sumn_ext d _ (fun k => dl k j * g k)).
    + rewrite (sumn_dl d j g) by assumption. ring.
    + intros k Hk. rewrite sumn_scal, HX by (first [assumption | rewrite Ed; assumption]). unfold dl. rewrite (Nat.eqb_sym k j). destruct (Nat.eqb j k); ring.
  - intros ic _. rewrite HQ, Rmult_plus_distr_l, <- sumn_scal. f_equal. apply sumn_ext. intros; ring.
Qed.
(** a planar interface: for a linear volume fraction the normal is its gradient over sqrt(small + |gradient|^2), at every node *)
Theorem C86_interface_normal_linear : forall small els V d X q c (g : nat -> R) a j, mesh_good els V -> linear_mesh els d X -> 0 < V a -> (j < d)%nat ->
  (forall b, q b = c + sumn d (fun k => g k * X b k)) ->
  interface_normal small els V q a j = g j / sqrt (small + sumn d (fun k => g k * g k)).
Proof.
  intros small els V d X q c g a j (_ & _ & HT) HL HV Hj HQ. rewrite C86_interface_normal_average.
  set (K := g j / sqrt (small + sumn d (fun k => g k * g k))).
  rewrite (scv_total_ext els _ (fun _ _ => K * 1)).
  - rewrite scv_total_scal, <- HT. field. lra.
  - intros e ip He Hip. rewrite Rmult_1_r. unfold ip_normal. cbv zeta. destruct (HL e He) as [Ed _]. rewrite Ed.
    rewrite (ip_grad_linear els d X e q c g ip j) by assumption. unfold K. f_equal. f_equal. f_equal. apply sumn_ext. intros k Hk.
    rewrite (ip_grad_linear els d X e q c g ip k) by assumption. reflexivity.
Qed.
(** exchanging the two phases turns the normal and the curvature round *)
Theorem C86_phase_swap_normal : forall small els V q a j, (forall e, In e els -> dv_unity (ve_me e) (ve_dv e) /\ (j < ndim (ve_me e))%nat) ->
  interface_normal small els V (fun b => 1 - q b) a j = - interface_normal small els V q a j.
Proof.
  intros small els V q a j HU. rewrite !C86_interface_normal_average.
  rewrite (scv_total_ext els _ (fun e ip => (-1) * ip_normal small e q ip j)); [rewrite scv_total_scal; unfold Rdiv; ring|].
  intros e ip He Hip. destruct (HU e He) as [U Hj].
  assert (G : forall k, (k < ndim (ve_me e))%nat -> ip_grad e (fun b => 1 - q b) ip k = - ip_grad e q ip k).
  { intros k Hk. unfold ip_grad. rewrite (sumn_ext _ _ (fun ic => ve_dv e ip ic k - ve_dv e ip ic k * q (ve_node e ic))) by (intros; ring).
    rewrite sumn_minus, U by assumption. ring. }
  unfold ip_normal. cbv zeta. rewrite G by assumption.
  rewrite (sumn_ext _ (fun k => ip_grad e (fun b => 1 - q b) ip k * ip_grad e (fun b => 1 - q b) ip k) (fun k => ip_grad e q ip k * ip_grad e q ip k)) by (intros k Hk; rewrite G by assumption; ring).
  unfold Rdiv. ring.
Qed.
Theorem C86_phase_swap_curvature : forall els V nrm a, interface_curvature els V (fun b j => - nrm b j) a = - interface_curvature els V nrm a.
Proof.
  intros. rewrite !C86_curvature_average.
  rewrite (scv_total_ext els _ (fun e ip => (-1) * sumn (ndim (ve_me e)) (fun j => ip_grad e (fun b => nrm b j) ip j))); [rewrite scv_total_scal; unfold Rdiv; ring|].
  intros e ip _ _. rewrite <- sumn_scal. apply sumn_ext. intros j _. unfold ip_grad. rewrite <- sumn_scal. apply sumn_ext. intros; ring.
Qed.
(** curvature of a normal field that varies linearly, n_j = c_j + Sum_k G_jk x_k: minus the trace of G; in particular a planar
    interface (uniform normal) has none *)
Theorem C86_curvature_linear : forall els V d X nrm (c : nat -> R) (G : nat -> nat -> R) a, mesh_good els V -> linear_mesh els d X -> 0 < V a ->
  (forall b j, (j < d)%nat -> nrm b j = c j + sumn d (fun k => G j k * X b k)) ->
  interface_curvature els V nrm a = - sumn d (fun j => G j j).
Proof.
  intros els V d X nrm c G a (_ & _ & HT) HL HV HN. rewrite C86_curvature_average. set (K := sumn d (fun j => G j j)).
  rewrite (scv_total_ext els _ (fun _ _ => K * 1)); [rewrite scv_total_scal, <- HT; field; lra|]. intros e ip He Hip.
  destruct (HL e He) as [Ed _]. rewrite Ed, Rmult_1_r. apply sumn_ext. intros j Hj.
  apply (ip_grad_linear els d X e (fun b => nrm b j) (c j) (G j) ip j); try assumption. intros b. apply HN. assumption.
Qed.
Theorem C86_planar_interface_no_curvature : forall els V d X nrm (c : nat -> R) a, mesh_good els V -> linear_mesh els d X -> 0 < V a ->
  (forall b j, (j < d)%nat -> nrm b j = c j) -> interface_curvature els V nrm a = 0.
Proof.
  intros els V d X nrm c a HM HL HV HN. rewrite (C86_curvature_linear els V d X nrm c (fun _ _ => 0) a) by
    (first [assumption | intros b j Hj; rewrite HN by assumption; rewrite (sumn_zero d) by (intros; ring); ring]).
  rewrite sumn_zero by reflexivity. ring.
Qed.

(* ------------------------------------------------------------------ smoothing *)
(** net diffusive inflow into node a's control volume of the points' fluxes *)
Definition inflow (els : list velem) (F : velem -> nat -> R) (a : nat) : R :=
  lsum (fun e => sumn (nscs (ve_me e)) (fun ip =>
    (if Nat.eqb a (ve_node e (lrR (ve_me e) ip)) then F e ip else 0) - (if Nat.eqb a (ve_node e (lrL (ve_me e) ip)) then F e ip else 0))) els.
Theorem C86_smoothing_rhs : forall els V q a, smoothed_rhs els V q a = inflow els (fun e ip => smooth_flux e q ip) a / V a.
Proof.
  intros. unfold smoothed_rhs. cbv zeta.
  rewrite (mesh_acc _ (fun e a => sumn (nscs (ve_me e)) (fun ip => (if Nat.eqb a (ve_node e (lrR (ve_me e) ip)) then smooth_flux e q ip else 0) - (if Nat.eqb a (ve_node e (lrL (ve_me e) ip)) then smooth_flux e q ip else 0)) / V a)).
  - rewrite lsum_div. unfold inflow. ring.
  - clear. intros e _ F a. rewrite <- sumn_div. generalize (nscs (ve_me e)). induction n; [rewrite loop_0, sumn_0; ring|].
    rewrite loop_S, sumn_S. rewrite !acc1_at, IHn. set (nl := ve_node e (lrL (ve_me e) n)). set (nr := ve_node e (lrR (ve_me e) n)).
    destruct (Nat.eqb_spec a nr) as [E1|]; destruct (Nat.eqb_spec a nl) as [E2|]; rewrite <- ?E1, <- ?E2; unfold Rdiv; ring.
Qed.
Definition total (N : nat) (V q : nat -> R) : R := sumn N (fun a => V a * q a).
(** smoothing moves volume fraction around but keeps the total volume, whatever the number of sweeps and the coefficient *)
Theorem C86_smoothing_conserves : forall on iter Fo els V N vof old,
  (forall a, (a < N)%nat -> V a <> 0) ->
  (forall e ip, In e els -> (ip < nscs (ve_me e))%nat -> (ve_node e (lrL (ve_me e) ip) < N)%nat /\ (ve_node e (lrR (ve_me e) ip) < N)%nat) ->
  (on = true -> total N V (smooth_vof on iter Fo els V vof old) = total N V vof) /\ (on = false -> smooth_vof on iter Fo els V vof old = old).
Proof.
  intros on iter Fo els V N vof old HV HN. split; intros ->; unfold smooth_vof; [|reflexivity].
  induction iter as [|n IH]; [reflexivity|]. change (Nat.iter (S n) (smooth_step Fo els V) vof) with (smooth_step Fo els V (Nat.iter n (smooth_step Fo els V) vof)).
  rewrite <- IH. generalize (Nat.iter n (smooth_step Fo els V) vof). intros q.
  unfold total, smooth_step.
  rewrite (sumn_ext N _ (fun a => V a * q a + Fo * dx_min els * dx_min els * (V a * smoothed_rhs els V q a))) by (intros; ring).
  rewrite sumn_plus, sumn_scal. rewrite (sumn_ext N (fun a => V a * smoothed_rhs els V q a) (inflow els (fun e ip => smooth_flux e q ip))).
  2:{ intros a Ha. rewrite C86_smoothing_rhs. field. apply HV. assumption. }
  assert (Z : sumn N (inflow els (fun e ip => smooth_flux e q ip)) = 0).
  { clear - HN. unfold inflow. induction els as [|e els IH]; [apply sumn_zero; reflexivity|].
    rewrite (sumn_ext N _ (fun a => sumn (nscs (ve_me e)) (fun ip => (if Nat.eqb a (ve_node e (lrR (ve_me e) ip)) then smooth_flux e q ip else 0) - (if Nat.eqb a (ve_node e (lrL (ve_me e) ip)) then smooth_flux e q ip else 0))
        + lsum (fun e => sumn (nscs (ve_me e)) (fun ip => (if Nat.eqb a (ve_node e (lrR (ve_me e) ip)) then smooth_flux e q ip else 0) - (if Nat.eqb a (ve_node e (lrL (ve_me e) ip)) then smooth_flux e q ip else 0))) els)) by (intros; reflexivity).
    rewrite sumn_plus, IH by (intros; apply HN; [right|]; assumption). rewrite Rplus_0_r, (sumn_swap N (nscs (ve_me e))). apply sumn_zero. intros ip Hip.
    destruct (HN e ip (or_introl eq_refl) Hip) as [Hl Hr].
    rewrite (sumn_ext N _ (fun a => dl a (ve_node e (lrR (ve_me e) ip)) * smooth_flux e q ip - dl a (ve_node e (lrL (ve_me e) ip)) * smooth_flux e q ip))
      by (intros a _; unfold dl; destruct (Nat.eqb _ _), (Nat.eqb _ _); ring).
    rewrite sumn_minus, (sumn_dl N _ (fun _ => smooth_flux e q ip)) by assumption. rewrite (sumn_dl N _ (fun _ => smooth_flux e q ip)) by assumption. ring. }
  rewrite Z. unfold total. ring.
Qed.
(** the flux between the two sides of a point is minus the gradient along the area vector *)
Theorem C86_smoothing_flux : forall e q ip,
  smooth_flux e q ip = - dotn (ndim (ve_me e)) (fun j => grad_at (npe (ve_me e)) (dndx (ve_me e)) (fun ic => q (ve_node e ic)) ip j) (area (ve_me e) ip).
Proof.
  intros. unfold smooth_flux, dotn, grad_at. set (m := ve_me e). rewrite <- sumn_opp.
  rewrite (sumn_ext (npe m) _ (fun ic => sumn (ndim m) (fun j => - (dndx m ip ic j * q (ve_node e ic)) * area m ip j))) by (intros; rewrite <- sumn_scal_r; apply sumn_ext; intros; ring).
  rewrite sumn_swap. apply sumn_ext. intros j _. rewrite sumn_scal_r, sumn_opp. ring.
Qed.
(** a uniform field is kept *)
Theorem C86_smoothing_uniform : forall iter Fo els V vof old c, (forall e, In e els -> grad_unity (ve_me e)) ->
  (forall a, vof a = c) -> forall a, smooth_vof true iter Fo els V vof old a = c.
Proof.
  intros iter Fo els V vof old c HU HC. unfold smooth_vof. induction iter as [|n IH]; [assumption|]. intros a.
  change (Nat.iter (S n) (smooth_step Fo els V) vof) with (smooth_step Fo els V (Nat.iter n (smooth_step Fo els V) vof)). set (q := Nat.iter n (smooth_step Fo els V) vof) in *. unfold smooth_step. rewrite IH, C86_smoothing_rhs.
  assert (Z : inflow els (fun e ip => smooth_flux e q ip) a = 0).
  { unfold inflow. apply lsum_zero. intros e He. apply sumn_zero. intros ip Hip. assert (F0 : smooth_flux e q ip = 0).
    { rewrite C86_smoothing_flux. unfold dotn. rewrite (sumn_zero (ndim (ve_me e))); [ring|]. intros j Hj. unfold grad_at.
      rewrite (sumn_ext _ _ (fun ic => dndx (ve_me e) ip ic j * c)) by (intros; rewrite IH; reflexivity). rewrite sumn_scal_r, (HU e He) by assumption. ring. }
    rewrite F0. destruct (Nat.eqb _ _), (Nat.eqb _ _); ring. }
  rewrite Z. unfold Rdiv. ring.
Qed.
(** so is a linear field (planar interface) at every node whose control volume is closed by the element points alone *)
Theorem C86_smoothing_linear : forall Fo els V d X q c (g : nat -> R) a,
  (forall e, In e els -> ndim (ve_me e) = d /\ grad_linear_exact (ve_me e) (fun ic => X (ve_node e ic))) ->
  (forall b, q b = c + sumn d (fun k => g k * X b k)) ->
  (forall j, (j < d)%nat -> inflow els (fun e ip => area (ve_me e) ip j) a = 0) ->
  smooth_step Fo els V q a = q a.
Proof.
  intros Fo els V d X q c g a HL HQ HC. unfold smooth_step. rewrite C86_smoothing_rhs.
  assert (F : forall e ip, In e els -> (ip < nscs (ve_me e))%nat -> smooth_flux e q ip = sumn d (fun j => - g j * area (ve_me e) ip j)).
  { intros e ip He Hip. destruct (HL e He) as [Ed [HU HX]]. rewrite C86_smoothing_flux, Ed. unfold dotn. rewrite <- sumn_opp. apply sumn_ext. intros j Hj.
    assert (G : grad_at (npe (ve_me e)) (dndx (ve_me e)) (fun ic => q (ve_node e ic)) ip j = g j).
    { unfold grad_at. rewrite (sumn_ext _ _ (fun ic => dndx (ve_me e) ip ic j * c + sumn d (fun k => g k * (dndx (ve_me e) ip ic j * X (ve_node e ic) k)))).
      - rewrite sumn_plus, sumn_scal_r, HU by (first [assumption | rewrite Ed; assumption]). rewrite sumn_swap.
        rewrite (sumn_ext d _ (fun k => dl k j * g k)).
        + rewrite (sumn_dl d j g) by assumption. ring.
        + intros k Hk. rewrite sumn_scal, HX by (first [assumption | rewrite Ed; assumption]). unfold dl. rewrite (Nat.eqb_sym k j). destruct (Nat.eqb j k); ring.
      - intros ic _. rewrite HQ, Rmult_plus_distr_l, <- sumn_scal. f_equal. apply sumn_ext. intros; ring. }
    rewrite G. ring. }
  assert (Z : inflow els (fun e ip => smooth_flux e q ip) a = sumn d (fun j => - g j * inflow els (fun e ip => area (ve_me e) ip j) a)).
  { clear - F. unfold inflow. revert F. induction els as [|e els IH]; intros F.
    - unfold lsum; cbn [fold_right map]. symmetry. apply sumn_zero. intros; ring.
    - rewrite (lsum_cons _ e els), IH by (intros; apply F; [right|]; assumption).
      rewrite (sumn_ext d (fun j => - g j * lsum _ (e :: els)) (fun j => - g j * sumn (nscs (ve_me e)) (fun ip => (if Nat.eqb a (ve_node e (lrR (ve_me e) ip)) then area (ve_me e) ip j else 0) - (if Nat.eqb a (ve_node e (lrL (ve_me e) ip)) then area (ve_me e) ip j else 0)) + - g j * lsum (fun e => sumn (nscs (ve_me e)) (fun ip => (if Nat.eqb a (ve_node e (lrR (ve_me e) ip)) then area (ve_me e) ip j else 0) - (if Nat.eqb a (ve_node e (lrL (ve_me e) ip)) then area (ve_me e) ip j else 0))) els)) by (intros; rewrite lsum_cons; ring).
      rewrite sumn_plus. f_equal.
      rewrite (sumn_ext d _ (fun j => sumn (nscs (ve_me e)) (fun ip => - g j * ((if Nat.eqb a (ve_node e (lrR (ve_me e) ip)) then area (ve_me e) ip j else 0) - (if Nat.eqb a (ve_node e (lrL (ve_me e) ip)) then area (ve_me e) ip j else 0))))) by (intros; rewrite sumn_scal; reflexivity).
      rewrite (sumn_swap d (nscs (ve_me e))). apply sumn_ext. intros ip Hip. rewrite (F e ip (or_introl eq_refl) Hip).
      destruct (Nat.eqb _ _), (Nat.eqb _ _).
      + rewrite Rminus_diag_eq by reflexivity. symmetry. apply sumn_zero. intros; ring.
      + rewrite Rminus_0_r. apply sumn_ext. intros; ring.
      + rewrite Rminus_0_l, <- sumn_opp. apply sumn_ext. intros; ring.
      + rewrite Rminus_0_r. symmetry. apply sumn_zero. intros; ring. }
  rewrite Z, (sumn_zero d) by (intros j Hj; rewrite HC by assumption; ring). unfold Rdiv. ring.
Qed.
(** the length used in the coefficient is the smallest distance between the two nodes of a point, over the whole mesh *)
Lemma loop_min n (f : nat -> R) : forall a, (loop n (fun ip a => Rmin a (f ip)) a <= a) /\ (forall ip, (ip < n)%nat -> loop n (fun ip a => Rmin a (f ip)) a <= f ip) /\
  (loop n (fun ip a => Rmin a (f ip)) a = a \/ exists ip, (ip < n)%nat /\ loop n (fun ip a => Rmin a (f ip)) a = f ip).
Proof.
  induction n; intros a; [rewrite loop_0; repeat split; try lra; try (intros; lia); left; reflexivity|]. rewrite loop_S. destruct (IHn a) as (A & B & C).
  set (r := loop n _ a) in *. split; [apply Rle_trans with r; [apply Rmin_l|assumption]|]. split.
  - intros ip Hip. destruct (Nat.eq_dec ip n) as [->|]; [apply Rmin_r|]. apply Rle_trans with r; [apply Rmin_l|apply B; lia].
  - unfold Rmin. destruct (Rle_dec r (f n)); [destruct C as [C|(ip & Hi & C)]; [left; assumption|right; exists ip; split; [lia|assumption]]|right; exists n; split; [lia|reflexivity]].
Qed.
Theorem C86_smallest_length : forall els,
  (forall e ip, In e els -> (ip < nscs (ve_me e))%nat -> dx_min els <= ip_dx e ip) /\
  (dx_min els = 10^16 \/ exists e ip, In e els /\ (ip < nscs (ve_me e))%nat /\ dx_min els = ip_dx e ip).
Proof.
  intros els. unfold dx_min.
  assert (H : forall l a, let r := fold_left (fun a e => loop (nscs (ve_me e)) (fun ip a => Rmin a (ip_dx e ip)) a) l a in
     r <= a /\ (forall e ip, In e l -> (ip < nscs (ve_me e))%nat -> r <= ip_dx e ip) /\ (r = a \/ exists e ip, In e l /\ (ip < nscs (ve_me e))%nat /\ r = ip_dx e ip)).
  { induction l as [|e l IH]; intros a; cbn [fold_left]; [cbv zeta; repeat split; try lra; try (intros; contradiction); left; reflexivity|].
    destruct (loop_min (nscs (ve_me e)) (ip_dx e) a) as (A & B & C). set (a1 := loop _ _ a) in *. destruct (IH a1) as (A' & B' & C'). set (r := fold_left _ l a1) in *. cbv zeta.
    split; [lra|]. split.
    - intros e' ip [<-|He] Hip; [specialize (B ip Hip); lra|apply B'; assumption].
    - destruct C' as [C'|(e' & ip & He & Hi & C')]; [|right; exists e', ip; split; [right; assumption|split; assumption]].
      destruct C as [C|(ip & Hi & C)]; [left; congruence|right; exists e, ip; split; [left; reflexivity|split; [assumption|congruence]]]. }
  destruct (H els (10^16)) as (_ & A & B). split; assumption.
Qed.

(* ------------------------------------------------------------------ wetted wall *)
(** initialisation near wetted walls: exactly the nodes closer than the given distance start as fluid one *)
Theorem C86_wetted_wall : forall spec dist k, (wetted_wall spec dist k = 1 <-> dist k < spec) /\ (wetted_wall spec dist k = 0 <-> spec <= dist k).
Proof. intros. unfold wetted_wall. destruct (Rlt_dec (dist k) spec); split; split; intros; lra. Qed.

(* ------------------------------------------------------------------ example *)
Definition ex_velem : velem := mkVE tri_el (fun ic => ic) tri_dv (fun k => tri_xy (k/2) (k mod 2)).
Definition ex_V (a : nat) : R := if (a <? 3)%nat then 1/6 else 0.
Example C86_nodal_hypotheses_met : mesh_good [ex_velem] ex_V /\ linear_mesh [ex_velem] 2 tri_xy /\ 0 < ex_V 1 /\
  grad_linear_exact (ve_me ex_velem) (fun ic => tri_xy (ve_node ex_velem ic)).
Proof.
  destruct tri_el_ok as (A & _ & _ & B & C). split; [|split; [|split; [unfold ex_V; cbn; lra|exact C]]].
  - split; [|split].
    + intros e [<-|[]] ip _. cbn. lra.
    + intros e [<-|[]]. exact A.
    + intros a. unfold ex_V, scv_total, lsum, sumn. cbn. destruct a as [|[|[|a]]]; cbn; lra.
  - intros e [<-|[]]. split; [reflexivity|exact B].
Qed.
