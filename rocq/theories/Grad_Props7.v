(** C91 continued: the area-weighted pressure gradient of the balanced-force scheme. *)
Require Import Reals List Bool Lra Lia Arith.
From Verif Require Import RUtil Edge_Model Edge_Proofs Elem_Model Elem_Spec Elem_Proofs Rad_Quad_Proofs3 Sum_Proofs.
From Verif Require Turb_Model Force_Props Tab_LU_Props.
From Verif Require Import Vof_Model Vof_Model2 Vof_Spec Vof_Props3 Vof_Props6 Grad_Model Grad_Spec Grad_Props.
Import ListNotations.
Open Scope R_scope.

(** *** specification *)
(** a gradient at a point from the values at the element's nodes *)
Definition ip_gradient (e : velem) (q : nat -> R) (ip j : nat) : R := sumn (npe (ve_me e)) (fun ic => dndx (ve_me e) ip ic j * q (ve_node e ic)).
Definition bip_gradient (f : gface) (q : nat -> R) (ip j : nat) : R := sumn (gf_npe f) (fun ic => gf_dn f ip ic j * q (gf_enode f ic)).
(** the localisation of the surface tension, c * alpha^n * (1-alpha)^m *)
Definition localised (W : paw) (alpha : R) : R := w_c W * vpow alpha (w_n W) * vpow (1 - alpha) (w_m W).
(** net force per mass in direction j: pressure gradient, buoyancy, localised surface tension *)
Definition net_force (W : paw) (rho sk alpha dp da : R) (j : nat) : R := (dp - w_buoy W * rho * w_g W j - sk * localised W alpha * da) / rho.
Definition ip_force (W : paw) (e : velem) (ip j : nat) : R :=
  net_force W (at_ip (w_rho W) e ip) (at_ip (fun n => w_sigma W n * w_kappa W n) e ip) (at_ip (w_vof W) e ip)
    (ip_gradient e (w_p W) ip j) (ip_gradient e (w_vof W) ip j) j.
(** at a boundary point: density, surface tension and volume fraction from the face's nodes, gradients from the element's *)
Definition bip_force (W : paw) (P : gface -> nat -> R) (f : gface) (ip j : nat) : R :=
  net_force W (at_bip (w_rho W) f ip) (at_bip (fun n => w_sigma W n * w_kappa W n) f ip) (at_bip (w_vof W) f ip)
    (sumn (gf_npe f) (fun ic => gf_dn f ip ic j * P f ic)) (bip_gradient f (w_vof W) ip j) j.
(** as computed: the volume fraction of the ELEMENT's node number ic stands for that of face node ic *)
Definition bip_force_code (W : paw) (P : gface -> nat -> R) (f : gface) (ip j : nat) : R :=
  net_force W (at_bip (w_rho W) f ip) (at_bip (fun n => w_sigma W n * w_kappa W n) f ip) (sumn (gf_npf f) (fun ic => gf_N f ip ic * w_vof W (gf_enode f ic)))
    (sumn (gf_npe f) (fun ic => gf_dn f ip ic j * P f ic)) (bip_gradient f (w_vof W) ip j) j.
(** sum over the points on the surface of node a's control volume, weighted with the size of the area component *)
Definition around (es : list velem) (fs : list gface) (Q : velem -> nat -> R) (QB : gface -> nat -> R) (a j : nat) : R :=
  lsum (fun e => let m := ve_me e in sumn (nscs m) (fun ip => (at_node a (ve_node e (lrL m ip)) + at_node a (ve_node e (lrR m ip))) * (Rabs (area m ip j) * Q e ip))) es
  + lsum (fun f => sumn (gf_nip f) (fun ip => at_node a (gf_node f (gf_near f ip)) * (Rabs (gf_A f ip j) * QB f ip))) fs.
(** element node values with the face's nodes overridden *)
Definition pressure_used (on : bool) (bcp p : nat -> R) (f : gface) (ic : nat) : R := override_face f on bcp p ic.

(** *** the loops *)
Lemma paw_add_fst n d v w st a j : (j < d)%nat -> fst (paw_add n d v w st) a j = fst st a j + at_node a n * v j.
Proof. intros Hj. unfold paw_add. cbn [fst]. rewrite acc2_at. rewrite (proj2 (Nat.ltb_lt j d) Hj). reflexivity. Qed.
Lemma paw_add_snd n d v w st a j : (j < d)%nat -> snd (paw_add n d v w st) a j = snd st a j + at_node a n * w j.
Proof. intros Hj. unfold paw_add. cbn [snd]. rewrite acc2_at. rewrite (proj2 (Nat.ltb_lt j d) Hj). reflexivity. Qed.
Lemma sk_at W e ip : sumn (npe (ve_me e)) (fun ic => Ns (ve_me e) ip ic * w_sigma W (ve_node e ic) * w_kappa W (ve_node e ic)) = at_ip (fun n => w_sigma W n * w_kappa W n) e ip.
Proof. unfold at_ip. apply sumn_ext. intros; ring. Qed.
Lemma sk_atb W f ip : sumn (gf_npf f) (fun ic => gf_N f ip ic * w_sigma W (gf_node f ic) * w_kappa W (gf_node f ic)) = at_bip (fun n => w_sigma W n * w_kappa W n) f ip.
Proof. unfold at_bip. apply sumn_ext. intros; ring. Qed.
Lemma paw_elem_fst d W st e a j : (j < d)%nat -> fst (paw_elem d W st e) a j = fst st a j
  + sumn (nscs (ve_me e)) (fun ip => (at_node a (ve_node e (lrL (ve_me e) ip)) + at_node a (ve_node e (lrR (ve_me e) ip))) * (Rabs (area (ve_me e) ip j) * ip_force W e ip j)).
Proof.
  intros Hj. unfold paw_elem. cbv zeta.
  apply (loop_gain (nscs (ve_me e)) _ (fun st : pawst => fst st a j) (fun ip => (at_node a (ve_node e (lrL (ve_me e) ip)) + at_node a (ve_node e (lrR (ve_me e) ip))) * (Rabs (area (ve_me e) ip j) * ip_force W e ip j))).
  intros ip s _. rewrite !paw_add_fst by exact Hj. rewrite sk_at. unfold ip_force, net_force, localised, at_ip, ip_gradient, Rdiv. ring.
Qed.
Lemma paw_elem_snd d W st e a j : (j < d)%nat -> snd (paw_elem d W st e) a j = snd st a j
  + sumn (nscs (ve_me e)) (fun ip => (at_node a (ve_node e (lrL (ve_me e) ip)) + at_node a (ve_node e (lrR (ve_me e) ip))) * (Rabs (area (ve_me e) ip j) * 1)).
Proof.
  intros Hj. unfold paw_elem. cbv zeta.
  apply (loop_gain (nscs (ve_me e)) _ (fun st : pawst => snd st a j) (fun ip => (at_node a (ve_node e (lrL (ve_me e) ip)) + at_node a (ve_node e (lrR (ve_me e) ip))) * (Rabs (area (ve_me e) ip j) * 1))).
  intros ip s _. rewrite !paw_add_snd by exact Hj. ring.
Qed.
Lemma paw_face_fst d W on bcp st f a j : (j < d)%nat -> fst (paw_face d W on bcp st f) a j = fst st a j
  + sumn (gf_nip f) (fun ip => at_node a (gf_node f (gf_near f ip)) * (Rabs (gf_A f ip j) * bip_force_code W (pressure_used on bcp (w_p W)) f ip j)).
Proof.
  intros Hj. unfold paw_face. cbv zeta.
  apply (loop_gain (gf_nip f) _ (fun st : pawst => fst st a j) (fun ip => at_node a (gf_node f (gf_near f ip)) * (Rabs (gf_A f ip j) * bip_force_code W (pressure_used on bcp (w_p W)) f ip j))).
  intros ip s _. rewrite !paw_add_fst by exact Hj. rewrite sk_atb. unfold bip_force_code, net_force, localised, at_bip, bip_gradient, pressure_used, Rdiv. ring.
Qed.
Lemma paw_face_snd d W on bcp st f a j : (j < d)%nat -> snd (paw_face d W on bcp st f) a j = snd st a j
  + sumn (gf_nip f) (fun ip => at_node a (gf_node f (gf_near f ip)) * (Rabs (gf_A f ip j) * 1)).
Proof.
  intros Hj. unfold paw_face. cbv zeta.
  apply (loop_gain (gf_nip f) _ (fun st : pawst => snd st a j) (fun ip => at_node a (gf_node f (gf_near f ip)) * (Rabs (gf_A f ip j) * 1))).
  intros ip s _. rewrite !paw_add_snd by exact Hj. ring.
Qed.
Lemma fold_gain' {A B} (step : A -> B -> A) (get : A -> R) (c : B -> R) l : (forall s b, get (step s b) = get s + c b) -> forall s, get (fold_left step l s) = get s + lsum c l.
Proof. intros H. induction l as [|b l IH]; intros s; cbn [fold_left]; [unfold lsum; cbn; ring|]. rewrite IH, H, lsum_cons. ring. Qed.
(** ** C91: the value at a node is the area-weighted mean of the net force per mass at the points around it *)
Theorem C91_area_weighted_code : forall d W on bcp es fs a j, (j < d)%nat ->
  paw_grad d W on bcp es fs a j
  = around es fs (fun e ip => ip_force W e ip j) (fun f ip => bip_force_code W (pressure_used on bcp (w_p W)) f ip j) a j / around es fs (fun _ _ => 1) (fun _ _ => 1) a j.
Proof.
  intros d W on bcp es fs a j Hj. unfold paw_grad. cbv zeta.
  rewrite (fold_gain' (paw_face d W on bcp) (fun st => fst st a j) _ fs (fun s f => paw_face_fst d W on bcp s f a j Hj)).
  rewrite (fold_gain' (paw_elem d W) (fun st => fst st a j) _ es (fun s e => paw_elem_fst d W s e a j Hj)).
  rewrite (fold_gain' (paw_face d W on bcp) (fun st => snd st a j) _ fs (fun s f => paw_face_snd d W on bcp s f a j Hj)).
  rewrite (fold_gain' (paw_elem d W) (fun st => snd st a j) _ es (fun s e => paw_elem_snd d W s e a j Hj)).
  cbn [fst snd]. rewrite !Rplus_0_l. reflexivity.
Qed.
(** the cases in which the boundary value is the intended one: no localisation of the surface tension (exponents 0), no boundary
    faces at the node's control volume, or faces whose nodes are the first nodes of the element in the same order *)
Theorem C91_area_weighted_partial : forall d W on bcp es fs a j, (j < d)%nat ->
  ((w_n W = 0 /\ w_m W = 0) \/ (forall f, In f fs -> forall ic, (ic < gf_npf f)%nat -> w_vof W (gf_enode f ic) = w_vof W (gf_node f ic))) ->
  paw_grad d W on bcp es fs a j
  = around es fs (fun e ip => ip_force W e ip j) (fun f ip => bip_force W (pressure_used on bcp (w_p W)) f ip j) a j / around es fs (fun _ _ => 1) (fun _ _ => 1) a j.
Proof.
  intros d W on bcp es fs a j Hj H. rewrite C91_area_weighted_code by exact Hj. f_equal. unfold around. f_equal. apply lsum_ext. intros f Hf. apply sumn_ext. intros ip _. f_equal. f_equal.
  unfold bip_force_code, bip_force. destruct H as [[E1 E2] | H].
  - unfold net_force, localised, vpow. rewrite E1, E2. destruct (Req_EM_T 0 0); [reflexivity|lra].
  - f_equal. unfold at_bip. apply sumn_ext. intros ic Hic. rewrite (H f Hf ic Hic). reflexivity.
Qed.
(** ** C91: not in general: the face of the unit square's corner triangle between its nodes 1 and 2, with the fluid at those nodes *)
Definition bad_face : gface := mkGF 2 2 (fun k => k) (fun ip ic => if Nat.eqb ip ic then 1 else 0) (fun _ _ => 1) (fun k => S k) 3 (fun k => k) (fun k => S k)
  (fun _ ic j => match ic with 0%nat => -1 | 1%nat => if Nat.eqb j 0 then 1 else 0 | _ => if Nat.eqb j 1 then 1 else 0 end).
Definition bad_W : paw := mkPaw (fun _ => 0) (fun _ => 1) (fun _ => 1) (fun _ => 1) (fun n => if Nat.eqb n 1 then 1 else if Nat.eqb n 2 then 1/2 else 0) (fun _ => 0) 0 1 1 0.
Theorem C91_boundary_localisation_refuted :
  paw_grad 2 bad_W false (fun _ => 0) [] [bad_face] 1 0 = 0 /\
  around [] [bad_face] (fun _ _ => 0) (fun f ip => bip_force bad_W (pressure_used false (fun _ => 0) (w_p bad_W)) f ip 0) 1 0 / around [] [bad_face] (fun _ _ => 1) (fun _ _ => 1) 1 0 = -1.
Proof.
  assert (P0 : vpow 0 1 = 0). { unfold vpow, Turb_Model.cpow. destruct (Req_EM_T 1 0); [lra|]. destruct (Req_EM_T 0 0); lra. }
  assert (P1 : vpow 1 1 = 1). { unfold vpow, Turb_Model.cpow. destruct (Req_EM_T 1 0); [lra|]. destruct (Req_EM_T 1 0); [lra|]. apply Rpower_1. lra. }
  assert (PM : forall x, vpow x 0 = 1). { intros x. unfold vpow. destruct (Req_EM_T 0 0); lra. }
  split.
  - rewrite C91_area_weighted_code by lia. unfold around, lsum. cbn [map fold_right gf_nip bad_face]. rewrite !sumn_S, !sumn_0. unfold at_node. cbn [gf_node gf_near bad_face Nat.eqb].
    unfold bip_force_code, net_force, localised, at_bip, bip_gradient, pressure_used, override_face. cbn [gf_npf gf_npe gf_N gf_A gf_node gf_enode gf_dn bad_face w_n w_m w_c w_vof w_buoy w_p w_rho w_sigma w_kappa w_g bad_W]. rewrite !sumn_S, !sumn_0. cbn [Nat.eqb].
    rewrite PM. replace (0 + 1 * 0 + 0 * 1) with 0 by ring. rewrite P0, Rabs_R1. field.
  - unfold around, lsum. cbn [map fold_right gf_nip bad_face]. rewrite !sumn_S, !sumn_0. unfold at_node. cbn [gf_node gf_near bad_face Nat.eqb].
    unfold bip_force, net_force, localised, at_bip, bip_gradient, pressure_used, override_face. cbn [gf_npf gf_npe gf_N gf_A gf_node gf_enode gf_dn bad_face w_n w_m w_c w_vof w_buoy w_p w_rho w_sigma w_kappa w_g bad_W]. rewrite !sumn_S, !sumn_0. cbn [Nat.eqb].
    rewrite PM. replace (0 + 1 * 1 + 0 * (1/2)) with 1 by ring. rewrite P1, Rabs_R1. field.
Qed.
(** ** C91: so it lies between the smallest and largest net force around the node *)
Lemma around_le es fs Q QB Q' QB' a j :
  (forall e ip, In e es -> (ip < nscs (ve_me e))%nat -> Q e ip <= Q' e ip) -> (forall f ip, In f fs -> (ip < gf_nip f)%nat -> QB f ip <= QB' f ip) ->
  around es fs Q QB a j <= around es fs Q' QB' a j.
Proof.
  assert (N : forall x y, 0 <= at_node x y) by (intros; unfold at_node; destruct (Nat.eqb _ _); lra).
  intros H HB. unfold around. apply Rplus_le_compat.
  - apply Force_Props.lsum_le. intros e He. cbv zeta. apply Tab_LU_Props.sumn_le. intros ip Hip. apply Rmult_le_compat_l; [apply Rplus_le_le_0_compat; apply N|]. apply Rmult_le_compat_l; [apply Rabs_pos|]. apply H; assumption.
  - apply Force_Props.lsum_le. intros e He. cbv zeta. apply Tab_LU_Props.sumn_le. intros ip Hip. apply Rmult_le_compat_l; [apply N|]. apply Rmult_le_compat_l; [apply Rabs_pos|]. apply HB; assumption.
Qed.
Lemma around_const es fs c a j : around es fs (fun _ _ => c) (fun _ _ => c) a j = c * around es fs (fun _ _ => 1) (fun _ _ => 1) a j.
Proof.
  unfold around. rewrite Rmult_plus_distr_l. f_equal; rewrite <- lsum_scal; apply lsum_ext; intros; cbv zeta; rewrite <- sumn_scal; apply sumn_ext; intros; ring.
Qed.
Theorem C91_area_weighted_between : forall d W on bcp es fs a j lo hi, (j < d)%nat -> 0 < around es fs (fun _ _ => 1) (fun _ _ => 1) a j ->
  (forall e ip, In e es -> (ip < nscs (ve_me e))%nat -> lo <= ip_force W e ip j <= hi) ->
  (forall f ip, In f fs -> (ip < gf_nip f)%nat -> lo <= bip_force_code W (pressure_used on bcp (w_p W)) f ip j <= hi) ->
  lo <= paw_grad d W on bcp es fs a j <= hi.
Proof.
  intros d W on bcp es fs a j lo hi Hj HP HE HF. rewrite C91_area_weighted_code by exact Hj. split.
  - apply Rle_div_r; [exact HP|]. rewrite <- around_const. apply around_le; intros; [apply HE|apply HF]; assumption.
  - apply Rle_div_l; [exact HP|]. rewrite <- around_const. apply around_le; intros; [apply HE|apply HF]; assumption.
Qed.
(** ** C91: balanced force: if at every point the pressure gradient balances gravity and surface tension the nodal value is zero *)
Theorem C91_balanced_force : forall d W on bcp es fs a j, (j < d)%nat ->
  (forall e ip, In e es -> (ip < nscs (ve_me e))%nat -> ip_gradient e (w_p W) ip j
     = w_buoy W * at_ip (w_rho W) e ip * w_g W j + at_ip (fun n => w_sigma W n * w_kappa W n) e ip * localised W (at_ip (w_vof W) e ip) * ip_gradient e (w_vof W) ip j) ->
  (forall f ip, In f fs -> (ip < gf_nip f)%nat -> bip_force_code W (pressure_used on bcp (w_p W)) f ip j = 0) ->
  paw_grad d W on bcp es fs a j = 0.
Proof.
  intros d W on bcp es fs a j Hj HE HF. rewrite C91_area_weighted_code by exact Hj.
  assert (Z : around es fs (fun e ip => ip_force W e ip j) (fun f ip => bip_force_code W (pressure_used on bcp (w_p W)) f ip j) a j = 0).
  { unfold around. rewrite !lsum_zero; [ring| |].
    - intros f Hf. apply sumn_zero. intros ip Hip. rewrite HF by assumption. ring.
    - intros e He. cbv zeta. apply sumn_zero. intros ip Hip. unfold ip_force, net_force. rewrite HE by assumption. unfold Rdiv. ring. }
  rewrite Z. unfold Rdiv. ring.
Qed.
(** ** C91: fluid at rest: uniform density, uniform volume fraction and pressure varying linearly with gradient rho g: no
    acceleration, whatever the shape of the elements; and for a general linear pressure the value is (grad p)/rho - g exactly *)
Definition ip_linear (d : nat) (X : nat -> nat -> R) (es : list velem) : Prop := forall e, In e es -> forall ip j, (ip < nscs (ve_me e))%nat -> (j < d)%nat ->
  sumn (npe (ve_me e)) (fun ic => dndx (ve_me e) ip ic j) = 0 /\ forall k, (k < d)%nat -> ip_gradient e (fun n => X n k) ip j = if Nat.eqb k j then 1 else 0.
Definition bip_linear (d : nat) (X : nat -> nat -> R) (fs : list gface) : Prop := forall f, In f fs -> forall ip j, (ip < gf_nip f)%nat -> (j < d)%nat ->
  sumn (gf_npe f) (fun ic => gf_dn f ip ic j) = 0 /\ forall k, (k < d)%nat -> bip_gradient f (fun n => X n k) ip j = if Nat.eqb k j then 1 else 0.
Lemma ip_gradient_linear d X es e ip j c g q : ip_linear d X es -> In e es -> (ip < nscs (ve_me e))%nat -> (j < d)%nat -> linear_field d c g X q -> ip_gradient e q ip j = g j.
Proof.
  intros L He Hip Hj Q. destruct (L e He ip j Hip Hj) as [L0 L1]. unfold ip_gradient in *.
  rewrite (sumn_ext (npe (ve_me e)) _ (fun ic => c * dndx (ve_me e) ip ic j + sumn d (fun k => g k * (dndx (ve_me e) ip ic j * X (ve_node e ic) k)))).
  2:{ intros ic _. rewrite Q. rewrite Rmult_plus_distr_l, <- sumn_scal. f_equal; [ring|]. apply sumn_ext. intros; ring. }
  rewrite sumn_plus, sumn_scal, L0, (sumn_swap (npe (ve_me e)) d).
  rewrite (sumn_ext d _ (fun k => dl k j * g k)).
  - rewrite (sumn_dl d j g Hj). ring.
  - intros k Hk. rewrite sumn_scal, (L1 k Hk). unfold dl. destruct (Nat.eqb k j); ring.
Qed.
Lemma bip_gradient_linear d X fs f ip j c g q : bip_linear d X fs -> In f fs -> (ip < gf_nip f)%nat -> (j < d)%nat -> linear_field d c g X q -> bip_gradient f q ip j = g j.
Proof.
  intros L He Hip Hj Q. destruct (L f He ip j Hip Hj) as [L0 L1]. unfold bip_gradient in *.
  rewrite (sumn_ext (gf_npe f) _ (fun ic => c * gf_dn f ip ic j + sumn d (fun k => g k * (gf_dn f ip ic j * X (gf_enode f ic) k)))).
  2:{ intros ic _. rewrite Q. rewrite Rmult_plus_distr_l, <- sumn_scal. f_equal; [ring|]. apply sumn_ext. intros; ring. }
  rewrite sumn_plus, sumn_scal, L0, (sumn_swap (gf_npe f) d).
  rewrite (sumn_ext d _ (fun k => dl k j * g k)).
  - rewrite (sumn_dl d j g Hj). ring.
  - intros k Hk. rewrite sumn_scal, (L1 k Hk). unfold dl. destruct (Nat.eqb k j); ring.
Qed.
Lemma at_ip_const es e ip q c : ip_unity es -> In e es -> (ip < nscs (ve_me e))%nat -> (forall n, q n = c) -> at_ip q e ip = c.
Proof. intros U He Hip H. unfold at_ip. rewrite (sumn_ext _ _ (fun ic => c * Ns (ve_me e) ip ic)) by (intros; rewrite H; ring). rewrite sumn_scal, (U e He ip Hip). ring. Qed.
Lemma at_bip_const fs e ip q c : bip_unity fs -> In e fs -> (ip < gf_nip e)%nat -> (forall n, q n = c) -> at_bip q e ip = c.
Proof. intros U He Hip H. unfold at_bip. rewrite (sumn_ext _ _ (fun ic => c * gf_N e ip ic)) by (intros; rewrite H; ring). rewrite sumn_scal, (U e He ip Hip). ring. Qed.
Lemma lin_const d X (q : nat -> R) c : (forall n, q n = c) -> linear_field d c (fun _ => 0) X q.
Proof. intros H n. rewrite H, sumn_zero by (intros; ring). ring. Qed.
Theorem C91_linear_pressure : forall d W X bcp es fs a j c g rho alpha, (j < d)%nat -> ip_unity es -> bip_unity fs -> ip_linear d X es -> bip_linear d X fs ->
  rho <> 0 -> (forall n, w_rho W n = rho) -> (forall n, w_vof W n = alpha) -> linear_field d c g X (w_p W) ->
  0 < around es fs (fun _ _ => 1) (fun _ _ => 1) a j ->
  paw_grad d W false bcp es fs a j = g j / rho - w_buoy W * w_g W j.
Proof.
  intros d W X bcp es fs a j c g rho alpha Hj U UB L LB Hr HR HA HP Hpos.
  assert (E : forall e ip, In e es -> (ip < nscs (ve_me e))%nat -> ip_force W e ip j = g j / rho - w_buoy W * w_g W j).
  { intros e ip He Hip. unfold ip_force, net_force. rewrite (at_ip_const es e ip (w_rho W) rho U He Hip HR), (ip_gradient_linear d X es e ip j c g (w_p W) L He Hip Hj HP).
    rewrite (ip_gradient_linear d X es e ip j alpha (fun _ => 0) (w_vof W) L He Hip Hj (lin_const d X _ alpha HA)). field. exact Hr. }
  assert (F : forall f ip, In f fs -> (ip < gf_nip f)%nat -> bip_force_code W (pressure_used false bcp (w_p W)) f ip j = g j / rho - w_buoy W * w_g W j).
  { intros f ip He Hip. unfold bip_force_code, net_force. rewrite (at_bip_const fs f ip (w_rho W) rho UB He Hip HR).
    change (sumn (gf_npe f) (fun ic => gf_dn f ip ic j * pressure_used false bcp (w_p W) f ic)) with (bip_gradient f (w_p W) ip j).
    rewrite (bip_gradient_linear d X fs f ip j c g (w_p W) LB He Hip Hj HP).
    rewrite (bip_gradient_linear d X fs f ip j alpha (fun _ => 0) (w_vof W) LB He Hip Hj (lin_const d X _ alpha HA)). field. exact Hr. }
  apply Rle_antisym; apply (C91_area_weighted_between d W false bcp es fs a j (g j / rho - w_buoy W * w_g W j) (g j / rho - w_buoy W * w_g W j)); try assumption;
    intros; rewrite ?E, ?F by assumption; lra.
Qed.
(** ** C91: with the override the face's nodes carry the boundary pressures and the element's other nodes their own *)
Theorem C91_override : forall f bcp p, (forall k l, (k < gf_npf f)%nat -> (l < gf_npf f)%nat -> gf_ord f k = gf_ord f l -> k = l) ->
  (forall k, (k < gf_npf f)%nat -> pressure_used true bcp p f (gf_ord f k) = bcp (gf_node f k)) /\
  (forall ic, (forall k, (k < gf_npf f)%nat -> gf_ord f k <> ic) -> pressure_used true bcp p f ic = p (gf_enode f ic)) /\
  (forall ic, pressure_used false bcp p f ic = p (gf_enode f ic)).
Proof.
  intros f bcp p INJ. unfold pressure_used, override_face. generalize INJ. clear INJ.
  set (step := fun k P => fun a => if Nat.eqb a (gf_ord f k) then bcp (gf_node f k) else P a). intros INJ.
  split; [|split; [|reflexivity]].
  - generalize dependent (gf_npf f). induction n as [|n IH]; intros INJ k Hk; [lia|]. rewrite loop_S. unfold step at 1. destruct (Nat.eqb_spec (gf_ord f k) (gf_ord f n)) as [E|N].
    + rewrite (INJ k n Hk (Nat.lt_succ_diag_r n) E). reflexivity.
    + apply IH; [intros; apply INJ; lia|]. assert (k <> n) by congruence. lia.
  - intros ic H. induction (gf_npf f) as [|n IH]; [reflexivity|]. rewrite loop_S. unfold step at 1. destruct (Nat.eqb_spec ic (gf_ord f n)) as [E|N].
    + exfalso. apply (H n); [lia|congruence].
    + apply IH; [intros; apply INJ; lia|intros; apply H; lia].
Qed.
(** the unit right triangle and its face between nodes 1 and 2 meet the hypotheses *)
Definition ex_pe : velem := mkVE tri_el (fun k => k) tri_dv (fun _ => 0).
Definition ex_pf : gface := mkGF 2 2 (fun k => k) (fun ip ic => if Nat.eqb ip ic then 3/4 else 1/4) (fun _ _ => 1/2) (fun k => S k) 3 (fun k => k) (fun k => S k) (fun _ => tri_dn).
Example C91_linear_pressure_meets : ip_unity [ex_pe] /\ bip_unity [ex_pf] /\ ip_linear 2 tri_xy [ex_pe] /\ bip_linear 2 tri_xy [ex_pf]
  /\ 0 < around [ex_pe] [ex_pf] (fun _ _ => 1) (fun _ _ => 1) 1 0.
Proof.
  destruct tri_el_ok as (_ & _ & U & _ & [L0 L1]). split; [|split; [|split; [|split]]].
  - intros e [<- | []] ip Hip. exact (U ip Hip).
  - intros e [<- | []] ip Hip. cbn [gf_nip gf_npf gf_N ex_pf] in *. destruct ip as [|[|]]; [| |lia]; rewrite !sumn_S, sumn_0; cbn [Nat.eqb]; lra.
  - intros e [<- | []] ip j Hip Hj. split; [exact (L0 ip j Hip Hj)|]. intros k Hk. unfold ip_gradient. rewrite (Nat.eqb_sym k j). exact (L1 ip j k Hip Hj Hk).
  - intros e [<- | []] ip j Hip Hj. split; [exact (L0 0%nat j ltac:(cbn; lia) Hj)|]. intros k Hk. unfold bip_gradient. rewrite (Nat.eqb_sym k j). exact (L1 0%nat j k ltac:(cbn; lia) Hj Hk).
  - unfold around, lsum, at_node. cbn [map fold_right ve_me ve_node ex_pe ex_pf nscs tri_el gf_nip gf_node gf_near gf_A lrL lrR area]. rewrite !sumn_S, !sumn_0. cbn [Nat.eqb].
    rewrite (Rabs_right (1/3)), (Rabs_right (1/2)) by lra. pose proof (Rabs_pos (-1/6)). lra.
Qed.
