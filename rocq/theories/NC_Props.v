(** C79: fluxes across a non-conformal interface: exact on linear fields, exact matrix, conservative on matching points. *)
Require Import Reals List Bool Arith Lra Lia Permutation.
From Verif Require Import Edge_Model Edge_Proofs Sum_Proofs Elem_Model Elem_Spec Elem_Proofs Elem_Proofs2 NC_Model.
Import ListNotations.
Open Scope R_scope.

(* ------------------------------------------------------------------ specification *)
Definition dot (d : nat) (a b : nat -> R) : R := sumn d (fun j => a j * b j).
(** the value of the linear function a + b.x at point x *)
Definition linear (d : nat) (a : R) (b x : nat -> R) : R := a + dot d b x.
(** the point at position xg is represented exactly on side s: X is the position of the nodes; shape functions sum to one and interpolate the
    position; the derivatives are those of a linear element *)
Definition sees (d : nat) (X : nat -> nat -> R) (s : side) (xg : nat -> R) : Prop :=
  sumn (s_nf s) (s_r s) = 1 /\
  (forall k, (k < d)%nat -> sumn (s_nf s) (fun ic => s_r s ic * X (s_node s (s_ord s ic)) k) = xg k) /\
  (forall j, (j < d)%nat -> sumn (s_npe s) (fun ic => s_dndx s ic j) = 0) /\
  (forall j k, (j < d)%nat -> (k < d)%nat -> sumn (s_npe s) (fun ic => s_dndx s ic j * X (s_node s ic) k) = if Nat.eqb j k then 1 else 0).
(** the two sides use opposite normals (always so with use_current_normal) *)
Definition opposite_normals (o : ncopt) (g : dg) : Prop := forall j, (j < nd o)%nat -> oNx o g j = - cNx o g j.
(** all nodes are numbered below N, the face nodes are nodes of the element *)
Definition side_in (N : nat) (s : side) : Prop := (forall ic, (ic < s_npe s)%nat -> (s_node s ic < N)%nat) /\ (forall ic, (ic < s_nf s)%nat -> (s_ord s ic < s_npe s)%nat).
Definition point_in (N : nat) (g : dg) : Prop := side_in N (d_c g) /\ side_in N (d_o g) /\ (d_nn g < s_npe (d_c g))%nat.
(** g' is the same point seen from the other side (matching faces and quadrature) *)
Definition mirrored (o : ncopt) (g g' : dg) : Prop :=
  d_c g' = d_o g /\ d_o g' = d_c g /\ (forall j, (j < nd o)%nat -> d_A g' j = - d_A g j) /\ opposite_normals o g /\ opposite_normals o g'.

(* ------------------------------------------------------------------ proofs *)
Lemma use_current_opposite o g : useCurrent o = true -> opposite_normals o g.
Proof. intros H j _. unfold oNx. rewrite H. reflexivity. Qed.

Lemma face_value_plus s p q : face_value s (fun k => p k + q k) = face_value s p + face_value s q.
Proof. unfold face_value. rewrite <- sumn_plus. apply sumn_ext; intros. ring. Qed.
Lemma face_value_ext s p q : (forall k, p k = q k) -> face_value s p = face_value s q.
Proof. intros H. unfold face_value. apply sumn_ext; intros. now rewrite H. Qed.
Lemma diff_flux_plus o s n p q : diff_flux o s n (fun k => p k + q k) = diff_flux o s n p + diff_flux o s n q.
Proof. unfold diff_flux. rewrite <- sumn_plus. apply sumn_ext; intros. rewrite <- sumn_plus. apply sumn_ext; intros. ring. Qed.
Lemma diff_flux_neg o s n n' q : (forall j, (j < nd o)%nat -> n' j = - n j) -> diff_flux o s n' q = - diff_flux o s n q.
Proof. intros H. unfold diff_flux. rewrite <- sumn_opp. apply sumn_ext; intros. rewrite <- sumn_opp. apply sumn_ext; intros. rewrite H by assumption. ring. Qed.
Lemma inv_length_ext o s n n' : (forall j, (j < nd o)%nat -> n' j = n j) -> inv_length o s n' = inv_length o s n.
Proof. intros H. unfold inv_length. apply sumn_ext; intros. apply sumn_ext; intros. now rewrite H. Qed.
Lemma diff_flux_ext o s n n' q : (forall j, (j < nd o)%nat -> n' j = n j) -> diff_flux o s n' q = diff_flux o s n q.
Proof. intros H. unfold diff_flux. apply sumn_ext; intros. apply sumn_ext; intros. now rewrite H. Qed.
Lemma lhscd_ext o s n n' ic : (forall j, (j < nd o)%nat -> n' j = n j) -> lhscd o s n' ic = lhscd o s n ic.
Proof. intros H. unfold lhscd. apply sumn_ext; intros. now rewrite H. Qed.
Lemma diff_flux_lhscd o s n q : diff_flux o s n q = sumn (s_npe s) (fun ic => lhscd o s n ic * q (s_node s ic)).
Proof. unfold diff_flux, lhscd. apply sumn_ext; intros. rewrite <- sumn_scal_r. apply sumn_ext; intros. ring. Qed.

Lemma face_value_linear d X s xg a b : sees d X s xg -> face_value s (fun k => linear d a b (X k)) = linear d a b xg.
Proof.
  intros (H1 & H2 & _). unfold face_value, linear, dot.
  rewrite (sumn_ext _ _ (fun ic => a * s_r s ic + sumn d (fun j => b j * (s_r s ic * X (s_node s (s_ord s ic)) j)))).
  2:{ intros ic _. rewrite Rmult_plus_distr_l, <- sumn_scal. f_equal; [ring|apply sumn_ext; intros; ring]. }
  rewrite sumn_plus, sumn_scal, H1, sumn_swap. f_equal; [ring|]. apply sumn_ext; intros j Hj.
  rewrite sumn_scal. f_equal. apply H2, Hj.
Qed.
Lemma face_value_const d X s xg v : sees d X s xg -> face_value s (fun _ => v) = v.
Proof. intros (H1 & _). unfold face_value. rewrite sumn_scal_r, H1. ring. Qed.
Lemma grad_linear d X s xg a b j : sees d X s xg -> (j < d)%nat -> grad_at s (fun k => linear d a b (X k)) j = b j.
Proof.
  intros (_ & _ & H3 & H4) Hj. unfold grad_at, linear, dot.
  rewrite (sumn_ext _ _ (fun ic => a * s_dndx s ic j + sumn d (fun k => b k * (s_dndx s ic j * X (s_node s ic) k)))).
  2:{ intros ic _. rewrite Rmult_plus_distr_l, <- sumn_scal. f_equal; [ring|apply sumn_ext; intros; ring]. }
  rewrite sumn_plus, sumn_scal, H3, sumn_swap by exact Hj.
  rewrite (sumn_ext _ _ (fun k => dl k j * b k)).
  2:{ intros k Hk. rewrite sumn_scal, H4 by assumption. unfold dl. rewrite Nat.eqb_sym. destruct (Nat.eqb k j); ring. }
  rewrite sumn_dl by exact Hj. ring.
Qed.
Lemma diff_flux_grad o s n q : diff_flux o s n q = - dot (nd o) (grad_at s q) n.
Proof.
  unfold diff_flux, dot, grad_at. rewrite sumn_swap, <- sumn_opp. apply sumn_ext; intros j _.
  rewrite <- sumn_scal_r, <- sumn_opp. apply sumn_ext; intros. ring.
Qed.
Lemma dot_ext d a a' b b' : (forall j, (j < d)%nat -> a j = a' j) -> (forall j, (j < d)%nat -> b j = b' j) -> dot d a b = dot d a' b'.
Proof. intros H1 H2. unfold dot. apply sumn_ext; intros. now rewrite H1, H2. Qed.
Lemma dot_neg_r d a b : dot d a (fun j => - b j) = - dot d a b.
Proof. unfold dot. rewrite <- sumn_opp. apply sumn_ext; intros. ring. Qed.
Lemma cNx_A o g b : c_amag o g <> 0 -> dot (nd o) b (cNx o g) * c_amag o g = dot (nd o) b (d_A g).
Proof. intros H. unfold dot. rewrite <- sumn_scal_r. apply sumn_ext; intros. unfold cNx. field. exact H. Qed.

(** a linear field crosses the interface with its exact flux: diffusion -mu grad(q).A plus advection mdot*q at the point, for any upwinding *)
Theorem C79_linear_field_exact_flux o g X xg a b mu m : sees (nd o) X (d_c g) xg -> sees (nd o) X (d_o g) xg ->
  opposite_normals o g -> c_amag o g <> 0 ->
  nc_scalar_flux o g m (fun _ => mu) (fun k => linear (nd o) a b (X k)) = - mu * dot (nd o) b (d_A g) + m * linear (nd o) a b xg.
Proof.
  intros Hc Ho Hn Ha. unfold nc_scalar_flux. cbv zeta.
  rewrite !(face_value_linear _ _ _ _ _ _ Hc), !(face_value_linear _ _ _ _ _ _ Ho), (face_value_const _ _ _ _ _ Hc), (face_value_const _ _ _ _ _ Ho).
  rewrite !diff_flux_grad.
  rewrite (dot_ext _ _ b _ (cNx o g) (fun j Hj => grad_linear _ _ _ _ _ _ _ Hc Hj) (fun _ _ => eq_refl)).
  rewrite (dot_ext _ _ b _ (fun j => - cNx o g j) (fun j Hj => grad_linear _ _ _ _ _ _ _ Ho Hj) Hn), dot_neg_r.
  rewrite <- (cNx_A o g b Ha). set (L := linear _ _ _ _). set (D := dot _ _ _). field.
Qed.
(** in particular a uniform field only moves with the mass *)
Theorem C79_uniform_field o g X xg v (mu : nat -> R) m : sees (nd o) X (d_c g) xg -> sees (nd o) X (d_o g) xg ->
  nc_scalar_flux o g m mu (fun _ => v) = m * v.
Proof.
  intros Hc Ho. unfold nc_scalar_flux. cbv zeta. rewrite !(face_value_const _ _ _ _ v Hc), !(face_value_const _ _ _ _ v Ho), !diff_flux_grad.
  assert (Z : forall s n, sees (nd o) X s xg -> dot (nd o) (grad_at s (fun _ => v)) n = 0).
  { intros s n (_ & _ & H3 & _). unfold dot. apply sumn_zero. intros j Hj. unfold grad_at. rewrite sumn_scal_r, H3 by exact Hj. ring. }
  rewrite !Z by assumption. field.
Qed.
(** with upwinding the carried value is the upstream trace *)
Theorem C79_upwind_carries_upstream_value o g m q (mu : nat -> R) : eta o = 1 -> (forall k, mu k = 0) ->
  nc_scalar_flux o g m mu q = if Rlt_dec 0 m then m * face_value (d_c g) q else m * face_value (d_o g) q.
Proof.
  intros He Hm. unfold nc_scalar_flux. cbv zeta. rewrite He.
  assert (Z : forall s, face_value s mu = 0) by (intro s; unfold face_value; apply sumn_zero; intros; rewrite Hm; ring).
  rewrite !Z. destruct (Rlt_dec 0 m) as [H|H]; [rewrite Rabs_right by lra|rewrite Rabs_left1 by lra]; field.
Qed.

(* ------------------------------------------------------------------ effect of the kernels *)
Definition scal_coef (o : ncopt) (g : dg) (mu : nat -> R) (m : R) (j : nat) : R :=
  let c := d_c g in let op := d_o g in
  let muC := face_value c mu in let muO := face_value op mu in
  let pen := (muC * inv_length o c (cNx o g) + muO * inv_length o op (oNx o g)) / 2 in
  let FC := pen*c_amag o g + (eta o*Rabs m + m)/2 in let FO := pen*c_amag o g + (eta o*Rabs m - m)/2 in
  sumn (s_nf c) (fun ic => dl j (s_node c (s_ord c ic)) * (s_r c ic * FC)) +
  sumn (s_npe c) (fun ic => dl j (s_node c ic) * (muC * lhscd o c (cNx o g) ic * c_amag o g/2)) +
  sumn (s_nf op) (fun ic => dl j (s_node op (s_ord op ic)) * (- (s_r op ic * FO))) +
  sumn (s_npe op) (fun ic => dl j (s_node op ic) * (- (muO * lhscd o op (oNx o g) ic * c_amag o g/2))).
Definition row (g : dg) : nat := s_node (d_c g) (d_nn g).

Lemma eff_cols n r (cl : nat -> nat) (v : nat -> R) s : eff s (loop n (fun ic s => addL r (cl ic) (v ic) s) s) (fun i j => dl i r * sumn n (fun ic => dl j (cl ic) * v ic)) (fun _ => 0).
Proof.
  eapply eff_ext; [apply (eff_loop n _ (fun ic i j => dl i r * (dl j (cl ic) * v ic)) (fun _ _ => 0))| |].
  - intros ic s' _. eapply eff_ext; [apply eff_addL| |]; intros; cbv beta; ring.
  - intros i j. cbv beta. rewrite sumn_scal. reflexivity.
  - intros i. cbv beta. apply sumn_zero; reflexivity.
Qed.
Lemma nc_scalar_eff o g m mu q s : eff s (nc_scalar o g m mu q s) (fun i j => dl i (row g) * scal_coef o g mu m j) (fun i => dl i (row g) * - nc_scalar_flux o g m mu q).
Proof.
  unfold nc_scalar. cbv zeta. eapply eff_ext.
  - eapply eff_trans; [|apply eff_cols]. eapply eff_trans; [|apply eff_cols]. eapply eff_trans; [|apply eff_cols]. eapply eff_trans; [|apply eff_cols]. apply eff_addB.
  - intros i j. cbv beta. unfold scal_coef, row. cbv zeta. ring.
  - intros i. cbv beta. unfold row. ring.
Qed.

Lemma sumn_cols N n (cl : nat -> nat) (v e : nat -> R) : (forall ic, (ic < n)%nat -> (cl ic < N)%nat) ->
  sumn N (fun j => sumn n (fun ic => dl j (cl ic) * v ic) * e j) = sumn n (fun ic => v ic * e (cl ic)).
Proof.
  intros H. rewrite (sumn_ext N _ (fun j => sumn n (fun ic => dl j (cl ic) * (v ic * e j)))).
  2:{ intros j _. rewrite <- sumn_scal_r. apply sumn_ext; intros; ring. }
  rewrite sumn_swap. apply sumn_ext. intros ic Hic. exact (sumn_dl N (cl ic) (fun j => v ic * e j) (H ic Hic)).
Qed.
Lemma scal_coef_apply N o g mu m e : point_in N g -> sumn N (fun j => scal_coef o g mu m j * e j) = nc_scalar_flux o g m mu e.
Proof.
  intros ((C1 & C2) & (O1 & O2) & _). unfold scal_coef. cbv zeta.
  rewrite (sumn_ext N _ (fun j => (((sumn (s_nf (d_c g)) (fun ic => dl j (s_node (d_c g) (s_ord (d_c g) ic)) *
    (s_r (d_c g) ic * ((face_value (d_c g) mu * inv_length o (d_c g) (cNx o g) + face_value (d_o g) mu * inv_length o (d_o g) (oNx o g)) / 2 * c_amag o g + (eta o * Rabs m + m) / 2))) * e j
    + sumn (s_npe (d_c g)) (fun ic => dl j (s_node (d_c g) ic) * (face_value (d_c g) mu * lhscd o (d_c g) (cNx o g) ic * c_amag o g / 2)) * e j)
    + sumn (s_nf (d_o g)) (fun ic => dl j (s_node (d_o g) (s_ord (d_o g) ic)) *
    (- (s_r (d_o g) ic * ((face_value (d_c g) mu * inv_length o (d_c g) (cNx o g) + face_value (d_o g) mu * inv_length o (d_o g) (oNx o g)) / 2 * c_amag o g + (eta o * Rabs m - m) / 2)))) * e j)
    + sumn (s_npe (d_o g)) (fun ic => dl j (s_node (d_o g) ic) * (- (face_value (d_o g) mu * lhscd o (d_o g) (oNx o g) ic * c_amag o g / 2))) * e j))) by (intros; ring).
  rewrite !sumn_plus, !sumn_cols by auto. unfold nc_scalar_flux. cbv zeta. rewrite !diff_flux_lhscd.
  set (muC := face_value (d_c g) mu). set (muO := face_value (d_o g) mu).
  set (pen := (muC * _ + muO * _) / 2). set (am := c_amag o g).
  rewrite (sumn_ext (s_nf (d_c g)) _ (fun ic => (pen*am + (eta o*Rabs m + m)/2) * (s_r (d_c g) ic * e (s_node (d_c g) (s_ord (d_c g) ic))))) by (intros; ring).
  rewrite (sumn_ext (s_nf (d_o g)) _ (fun ic => - (pen*am + (eta o*Rabs m - m)/2) * (s_r (d_o g) ic * e (s_node (d_o g) (s_ord (d_o g) ic))))) by (intros; ring).
  rewrite (sumn_ext (s_npe (d_c g)) (fun ic => muC * lhscd o (d_c g) (cNx o g) ic * am / 2 * e (s_node (d_c g) ic)) (fun ic => (muC*am/2) * (lhscd o (d_c g) (cNx o g) ic * e (s_node (d_c g) ic)))) by (intros; field).
  rewrite (sumn_ext (s_npe (d_o g)) (fun ic => - (muO * lhscd o (d_o g) (oNx o g) ic * am / 2) * e (s_node (d_o g) ic)) (fun ic => - (muO*am/2) * (lhscd o (d_o g) (oNx o g) ic * e (s_node (d_o g) ic)))) by (intros; field).
  rewrite !sumn_scal. fold (face_value (d_c g) e) (face_value (d_o g) e). field.
Qed.
Lemma scalar_flux_plus o g m mu q e : nc_scalar_flux o g m mu (fun k => q k + e k) = nc_scalar_flux o g m mu q + nc_scalar_flux o g m mu e.
Proof. unfold nc_scalar_flux. cbv zeta. rewrite !diff_flux_plus, !face_value_plus. field. Qed.

Lemma eff_list {A} (k : A -> esys -> esys) (M : A -> nat -> nat -> R) (b : A -> nat -> R) l :
  (forall x s, eff s (k x s) (M x) (b x)) -> forall s, eff s (fold_left (fun s x => k x s) l s) (fun i j => lsum (fun x => M x i j) l) (fun i => lsum (fun x => b x i) l).
Proof.
  intros H. induction l as [|x t IH]; intros s; cbn [fold_left].
  - eapply eff_ext; [apply eff_refl| |]; reflexivity.
  - eapply eff_ext; [eapply eff_trans; [apply H|apply IH]| |]; intros; rewrite lsum_cons; reflexivity.
Qed.
(** a system assembled from row contributions is an exact Newton system if each of them is *)
Lemma newton_list {A} N (k : (nat -> R) -> A -> esys -> esys) (r : A -> nat) (cf : A -> nat -> R) (F : A -> (nat -> R) -> R) l :
  (forall q x s, eff s (k q x s) (fun i j => dl i (r x) * cf x j) (fun i => dl i (r x) * - F x q)) ->
  (forall x q e, In x l -> F x (fun a => q a + e a) = F x q + sumn N (fun j => cf x j * e j)) ->
  exact_newton N (fun q s => fold_left (fun s x => k q x s) l s).
Proof.
  intros H1 H2 q e s i Hi.
  destruct (eff_list (k (fun a => q a + e a)) _ _ l (H1 _) s) as [E1 E2]. destruct (eff_list (k q) _ _ l (H1 q) s) as [G1 G2].
  rewrite E2, G2. rewrite (sumn_ext N _ (fun j => lsum (fun x => dl i (r x) * cf x j) l * e j)) by (intros; rewrite G1; ring).
  clear E1 E2 G1 G2. induction l as [|x t IH].
  - unfold lsum; cbn. rewrite sumn_zero by (intros; unfold lsum; cbn; ring). ring.
  - rewrite !lsum_cons. rewrite (sumn_ext N _ (fun j => dl i (r x) * (cf x j * e j) + lsum (fun x => dl i (r x) * cf x j) t * e j)) by (intros; rewrite lsum_cons; ring).
    rewrite sumn_plus, sumn_scal, (H2 x) by (left; reflexivity). specialize (IH (fun y q' e' Hy => H2 y q' e' (or_intror Hy))). lra.
Qed.
(** the assembled matrix of the whole interface is the exact sensitivity of its fluxes to the scalar *)
Theorem C79_scalar_matrix_exact N o mdot mu l : (forall g, In g l -> point_in N g) -> exact_newton N (fun q => nc_scalar_all o mdot mu q l).
Proof.
  intros Hl. unfold nc_scalar_all.
  apply (newton_list N (fun q g s => nc_scalar o g (mdot g) mu q s) row (fun g => scal_coef o g mu (mdot g)) (fun g q => nc_scalar_flux o g (mdot g) mu q)).
  - intros q g s. apply nc_scalar_eff.
  - intros g q e Hg. rewrite scalar_flux_plus, (scal_coef_apply N o g mu (mdot g) e (Hl g Hg)). reflexivity.
Qed.
(** the pure diffusion algorithm is the same without flow *)
Theorem C79_diffusion_is_transport_without_flow o g mu q s i : (forall j, eL_ (nc_diff o g mu q s) i j = eL_ (nc_scalar o g 0 mu q s) i j) /\ eB (nc_diff o g mu q s) i = eB (nc_scalar o g 0 mu q s) i.
Proof.
  destruct (nc_scalar_eff o g 0 mu q s) as [E1 E2].
  assert (D : eff s (nc_diff o g mu q s) (fun i j => dl i (row g) * scal_coef o g mu 0 j) (fun i => dl i (row g) * - nc_scalar_flux o g 0 mu q)).
  { unfold nc_diff. cbv zeta. eapply eff_ext.
    - eapply eff_trans; [|apply eff_cols]. eapply eff_trans; [|apply eff_cols]. eapply eff_trans; [|apply eff_cols]. eapply eff_trans; [|apply eff_cols]. apply eff_addB.
    - intros i' j. cbv beta. unfold scal_coef, row. cbv zeta. rewrite Rabs_R0.
      rewrite (sumn_ext (s_nf (d_c g)) (fun ic => dl j (s_node (d_c g) (s_ord (d_c g) ic)) * (s_r (d_c g) ic * ((face_value (d_c g) mu * inv_length o (d_c g) (cNx o g) + face_value (d_o g) mu * inv_length o (d_o g) (oNx o g)) / 2 * c_amag o g + (eta o * 0 + 0) / 2)))
        (fun ic => dl j (s_node (d_c g) (s_ord (d_c g) ic)) * (s_r (d_c g) ic * ((1/2) * (face_value (d_c g) mu * inv_length o (d_c g) (cNx o g) + face_value (d_o g) mu * inv_length o (d_o g) (oNx o g)) * c_amag o g)))) by (intros; field).
      rewrite (sumn_ext (s_nf (d_o g)) (fun ic => dl j (s_node (d_o g) (s_ord (d_o g) ic)) * - (s_r (d_o g) ic * ((face_value (d_c g) mu * inv_length o (d_c g) (cNx o g) + face_value (d_o g) mu * inv_length o (d_o g) (oNx o g)) / 2 * c_amag o g + (eta o * 0 - 0) / 2)))
        (fun ic => dl j (s_node (d_o g) (s_ord (d_o g) ic)) * - (s_r (d_o g) ic * ((1/2) * (face_value (d_c g) mu * inv_length o (d_c g) (cNx o g) + face_value (d_o g) mu * inv_length o (d_o g) (oNx o g)) * c_amag o g)))) by (intros; field).
      ring.
    - intros i'. cbv beta. unfold nc_scalar_flux, row. cbv zeta. rewrite Rabs_R0. field. }
  destruct D as [D1 D2]. split; [intro j; rewrite D1, E1; reflexivity|rewrite D2, E2; reflexivity].
Qed.

(* ------------------------------------------------------------------ conservation *)
Lemma mirror_amag o g g' : mirrored o g g' -> c_amag o g' = c_amag o g.
Proof. intros (_ & _ & H & _). unfold c_amag. f_equal. apply sumn_ext; intros. rewrite H by assumption. ring. Qed.
Lemma mirror_cNx o g g' : mirrored o g g' -> forall j, (j < nd o)%nat -> cNx o g' j = oNx o g j.
Proof. intros M j Hj. destruct M as (M1 & M2 & M3 & M4 & M5). rewrite M4 by exact Hj. unfold cNx. rewrite (mirror_amag o g g') by (repeat split; assumption). rewrite M3 by exact Hj. unfold Rdiv. ring. Qed.
Lemma mirror_oNx o g g' : mirrored o g g' -> forall j, (j < nd o)%nat -> oNx o g' j = cNx o g j.
Proof. intros M j Hj. pose proof (mirror_cNx o g g' M j Hj) as E. destruct M as (M1 & M2 & M3 & M4 & M5). rewrite M5, E, M4 by exact Hj. ring. Qed.
(** what leaves one side enters the other *)
Theorem C79_scalar_flux_antisymmetric o g g' m mu q : mirrored o g g' -> nc_scalar_flux o g' (- m) mu q = - nc_scalar_flux o g m mu q.
Proof.
  intros M. unfold nc_scalar_flux. cbv zeta. rewrite (mirror_amag o g g' M).
  rewrite (diff_flux_ext o _ _ _ q (mirror_cNx o g g' M)), (diff_flux_ext o _ _ _ q (mirror_oNx o g g' M)).
  rewrite (inv_length_ext o _ _ _ (mirror_cNx o g g' M)), (inv_length_ext o _ _ _ (mirror_oNx o g g' M)), Rabs_Ropp.
  destruct M as (-> & -> & _). field.
Qed.
Lemma mirror_coef o g g' m mu j : mirrored o g g' -> scal_coef o g' mu (- m) j = - scal_coef o g mu m j.
Proof.
  intros M. unfold scal_coef. cbv zeta. rewrite (mirror_amag o g g' M).
  rewrite (inv_length_ext o _ _ _ (mirror_cNx o g g' M)), (inv_length_ext o _ _ _ (mirror_oNx o g g' M)), Rabs_Ropp.
  rewrite (sumn_ext (s_npe (d_c g')) _ (fun ic => dl j (s_node (d_c g') ic) * (face_value (d_c g') mu * lhscd o (d_c g') (oNx o g) ic * c_amag o g / 2)))
    by (intros; rewrite (lhscd_ext o _ _ _ _ (mirror_cNx o g g' M)); reflexivity).
  rewrite (sumn_ext (s_npe (d_o g')) _ (fun ic => dl j (s_node (d_o g') ic) * - (face_value (d_o g') mu * lhscd o (d_o g') (cNx o g) ic * c_amag o g / 2)))
    by (intros; rewrite (lhscd_ext o _ _ _ _ (mirror_oNx o g g' M)); reflexivity).
  destruct M as (-> & -> & _).
  rewrite !Ropp_plus_distr, <- !sumn_opp.
  set (P := _ * inv_length _ _ _ + _). set (P' := _ * inv_length _ _ _ + _).
  assert (EP : P' = P) by (unfold P, P'; ring). rewrite EP.
  assert (S4 : forall a b c d a' b' c' d', a = c' -> b = d' -> c = a' -> d = b' -> a + b + c + d = a' + b' + c' + d') by (intros; subst; ring).
  apply S4; apply sumn_ext; intros; field.
Qed.
(** a list of points that come in mirrored pairs *)
Fixpoint paired (o : ncopt) (mdot : dg -> R) (l : list dg) : Prop :=
  match l with
  | g :: g' :: t => mirrored o g g' /\ mdot g' = - mdot g /\ paired o mdot t
  | [] => True
  | _ => False end.
Lemma sumn_row N (r : nat) (v : R) : (r < N)%nat -> sumn N (fun i => dl i r * v) = v.
Proof. intros H. exact (sumn_dl N r (fun _ => v) H). Qed.
Lemma pair_induction (P : list dg -> Prop) : P [] -> (forall a, P [a]) -> (forall a b t, P t -> P (a :: b :: t)) -> forall l, P l.
Proof. intros H0 H1 H2. fix IH 1. intros [|a [|b t]]; [apply H0|apply H1|apply H2, IH]. Qed.
Lemma conservative_list {A} N (k : A -> esys -> esys) (r : A -> nat) (cf : A -> nat -> R) (F : A -> R) l :
  (forall x s, eff s (k x s) (fun i j => dl i (r x) * cf x j) (fun i => dl i (r x) * F x)) ->
  (forall x, In x l -> (r x < N)%nat) -> lsum F l = 0 -> (forall j, lsum (fun x => cf x j) l = 0) ->
  conservative N (fun s => fold_left (fun s x => k x s) l s).
Proof.
  intros H1 H2 H3 H4 s. destruct (eff_list k _ _ l H1 s) as [E1 E2].
  assert (Q : forall (f : A -> R) , sumn N (fun i => lsum (fun x => dl i (r x) * f x) l) = lsum f l).
  { clear - H2. intros f. induction l as [|x t IH]; [unfold lsum; cbn; apply sumn_zero; reflexivity|].
    rewrite (sumn_ext N _ (fun i => dl i (r x) * f x + lsum (fun x => dl i (r x) * f x) t)) by (intros; rewrite lsum_cons; reflexivity).
    rewrite sumn_plus, sumn_row, lsum_cons, IH by (intros; apply H2; cbn; auto). reflexivity. }
  split.
  - rewrite (sumn_ext N _ (fun i => eB s i + lsum (fun x => dl i (r x) * F x) l)) by (intros; apply E2).
    rewrite sumn_plus, Q, H3. ring.
  - intro j. rewrite (sumn_ext N _ (fun i => eL_ s i j + lsum (fun x => dl i (r x) * cf x j) l)) by (intros; apply E1).
    rewrite sumn_plus, Q, H4. ring.
Qed.
(** on matching interfaces the assembled transport conserves the scalar globally *)
Theorem C79_scalar_conservative N o mdot mu q l l' : Permutation l l' -> paired o mdot l' -> (forall g, In g l -> point_in N g) -> conservative N (nc_scalar_all o mdot mu q l).
Proof.
  intros P Hp Hl. unfold nc_scalar_all.
  apply (conservative_list N (fun g s => nc_scalar o g (mdot g) mu q s) row (fun g => scal_coef o g mu (mdot g)) (fun g => - nc_scalar_flux o g (mdot g) mu q)).
  - intros g s. apply nc_scalar_eff.
  - intros g Hg. destruct (Hl g Hg) as ((H1 & _) & _ & H3). unfold row. auto.
  - rewrite (lsum_perm _ _ _ P). clear - Hp. revert Hp. induction l' as [|a|a b t IH] using pair_induction; [reflexivity|intros []|].
    intros (M & E & Hp). rewrite !lsum_cons, (IH Hp), E, (C79_scalar_flux_antisymmetric o a b (mdot a) mu q M). ring.
  - intro j. rewrite (lsum_perm _ _ _ P). clear - Hp. revert Hp. induction l' as [|a|a b t IH] using pair_induction; [reflexivity|intros []|].
    intros (M & E & Hp). rewrite !lsum_cons, (IH Hp), E, (mirror_coef o a b (mdot a) mu j M). ring.
Qed.
