(** C79, momentum, volume of fluid, nodal gradients, and interfaces whose Gauss points do not match. *)
Require Import Reals List Bool Arith Lra Lia Permutation.
From Verif Require Import Edge_Model Edge_Proofs Sum_Proofs Elem_Model Elem_Spec Elem_Proofs Elem_Proofs2 Elem_Proofs3 NC_Model NC_Props NC_Props2.
Import ListNotations.
Open Scope R_scope.

(* ------------------------------------------------------------------ non-matching points *)
Lemma total_rhs {A} N (k : A -> esys -> esys) (r : A -> nat) (M : A -> nat -> nat -> R) (F : A -> R) l s :
  (forall x s, eff s (k x s) (M x) (fun i => dl i (r x) * F x)) -> (forall x, In x l -> (r x < N)%nat) ->
  sumn N (eB (fold_left (fun s x => k x s) l s)) = sumn N (eB s) + lsum F l.
Proof.
  intros H1 H2. destruct (eff_list k _ _ l H1 s) as [_ E2].
  rewrite (sumn_ext N _ (fun i => eB s i + lsum (fun x => dl i (r x) * F x) l)) by (intros; apply E2).
  rewrite sumn_plus. f_equal. clear - H2. induction l as [|x t IH]; [unfold lsum; cbn; apply sumn_zero; reflexivity|].
  rewrite (sumn_ext N _ (fun i => dl i (r x) * F x + lsum (fun x => dl i (r x) * F x) t)) by (intros; rewrite lsum_cons; reflexivity).
  rewrite sumn_plus, sumn_row, lsum_cons, IH by (intros; apply H2; cbn; auto). reflexivity.
Qed.
(** current face: the segment (0,0)-(0,1) with one point; opposing: two faces of half the length, one point each.
    nodes 3 (0,0), 4 (1,0), 5 (0,1/2), 6 (1,1/2), 7 (0,1) *)
Definition nm_d (ic j : nat) : R := match ic, j with 0%nat, 0%nat => -1 | 0%nat, 1%nat => -2 | 1%nat, 0%nat => 1 | 2%nat, 1%nat => 2 | _, _ => 0 end.
Definition nm_ord (i : nat) : nat := match i with 0%nat => 0 | _ => 2 end.
Definition nm_n (j : nat) : R := match j with 0%nat => -1 | _ => 0 end.
Definition nm_low (r : nat -> R) : side := mkSide 3 (fun i => (i+3)%nat) 2 nm_ord r nm_d nm_n.
Definition nm_high (r : nat -> R) : side := mkSide 3 (fun i => (i+5)%nat) 2 nm_ord r nm_d nm_n.
Definition nm_cur (r : nat -> R) : side := mkSide 3 (fun i => i) 2 (fun i => match i with 0%nat => 1%nat | _ => 2%nat end) r ex_dc (fun j => match j with 0%nat => 1 | _ => 0 end).
Definition r2 (a b : R) (i : nat) : R := match i with 0%nat => a | _ => b end.
Definition nm_points : list dg :=
  [ mkDg (nm_cur (r2 (1/2) (1/2))) (nm_low (r2 0 1)) 1 ex_A
  ; mkDg (nm_low (r2 (1/2) (1/2))) (nm_cur (r2 (3/4) (1/4))) 0 (fun j => - ex_A j / 2)
  ; mkDg (nm_high (r2 (1/2) (1/2))) (nm_cur (r2 (1/4) (3/4))) 2 (fun j => - ex_A j / 2) ].
(** flow from the opposing side at unit speed: mass flow rate = - (current normal component of area) *)
Definition nm_mdot (g : dg) : R := - d_A g 0%nat.
Theorem C79_nonmatching_points_conserve_refuted :
  exists o mdot mu q l, (forall g, In g l -> point_in 8 g) /\ (forall j, lsum (fun g => d_A g j) l = 0) /\ lsum mdot l = 0 /\ ~ conservative 8 (nc_scalar_all o mdot mu q l).
Proof.
  exists ex_o, nm_mdot, (fun _ => 0), (fun k => if Nat.eqb k 5 then 1 else 0), nm_points.
  assert (Hp : forall g, In g nm_points -> point_in 8 g).
  { intros g [<-|[<-|[<-|[]]]]; repeat split; cbn; try lia; intros [|[|[|ic]]] H; cbn; lia. }
  split; [exact Hp|]. split; [intros [|j]; unfold lsum; cbn; field|]. split; [unfold lsum, nm_mdot; cbn; field|].
  intros C. destruct (C (mkE (fun _ _ => 0) (fun _ => 0))) as [C1 _]. revert C1. unfold nc_scalar_all.
  rewrite (total_rhs 8 (fun g s => nc_scalar ex_o g (nm_mdot g) (fun _ => 0) (fun k => if Nat.eqb k 5 then 1 else 0) s) row
      (fun g i j => dl i (row g) * scal_coef ex_o g (fun _ => 0) (nm_mdot g) j) (fun g => - nc_scalar_flux ex_o g (nm_mdot g) (fun _ => 0) (fun k => if Nat.eqb k 5 then 1 else 0))).
  - unfold nm_points. rewrite !lsum_cons. unfold lsum at 1. cbn [fold_right map].
    rewrite !C79_upwind_carries_upstream_value by reflexivity. cbn [d_A nm_mdot].
    intro E. unfold nm_mdot in E. cbn [d_A ex_A] in E.
    destruct (Rlt_dec 0 (-(1))); [lra|]. destruct (Rlt_dec 0 (- (-(1)/2))); [|lra].
    revert E. unfold face_value. cbn. lra.
  - intros g s. apply nc_scalar_eff.
  - intros g Hg. destruct (Hp g Hg) as ((H1 & _) & _ & H3). unfold row. auto.
Qed.

(* ------------------------------------------------------------------ volume of fluid *)
Definition vof_flux (g : dg) (m : R) (q : nat -> R) : R := m*(face_value (d_c g) q + face_value (d_o g) q)/2 + Rabs m*(face_value (d_c g) q - face_value (d_o g) q)/2.
Definition vof_coef (o : ncopt) (g : dg) (m : R) (j : nat) : R :=
  sumn (s_nf (d_c g)) (fun ic => dl j (s_node (d_c g) (s_ord (d_c g) ic)) * (s_r (d_c g) ic * ((eta o*Rabs m + m)/2))) +
  sumn (s_nf (d_o g)) (fun ic => dl j (s_node (d_o g) (s_ord (d_o g) ic)) * (- (s_r (d_o g) ic * ((eta o*Rabs m - m)/2)))).
Lemma nc_vof_eff o g m q s : eff s (nc_vof o g m q s) (fun i j => dl i (row g) * vof_coef o g m j) (fun i => dl i (row g) * - vof_flux g m q).
Proof.
  unfold nc_vof. cbv zeta. eapply eff_ext.
  - eapply eff_trans; [|apply eff_cols]. eapply eff_trans; [|apply eff_cols]. apply eff_addB.
  - intros i j. cbv beta. unfold vof_coef, row. ring.
  - intros i. cbv beta. unfold row, vof_flux. ring.
Qed.
Lemma vof_apply N o g m e : point_in N g -> sumn N (fun j => vof_coef o g m j * e j) = (eta o*Rabs m + m)/2*face_value (d_c g) e - (eta o*Rabs m - m)/2*face_value (d_o g) e.
Proof.
  intros ((C1 & C2) & (O1 & O2) & _). unfold vof_coef.
  rewrite (sumn_ext N _ (fun j => sumn (s_nf (d_c g)) (fun ic => dl j (s_node (d_c g) (s_ord (d_c g) ic)) * (s_r (d_c g) ic * ((eta o*Rabs m + m)/2))) * e j
    + sumn (s_nf (d_o g)) (fun ic => dl j (s_node (d_o g) (s_ord (d_o g) ic)) * (- (s_r (d_o g) ic * ((eta o*Rabs m - m)/2)))) * e j)) by (intros; ring).
  rewrite sumn_plus, !sumn_cols by auto.
  rewrite (sumn_ext (s_nf (d_c g)) _ (fun ic => ((eta o*Rabs m + m)/2) * (s_r (d_c g) ic * e (s_node (d_c g) (s_ord (d_c g) ic))))) by (intros; ring).
  rewrite (sumn_ext (s_nf (d_o g)) _ (fun ic => - ((eta o*Rabs m - m)/2) * (s_r (d_o g) ic * e (s_node (d_o g) (s_ord (d_o g) ic))))) by (intros; ring).
  rewrite !sumn_scal. fold (face_value (d_c g) e) (face_value (d_o g) e). ring.
Qed.
(** the volume-of-fluid residual carries the upstream volume fraction; its matrix is exact with upwinding switched on *)
Theorem C79_vof_upwind o g m q s : eB (nc_vof o g m q s) (row g) = eB s (row g) - (if Rlt_dec 0 m then m * face_value (d_c g) q else m * face_value (d_o g) q).
Proof.
  destruct (nc_vof_eff o g m q s) as [_ E]. rewrite E. unfold dl. rewrite Nat.eqb_refl. unfold vof_flux.
  destruct (Rlt_dec 0 m); [rewrite Rabs_right by lra|rewrite Rabs_left1 by lra]; field.
Qed.
Theorem C79_vof_matrix_exact_when_upwinded N o g m : eta o = 1 -> point_in N g -> exact_newton N (fun q => nc_vof o g m q).
Proof.
  intros He Hp q e s i Hi. destruct (nc_vof_eff o g m (fun a => q a + e a) s) as [_ E2]. destruct (nc_vof_eff o g m q s) as [G1 G2].
  rewrite E2, G2. rewrite (sumn_ext N _ (fun j => dl i (row g) * (vof_coef o g m j * e j))) by (intros; rewrite G1; ring).
  rewrite sumn_scal, (vof_apply N) by exact Hp. rewrite He. unfold vof_flux. rewrite !face_value_plus. field.
Qed.
(** ... and wrong without it: the residual is upwinded all the same *)
Theorem C79_vof_matrix_exact_refuted : exists N o g m, point_in N g /\ eta o = 0 /\ ~ exact_newton N (fun q => nc_vof o g m q).
Proof.
  exists 6%nat, (mkNc 2 0 true), ex_g, 1. split; [apply C79_hypotheses_met|]. split; [reflexivity|]. intros C.
  specialize (C (fun _ => 0) (fun k => if Nat.ltb k 3 then 1 else 0) (mkE (fun _ _ => 0) (fun _ => 0)) 1%nat ltac:(lia)). revert C.
  destruct (nc_vof_eff (mkNc 2 0 true) ex_g 1 (fun a => 0 + (if Nat.ltb a 3 then 1 else 0)) (mkE (fun _ _ => 0) (fun _ => 0))) as [_ E2].
  destruct (nc_vof_eff (mkNc 2 0 true) ex_g 1 (fun _ => 0) (mkE (fun _ _ => 0) (fun _ => 0))) as [G1 G2].
  rewrite E2, G2. rewrite (sumn_ext 6 _ (fun j => vof_coef (mkNc 2 0 true) ex_g 1 j * (if Nat.ltb j 3 then 1 else 0))) by (intros; rewrite G1; unfold dl, row; cbn [ex_g d_c s_node ex_c d_nn]; rewrite Nat.eqb_refl; cbn [eL_]; ring).
  rewrite (vof_apply 6 (mkNc 2 0 true) ex_g 1 (fun j => if Nat.ltb j 3 then 1 else 0)) by apply C79_hypotheses_met.
  unfold vof_flux, face_value, dl, row. cbn. rewrite Rabs_R1. lra.
Qed.

(* ------------------------------------------------------------------ nodal gradients *)
(** the face contribution to a nodal gradient is exact on linear fields, and what one side adds (volume-weighted) the other removes *)
Theorem C79_nodal_gradient_linear o g X xg a b vol fn j : sees (nd o) X (d_c g) xg -> sees (nd o) X (d_o g) xg -> vol fn <> 0 ->
  vol fn * nc_grad g vol fn (fun k => linear (nd o) a b (X k)) j = linear (nd o) a b xg * d_A g j.
Proof.
  intros Hc Ho Hv. unfold nc_grad. cbv zeta. rewrite (face_value_linear _ _ _ _ _ _ Hc), (face_value_linear _ _ _ _ _ _ Ho). field. exact Hv.
Qed.
Theorem C79_nodal_gradient_conservative o g g' vol fn fn' q j : mirrored o g g' -> (j < nd o)%nat -> vol fn <> 0 -> vol fn' <> 0 ->
  vol fn * nc_grad g vol fn q j + vol fn' * nc_grad g' vol fn' q j = 0.
Proof.
  intros (M1 & M2 & M3 & _) Hj H1 H2. unfold nc_grad. cbv zeta. rewrite M1, M2, M3 by exact Hj. field. split; assumption.
Qed.

(** *** projected nodal gradient with the jump penalty (nc_alg png_penalty option) *)
Definition png_pen (o : ncopt) (g : dg) : R := (1/2)*(1/inv_length o (d_c g) (cNx o g) + 1/inv_length o (d_o g) (oNx o g)).
Definition Gi (o : ncopt) (G : nat -> R) (i k : nat) : R := G (k*nd o + i)%nat.
Definition png_res (o : ncopt) (g : dg) (pf : R) (q G : nat -> R) (i : nat) : R :=
  (1/2)*(face_value (d_c g) q + face_value (d_o g) q) * d_A g i + png_pen o g * pf * (face_value (d_c g) (Gi o G i) - face_value (d_o g) (Gi o G i)) * c_amag o g.
Definition png_coef (o : ncopt) (g : dg) (pf : R) (i j : nat) : R :=
  sumn (s_nf (d_c g)) (fun ic => dl j (s_node (d_c g) (s_ord (d_c g) ic)*nd o+i) * (- (s_r (d_c g) ic * (png_pen o g*pf*c_amag o g)))) +
  sumn (s_nf (d_o g)) (fun ic => dl j (s_node (d_o g) (s_ord (d_o g) ic)*nd o+i) * (s_r (d_o g) ic * (png_pen o g*pf*c_amag o g))).
Definition rowv (o : ncopt) (g : dg) (i : nat) : nat := (row g * nd o + i)%nat.
Lemma nc_png_eff o g pf q G s : eff s (nc_png o g pf q G s) (fun i' j => sumn (nd o) (fun i => dl i' (rowv o g i) * png_coef o g pf i j)) (fun i' => sumn (nd o) (fun i => dl i' (rowv o g i) * png_res o g pf q G i)).
Proof.
  unfold nc_png. cbv zeta.
  apply (eff_loop (nd o) _ (fun i i' j => dl i' (rowv o g i) * png_coef o g pf i j) (fun i i' => dl i' (rowv o g i) * png_res o g pf q G i)).
  intros i s' Hi. eapply eff_ext.
  - eapply eff_trans; [|apply eff_cols]. eapply eff_trans; [|apply eff_cols]. apply eff_addB.
  - intros i' j. cbv beta. unfold png_coef, rowv, row, png_pen. ring.
  - intros i'. cbv beta. unfold png_res, rowv, row, png_pen, Gi. ring.
Qed.
Lemma row_pick_vec o g i0 (f : nat -> R) : (i0 < nd o)%nat -> sumn (nd o) (fun i => dl (rowv o g i0) (rowv o g i) * f i) = f i0.
Proof.
  intros H. rewrite (sumn_ext _ _ (fun i => dl i i0 * f i)); [apply sumn_dl, H|]. intros i Hi. f_equal. unfold dl, rowv.
  destruct (Nat.eqb_spec i i0) as [->|Hne]; [now rewrite Nat.eqb_refl|]. destruct (Nat.eqb_spec (row g * nd o + i0) (row g * nd o + i)); [lia|reflexivity].
Qed.
(** linear scalar, uniform gradient: no penalty, exact boundary term *)
Theorem C79_png_linear o g X xg a b G pf i s : sees (nd o) X (d_c g) xg -> sees (nd o) X (d_o g) xg -> (i < nd o)%nat ->
  eB (nc_png o g pf (fun k => linear (nd o) a b (X k)) (fun _ => G) s) (row g * nd o + i)%nat = eB s (row g * nd o + i)%nat + linear (nd o) a b xg * d_A g i.
Proof.
  intros Hc Ho Hi. destruct (nc_png_eff o g pf (fun k => linear (nd o) a b (X k)) (fun _ => G) s) as [_ E]. rewrite E. f_equal.
  change (row g * nd o + i)%nat with (rowv o g i). rewrite row_pick_vec by exact Hi.
  unfold png_res, Gi. rewrite (face_value_linear _ _ _ _ _ _ Hc), (face_value_linear _ _ _ _ _ _ Ho), (face_value_const _ _ _ _ _ Hc), (face_value_const _ _ _ _ _ Ho). field.
Qed.
Lemma sum2 f : sumn 2 f = f 0%nat + f 1%nat.
Proof. cbn. ring. Qed.
Lemma flat_in N d k i : (k < N)%nat -> (i < d)%nat -> (k*d+i < N*d)%nat.
Proof. intros. nia. Qed.
Lemma png_apply N o g pf i e : point_in N g -> (i < nd o)%nat ->
  sumn (N*nd o) (fun j => png_coef o g pf i j * e j) = - (png_pen o g*pf*c_amag o g*(face_value (d_c g) (Gi o e i) - face_value (d_o g) (Gi o e i))).
Proof.
  intros ((C1 & C2) & (O1 & O2) & _) Hi. unfold png_coef. set (F := png_pen o g*pf*c_amag o g).
  rewrite (sumn_ext (N*nd o) _ (fun j => sumn (s_nf (d_c g)) (fun ic => dl j (s_node (d_c g) (s_ord (d_c g) ic)*nd o+i) * (- (s_r (d_c g) ic * F))) * e j
    + sumn (s_nf (d_o g)) (fun ic => dl j (s_node (d_o g) (s_ord (d_o g) ic)*nd o+i) * (s_r (d_o g) ic * F)) * e j)) by (intros; ring).
  rewrite sumn_plus, !sumn_cols by (intros; apply flat_in; auto).
  rewrite (sumn_ext (s_nf (d_c g)) _ (fun ic => - F * (s_r (d_c g) ic * Gi o e i (s_node (d_c g) (s_ord (d_c g) ic))))) by (intros; unfold Gi; ring).
  rewrite (sumn_ext (s_nf (d_o g)) _ (fun ic => F * (s_r (d_o g) ic * Gi o e i (s_node (d_o g) (s_ord (d_o g) ic))))) by (intros; unfold Gi; ring).
  rewrite !sumn_scal. fold (face_value (d_c g) (Gi o e i)) (face_value (d_o g) (Gi o e i)). ring.
Qed.
(** the matrix is the exact sensitivity of the penalised residual ... *)
Theorem C79_png_matrix_exact N o g pf q : point_in N g -> exact_newton (N * nd o) (fun G => nc_png o g pf q G).
Proof.
  intros Hp G e s i' Hi'. destruct (nc_png_eff o g pf q (fun a => G a + e a) s) as [_ E2]. destruct (nc_png_eff o g pf q G s) as [G1 G2].
  rewrite E2, G2. rewrite (sumn_ext (N*nd o) _ (fun j => sumn (nd o) (fun i => dl i' (rowv o g i) * (png_coef o g pf i j * e j)))).
  2:{ intros j _. rewrite G1. replace (eL_ s i' j + _ - eL_ s i' j) with (sumn (nd o) (fun i => dl i' (rowv o g i) * png_coef o g pf i j)) by ring.
      rewrite <- sumn_scal_r. apply sumn_ext; intros; ring. }
  rewrite sumn_swap. unfold Rminus. rewrite Rplus_assoc. f_equal. rewrite <- sumn_opp, <- sumn_plus. apply sumn_ext. intros i Hi.
  rewrite sumn_scal, (png_apply N) by assumption. unfold png_res.
  assert (EG : forall s', face_value s' (Gi o (fun a => G a + e a) i) = face_value s' (Gi o G i) + face_value s' (Gi o e i)) by (intro; apply (face_value_plus s' (Gi o G i) (Gi o e i))).
  rewrite !EG. ring.
Qed.
(** ... but its sign amplifies the jump it is meant to remove: on a concrete interface (two triangles, lumped volumes 1/6) the matrix of the
    projected-gradient system, volumes plus interface terms of the two sides, is not positive: v.(V + L)v < 0 *)
Theorem C79_png_penalty_stabilises_refuted :
  exists o g g' X xg V v, mirrored o g g' /\ sees (nd o) X (d_c g) xg /\ sees (nd o) X (d_o g) xg /\ 0 < inv_length o (d_c g) (cNx o g) /\ 0 < inv_length o (d_o g) (oNx o g) /\ 0 < V /\
    let L := nc_png o g' 1 (fun _ => 0) (fun _ => 0) (nc_png o g 1 (fun _ => 0) (fun _ => 0) (mkE (fun _ _ => 0) (fun _ => 0))) in
    sumn 12 (fun i => v i * (V * v i + sumn 12 (fun j => eL_ L i j * v j))) < 0.
Proof.
  set (v := fun k => if Nat.even k then (if Nat.ltb k 6 then 1 else -1) else 0).
  exists ex_o, ex_g, ex_g', ex_X, ex_xg, (1/6), v.
  destruct C79_hypotheses_met as (H1 & H2 & H3 & H4 & H5 & H6 & H7 & _).
  assert (I1 : inv_length ex_o (d_c ex_g) (cNx ex_o ex_g) = 1) by (unfold inv_length, cNx; rewrite ex_amag; cbn; field).
  assert (I2 : inv_length ex_o (d_o ex_g) (oNx ex_o ex_g) = 1) by (unfold inv_length, oNx, cNx; rewrite ex_amag; cbn; field).
  assert (I3 : inv_length ex_o (d_c ex_g') (cNx ex_o ex_g') = 1) by (unfold inv_length, cNx; rewrite ex_amag'; cbn; field).
  assert (I4 : inv_length ex_o (d_o ex_g') (oNx ex_o ex_g') = 1) by (unfold inv_length, oNx, cNx; rewrite ex_amag'; cbn; field).
  split; [exact H5|]. split; [exact H1|]. split; [exact H2|]. rewrite I1, I2. do 3 (split; [lra|]).
  intros L.
  assert (E : forall i j, eL_ L i j = sumn 2 (fun c => dl i (rowv ex_o ex_g c) * png_coef ex_o ex_g 1 c j) + sumn 2 (fun c => dl i (rowv ex_o ex_g' c) * png_coef ex_o ex_g' 1 c j)).
  { intros i j. unfold L. destruct (nc_png_eff ex_o ex_g' 1 (fun _ => 0) (fun _ => 0) (nc_png ex_o ex_g 1 (fun _ => 0) (fun _ => 0) (mkE (fun _ _ => 0) (fun _ => 0)))) as [A1 _].
    rewrite A1. destruct (nc_png_eff ex_o ex_g 1 (fun _ => 0) (fun _ => 0) (mkE (fun _ _ => 0) (fun _ => 0))) as [A2 _]. rewrite A2. cbn [eL_ nd ex_o]. ring. }
  clearbody L.
  rewrite (sumn_ext 12 _ (fun i => v i * (1/6 * v i) + (sumn 2 (fun c => v i * (dl i (rowv ex_o ex_g c) * sumn 12 (fun j => png_coef ex_o ex_g 1 c j * v j))) + sumn 2 (fun c => v i * (dl i (rowv ex_o ex_g' c) * sumn 12 (fun j => png_coef ex_o ex_g' 1 c j * v j)))))).
  2:{ intros i _. rewrite (sumn_ext 12 (fun j => eL_ L i j * v j) (fun j => (dl i (rowv ex_o ex_g 0) * (png_coef ex_o ex_g 1 0 j * v j) + dl i (rowv ex_o ex_g 1) * (png_coef ex_o ex_g 1 1 j * v j)) + (dl i (rowv ex_o ex_g' 0) * (png_coef ex_o ex_g' 1 0 j * v j) + dl i (rowv ex_o ex_g' 1) * (png_coef ex_o ex_g' 1 1 j * v j)))).
      - rewrite !sumn_plus, !sumn_scal, !sum2. ring.
      - intros j _. rewrite E, !sum2. ring. }
  change 12%nat with (6 * nd ex_o)%nat.
  assert (P1 : forall c, (c < 2)%nat -> sumn (6 * nd ex_o) (fun j => png_coef ex_o ex_g 1 c j * v j) = if Nat.eqb c 0 then -2 else 0).
  { intros c Hc. rewrite png_apply by assumption. unfold png_pen. rewrite I1, I2, ex_amag. destruct c as [|[|c]]; [| |lia]; unfold face_value, Gi, v; cbn; field. }
  assert (P2 : forall c, (c < 2)%nat -> sumn (6 * nd ex_o) (fun j => png_coef ex_o ex_g' 1 c j * v j) = if Nat.eqb c 0 then 2 else 0).
  { intros c Hc. rewrite png_apply by assumption. unfold png_pen. rewrite I3, I4, ex_amag'. destruct c as [|[|c]]; [| |lia]; unfold face_value, Gi, v; cbn; field. }
  rewrite (sumn_ext (6 * nd ex_o) _ (fun i => v i * (1/6 * v i) + (v i * (dl i (rowv ex_o ex_g 0) * -2) + v i * (dl i (rowv ex_o ex_g' 0) * 2)))).
  2:{ intros i _. rewrite !sum2, !P1, !P2 by lia. cbn [Nat.eqb]. ring. }
  unfold v, dl, rowv, row. cbn. lra.
Qed.
