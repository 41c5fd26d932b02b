(** * C101: the pressure equation of the volume-of-fluid method across a non-conformal interface *)
From Coq Require Import Reals List Bool Lra Lia Arith Permutation.
From Verif Require Import Edge_Model Edge_Proofs Sum_Proofs Elem_Model Elem_Spec Elem_Proofs Elem_Proofs2 Turb_Model Vof_Model NC_Model NC_Props NC_Props2 VofFlow_Model.
Import ListNotations.
Open Scope R_scope.

Definition vcoef (o : ncopt) (w : vopts) (g : dg) (f : vfields) (j : nat) : R :=
  let c := d_c g in let op := d_o g in
  let F := nc_penalty o w g f*c_amag o g/o_tau w in
  sumn (s_nf c) (fun ic => dl j (s_node c (s_ord c ic)) * (s_r c ic * F)) +
  sumn (s_npe c) (fun ic => dl j (s_node c ic) * (1/2*lhscd o c (cNx o g) ic*c_amag o g/face_value c (v_rho f)*o_ps w)) +
  sumn (s_nf op) (fun ic => dl j (s_node op (s_ord op ic)) * (- (s_r op ic * F))) +
  sumn (s_npe op) (fun ic => dl j (s_node op ic) * (- (1/2*lhscd o op (oNx o g) ic*c_amag o g/face_value op (v_rho f)*o_ps w))).
Lemma nc_cont_vof_eff o w g f s : eff s (nc_cont_vof o w g f s) (fun i j => dl i (row g) * vcoef o w g f j) (fun i => dl i (row g) * - (nc_vdot o w g f / o_tau w)).
Proof.
  unfold nc_cont_vof. cbv zeta. eapply eff_ext.
  - eapply eff_trans; [|apply eff_cols]. eapply eff_trans; [|apply eff_cols]. eapply eff_trans; [|apply eff_cols]. eapply eff_trans; [|apply eff_cols]. apply eff_addB.
  - intros i j. cbv beta. unfold vcoef, row. cbv zeta. ring.
  - intros i. cbv beta. unfold row. ring.
Qed.
(** the pressure equation of the point's node balances exactly the volume flow rate stored for the point; the stored mass
    flow rate is the mean density of the two sides times it *)
Theorem C101_interface_residual_is_stored_flow : forall o w g f s i,
  eB (nc_cont_vof o w g f s) i = eB s i - (if Nat.eqb i (row g) then fst (stored_interface o w g f) / o_tau w else 0)
  /\ snd (stored_interface o w g f) = fst (stored_interface o w g f) * ((face_value (d_c g) (v_rho f) + face_value (d_o g) (v_rho f)) / 2).
Proof.
  intros o w g f s i. split.
  - destruct (nc_cont_vof_eff o w g f s) as [_ E]. rewrite E. unfold dl, stored_interface. cbn [fst]. destruct (Nat.eqb i (row g)); ring.
  - unfold stored_interface, nc_density. cbn [fst snd]. f_equal. field.
Qed.

(** force imbalance over density seen from one side *)
Definition pstab_n (o : ncopt) (w : vopts) (f : vfields) (s : side) (n : nat -> R) : R := dot (nd o) (nc_pstab w f s) n.
Lemma vdot_split o w g f : nc_vdot o w g f =
  ((1/2*(dot (nd o) (fun j => face_value (d_c g) (fun k => v_u f k j)) (cNx o g) - dot (nd o) (fun j => face_value (d_o g) (fun k => v_u f k j)) (oNx o g))
    - o_mm w * dot (nd o) (fun j => face_value (d_c g) (fun k => v_mesh f k j)) (cNx o g))
   - o_ps w*o_tau w*(1/2*(pstab_n o w f (d_c g) (cNx o g) - pstab_n o w f (d_o g) (oNx o g)))
   + nc_penalty o w g f*(face_value (d_c g) (v_p f) - face_value (d_o g) (v_p f)))*c_amag o g.
Proof.
  unfold nc_vdot, pstab_n. cbv zeta. f_equal. f_equal. f_equal.
  - unfold dot. rewrite <- !sumn_minus, <- !sumn_scal, <- sumn_minus. apply sumn_ext; intros. ring.
  - f_equal. unfold dot. rewrite <- !sumn_minus, <- !sumn_scal. apply sumn_ext; intros. ring.
Qed.
Definition with_p (f : vfields) (p : nat -> R) : vfields := mkVf p (v_rho f) (v_vof f) (v_sk f) (v_u f) (v_mesh f) (v_G f).
Lemma pstab_plus o w f s n p e : face_value s (v_rho f) <> 0 ->
  pstab_n o w (with_p f (fun a => p a + e a)) s n = pstab_n o w (with_p f p) s n - diff_flux o s n e / face_value s (v_rho f).
Proof.
  intros Hr. rewrite diff_flux_grad. unfold pstab_n. unfold dot at 1 2 3. unfold Rdiv. rewrite <- sumn_opp, <- sumn_scal_r, <- sumn_minus.
  apply sumn_ext. intros j _. unfold nc_pstab, nc_sk, with_p. cbn [v_p v_rho v_vof v_sk v_G]. rewrite grad_plus. field. assumption.
Qed.
Lemma vcoef_apply N o w g f e : o_tau w <> 0 -> point_in N g ->
  sumn N (fun j => vcoef o w g f j * e j) =
  nc_penalty o w g f*c_amag o g/o_tau w*(face_value (d_c g) e - face_value (d_o g) e)
  + 1/2*o_ps w*c_amag o g*(diff_flux o (d_c g) (cNx o g) e/face_value (d_c g) (v_rho f) - diff_flux o (d_o g) (oNx o g) e/face_value (d_o g) (v_rho f)).
Proof.
  intros Ht ((C1 & C2) & (O1 & O2) & _). unfold vcoef. cbv zeta. set (F := nc_penalty o w g f*_/o_tau w). set (am := c_amag o g).
  set (rc := face_value (d_c g) (v_rho f)). set (ro := face_value (d_o g) (v_rho f)).
  rewrite (sumn_ext N _ (fun j => ((sumn (s_nf (d_c g)) (fun ic => dl j (s_node (d_c g) (s_ord (d_c g) ic)) * (s_r (d_c g) ic * F)) * e j
    + sumn (s_npe (d_c g)) (fun ic => dl j (s_node (d_c g) ic) * (1/2*lhscd o (d_c g) (cNx o g) ic*am/rc*o_ps w)) * e j)
    + sumn (s_nf (d_o g)) (fun ic => dl j (s_node (d_o g) (s_ord (d_o g) ic)) * (- (s_r (d_o g) ic * F))) * e j)
    + sumn (s_npe (d_o g)) (fun ic => dl j (s_node (d_o g) ic) * (- (1/2*lhscd o (d_o g) (oNx o g) ic*am/ro*o_ps w))) * e j)) by (intros; ring).
  rewrite !sumn_plus, !sumn_cols by auto. rewrite !diff_flux_lhscd.
  rewrite (sumn_ext (s_nf (d_c g)) _ (fun ic => F * (s_r (d_c g) ic * e (s_node (d_c g) (s_ord (d_c g) ic))))) by (intros; ring).
  rewrite (sumn_ext (s_nf (d_o g)) _ (fun ic => - F * (s_r (d_o g) ic * e (s_node (d_o g) (s_ord (d_o g) ic))))) by (intros; ring).
  rewrite (sumn_ext (s_npe (d_c g)) (fun ic => 1/2*lhscd o (d_c g) (cNx o g) ic*am/rc*o_ps w * e (s_node (d_c g) ic)) (fun ic => (1/2*o_ps w*am/rc) * (lhscd o (d_c g) (cNx o g) ic * e (s_node (d_c g) ic)))) by (intros; unfold Rdiv; ring).
  rewrite (sumn_ext (s_npe (d_o g)) (fun ic => - (1/2*lhscd o (d_o g) (oNx o g) ic*am/ro*o_ps w) * e (s_node (d_o g) ic)) (fun ic => - (1/2*o_ps w*am/ro) * (lhscd o (d_o g) (oNx o g) ic * e (s_node (d_o g) ic)))) by (intros; unfold Rdiv; ring).
  rewrite !sumn_scal. fold (face_value (d_c g) e) (face_value (d_o g) e). unfold Rdiv. ring.
Qed.
(** the interface part of the pressure matrix is the exact sensitivity of the scaled volume flow rates *)
Theorem C101_interface_matrix_exact : forall N o w f l, o_tau w <> 0 ->
  (forall g, In g l -> point_in N g /\ face_value (d_c g) (v_rho f) <> 0 /\ face_value (d_o g) (v_rho f) <> 0) ->
  exact_newton N (fun p => nc_cont_vof_all o w (with_p f p) l).
Proof.
  intros N o w f l Ht Hl. unfold nc_cont_vof_all.
  apply (newton_list N (fun p g s => nc_cont_vof o w g (with_p f p) s) row (fun g => vcoef o w g f) (fun g p => nc_vdot o w g (with_p f p) / o_tau w)).
  - intros p g s. exact (nc_cont_vof_eff o w g (with_p f p) s).
  - intros g p e Hg. destruct (Hl g Hg) as (Hp & Hc & Ho). rewrite (vcoef_apply N) by assumption. rewrite !vdot_split.
    cbn [with_p v_p v_u v_mesh]. rewrite !face_value_plus.
    change (mkVf (fun a => p a + e a) (v_rho f) (v_vof f) (v_sk f) (v_u f) (v_mesh f) (v_G f)) with (with_p f (fun a => p a + e a)).
    rewrite !pstab_plus by assumption.
    change (nc_penalty o w g (with_p f (fun a => p a + e a))) with (nc_penalty o w g f). change (nc_penalty o w g (with_p f p)) with (nc_penalty o w g f).
    field. repeat split; assumption.
Qed.

(** ** what leaves one side enters the other *)
Lemma mirror_penalty o w g g' f : mirrored o g g' -> nc_penalty o w g' f = nc_penalty o w g f /\ nc_density g' f = nc_density g f.
Proof.
  intros M. assert (D : nc_density g' f = nc_density g f) by (unfold nc_density; destruct M as (-> & -> & _); ring).
  split; [|exact D]. unfold nc_penalty. rewrite D, (inv_length_ext o _ _ _ (mirror_cNx o g g' M)), (inv_length_ext o _ _ _ (mirror_oNx o g g' M)).
  destruct M as (-> & -> & _). f_equal. ring.
Qed.
(** on matching points whose mesh velocities agree (also on a sliding mesh, and with a jump of density) volume and mass
    flow rates of the two sides are opposite *)
Theorem C101_interface_flow_antisymmetric : forall o w g g' f, mirrored o g g' ->
  (o_mm w = 0 \/ forall j, (j < nd o)%nat -> face_value (d_c g) (fun k => v_mesh f k j) = face_value (d_o g) (fun k => v_mesh f k j)) ->
  fst (stored_interface o w g' f) = - fst (stored_interface o w g f) /\ snd (stored_interface o w g' f) = - snd (stored_interface o w g f).
Proof.
  intros o w g g' f M Hv.
  assert (E : nc_vdot o w g' f = - nc_vdot o w g f).
  { rewrite !vdot_split, (mirror_amag o g g' M), (proj1 (mirror_penalty o w g g' f M)).
    assert (Dc : forall v, dot (nd o) v (cNx o g') = dot (nd o) v (oNx o g)) by (intros; apply dot_ext; [reflexivity|apply (mirror_cNx o g g' M)]).
    assert (Do : forall v, dot (nd o) v (oNx o g') = dot (nd o) v (cNx o g)) by (intros; apply dot_ext; [reflexivity|apply (mirror_oNx o g g' M)]).
    unfold pstab_n. rewrite !Dc, !Do.
    assert (V : o_mm w * dot (nd o) (fun j => face_value (d_c g') (fun k => v_mesh f k j)) (oNx o g) = - (o_mm w * dot (nd o) (fun j => face_value (d_c g) (fun k => v_mesh f k j)) (cNx o g))).
    { destruct Hv as [->|Hv]; [ring|]. destruct M as (-> & _ & _ & M4 & _).
      rewrite (dot_ext _ _ (fun j => face_value (d_c g) (fun k => v_mesh f k j)) _ (fun j => - cNx o g j)); [rewrite dot_neg_r; ring| |exact M4].
      intros j Hj. symmetry. apply Hv, Hj. }
    rewrite V. destruct M as (-> & -> & _). ring. }
  unfold stored_interface. cbn [fst snd]. rewrite E, (proj2 (mirror_penalty o w g g' f M)). split; ring.
Qed.
Lemma mirror_vcoef o w g g' f j : mirrored o g g' -> vcoef o w g' f j = - vcoef o w g f j.
Proof.
  intros M. unfold vcoef. cbv zeta. rewrite (mirror_amag o g g' M), (proj1 (mirror_penalty o w g g' f M)).
  rewrite (sumn_ext (s_npe (d_c g')) _ (fun ic => dl j (s_node (d_c g') ic) * (1/2 * lhscd o (d_c g') (oNx o g) ic * c_amag o g / face_value (d_c g') (v_rho f) * o_ps w)))
    by (intros; rewrite (lhscd_ext o _ _ _ _ (mirror_cNx o g g' M)); reflexivity).
  rewrite (sumn_ext (s_npe (d_o g')) _ (fun ic => dl j (s_node (d_o g') ic) * - (1/2 * lhscd o (d_o g') (cNx o g) ic * c_amag o g / face_value (d_o g') (v_rho f) * o_ps w)))
    by (intros; rewrite (lhscd_ext o _ _ _ _ (mirror_oNx o g g' M)); reflexivity).
  destruct M as (-> & -> & _). rewrite !Ropp_plus_distr, <- !sumn_opp.
  assert (S4 : forall a b c d a' b' c' d', a = c' -> b = d' -> c = a' -> d = b' -> a + b + c + d = a' + b' + c' + d') by (intros; subst; ring).
  apply S4; apply sumn_ext; intros; ring.
Qed.
Theorem C101_interface_conserves_volume : forall N o w f l l', Permutation l l' ->
  paired o (fun g => fst (stored_interface o w g f)) l' -> (forall g, In g l -> point_in N g) -> conservative N (nc_cont_vof_all o w f l).
Proof.
  intros N o w f l l' P Hp Hl. unfold nc_cont_vof_all.
  apply (conservative_list N (fun g s => nc_cont_vof o w g f s) row (fun g => vcoef o w g f) (fun g => - (nc_vdot o w g f / o_tau w))).
  - intros g s. apply nc_cont_vof_eff.
  - intros g Hg. destruct (Hl g Hg) as ((H1 & _) & _ & H3). unfold row. auto.
  - rewrite (lsum_perm _ _ _ P). clear - Hp. revert Hp. induction l' as [|a|a b t IH] using pair_induction; [reflexivity|intros []|].
    intros (M & E & Hp). rewrite !lsum_cons, (IH Hp). unfold stored_interface in E. cbn [fst] in E. rewrite E. unfold Rdiv. ring.
  - intro j. rewrite (lsum_perm _ _ _ P). clear - Hp. revert Hp. induction l' as [|a|a b t IH] using pair_induction; [reflexivity|intros []|].
    intros (M & E & Hp). rewrite !lsum_cons, (IH Hp), (mirror_vcoef o w a b f j M). ring.
Qed.

(** ** smooth data away from the interface between the fluids *)
(** velocity and mesh velocity linear in space, pressure continuous at the point, volume fraction uniform on both elements,
    pressure gradient balancing weight up to density times the stored gradient: the flow is (u - mm v)(x).A *)
Theorem C101_interface_smooth_flow : forall o w g f X xg Au Bu Av Bv,
  sees (nd o) X (d_c g) xg -> sees (nd o) X (d_o g) xg -> opposite_normals o g -> c_amag o g <> 0 ->
  (forall k j, v_u f k j = linear (nd o) (Au j) (Bu j) (X k)) -> (forall k j, v_mesh f k j = linear (nd o) (Av j) (Bv j) (X k)) ->
  face_value (d_c g) (v_p f) = face_value (d_o g) (v_p f) ->
  (forall s j, s = d_c g \/ s = d_o g -> (j < nd o)%nat -> face_value s (v_rho f) <> 0 /\ grad_at s (v_vof f) j = 0
     /\ grad_at s (v_p f) j = o_bw w * face_value s (v_rho f) * o_g w j + face_value s (v_rho f) * face_value s (fun k => v_G f k j)) ->
  fst (stored_interface o w g f) = dot (nd o) (fun j => linear (nd o) (Au j) (Bu j) xg - o_mm w * linear (nd o) (Av j) (Bv j) xg) (d_A g).
Proof.
  intros o w g f X xg Au Bu Av Bv Hc Ho Hn Ha Hu Hv Hp Hb. unfold stored_interface. cbn [fst]. rewrite vdot_split, Hp.
  assert (Z : forall s n, s = d_c g \/ s = d_o g -> pstab_n o w f s n = 0).
  { intros s n Hs. unfold pstab_n, dot. apply sumn_zero. intros j Hj. destruct (Hb s j Hs Hj) as (R0 & V0 & P0).
    unfold nc_pstab. rewrite V0, P0. field. assumption. }
  rewrite !Z by auto.
  assert (FV : forall s, sees (nd o) X s xg -> (forall j, face_value s (fun k => v_u f k j) = linear (nd o) (Au j) (Bu j) xg) /\
     (forall j, face_value s (fun k => v_mesh f k j) = linear (nd o) (Av j) (Bv j) xg)).
  { intros s Hs. split; intro j.
    - rewrite (face_value_ext s _ (fun k => linear (nd o) (Au j) (Bu j) (X k))) by (intro; apply Hu). apply (face_value_linear _ _ _ _ _ _ Hs).
    - rewrite (face_value_ext s _ (fun k => linear (nd o) (Av j) (Bv j) (X k))) by (intro; apply Hv). apply (face_value_linear _ _ _ _ _ _ Hs). }
  destruct (FV _ Hc) as (C1 & C2). destruct (FV _ Ho) as (O1 & _).
  rewrite (dot_ext _ _ (fun j => linear (nd o) (Au j) (Bu j) xg) _ (cNx o g) (fun j _ => C1 j) (fun _ _ => eq_refl)).
  rewrite (dot_ext _ _ (fun j => linear (nd o) (Au j) (Bu j) xg) _ (fun j => - cNx o g j) (fun j _ => O1 j) Hn).
  rewrite (dot_ext _ _ (fun j => linear (nd o) (Av j) (Bv j) xg) _ (cNx o g) (fun j _ => C2 j) (fun _ _ => eq_refl)).
  rewrite dot_neg_r. rewrite <- (cNx_A o g) by exact Ha.
  assert (S1 : forall (v z : nat -> R) n, dot (nd o) (fun j => v j - o_mm w * z j) n = dot (nd o) v n - o_mm w * dot (nd o) z n).
  { intros. unfold dot. rewrite <- sumn_scal, <- sumn_minus. apply sumn_ext; intros; ring. }
  rewrite S1. field.
Qed.

(** ** surface tension has the wrong sign across the interface *)
Definition ex_al (k : nat) : R := 1/2 + ex_X k 0 / 4.
Definition ex_w : vopts := mkVo 1 1 0 0 (fun _ => 0) 1 0 0.
Definition ex_f : vfields := mkVf ex_al (fun _ => 1) ex_al (fun _ => 1) (fun _ _ => 0) (fun _ _ => 0) (fun _ _ => 0).
Lemma ex_sk s : sumn (s_nf s) (s_r s) = 1 -> nc_sk ex_w ex_f s = 1.
Proof.
  intros H. unfold nc_sk. cbn [ex_w ex_f o_c o_n o_m v_sk v_vof].
  assert (P1 : forall x, vpow x 0 = 1) by (intros x; unfold vpow; destruct (Req_EM_T 0 0); [reflexivity|contradiction]).
  rewrite !P1. unfold face_value. rewrite sumn_scal_r, H. ring.
Qed.
Lemma ex_vdot : nc_vdot ex_o ex_w ex_g ex_f = - (1/2).
Proof.
  destruct C79_hypotheses_met as (S1 & S2 & _).
  rewrite vdot_split, ex_amag. unfold pstab_n. change (nd ex_o) with 2%nat.
  rewrite (dot_ext 2 (nc_pstab ex_w ex_f (d_c ex_g)) (fun j => match j with 0%nat => 1/2 | _ => 0 end) (cNx ex_o ex_g) (fun j => match j with 0%nat => 1 | _ => 0 end)).
  2:{ intros j Hj. unfold nc_pstab. rewrite (ex_sk (d_c ex_g) (proj1 S1)). unfold grad_at, face_value, sumn. destruct j as [|[|j]]; [| |lia]; cbn; unfold ex_al; cbn; field. }
  2:{ intros j Hj. unfold cNx. rewrite ex_amag. destruct j as [|[|j]]; [| |lia]; cbn; lra. }
  rewrite (dot_ext 2 (nc_pstab ex_w ex_f (d_o ex_g)) (fun j => match j with 0%nat => 1/2 | _ => 0 end) (oNx ex_o ex_g) (fun j => match j with 0%nat => -1 | _ => 0 end)).
  2:{ intros j Hj. unfold nc_pstab. rewrite (ex_sk (d_o ex_g) (proj1 S2)). unfold grad_at, face_value, sumn. destruct j as [|[|j]]; [| |lia]; cbn; unfold ex_al; cbn; field. }
  2:{ intros j Hj. unfold oNx, cNx. rewrite ex_amag. destruct j as [|[|j]]; [| |lia]; cbn; unfold ex_al; cbn; field. }
  assert (Pc : face_value (d_c ex_g) (v_p ex_f) = 1/2) by (unfold face_value, sumn; cbn; unfold ex_al; cbn; field).
  assert (Po : face_value (d_o ex_g) (v_p ex_f) = 1/2) by (unfold face_value, sumn; cbn; unfold ex_al; cbn; field).
  rewrite Pc, Po. unfold dot, face_value, sumn. cbn. field.
Qed.
(** Fluid at rest whose pressure gradient balances surface tension (the state in which no flow is computed inside the
    elements, C101_balanced_flow_is_velocity) is set in motion at the interface. *)
Theorem C101_interface_balanced_no_flow_refuted :
  ~ (forall o w g f X xg, sees (nd o) X (d_c g) xg -> sees (nd o) X (d_o g) xg -> opposite_normals o g -> c_amag o g <> 0 -> 0 < o_tau w ->
       (forall k j, v_u f k j = 0 /\ v_mesh f k j = 0 /\ v_G f k j = 0) -> (forall k, 0 < v_rho f k) ->
       face_value (d_c g) (v_p f) = face_value (d_o g) (v_p f) ->
       (forall s j, s = d_c g \/ s = d_o g -> (j < nd o)%nat ->
          grad_at s (v_p f) j = o_bw w * face_value s (v_rho f) * o_g w j + nc_sk w f s * grad_at s (v_vof f) j) ->
       fst (stored_interface o w g f) = 0).
Proof.
  intros H. destruct C79_hypotheses_met as (S1 & S2 & ON & AM & _).
  specialize (H ex_o ex_w ex_g ex_f ex_X ex_xg S1 S2 ON AM). cbn [o_tau ex_w] in H. specialize (H ltac:(lra)).
  specialize (H (fun k j => conj eq_refl (conj eq_refl eq_refl)) (fun k => ltac:(cbn; lra))).
  assert (P : face_value (d_c ex_g) (v_p ex_f) = face_value (d_o ex_g) (v_p ex_f)) by (unfold face_value, sumn; cbn; unfold ex_al; cbn; field).
  specialize (H P). unfold stored_interface in H. cbn [fst] in H. change (mkVo 1 1 0 0 (fun _ => 0) 1 0 0) with ex_w in H. rewrite ex_vdot in H.
  enough (- (1/2) = 0) by lra. apply H. intros s j Hs Hj.
  assert (K : nc_sk ex_w ex_f s = 1) by (apply ex_sk; destruct Hs as [->| ->]; [apply S1|apply S2]).
  rewrite K. cbn [o_bw ex_w o_g ex_f v_p v_vof]. ring.
Qed.
(** it is balanced for the opposite sign of surface tension *)
Theorem C101_interface_balanced_with_opposite_sign : forall o w g f, 
  (forall k j, v_u f k j = 0 /\ v_mesh f k j = 0 /\ v_G f k j = 0) ->
  face_value (d_c g) (v_p f) = face_value (d_o g) (v_p f) ->
  (forall s j, s = d_c g \/ s = d_o g -> (j < nd o)%nat ->
     grad_at s (v_p f) j = o_bw w * face_value s (v_rho f) * o_g w j - nc_sk w f s * grad_at s (v_vof f) j) ->
  fst (stored_interface o w g f) = 0.
Proof.
  intros o w g f H0 Hp Hb. unfold stored_interface. cbn [fst]. rewrite vdot_split, Hp.
  assert (Z : forall s (q : nat -> nat -> R) n, (forall k j, q k j = 0) -> dot (nd o) (fun j => face_value s (fun k => q k j)) n = 0).
  { intros s q n Hq. unfold dot. apply sumn_zero. intros j _. unfold face_value. rewrite sumn_zero; [ring|]. intros. rewrite Hq. ring. }
  rewrite (Z (d_c g) (v_u f)), (Z (d_o g) (v_u f)), (Z (d_c g) (v_mesh f)) by apply H0.
  assert (Y : forall s n, s = d_c g \/ s = d_o g -> pstab_n o w f s n = 0).
  { intros s n Hs. unfold pstab_n, dot. apply sumn_zero. intros j Hj. unfold nc_pstab. rewrite (Hb s j Hs Hj).
    assert (G : face_value s (fun k => v_G f k j) = 0) by (unfold face_value; apply sumn_zero; intros; rewrite (proj2 (proj2 (H0 _ _))); ring).
    rewrite G. unfold Rdiv. ring. }
  rewrite !Y by auto. ring.
Qed.
