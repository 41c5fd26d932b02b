(** C79, mass flow and pressure: the mass flow rate stored for a point is the one in the continuity residual; the pressure matrix is its exact
    sensitivity; linear pressure with the right projected gradient drives no flow; mass is conserved on matching points without mesh motion;
    what fails with mesh motion and a density jump. *)
Require Import Reals List Bool Arith Lra Lia Permutation.
From Verif Require Import Edge_Model Edge_Proofs Sum_Proofs Elem_Model Elem_Spec Elem_Proofs Elem_Proofs2 NC_Model NC_Props.
Import ListNotations.
Open Scope R_scope.

Definition cont_coef (o : ncopt) (g : dg) (tau ps : R) (j : nat) : R :=
  let c := d_c g in let op := d_o g in
  let F := tau*(1/2)*(inv_length o c (cNx o g) + inv_length o op (oNx o g))*c_amag o g/tau in
  sumn (s_nf c) (fun ic => dl j (s_node c (s_ord c ic)) * (s_r c ic * F)) +
  sumn (s_npe c) (fun ic => dl j (s_node c ic) * ((1/2)*lhscd o c (cNx o g) ic*c_amag o g*ps)) +
  sumn (s_nf op) (fun ic => dl j (s_node op (s_ord op ic)) * (- (s_r op ic * F))) +
  sumn (s_npe op) (fun ic => dl j (s_node op ic) * (- ((1/2)*lhscd o op (oNx o g) ic*c_amag o g*ps))).
Lemma nc_continuity_eff o g tau ps mm f s : eff s (nc_continuity o g tau ps mm f s) (fun i j => dl i (row g) * cont_coef o g tau ps j) (fun i => dl i (row g) * - (nc_mdot o g tau ps mm f / tau)).
Proof.
  unfold nc_continuity. cbv zeta. eapply eff_ext.
  - eapply eff_trans; [|apply eff_cols]. eapply eff_trans; [|apply eff_cols]. eapply eff_trans; [|apply eff_cols]. eapply eff_trans; [|apply eff_cols]. apply eff_addB.
  - intros i j. cbv beta. unfold cont_coef, row. cbv zeta. ring.
  - intros i. cbv beta. unfold row, nc_mdot. cbv zeta. ring.
Qed.
(** the continuity equation of the point's node balances exactly the mass flow rate that ComputeMdotNonConformal stores, scaled by the time scale *)
Theorem C79_continuity_residual_is_stored_mass_flow o g tau ps mm f s i :
  eB (nc_continuity o g tau ps mm f s) i = eB s i - (if Nat.eqb i (row g) then nc_mdot o g tau ps mm f / tau else 0).
Proof. destruct (nc_continuity_eff o g tau ps mm f s) as [_ E]. rewrite E. unfold dl. destruct (Nat.eqb i (row g)); ring. Qed.

Lemma cont_coef_apply N o g tau ps e : tau <> 0 -> point_in N g ->
  sumn N (fun j => cont_coef o g tau ps j * e j) =
  (1/2)*(inv_length o (d_c g) (cNx o g) + inv_length o (d_o g) (oNx o g))*c_amag o g*(face_value (d_c g) e - face_value (d_o g) e)
  + (1/2)*ps*c_amag o g*(diff_flux o (d_c g) (cNx o g) e - diff_flux o (d_o g) (oNx o g) e).
Proof.
  intros Ht ((C1 & C2) & (O1 & O2) & _). unfold cont_coef. cbv zeta.
  set (F := tau*(1/2)*_*_/tau).
  assert (EF : F = (1/2)*(inv_length o (d_c g) (cNx o g) + inv_length o (d_o g) (oNx o g))*c_amag o g) by (unfold F; field; exact Ht).
  clearbody F. rewrite <- EF. set (am := c_amag o g).
  rewrite (sumn_ext N _ (fun j => ((sumn (s_nf (d_c g)) (fun ic => dl j (s_node (d_c g) (s_ord (d_c g) ic)) * (s_r (d_c g) ic * F)) * e j
    + sumn (s_npe (d_c g)) (fun ic => dl j (s_node (d_c g) ic) * ((1/2)*lhscd o (d_c g) (cNx o g) ic*am*ps)) * e j)
    + sumn (s_nf (d_o g)) (fun ic => dl j (s_node (d_o g) (s_ord (d_o g) ic)) * (- (s_r (d_o g) ic * F))) * e j)
    + sumn (s_npe (d_o g)) (fun ic => dl j (s_node (d_o g) ic) * (- ((1/2)*lhscd o (d_o g) (oNx o g) ic*am*ps))) * e j)) by (intros; ring).
  rewrite !sumn_plus, !sumn_cols by auto. rewrite !diff_flux_lhscd.
  rewrite (sumn_ext (s_nf (d_c g)) _ (fun ic => F * (s_r (d_c g) ic * e (s_node (d_c g) (s_ord (d_c g) ic))))) by (intros; ring).
  rewrite (sumn_ext (s_nf (d_o g)) _ (fun ic => - F * (s_r (d_o g) ic * e (s_node (d_o g) (s_ord (d_o g) ic))))) by (intros; ring).
  rewrite (sumn_ext (s_npe (d_c g)) (fun ic => (1/2)*lhscd o (d_c g) (cNx o g) ic*am*ps * e (s_node (d_c g) ic)) (fun ic => ((1/2)*ps*am) * (lhscd o (d_c g) (cNx o g) ic * e (s_node (d_c g) ic)))) by (intros; field).
  rewrite (sumn_ext (s_npe (d_o g)) (fun ic => - ((1/2)*lhscd o (d_o g) (oNx o g) ic*am*ps) * e (s_node (d_o g) ic)) (fun ic => - ((1/2)*ps*am) * (lhscd o (d_o g) (oNx o g) ic * e (s_node (d_o g) ic)))) by (intros; field).
  rewrite !sumn_scal. fold (face_value (d_c g) e) (face_value (d_o g) e). field.
Qed.
Lemma grad_plus s p q j : grad_at s (fun k => p k + q k) j = grad_at s p j + grad_at s q j.
Proof. unfold grad_at. rewrite <- sumn_plus. apply sumn_ext; intros. ring. Qed.
(** the mass flow rate splits into the mass-flux mean, the pressure stabilisation and the pressure jump *)
Lemma mdot_split o g tau ps mm f : nc_mdot o g tau ps mm f =
  (((1/2)*(dot (nd o) (fun j => face_value (d_c g) (fun k => m_u f k j * m_rho f k)) (cNx o g) - dot (nd o) (fun j => face_value (d_o g) (fun k => m_u f k j * m_rho f k)) (oNx o g))
    - mm * dot (nd o) (fun j => face_value (d_c g) (fun k => m_v f k j * m_rho f k)) (cNx o g))
   - ps*tau*((1/2)*((dot (nd o) (grad_at (d_c g) (m_p f)) (cNx o g) - dot (nd o) (fun j => face_value (d_c g) (fun k => m_G f k j)) (cNx o g))
              - (dot (nd o) (grad_at (d_o g) (m_p f)) (oNx o g) - dot (nd o) (fun j => face_value (d_o g) (fun k => m_G f k j)) (oNx o g))))
   + tau*(1/2)*(inv_length o (d_c g) (cNx o g) + inv_length o (d_o g) (oNx o g))*(face_value (d_c g) (m_p f) - face_value (d_o g) (m_p f)))*c_amag o g.
Proof.
  unfold nc_mdot. cbv zeta. f_equal. f_equal. f_equal.
  - unfold dot. rewrite <- !sumn_minus, <- !sumn_scal, <- sumn_minus. apply sumn_ext; intros. ring.
  - f_equal. unfold dot. rewrite <- !sumn_minus, <- !sumn_scal. apply sumn_ext; intros. ring.
Qed.
Lemma mdot_plus N o g tau ps mm rho u v G p e : tau <> 0 -> point_in N g ->
  nc_mdot o g tau ps mm (mkM (fun a => p a + e a) rho u v G) / tau = nc_mdot o g tau ps mm (mkM p rho u v G) / tau + sumn N (fun j => cont_coef o g tau ps j * e j).
Proof.
  intros Ht Hp. rewrite (cont_coef_apply N) by assumption. rewrite !mdot_split. cbn [m_p m_rho m_u m_v m_G]. rewrite !face_value_plus, !diff_flux_grad.
  assert (D : forall s n, dot (nd o) (grad_at s (fun a => p a + e a)) n = dot (nd o) (grad_at s p) n + dot (nd o) (grad_at s e) n).
  { intros. unfold dot. rewrite <- sumn_plus. apply sumn_ext; intros. rewrite grad_plus. ring. }
  rewrite !D. field. exact Ht.
Qed.
(** the interface part of the pressure matrix is the exact sensitivity of the (scaled) mass flow rates *)
Theorem C79_pressure_matrix_exact N o tau ps mm rho u v G l : tau <> 0 -> (forall g, In g l -> point_in N g) ->
  exact_newton N (fun p => nc_continuity_all o tau ps mm (mkM p rho u v G) l).
Proof.
  intros Ht Hl. unfold nc_continuity_all.
  apply (newton_list N (fun p g s => nc_continuity o g tau ps mm (mkM p rho u v G) s) row (fun g => cont_coef o g tau ps) (fun g p => nc_mdot o g tau ps mm (mkM p rho u v G) / tau)).
  - intros p g s. apply nc_continuity_eff.
  - intros g p e Hg. apply mdot_plus; auto.
Qed.
(** smooth data: mass flux and mesh mass flux linear in space (a_j + b_j.x), pressure linear, projected gradient exact:
    the mass flow rate is (rho u - mm rho v)(x).A, without any contribution of the pressure *)
Theorem C79_smooth_mass_flow o g X xg tau ps mm f Au Bu Av Bv pa pb :
  sees (nd o) X (d_c g) xg -> sees (nd o) X (d_o g) xg -> opposite_normals o g -> c_amag o g <> 0 ->
  (forall k j, m_u f k j * m_rho f k = linear (nd o) (Au j) (Bu j) (X k)) ->
  (forall k j, m_v f k j * m_rho f k = linear (nd o) (Av j) (Bv j) (X k)) ->
  (forall k, m_p f k = linear (nd o) pa pb (X k)) -> (forall k j, m_G f k j = pb j) ->
  nc_mdot o g tau ps mm f = dot (nd o) (fun j => linear (nd o) (Au j) (Bu j) xg - mm * linear (nd o) (Av j) (Bv j) xg) (d_A g).
Proof.
  intros Hc Ho Hn Ha Hu Hv Hp HG. rewrite mdot_split.
  assert (FV : forall s, sees (nd o) X s xg -> (forall j, face_value s (fun k => m_u f k j * m_rho f k) = linear (nd o) (Au j) (Bu j) xg) /\
     (forall j, face_value s (fun k => m_v f k j * m_rho f k) = linear (nd o) (Av j) (Bv j) xg) /\ (forall j, face_value s (fun k => m_G f k j) = pb j) /\
     face_value s (m_p f) = linear (nd o) pa pb xg /\ (forall j, (j < nd o)%nat -> grad_at s (m_p f) j = pb j)).
  { intros s Hs. repeat split.
    - intro j. rewrite (face_value_ext s _ (fun k => linear (nd o) (Au j) (Bu j) (X k))) by (intro; apply Hu). apply (face_value_linear _ _ _ _ _ _ Hs).
    - intro j. rewrite (face_value_ext s _ (fun k => linear (nd o) (Av j) (Bv j) (X k))) by (intro; apply Hv). apply (face_value_linear _ _ _ _ _ _ Hs).
    - intro j. rewrite (face_value_ext s _ (fun _ => pb j)) by (intro; apply HG). apply (face_value_const _ _ _ _ _ Hs).
    - rewrite (face_value_ext s _ (fun k => linear (nd o) pa pb (X k))) by apply Hp. apply (face_value_linear _ _ _ _ _ _ Hs).
    - intros j Hj. rewrite <- (grad_linear _ _ _ _ pa pb j Hs Hj). unfold grad_at. apply sumn_ext; intros. rewrite Hp. reflexivity. }
  destruct (FV _ Hc) as (C1 & C2 & C3 & C4 & C5). destruct (FV _ Ho) as (O1 & O2 & O3 & O4 & O5).
  rewrite C4, O4.
  rewrite (dot_ext _ _ (fun j => linear (nd o) (Au j) (Bu j) xg) _ (cNx o g) (fun j _ => C1 j) (fun _ _ => eq_refl)).
  rewrite (dot_ext _ _ (fun j => linear (nd o) (Au j) (Bu j) xg) _ (fun j => - cNx o g j) (fun j _ => O1 j) Hn).
  rewrite (dot_ext _ _ (fun j => linear (nd o) (Av j) (Bv j) xg) _ (cNx o g) (fun j _ => C2 j) (fun _ _ => eq_refl)).
  rewrite (dot_ext _ _ pb _ (cNx o g) C5 (fun _ _ => eq_refl)).
  rewrite (dot_ext _ _ pb _ (cNx o g) (fun j _ => C3 j) (fun _ _ => eq_refl)).
  rewrite (dot_ext _ _ pb _ (fun j => - cNx o g j) O5 Hn).
  rewrite (dot_ext _ _ pb _ (fun j => - cNx o g j) (fun j _ => O3 j) Hn).
  rewrite !dot_neg_r.
  rewrite <- (cNx_A o g) by exact Ha.
  assert (S1 : forall (w z : nat -> R) n, dot (nd o) (fun j => w j - mm * z j) n = dot (nd o) w n - mm * dot (nd o) z n).
  { intros. unfold dot. rewrite <- sumn_scal, <- sumn_minus. apply sumn_ext; intros; ring. }
  rewrite S1. field.
Qed.
(** on matching points the mass flow rates of the two sides cancel, provided the mesh mass flux agrees on both sides (or the mesh is at rest) *)
Theorem C79_mass_flow_antisymmetric o g g' tau ps mm f : mirrored o g g' ->
  (mm = 0 \/ forall j, (j < nd o)%nat -> face_value (d_c g) (fun k => m_v f k j * m_rho f k) = face_value (d_o g) (fun k => m_v f k j * m_rho f k)) ->
  nc_mdot o g' tau ps mm f = - nc_mdot o g tau ps mm f.
Proof.
  intros M Hv. rewrite !mdot_split, (mirror_amag o g g' M).
  rewrite (inv_length_ext o _ _ _ (mirror_cNx o g g' M)), (inv_length_ext o _ _ _ (mirror_oNx o g g' M)).
  assert (Dc : forall w, dot (nd o) w (cNx o g') = dot (nd o) w (oNx o g)) by (intros; apply dot_ext; [reflexivity|apply (mirror_cNx o g g' M)]).
  assert (Do : forall w, dot (nd o) w (oNx o g') = dot (nd o) w (cNx o g)) by (intros; apply dot_ext; [reflexivity|apply (mirror_oNx o g g' M)]).
  rewrite !Dc, !Do.
  assert (V : mm * dot (nd o) (fun j => face_value (d_c g') (fun k => m_v f k j * m_rho f k)) (oNx o g) = - (mm * dot (nd o) (fun j => face_value (d_c g) (fun k => m_v f k j * m_rho f k)) (cNx o g))).
  { destruct Hv as [->|Hv]; [ring|]. destruct M as (-> & _ & _ & M4 & _).
    rewrite (dot_ext _ _ (fun j => face_value (d_c g) (fun k => m_v f k j * m_rho f k)) _ (fun j => - cNx o g j)); [rewrite dot_neg_r; ring| |exact M4].
    intros j Hj. symmetry. apply Hv, Hj. }
  rewrite V. destruct M as (-> & -> & _). field.
Qed.
Lemma mirror_cont o g g' tau ps j : mirrored o g g' -> cont_coef o g' tau ps j = - cont_coef o g tau ps j.
Proof.
  intros M. unfold cont_coef. cbv zeta. rewrite (mirror_amag o g g' M).
  rewrite (inv_length_ext o _ _ _ (mirror_cNx o g g' M)), (inv_length_ext o _ _ _ (mirror_oNx o g g' M)).
  rewrite (sumn_ext (s_npe (d_c g')) _ (fun ic => dl j (s_node (d_c g') ic) * (1/2 * lhscd o (d_c g') (oNx o g) ic * c_amag o g * ps)))
    by (intros; rewrite (lhscd_ext o _ _ _ _ (mirror_cNx o g g' M)); reflexivity).
  rewrite (sumn_ext (s_npe (d_o g')) _ (fun ic => dl j (s_node (d_o g') ic) * - (1/2 * lhscd o (d_o g') (cNx o g) ic * c_amag o g * ps)))
    by (intros; rewrite (lhscd_ext o _ _ _ _ (mirror_oNx o g g' M)); reflexivity).
  destruct M as (-> & -> & _).
  rewrite (Rplus_comm (inv_length o (d_o g) (oNx o g)) (inv_length o (d_c g) (cNx o g))).
  rewrite !Ropp_plus_distr, <- !sumn_opp.
  assert (S4 : forall a b c d a' b' c' d', a = c' -> b = d' -> c = a' -> d = b' -> a + b + c + d = a' + b' + c' + d') by (intros; subst; ring).
  apply S4; apply sumn_ext; intros; ring.
Qed.
(** with a mesh at rest, the interface creates no mass *)
Theorem C79_mass_conserved N o tau ps f l l' : Permutation l l' -> paired o (fun g => nc_mdot o g tau ps 0 f) l' \/ paired o (fun _ => 0) l' ->
  (forall g, In g l -> point_in N g) -> conservative N (nc_continuity_all o tau ps 0 f l).
Proof.
  intros P Hp0 Hl. assert (Hp : paired o (fun _ => 0) l').
  { destruct Hp0 as [H|H]; [|exact H]. clear - H. revert H. induction l' as [|a|a b t IH] using pair_induction; [trivial|intros []|]. intros (M & E & H). split; [exact M|split; [ring|apply IH, H]]. }
  unfold nc_continuity_all.
  apply (conservative_list N (fun g s => nc_continuity o g tau ps 0 f s) row (fun g => cont_coef o g tau ps) (fun g => - (nc_mdot o g tau ps 0 f / tau))).
  - intros g s. apply nc_continuity_eff.
  - intros g Hg. destruct (Hl g Hg) as ((H1 & _) & _ & H3). unfold row. auto.
  - rewrite (lsum_perm _ _ _ P). clear - Hp. revert Hp. induction l' as [|a|a b t IH] using pair_induction; [reflexivity|intros []|].
    intros (M & E & Hp). rewrite !lsum_cons, (IH Hp), (C79_mass_flow_antisymmetric o a b tau ps 0 f M (or_introl eq_refl)). unfold Rdiv. ring.
  - intro j. rewrite (lsum_perm _ _ _ P). clear - Hp. revert Hp. induction l' as [|a|a b t IH] using pair_induction; [reflexivity|intros []|].
    intros (M & E & Hp). rewrite !lsum_cons, (IH Hp), (mirror_cont o a b tau ps j M). ring.
Qed.

(* ------------------------------------------------------------------ a concrete interface: two triangles sharing the segment (0,0)-(0,1) *)
Definition ex_o : ncopt := mkNc 2 1 true.
Definition ex_dc (ic j : nat) : R := match ic, j with 0%nat, 0%nat => -1 | 1%nat, 0%nat => 1 | 1%nat, 1%nat => -1 | 2%nat, 1%nat => 1 | _, _ => 0 end.
Definition ex_do (ic j : nat) : R := match ic, j with 0%nat, 0%nat => -1 | 0%nat, 1%nat => -1 | 1%nat, 0%nat => 1 | 2%nat, 1%nat => 1 | _, _ => 0 end.
(** nodes 0 (-1,0), 1 (0,0), 2 (0,1) | 3 (0,0), 4 (1,0), 5 (0,1) *)
Definition ex_c : side := mkSide 3 (fun i => i) 2 (fun i => match i with 0%nat => 1%nat | _ => 2%nat end) (fun _ => 1/2) ex_dc (fun j => match j with 0%nat => 1 | _ => 0 end).
Definition ex_op : side := mkSide 3 (fun i => (i+3)%nat) 2 (fun i => match i with 0%nat => 0%nat | _ => 2%nat end) (fun _ => 1/2) ex_do (fun j => match j with 0%nat => -1 | _ => 0 end).
Definition ex_X (k j : nat) : R := match k, j with 0%nat, 0%nat => -1 | 2%nat, 1%nat => 1 | 4%nat, 0%nat => 1 | 5%nat, 1%nat => 1 | _, _ => 0 end.
Definition ex_A (j : nat) : R := match j with 0%nat => 1 | _ => 0 end.
Definition ex_g : dg := mkDg ex_c ex_op 1 ex_A.
Definition ex_g' : dg := mkDg ex_op ex_c 0 (fun j => - ex_A j).
Definition ex_xg (j : nat) : R := match j with 1%nat => 1/2 | _ => 0 end.
Lemma ex_amag : c_amag ex_o ex_g = 1.
Proof. unfold c_amag. cbn. replace (0 + 1*1 + 0*0) with (1*1) by ring. apply sqrt_square. lra. Qed.
Lemma ex_amag' : c_amag ex_o ex_g' = 1.
Proof. unfold c_amag. cbn. replace (0 + -(1)*-(1) + -(0)*-(0)) with (1*1) by ring. apply sqrt_square. lra. Qed.
Example C79_hypotheses_met :
  sees 2 ex_X (d_c ex_g) ex_xg /\ sees 2 ex_X (d_o ex_g) ex_xg /\ opposite_normals ex_o ex_g /\ c_amag ex_o ex_g <> 0 /\ mirrored ex_o ex_g ex_g' /\
  point_in 6 ex_g /\ point_in 6 ex_g' /\ paired ex_o (fun g => if Nat.eqb (d_nn g) 0 then -1 else 1) [ex_g; ex_g'].
Proof.
  assert (M : mirrored ex_o ex_g ex_g').
  { repeat split; try (apply use_current_opposite; reflexivity). }
  split; [|split; [|split; [apply use_current_opposite; reflexivity|split; [rewrite ex_amag; lra|split; [exact M|split; [|split]]]]]].
  - repeat split.
    + cbn. field.
    + intros [|[|k]] Hk; [| |lia]; cbn; field.
    + intros [|[|j]] Hj; [| |lia]; cbn; ring.
    + intros [|[|j]] [|[|k]] Hj Hk; try lia; cbn; ring.
  - repeat split.
    + cbn. field.
    + intros [|[|k]] Hk; [| |lia]; cbn; field.
    + intros [|[|j]] Hj; [| |lia]; cbn; ring.
    + intros [|[|j]] [|[|k]] Hj Hk; try lia; cbn; ring.
  - repeat split; cbn; try lia; intros [|[|[|ic]]] H; lia.
  - repeat split; cbn; try lia; intros [|[|[|ic]]] H; lia.
  - cbn. repeat split; try apply M; lra.
Qed.
(** sliding mesh with a density jump: the mesh mass flux is taken from the current side only, so the two sides' mass flow rates do not cancel *)
Theorem C79_sliding_mesh_conserves_mass_refuted :
  exists o g g' f, mirrored o g g' /\ (forall k k' j, m_v f k j = m_v f k' j) /\ (forall k, 0 < m_rho f k) /\ nc_mdot o g' 1 1 1 f <> - nc_mdot o g 1 1 1 f.
Proof.
  exists ex_o, ex_g, ex_g', (mkM (fun _ => 0) (fun k => if Nat.ltb k 3 then 1 else 2) (fun _ _ => 0) (fun _ j => match j with 0%nat => 1 | _ => 0 end) (fun _ _ => 0)).
  split; [apply C79_hypotheses_met|]. split; [reflexivity|]. split; [intro k; cbn [m_rho]; destruct (Nat.ltb k 3); lra|].
  unfold nc_mdot. cbv zeta. rewrite ex_amag, ex_amag'. unfold cNx, oNx. cbn [useCurrent ex_o]. unfold cNx. rewrite ex_amag, ex_amag'. cbn. unfold Rdiv. rewrite Rinv_1. lra.
Qed.
