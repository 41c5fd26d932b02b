(** C74: surface forces and moments *)
Require Import Reals List Bool Arith Lra Lia Permutation.
From Verif Require Import Edge_Model Edge_Proofs Elem_Model Elem_Proofs Wall_Model Wall_Props2 Bnd_Spec Force_Model Force_Spec Force_Proofs.
From Verif Require Sum_Proofs Geom_Props Rad_Quad_Proofs3 Motion_Props3 Prop_Props.
Import ListNotations.
Open Scope R_scope.

Section Report.
Variables (n nr : nat) (incl kappa : R) (f : sfields).
Hypothesis Hn : (n <= 3)%nat.

Lemma report_sum algs g k : length (a_pts g) = nr -> report_fm n nr incl kappa f algs g k =
  lsum (fun b => let c := kern n incl kappa f g b in if (k <? 3)%nat then k_pf c k else if (k <? 6)%nat then k_vf c (k - 3)%nat
        else cross_product (pad n (fun i => k_pf c i + k_vf c i)) (pad n (fun i => q_x f (s_nn b) i - a_cen g i)) (k - 6)%nat) (points g).
Proof.
  intros HL. unfold report_fm. rewrite <- (ranks_sum _ g nr HL). apply sumn_ext. intros r Hr. unfold run_rank. rewrite visit_sums. cbn [l_fm]. lra.
Qed.
(** The first three reported numbers are the integral of the pressure over the surface. *)
Theorem C74_pressure_force algs g k : length (a_pts g) = nr -> (k < n)%nat ->
  report_fm n nr incl kappa f algs g k = lsum (fun b => p_force f b k) (points g).
Proof.
  intros HL Hk. rewrite report_sum by exact HL. apply lsum_ext. intros b Hb. cbv zeta.
  replace (k <? 3)%nat with true by (symmetry; apply Nat.ltb_lt; lia). apply kern_pf, Hk.
Qed.
(** The next three are the integral of the viscous traction (resolved walls) or of the wall model's traction. *)
Theorem C74_viscous_force algs g k : length (a_pts g) = nr -> (k < n)%nat ->
  report_fm n nr incl kappa f algs g (3 + k) =
  lsum (fun b => if a_wf g then wf_force n kappa f b k else v_force n incl f b k) (points g).
Proof.
  intros HL Hk. rewrite report_sum by exact HL. apply lsum_ext. intros b Hb. cbv zeta.
  replace (3 + k <? 3)%nat with false by (symmetry; apply Nat.ltb_ge; lia).
  replace (3 + k <? 6)%nat with true by (symmetry; apply Nat.ltb_lt; lia). replace (3 + k - 3)%nat with k by lia.
  unfold kern. destruct (a_wf g); [apply modelled_vf, Hk|apply resolved_vf, Hk].
Qed.
(** The last three are the moment of those forces about the given centre (in 2-D only the component out of the plane
    can be non-zero). *)
Theorem C74_moment algs g k : length (a_pts g) = nr -> (k < 3)%nat ->
  report_fm n nr incl kappa f algs g (6 + k) =
  lsum (fun b => vcross (fun i => if (i <? n)%nat then q_x f (s_nn b) i - a_cen g i else 0)
                        (fun i => if (i <? n)%nat then force n incl kappa f g b i else 0) k) (points g).
Proof.
  intros HL Hk. rewrite report_sum by exact HL. apply lsum_ext. intros b Hb. cbv zeta.
  replace (6 + k <? 3)%nat with false by (symmetry; apply Nat.ltb_ge; lia).
  replace (6 + k <? 6)%nat with false by (symmetry; apply Nat.ltb_ge; lia). replace (6 + k - 6)%nat with k by lia.
  assert (P : forall i, pad n (fun i => k_pf (kern n incl kappa f g b) i + k_vf (kern n incl kappa f g b) i) i = if (i <? n)%nat then force n incl kappa f g b i else 0).
  { intros i. unfold pad. destruct (Nat.ltb_spec i n); [apply kern_force; assumption|reflexivity]. }
  unfold cross_product, vcross. rewrite !P. unfold pad. destruct k as [|[|k]]; ring.
Qed.
(** 2-D: no moment in the plane *)
Corollary C74_planar_moment algs g k : n = 2%nat -> length (a_pts g) = nr -> (k < 2)%nat -> report_fm n nr incl kappa f algs g (6 + k) = 0.
Proof.
  intros En HL Hk. rewrite C74_moment by (try exact HL; lia). rewrite En in *. apply lsum_zero. intros b Hb. unfold vcross.
  destruct k as [|[|k]]; [| |lia]; cbn [Nat.ltb Nat.leb]; ring.
Qed.
(** Changing the centre changes the moment by the moment of the reported total force acting at the old centre. *)
Theorem C74_moment_transport algs g g' k : n = 3%nat -> (k < 3)%nat -> length (a_pts g) = nr -> length (a_pts g') = nr ->
  a_wf g = a_wf g' -> points g = points g' ->
  report_fm n nr incl kappa f algs g' (6 + k) = report_fm n nr incl kappa f algs g (6 + k)
    + vcross (fun i => a_cen g i - a_cen g' i)
             (fun i => report_fm n nr incl kappa f algs g i + report_fm n nr incl kappa f algs g (3 + i)) k.
Proof.
  intros En Hk HL HL' Ew Ep. rewrite !C74_moment by assumption.
  assert (T : forall i, (i < 3)%nat -> report_fm n nr incl kappa f algs g i + report_fm n nr incl kappa f algs g (3 + i) = lsum (fun b => force n incl kappa f g b i) (points g)).
  { intros i Hi. rewrite C74_pressure_force, C74_viscous_force, <- lsum_plus by (try exact HL; lia). apply lsum_ext. reflexivity. }
  assert (V : forall b i, force n incl kappa f g' b i = force n incl kappa f g b i) by (intros; unfold force; rewrite Ew; reflexivity).
  rewrite <- Ep. rewrite En in *.
  assert (G : forall (r r' : spt -> vec) (F F' : spt -> vec) (c : vec), (forall b i, (i < 3)%nat -> r' b i = r b i + c i) -> (forall b i, (i < 3)%nat -> F' b i = F b i) ->
     lsum (fun b => vcross (r' b) (F' b) k) (points g) = lsum (fun b => vcross (r b) (F b) k) (points g) + vcross c (fun i => lsum (fun b => F b i) (points g)) k).
  { intros r r' F F' c Hr HF. rewrite (lsum_ext _ (fun b => vcross (r b) (F b) k + vcross c (F b) k)).
    - rewrite lsum_plus. f_equal. unfold vcross. destruct k as [|[|k']]; rewrite <- !lsum_scal;
        match goal with |- _ = ?a - ?b => replace (a - b) with (a + (-1) * b) by ring end; rewrite <- lsum_scal, <- lsum_plus; apply lsum_ext; intros; ring.
    - intros b Hb. unfold vcross. destruct k as [|[|k']]; rewrite !Hr, !HF by lia; ring. }
  rewrite (G (fun b i => if (i <? 3)%nat then q_x f (s_nn b) i - a_cen g i else 0) _ (fun b i => if (i <? 3)%nat then force 3 incl kappa f g b i else 0) _ (fun i => a_cen g i - a_cen g' i)).
  - f_equal. unfold vcross. destruct k as [|[|k']]; rewrite !T by lia; cbn [Nat.ltb Nat.leb]; reflexivity.
  - intros b i Hi. apply Nat.ltb_lt in Hi. rewrite Hi. ring.
  - intros b i Hi. apply Nat.ltb_lt in Hi. rewrite Hi. apply V.
Qed.
(** A uniform pressure exerts no net force on a closed surface. *)
Theorem C74_uniform_pressure_closed_surface algs g p0 k : length (a_pts g) = nr -> (k < n)%nat ->
  (forall a, q_p f a = p0) -> (forall b, In b (points g) -> lsum fst (s_N b) = 1) ->
  lsum (fun b => s_A b k) (points g) = 0 -> report_fm n nr incl kappa f algs g k = 0.
Proof.
  intros HL Hk Hp HN HA. rewrite C74_pressure_force by assumption. rewrite (lsum_ext _ (fun b => p0 * s_A b k)); [rewrite lsum_scal, HA; ring|].
  intros b Hb. unfold p_force, at_pt. rewrite (lsum_ext _ (fun p => p0 * fst p)) by (intros; rewrite Hp; ring). rewrite lsum_scal, HN by exact Hb. ring.
Qed.
(** A fluid in rigid-body motion exerts no viscous force on a resolved wall, and shows no shear stress there. *)
Theorem C74_rigid_motion_no_viscous_force algs g k : length (a_pts g) = nr -> (k < n)%nat -> a_wf g = false ->
  (forall a i j, q_dudx f a i j = - q_dudx f a j i) ->
  report_fm n nr incl kappa f algs g (3 + k) = 0 /\ forall b, k_tau (resolved n incl f b) = 0.
Proof.
  intros HL Hk Ew HS.
  assert (D : forall a j, q_dudx f a j j = 0) by (intros a j; specialize (HS a j j); lra).
  assert (Z : forall b A i, sumn n (fun j => (q_dudx f (s_nn b) i j + q_dudx f (s_nn b) j i) * A j) = 0).
  { intros b A i. apply sumn_zero. intros j _. rewrite (HS (s_nn b) i j). ring. }
  split.
  - rewrite C74_viscous_force by assumption. rewrite Ew. apply lsum_zero. intros b Hb. unfold v_force, viscous_flux.
    rewrite Z. rewrite (sumn_zero n (fun j => q_dudx f (s_nn b) j j)) by (intros; apply D). ring.
  - intros b. unfold resolved. cbn [k_tau].
    assert (T : forall j, fold_left (fun a k => a + - ipol b (q_mu f) * (q_dudx f (s_nn b) j k + q_dudx f (s_nn b) k j) * nrm n (s_A b) k) (seq 0 n) 0 = 0).
    { intros j. rewrite fold_seq_add. rewrite (sumn_zero n); [lra|]. intros l _. rewrite (HS (s_nn b) j l). ring. }
    rewrite sumn_zero; [apply sqrt_0|]. intros i Hi. rewrite fold_pick by exact Hi. rewrite T. rewrite (sumn_zero n); [ring|].
    intros j _. rewrite T. ring.
Qed.
(** Order and decomposition of the surface do not matter. *)
End Report.
Theorem C74_report_decomposition_free n nr nr' incl kappa f algs algs' g g' k : (n <= 3)%nat -> same_request nr nr' g g' -> (k < 9)%nat ->
  report_fm n nr incl kappa f algs g k = report_fm n nr' incl kappa f algs' g' k.
Proof.
  intros Hn (Ew & Ec & HL & HL' & Pm) Hk. rewrite (report_sum n nr), (report_sum n nr') by assumption.
  rewrite (Sum_Proofs.lsum_perm _ _ _ Pm). apply lsum_ext. intros b Hb. cbv zeta.
  assert (K : kern n incl kappa f g = kern n incl kappa f g') by (unfold kern; rewrite Ew; reflexivity). rewrite K.
  destruct (k <? 3)%nat; [reflexivity|]. destruct (k <? 6)%nat; [reflexivity|].
  unfold cross_product, pad. rewrite !Ec. reflexivity.
Qed.

(** * nodal fields *)
Section Nodal.
Variables (n nr : nat) (incl kappa : R) (f : sfields) (algs : list alg).
Hypothesis HL : forall g, In g algs -> length (a_pts g) = nr.

Lemma nodal_pf_sum a i : (i < n)%nat -> nodal_pressure_force n nr incl kappa f algs a i
  = lsum (fun g => lsum (fun b => if Nat.eqb (s_nn b) a then p_force f b i else 0) (points g)) algs.
Proof.
  intros Hi. unfold nodal_pressure_force. rewrite (sumn_ext nr _ (fun r => lsum (fun g => lsum (fun b => if Nat.eqb (s_nn b) a then p_force f b i else 0) (rank_pts g r)) algs)).
  - rewrite (sumn_lsum_swap nr (fun r g => lsum (fun b => if Nat.eqb (s_nn b) a then p_force f b i else 0) (rank_pts g r))).
    apply lsum_ext. intros g Hg. apply ranks_sum. auto.
  - intros r Hr. rewrite rank_fields_pf by exact Hi. apply lsum_ext. intros g Hg. apply lsum_ext. intros b Hb. rewrite kern_pf by exact Hi. reflexivity.
Qed.
(** The nodal pressure force field adds up to the reported pressure forces of all the requests. *)
Theorem C74_nodal_forces_add_up nodes i : (i < n)%nat -> (n <= 3)%nat -> NoDup nodes ->
  (forall g b, In g algs -> In b (points g) -> In (s_nn b) nodes) ->
  lsum (fun a => nodal_pressure_force n nr incl kappa f algs a i) nodes
  = lsum (fun g => report_fm n nr incl kappa f algs g i) algs.
Proof.
  intros Hi Hn ND HC. rewrite (lsum_ext _ _ _ (fun a _ => nodal_pf_sum a i Hi)). rewrite lsum_comm. apply lsum_ext. intros g Hg.
  rewrite lsum_comm. rewrite C74_pressure_force by (auto; lia). apply lsum_ext. intros b Hb. apply lsum_indicator; [exact ND|]. eapply HC; eassumption.
Qed.
Lemma lsum_div {A} (F : A -> R) l c : lsum F l / c = lsum (fun x => F x / c) l.
Proof. unfold Rdiv. rewrite Rmult_comm, <- lsum_scal. apply lsum_ext. intros; ring. Qed.
Lemma lsum_split_kind (F : alg -> R) l : lsum F l = lsum (fun g => if Bool.eqb (a_wf g) true then F g else 0) l + lsum (fun g => if Bool.eqb (a_wf g) false then F g else 0) l.
Proof. rewrite <- lsum_plus. apply lsum_ext. intros g _. destruct (a_wf g); cbn; lra. Qed.
Lemma kind_in g : In g algs -> forall b, In b (points g) -> In b (kind_points algs (a_wf g)).
Proof. intros Hg b Hb. unfold kind_points. apply in_flat_map. exists g. split; [|exact Hb]. apply filter_In. split; [exact Hg|apply eqb_reflx]. Qed.

Lemma nodal_gen (Q : spt -> contrib -> R) (W : nat -> nat -> R) a :
  (forall r, W r a = lsum (fun g => lsum (fun b => if Nat.eqb (s_nn b) a then Q b (kern n incl kappa f g b) * (k_am (kern n incl kappa f g b)/area_of n nr algs (a_wf g) a) else 0) (rank_pts g r)) algs) ->
  sumn nr (fun r => W r a)
  = node_mean n (kind_points algs true) (fun b => Q b (modelled n kappa f b)) a
  + node_mean n (kind_points algs false) (fun b => Q b (resolved n incl f b)) a.
Proof.
  intros HW. rewrite (sumn_ext nr _ _ (fun r _ => HW r)).
  rewrite (sumn_lsum_swap nr (fun r g => lsum (fun b => if Nat.eqb (s_nn b) a then Q b (kern n incl kappa f g b) * (k_am (kern n incl kappa f g b)/area_of n nr algs (a_wf g) a) else 0) (rank_pts g r))).
  rewrite lsum_split_kind. unfold node_mean. rewrite !lsum_div. f_equal.
  - rewrite <- lsum_kind. apply lsum_ext. intros g Hg. destruct (Bool.eqb (a_wf g) true) eqn:E; [|reflexivity]. apply eqb_prop in E.
    rewrite ranks_sum by auto. apply lsum_ext. intros b Hb. rewrite E, area_of_sum by exact HL. rewrite kern_am. unfold kern. rewrite E.
    destruct (Nat.eqb (s_nn b) a); unfold Rdiv; ring.
  - rewrite <- lsum_kind. apply lsum_ext. intros g Hg. destruct (Bool.eqb (a_wf g) false) eqn:E; [|reflexivity]. apply eqb_prop in E.
    rewrite ranks_sum by auto. apply lsum_ext. intros b Hb. rewrite E, area_of_sum by exact HL. rewrite kern_am. unfold kern. rewrite E.
    destruct (Nat.eqb (s_nn b) a); unfold Rdiv; ring.
Qed.
(** What the nodal fields are, on every node: the area-weighted mean over the wall-function points of the node plus the
    area-weighted mean over its resolved points. *)
Theorem C74_nodal_fields a :
  nodal_tau_wall n nr incl kappa f algs a
  = node_mean n (kind_points algs true) (fun b => k_tau (modelled n kappa f b)) a + node_mean n (kind_points algs false) (fun b => k_tau (resolved n incl f b)) a /\
  nodal_yplus n nr incl kappa f algs a
  = node_mean n (kind_points algs true) (fun b => k_yplus (modelled n kappa f b)) a + node_mean n (kind_points algs false) (fun b => k_yplus (resolved n incl f b)) a.
Proof.
  split.
  - apply (nodal_gen (fun _ c => k_tau c) (fun r a => snd (fst (rank_fields n nr incl kappa f algs r)) a)). intros r. apply rank_fields_tau.
  - apply (nodal_gen (fun _ c => k_yplus c) (fun r a => snd (rank_fields n nr incl kappa f algs r) a)). intros r. apply rank_fields_yp.
Qed.
Lemma node_mean_none pts q a : (forall b, In b pts -> s_nn b <> a) -> node_mean n pts q a = 0.
Proof.
  intros H. unfold node_mean. rewrite (lsum_zero (fun b => if Nat.eqb (s_nn b) a then amag n (s_A b) * q b else 0)); [unfold Rdiv; ring|].
  intros b Hb. destruct (Nat.eqb_spec (s_nn b) a); [|reflexivity]. exfalso. exact (H b Hb e).
Qed.
Lemma lsum_le {A} (F G : A -> R) l : (forall x, In x l -> F x <= G x) -> lsum F l <= lsum G l.
Proof. induction l as [|x l IH]; intros H; [unfold lsum; cbn; lra|]. rewrite !Sum_Proofs.lsum_cons. pose proof (H x (or_introl eq_refl)). assert (lsum F l <= lsum G l) by (apply IH; intros; apply H; now right). lra. Qed.
Lemma node_area_pos pts a : (forall b, In b pts -> 0 < amag n (s_A b)) -> (exists b, In b pts /\ s_nn b = a) -> 0 < node_area n pts a.
Proof.
  unfold node_area. induction pts as [|b pts IH]; intros Hp (b0 & Hb & E); [destruct Hb|]. rewrite Sum_Proofs.lsum_cons.
  assert (N : 0 <= lsum (fun b => if Nat.eqb (s_nn b) a then amag n (s_A b) else 0) pts).
  { assert (Z := lsum_zero (fun _ : spt => 0) pts (fun _ _ => eq_refl)). rewrite <- Z. apply lsum_le. intros x Hx. destruct (Nat.eqb (s_nn x) a); [|lra]. apply Rlt_le, Hp. now right. }
  destruct Hb as [->|Hb].
  - rewrite E, Nat.eqb_refl. pose proof (Hp b0 (or_introl eq_refl)). lra.
  - assert (0 < lsum (fun b => if Nat.eqb (s_nn b) a then amag n (s_A b) else 0) pts) by (apply IH; [intros; apply Hp; now right|exists b0; auto]).
    destruct (Nat.eqb (s_nn b) a); [pose proof (Hp b (or_introl eq_refl))|]; lra.
Qed.
Lemma node_mean_between pts q a lo hi : (forall b, In b pts -> 0 < amag n (s_A b)) -> (exists b, In b pts /\ s_nn b = a) ->
  (forall b, In b pts -> s_nn b = a -> lo <= q b <= hi) -> lo <= node_mean n pts q a <= hi.
Proof.
  intros Hp He Hq. pose proof (node_area_pos pts a Hp He) as P. unfold node_mean.
  assert (L : lo * node_area n pts a <= lsum (fun b => if Nat.eqb (s_nn b) a then amag n (s_A b) * q b else 0) pts).
  { unfold node_area. rewrite <- lsum_scal. apply lsum_le. intros b Hb. destruct (Nat.eqb_spec (s_nn b) a) as [E|E]; [|lra].
    pose proof (Hp b Hb). destruct (Hq b Hb E). rewrite Rmult_comm. apply Rmult_le_compat_l; lra. }
  assert (U : lsum (fun b => if Nat.eqb (s_nn b) a then amag n (s_A b) * q b else 0) pts <= hi * node_area n pts a).
  { unfold node_area. rewrite <- lsum_scal. apply lsum_le. intros b Hb. destruct (Nat.eqb_spec (s_nn b) a) as [E|E]; [|lra].
    pose proof (Hp b Hb). destruct (Hq b Hb E). rewrite (Rmult_comm hi). apply Rmult_le_compat_l; lra. }
  split; [apply RUtil.Rle_div_r|apply RUtil.Rle_div_l]; assumption.
Qed.
(** Where only one kind of request touches a node, its wall shear stress and y+ lie in the range of the point values there
    (so neither depends on the size of the faces, nor on how many requests name them). *)
Theorem C74_nodal_values_between wf a tlo thi ylo yhi :
  let pts := kind_points algs wf in
  (forall b, In b pts -> 0 < amag n (s_A b)) -> (exists b, In b pts /\ s_nn b = a) ->
  (forall b, In b (kind_points algs (negb wf)) -> s_nn b <> a) ->
  (forall g b, In g algs -> a_wf g = wf -> In b (points g) -> s_nn b = a ->
     tlo <= k_tau (kern n incl kappa f g b) <= thi /\ ylo <= k_yplus (kern n incl kappa f g b) <= yhi) ->
  tlo <= nodal_tau_wall n nr incl kappa f algs a <= thi /\ ylo <= nodal_yplus n nr incl kappa f algs a <= yhi.
Proof.
  intros pts Hp He Ho HB.
  assert (HQ : forall b, In b pts -> s_nn b = a -> tlo <= k_tau (if wf then modelled n kappa f b else resolved n incl f b) <= thi /\ ylo <= k_yplus (if wf then modelled n kappa f b else resolved n incl f b) <= yhi).
  { intros b Hb E. unfold pts, kind_points in Hb. apply in_flat_map in Hb. destruct Hb as (g & Hg & Hb). apply filter_In in Hg. destruct Hg as (Hg & Ew). apply eqb_prop in Ew.
    specialize (HB g b Hg Ew Hb E). unfold kern in HB. rewrite Ew in HB. destruct wf; exact HB. }
  destruct (C74_nodal_fields a) as (-> & ->). subst pts. destruct wf; cbn [negb] in Ho.
  - rewrite !(node_mean_none (kind_points algs false)) by exact Ho. rewrite !Rplus_0_r. split; apply node_mean_between; try assumption; intros b Hb E; apply (HQ b Hb E).
  - rewrite !(node_mean_none (kind_points algs true)) by exact Ho. rewrite !Rplus_0_l. split; apply node_mean_between; try assumption; intros b Hb E; apply (HQ b Hb E).
Qed.
Theorem C74_untouched_node a : (forall g b, In g algs -> In b (points g) -> s_nn b <> a) ->
  nodal_tau_wall n nr incl kappa f algs a = 0 /\ nodal_yplus n nr incl kappa f algs a = 0 /\
  forall i, (i < n)%nat -> nodal_pressure_force n nr incl kappa f algs a i = 0.
Proof.
  intros H. assert (K : forall wf b, In b (kind_points algs wf) -> s_nn b <> a).
  { intros wf b Hb. apply in_flat_map in Hb. destruct Hb as (g & Hg & Hb). apply filter_In in Hg. apply (H g b); tauto. }
  destruct (C74_nodal_fields a) as (-> & ->). rewrite !node_mean_none by apply K. split; [lra|]. split; [lra|]. intros i Hi.
  rewrite nodal_pf_sum by exact Hi. apply lsum_zero. intros g Hg. apply lsum_zero. intros b Hb. destruct (Nat.eqb_spec (s_nn b) a); [|reflexivity].
  exfalso. exact (H g b Hg Hb e).
Qed.
End Nodal.
