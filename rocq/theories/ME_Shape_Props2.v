(** * C30 (continued): consequences, the rational pyramid, interpolatePoint, node maps *)
From Coq Require Import Reals List Arith Lra Lia Psatz.
From Coquelicot Require Import Coquelicot.
From Verif Require Import ME_Model ME_Shape_Model ME_Shape_Spec ME_Shape_Props.
Import ListNotations.
Local Open Scope R_scope.

(** ** What a nodal basis gives, for any of the elements *)
Lemma interp_lin n N s f g a b :
  interp n N s (fun i => a * f i + b * g i) = a * interp n N s f + b * interp n N s g.
Proof. unfold interp, rsum. induction (seq 0 n) as [|i l IH]; cbn [map fold_right]; [ring|rewrite IH; ring]. Qed.
Lemma interp_ext n N s f g : (forall i, (i < n)%nat -> f i = g i) -> interp n N s f = interp n N s g.
Proof.
  unfold interp. intros H. f_equal. apply map_ext_in. intros i Hi. apply in_seq in Hi. rewrite H by lia. reflexivity.
Qed.
Lemma interp_const n N s a : interp n N s (fun _ => a) = a * rsum (map (N s) (seq 0 n)).
Proof. unfold interp, rsum. induction (seq 0 n) as [|i l IH]; cbn [map fold_right]; [ring|rewrite IH; ring]. Qed.

(** Interpolation is exact for affine fields. *)
Theorem C30_affine_fields_exact : forall n d dom node N s a b f,
  nodal_basis n d dom node N -> dom s -> (d <= 3)%nat ->
  (forall i, (i < n)%nat -> f i = a + rsum (map (fun c => b c * comp c (node i)) (seq 0 d))) ->
  interp n N s f = a + rsum (map (fun c => b c * comp c s) (seq 0 d)).
Proof.
  intros n d dom node N s a b f [U K L] Hs Hd Hf.
  rewrite (interp_ext n N s f (fun i => a + rsum (map (fun c => b c * comp c (node i)) (seq 0 d)))) by exact Hf.
  assert (G : forall l, (forall c, In c l -> (c < d)%nat) ->
    interp n N s (fun i => a + rsum (map (fun c => b c * comp c (node i)) l))
    = a + rsum (map (fun c => b c * comp c s) l)).
  { induction l as [|c l IH]; intros Hl.
    - cbn. rewrite (interp_ext _ _ _ _ (fun _ => a)) by (intros; ring).
      rewrite interp_const, U by exact Hs. ring.
    - cbn [map rsum fold_right].
      rewrite (interp_ext _ _ _ _ (fun i => 1 * (a + rsum (map (fun c => b c * comp c (node i)) l)) + b c * comp c (node i)))
        by (intros; cbn [rsum]; unfold rsum; ring).
      rewrite interp_lin. rewrite L by (auto with datatypes).
      rewrite IH by auto with datatypes. unfold rsum. ring. }
  apply G. intros c Hc. apply in_seq in Hc. lia.
Qed.
(** The derivative table sums to zero in every direction (gradient of a constant is zero). *)
Theorem C30_derivatives_sum_to_zero : forall n d N D s c,
  derivative_table n d everywhere N D -> (forall p, rsum (map (N p) (seq 0 n)) = 1) -> (c < d)%nat ->
  rsum (map (fun i => D s i c) (seq 0 n)) = 0.
Proof.
  intros n d N D s c HD U Hc.
  assert (G : forall l, (forall i, In i l -> (i < n)%nat) ->
     derivable_pt_lim (fun h => rsum (map (N (shift c h s)) l)) 0 (rsum (map (fun i => D s i c) l))).
  { induction l as [|i l IH]; intros Hl.
    - cbn. apply (derivable_pt_lim_const 0).
    - cbn. apply (derivable_pt_lim_plus (fun h => N (shift c h s) i) (fun h => rsum (map (N (shift c h s)) l))).
      + apply HD; [exact I|apply Hl; left; reflexivity|exact Hc].
      + apply IH. intros k Hk. apply Hl. right. exact Hk. }
  specialize (G (seq 0 n) (fun i Hi => proj2 (proj1 (in_seq n 0 i) Hi))).
  eapply uniqueness_limite; [exact G|].
  intros e He. exists (mkposreal 1 Rlt_0_1). intros h Hh _. rewrite !U.
  replace ((1 - 1) / h - 0) with 0 by (field; exact Hh). rewrite Rabs_R0. exact He.
Qed.
(** Weights that are non-negative never over- or undershoot the nodal values. *)
Theorem C30_no_overshoot : forall n N s f lo hi,
  (forall i, (i < n)%nat -> 0 <= N s i) -> rsum (map (N s) (seq 0 n)) = 1 ->
  (forall i, (i < n)%nat -> lo <= f i <= hi) -> lo <= interp n N s f <= hi.
Proof.
  intros n N s f lo hi P U B.
  assert (G : forall l, (forall i, In i l -> (i < n)%nat) ->
    lo * rsum (map (N s) l) <= rsum (map (fun i => N s i * f i) l) <= hi * rsum (map (N s) l)).
  { induction l as [|i l IH]; intros Hl; [cbn; lra|].
    cbn [map rsum fold_right]. specialize (IH (fun k Hk => Hl k (or_intror Hk))).
    specialize (P i (Hl i (or_introl eq_refl))). specialize (B i (Hl i (or_introl eq_refl))).
    unfold rsum in *. nra. }
  specialize (G (seq 0 n) (fun i Hi => proj2 (proj1 (in_seq n 0 i) Hi))).
  rewrite U in G. unfold interp. lra.
Qed.

(** ** The linear shape functions are non-negative on the reference element *)
Ltac pos := repeat apply Rmult_le_pos; lra.
Theorem C30_linear_elements_nonnegative : forall s i,
  (in_simplex2 s -> 0 <= tri3_shape s i) /\
  (in_box2 (1/2) s -> 0 <= quad4_shape s i) /\
  (in_box2 1 s -> 0 <= quad4g_shape s i) /\
  (in_simplex3 s -> 0 <= tet4_shape s i) /\
  (in_box3 (1/2) s -> 0 <= hex8_shape s i) /\
  (in_box3 1 s -> 0 <= hex8g_shape s i) /\
  (in_wedge s -> 0 <= wed6_shape s i).
Proof.
  intros s i.
  assert (Q : in_box2 1 s -> 0 <= quad4g_shape s i).
  { unfold in_box2, quad4g_shape. intros H. do 4 (destruct i as [|i]; [pos|]). lra. }
  assert (H8 : in_box3 1 s -> 0 <= hex8g_shape s i).
  { unfold in_box3, hex8g_shape. intros H. do 8 (destruct i as [|i]; [pos|]). lra. }
  repeat split; try assumption.
  - unfold in_simplex2, tri3_shape. intros H. do 3 (destruct i as [|i]; [lra|]). lra.
  - unfold in_box2. intros H.
    replace (quad4_shape s i) with (quad4g_shape (vscale 2 s) i)
      by (unfold quad4_shape, quad4g_shape, vscale; do 4 (destruct i as [|i]; [cbn; field|]); reflexivity).
    clear Q H8. unfold quad4g_shape, vscale; cbn [vx vy vz]. do 4 (destruct i as [|i]; [pos|]). lra.
  - unfold in_simplex3, tet4_shape. intros H. do 4 (destruct i as [|i]; [lra|]). lra.
  - unfold in_box3. intros H.
    replace (hex8_shape s i) with (hex8g_shape (vscale 2 s) i)
      by (unfold hex8_shape, hex8g_shape, vscale; do 8 (destruct i as [|i]; [cbn; field|]); reflexivity).
    clear Q H8. unfold hex8g_shape, vscale; cbn [vx vy vz]. do 8 (destruct i as [|i]; [pos|]). lra.
  - unfold in_wedge, in_simplex2, wed6_shape. intros H. do 6 (destruct i as [|i]; [pos|]). lra.
Qed.

(** The half-range and the full-range families of quadrilaterals and hexahedra are the same
    functions after the scaling by two (scaleToStandardIsoFac_). *)
Theorem C30_half_range_is_scaled_full_range : forall s i,
  quad4_shape s i = quad4g_shape (vscale 2 s) i /\ hex8_shape s i = hex8g_shape (vscale 2 s) i.
Proof.
  intros s i. split.
  - unfold quad4_shape, quad4g_shape, vscale; do 4 (destruct i as [|i]; [cbn; field|]); reflexivity.
  - unfold hex8_shape, hex8g_shape, vscale; do 8 (destruct i as [|i]; [cbn; field|]); reflexivity.
Qed.

(** ** The rational pyramid *)
Definition off_apex (s : vec) : Prop := dbl_epsilon < Rabs (1 - vz s).
Lemma eps_pos : 0 < dbl_epsilon. Proof. unfold dbl_epsilon. lra. Qed.
Lemma eps_small : dbl_epsilon < 1/1000. Proof. unfold dbl_epsilon. lra. Qed.
Lemma pyr_t_off t : dbl_epsilon < Rabs (1 - t) -> pyr_t t = t.
Proof. intros H. unfold pyr_t. cbv zeta. destruct (Rlt_dec dbl_epsilon (Rabs (1 - t))); [reflexivity|contradiction]. Qed.
Lemma pyr_t_ne t : pyr_t t <> 1.
Proof.
  pose proof eps_pos. unfold pyr_t. cbv zeta.
  destruct (Rlt_dec dbl_epsilon (Rabs (1 - t))) as [h|h].
  - intros ->. rewrite Rminus_eq_0, Rabs_R0 in h. lra.
  - unfold copysign_eps. destruct (Rlt_dec (1 - t) 0); lra.
Qed.
Lemma pyr_t_near t : Rabs (pyr_t t - t) <= 2 * dbl_epsilon.
Proof.
  pose proof eps_pos. unfold pyr_t. cbv zeta.
  destruct (Rlt_dec dbl_epsilon (Rabs (1 - t))) as [h|h].
  - rewrite Rminus_eq_0, Rabs_R0. lra.
  - unfold copysign_eps. apply Rnot_lt_le in h. apply Rabs_le_between in h.
    destruct (Rlt_dec (1 - t) 0); apply Rabs_le; lra.
Qed.
(** Partition of unity and in-plane coordinates hold at every point, apex included. *)
Theorem C30_pyr5_unity : forall s, rsum (map (pyr5_shape s) (seq 0 5)) = 1 /\
  (forall c, (c < 2)%nat -> interp 5 pyr5_shape s (fun i => comp c (pyr5_nodes i)) = comp c s).
Proof.
  intros s. pose proof (pyr_t_ne (vz s)) as H. split.
  - unfold pyr5_shape. red_shape. generalize dependent (pyr_t (vz s)). intros t Ht. field. lra.
  - intros c Hc. unfold interp, pyr5_shape, comp. node_unfold. red_shape.
    generalize dependent (pyr_t (vz s)). intros t Ht.
    do 2 (destruct c as [|c]; [field; lra|try lia]).
Qed.
(** Off the apex it is a nodal basis with the derivatives of the table. *)
Theorem C30_pyr5_basis : nodal_basis 5 3 off_apex pyr5_nodes pyr5_shape.
Proof.
  constructor.
  - intros s _. apply C30_pyr5_unity.
  - intros i j Hi Hj Ho. unfold off_apex in Ho.
    assert (j < 4)%nat.
    { destruct (Nat.eq_dec j 4) as [->|]; [|lia]. cbn in Ho. rewrite Rminus_eq_0, Rabs_R0 in Ho. pose proof eps_pos. lra. }
    unfold pyr5_shape. rewrite (pyr_t_off _ Ho). node_unfold. clear Ho.
    repeat (destruct j as [|j]; [ solve [repeat (destruct i as [|i]; [ solve [red_shape; field] | try (exfalso; lia)])] | try (exfalso; lia)]).
  - intros s c Ho Hc.
    destruct (Nat.eq_dec c 2) as [->|]; [|apply C30_pyr5_unity; lia].
    unfold interp, pyr5_shape, comp, off_apex in *. rewrite (pyr_t_off _ Ho). node_unfold. red_shape.
    field. intros E. rewrite E, Rabs_R0 in Ho. pose proof eps_pos. lra.
Qed.
Lemma pyr_t_locally t : dbl_epsilon < Rabs (1 - t) ->
  exists d : posreal, forall h, Rabs h < d -> pyr_t (t + h) = t + h.
Proof.
  intros H. assert (P : 0 < Rabs (1 - t) - dbl_epsilon) by lra.
  exists (mkposreal _ P). cbn. intros h Hh. apply pyr_t_off.
  replace (1 - (t + h)) with ((1 - t) - h) by ring.
  pose proof (Rabs_triang_inv (1 - t) h). lra.
Qed.
Lemma dpl_local (f g : R -> R) l (d : posreal) :
  (forall h, Rabs h < d -> f h = g h) -> derivable_pt_lim g 0 l -> derivable_pt_lim f 0 l.
Proof.
  intros E H e He. destruct (H e He) as [d' Hd'].
  exists (mkposreal _ (Rmin_stable_in_posreal d d')). cbn. intros h Hh Hm.
  rewrite !E.
  - apply Hd'; [exact Hh|]. eapply Rlt_le_trans; [exact Hm|apply Rmin_r].
  - rewrite Rabs_R0. apply cond_pos.
  - rewrite Rplus_0_l. eapply Rlt_le_trans; [exact Hm|apply Rmin_l].
Qed.
Theorem C30_pyr5_derivatives : derivative_table 5 3 off_apex pyr5_shape pyr5_deriv.
Proof.
  intros s i c Ho Hi Hc. unfold off_apex in Ho.
  assert (Hne : 1 - vz s <> 0). { intros E. rewrite E, Rabs_R0 in Ho. pose proof eps_pos. lra. }
  destruct (pyr_t_locally _ Ho) as [d Hd].
  pose (N := fun s i => let r := vx s in let s_ := vy s in let t := vz s in
     let quarter_inv_tm1 := (1/4) / (1 - t) in
     match i with
     | 0%nat => (1 - r - t) * (1 - s_ - t) * quarter_inv_tm1
     | 1%nat => (1 + r - t) * (1 - s_ - t) * quarter_inv_tm1
     | 2%nat => (1 + r - t) * (1 + s_ - t) * quarter_inv_tm1
     | 3%nat => (1 - r - t) * (1 + s_ - t) * quarter_inv_tm1
     | 4%nat => t
     | _ => 0
     end).
  apply (dpl_local _ (fun h => N (shift c h s) i) _ d).
  - intros h Hh. unfold pyr5_shape, N.
    replace (pyr_t (vz (shift c h s))) with (vz (shift c h s)); [reflexivity|].
    do 3 (destruct c as [|c]; [cbn; symmetry; try (apply pyr_t_off; exact Ho); apply Hd; exact Hh|try lia]).
  - apply is_derive_Reals. unfold pyr5_deriv, N. rewrite (pyr_t_off _ Ho). unfold shift.
    clear Ho d Hd N.
    repeat (destruct c as [|c]; [ solve [repeat (destruct i as [|i]; [
      solve [cbn [vx vy vz]; auto_derive; [try trivial; repeat split; try lra; rewrite ?Rplus_0_r; try exact Hne
             | rewrite ?Rplus_0_r; field; lra]] | try (exfalso; lia)])] | try (exfalso; lia)]).
Qed.
(** At the apex itself the formula is evaluated one epsilon beyond it: the weights are (1+eps) and
    -eps/4, not (1) and 0; the deviation is at most eps. *)
Theorem C30_pyr5_apex_refuted :
  pyr5_shape (V 0 0 1) 4 = 1 + dbl_epsilon /\ pyr5_shape (V 0 0 1) 0 = - dbl_epsilon / 4 /\
  pyr5_shape (V 0 0 1) 0 < 0.
Proof.
  pose proof eps_pos.
  assert (T : pyr_t 1 = 1 + dbl_epsilon).
  { unfold pyr_t. cbv zeta. rewrite Rminus_eq_0, Rabs_R0.
    destruct (Rlt_dec dbl_epsilon 0); [lra|]. unfold copysign_eps. destruct (Rlt_dec 0 0); lra. }
  assert (A : pyr5_shape (V 0 0 1) 0 = - dbl_epsilon / 4).
  { unfold pyr5_shape. cbn [vx vy vz]. rewrite T. field. lra. }
  repeat split; [unfold pyr5_shape; cbn [vx vy vz]; exact T|exact A|rewrite A; lra].
Qed.
Theorem C30_pyr5_apex_within_epsilon : forall i, (i < 5)%nat ->
  Rabs (pyr5_shape (V 0 0 1) i - (if Nat.eqb i 4 then 1 else 0)) <= dbl_epsilon.
Proof.
  intros i Hi. pose proof eps_pos.
  assert (T : pyr_t 1 = 1 + dbl_epsilon).
  { unfold pyr_t. cbv zeta. rewrite Rminus_eq_0, Rabs_R0.
    destruct (Rlt_dec dbl_epsilon 0); [lra|]. unfold copysign_eps. destruct (Rlt_dec 0 0); lra. }
  unfold pyr5_shape. cbn [vx vy vz]. rewrite T.
  do 4 (destruct i as [|i]; [cbn [Nat.eqb];
    match goal with |- Rabs ?x <= _ => replace x with (- dbl_epsilon / 4) by (field; lra) end; apply Rabs_le; lra|]).
  destruct i as [|i]; [|lia]. cbn [Nat.eqb]. apply Rabs_le. lra.
Qed.
(** Inside the pyramid and off the apex the weights are non-negative. *)
Theorem C30_pyr5_nonnegative : forall s i, in_pyramid s -> off_apex s -> 0 <= pyr5_shape s i.
Proof.
  intros s i (Hz & Hx & Hy) Ho. pose proof eps_pos. unfold off_apex in Ho.
  assert (0 < 1 - vz s). { destruct (Rle_lt_or_eq_dec 0 (1 - vz s)) as [|E]; [lra|assumption|]. rewrite <- E, Rabs_R0 in Ho. lra. }
  apply Rabs_le_between in Hx, Hy. unfold pyr5_shape. rewrite (pyr_t_off _ Ho).
  assert (0 < 1/4/(1 - vz s)) by (apply Rdiv_lt_0_compat; lra).
  do 4 (destruct i as [|i]; [repeat apply Rmult_le_pos; lra|]). destruct i; lra.
Qed.
(** The shifted (collapsed) pyramid functions add up to one and take the value 1 at their own node
    and 0 at the other corners, but do not reproduce the parametric coordinates. *)
Theorem C30_pyr5_shifted_partial :
  (forall s, rsum (map (pyr5s_shape s) (seq 0 5)) = 1) /\
  (forall i j, (i < 5)%nat -> (j < 5)%nat -> pyr5s_shape (pyr5_nodes j) i = if Nat.eqb i j then 1 else 0).
Proof.
  split.
  - intros s. unfold pyr5s_shape. red_shape. field.
  - intros i j Hi Hj.
    repeat (destruct j as [|j]; [ solve [repeat (destruct i as [|i]; [ solve [unfold pyr5s_shape; node_unfold; red_shape; field] | try (exfalso; lia)])] | try (exfalso; lia)]).
Qed.
Theorem C30_pyr5_shifted_not_linear_refuted :
  ~ (forall s, interp 5 pyr5s_shape s (fun i => comp 0 (pyr5_nodes i)) = comp 0 s).
Proof.
  intros H. specialize (H (V 1 0 (1/2))). revert H. unfold interp, pyr5s_shape, comp. node_unfold. red_shape. lra.
Qed.

(** ** interpolatePoint is interpolation with the shape functions *)
Theorem C30_interpolate_point : forall s f,
  quad4_interpolate s f = interp 4 quad4g_shape s f /\
  hex8_interpolate s f = interp 8 hex8g_shape s f /\
  tet4_interpolate s f = interp 4 tet4_shape s f /\
  wed6_interpolate s f = interp 6 wed6_shape s f /\
  pyr5_interpolate s f = interp 5 pyr5_shape s f /\
  tri3_interpolate s f = interp 3 tri3_shape s f /\
  edge2_interpolate s f = interp 2 edge2_shape s f /\
  tet10_interpolate s f = interp 10 tet10_shape s f.
Proof.
  intros s f.
  repeat split;
  unfold quad4_interpolate, hex8_interpolate, tet4_interpolate, wed6_interpolate, pyr5_interpolate, tri3_interpolate,
    edge2_interpolate, tet10_interpolate, interp; cbn [seq map rsum fold_right fold_left]; try ring;
  unfold quad4g_shape, hex8g_shape, tet4_shape, tri3_shape, edge2_shape, tet10_shape; field.
Qed.

(** ** Node maps of the tensor-product elements: position (i,j[,k]) on the 3-point grid is the node at
    parametric coordinates (i-1, j-1[, k-1]); every node appears once. *)
Theorem C30_node_maps :
  (forall i j, (i < 3)%nat -> (j < 3)%nat ->
     quad9_nodes (nth (i + 3 * j) quad9_node_map 0%nat) = V (INR i - 1) (INR j - 1) 0) /\
  (forall i j k, (i < 3)%nat -> (j < 3)%nat -> (k < 3)%nat ->
     hex27_nodes (nth (i + 3 * (j + 3 * k)) hex27_node_map 0%nat) = V (INR i - 1) (INR j - 1) (INR k - 1)).
Proof.
  split.
  - intros i j Hi Hj.
    do 3 (destruct i as [|i]; [do 3 (destruct j as [|j]; [cbn -[Rminus]; f_equal; cbn; ring|try lia])|try lia]).
  - intros i j k Hi Hj Hk.
    do 3 (destruct i as [|i]; [do 3 (destruct j as [|j]; [do 3 (destruct k as [|k]; [cbn -[Rminus]; f_equal; cbn; ring|try lia])|try lia])|try lia]).
Qed.

(** The extra nodes in the side tables of the quadratic elements are the midpoints of the side's
    edges (in order), and for Hex27 the centre of the side. *)
Definition mid2 (a b : vec) := vscale (1/2) (vadd a b).
Local Lemma vec_ext a b : vx a = vx b -> vy a = vy b -> vz a = vz b -> a = b.
Proof. destruct a, b; cbn; intros -> -> ->; reflexivity. Qed.
Ltac each_side k := repeat (destruct k as [|k]; [ solve [repeat match goal with |- _ /\ _ => split end; node_unfold; apply vec_ext; cbn; field] | try (exfalso; lia)]).
Theorem C30_quadratic_side_nodes :
  (forall k, (k < 4)%nat -> let n i := quad9_nodes (nth i (nth k quad9_side_nodes []) 0%nat) in
     n 2%nat = mid2 (n 0%nat) (n 1%nat)) /\
  (forall k, (k < 4)%nat -> let n i := tet10_nodes (nth i (nth k tet10_side_nodes []) 0%nat) in
     n 3%nat = mid2 (n 0%nat) (n 1%nat) /\ n 4%nat = mid2 (n 1%nat) (n 2%nat) /\ n 5%nat = mid2 (n 2%nat) (n 0%nat)) /\
  (forall k, (k < 6)%nat -> let n i := hex27_nodes (nth i (nth k hex27_side_nodes []) 0%nat) in
     n 4%nat = mid2 (n 0%nat) (n 1%nat) /\ n 5%nat = mid2 (n 1%nat) (n 2%nat) /\ n 6%nat = mid2 (n 2%nat) (n 3%nat) /\
     n 7%nat = mid2 (n 3%nat) (n 0%nat) /\ n 8%nat = mid2 (n 0%nat) (n 2%nat)).
Proof. unfold mid2. split; [|split]; intros k Hk; cbv zeta; each_side k. Qed.

(** Non-vacuity: a concrete interpolation. *)
Example C30_example : interp 8 hex8g_shape (V (1/2) 0 (-1/2)) (fun i => 3 + 2 * vx (hex8_nodes 1 i)) = 4.
Proof. unfold interp, hex8g_shape. node_unfold. red_shape. field. Qed.
