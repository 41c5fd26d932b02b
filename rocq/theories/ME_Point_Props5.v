(** * C33 (continued): wedges, pyramids, quadratic elements *)
From Coq Require Import Reals List Arith Lra Lia Psatz.
From Verif Require Import ME_Model ME_Shape_Model ME_Shape_Spec ME_Shape_Props ME_Shape_Props2 ME_Point_Model ME_Point_Spec ME_Point_Props ME_Point_Props3 ME_Point_Props4.
From Verif Require Tensor_Model.
Import ListNotations.
Local Open Scope R_scope.

Lemma big : 1 < dbl_max.
Proof. destruct (C33_failure_is_outside hex_dist (fun _ => None) 1 vzero eq_refl) as [_ h]. exact h. Qed.

(** ** Wedge *)
Definition wed_mixed (e : nat -> vec) (q : vec -> R) (k : nat) : R :=
  match k with 0%nat => 1/2 * (q (e 4%nat) - q (e 3%nat) - q (e 1%nat) + q (e 0%nat))
             | _ => 1/2 * (q (e 5%nat) - q (e 3%nat) - q (e 2%nat) + q (e 0%nat)) end.
Lemma wed_taylor e p s w (x := vx w - vx s) (y := vy w - vy s) (z := vz w - vz s) :
  let G q := wed_mixed e q 0 * (z*x) + wed_mixed e q 1 * (y*z) in
  vx (place 6 wed6_shape e w) - vx p
    = - (wed6_res e p s 0%nat + (wed6_jac e s 0%nat * x + wed6_jac e s 1%nat * y + wed6_jac e s 2%nat * z)) + G vx /\
  vy (place 6 wed6_shape e w) - vy p
    = - (wed6_res e p s 1%nat + (wed6_jac e s 3%nat * x + wed6_jac e s 4%nat * y + wed6_jac e s 5%nat * z)) + G vy /\
  vz (place 6 wed6_shape e w) - vz p
    = - (wed6_res e p s 2%nat + (wed6_jac e s 6%nat * x + wed6_jac e s 7%nat * y + wed6_jac e s 8%nat * z)) + G vz.
Proof.
  cbv zeta. unfold x, y, z. clear x y z. shape_red. unfold wed6_shape, wed6_res, wed6_jac, sum15, wed6_shape, wed6_deriv, wed_mixed. cbn [vx vy vz].
  repeat split; field.
Qed.
Theorem C33_wedge_residual : forall e p c D, coords_within 6 D e c ->
  let r := wed6_is_in_element e p in f_dist r < dbl_max ->
  near (2/10^16 * D) (place 6 wed6_shape e (f_par r)) p.
Proof.
  intros e p c D HC. cbv zeta. unfold wed6_is_in_element. intros H.
  apply report_found in H. destruct H as [a [E [N _]]].
  set (w := f_par _) in *. clearbody w.
  apply wed_update_eq in E. destruct E as [E1 [E2 E3]].
  destruct (wed_taylor e p a w) as [T1 [T2 T3]].
  destruct (step_bounds _ _ N) as [Bxy [Byz [Bzx _]]].
  assert (HD : 0 <= D). { specialize (HC 0%nat ltac:(lia)). pose proof (Rabs_pos (vx (e 0%nat) - vx c)). lra. }
  assert (G : forall q, (forall i, (i < 6)%nat -> Rabs (q (e i) - q c) <= D) ->
    Rabs (wed_mixed e q 0 * ((vz w - vz a)*(vx w - vx a)) + wed_mixed e q 1 * ((vy w - vy a)*(vz w - vz a))) <= 2/10^16 * D).
  { intros q Hq.
    assert (B : forall i, (i < 6)%nat -> q c - D <= q (e i) <= q c + D).
    { intros i Hi. specialize (Hq i Hi). apply Rabs_le_iff in Hq. lra. }
    assert (B0 := B 0%nat ltac:(lia)). assert (B1 := B 1%nat ltac:(lia)). assert (B2 := B 2%nat ltac:(lia)).
    assert (B3 := B 3%nat ltac:(lia)). assert (B4 := B 4%nat ltac:(lia)). assert (B5 := B 5%nat ltac:(lia)).
    eapply Rle_trans.
    - apply sum_bound.
      + apply (prod_bound _ _ (2*D)); [unfold wed_mixed; apply Rabs_le_iff; lra|exact Bzx].
      + apply (prod_bound _ _ (2*D)); [unfold wed_mixed; apply Rabs_le_iff; lra|exact Byz].
    - unfold converged_tol. lra. }
  unfold near. rewrite T1, T2, T3, E1, E2, E3.
  assert (Z : forall r g, - (r + - r) + g = g) by (intros; ring). rewrite !Z.
  repeat split; apply G; intros i Hi; apply (HC i Hi).
Qed.
Theorem C33_wedge_affine : forall e a u v w t, affine_element 6 wed6_nodes e a u v w -> triple u v w <> 0 ->
  wed6_is_in_element e (affine_map a u v w t) = {| f_dist := wed_dist t; f_par := t |}.
Proof.
  intros e a u v w t HE HD. unfold wed6_is_in_element. apply (report_exact _ _ _ (fun _ => True)); try exact I; [|lia].
  intros c _. unfold wed6_step.
  assert (J : wed6_jac e c 0%nat = - vx u /\ wed6_jac e c 1%nat = - vx v /\ wed6_jac e c 2%nat = - vx w /\
              wed6_jac e c 3%nat = - vy u /\ wed6_jac e c 4%nat = - vy v /\ wed6_jac e c 5%nat = - vy w /\
              wed6_jac e c 6%nat = - vz u /\ wed6_jac e c 7%nat = - vz v /\ wed6_jac e c 8%nat = - vz w).
  { unfold wed6_jac, sum15. rewrite !HE by lia. unfold wed6_deriv, affine_map, wed6_nodes, of_list, vadd, vscale. cbn [vx vy vz nth].
    repeat split; field. }
  destruct J as [J0 [J1 [J2 [J3 [J4 [J5 [J6 [J7 J8]]]]]]]].
  destruct (wed6_update (wed6_jac e c) (wed6_res e (affine_map a u v w t) c) c) as [r|] eqn:E.
  - f_equal. apply wed_update_eq in E. rewrite J0, J1, J2, J3, J4, J5, J6, J7, J8 in E.
    assert (F : wed6_res e (affine_map a u v w t) c 0%nat = vx u * (vx t - vx c) + vx v * (vy t - vy c) + vx w * (vz t - vz c) /\
                wed6_res e (affine_map a u v w t) c 1%nat = vy u * (vx t - vx c) + vy v * (vy t - vy c) + vy w * (vz t - vz c) /\
                wed6_res e (affine_map a u v w t) c 2%nat = vz u * (vx t - vx c) + vz v * (vy t - vy c) + vz w * (vz t - vz c)).
    { unfold wed6_res, sum15. rewrite !HE by lia. unfold wed6_shape, affine_map, wed6_nodes, of_list, vadd, vscale. cbn [vx vy vz nth].
      repeat split; field. }
    destruct F as [F0 [F1 F2]]. rewrite F0, F1, F2 in E. destruct E as [E1 [E2 E3]].
    apply (lin3 u v w c); [exact HD|lra|lra|lra].
  - exfalso. unfold wed6_update in E. cbv zeta in E. rewrite J0, J1, J2, J3, J4, J5, J6, J7, J8 in E.
    destruct (Req_EM_T _ _) as [h|h]; [|discriminate]. apply HD. unfold triple, dot, cross. cbn [vx vy vz]. lra.
Qed.

(** ** Elements that use their own shape functions *)
(** What affine exactness needs from the derivative table at a point. *)
Definition exact_at (n d : nat) (node : nat -> vec) (N : vec -> nat -> R) (D : vec -> nat -> nat -> R) (s : vec) : Prop :=
  rsum (map (N s) (seq 0 n)) = 1 /\
  (forall c, (c < d)%nat -> interp n N s (fun i => comp c (node i)) = comp c s) /\
  (forall c, (c < d)%nat -> rsum (map (fun i => D s i c) (seq 0 n)) = 0) /\
  (forall c c', (c < d)%nat -> (c' < d)%nat ->
     rsum (map (fun i => D s i c * comp c' (node i)) (seq 0 n)) = if Nat.eqb c c' then 1 else 0).
Lemma comp_shift c c' h s : (c < 3)%nat -> (c' < 3)%nat -> comp c' (shift c h s) = comp c' s + (if Nat.eqb c c' then h else 0).
Proof. intros H H'. do 3 (destruct c as [|c]; [do 3 (destruct c' as [|c']; [cbn; ring|try lia])|try lia]). Qed.
Lemma basis_exact n d node N D : (d <= 3)%nat -> nodal_basis n d everywhere node N -> derivative_table n d everywhere N D ->
  forall s, exact_at n d node N D s.
Proof.
  intros Hd [U K L] HD s. split; [apply U; exact I|]. split; [intros c Hc; apply L; [exact I|exact Hc]|]. split.
  - intros c Hc. apply (C30_derivatives_sum_to_zero n d N D s c HD); [|exact Hc]. intros p. apply U. exact I.
  - intros c c' Hc Hc'.
    assert (G : forall l, (forall i, In i l -> (i < n)%nat) ->
       derivable_pt_lim (fun h => rsum (map (fun i => N (shift c h s) i * comp c' (node i)) l)) 0 (rsum (map (fun i => D s i c * comp c' (node i)) l))).
    { induction l as [|i l IH]; intros Hl.
      - cbn. apply (derivable_pt_lim_const 0).
      - cbn. apply (derivable_pt_lim_plus (fun h => N (shift c h s) i * comp c' (node i)) (fun h => rsum (map (fun i => N (shift c h s) i * comp c' (node i)) l))).
        + replace (D s i c * comp c' (node i)) with (comp c' (node i) * D s i c) by ring.
          intros eps He.
          destruct (derivable_pt_lim_scal (fun h => N (shift c h s) i) (comp c' (node i)) 0 (D s i c) (HD s i c I (Hl i (or_introl eq_refl)) Hc) eps He) as [del Hdel].
          exists del. intros h Hh Hm. specialize (Hdel h Hh Hm). unfold mult_real_fct in Hdel.
          rewrite !(Rmult_comm (N _ i)). exact Hdel.
        + apply IH. intros k Hk. apply Hl. right. exact Hk. }
    specialize (G (seq 0 n) (fun i Hi => proj2 (proj1 (in_seq n 0 i) Hi))).
    eapply uniqueness_limite; [exact G|].
    intros e He. exists (mkposreal 1 Rlt_0_1). intros h Hh _.
    assert (Q : forall k, rsum (map (fun i => N (shift c k s) i * comp c' (node i)) (seq 0 n)) = comp c' s + (if Nat.eqb c c' then k else 0)).
    { intros k. rewrite <- comp_shift by lia. apply (L (shift c k s) c' I Hc'). }
    rewrite !Q. rewrite Rplus_0_l.
    match goal with |- Rabs ?x < e => replace x with 0; [rewrite Rabs_R0; exact He|] end.
    destruct (Nat.eqb c c'); field; exact Hh.
Qed.
Lemma rsum_lin4 (l : list nat) (W a b c d : nat -> R) (k1 k2 k3 k4 : R) :
  rsum (map (fun i => W i * (k1 * a i + (k2 * b i + (k3 * c i + k4 * d i)))) l)
  = k1 * rsum (map (fun i => W i * a i) l) + (k2 * rsum (map (fun i => W i * b i) l)
     + (k3 * rsum (map (fun i => W i * c i) l) + k4 * rsum (map (fun i => W i * d i) l))).
Proof. unfold rsum. induction l as [|i l IH]; cbn [map fold_right]; [ring|rewrite IH; ring]. Qed.
Lemma sumk_affine n node e a u v w W q : 
  (q = vx \/ q = vy \/ q = vz) -> affine_element n node e a u v w ->
  sumk n (fun k => W k * q (e k))
  = q a * rsum (map W (seq 0 n)) + (q u * rsum (map (fun i => W i * vx (node i)) (seq 0 n))
    + (q v * rsum (map (fun i => W i * vy (node i)) (seq 0 n)) + q w * rsum (map (fun i => W i * vz (node i)) (seq 0 n)))).
Proof.
  intros Hq HE. unfold sumk.
  replace (rsum (map W (seq 0 n))) with (rsum (map (fun i => W i * 1) (seq 0 n))) by (f_equal; apply map_ext; intros; ring).
  rewrite <- (rsum_lin4 (seq 0 n) W (fun _ => 1) (fun i => vx (node i)) (fun i => vy (node i)) (fun i => vz (node i))).
  f_equal. apply map_ext_in. intros i Hi. apply in_seq in Hi. rewrite HE by lia. f_equal.
  destruct Hq as [->|[->| ->]]; unfold affine_map, vadd, vscale; cbn [vx vy vz]; ring.
Qed.
Section Affine3.
  Variables (n : nat) (node : nat -> vec) (N : vec -> nat -> R) (D : vec -> nat -> nat -> R).
  Variables (e : nat -> vec) (a u v w s : vec).
  Hypothesis HX : exact_at n 3 node N D s.
  Hypothesis HE : affine_element n node e a u v w.
  Lemma coord_affine : coord_at n N e s = affine_map a u v w s.
  Proof.
    destruct HX as [U [L _]]. unfold coord_at.
    assert (L0 := L 0%nat ltac:(lia)). assert (L1 := L 1%nat ltac:(lia)). assert (L2 := L 2%nat ltac:(lia)).
    unfold interp in L0, L1, L2. cbn [comp] in L0, L1, L2.
    rewrite (sumk_affine n node e a u v w (N s) vx), (sumk_affine n node e a u v w (N s) vy), (sumk_affine n node e a u v w (N s) vz) by auto.
    rewrite L0, L1, L2, U. unfold affine_map, vadd, vscale. cbn [vx vy vz]. f_equal; ring.
  Qed.
  Lemma jac_affine : forall r, (r < 9)%nat -> shape_jac n D e s r = nth r [vx u; vx v; vx w; vy u; vy v; vy w; vz u; vz v; vz w] 0.
  Proof.
    destruct HX as [_ [_ [Z K]]]. intros r Hr.
    assert (Z0 := Z 0%nat ltac:(lia)). assert (Z1 := Z 1%nat ltac:(lia)). assert (Z2 := Z 2%nat ltac:(lia)).
    assert (K00 := K 0%nat 0%nat ltac:(lia) ltac:(lia)). assert (K01 := K 0%nat 1%nat ltac:(lia) ltac:(lia)). assert (K02 := K 0%nat 2%nat ltac:(lia) ltac:(lia)).
    assert (K10 := K 1%nat 0%nat ltac:(lia) ltac:(lia)). assert (K11 := K 1%nat 1%nat ltac:(lia) ltac:(lia)). assert (K12 := K 1%nat 2%nat ltac:(lia) ltac:(lia)).
    assert (K20 := K 2%nat 0%nat ltac:(lia) ltac:(lia)). assert (K21 := K 2%nat 1%nat ltac:(lia) ltac:(lia)). assert (K22 := K 2%nat 2%nat ltac:(lia) ltac:(lia)).
    cbn [comp Nat.eqb] in *.
    do 9 (destruct r as [|r]; [cbn [shape_jac nth]; rewrite (sumk_affine n node e a u v w) by auto;
       cbv beta; rewrite ?Z0, ?Z1, ?Z2, ?K00, ?K01, ?K02, ?K10, ?K11, ?K12, ?K20, ?K21, ?K22; ring|try lia]).
  Qed.
  Lemma p2_step_affine t : triple u v w <> 0 -> p2_step n N D e (affine_map a u v w t) s = Some t.
  Proof.
    intros HT. unfold p2_step. cbv zeta. rewrite coord_affine.
    assert (J := jac_affine).
    assert (J0 := J 0%nat ltac:(lia)). assert (J1 := J 1%nat ltac:(lia)). assert (J2 := J 2%nat ltac:(lia)).
    assert (J3 := J 3%nat ltac:(lia)). assert (J4 := J 4%nat ltac:(lia)). assert (J5 := J 5%nat ltac:(lia)).
    assert (J6 := J 6%nat ltac:(lia)). assert (J7 := J 7%nat ltac:(lia)). assert (J8 := J 8%nat ltac:(lia)).
    cbn [nth] in *. clear J.
    unfold Tensor_Model.determinant33. rewrite J0, J1, J2, J3, J4, J5, J6, J7, J8.
    destruct (Req_EM_T _ _) as [h|h].
    - exfalso. apply HT. unfold triple, dot, cross. cbn [vx vy vz]. lra.
    - f_equal. unfold Tensor_Model.solve33, Tensor_Model.determinant33. rewrite J0, J1, J2, J3, J4, J5, J6, J7, J8.
      unfold Tensor_Model.of_list. cbn [nth]. destruct t as [t1 t2 t3]. unfold affine_map, vadd, vsub, vscale. cbn [vx vy vz].
      f_equal; field; exact h.
  Qed.
End Affine3.
(** Hex27: elements that are affine images of the reference cube. *)
Theorem C33_hex27_affine : forall e a u v w t, affine_element 27 hex27_nodes e a u v w -> triple u v w <> 0 ->
  hex27_is_in_element e (affine_map a u v w t) = {| f_dist := hex_dist t; f_par := t |}.
Proof.
  intros e a u v w t HE HD. unfold hex27_is_in_element. apply (report_exact _ _ _ (fun _ => True)); try exact I; [|lia].
  intros c _. unfold hex27_step. apply (p2_step_affine 27 hex27_nodes); [|exact HE|exact HD].
  apply basis_exact; [lia|apply C30_hex27_basis|apply C30_hex27_derivatives].
Qed.
(** Pyramids over a parallelogram, points away from the apex plane. *)
Lemma pyr_exact s : off_apex s -> exact_at 5 3 pyr5_nodes pyr5_shape pyr5_deriv s.
Proof.
  intros Ho. destruct C30_pyr5_basis as [U K L].
  split; [apply U; exact Ho|]. split; [intros c Hc; apply L; assumption|].
  assert (Hne : 1 - vz s <> 0). { unfold off_apex in Ho. intros E. rewrite E, Rabs_R0 in Ho. pose proof eps_pos. lra. }
  unfold off_apex in Ho. unfold pyr5_deriv. rewrite (pyr_t_off _ Ho).
  split.
  - intros c Hc. do 3 (destruct c as [|c]; [red_shape; field; lra|try lia]).
  - intros c c' Hc Hc'. unfold comp. node_unfold.
    do 3 (destruct c as [|c]; [do 3 (destruct c' as [|c']; [red_shape; field; lra|try lia])|try lia]).
Qed.
Theorem C33_pyr5_affine : forall e a u v w t, affine_element 5 pyr5_nodes e a u v w -> triple u v w <> 0 -> off_apex t ->
  pyr5_is_in_element e (affine_map a u v w t) = {| f_dist := pyr_dist t; f_par := t |}.
Proof.
  intros e a u v w t HE HD Ht. unfold pyr5_is_in_element. apply (report_exact _ _ _ off_apex); try exact Ht; [| |lia].
  - intros c Hc. unfold pyr5_step. apply (p2_step_affine 5 pyr5_nodes); [|exact HE|exact HD]. apply pyr_exact; exact Hc.
  - unfold off_apex. cbn [vz]. pose proof eps_small. rewrite Rabs_right; lra.
Qed.
