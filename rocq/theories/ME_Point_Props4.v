(** * C33 (continued): hexahedra, wedges, pyramids, quadratic elements, faces *)
From Coq Require Import Reals List Arith Lra Lia Psatz.
From Verif Require Import ME_Model ME_Shape_Model ME_Shape_Spec ME_Shape_Props ME_Shape_Props2 ME_Point_Model ME_Point_Spec ME_Point_Props ME_Point_Props3.
From Verif Require Tensor_Model.
Import ListNotations.
Local Open Scope R_scope.

(** ** A 3x3 linear system with the columns u, v, w *)
Lemma lin3 u v w c t s : triple u v w <> 0 ->
  vx u * (vx s - vx c) + vx v * (vy s - vy c) + vx w * (vz s - vz c) = vx u * (vx t - vx c) + vx v * (vy t - vy c) + vx w * (vz t - vz c) ->
  vy u * (vx s - vx c) + vy v * (vy s - vy c) + vy w * (vz s - vz c) = vy u * (vx t - vx c) + vy v * (vy t - vy c) + vy w * (vz t - vz c) ->
  vz u * (vx s - vx c) + vz v * (vy s - vy c) + vz w * (vz s - vz c) = vz u * (vx t - vx c) + vz v * (vy t - vy c) + vz w * (vz t - vz c) ->
  s = t.
Proof.
  intros D X Y Z. apply (affine_inj vzero u v w); [exact D|].
  unfold affine_map, vadd, vscale, vzero. cbn [vx vy vz]. f_equal; lra.
Qed.
Lemma affine_surjective a u v w p : triple u v w <> 0 -> exists t, affine_map a u v w t = p.
Proof.
  intros D. unfold triple, dot, cross in D. cbn [vx vy vz] in D.
  set (d := vx u * (vy v * vz w - vy w * vz v) + vy u * (vz v * vx w - vz w * vx v) + vz u * (vx v * vy w - vx w * vy v)) in *.
  set (q := vsub p a).
  exists (V ((vx q * (vy v * vz w - vy w * vz v) + vy q * (vz v * vx w - vz w * vx v) + vz q * (vx v * vy w - vx w * vy v))/d)
            ((vx q * (vy w * vz u - vy u * vz w) + vy q * (vz w * vx u - vz u * vx w) + vz q * (vx w * vy u - vx u * vy w))/d)
            ((vx q * (vy u * vz v - vy v * vz u) + vy q * (vz u * vx v - vz v * vx u) + vz q * (vx u * vy v - vx v * vy u))/d)).
  destruct p as [p1 p2 p3]. unfold affine_map, vadd, vscale, q, vsub. cbn [vx vy vz].
  f_equal; unfold d; field; exact D.
Qed.

(** ** Hexahedron *)
Definition hex_mixed (e : nat -> vec) (q : vec -> R) (k : nat) : R :=
  let f := match k with
           | 0%nat => fun x y z : R => x*y | 1%nat => fun x y z => y*z | 2%nat => fun x y z => z*x | _ => fun x y z => x*y*z end in
  1/8 * rsum (map (fun i => f (vx (hex8_nodes 1 i)) (vy (hex8_nodes 1 i)) (vz (hex8_nodes 1 i)) * q (e i)) (seq 0 8)).
Ltac hexred := unfold hex_mixed, hex8_nodes, of_list; cbn [seq map rsum fold_right nth vx vy vz].
Lemma hex_taylor e p s w (x := vx w - vx s) (y := vy w - vy s) (z := vz w - vz s) :
  let G q := (hex_mixed e q 0 + hex_mixed e q 3 * vz w) * (x*y) + (hex_mixed e q 1 + hex_mixed e q 3 * vx w) * (y*z)
           + (hex_mixed e q 2 + hex_mixed e q 3 * vy w) * (z*x) + (-2) * hex_mixed e q 3 * (x*y*z) in
  vx (place 8 hex8g_shape e w) - vx p
    = - (hex8_res e p s 0%nat + (hex8_jac e s 0%nat * x + hex8_jac e s 1%nat * y + hex8_jac e s 2%nat * z)) + G vx /\
  vy (place 8 hex8g_shape e w) - vy p
    = - (hex8_res e p s 1%nat + (hex8_jac e s 3%nat * x + hex8_jac e s 4%nat * y + hex8_jac e s 5%nat * z)) + G vy /\
  vz (place 8 hex8g_shape e w) - vz p
    = - (hex8_res e p s 2%nat + (hex8_jac e s 6%nat * x + hex8_jac e s 7%nat * y + hex8_jac e s 8%nat * z)) + G vz.
Proof.
  cbv zeta. unfold x, y, z. clear x y z. hexred. shape_red. unfold hex8g_shape, hex8_res, hex8_jac. cbn [vx vy vz].
  repeat split; field.
Qed.
(** the mixed coefficients do not depend on the origin and are bounded by the size of the element *)
Lemma hex_mixed_bound e q c D k : (forall i, (i < 8)%nat -> Rabs (q (e i) - c) <= D) -> (k < 4)%nat -> Rabs (hex_mixed e q k) <= D.
Proof.
  intros H Hk.
  assert (B : forall i, (i < 8)%nat -> c - D <= q (e i) <= c + D).
  { intros i Hi. specialize (H i Hi). apply Rabs_le_iff in H. lra. }
  assert (B0 := B 0%nat ltac:(lia)). assert (B1 := B 1%nat ltac:(lia)). assert (B2 := B 2%nat ltac:(lia)). assert (B3 := B 3%nat ltac:(lia)).
  assert (B4 := B 4%nat ltac:(lia)). assert (B5 := B 5%nat ltac:(lia)). assert (B6 := B 6%nat ltac:(lia)). assert (B7 := B 7%nat ltac:(lia)).
  clear B H. apply Rabs_le_iff.
  do 4 (destruct k as [|k]; [hexred; lra|try lia]).
Qed.
Theorem C33_hex_residual : forall e p c D, coords_within 8 D e c ->
  let r := hex8_is_in_element e p in f_dist r <= 1 ->
  near (4/10^16 * D) (place 8 hex8g_shape e (f_par r)) p /\ in_box3 1 (f_par r).
Proof.
  intros e p c D HC. cbv zeta. unfold hex8_is_in_element. intros H1.
  assert (BIG : 1 < dbl_max). { destruct (C33_failure_is_outside hex_dist (fun _ => None) 1 vzero eq_refl) as [_ h]. exact h. }
  assert (H : f_dist (report dbl_max hex_dist (newton (hex8_step e p) 20 (V (1/2) (1/2) (1/2)))) < dbl_max) by lra.
  apply report_found in H. destruct H as [a [E [N Dd]]].
  rewrite Dd in H1. set (w := f_par _) in *. clear Dd. clearbody w.
  assert (IB : in_box3 1 w) by (apply (C33_distance_is_membership w); exact H1).
  split; [|exact IB].
  apply hex_update_eq in E. destruct E as [E1 [E2 E3]].
  destruct (hex_taylor e p a w) as [T1 [T2 T3]].
  destruct (step_bounds _ _ N) as [Bxy [Byz [Bzx [Bxyz _]]]].
  assert (HD : 0 <= D). { specialize (HC 0%nat ltac:(lia)). pose proof (Rabs_pos (vx (e 0%nat) - vx c)). lra. }
  assert (G : forall q, (forall i, (i < 8)%nat -> Rabs (q (e i) - q c) <= D) ->
    Rabs ((hex_mixed e q 0 + hex_mixed e q 3 * vz w) * ((vx w - vx a)*(vy w - vy a)) + (hex_mixed e q 1 + hex_mixed e q 3 * vx w) * ((vy w - vy a)*(vz w - vz a))
           + (hex_mixed e q 2 + hex_mixed e q 3 * vy w) * ((vz w - vz a)*(vx w - vx a)) + (-2) * hex_mixed e q 3 * ((vx w - vx a)*(vy w - vy a)*(vz w - vz a)))
     <= 4/10^16 * D).
  { intros q Hq. unfold in_box3 in IB.
    assert (M := fun k => hex_mixed_bound e q (q c) D k Hq).
    assert (C : forall k l, (k < 4)%nat -> -1 <= l <= 1 -> Rabs (hex_mixed e q k + hex_mixed e q 3 * l) <= D + D*1).
    { intros k l Hk Hl. apply sum_bound; [apply M; exact Hk|]. apply prod_bound; [apply M; lia|]. apply Rabs_le_iff. lra. }
    eapply Rle_trans.
    - apply sum_bound; [apply sum_bound; [apply sum_bound|]|].
      + apply prod_bound; [apply C; [lia|lra]|exact Bxy].
      + apply prod_bound; [apply C; [lia|lra]|exact Byz].
      + apply prod_bound; [apply C; [lia|lra]|exact Bzx].
      + apply prod_bound; [apply (prod_bound _ _ 2 D); [apply Rabs_le_iff; lra|apply M; lia]|exact Bxyz].
    - unfold converged_tol. lra. }
  unfold near. rewrite T1, T2, T3, E1, E2, E3.
  assert (Z : forall r g, - (r + - r) + g = g) by (intros; ring). rewrite !Z.
  repeat split; apply G; intros i Hi; apply (HC i Hi).
Qed.
Theorem C33_hex_parallelepiped : forall e a u v w t, affine_element 8 (hex8_nodes 1) e a u v w -> triple u v w <> 0 ->
  hex8_is_in_element e (affine_map a u v w t) = {| f_dist := hex_dist t; f_par := t |}.
Proof.
  intros e a u v w t HE HD. unfold hex8_is_in_element. apply (report_exact _ _ _ (fun _ => True)); try exact I; [|lia].
  intros c _. unfold hex8_step.
  assert (J : hex8_jac e c 0%nat = - vx u /\ hex8_jac e c 1%nat = - vx v /\ hex8_jac e c 2%nat = - vx w /\
              hex8_jac e c 3%nat = - vy u /\ hex8_jac e c 4%nat = - vy v /\ hex8_jac e c 5%nat = - vy w /\
              hex8_jac e c 6%nat = - vz u /\ hex8_jac e c 7%nat = - vz v /\ hex8_jac e c 8%nat = - vz w).
  { unfold hex8_jac. rewrite !HE by lia. unfold affine_map, hex8_nodes, of_list, vadd, vscale. cbn [vx vy vz nth].
    repeat split; field. }
  destruct J as [J0 [J1 [J2 [J3 [J4 [J5 [J6 [J7 J8]]]]]]]].
  destruct (hex8_update (hex8_jac e c) (hex8_res e (affine_map a u v w t) c) c) as [r|] eqn:E.
  - f_equal. apply hex_update_eq in E. rewrite J0, J1, J2, J3, J4, J5, J6, J7, J8 in E.
    assert (F : hex8_res e (affine_map a u v w t) c 0%nat = vx u * (vx t - vx c) + vx v * (vy t - vy c) + vx w * (vz t - vz c) /\
                hex8_res e (affine_map a u v w t) c 1%nat = vy u * (vx t - vx c) + vy v * (vy t - vy c) + vy w * (vz t - vz c) /\
                hex8_res e (affine_map a u v w t) c 2%nat = vz u * (vx t - vx c) + vz v * (vy t - vy c) + vz w * (vz t - vz c)).
    { unfold hex8_res. rewrite !HE by lia. unfold affine_map, hex8_nodes, of_list, vadd, vscale. cbn [vx vy vz nth].
      repeat split; field. }
    destruct F as [F0 [F1 F2]]. rewrite F0, F1, F2 in E. destruct E as [E1 [E2 E3]].
    apply (lin3 u v w c); [exact HD|lra|lra|lra].
  - exfalso. unfold hex8_update in E. cbv zeta in E. rewrite J0, J1, J2, J3, J4, J5, J6, J7, J8 in E.
    destruct (Req_EM_T _ _) as [h|h]; [|discriminate]. apply HD. unfold triple, dot, cross. cbn [vx vy vz]. lra.
Qed.
