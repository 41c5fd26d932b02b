(** * C33 (continued): the iterative searches *)
From Coq Require Import Reals List Arith Lra Lia Psatz.
From Verif Require Import ME_Model ME_Shape_Model ME_Shape_Spec ME_Shape_Props ME_Shape_Props2 ME_Point_Model ME_Point_Spec ME_Point_Props.
From Verif Require Tensor_Model.
Import ListNotations.
Local Open Scope R_scope.

(** ** The iteration *)
Lemma tol_pos : 0 < converged_tol. Proof. unfold converged_tol. apply Rdiv_lt_0_compat; [lra|]. apply pow_lt. lra. Qed.
Lemma norm_sq_ge v : 0 <= norm_sq v.
Proof. unfold norm_sq. pose proof (Rle_0_sqr (vx v)). pose proof (Rle_0_sqr (vy v)). pose proof (Rle_0_sqr (vz v)). unfold Rsqr in *. lra. Qed.
Lemma newton_sound step : forall n c a b, newton step n c = Some (a, b) ->
  step a = Some b /\ norm_sq (vsub b a) < converged_tol.
Proof.
  induction n as [|n IH]; intros c a b; cbn [newton]; [discriminate|].
  destruct (step c) as [w|] eqn:E; [|discriminate].
  unfold within_tolerance. destruct (Rlt_dec _ _) as [h|h].
  - intros H. injection H as <- <-. split; [exact E|]. rewrite Rabs_right in h; [exact h|]. apply Rle_ge, norm_sq_ge.
  - apply IH.
Qed.
Lemma newton_exact step (dom : vec -> Prop) t : (forall c, dom c -> step c = Some t) ->
  forall n c, dom c -> dom t -> exists c', dom c' /\ newton step (S (S n)) c = Some (c', t).
Proof.
  intros H n c Hc Ht. cbn [newton]. rewrite (H c Hc).
  destruct (within_tolerance _); [exists c; auto|].
  rewrite (H t Ht). exists t. split; [exact Ht|].
  replace (norm_sq (vsub t t)) with 0 by (unfold norm_sq, vsub; cbn [vx vy vz]; ring).
  unfold within_tolerance. rewrite Rabs_R0. destruct (Rlt_dec 0 converged_tol) as [_|h]; [reflexivity|].
  exfalso. apply h, tol_pos.
Qed.
Lemma report_exact bad dist step (dom : vec -> Prop) t lim c : (forall c, dom c -> step c = Some t) -> dom c -> dom t -> (2 <= lim)%nat ->
  report bad dist (newton step lim c) = {| f_dist := dist t; f_par := t |}.
Proof.
  intros H Hc Ht Hl. destruct lim as [|[|n]]; try lia.
  destruct (newton_exact step dom t H n c Hc Ht) as [c' [_ ->]]. reflexivity.
Qed.
Lemma report_found bad dist step lim c : f_dist (report bad dist (newton step lim c)) < bad ->
  exists a, step a = Some (f_par (report bad dist (newton step lim c))) /\
    norm_sq (vsub (f_par (report bad dist (newton step lim c))) a) < converged_tol /\
    f_dist (report bad dist (newton step lim c)) = dist (f_par (report bad dist (newton step lim c))).
Proof.
  destruct (newton step lim c) as [[a b]|] eqn:E; cbn [report f_dist f_par].
  - intros _. exists a. apply newton_sound in E. tauto.
  - intros H. exfalso. lra.
Qed.
(** a failed search is reported as outside *)
Theorem C33_failure_is_outside : forall dist step lim c,
  newton step lim c = None ->
  1 < f_dist (report (10^6) dist (newton step lim c)) /\ 1 < f_dist (report dbl_max dist (newton step lim c)).
Proof.
  intros dist step lim c ->. cbn [report f_dist]. split; [lra|]. unfold dbl_max.
  replace (2^1024) with (2^971 * 2^53) by (rewrite <- pow_add; reflexivity).
  assert (1 <= 2^971) by (apply pow_R1_Rle; lra).
  replace (2^53) with (1 + (2^53 - 1)) by ring. assert (2 < 2^53 - 1) by lra. nra.
Qed.

(** ** The linear systems solved in one step *)
Lemma quad_update_eq J f s w : quad42d_update J f s = Some w ->
  J 0%nat * (vx w - vx s) + J 1%nat * (vy w - vy s) = - f 0%nat /\
  J 2%nat * (vx w - vx s) + J 3%nat * (vy w - vy s) = - f 1%nat /\ vz w = 0.
Proof.
  unfold quad42d_update. cbv zeta. destruct (Req_EM_T _ _) as [h|h]; [discriminate|].
  intros H. injection H as <-. cbn [vx vy vz]. repeat split; field; exact h.
Qed.
Lemma hex_update_eq J f s w : hex8_update J f s = Some w ->
  J 0%nat * (vx w - vx s) + J 1%nat * (vy w - vy s) + J 2%nat * (vz w - vz s) = - f 0%nat /\
  J 3%nat * (vx w - vx s) + J 4%nat * (vy w - vy s) + J 5%nat * (vz w - vz s) = - f 1%nat /\
  J 6%nat * (vx w - vx s) + J 7%nat * (vy w - vy s) + J 8%nat * (vz w - vz s) = - f 2%nat.
Proof.
  unfold hex8_update. cbv zeta. destruct (Req_EM_T _ _) as [h|h]; [discriminate|].
  intros H. injection H as <-. cbn [vx vy vz]. repeat split; field; exact h.
Qed.
Lemma wed_update_eq J f s w : wed6_update J f s = Some w ->
  J 0%nat * (vx w - vx s) + J 1%nat * (vy w - vy s) + J 2%nat * (vz w - vz s) = - f 0%nat /\
  J 3%nat * (vx w - vx s) + J 4%nat * (vy w - vy s) + J 5%nat * (vz w - vz s) = - f 1%nat /\
  J 6%nat * (vx w - vx s) + J 7%nat * (vy w - vy s) + J 8%nat * (vz w - vz s) = - f 2%nat.
Proof.
  unfold wed6_update. cbv zeta. destruct (Req_EM_T _ _) as [h|h]; [discriminate|].
  intros H. injection H as <-. cbn [vx vy vz]. repeat split; field; exact h.
Qed.
Lemma face_update_eq J f s w : face_update J f s = Some w ->
  J 0%nat * (vx w - vx s) + J 1%nat * (vy w - vy s) + J 2%nat * (vz w - vz s) = - f 0%nat /\
  J 3%nat * (vx w - vx s) + J 4%nat * (vy w - vy s) + J 5%nat * (vz w - vz s) = - f 1%nat /\
  J 6%nat * (vx w - vx s) + J 7%nat * (vy w - vy s) + J 8%nat * (vz w - vz s) = - f 2%nat.
Proof.
  unfold face_update. cbv zeta. destruct (Req_EM_T _ _) as [h|h]; [discriminate|].
  intros H. injection H as <-. cbn [vx vy vz vadd]. repeat split; field; exact h.
Qed.

(** ** Small products of the last step *)
Lemma step_bounds a b : norm_sq (vsub b a) < converged_tol ->
  let x := vx b - vx a in let y := vy b - vy a in let z := vz b - vz a in
  Rabs (x*y) <= converged_tol/2 /\ Rabs (y*z) <= converged_tol/2 /\ Rabs (z*x) <= converged_tol/2 /\
  Rabs (x*y*z) <= converged_tol/2 /\ x*x <= converged_tol /\ y*y <= converged_tol /\ z*z <= converged_tol.
Proof.
  unfold norm_sq, vsub. cbn [vx vy vz]. cbv zeta.
  set (x := vx b - vx a). set (y := vy b - vy a). set (z := vz b - vz a). intros H.
  pose proof (Rle_0_sqr x) as X. pose proof (Rle_0_sqr y) as Y. pose proof (Rle_0_sqr z) as Z. unfold Rsqr in X, Y, Z.
  pose proof (Rle_0_sqr (x+y)) as A1. pose proof (Rle_0_sqr (x-y)) as A2.
  pose proof (Rle_0_sqr (y+z)) as A3. pose proof (Rle_0_sqr (y-z)) as A4.
  pose proof (Rle_0_sqr (z+x)) as A5. pose proof (Rle_0_sqr (z-x)) as A6. unfold Rsqr in *.
  assert (P : Rabs (x*y) <= converged_tol/2) by (apply Rabs_le; lra).
  repeat split; try (apply Rabs_le; lra); try lra.
  rewrite Rabs_mult. replace (converged_tol/2) with (converged_tol/2*1) by ring.
  apply Rmult_le_compat; [apply Rabs_pos|apply Rabs_pos|exact P|].
  assert (converged_tol < 1). { unfold converged_tol. apply (Rmult_lt_reg_r (10^16)); [apply pow_lt; lra|]. field_simplify; lra. }
  apply Rabs_le. nra.
Qed.
Lemma prod_bound a b c d : Rabs a <= c -> Rabs b <= d -> Rabs (a*b) <= c*d.
Proof. intros. rewrite Rabs_mult. apply Rmult_le_compat; auto using Rabs_pos. Qed.
Lemma sum_bound a b c d : Rabs a <= c -> Rabs b <= d -> Rabs (a+b) <= c+d.
Proof. intros. eapply Rle_trans; [apply Rabs_triang|]. lra. Qed.

(** ** Quadrilateral in the plane *)
Definition twist (e : nat -> vec) : vec :=
  vscale (1/4) (vadd (vsub (e 0%nat) (e 1%nat)) (vsub (e 2%nat) (e 3%nat))).
Ltac shape_red := unfold place, interp, coord_at, sumk; cbn [seq map rsum fold_right vx vy vz].
Lemma quad_taylor e p s w :
  vx (place 4 quad4g_shape e w) - vx p = quad42d_res e p s 0%nat
     + (quad42d_jac e s 0%nat * (vx w - vx s) + quad42d_jac e s 1%nat * (vy w - vy s))
     + (vx w - vx s) * (vy w - vy s) * vx (twist e) /\
  vy (place 4 quad4g_shape e w) - vy p = quad42d_res e p s 1%nat
     + (quad42d_jac e s 2%nat * (vx w - vx s) + quad42d_jac e s 3%nat * (vy w - vy s))
     + (vx w - vx s) * (vy w - vy s) * vy (twist e).
Proof.
  shape_red. unfold quad4g_shape, quad42d_res, quad42d_jac, twist, vscale, vadd, vsub. cbn [vx vy vz].
  split; field.
Qed.
(** If the search reports success, interpolating the nodal coordinates at the returned parametric
    point gives the requested point up to half the tolerance 1e-16 times the twist of the element. *)
Theorem C33_quad_residual : forall e p, let r := quad42d_is_in_element e p in f_dist r < 10^6 ->
  Rabs (vx (place 4 quad4g_shape e (f_par r)) - vx p) <= 1/10^16/2 * Rabs (vx (twist e)) /\
  Rabs (vy (place 4 quad4g_shape e (f_par r)) - vy p) <= 1/10^16/2 * Rabs (vy (twist e)) /\
  f_dist r = Rmax (Rabs (vx (f_par r))) (Rabs (vy (f_par r))).
Proof.
  intros e p. cbv zeta. unfold quad42d_is_in_element. intros H.
  apply report_found in H. destruct H as [a [E [N D]]].
  set (w := f_par _) in *. rewrite D. clear D.
  apply quad_update_eq in E. destruct E as [E1 [E2 E3]].
  destruct (quad_taylor e p a w) as [T1 T2].
  assert (B := step_bounds _ _ N). cbv zeta in B. destruct B as [B _].
  change (1/10^16) with converged_tol.
  split; [|split].
  - rewrite T1, E1. replace (quad42d_res e p a 0%nat + - quad42d_res e p a 0%nat + (vx w - vx a)*(vy w - vy a)*vx (twist e))
      with ((vx w - vx a)*(vy w - vy a)*vx (twist e)) by ring.
    apply prod_bound; [exact B|lra].
  - rewrite T2, E2. replace (quad42d_res e p a 1%nat + - quad42d_res e p a 1%nat + (vx w - vx a)*(vy w - vy a)*vy (twist e))
      with ((vx w - vx a)*(vy w - vy a)*vy (twist e)) by ring.
    apply prod_bound; [exact B|lra].
  - unfold quad_dist, Rmax. destruct (Rlt_dec _ _), (Rle_dec _ _); lra.
Qed.
Definition planar (v : vec) : Prop := vz v = 0.
(** Parallelograms: the parametric point is found exactly, wherever the point lies. *)
Theorem C33_quad_parallelogram : forall e a u v t, affine_element 4 (quad4_nodes 1) e a u v vzero -> cross2 u v <> 0 ->
  planar t ->
  quad42d_is_in_element e (affine_map a u v vzero t) = {| f_dist := quad_dist t; f_par := t |}.
Proof.
  intros e a u v t HE HD Ht. unfold quad42d_is_in_element. apply (report_exact _ _ _ (fun _ => True)); try exact I; [|lia].
  intros c _. unfold quad42d_step.
  assert (J : quad42d_jac e c 0%nat = vx u /\ quad42d_jac e c 1%nat = vx v /\ quad42d_jac e c 2%nat = vy u /\ quad42d_jac e c 3%nat = vy v).
  { unfold quad42d_jac. rewrite !HE by lia. unfold affine_map, quad4_nodes, of_list, square, vadd, vscale. cbn [vx vy vz nth].
    repeat split; field. }
  destruct J as [J0 [J1 [J2 J3]]].
  destruct (quad42d_update (quad42d_jac e c) (quad42d_res e (affine_map a u v vzero t) c) c) as [w|] eqn:E.
  - f_equal. apply quad_update_eq in E. rewrite J0, J1, J2, J3 in E.
    assert (F : quad42d_res e (affine_map a u v vzero t) c 0%nat = vx u * (vx c - vx t) + vx v * (vy c - vy t) /\
                quad42d_res e (affine_map a u v vzero t) c 1%nat = vy u * (vx c - vx t) + vy v * (vy c - vy t)).
    { unfold quad42d_res. rewrite !HE by lia. unfold affine_map, quad4_nodes, of_list, square, vadd, vscale, vzero. cbn [vx vy vz nth].
      split; field. }
    destruct F as [F0 F1]. rewrite F0, F1 in E. destruct E as [E1 [E2 E3]].
    unfold cross2, planar in *.
    assert (X : (vx u * vy v - vy u * vx v) * (vx w - vx t) = 0).
    { transitivity (vy v * (vx u * (vx w - vx c) + vx v * (vy w - vy c) + (vx u * (vx c - vx t) + vx v * (vy c - vy t)))
                  - vx v * (vy u * (vx w - vx c) + vy v * (vy w - vy c) + (vy u * (vx c - vx t) + vy v * (vy c - vy t)))); [ring|].
      rewrite E1, E2. ring. }
    assert (Y : (vx u * vy v - vy u * vx v) * (vy w - vy t) = 0).
    { transitivity (vx u * (vy u * (vx w - vx c) + vy v * (vy w - vy c) + (vy u * (vx c - vx t) + vy v * (vy c - vy t)))
                  - vy u * (vx u * (vx w - vx c) + vx v * (vy w - vy c) + (vx u * (vx c - vx t) + vx v * (vy c - vy t)))); [ring|].
      rewrite E1, E2. ring. }
    apply Rmult_integral in X. apply Rmult_integral in Y. destruct w as [w1 w2 w3], t as [t1 t2 t3]. cbn [vx vy vz] in *.
    f_equal; [destruct X; [tauto|lra]|destruct Y; [tauto|lra]|lra].
  - exfalso. unfold quad42d_update in E. cbv zeta in E. rewrite J0, J1, J2, J3 in E.
    destruct (Req_EM_T _ _) as [h|h]; [|discriminate]. apply HD. unfold cross2. lra.
Qed.
