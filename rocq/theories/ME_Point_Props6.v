(** * C33 (continued): ten-node tetrahedra, nine-node quadrilaterals, faces in space *)
From Coq Require Import Reals List Arith Lra Lia Psatz.
From Verif Require Import ME_Model ME_Shape_Model ME_Shape_Spec ME_Shape_Props ME_Shape_Props2 ME_Point_Model ME_Point_Spec ME_Point_Props ME_Point_Props3 ME_Point_Props4 ME_Point_Props5.
From Verif Require Tensor_Model.
Import ListNotations.
Local Open Scope R_scope.

(** ** Tet10 *)
Lemma tet10_step_eq e p s w : tet10_step e p s = Some w ->
  let xn k := vsub (e k) (e 0%nat) in
  let f := vsub (coord_at 10 tet10_shape xn s) (vsub p (e 0%nat)) in let J := shape_jac 10 tet10_deriv xn s in
  J 0%nat * (vx w - vx s) + J 1%nat * (vy w - vy s) + J 2%nat * (vz w - vz s) = - vx f /\
  J 3%nat * (vx w - vx s) + J 4%nat * (vy w - vy s) + J 5%nat * (vz w - vz s) = - vy f /\
  J 6%nat * (vx w - vx s) + J 7%nat * (vy w - vy s) + J 8%nat * (vz w - vz s) = - vz f.
Proof.
  unfold tet10_step. cbv zeta.
  set (xn := fun k => vsub (e k) (e 0%nat)). set (f := vsub (coord_at 10 tet10_shape xn s) (vsub p (e 0%nat))).
  set (J := shape_jac 10 tet10_deriv xn s).
  generalize (J 0%nat) (J 1%nat) (J 2%nat) (J 3%nat) (J 4%nat) (J 5%nat) (J 6%nat) (J 7%nat) (J 8%nat).
  intros j0 j1 j2 j3 j4 j5 j6 j7 j8. clearbody f. clear J xn.
  destruct (Req_EM_T _ _) as [h|h]; [discriminate|].
  intros H. injection H as <-. cbn [vx vy vz]. repeat split; field; exact h.
Qed.
Theorem C33_tet10_affine : forall e a u v w t, affine_element 10 tet10_nodes e a u v w -> triple u v w <> 0 ->
  tet10_is_in_element e (affine_map a u v w t) = {| f_dist := tet_dist t; f_par := t |}.
Proof.
  intros e a u v w t HE HD. unfold tet10_is_in_element. apply (report_exact _ _ _ (fun _ => True)); try exact I; [|lia].
  intros c _.
  assert (X : exact_at 10 3 tet10_nodes tet10_shape tet10_deriv c).
  { apply basis_exact; [lia|apply C30_tet10_basis|apply C30_tet10_derivatives]. }
  assert (E0 : e 0%nat = a).
  { rewrite HE by lia. destruct a as [a1 a2 a3]. unfold affine_map, tet10_nodes, of_list, vadd, vscale. cbn [vx vy vz nth]. f_equal; ring. }
  assert (HE' : affine_element 10 tet10_nodes (fun k => vsub (e k) (e 0%nat)) vzero u v w).
  { intros i Hi. rewrite E0, HE by exact Hi. unfold affine_map, vsub, vadd, vscale, vzero. cbn [vx vy vz]. f_equal; ring. }
  assert (J := jac_affine 10 tet10_nodes tet10_shape tet10_deriv _ _ _ _ _ c X HE').
  assert (Cc := coord_affine 10 tet10_nodes tet10_shape tet10_deriv _ _ _ _ _ c X HE').
  assert (J0 := J 0%nat ltac:(lia)). assert (J1 := J 1%nat ltac:(lia)). assert (J2 := J 2%nat ltac:(lia)).
  assert (J3 := J 3%nat ltac:(lia)). assert (J4 := J 4%nat ltac:(lia)). assert (J5 := J 5%nat ltac:(lia)).
  assert (J6 := J 6%nat ltac:(lia)). assert (J7 := J 7%nat ltac:(lia)). assert (J8 := J 8%nat ltac:(lia)).
  cbn [nth] in *.
  destruct (tet10_step e (affine_map a u v w t) c) as [r|] eqn:E.
  - f_equal. apply tet10_step_eq in E. cbv zeta in E. rewrite J0, J1, J2, J3, J4, J5, J6, J7, J8, Cc, E0 in E.
    unfold affine_map, vsub, vadd, vscale, vzero in E. cbn [vx vy vz] in E. destruct E as [E1 [E2 E3]].
    apply (lin3 u v w c); [exact HD|lra|lra|lra].
  - exfalso. unfold tet10_step in E. cbv zeta in E. rewrite J0, J1, J2, J3, J4, J5, J6, J7, J8 in E.
    destruct (Req_EM_T _ _) as [h|h]; [|discriminate]. apply HD. unfold triple, dot, cross. cbn [vx vy vz]. lra.
Qed.
(** Curved ten-node tetrahedra: the second-order remainder of the last step. *)
Definition tet10_rem (q : nat -> R) (x y z : R) : R :=
  let s := x + y + z in
  2*(s*s)*q 0%nat + 2*(x*x)*q 1%nat + 2*(y*y)*q 2%nat + 2*(z*z)*q 3%nat + (-4)*(x*s)*q 4%nat + 4*(x*y)*q 5%nat
  + (-4)*(y*s)*q 6%nat + (-4)*(z*s)*q 7%nat + 4*(z*x)*q 8%nat + 4*(y*z)*q 9%nat.
Lemma tet10_taylor e p c s w :
  let xn k := vsub (e k) (e 0%nat) in
  let f := vsub (coord_at 10 tet10_shape xn s) (vsub p (e 0%nat)) in let J := shape_jac 10 tet10_deriv xn s in
  let x := vx w - vx s in let y := vy w - vy s in let z := vz w - vz s in
  vx (place 10 tet10_shape e w) - vx p = vx f + (J 0%nat*x + J 1%nat*y + J 2%nat*z) + tet10_rem (fun i => vx (e i) - vx c) x y z /\
  vy (place 10 tet10_shape e w) - vy p = vy f + (J 3%nat*x + J 4%nat*y + J 5%nat*z) + tet10_rem (fun i => vy (e i) - vy c) x y z /\
  vz (place 10 tet10_shape e w) - vz p = vz f + (J 6%nat*x + J 7%nat*y + J 8%nat*z) + tet10_rem (fun i => vz (e i) - vz c) x y z.
Proof.
  cbv zeta. shape_red. unfold shape_jac, sumk, tet10_rem, tet10_shape, tet10_deriv, vsub. cbn [seq map rsum fold_right vx vy vz].
  repeat split; ring.
Qed.
Theorem C33_tet10_residual : forall e p c D, coords_within 10 D e c ->
  let r := tet10_is_in_element e p in f_dist r < dbl_max ->
  near (38/10^16 * D) (place 10 tet10_shape e (f_par r)) p.
Proof.
  intros e p c D HC. cbv zeta. unfold tet10_is_in_element. intros H.
  apply report_found in H. destruct H as [a [E [N _]]].
  set (w := f_par _) in *. clearbody w.
  apply tet10_step_eq in E. cbv zeta in E. destruct E as [E1 [E2 E3]].
  destruct (tet10_taylor e p c a w) as [T1 [T2 T3]].
  assert (HD : 0 <= D). { specialize (HC 0%nat ltac:(lia)). pose proof (Rabs_pos (vx (e 0%nat) - vx c)). lra. }
  unfold norm_sq, vsub in N. cbn [vx vy vz] in N.
  assert (G : forall q, (forall i, (i < 10)%nat -> Rabs (q i) <= D) ->
     Rabs (tet10_rem q (vx w - vx a) (vy w - vy a) (vz w - vz a)) <= 38/10^16*D).
  { intros q Hq. revert N. generalize (vx w - vx a) (vy w - vy a) (vz w - vz a). intros x y z N.
    assert (P : forall k b i, (i < 10)%nat -> Rabs k <= b -> Rabs (k * q i) <= b * D).
    { intros k b i Hi Hk. apply prod_bound; [exact Hk|apply Hq; exact Hi]. }
    pose proof (Rle_0_sqr x) as X. pose proof (Rle_0_sqr y) as Y. pose proof (Rle_0_sqr z) as Z.
    pose proof (Rle_0_sqr (x+y)) as A1. pose proof (Rle_0_sqr (x-y)) as A2.
    pose proof (Rle_0_sqr (y+z)) as A3. pose proof (Rle_0_sqr (y-z)) as A4.
    pose proof (Rle_0_sqr (z+x)) as A5. pose proof (Rle_0_sqr (z-x)) as A6.
    pose proof (Rle_0_sqr (x+y+z)) as S. unfold Rsqr in *. fold converged_tol in *.
    assert (S3 : (x+y+z)*(x+y+z) <= 3*converged_tol) by lra.
    assert (H1 : Rabs (x*(x+y+z)) <= 2*converged_tol).
    { pose proof (Rle_0_sqr (x+(x+y+z))) as B1. pose proof (Rle_0_sqr (x-(x+y+z))) as B2. unfold Rsqr in *. apply Rabs_le. lra. }
    assert (H2 : Rabs (y*(x+y+z)) <= 2*converged_tol).
    { pose proof (Rle_0_sqr (y+(x+y+z))) as B1. pose proof (Rle_0_sqr (y-(x+y+z))) as B2. unfold Rsqr in *. apply Rabs_le. lra. }
    assert (H3 : Rabs (z*(x+y+z)) <= 2*converged_tol).
    { pose proof (Rle_0_sqr (z+(x+y+z))) as B1. pose proof (Rle_0_sqr (z-(x+y+z))) as B2. unfold Rsqr in *. apply Rabs_le. lra. }
    unfold tet10_rem. cbv zeta. apply Rabs_le_iff in H1, H2, H3.
    assert (C : forall k b, - b <= k <= b -> Rabs k <= b) by (intros; apply Rabs_le_iff; assumption).
    eapply Rle_trans.
    - repeat apply sum_bound.
      + apply (P _ (2*(3*converged_tol))); [lia|apply C; lra].
      + apply (P _ (2*(x*x))); [lia|apply C; lra].
      + apply (P _ (2*(y*y))); [lia|apply C; lra].
      + apply (P _ (2*(z*z))); [lia|apply C; lra].
      + apply (P _ (8*converged_tol)); [lia|apply C; lra].
      + apply (P _ (2*converged_tol)); [lia|apply C; lra].
      + apply (P _ (8*converged_tol)); [lia|apply C; lra].
      + apply (P _ (8*converged_tol)); [lia|apply C; lra].
      + apply (P _ (2*converged_tol)); [lia|apply C; lra].
      + apply (P _ (2*converged_tol)); [lia|apply C; lra].
    - replace (38/10^16*D) with (38*converged_tol*D) by (unfold converged_tol; field; lra).
      rewrite <- !Rmult_plus_distr_r. apply Rmult_le_compat_r; [exact HD|]. lra. }
  unfold near. rewrite T1, T2, T3, E1, E2, E3.
  assert (Z : forall r g, r + - r + g = g) by (intros; ring). rewrite !Z.
  repeat split; apply G; intros i Hi; apply (HC i Hi).
Qed.

(** ** Quad9 in the plane *)
Theorem C33_quad9_affine : forall e a u v t, affine_element 9 quad9_nodes e a u v vzero -> cross2 u v <> 0 -> planar t ->
  quad9_is_in_element e (affine_map a u v vzero t) = {| f_dist := quad_dist t; f_par := t |}.
Proof.
  intros e a u v t HE HD Ht. unfold quad9_is_in_element. apply (report_exact _ _ _ (fun _ => True)); try exact I; [|lia].
  intros c _. unfold quad9_step, p2_step2d. cbv zeta.
  destruct (basis_exact 9 2 quad9_nodes quad9_shape quad9_deriv ltac:(lia) C30_quad9_basis C30_quad9_derivatives c) as [U [L [Z K]]].
  assert (L0 := L 0%nat ltac:(lia)). assert (L1 := L 1%nat ltac:(lia)). unfold interp in L0, L1.
  assert (Z0 := Z 0%nat ltac:(lia)). assert (Z1 := Z 1%nat ltac:(lia)).
  assert (K00 := K 0%nat 0%nat ltac:(lia) ltac:(lia)). assert (K01 := K 0%nat 1%nat ltac:(lia) ltac:(lia)).
  assert (K10 := K 1%nat 0%nat ltac:(lia) ltac:(lia)). assert (K11 := K 1%nat 1%nat ltac:(lia) ltac:(lia)).
  cbn [comp Nat.eqb] in *.
  assert (J0 : shape_jac 9 quad9_deriv e c 0%nat = vx u).
  { cbn [shape_jac]. rewrite (sumk_affine 9 quad9_nodes e a u v vzero) by auto. cbv beta. rewrite Z0, K00, K01. cbn [vx vzero]. ring. }
  assert (J1 : shape_jac 9 quad9_deriv e c 1%nat = vx v).
  { cbn [shape_jac]. rewrite (sumk_affine 9 quad9_nodes e a u v vzero) by auto. cbv beta. rewrite Z1, K10, K11. cbn [vx vzero]. ring. }
  assert (J3 : shape_jac 9 quad9_deriv e c 3%nat = vy u).
  { cbn [shape_jac]. rewrite (sumk_affine 9 quad9_nodes e a u v vzero) by auto. cbv beta. rewrite Z0, K00, K01. cbn [vy vzero]. ring. }
  assert (J4 : shape_jac 9 quad9_deriv e c 4%nat = vy v).
  { cbn [shape_jac]. rewrite (sumk_affine 9 quad9_nodes e a u v vzero) by auto. cbv beta. rewrite Z1, K10, K11. cbn [vy vzero]. ring. }
  assert (X : vx (coord_at 9 quad9_shape e c) = vx a + vx c * vx u + vy c * vx v).
  { unfold coord_at. cbn [vx]. rewrite (sumk_affine 9 quad9_nodes e a u v vzero) by auto. cbv beta. rewrite U, L0, L1. cbn [vx vzero]. ring. }
  assert (Y : vy (coord_at 9 quad9_shape e c) = vy a + vx c * vy u + vy c * vy v).
  { unfold coord_at. cbn [vy]. rewrite (sumk_affine 9 quad9_nodes e a u v vzero) by auto. cbv beta. rewrite U, L0, L1. cbn [vy vzero]. ring. }
  rewrite J0, J1, J3, J4. unfold vsub. cbn [vx vy vz]. rewrite X, Y.
  unfold Tensor_Model.solve22, Tensor_Model.determinant22, Tensor_Model.of_list. cbn [nth].
  unfold cross2, planar in *.
  destruct (Req_EM_T _ _) as [h|h].
  - exfalso. apply HD. lra.
  - f_equal. destruct t as [t1 t2 t3]. unfold affine_map, vadd, vscale, vzero. cbn [vx vy vz] in *. rewrite Ht. f_equal; field; exact h.
Qed.

(** ** Quadrilateral faces in space *)
(** The normal used is the cross product of the two tangent vectors of the bilinear surface. *)
Definition tangent_xi (e : nat -> vec) (s : vec) : vec :=
  vadd (vscale ((1 - vy s)/4) (vsub (e 1%nat) (e 0%nat))) (vscale ((1 + vy s)/4) (vsub (e 2%nat) (e 3%nat))).
Definition tangent_eta (e : nat -> vec) (s : vec) : vec :=
  vadd (vscale ((1 - vx s)/4) (vsub (e 3%nat) (e 0%nat))) (vscale ((1 + vx s)/4) (vsub (e 2%nat) (e 1%nat))).
Theorem C33_face_normal : forall e s,
  face_normal e s = cross (tangent_xi e s) (tangent_eta e s) /\
  (forall c, (c < 3)%nat ->
     derivable_pt_lim (fun h => comp c (place 4 quad4g_shape e (shift 0 h s))) 0 (comp c (tangent_xi e s)) /\
     derivable_pt_lim (fun h => comp c (place 4 quad4g_shape e (shift 1 h s))) 0 (comp c (tangent_eta e s))).
Proof.
  intros e s. split.
  - unfold face_normal, cross, tangent_xi, tangent_eta, vadd, vscale, vsub. cbv zeta. cbn [vx vy vz]. f_equal; field.
  - intros c Hc.
    assert (G : forall (f : R -> R) l, (forall h, f h = f 0 + h*l) -> derivable_pt_lim f 0 l).
    { intros f l Hf eps He. exists (mkposreal 1 Rlt_0_1). intros h Hh _. rewrite Rplus_0_l, (Hf h).
      replace ((f 0 + h*l - f 0)/h - l) with 0 by (field; exact Hh). rewrite Rabs_R0. exact He. }
    split; apply G; intros h; unfold tangent_xi, tangent_eta, shift, vadd, vscale, vsub, comp; shape_red; unfold quad4g_shape; cbn [vx vy vz];
    (do 3 (destruct c as [|c]; [field|try lia])).
Qed.
(** Planar parallelograms: foot and height are found exactly; the third coordinate is the signed
    height over the plane divided by the square root of the area |u x v|, inside if at most 0.1
    (four nodes) or 0.01 (nine nodes). *)
Lemma face_affine X lim thick e a u v t : (2 <= lim)%nat ->
  affine_element 4 (quad4_nodes 1) e a u v vzero -> cross u v <> vzero ->
  (forall s, X s = affine_map a u v vzero s) ->
  let n := cross u v in
  let s := V (vx t) (vy t) (vz t * sqrt (sqrt (dot n n))) in
  face_is_in_element X lim thick e (affine_map a u v n t) = {| f_dist := face_dist thick s; f_par := s |}.
Proof.
  intros Hl HE HN HX. cbv zeta. set (n := cross u v).
  assert (FN : forall c, face_normal e c = n).
  { intros c. unfold face_normal. cbv zeta. rewrite !HE by lia. unfold affine_map, quad4_nodes, of_list, square, vadd, vscale, vzero, n, cross. cbn [vx vy vz nth].
    f_equal; field. }
  assert (HT : triple u v n <> 0).
  { unfold triple, n. intros E. apply HN. unfold dot, cross in *. cbn [vx vy vz] in *.
    set (p := vy u * vz v - vy v * vz u) in *. set (q := vz u * vx v - vz v * vx u) in *. set (r := vx u * vy v - vx v * vy u) in *.
    assert (S : p*p + q*q + r*r = 0) by (rewrite <- E; unfold p, q, r; ring).
    pose proof (Rle_0_sqr p) as A1. pose proof (Rle_0_sqr q) as A2. pose proof (Rle_0_sqr r) as A3. unfold Rsqr in *.
    assert (p*p = 0) by lra. assert (q*q = 0) by lra. assert (r*r = 0) by lra.
    assert (Q : forall k, k*k = 0 -> k = 0) by (intros k Hk; apply Rmult_integral in Hk; tauto).
    unfold vzero. f_equal; apply Q; assumption. }
  assert (ST : forall c, face_update (face_jac e c) (face_res X e (affine_map a u v n t) c) c = Some t).
  { intros c.
    assert (J : face_jac e c 0%nat = vx u /\ face_jac e c 1%nat = vx v /\ face_jac e c 2%nat = vx n /\
                face_jac e c 3%nat = vy u /\ face_jac e c 4%nat = vy v /\ face_jac e c 5%nat = vy n /\
                face_jac e c 6%nat = vz u /\ face_jac e c 7%nat = vz v /\ face_jac e c 8%nat = vz n).
    { unfold face_jac. rewrite FN. rewrite !HE by lia. unfold affine_map, quad4_nodes, of_list, square, vadd, vscale, vzero. cbn [vx vy vz nth].
      repeat split; field. }
    destruct J as [J0 [J1 [J2 [J3 [J4 [J5 [J6 [J7 J8]]]]]]]].
    destruct (face_update (face_jac e c) (face_res X e (affine_map a u v n t) c) c) as [r|] eqn:E.
    - f_equal. apply face_update_eq in E. rewrite J0, J1, J2, J3, J4, J5, J6, J7, J8 in E.
      unfold face_res in E. rewrite FN, HX in E. unfold affine_map, vadd, vscale, vsub, vzero in E. cbn [vx vy vz] in E.
      destruct E as [E1 [E2 E3]]. apply (lin3 u v n c); [exact HT|lra|lra|lra].
    - exfalso. unfold face_update in E. cbv zeta in E. rewrite J0, J1, J2, J3, J4, J5, J6, J7, J8 in E.
      destruct (Req_EM_T _ _) as [h|h]; [|discriminate]. apply HT. unfold triple, dot, cross in *. cbn [vx vy vz] in *. lra. }
  unfold face_is_in_element. destruct lim as [|[|k]]; try lia.
  destruct (newton_exact _ (fun _ => True) t (fun c _ => ST c) k (V (1/2) (1/2) (1/2)) I I) as [c' [_ ->]].
  rewrite FN. reflexivity.
Qed.
Theorem C33_quad43d_parallelogram : forall e a u v t, affine_element 4 (quad4_nodes 1) e a u v vzero -> cross u v <> vzero ->
  let n := cross u v in
  let s := V (vx t) (vy t) (vz t * sqrt (sqrt (dot n n))) in
  quad43d_is_in_element e (affine_map a u v n t) = {| f_dist := face_dist (1/10) s; f_par := s |}.
Proof.
  intros e a u v t HE HN. apply face_affine; [lia|exact HE|exact HN|].
  intros s. unfold quad4_interpolate. rewrite !HE by lia. unfold affine_map, quad4_nodes, of_list, square, vadd, vscale, vzero. cbn [vx vy vz nth].
  f_equal; field.
Qed.
Theorem C33_quad93d_parallelogram : forall e a u v t, affine_element 9 quad9_nodes e a u v vzero -> cross u v <> vzero ->
  let n := cross u v in
  let s := V (vx t) (vy t) (vz t * sqrt (sqrt (dot n n))) in
  quad93d_is_in_element e (affine_map a u v n t) = {| f_dist := face_dist (1/100) s; f_par := s |}.
Proof.
  intros e a u v t HE HN. apply face_affine; [lia| |exact HN|].
  - intros i Hi. rewrite HE by lia. f_equal. do 4 (destruct i as [|i]; [reflexivity|try lia]).
  - intros s. unfold quad93d_interpolate. rewrite !HE by lia. unfold affine_map, quad9_nodes, of_list, square, vadd, vscale, vzero. cbn [vx vy vz nth app].
    f_equal; field.
Qed.
(** Warped four-node faces: the point is the surface point plus d times the normal, up to half the
    tolerance times the twist and the variation of the normal. *)
Definition normal_variation (e : nat -> vec) (k : nat) : vec :=
  match k with
  | 0%nat => vsub (face_normal e (V 1 0 0)) (face_normal e (V 0 0 0))
  | _ => vsub (face_normal e (V 0 1 0)) (face_normal e (V 0 0 0))
  end.
Theorem C33_quad43d_residual : forall e p, let r := quad43d_is_in_element e p in f_dist r < dbl_max ->
  exists d cur, vz (f_par r) = d * sqrt (sqrt (norm_sq (face_normal e cur))) /\
    (forall c, (c < 3)%nat ->
      Rabs (comp c (place 4 quad4g_shape e (f_par r)) + d * comp c (face_normal e (f_par r)) - comp c p)
      <= 1/10^16/2 * (Rabs (comp c (twist e)) + Rabs (comp c (normal_variation e 0)) + Rabs (comp c (normal_variation e 1)))).
Proof.
  intros e p. cbv zeta. unfold quad43d_is_in_element, face_is_in_element.
  destruct (newton _ _ _) as [[cur nw]|] eqn:E; cbn [f_dist f_par]; [|intros H; exfalso; lra].
  intros _. apply newton_sound in E. destruct E as [E N]. exists (vz nw), cur. cbn [vz]. split; [reflexivity|].
  apply face_update_eq in E. destruct E as [E1 [E2 E3]].
  destruct (step_bounds _ _ N) as [Bxy [Byz [Bzx _]]].
  set (Xf := fun s => V (quad4_interpolate s (fun k => vx (e k))) (quad4_interpolate s (fun k => vy (e k))) (quad4_interpolate s (fun k => vz (e k)))) in *.
  assert (F : forall c (G f : R), (c < 3)%nat -> 
     comp c (place 4 quad4g_shape e (V (vx nw) (vy nw) f)) + vz nw * comp c (face_normal e (V (vx nw) (vy nw) f)) - comp c p =
     face_res Xf e p cur c + (face_jac e cur (3*c) * (vx nw - vx cur) + face_jac e cur (3*c+1) * (vy nw - vy cur) + face_jac e cur (3*c+2) * (vz nw - vz cur))
     + ((vx nw - vx cur)*(vy nw - vy cur)*comp c (twist e) + (vz nw - vz cur)*(vx nw - vx cur)*comp c (normal_variation e 0)
        + (vy nw - vy cur)*(vz nw - vz cur)*comp c (normal_variation e 1))).
  { intros c G f Hc. unfold face_res, face_jac, Xf, quad4_interpolate, normal_variation, twist, face_normal, comp, vsub, vadd, vscale.
    shape_red. unfold quad4g_shape.
    do 3 (destruct c as [|c]; [cbn [Nat.mul Nat.add vx vy vz]; field|try lia]). }
  intros c Hc. rewrite (F c 0 _ Hc).
  assert (E : face_res Xf e p cur c + (face_jac e cur (3*c) * (vx nw - vx cur) + face_jac e cur (3*c+1) * (vy nw - vy cur) + face_jac e cur (3*c+2) * (vz nw - vz cur)) = 0).
  { do 3 (destruct c as [|c]; [cbn [Nat.mul Nat.add]; lra|try lia]). }
  rewrite E, Rplus_0_l. rewrite !Rmult_plus_distr_l.
  change (1/10^16) with converged_tol.
  apply sum_bound; [apply sum_bound|]; apply prod_bound; try lra; assumption.
Qed.
