(** C32 (small dense linear algebra) and C41 (element gradient and metric operators). *)
Require Import Reals List Lra Lia.
From Verif Require Import Edge_Model Edge_Proofs Tensor_Model.
Import ListNotations.
Open Scope R_scope.

(* ------------------------------------------------------------------ specification *)
(** row i, column j of a row-major n x n array; matrix-vector and matrix-matrix products as sums *)
Definition ent (n : nat) (A : arr) (i j : nat) : R := A (n*i+j)%nat.
Definition is_solution (n : nat) (A b x : arr) : Prop :=
  forall i, (i < n)%nat -> sumn n (fun j => ent n A i j * x j) = b i.
Definition is_inverse (n : nat) (A B : arr) : Prop :=
  forall i j, (i < n)%nat -> (j < n)%nat ->
    sumn n (fun k => ent n A i k * ent n B k j) = (if Nat.eqb i j then 1 else 0).
Definition is_product (n : nat) (A B C : arr) : Prop :=
  forall i j, (i < n)%nat -> (j < n)%nat -> ent n C i j = sumn n (fun k => ent n A i k * ent n B k j).

Ltac cases3 i H := destruct i as [|[|[|i]]]; [ | | | exfalso; clear -H; lia].
Ltac cases2 i H := destruct i as [|[|i]]; [ | | exfalso; clear -H; lia].
Ltac red3 := unfold ent, sumn, of_list, ddot; cbn [Nat.mul Nat.add seq fold_left nth Nat.eqb].

Theorem C32_solve22_correct : forall A b, determinant22 A <> 0 ->
  is_solution 2 A b (solve22 A b) /\
  (forall x, is_solution 2 A b x -> x 0%nat = solve22 A b 0%nat /\ x 1%nat = solve22 A b 1%nat).
Proof.
  intros A b H. split.
  - intros i Hi. unfold determinant22 in H. cases2 i Hi; red3; unfold solve22, determinant22, of_list; cbn; field; auto.
  - intros x Hx. pose proof (Hx 0%nat ltac:(lia)) as E0. pose proof (Hx 1%nat ltac:(lia)) as E1.
    revert E0 E1. red3. intros E0 E1. unfold solve22, determinant22, of_list in *. cbn [nth]. rewrite <- E0, <- E1. split; field; auto.
Qed.

Theorem C32_solve33_correct : forall A b, determinant33 A <> 0 ->
  is_solution 3 A b (solve33 A b) /\
  (forall x, is_solution 3 A b x -> forall i, (i < 3)%nat -> x i = solve33 A b i).
Proof.
  intros A b H. split.
  - intros i Hi. unfold determinant33 in H. cases3 i Hi; red3; unfold solve33, determinant33, of_list; cbn; field; auto.
  - intros x Hx. pose proof (Hx 0%nat ltac:(lia)) as E0. pose proof (Hx 1%nat ltac:(lia)) as E1. pose proof (Hx 2%nat ltac:(lia)) as E2.
    revert E0 E1 E2. red3. intros E0 E1 E2 i Hi. unfold solve33, determinant33, of_list in *.
    cases3 i Hi; cbn [nth]; rewrite <- E0, <- E1, <- E2; field; auto.
Qed.

(** C32. Products, transposes, determinants and cross products are the mathematical ones. *)
Theorem C32_products : forall A B, is_product 2 A B (mxm22 A B) /\ is_product 3 A B (mxm33 A B) /\
  (forall x i, (i < 2)%nat -> matvec22 A x i = sumn 2 (fun j => ent 2 A i j * x j)) /\
  (forall x i, (i < 3)%nat -> matvec33 A x i = sumn 3 (fun j => ent 3 A i j * x j)) /\
  (forall i j, (i < 2)%nat -> (j < 2)%nat -> ent 2 (transpose22 A) i j = ent 2 A j i) /\
  (forall i j, (i < 3)%nat -> (j < 3)%nat -> ent 3 (transpose33 A) i j = ent 3 A j i).
Proof.
  intros A B. repeat split.
  - intros i j Hi Hj. cases2 i Hi; cases2 j Hj; red3; unfold mxm22, of_list; cbn; ring.
  - intros i j Hi Hj. cases3 i Hi; cases3 j Hj; red3; unfold mxm33, of_list; cbn; ring.
  - intros x i Hi. cases2 i Hi; red3; unfold matvec22, of_list; cbn; ring.
  - intros x i Hi. cases3 i Hi; red3; unfold matvec33, of_list; cbn; ring.
  - intros i j Hi Hj. cases2 i Hi; cases2 j Hj; reflexivity.
  - intros i j Hi Hj. cases3 i Hi; cases3 j Hj; reflexivity.
Qed.

Theorem C32_determinant_multiplicative : forall A B,
  determinant22 (mxm22 A B) = determinant22 A * determinant22 B /\
  determinant33 (mxm33 A B) = determinant33 A * determinant33 B /\
  determinant22 (transpose22 A) = determinant22 A /\
  determinant33 (transpose33 A) = determinant33 A.
Proof.
  intros. unfold determinant22, determinant33, mxm22, mxm33, transpose22, transpose33, of_list. cbn [nth].
  repeat split; ring.
Qed.

Theorem C32_cross_product : forall u v,
  ddot u (cross3 u v) 3 = 0 /\ ddot v (cross3 u v) 3 = 0 /\
  vecnorm_sq3 (cross3 u v) = vecnorm_sq3 u * vecnorm_sq3 v - ddot u v 3 * ddot u v 3 /\
  (forall w, ddot w (cross3 u v) 3 = determinant33 (of_list [w 0%nat; w 1%nat; w 2%nat; u 0%nat; u 1%nat; u 2%nat; v 0%nat; v 1%nat; v 2%nat])).
Proof. intros. unfold ddot, cross3, vecnorm_sq3, determinant33, of_list. cbn. repeat split; try intros; ring. Qed.

Theorem C32_ddot_is_sum : forall u v n, ddot u v n = sumn n (fun i => u i * v i).
Proof. reflexivity. Qed.

(** C32 refuted for invert_matrix33([3][3]): the cofactors are stored untransposed, so what is
    returned is the transpose of the inverse, for every invertible matrix; it is the inverse only for
    symmetric matrices. *)
Theorem C32_invert_matrix33_array_partial : forall A, determinant33 A <> 0 ->
  is_inverse 3 (transpose33 A) (invert_matrix33_2d A) /\
  ((forall i j, (i < 3)%nat -> (j < 3)%nat -> ent 3 A i j = ent 3 A j i) -> is_inverse 3 A (invert_matrix33_2d A)).
Proof.
  intros A H.
  assert (P : is_inverse 3 (transpose33 A) (invert_matrix33_2d A)).
  { intros i j Hi Hj. unfold determinant33 in H.
    cases3 i Hi; cases3 j Hj; red3; unfold transpose33, invert_matrix33_2d, at33, determinant33, of_list; cbn; field; auto. }
  split; [exact P|]. intros Hs i j Hi Hj. rewrite <- (P i j Hi Hj). apply sumn_ext. intros k Hk.
  f_equal. rewrite Hs by auto. cases3 i Hi; cases3 k Hk; reflexivity.
Qed.
Theorem C32_invert_matrix33_array_refuted :
  exists A, determinant33 A = 1 /\ ~ is_inverse 3 A (invert_matrix33_2d A).
Proof.
  exists (of_list [1;1;0; 0;1;0; 0;0;1]). split; [unfold determinant33, of_list; cbn; ring|].
  intros H. specialize (H 0%nat 1%nat ltac:(lia) ltac:(lia)). revert H. red3.
  unfold invert_matrix33_2d, at33, determinant33, of_list. cbn. lra.
Qed.
(** The pointer overload has, in addition, a wrong factor in one entry: wrong even for symmetric
    positive definite matrices. *)
Theorem C32_invert_matrix33_pointer_refuted :
  exists A, determinant33 A > 0 /\ (forall i j, (i < 3)%nat -> (j < 3)%nat -> ent 3 A i j = ent 3 A j i) /\
  ~ is_inverse 3 A (invert_matrix33_ptr A) /\ ~ is_inverse 3 (transpose33 A) (invert_matrix33_ptr A).
Proof.
  exists (of_list [4;1;1; 1;4;2; 1;2;4]).
  assert (D : determinant33 (of_list [4;1;1; 1;4;2; 1;2;4]) = 44) by (unfold determinant33, of_list; cbn; ring).
  split; [lra|]. split; [intros i j Hi Hj; cases3 i Hi; cases3 j Hj; reflexivity|].
  split; intros H; specialize (H 0%nat 1%nat ltac:(lia) ltac:(lia)); revert H; unfold invert_matrix33_ptr, transpose33; red3; unfold determinant33, of_list; cbn; lra.
Qed.
(** ... the other eight entries agree with the array overload. *)
Theorem C32_invert_overloads_agree_except_one : forall A k, (k < 9)%nat -> k <> 7%nat ->
  invert_matrix33_ptr A k = invert_matrix33_2d A k.
Proof. intros A k Hk Hn. do 9 (destruct k as [|k]; [try reflexivity; lia|]). lia. Qed.

(* ------------------------------------------------------------------ C41 *)
Lemma sumn_comm n m f : sumn n (fun i => sumn m (fun j => f i j)) = sumn m (fun j => sumn n (fun i => f i j)).
Proof.
  induction n as [|n IH].
  - rewrite sumn_0. symmetry. rewrite (sumn_ext m _ (fun _ => 0 * 0)) by (intros; rewrite sumn_0; ring). rewrite sumn_scal. ring.
  - rewrite sumn_S, IH, <- sumn_plus. apply sumn_ext. intros j _. rewrite sumn_S. reflexivity.
Qed.

Lemma jac_sum nodes ref x i j : jacobian nodes ref x i j = sumn nodes (fun n => ref n j * x n i).
Proof. reflexivity. Qed.

(** C41. [dim] in {2,3}; any number of nodes; reference gradients of a partition of unity. The
    operator returns dN_n/dx_i: applied to nodal values of a linear function a + g.x it returns g
    exactly, on every element with non-zero Jacobian. *)
Theorem C41_gradient_exact_for_linear_fields :
  forall dim nodes ref x a (g : nat -> R) i, (dim = 2 \/ dim = 3)%nat -> (i < dim)%nat ->
  (forall j, (j < dim)%nat -> sumn nodes (fun n => ref n j) = 0) ->
  grad_op_det dim nodes ref x <> 0 ->
  sumn nodes (fun n => grad_op dim nodes ref x n i * (a + sumn dim (fun k => g k * x n k))) = g i.
Proof.
  intros dim nodes ref x a g i Hd Hi Hpu Hdet.
  set (J := jacobian nodes ref x). set (det := grad_op_det dim nodes ref x) in *.
  assert (E : sumn nodes (fun n => grad_op dim nodes ref x n i * (a + sumn dim (fun k => g k * x n k)))
     = (1/det) * sumn dim (fun j => cofactor dim J i j * sumn dim (fun k => g k * J k j))).
  { rewrite <- sumn_scal.
    rewrite (sumn_ext nodes _ (fun n => sumn dim (fun j => (1/det) * (cofactor dim J i j * (ref n j * a + sumn dim (fun k => g k * (ref n j * x n k))))))).
    2:{ intros n _. unfold grad_op. cbv zeta. fold det J. change (fold_left _ (seq 0 dim) 0) with (sumn dim (fun j => cofactor dim J i j * ref n j)).
        rewrite Rmult_comm, (Rmult_comm (sumn dim _)), Rmult_comm, Rmult_assoc, sumn_scal. f_equal.
        rewrite Rmult_comm, <- sumn_scal. apply sumn_ext. intros j _.
        rewrite (sumn_ext dim (fun k => g k * (ref n j * x n k)) (fun k => ref n j * (g k * x n k))) by (intros; ring).
        rewrite sumn_scal. ring. }
    rewrite sumn_comm. apply sumn_ext. intros j Hj. rewrite !sumn_scal. do 2 f_equal.
    rewrite sumn_plus.
    rewrite (sumn_ext nodes (fun n => ref n j * a) (fun n => a * ref n j)) by (intros; ring).
    rewrite sumn_scal, Hpu by auto. rewrite sumn_comm.
    rewrite Rmult_0_r, Rplus_0_l. apply sumn_ext. intros k _. unfold J. rewrite jac_sum, sumn_scal. reflexivity. }
  rewrite E. clear E. unfold det, grad_op_det in *. cbv zeta in *. fold J in Hdet |- *. clearbody J. clear Hpu det.
  destruct Hd as [-> | ->]; unfold cofactor in *; cbn [Nat.eqb] in *; unfold sumn in *; cbn [seq fold_left] in *.
  - unfold cofactor2, at2 in *. cbn [nth] in *. cases2 i Hi; cbn [nth]; field; intros Z; apply Hdet; lra.
  - unfold cofactor3, at2 in *. cbn [nth] in *. cases3 i Hi; cbn [nth]; field; intros Z; apply Hdet; lra.
Qed.

(** C41. Constants have zero gradient regardless of the geometry. *)
Theorem C41_gradient_of_constant_is_zero :
  forall dim nodes ref x c i, (forall j, (j < dim)%nat -> sumn nodes (fun n => ref n j) = 0) ->
  sumn nodes (fun n => grad_op dim nodes ref x n i * c) = 0.
Proof.
  intros dim nodes ref x c i Hpu. unfold grad_op. cbv zeta.
  set (inv := 1/_). set (K := cofactor _ _).
  rewrite (sumn_ext nodes _ (fun n => sumn dim (fun j => (inv * c * K i j) * ref n j))).
  2:{ intros n _. change (fold_left _ (seq 0 dim) 0) with (sumn dim (fun j => K i j * ref n j)).
      rewrite (sumn_ext dim (fun j => inv * c * K i j * ref n j) (fun j => (inv * c) * (K i j * ref n j))) by (intros; ring).
      rewrite sumn_scal. ring. }
  rewrite sumn_comm. rewrite (sumn_ext dim _ (fun _ => 0 * 0)); [rewrite sumn_scal; ring|].
  intros j Hj. rewrite sumn_scal, Hpu by auto. ring.
Qed.

(** C41. The determinant computed inside the gradient operator is the Jacobian determinant reported
    by the determinant operator, and it is translation invariant and scales with the cube. *)
Theorem C41_determinants_agree : forall nodes ref x,
  grad_op_det 3 nodes ref x = det_op nodes ref x.
Proof.
  intros. unfold grad_op_det, det_op, determinant33, cofactor, cofactor3, at2. cbv zeta. cbn [Nat.eqb seq fold_left nth].
  set (J := jacobian nodes ref x). change (0/3)%nat with 0%nat. change (0 mod 3)%nat with 0%nat.
  change (1/3)%nat with 0%nat. change (1 mod 3)%nat with 1%nat. change (2/3)%nat with 0%nat. change (2 mod 3)%nat with 2%nat.
  change (3/3)%nat with 1%nat. change (3 mod 3)%nat with 0%nat. change (4/3)%nat with 1%nat. change (4 mod 3)%nat with 1%nat.
  change (5/3)%nat with 1%nat. change (5 mod 3)%nat with 2%nat. change (6/3)%nat with 2%nat. change (6 mod 3)%nat with 0%nat.
  change (7/3)%nat with 2%nat. change (7 mod 3)%nat with 1%nat. change (8/3)%nat with 2%nat. change (8 mod 3)%nat with 2%nat.
  ring.
Qed.
Theorem C41_jacobian_transforms : forall nodes ref x (s : R) (t : nat -> R),
  (forall j, (j < 3)%nat -> sumn nodes (fun n => ref n j) = 0) ->
  det_op nodes ref (fun n i => s * x n i + t i) = s*s*s * det_op nodes ref x.
Proof.
  intros nodes ref x s t Hpu.
  assert (J : forall i j, (j < 3)%nat -> jacobian nodes ref (fun n i => s * x n i + t i) i j = s * jacobian nodes ref x i j).
  { intros i j Hj. rewrite !jac_sum.
    rewrite (sumn_ext nodes _ (fun n => s * (ref n j * x n i) + t i * ref n j)) by (intros; ring).
    rewrite sumn_plus, !sumn_scal, Hpu by auto. ring. }
  unfold det_op, determinant33. cbv zeta. rewrite !J by (apply Nat.mod_upper_bound; lia). ring.
Qed.

(** C41. Metric tensors: covariant = inverse of contravariant, symmetric, and the contravariant metric is
    positive definite whenever the Jacobian is non-singular. *)
Theorem C41_metric_inverse : forall nodes ref x i j, (i < 3)%nat -> (j < 3)%nat ->
  det_op nodes ref x <> 0 ->
  sumn 3 (fun k => gup nodes ref x i k * glo_of (gup nodes ref x) k j) = (if Nat.eqb i j then 1 else 0) /\
  gup nodes ref x i j = gup nodes ref x j i /\ glo_of (gup nodes ref x) i j = glo_of (gup nodes ref x) j i.
Proof.
  intros nodes ref x i j Hi Hj Hdet.
  assert (SYM : forall p q, gup nodes ref x p q = gup nodes ref x q p) by (intros; unfold gup; ring).
  set (g := gup nodes ref x) in *.
  assert (DG : g 0%nat 0%nat*(g 1%nat 1%nat*g 2%nat 2%nat - g 1%nat 2%nat*g 1%nat 2%nat)
                - g 0%nat 1%nat*(g 0%nat 1%nat*g 2%nat 2%nat - g 1%nat 2%nat*g 0%nat 2%nat)
                + g 0%nat 2%nat*(g 0%nat 1%nat*g 1%nat 2%nat - g 1%nat 1%nat*g 0%nat 2%nat)
       = det_op nodes ref x * det_op nodes ref x).
  { rewrite <- C41_determinants_agree. unfold g, gup, grad_op_det, cofactor, cofactor3, at2. cbv zeta. cbn [Nat.eqb seq fold_left nth]. ring. }
  assert (ND : det_op nodes ref x * det_op nodes ref x <> 0) by (apply Rmult_integral_contrapositive_currified; auto).
  clearbody g. split; [|split; [apply SYM|]].
  - rewrite <- DG in ND. unfold glo_of, sumn. cbn [seq fold_left].
    cases3 i Hi; cases3 j Hj; cbn [nth Nat.eqb]; rewrite ?(SYM 1%nat 0%nat), ?(SYM 2%nat 0%nat), ?(SYM 2%nat 1%nat); field; auto.
  - unfold glo_of. cases3 i Hi; cases3 j Hj; cbn [nth]; ring.
Qed.
Theorem C41_metric_positive_definite : forall nodes ref x (v : nat -> R),
  det_op nodes ref x <> 0 -> (v 0%nat <> 0 \/ v 1%nat <> 0 \/ v 2%nat <> 0) ->
  0 < sumn 3 (fun i => v i * sumn 3 (fun j => gup nodes ref x i j * v j)).
Proof.
  intros nodes ref x v Hdet Hv.
  set (J := jacobian nodes ref x).
  set (w := fun c => J 0%nat c * v 0%nat + J 1%nat c * v 1%nat + J 2%nat c * v 2%nat).
  assert (E : sumn 3 (fun i => v i * sumn 3 (fun j => gup nodes ref x i j * v j)) = w 0%nat * w 0%nat + w 1%nat * w 1%nat + w 2%nat * w 2%nat).
  { unfold gup, sumn, w. cbn [seq fold_left]. fold J. cbv zeta. ring. }
  rewrite E.
  assert (S0 := Rle_0_sqr (w 0%nat)). assert (S1 := Rle_0_sqr (w 1%nat)). assert (S2 := Rle_0_sqr (w 2%nat)). unfold Rsqr in *.
  destruct (Req_dec (w 0%nat) 0) as [E0|N]; [|apply Rlt_0_sqr in N; unfold Rsqr in N; lra].
  destruct (Req_dec (w 1%nat) 0) as [E1|N]; [|apply Rlt_0_sqr in N; unfold Rsqr in N; lra].
  destruct (Req_dec (w 2%nat) 0) as [E2|N]; [|apply Rlt_0_sqr in N; unfold Rsqr in N; lra].
  exfalso. rewrite <- C41_determinants_agree in Hdet. unfold grad_op_det, cofactor, cofactor3, at2 in Hdet. cbv zeta in Hdet.
  cbn [Nat.eqb seq fold_left nth] in Hdet. fold J in Hdet.
  set (D := 0 + _ + _ + _) in Hdet.
  assert (V0 : D * v 0%nat = 0).
  { replace (D * v 0%nat) with (w 0%nat * (J 1%nat 1%nat*J 2%nat 2%nat - J 1%nat 2%nat*J 2%nat 1%nat) + w 1%nat * (J 1%nat 2%nat*J 2%nat 0%nat - J 1%nat 0%nat*J 2%nat 2%nat) + w 2%nat * (J 1%nat 0%nat*J 2%nat 1%nat - J 1%nat 1%nat*J 2%nat 0%nat)) by (unfold D, w; ring).
    rewrite E0, E1, E2; ring. }
  assert (V1 : D * v 1%nat = 0).
  { replace (D * v 1%nat) with (w 0%nat * (J 2%nat 1%nat*J 0%nat 2%nat - J 2%nat 2%nat*J 0%nat 1%nat) + w 1%nat * (J 2%nat 2%nat*J 0%nat 0%nat - J 2%nat 0%nat*J 0%nat 2%nat) + w 2%nat * (J 2%nat 0%nat*J 0%nat 1%nat - J 2%nat 1%nat*J 0%nat 0%nat)) by (unfold D, w; ring).
    rewrite E0, E1, E2; ring. }
  assert (V2 : D * v 2%nat = 0).
  { replace (D * v 2%nat) with (w 0%nat * (J 0%nat 1%nat*J 1%nat 2%nat - J 0%nat 2%nat*J 1%nat 1%nat) + w 1%nat * (J 0%nat 2%nat*J 1%nat 0%nat - J 0%nat 0%nat*J 1%nat 2%nat) + w 2%nat * (J 0%nat 0%nat*J 1%nat 1%nat - J 0%nat 1%nat*J 1%nat 0%nat)) by (unfold D, w; ring).
    rewrite E0, E1, E2; ring. }
  apply Rmult_integral in V0. apply Rmult_integral in V1. apply Rmult_integral in V2.
  destruct Hv as [H|[H|H]]; tauto.
Qed.

(** non-vacuity: reference tetrahedron, 4 nodes *)
Definition tet_ref : mat := fun n j => nth j (nth n [[-1;-1;-1];[1;0;0];[0;1;0];[0;0;1]] []) 0.
Definition tet_x : mat := fun n j => nth j (nth n [[0;0;0];[2;0;0];[1;3;0];[0;1;4]] []) 0.
Example tet_nondegenerate : det_op 4 tet_ref tet_x = 24 /\ (forall j, (j < 3)%nat -> sumn 4 (fun n => tet_ref n j) = 0).
Proof.
  split; [rewrite <- C41_determinants_agree; unfold grad_op_det, cofactor, cofactor3, at2, jacobian, tet_ref, tet_x; cbn; ring|].
  intros j Hj. cases3 j Hj; unfold sumn, tet_ref; cbn; ring.
Qed.
Print Assumptions C41_metric_positive_definite.
