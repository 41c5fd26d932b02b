(** The hypotheses of C49-C52 hold for the real linear elements: shape functions and derivative tables of
    ME_Shape_Model (C30), the gradient operator of Tensor_Model (C41), the node tables of ME_Model. *)
Require Import Reals List Bool Lra Lia Arith.
From Verif Require Import RUtil ME_Model ME_Shape_Model ME_Shape_Spec ME_Shape_Props ME_Shape_Props2 Tensor_Model Tensor_Props.
From Verif Require Import Edge_Model Edge_Proofs Elem_Model Elem_Spec Elem_Proofs.
Import ListNotations.
Open Scope R_scope.

Section Link.
Variables (n d : nat) (N : ME_Model.vec -> nat -> R) (D : ME_Model.vec -> nat -> nat -> R).
Variables (lr : list (nat * nat)) (pts vpts : nat -> ME_Model.vec) (nv : nat) (near : nat -> nat).
Variables (x : nat -> nat -> R) (ar : nat -> nat -> R) (vo : nat -> R).
(** element data at the integration points [pts] (scs) and [vpts] (scv) for nodal positions [x] *)
Definition me_of : me :=
  let g := fun ip => grad_op d n (fun a j => D (pts ip) a j) x in
  mkMe n (length lr) nv d (fun ip => fst (nth ip lr (0,0)%nat)) (fun ip => snd (nth ip lr (0,0)%nat))
       (fun ip ic => N (pts ip) ic) (fun ip ic => N (pts ip) ic) g g ar near (fun ip ic => N (vpts ip) ic) vo.

Lemma rsum_sumn (f : nat -> R) k : ME_Model.rsum (map f (seq 0 k)) = sumn k f.
Proof. unfold sumn. rewrite fold_add_map. reflexivity. Qed.

Hypothesis HN : forall p, ME_Model.rsum (map (N p) (seq 0 n)) = 1.
Hypothesis HD : derivative_table n d (fun _ => True) N D.
Hypothesis Hd : (d = 2 \/ d = 3)%nat.
Hypothesis Hlr : forall ip, (ip < length lr)%nat -> (fst (nth ip lr (0,0)%nat) < n)%nat /\ (snd (nth ip lr (0,0)%nat) < n)%nat.
Hypothesis Hnear : forall ip, (ip < nv)%nat -> (near ip < n)%nat.
(** the element is not degenerate: the Jacobian does not vanish at the integration points *)
Hypothesis Hdet : forall ip, (ip < length lr)%nat -> grad_op_det d n (fun a j => D (pts ip) a j) x <> 0.

Lemma me_of_ok : maps_ok me_of /\ unity n (length lr) (Na me_of) /\ unity n (length lr) (Ns me_of) /\ unity n nv (Nv me_of)
  /\ grad_unity me_of /\ grad_linear_exact me_of x.
Proof.
  assert (Z : forall p j, (j < d)%nat -> sumn n (fun a => D p a j) = 0).
  { intros p j Hj. rewrite <- rsum_sumn. apply (C30_derivatives_sum_to_zero n d N D p j); [exact HD|exact HN|exact Hj]. }
  assert (GU : grad_unity me_of).
  { intros ip j Hip Hj. cbn in *. etransitivity; [|apply (C41_gradient_of_constant_is_zero d n (fun a j => D (pts ip) a j) x 1 j); intros; apply Z; assumption].
    apply sumn_ext. intros; ring. }
  repeat apply conj.
  - exact Hlr.
  - exact Hnear.
  - intros ip Hip. cbn. rewrite <- rsum_sumn. apply HN.
  - intros ip Hip. cbn. rewrite <- rsum_sumn. apply HN.
  - intros ip Hip. cbn. rewrite <- rsum_sumn. apply HN.
  - exact GU.
  - exact GU.
  - intros ip j k Hip Hj Hk. cbn in *.
    etransitivity; [|apply (C41_gradient_exact_for_linear_fields d n (fun a j => D (pts ip) a j) x 0 (fun l => if Nat.eqb l k then 1 else 0) j Hd Hj); 
      [intros; apply Z; assumption | apply Hdet; assumption]].
    apply sumn_ext. intros a _. f_equal. rewrite Rplus_0_l. symmetry. apply (sumn_dl d k (fun l => x a l) Hk).
Qed.
End Link.

(** every linear master element, at any points, on any non-degenerate geometry *)
Definition good (n d : nat) (m : me) (x : nat -> nat -> R) : Prop :=
  npe m = n /\ ndim m = d /\ maps_ok m /\ unity (npe m) (nscs m) (Na m) /\ unity (npe m) (nscs m) (Ns m)
  /\ unity (npe m) (nscv m) (Nv m) /\ grad_unity m /\ grad_linear_exact m x.

Lemma me_good n d N D lr pts vpts nv near x ar vo k :
  (forall p, ME_Model.rsum (map (N p) (seq 0 n)) = 1) -> derivative_table n d (fun _ => True) N D -> (d = 2 \/ d = 3)%nat ->
  forallb (fun e => Nat.ltb (fst e) n && Nat.ltb (snd e) n)%bool lr = true -> length lr = k ->
  (forall ip, (ip < nv)%nat -> (near ip < n)%nat) ->
  (forall ip, (ip < k)%nat -> grad_op_det d n (fun a j => D (pts ip) a j) x <> 0) ->
  good n d (me_of n d N D lr pts vpts nv near x ar vo) x.
Proof.
  intros HN HD Hd HL <- Hn Hdet. assert (HL' : forall ip, (ip < length lr)%nat -> (fst (nth ip lr (0,0)%nat) < n)%nat /\ (snd (nth ip lr (0,0)%nat) < n)%nat).
  { intros ip Hip. rewrite forallb_forall in HL. specialize (HL _ (nth_In lr (0,0)%nat Hip)). apply andb_true_iff in HL. 
    destruct HL as [A B]. apply Nat.ltb_lt in A, B. split; assumption. }
  split; [reflexivity|]. split; [reflexivity|]. exact (me_of_ok n d N D lr pts vpts nv near x ar vo HN HD Hd HL' Hn Hdet).
Qed.
Ltac link B T k := let A := fresh in let E := fresh in intros A E; refine (me_good _ _ _ _ _ _ _ _ _ _ _ _ k _ T _ _ _ A E);
  [intros; apply (nb_unity _ _ _ _ _ B); exact I | auto | reflexivity | reflexivity].

Theorem C51_elements_meet_hypotheses : forall pts vpts nv near x ar vo,
  ((forall ip, (ip < nv)%nat -> (near ip < 8)%nat) ->
   (forall ip, (ip < 12)%nat -> grad_op_det 3 8 (fun a j => hex8_deriv (pts ip) a j) x <> 0) ->
   good 8 3 (me_of 8 3 hex8_shape hex8_deriv hex_lrscv pts vpts nv near x ar vo) x) /\
  ((forall ip, (ip < nv)%nat -> (near ip < 4)%nat) ->
   (forall ip, (ip < 6)%nat -> grad_op_det 3 4 (fun a j => tet4_deriv (pts ip) a j) x <> 0) ->
   good 4 3 (me_of 4 3 tet4_shape tet4_deriv tet_lrscv pts vpts nv near x ar vo) x) /\
  ((forall ip, (ip < nv)%nat -> (near ip < 6)%nat) ->
   (forall ip, (ip < 9)%nat -> grad_op_det 3 6 (fun a j => wed6_deriv (pts ip) a j) x <> 0) ->
   good 6 3 (me_of 6 3 wed6_shape wed6_deriv wed_lrscv pts vpts nv near x ar vo) x) /\
  ((forall ip, (ip < nv)%nat -> (near ip < 4)%nat) ->
   (forall ip, (ip < 4)%nat -> grad_op_det 2 4 (fun a j => quad4_deriv (pts ip) a j) x <> 0) ->
   good 4 2 (me_of 4 2 quad4_shape quad4_deriv quad2d_lrscv pts vpts nv near x ar vo) x) /\
  ((forall ip, (ip < nv)%nat -> (near ip < 3)%nat) ->
   (forall ip, (ip < 3)%nat -> grad_op_det 2 3 (fun a j => tri3_deriv (pts ip) a j) x <> 0) ->
   good 3 2 (me_of 3 2 tri3_shape tri3_deriv tri2d_lrscv pts vpts nv near x ar vo) x).
Proof.
  intros. split; [|split; [|split; [|split]]].
  - link C30_hex8_basis C30_hex8_derivatives 12%nat.
  - link C30_tet4_basis C30_tet4_derivatives 6%nat.
  - link C30_wed6_basis C30_wed6_derivatives 9%nat.
  - link C30_quad4_basis C30_quad4_derivatives 4%nat.
  - link C30_tri3_basis C30_tri3_derivatives 3%nat.
Qed.
(** the unit tetrahedron is such an element *)
Theorem C51_unit_tet_example : forall pts vpts ar vo,
  let x := fun a k => comp k (tet4_nodes a) in
  good 4 3 (me_of 4 3 tet4_shape tet4_deriv tet_lrscv pts vpts 4 (fun ip => ip) x ar vo) x.
Proof.
  intros pts vpts ar vo x. apply C51_elements_meet_hypotheses; [intros; lia|]. intros ip _.
  unfold grad_op_det, jacobian, cofactor, cofactor3, Tensor_Model.at2, x, tet4_nodes, ME_Shape_Spec.of_list, tet4_deriv, comp. cbn. lra.
Qed.
