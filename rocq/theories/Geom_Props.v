(** C58: the dual mesh assembled from any conforming mesh fills space and is closed. *)
Require Import Reals List Bool Lra Lia PeanoNat Permutation.
From Verif Require Import Edge_Proofs Sum_Proofs ME_Model ME_Spec ME_Props ME_Props2 ME_Props3 Geom_Model Geom_Spec.
Import ListNotations.
Open Scope R_scope.

(* ------------------------------------------------------------------ components of vectors *)
Definition pr (j : nat) (v : vec) : R := match j with 0%nat => vx v | 1%nat => vy v | _ => vz v end.
Lemma pr_add j a b : pr j (vadd a b) = pr j a + pr j b. Proof. destruct j as [|[|]]; reflexivity. Qed.
Lemma pr_sub j a b : pr j (vsub a b) = pr j a - pr j b. Proof. destruct j as [|[|]]; reflexivity. Qed.
Lemma pr_scale j k a : pr j (vscale k a) = k * pr j a. Proof. destruct j as [|[|]]; reflexivity. Qed.
Lemma pr_zero j : pr j vzero = 0. Proof. destruct j as [|[|]]; reflexivity. Qed.
Lemma pr_neg j a : pr j (vneg a) = - pr j a. Proof. destruct j as [|[|]]; reflexivity. Qed.
Lemma pr_ext a b : (forall j, pr j a = pr j b) -> a = b.
Proof. intros E. apply vec_ext; [apply (E 0%nat)|apply (E 1%nat)|apply (E 2%nat)]. Qed.
Lemma pr_vsum {A} j (f : A -> vec) l : pr j (vsum (map f l)) = lsum (fun a => pr j (f a)) l.
Proof.
  induction l as [|a l IH]; [apply pr_zero|]. unfold lsum in *. cbn [map fold_right]. rewrite <- IH. apply pr_add.
Qed.
Lemma pr_if j (b : bool) v : pr j (if b then v else vzero) = if b then pr j v else 0.
Proof. destruct b; [reflexivity|apply pr_zero]. Qed.
Lemma lsum_flat {A B} (f : B -> R) (g : A -> list B) l : lsum f (flat_map g l) = lsum (fun a => lsum f (g a)) l.
Proof.
  unfold lsum. induction l as [|a l IH]; [reflexivity|]. cbn [flat_map map fold_right]. rewrite map_app, fold_right_app.
  rewrite <- IH. clear. generalize (fold_right Rplus 0 (map f (flat_map g l))). intros r.
  induction (g a) as [|b m IHm]; cbn; [lra|]. rewrite IHm. lra.
Qed.
Lemma lsum_perm' {A} (f : A -> R) l m : Permutation l m -> lsum f l = lsum f m.
Proof. unfold lsum. induction 1; cbn; lra. Qed.
Lemma lsum_app' {A} (f : A -> R) l m : lsum f (l ++ m) = lsum f l + lsum f m.
Proof. unfold lsum. induction l; cbn; [lra|]. rewrite IHl. lra. Qed.
Lemma lsum_map {A B} (f : B -> R) (g : A -> B) l : lsum f (map g l) = lsum (fun a => f (g a)) l.
Proof. unfold lsum. rewrite map_map. reflexivity. Qed.

(* ------------------------------------------------------------------ dual volume *)
Lemma scv_loop_value x el d i : scv_loop x el d i
  = d i + lsum (fun ip => if Nat.eqb (nth (nth ip (t_scvnode (el_type el)) 0%nat) (el_nodes el) 0%nat) i
                          then t_vol (el_type el) (ws_coordinates x el) ip else 0)
               (seq 0 (length (t_scvnode (el_type el)))).
Proof.
  unfold scv_loop. generalize (seq 0 (length (t_scvnode (el_type el)))) as l.
  intros l. revert d. induction l as [|ip l IH]; intros d; cbn [fold_left]; [unfold lsum; cbn; lra|].
  rewrite IH. unfold lsum; cbn [map fold_right]. rewrite (Nat.eqb_sym i).
  destruct (Nat.eqb _ i); lra.
Qed.
Lemma dual_volume_value x els i : dual_volume x els i
  = lsum (fun el => lsum (fun ip => if Nat.eqb (nth (nth ip (t_scvnode (el_type el)) 0%nat) (el_nodes el) 0%nat) i
                          then t_vol (el_type el) (ws_coordinates x el) ip else 0)
               (seq 0 (length (t_scvnode (el_type el))))) els.
Proof.
  unfold dual_volume.
  assert (K : forall d, fold_left (fun d el => scv_loop x el d) els d i = d i + lsum (fun el => lsum (fun ip => if Nat.eqb (nth (nth ip (t_scvnode (el_type el)) 0%nat) (el_nodes el) 0%nat) i
                          then t_vol (el_type el) (ws_coordinates x el) ip else 0)
               (seq 0 (length (t_scvnode (el_type el))))) els).
  { induction els as [|el els IH]; intros d; cbn [fold_left]; [unfold lsum; cbn; lra|].
    rewrite IH, scv_loop_value. unfold lsum; cbn [map fold_right]. lra. }
  rewrite K. lra.
Qed.

Lemma elem_fill x el : supported (el_type el) ->
  lsum (t_vol (el_type el) (ws_coordinates x el)) (seq 0 (length (t_scvnode (el_type el)))) = elem_volume x el.
Proof.
  destruct el as [t nd ed]; cbn [el_type el_nodes]. unfold elem_volume, ws_coordinates; cbn [el_type el_nodes].
  intros [-> | [-> | [-> | [-> | [-> | ->]]]]].
  - exact (C31_hex8_volumes_fill (gather x nd)).
  - exact (C31_tet4_volumes_fill (gather x nd)).
  - exact (C31_wed6_volumes_fill (gather x nd)).
  - exact (C31_pyr5_volumes_fill (gather x nd)).
  - exact (C31_tri3_2d_areas_fill (fun n => vx (gather x nd n)) (fun n => vy (gather x nd n))).
  - exact (C31_quad4_2d_areas_fill (fun n => vx (gather x nd n)) (fun n => vy (gather x nd n))).
Qed.

Lemma scvnode_lt el : supported (el_type el) -> forall ip, In ip (seq 0 (length (t_scvnode (el_type el)))) ->
  (nth ip (t_scvnode (el_type el)) 0%nat < t_npe (el_type el))%nat.
Proof.
  intros S ip Hip. apply in_seq in Hip.
  destruct S as [E | [E | [E | [E | [E | E]]]]]; rewrite E in *; cbn in Hip |- *;
    do 9 (destruct ip as [|ip]; [lia|]); lia.
Qed.

(** ** C58: the dual volumes of all nodes add up to the volume of the mesh, for every mesh of
    supported elements (mixed or not, conforming or not), whatever the node coordinates. *)
Theorem C58_dual_volumes_fill_the_mesh : forall x en els nodes,
  NoDup nodes -> (forall el, In el els -> elem_ok en el /\ incl (el_nodes el) nodes) ->
  lsum (dual_volume x els) nodes = lsum (elem_volume x) els.
Proof.
  intros x en els nodes ND HE.
  erewrite lsum_ext by (intros; apply dual_volume_value).
  rewrite lsum_comm. apply lsum_ext. intros el Hel. destruct (HE el Hel) as [(S & L & _) I].
  rewrite lsum_comm, <- elem_fill by exact S. apply lsum_ext. intros ip Hip.
  apply lsum_indicator; [exact ND|]. apply I, nth_In. rewrite L. apply scvnode_lt; assumption.
Qed.

(* ------------------------------------------------------------------ Jacobian check *)
(** ** C58: the run goes on after the Jacobian check exactly if no sub-control volume is negative,
    and the elements reported are exactly those with one; then no dual volume is negative. *)
Lemma bad_element_spec x el : bad_element x el = true <->
  exists ip, (ip < length (t_scvnode (el_type el)))%nat /\ t_vol (el_type el) (ws_coordinates x el) ip < 0.
Proof.
  unfold bad_element. rewrite existsb_exists. split.
  - intros (ip & I & H). apply in_seq in I. exists ip. split; [lia|].
    destruct (Rlt_dec _ 0); [assumption|discriminate].
  - intros (ip & I & H). exists ip. split; [apply in_seq; lia|].
    destruct (Rlt_dec _ 0); [reflexivity|contradiction].
Qed.
Theorem C58_jacobian_check : forall x els,
  (forall el, In el (bad_elements x els) <->
     In el els /\ exists ip, (ip < length (t_scvnode (el_type el)))%nat
                  /\ t_vol (el_type el) (ws_coordinates x el) ip < 0)
  /\ (check_jacobians_ok x els = true <->
      forall el ip, In el els -> (ip < length (t_scvnode (el_type el)))%nat ->
        0 <= t_vol (el_type el) (ws_coordinates x el) ip)
  /\ (check_jacobians_ok x els = true -> forall i, 0 <= dual_volume x els i).
Proof.
  intros x els.
  assert (B : forall el, In el (bad_elements x els) <-> In el els /\ exists ip, (ip < length (t_scvnode (el_type el)))%nat
                  /\ t_vol (el_type el) (ws_coordinates x el) ip < 0).
  { intros el. unfold bad_elements. rewrite filter_In, bad_element_spec. reflexivity. }
  assert (C : check_jacobians_ok x els = true <->
      forall el ip, In el els -> (ip < length (t_scvnode (el_type el)))%nat ->
        0 <= t_vol (el_type el) (ws_coordinates x el) ip).
  { unfold check_jacobians_ok. split.
    - intros H el ip He Hip. destruct (bad_elements x els) eqn:E; [|discriminate].
      apply Rnot_lt_le. intros N. destruct (B el) as [_ K]. apply K. split; [exact He|exists ip; split; assumption].
    - intros H. destruct (bad_elements x els) as [|el l] eqn:E; [reflexivity|exfalso].
      destruct (proj1 (B el)) as (He & ip & Hip & N); [left; reflexivity|].
      specialize (H el ip He Hip). lra. }
  refine (conj B (conj C _)). intros H i. rewrite dual_volume_value.
  assert (NN : forall {A} (f : A -> R) l, (forall a, In a l -> 0 <= f a) -> 0 <= lsum f l).
  { clear. intros A f l. unfold lsum. induction l; cbn; intros; [lra|].
    pose proof (H a (or_introl eq_refl)). specialize (IHl (fun b Hb => H b (or_intror Hb))). lra. }
  apply NN. intros el He. apply NN. intros ip Hip. apply in_seq in Hip.
  destruct (Nat.eqb _ i); [|lra]. apply (proj1 C H); [exact He|lia].
Qed.
