(** C58 continued: consequences for the edge-based solvers on every conforming mesh. *)
Require Import Reals List Bool Lra Lia PeanoNat Permutation.
From Verif Require Import Edge_Model Edge_Proofs Edge_Props.
From Verif Require Import ME_Model ME_Spec Geom_Model Geom_Spec Geom_Props Geom_Props2 Geom_Props3.
From Verif Require Gas_Model Gas_Spec Gas_Props2 Gas_Props3.
Import ListNotations.
Open Scope R_scope.

(** what the edge algorithms read: the edges with the assembled area vectors, and the boundary
    integration points with their nearest node, exposed area and an interpolation rule *)
Definition mesh_edges (x : nat -> vec) en els (edges : list nat) : list edge :=
  map (fun e => mkEdge (fst (en e)) (snd (en e)) (fun j => pr j (edge_area x en els e))) edges.
Definition mesh_bips (x : nat -> vec) (N : list nat -> nat -> list (R * nat)) (boundary : list (list nat)) : list bip :=
  flat_map (fun f => map (fun k => mkBip (nth k f 0%nat) (fun j => pr j (face_area x f k)) (N f k)) (seq 0 (length f))) boundary.
Definition mesh_gas_bips (x : nat -> vec) (boundary : list (list nat)) : list Gas_Model.bip :=
  flat_map (fun f => map (fun k => Gas_Model.mkBip (nth k f 0%nat) (fun j => pr j (face_area x f k))) (seq 0 (length f))) boundary.
Definition mesh_ok en els (edges : list nat) boundary : Prop :=
  NoDup edges /\ (forall el, In el els -> elem_ok en el)
  /\ (forall el k, In el els -> (k < length (t_edges (el_type el)))%nat -> In (nth k (el_edges el) 0%nat) edges)
  /\ conforming els boundary.

Lemma closed_components x en els edges boundary i j : mesh_ok en els edges boundary ->
  lsum (fun e => (if Nat.eqb (eL e) i then eA e j else 0) - (if Nat.eqb (eR e) i then eA e j else 0)) (mesh_edges x en els edges)
  + lsum (fun f => lsum (fun k => if Nat.eqb (nth k f 0%nat) i then pr j (face_area x f k) else 0) (seq 0 (length f))) boundary = 0.
Proof.
  intros (ND & OK & HE & C). pose proof (C58_dual_mesh_closed x en els edges boundary i ND OK HE C) as Q.
  apply (f_equal (pr j)) in Q. rewrite pr_add, pr_zero, pr_vsum in Q. etransitivity; [|exact Q]. f_equal.
  - unfold mesh_edges, dual_faces_at. rewrite lsum_map, pr_vsum. apply lsum_ext; intros e _. cbn [eL eR eA].
    rewrite pr_sub, !pr_if. reflexivity.
  - apply lsum_ext; intros f _. unfold face_part. rewrite pr_vsum. apply lsum_ext; intros k _. rewrite pr_if. reflexivity.
Qed.
(** ** C58: on every conforming mesh each node has a closed control volume in the sense the edge
    algorithms need, so the nodal gradient of a constant is zero everywhere, boundary nodes included. *)
Theorem C58_control_volumes_closed : forall x en els edges boundary N i,
  mesh_ok en els edges boundary -> closed_cv (mesh_edges x en els edges) (mesh_bips x N boundary) i.
Proof.
  intros x en els edges boundary N i H j. etransitivity; [|exact (closed_components x en els edges boundary i j H)].
  f_equal. unfold mesh_bips. rewrite lsum_flat. apply lsum_ext; intros f _. rewrite lsum_map. reflexivity.
Qed.
Theorem C58_constant_has_zero_gradient_on_any_mesh : forall x en els edges boundary N vol q c i j,
  mesh_ok en els edges boundary -> (forall k, q k = c) ->
  (forall f k, In f boundary -> (k < length f)%nat -> lsum fst (N f k) = 1) ->
  nodal_grad vol q (mesh_edges x en els edges) (mesh_bips x N boundary) i j = 0.
Proof.
  intros x en els edges boundary N vol q c i j H Hq HN.
  apply (C38_constant_field_has_zero_gradient _ _ _ _ _ _ c Hq (C58_control_volumes_closed x en els edges boundary N i H)).
  intros b Hb. unfold mesh_bips in Hb. apply in_flat_map in Hb. destruct Hb as (f & Hf & Hb).
  apply in_map_iff in Hb. destruct Hb as (k & <- & Hk). apply in_seq in Hk. unfold partition_of_unity; cbn [b_N].
  apply HN; [exact Hf|lia].
Qed.
(** ** C58: a gas at rest with symmetry boundaries stays at rest, and a uniform stream is preserved at
    every node off the boundary, on every conforming mesh without degenerate dual faces. *)
Theorem C58_rest_state_on_any_mesh : forall x en els edges boundary n g rho p H T cs i c,
  mesh_ok en els edges boundary ->
  0 < cs -> (forall e, In e (mesh_edges x en els edges) -> 0 < e_asq n e) ->
  (forall k, Gas_Props2.gas_state_is n g k rho (fun _ => 0) p H T cs) ->
  Gas_Model.gas_symmetry_loop n (Gas_Model.g_p g) (mesh_gas_bips x boundary)
     (Gas_Model.gas_edge_loop n g (mesh_edges x en els edges) (fun _ _ => 0)) i c = 0.
Proof.
  intros x en els edges boundary n g rho p H T cs i c M Hcs HA HS.
  apply (Gas_Props3.C57_rest_state_preserved n g _ _ rho p H T cs i c Hcs HA HS).
  intros j _. etransitivity; [|exact (closed_components x en els edges boundary i j M)]. f_equal.
  - unfold Gas_Spec.edge_area_at. apply lsum_ext; intros e _. rewrite !(Nat.eqb_sym i). reflexivity.
  - unfold mesh_gas_bips. rewrite lsum_flat. apply lsum_ext; intros f _. rewrite lsum_map.
    apply lsum_ext; intros k _. cbn [Gas_Model.b_node Gas_Model.b_A]. rewrite (Nat.eqb_sym i). reflexivity.
Qed.
Theorem C58_free_stream_on_any_mesh : forall x en els edges boundary n g rho u p H T cs i c,
  mesh_ok en els edges boundary -> (forall f, In f boundary -> ~ In i f) ->
  0 < cs -> (forall e, In e (mesh_edges x en els edges) -> 0 < e_asq n e) ->
  (forall k, Gas_Props2.gas_state_is n g k rho u p H T cs) ->
  Gas_Model.gas_edge_loop n g (mesh_edges x en els edges) (fun _ _ => 0) i c = 0.
Proof.
  intros x en els edges boundary n g rho u p H T cs i c M NB Hcs HA HS.
  apply (Gas_Props2.C55_free_stream_preserved n g _ rho u p H T cs i c Hcs HA HS).
  intros j _. etransitivity; [|exact (closed_components x en els edges boundary i j M)].
  rewrite (lsum_zero (fun f => lsum _ (seq 0 (length f)))).
  - rewrite Rplus_0_r. unfold Gas_Spec.edge_area_at. apply lsum_ext; intros e _. rewrite !(Nat.eqb_sym i). reflexivity.
  - intros f Hf. apply lsum_zero. intros k Hk. apply in_seq in Hk.
    destruct (Nat.eqb_spec (nth k f 0%nat) i) as [E|]; [|reflexivity].
    exfalso. apply (NB f Hf). rewrite <- E. apply nth_In. lia.
Qed.
Example C58_mesh_ok_meets : mesh_ok ex_en ex_els [0;1;2;3;4;5;6;7;8]%nat ex_boundary.
Proof. exact C58_dual_mesh_closed_meets. Qed.
(** four triangles around a node: an interior node exists *)
Definition fan_en (e : nat) : nat * nat := nth e [(0,1);(1,2);(2,3);(3,0);(0,4);(4,1);(2,4);(4,3)]%nat (0,0)%nat.
Definition fan_els : list elem :=
  [ mkElem tri_t [0;1;4]%nat [0;5;4]%nat; mkElem tri_t [1;2;4]%nat [1;6;5]%nat
  ; mkElem tri_t [2;3;4]%nat [2;7;6]%nat; mkElem tri_t [3;0;4]%nat [3;4;7]%nat ].
Definition fan_boundary : list (list nat) := [[0;1];[1;2];[2;3];[3;0]]%nat.
Example C58_interior_node_meets : mesh_ok fan_en fan_els (seq 0 8) fan_boundary
  /\ (forall f, In f fan_boundary -> ~ In 4%nat f).
Proof.
  split; [|intros f [<- | [<- | [<- | [<- | []]]]]; cbn; lia].
  split; [apply seq_NoDup|]. split; [|split].
  - intros el [<- | [<- | [<- | [<- | []]]]]; (split; [unfold supported; cbn; tauto|]); (split; [reflexivity|]);
      (split; [repeat constructor; cbn; lia|]); intros k Hk; cbn in Hk;
      do 3 (destruct k as [|k]; [cbn; auto|]); lia.
  - intros el k [<- | [<- | [<- | [<- | []]]]] Hk; cbn in Hk; do 3 (destruct k as [|k]; [cbn; auto 12|]); lia.
  - exists [([1;4],[4;1]); ([2;4],[4;2]); ([3;4],[4;3]); ([0;4],[4;0])]%nat. split.
    + intros f g [E|[E|[E|[E|[]]]]]; injection E as <- <-; [exact (sf_rev [1;4]%nat)|exact (sf_rev [2;4]%nat)|exact (sf_rev [3;4]%nat)|exact (sf_rev [0;4]%nat)].
    + cbn. apply NoDup_Permutation;
        [repeat constructor; cbn; intuition discriminate|repeat constructor; cbn; intuition discriminate|].
      intros f. cbn. intuition auto 20.
Qed.
