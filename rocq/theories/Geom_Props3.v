(** C58 continued: every conforming mesh has a closed dual mesh. *)
Require Import Reals List Bool Lra Lia PeanoNat Permutation.
From Verif Require Import Edge_Proofs ME_Model ME_Spec ME_Props ME_Props2 ME_Props3 Geom_Model Geom_Spec Geom_Props Geom_Props2.
Import ListNotations.
Open Scope R_scope.

Definition flen (f : list nat) : Prop := (length f = 2 \/ length f = 3 \/ length f = 4)%nat.

Lemma face_part_swap3 x i a b c : face_part x i [a; c; b] = vneg (face_part x i [a; b; c]).
Proof.
  unfold face_part. cbn [length seq map nth vsum fold_right].
  apply pr_ext; intros j. rewrite pr_neg, !pr_add, !pr_if.
  change (face_area x [a; c; b] 0) with (tri3d_scs_det (fun n => gather x [a;b;c] (nth n [0;2;1]%nat 0%nat)) 0).
  change (face_area x [a; c; b] 1) with (tri3d_scs_det (fun n => gather x [a;b;c] (nth n [0;2;1]%nat 0%nat)) 1).
  change (face_area x [a; c; b] 2) with (tri3d_scs_det (fun n => gather x [a;b;c] (nth n [0;2;1]%nat 0%nat)) 2).
  rewrite !C31_shared_tri_cancels by lia. cbn [nth].
  change (face_area x [a; b; c] 0) with (tri3d_scs_det (gather x [a;b;c]) 0).
  change (face_area x [a; b; c] 1) with (tri3d_scs_det (gather x [a;b;c]) 1).
  change (face_area x [a; b; c] 2) with (tri3d_scs_det (gather x [a;b;c]) 2).
  rewrite !pr_neg, pr_zero. destruct (Nat.eqb a i), (Nat.eqb b i), (Nat.eqb c i); lra.
Qed.
Lemma face_part_swap4 x i a b c d : face_part x i [a; d; c; b] = vneg (face_part x i [a; b; c; d]).
Proof.
  unfold face_part. cbn [length seq map nth vsum fold_right].
  apply pr_ext; intros j. rewrite pr_neg, !pr_add, !pr_if.
  change (face_area x [a; d; c; b] 0) with (quad3d_scs_det (fun n => gather x [a;b;c;d] (nth n [0;3;2;1]%nat 0%nat)) 0).
  change (face_area x [a; d; c; b] 1) with (quad3d_scs_det (fun n => gather x [a;b;c;d] (nth n [0;3;2;1]%nat 0%nat)) 1).
  change (face_area x [a; d; c; b] 2) with (quad3d_scs_det (fun n => gather x [a;b;c;d] (nth n [0;3;2;1]%nat 0%nat)) 2).
  change (face_area x [a; d; c; b] 3) with (quad3d_scs_det (fun n => gather x [a;b;c;d] (nth n [0;3;2;1]%nat 0%nat)) 3).
  rewrite !C31_shared_quad_cancels by lia. cbn [nth].
  change (face_area x [a; b; c; d] 0) with (quad3d_scs_det (gather x [a;b;c;d]) 0).
  change (face_area x [a; b; c; d] 1) with (quad3d_scs_det (gather x [a;b;c;d]) 1).
  change (face_area x [a; b; c; d] 2) with (quad3d_scs_det (gather x [a;b;c;d]) 2).
  change (face_area x [a; b; c; d] 3) with (quad3d_scs_det (gather x [a;b;c;d]) 3).
  rewrite !pr_neg, pr_zero. destruct (Nat.eqb a i), (Nat.eqb b i), (Nat.eqb c i), (Nat.eqb d i); lra.
Qed.
Lemma face_part_rev x i f : flen f -> face_part x i (rev f) = vneg (face_part x i f).
Proof.
  intros [H|[H|H]].
  - destruct f as [|a [|b [|]]]; try discriminate. unfold face_part. cbn [rev app length seq map nth].
    apply vec_ext; cbn; destruct (Nat.eqb a i), (Nat.eqb b i); cbn; lra.
  - destruct f as [|a [|b [|c [|]]]]; try discriminate. change (rev [a;b;c]) with (rotate [a;c;b]).
    rewrite face_part_rotate by (cbn; lia). apply face_part_swap3.
  - destruct f as [|a [|b [|c [|d [|]]]]]; try discriminate. change (rev [a;b;c;d]) with (rotate [a;d;c;b]).
    rewrite face_part_rotate by (cbn; lia). apply face_part_swap4.
Qed.
Lemma rotate_length f : length (rotate f) = length f.
Proof. destruct f; cbn; [reflexivity|]. rewrite app_length. cbn. lia. Qed.
Lemma same_face_cancels x i f g : same_face f g -> flen f -> length g = length f /\ face_part x i g = vneg (face_part x i f).
Proof.
  induction 1 as [f|f g H IH K]; intros L.
  - split; [apply rev_length|apply face_part_rev, L].
  - destruct (IH L) as [E P]. split; [rewrite rotate_length; exact E|].
    rewrite face_part_rotate; [exact P|]. destruct L as [L|[L|L]]; lia.
Qed.

(** ** C58: on every conforming mesh (any mixture of hexahedra, tetrahedra, wedges and pyramids, or of
    triangles and quadrilaterals; any coordinates, also warped or inverted elements; edges oriented
    either way) the assembled edge area vectors around a node, taken outward, and the exposed areas of
    the boundary faces that belong to the node add up to zero. *)
Theorem C58_dual_mesh_closed : forall x en els edges boundary i,
  NoDup edges ->
  (forall el, In el els -> elem_ok en el) ->
  (forall el k, In el els -> (k < length (t_edges (el_type el)))%nat -> In (nth k (el_edges el) 0%nat) edges) ->
  conforming els boundary ->
  vadd (dual_faces_at edges en (edge_area x en els) i) (vsum (map (face_part x i) boundary)) = vzero.
Proof.
  intros x en els edges boundary i ND OK HE (pairs & PF & PP).
  apply pr_ext; intros j. rewrite pr_add, pr_zero, pr_vsum.
  rewrite dual_faces_value; [|exact ND|].
  2:{ intros el Hel. split; [apply OK, Hel|]. intros ip Hip. apply HE; [exact Hel|].
      destruct (OK el Hel) as (S & _). apply in_seq in Hip.
      destruct S as [E | [E | [E | [E | [E | E]]]]]; rewrite E in *; cbn in Hip |- *;
        do 12 (destruct ip as [|ip]; [lia|]); lia. }
  assert (C : lsum (fun el => lsum (fun ip => let (l, r) := nth ip (t_lr (el_type el)) (0,0)%nat in
        ((if Nat.eqb (nth l (el_nodes el) 0%nat) i then 1 else 0) - (if Nat.eqb (nth r (el_nodes el) 0%nat) i then 1 else 0))
        * pr j (ip_area x el ip)) (ips el)) els
      = - lsum (fun f => pr j (face_part x i f)) (flat_map elem_faces els)).
  { rewrite lsum_flat. clear PP. induction els as [|el els IH]; [unfold lsum; cbn; lra|].
    unfold lsum in *; cbn [map fold_right]. rewrite IH by (intros; first [apply OK | apply HE]; cbn; auto).
    pose proof (elem_closed x en el i j (OK el (or_introl eq_refl))) as Q. unfold lsum in Q. lra. }
  rewrite C, (lsum_perm' _ _ _ PP), !lsum_app', !lsum_map.
  assert (Z : lsum (fun a => pr j (face_part x i (fst a))) pairs + lsum (fun a => pr j (face_part x i (snd a))) pairs = 0).
  { rewrite <- lsum_plus. apply lsum_zero. intros [f g] Hp. cbn [fst snd].
    destruct (same_face_cancels x i f g (PF f g Hp)) as [_ Q].
    - assert (I : In f (flat_map elem_faces els)).
      { apply (Permutation_in _ (Permutation_sym PP)), in_or_app. left. apply in_map_iff. exists (f, g). auto. }
      apply in_flat_map in I. destruct I as (el & Hel & I). unfold elem_faces in I. apply in_map_iff in I.
      destruct I as (s & <- & Hs). unfold flen. rewrite !map_length. destruct (OK el Hel) as (S & _).
      apply (sides_len (el_type el)); assumption.
    - rewrite Q, pr_neg. lra. }
  lra.
Qed.

(** The orientation of a mesh edge does not matter for the field a user sees: with the edge turned
    round the stored vector changes sign, and nothing else. *)
Theorem C58_edge_orientation : forall x en en' els e,
  (forall el, In el els -> elem_ok en el) -> (forall el, In el els -> elem_ok en' el) ->
  (en' e = en e -> edge_area x en' els e = edge_area x en els e)
  /\ (en' e = (snd (en e), fst (en e)) -> edge_area x en' els e = vneg (edge_area x en els e)).
Proof.
  intros x en en' els e OK OK'. split; intros E; apply pr_ext; intros j; rewrite ?pr_neg, !edge_area_value.
  - apply lsum_ext; intros el Hel. apply lsum_ext; intros ip Hip.
    destruct (Nat.eqb_spec (ip_edge el ip) e) as [Q|]; [|reflexivity]. unfold ip_sign. rewrite Q, E. reflexivity.
  - replace (- lsum (fun el => lsum (fun ip => if Nat.eqb (ip_edge el ip) e then ip_sign en el ip * pr j (ip_area x el ip) else 0) (ips el)) els)
      with (-1 * lsum (fun el => lsum (fun ip => if Nat.eqb (ip_edge el ip) e then ip_sign en el ip * pr j (ip_area x el ip) else 0) (ips el)) els) by ring.
    rewrite <- lsum_scal. apply lsum_ext; intros el Hel. rewrite <- lsum_scal. apply lsum_ext; intros ip Hip.
    destruct (Nat.eqb_spec (ip_edge el ip) e) as [Q|]; [|lra].
    pose proof (ip_edge_nodes en el ip (OK el Hel) Hip) as N.
    unfold ip_sign. destruct (nth ip (t_lr (el_type el)) (0,0)%nat) as [l r]. cbn [fst].
    destruct N as ((Hl & Hr & Hlr) & N). rewrite Q in *.
    destruct (OK el Hel) as (_ & _ & NDn & _).
    assert (D : nth l (el_nodes el) 0%nat <> nth r (el_nodes el) 0%nat).
    { intros K. apply Hlr. apply (proj1 (NoDup_nth (el_nodes el) 0%nat) NDn l r Hl Hr K). }
    rewrite E. destruct N as [N|N]; rewrite N; cbn [fst snd]; rewrite Nat.eqb_refl;
      (destruct (Nat.eqb_spec (nth l (el_nodes el) 0%nat) (nth r (el_nodes el) 0%nat)); [contradiction|lra]).
Qed.

(** ** A concrete mesh: two tetrahedra glued along a face. *)
Definition ex_en (e : nat) : nat * nat :=
  nth e [(0,1);(1,2);(2,0);(0,3);(1,3);(3,2);(4,0);(1,4);(2,4)]%nat (0,0)%nat.
Definition ex_els : list elem :=
  [ mkElem tet_t [0;1;2;3]%nat [0;1;2;3;4;5]%nat
  ; mkElem tet_t [0;2;1;4]%nat [2;1;0;6;8;7]%nat ].
Definition ex_boundary : list (list nat) :=
  [[0;1;3];[1;2;3];[0;3;2]; [0;2;4];[2;1;4];[0;4;1]]%nat.
Example C58_dual_mesh_closed_meets : NoDup [0;1;2;3;4;5;6;7;8]%nat
  /\ (forall el, In el ex_els -> elem_ok ex_en el)
  /\ (forall el k, In el ex_els -> (k < length (t_edges (el_type el)))%nat -> In (nth k (el_edges el) 0%nat) [0;1;2;3;4;5;6;7;8]%nat)
  /\ conforming ex_els ex_boundary.
Proof.
  split; [repeat constructor; cbn; lia|]. split; [|split].
  - intros el [<- | [<- | []]]; (split; [unfold supported; cbn; tauto|]); (split; [reflexivity|]);
      (split; [repeat constructor; cbn; lia|]); intros k Hk; cbn in Hk;
      do 6 (destruct k as [|k]; [cbn; auto|]); lia.
  - intros el k [<- | [<- | []]] Hk; cbn in Hk; do 6 (destruct k as [|k]; [cbn; auto 12|]); lia.
  - exists [([0;2;1]%nat, [0;1;2]%nat)]. split.
    + intros f g [E|[]]. injection E as <- <-.
      change [0;1;2]%nat with (rotate (rotate [1;2;0])%nat). constructor; [|cbn; lia]. constructor; [|cbn; lia].
      apply (sf_rev [0;2;1]%nat).
    + cbn. apply NoDup_Permutation;
        [repeat constructor; cbn; intuition discriminate|repeat constructor; cbn; intuition discriminate|].
      intros f. cbn. intuition auto 12.
Qed.
