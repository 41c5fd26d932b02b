(** C58 continued: closedness of the assembled dual mesh. *)
Require Import Reals List Bool Lra Lia PeanoNat Permutation.
From Verif Require Import Edge_Proofs ME_Model ME_Spec ME_Props ME_Props2 ME_Props3 Geom_Model Geom_Spec Geom_Props.
Import ListNotations.
Open Scope R_scope.

(* ------------------------------------------------------------------ the edge loop *)
Definition ip_edge (el : elem) (ip : nat) : nat := nth (nth ip (t_ord (el_type el)) 0%nat) (el_edges el) 0%nat.
Definition ip_sign (en : nat -> nat * nat) (el : elem) (ip : nat) : R :=
  if Nat.eqb (nth (fst (nth ip (t_lr (el_type el)) (0,0)%nat)) (el_nodes el) 0%nat) (fst (en (ip_edge el ip))) then 1 else -1.
Definition ip_area (x : nat -> vec) (el : elem) (ip : nat) : vec := t_area (el_type el) (ws_coordinates x el) ip.
Definition ips (el : elem) : list nat := seq 0 (length (t_lr (el_type el))).

Lemma scs_loop_value x en el a e j : pr j (scs_loop x en el a e)
  = pr j (a e) + lsum (fun ip => if Nat.eqb (ip_edge el ip) e then ip_sign en el ip * pr j (ip_area x el ip) else 0) (ips el).
Proof.
  unfold scs_loop, ips. fold (ip_edge el). generalize (seq 0 (length (t_lr (el_type el)))) as l.
  intros l. revert a. induction l as [|ip l IH]; intros a; cbn [fold_left]; [unfold lsum; cbn; lra|].
  rewrite IH. unfold lsum; cbn [map fold_right]. fold (ip_edge el ip). fold (ip_sign en el ip). fold (ip_area x el ip).
  rewrite (Nat.eqb_sym e). destruct (Nat.eqb (ip_edge el ip) e); [|lra]. rewrite pr_add, pr_scale. lra.
Qed.
Lemma edge_area_value x en els e j : pr j (edge_area x en els e)
  = lsum (fun el => lsum (fun ip => if Nat.eqb (ip_edge el ip) e then ip_sign en el ip * pr j (ip_area x el ip) else 0) (ips el)) els.
Proof.
  unfold edge_area.
  assert (K : forall a, pr j (fold_left (fun a el => scs_loop x en el a) els a e) = pr j (a e)
    + lsum (fun el => lsum (fun ip => if Nat.eqb (ip_edge el ip) e then ip_sign en el ip * pr j (ip_area x el ip) else 0) (ips el)) els).
  { induction els as [|el els IH]; intros a; cbn [fold_left]; [unfold lsum; cbn; lra|].
    rewrite IH, scs_loop_value. unfold lsum; cbn [map fold_right]. lra. }
  rewrite K, pr_zero. lra.
Qed.

(** the edge stored for an integration point joins the two nodes that point separates *)
Lemma ip_edge_nodes en el ip : elem_ok en el -> In ip (ips el) ->
  let (l, r) := nth ip (t_lr (el_type el)) (0,0)%nat in
  (l < length (el_nodes el) /\ r < length (el_nodes el) /\ l <> r)%nat
  /\ (en (ip_edge el ip) = (nth l (el_nodes el) 0%nat, nth r (el_nodes el) 0%nat)
      \/ en (ip_edge el ip) = (nth r (el_nodes el) 0%nat, nth l (el_nodes el) 0%nat)).
Proof.
  intros (S & L & ND & HE) Hip. apply in_seq in Hip. rewrite L. unfold ip_edge.
  destruct el as [t nd ed]; cbn [el_type el_nodes el_edges] in *.
  destruct S as [E | [E | [E | [E | [E | E]]]]]; rewrite E in *; cbn [t_lr length hex_t tet_t wed_t pyr_t tri_t quad_t hex_lrscv tet_lrscv wed_lrscv pyr_lrscv tri2d_lrscv quad2d_lrscv] in Hip;
    do 12 (destruct ip as [|ip]; [cbn [nth t_lr t_ord t_npe hex_t tet_t wed_t pyr_t tri_t quad_t hex_lrscv tet_lrscv wed_lrscv pyr_lrscv tri2d_lrscv quad2d_lrscv];
      split; [lia|]; cbn [t_edges hex_t tet_t wed_t pyr_t tri_t quad_t] in HE;
      first [ pose proof (HE 0%nat ltac:(cbn; lia)) as Q; cbn [nth] in Q; destruct Q; solve [left; assumption | right; assumption]
            | pose proof (HE 1%nat ltac:(cbn; lia)) as Q; cbn [nth] in Q; destruct Q; solve [left; assumption | right; assumption]
            | pose proof (HE 2%nat ltac:(cbn; lia)) as Q; cbn [nth] in Q; destruct Q; solve [left; assumption | right; assumption]
            | pose proof (HE 3%nat ltac:(cbn; lia)) as Q; cbn [nth] in Q; destruct Q; solve [left; assumption | right; assumption]
            | pose proof (HE 4%nat ltac:(cbn; lia)) as Q; cbn [nth] in Q; destruct Q; solve [left; assumption | right; assumption]
            | pose proof (HE 5%nat ltac:(cbn; lia)) as Q; cbn [nth] in Q; destruct Q; solve [left; assumption | right; assumption]
            | pose proof (HE 6%nat ltac:(cbn; lia)) as Q; cbn [nth] in Q; destruct Q; solve [left; assumption | right; assumption]
            | pose proof (HE 7%nat ltac:(cbn; lia)) as Q; cbn [nth] in Q; destruct Q; solve [left; assumption | right; assumption]
            | pose proof (HE 8%nat ltac:(cbn; lia)) as Q; cbn [nth] in Q; destruct Q; solve [left; assumption | right; assumption]
            | pose proof (HE 9%nat ltac:(cbn; lia)) as Q; cbn [nth] in Q; destruct Q; solve [left; assumption | right; assumption]
            | pose proof (HE 10%nat ltac:(cbn; lia)) as Q; cbn [nth] in Q; destruct Q; solve [left; assumption | right; assumption]
            | pose proof (HE 11%nat ltac:(cbn; lia)) as Q; cbn [nth] in Q; destruct Q; solve [left; assumption | right; assumption] ] | try (exfalso; lia)]).
Qed.

(** the sign convention: the assembled vector points from the edge's first to its second node *)
Lemma sign_correct en el ip i : elem_ok en el -> In ip (ips el) ->
  let (l, r) := nth ip (t_lr (el_type el)) (0,0)%nat in
  ip_sign en el ip * ((if Nat.eqb (fst (en (ip_edge el ip))) i then 1 else 0) - (if Nat.eqb (snd (en (ip_edge el ip))) i then 1 else 0))
  = (if Nat.eqb (nth l (el_nodes el) 0%nat) i then 1 else 0) - (if Nat.eqb (nth r (el_nodes el) 0%nat) i then 1 else 0).
Proof.
  intros OK Hip. pose proof (ip_edge_nodes en el ip OK Hip) as Q.
  unfold ip_sign. destruct (nth ip (t_lr (el_type el)) (0,0)%nat) as [l r]. cbn [fst].
  destruct OK as (_ & _ & ND & _). destruct Q as ((Hl & Hr & Hlr) & Q).
  assert (D : nth l (el_nodes el) 0%nat <> nth r (el_nodes el) 0%nat).
  { intros E. apply Hlr. apply (proj1 (NoDup_nth (el_nodes el) 0%nat) ND l r Hl Hr E). }
  destruct Q as [Q|Q]; rewrite Q; cbn [fst snd].
  - rewrite Nat.eqb_refl. lra.
  - replace (Nat.eqb (nth l (el_nodes el) 0%nat) (nth r (el_nodes el) 0%nat)) with false
      by (symmetry; apply Nat.eqb_neq; exact D). lra.
Qed.

Lemma lsum_scal_if {A} (b : A -> bool) (c : R) (f : A -> R) l :
  lsum (fun a => if b a then f a else 0) l * c = lsum (fun a => if b a then f a * c else 0) l.
Proof. rewrite Rmult_comm, <- lsum_scal. apply lsum_ext; intros. destruct (b x); lra. Qed.

(** what node i sees of the assembled edges is the sum over elements of the integration points *)
Lemma dual_faces_value x en els edges i j :
  NoDup edges -> (forall el, In el els -> elem_ok en el /\ forall ip, In ip (ips el) -> In (ip_edge el ip) edges) ->
  pr j (dual_faces_at edges en (edge_area x en els) i)
  = lsum (fun el => lsum (fun ip => let (l, r) := nth ip (t_lr (el_type el)) (0,0)%nat in
        ((if Nat.eqb (nth l (el_nodes el) 0%nat) i then 1 else 0) - (if Nat.eqb (nth r (el_nodes el) 0%nat) i then 1 else 0))
        * pr j (ip_area x el ip)) (ips el)) els.
Proof.
  intros ND HE. unfold dual_faces_at. rewrite pr_vsum.
  rewrite (lsum_ext _ (fun e => lsum (fun el => lsum (fun ip => if Nat.eqb (ip_edge el ip) e
      then ip_sign en el ip * pr j (ip_area x el ip) * ((if Nat.eqb (fst (en (ip_edge el ip))) i then 1 else 0) - (if Nat.eqb (snd (en (ip_edge el ip))) i then 1 else 0)) else 0) (ips el)) els)).
  2:{ intros e _. rewrite pr_sub, !pr_if, edge_area_value.
      transitivity (lsum (fun el => lsum (fun ip => if Nat.eqb (ip_edge el ip) e then ip_sign en el ip * pr j (ip_area x el ip) else 0) (ips el)) els
        * ((if Nat.eqb (fst (en e)) i then 1 else 0) - (if Nat.eqb (snd (en e)) i then 1 else 0))).
      { destruct (Nat.eqb (fst (en e)) i), (Nat.eqb (snd (en e)) i); lra. }
      rewrite Rmult_comm, <- lsum_scal. apply lsum_ext; intros el _.
      rewrite Rmult_comm, (lsum_scal_if (fun ip => Nat.eqb (ip_edge el ip) e)). apply lsum_ext; intros ip _.
      destruct (Nat.eqb_spec (ip_edge el ip) e) as [<-|]; reflexivity. }
  rewrite lsum_comm. apply lsum_ext; intros el Hel. rewrite lsum_comm. apply lsum_ext; intros ip Hip.
  destruct (HE el Hel) as [OK HI]. rewrite lsum_indicator; [|exact ND|apply HI, Hip].
  pose proof (sign_correct en el ip i OK Hip) as Q.
  destruct (nth ip (t_lr (el_type el)) (0,0)%nat) as [l r]. rewrite <- Q. ring.
Qed.

(* ------------------------------------------------------------------ faces *)
Lemma face_area_map x f side k : (length side = 2 \/ length side = 3 \/ length side = 4)%nat ->
  face_area x (map f side) k = face_area (fun n => x (f n)) side k.
Proof.
  intros [H|[H|H]].
  - destruct side as [|a [|b [|]]]; try discriminate. reflexivity.
  - destruct side as [|a [|b [|c [|]]]]; try discriminate. reflexivity.
  - destruct side as [|a [|b [|c [|d [|]]]]]; try discriminate. reflexivity.
Qed.
Lemma sides_len t s : supported t -> In s (t_sides t) -> (length s = 2 \/ length s = 3 \/ length s = 4)%nat.
Proof.
  intros [-> | [-> | [-> | [-> | [-> | ->]]]]] H; cbn in H;
    repeat (destruct H as [<- | H]; [cbn; auto|]); destruct H.
Qed.
Lemma sides_lt t s k : supported t -> In s (t_sides t) -> In k s -> (k < t_npe t)%nat.
Proof.
  intros [-> | [-> | [-> | [-> | [-> | ->]]]]] H K; cbn in H |- *;
    repeat (destruct H as [<- | H]; [cbn in K; repeat (destruct K as [<- | K]; [lia|]); destruct K|]); destruct H.
Qed.
Lemma lsum_nth {A} (F : A -> R) d l : lsum (fun s => F (nth s l d)) (seq 0 (length l)) = lsum F l.
Proof.
  unfold lsum. f_equal. induction l as [|a l IH]; [reflexivity|].
  cbn [length seq map nth]. f_equal. rewrite <- seq_shift, map_map. exact IH.
Qed.

(** the element theorems of C31, in one statement for all element types *)
Lemma type_closed t X a j : supported t -> (a < t_npe t)%nat ->
  lsum (fun ip => let (l, r) := nth ip (t_lr t) (0,0)%nat in
        ((if Nat.eqb l a then 1 else 0) - (if Nat.eqb r a then 1 else 0)) * pr j (t_area t X ip)) (seq 0 (length (t_lr t)))
  + lsum (fun s => lsum (fun k => if Nat.eqb (nth k s 0%nat) a then pr j (face_area X s k) else 0) (seq 0 (length s))) (t_sides t) = 0.
Proof.
  intros S Ha.
  assert (G : forall lr A sides B, closed_at lr A sides sides B a ->
     (forall s, In s sides -> forall k, B s k = face_area X s k) ->
     lsum (fun ip => let (l, r) := nth ip lr (0,0)%nat in
        ((if Nat.eqb l a then 1 else 0) - (if Nat.eqb r a then 1 else 0)) * pr j (A ip)) (seq 0 (length lr))
     + lsum (fun s => lsum (fun k => if Nat.eqb (nth k s 0%nat) a then pr j (face_area X s k) else 0) (seq 0 (length s))) sides = 0).
  { intros lr A sides B C HB. unfold closed_at in C. apply (f_equal (pr j)) in C.
    rewrite pr_add, pr_zero in C. etransitivity; [|exact C]. f_equal.
    - unfold interior_area. rewrite pr_vsum. apply lsum_ext; intros ip _.
      destruct (nth ip lr (0,0)%nat) as [l r]. rewrite ?pr_sub, ?pr_add, ?pr_neg, ?pr_if. destruct (Nat.eqb l a), (Nat.eqb r a); lra.
    - unfold boundary_area. rewrite pr_vsum.
      transitivity (lsum (fun s => pr j (vsum (map (fun k => if Nat.eqb (nth k s 0%nat) a then B s k else vzero) (seq 0 (length s))))) sides).
      + apply lsum_ext; intros s Hs. rewrite pr_vsum. apply lsum_ext; intros k _. rewrite pr_if.
        destruct (Nat.eqb _ a); [rewrite (HB s Hs); reflexivity|reflexivity].
      + rewrite <- (lsum_nth _ [] sides). reflexivity. }
  destruct S as [-> | [-> | [-> | [-> | [-> | ->]]]]].
  - apply (G hex_lrscv (hex_scs_area X) hex_side_nodes (exposed_area X)); [apply C31_hex8_closes, Ha|].
    intros s Hs k. cbn in Hs. repeat (destruct Hs as [<- | Hs]; [reflexivity|]). destruct Hs.
  - apply (G tet_lrscv (tet_scs_area X) tet_side_nodes (exposed_area X)); [apply C31_tet4_closes, Ha|].
    intros s Hs k. cbn in Hs. repeat (destruct Hs as [<- | Hs]; [reflexivity|]). destruct Hs.
  - apply (G wed_lrscv (wed_scs_area X) wed_side_nodes (exposed_area X)); [apply C31_wed6_closes, Ha|].
    intros s Hs k. cbn in Hs. repeat (destruct Hs as [<- | Hs]; [reflexivity|]). destruct Hs.
  - apply (G pyr_lrscv (pyr_scs_area X) pyr_side_nodes (exposed_area X)); [apply C31_pyr5_closes, Ha|].
    intros s Hs k. cbn in Hs. repeat (destruct Hs as [<- | Hs]; [reflexivity|]). destruct Hs.
  - apply (G tri2d_lrscv (fun k => emb (tri2d_scs_area (fun n => vx (X n)) (fun n => vy (X n)) k)) tri2d_side_nodes
       (exposed_edge (fun n => vx (X n)) (fun n => vy (X n)))); [apply C31_tri3_2d_closes, Ha|].
    intros s Hs k. cbn in Hs. repeat (destruct Hs as [<- | Hs]; [reflexivity|]). destruct Hs.
  - apply (G quad2d_lrscv (fun k => emb (quad2d_scs_area (fun n => vx (X n)) (fun n => vy (X n)) k)) quad2d_side_nodes
       (exposed_edge (fun n => vx (X n)) (fun n => vy (X n)))); [apply C31_quad4_2d_closes, Ha|].
    intros s Hs k. cbn in Hs. repeat (destruct Hs as [<- | Hs]; [reflexivity|]). destruct Hs.
Qed.

(** what node i sees of one element: surfaces inside the element and its sides cancel *)
Lemma elem_closed x en el i j : elem_ok en el ->
  lsum (fun ip => let (l, r) := nth ip (t_lr (el_type el)) (0,0)%nat in
        ((if Nat.eqb (nth l (el_nodes el) 0%nat) i then 1 else 0) - (if Nat.eqb (nth r (el_nodes el) 0%nat) i then 1 else 0))
        * pr j (ip_area x el ip)) (ips el)
  + lsum (fun f => pr j (face_part x i f)) (elem_faces el) = 0.
Proof.
  intros OK. pose proof OK as (S & L & ND & _).
  assert (F : forall s, In s (t_sides (el_type el)) ->
     pr j (face_part x i (map (fun k => nth k (el_nodes el) 0%nat) s))
     = lsum (fun k => if Nat.eqb (nth (nth k s 0%nat) (el_nodes el) 0%nat) i then pr j (face_area (ws_coordinates x el) s k) else 0) (seq 0 (length s))).
  { intros s Hs. unfold face_part. rewrite pr_vsum, map_length. apply lsum_ext; intros k Hk.
    apply in_seq in Hk. rewrite pr_if, face_area_map by (apply (sides_len (el_type el)); assumption).
    rewrite (nth_indep _ 0%nat (nth 0 (el_nodes el) 0%nat)) by (rewrite map_length; lia).
    rewrite (map_nth (fun k => nth k (el_nodes el) 0%nat)). reflexivity. }
  unfold elem_faces. rewrite lsum_map, (lsum_ext _ _ _ F).
  destruct (in_dec Nat.eq_dec i (el_nodes el)) as [Hi|Hi].
  - destruct (In_nth _ _ 0%nat Hi) as (a & Ha & Ea).
    assert (EQ : forall l, (l < length (el_nodes el))%nat -> Nat.eqb (nth l (el_nodes el) 0%nat) i = Nat.eqb l a).
    { intros l Hl. destruct (Nat.eqb_spec l a) as [->|N]; [apply Nat.eqb_eq; exact Ea|].
      apply Nat.eqb_neq. intros E. apply N. apply (proj1 (NoDup_nth (el_nodes el) 0%nat) ND l a Hl Ha). congruence. }
    etransitivity; [|exact (type_closed (el_type el) (ws_coordinates x el) a j S ltac:(lia))]. f_equal.
    + apply lsum_ext; intros ip Hip. pose proof (ip_edge_nodes en el ip OK Hip) as Q.
      destruct (nth ip (t_lr (el_type el)) (0,0)%nat) as [l r]. destruct Q as ((Hl & Hr & _) & _).
      rewrite (EQ l Hl), (EQ r Hr). reflexivity.
    + apply lsum_ext; intros s Hs. apply lsum_ext; intros k Hk. apply in_seq in Hk. rewrite EQ; [reflexivity|].
      rewrite L. apply (sides_lt (el_type el) s); [exact S|exact Hs|]. apply nth_In. lia.
  - assert (NE : forall l, (l < length (el_nodes el))%nat -> Nat.eqb (nth l (el_nodes el) 0%nat) i = false).
    { intros l Hl. apply Nat.eqb_neq. intros E. apply Hi. rewrite <- E. apply nth_In, Hl. }
    rewrite !lsum_zero; [lra| |].
    + intros s Hs. apply lsum_zero; intros k Hk. apply in_seq in Hk. rewrite NE; [reflexivity|].
      rewrite L. apply (sides_lt (el_type el) s); [exact S|exact Hs|]. apply nth_In. lia.
    + intros ip Hip. pose proof (ip_edge_nodes en el ip OK Hip) as Q.
      destruct (nth ip (t_lr (el_type el)) (0,0)%nat) as [l r]. destruct Q as ((Hl & Hr & _) & _).
      rewrite (NE l Hl), (NE r Hr). lra.
Qed.

(* ------------------------------------------------------------------ shared faces *)
Lemma face_part_rotate x i g : (length g = 3 \/ length g = 4)%nat -> face_part x i (rotate g) = face_part x i g.
Proof.
  intros [H|H].
  - destruct g as [|a [|b [|c [|]]]]; try discriminate. cbn [rotate app].
    unfold face_part. cbn [length seq map nth vsum fold_right].
    apply pr_ext; intros j. rewrite !pr_add, !pr_if.
    change (face_area x [b; c; a] 0) with (tri3d_scs_det (fun n => gather x [a;b;c] (nth n [1;2;0]%nat 0%nat)) 0).
    change (face_area x [b; c; a] 1) with (tri3d_scs_det (fun n => gather x [a;b;c] (nth n [1;2;0]%nat 0%nat)) 1).
    change (face_area x [b; c; a] 2) with (tri3d_scs_det (fun n => gather x [a;b;c] (nth n [1;2;0]%nat 0%nat)) 2).
    rewrite !C31_shared_tri_rotation by lia. cbn [nth].
    change (face_area x [a; b; c] 0) with (tri3d_scs_det (gather x [a;b;c]) 0).
    change (face_area x [a; b; c] 1) with (tri3d_scs_det (gather x [a;b;c]) 1).
    change (face_area x [a; b; c] 2) with (tri3d_scs_det (gather x [a;b;c]) 2).
    lra.
  - destruct g as [|a [|b [|c [|d [|]]]]]; try discriminate. cbn [rotate app].
    unfold face_part. cbn [length seq map nth vsum fold_right].
    apply pr_ext; intros j. rewrite !pr_add, !pr_if.
    change (face_area x [b; c; d; a] 0) with (quad3d_scs_det (fun n => gather x [a;b;c;d] (nth n [1;2;3;0]%nat 0%nat)) 0).
    change (face_area x [b; c; d; a] 1) with (quad3d_scs_det (fun n => gather x [a;b;c;d] (nth n [1;2;3;0]%nat 0%nat)) 1).
    change (face_area x [b; c; d; a] 2) with (quad3d_scs_det (fun n => gather x [a;b;c;d] (nth n [1;2;3;0]%nat 0%nat)) 2).
    change (face_area x [b; c; d; a] 3) with (quad3d_scs_det (fun n => gather x [a;b;c;d] (nth n [1;2;3;0]%nat 0%nat)) 3).
    rewrite !C31_shared_quad_rotation by lia. cbn [nth].
    change (face_area x [a; b; c; d] 0) with (quad3d_scs_det (gather x [a;b;c;d]) 0).
    change (face_area x [a; b; c; d] 1) with (quad3d_scs_det (gather x [a;b;c;d]) 1).
    change (face_area x [a; b; c; d] 2) with (quad3d_scs_det (gather x [a;b;c;d]) 2).
    change (face_area x [a; b; c; d] 3) with (quad3d_scs_det (gather x [a;b;c;d]) 3).
    lra.
Qed.
