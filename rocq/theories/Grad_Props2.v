(** C91 continued: exactness on every conforming planar mesh of triangles and quadrilaterals. *)
Require Import Reals List Bool Lra Lia Arith Permutation.
From Verif Require Import RUtil ME_Model ME_Shape_Model ME_Face_Model Tensor_Model Geom_Model Geom_Spec Geom_Props Geom_Props2 Geom_Props3 Geom_Props4.
From Verif Require Import Edge_Model Edge_Proofs Elem_Model Elem_Proofs Sum_Proofs Vof_Model Vof_Model2 Grad_Model Grad_Spec Grad_Props.
Import ListNotations.
Open Scope R_scope.

(** the master-element data of a planar element (3 nodes: Tri32D, else Quad42D) placed at its nodes' coordinates *)
Definition p_shape (t : etype) : ME_Model.vec -> nat -> R := if Nat.eqb (t_npe t) 3 then tri3_shape else quad4_shape.
Definition p_deriv (t : etype) : ME_Model.vec -> nat -> nat -> R := if Nat.eqb (t_npe t) 3 then tri3_deriv else quad4_deriv.
Definition p_scs (t : etype) (ip : nat) : ME_Model.vec := nth ip (if Nat.eqb (t_npe t) 3 then tri2d_scs_loc else quad2d_scs_loc) vzero.
Definition p_scv (t : etype) (ip : nat) : ME_Model.vec := nth ip (if Nat.eqb (t_npe t) 3 then tri2d_scv_loc else quad2d_scv_loc) vzero.
Definition planar_me (t : etype) (X : nat -> ME_Model.vec) : me :=
  let g := fun ip => grad_op 2 (t_npe t) (fun a j => p_deriv t (p_scs t ip) a j) (fun a j => pr j (X a)) in
  mkMe (t_npe t) (length (t_lr t)) (length (t_scvnode t)) 2
    (fun ip => fst (nth ip (t_lr t) (0,0)%nat)) (fun ip => snd (nth ip (t_lr t) (0,0)%nat))
    (fun ip ic => p_shape t (p_scs t ip) ic) (fun ip ic => p_shape t (p_scs t ip) ic) g g
    (fun ip j => pr j (t_area t X ip)) (fun ip => nth ip (t_scvnode t) 0%nat)
    (fun ip ic => p_shape t (p_scv t ip) ic) (t_vol t X).
Definition planar_elem (x : nat -> ME_Model.vec) (el : elem) : velem :=
  mkVE (planar_me (el_type el) (ws_coordinates x el)) (fun k => nth k (el_nodes el) 0%nat) (fun _ _ _ => 0) (fun _ => 0).
(** the 2-node boundary face, Edge2DSCS: points at -1/4 and +1/4 *)
Definition edge_pt (ip : nat) : ME_Model.vec := match ip with 0%nat => V (-(1/4)) 0 0 | _ => V (1/4) 0 0 end.
Definition planar_face (x : nat -> ME_Model.vec) (f : list nat) : gface :=
  mkGF 2 2 (fun k => k) (fun ip ic => edge2d_ip_shape (edge_pt ip) ic) (fun ip j => pr j (face_area x f ip))
    (fun k => nth k f 0%nat) 0 (fun _ => 0%nat) (fun _ => 0%nat) (fun _ _ _ => 0).
Definition planar (t : etype) : Prop := t = tri_t \/ t = quad_t.
Definition planar_mesh en els edges boundary : Prop :=
  mesh_ok en els edges boundary /\ (forall el, In el els -> planar (el_type el)) /\ (forall f, In f boundary -> length f = 2%nat).

(** value at the points of a face of a quantity given at its two nodes *)
Definition edge_val (u v : R) (ip : nat) : R := edge2d_ip_shape (edge_pt ip) 0 * u + edge2d_ip_shape (edge_pt ip) 1 * v.

(** Gauss's theorem for a coordinate on node a's part of one element: inner surfaces and sides *)
Lemma type_gauss t X a j k : planar t -> (a < t_npe t)%nat -> (j < 2)%nat -> (k < 2)%nat ->
  lsum (fun ip => let (l, r) := nth ip (t_lr t) (0,0)%nat in
        ((if Nat.eqb l a then 1 else 0) - (if Nat.eqb r a then 1 else 0)) * (sumn (t_npe t) (fun ic => p_shape t (p_scs t ip) ic * pr k (X ic)) * pr j (t_area t X ip))) (seq 0 (length (t_lr t)))
  + lsum (fun s => lsum (fun m => if Nat.eqb (nth m s 0%nat) a then edge_val (pr k (X (nth 0 s 0%nat))) (pr k (X (nth 1 s 0%nat))) m * pr j (face_area X s m) else 0) (seq 0 (length s))) (t_sides t)
  = if Nat.eqb k j then t_vol t X a else 0.
Proof.
  intros [-> | ->] Ha Hj Hk; cbn in Ha.
  - do 3 (destruct a as [|a]; [destruct j as [|[|j]]; try lia; destruct k as [|[|k]]; try lia;
      cbv [t_lr t_npe t_sides t_area t_vol tri_t seq length nth lsum map fold_right tri2d_lrscv tri2d_side_nodes Nat.eqb sumn fold_left p_shape p_scs tri2d_scs_loc tri3_shape ME_Model.vx ME_Model.vy ME_Model.vz pr
           emb2 tri2d_scs_area fst snd face_area edge_val edge2d_ip_shape edge_pt edge2d_scs_det tri2d_scv_volume rsum qsx qsy quad_det_j tri2d_sub_corner tri2d_gpp]; field|]); lia.
  - do 4 (destruct a as [|a]; [destruct j as [|[|j]]; try lia; destruct k as [|[|k]]; try lia;
      cbv [t_lr t_npe t_sides t_area t_vol quad_t seq length nth lsum map fold_right quad2d_lrscv quad2d_side_nodes Nat.eqb sumn fold_left p_shape p_scs quad2d_scs_loc quad4_shape ME_Model.vx ME_Model.vy ME_Model.vz pr
           emb2 quad2d_scs_area fst snd face_area edge_val edge2d_ip_shape edge_pt edge2d_scs_det quad2d_scv_volume rsum qsx qsy quad_det_j quad2d_gpp]; field|]); lia.
Qed.
(** the part of a face's moment that belongs to node i *)
Definition face_moment (x : nat -> ME_Model.vec) (q : nat -> R) (j i : nat) (f : list nat) : R :=
  lsum (fun m => if Nat.eqb (nth m f 0%nat) i then edge_val (q (nth 0 f 0%nat)) (q (nth 1 f 0%nat)) m * pr j (face_area x f m) else 0) (seq 0 (length f)).
Lemma planar_supported t : planar t -> supported t.
Proof. intros [->| ->]; unfold supported; tauto. Qed.
Lemma planar_sides t s : planar t -> In s (t_sides t) -> length s = 2%nat.
Proof. intros [-> | ->] H; cbn in H; repeat (destruct H as [<- | H]; [reflexivity|]); destruct H. Qed.
Lemma elem_gauss x en el i j k : elem_ok en el -> planar (el_type el) -> (j < 2)%nat -> (k < 2)%nat ->
  lsum (fun ip => let (l, r) := nth ip (t_lr (el_type el)) (0,0)%nat in
        ((if Nat.eqb (nth l (el_nodes el) 0%nat) i then 1 else 0) - (if Nat.eqb (nth r (el_nodes el) 0%nat) i then 1 else 0))
        * (sumn (t_npe (el_type el)) (fun ic => p_shape (el_type el) (p_scs (el_type el) ip) ic * pr k (x (nth ic (el_nodes el) 0%nat))) * pr j (ip_area x el ip))) (ips el)
  + lsum (face_moment x (fun n => pr k (x n)) j i) (elem_faces el)
  = if Nat.eqb k j then lsum (fun ip => if Nat.eqb (nth (nth ip (t_scvnode (el_type el)) 0%nat) (el_nodes el) 0%nat) i then t_vol (el_type el) (ws_coordinates x el) ip else 0) (seq 0 (length (t_scvnode (el_type el)))) else 0.
Proof.
  intros OK P Hj Hk. pose proof OK as (S & L & ND & _).
  assert (F : forall s, In s (t_sides (el_type el)) ->
     face_moment x (fun n => pr k (x n)) j i (map (fun k => nth k (el_nodes el) 0%nat) s)
     = lsum (fun m => if Nat.eqb (nth (nth m s 0%nat) (el_nodes el) 0%nat) i then edge_val (pr k (ws_coordinates x el (nth 0 s 0%nat))) (pr k (ws_coordinates x el (nth 1 s 0%nat))) m * pr j (face_area (ws_coordinates x el) s m) else 0) (seq 0 (length s))).
  { intros s Hs. pose proof (planar_sides _ s P Hs) as L2. destruct s as [|u [|v [|]]]; try discriminate L2. reflexivity. }
  unfold elem_faces. rewrite lsum_map, (lsum_ext _ _ _ F).
  destruct (in_dec Nat.eq_dec i (el_nodes el)) as [Hi|Hi].
  - destruct (In_nth _ _ 0%nat Hi) as (a & Ha & Ea).
    assert (EQ : forall l, (l < length (el_nodes el))%nat -> Nat.eqb (nth l (el_nodes el) 0%nat) i = Nat.eqb l a).
    { intros l Hl. destruct (Nat.eqb_spec l a) as [->|N]; [apply Nat.eqb_eq; exact Ea|].
      apply Nat.eqb_neq. intros E. apply N. apply (proj1 (NoDup_nth (el_nodes el) 0%nat) ND l a Hl Ha). congruence. }
    etransitivity; [|etransitivity; [exact (type_gauss (el_type el) (ws_coordinates x el) a j k P ltac:(lia) Hj Hk)|]]. f_equal.
    + apply lsum_ext; intros ip Hip. pose proof (ip_edge_nodes en el ip OK Hip) as Q.
      destruct (nth ip (t_lr (el_type el)) (0,0)%nat) as [l r]. destruct Q as ((Hl & Hr & _) & _).
      rewrite (EQ l Hl), (EQ r Hr). reflexivity.
    + apply lsum_ext; intros s Hs. apply lsum_ext; intros m Hm. apply in_seq in Hm. rewrite EQ; [reflexivity|].
      rewrite L. apply (sides_lt (el_type el) s); [exact S|exact Hs|]. apply nth_In. lia.
    + destruct (Nat.eqb k j); [|reflexivity].
      rewrite (lsum_ext _ (fun ip => if Nat.eqb a ip then t_vol (el_type el) (ws_coordinates x el) a else 0)).
      * rewrite lsum_indicator; [reflexivity|apply seq_NoDup|]. apply in_seq. rewrite L in Ha. destruct P as [E|E]; rewrite E in Ha |- *; cbn in Ha |- *; lia.
      * intros ip Hip. apply in_seq in Hip.
        assert (N : nth ip (t_scvnode (el_type el)) 0%nat = ip) by (destruct P as [E|E]; rewrite E in Hip |- *; cbn in Hip |- *; do 4 (destruct ip as [|ip]; [first [reflexivity | lia]|]); lia).
        rewrite N. rewrite EQ; [|rewrite L; destruct P as [E|E]; rewrite E in Hip |- *; cbn in Hip |- *; lia].
        rewrite (Nat.eqb_sym ip). destruct (Nat.eqb_spec a ip) as [->|]; reflexivity.
  - assert (NE : forall l, (l < length (el_nodes el))%nat -> Nat.eqb (nth l (el_nodes el) 0%nat) i = false).
    { intros l Hl. apply Nat.eqb_neq. intros E. apply Hi. rewrite <- E. apply nth_In, Hl. }
    rewrite (lsum_zero (fun s => lsum _ (seq 0 (length s)))), (lsum_zero _ (ips el)).
    + destruct (Nat.eqb k j); [|lra]. rewrite lsum_zero; [lra|]. intros ip Hip. rewrite NE; [reflexivity|]. rewrite L. apply scvnode_lt; assumption.
    + intros ip Hip. pose proof (ip_edge_nodes en el ip OK Hip) as Q.
      destruct (nth ip (t_lr (el_type el)) (0,0)%nat) as [l r]. destruct Q as ((Hl & Hr & _) & _).
      rewrite (NE l Hl), (NE r Hr). lra.
    + intros s Hs. apply lsum_zero; intros m Hm. apply in_seq in Hm. rewrite NE; [reflexivity|].
      rewrite L. apply (sides_lt (el_type el) s); [exact S|exact Hs|]. apply nth_In. lia.
Qed.
Lemma moment_rev x q j i f g : same_face f g -> length f = 2%nat -> face_moment x q j i g = - face_moment x q j i f.
Proof.
  intros H. induction H as [f|f g H IH L]; intros L2.
  - destruct f as [|u [|v [|]]]; try discriminate L2. unfold face_moment. cbn [rev app length seq].
    unfold lsum; cbn [map fold_right nth]. destruct j as [|[|j]];
      cbv [face_area emb2 edge2d_scs_det fst snd pr nth ME_Model.vx ME_Model.vy ME_Model.vz edge_val edge2d_ip_shape edge_pt]; destruct (Nat.eqb u i), (Nat.eqb v i); field.
  - exfalso. clear IH. assert (E : length g = length f). { clear L L2. induction H; [apply rev_length|]. rewrite rotate_length. assumption. } lia.
Qed.

Lemma lsum_seq_sumn n (f : nat -> R) : lsum f (seq 0 n) = sumn n f.
Proof. induction n as [|n IH]; [rewrite sumn_0; reflexivity|]. rewrite seq_S, lsum_app', IH, sumn_S. unfold lsum; cbn. ring. Qed.
(** ** C91: on every conforming mesh of triangles and quadrilaterals, whatever the node positions, the control volume of
    every node - boundary nodes included - is closed and satisfies Gauss's theorem for the coordinates, with the dual
    volume the code computes. *)
Lemma inner_planar x els Q i j : inner_surface (map (planar_elem x) els) Q i j
  = lsum (fun el => lsum (fun ip => let (l, r) := nth ip (t_lr (el_type el)) (0,0)%nat in
        ((if Nat.eqb (nth l (el_nodes el) 0%nat) i then 1 else 0) - (if Nat.eqb (nth r (el_nodes el) 0%nat) i then 1 else 0))
        * (Q (planar_elem x el) ip * pr j (ip_area x el ip))) (ips el)) els.
Proof.
  unfold inner_surface. rewrite lsum_map. apply lsum_ext. intros el _. cbv zeta. cbn [ve_me ve_node planar_elem planar_me nscs lrL lrR area].
  unfold ips. rewrite lsum_seq_sumn. apply sumn_ext. intros ip _. destruct (nth ip (t_lr (el_type el)) (0,0)%nat) as [l r]. cbn [fst snd].
  unfold at_node. rewrite (Nat.eqb_sym i (nth l _ _)), (Nat.eqb_sym i (nth r _ _)). reflexivity.
Qed.
Lemma outer_planar x boundary q i j : (forall f, In f boundary -> length f = 2%nat) ->
  outer_surface (map (planar_face x) boundary) (at_bip q) i j = lsum (face_moment x q j i) boundary.
Proof.
  intros H. unfold outer_surface. rewrite lsum_map. apply lsum_ext. intros f Hf. unfold face_moment. rewrite (H f Hf).
  cbn [gf_nip planar_face gf_near gf_node gf_A]. rewrite lsum_seq_sumn. apply sumn_ext. intros m _.
  unfold at_node, at_bip. cbn [gf_npf gf_N gf_node planar_face]. rewrite (Nat.eqb_sym i). destruct (Nat.eqb (nth m f 0%nat) i); [|ring].
  rewrite !sumn_S, sumn_0. unfold edge_val. ring.
Qed.
Lemma planar_faces2 en els edges boundary pairs f g : planar_mesh en els edges boundary ->
  Permutation (flat_map elem_faces els) (map fst pairs ++ map snd pairs ++ boundary) -> In (f, g) pairs -> length f = 2%nat.
Proof.
  intros (_ & P & _) PP Hp. assert (I : In f (flat_map elem_faces els)).
  { apply (Permutation_in _ (Permutation_sym PP)), in_or_app. left. apply in_map_iff. exists (f, g). auto. }
  apply in_flat_map in I. destruct I as (el & Hel & I). unfold elem_faces in I. apply in_map_iff in I.
  destruct I as (s & <- & Hs). rewrite map_length. exact (planar_sides _ s (P el Hel) Hs).
Qed.
Theorem C91_planar_gauss : forall x en els edges boundary i, planar_mesh en els edges boundary ->
  cv_gauss 2 (dual_volume x els) (fun n k => pr k (x n)) (map (planar_elem x) els) (map (planar_face x) boundary) i.
Proof.
  intros x en els edges boundary i PM j k Hj Hk. pose proof PM as ((ND & OK & HE & (pairs & PF & PP)) & P & B2).
  rewrite (outer_planar x boundary (fun n => pr k (x n)) i j B2). rewrite inner_planar.
  assert (C : lsum (fun el => lsum (fun ip => let (l, r) := nth ip (t_lr (el_type el)) (0,0)%nat in
        ((if Nat.eqb (nth l (el_nodes el) 0%nat) i then 1 else 0) - (if Nat.eqb (nth r (el_nodes el) 0%nat) i then 1 else 0))
        * (at_ip (fun n => pr k (x n)) (planar_elem x el) ip * pr j (ip_area x el ip))) (ips el)) els
      = (if Nat.eqb k j then dual_volume x els i else 0) - lsum (face_moment x (fun n => pr k (x n)) j i) (flat_map elem_faces els)).
  { rewrite lsum_flat, dual_volume_value. clear - OK P Hj Hk. induction els as [|el els IH]; [unfold lsum; cbn; destruct (Nat.eqb k j); lra|].
    rewrite !(lsum_cons _ el). rewrite IH by (intros; first [apply OK | apply P]; right; assumption).
    pose proof (elem_gauss x en el i j k (OK el (or_introl eq_refl)) (P el (or_introl eq_refl)) Hj Hk) as Q.
    unfold at_ip. cbn [ve_me ve_node planar_elem planar_me npe Ns]. destruct (Nat.eqb k j); lra. }
  rewrite C, (lsum_perm' _ _ _ PP), !lsum_app', !lsum_map.
  assert (Z : lsum (fun a => face_moment x (fun n => pr k (x n)) j i (fst a)) pairs + lsum (fun a => face_moment x (fun n => pr k (x n)) j i (snd a)) pairs = 0).
  { rewrite <- lsum_plus. apply lsum_zero. intros [f g] Hp. cbn [fst snd].
    rewrite (moment_rev x _ j i f g (PF f g Hp) (planar_faces2 en els edges boundary pairs f g PM PP Hp)). lra. }
  lra.
Qed.
Theorem C91_planar_closed : forall x en els edges boundary i, planar_mesh en els edges boundary ->
  cv_closed 2 (map (planar_elem x) els) (map (planar_face x) boundary) i.
Proof.
  intros x en els edges boundary i ((ND & OK & HE & C) & P & B2) j Hj.
  pose proof (C58_dual_mesh_closed x en els edges boundary i ND OK HE C) as Q. apply (f_equal (pr j)) in Q. rewrite pr_add, pr_zero, pr_vsum in Q.
  rewrite dual_faces_value in Q; [|exact ND|].
  2:{ intros el Hel. split; [apply OK, Hel|]. intros ip Hip. apply HE; [exact Hel|]. apply in_seq in Hip.
      destruct (P el Hel) as [E|E]; rewrite E in *; cbn in Hip |- *; do 4 (destruct ip as [|ip]; [lia|]); lia. }
  etransitivity; [|exact Q]. f_equal.
  - rewrite inner_planar. apply lsum_ext. intros el _. apply lsum_ext. intros ip _. destruct (nth ip (t_lr (el_type el)) (0,0)%nat). ring.
  - unfold outer_surface. rewrite lsum_map. apply lsum_ext. intros f Hf. unfold face_part. rewrite pr_vsum, (B2 f Hf), lsum_seq_sumn.
    cbn [gf_nip planar_face gf_near gf_node gf_A]. apply sumn_ext. intros m _. rewrite pr_if. unfold at_node. rewrite (Nat.eqb_sym i). destruct (Nat.eqb (nth m f 0%nat) i); ring.
Qed.
Lemma planar_unity x els : (forall el, In el els -> planar (el_type el)) -> ip_unity (map (planar_elem x) els).
Proof.
  intros P e He ip Hip. apply in_map_iff in He. destruct He as (el & <- & Hel).
  cbn [ve_me planar_elem planar_me npe Ns nscs] in *. destruct (P el Hel) as [E|E]; rewrite E in *.
  - change (t_npe tri_t) with 3%nat. change (p_shape tri_t) with tri3_shape. rewrite !sumn_S, sumn_0. unfold tri3_shape. field.
  - change (t_npe quad_t) with 4%nat. change (p_shape quad_t) with quad4_shape. rewrite !sumn_S, sumn_0. unfold quad4_shape. field.
Qed.
Lemma planar_bunity x boundary : bip_unity (map (planar_face x) boundary).
Proof.
  intros f Hf ip Hip. apply in_map_iff in Hf. destruct Hf as (b & <- & _). cbn [gf_npf gf_N planar_face]. rewrite !sumn_S, sumn_0. unfold edge2d_ip_shape. field.
Qed.
(** ** C91: so the computed gradient of a linear field is exact at every node of every such mesh *)
Theorem C91_linear_exact_on_planar_meshes : forall x en els edges boundary c g q i j, planar_mesh en els edges boundary -> (j < 2)%nat ->
  dual_volume x els i <> 0 -> (forall n, q n = c + g 0%nat * ME_Model.vx (x n) + g 1%nat * ME_Model.vy (x n)) ->
  rank_grad 2 (dual_volume x els) q q (fun _ _ => 0) (map (planar_elem x) els) (map (planar_face x) boundary) [] i j = g j.
Proof.
  intros x en els edges boundary c g q i j PM Hj HV Hq. apply (C91_linear_exact 2 _ (fun n k => pr k (x n)) c g q); try assumption.
  - apply planar_unity. apply PM.
  - apply planar_bunity.
  - exact (C91_planar_closed x en els edges boundary i PM).
  - exact (C91_planar_gauss x en els edges boundary i PM).
  - intros n. rewrite !sumn_S, sumn_0. cbn [pr]. rewrite Hq. ring.
Qed.
Theorem C91_constant_on_planar_meshes : forall x en els edges boundary c V q i j, planar_mesh en els edges boundary -> (j < 2)%nat -> (forall n, q n = c) ->
  rank_grad 2 V q q (fun _ _ => 0) (map (planar_elem x) els) (map (planar_face x) boundary) [] i j = 0.
Proof.
  intros x en els edges boundary c V q i j PM Hj Hq. apply (C91_constant 2 V q c); try assumption.
  - exact (C91_planar_closed x en els edges boundary i PM).
  - apply planar_unity. apply PM.
  - apply planar_bunity.
Qed.
(** the fan of four triangles around node 4 (any positions) is such a mesh; on the unit square the dual volumes are positive *)
Lemma fan_planar : planar_mesh fan_en fan_els (seq 0 8) fan_boundary.
Proof.
  split; [exact (proj1 C58_interior_node_meets)|]. split.
  - intros el [<- | [<- | [<- | [<- | []]]]]; left; reflexivity.
  - intros f [<- | [<- | [<- | [<- | []]]]]; reflexivity.
Qed.
Definition fan_x (n : nat) : ME_Model.vec := nth n [V 0 0 0; V 1 0 0; V 1 1 0; V 0 1 0; V (1/2) (1/3) 0] vzero.
Example C91_linear_exact_meets : planar_mesh fan_en fan_els (seq 0 8) fan_boundary /\ dual_volume fan_x fan_els 4 <> 0 /\ dual_volume fan_x fan_els 0 <> 0.
Proof.
  split; [exact fan_planar|]. split; rewrite dual_volume_value;
    cbv [lsum map fold_right fan_els el_type el_nodes t_scvnode tri_t length seq nth Nat.eqb t_vol ws_coordinates gather fan_x tri2d_scv_volume rsum qsx qsy quad_det_j tri2d_sub_corner tri2d_gpp ME_Model.vx ME_Model.vy]; lra.
Qed.
