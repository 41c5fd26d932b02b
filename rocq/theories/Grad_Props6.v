(** C91 continued: the projected nodal gradient on every conforming planar mesh. *)
Require Import Reals List Bool Lra Lia Arith Permutation.
From Verif Require Import RUtil ME_Model ME_Shape_Model ME_Face_Model Tensor_Model Geom_Model Geom_Spec Geom_Props Geom_Props2 Geom_Props3 Geom_Props4.
From Verif Require Import Edge_Model Edge_Proofs Elem_Model Elem_Spec Elem_Proofs Sum_Proofs Vof_Model Vof_Model2 Vof_Spec Vof_Props6.
From Verif Require Import Grad_Model Grad_Spec Grad_Props Grad_Props2 Grad_Props3 Grad_Props4 Grad_Props5.
Import ListNotations.
Open Scope R_scope.

(** the nodes are 0 .. NN-1, each in some element; the elements are not inverted (positive sub-control volumes) *)
Definition numbered (NN : nat) (els : list elem) : Prop :=
  (forall el k, In el els -> In k (el_nodes el) -> (k < NN)%nat) /\ (forall a, (a < NN)%nat -> exists el, In el els /\ In a (el_nodes el)).
Definition upright (x : nat -> ME_Model.vec) (els : list elem) : Prop :=
  forall el, In el els -> forall ip, (ip < length (t_scvnode (el_type el)))%nat -> 0 < t_vol (el_type el) (ws_coordinates x el) ip.
Lemma planar_maps x el : planar (el_type el) -> maps_ok (ve_me (planar_elem x el)).
Proof.
  intros [E|E]; split; intros ip Hip; cbn [ve_me planar_elem planar_me nscs nscv npe lrL lrR nearest] in *; rewrite E in *; cbn in Hip |- *;
    do 4 (try (destruct ip as [|ip]; [cbn; lia|])); lia.
Qed.
Lemma planar_png_mesh x en els edges boundary NN : planar_mesh en els edges boundary -> numbered NN els ->
  png_mesh 2 NN (map (planar_elem x) els) (map (planar_face x) boundary).
Proof.
  intros ((_ & OK & _) & P & _) [N1 _]. split.
  - intros e He. apply in_map_iff in He. destruct He as (el & <- & Hel). split; [reflexivity|]. split; [apply planar_maps, P, Hel|].
    intros ic Hic. cbn [ve_node planar_elem ve_me planar_me npe] in *. apply (N1 el); [exact Hel|]. apply nth_In. destruct (OK el Hel) as (_ & L & _). rewrite L. exact Hic.
  - intros f Hf ip Hip. apply in_map_iff in Hf. destruct Hf as (b & <- & _). exact Hip.
Qed.
Lemma planar_weights t ip : planar t -> (ip < length (t_scvnode t))%nat ->
  sumn (t_npe t) (fun ic => p_shape t (p_scv t ip) ic) = 1 /\ (forall ic, (ic < t_npe t)%nat -> 0 <= p_shape t (p_scv t ip) ic)
  /\ 1/2 < p_shape t (p_scv t ip) (nth ip (t_scvnode t) 0%nat).
Proof.
  intros [-> | ->] Hip; cbn in Hip.
  - change (t_npe tri_t) with 3%nat. unfold p_shape, p_scv. change (Nat.eqb (t_npe tri_t) 3) with true. cbv iota. unfold tri2d_scv_loc.
    do 3 (destruct ip as [|ip]; [cbn [nth t_scvnode tri_t]; rewrite !sumn_S, sumn_0; unfold tri3_shape; cbn [ME_Model.vx ME_Model.vy];
      split; [lra|split; [intros ic Hic; do 3 (destruct ic as [|ic]; [lra|]); lia|lra]]|]). lia.
  - change (t_npe quad_t) with 4%nat. unfold p_shape, p_scv. change (Nat.eqb (t_npe quad_t) 3) with false. cbv iota. unfold quad2d_scv_loc.
    do 4 (destruct ip as [|ip]; [cbn [nth t_scvnode quad_t]; rewrite !sumn_S, sumn_0; unfold quad4_shape; cbn [ME_Model.vx ME_Model.vy];
      split; [lra|split; [intros ic Hic; do 4 (destruct ic as [|ic]; [lra|]); lia|lra]]|]). lia.
Qed.
Lemma planar_dominant x en els edges boundary NN : planar_mesh en els edges boundary -> numbered NN els -> upright x els ->
  dominant NN (map (planar_elem x) els).
Proof.
  intros ((_ & OK & _) & P & _) [_ N2] U. split.
  - intros e He ip Hip. apply in_map_iff in He. destruct He as (el & <- & Hel).
    destruct (planar_weights (el_type el) ip (P el Hel) Hip) as (W1 & W2 & W3). split; [exact (U el Hel ip Hip)|]. auto.
  - intros a Ha. destruct (N2 a Ha) as (el & Hel & Hin). destruct (In_nth _ _ 0%nat Hin) as (k & Hk & E). destruct (OK el Hel) as (_ & L & _). rewrite L in Hk.
    exists (planar_elem x el), k. split; [apply in_map; exact Hel|]. cbn [ve_me ve_node planar_elem planar_me nscv nearest].
    assert (Q : (k < length (t_scvnode (el_type el)))%nat /\ nth k (t_scvnode (el_type el)) 0%nat = k).
    { destruct (P el Hel) as [T|T]; rewrite T in *; cbn in Hk |- *; do 4 (destruct k as [|k]; [first [split; [lia|reflexivity] | exfalso; lia]|]); lia. }
    destruct Q as [Q1 Q2]. rewrite Q2. auto.
Qed.
Lemma dual_volume_total x els a : dual_volume x els a = scv_total (map (planar_elem x) els) (fun _ _ => 1) a.
Proof.
  rewrite dual_volume_value. unfold scv_total. rewrite lsum_map. apply lsum_ext. intros el _. rewrite lsum_seq_sumn.
  cbn [ve_me ve_node planar_elem planar_me nscv nearest vol]. apply sumn_ext. intros ip _. rewrite (Nat.eqb_sym a). destruct (Nat.eqb _ a); ring.
Qed.
(** ** C91: for a linear field the uniform exact gradient satisfies the weak equation, and it is what the solver returns, from any
    start, after one or more exact linear solves, at every node of every conforming mesh of upright triangles and quadrilaterals *)
Theorem C91_png_linear_weak : forall x en els edges boundary NN c g q, planar_mesh en els edges boundary -> numbered NN els ->
  (forall n, q n = c + g 0%nat * ME_Model.vx (x n) + g 1%nat * ME_Model.vy (x n)) ->
  weak_gradient 2 NN q q (fun _ _ => 0) (map (planar_elem x) els) (map (planar_face x) boundary) (fun r => g (r mod 2)%nat).
Proof.
  intros x en els edges boundary NN c g q PM N Hq a i Ha Hi.
  rewrite (scv_total_ext _ _ (fun e ip => g i * 1)).
  2:{ intros e ip He Hip. unfold at_scvp. rewrite (sumn_ext _ _ (fun ic => g i * Nv (ve_me e) ip ic)).
      - rewrite sumn_scal. f_equal. apply in_map_iff in He. destruct He as (el & <- & Hel). apply (planar_weights (el_type el) ip); [apply PM; exact Hel|exact Hip].
      - intros ic _. destruct (divmod_flat 2 (ve_node e ic) i Hi) as [_ ->]. ring. }
  rewrite scv_total_scal, <- dual_volume_total.
  rewrite (outer_ext _ (fun f ip => at_bip q f ip - 0) (at_bip q)) by (intros; ring).
  symmetry. apply (gauss_linear 2 (dual_volume x els) (fun n k => pr k (x n)) c g q); try assumption.
  - apply planar_unity. apply PM.
  - apply planar_bunity.
  - exact (C91_planar_closed x en els edges boundary a PM).
  - exact (C91_planar_gauss x en els edges boundary a PM).
  - intros n. rewrite !sumn_S, sumn_0. cbn [pr]. rewrite Hq. ring.
Qed.
Theorem C91_png_linear_exact_on_planar_meshes : forall x en els edges boundary NN c g q solve G k a i, planar_mesh en els edges boundary ->
  numbered NN els -> upright x els -> (a < NN)%nat -> (i < 2)%nat ->
  (forall n, q n = c + g 0%nat * ME_Model.vx (x n) + g 1%nat * ME_Model.vy (x n)) ->
  let sys := png_system 2 q q (fun _ _ => 0) (map (planar_elem x) els) (map (planar_face x) boundary) in
  (forall G, solves (NN*2) (sys G) (solve (sys G))) -> (0 < k)%nat ->
  png_solve solve k sys G (a*2+i)%nat = g i.
Proof.
  intros x en els edges boundary NN c g q solve G k a i PM N U Ha Hi Hq sys HS Hk.
  pose proof (planar_png_mesh x en els edges boundary NN PM N) as M.
  rewrite (C91_png_unique 2 NN q q (fun _ _ => 0) _ _ (png_solve solve k sys G) (fun r => g (r mod 2)%nat) M (planar_dominant x en els edges boundary NN PM N U)
     (C91_png_converges 2 NN q q (fun _ _ => 0) _ _ solve G k M HS Hk) (C91_png_linear_weak x en els edges boundary NN c g q PM N Hq) a i Ha Hi).
  destruct (divmod_flat 2 a i Hi) as [_ ->]. reflexivity.
Qed.
Example C91_png_meets : planar_mesh fan_en fan_els (seq 0 8) fan_boundary /\ numbered 5 fan_els /\ upright fan_x fan_els.
Proof.
  split; [exact fan_planar|]. split; [split|].
  - intros el k [<- | [<- | [<- | [<- | []]]]] H; cbn in H; lia.
  - intros a Ha. assert (a = 0 \/ a = 1 \/ a = 2 \/ a = 3 \/ a = 4)%nat as [-> | [-> | [-> | [-> | ->]]]] by lia.
    + exists (nth 0 fan_els (mkElem tri_t [] [])). cbn; tauto.
    + exists (nth 0 fan_els (mkElem tri_t [] [])). cbn; tauto.
    + exists (nth 1 fan_els (mkElem tri_t [] [])). cbn; tauto.
    + exists (nth 2 fan_els (mkElem tri_t [] [])). cbn; tauto.
    + exists (nth 0 fan_els (mkElem tri_t [] [])). cbn; tauto.
  - intros el [<- | [<- | [<- | [<- | []]]]] ip Hip; cbn in Hip; do 3 (destruct ip as [|ip]; [
      cbv [el_type el_nodes fan_els t_scvnode tri_t length seq nth Nat.eqb t_vol ws_coordinates gather fan_x tri2d_scv_volume rsum qsx qsy quad_det_j tri2d_sub_corner tri2d_gpp ME_Model.vx ME_Model.vy map fold_right]; lra|]); lia.
Qed.
