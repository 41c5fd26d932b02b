(** C91 continued: gradients of vector fields; the projected nodal gradient system. *)
Require Import Reals List Bool Lra Lia Arith Permutation.
From Verif Require Import RUtil Edge_Model Edge_Proofs Elem_Model Elem_Spec Elem_Proofs Elem_Props2 Rad_Quad_Proofs3 Sum_Proofs.
From Verif Require Geom_Props Geom_Props2 Geom_Model Grad_Props2.
From Verif Require Import Vof_Model Vof_Model2 Vof_Props6 Grad_Model Grad_Spec Grad_Props.
Import ListNotations.
Open Scope R_scope.

Lemma add_at_val n k v F a c : add_at n k v F a c = F a c + at_node a n * (dl c k * v).
Proof. unfold add_at, at_node, dl. destruct (Nat.eqb a n), (Nat.eqb c k); cbn [andb]; ring. Qed.
Lemma flat_dl d i j i' j' : (j < d)%nat -> (j' < d)%nat -> dl (i*d+j) (i'*d+j') = dl i i' * dl j j'.
Proof.
  intros Hj Hj'. unfold dl. destruct (Nat.eqb_spec (i*d+j) (i'*d+j')) as [E|E].
  - assert (i = i') by nia. assert (j = j') by nia. subst. rewrite !Nat.eqb_refl. ring.
  - destruct (Nat.eqb_spec i i') as [->|]; [|ring]. destruct (Nat.eqb_spec j j') as [->|]; [contradiction|ring].
Qed.
Lemma rows_gain d (body : nat -> nat -> (nat -> nat -> R) -> nat -> nat -> R) (w : nat -> nat -> R) a i j F :
  (i < d)%nat -> (j < d)%nat ->
  (forall i' j' F, (i' < d)%nat -> (j' < d)%nat -> body i' j' F a (i*d+j)%nat = F a (i*d+j)%nat + dl (i*d+j) (i'*d+j') * w i' j') ->
  loop d (fun i' F => loop d (fun j' F => body i' j' F) F) F a (i*d+j)%nat = F a (i*d+j)%nat + w i j.
Proof.
  intros Hi Hj H.
  rewrite (loop_gain d _ (fun F : nat -> nat -> R => F a (i*d+j)%nat) (fun i' => dl i' i * w i' j)).
  - rewrite sumn_dl by exact Hi. reflexivity.
  - intros i' G Hi'. rewrite (loop_gain d _ (fun F : nat -> nat -> R => F a (i*d+j)%nat) (fun j' => dl j' j * (dl i' i * w i' j'))).
    + rewrite sumn_dl by exact Hj. reflexivity.
    + intros j' K Hj'. rewrite H by assumption. rewrite flat_dl by assumption. rewrite (dl_sym i i'), (dl_sym j j'). ring.
Qed.
Lemma gradu_elem_at d V u F e a i j : (i < d)%nat -> (j < d)%nat ->
  gradu_elem d V u F e a (i*d+j)%nat = F a (i*d+j)%nat + sumn (nscs (ve_me e)) (fun ip => (at_node a (ve_node e (lrL (ve_me e) ip)) - at_node a (ve_node e (lrR (ve_me e) ip))) * (at_ip (fun n => u n i) e ip * area (ve_me e) ip j)) / V a.
Proof.
  intros Hi Hj. unfold gradu_elem. cbv zeta.
  rewrite (loop_gain _ _ (fun F : nat -> nat -> R => F a (i*d+j)%nat) (fun ip => (at_node a (ve_node e (lrL (ve_me e) ip)) - at_node a (ve_node e (lrR (ve_me e) ip))) * (at_ip (fun n => u n i) e ip * area (ve_me e) ip j) / V a)).
  - rewrite sumn_div. reflexivity.
  - intros ip G _.
    rewrite (rows_gain d _ (fun i j => (at_node a (ve_node e (lrL (ve_me e) ip)) - at_node a (ve_node e (lrR (ve_me e) ip))) * (at_ip (fun n => u n i) e ip * area (ve_me e) ip j) / V a) a i j G Hi Hj); [reflexivity|].
    intros i' j' K Hi' Hj'. rewrite !add_at_val. fold (at_ip (fun n => u n i') e ip).
    set (Q := at_ip (fun n => u n i') e ip * area (ve_me e) ip j'). set (D := dl (i*d+j) (i'*d+j')).
    replace (at_node a (ve_node e (lrL (ve_me e) ip)) * (D * (Q * (1 / V (ve_node e (lrL (ve_me e) ip)))))) with (at_node a (ve_node e (lrL (ve_me e) ip)) * ((D * Q) * (1 / V (ve_node e (lrL (ve_me e) ip))))) by ring.
    replace (at_node a (ve_node e (lrR (ve_me e) ip)) * (D * - (Q * (1 / V (ve_node e (lrR (ve_me e) ip)))))) with (at_node a (ve_node e (lrR (ve_me e) ip)) * ((- (D * Q)) * (1 / V (ve_node e (lrR (ve_me e) ip))))) by ring.
    rewrite !at_node_val. unfold Rdiv. ring.
Qed.
Lemma gradu_face_at d V u F f a i j : (i < d)%nat -> (j < d)%nat ->
  gradu_face d V u F f a (i*d+j)%nat = F a (i*d+j)%nat + sumn (gf_nip f) (fun ip => at_node a (gf_node f (gf_near f ip)) * (at_bip (fun n => u n i) f ip * gf_A f ip j)) / V a.
Proof.
  intros Hi Hj. unfold gradu_face. cbv zeta.
  rewrite (loop_gain _ _ (fun F : nat -> nat -> R => F a (i*d+j)%nat) (fun ip => at_node a (gf_node f (gf_near f ip)) * (at_bip (fun n => u n i) f ip * gf_A f ip j) / V a)).
  - rewrite sumn_div. reflexivity.
  - intros ip G _.
    rewrite (rows_gain d _ (fun i j => at_node a (gf_node f (gf_near f ip)) * (at_bip (fun n => u n i) f ip * gf_A f ip j) / V a) a i j G Hi Hj); [reflexivity|].
    intros i' j' K Hi' Hj'. rewrite !add_at_val. fold (at_bip (fun n => u n i') f ip).
    set (Q := at_bip (fun n => u n i') f ip * gf_A f ip j'). set (D := dl (i*d+j) (i'*d+j')).
    replace (at_node a (gf_node f (gf_near f ip)) * (D * (Q * (1 / V (gf_node f (gf_near f ip)))))) with (at_node a (gf_node f (gf_near f ip)) * ((D * Q) * (1 / V (gf_node f (gf_near f ip))))) by ring.
    rewrite at_node_val. unfold Rdiv. ring.
Qed.
Lemma gradu_edge_at d V u F e a i j : (i < d)%nat -> (j < d)%nat ->
  gradu_edge d V u F e a (i*d+j)%nat = F a (i*d+j)%nat + (at_node a (eL e) - at_node a (eR e)) * ((1/2)*(u (eL e) i + u (eR e) i) * eA e j) / V a.
Proof.
  intros Hi Hj. unfold gradu_edge. cbv zeta.
  set (w := fun i j => (at_node a (eL e) - at_node a (eR e)) * ((1/2)*(u (eL e) i + u (eR e) i) * eA e j) / V a).
  set (inner := fun i' st => loop d (fun j st => let '(F, counter) := st in
      (add_at (eR e) counter (- (eA e j * ((1/2)*(u (eL e) i' + u (eR e) i')) * (1 / V (eR e)))) (add_at (eL e) counter (eA e j * ((1/2)*(u (eL e) i' + u (eR e) i')) * (1 / V (eL e))) F), S counter)) st).
  assert (I1 : forall i' n st, (n <= d)%nat -> let r := loop n (fun j st => let '(F, counter) := st in
      (add_at (eR e) counter (- (eA e j * ((1/2)*(u (eL e) i' + u (eR e) i')) * (1 / V (eR e)))) (add_at (eL e) counter (eA e j * ((1/2)*(u (eL e) i' + u (eR e) i')) * (1 / V (eL e))) F), S counter)) st in
      snd r = (snd st + n)%nat /\ fst r a (i*d+j)%nat = fst st a (i*d+j)%nat + sumn n (fun j' => dl (i*d+j) (snd st + j') * w i' j')).
  { intros i' n st. induction n as [|n IH]; intros Hn; cbv zeta.
    - rewrite loop_0, sumn_0. split; [lia|ring].
    - rewrite loop_S, sumn_S. destruct (IH ltac:(lia)) as [E1 E2]. cbv zeta in E1, E2.
      destruct (loop n _ st) as [G cnt]. cbn [fst snd] in E1, E2 |- *. split; [lia|]. rewrite !add_at_val, E2, E1. unfold w.
      set (D := dl (i*d+j) (snd st + n)).
      replace (at_node a (eL e) * (D * (eA e n * (1/2*(u (eL e) i' + u (eR e) i')) * (1 / V (eL e))))) with (at_node a (eL e) * ((D * (eA e n * (1/2*(u (eL e) i' + u (eR e) i')))) * (1 / V (eL e)))) by ring.
      replace (at_node a (eR e) * (D * - (eA e n * (1/2*(u (eL e) i' + u (eR e) i')) * (1 / V (eR e))))) with (at_node a (eR e) * ((- (D * (eA e n * (1/2*(u (eL e) i' + u (eR e) i'))))) * (1 / V (eR e)))) by ring.
      rewrite !at_node_val. unfold Rdiv. ring. }
  assert (I2 : forall n st, snd st = 0%nat -> let r := loop n inner st in snd r = (n*d)%nat /\ fst r a (i*d+j)%nat = fst st a (i*d+j)%nat + sumn n (fun i' => dl i' i * w i' j)).
  { intros n st H0. induction n as [|n IH]; cbv zeta; [rewrite loop_0, sumn_0; split; [rewrite H0; reflexivity|ring]|].
    rewrite loop_S, sumn_S. destruct IH as [E1 E2]. unfold inner at 1 3. destruct (I1 n d (loop n inner st) ltac:(lia)) as [E3 E4]. cbv zeta in E3, E4.
    split; [rewrite E3, E1; lia|]. rewrite E4, E2. rewrite (sumn_ext d _ (fun j' => dl j' j * (dl n i * w n j'))).
    - rewrite (sumn_dl d j (fun j' => dl n i * w n j') Hj). ring.
    - intros j' Hj'. rewrite E1, flat_dl by assumption. rewrite (dl_sym i n), (dl_sym j j'). ring. }
  destruct (I2 d (F, 0%nat) eq_refl) as [_ E]. cbv zeta in E. change (fst (F, 0%nat)) with F in E. rewrite sumn_dl in E by exact Hi. exact E.
Qed.
Lemma fold_gain {A} a k (step : (nat -> nat -> R) -> A -> nat -> nat -> R) (c : A -> R) : (forall x F, step F x a k = F a k + c x) -> forall l F,
    fold_left step l F a k = F a k + lsum c l.
Proof. intros H l. induction l as [|x l IH]; intros F; cbn [fold_left]; [unfold lsum; cbn; ring|]. rewrite IH, H, lsum_cons. ring. Qed.

(** ** C91: entry i*nDim+j of the gradient of a vector field is component j of the gradient of the vector's component i *)
Theorem C91_vector_gradient : forall d V u ub es fs a i j, (i < d)%nat -> (j < d)%nat ->
  gradu d V u ub es fs a (i*d+j)%nat = rank_grad d V (fun n => u n i) (fun n => ub n i) (fun _ _ => 0) es fs [] a j.
Proof.
  intros d V u ub es fs a i j Hi Hj. rewrite rank_grad_value by exact Hj. unfold gradu.
  rewrite (fold_gain a (i*d+j)%nat _ _ (fun f F => gradu_face_at d V ub F f a i j Hi Hj)), (fold_gain a (i*d+j)%nat _ _ (fun e F => gradu_elem_at d V u F e a i j Hi Hj)).
  rewrite !lsum_div. change (outer_surface [] _ a j) with 0. unfold inner_surface, outer_surface. cbv zeta. unfold Rdiv. ring.
Qed.
(** the edge algorithm: midpoint values on the edges' dual faces, row-major like the element one *)
Definition edge_surface (es : list edge) (q : nat -> R) (a j : nat) : R :=
  lsum (fun e => (at_node a (eL e) - at_node a (eR e)) * ((q (eL e) + q (eR e)) / 2 * eA e j)) es.
Theorem C91_vector_gradient_edges : forall d V u ub es fs a i j, (i < d)%nat -> (j < d)%nat ->
  gradu_on_edges d V u ub es fs a (i*d+j)%nat = (edge_surface es (fun n => u n i) a j + outer_surface fs (at_bip (fun n => ub n i)) a j) / V a.
Proof.
  intros d V u ub es fs a i j Hi Hj. unfold gradu_on_edges.
  rewrite (fold_gain a (i*d+j)%nat _ _ (fun f F => gradu_face_at d V ub F f a i j Hi Hj)), (fold_gain a (i*d+j)%nat _ _ (fun e F => gradu_edge_at d V u F e a i j Hi Hj)).
  rewrite !lsum_div. unfold edge_surface, outer_surface.
  rewrite (lsum_ext (fun e => (at_node a (eL e) - at_node a (eR e)) * ((u (eL e) i + u (eR e) i) / 2 * eA e j)) (fun e => (at_node a (eL e) - at_node a (eR e)) * (1 / 2 * (u (eL e) i + u (eR e) i) * eA e j))) by (intros; field).
  unfold Rdiv. ring.
Qed.
(** it is the scalar edge algorithm of C38 applied to the components *)
Theorem C91_vector_gradient_edges_scalar : forall d V u ub es a i j, (i < d)%nat -> (j < d)%nat ->
  gradu_on_edges d V u ub es [] a (i*d+j)%nat = nodal_grad V (fun n => u n i) es [] a j.
Proof.
  intros d V u ub es a i j Hi Hj. rewrite C91_vector_gradient_edges by assumption. change (outer_surface [] _ a j) with 0. rewrite Rplus_0_r.
  unfold nodal_grad. cbn [fold_left]. unfold edge_surface. rewrite <- lsum_div.
  assert (L : forall A (f : A -> R) l s0, fold_left (fun s r => s + f r) l s0 = s0 + lsum f l).
  { intros A f l. induction l as [|x l IH]; intros s0; cbn [fold_left]; [unfold lsum; cbn; ring|]. rewrite IH, lsum_cons. ring. }
  rewrite L, Rplus_0_l. apply lsum_ext. intros e _. unfold grad_edge, at_node. rewrite (Nat.eqb_sym (eL e)), (Nat.eqb_sym (eR e)).
  destruct (Nat.eqb_spec a (eL e)) as [E1|], (Nat.eqb_spec a (eR e)) as [E2|]; try rewrite <- E1; try rewrite <- E2; unfold Rdiv; ring.
Qed.
(** the trace of the velocity gradient is the net outflow through the control surface over the volume *)
Theorem C91_trace_is_net_outflow : forall d V u ub es fs a, V a <> 0 ->
  V a * sumn d (fun i => gradu d V u ub es fs a (i*d+i)%nat)
  = lsum (fun e => sumn (nscs (ve_me e)) (fun ip => (at_node a (ve_node e (lrL (ve_me e) ip)) - at_node a (ve_node e (lrR (ve_me e) ip))) * sumn d (fun i => at_ip (fun n => u n i) e ip * area (ve_me e) ip i))) es
  + lsum (fun f => sumn (gf_nip f) (fun ip => at_node a (gf_node f (gf_near f ip)) * sumn d (fun i => at_bip (fun n => ub n i) f ip * gf_A f ip i))) fs.
Proof.
  intros d V u ub es fs a HV. rewrite <- sumn_scal.
  rewrite (sumn_ext d _ (fun i => inner_surface es (at_ip (fun n => u n i)) a i + outer_surface fs (at_bip (fun n => ub n i)) a i)).
  - rewrite sumn_plus. f_equal; unfold inner_surface, outer_surface; cbv zeta.
    + rewrite <- lsum_sumn_comm. apply lsum_ext. intros e _. rewrite sumn_swap. apply sumn_ext. intros ip _. rewrite <- sumn_scal. reflexivity.
    + rewrite <- lsum_sumn_comm. apply lsum_ext. intros e _. rewrite sumn_swap. apply sumn_ext. intros ip _. rewrite <- sumn_scal. reflexivity.
  - intros i Hi. rewrite C91_vector_gradient, rank_grad_value by exact Hi. change (outer_surface [] _ a i) with 0. field. exact HV.
Qed.
(** a velocity field u = c + L x has gradient L at every node of every conforming planar mesh *)
Theorem C91_linear_velocity_on_planar_meshes : forall x en els edges boundary c L u a i j, Grad_Props2.planar_mesh en els edges boundary -> (i < 2)%nat -> (j < 2)%nat ->
  Geom_Model.dual_volume x els a <> 0 -> (forall n i, u n i = c i + L i 0%nat * ME_Model.vx (x n) + L i 1%nat * ME_Model.vy (x n)) ->
  gradu 2 (Geom_Model.dual_volume x els) u u (map (Grad_Props2.planar_elem x) els) (map (Grad_Props2.planar_face x) boundary) a (i*2+j)%nat = L i j.
Proof.
  intros x en els edges boundary c L u a i j PM Hi Hj HV Hu. rewrite C91_vector_gradient by assumption.
  apply (Grad_Props2.C91_linear_exact_on_planar_meshes x en els edges boundary (c i) (L i) (fun n => u n i) a j PM Hj HV). intros n. apply Hu.
Qed.
