(** C91: Green-Gauss nodal gradients. *)
Require Import Reals List Bool Lra Lia Arith Permutation.
From Verif Require Import RUtil Edge_Model Edge_Proofs Elem_Model Elem_Spec Elem_Proofs Elem_Props2 Rad_Quad_Proofs3 Sum_Proofs.
From Verif Require Geom_Props.
From Verif Require Import Vof_Model Vof_Model2 Vof_Props6 Grad_Model Grad_Spec.
Import ListNotations.
Open Scope R_scope.

Lemma fold_from n (f : nat -> R) : forall a0, fold_left (fun a ic => a + f ic) (seq 0 n) a0 = a0 + sumn n f.
Proof.
  intros a0. unfold sumn. generalize (seq 0 n) as l. intros l.
  assert (G : forall l x y, fold_left (fun a ic => a + f ic) l (x + y) = x + fold_left (fun a ic => a + f ic) l y).
  { induction l0 as [|k l0 IH]; intros x y; cbn [fold_left]; [reflexivity|]. rewrite <- IH. f_equal. ring. }
  rewrite <- G. f_equal. ring.
Qed.
Lemma if_at a n v : (if Nat.eqb a n then v else 0) = at_node a n * v.
Proof. unfold at_node. destruct (Nat.eqb a n); ring. Qed.
Lemma acc2_at n v F a j : acc2 n v F a j = F a j + at_node a n * v j.
Proof. unfold acc2, at_node. destruct (Nat.eqb a n); ring. Qed.
Lemma at_node_val (V : nat -> R) a n v : at_node a n * (v * (1 / V n)) = at_node a n * v / V a.
Proof. unfold at_node, Rdiv. destruct (Nat.eqb_spec a n) as [->|]; ring. Qed.

Lemma loop_gain {S} (n : nat) (body : nat -> S -> S) (get : S -> R) (c : nat -> R) s :
  (forall ip s, (ip < n)%nat -> get (body ip s) = get s + c ip) -> get (loop n body s) = get s + sumn n c.
Proof.
  intros H. induction n as [|n IH]; [rewrite loop_0, sumn_0; ring|].
  rewrite loop_S, sumn_S, H by lia. rewrite IH by (intros; apply H; lia). ring.
Qed.
Lemma grad_elem_at d V q F e a j : (j < d)%nat ->
  grad_elem d V q F e a j = F a j + sumn (nscs (ve_me e)) (fun ip => (at_node a (ve_node e (lrL (ve_me e) ip)) - at_node a (ve_node e (lrR (ve_me e) ip))) * (at_ip q e ip * area (ve_me e) ip j)) / V a.
Proof.
  intros Hj. unfold grad_elem. cbv zeta.
  rewrite (loop_gain _ _ (fun F : nat -> nat -> R => F a j) (fun ip => (at_node a (ve_node e (lrL (ve_me e) ip)) - at_node a (ve_node e (lrR (ve_me e) ip))) * (at_ip q e ip * area (ve_me e) ip j) / V a)).
  - rewrite sumn_div. reflexivity.
  - intros ip G _. rewrite !acc2_at. rewrite (proj2 (Nat.ltb_lt j d) Hj). fold (at_ip q e ip).
    replace (- (at_ip q e ip * area (ve_me e) ip j * (1 / V (ve_node e (lrR (ve_me e) ip))))) with ((- (at_ip q e ip * area (ve_me e) ip j)) * (1 / V (ve_node e (lrR (ve_me e) ip)))) by ring.
    rewrite !at_node_val. unfold Rdiv. ring.
Qed.
Lemma grad_face_at d V dynP q F f a j : (j < d)%nat ->
  grad_face d V dynP q F f a j = F a j + sumn (gf_nip f) (fun ip => at_node a (gf_node f (gf_near f ip)) * ((at_bip q f ip - dynP f ip) * gf_A f ip j)) / V a.
Proof.
  intros Hj. unfold grad_face. cbv zeta.
  rewrite (loop_gain _ _ (fun F : nat -> nat -> R => F a j) (fun ip => at_node a (gf_node f (gf_near f ip)) * ((at_bip q f ip - dynP f ip) * gf_A f ip j) / V a)).
  - rewrite sumn_div. reflexivity.
  - intros ip G _. rewrite acc2_at. rewrite (proj2 (Nat.ltb_lt j d) Hj).
    rewrite fold_from. fold (at_bip q f ip). rewrite at_node_val. unfold Rdiv. ring.
Qed.

(* ------------------------------------------------------------------ value *)
(** ** the nodal gradient is the outward surface integral of q over the node's control volume divided by the dual volume;
    at open boundaries of the pressure gradient the dynamic pressure is taken off the pressure *)
Lemma rank_grad_value d V q qb dynP es fs os a j : (j < d)%nat ->
  rank_grad d V q qb dynP es fs os a j
  = (inner_surface es (at_ip q) a j + outer_surface fs (at_bip qb) a j + outer_surface os (fun f ip => at_bip qb f ip - dynP f ip) a j) / V a.
Proof.
  intros Hj. unfold rank_grad.
  assert (M : forall A (step : (nat -> nat -> R) -> A -> nat -> nat -> R) (c : A -> R) l F, (forall x F, step F x a j = F a j + c x) ->
    fold_left step l F a j = F a j + lsum c l).
  { intros A step c l. induction l as [|x l IH]; intros F H; cbn [fold_left]; [unfold lsum; cbn; ring|]. rewrite (IH _ H), H, lsum_cons. ring. }
  rewrite (M _ _ _ os _ (fun f F => grad_face_at d V dynP qb F f a j Hj)).
  rewrite (M _ _ _ fs _ (fun f F => grad_face_at d V (fun _ _ => 0) qb F f a j Hj)).
  rewrite (M _ _ _ es _ (fun e F => grad_elem_at d V q F e a j Hj)).
  rewrite !lsum_div. unfold inner_surface, outer_surface. cbv zeta.
  rewrite (lsum_ext (fun f => sumn (gf_nip f) (fun ip => at_node a (gf_node f (gf_near f ip)) * ((at_bip qb f ip - 0) * gf_A f ip j))) (fun f => sumn (gf_nip f) (fun ip => at_node a (gf_node f (gf_near f ip)) * (at_bip qb f ip * gf_A f ip j))))
    by (intros f _; apply sumn_ext; intros; ring).
  unfold Rdiv. ring.
Qed.
Theorem C91_green_gauss : forall d V q qb dynP es fs os a j, (j < d)%nat ->
  rank_grad d V q qb dynP es fs os a j
  = (inner_surface es (at_ip q) a j + outer_surface fs (at_bip qb) a j + outer_surface os (fun f ip => at_bip qb f ip - dynP f ip) a j) / V a.
Proof. exact rank_grad_value. Qed.

Lemma outer_ext fs Q Q' a j : (forall f ip, In f fs -> (ip < gf_nip f)%nat -> Q f ip = Q' f ip) -> outer_surface fs Q a j = outer_surface fs Q' a j.
Proof. intros H. unfold outer_surface. apply lsum_ext. intros f Hf. apply sumn_ext. intros ip Hip. rewrite (H f ip Hf Hip). reflexivity. Qed.
Lemma inner_ext es Q Q' a j : (forall e ip, In e es -> (ip < nscs (ve_me e))%nat -> Q e ip = Q' e ip) -> inner_surface es Q a j = inner_surface es Q' a j.
Proof. intros H. unfold inner_surface. apply lsum_ext. intros e He. cbv zeta. apply sumn_ext. intros ip Hip. rewrite (H e ip He Hip). reflexivity. Qed.
Lemma inner_scal es Q c a j : inner_surface es (fun e ip => c * Q e ip) a j = c * inner_surface es Q a j.
Proof. unfold inner_surface. rewrite <- lsum_scal. apply lsum_ext. intros e _. cbv zeta. rewrite <- sumn_scal. apply sumn_ext. intros; ring. Qed.
Lemma outer_scal fs Q c a j : outer_surface fs (fun e ip => c * Q e ip) a j = c * outer_surface fs Q a j.
Proof. unfold outer_surface. rewrite <- lsum_scal. apply lsum_ext. intros e _. rewrite <- sumn_scal. apply sumn_ext. intros; ring. Qed.
Lemma inner_plus es Q Q' a j : inner_surface es (fun e ip => Q e ip + Q' e ip) a j = inner_surface es Q a j + inner_surface es Q' a j.
Proof. unfold inner_surface. rewrite <- lsum_plus. apply lsum_ext. intros e _. cbv zeta. rewrite <- sumn_plus. apply sumn_ext. intros; ring. Qed.
Lemma outer_plus fs Q Q' a j : outer_surface fs (fun e ip => Q e ip + Q' e ip) a j = outer_surface fs Q a j + outer_surface fs Q' a j.
Proof. unfold outer_surface. rewrite <- lsum_plus. apply lsum_ext. intros e _. rewrite <- sumn_plus. apply sumn_ext. intros; ring. Qed.
Lemma inner_sumn es n (Q : nat -> velem -> nat -> R) a j : inner_surface es (fun e ip => sumn n (fun k => Q k e ip)) a j = sumn n (fun k => inner_surface es (Q k) a j).
Proof.
  induction n as [|n IH]. - rewrite sumn_0. rewrite (inner_ext _ _ (fun e ip => 0 * 1)) by (intros; rewrite sumn_0; ring). rewrite inner_scal. ring.
  - rewrite sumn_S, <- IH, <- inner_plus. apply inner_ext. intros; rewrite sumn_S; reflexivity.
Qed.
Lemma outer_sumn es n (Q : nat -> gface -> nat -> R) a j : outer_surface es (fun e ip => sumn n (fun k => Q k e ip)) a j = sumn n (fun k => outer_surface es (Q k) a j).
Proof.
  induction n as [|n IH]. - rewrite sumn_0. rewrite (outer_ext _ _ (fun e ip => 0 * 1)) by (intros; rewrite sumn_0; ring). rewrite outer_scal. ring.
  - rewrite sumn_S, <- IH, <- outer_plus. apply outer_ext. intros; rewrite sumn_S; reflexivity.
Qed.
Lemma at_ip_plus q r e ip : at_ip (fun n => q n + r n) e ip = at_ip q e ip + at_ip r e ip.
Proof. unfold at_ip. rewrite <- sumn_plus. apply sumn_ext. intros; ring. Qed.
Lemma at_ip_scal c q e ip : at_ip (fun n => c * q n) e ip = c * at_ip q e ip.
Proof. unfold at_ip. rewrite <- sumn_scal. apply sumn_ext. intros; ring. Qed.
Lemma at_bip_plus q r e ip : at_bip (fun n => q n + r n) e ip = at_bip q e ip + at_bip r e ip.
Proof. unfold at_bip. rewrite <- sumn_plus. apply sumn_ext. intros; ring. Qed.
Lemma at_bip_scal c q e ip : at_bip (fun n => c * q n) e ip = c * at_bip q e ip.
Proof. unfold at_bip. rewrite <- sumn_scal. apply sumn_ext. intros; ring. Qed.

(* ------------------------------------------------------------------ ranks *)
(** the decomposition into ranks does not matter: the sum over the ranks is the gradient of the whole mesh *)
Theorem C91_rank_independent : forall d V q qb dynP ranks a j, (j < d)%nat ->
  parallel_grad d V q qb dynP ranks a j
  = rank_grad d V q qb dynP (flat_map (fun r => fst (fst r)) ranks) (flat_map (fun r => snd (fst r)) ranks) (flat_map snd ranks) a j.
Proof.
  intros d V q qb dynP ranks a j Hj. unfold parallel_grad. rewrite rank_grad_value by exact Hj.
  assert (L : forall A (f : A -> R) l s0, fold_left (fun s r => s + f r) l s0 = s0 + lsum f l).
  { intros A f l. induction l as [|x l IH]; intros s0; cbn [fold_left]; [unfold lsum; cbn; ring|]. rewrite IH, lsum_cons. ring. }
  rewrite L. rewrite (lsum_ext _ _ _ (fun r _ => rank_grad_value d V q qb dynP (fst (fst r)) (snd (fst r)) (snd r) a j Hj)).
  rewrite lsum_div, Rplus_0_l. f_equal. unfold inner_surface, outer_surface. rewrite !Geom_Props.lsum_flat, !lsum_plus. reflexivity.
Qed.
(** nor does the order in which elements and faces are visited *)
Theorem C91_order_independent : forall d V q qb dynP es es' fs fs' os os' a j, (j < d)%nat ->
  Permutation es es' -> Permutation fs fs' -> Permutation os os' ->
  rank_grad d V q qb dynP es fs os a j = rank_grad d V q qb dynP es' fs' os' a j.
Proof.
  intros d V q qb dynP es es' fs fs' os os' a j Hj P1 P2 P3. rewrite !rank_grad_value by exact Hj. f_equal.
  unfold inner_surface, outer_surface. rewrite (Geom_Props.lsum_perm' _ _ _ P1), (Geom_Props.lsum_perm' _ _ _ P2), (Geom_Props.lsum_perm' _ _ _ P3). reflexivity.
Qed.

(* ------------------------------------------------------------------ exactness *)
(** a constant has no gradient where the control volume is closed *)
Theorem C91_constant : forall d V q c es fs a j, (j < d)%nat -> cv_closed d es fs a -> ip_unity es -> bip_unity fs -> (forall n, q n = c) ->
  rank_grad d V q q (fun _ _ => 0) es fs [] a j = 0.
Proof.
  intros d V q c es fs a j Hj HC U UB Hq. rewrite rank_grad_value by exact Hj.
  rewrite (inner_ext es _ (fun e ip => c * 1)), inner_scal.
  - rewrite (outer_ext fs _ (fun e ip => c * 1)), outer_scal.
    + change (outer_surface [] _ a j) with 0. specialize (HC j Hj). unfold Rdiv.
      replace (c * inner_surface es (fun _ _ => 1) a j + c * outer_surface fs (fun _ _ => 1) a j + 0) with (c * (inner_surface es (fun _ _ => 1) a j + outer_surface fs (fun _ _ => 1) a j)) by ring.
      rewrite HC. ring.
    + intros f ip Hf Hip. unfold at_bip. rewrite (sumn_ext _ _ (fun ic => c * gf_N f ip ic)) by (intros; rewrite Hq; ring). rewrite sumn_scal, (UB f Hf ip Hip). reflexivity.
  - intros e ip He Hip. unfold at_ip. rewrite (sumn_ext _ _ (fun ic => c * Ns (ve_me e) ip ic)) by (intros; rewrite Hq; ring). rewrite sumn_scal, (U e He ip Hip). reflexivity.
Qed.
Lemma at_ip_linear d c g X q e ip : linear_field d c g X q -> sumn (npe (ve_me e)) (Ns (ve_me e) ip) = 1 ->
  at_ip q e ip = c * 1 + sumn d (fun k => g k * at_ip (fun n => X n k) e ip).
Proof.
  intros L U. unfold at_ip. rewrite (sumn_ext (npe (ve_me e)) _ (fun ic => c * Ns (ve_me e) ip ic + sumn d (fun k => g k * (Ns (ve_me e) ip ic * X (ve_node e ic) k)))).
  - rewrite sumn_plus, sumn_scal, U. f_equal. rewrite sumn_swap. apply sumn_ext. intros k _. rewrite sumn_scal. reflexivity.
  - intros ic _. rewrite (L (ve_node e ic)), Rmult_plus_distr_l, (Rmult_comm _ c). f_equal. rewrite <- sumn_scal. apply sumn_ext. intros; ring.
Qed.
Lemma at_bip_linear d c g X q f ip : linear_field d c g X q -> sumn (gf_npf f) (gf_N f ip) = 1 ->
  at_bip q f ip = c * 1 + sumn d (fun k => g k * at_bip (fun n => X n k) f ip).
Proof.
  intros L U. unfold at_bip. rewrite (sumn_ext (gf_npf f) _ (fun ic => c * gf_N f ip ic + sumn d (fun k => g k * (gf_N f ip ic * X (gf_node f ic) k)))).
  - rewrite sumn_plus, sumn_scal, U. f_equal. rewrite sumn_swap. apply sumn_ext. intros k _. rewrite sumn_scal. reflexivity.
  - intros ic _. rewrite (L (gf_node f ic)), Rmult_plus_distr_l, (Rmult_comm _ c). f_equal. rewrite <- sumn_scal. apply sumn_ext. intros; ring.
Qed.
Lemma gauss_linear d V X c g q es fs a j : (j < d)%nat -> ip_unity es -> bip_unity fs ->
  cv_closed d es fs a -> cv_gauss d V X es fs a -> linear_field d c g X q ->
  inner_surface es (at_ip q) a j + outer_surface fs (at_bip q) a j = g j * V a.
Proof.
  intros Hj U UB HC HG L.
  rewrite (inner_ext es _ (fun e ip => c * 1 + sumn d (fun k => g k * at_ip (fun n => X n k) e ip))) by (intros e ip He Hip; exact (at_ip_linear d c g X q e ip L (U e He ip Hip))).
  rewrite (outer_ext fs _ (fun e ip => c * 1 + sumn d (fun k => g k * at_bip (fun n => X n k) e ip))) by (intros e ip He Hip; exact (at_bip_linear d c g X q e ip L (UB e He ip Hip))).
  rewrite inner_plus, outer_plus, inner_scal, outer_scal, inner_sumn, outer_sumn.
  transitivity (c * (inner_surface es (fun _ _ => 1) a j + outer_surface fs (fun _ _ => 1) a j) + sumn d (fun k => g k * (if Nat.eqb k j then V a else 0))).
  - rewrite (sumn_ext d (fun k => g k * (if Nat.eqb k j then V a else 0)) (fun k => inner_surface es (fun e ip => g k * at_ip (fun n => X n k) e ip) a j + outer_surface fs (fun e ip => g k * at_bip (fun n => X n k) e ip) a j)).
    + rewrite sumn_plus. ring.
    + intros k Hk. rewrite inner_scal, outer_scal, <- (HG j k Hj Hk). ring.
  - rewrite (HC j Hj), (sumn_ext d _ (fun k => dl k j * (g k * V a))).
    + rewrite sumn_dl by exact Hj. ring.
    + intros k _. unfold dl. destruct (Nat.eqb k j); ring.
Qed.
(** a linear field has exactly its gradient at every node whose control volume satisfies Gauss's theorem for the coordinates *)
Theorem C91_linear_exact : forall d V X c g q es fs a j, (j < d)%nat -> V a <> 0 -> ip_unity es -> bip_unity fs ->
  cv_closed d es fs a -> cv_gauss d V X es fs a -> linear_field d c g X q ->
  rank_grad d V q q (fun _ _ => 0) es fs [] a j = g j.
Proof.
  intros d V X c g q es fs a j Hj HV U UB HC HG L. rewrite rank_grad_value by exact Hj.
  change (outer_surface [] _ a j) with 0. rewrite Rplus_0_r, (gauss_linear d V X c g q es fs a j Hj U UB HC HG L). field. exact HV.
Qed.
(** superposition: the gradient of a combination is the combination of the gradients (boundary values included) *)
Theorem C91_superposition : forall d V q r qb rb dynP s es fs os a j, (j < d)%nat ->
  rank_grad d V (fun n => q n + s * r n) (fun n => qb n + s * rb n) dynP es fs os a j
  = rank_grad d V q qb dynP es fs os a j + s * rank_grad d V r rb (fun _ _ => 0) es fs os a j.
Proof.
  intros. rewrite !rank_grad_value by assumption.
  rewrite (inner_ext es (at_ip (fun n => q n + s * r n)) (fun e ip => at_ip q e ip + s * at_ip r e ip)) by (intros; rewrite at_ip_plus, at_ip_scal; reflexivity).
  rewrite (outer_ext fs (at_bip (fun n => qb n + s * rb n)) (fun e ip => at_bip qb e ip + s * at_bip rb e ip)) by (intros; rewrite at_bip_plus, at_bip_scal; reflexivity).
  rewrite (outer_ext os (fun f ip => at_bip (fun n => qb n + s * rb n) f ip - dynP f ip) (fun e ip => (at_bip qb e ip - dynP e ip) + s * at_bip rb e ip)) by (intros; rewrite at_bip_plus, at_bip_scal; ring).
  rewrite (outer_ext os (fun f ip => at_bip rb f ip - 0) (at_bip rb)) by (intros; ring).
  rewrite inner_plus, !outer_plus, inner_scal, !outer_scal. unfold Rdiv. ring.
Qed.

(* ------------------------------------------------------------------ total *)
Lemma at_node_sum nodes n : NoDup nodes -> In n nodes -> lsum (fun a => at_node a n) nodes = 1.
Proof.
  intros ND Hin. rewrite (lsum_ext _ (fun a => if Nat.eqb n a then 1 else 0)) by (intros x _; unfold at_node; rewrite Nat.eqb_sym; reflexivity).
  exact (lsum_indicator nodes n 1 ND Hin).
Qed.
Definition nodes_cover (nodes : list nat) (es : list velem) (fs : list gface) : Prop :=
  (forall e, In e es -> forall ip, (ip < nscs (ve_me e))%nat -> In (ve_node e (lrL (ve_me e) ip)) nodes /\ In (ve_node e (lrR (ve_me e) ip)) nodes) /\
  (forall f, In f fs -> forall ip, (ip < gf_nip f)%nat -> In (gf_node f (gf_near f ip)) nodes).
Lemma lsum_sumn_comm {A} (nodes : list A) n (f : A -> nat -> R) : lsum (fun a => sumn n (f a)) nodes = sumn n (fun ip => lsum (fun a => f a ip) nodes).
Proof.
  induction nodes as [|a l IH]. - symmetry. apply (sumn_zero n). reflexivity.
  - rewrite lsum_cons, IH, <- sumn_plus. apply sumn_ext. intros ip _. rewrite lsum_cons. reflexivity.
Qed.
Lemma inner_total nodes es fs Q j : NoDup nodes -> nodes_cover nodes es fs -> lsum (fun a => inner_surface es Q a j) nodes = 0.
Proof.
  intros ND [C _]. unfold inner_surface. rewrite lsum_comm. apply lsum_zero. intros e He. cbv zeta. rewrite lsum_sumn_comm.
  apply sumn_zero. intros ip Hip. destruct (C e He ip Hip) as [C1 C2].
  rewrite (lsum_ext _ (fun a => (Q e ip * area (ve_me e) ip j) * (at_node a (ve_node e (lrL (ve_me e) ip))) + (- (Q e ip * area (ve_me e) ip j)) * (at_node a (ve_node e (lrR (ve_me e) ip))))) by (intros; ring).
  rewrite lsum_plus, !lsum_scal, (at_node_sum nodes _ ND C1), (at_node_sum nodes _ ND C2). ring.
Qed.
Lemma outer_total nodes es fs Q j : NoDup nodes -> nodes_cover nodes es fs -> lsum (fun a => outer_surface fs Q a j) nodes = boundary_total fs Q j.
Proof.
  intros ND [_ C]. unfold outer_surface, boundary_total. rewrite lsum_comm. apply lsum_ext. intros f Hf. rewrite lsum_sumn_comm. apply sumn_ext. intros ip Hip.
  rewrite (lsum_ext _ (fun a => (Q f ip * gf_A f ip j) * (at_node a (gf_node f (gf_near f ip))))) by (intros; ring). rewrite lsum_scal, (at_node_sum nodes _ ND (C f Hf ip Hip)). ring.
Qed.
(** Gauss's theorem for the whole mesh: the volume integral of the nodal gradient is the boundary integral of q *)
Theorem C91_total_is_boundary_integral : forall d V q qb es fs nodes j, (j < d)%nat -> NoDup nodes -> nodes_cover nodes es fs ->
  (forall a, In a nodes -> V a <> 0) ->
  lsum (fun a => V a * rank_grad d V q qb (fun _ _ => 0) es fs [] a j) nodes = boundary_total fs (at_bip qb) j.
Proof.
  intros d V q qb es fs nodes j Hj ND C HV.
  rewrite (lsum_ext _ (fun a => inner_surface es (at_ip q) a j + outer_surface fs (at_bip qb) a j)).
  - rewrite lsum_plus, (inner_total nodes es fs _ j ND C), (outer_total nodes es fs _ j ND C). ring.
  - intros a Ha. rewrite rank_grad_value by exact Hj. change (outer_surface [] _ a j) with 0. field. exact (HV a Ha).
Qed.
(** at an open boundary the dynamic pressure enters exactly like a boundary value lowered by it: the pressure gradient
    changes by minus its surface integral, at the nodes of those faces only *)
Theorem C91_open_dynamic_pressure : forall d V q qb dynP es fs os a j, (j < d)%nat ->
  rank_grad d V q qb dynP es fs os a j = rank_grad d V q qb (fun _ _ => 0) es (fs ++ os) [] a j - outer_surface os dynP a j / V a.
Proof.
  intros. rewrite !rank_grad_value by assumption. change (outer_surface [] _ a j) with 0.
  rewrite (outer_ext os (fun f ip => at_bip qb f ip - dynP f ip) (fun e ip => at_bip qb e ip + -1 * dynP e ip)) by (intros; ring).
  rewrite outer_plus, outer_scal. replace (outer_surface (fs ++ os) (at_bip qb) a j) with (outer_surface fs (at_bip qb) a j + outer_surface os (at_bip qb) a j)
    by (unfold outer_surface; rewrite Geom_Props.lsum_app'; reflexivity). unfold Rdiv. ring.
Qed.
Theorem C91_open_far_nodes : forall d V q qb dynP es fs os a j, (j < d)%nat ->
  (forall f ip, In f os -> (ip < gf_nip f)%nat -> gf_node f (gf_near f ip) <> a) ->
  rank_grad d V q qb dynP es fs os a j = rank_grad d V q qb (fun _ _ => 0) es fs [] a j.
Proof.
  intros d V q qb dynP es fs os a j Hj H. rewrite !rank_grad_value by exact Hj. change (outer_surface [] _ a j) with 0.
  replace (outer_surface os _ a j) with 0; [reflexivity|]. symmetry. unfold outer_surface. apply lsum_zero. intros f Hf. apply sumn_zero. intros ip Hip.
  unfold at_node. destruct (Nat.eqb_spec a (gf_node f (gf_near f ip))) as [E|]; [exfalso; exact (H f ip Hf Hip (eq_sym E))|ring].
Qed.
