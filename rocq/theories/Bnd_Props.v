(** C71: open boundaries carry the interior value out and the specified value in. *)
Require Import Reals List Bool Lra Lia Arith.
From Verif Require Import RUtil Edge_Model Edge_Proofs Elem_Model Elem_Spec Elem_Proofs Elem_Proofs2 Bnd_Model Bnd_Spec Bnd_Proofs.
Import ListNotations.
Open Scope R_scope.

Lemma out_dl np nn F i : out_at np nn F i = sumn np (fun ip => dl i (nn ip) * F ip).
Proof. unfold out_at, dl. apply sumn_ext. intros ip _. destruct (Nat.eqb i (nn ip)); ring. Qed.
Lemma out_ext np nn F G i : (forall ip, (ip < np)%nat -> F ip = G ip) -> out_at np nn F i = out_at np nn G i.
Proof. intros H. unfold out_at. apply sumn_ext. intros ip Hip. rewrite H by assumption. reflexivity. Qed.
Lemma eff_out s s' A np nn F i : eff s s' A (fun i => sumn np (fun ip => - (dl i (nn ip) * F ip))) -> eB s' i = eB s i - out_at np nn F i.
Proof. intros [_ H]. rewrite H, out_dl, sumn_opp. ring. Qed.
Lemma carried_upside m a b : carried m a b = upside m a b. Proof. reflexivity. Qed.

(** Newton consistency of systems that touch the nearest node's row only *)
Lemma row_newton n (k : (nat -> R) -> esys -> esys) np (nn : nat -> nat) (A : nat -> nat -> R) (F : (nat -> R) -> nat -> R) :
  (forall q s, eff s (k q s) (fun i j => sumn np (fun ip => dl i (nn ip) * A ip j)) (fun i => sumn np (fun ip => - (dl i (nn ip) * F q ip)))) ->
  (forall q d ip, (ip < np)%nat -> F (fun a => q a + d a) ip = F q ip + sumn n (fun j => A ip j * d j)) ->
  exact_newton n k.
Proof.
  intros H HF q d s i Hi.
  destruct (H (fun a => q a + d a) s) as [_ H1]. destruct (H q s) as [H2 H3]. rewrite H1, H3.
  rewrite (sumn_ext n (fun j => _ * d j) (fun j => sumn np (fun ip => dl i (nn ip) * (A ip j * d j)))).
  - rewrite sumn_swap, Rplus_minus_a. f_equal. rewrite <- sumn_minus. apply sumn_ext. intros ip Hip.
    rewrite HF by assumption. rewrite sumn_scal. ring.
  - intros j Hj. rewrite H2. replace (eL_ s i j + _ - eL_ s i j) with (sumn np (fun ip => dl i (nn ip) * A ip j)) by ring.
    rewrite <- sumn_scal_r. apply sumn_ext. intros; ring.
Qed.

(* ================================================================ scalar *)
(** C71 edge scheme: what is added to node i's equation is minus the transported quantity leaving through
    its boundary points, inside value on outflow, specified value on inflow. *)
Theorem C71_edge_scalar_open : forall f mdot q qE s i,
  eB (scalar_open_edge f mdot q qE s) i
  = eB s i - out_at (f_npf f) (f_ord f) (fun ip => carried (mdot ip) (q (f_ord f ip)) (qE (f_ord f ip))) i.
Proof. intros. exact (eff_out _ _ _ _ _ _ i (scalar_open_edge_eff f mdot q qE s)). Qed.

(** the matrix is the exact sensitivity, with a non-negative diagonal and nothing off the diagonal *)
Theorem C71_edge_scalar_matrix : forall f mdot qE, (forall ic, (ic < f_npf f)%nat -> (f_ord f ic < f_npe f)%nat) ->
  exact_newton (f_npe f) (fun q => scalar_open_edge f mdot q qE) /\
  forall q s i j, if Nat.eqb i j then eL_ s i j <= eL_ (scalar_open_edge f mdot q qE s) i j
                  else eL_ (scalar_open_edge f mdot q qE s) i j = eL_ s i j.
Proof.
  intros f mdot qE Ho. split.
  - apply (row_newton (f_npe f) _ (f_npf f) (f_ord f) (fun ip j => dl j (f_ord f ip) * upside (mdot ip) 1 0)
      (fun q ip => upside (mdot ip) (q (f_ord f ip)) (qE (f_ord f ip)))).
    + intros. apply scalar_open_edge_eff.
    + intros q d ip Hip.
      rewrite (sumn_ext (f_npe f) _ (fun j => dl j (f_ord f ip) * (upside (mdot ip) 1 0 * d j))) by (intros; ring).
      rewrite sumn_dl by (apply Ho; assumption). unfold upside. destruct (Rlt_dec 0 (mdot ip)); ring.
  - intros q s i j. destruct (scalar_open_edge_eff f mdot q qE s) as [H _]. rewrite H.
    destruct (Nat.eqb_spec i j) as [<-|N].
    + assert (0 <= sumn (f_npf f) (fun ip => dl i (f_ord f ip) * (dl i (f_ord f ip) * upside (mdot ip) 1 0))); [|lra].
      clear. induction (f_npf f); [rewrite sumn_0; lra|]. rewrite sumn_S. unfold dl, upside in *.
      destruct (Nat.eqb i (f_ord f n)), (Rlt_dec 0 (mdot n)); lra.
    + rewrite sumn_zero; [ring|]. intros ip _. unfold dl. destruct (Nat.eqb_spec i (f_ord f ip)), (Nat.eqb_spec j (f_ord f ip)); try ring. congruence.
Qed.

(** C71 element scheme *)
Lemma elem_open_raw : forall f o G mdot q qE s i,
  eB (scalar_open_elem f o G mdot q qE s) i
  = eB s i - out_at (f_ip f) (f_nn f) (fun ip => carried (mdot ip) (elem_q f o G q ip) (at_face_adv f qE ip)) i.
Proof. intros. exact (eff_out _ _ _ _ _ _ i (scalar_open_elem_eff f o G mdot q qE s)). Qed.
Lemma upw_sum_zero n g : fold_left (fun a i => a + g i) (seq 0 n) 0 = sumn n g.
Proof. reflexivity. Qed.
Lemma leaving_elem f o G q ip : face_ok f -> (ip < f_ip f)%nat -> leaving_value f o G q ip = elem_q f o G q ip.
Proof.
  intros [_ Hn] Hip. destruct (Hn ip Hip) as [_ E]. unfold leaving_value, elem_q, oqUpw. cbv zeta.
  rewrite upw_sum_zero, <- E, <- sumn_scal. unfold face_avg, of_xb, at_face_adv.
  rewrite (sumn_ext (f_d f) _ (fun i => (sumn (f_npf f) (fun ic => f_Na f ip ic * ou_x o (f_ord f ic * f_d f + i)%nat) - ou_x o (f_nn f ip * f_d f + i)%nat) * G (f_nn f ip) i * ou_hoUpw o)) by (intros; ring).
  reflexivity.
Qed.
Theorem C71_elem_scalar_open : forall f o G mdot q qE s i, face_ok f ->
  eB (scalar_open_elem f o G mdot q qE s) i
  = eB s i - out_at (f_ip f) (f_nn f) (fun ip => carried (mdot ip) (leaving_value f o G q ip) (face_avg f qE ip)) i.
Proof.
  intros f o G mdot q qE s i Hf. rewrite elem_open_raw. f_equal. apply out_ext. intros ip Hip.
  rewrite leaving_elem by assumption. reflexivity.
Qed.

Lemma avg_bounds n (N v : nat -> R) lo hi : (forall ic, (ic < n)%nat -> 0 <= N ic) -> sumn n N = 1 ->
  (forall ic, (ic < n)%nat -> lo <= v ic <= hi) -> lo <= sumn n (fun ic => N ic * v ic) <= hi.
Proof.
  intros HN H1 Hv.
  assert (E : forall m, (m <= n)%nat -> lo * sumn m N <= sumn m (fun ic => N ic * v ic) <= hi * sumn m N).
  { induction m; intros Hm; [rewrite !sumn_0; lra|]. rewrite !sumn_S. specialize (IHm ltac:(lia)).
    specialize (HN m ltac:(lia)). specialize (Hv m ltac:(lia)). nra. }
  specialize (E n (le_n n)). rewrite H1 in E. lra.
Qed.

(** the value carried out lies between the face's nodal values and the value carried in between the
    specified ones (no gradient extrapolation, blending weights in [0,1], non-negative face weights) *)
Theorem C71_elem_scalar_bounded : forall f o G q qE lo hi ip, face_ok f -> (ip < f_ip f)%nat ->
  ou_hoUpw o = 0 -> 0 <= ou_pec o ip <= 1 -> 0 <= ou_alphaUpw o <= 1 ->
  (forall ic, (ic < f_npf f)%nat -> 0 <= f_Na f ip ic) -> sumn (f_npf f) (f_Na f ip) = 1 ->
  ((forall ic, (ic < f_npf f)%nat -> lo <= q (f_ord f ic) <= hi) -> lo <= leaving_value f o G q ip <= hi) /\
  ((forall ic, (ic < f_npf f)%nat -> lo <= qE (f_ord f ic) <= hi) -> lo <= face_avg f qE ip <= hi).
Proof.
  intros f o G q qE lo hi ip Hf Hip Hh Hp Ha HN H1. rewrite (leaving_elem f o G q ip Hf Hip).
  change (face_avg f qE ip) with (at_face_adv f qE ip). destruct Hf as [Ho Hn]. split; intros Hq.
  - assert (B : lo <= at_face_adv f q ip <= hi) by (apply avg_bounds; assumption).
    assert (U : lo <= oqUpw f o G q ip <= hi).
    { unfold oqUpw. rewrite upw_sum_zero, sumn_zero by (intros; rewrite Hh; ring). rewrite Rplus_0_r.
      apply Hq. apply Hn. assumption. }
    unfold elem_q. set (a := ou_alphaUpw o) in *. set (p := ou_pec o ip) in *.
    set (x := at_face_adv f q ip) in *. set (y := oqUpw f o G q ip) in *.
    assert (lo <= a*y + (1-a)*x <= hi) by (split; nra).
    set (z := a*y + (1-a)*x) in *. split; nra.
  - apply avg_bounds; assumption.
Qed.

Lemma at_face_adv_plus f q d ip : at_face_adv f (fun a => q a + d a) ip = at_face_adv f q ip + at_face_adv f d ip.
Proof. unfold at_face_adv. rewrite <- sumn_plus. apply sumn_ext. intros; ring. Qed.
Lemma pick_face n m (ord : nat -> nat) (N d : nat -> R) : (forall ic, (ic < m)%nat -> (ord ic < n)%nat) ->
  sumn n (fun j => sumn m (fun ic => dl j (ord ic) * N ic) * d j) = sumn m (fun ic => N ic * d (ord ic)).
Proof.
  intros H. rewrite (sumn_ext n _ (fun j => sumn m (fun ic => dl j (ord ic) * (N ic * d j)))) by (intros; rewrite <- sumn_scal_r; apply sumn_ext; intros; ring).
  rewrite sumn_swap. apply sumn_ext. intros ic Hic. apply (sumn_dl n (ord ic) (fun j => N ic * d j)). auto.
Qed.
Lemma elem_q_plus f o G q d ip : elem_q f o G (fun a => q a + d a) ip
  = elem_q f o G q ip + (ou_pec o ip*ou_alphaUpw o*d (f_ord f (f_lf f ip)) + (ou_pec o ip*(1 - ou_alphaUpw o) + (1 - ou_pec o ip))*at_face_adv f d ip).
Proof. unfold elem_q, oqUpw. rewrite at_face_adv_plus. ring. Qed.

Theorem C71_elem_scalar_matrix : forall f o G mdot qE, face_ok f ->
  exact_newton (f_npe f) (fun q => scalar_open_elem f o G mdot q qE).
Proof.
  intros f o G mdot qE [Ho Hn].
  apply (row_newton (f_npe f) _ (f_ip f) (f_nn f) (fun ip j => upside (mdot ip) (elem_row f o ip j) 0)
      (fun q ip => upside (mdot ip) (elem_q f o G q ip) (at_face_adv f qE ip))).
  - intros. apply scalar_open_elem_eff.
  - intros q d ip Hip. destruct (Hn ip Hip) as [Hl E].
    assert (P : sumn (f_npe f) (fun j => elem_row f o ip j * d j)
        = ou_pec o ip*ou_alphaUpw o*d (f_ord f (f_lf f ip)) + (ou_pec o ip*(1 - ou_alphaUpw o) + (1 - ou_pec o ip))*at_face_adv f d ip).
    { unfold elem_row. rewrite (sumn_ext _ _ (fun j => dl j (f_nn f ip) * (ou_pec o ip*ou_alphaUpw o*d j)
         + (ou_pec o ip*(1 - ou_alphaUpw o) + (1 - ou_pec o ip))*(sumn (f_npf f) (fun ic => dl j (f_ord f ic) * f_Na f ip ic) * d j))) by (intros; ring).
      rewrite sumn_plus, sumn_dl, sumn_scal, pick_face by (try assumption; rewrite E; auto). rewrite E. reflexivity. }
    unfold upside. destruct (Rlt_dec 0 (mdot ip)).
    + rewrite elem_q_plus. rewrite (sumn_ext _ _ (fun j => mdot ip * (elem_row f o ip j * d j))) by (intros; ring). rewrite sumn_scal, P. ring.
    + rewrite sumn_zero by (intros; ring). ring.
Qed.

(** consistency with mass conservation: a uniform scalar, entrained at the same value, changes by exactly
    the mass residual *)
Theorem C71_edge_uniform_scalar : forall f tau noc c q qE k s s' i, tau <> 0 ->
  (forall ip, (ip < f_npf f)%nat -> q (f_ord f ip) = k /\ qE (f_ord f ip) = k) ->
  eB (scalar_open_edge f (mdot_open_edge f tau noc c) q qE s) i - eB s i
  = k * tau * (eB (continuity_open_edge f tau noc c s') i - eB s' i).
Proof.
  intros f tau noc c q qE k s s' i Ht Hq. rewrite C71_edge_scalar_open.
  rewrite (eff_out _ _ _ _ _ _ i (continuity_open_edge_eff f tau noc c s')), !out_dl.
  replace (k*tau*(_ - _ - _)) with (- (sumn (f_npf f) (fun ip => k*tau*(dl i (f_ord f ip) * (mdot_open_edge f tau noc c ip/tau))))) by (rewrite sumn_scal; ring).
  rewrite Rplus_minus_a || idtac. ring_simplify. f_equal. apply sumn_ext. intros ip Hip. destruct (Hq ip Hip) as [-> ->].
  unfold carried. destruct (Rlt_dec 0 _); field; assumption.
Qed.
Theorem C71_elem_uniform_scalar : forall f o G pen tau c q qE k s s' i, tau <> 0 -> face_ok f ->
  (forall ip, (ip < f_ip f)%nat -> sumn (f_npf f) (f_Na f ip) = 1) -> (forall a j, G a j = 0) ->
  (forall ic, (ic < f_npf f)%nat -> q (f_ord f ic) = k /\ qE (f_ord f ic) = k) ->
  eB (scalar_open_elem f o G (mdot_open_elem f pen tau c) q qE s) i - eB s i
  = k * tau * (eB (continuity_open_elem f pen tau c s') i - eB s' i).
Proof.
  intros f o G pen tau c q qE k s s' i Ht [Ho Hn] HU HG Hq. rewrite elem_open_raw.
  rewrite (eff_out _ _ _ _ _ _ i (continuity_open_elem_eff f pen tau c s')), !out_dl.
  replace (k*tau*(_ - _ - _)) with (- (sumn (f_ip f) (fun ip => k*tau*(dl i (f_nn f ip) * (mdot_open_elem f pen tau c ip/tau))))) by (rewrite sumn_scal; ring).
  ring_simplify. f_equal. apply sumn_ext. intros ip Hip. destruct (Hn ip Hip) as [Hl _].
  assert (C : forall v, (forall ic, (ic < f_npf f)%nat -> v (f_ord f ic) = k) -> at_face_adv f v ip = k).
  { intros v Hv. unfold at_face_adv. rewrite (sumn_ext _ _ (fun ic => k * f_Na f ip ic)) by (intros; rewrite Hv by assumption; ring).
    rewrite sumn_scal, HU by assumption. ring. }
  assert (E : elem_q f o G q ip = k).
  { unfold elem_q, oqUpw. rewrite (C q) by (intros; apply Hq; assumption). rewrite upw_sum_zero, sumn_zero by (intros; rewrite HG; ring).
    rewrite (proj1 (Hq _ Hl)). ring. }
  rewrite E, (C qE) by (intros; apply Hq; assumption). unfold carried. destruct (Rlt_dec 0 _); field; assumption.
Qed.

(* ================================================================ momentum advected through an open face *)
Lemma dotp_lin d n a b c e : dotp d n (fun i => c * a i + e * b i) = c * dotp d n a + e * dotp d n b.
Proof. unfold dotp. rewrite <- !sumn_scal, <- sumn_plus. apply sumn_ext. intros; ring. Qed.
Lemma unit_normal f ip : f_asq f ip <> 0 -> dotp (f_d f) (f_n f ip) (f_n f ip) = 1.
Proof.
  intros H. unfold dotp, f_n. assert (P : 0 < f_asq f ip).
  { assert (0 <= f_asq f ip); [|lra]. unfold f_asq. clear. induction (f_d f); [rewrite sumn_0; lra|]. rewrite sumn_S. nra. }
  assert (Q : f_amag f ip * f_amag f ip = f_asq f ip) by (apply sqrt_sqrt; lra).
  assert (Q0 : f_amag f ip <> 0) by (intros E; rewrite E in Q; lra).
  rewrite (sumn_ext _ _ (fun i => / f_asq f ip * (f_A f ip i * f_A f ip i))) by (intros; rewrite <- Q; field; assumption).
  rewrite sumn_scal. fold (f_asq f ip). field. assumption.
Qed.
Lemma amag_pos f ip : f_asq f ip <> 0 -> 0 < f_amag f ip /\ f_amag f ip * f_amag f ip = f_asq f ip.
Proof.
  intros H. assert (P : 0 < f_asq f ip).
  { assert (0 <= f_asq f ip); [|lra]. unfold f_asq. clear. induction (f_d f); [rewrite sumn_0; lra|]. rewrite sumn_S. nra. }
  split; [apply sqrt_lt_R0; assumption|apply sqrt_sqrt; lra].
Qed.

(** momentum leaving through boundary point ip with the fluid, component i *)
Definition mom_through (f : fe) (row : nat -> nat) (k : esys -> esys) (s : esys) (ip i : nat) : R :=
  - (eB (k s) (row ip * f_d f + i)%nat - eB s (row ip * f_d f + i)%nat).

Lemma row_pick f nn (g : nat -> R) a i : (i < f_d f)%nat ->
  sumn (f_d f) (fun l => - (dl (a*f_d f+i) (nn*f_d f+l) * g l)) = - (dl a nn * g i).
Proof.
  intros Hi. rewrite (sumn_ext _ _ (fun l => dl l i * (- (dl a nn * g l)))).
  - apply (sumn_dl (f_d f) i (fun l => - (dl a nn * g l))). assumption.
  - intros l Hl. rewrite dl_flat by assumption. rewrite (dl_sym i l). ring.
Qed.

(** C71 edge scheme: on inflow the entrained momentum is mdot times a velocity whose normal component is
    mdot/(rho A) plus, if the correction is active, the normal velocity of the mesh, and whose tangential part is that of the
    specified velocity; on outflow it is mdot times the boundary node's velocity. *)
Theorem C71_edge_momentum_entrained : forall f w mdot u ip s, f_asq f ip <> 0 ->
  let nR := f_ord f ip in let d := f_d f in let n := f_n f ip in
  let thru := mom_through f (f_ord f) (mom_open_adv f w mdot u ip) s ip in
  (0 < mdot ip -> forall i, (i < d)%nat -> thru i = mdot ip * u (nR*d+i)%nat) /\
  (mdot ip <= 0 -> exists U : nat -> R,
     (forall i, (i < d)%nat -> thru i = mdot ip * U i) /\
     dotp d n U = (mdot ip + vf_mvc w * vf_rho w nR * dotp d (fun j => vf_mv w (nR*d+j)%nat) (f_A f ip)) / (vf_rho w nR * f_amag f ip) /\
     forall i, (i < d)%nat -> tangential_part d n U i = tangential_part d n (fun j => vf_bc w (nR*d+j)%nat) i).
Proof.
  intros f w mdot u ip s Ha nR d n thru.
  assert (T : forall i, (i < d)%nat -> thru i = edge_adv f w u (mdot ip) ip i).
  { intros i Hi. unfold thru, mom_through. destruct (mom_open_adv_eff f w mdot u ip s) as [_ H]. rewrite H.
    rewrite row_pick by assumption. unfold dl. rewrite Nat.eqb_refl. ring. }
  split.
  - intros Hm i Hi. rewrite T by assumption. unfold edge_adv, upside. destruct (Rlt_dec 0 (mdot ip)); [reflexivity|contradiction].
  - intros Hm. set (ue := uent f w (vf_rho w nR) (edge_mvc f w ip) (mdot ip) ip).
    set (bc := fun j => vf_bc w (nR*d+j)%nat).
    exists (fun i => ue * n i + (bc i - dotp d n bc * n i)).
    assert (NU : dotp d n (fun i => ue * n i + (bc i - dotp d n bc * n i)) = ue).
    { transitivity (dotp d n (fun i => (ue - dotp d n bc) * n i + 1 * bc i)).
      - unfold dotp at 1 3. apply sumn_ext. intros; ring.
      - rewrite dotp_lin. pose proof (unit_normal f ip Ha) as UN. change (dotp d n n = 1) in UN. rewrite UN. ring. }
    split; [|split].
    + intros i Hi. rewrite T by assumption. unfold edge_adv, upside. destruct (Rlt_dec 0 (mdot ip)); [lra|]. reflexivity.
    + rewrite NU. unfold ue, uent, edge_mvc. fold d nR.
      rewrite (sumn_ext d _ (fun j => vf_rho w nR * (vf_mv w (nR*d+j)%nat * f_A f ip j))) by (intros; ring).
      rewrite sumn_scal. unfold dotp, Rdiv. ring.
    + intros i Hi. unfold tangential_part, normal_part. rewrite NU. fold bc. cbv beta. ring.
Qed.

(** free stream: fluid of velocity v everywhere, the boundary moving with the mesh, entrains momentum
    mdot*v, i.e. exactly what the outside fluid brings *)
Theorem C71_edge_free_stream : forall f w mdot u (v : nat -> R) ip s, f_asq f ip <> 0 -> vf_rho w (f_ord f ip) <> 0 ->
  let nR := f_ord f ip in let d := f_d f in
  (forall i, (i < d)%nat -> u (nR*d+i)%nat = v i /\ vf_bc w (nR*d+i)%nat = v i) ->
  mdot ip = sumn d (fun j => vf_rho w nR * (v j - vf_mvc w * vf_mv w (nR*d+j)%nat) * f_A f ip j) ->
  forall i, (i < d)%nat -> mom_through f (f_ord f) (mom_open_adv f w mdot u ip) s ip i = mdot ip * v i.
Proof.
  intros f w mdot u v ip s Ha Hr nR d Hv Hm i Hi. destruct (amag_pos f ip Ha) as [P1 P2].
  unfold mom_through. destruct (mom_open_adv_eff f w mdot u ip s) as [_ H]. rewrite H.
  rewrite row_pick by assumption. unfold dl. rewrite Nat.eqb_refl. unfold edge_adv, upside.
  fold nR d. destruct (Rlt_dec 0 (mdot ip)) as [L|L].
  - destruct (Hv i Hi) as [-> _]. ring.
  - destruct (Hv i Hi) as [_ ->].
    assert (E : uent f w (vf_rho w nR) (edge_mvc f w ip) (mdot ip) ip = edge_bcn f w ip).
    { unfold uent, edge_mvc, edge_bcn. fold nR d. rewrite Hm.
      rewrite (sumn_ext d (fun i0 => f_n f ip i0 * vf_bc w (nR*d+i0)%nat) (fun j => / f_amag f ip * (v j * f_A f ip j))).
      2:{ intros j Hj. destruct (Hv j Hj) as [_ ->]. unfold f_n. field. lra. }
      rewrite (sumn_ext d (fun j => vf_rho w nR * (_ - _) * _) (fun j => vf_rho w nR * (v j * f_A f ip j) + (- vf_rho w nR * vf_mvc w) * (vf_mv w (nR*d+j)%nat * f_A f ip j))) by (intros; ring).
      rewrite (sumn_ext d (fun j => vf_rho w nR * vf_mv w (nR*d+j)%nat * f_A f ip j) (fun j => vf_rho w nR * (vf_mv w (nR*d+j)%nat * f_A f ip j))) by (intros; ring).
      rewrite sumn_plus, !sumn_scal. field. split; [lra|exact Hr]. }
    rewrite E. ring.
Qed.

(** the same for the element scheme *)
Theorem C71_elem_momentum_entrained : forall f o w mdot u ip s, face_ok f -> (ip < f_ip f)%nat -> f_asq f ip <> 0 ->
  let nR := f_nn f ip in let d := f_d f in let n := f_n f ip in
  let thru := mom_through f (f_nn f) (mom_open_adv_elem f o w mdot u ip) s ip in
  let rhoB := sumn (f_npf f) (fun ic => f_N f ip ic * vf_rho w (f_ord f ic)) in
  let rhoV j := sumn (f_npf f) (fun ic => f_N f ip ic * vf_rho w (f_ord f ic) * vf_mv w (f_ord f ic * d + j)%nat) in
  (0 < mdot ip -> forall i, (i < d)%nat ->
     thru i = mdot ip * leaving_value f o (fun a j => vf_G w a i j) (fun a => u (a*d+i)%nat) ip) /\
  (mdot ip <= 0 -> exists U : nat -> R,
     (forall i, (i < d)%nat -> thru i = mdot ip * U i) /\
     dotp d n U = (mdot ip + vf_mvc w * dotp d rhoV (f_A f ip)) / (rhoB * f_amag f ip) /\
     forall i, (i < d)%nat -> tangential_part d n U i = tangential_part d n (fun j => face_avg f (fun a => vf_bc w (a*d+j)%nat) ip) i).
Proof.
  intros f o w mdot u ip s Hf Hip Ha nR d n thru rhoB rhoV.
  assert (T : forall i, (i < d)%nat -> thru i = elem_adv f o w u (mdot ip) ip i).
  { intros i Hi. unfold thru, mom_through. destruct (mom_open_adv_elem_eff f o w mdot u ip s) as [_ H]. rewrite H.
    rewrite row_pick by assumption. unfold dl. rewrite Nat.eqb_refl. ring. }
  split.
  - intros Hm i Hi. rewrite T by assumption. unfold elem_adv, upside. destruct (Rlt_dec 0 (mdot ip)); [|contradiction].
    f_equal. rewrite (leaving_elem f o _ _ ip Hf Hip). destruct Hf as [_ Hn]. destruct (Hn ip Hip) as [_ E].
    unfold elem_u, elem_q, oqUpw. cbv zeta. rewrite <- E. fold d. reflexivity.
  - intros Hm. set (ue := uent f w (elem_rhoB f w ip) (elem_mvc f w ip) (mdot ip) ip).
    set (bc := fun j => elem_bc f w ip j).
    assert (DS : sumn d (fun j => bc j * n j) = dotp d n bc) by (unfold dotp; apply sumn_ext; intros; ring).
    exists (fun i => ue * n i + (bc i - dotp d n bc * n i)).
    assert (NU : dotp d n (fun i => ue * n i + (bc i - dotp d n bc * n i)) = ue).
    { transitivity (dotp d n (fun i => (ue - dotp d n bc) * n i + 1 * bc i)).
      - unfold dotp at 1 3. apply sumn_ext. intros; ring.
      - rewrite dotp_lin. pose proof (unit_normal f ip Ha) as UN. change (dotp d n n = 1) in UN. rewrite UN. ring. }
    split; [|split].
    + intros i Hi. rewrite T by assumption. unfold elem_adv, upside. destruct (Rlt_dec 0 (mdot ip)); [lra|].
      rewrite <- DS. reflexivity.
    + rewrite NU. unfold ue, uent, elem_mvc, elem_rhoB, at_face. fold rhoB. unfold dotp, rhoV, d, Rdiv. ring.
    + intros i Hi. unfold tangential_part, normal_part. rewrite NU. cbv beta.
      change (fun j => face_avg f (fun a => vf_bc w (a*d+j)%nat) ip) with bc.
      change (face_avg f (fun a => vf_bc w (a*d+i)%nat) ip) with (bc i). ring.
Qed.
