(** Property theorems for the edge-based operators (C26-C29, C38-C40). *)
Require Import Reals List Bool Lra Lia Psatz Arith.
From Verif Require Import RUtil Edge_Model Edge_Proofs.
Import ListNotations.
Open Scope R_scope.

(* ================================================================== C26 *)
(** C26. For every mesh (list of edges), every field and every option set: the assembled residual
    sums to zero over the nodes and every column of the assembled matrix sums to zero. *)
Theorem C26_scalar_edge_conservative :
  forall o f mdot es nodes, covers nodes es ->
  lsum (assembled_rhs (scalar_edge o f mdot) es) nodes = 0 /\
  forall j, lsum (fun i => assembled_lhs (scalar_edge o f mdot) es i j) nodes = 0.
Proof.
  intros o f mdot es nodes Hc. split; [|intros j].
  - apply assembled_conservative; auto. intros e _. unfold scalar_edge; cbn. ring.
  - apply assembled_colsum; auto. intros e _. unfold scalar_edge; cbn. split; ring.
Qed.

(* ================================================================== C27 *)
Definition with_q (f : sc_fields) (q : nat -> R) : sc_fields :=
  mkFields (f_x f) (f_dqdx f) (f_vrtm f) q (f_rho f) (f_diff f).

(** C27. Without limiter, the matrix is the exact derivative of the residual at fixed gradients:
    changing the solution by [d] changes the residual of node i by minus (matrix * d)_i, on every
    mesh. *)
Theorem C27_matrix_is_exact_linearisation :
  forall o f mdot es nodes d i, covers nodes es -> o_limiter o = false ->
  assembled_rhs (scalar_edge o (with_q f (fun k => f_q f k + d k)) mdot) es i
  = assembled_rhs (scalar_edge o f mdot) es i
    - lsum (fun j => assembled_lhs (scalar_edge o f mdot) es i j * d j) nodes.
Proof.
  intros o f mdot es nodes d i Hc Hl.
  rewrite assembled_matvec by auto. rewrite !rhs_lsum.
  set (g := with_q f (fun k => f_q f k + d k)).
  rewrite (lsum_ext (fun e => add_rhs (scalar_edge o g mdot e) e i)
    (fun e => add_rhs (scalar_edge o f mdot e) e i + (-1) *
        ((if Nat.eqb (eL e) i then s00 (scalar_edge o f mdot e) * d (eL e) + s01 (scalar_edge o f mdot e) * d (eR e) else 0)
       + (if Nat.eqb (eR e) i then s10 (scalar_edge o f mdot e) * d (eL e) + s11 (scalar_edge o f mdot e) * d (eR e) else 0)))).
  { rewrite lsum_plus, lsum_scal. ring. }
  intros e _.
  assert (E : sr0 (scalar_edge o g mdot e) = sr0 (scalar_edge o f mdot e)
                - (s00 (scalar_edge o f mdot e) * d (eL e) + s01 (scalar_edge o f mdot e) * d (eR e)) /\
              sr1 (scalar_edge o g mdot e) = sr1 (scalar_edge o f mdot e)
                - (s10 (scalar_edge o f mdot e) * d (eL e) + s11 (scalar_edge o f mdot e) * d (eR e))).
  { unfold scalar_edge; cbv zeta; cbn [sr0 sr1 s00 s01 s10 s11].
    unfold e_face, e_diffFlux, e_qIpL, e_qIpR, e_limit. rewrite Hl. cbv zeta.
    change (pecfac_of o g e) with (pecfac_of o f e).
    change (e_lhsfac o g e) with (e_lhsfac o f e).
    change (e_nonorth (o_ndim o) g e) with (e_nonorth (o_ndim o) f e).
    change (f_x g) with (f_x f). change (f_dqdx g) with (f_dqdx f).
    change (f_q g (eL e)) with (f_q f (eL e) + d (eL e)). change (f_q g (eR e)) with (f_q f (eR e) + d (eR e)).
    set (m := mdot e). set (pf := pecfac_of o f e). set (K := e_lhsfac o f e).
    destruct (Rlt_dec 0 m) as [Hm|Hm].
    - rewrite (Rabs_right m) by lra. split; field.
    - rewrite (Rabs_left1 m) by lra. split; field. }
  destruct E as [E0 E1]. unfold add_rhs. rewrite E0, E1.
  destruct (Nat.eqb (eL e) i), (Nat.eqb (eR e) i); ring.
Qed.

(** C27. So an exact solution of the linear system annihilates the (frozen-gradient) residual. *)
Theorem C27_exact_solve_zeroes_residual :
  forall o f mdot es nodes d i, covers nodes es -> o_limiter o = false ->
  lsum (fun j => assembled_lhs (scalar_edge o f mdot) es i j * d j) nodes = assembled_rhs (scalar_edge o f mdot) es i ->
  assembled_rhs (scalar_edge o (with_q f (fun k => f_q f k + d k)) mdot) es i = 0.
Proof. intros. rewrite (C27_matrix_is_exact_linearisation o f mdot es nodes d i); auto. rewrite H1. ring. Qed.

(** C27. Constant fields: no diffusion, advective flux = mass flux times the constant. *)
Theorem C27_constant_field :
  forall o f mdot e c, (forall k, f_q f k = c) -> (forall k j, f_dqdx f k j = 0) ->
  e_diffFlux o f e = 0 /\ sr0 (scalar_edge o f mdot e) = - (mdot e * c) /\ sr1 (scalar_edge o f mdot e) = mdot e * c.
Proof.
  intros o f mdot e c Hq Hg.
  assert (N : e_nonorth (o_ndim o) f e = 0).
  { unfold e_nonorth. rewrite (sumn_ext _ _ (fun _ => 0 * 0)); [rewrite sumn_scal; ring|]. intros. rewrite !Hg. ring. }
  assert (D : forall k, e_dq (o_ndim o) (f_x f) (f_dqdx f) e k = 0).
  { intros k. unfold e_dq. rewrite (sumn_ext _ _ (fun _ => 0 * 0)); [rewrite sumn_scal; ring|]. intros. rewrite !Hg. ring. }
  assert (F : e_diffFlux o f e = 0).
  { unfold e_diffFlux. rewrite N, !Hq. ring. }
  split; [exact F|]. unfold scalar_edge; cbv zeta; cbn [sr0 sr1]. rewrite F.
  unfold e_face, e_qIpL, e_qIpR. cbv zeta. rewrite !D, !Hq. destruct (Rlt_dec 0 (mdot e)); split; field.
Qed.

(** C27. Linear fields q = a + g.x with exact nodal gradients: with the non-orthogonal correction
    the diffusive flux is exactly -visc * g.A for every edge orientation (non-orthogonal meshes
    included); with full upwind extrapolation and no limiter the face value is exactly the value at
    the edge midpoint, for every blending option and flow direction. *)
Theorem C27_linear_field_exact :
  forall o f mdot e a (g : vec),
  (forall k, f_q f k = a + sumn (o_ndim o) (fun j => g j * f_x f k j)) ->
  (forall k j, f_dqdx f k j = g j) ->
  e_axdx (o_ndim o) (f_x f) e <> 0 ->
  (o_noc o = true -> e_diffFlux o f e = - visc_ip (f_diff f) e * sumn (o_ndim o) (fun j => g j * eA e j)) /\
  (o_limiter o = false -> o_hoUpwind o = 1 ->
     e_face o f mdot e = a + sumn (o_ndim o) (fun j => g j * ((1/2)*(f_x f (eL e) j + f_x f (eR e) j)))).
Proof.
  intros o f mdot e a g Hq Hg Hax.
  set (n := o_ndim o) in *.
  assert (DQ : f_q f (eR e) - f_q f (eL e) = sumn n (fun j => g j * dxj (f_x f) e j)).
  { rewrite !Hq. unfold dxj. rewrite (sumn_ext n (fun j => g j * (_ - _)) (fun j => g j * f_x f (eR e) j + (-1) * (g j * f_x f (eL e) j))) by (intros; ring).
    rewrite sumn_plus, sumn_scal. ring. }
  split.
  - intros Hn. unfold e_diffFlux, e_lhsfac, e_nonorth. rewrite Hn. fold n. rewrite DQ.
    set (asq := e_asq n e). set (ax := e_axdx n (f_x f) e) in *.
    match goal with |- ?L + sumn n ?F * 1 = _ => assert (NN : sumn n F = sumn n (fun j => (- visc_ip (f_diff f) e) * (g j * eA e j) + (visc_ip (f_diff f) e * asq * (1/ax)) * (g j * dxj (f_x f) e j))) end.
    { apply sumn_ext. intros j _. rewrite !Hg. field. auto. }
    rewrite NN, sumn_plus, !sumn_scal. field. auto.
  - intros Hl Hh. unfold e_face, e_qIpL, e_qIpR, e_limit, e_dq. rewrite Hl, Hh. cbv zeta. fold n.
    assert (E : forall k, sumn n (fun j => 1/2 * dxj (f_x f) e j * f_dqdx f k j) = (1/2)*(f_q f (eR e) - f_q f (eL e))).
    { intros k. rewrite DQ, <- sumn_scal. apply sumn_ext. intros. rewrite Hg. ring. }
    rewrite !E.
    assert (M : a + sumn n (fun j => g j * ((1/2)*(f_x f (eL e) j + f_x f (eR e) j))) = (1/2)*(f_q f (eL e) + f_q f (eR e))).
    { rewrite !Hq. rewrite (sumn_ext n (fun j => g j * (_ * _)) (fun j => (1/2)*(g j * f_x f (eL e) j) + (1/2)*(g j * f_x f (eR e) j))) by (intros; field).
      rewrite sumn_plus, !sumn_scal. field. }
    rewrite M. destruct (Rlt_dec 0 mdot); field.
Qed.

(** C27. Full upwinding (Peclet weight 1, alphaUpw 1): non-positive off-diagonals and non-negative
    diagonals on every edge with non-negative viscosity and A.dx > 0. *)
Theorem C27_upwind_matrix_signs :
  forall o f mdot e, pecfac_of o f e = 1 -> o_alphaUpw o = 1 ->
  0 <= f_diff f (eL e) -> 0 <= f_diff f (eR e) -> 0 < e_axdx (o_ndim o) (f_x f) e ->
  let s := scalar_edge o f mdot e in s01 s <= 0 /\ s10 s <= 0 /\ 0 <= s00 s /\ 0 <= s11 s.
Proof.
  intros o f mdot e Hp Ha H1 H2 Hax. unfold scalar_edge; cbv zeta; cbn [s00 s01 s10 s11].
  rewrite Hp, Ha.
  assert (L : e_lhsfac o f e <= 0).
  { unfold e_lhsfac. assert (0 <= visc_ip (f_diff f) e) by (unfold visc_ip; lra).
    assert (0 <= e_asq (o_ndim o) e) by (apply sumn_nonneg; intros; apply Rle_0_sqr).
    assert (0 <= 1 / e_axdx (o_ndim o) (f_x f) e) by (apply Rlt_le, Rdiv_lt_0_compat; lra).
    assert (0 <= visc_ip (f_diff f) e * e_asq (o_ndim o) e * (1 / e_axdx (o_ndim o) (f_x f) e)) by (apply Rmult_le_pos; [apply Rmult_le_pos|]; assumption). lra. }
  unfold Rabs; destruct (Rcase_abs (mdot e)); lra.
Qed.

(* ================================================================== C28 *)
Theorem C28_limiter_range_and_extrema :
  forall dqm dqp small, 0 < small ->
  0 <= van_leer dqm dqp small <= 1 /\ (dqm*dqp <= 0 -> van_leer dqm dqp small = 0) /\
  van_leer dqm dqp small = van_leer dqp dqm small.
Proof.
  intros a b s Hs. split; [now apply van_leer_range|]. split; [apply van_leer_opposite|].
  unfold van_leer. now rewrite (Rmult_comm a b), (Rplus_comm a b).
Qed.

(** C28. Equal slopes: the limiter is within small/(4 d^2) of one. *)
Theorem C28_limiter_near_one_for_equal_slopes :
  forall d small, 0 < small -> d <> 0 -> 1 - small/(4*(d*d)) <= van_leer d d small <= 1.
Proof.
  intros d s Hs Hd. split; [|now apply van_leer_range].
  assert (0 < d*d) by (apply Rlt_0_sqr; auto).
  rewrite van_leer_same by lra.
  replace ((d+d)*(d+d)+s) with (4*(d*d)+s) by ring.
  apply Rle_div_r; [lra|].
  replace ((1 - s/(4*(d*d))) * (4*(d*d)+s)) with (4*(d*d) - s*s/(4*(d*d))) by (field; auto).
  assert (0 < s*s/(4*(d*d))) by (apply Rdiv_lt_0_compat; nra). lra.
Qed.

(** C28. With the limiter on and all blending factors in [0,1], the convected face value never
    leaves the interval spanned by the two nodal values, whatever the nodal gradients. *)
Theorem C28_limited_face_value_bounded :
  forall o f mdot e, o_limiter o = true -> 0 < o_small o ->
  0 <= o_hoUpwind o <= 1 -> 0 <= o_alpha o <= 1 -> 0 <= o_alphaUpw o <= 1 -> 0 <= pecfac_of o f e <= 1 ->
  Rmin (f_q f (eL e)) (f_q f (eR e)) <= e_face o f mdot e <= Rmax (f_q f (eL e)) (f_q f (eR e)).
Proof.
  intros o f mdot e Hl Hs Hh Ha Hu Hp.
  set (lo := Rmin (f_q f (eL e)) (f_q f (eR e))). set (hi := Rmax (f_q f (eL e)) (f_q f (eR e))).
  assert (B : lo <= f_q f (eL e) <= hi /\ lo <= f_q f (eR e) <= hi).
  { unfold lo, hi. split; split; auto using Rmin_l, Rmin_r, Rmax_l, Rmax_r. }
  assert (INC : forall dqs dq, (0 <= dqs * e_limit o dqs dq <= dq) \/ (dq <= dqs * e_limit o dqs dq <= 0)).
  { intros dqs dq. unfold e_limit. rewrite Hl.
    pose proof (limited_increment (2*2*dqs - dq) dq (o_small o) Hs) as H. cbv zeta in H.
    replace ((2*2*dqs - dq + dq)/4) with dqs in H by field. exact H. }
  assert (QL : lo <= e_qIpL o f e <= hi).
  { unfold e_qIpL. cbv zeta. set (dqL := e_dq _ _ _ _ _). set (L := e_limit _ _ _).
    pose proof (INC dqL (f_q f (eR e) - f_q f (eL e))) as I. fold L in I.
    replace (dqL * o_hoUpwind o * L) with (o_hoUpwind o * (dqL * L)) by ring.
    set (t := dqL * L) in *. destruct I; split; nra. }
  assert (QR : lo <= e_qIpR o f e <= hi).
  { unfold e_qIpR. cbv zeta. set (dqR := e_dq _ _ _ _ _). set (L := e_limit _ _ _).
    pose proof (INC dqR (f_q f (eR e) - f_q f (eL e))) as I. fold L in I.
    replace (dqR * o_hoUpwind o * L) with (o_hoUpwind o * (dqR * L)) by ring.
    set (t := dqR * L) in *. destruct I; split; nra. }
  assert (CONV : forall w x y, 0 <= w <= 1 -> lo <= x <= hi -> lo <= y <= hi -> lo <= w*x + (1-w)*y <= hi).
  { intros w x y Hw Hx Hy. split; nra. }
  assert (MID : forall x y, lo <= x <= hi -> lo <= y <= hi -> lo <= 1/2*(x+y) <= hi) by (intros; lra).
  unfold e_face. cbv zeta. apply CONV; auto.
  - destruct (Rlt_dec 0 mdot); apply CONV; auto; apply MID; tauto.
  - apply MID; apply CONV; auto; apply MID; tauto.
Qed.

(* ================================================================== C29 *)
Theorem C29_classic_peclet_weight :
  forall hf pe, 0 <= classic_peclet hf pe < 1 /\ classic_peclet hf 0 = 0 /\
  (0 <= hf -> forall pe', 0 <= pe <= pe' -> classic_peclet hf pe <= classic_peclet hf pe').
Proof.
  intros hf pe. unfold classic_peclet. cbv zeta.
  assert (S : 0 <= (hf*pe)*(hf*pe)) by apply Rle_0_sqr.
  split; [|split].
  - split; [apply Rle_div_r|apply Rlt_div_l]; lra.
  - rewrite Rmult_0_r. unfold Rdiv. ring.
  - intros Hh pe' Hpe. assert (S' : 0 <= (hf*pe')*(hf*pe')) by apply Rle_0_sqr.
    assert (M : hf*pe <= hf*pe') by (apply Rmult_le_compat_l; lra).
    assert (M0 : 0 <= hf*pe) by (apply Rmult_le_pos; lra).
    assert (MM : (hf*pe)*(hf*pe) <= (hf*pe')*(hf*pe')) by (apply Rmult_le_compat; lra).
    set (x := hf*pe*(hf*pe)) in *. set (y := hf*pe'*(hf*pe')) in *.
    apply Rle_div_l; [lra|]. replace (y/(5+y)*(5+x)) with (y*(5+x)/(5+y)) by (field; lra).
    apply Rle_div_r; [lra|]. lra.
Qed.

Lemma tanh_exp x : tanh x = 1 - 2/(exp (2*x) + 1).
Proof.
  unfold tanh, sinh, cosh. assert (0 < exp x) by apply exp_pos. 
  assert (E : exp (-x) = /exp x) by apply exp_Ropp. rewrite E.
  assert (E2 : exp (2*x) = exp x * exp x) by (rewrite <- exp_plus; f_equal; ring). rewrite E2.
  assert (0 < exp x * exp x) by (apply Rmult_lt_0_compat; auto). field. repeat split; lra.
Qed.
Theorem C29_tanh_peclet_weight :
  forall c1 c2 x, 0 < c2 -> 0 < tanh_peclet c1 c2 x < 1 /\
  forall x', x <= x' -> tanh_peclet c1 c2 x <= tanh_peclet c1 c2 x'.
Proof.
  intros c1 c2 x Hc. unfold tanh_peclet. rewrite tanh_exp.
  assert (P : forall z, 0 < exp z) by apply exp_pos.
  split.
  - pose proof (P (2*((x-c1)/c2))).
    assert (0 < 2/(exp (2*((x-c1)/c2)) + 1) < 2). { split; [apply Rdiv_lt_0_compat; lra|apply Rlt_div_l; lra]. } lra.
  - intros x' Hx. rewrite tanh_exp.
    assert (L : (x-c1)/c2 <= (x'-c1)/c2). { apply Rmult_le_compat_r; [apply Rlt_le, Rinv_0_lt_compat; lra|lra]. }
    assert (M : exp (2*((x-c1)/c2)) <= exp (2*((x'-c1)/c2))).
    { destruct L as [L|L]; [apply Rlt_le, exp_increasing; lra|rewrite L; lra]. }
    pose proof (P (2*((x-c1)/c2))). pose proof (P (2*((x'-c1)/c2))).
    assert (2/(exp (2*((x'-c1)/c2))+1) <= 2/(exp (2*((x-c1)/c2))+1)).
    { apply Rmult_le_compat_l; [lra|]. apply Rinv_le_contravar; lra. }
    lra.
Qed.
(** C29. The weight used by the edge operator: the Peclet argument is non-negative for non-negative
    diffusivities and positive densities, so with the classic function it is in [0,1). *)
Theorem C29_edge_blending_weight_in_range :
  forall o f e hf, o_peclet o = classic_peclet hf -> 0 <= pecfac_of o f e < 1.
Proof. intros o f e hf H. unfold pecfac_of. rewrite H. apply C29_classic_peclet_weight. Qed.

(* ================================================================== C38 nodal gradient *)
(** control volume of node i is closed: outward edge areas and boundary areas sum to zero *)
Definition closed_cv (es : list edge) (bs : list bip) (i : nat) : Prop :=
  forall j, lsum (fun e => (if Nat.eqb (eL e) i then eA e j else 0) - (if Nat.eqb (eR e) i then eA e j else 0)) es
          + lsum (fun b => if Nat.eqb (b_nn b) i then b_A b j else 0) bs = 0.
Definition partition_of_unity (b : bip) : Prop := lsum fst (b_N b) = 1.

Lemma nodal_grad_lsum vol q es bs i j :
  nodal_grad vol q es bs i j = lsum (fun e => grad_edge vol q e i j) es + lsum (fun b => grad_bip vol q b i j) bs.
Proof. unfold nodal_grad. rewrite fold_add, !fold_add_map. reflexivity. Qed.

Theorem C38_constant_field_has_zero_gradient :
  forall vol q es bs i j c, (forall k, q k = c) -> closed_cv es bs i ->
  (forall b, In b bs -> partition_of_unity b) ->
  nodal_grad vol q es bs i j = 0.
Proof.
  intros vol q es bs i j c Hq Hcl Hpu. rewrite nodal_grad_lsum.
  rewrite (lsum_ext (fun e => grad_edge vol q e i j)
     (fun e => (c * (1/vol i)) * ((if Nat.eqb (eL e) i then eA e j else 0) - (if Nat.eqb (eR e) i then eA e j else 0)))).
  2:{ intros e _. unfold grad_edge. rewrite !Hq. cbv zeta.
      replace (1/2*(c+c)) with c by field.
      destruct (Nat.eqb_spec (eL e) i) as [->|], (Nat.eqb_spec (eR e) i) as [->|]; unfold Rdiv; ring. }
  rewrite (lsum_ext (fun b => grad_bip vol q b i j)
     (fun b => (c * (1/vol i)) * (if Nat.eqb (b_nn b) i then b_A b j else 0))).
  2:{ intros b Hb. unfold grad_bip. rewrite fold_add_map.
      assert (E : fold_right Rplus 0 (map (fun y : R * nat => fst y * q (snd y)) (b_N b)) = c).
      { change (lsum (fun y : R * nat => fst y * q (snd y)) (b_N b) = c).
        rewrite (lsum_ext _ (fun y => c * fst y)) by (intros; rewrite Hq; ring).
        rewrite lsum_scal. rewrite (Hpu b Hb). ring. }
      rewrite E. destruct (Nat.eqb_spec (b_nn b) i) as [->|]; ring. }
  rewrite !lsum_scal, <- Rmult_plus_distr_l. rewrite (Hcl j). ring.
Qed.

(** C38. Discrete Gauss theorem: the volume-weighted sum of the nodal gradients is the boundary
    integral of the interpolated field; interior edges cancel. *)
Theorem C38_discrete_gauss :
  forall vol q es bs nodes j, covers nodes es -> (forall b, In b bs -> In (b_nn b) nodes) ->
  (forall k, In k nodes -> vol k <> 0) ->
  lsum (fun i => vol i * nodal_grad vol q es bs i j) nodes
  = lsum (fun b => lsum (fun p => fst p * q (snd p)) (b_N b) * b_A b j) bs.
Proof.
  intros vol q es bs nodes j [Hn Hc] Hb Hv.
  rewrite (lsum_ext _ (fun i => lsum (fun e => vol i * grad_edge vol q e i j) es + lsum (fun b => vol i * grad_bip vol q b i j) bs))
    by (intros; rewrite nodal_grad_lsum, !lsum_scal; ring).
  rewrite lsum_plus, (lsum_comm (fun i e => vol i * grad_edge vol q e i j)), (lsum_comm (fun i b => vol i * grad_bip vol q b i j)).
  rewrite lsum_zero.
  2:{ intros e He. destruct (Hc e He) as [HL HR].
      set (qa := eA e j * (1/2*(q (eL e) + q (eR e)))).
      rewrite (lsum_ext _ (fun i => (if Nat.eqb (eL e) i then qa else 0) + (-1) * (if Nat.eqb (eR e) i then qa else 0))).
      - rewrite lsum_plus, lsum_scal, !lsum_indicator; auto. ring.
      - intros i Hi. unfold grad_edge. cbv zeta. fold qa. specialize (Hv i Hi).
        destruct (Nat.eqb_spec (eL e) i) as [->|], (Nat.eqb_spec (eR e) i) as [->|]; try (field; auto); ring. }
  rewrite Rplus_0_l. apply lsum_ext. intros b Hbb.
  set (Q := lsum (fun p => fst p * q (snd p)) (b_N b)).
  rewrite (lsum_ext _ (fun i => if Nat.eqb (b_nn b) i then Q * b_A b j else 0)).
  - apply lsum_indicator; auto.
  - intros i Hi. unfold grad_bip. rewrite fold_add_map. change (fold_right Rplus 0 (map _ (b_N b))) with Q.
    specialize (Hv i Hi). destruct (Nat.eqb_spec (b_nn b) i) as [->|]; [field; auto|ring].
Qed.

(* ================================================================== C39 mass conservation *)
Lemma mdot_sum n tau noc c e :
  mdot_edge n tau noc c e =
  - tau*(c_p c (eR e) - c_p c (eL e))*e_asq n e*(1/e_axdx n (c_x c) e) +
  sumn n (fun j => ((1/2)*(c_rho c (eR e)*c_vrtm c (eR e) j + c_rho c (eL e)*c_vrtm c (eL e) j) + tau*((1/2)*(c_Gp c (eR e) j + c_Gp c (eL e) j)))*eA e j
     - tau*(eA e j - e_asq n e*(1/e_axdx n (c_x c) e)*dxj (c_x c) e j)*((1/2)*(c_Gp c (eR e) j + c_Gp c (eL e) j))*noc).
Proof. unfold mdot_edge. cbv zeta. apply fold_seq_sumn. Qed.

(** net mass leaving node i through the edges *)
Definition net_outflow (mdot : edge -> R) (es : list edge) (i : nat) : R :=
  lsum (fun e => (if Nat.eqb (eL e) i then mdot e else 0) - (if Nat.eqb (eR e) i then mdot e else 0)) es.

(** C39. Pressure projection: let [src] be any nodal mass source not depending on the pressure
    (inflow, density time term). If the pressure increment solves the assembled equation of node i
    exactly, the mass flow rates recomputed with the updated pressure balance the source at node i
    exactly - on every mesh, orthogonal or not. *)
Theorem C39_mass_balance_after_pressure_solve :
  forall n tau noc c es nodes src dp i, covers nodes es -> tau <> 0 ->
  lsum (fun j => assembled_lhs (continuity_edge n tau noc c) es i j * dp j) nodes
     = assembled_rhs (continuity_edge n tau noc c) es i - src i / tau ->
  net_outflow (mdot_edge n tau noc (update_pressure c dp)) es i + src i = 0.
Proof.
  intros n tau noc c es nodes src dp i Hc Ht H.
  rewrite assembled_matvec, rhs_lsum in H by auto.
  unfold net_outflow.
  assert (UPD : forall e, mdot_edge n tau noc (update_pressure c dp) e
     = mdot_edge n tau noc c e - tau * (dp (eR e) - dp (eL e)) * e_asq n e * (1/e_axdx n (c_x c) e)).
  { intros e. rewrite !mdot_sum. unfold update_pressure. cbn. ring. }
  rewrite (lsum_ext _ (fun e =>
     (- tau) * (add_rhs (continuity_edge n tau noc c e) e i) +
     tau * ((if Nat.eqb (eL e) i then s00 (continuity_edge n tau noc c e) * dp (eL e) + s01 (continuity_edge n tau noc c e) * dp (eR e) else 0)
                 + (if Nat.eqb (eR e) i then s10 (continuity_edge n tau noc c e) * dp (eL e) + s11 (continuity_edge n tau noc c e) * dp (eR e) else 0)))).
  { rewrite lsum_plus, !lsum_scal, H. field. auto. }
  intros e _. rewrite UPD. unfold add_rhs, continuity_edge. cbv zeta. cbn [sr0 sr1 s00 s01 s10 s11].
  fold (mdot_edge n tau noc c e).
  set (K := e_asq n e * (1/e_axdx n (c_x c) e)). 
  change (fold_left _ (seq 0 n) _) with (mdot_edge n tau noc c e).
  set (M := mdot_edge n tau noc c e).
  replace (tau * (dp (eR e) - dp (eL e)) * e_asq n e * (1 / e_axdx n (c_x c) e)) with (tau * (dp (eR e) - dp (eL e)) * K) by (unfold K; ring).
  replace (- e_asq n e * (1 / e_axdx n (c_x c) e)) with (- K) by (unfold K; ring).
  destruct (Nat.eqb (eL e) i), (Nat.eqb (eR e) i); field; auto.
Qed.

(** C39. The pressure matrix is symmetric, has the constants in its kernel and is positive
    semi-definite when A.dx > 0 on every edge: x^T L x is a sum of squares. *)
Theorem C39_pressure_matrix_spsd :
  forall n tau noc c es nodes, covers nodes es ->
  (forall e, In e es -> 0 < e_axdx n (c_x c) e) ->
  let L := assembled_lhs (continuity_edge n tau noc c) es in
  (forall i j, L i j = L j i) /\
  (forall i, lsum (fun j => L i j) nodes = 0) /\
  (forall x, 0 <= lsum (fun i => x i * lsum (fun j => L i j * x j) nodes) nodes).
Proof.
  intros n tau noc c es nodes Hcov Hax L. pose proof Hcov as [Hn Hc]. split; [|split].
  - intros i j. unfold L. rewrite !lhs_lsum. apply lsum_ext. intros e _. unfold add_lhs, continuity_edge. cbn.
    destruct (Nat.eqb (eL e) i), (Nat.eqb (eR e) i), (Nat.eqb (eL e) j), (Nat.eqb (eR e) j); simpl; ring.
  - intros i. rewrite (lsum_ext _ (fun j => L i j * 1)) by (intros; ring). unfold L.
    rewrite (assembled_matvec _ es nodes (fun _ => 1)) by auto. apply lsum_zero. intros e _. unfold continuity_edge; cbn.
    destruct (Nat.eqb (eL e) i), (Nat.eqb (eR e) i); ring.
  - intros x.
    rewrite (lsum_ext _ (fun i => lsum (fun e => x i * ((if Nat.eqb (eL e) i then s00 (continuity_edge n tau noc c e) * x (eL e) + s01 (continuity_edge n tau noc c e) * x (eR e) else 0)
                 + (if Nat.eqb (eR e) i then s10 (continuity_edge n tau noc c e) * x (eL e) + s11 (continuity_edge n tau noc c e) * x (eR e) else 0))) es)).
    2:{ intros i _. unfold L. rewrite (assembled_matvec _ es nodes x) by auto. now rewrite lsum_scal. }
    rewrite lsum_comm.
    assert (NN : forall l, (forall e, In e l -> In e es) -> 0 <= lsum (fun e => lsum (fun i => x i * ((if Nat.eqb (eL e) i then s00 (continuity_edge n tau noc c e) * x (eL e) + s01 (continuity_edge n tau noc c e) * x (eR e) else 0)
                 + (if Nat.eqb (eR e) i then s10 (continuity_edge n tau noc c e) * x (eL e) + s11 (continuity_edge n tau noc c e) * x (eR e) else 0))) nodes) l).
    { intros l Hl.
      rewrite (lsum_ext _ (fun e => (e_asq n e * (1/e_axdx n (c_x c) e)) * ((x (eL e) - x (eR e))*(x (eL e) - x (eR e))))).
      - unfold lsum. induction l as [|e l IH]; simpl; [lra|].
        assert (0 <= e_asq n e) by (apply sumn_nonneg; intros; apply Rle_0_sqr).
        assert (0 < 1/e_axdx n (c_x c) e) by (apply Rdiv_lt_0_compat; [lra|apply Hax, Hl; simpl; auto]).
        assert (0 <= e_asq n e * (1/e_axdx n (c_x c) e) * ((x (eL e) - x (eR e))*(x (eL e) - x (eR e)))).
        { apply Rmult_le_pos; [apply Rmult_le_pos; lra|apply Rle_0_sqr]. }
        assert (IH' := IH (fun e' He' => Hl e' (or_intror He'))). lra.
      - intros e He. destruct (Hc e (Hl e He)) as [HL HR]. unfold continuity_edge. cbn [s00 s01 s10 s11]. cbv zeta.
        set (K := 1/e_axdx n (c_x c) e). set (a := e_asq n e).
        rewrite (lsum_ext _ (fun i => (if Nat.eqb (eL e) i then x (eL e) * (- (- a * K) * x (eL e) + (- a * K) * x (eR e)) else 0)
            + (if Nat.eqb (eR e) i then x (eR e) * ((- a * K) * x (eL e) + - (- a * K) * x (eR e)) else 0))).
        + rewrite lsum_plus, !lsum_indicator by auto. ring.
        + intros i Hi. destruct (Nat.eqb_spec (eL e) i) as [->|], (Nat.eqb_spec (eR e) i) as [->|]; ring. }
    apply NN. auto.
Qed.

(** C39. Linear pressure with exact nodal gradients and the non-orthogonal correction: the pressure
    stabilisation vanishes, mdot is the interpolated momentum flux. *)
Theorem C39_no_stabilisation_for_linear_pressure :
  forall n tau c e a (g : vec), e_axdx n (c_x c) e <> 0 ->
  (forall k, c_p c k = a + sumn n (fun j => g j * c_x c k j)) -> (forall k j, c_Gp c k j = g j) ->
  mdot_edge n tau 1 c e = sumn n (fun j => (1/2)*(c_rho c (eR e)*c_vrtm c (eR e) j + c_rho c (eL e)*c_vrtm c (eL e) j) * eA e j).
Proof.
  intros n tau c e a g Hax Hp Hg. rewrite mdot_sum.
  assert (DQ : c_p c (eR e) - c_p c (eL e) = sumn n (fun j => g j * dxj (c_x c) e j)).
  { rewrite !Hp. unfold dxj. rewrite (sumn_ext n (fun j => g j * (_ - _)) (fun j => g j * c_x c (eR e) j + (-1) * (g j * c_x c (eL e) j))) by (intros; ring).
    rewrite sumn_plus, sumn_scal. ring. }
  rewrite DQ. set (K := 1/e_axdx n (c_x c) e). set (q := e_asq n e).
  rewrite (sumn_ext n (fun j => (_ + _) * _ - _) (fun j => (1/2)*(c_rho c (eR e)*c_vrtm c (eR e) j + c_rho c (eL e)*c_vrtm c (eL e) j) * eA e j
      + (tau * q * K) * (g j * dxj (c_x c) e j))).
  - rewrite sumn_plus, sumn_scal. ring.
  - intros j _. rewrite !Hg. field.
Qed.

(** C39. The velocity projection leaves rho*u + tau*Gp unchanged at every projected node, so (without
    the non-orthogonal term, and standard density scaling) mass flow rates recomputed after the
    projection with the new gradient equal those computed before it. *)
Theorem C39_projection_preserves_mass_flow :
  forall n tau c Gnew e, (forall k, c_rho c k <> 0) ->
  let u' := project_velocity tau false (c_rho c) (fun _ => true) (c_vrtm c) (c_Gp c) Gnew in
  mdot_edge n tau 0 (mkCt (c_x c) Gnew u' (c_p c) (c_rho c)) e = mdot_edge n tau 0 c e.
Proof.
  intros n tau c Gnew e Hr u'. rewrite !mdot_sum. cbn [c_p c_x c_rho c_vrtm c_Gp]. f_equal.
  apply sumn_ext. intros j _. unfold u', project_velocity. set (K := 1/e_axdx n (c_x c) e). rewrite !Rplus_0_l, !Rmult_1_l. field. split; apply Hr.
Qed.

(* ================================================================== C40 momentum *)
Theorem C40_momentum_edge_conservative :
  forall o incl f mdot e i, fst (momentum_rhs o incl f mdot e i) + snd (momentum_rhs o incl f mdot e i) = 0 /\
  forall t k, momentum_lhs o f mdot e false i t k + momentum_lhs o f mdot e true i t k = 0.
Proof.
  intros. split; [unfold momentum_rhs; cbn; ring|]. intros t k. unfold momentum_lhs. cbv zeta.
  destruct (Nat.eqb i k), t; ring.
Qed.

(** C40. Rigid body motion u = a + W x with W antisymmetric carries no viscous flux (with the
    non-orthogonal correction and exact nodal gradients). *)
Theorem C40_no_viscous_flux_in_rigid_motion :
  forall n incl f e (a : vec) (W : nat -> nat -> R) i,
  (forall p q, W p q = - W q p) ->
  (forall k p, m_u f k p = a p + sumn n (fun q => W p q * m_x f k q)) ->
  (forall k p q, m_dudx f k p q = W p q) ->
  e_dflux n 1 incl f e i = 0.
Proof.
  intros n incl f e a W i Hw Hu Hd.
  assert (E : forall p q, e_duidxj n 1 f e p q = W p q).
  { intros p q. unfold e_duidxj. cbv zeta.
    assert (DU : m_u f (eR e) p - m_u f (eL e) p = sumn n (fun l => 1/2*(m_dudx f (eL e) p l + m_dudx f (eR e) p l) * dxj (m_x f) e l)).
    { rewrite !Hu. rewrite (sumn_ext n (fun l => 1/2*_*_) (fun j => W p j * m_x f (eR e) j + (-1) * (W p j * m_x f (eL e) j))).
      - rewrite sumn_plus, sumn_scal. ring.
      - intros l _. rewrite !Hd. unfold dxj. field. }
    rewrite DU. set (S := sumn n _). rewrite !Hd. replace (S - S*1) with 0 by ring. rewrite !Rmult_0_l. field. }
  unfold e_dflux. cbv zeta. rewrite fold_seq_sumn.
  rewrite (sumn_ext n (fun j => e_duidxj n 1 f e j j) (fun _ => 0 * 0)).
  2:{ intros j _. rewrite E. pose proof (Hw j j). lra. }
  rewrite (sumn_ext n (fun j => - _ * _ * _) (fun _ => 0 * 0)).
  2:{ intros j _. rewrite !E. rewrite (Hw j i). ring. }
  rewrite !sumn_scal. ring.
Qed.

(** C40. In every linear flow u = a + G x the viscous flux through the edge face is that of the Newtonian stress
    mu (G + G^T - 2/3 incl tr(G) I); with the divergence term switched on the stress is trace-free in 3-D. *)
Theorem C40_newtonian_stress_in_linear_flow :
  forall n incl f e (a : vec) (G : nat -> nat -> R) i,
  (forall k p, m_u f k p = a p + sumn n (fun q => G p q * m_x f k q)) ->
  (forall k p q, m_dudx f k p q = G p q) ->
  e_dflux n 1 incl f e i =
  - visc_ip (m_mu f) e * (sumn n (fun j => (G i j + G j i) * eA e j) - 2/3*incl*sumn n (fun j => G j j) * eA e i).
Proof.
  intros n incl f e a W i Hu Hd.
  assert (E : forall p q, e_duidxj n 1 f e p q = W p q).
  { intros p q. unfold e_duidxj. cbv zeta.
    assert (DU : m_u f (eR e) p - m_u f (eL e) p = sumn n (fun l => 1/2*(m_dudx f (eL e) p l + m_dudx f (eR e) p l) * dxj (m_x f) e l)).
    { rewrite !Hu. rewrite (sumn_ext n (fun l => 1/2*_*_) (fun j => W p j * m_x f (eR e) j + (-1) * (W p j * m_x f (eL e) j))).
      - rewrite sumn_plus, sumn_scal. ring.
      - intros l _. rewrite !Hd. unfold dxj. field. }
    rewrite DU. set (S := sumn n _). rewrite !Hd. replace (S - S*1) with 0 by ring. rewrite !Rmult_0_l. field. }
  unfold e_dflux. cbv zeta. rewrite fold_seq_sumn.
  rewrite (sumn_ext n (fun j => e_duidxj n 1 f e j j) (fun j => W j j)) by (intros j _; apply E).
  rewrite (sumn_ext n (fun j => - _ * _ * _) (fun j => (- visc_ip (m_mu f) e) * ((W i j + W j i) * eA e j))).
  2:{ intros j _. rewrite !E. ring. }
  rewrite sumn_scal. ring.
Qed.
Corollary C40_no_viscous_flux_in_uniform_dilatation :
  forall f e (a : vec) c i, (i < 3)%nat ->
  (forall k p, m_u f k p = a p + sumn 3 (fun q => (if Nat.eqb p q then c else 0) * m_x f k q)) ->
  (forall k p q, m_dudx f k p q = if Nat.eqb p q then c else 0) ->
  e_dflux 3 1 1 f e i = 0.
Proof.
  intros f e a c i Hi Hu Hd.
  rewrite (C40_newtonian_stress_in_linear_flow 3 1 f e a (fun p q => if Nat.eqb p q then c else 0) i Hu Hd).
  destruct i as [|[|[|i]]]; [| | |lia]; unfold sumn; cbn [seq fold_left Nat.eqb]; field.
Qed.

(** C40. Without limiter and divergence term, the 2n x 2n momentum block is the exact derivative of
    the edge residual at fixed gradients, mass flux and relative velocity. *)
Definition with_u (f : mo_fields) (u : nat -> vec) : mo_fields :=
  mkMo (m_x f) (m_dudx f) (m_vrtm f) u (m_rho f) (m_mu f).
Theorem C40_momentum_matrix_is_exact_linearisation :
  forall o f mdot e d i, o_limiter o = false -> (i < o_ndim o)%nat -> e_axdx (o_ndim o) (m_x f) e <> 0 ->
  let f' := with_u f (fun nd j => m_u f nd j + d nd j) in
  forall s : bool,
  let R0 g := if s then snd (momentum_rhs o 0 g mdot e i) else fst (momentum_rhs o 0 g mdot e i) in
  R0 f' = R0 f
    - sumn (o_ndim o) (fun k => momentum_lhs o f mdot e s i false k * d (eL e) k)
    - sumn (o_ndim o) (fun k => momentum_lhs o f mdot e s i true k * d (eR e) k).
Proof.
  intros o f mdot e d i Hl Hi Hax f' s R0.
  set (n := o_ndim o) in *. set (noc := if o_noc o then 1 else 0).
  assert (PICK : forall (b c : R) (v : vec) (A : vec), sumn n (fun k => ((if Nat.eqb i k then b else 0) + c * A k) * v k) = b * v i + c * sumn n (fun k => A k * v k)).
  { intros b c v A. rewrite (sumn_ext n _ (fun k => (if Nat.eqb i k then b * v k else 0) + c * (A k * v k))) by (intros; destruct (Nat.eqb i j); ring).
    rewrite sumn_plus, sumn_scal. f_equal. clear -Hi. induction n as [|m IH]; [lia|]. rewrite sumn_S.
    destruct (Nat.eq_dec i m) as [->|Hne].
    - rewrite Nat.eqb_refl. rewrite (sumn_ext m _ (fun _ => 0 * 0)); [rewrite sumn_scal; ring|]. intros j Hj. destruct (Nat.eqb_spec m j); [lia|ring].
    - rewrite IH by lia. destruct (Nat.eqb_spec i m); [lia|ring]. }
  set (inv := 1 / e_axdx n (m_x f) e).
  set (mu := visc_ip (m_mu f) e).
  set (dif := fun k => d (eR e) k - d (eL e) k).
  assert (DU : forall p q, e_duidxj n noc f' e p q = e_duidxj n noc f e p q + dif p * eA e q * inv).
  { intros p q. unfold e_duidxj, f', with_u, dif, inv. cbn. ring. }
  assert (DF : e_dflux n noc 0 f' e i = e_dflux n noc 0 f e i - mu * inv * (dif i * e_asq n e + eA e i * sumn n (fun k => eA e k * dif k))).
  { unfold e_dflux. cbv zeta. rewrite !fold_seq_sumn. change (visc_ip (m_mu f') e) with mu. fold mu.
    rewrite (sumn_ext n (fun j => - mu * (e_duidxj n noc f' e i j + e_duidxj n noc f' e j i) * eA e j)
       (fun j => - mu * (e_duidxj n noc f e i j + e_duidxj n noc f e j i) * eA e j + ((- mu*inv*dif i)*(eA e j * eA e j) + (- mu*inv*eA e i)*(eA e j*dif j)))).
    2:{ intros j _. rewrite !DU. ring. }
    rewrite !sumn_plus, !sumn_scal. unfold e_asq. ring. }
  assert (AF : e_face o (comp_fields f' i) (mdot e) e * mdot e = e_face o (comp_fields f i) (mdot e) e * mdot e
     + (let m := mdot e in let pf := pecfac_of o (comp_fields f i) e in
        ((1/2)*(m + Rabs m)*pf*o_alphaUpw o + (1/2)*o_alpha o*(1-pf)*m + (1/2)*m*(pf*(1 - o_alphaUpw o) + (1-pf)*(1 - o_alpha o))) * d (eL e) i
       + ((1/2)*(m - Rabs m)*pf*o_alphaUpw o + (1/2)*o_alpha o*(1-pf)*m + (1/2)*m*(pf*(1 - o_alphaUpw o) + (1-pf)*(1 - o_alpha o))) * d (eR e) i)).
  { cbv zeta. unfold e_face, e_qIpL, e_qIpR, e_limit. rewrite Hl. cbv zeta.
    change (pecfac_of o (comp_fields f' i) e) with (pecfac_of o (comp_fields f i) e).
    set (pf := pecfac_of o (comp_fields f i) e). set (m := mdot e).
    unfold f', with_u, comp_fields. cbn [f_q f_x f_dqdx m_u m_x m_dudx].
    destruct (Rlt_dec 0 m) as [Hm|Hm]; [rewrite (Rabs_right m) by lra|rewrite (Rabs_left1 m) by lra]; field. }
  assert (SD : sumn n (fun k => eA e k * dif k) = sumn n (fun k => eA e k * d (eR e) k) - sumn n (fun k => eA e k * d (eL e) k)).
  { unfold dif. rewrite (sumn_ext n _ (fun k => eA e k * d (eR e) k + (-1) * (eA e k * d (eL e) k))) by (intros; ring). rewrite sumn_plus, sumn_scal. ring. }
  set (m := mdot e) in *. set (pf := pecfac_of o (comp_fields f i) e) in *.
  set (a1 := (1/2)*(m + Rabs m)*pf*o_alphaUpw o + (1/2)*o_alpha o*(1-pf)*m) in *.
  set (a2 := (1/2)*(m - Rabs m)*pf*o_alphaUpw o + (1/2)*o_alpha o*(1-pf)*m) in *.
  set (a3 := (1/2)*m*(pf*(1 - o_alphaUpw o) + (1-pf)*(1 - o_alpha o))) in *. cbv zeta in AF.
  assert (LH : forall t, sumn n (fun k => momentum_lhs o f mdot e s i t k * d (if t then eR e else eL e) k)
     = (match s, t with | false, false => a1 + a3 - (- mu*e_asq n e*inv) | false, true => a2 + a3 + (- mu*e_asq n e*inv)
        | true, false => - a1 - a3 + (- mu*e_asq n e*inv) | true, true => - a2 - a3 - (- mu*e_asq n e*inv) end) * d (if t then eR e else eL e) i
       + (match s, t with | false, false => mu*eA e i*inv | false, true => - mu*eA e i*inv | true, false => - mu*eA e i*inv | true, true => mu*eA e i*inv end)
         * sumn n (fun k => eA e k * d (if t then eR e else eL e) k)).
  { intros t. rewrite <- PICK. apply sumn_ext. intros k _. f_equal. unfold momentum_lhs. cbv zeta. fold n m pf mu inv a1 a2 a3.
    destruct s, t; f_equal; ring. }
  pose proof (LH false) as LL. pose proof (LH true) as LR. cbv iota in LL, LR. rewrite LL, LR. clear LH LL LR.
  unfold R0, momentum_rhs. cbv zeta. fold n noc. rewrite DF, SD. cbn [fst snd]. fold m.
  rewrite (Rmult_comm m (e_face o (comp_fields f' i) m e)), AF. unfold dif. unfold a1, a2, a3.
  destruct s; ring.
Qed.

(* ================================================================== examples *)
Definition demo_edges := [mkEdge 0 1 (fun _ => 1); mkEdge 1 2 (fun _ => 2)].
Example demo_covers : covers [0;1;2]%nat demo_edges.
Proof.
  split; [repeat constructor; simpl; intuition lia|]. intros e [<-|[<-|[]]]; simpl; auto.
Qed.
Print Assumptions C39_mass_balance_after_pressure_solve.
Print Assumptions C29_tanh_peclet_weight.
