(** C94: the edge contribution with the perturbed stress. *)
Require Import Reals List Bool Arith Lia Lra Psatz.
From Verif Require Import Edge_Model Edge_Proofs Eig_Model Eig_Props Eig_Props2 Eig_Props3.
Import ListNotations.
Open Scope R_scope.

(** *** the contribution of an edge *)
From Verif Require Import Edge_Props.
Definition eig_op (o : sc_opts) (h : eig_opts) (g : eig_fields) (mdot : edge -> R) (bold : edge -> mat) (e : edge) : edge_sys := snd (eig_edge o h g mdot (bold e) e).
(** whatever the stress (and whatever was left in b_): the residual and every matrix column sum to zero over the nodes *)
Theorem C94_eigen_edge_conservative o h g mdot bold es nodes : covers nodes es ->
  lsum (assembled_rhs (eig_op o h g mdot bold) es) nodes = 0 /\
  forall j, lsum (fun i => assembled_lhs (eig_op o h g mdot bold) es i j) nodes = 0.
Proof.
  intros Hc. split; [|intros j].
  - apply assembled_conservative; auto. intros e _. unfold eig_op, eig_edge. cbn zeta. cbn [fst snd sr0 sr1]. ring.
  - apply assembled_colsum; auto. intros e _. unfold eig_op, eig_edge. cbn zeta. cbn [fst snd s00 s01 s10 s11]. split; ring.
Qed.
Lemma fold_add2 (d : nat) (F : nat -> nat -> R) a :
  fold_left (fun s i => fold_left (fun s j => s + F i j) (seq 0 d) s) (seq 0 d) a = a + sumn d (fun i => sumn d (fun j => F i j)).
Proof.
  assert (I : forall n b i, fold_left (fun s j => s + F i j) (seq 0 n) b = b + sumn n (fun j => F i j)).
  { intros n b i. revert b. induction n as [|n IH]; intros b; [unfold sumn; cbn; ring|]. rewrite seq_S, fold_left_app. cbn [fold_left]. rewrite IH, sumn_S, Nat.add_0_l. ring. }
  assert (O : forall n, fold_left (fun s i => fold_left (fun s j => s + F i j) (seq 0 d) s) (seq 0 n) a = a + sumn n (fun i => sumn d (fun j => F i j))).
  { induction n as [|n IH]; [unfold sumn; cbn; ring|]. rewrite seq_S, fold_left_app. cbn [fold_left]. rewrite IH, I, sumn_S, Nat.add_0_l. ring. }
  apply O.
Qed.
Definition with_sc (g : eig_fields) (f : sc_fields) : eig_fields := mkEF f (g_u g) (g_dudx g) (g_k g) (g_mut g).
(** matrix and residual belong together: with unlimited reconstruction a change of the solution changes the residual by minus matrix times
    change (gradients held) *)
Theorem C94_eigen_matrix_is_exact o h g mdot bold e dq : o_limiter o = false ->
  let s := eig_op o h g mdot bold e in
  let s' := eig_op o h (with_sc g (with_q (g_sc g) (fun k => f_q (g_sc g) k + dq k))) mdot bold e in
  sr0 s' = sr0 s - (s00 s * dq (eL e) + s01 s * dq (eR e)) /\ sr1 s' = sr1 s - (s10 s * dq (eL e) + s11 s * dq (eR e)).
Proof.
  intros Hl. unfold eig_op, eig_edge. cbn zeta. cbn [fst snd sr0 sr1 s00 s01 s10 s11].
  set (f := g_sc g). set (f' := with_q f (fun k => f_q f k + dq k)). set (g' := with_sc g f').
  change (g_sc g') with f'. change (edge_stress (o_ndim o) h g' (bold e) e) with (edge_stress (o_ndim o) h g (bold e) e).
  change (gg_coef (o_ndim o) h g' (snd (edge_stress (o_ndim o) h g (bold e) e)) e) with (gg_coef (o_ndim o) h g (snd (edge_stress (o_ndim o) h g (bold e) e)) e).
  set (gg := gg_coef _ _ _ _ _). change (f_x f') with (f_x f). change (f_dqdx f') with (f_dqdx f). change (e_lhsfac o f' e) with (e_lhsfac o f e). change (e_nonorth (o_ndim o) f' e) with (e_nonorth (o_ndim o) f e).
  change (eig_pecfac o f' e) with (eig_pecfac o f e). unfold e_qIpL, e_qIpR, e_limit. rewrite Hl. cbv zeta.
  change (f_x f') with (f_x f). change (f_dqdx f') with (f_dqdx f).
  change (f_q f' (eL e)) with (f_q f (eL e) + dq (eL e)). change (f_q f' (eR e)) with (f_q f (eR e) + dq (eR e)).
  rewrite !fold_add2. set (d := o_ndim o). set (inv := 1 / e_axdx d (f_x f) e).
  assert (K : sumn d (fun i => sumn d (fun j => gg i j * edge_grad d (o_noc o) (f_x f) (f_q f') (f_dqdx f) e i))
     = sumn d (fun i => sumn d (fun j => gg i j * edge_grad d (o_noc o) (f_x f) (f_q f) (f_dqdx f) e i)) + (dq (eR e) - dq (eL e)) * sumn d (fun i => sumn d (fun j => gg i j * eA e i * inv))).
  { rewrite <- sumn_scal, <- sumn_plus. apply sumn_ext. intros i _. rewrite <- sumn_scal, <- sumn_plus. apply sumn_ext. intros j _.
    unfold edge_grad. fold inv. change (f_q f' (eL e)) with (f_q f (eL e) + dq (eL e)). change (f_q f' (eR e)) with (f_q f (eR e) + dq (eR e)). ring. }
  rewrite K. set (S0 := sumn d (fun i => sumn d (fun j => gg i j * edge_grad d (o_noc o) (f_x f) (f_q f) (f_dqdx f) e i))). set (S1 := sumn d (fun i => sumn d (fun j => gg i j * eA e i * inv))).
  set (m := mdot e). set (pf := eig_pecfac o f e). destruct (Rlt_dec 0 m) as [Hm|Hm].
  - rewrite (Rabs_right m) by lra. split; field.
  - rewrite (Rabs_left1 m) by lra. split; field.
Qed.
Lemma edge_grad_linear d noc x q G e a (v : vec) : (forall k, q k = a + sumn d (fun j => v j * x k j)) -> (forall k j, (j < d)%nat -> G k j = v j) -> e_axdx d x e <> 0 ->
  noc = true -> forall j, (j < d)%nat -> edge_grad d noc x q G e j = v j.
Proof.
  intros Hq HG Hx -> j Hj. unfold edge_grad. rewrite !HG by exact Hj.
  rewrite (sumn_ext d (fun l => (1/2)*(G (eL e) l + G (eR e) l) * dxj x e l) (fun l => v l * dxj x e l)) by (intros l Hl; rewrite !HG by exact Hl; field).
  assert (E : q (eR e) - q (eL e) = sumn d (fun l => v l * dxj x e l)).
  { rewrite !Hq. replace (a + sumn d (fun j0 => v j0 * x (eR e) j0) - (a + sumn d (fun j0 => v j0 * x (eL e) j0))) with (sumn d (fun j0 => v j0 * x (eR e) j0) + (-1) * sumn d (fun j0 => v j0 * x (eL e) j0)) by ring.
    rewrite <- sumn_scal, <- sumn_plus. apply sumn_ext. intros. unfold dxj. ring. }
  rewrite E. field. exact Hx.
Qed.
(** a linear scalar on any edge (oblique or not), corrections on: the laminar and the anisotropic turbulent flux are exact,
    - (lambda grad q . A + c T rho (R grad q) . A); on a uniform scalar both vanish *)
Theorem C94_flux_of_linear_scalar o h g bold e a (v : vec) : let d := o_ndim o in let f := g_sc g in
  (forall k, f_q f k = a + sumn d (fun j => v j * f_x f k j)) -> (forall k j, f_dqdx f k j = v j) -> e_axdx d (f_x f) e <> 0 -> o_noc o = true ->
  let Rs := snd (edge_stress d h g bold e) in
  sr0 (snd (eig_edge o h g (fun _ => 0) bold e))
  = visc_ip (f_diff f) e * sumn d (fun j => v j * eA e j)
    + h_cGGDH h * (1 / strain_mag d (edge_dudx d h g e)) * rho_ip f e * sumn d (fun i => sumn d (fun j => Rs i j * v i * eA e j)).
Proof.
  intros d f Hq HG Hx Hn Rs. unfold eig_edge. cbn zeta. cbn [fst snd sr0]. fold f. fold d. fold Rs. rewrite Rmult_0_l. rewrite !fold_add2.
  rewrite (sumn_ext d (fun i => sumn d (fun j => gg_coef d h g Rs e i j * edge_grad d (o_noc o) (f_x f) (f_q f) (f_dqdx f) e i)) (fun i => - h_cGGDH h * (1 / strain_mag d (edge_dudx d h g e)) * rho_ip f e * sumn d (fun j => Rs i j * v i * eA e j))).
  2:{ intros i Hi. rewrite <- sumn_scal. apply sumn_ext. intros j Hj. rewrite (edge_grad_linear d (o_noc o) (f_x f) (f_q f) (f_dqdx f) e a v Hq (fun k j _ => HG k j) Hx Hn i Hi). unfold gg_coef. fold f. ring. }
  rewrite sumn_scal. destruct (C27_linear_field_exact o f (0) e a v Hq HG Hx) as [L _]. specialize (L Hn). unfold e_diffFlux in L. rewrite Hn in L. fold d in L. rewrite Rmult_1_r in L. rewrite L. ring.
Qed.
(** a positive semi-definite stress diffuses: on an edge pointing from left to right the diffusive coefficient has the stabilising sign *)
Theorem C94_stress_diffuses o h g mdot bold e : o_ndim o = 3%nat -> 0 <= h_cGGDH h -> 0 <= rho_ip (g_sc g) e -> 0 < strain_mag 3 (edge_dudx 3 h g e) -> 0 < e_axdx 3 (f_x (g_sc g)) e ->
  0 <= visc_ip (f_diff (g_sc g)) e -> mdot e = 0 -> (forall v, 0 <= qform (snd (edge_stress 3 h g bold e)) v) ->
  let s := snd (eig_edge o h g mdot bold e) in 0 <= s00 s /\ s01 s <= 0 /\ s10 s <= 0 /\ 0 <= s11 s.
Proof.
  intros Hd Hc Hr Hs Hx Hv Hm Psd. unfold eig_edge. cbn zeta. cbn [fst snd s00 s01 s10 s11]. rewrite Hm, Hd, fold_add2.
  set (inv := 1 / e_axdx 3 (f_x (g_sc g)) e). assert (Hi : 0 < inv) by (apply Rdiv_lt_0_compat; lra).
  set (Rs := snd (edge_stress 3 h g bold e)) in *. set (T := 1 / strain_mag 3 (edge_dudx 3 h g e)). assert (HT : 0 < T) by (apply Rdiv_lt_0_compat; lra).
  assert (E : sumn 3 (fun i => sumn 3 (fun j => gg_coef 3 h g Rs e i j * eA e i * inv)) = - (h_cGGDH h * T * rho_ip (g_sc g) e * inv * qform Rs (eA e))).
  { unfold qform, gg_coef, sumn. fold T. cbn [seq fold_left]. ring. }
  rewrite E. assert (Q : 0 <= h_cGGDH h * T * rho_ip (g_sc g) e * inv * qform Rs (eA e)).
  { apply Rmult_le_pos; [|apply Psd]. apply Rmult_le_pos; [|lra]. apply Rmult_le_pos; [|exact Hr]. apply Rmult_le_pos; lra. }
  assert (L : e_lhsfac o (g_sc g) e <= 0).
  { unfold e_lhsfac. rewrite Hd. fold inv. assert (A : 0 <= e_asq 3 e) by (unfold e_asq; apply sumn_nonneg; intros; apply Rle_0_sqr). assert (0 <= visc_ip (f_diff (g_sc g)) e * e_asq 3 e * inv) by (apply Rmult_le_pos; [apply Rmult_le_pos; assumption|lra]). lra. }
  replace (0 + Rabs 0) with 0 by (rewrite Rabs_R0; ring). replace (0 - Rabs 0) with 0 by (rewrite Rabs_R0; ring). set (X := h_cGGDH h * T * rho_ip (g_sc g) e * inv * qform Rs (eA e)) in *. clearbody X. repeat split; lra.
Qed.
Lemma diag_stress b t k i : symmetric 3 b -> diagonal 3 b -> (i < 3)%nat -> 1/10^16 <= k ->
  snd (pert_stress 1 0 t k b) i i = (perturb 1 t (snd (sym_diagonalize3 b)) i i + 1/3) * 2 * k.
Proof.
  intros Sy Di Hi Hk. unfold pert_stress. cbn zeta. cbn [snd]. rewrite Nat.eqb_refl. replace (k*(1+0)) with k by ring. rewrite Rmax_left by exact Hk. do 3 f_equal.
  assert (Qd : forall a c, (a < 3)%nat -> (c < 3)%nat -> fst (sym_diagonalize3 b) a c = if Nat.eqb a c then 1 else 0) by (intros; apply C94_diagonal_kept; assumption).
  unfold reconstruct, mat_mul. cbn [seq fold_left]. rewrite !Qd by lia. ix i Hi; cbn [Nat.eqb]; ring.
Qed.

Definition ex_corner (c : R) : mat := fun i j => match i, j with 2%nat, 2%nat => c | _, _ => 0 end.
Lemma corner_ok c : symmetric 3 (ex_corner c) /\ diagonal 3 (ex_corner c).
Proof. split; intros i j Hi Hj; [|intros N]; ix i Hi; ix j Hj; try reflexivity; contradiction. Qed.
Lemma corner_kept c i j : (i < 3)%nat -> (j < 3)%nat -> snd (sym_diagonalize3 (ex_corner c)) i j = ex_corner c i j.
Proof. intros Hi Hj. destruct (corner_ok c). apply C94_diagonal_kept; assumption. Qed.
Lemma corner_third c t : (0 < c -> perturb 1 t (snd (sym_diagonalize3 (ex_corner c))) 2%nat 2%nat = bias t 0) /\ (c < 0 -> perturb 1 t (snd (sym_diagonalize3 (ex_corner c))) 2%nat 2%nat = bias t 2).
Proof.
  set (D := snd (sym_diagonalize3 (ex_corner c))). destruct (C94_eigenvalues_sorted D) as (P & S1 & S2). destruct (C94_perturbed_eigenvalues 1 t D) as (E & _ & _). cbn zeta in *.
  assert (D0 : D 0%nat 0%nat = 0) by (apply corner_kept; lia). assert (D1 : D 1%nat 1%nat = 0) by (apply corner_kept; lia). assert (D2 : D 2%nat 2%nat = c) by (apply corner_kept; lia).
  apply perm3 in P. pose proof (E 0%nat ltac:(lia)) as E0. pose proof (E 1%nat ltac:(lia)) as E1. pose proof (E 2%nat ltac:(lia)) as E2. clear E.
  set (r := row_map D) in *. clearbody r D.
  destruct P as [(A&B&C)|[(A&B&C)|[(A&B&C)|[(A&B&C)|[(A&B&C)|(A&B&C)]]]]]; rewrite ?A, ?B, ?C in *; rewrite ?D0, ?D1, ?D2 in *; split; intros Hc; first [lra | rewrite E0; ring | rewrite E2; ring].
Qed.
(** in two dimensions the third row and column of b_ are never set: the stress in the plane depends on what was left there before,
    by an earlier edge (the same edge, fields and options, two different left-overs, two different stresses) *)
Theorem C94_plane_stress_determined_refuted : exists h g e b1 b2, symmetric 3 b1 /\ symmetric 3 b2 /\
  snd (edge_stress 2 h g b1 e) 0%nat 0%nat + snd (edge_stress 2 h g b1 e) 1%nat 1%nat <> snd (edge_stress 2 h g b2 e) 0%nat 0%nat + snd (edge_stress 2 h g b2 e) 1%nat 1%nat.
Proof.
  set (h := mkEO 1 1 1 0 1 1 true). set (f := mkFields (fun n j => INR n) (fun _ _ => 0) (fun _ _ => 0) (fun _ => 0) (fun _ => 1) (fun _ => 1)).
  set (g := mkEF f (fun _ _ => 0) (fun _ _ _ => 0) (fun _ => 1) (fun _ => 1)). set (e := mkEdge 0 1 (fun _ => 1)).
  exists h, g, e, (ex_corner 1), (ex_corner (-1)). split; [apply corner_ok|]. split; [apply corner_ok|].
  assert (G : forall i j, edge_dudx 2 h g e i j = 0).
  { intros i j. unfold edge_dudx, edge_grad, g, h, f, e. cbn [g_u g_dudx h_nocVel g_sc f_x eL eR eA]. unfold sumn. cbn [seq fold_left]. unfold Rdiv. ring. }
  assert (B : forall c, forall i j, norm_stress 2 (h_divU h) (nut_ip h g e) (k_ip g e) (edge_dudx 2 h g e) (ex_corner c) i j = ex_corner c i j).
  { intros c i j. unfold norm_stress. destruct ((i <? 2) && (j <? 2))%nat%bool eqn:L; [|reflexivity]. apply andb_true_iff in L. destruct L as [L1 L2]. apply Nat.ltb_lt in L1, L2.
    rewrite !G. assert (Z : sumn 2 (fun l => edge_dudx 2 h g e l l) = 0) by (unfold sumn; cbn [seq fold_left]; rewrite !G; ring). rewrite Z.
    assert (C : ex_corner c i j = 0) by (destruct i as [|[|i]]; try lia; reflexivity). rewrite C. unfold Rdiv. destruct (Nat.eqb i j); ring. }
  assert (K : k_ip g e = 1). { unfold k_ip, g, e. cbn [g_k]. rewrite Rmax_left; [field|]. apply (Rmult_le_reg_r (10^16)); [apply pow_lt; lra|]. unfold Rdiv. rewrite Rmult_assoc, Rinv_l by (apply pow_nonzero; lra). assert (1 <= 10^16) by (apply pow_R1_Rle; lra). lra. }
  assert (V : forall c i, (i < 3)%nat -> snd (edge_stress 2 h g (ex_corner c) e) i i = (perturb 1 1 (snd (sym_diagonalize3 (ex_corner c))) i i + 1/3) * 2 * 1).
  { intros c i Hi. unfold edge_stress. rewrite K. set (b := norm_stress 2 _ _ _ _ _).
    assert (Eb : b = ex_corner c) by (apply FunctionalExtensionality.functional_extensionality; intros a; apply FunctionalExtensionality.functional_extensionality; intros z; unfold b; rewrite <- K; apply B).
    rewrite Eb. change (h_delta h) with 1. change (h_pertK h) with 0. change (h_towards h) with 1%nat. destruct (corner_ok c). apply diag_stress; try assumption. rewrite <- K. unfold k_ip. pose proof (Rmax_r (g_k g (eL e)) (1/10^16)); pose proof (Rmax_r (g_k g (eR e)) (1/10^16)); lra. }
  rewrite !V by lia.
  assert (T : forall c, trace3 (perturb 1 1 (snd (sym_diagonalize3 (ex_corner c)))) = 0) by (intros c; rewrite (proj2 (proj2 (C94_perturbed_eigenvalues 1 1 _))); ring).
  pose proof (T 1) as T1. pose proof (T (-1)) as T2. unfold trace3 in T1, T2.
  pose proof (proj1 (corner_third 1 1) ltac:(lra)) as C1. pose proof (proj2 (corner_third (-1) 1) ltac:(lra)) as C2. unfold bias in C1, C2. lra.
Qed.
