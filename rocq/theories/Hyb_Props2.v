(** C104, continued: element sources of turbulent kinetic energy, diffusion along edges. *)
Require Import Reals List Bool Lra Lia Psatz Arith.
From Coquelicot Require Import Coquelicot.
From Verif Require Import RUtil Edge_Model Edge_Proofs Edge_Props Elem_Model Elem_Spec Elem_Proofs Elem_Proofs2 Elem_Proofs3 Elem_Props Turb_Model Turb_Props Turb_Props2 Hyb_Model Hyb_Props.
Import ListNotations.
Open Scope R_scope.

Lemma tke_eff m S fac s : eff s (tke_source m S fac s)
  (fun row col => sumn (nscv m) (fun ip => sumn (npe m) (fun ic => dl row (nearest m ip) * dl col ic * (Nv m ip ic * fac ip * vol m ip))))
  (fun row => sumn (nscv m) (fun ip => dl row (nearest m ip) * (S ip * vol m ip))).
Proof.
  unfold tke_source.
  apply (eff_loop (nscv m) _ (fun ip row col => sumn (npe m) (fun ic => dl row (nearest m ip) * dl col ic * (Nv m ip ic * fac ip * vol m ip)))
    (fun ip row => dl row (nearest m ip) * (S ip * vol m ip))). clear s. intros ip s _.
  eapply eff_ext.
  - eapply eff_trans; [|apply (eff_loop (npe m) _ (fun ic row col => dl row (nearest m ip) * dl col ic * (Nv m ip ic * fac ip * vol m ip)) (fun _ _ => 0)); intros ic s1 _; apply eff_addL]. apply eff_addB.
  - intros; cbv beta. ring.
  - intros row; cbv beta. rewrite (sumn_zero (npe m)) by (intros; reflexivity). ring.
Qed.
(** volume of node a's part of the element *)
Definition node_vol (m : me) (a : nat) : R := sumn (nscv m) (fun ip => if Nat.eqb a (nearest m ip) then vol m ip else 0).
(** a source whose value is the same at every point of the element *)
Lemma const_source m S fac s a v : (forall ip, (ip < nscv m)%nat -> S ip = v) -> eB (tke_source m S fac s) a = eB s a + v * node_vol m a.
Proof.
  intros H. destruct (tke_eff m S fac s) as (_ & E). rewrite E. f_equal. unfold node_vol. rewrite <- sumn_scal. apply sumn_ext; intros ip Hip.
  rewrite (H ip Hip). unfold dl. destruct (Nat.eqb a (nearest m ip)); ring.
Qed.
Lemma const_rowsum m S fac s a v : (forall ip, (ip < nscv m)%nat -> fac ip = v) -> Elem_Spec.unity (npe m) (nscv m) (Nv m) ->
  sumn (npe m) (fun ic => eL_ (tke_source m S fac s) a ic) = sumn (npe m) (fun ic => eL_ s a ic) + v * node_vol m a.
Proof.
  intros H U. destruct (tke_eff m S fac s) as (E & _).
  rewrite (sumn_ext (npe m) _ (fun ic => eL_ s a ic + sumn (nscv m) (fun ip => sumn (npe m) (fun k => dl a (nearest m ip) * dl ic k * (Nv m ip k * fac ip * vol m ip))))) by (intros; apply E).
  rewrite sumn_plus. f_equal. rewrite sumn_swap. unfold node_vol. rewrite <- sumn_scal. apply sumn_ext; intros ip Hip.
  rewrite sumn_swap. rewrite (sumn_ext (npe m) _ (fun k => dl a (nearest m ip) * fac ip * vol m ip * Nv m ip k)).
  - rewrite sumn_scal, (U ip Hip), (H ip Hip). unfold dl. destruct (Nat.eqb a (nearest m ip)); ring.
  - intros k Hk. rewrite (sumn_ext (npe m) _ (fun ic => dl ic k * (dl a (nearest m ip) * (Nv m ip k * fac ip * vol m ip)))) by (intros; ring).
    rewrite (sumn_dl (npe m) k (fun _ => dl a (nearest m ip) * (Nv m ip k * fac ip * vol m ip))) by assumption. ring.
Qed.
(** ** what the sources are *)
(** The element's rows together receive the source over the element's volume: none is lost or counted twice. *)
Theorem C104_tke_source_total : forall m S fac s, maps_ok m ->
  sumn (npe m) (eB (tke_source m S fac s)) = sumn (npe m) (eB s) + sumn (nscv m) (fun ip => S ip * vol m ip).
Proof.
  intros m S fac s (_ & H). destruct (tke_eff m S fac s) as (_ & E). rewrite (sumn_ext (npe m) _ _ (fun a _ => E a)), sumn_plus. f_equal.
  rewrite sumn_swap. apply sumn_ext; intros ip Hip. apply (sumn_dl (npe m) (nearest m ip) (fun _ => S ip * vol m ip)). now apply H.
Qed.
Lemma at_scv_const m q v ip : Elem_Spec.unity (npe m) (nscv m) (Nv m) -> (ip < nscv m)%nat -> (forall ic, (ic < npe m)%nat -> q ic = v) -> at_scv m q ip = v.
Proof. intros U Hip H. unfold at_scv. rewrite (sumn_ext (npe m) _ (fun ic => v * Nv m ip ic)) by (intros; rewrite H by assumption; ring). rewrite sumn_scal, (U ip Hip). ring. Qed.
Lemma at_scv_nonneg m q ip : (ip < nscv m)%nat -> (forall ic, (ic < npe m)%nat -> 0 <= Nv m ip ic) -> (forall ic, (ic < npe m)%nat -> 0 <= q ic) -> 0 <= at_scv m q ip.
Proof. intros Hip N Q. unfold at_scv. apply sumn_nonneg. intros; apply Rmult_le_pos; auto. Qed.
(** In a uniform state in a linear velocity field the DES kernel gives every node exactly what the nodal source gives for the node's volume. *)
Theorem C104_des_element_agrees_with_nodal : forall c m Gv f s a rho k sdr mut len f1 (g : nat -> nat -> R), Elem_Spec.unity (npe m) (nscv m) (Nv m) ->
  (forall ic, (ic < npe m)%nat -> t_rho f ic = rho /\ t_k f ic = k /\ t_sdr f ic = sdr /\ t_mut f ic = mut /\ t_len f ic = len /\ t_f1 f ic = f1) ->
  (forall ip i j, (ip < nscv m)%nat -> (i < ndim m)%nat -> (j < ndim m)%nat -> grad_scv m Gv (t_u f) ip i j = g i j) ->
  eB (tke_des_elem c m Gv f s) a = eB s a + snd (src_tke_des (ndim m) (e_ratio c) (e_bs c) (e_kw c) (e_ke c) f1 rho k sdr mut len (node_vol m a) g)
  /\ 3/2 * (sumn (npe m) (fun ic => eL_ (tke_des_elem c m Gv f s) a ic) - sumn (npe m) (fun ic => eL_ s a ic))
     = fst (src_tke_des (ndim m) (e_ratio c) (e_bs c) (e_kw c) (e_ke c) f1 rho k sdr mut len (node_vol m a) g).
Proof.
  intros c m Gv f s a rho k sdr mut len f1 g U F G. set (fac := rho * sqrt k / l_des (e_bs c) (e_kw c) (e_ke c) f1 k sdr len).
  assert (FA : forall ip, (ip < nscv m)%nat -> des_fac c m f ip = fac).
  { intros ip Hip. unfold des_fac, fac. rewrite (at_scv_const m (t_rho f) rho), (at_scv_const m (t_k f) k), (at_scv_const m (t_sdr f) sdr), (at_scv_const m (t_f1 f) f1), (at_scv_const m (t_len f) len); auto; intros ic Hc; apply (F ic Hc). }
  assert (PR : forall ip, (ip < nscv m)%nat -> prod2 (ndim m) (grad_scv m Gv (t_u f) ip) = prod2 (ndim m) g).
  { intros ip Hip. unfold prod2. apply sumn_ext; intros i Hi. apply sumn_ext; intros j Hj. now rewrite !G by assumption. }
  unfold tke_des_elem. split.
  - rewrite (const_source m _ _ s a (Rmin (prod2 (ndim m) g * mut) (e_ratio c * (fac * k)) - fac * k)).
    + unfold src_tke_des. cbv zeta. cbn [snd]. rewrite C66_production_limited. unfold fac. f_equal. f_equal. f_equal; [f_equal|]; unfold Rdiv; ring.
    + intros ip Hip. unfold des_src. cbv zeta. rewrite FA, PR by assumption. rewrite (at_scv_const m (t_k f) k), (at_scv_const m (t_mut f) mut); auto; intros ic Hc; apply (F ic Hc).
  - rewrite (const_rowsum m _ _ s a fac FA U). unfold src_tke_des. cbv zeta. cbn [fst]. unfold fac, Rdiv. lra.
Qed.
(** Production never exceeds the stated multiple of dissipation, which is not negative; nothing is produced without strain. *)
Theorem C104_des_production_limited : forall c m Gv f ip, (ip < nscv m)%nat -> (forall ic, (ic < npe m)%nat -> 0 <= Nv m ip ic) -> 0 <= e_ratio c ->
  (forall ic, (ic < npe m)%nat -> 0 <= t_rho f ic /\ 0 <= t_k f ic /\ 0 <= t_mut f ic) ->
  let Dk := des_fac c m f ip * at_scv m (t_k f) ip in
  0 <= des_fac c m f ip /\ 0 <= Dk /\ - Dk <= des_src c m Gv f ip <= (e_ratio c - 1) * Dk
  /\ ((forall i j, (i < ndim m)%nat -> (j < ndim m)%nat -> grad_scv m Gv (t_u f) ip i j = - grad_scv m Gv (t_u f) ip j i) -> des_src c m Gv f ip = - Dk).
Proof.
  intros c m Gv f ip Hip N R F Dk.
  assert (K : 0 <= at_scv m (t_k f) ip) by (apply at_scv_nonneg; auto; intros; now apply F).
  assert (D0 : 0 <= des_fac c m f ip).
  { unfold des_fac, Rdiv. apply Rmult_le_pos; [apply Rmult_le_pos; [apply at_scv_nonneg; auto; intros; now apply F|apply sqrt_pos]|]. apply Rlt_le, Rinv_0_lt_compat, l_des_pos. }
  assert (D1 : 0 <= Dk) by (unfold Dk; now apply Rmult_le_pos).
  assert (P : 0 <= prod2 (ndim m) (grad_scv m Gv (t_u f) ip) * at_scv m (t_mut f) ip) by (apply Rmult_le_pos; [apply prod2_nonneg|apply at_scv_nonneg; auto; intros; now apply F]).
  split; [assumption|]. split; [assumption|]. unfold des_src. cbv zeta. fold Dk. split.
  - pose proof (Rmin_r (prod2 (ndim m) (grad_scv m Gv (t_u f) ip) * at_scv m (t_mut f) ip) (e_ratio c * Dk)).
    assert (0 <= Rmin (prod2 (ndim m) (grad_scv m Gv (t_u f) ip) * at_scv m (t_mut f) ip) (e_ratio c * Dk)) by (apply Rmin_glb; [assumption|now apply Rmult_le_pos]). lra.
  - intros A. assert (Z : prod2 (ndim m) (grad_scv m Gv (t_u f) ip) = 0).
    { unfold prod2. apply sumn_zero; intros i Hi. apply sumn_zero; intros j Hj. rewrite (A i j Hi Hj). ring. }
    rewrite Z, Rmult_0_l, Rmin_left by now apply Rmult_le_pos. ring.
Qed.
(** ** the design-order one-equation source *)
Theorem C104_ksgs_production_limited : forall m Gv f ip, (ip < nscv m)%nat -> (forall ic, (ic < npe m)%nat -> 0 <= Nv m ip ic) -> 0 <= q_ratio f -> 0 <= q_lr f ->
  (forall ic, (ic < npe m)%nat -> 0 <= q_ce f ic /\ 0 <= q_mu f ic) ->
  0 <= ks_fac m f ip /\ 0 <= ks_dk m Gv f ip /\ - ks_dk m Gv f ip <= ks_src m Gv f ip <= (q_ratio f - 1) * ks_dk m Gv f ip.
Proof.
  intros m Gv f ip Hip N R L F. assert (CP : forall x, 0 <= cut x) by (intro; apply Rmax_r).
  assert (F0 : 0 <= ks_fac m f ip).
  { assert (CE : 0 <= at_scv m (q_ce f) ip) by (apply at_scv_nonneg; auto; intros; now apply F).
    unfold ks_fac. cbv zeta. destruct (Nat.eqb (ndim m) 2).
    - apply Rmult_le_pos; [apply Rmult_le_pos; auto|apply sqrt_pos].
    - set (w := cpow (cut (at_scv m (q_dnv f) ip)) (1/3)). assert (W : 0 <= w) by apply cpow_nonneg. unfold Rdiv. apply Rmult_le_pos; [apply Rmult_le_pos; [apply Rmult_le_pos; auto|apply sqrt_pos]|].
      destruct (Req_dec w 0) as [E0 | NZ]; [rewrite E0, Rinv_0; lra|]. apply Rlt_le, Rinv_0_lt_compat. lra. }
  assert (D0 : 0 <= ks_dk m Gv f ip).
  { unfold ks_dk. apply Rplus_le_le_0_compat; [now apply Rmult_le_pos|]. apply Rmult_le_pos; [apply Rmult_le_pos; [lra|apply at_scv_nonneg; auto; intros; now apply F]|]. apply sumn_nonneg; intros; apply Rle_0_sqr. }
  split; [assumption|]. split; [assumption|]. unfold ks_src.
  assert (P : 0 <= prod2 (ndim m) (grad_scv m Gv (q_u f) ip) * cut (at_scv m (q_mut f) ip)) by (apply Rmult_le_pos; [apply prod2_nonneg|apply CP]).
  pose proof (Rmin_r (prod2 (ndim m) (grad_scv m Gv (q_u f) ip) * cut (at_scv m (q_mut f) ip)) (q_ratio f * ks_dk m Gv f ip)).
  assert (0 <= Rmin (prod2 (ndim m) (grad_scv m Gv (q_u f) ip) * cut (at_scv m (q_mut f) ip)) (q_ratio f * ks_dk m Gv f ip)) by (apply Rmin_glb; [assumption|now apply Rmult_le_pos]). lra.
Qed.

(** the dissipation of the design-order source as a function of the point's energy, and its exact matrix *)
Definition with_k (f : ksf) (k : nat -> R) : ksf := mkKsf (q_ratio f) (q_lr f) (q_rho f) k (q_mut f) (q_dnv f) (q_ce f) (q_mu f) (q_u f).
Lemma sqrt_div_val a V : 0 <= a -> 0 < V -> sqrt (a/V) = sqrt a * / sqrt V.
Proof. intros Ha HV. rewrite sqrt_div by assumption. reflexivity. Qed.
Lemma ks_fac_val m f k : exists C, (forall ip, at_scv m (q_dnv f) ip > 0 -> at_scv m k ip >= 0 -> ks_fac m (with_k f k) ip = C ip * sqrt (at_scv m k ip)) /\
  forall ip, C ip = at_scv m (q_ce f) ip * cut (at_scv m (q_rho f) ip) * (if Nat.eqb (ndim m) 2 then / sqrt (cut (at_scv m (q_dnv f) ip)) else / cpow (cut (at_scv m (q_dnv f) ip)) (1/3)).
Proof.
  exists (fun ip => at_scv m (q_ce f) ip * cut (at_scv m (q_rho f) ip) * (if Nat.eqb (ndim m) 2 then / sqrt (cut (at_scv m (q_dnv f) ip)) else / cpow (cut (at_scv m (q_dnv f) ip)) (1/3))).
  split; [|reflexivity]. intros ip HV HK. unfold ks_fac. cbv zeta. cbn [with_k q_k q_dnv q_ce q_rho].
  replace (cut (at_scv m k ip)) with (at_scv m k ip) by (unfold cut; rewrite Rmax_left; lra).
  destruct (Nat.eqb (ndim m) 2).
  - rewrite sqrt_div_val; [ring|lra|unfold cut; apply Rlt_le_trans with (1 := HV), Rmax_l].
  - unfold Rdiv. ring.
Qed.
(** Without the low-Reynolds part the matrix of the design-order source is the exact derivative of its dissipation in every nodal energy. *)
Theorem C104_ksgs_matrix_is_derivative : forall m Gv f ip ic, (ip < nscv m)%nat -> (ic < npe m)%nat -> q_lr f = 0 -> 0 < at_scv m (q_dnv f) ip -> 0 < at_scv m (q_k f) ip ->
  is_derive (fun x => ks_dk m Gv (with_k f (fun j => q_k f j + (if Nat.eqb j ic then x else 0))) ip) 0 (Nv m ip ic * (3/2 * ks_fac m f ip)).
Proof.
  intros m Gv f ip ic Hip Hic L HV HK. set (K := at_scv m (q_k f) ip) in *. set (N := Nv m ip ic).
  assert (A : forall x, at_scv m (fun j => q_k f j + (if Nat.eqb j ic then x else 0)) ip = K + N * x).
  { intros x. unfold at_scv. rewrite (sumn_ext (npe m) _ (fun j => Nv m ip j * q_k f j + dl j ic * (Nv m ip j * x))) by (intros; unfold dl; destruct (Nat.eqb _ _); ring).
    rewrite sumn_plus, (sumn_dl (npe m) ic (fun j => Nv m ip j * x)) by assumption. reflexivity. }
  destruct (ks_fac_val m f (q_k f)) as (C0 & F0 & V0). set (C := C0 ip).
  assert (P : locally 0 (fun x => 0 < K + N * x)).
  { destruct (Req_dec N 0) as [Z | NZ]; [exists (mkposreal 1 Rlt_0_1); intros y _; rewrite Z; lra|].
    assert (B : 0 < K / Rabs N) by (apply Rdiv_lt_0_compat; [assumption|now apply Rabs_pos_lt]).
    exists (mkposreal _ B). intros y Hy. change (Rabs (y - 0) < K / Rabs N) in Hy. rewrite Rminus_0_r in Hy.
    apply Rmult_lt_compat_l with (r := Rabs N) in Hy; [|now apply Rabs_pos_lt]. replace (Rabs N * (K / Rabs N)) with K in Hy by (field; now apply Rabs_no_R0).
    rewrite <- Rabs_mult in Hy. apply Rabs_def2 in Hy. lra. }
  apply is_derive_ext_loc with (f := fun x => C * sqrt (K + N * x) * (K + N * x)).
  { eapply filter_imp; [|exact P]. intros y Hy. unfold ks_dk. cbn [with_k q_k q_lr q_mu]. rewrite L, A.
    destruct (ks_fac_val m f (fun j => q_k f j + (if Nat.eqb j ic then y else 0))) as (C1 & F1 & V1).
    rewrite F1 by (rewrite ?A; lra). rewrite A. unfold C. rewrite V0, <- V1. unfold cut at 1. rewrite Rmax_left by lra. match goal with |- ?a = ?b => change (@eq R a b) end. ring. }
  assert (FK : ks_fac m f ip = C * sqrt K).
  { assert (E : with_k f (q_k f) = f) by (destruct f; reflexivity). rewrite <- E at 1. apply F0; unfold K in *; lra. }
  rewrite FK. auto_derive; [rewrite Rmult_0_r, Rplus_0_r; assumption|].
  rewrite !Rmult_0_r, !Rplus_0_r. assert (S1 : sqrt K * sqrt K = K) by (apply sqrt_sqrt; lra). assert (S2 : 0 < sqrt K) by now apply sqrt_lt_R0.
  clearbody C N K. clear - S1 S2. match goal with |- ?a = ?b => change (@eq R a b) end.
  revert S1 S2. generalize (sqrt K). intros r S1 S2. subst K. field. lra.
Qed.
(** ** diffusion along edges *)
(** Edge diffusion is the edge transport operator with no flow: same residual, same matrix, whatever the advection options, densities and velocities. *)
Theorem C104_edge_diffusion_is_transport_without_flow : forall o f e, edge_diff (o_ndim o) (o_noc o) (f_x f) (f_dqdx f) (f_q f) (f_diff f) e = scalar_edge o f (fun _ => 0) e.
Proof.
  intros o f e. unfold edge_diff, scalar_edge. cbv zeta. rewrite Rabs_R0. unfold e_diffFlux, e_lhsfac, e_nonorth, visc_ip, e_asq, e_axdx, dxj. cbv zeta.
  f_equal; ring.
Qed.
Definition diff_opts (n : nat) (noc : bool) : sc_opts := mkOpts n 0 0 0 0 false noc (fun _ => 0).
Definition diff_fields (x dq : nat -> vec) (q mu : nat -> R) : sc_fields := mkFields x dq (fun _ _ => 0) q (fun _ => 1) mu.
Lemma edge_diff_eq n noc x dq q mu e : edge_diff n noc x dq q mu e = scalar_edge (diff_opts n noc) (diff_fields x dq q mu) (fun _ => 0) e.
Proof. apply (C104_edge_diffusion_is_transport_without_flow (diff_opts n noc) (diff_fields x dq q mu) e). Qed.
Lemma rhs_ext op op' es i : (forall e, op e = op' e) -> assembled_rhs op es i = assembled_rhs op' es i.
Proof. intros H. unfold assembled_rhs. generalize 0. induction es as [|e es IH]; intro a; cbn; [reflexivity|]. now rewrite H, IH. Qed.
Lemma lhs_ext op op' es i j : (forall e, op e = op' e) -> assembled_lhs op es i j = assembled_lhs op' es i j.
Proof. intros H. unfold assembled_lhs. generalize 0. induction es as [|e es IH]; intro a; cbn; [reflexivity|]. now rewrite H, IH. Qed.
Lemma diff_sym n noc x dq q mu e i j : add_lhs (edge_diff n noc x dq q mu e) e i j = add_lhs (edge_diff n noc x dq q mu e) e j i.
Proof.
  unfold add_lhs, edge_diff. cbv zeta. cbn [s00 s01 s10 s11].
  rewrite (andb_comm (Nat.eqb (eL e) i) (Nat.eqb (eL e) j)), (andb_comm (Nat.eqb (eR e) i) (Nat.eqb (eR e) j)), (andb_comm (Nat.eqb (eL e) i) (Nat.eqb (eR e) j)), (andb_comm (Nat.eqb (eR e) i) (Nat.eqb (eL e) j)).
  repeat match goal with |- context [if ?b then _ else _] => destruct b end; ring.
Qed.
(** On every mesh nothing is created or lost, and the matrix is symmetric and exact. *)
Theorem C104_edge_diffusion_conserves : forall n noc x dq q mu es nodes, covers nodes es ->
  lsum (assembled_rhs (edge_diff n noc x dq q mu) es) nodes = 0 /\ (forall i j, assembled_lhs (edge_diff n noc x dq q mu) es i j = assembled_lhs (edge_diff n noc x dq q mu) es j i).
Proof.
  intros n noc x dq q mu es nodes Hc. split.
  - destruct (C26_scalar_edge_conservative (diff_opts n noc) (diff_fields x dq q mu) (fun _ => 0) es nodes Hc) as (E & _).
    rewrite <- E. apply lsum_ext. intros i _. apply rhs_ext. intro; apply edge_diff_eq.
  - intros i j. unfold assembled_lhs. clear Hc. generalize 0. induction es as [|e es IH]; intro a; cbn [fold_left]; [reflexivity|]. now rewrite (diff_sym n noc x dq q mu e i j).
Qed.
Theorem C104_edge_diffusion_matrix_exact : forall n noc x dq q mu es nodes d i, covers nodes es ->
  assembled_rhs (edge_diff n noc x dq (fun k => q k + d k) mu) es i = assembled_rhs (edge_diff n noc x dq q mu) es i - lsum (fun j => assembled_lhs (edge_diff n noc x dq q mu) es i j * d j) nodes.
Proof.
  intros n noc x dq q mu es nodes d i Hc.
  rewrite (rhs_ext (edge_diff n noc x dq (fun k => q k + d k) mu) _ es i (edge_diff_eq n noc x dq (fun k => q k + d k) mu)), (rhs_ext (edge_diff n noc x dq q mu) _ es i (edge_diff_eq n noc x dq q mu)).
  rewrite (lsum_ext (fun j => assembled_lhs (edge_diff n noc x dq q mu) es i j * d j) (fun j => assembled_lhs (scalar_edge (diff_opts n noc) (diff_fields x dq q mu) (fun _ => 0)) es i j * d j)).
  - exact (C27_matrix_is_exact_linearisation (diff_opts n noc) (diff_fields x dq q mu) (fun _ => 0) es nodes d i Hc eq_refl).
  - intros j _. f_equal. apply lhs_ext. intro; apply edge_diff_eq.
Qed.
(** A linear field is conducted exactly on any edge, orthogonal or not, with the correction on. *)
Theorem C104_edge_diffusion_linear_exact : forall n x dq q mu e a (g : vec), (forall k, q k = a + sumn n (fun j => g j * x k j)) -> (forall k j, dq k j = g j) -> e_axdx n x e <> 0 ->
  sr0 (edge_diff n true x dq q mu e) = (1/2)*(mu (eL e) + mu (eR e)) * sumn n (fun j => g j * eA e j) /\ sr1 (edge_diff n true x dq q mu e) = - sr0 (edge_diff n true x dq q mu e).
Proof.
  intros n x dq q mu e a g Q D A. rewrite edge_diff_eq.
  destruct (C27_linear_field_exact (diff_opts n true) (diff_fields x dq q mu) 0 e a g Q D A) as (E & _). specialize (E eq_refl).
  unfold scalar_edge. cbv zeta. cbn [sr0 sr1]. rewrite E. unfold visc_ip. cbn [diff_fields f_diff diff_opts o_ndim]. split; ring.
Qed.
(** Energy is only dissipated: without the correction the discrete diffusion matrix is positive semi-definite. *)
Theorem C104_edge_diffusion_signs : forall n noc x dq q mu e, 0 <= mu (eL e) -> 0 <= mu (eR e) -> 0 < e_axdx n x e ->
  let s := edge_diff n noc x dq q mu e in s01 s <= 0 /\ s10 s <= 0 /\ 0 <= s00 s /\ 0 <= s11 s /\ s00 s + s01 s = 0 /\ s10 s + s11 s = 0.
Proof.
  intros n noc x dq q mu e H1 H2 H3 s. unfold s, edge_diff. cbv zeta. cbn [s00 s01 s10 s11].
  assert (L : 0 <= (1/2)*(mu (eL e) + mu (eR e)) * sumn n (fun j => eA e j * eA e j) * (1 / sumn n (fun j => eA e j * (x (eR e) j - x (eL e) j)))).
  { apply Rmult_le_pos; [apply Rmult_le_pos; [lra|apply sumn_nonneg; intros; apply Rle_0_sqr]|]. apply Rlt_le, Rdiv_lt_0_compat; [lra|exact H3]. }
  repeat split; lra.
Qed.
(** The hypotheses are met: a triangle in simple shear with unit density, energy and turbulent viscosity; each node receives production 4 less dissipation 1 over its third of the area. *)
Definition shear_des : tkf := mkTkf (fun _ => 1) (fun _ => 1) (fun _ => 10) (fun _ => 1) (fun _ => 1) (fun _ => 1) (fun ic i => match i with 0%nat => 2 * tx ic 1 | _ => 0 end).
Lemma tm_unity : Elem_Spec.unity (npe tm) (nscv tm) (Nv tm).
Proof. intros ip _. cbn. lra. Qed.
Lemma shear_grad ip i j : (i < 2)%nat -> (j < 2)%nat -> grad_scv tm tg (t_u shear_des) ip i j = match i, j with 0%nat, 1%nat => 2 | _, _ => 0 end.
Proof. intros Hi Hj. destruct i as [|[|]], j as [|[|]]; try lia; cbn; lra. Qed.
Theorem C104_case : maps_ok tm /\ grad_linear_exact tm tx /\ Elem_Spec.unity (npe tm) (nscv tm) (Nv tm)
  /\ (forall ip ic, 0 <= Nv tm ip ic) /\ (forall a, (a < 3)%nat -> node_vol tm a = 1/6)
  /\ (forall a, (a < 3)%nat -> eB (tke_des_elem (mkDes 10 (1/10) 1 1) tm tg shear_des (mkE (fun _ _ => 0) (fun _ => 0))) a = (4 - 1) * (1/6))
  /\ at_scv tm (q_k (mkKsf 10 0 (fun _ => 1) (fun _ => 1) (fun _ => 1) (fun _ => 1) (fun _ => 1) (fun _ => 1) (t_u shear_des))) 0 = 1
  /\ covers [0%nat;1%nat] [mkEdge 0 1 (fun _ => 1)].
Proof.
  assert (V : forall a, (a < 3)%nat -> node_vol tm a = 1/6) by (intros [|[|[|]]] H; try lia; unfold node_vol; cbn; lra).
  split; [apply tm_ok|]. split; [apply tm_exact|]. split; [apply tm_unity|]. split; [intros; cbn; lra|]. split; [exact V|]. split; [|split].
  - intros a Ha. destruct (C104_des_element_agrees_with_nodal (mkDes 10 (1/10) 1 1) tm tg shear_des (mkE (fun _ _ => 0) (fun _ => 0)) a 1 1 10 1 1 1
      (fun i j => match i, j with 0%nat, 1%nat => 2 | _, _ => 0 end) tm_unity) as (E & _).
    + intros ic _. repeat split; reflexivity.
    + intros ip i j _ Hi Hj. now apply shear_grad.
    + rewrite E, (V a Ha). cbn [eB e_ratio e_bs e_kw e_ke]. unfold src_tke_des, l_des. rewrite sqrt_1. cbv zeta. cbn [snd].
      replace (1 / (1/10) / 10) with 1 by field. replace ((1 * 1 + (1 - 1) * 1) * 1) with 1 by ring.
      rewrite (Rmin_left 1 1) by lra. rewrite (Rmax_right (1 / 10 ^ 16) 1) by lra. unfold prod2, limited. cbn. destruct (Rlt_dec _ _); lra.
  - cbn. lra.
  - split; [repeat constructor; cbn; intuition lia|]. intros e [<-|[]]. cbn. repeat split; auto; lia.
Qed.
