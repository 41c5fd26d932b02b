(** * Element kernels: solutions they preserve (C51), agreement of continuity and transport (C52). *)
Require Import Reals List Bool Lra Lia Arith.
From Verif Require Import RUtil Edge_Model Edge_Proofs Elem_Model Elem_Spec Elem_Proofs Elem_Proofs2 Elem_Proofs3 Elem_Props.
Import ListNotations.
Open Scope R_scope.

Lemma net_out_dl m F i : net_out m F i = sumn (nscs m) (fun ip => (dl i (lrL m ip) - dl i (lrR m ip)) * F ip).
Proof. unfold net_out. apply sumn_ext. intros ip _. unfold dl. destruct (Nat.eqb _ _), (Nat.eqb _ _); ring. Qed.
Lemma net_out_ext m F G i : (forall ip, (ip < nscs m)%nat -> F ip = G ip) -> net_out m F i = net_out m G i.
Proof. intros H. rewrite !net_out_dl. apply sumn_ext. intros. rewrite H; auto. Qed.
Lemma eff_net m s k A F i : eff s k A (fun i => sumn (nscs m) (fun ip => - ((dl i (lrL m ip) - dl i (lrR m ip)) * F ip))) ->
  eB k i = eB s i - net_out m F i.
Proof. intros [_ H]. rewrite H, sumn_opp, net_out_dl. ring. Qed.

Lemma diff_const m coef ip c : grad_unity m -> (ip < nscs m)%nat -> sumn (npe m) (fun ic => diff_coef m coef ip ic * c) = 0.
Proof.
  intros HG Hip. unfold diff_coef, lhsfacDiff. rewrite sumn_scal_r, sumn_swap, (sumn_zero (ndim m)); [ring|].
  intros j Hj. rewrite (sumn_ext (npe m) _ (fun ic => (- at_scs m coef ip * area m ip j) * dndx m ip ic j)) by (intros; ring).
  rewrite sumn_scal, HG by assumption. ring.
Qed.
Lemma at_adv_const m ip c : unity (npe m) (nscs m) (Na m) -> (ip < nscs m)%nat -> at_adv m (fun _ => c) ip = c.
Proof. intros H Hip. unfold at_adv. rewrite sumn_scal_r, H by assumption. ring. Qed.

(** ** C51 *)
(** a uniform scalar is only changed by a mass imbalance: the residual of node i is -c times the net
    mass flow out of its control volume *)
Theorem C51_uniform_scalar : forall m mdot coef q c s i,
  unity (npe m) (nscs m) (Na m) -> grad_unity m -> (forall a, (a < npe m)%nat -> q a = c) ->
  eB (scalar_advdiff m mdot coef q s) i = eB s i - c * net_out m mdot i.
Proof.
  intros m mdot coef q c s i HU HG Hq. rewrite (eff_net m _ _ _ _ i (scalar_advdiff_eff m mdot coef q s)).
  rewrite (net_out_ext m _ (fun ip => c * mdot ip)).
  - rewrite !net_out_dl, <- sumn_scal. f_equal. apply sumn_ext. intros; ring.
  - intros ip Hip. unfold adv_coef.
    rewrite (sumn_ext (npe m) _ (fun ic => c * mdot ip * Na m ip ic + diff_coef m coef ip ic * c)) by (intros; rewrite Hq by assumption; ring).
    rewrite sumn_plus, sumn_scal, HU, diff_const by assumption. ring.
Qed.

Lemma face_const m o G coef q c md ip : maps_ok m -> unity (npe m) (nscs m) (Na m) ->
  (forall a, (a < npe m)%nat -> q a = c) -> (forall a j, G a j = 0) -> (ip < nscs m)%nat ->
  face_val m o G coef q md ip = c.
Proof.
  intros [Hm _] HU Hq HG Hip. destruct (Hm ip Hip) as [H1 H2].
  assert (E1 : at_adv m q ip = c).
  { rewrite <- (at_adv_const m ip c) by assumption. unfold at_adv. apply sumn_ext. intros; rewrite Hq; auto. }
  assert (Z : forall f : nat -> R, sumn (ndim m) (fun j => f j * 0) = 0) by (intros; apply sumn_zero; intros; ring).
  unfold face_val, qL_of, qR_of. cbv zeta. rewrite E1, !Hq by assumption.
  rewrite (sumn_ext (ndim m) (fun j => _ * G (lrL m ip) j) (fun j => (xIp m o ip j - u_x o (lrL m ip*ndim m+j)%nat) * 0)) by (intros; rewrite HG; reflexivity).
  rewrite (sumn_ext (ndim m) (fun j => _ * G (lrR m ip) j) (fun j => (u_x o (lrR m ip*ndim m+j)%nat - xIp m o ip j) * 0)) by (intros; rewrite HG; reflexivity).
  rewrite !(Z _). destruct (Rlt_dec 0 md); field.
Qed.
(** same for the upwind kernel with any limiter, blending and Peclet settings; the nodal gradient of a
    uniform field is zero *)
Theorem C51_uniform_scalar_upwind : forall m o G mdot coef q c s i, maps_ok m ->
  unity (npe m) (nscs m) (Na m) -> grad_unity m -> (forall a, (a < npe m)%nat -> q a = c) -> (forall a j, G a j = 0) ->
  eB (scalar_upw m o G mdot coef q s) i = eB s i - c * net_out m mdot i.
Proof.
  intros m o G mdot coef q c s i Hm HU HG Hq HG0. rewrite (eff_net m _ _ _ _ i (scalar_upw_eff m o G mdot coef q s)).
  rewrite (net_out_ext m _ (fun ip => c * mdot ip)).
  - rewrite !net_out_dl, <- sumn_scal. f_equal. apply sumn_ext. intros; ring.
  - intros ip Hip. unfold upw_flux. rewrite (face_const m o G coef q c) by assumption.
    rewrite (sumn_ext (npe m) _ (fun ic => diff_coef m coef ip ic * c)) by (intros; rewrite Hq by assumption; ring).
    rewrite diff_const by assumption. ring.
Qed.

(** diffusion of a linear field: the flux through every face is exactly -k grad(q).A *)
Lemma diff_linear m coef x q a (g : nat -> R) ip : grad_linear_exact m x ->
  (forall ic, (ic < npe m)%nat -> q ic = a + sumn (ndim m) (fun k => g k * x ic k)) -> (ip < nscs m)%nat ->
  sumn (npe m) (fun ic => diff_coef m coef ip ic * q ic) = - at_scs m coef ip * sumn (ndim m) (fun j => g j * area m ip j).
Proof.
  intros [HU HL] Hq Hip. unfold diff_coef, lhsfacDiff.
  rewrite (sumn_ext (npe m) _ (fun ic => sumn (ndim m) (fun j => (- at_scs m coef ip * area m ip j) * (dndx m ip ic j * q ic)))).
  2:{ intros. rewrite <- sumn_scal_r. apply sumn_ext. intros; ring. }
  rewrite sumn_swap, <- sumn_scal. apply sumn_ext. intros j Hj. rewrite sumn_scal.
  assert (E : sumn (npe m) (fun ic => dndx m ip ic j * q ic) = g j).
  { rewrite (sumn_ext (npe m) _ (fun ic => dndx m ip ic j * a + sumn (ndim m) (fun k => g k * (dndx m ip ic j * x ic k)))).
    2:{ intros ic Hic. rewrite Hq by assumption. rewrite Rmult_plus_distr_l, <- sumn_scal. f_equal. apply sumn_ext. intros; ring. }
    rewrite sumn_plus, sumn_scal_r, HU, sumn_swap by assumption.
    rewrite (sumn_ext (ndim m) _ (fun k => dl k j * g k)).
    - rewrite (sumn_dl (ndim m) j g) by assumption. ring.
    - intros k Hk. rewrite sumn_scal, HL by assumption. unfold dl. rewrite (Nat.eqb_sym k j). destruct (Nat.eqb j k); ring. }
  rewrite E. ring.
Qed.
Theorem C51_linear_field_diffusion_exact : forall m coef x q a (g : nat -> R) s i, grad_linear_exact m x ->
  (forall ic, (ic < npe m)%nat -> q ic = a + sumn (ndim m) (fun k => g k * x ic k)) ->
  eB (scalar_diff m coef q s) i
  = eB s i - net_out m (fun ip => - at_scs m coef ip * sumn (ndim m) (fun j => g j * area m ip j)) i.
Proof.
  intros m coef x q a g s i HL Hq. rewrite (eff_net m _ _ _ _ i (scalar_diff_eff m coef q s)).
  f_equal. apply net_out_ext. intros ip Hip. apply (diff_linear m coef x q a g); assumption.
Qed.

(** rigid motion (translation plus rotation) produces no viscous force, with or without the div(u) term,
    whatever the viscosity: with no flow through the faces the momentum residual is untouched *)
Lemma visc_rigid m x mu u (w : nat -> nat -> R) (b : nat -> R) ip i : grad_linear_exact m x ->
  (forall ic k, (ic < npe m)%nat -> (k < ndim m)%nat -> u (ic*ndim m+k)%nat = b k + sumn (ndim m) (fun l => w k l * x ic l)) ->
  (forall k l, (k < ndim m)%nat -> (l < ndim m)%nat -> w k l = - w l k) -> (ip < nscs m)%nat -> (i < ndim m)%nat ->
  mom_visc m mu u ip i = 0 /\ divU_of m u ip = 0.
Proof.
  intros [HU HL] Hu Hw Hip Hi.
  assert (D : forall j k, (j < ndim m)%nat -> (k < ndim m)%nat -> sumn (npe m) (fun ic => dndx m ip ic j * u (ic*ndim m+k)%nat) = w k j).
  { intros j k Hj Hk. 
    rewrite (sumn_ext (npe m) _ (fun ic => dndx m ip ic j * b k + sumn (ndim m) (fun l => w k l * (dndx m ip ic j * x ic l)))).
    2:{ intros ic Hic. rewrite Hu by assumption. rewrite Rmult_plus_distr_l, <- sumn_scal. f_equal. apply sumn_ext. intros; ring. }
    rewrite sumn_plus, sumn_scal_r, HU, sumn_swap by assumption.
    rewrite (sumn_ext (ndim m) _ (fun l => dl l j * w k l)).
    - rewrite (sumn_dl (ndim m) j (w k)) by assumption. ring.
    - intros l Hl. rewrite sumn_scal, HL by assumption. unfold dl. rewrite (Nat.eqb_sym l j). destruct (Nat.eqb j l); ring. }
  split.
  - unfold mom_visc, node_flux, visc_sym, visc_lap.
    rewrite (sumn_ext (npe m) _ (fun ic => sumn (ndim m) (fun j =>
        (- at_scs m mu ip * area m ip j) * (dndx m ip ic i * u (ic*ndim m+j)%nat) + (- at_scs m mu ip * area m ip j) * (dndx m ip ic j * u (ic*ndim m+i)%nat)))).
    2:{ intros. rewrite <- sumn_scal_r, <- sumn_plus. apply sumn_ext. intros; ring. }
    rewrite sumn_swap. apply sumn_zero. intros j Hj. rewrite sumn_plus, !sumn_scal, !D by assumption.
    rewrite (Hw i j) by assumption. ring.
  - unfold divU_of. rewrite sumn_swap.
    rewrite (sumn_ext (ndim m) _ (fun j => w j j)).
    + apply sumn_zero. intros j Hj. pose proof (Hw j j Hj Hj). lra.
    + intros j Hj. rewrite <- (D j j) by assumption. apply sumn_ext. intros; ring.
Qed.
Theorem C51_rigid_motion_no_viscous_force : forall m x mu mdot u (w : nat -> nat -> R) (b : nat -> R) inc s a i, grad_linear_exact m x ->
  (forall ic k, (ic < npe m)%nat -> (k < ndim m)%nat -> u (ic*ndim m+k)%nat = b k + sumn (ndim m) (fun l => w k l * x ic l)) ->
  (forall k l, (k < ndim m)%nat -> (l < ndim m)%nat -> w k l = - w l k) -> (i < ndim m)%nat ->
  eB (momentum_advdiff m inc mdot mu u s) (a*ndim m+i)
  = eB s (a*ndim m+i)%nat - net_out m (fun ip => mdot ip * at_adv m (fun ic => u (ic*ndim m+i)%nat) ip) a.
Proof.
  intros m x mu mdot u w b inc s a i HL Hu Hw Hi.
  destruct (momentum_eff m inc mdot mu u s) as [_ H]. rewrite H.
  rewrite (sumn_ext (nscs m) _ (fun ip => - ((dl a (lrL m ip) - dl a (lrR m ip)) * mom_flux m inc mdot mu u ip i))) by (intros; apply side_row_opp; assumption).
  rewrite net_out_dl, sumn_opp. match goal with |- ?p + - ?x = ?p - ?y => enough (x = y) by lra end. apply sumn_ext. intros ip Hip.
  destruct (visc_rigid m x mu u w b ip i) as [E1 E2]; try assumption.
  unfold mom_flux, mom_divu. rewrite E1, E2. ring.
Qed.

(** pressure: only differences matter; and a linear pressure whose projected gradient is exact adds no
    mass flow (the stabilisation vanishes) *)
Theorem C51_pressure_level_irrelevant : forall m tau c k s i, grad_unity m ->
  eB (continuity_adv m tau (with_p c (fun a => cf_p c a + k)) s) i = eB (continuity_adv m tau c s) i.
Proof.
  intros m tau c k s i HG.
  rewrite (eff_net m _ _ _ _ i (continuity_eff m tau (with_p c _) s)), (eff_net m _ _ _ _ i (continuity_eff m tau c s)).
  f_equal. apply net_out_ext. intros ip Hip. f_equal. unfold mdot_elem, with_p. cbn [cf_rho cf_p cf_v cf_Gp].
  apply sumn_ext. intros j Hj.
  rewrite (sumn_ext (npe m) (fun ic => dndx m ip ic j * (cf_p c ic + k)) (fun ic => dndx m ip ic j * cf_p c ic + dndx m ip ic j * k)) by (intros; ring).
  rewrite sumn_plus, sumn_scal_r, HG by assumption. ring.
Qed.
Theorem C51_linear_pressure_no_stabilisation : forall m tau c x a (g : nat -> R) ip,
  grad_linear_exact m x -> unity (npe m) (nscs m) (Ns m) -> (ip < nscs m)%nat ->
  (forall ic, (ic < npe m)%nat -> cf_p c ic = a + sumn (ndim m) (fun k => g k * x ic k)) ->
  (forall ic j, (ic < npe m)%nat -> (j < ndim m)%nat -> cf_Gp c (ic*ndim m+j)%nat = g j) ->
  mdot_elem m tau c ip
  = sumn (ndim m) (fun j => sumn (npe m) (fun ic => Ns m ip ic * cf_rho c ic * cf_v c (ic*ndim m+j)%nat) * area m ip j).
Proof.
  intros m tau c x a g ip [HU HL] HN Hip Hp HGp. unfold mdot_elem. apply sumn_ext. intros j Hj.
  rewrite (sumn_ext (npe m) (fun ic => dndx m ip ic j * cf_p c ic) (fun ic => dndx m ip ic j * a + sumn (ndim m) (fun k => g k * (dndx m ip ic j * x ic k)))).
  2:{ intros ic Hic. rewrite Hp by assumption. rewrite Rmult_plus_distr_l, <- sumn_scal. f_equal. apply sumn_ext. intros; ring. }
  rewrite sumn_plus, sumn_scal_r, HU, sumn_swap by assumption.
  rewrite (sumn_ext (ndim m) _ (fun k => dl k j * g k)).
  2:{ intros k Hk. rewrite sumn_scal, HL by assumption. unfold dl. rewrite (Nat.eqb_sym k j). destruct (Nat.eqb j k); ring. }
  rewrite (sumn_dl (ndim m) j g) by assumption.
  rewrite (sumn_ext (npe m) (fun ic => Ns m ip ic * cf_Gp c _) (fun ic => Ns m ip ic * g j)) by (intros; rewrite HGp by assumption; reflexivity).
  rewrite sumn_scal_r, HN by assumption. ring.
Qed.

(** ** C52: the mass flow the transport equations use is the one the continuity equation balances *)
Theorem C52_continuity_residual_is_mass_imbalance : forall m tau c s i,
  eB (continuity_adv m tau c s) i = eB s i - net_out m (mdot_elem m tau c) i / tau.
Proof.
  intros. rewrite (eff_net m _ _ _ _ i (continuity_eff m tau c s)). f_equal.
  rewrite !net_out_dl. unfold Rdiv. rewrite <- sumn_scal_r. apply sumn_ext. intros; ring.
Qed.

(* mass kernels *)
Lemma scalar_mass_eff m t r1 r0 rm q1 q0 qm s :
  eff s (scalar_mass_elem m t r1 r0 rm q1 q0 qm s)
   (fun i j => sumn (nscv m) (fun ip => dl i (nearest m ip) * sumn (npe m) (fun ic => dl j ic * (Nv m ip ic * ga1 t*at_scv m r1 ip*vol m ip/dt t))))
   (fun i => sumn (nscv m) (fun ip => dl i (nearest m ip) *
      (- (ga1 t*at_scv m r1 ip*at_scv m q1 ip + ga2 t*at_scv m r0 ip*at_scv m q0 ip + ga3 t*at_scv m rm ip*at_scv m qm ip) * vol m ip / dt t))).
Proof.
  unfold scalar_mass_elem.
  match goal with |- eff s _ (fun i j => sumn _ (fun ip => @?A ip i j)) (fun i => sumn _ (fun ip => @?B ip i)) =>
    apply (eff_loop (nscv m) _ A B) end.
  clear s. intros ip s Hip. cbv zeta beta. eapply eff_ext.
  - eapply eff_trans; [|apply (eff_loop (npe m) _ (fun ic i j => dl i (nearest m ip) * (dl j ic * (Nv m ip ic * ga1 t*at_scv m r1 ip*vol m ip/dt t))) (fun _ _ => 0))].
    + effs.
    + intros ic s1 Hic. eapply eff_ext; [effs| |]; intros; cbv beta; unfold Rdiv; ring.
  - intros i j; cbv beta. rewrite sumn_scal. ring.
  - intros i; cbv beta. rewrite sumn_zero by (intros; reflexivity). ring.
Qed.
Lemma continuity_mass_eff m t r1 r0 rm s :
  eff s (continuity_mass_elem m t r1 r0 rm s) (fun i j => sumn (nscv m) (fun _ => 0))
   (fun i => sumn (nscv m) (fun ip => dl i (nearest m ip) *
      (- (ga1 t*at_scv m r1 ip + ga2 t*at_scv m r0 ip + ga3 t*at_scv m rm ip) * vol m ip / dt t / (dt t / ga1 t)))).
Proof.
  unfold continuity_mass_elem. cbv zeta.
  match goal with |- eff s _ (fun i j => sumn _ (fun ip => @?A ip i j)) (fun i => sumn _ (fun ip => @?B ip i)) =>
    apply (eff_loop (nscv m) _ A B) end.
  clear s. intros ip s Hip. eapply eff_ext; [effs| |]; intros; cbv beta; ring.
Qed.
Lemma at_scv_const m ip q c : unity (npe m) (nscv m) (Nv m) -> (ip < nscv m)%nat ->
  (forall a, (a < npe m)%nat -> q a = c) -> at_scv m q ip = c.
Proof. intros H Hip Hq. unfold at_scv. rewrite (sumn_ext (npe m) _ (fun ic => Nv m ip ic * c)) by (intros; rewrite Hq; auto). rewrite sumn_scal_r, H by assumption. ring. Qed.

(** For a scalar uniform in space and in time, each node's transport residual (time term plus
    advection-diffusion with the continuity equation's own mass flow) is c*dt/gamma1 times that node's
    continuity residual: wherever continuity is satisfied, a uniform scalar stays uniform - whatever the
    density history, mesh, time steps. *)
Theorem C52_uniform_scalar_consistent_with_continuity : forall m t cf coef r0 rm q1 q0 qm c i s s',
  unity (npe m) (nscs m) (Na m) -> unity (npe m) (nscv m) (Nv m) -> grad_unity m ->
  (forall a, (a < npe m)%nat -> q1 a = c /\ q0 a = c /\ qm a = c) -> dt t <> 0 -> ga1 t <> 0 ->
  let tau := dt t / ga1 t in
  eB (scalar_mass_elem m t (cf_rho cf) r0 rm q1 q0 qm (scalar_advdiff m (mdot_elem m tau cf) coef q1 s)) i - eB s i
  = c * tau * (eB (continuity_mass_elem m t (cf_rho cf) r0 rm (continuity_adv m tau cf s')) i - eB s' i).
Proof.
  intros m t cf coef r0 rm q1 q0 qm c i s s' HU HV HG Hq Hdt Hg tau.
  destruct (scalar_mass_eff m t (cf_rho cf) r0 rm q1 q0 qm (scalar_advdiff m (mdot_elem m tau cf) coef q1 s)) as [_ H1].
  destruct (continuity_mass_eff m t (cf_rho cf) r0 rm (continuity_adv m tau cf s')) as [_ H2].
  rewrite H1, H2, C52_continuity_residual_is_mass_imbalance.
  rewrite (C51_uniform_scalar m _ coef q1 c) by (try assumption; intros; apply Hq; assumption).
  assert (Ht : tau <> 0) by (unfold tau; apply Rmult_integral_contrapositive_currified; [assumption|apply Rinv_neq_0_compat; assumption]).
  assert (E : sumn (nscv m) (fun ip => dl i (nearest m ip) *
      (- (ga1 t*at_scv m (cf_rho cf) ip*at_scv m q1 ip + ga2 t*at_scv m r0 ip*at_scv m q0 ip + ga3 t*at_scv m rm ip*at_scv m qm ip) * vol m ip / dt t))
    = c * tau * sumn (nscv m) (fun ip => dl i (nearest m ip) *
      (- (ga1 t*at_scv m (cf_rho cf) ip + ga2 t*at_scv m r0 ip + ga3 t*at_scv m rm ip) * vol m ip / dt t / tau))).
  { rewrite <- sumn_scal. apply sumn_ext. intros ip Hip.
    rewrite (at_scv_const m ip q1 c), (at_scv_const m ip q0 c), (at_scv_const m ip qm c) by (try assumption; intros; apply Hq; assumption). field. split; assumption. }
  fold tau. rewrite E. field. assumption.
Qed.
Theorem C52_uniform_scalar_consistent_upwind : forall m o t cf coef G r0 rm q1 q0 qm c i s s', maps_ok m ->
  unity (npe m) (nscs m) (Na m) -> unity (npe m) (nscv m) (Nv m) -> grad_unity m -> (forall a j, G a j = 0) ->
  (forall a, (a < npe m)%nat -> q1 a = c /\ q0 a = c /\ qm a = c) -> dt t <> 0 -> ga1 t <> 0 ->
  let tau := dt t / ga1 t in
  eB (scalar_mass_elem m t (cf_rho cf) r0 rm q1 q0 qm (scalar_upw m o G (mdot_elem m tau cf) coef q1 s)) i - eB s i
  = c * tau * (eB (continuity_mass_elem m t (cf_rho cf) r0 rm (continuity_adv m tau cf s')) i - eB s' i).
Proof.
  intros m o t cf coef G r0 rm q1 q0 qm c i s s' Hm HU HV HG HG0 Hq Hdt Hg tau.
  pose proof (C52_uniform_scalar_consistent_with_continuity m t cf coef r0 rm q1 q0 qm c i s s' HU HV HG Hq Hdt Hg) as E.
  cbv zeta in E. fold tau in E. rewrite <- E.
  destruct (scalar_mass_eff m t (cf_rho cf) r0 rm q1 q0 qm (scalar_advdiff m (mdot_elem m tau cf) coef q1 s)) as [_ H1].
  destruct (scalar_mass_eff m t (cf_rho cf) r0 rm q1 q0 qm (scalar_upw m o G (mdot_elem m tau cf) coef q1 s)) as [_ H2].
  rewrite H1, H2, (C51_uniform_scalar m _ coef q1 c), (C51_uniform_scalar_upwind m o G _ coef q1 c) by (try assumption; intros; apply Hq; assumption).
  reflexivity.
Qed.
