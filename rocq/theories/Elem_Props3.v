(** * Time terms (C35). *)
Require Import Reals ZArith List Bool Lra Lia Arith.
From Verif Require Import RUtil Time_Model Edge_Model Edge_Proofs Elem_Model Elem_Spec Elem_Proofs Elem_Proofs2 Elem_Proofs3 Elem_Props Elem_Props2.
Import ListNotations.
Open Scope R_scope.

(** what setup() of the algorithms reads from the time integrator *)
Definition dts_of (t : TI) : dts := mkDt (dtN t) (g1 t) (g2 t) (g3 t).

Lemma gamma_sum t : 0 < dtN t -> 0 < dtNm1 t ->
  g1 (compute_gamma t) + g2 (compute_gamma t) + g3 (compute_gamma t) = 0.
Proof.
  intros H1 H2. unfold compute_gamma. destruct (1 <? count t)%Z; cbn; [|lra].
  field. split; [lra|]. intros E.
  assert (0 < dtN t / dtNm1 t) by (apply Rdiv_lt_0_compat; lra). 
  assert (1 + dtN t / dtNm1 t = (dtNm1 t + dtN t) / dtNm1 t) by (field; lra). lra.
Qed.
Lemma gamma1_pos t : 0 < dtN t -> 0 < dtNm1 t -> 1 <= g1 (compute_gamma t).
Proof.
  intros H1 H2. unfold compute_gamma. destruct (1 <? count t)%Z; cbn; [|lra].
  assert (P : 0 < dtN t / dtNm1 t) by (apply Rdiv_lt_0_compat; lra).
  apply Rle_div_r; lra.
Qed.

(** ** steady fields give no time term, whatever the two last step sizes *)
Theorem C35_steady_no_time_term : forall ti V rho q T cp s, 0 < dtN ti -> 0 < dtNm1 ti ->
  let t := dts_of (compute_gamma ti) in
  snd (scalar_mass_bdf2 t V rho rho rho q q q s) = snd s /\
  snd (scalar_mass_be t V rho rho q q s) = snd s /\
  snd (heat_mass_bdf2 t V rho cp T T T s) = snd s /\
  snd (heat_mass_be t V rho cp T T s) = snd s /\
  snd (continuity_mass_bdf2 t V rho rho rho s) = snd s /\
  snd (continuity_mass_be t V rho rho s) = snd s.
Proof.
  intros ti V rho q T cp s H1 H2 t.
  assert (G : ga1 t + ga2 t + ga3 t = 0) by (apply gamma_sum; assumption).
  assert (E3 : ga3 t = - ga1 t - ga2 t) by lra.
  unfold scalar_mass_bdf2, scalar_mass_be, heat_mass_bdf2, heat_mass_be, continuity_mass_bdf2, continuity_mass_be. cbv zeta. cbn [fst snd].
  rewrite E3. repeat split.
  - replace (ga1 t * rho * q + ga2 t * q * rho + (- ga1 t - ga2 t) * q * rho) with 0 by ring. unfold Rdiv. ring.
  - replace (rho * q - q * rho) with 0 by ring. unfold Rdiv. ring.
  - replace (ga1 t * T + ga2 t * T + (- ga1 t - ga2 t) * T) with 0 by ring. ring.
  - replace (T - T) with 0 by ring. ring.
  - replace (ga1 t * rho + ga2 t * rho + (- ga1 t - ga2 t) * rho) with 0 by ring. unfold Rdiv. ring.
  - replace (rho - rho) with 0 by ring. unfold Rdiv. ring.
Qed.
Theorem C35_steady_no_time_term_element : forall ti m rho q s i, 0 < dtN ti -> 0 < dtNm1 ti ->
  eB (scalar_mass_elem m (dts_of (compute_gamma ti)) rho rho rho q q q s) i = eB s i /\
  eB (continuity_mass_elem m (dts_of (compute_gamma ti)) rho rho rho s) i = eB s i.
Proof.
  intros ti m rho q s i H1 H2. set (t := dts_of (compute_gamma ti)).
  assert (G : ga1 t + ga2 t + ga3 t = 0) by (apply gamma_sum; assumption).
  assert (E3 : ga3 t = - ga1 t - ga2 t) by lra.
  split.
  - destruct (scalar_mass_eff m t rho rho rho q q q s) as [_ H]. rewrite H, sumn_zero; [lra|]. intros ip _. rewrite E3. unfold Rdiv. ring.
  - destruct (continuity_mass_eff m t rho rho rho s) as [_ H]. rewrite H, sumn_zero; [lra|]. intros ip _. rewrite E3. unfold Rdiv. ring.
Qed.

(** ** the matrix entry is the sensitivity of minus the residual to the new value *)
Theorem C35_nodal_jacobian_exact : forall t V rp1 rn rm1 q d qn qm1 rho cp s,
  snd (scalar_mass_bdf2 t V rp1 rn rm1 (q+d) qn qm1 s)
    = snd (scalar_mass_bdf2 t V rp1 rn rm1 q qn qm1 s) - (fst (scalar_mass_bdf2 t V rp1 rn rm1 q qn qm1 s) - fst s) * d /\
  snd (scalar_mass_be t V rp1 rn (q+d) qn s)
    = snd (scalar_mass_be t V rp1 rn q qn s) - (fst (scalar_mass_be t V rp1 rn q qn s) - fst s) * d /\
  snd (heat_mass_be t V rho cp (q+d) qn s)
    = snd (heat_mass_be t V rho cp q qn s) - (fst (heat_mass_be t V rho cp q qn s) - fst s) * d.
Proof. intros. unfold scalar_mass_bdf2, scalar_mass_be, heat_mass_be. cbv zeta. cbn [fst snd]. unfold Rdiv. repeat split; ring. Qed.

Lemma mom_nodal_eff d body L b s : (forall i s, (i < d)%nat -> eff s (body i s) (fun a c => dl a i * dl c i * L) (fun a => dl a i * b i)) ->
  eff s (loop d body s) (fun a c => sumn d (fun i => dl a i * dl c i * L)) (fun a => sumn d (fun i => dl a i * b i)).
Proof. intros H. apply (eff_loop d body (fun i a c => dl a i * dl c i * L) (fun i a => dl a i * b i)). intros; apply H; assumption. Qed.
Lemma momentum_bdf2_eff d t V rp1 rn rm1 up1 un um1 dpdx s : eff s (momentum_mass_bdf2 d t V rp1 rn rm1 up1 un um1 dpdx s)
  (fun a c => sumn d (fun i => dl a i * dl c i * (ga1 t*rp1*V/dt t)))
  (fun a => sumn d (fun i => dl a i * (- (ga1 t*rp1*up1 i + ga2 t*rn*un i + ga3 t*rm1*um1 i)*V/dt t - dpdx i*V))).
Proof. unfold momentum_mass_bdf2. cbv zeta. apply mom_nodal_eff. intros i s0 Hi. eapply eff_ext; [effs| |]; intros; cbv beta; ring. Qed.
Lemma momentum_be_eff d t V rp1 rn up1 un dpdx s : eff s (momentum_mass_be d t V rp1 rn up1 un dpdx s)
  (fun a c => sumn d (fun i => dl a i * dl c i * (rp1*V/dt t)))
  (fun a => sumn d (fun i => dl a i * (- (rp1*up1 i - rn*un i)*V/dt t - dpdx i*V))).
Proof. unfold momentum_mass_be. cbv zeta. apply mom_nodal_eff. intros i s0 Hi. eapply eff_ext; [effs| |]; intros; cbv beta; ring. Qed.
Lemma sumn_dl' n k f : (k < n)%nat -> sumn n (fun i => dl k i * f i) = f k.
Proof. intros H. rewrite (sumn_ext n _ (fun i => dl i k * f i)) by (intros; rewrite dl_sym; reflexivity). apply sumn_dl. assumption. Qed.
Lemma diag_newton d (k : (nat -> R) -> esys -> esys) L (b : (nat -> R) -> nat -> R) :
  (forall u s, eff s (k u s) (fun a c => sumn d (fun i => dl a i * dl c i * L)) (fun a => sumn d (fun i => dl a i * b u i))) ->
  (forall u e i, (i < d)%nat -> b (fun a => u a + e a) i = b u i - L * e i) -> exact_newton d k.
Proof.
  intros HE Hb u e s i Hi. destruct (HE u s) as [H1 H2]. destruct (HE (fun a => u a + e a) s) as [_ H4].
  rewrite H2, H4, !sumn_dl', Hb by assumption.
  rewrite (sumn_ext d (fun j => (eL_ (k u s) i j - eL_ s i j) * e j) (fun j => dl j i * (L * e j))).
  - rewrite sumn_dl by assumption. ring.
  - intros j Hj. rewrite H1. rewrite (sumn_ext d _ (fun l => dl i l * (dl j l * L))) by (intros; ring). rewrite sumn_dl' by assumption. ring.
Qed.
Theorem C35_momentum_jacobian_exact : forall d t V rp1 rn rm1 un um1 dpdx,
  exact_newton d (fun u => momentum_mass_bdf2 d t V rp1 rn rm1 u un um1 dpdx) /\
  exact_newton d (fun u => momentum_mass_be d t V rp1 rn u un dpdx).
Proof.
  intros. split.
  - eapply diag_newton; [intros; apply momentum_bdf2_eff|]. intros; cbv beta; unfold Rdiv; ring.
  - eapply diag_newton; [intros; apply momentum_be_eff|]. intros; cbv beta; unfold Rdiv; ring.
Qed.

Lemma scv_newton m (k : (nat -> R) -> esys -> esys) (c : nat -> R) (b : (nat -> R) -> nat -> R) :
  (forall q s, eff s (k q s) (fun i j => sumn (nscv m) (fun ip => dl i (nearest m ip) * sumn (npe m) (fun ic => dl j ic * (Nv m ip ic * c ip))))
                             (fun i => sumn (nscv m) (fun ip => dl i (nearest m ip) * b q ip))) ->
  (forall q d ip, (ip < nscv m)%nat -> b (fun a => q a + d a) ip = b q ip - c ip * at_scv m d ip) -> exact_newton (npe m) k.
Proof.
  intros HE Hb q d s i Hi. destruct (HE q s) as [H1 H2]. destruct (HE (fun a => q a + d a) s) as [_ H4].
  rewrite H2, H4.
  rewrite (sumn_ext (npe m) (fun j => (eL_ (k q s) i j - eL_ s i j) * d j)
    (fun j => sumn (nscv m) (fun ip => dl i (nearest m ip) * (sumn (npe m) (fun ic => dl j ic * (Nv m ip ic * c ip)) * d j)))).
  2:{ intros j _. rewrite H1. rewrite (Rplus_comm (eL_ s i j)). unfold Rminus at 1. rewrite Rplus_assoc, Rplus_opp_r, Rplus_0_r.
      rewrite <- sumn_scal_r. apply sumn_ext. intros; ring. }
  rewrite sumn_swap.
  rewrite (sumn_ext (nscv m) (fun ip => sumn (npe m) _) (fun ip => dl i (nearest m ip) * (c ip * at_scv m d ip))).
  2:{ intros ip _. rewrite sumn_scal, sum_col. f_equal. unfold at_scv. rewrite <- sumn_scal. apply sumn_ext. intros; ring. }
  rewrite Rplus_minus_a. f_equal. rewrite <- sumn_minus. apply sumn_ext. intros ip Hip. rewrite Hb by assumption. ring.
Qed.
Lemma at_scv_plus m q d ip : at_scv m (fun a => q a + d a) ip = at_scv m q ip + at_scv m d ip.
Proof. unfold at_scv. rewrite <- sumn_plus. apply sumn_ext. intros; ring. Qed.
Theorem C35_element_jacobian_exact : forall m t r1 r0 rm q0 qm,
  exact_newton (npe m) (fun q => scalar_mass_elem m t r1 r0 rm q q0 qm).
Proof.
  intros. eapply (scv_newton m _ (fun ip => ga1 t*at_scv m r1 ip*vol m ip/dt t)).
  - intros q s. eapply eff_ext; [apply scalar_mass_eff| |]; intros; cbv beta.
    + apply sumn_ext. intros ip _. f_equal. apply sumn_ext. intros ic _. unfold Rdiv. ring.
    + reflexivity.
  - intros q d ip _. cbv beta. rewrite at_scv_plus. unfold Rdiv. ring.
Qed.
Lemma scalar_gcl_eff m rho divV q s :
  eff s (scalar_gcl_elem m rho divV q s)
   (fun i j => sumn (nscv m) (fun ip => dl i (nearest m ip) * sumn (npe m) (fun ic => dl j ic * (Nv m ip ic * (at_scv m rho ip*at_scv m divV ip*vol m ip)))))
   (fun i => sumn (nscv m) (fun ip => dl i (nearest m ip) * (- (at_scv m rho ip*at_scv m q ip*at_scv m divV ip*vol m ip)))).
Proof.
  unfold scalar_gcl_elem.
  apply (eff_loop (nscv m) _ (fun ip i j => dl i (nearest m ip) * sumn (npe m) (fun ic => dl j ic * (Nv m ip ic * (at_scv m rho ip*at_scv m divV ip*vol m ip))))
     (fun ip i => dl i (nearest m ip) * (- (at_scv m rho ip*at_scv m q ip*at_scv m divV ip*vol m ip)))).
  clear s. intros ip s Hip. cbv zeta beta. eapply eff_ext.
  - eapply eff_trans; [|apply (eff_loop (npe m) _ (fun ic i j => dl i (nearest m ip) * (dl j ic * (Nv m ip ic * (at_scv m rho ip*at_scv m divV ip*vol m ip)))) (fun _ _ => 0))].
    + effs.
    + intros ic s1 Hic. eapply eff_ext; [effs| |]; intros; cbv beta; ring.
  - intros i j; cbv beta. rewrite sumn_scal. ring.
  - intros i; cbv beta. rewrite sumn_zero by (intros; reflexivity). ring.
Qed.
Theorem C35_element_gcl_jacobian_exact : forall m rho divV, exact_newton (npe m) (scalar_gcl_elem m rho divV).
Proof.
  intros. eapply (scv_newton m _ (fun ip => at_scv m rho ip*at_scv m divV ip*vol m ip)).
  - intros q s. apply scalar_gcl_eff.
  - intros q d ip _. cbv beta. rewrite at_scv_plus. ring.
Qed.

(** the heat-conduction BDF2 term does not meet this: its matrix entry lacks the factor gamma1, so from the
    second step on it is too small by that factor ... *)
Theorem C35_heat_bdf2_jacobian_refuted : forall ti V rho cp T d Tn Tm s,
  0 < dtN ti -> 0 < dtNm1 ti -> (1 < count ti)%Z -> 0 < rho -> 0 < cp -> 0 < V -> d <> 0 ->
  let t := dts_of (compute_gamma ti) in
  snd (heat_mass_bdf2 t V rho cp (T+d) Tn Tm s)
   <> snd (heat_mass_bdf2 t V rho cp T Tn Tm s) - (fst (heat_mass_bdf2 t V rho cp T Tn Tm s) - fst s) * d.
Proof.
  intros ti V rho cp T d Tn Tm s H1 H2 Hc Hr Hp HV Hd t E. unfold heat_mass_bdf2 in E. cbv zeta in E. cbn [fst snd] in E.
  assert (Hg : ga1 t - 1 = (dtN ti / dtNm1 ti) / (1 + dtN ti / dtNm1 ti)).
  { unfold t, dts_of, compute_gamma. apply Z.ltb_lt in Hc. rewrite Hc. cbn. field.
    assert (0 < dtN ti / dtNm1 ti) by (apply Rdiv_lt_0_compat; lra). split; lra. }
  assert (P : 0 < dtN ti / dtNm1 ti) by (apply Rdiv_lt_0_compat; lra).
  assert (Q : 0 < (dtN ti / dtNm1 ti) / (1 + dtN ti / dtNm1 ti)) by (apply Rdiv_lt_0_compat; lra).
  assert (Hdt : dt t = dtN ti) by (unfold t, dts_of, compute_gamma; destruct (1 <? count ti)%Z; reflexivity).
  rewrite Hdt in E.
  assert (L : 0 < rho*cp*V/dtN ti) by (apply Rdiv_lt_0_compat; [|lra]; apply Rmult_lt_0_compat; [apply Rmult_lt_0_compat|]; assumption).
  set (l := rho*cp*V/dtN ti) in *.
  assert (Z : l * ((ga1 t - 1) * d) = 0) by lra.
  apply Rmult_integral in Z. destruct Z as [Z|Z]; [lra|]. apply Rmult_integral in Z. destruct Z; [lra|contradiction].
Qed.
(** ... but the nonlinear iteration still converges: one iteration on the time term alone multiplies the
    residual by 1 - gamma1 = -tau/(1+tau), less than one in size *)
Theorem C35_heat_bdf2_iteration_contracts : forall ti V rho cp T Tn Tm,
  0 < dtN ti -> 0 < dtNm1 ti -> (1 < count ti)%Z -> 0 < rho -> 0 < cp -> 0 < V ->
  let t := dts_of (compute_gamma ti) in let tau := dtN ti / dtNm1 ti in
  let s := heat_mass_bdf2 t V rho cp T Tn Tm (0, 0) in
  snd (heat_mass_bdf2 t V rho cp (T + snd s / fst s) Tn Tm (0, 0)) = - (tau / (1 + tau)) * snd s /\ 0 < tau/(1+tau) < 1.
Proof.
  intros ti V rho cp T Tn Tm H1 H2 Hc Hr Hp HV t tau s.
  assert (Hdt : dt t = dtN ti) by (unfold t, dts_of, compute_gamma; destruct (1 <? count ti)%Z; reflexivity).
  assert (P : 0 < tau) by (apply Rdiv_lt_0_compat; lra).
  assert (Hg : ga1 t = (1 + 2*tau)/(1 + tau)).
  { unfold t, dts_of, compute_gamma. apply Z.ltb_lt in Hc. rewrite Hc. reflexivity. }
  assert (L : 0 < rho*cp*V/dtN ti) by (apply Rdiv_lt_0_compat; [|lra]; apply Rmult_lt_0_compat; [apply Rmult_lt_0_compat|]; assumption).
  split.
  - unfold s, heat_mass_bdf2. cbv zeta. cbn [fst snd]. rewrite Hdt, Hg. set (l := rho*cp*V/dtN ti) in *. field. lra.
  - split; [apply Rdiv_lt_0_compat; lra|]. apply Rlt_div_l; lra.
Qed.

(** ** accuracy: for rho*q quadratic in time the BDF2 term is minus V times its exact rate of change *)
Theorem C35_bdf2_exact_for_quadratics : forall ti V (rho q : R -> R) p2 p1 p0 x s,
  0 < dtN ti -> 0 < dtNm1 ti -> (1 < count ti)%Z ->
  (forall y, rho y * q y = p2*y*y + p1*y + p0) ->
  let t := dts_of (compute_gamma ti) in let y := x - dtN ti in let z := x - dtN ti - dtNm1 ti in
  snd (scalar_mass_bdf2 t V (rho x) (rho y) (rho z) (q x) (q y) (q z) s) = snd s - V * (2*p2*x + p1).
Proof.
  intros ti V rho q p2 p1 p0 x s H1 H2 Hc Hq t y z.
  assert (P : 0 < dtN ti / dtNm1 ti) by (apply Rdiv_lt_0_compat; lra).
  unfold scalar_mass_bdf2. cbv zeta. cbn [snd].
  replace (ga1 t * rho x * q x + ga2 t * q y * rho y + ga3 t * q z * rho z)
    with (ga1 t * (rho x * q x) + ga2 t * (rho y * q y) + ga3 t * (rho z * q z)) by ring.
  rewrite !Hq. unfold t, dts_of, compute_gamma, y, z. apply Z.ltb_lt in Hc. rewrite Hc. cbn [dt ga1 ga2 ga3 set_gamma dtN g1 g2 g3].
  field. repeat split; lra.
Qed.

(** ** conservation over a run: [rho k], [q k], [h k] are density, value and step size of step k *)
Theorem C35_backward_euler_conserves : forall V (rho q h : nat -> R) n, (forall k, h k <> 0) ->
  sumn n (fun k => h k * snd (scalar_mass_be (mkDt (h k) 1 (-1) 0) V (rho (S k)) (rho k) (q (S k)) (q k) (0,0)))
  = V * (rho 0%nat * q 0%nat) - V * (rho n * q n).
Proof.
  intros V rho q h n Hh. induction n; [rewrite sumn_0; ring|]. rewrite sumn_S, IHn.
  unfold scalar_mass_be. cbv zeta. cbn [snd dt]. field. apply Hh.
Qed.
(** BDF2 with a constant step (backward Euler first step, as the integrator does): the time terms telescope to the
    change of the BDF2 inventory 3/2 rho q(n) - 1/2 rho q(n-1) *)
Theorem C35_bdf2_conserves_constant_step : forall V (rho q : nat -> R) h n, h <> 0 ->
  h * snd (scalar_mass_bdf2 (mkDt h 1 (-1) 0) V (rho 1%nat) (rho 0%nat) (rho 0%nat) (q 1%nat) (q 0%nat) (q 0%nat) (0,0))
  + sumn n (fun k => h * snd (scalar_mass_bdf2 (mkDt h (3/2) (-2) (1/2)) V (rho (S (S k))) (rho (S k)) (rho k) (q (S (S k))) (q (S k)) (q k) (0,0)))
  = V * ((rho 0%nat * q 0%nat + rho 1%nat * q 1%nat)/2) - V * (3/2*(rho (S n) * q (S n)) - 1/2*(rho n * q n)).
Proof.
  intros V rho q h n Hh. induction n.
  - rewrite sumn_0. unfold scalar_mass_bdf2. cbv zeta. cbn [snd dt ga1 ga2 ga3]. field. assumption.
  - rewrite sumn_S, <- Rplus_assoc, IHn. unfold scalar_mass_bdf2. cbv zeta. cbn [snd dt ga1 ga2 ga3]. field. assumption.
Qed.
(** the coefficients of a constant-step run are those *)
Theorem C35_constant_step_coefficients : forall ti, 0 < dtN ti -> dtNm1 ti = dtN ti -> (1 < count ti)%Z ->
  g1 (compute_gamma ti) = 3/2 /\ g2 (compute_gamma ti) = -2 /\ g3 (compute_gamma ti) = 1/2.
Proof.
  intros ti H E Hc. unfold compute_gamma. apply Z.ltb_lt in Hc. rewrite Hc, E. cbn. 
  repeat split; field; lra.
Qed.
(** with variable steps the BDF2 terms do not telescope: the total weight of a level over the three consecutive
    steps that use it (as newest, middle and oldest level) need not vanish *)
Theorem C35_bdf2_variable_step_not_conservative :
  exists ti1 ti2 ti3, (1 < count ti1)%Z /\ count ti2 = (count ti1 + 1)%Z /\ count ti3 = (count ti2 + 1)%Z /\
  0 < dtNm1 ti1 /\ 0 < dtN ti1 /\ 0 < dtN ti2 /\ 0 < dtN ti3 /\ dtNm1 ti2 = dtN ti1 /\ dtNm1 ti3 = dtN ti2 /\
  g1 (compute_gamma ti1) + g2 (compute_gamma ti2) + g3 (compute_gamma ti3) <> 0.
Proof.
  exists (mkTI 0 0 0 1 1 0 0 0 2 10 true true true 1), (mkTI 0 0 0 2 1 0 0 0 3 10 true true true 1), (mkTI 0 0 0 2 2 0 0 0 4 10 true true true 1).
  cbn. repeat split; try lra; try lia.
Qed.

(** ** a uniform scalar's nodal time and GCL terms are c*dt/gamma1 times the continuity ones *)
Theorem C35_nodal_uniform_scalar_consistent : forall t V rp1 rn rm1 divV c s s', dt t <> 0 -> ga1 t <> 0 ->
  snd (scalar_gcl V rp1 c divV (scalar_mass_bdf2 t V rp1 rn rm1 c c c s)) - snd s
  = c * (dt t / ga1 t) * (snd (continuity_gcl t V rp1 divV (continuity_mass_bdf2 t V rp1 rn rm1 s')) - snd s').
Proof.
  intros. unfold scalar_gcl, scalar_mass_bdf2, continuity_gcl, continuity_mass_bdf2. cbv zeta. cbn [fst snd]. field. split; assumption.
Qed.
