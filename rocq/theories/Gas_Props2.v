(** C55 continued: consistency, free-stream preservation, upwinding and dissipation. *)
Require Import Reals List Bool Lra Lia Psatz PeanoNat.
From Verif Require Import Edge_Model Edge_Proofs Gas_Model Gas_Spec Gas_Props.
Import ListNotations.
Open Scope R_scope.

Lemma dot_scale n u A a : sumn n (fun j => u j * A j * a) = dot n u A * a.
Proof. unfold dot. rewrite Rmult_comm, <- sumn_scal. apply sumn_ext; intros; lra. Qed.
Lemma mach_val n g e k : 0 < e_asq n e -> (1/2)*(g_c g (eL e) + g_c g (eR e)) <> 0 ->
  g_amag n e * g_mach n g e k = dot n (g_vrtm g k) (eA e) / ((1/2)*(g_c g (eL e) + g_c g (eR e))).
Proof.
  intros HA Hc. unfold g_mach.
  assert (Ha : g_amag n e <> 0) by (apply Rgt_not_eq, sqrt_lt_R0; exact HA).
  transitivity (dot n (g_vrtm g k) (eA e) * / ((1/2)*(g_c g (eL e) + g_c g (eR e)))); [|reflexivity].
  rewrite <- sumn_scal, <- dot_scale. apply sumn_ext; intros. field.
  split; [lra|exact Ha].
Qed.

(** the state of node k is (rho, u, p, H, T, c), at rest with respect to the mesh motion *)
Definition gas_state_is (n : nat) (g : gas_fields) (k : nat) (rho : R) (u : vec) (p H T c : R) : Prop :=
  g_rho g k = rho /\ g_p g k = p /\ g_H g k = H /\ g_T g k = T /\ g_c g k = c
  /\ forall j, (j < n)%nat -> g_vel g k j = u j /\ g_vrtm g k j = u j /\ g_mom g k j = rho * u j.

Lemma dot_ext n u v A : (forall j, (j < n)%nat -> u j = v j) -> dot n u A = dot n v A.
Proof. intros E. apply sumn_ext; intros j Hj. rewrite (E j Hj). reflexivity. Qed.

Lemma flux_uniform_visc n g e : (forall j, (j < n)%nat -> g_vel g (eL e) j = g_vel g (eR e) j) ->
  (forall i, (i < n)%nat -> g_dfm n g e i = 0)
  /\ (g_T g (eL e) = g_T g (eR e) -> g_dfe n g e = 0).
Proof.
  intros E.
  assert (D : forall i j, (i < n)%nat -> g_dudx n g e i j = 0)
    by (intros i j Hi; unfold g_dudx; rewrite (E i Hi); lra).
  assert (Dv : g_divU n g e = 0).
  { unfold g_divU. rewrite (sumn_ext n _ (fun j => 0 * 0)), sumn_scal; [lra|]. intros j Hj. rewrite (D j j Hj). lra. }
  assert (T : forall i, (i < n)%nat -> sumn n (fun j => g_tau n g e i j * eA e j) = 0).
  { intros i Hi. rewrite (sumn_ext n _ (fun j => 0 * 0)), sumn_scal; [lra|].
    intros j Hj. unfold g_tau. rewrite Dv, (D i j Hi), (D j i Hj). destruct (Nat.eqb i j); lra. }
  split.
  - intros i Hi. rewrite dfm_val, (T i Hi). replace (Nat.ltb i n) with true by (symmetry; apply Nat.ltb_lt; exact Hi). lra.
  - intros ET. rewrite dfe_val, ET. rewrite (sumn_ext n _ (fun j => 0 * 0)), sumn_scal; [lra|].
    intros i Hi. rewrite (T i Hi). lra.
Qed.

(** ** C55: consistency.  Between two nodes in the same state the edge carries exactly the Euler flux
    of that state through the edge area vector, at every Mach number. *)
Theorem C55_flux_consistent : forall n g e rho u p H T cs c,
  0 < e_asq n e -> 0 < cs ->
  gas_state_is n g (eL e) rho u p H T cs -> gas_state_is n g (eR e) rho u p H T cs ->
  gas_flux n g e c = euler_flux n rho u p H (eA e) c.
Proof.
  intros n g e rho u p H T cs c HA Hcs SL SR.
  destruct SL as (L1 & L2 & L3 & L4 & L5 & L6). destruct SR as (R1 & R2 & R3 & R4 & R5 & R6).
  assert (Ha : g_amag n e <> 0) by (apply Rgt_not_eq, sqrt_lt_R0; exact HA).
  assert (Hc : (1/2)*(g_c g (eL e) + g_c g (eR e)) = cs) by (rewrite L5, R5; lra).
  assert (MM : g_mach n g e (eL e) = g_mach n g e (eR e)).
  { unfold g_mach. apply sumn_ext; intros j Hj. rewrite (proj1 (proj2 (L6 j Hj))), (proj1 (proj2 (R6 j Hj))). reflexivity. }
  assert (Em : g_mLR n g e = g_mach n g e (eL e)).
  { unfold g_mLR. rewrite <- MM. apply scriptM_sum. }
  assert (Ep : g_pLR n g e = p).
  { unfold g_pLR. rewrite <- MM, L2, R2. pose proof (scriptP_sum (g_mach n g e (eL e))) as Q. nra. }
  pose proof (mach_val n g e (eL e) HA ltac:(rewrite Hc; lra)) as MV. rewrite Hc in MV.
  rewrite (dot_ext n (g_vrtm g (eL e)) u) in MV by (intros j Hj; apply (L6 j Hj)).
  destruct (flux_uniform_visc n g e) as [V1 V2].
  { intros j Hj. rewrite (proj1 (L6 j Hj)), (proj1 (R6 j Hj)). reflexivity. }
  assert (AD : forall f, g_adv (g_amag n e) (g_mLR n g e) (f * cs) (f * cs) = f * dot n u (eA e)).
  { intros f. unfold g_adv. rewrite Em.
    transitivity (g_amag n e * g_mach n g e (eL e) * f * cs); [lra|]. rewrite MV. field. lra. }
  unfold gas_flux, euler_flux. destruct (Nat.ltb c n) eqn:Ec.
  - apply Nat.ltb_lt in Ec. rewrite (V1 c Ec). unfold g_fm.
    rewrite L5, R5, (proj2 (proj2 (L6 c Ec))), (proj2 (proj2 (R6 c Ec))), AD, Ep. lra.
  - destruct (Nat.eqb c n).
    + unfold g_fc. rewrite L5, R5, L1, R1. apply AD.
    + unfold g_fe. rewrite V2 by (rewrite L4, R4; reflexivity). rewrite L5, R5, L3, R3, AD. lra.
Qed.

Definition euler_w n rho (u : vec) p H c j : R :=
  if Nat.ltb c n then rho * u c * u j + (if Nat.eqb j c then p else 0)
  else if Nat.eqb c n then rho * u j else H * u j.
Lemma euler_flux_linear n rho u p H A c :
  euler_flux n rho u p H A c = sumn n (fun j => euler_w n rho u p H c j * A j).
Proof.
  unfold euler_flux, dot, euler_w. destruct (Nat.ltb c n) eqn:Ec.
  - assert (D : forall m, sumn m (fun j => (if Nat.eqb j c then p else 0) * A j) = if Nat.ltb c m then p * A c else 0).
    { induction m; [reflexivity|]. rewrite sumn_S, IHm.
      destruct (Nat.ltb_spec c m), (Nat.ltb_spec c (S m)), (Nat.eqb_spec m c); subst; try lia; lra. }
    rewrite (sumn_ext n (fun j => (rho * u c * u j + (if Nat.eqb j c then p else 0)) * A j)
               (fun j => rho * u c * (u j * A j) + (if Nat.eqb j c then p else 0) * A j)) by (intros; lra).
    rewrite sumn_plus, (sumn_scal n (rho * u c)), D, Ec. reflexivity.
  - destruct (Nat.eqb c n).
    + rewrite <- sumn_scal. apply sumn_ext; intros; lra.
    + rewrite <- sumn_scal. apply sumn_ext; intros; lra.
Qed.

Lemma sumn_lsum {A} n (f : nat -> A -> R) l : sumn n (fun j => lsum (f j) l) = lsum (fun x => sumn n (fun j => f j x)) l.
Proof.
  induction n; [symmetry; apply lsum_zero; intros; reflexivity|].
  rewrite sumn_S, IHn, <- lsum_plus. apply lsum_ext; intros; rewrite sumn_S; reflexivity.
Qed.

(** ** C55: free stream.  A uniform flow at any Mach number, on any mesh, leaves every node whose
    dual control volume is closed by edges with a zero right-hand side. *)
Theorem C55_free_stream_preserved : forall n g es rho u p H T cs i c,
  0 < cs -> (forall e, In e es -> 0 < e_asq n e) ->
  (forall k, gas_state_is n g k rho u p H T cs) ->
  (forall j, (j < n)%nat -> edge_area_at es i j = 0) ->
  gas_edge_loop n g es (fun _ _ => 0) i c = 0.
Proof.
  intros n g es rho u p H T cs i c Hcs HA HS HC. rewrite edge_loop_value.
  set (w := euler_w n rho u p H c).
  rewrite (lsum_ext _ (fun e => sumn n (fun j => (- w j) * ((if Nat.eqb i (eL e) then eA e j else 0) - (if Nat.eqb i (eR e) then eA e j else 0))))).
  2:{ intros e He. rewrite (C55_flux_consistent n g e rho u p H T cs c (HA e He) Hcs (HS _) (HS _)).
      rewrite euler_flux_linear. fold w.
      destruct (Nat.eqb i (eL e)), (Nat.eqb i (eR e)).
      - rewrite (sumn_ext n (fun j => - w j * (eA e j - eA e j)) (fun j => 0 * 0)), sumn_scal by (intros; lra). lra.
      - rewrite (sumn_ext n (fun j => - w j * (eA e j - 0)) (fun j => (-1) * (w j * eA e j))), sumn_scal by (intros; lra). lra.
      - rewrite (sumn_ext n (fun j => - w j * (0 - eA e j)) (fun j => w j * eA e j)) by (intros; lra). lra.
      - rewrite (sumn_ext n (fun j => - w j * (0 - 0)) (fun j => 0 * 0)), sumn_scal by (intros; lra). lra. }
  rewrite <- sumn_lsum.
  rewrite (sumn_ext n _ (fun j => 0 * 0)), sumn_scal; [lra|].
  intros j Hj. rewrite lsum_scal. fold (edge_area_at es i j). rewrite (HC j Hj). lra.
Qed.

(** ** C55: the advected quantity is that of the node the gas comes from: whichever way the mass
    flux goes, momentum and total enthalpy are carried at the donor's mass-specific values. *)
Theorem C55_donor_cell : forall n g e,
  0 < e_asq n e -> 0 < g_c g (eL e) -> 0 < g_c g (eR e) -> 0 < g_rho g (eL e) -> 0 < g_rho g (eR e) ->
  let mass := gas_flux n g e n in
  let donor := if Rlt_dec 0 mass then eL e else eR e in
  g_fe n g e = mass * (g_H g donor / g_rho g donor)
  /\ forall i, (i < n)%nat ->
     g_fm n g e i = mass * (g_mom g donor i / g_rho g donor) + g_pLR n g e * eA e i.
Proof.
  intros n g e HA HcL HcR HrL HrR mass donor.
  assert (Ha : 0 < g_amag n e) by (apply sqrt_lt_R0; exact HA).
  assert (Em : mass = g_fc n g e).
  { unfold mass, gas_flux. rewrite Nat.ltb_irrefl, Nat.eqb_refl. reflexivity. }
  remember (g_mLR n g e) as m eqn:Hmdef.
  assert (ADp : forall a b, 0 <= m -> g_adv (g_amag n e) m a b = g_amag n e * m * a).
  { intros a b Hm. unfold g_adv. rewrite Rabs_right by lra. lra. }
  assert (ADn : forall a b, m <= 0 -> g_adv (g_amag n e) m a b = g_amag n e * m * b).
  { intros a b Hm. unfold g_adv. rewrite Rabs_left1 by lra. lra. }
  unfold g_fe, g_fm, g_fc in *. rewrite <- Hmdef in *.
  pose proof (Rmult_lt_0_compat _ _ HrL HcL) as PL. pose proof (Rmult_lt_0_compat _ _ HrR HcR) as PR.
  destruct (Rlt_dec 0 m) as [Hm|Hm].
  - rewrite ADp in Em by lra.
    assert (0 < mass).
    { rewrite Em. apply Rmult_lt_0_compat; [apply Rmult_lt_0_compat; assumption|exact PL]. }
    unfold donor. destruct (Rlt_dec 0 mass); [|lra]. rewrite Em.
    split; [|intros i _]; rewrite ADp by lra; field; lra.
  - rewrite ADn in Em by lra.
    assert (mass <= 0).
    { rewrite Em. pose proof (Rmult_lt_0_compat _ _ Ha PR). assert (g_amag n e * m * (g_rho g (eR e) * g_c g (eR e)) = m * (g_amag n e * (g_rho g (eR e) * g_c g (eR e)))) as -> by lra.
      nra. }
    unfold donor. destruct (Rlt_dec 0 mass); [lra|]. rewrite Em.
    split; [|intros i _]; rewrite ADn by lra; field; lra.
Qed.

(** ** C55: supersonic from left to right with one speed of sound: the inviscid flux is the left
    node's Euler flux, whatever the right state. *)
Theorem C55_supersonic_takes_upstream : forall n g e rho u p H T cs,
  0 < e_asq n e -> 0 < cs -> gas_state_is n g (eL e) rho u p H T cs -> g_c g (eR e) = cs ->
  cs * sqrt (e_asq n e) <= dot n u (eA e) -> cs * sqrt (e_asq n e) <= dot n (g_vrtm g (eR e)) (eA e) ->
  g_fc n g e = rho * dot n u (eA e) /\ g_fe n g e = H * dot n u (eA e)
  /\ forall i, (i < n)%nat -> g_fm n g e i = rho * u i * dot n u (eA e) + p * eA e i.
Proof.
  intros n g e rho u p H T cs HA Hcs SL ER ML MR.
  destruct SL as (L1 & L2 & L3 & L4 & L5 & L6).
  assert (Ha : 0 < g_amag n e) by (apply sqrt_lt_R0; exact HA).
  assert (Hc : (1/2)*(g_c g (eL e) + g_c g (eR e)) = cs) by (rewrite L5, ER; lra).
  pose proof (mach_val n g e (eL e) HA ltac:(rewrite Hc; lra)) as VL. rewrite Hc in VL.
  pose proof (mach_val n g e (eR e) HA ltac:(rewrite Hc; lra)) as VR. rewrite Hc in VR.
  rewrite (dot_ext n (g_vrtm g (eL e)) u) in VL by (intros j Hj; apply (L6 j Hj)).
  fold (g_amag n e) in ML, MR.
  assert (K : forall d m, g_amag n e * m = d / cs -> cs * g_amag n e <= d -> 1 <= m).
  { intros d m E L. assert (E2 : g_amag n e * m * cs = d) by (rewrite E; field; lra).
    apply Rmult_le_reg_l with (cs * g_amag n e); [apply Rmult_lt_0_compat; assumption|]. lra. }
  pose proof (K _ _ VL ML) as KL. pose proof (K _ _ VR MR) as KR.
  assert (Em : g_mLR n g e = g_mach n g e (eL e)).
  { unfold g_mLR. rewrite scriptMp_super, scriptMm_super by assumption. lra. }
  assert (Ep : g_pLR n g e = p).
  { unfold g_pLR. rewrite scriptPp_super, scriptPm_super by assumption. rewrite L2. lra. }
  assert (AD : forall f b, g_adv (g_amag n e) (g_mLR n g e) (f * cs) b = f * dot n u (eA e)).
  { intros f b. unfold g_adv. rewrite Em, Rabs_right by lra.
    transitivity (g_amag n e * g_mach n g e (eL e) * f * cs); [lra|]. rewrite VL. field. lra. }
  unfold g_fc, g_fe, g_fm. rewrite L5, L1, L3, !AD, Ep. repeat split.
  intros i Hi. rewrite (proj2 (proj2 (L6 i Hi))), AD. lra.
Qed.

(** ** C55: viscous terms.  The viscous momentum exchange removes kinetic energy, the work term of the
    energy equation is the midpoint velocity times that momentum flux, and heat flows from hot to cold. *)
Lemma sumn_sq_nonneg n (f : nat -> R) : 0 <= sumn n (fun j => f j * f j).
Proof. apply sumn_nonneg; intros. apply Rle_0_sqr. Qed.

Theorem C55_viscous_flux_dissipates : forall n g e,
  0 < e_axdx n (g_x g) e -> 0 <= g_mu g (eL e) + g_mu g (eR e) -> 0 <= g_kappa g (eL e) + g_kappa g (eR e) ->
  let du := fun i => g_vel g (eR e) i - g_vel g (eL e) i in
  let uip := fun i => (g_vel g (eL e) i + g_vel g (eR e) i)/2 in
  let F := fun i => g_dfm n g e i in
  sumn n (fun i => F i * du i) <= 0
  /\ exists q, g_dfe n g e = sumn n (fun i => uip i * F i) + q
               /\ q * (g_T g (eR e) - g_T g (eL e)) <= 0.
Proof.
  intros n g e HA Hmu Hk du uip F.
  assert (FV : forall i, (i < n)%nat -> F i = - sumn n (fun j => g_tau n g e i j * eA e j)).
  { intros i Hi. unfold F. rewrite dfm_val. replace (Nat.ltb i n) with true by (symmetry; apply Nat.ltb_lt; exact Hi). lra. }
  set (ax := e_axdx n (g_x g) e) in *. set (mu := g_muIp g e).
  assert (Hm : 0 <= mu) by (unfold mu, g_muIp; lra).
  assert (Gd : forall i j, g_dudx n g e i j = du i * eA e j * / ax) by (intros; unfold g_dudx, du; fold ax; unfold Rdiv; lra).
  set (S := dot n du (eA e)).
  assert (DV : g_divU n g e = S * / ax).
  { unfold g_divU, S. rewrite <- dot_scale. apply sumn_ext; intros; apply Gd. }
  assert (TA : forall i, (i < n)%nat -> sumn n (fun j => g_tau n g e i j * eA e j)
      = mu * / ax * (du i * e_asq n e + S * eA e i - 2/3 * S * eA e i)).
  { intros i Hi. pose proof (FV i Hi) as E. unfold F, g_dfm in E. rewrite fold_plus_seq in E. fold mu in E. rewrite DV in E.
    rewrite (sumn_ext n (fun j => - mu * (g_dudx n g e i j + g_dudx n g e j i) * eA e j)
       (fun j => (- mu * / ax * du i) * (eA e j * eA e j) + (- mu * / ax * eA e i) * (du j * eA e j))) in E
      by (intros; rewrite !Gd; lra).
    rewrite sumn_plus, !sumn_scal in E. fold (e_asq n e) in E. fold (dot n du (eA e)) in E. fold S in E. lra. }
  assert (Hi : 0 < / ax) by (apply Rinv_0_lt_compat; exact HA).
  split.
  - rewrite (sumn_ext n _ (fun i => (- mu * / ax * e_asq n e) * (du i * du i) + (- mu * / ax * (1/3) * S) * (du i * eA e i))).
    2:{ intros i Hi'. rewrite (FV i Hi'), (TA i Hi'). lra. }
    rewrite sumn_plus, !sumn_scal. fold (dot n du (eA e)). fold S.
    pose proof (sumn_sq_nonneg n du) as Q1. pose proof (sumn_sq_nonneg n (eA e)) as Q2. fold (e_asq n e) in Q2.
    assert (0 <= mu * / ax) by (apply Rmult_le_pos; lra).
    assert (0 <= mu * / ax * (e_asq n e * sumn n (fun j => du j * du j))) by (apply Rmult_le_pos; [assumption|apply Rmult_le_pos; assumption]).
    assert (0 <= mu * / ax * (S * S)) by (apply Rmult_le_pos; [assumption|apply Rle_0_sqr]).
    lra.
  - exists (- ((1/2)*(g_kappa g (eL e) + g_kappa g (eR e))) * e_asq n e * (1 / ax) * (g_T g (eR e) - g_T g (eL e))).
    split.
    + rewrite dfe_val. fold ax.
      rewrite (sumn_ext n (fun i => uip i * F i) (fun i => (-1) * (1 / 2 * (g_vel g (eR e) i + g_vel g (eL e) i) * sumn n (fun j => g_tau n g e i j * eA e j)))).
      2:{ intros i Hi'. rewrite (FV i Hi'). unfold uip. lra. }
      rewrite sumn_scal. lra.
    + pose proof (sumn_sq_nonneg n (eA e)) as Q2. fold (e_asq n e) in Q2.
      set (dT := g_T g (eR e) - g_T g (eL e)).
      assert (0 <= (g_kappa g (eL e) + g_kappa g (eR e)) * e_asq n e * / ax * (dT * dT)).
      { apply Rmult_le_pos; [|apply Rle_0_sqr]. apply Rmult_le_pos; [|lra]. apply Rmult_le_pos; assumption. }
      unfold Rdiv. lra.
Qed.

(* ------------------------------------------------------------------ a concrete edge *)
(** 2-d, node 0 at the origin, node 1 at (1,0), unit area *)
Definition ex_edge : edge := mkEdge 0 1 (fun j => match j with O => 1 | _ => 0 end).
Definition ex_gas (u0 u1 rho0 rho1 p0 p1 c0 c1 : R) : gas_fields :=
  let s := fun a b (k : nat) => match k with O => a | _ => b end in
  let v := fun a b (k j : nat) => match j with O => s a b k | _ => 0 end in
  mkGas (v 0 1) (s rho0 rho1) (v (rho0*u0) (rho1*u1)) (v u0 u1) (v u0 u1)
        (s (rho0*3) (rho1*3)) (s p0 p1) (s 1 1) (s c0 c1) (s 1 1) (s 1 1).
Example ex_edge_area : e_asq 2 ex_edge = 1 /\ g_amag 2 ex_edge = 1 /\ e_axdx 2 (g_x (ex_gas 0 0 1 1 1 1 1 1)) ex_edge = 1.
Proof.
  assert (E : e_asq 2 ex_edge = 1) by (unfold e_asq, ex_edge, sumn; cbn; lra).
  repeat split; [exact E| |].
  - unfold g_amag. rewrite E. apply sqrt_1.
  - unfold e_axdx, dxj, ex_edge, ex_gas, sumn; cbn. lra.
Qed.
(** the hypotheses of C55_flux_consistent and C55_free_stream_preserved are met by a uniform flow *)
Example C55_uniform_state_exists : forall k,
  gas_state_is 2 (ex_gas 2 2 3 3 5 5 1 1) k 3 (fun j => match j with O => 2 | _ => 0 end) 5 9 1 1.
Proof.
  intros k. unfold gas_state_is, ex_gas; cbn. destruct k; repeat split; try lra; destruct j; lra.
Qed.
Example C55_closed_node : forall j, edge_area_at [mkEdge 0 1 (eA ex_edge); mkEdge 1 2 (eA ex_edge)] 1 j = 0.
Proof. intros j. unfold edge_area_at, lsum; cbn. destruct j; lra. Qed.

(** ** C55, what does not hold: with different speeds of sound on the two sides (any temperature
    jump) the supersonic interface flux is not the upstream state's flux: the Mach numbers are formed
    with the mean speed of sound but the flux is multiplied back with the donor's own.
    Here rho = 1, u = 4 through unit area: upstream mass flux 4, code's 16/5. *)
Theorem C55_supersonic_takes_upstream_refuted :
  exists n g e, 0 < e_asq n e /\ 0 < g_c g (eL e) /\ 0 < g_c g (eR e)
    /\ g_c g (eL e) * sqrt (e_asq n e) <= dot n (g_vrtm g (eL e)) (eA e)
    /\ g_c g (eR e) * sqrt (e_asq n e) <= dot n (g_vrtm g (eR e)) (eA e)
    /\ gas_flux n g e n <> g_rho g (eL e) * dot n (g_vrtm g (eL e)) (eA e).
Proof.
  exists 2%nat, (ex_gas 4 4 1 1 1 1 2 3), ex_edge. destruct ex_edge_area as (EA & EM & _).
  assert (D0 : dot 2 (g_vrtm (ex_gas 4 4 1 1 1 1 2 3) (eL ex_edge)) (eA ex_edge) = 4) by (unfold dot, sumn, ex_gas; cbn; lra).
  assert (D1 : dot 2 (g_vrtm (ex_gas 4 4 1 1 1 1 2 3) (eR ex_edge)) (eA ex_edge) = 4) by (unfold dot, sumn, ex_gas; cbn; lra).
  rewrite D0, D1, EA, sqrt_1. cbn [ex_gas g_c g_rho eL eR ex_edge].
  do 5 (split; [lra|]).
  assert (M0 : forall k, (k < 2)%nat -> g_mach 2 (ex_gas 4 4 1 1 1 1 2 3) ex_edge k = 8/5).
  { intros k Hk.
    pose proof (mach_val 2 (ex_gas 4 4 1 1 1 1 2 3) ex_edge k ltac:(rewrite EA; lra) ltac:(cbn; lra)) as V.
    rewrite EM in V.
    assert (D : dot 2 (g_vrtm (ex_gas 4 4 1 1 1 1 2 3) k) (eA ex_edge) = 4) by (destruct k as [|[|]]; [exact D0|exact D1|lia]).
    rewrite D in V. cbn [ex_gas g_c eL eR ex_edge] in V. lra. }
  change (gas_flux 2 (ex_gas 4 4 1 1 1 1 2 3) ex_edge 2) with (g_fc 2 (ex_gas 4 4 1 1 1 1 2 3) ex_edge).
  unfold g_fc, g_mLR. rewrite (M0 (eL ex_edge)), (M0 (eR ex_edge)) by (cbn; lia).
  rewrite scriptMp_super, scriptMm_super by lra. rewrite EM. unfold g_adv. rewrite Rabs_right by lra.
  cbn [ex_gas g_c g_rho eL eR ex_edge]. lra.
Qed.
