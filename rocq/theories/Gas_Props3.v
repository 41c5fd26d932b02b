(** C56: conversions between conserved and primitive state.  C57: symmetry and open boundaries. *)
Require Import Reals List Bool Lra Lia Psatz PeanoNat.
From Verif Require Import Edge_Model Edge_Proofs Gas_Model Gas_Spec Gas_Props Gas_Props2.
Import ListNotations.
Open Scope R_scope.

Lemma usq_ext n u v : (forall j, (j < n)%nat -> u j = v j) -> usq n u = usq n v.
Proof. intros E. apply sumn_ext; intros j Hj. rewrite (E j Hj). reflexivity. Qed.
Lemma usq_nonneg n u : 0 <= usq n u. Proof. apply sumn_nonneg; intros; apply Rle_0_sqr. Qed.

(** ** C56: primitive -> conserved -> primitive is the identity. *)
Theorem C56_primitive_round_trip : forall n gamma rho u p,
  rho <> 0 -> gamma <> 1 ->
  let mom := compute_momentum rho u in
  let rhoE := compute_total_energy n p gamma rho u in
  (forall j, compute_velocity rho mom j = u j)
  /\ compute_pressure n gamma rhoE rho (compute_velocity rho mom) = p.
Proof.
  intros n gamma rho u p Hr Hg mom rhoE.
  assert (V : forall j, compute_velocity rho mom j = u j).
  { intros j. unfold compute_velocity, mom, compute_momentum. field. exact Hr. }
  split; [exact V|]. unfold compute_pressure. rewrite (usq_ext n _ u) by (intros; apply V).
  unfold rhoE, compute_total_energy. field. lra.
Qed.

(** ** C56: conserved -> primitive -> conserved is the identity. *)
Theorem C56_conserved_round_trip : forall n gamma cp cv rho mom rhoE,
  rho <> 0 -> gamma <> 1 ->
  let q := aux_update n gamma cp cv rho mom rhoE in
  (forall j, compute_momentum rho (m_u q) j = mom j)
  /\ compute_total_energy n (m_p q) gamma rho (m_u q) = rhoE.
Proof.
  intros n gamma cp cv rho mom rhoE Hr Hg q. split.
  - intros j. unfold q, aux_update, compute_momentum, compute_velocity; cbn [m_u]. field. exact Hr.
  - unfold q, aux_update, compute_total_energy, compute_pressure; cbn [m_u m_p]. field. lra.
Qed.

(** ** C56: for an ideal gas (gamma = cp/cv) the updated primitive fields satisfy the equation of
    state, total enthalpy = total energy + pressure, c^2 = gamma R T and M = |u|/c. *)
Theorem C56_aux_update_thermodynamically_consistent : forall n gamma cp cv rho mom rhoE,
  0 < cv -> cv < cp -> gamma = cp/cv -> 0 < rho ->
  sumn n (fun j => mom j * mom j) / (2*rho) < rhoE ->
  let q := aux_update n gamma cp cv rho mom rhoE in
  0 < m_p q /\ 0 < m_T q
  /\ m_p q = rho*(cp - cv)*m_T q
  /\ m_H q = rhoE + m_p q
  /\ 0 < m_c q /\ m_c q * m_c q = gamma*(cp - cv)*m_T q
  /\ (m_M q * m_c q)*(m_M q * m_c q) = sumn n (fun j => m_u q j * m_u q j)
  /\ 0 <= m_M q.
Proof.
  intros n gamma cp cv rho mom rhoE Hcv Hcp Hg Hr HE q.
  assert (U : usq n (m_u q) = sumn n (fun j => mom j * mom j) / (rho*rho)).
  { unfold q, aux_update, usq; cbn [m_u]. unfold compute_velocity.
    transitivity (/ (rho*rho) * sumn n (fun j => mom j * mom j)); [|unfold Rdiv; ring].
    rewrite <- sumn_scal. apply sumn_ext; intros. field. lra. }
  set (ke := sumn n (fun j => mom j * mom j)) in *.
  assert (P : m_p q = (gamma - 1)*(rhoE - ke/(2*rho))).
  { unfold q, aux_update, compute_pressure; cbn [m_p]. change (compute_velocity rho mom) with (m_u q). rewrite U. field. lra. }
  assert (T : m_T q = (rhoE - ke/(2*rho))/(rho*cv)).
  { unfold q, aux_update, compute_temperature; cbn [m_T]. change (compute_velocity rho mom) with (m_u q). rewrite U. field. lra. }
  assert (G : 0 < gamma - 1).
  { rewrite Hg. assert (1 < cp/cv) by (apply Rmult_lt_reg_r with cv; [assumption|]; unfold Rdiv; rewrite Rmult_assoc, Rinv_l by lra; lra). lra. }
  assert (PP : 0 < m_p q) by (rewrite P; apply Rmult_lt_0_compat; lra).
  assert (TT : 0 < m_T q) by (rewrite T; apply Rdiv_lt_0_compat; [lra|apply Rmult_lt_0_compat; assumption]).
  assert (EOS : m_p q = rho*(cp - cv)*m_T q) by (rewrite P, T, Hg; field; lra).
  assert (CC : 0 < gamma * m_p q / rho) by (apply Rdiv_lt_0_compat; [apply Rmult_lt_0_compat; lra|assumption]).
  assert (C0 : m_c q = sqrt (gamma * m_p q / rho)) by reflexivity.
  assert (C1 : 0 < m_c q) by (rewrite C0; apply sqrt_lt_R0; exact CC).
  assert (C2 : m_c q * m_c q = gamma * m_p q / rho) by (rewrite C0; apply sqrt_sqrt; lra).
  assert (M0 : m_M q = sqrt (usq n (m_u q)) / m_c q) by reflexivity.
  refine (conj PP (conj TT (conj EOS (conj _ (conj C1 (conj _ (conj _ _))))))).
  - unfold q at 1, aux_update, compute_total_enthalpy; cbn [m_H]. change (compute_velocity rho mom) with (m_u q).
    change (compute_temperature n rhoE rho cv (m_u q)) with (m_T q). rewrite U, T, P, Hg. field. lra.
  - rewrite C2, EOS. field. lra.
  - rewrite M0. replace (sqrt (usq n (m_u q)) / m_c q * m_c q) with (sqrt (usq n (m_u q))) by (field; lra).
    apply sqrt_sqrt, usq_nonneg.
  - rewrite M0. unfold Rdiv. apply Rmult_le_pos; [apply sqrt_pos|]. left. apply Rinv_0_lt_compat; exact C1.
Qed.
(** air-like numbers satisfy the hypotheses *)
Example C56_hypotheses_met :
  0 < 5/2 /\ 5/2 < 7/2 /\ 7/5 = (7/2)/(5/2) /\ 0 < 2
  /\ sumn 2 (fun j => (match j with O => 2 | _ => 4 end) * (match j with O => 2 | _ => 4 end)) / (2*2) < 30.
Proof. repeat split; try lra. unfold sumn; cbn. lra. Qed.

(** ** C56: an explicit step changes only what it should: Dirichlet nodes keep the predicted (old)
    state, and a zero right-hand side is a steady state. *)
Theorem C56_steady_when_rhs_zero : forall n dt vol dir rhs old i,
  (forall c, (c < n + 2)%nat -> rhs i c = 0) ->
  let next := gas_update n dt vol dir rhs old (gas_predict old) in
  k_rho next i = k_rho old i /\ k_rhoE next i = k_rhoE old i
  /\ forall j, (j < n)%nat -> k_mom next i j = k_mom old i j.
Proof.
  intros n dt vol dir rhs old i Hz next. unfold next, gas_update, gas_predict; cbn [k_rho k_rhoE k_mom].
  rewrite (Hz n), (Hz (S n)) by lia. repeat split; [destruct (dir i); lra|destruct (dir i); lra|].
  intros j Hj. rewrite (Hz j) by lia. destruct (dir i); lra.
Qed.

(* ------------------------------------------------------------------ boundaries *)
Lemma symmetry_value n p bs : forall r0 i c,
  gas_symmetry_loop n p bs r0 i c
  = r0 i c + lsum (fun b => if Nat.eqb i (b_node b) then (if Nat.ltb c n then - (p i * b_A b c) else 0) else 0) bs.
Proof.
  unfold gas_symmetry_loop. induction bs as [|b bs IH]; intros r0 i c; cbn [fold_left].
  - unfold lsum; cbn; lra.
  - rewrite IH. unfold lsum; cbn [map fold_right]. unfold add_to.
    destruct (Nat.eqb_spec i (b_node b)) as [->|]; [|lra]. lra.
Qed.
(** ** C57: a symmetry plane exchanges no mass and no energy, and exerts the pressure force of the
    nearest node on momentum. *)
Theorem C57_symmetry_only_pressure : forall n p bs r0 nodes,
  NoDup nodes -> (forall b, In b bs -> In (b_node b) nodes) ->
  (forall i, gas_symmetry_loop n p bs r0 i n = r0 i n /\ gas_symmetry_loop n p bs r0 i (S n) = r0 i (S n))
  /\ forall j, (j < n)%nat ->
     lsum (fun i => gas_symmetry_loop n p bs r0 i j) nodes
     = lsum (fun i => r0 i j) nodes - lsum (fun b => p (b_node b) * b_A b j) bs.
Proof.
  intros n p bs r0 nodes ND HB. split.
  - intros i. rewrite !symmetry_value. rewrite Nat.ltb_irrefl.
    replace (Nat.ltb (S n) n) with false by (symmetry; apply Nat.ltb_ge; lia).
    rewrite !lsum_zero; [split; lra|]. intros b _; destruct (Nat.eqb i (b_node b)); reflexivity.
  - intros j Hj. erewrite lsum_ext by (intros; apply symmetry_value).
    rewrite lsum_plus, lsum_comm. replace (Nat.ltb j n) with true by (symmetry; apply Nat.ltb_lt; exact Hj).
    rewrite (lsum_ext (fun y => lsum _ nodes) (fun b => (-1) * (p (b_node b) * b_A b j))).
    + rewrite lsum_scal. lra.
    + intros b Hb. rewrite <- (lsum_indicator nodes (b_node b) (-1 * (p (b_node b) * b_A b j)) ND (HB b Hb)).
      apply lsum_ext; intros i _. rewrite (Nat.eqb_sym i). destruct (Nat.eqb_spec (b_node b) i) as [<-|]; lra.
Qed.

(** ** C57: gas at rest and uniform pressure inside a box of symmetry planes stays at rest, on any
    mesh whose dual volumes are closed by edges and boundary faces. *)
Theorem C57_rest_state_preserved : forall n g es bs rho p H T cs i c,
  0 < cs -> (forall e, In e es -> 0 < e_asq n e) ->
  (forall k, gas_state_is n g k rho (fun _ => 0) p H T cs) ->
  (forall j, (j < n)%nat ->
     edge_area_at es i j + lsum (fun b => if Nat.eqb i (b_node b) then b_A b j else 0) bs = 0) ->
  gas_symmetry_loop n (g_p g) bs (gas_edge_loop n g es (fun _ _ => 0)) i c = 0.
Proof.
  intros n g es bs rho p H T cs i c Hcs HA HS HC. rewrite symmetry_value, edge_loop_value.
  assert (Pi : g_p g i = p) by apply (HS i). rewrite Pi.
  rewrite (lsum_ext (fun e => _ - _) (fun e => (- (if Nat.ltb c n then p else 0)) *
      ((if Nat.eqb i (eL e) then eA e c else 0) - (if Nat.eqb i (eR e) then eA e c else 0)))).
  2:{ intros e He. rewrite (C55_flux_consistent n g e rho (fun _ => 0) p H T cs c (HA e He) Hcs (HS _) (HS _)).
      assert (D : dot n (fun _ => 0) (eA e) = 0).
      { unfold dot. rewrite sumn_scal. lra. }
      unfold euler_flux. rewrite D.
      destruct (Nat.ltb c n), (Nat.eqb c n), (Nat.eqb i (eL e)), (Nat.eqb i (eR e)); lra. }
  rewrite lsum_scal. fold (edge_area_at es i c).
  destruct (Nat.ltb_spec c n) as [Hc|Hc].
  - rewrite (lsum_ext (fun b => if Nat.eqb i (b_node b) then - (p * b_A b c) else 0)
              (fun b => (- p) * (if Nat.eqb i (b_node b) then b_A b c else 0))).
    2:{ intros b _. destruct (Nat.eqb i (b_node b)); lra. }
    rewrite lsum_scal. specialize (HC c Hc). nra.
  - rewrite (lsum_zero (fun b => if Nat.eqb i (b_node b) then 0 else 0)); [lra|].
    intros b _. destruct (Nat.eqb i (b_node b)); reflexivity.
Qed.
Example C57_closed_corner : forall j, (j < 2)%nat ->
  edge_area_at [ex_edge] 0 j
  + lsum (fun b => if Nat.eqb 0 (b_node b) then b_A b j else 0) [mkBip 0 (fun j => match j with O => -1 | _ => 0 end)] = 0.
Proof. intros j Hj. unfold edge_area_at, lsum, ex_edge; cbn. destruct j; lra. Qed.

(* ------------------------------------------------------------------ open boundary *)
Lemma ob_mach_val n v A c : 0 < sumn n (fun i => A i * A i) -> c <> 0 ->
  b_amag n A * ob_mach n v A c = dot n v A / c.
Proof.
  intros HA Hc. assert (Ha : b_amag n A <> 0) by (apply Rgt_not_eq, sqrt_lt_R0; exact HA).
  unfold ob_mach. transitivity (dot n v A * / c); [|reflexivity].
  rewrite <- sumn_scal, <- dot_scale. apply sumn_ext; intros. field. split; assumption.
Qed.
Lemma ob_inout_val n v A : 0 < sumn n (fun i => A i * A i) -> b_amag n A * ob_inout n v A = dot n v A.
Proof.
  intros HA. assert (Ha : b_amag n A <> 0) by (apply Rgt_not_eq, sqrt_lt_R0; exact HA).
  unfold ob_inout. rewrite <- sumn_scal. unfold dot. apply sumn_ext; intros. field. exact Ha.
Qed.
Lemma scriptMm_open_eq m : scriptMm_open m = scriptMm m.
Proof.
  unfold scriptMm_open, scriptMm, pow2. destruct (Rlt_dec 1 (Rabs m)) as [H|H], (Rle_dec 1 (Rabs m)) as [K|K]; try lra.
  assert (E : Rabs m = 1) by lra. destruct (super_cases m K) as [C|C].
  - rewrite Rabs_right in E by lra. subst m. rewrite Rabs_right by lra. lra.
  - rewrite Rabs_left in E by lra. assert (m = -1) by lra. subst m. rewrite Rabs_left by lra. lra.
Qed.

(** ** C57: outflow (velocity along the exposed area vector): mass, momentum and energy leave at the
    interior node's values, the mass flux is never into the domain, and at supersonic outflow it is
    exactly rho u.A with the full pressure force. *)
Theorem C57_outflow : forall n o b,
  let k := b_node b in let A := b_A b in
  0 < sumn n (fun i => A i * A i) -> 0 < o_rho o k -> 0 < o_bcp o k -> 0 < o_gamma o k ->
  0 < dot n (o_vrtm o k) A ->
  let mass := open_flux n o b n in
  0 <= mass
  /\ open_flux n o b (S n) = mass * (o_H o k / o_rho o k)
  /\ (forall i, (i < n)%nat -> exists w, 0 <= w <= 1
        /\ open_flux n o b i = mass * (o_mom o k i / o_rho o k) + w * o_bcp o k * A i)
  /\ (sqrt (o_gamma o k * o_bcp o k / o_rho o k) * sqrt (sumn n (fun i => A i * A i)) <= dot n (o_vrtm o k) A ->
      mass = o_rho o k * dot n (o_vrtm o k) A
      /\ forall i, (i < n)%nat ->
         open_flux n o b i = o_mom o k i * dot n (o_vrtm o k) A + o_bcp o k * A i).
Proof.
  intros n o b k A HA Hr Hp Hg HV mass.
  assert (Ha : 0 < b_amag n A) by (apply sqrt_lt_R0; exact HA).
  pose proof (ob_inout_val n (o_vrtm o k) A HA) as IO.
  assert (Hio : 0 < ob_inout n (o_vrtm o k) A).
  { apply Rmult_lt_reg_l with (b_amag n A); [exact Ha|]. rewrite IO. lra. }
  set (cs := sqrt (o_gamma o k * o_bcp o k / o_rho o k)).
  assert (Hcs : 0 < cs).
  { apply sqrt_lt_R0. apply Rdiv_lt_0_compat; [apply Rmult_lt_0_compat; assumption|assumption]. }
  set (m := ob_mach n (o_vrtm o k) A cs).
  assert (MV : b_amag n A * m = dot n (o_vrtm o k) A / cs) by (apply ob_mach_val; [exact HA|lra]).
  assert (F : forall c, open_flux n o b c =
     if Nat.ltb c n then b_amag n A * scriptMp m * o_mom o k c * cs + scriptPp m * o_bcp o k * A c
     else if Nat.eqb c n then b_amag n A * scriptMp m * o_rho o k * cs
     else b_amag n A * scriptMp m * o_H o k * cs).
  { intros c. unfold open_flux. fold k A. destruct (Rlt_dec 0 (ob_inout n (o_vrtm o k) A)); [reflexivity|lra]. }
  assert (Em : mass = b_amag n A * scriptMp m * o_rho o k * cs).
  { unfold mass. rewrite F, Nat.ltb_irrefl, Nat.eqb_refl. reflexivity. }
  destruct (C55_splits_partition m) as (_ & _ & Q1 & _ & Q2 & _ & Q3 & _).
  split; [|split; [|split]].
  - rewrite Em. repeat apply Rmult_le_pos; lra.
  - rewrite F, Em. replace (Nat.ltb (S n) n) with false by (symmetry; apply Nat.ltb_ge; lia).
    replace (Nat.eqb (S n) n) with false by (symmetry; apply Nat.eqb_neq; lia). field. lra.
  - intros i Hi. exists (scriptPp m). split; [exact Q2|]. rewrite F, Em.
    replace (Nat.ltb i n) with true by (symmetry; apply Nat.ltb_lt; exact Hi). field. lra.
  - intros HS. fold cs in HS. change (sqrt (sumn n (fun i => A i * A i))) with (b_amag n A) in HS.
    assert (M1 : 1 <= m).
    { assert (E2 : b_amag n A * m * cs = dot n (o_vrtm o k) A) by (rewrite MV; field; lra).
      apply Rmult_le_reg_l with (cs * b_amag n A); [apply Rmult_lt_0_compat; assumption|]. lra. }
    destruct (Q3 M1) as [E1 E2]. split.
    + rewrite Em, E1, MV. field. lra.
    + intros i Hi. rewrite F, E1, E2. replace (Nat.ltb i n) with true by (symmetry; apply Nat.ltb_lt; exact Hi).
      rewrite MV. field. lra.
Qed.

(** ** C57: inflow never lets mass out, and carries momentum at the node's velocity. *)
Theorem C57_inflow_partial : forall n o b,
  let k := b_node b in let A := b_A b in
  0 < o_rho o k -> dot n (o_vrtm o k) A <= 0 -> 0 < sumn n (fun i => A i * A i) ->
  let mass := open_flux n o b n in
  mass <= 0
  /\ forall i, (i < n)%nat -> exists f, open_flux n o b i = mass * (o_mom o k i / o_rho o k) + f * A i.
Proof.
  intros n o b k A Hr HV HA mass.
  assert (Ha : 0 < b_amag n A) by (apply sqrt_lt_R0; exact HA).
  pose proof (ob_inout_val n (o_vrtm o k) A HA) as IO.
  assert (Hio : ~ 0 < ob_inout n (o_vrtm o k) A).
  { intros C. pose proof (Rmult_lt_0_compat _ _ Ha C). lra. }
  unfold mass, open_flux. fold k A.
  destruct (Rlt_dec 0 (ob_inout n (o_vrtm o k) A)) as [|_]; [contradiction|].
  rewrite Nat.ltb_irrefl, Nat.eqb_refl.
  set (ps := o_bcp o k - 1 / 2 * o_rho o k * ob_uSq n (o_vrtm o k)).
  set (cs := sqrt (o_gamma o k * ps / o_rho o k)). set (m := ob_mach n (o_vrtm o k) A cs).
  rewrite scriptMm_open_eq. destruct (C55_splits_partition m) as (_ & _ & _ & Q & _).
  assert (0 <= cs) by apply sqrt_pos.
  split.
  - assert (0 <= b_amag n A * (- scriptMm m) * o_rho o k * cs) by (repeat apply Rmult_le_pos; lra). lra.
  - intros i Hi. exists (scriptPm m * ps).
    replace (Nat.ltb i n) with true by (symmetry; apply Nat.ltb_lt; exact Hi). field. lra.
Qed.

(** ** C57, what does not hold: the total pressure at an inflow is turned into a static pressure with
    the sum of the velocity components instead of their squares (line 164), so for inflow along a
    negative axis direction the pressure force exceeds specified total pressure times area.
    Here u = (-4, 0), rho = 1, gamma = 1, total pressure 2, unit area: the momentum flux less the
    advected momentum is 4. *)
Theorem C57_inflow_static_below_total_refuted :
  exists n (o : gas_open) (b : bip), let k := b_node b in
    0 < o_rho o k /\ dot n (o_vrtm o k) (b_A b) < 0 /\ 0 < b_A b 0%nat
    /\ (forall i, (i < n)%nat -> o_mom o k i = o_rho o k * o_vrtm o k i)
    /\ o_bcp o k * b_A b 0%nat < open_flux n o b 0 - open_flux n o b n * o_vrtm o k 0%nat.
Proof.
  set (o := mkOpen (fun _ => 1) (fun _ j => match j with O => -4 | _ => 0 end)
    (fun _ j => match j with O => -4 | _ => 0 end) (fun _ => 1) (fun _ => 2) (fun _ => 1) (fun _ => 1) (fun _ => 1)).
  set (b := mkBip 0 (fun j => match j with O => 1 | _ => 0 end)).
  exists 2%nat, o, b. cbv zeta.
  assert (A1 : sumn 2 (fun i => b_A b i * b_A b i) = 1) by (unfold sumn, b; cbn; lra).
  assert (AM : b_amag 2 (b_A b) = 1) by (unfold b_amag; rewrite A1; apply sqrt_1).
  assert (D : dot 2 (o_vrtm o (b_node b)) (b_A b) = -4) by (unfold dot, sumn, o, b; cbn; lra).
  rewrite D. split; [unfold o, b; cbn; lra|]. split; [lra|]. split; [unfold b; cbn; lra|]. split.
  { intros i _. unfold o, b; cbn. destruct i; lra. }
  pose proof (ob_inout_val 2 (o_vrtm o (b_node b)) (b_A b) ltac:(rewrite A1; lra)) as IO. rewrite AM, D in IO.
  pose proof (ob_mach_val 2 (o_vrtm o (b_node b)) (b_A b) 2 ltac:(rewrite A1; lra) ltac:(lra)) as MV. rewrite AM, D in MV.
  assert (US : ob_uSq 2 (o_vrtm o (b_node b)) = -4) by (unfold ob_uSq, sumn, o, b; cbn; lra).
  assert (CS : sqrt (o_gamma o (b_node b) * (o_bcp o (b_node b) - 1/2 * o_rho o (b_node b) * -4) / o_rho o (b_node b)) = 2).
  { replace (o_gamma o (b_node b) * (o_bcp o (b_node b) - 1/2 * o_rho o (b_node b) * -4) / o_rho o (b_node b)) with (2*2)
      by (unfold o, b; cbn; field). apply sqrt_square; lra. }
  unfold open_flux. rewrite AM, US, CS.
  destruct (Rlt_dec 0 (ob_inout 2 (o_vrtm o (b_node b)) (b_A b))); [lra|].
  replace (ob_mach 2 (o_vrtm o (b_node b)) (b_A b) 2) with (-2) by lra.
  rewrite scriptMm_open_eq. unfold scriptMm, scriptPm, sgn. rewrite Rabs_left by lra.
  destruct (Rle_dec 1 (- -2)); [|lra]. destruct (Rlt_dec 0 (-2)); [lra|].
  change (Nat.ltb 0 2) with true. change (Nat.ltb 2 2) with false. change (Nat.eqb 2 2) with true.
  unfold o, b; cbn. lra.
Qed.

(** ** C57, what does not hold: a subsonic uniform stream leaving through an open boundary whose
    specified pressure equals the interior pressure is not a steady state: only the outgoing half of
    the split flux is applied.  At u = c/2 through unit area with rho = c = 1 the mass outflow is
    81/128 instead of 1/2. *)
Theorem C57_open_outflow_consistent_refuted :
  exists n o b, let k := b_node b in
    0 < dot n (o_vrtm o k) (b_A b) /\ 0 < o_rho o k
    /\ (forall i, (i < n)%nat -> o_mom o k i = o_rho o k * o_vrtm o k i)
    /\ open_flux n o b n <> o_rho o k * dot n (o_vrtm o k) (b_A b).
Proof.
  set (o := mkOpen (fun _ => 1) (fun _ j => match j with O => 1/2 | _ => 0 end)
    (fun _ j => match j with O => 1/2 | _ => 0 end) (fun _ => 1) (fun _ => 1) (fun _ => 1) (fun _ => 1) (fun _ => 1)).
  set (b := mkBip 0 (fun j => match j with O => 1 | _ => 0 end)).
  exists 2%nat, o, b. cbv zeta.
  assert (A1 : sumn 2 (fun i => b_A b i * b_A b i) = 1) by (unfold sumn, b; cbn; lra).
  assert (AM : b_amag 2 (b_A b) = 1) by (unfold b_amag; rewrite A1; apply sqrt_1).
  assert (D : dot 2 (o_vrtm o (b_node b)) (b_A b) = 1/2) by (unfold dot, sumn, o, b; cbn; lra).
  rewrite D. split; [lra|]. split; [unfold o, b; cbn; lra|]. split.
  { intros i _. unfold o, b; cbn. destruct i; lra. }
  pose proof (ob_inout_val 2 (o_vrtm o (b_node b)) (b_A b) ltac:(rewrite A1; lra)) as IO. rewrite AM, D in IO.
  pose proof (ob_mach_val 2 (o_vrtm o (b_node b)) (b_A b) 1 ltac:(rewrite A1; lra) ltac:(lra)) as MV. rewrite AM, D in MV.
  unfold open_flux. rewrite AM. rewrite Nat.ltb_irrefl, Nat.eqb_refl.
  destruct (Rlt_dec 0 (ob_inout 2 (o_vrtm o (b_node b)) (b_A b))); [|lra].
  replace (o_gamma o (b_node b) * o_bcp o (b_node b) / o_rho o (b_node b)) with 1 by (unfold o, b; cbn; field).
  rewrite sqrt_1. replace (ob_mach 2 (o_vrtm o (b_node b)) (b_A b) 1) with (1/2) by lra.
  unfold scriptMp, pow2. rewrite Rabs_right by lra. destruct (Rle_dec 1 (1/2)); [lra|].
  unfold o, b; cbn. lra.
Qed.
