(** C55: the compressible edge flux is conservative, consistent, upwind, orientation independent and
    dissipative. *)
Require Import Reals List Bool Lra Lia Psatz PeanoNat.
From Verif Require Import Edge_Model Edge_Proofs Gas_Model Gas_Spec.
From Coquelicot Require Import Continuity.
Import ListNotations.
Open Scope R_scope.

(* ------------------------------------------------------------------ split functions *)
Lemma scriptM_sum m : scriptMp m + scriptMm m = m.
Proof. unfold scriptMp, scriptMm, pow2. destruct (Rle_dec 1 (Rabs m)); field. Qed.
Lemma scriptP_sum m : scriptPp m + scriptPm m = 1.
Proof. unfold scriptPp, scriptPm, pow2. destruct (Rle_dec 1 (Rabs m)); field. Qed.
Lemma scriptMm_opp m : scriptMm (- m) = - scriptMp m.
Proof. unfold scriptMp, scriptMm, pow2. rewrite Rabs_Ropp. destruct (Rle_dec 1 (Rabs m)); field. Qed.
Lemma scriptMp_opp m : scriptMp (- m) = - scriptMm m.
Proof. unfold scriptMp, scriptMm, pow2. rewrite Rabs_Ropp. destruct (Rle_dec 1 (Rabs m)); field. Qed.
Lemma scriptPm_opp m : scriptPm (- m) = scriptPp m.
Proof.
  unfold scriptPp, scriptPm, pow2, sgn. rewrite Rabs_Ropp. destruct (Rle_dec 1 (Rabs m)) as [H|H]; [|field].
  destruct (Rlt_dec 0 (- m)), (Rlt_dec 0 m); try lra.
  exfalso. assert (m = 0) by lra. subst. rewrite Rabs_R0 in H. lra.
Qed.
Lemma scriptPp_opp m : scriptPp (- m) = scriptPm m.
Proof. rewrite <- (Ropp_involutive m) at 2. rewrite scriptPm_opp. reflexivity. Qed.

Lemma Rabs_lt_1 m : ~ 1 <= Rabs m -> -1 < m < 1.
Proof. intros H. apply Rnot_le_lt in H. apply Rabs_def2 in H. lra. Qed.
Lemma scriptMp_super m : 1 <= m -> scriptMp m = m.
Proof. intros H. unfold scriptMp. rewrite Rabs_right by lra. destruct (Rle_dec 1 m); lra. Qed.
Lemma scriptMm_super m : 1 <= m -> scriptMm m = 0.
Proof. intros H. unfold scriptMm. rewrite Rabs_right by lra. destruct (Rle_dec 1 m); lra. Qed.
Lemma scriptPp_super m : 1 <= m -> scriptPp m = 1.
Proof. intros H. unfold scriptPp, sgn. rewrite Rabs_right by lra. destruct (Rle_dec 1 m), (Rlt_dec 0 m); lra. Qed.
Lemma scriptPm_super m : 1 <= m -> scriptPm m = 0.
Proof. intros H. unfold scriptPm, sgn. rewrite Rabs_right by lra. destruct (Rle_dec 1 m), (Rlt_dec 0 m); lra. Qed.

Lemma scriptMp_nonneg m : 0 <= scriptMp m.
Proof.
  unfold scriptMp, pow2. destruct (Rle_dec 1 (Rabs m)) as [H|H].
  - pose proof (Rle_abs (- m)) as Q. rewrite Rabs_Ropp in Q. lra.
  - pose proof (Rle_0_sqr (m+1)) as A. pose proof (Rle_0_sqr (m*m-1)) as B. unfold Rsqr in *. lra.
Qed.
Lemma scriptPp_nonneg m : 0 <= scriptPp m.
Proof.
  unfold scriptPp, sgn, pow2. destruct (Rle_dec 1 (Rabs m)) as [H|H].
  - destruct (Rlt_dec 0 m); lra.
  - apply Rabs_lt_1 in H.
    replace (1 / 4 * ((m + 1) * (m + 1)) * (2 - m) + 3 / 16 * m * ((m * m - 1) * (m * m - 1)))
      with ((m+1)*(m+1) * ((2-m)/4 + 3/16*m*((m-1)*(m-1)))) by field.
    apply Rmult_le_pos; [apply Rle_0_sqr|].
    replace ((2 - m) / 4 + 3 / 16 * m * ((m - 1) * (m - 1)))
      with ((m+1) * (3/16*(m*m) - 9/16*m + 1/2)) by field.
    apply Rmult_le_pos; [lra|]. nra.
Qed.

(** ** C55: the Mach split functions add up to the Mach number, the pressure split functions to one;
    they are bounded, and both switch to pure upwinding at Mach one without a jump. *)
Theorem C55_splits_partition : forall m,
  scriptMp m + scriptMm m = m /\ scriptPp m + scriptPm m = 1
  /\ 0 <= scriptMp m /\ scriptMm m <= 0
  /\ 0 <= scriptPp m <= 1 /\ 0 <= scriptPm m <= 1
  /\ (1 <= m -> scriptMp m = m /\ scriptPp m = 1)
  /\ (m <= -1 -> scriptMm m = m /\ scriptPm m = 1).
Proof.
  intros m.
  pose proof (scriptM_sum m). pose proof (scriptP_sum m).
  pose proof (scriptMp_nonneg m). pose proof (scriptMp_nonneg (- m)) as Q. rewrite scriptMp_opp in Q.
  pose proof (scriptPp_nonneg m). pose proof (scriptPp_nonneg (- m)) as Q2. rewrite scriptPp_opp in Q2.
  repeat split; try lra.
  - apply scriptMp_super; assumption.
  - apply scriptPp_super; assumption.
  - pose proof (scriptMp_super (- m) ltac:(lra)) as E. rewrite scriptMp_opp in E. lra.
  - pose proof (scriptPp_super (- m) ltac:(lra)) as E. rewrite scriptPp_opp in E. lra.
Qed.

(* one formula without case distinction *)
Definition clamp1 (m : R) : R := (Rabs (m+1) - Rabs (m-1))/2.
Lemma clamp1_in m : -1 < m < 1 -> clamp1 m = m.
Proof. intros. unfold clamp1. rewrite (Rabs_right (m+1)), (Rabs_left (m-1)) by lra. lra. Qed.
Lemma clamp1_hi m : 1 <= m -> clamp1 m = 1.
Proof. intros. unfold clamp1. rewrite (Rabs_right (m+1)), (Rabs_right (m-1)) by lra. lra. Qed.
Lemma clamp1_lo m : m <= -1 -> clamp1 m = -1.
Proof. intros. unfold clamp1. rewrite (Rabs_left1 (m+1)), (Rabs_left (m-1)) by lra. lra. Qed.
Lemma super_cases m : 1 <= Rabs m -> 1 <= m \/ m <= -1.
Proof. unfold Rabs. destruct (Rcase_abs m); lra. Qed.

Theorem C55_splits_continuous :
  continuity scriptMp /\ continuity scriptMm /\ continuity scriptPp /\ continuity scriptPm.
Proof.
  assert (EM : forall m, scriptMp m =
     (1/4)*((clamp1 m + 1)*(clamp1 m + 1)) + (1/8)*((clamp1 m*clamp1 m - 1)*(clamp1 m*clamp1 m - 1))
     + ((m - 1) + Rabs (m - 1))/2).
  { intros m. unfold scriptMp, pow2. destruct (Rle_dec 1 (Rabs m)) as [H|H].
    - destruct (super_cases m H) as [C|C].
      + rewrite clamp1_hi, !Rabs_right by lra. field.
      + rewrite clamp1_lo, (Rabs_left m), (Rabs_left (m-1)) by lra. field.
    - apply Rabs_lt_1 in H. rewrite clamp1_in, (Rabs_left (m-1)) by lra. field. }
  assert (EP : forall m, scriptPp m =
     (1/4)*((clamp1 m + 1)*(clamp1 m + 1))*(2 - clamp1 m)
     + (3/16)*clamp1 m*((clamp1 m*clamp1 m - 1)*(clamp1 m*clamp1 m - 1))).
  { intros m. unfold scriptPp, pow2, sgn. destruct (Rle_dec 1 (Rabs m)) as [H|H].
    - destruct (super_cases m H) as [C|C].
      + rewrite clamp1_hi by lra. destruct (Rlt_dec 0 m); [field|lra].
      + rewrite clamp1_lo by lra. destruct (Rlt_dec 0 m); [lra|field].
    - apply Rabs_lt_1 in H. rewrite clamp1_in by lra. field. }
  assert (CC : continuity clamp1).
  { unfold clamp1. reg. }
  assert (C1 : continuity scriptMp).
  { intros x. apply (continuity_pt_ext (fun m => (1/4)*((clamp1 m + 1)*(clamp1 m + 1)) + (1/8)*((clamp1 m*clamp1 m - 1)*(clamp1 m*clamp1 m - 1))
     + ((m - 1) + Rabs (m - 1))/2)); [intros t; symmetry; apply EM|].
    pose proof (CC x). reg; try assumption. }
  assert (C2 : continuity scriptPp).
  { intros x. apply (continuity_pt_ext (fun m => (1/4)*((clamp1 m + 1)*(clamp1 m + 1))*(2 - clamp1 m)
     + (3/16)*clamp1 m*((clamp1 m*clamp1 m - 1)*(clamp1 m*clamp1 m - 1)))); [intros t; symmetry; apply EP|].
    pose proof (CC x). reg; assumption. }
  refine (conj C1 (conj _ (conj C2 _))).
  - intros x. apply (continuity_pt_ext (fun m => m - scriptMp m)); [intros t; pose proof (scriptM_sum t); lra|].
    pose proof (C1 x). reg; assumption.
  - intros x. apply (continuity_pt_ext (fun m => 1 - scriptPp m)); [intros t; pose proof (scriptP_sum t); lra|].
    pose proof (C2 x). reg; assumption.
Qed.

(* ------------------------------------------------------------------ assembly *)
Lemma edge_loop_value n g es : forall r0 i c,
  gas_edge_loop n g es r0 i c
  = r0 i c + lsum (fun e => (if Nat.eqb i (eR e) then gas_flux n g e c else 0)
                            - (if Nat.eqb i (eL e) then gas_flux n g e c else 0)) es.
Proof.
  unfold gas_edge_loop. induction es as [|e es IH]; intros r0 i c; cbn [fold_left].
  - unfold lsum; cbn. lra.
  - rewrite IH. unfold lsum; cbn [map fold_right]. unfold add_to.
    destruct (Nat.eqb i (eR e)), (Nat.eqb i (eL e)); lra.
Qed.

(** ** C55: whatever the fields, edges only exchange: the sum over all nodes of every component of
    the assembled right-hand side is unchanged by the edge loop. *)
Theorem C55_edge_exchange_conservative : forall n g es nodes r0 c,
  covers nodes es ->
  lsum (fun i => gas_edge_loop n g es r0 i c) nodes = lsum (fun i => r0 i c) nodes.
Proof.
  intros n g es nodes r0 c [ND Hc].
  erewrite lsum_ext by (intros; apply edge_loop_value).
  rewrite lsum_plus, lsum_comm.
  rewrite (lsum_zero (fun y => lsum _ nodes)); [lra|].
  intros e He. destruct (Hc e He) as [HL HR].
  erewrite lsum_ext with (g := fun i => (if Nat.eqb (eR e) i then gas_flux n g e c else 0)
                        + (-1) * (if Nat.eqb (eL e) i then gas_flux n g e c else 0)).
  2:{ intros i _. rewrite (Nat.eqb_sym i), (Nat.eqb_sym i). destruct (Nat.eqb (eR e) i), (Nat.eqb (eL e) i); lra. }
  rewrite lsum_plus, lsum_scal, !lsum_indicator by assumption. lra.
Qed.

(** ** C55: hence one explicit step on a domain without open or wall contributions keeps total mass,
    momentum and energy exactly, for every time step and every state. *)
Theorem C55_step_conserves_totals : forall n g es nodes dt vol old new,
  covers nodes es -> (forall i, In i nodes -> vol i <> 0) ->
  let next := gas_update n dt vol (fun _ => false) (gas_edge_loop n g es (fun _ _ => 0)) old new in
  total nodes vol (k_rho next) = total nodes vol (k_rho old)
  /\ total nodes vol (k_rhoE next) = total nodes vol (k_rhoE old)
  /\ forall j, (j < n)%nat ->
     total nodes vol (fun i => k_mom next i j) = total nodes vol (fun i => k_mom old i j).
Proof.
  intros n g es nodes dt vol old new Hc Hv next.
  assert (K : forall q c, lsum (fun i => vol i * (q i + 1*dt/vol i * gas_edge_loop n g es (fun _ _ => 0) i c)) nodes
              = lsum (fun i => vol i * q i) nodes).
  { intros q c.
    rewrite (lsum_ext _ (fun i => vol i * q i + dt * gas_edge_loop n g es (fun _ _ => 0) i c)).
    2:{ intros i Hi. field. apply Hv, Hi. }
    rewrite lsum_plus, lsum_scal, C55_edge_exchange_conservative by assumption.
    rewrite (lsum_zero (fun _ => 0)) by reflexivity. lra. }
  unfold total, next, gas_update; cbn [k_rho k_rhoE k_mom]. repeat split.
  - apply K.
  - apply K.
  - intros j _. apply (K (fun i => k_mom old i j)).
Qed.

(* ------------------------------------------------------------------ orientation *)
Lemma asq_rev n e : e_asq n (reverse_edge e) = e_asq n e.
Proof. unfold e_asq, reverse_edge; cbn [eA]. apply sumn_ext; intros; lra. Qed.
Lemma amag_rev n e : g_amag n (reverse_edge e) = g_amag n e.
Proof. unfold g_amag. rewrite asq_rev. reflexivity. Qed.
Lemma axdx_rev n x e : e_axdx n x (reverse_edge e) = e_axdx n x e.
Proof. unfold e_axdx, dxj, reverse_edge; cbn [eA eL eR]. apply sumn_ext; intros; lra. Qed.
Lemma dudx_rev n g e i j : g_dudx n g (reverse_edge e) i j = g_dudx n g e i j.
Proof. unfold g_dudx. rewrite axdx_rev. unfold reverse_edge; cbn [eA eL eR]. lra. Qed.
Lemma divU_rev n g e : g_divU n g (reverse_edge e) = g_divU n g e.
Proof. unfold g_divU. apply sumn_ext; intros; apply dudx_rev. Qed.
Lemma mach_rev n g e k : g_mach n g (reverse_edge e) k = - g_mach n g e k.
Proof.
  unfold g_mach. rewrite amag_rev. unfold reverse_edge; cbn [eA eL eR].
  transitivity (-1 * sumn n (fun j => g_vrtm g k j * (eA e j / g_amag n e) / (1 / 2 * (g_c g (eL e) + g_c g (eR e))))); [|lra].
  rewrite <- sumn_scal. apply sumn_ext; intros j _.
  replace (g_c g (eR e) + g_c g (eL e)) with (g_c g (eL e) + g_c g (eR e)) by lra.
  unfold Rdiv. ring.
Qed.
Lemma mLR_rev n g e : g_mLR n g (reverse_edge e) = - g_mLR n g e.
Proof.
  unfold g_mLR. rewrite !mach_rev. unfold reverse_edge; cbn [eL eR].
  rewrite scriptMp_opp, scriptMm_opp. lra.
Qed.
Lemma pLR_rev n g e : g_pLR n g (reverse_edge e) = g_pLR n g e.
Proof.
  unfold g_pLR. rewrite !mach_rev. unfold reverse_edge; cbn [eL eR].
  rewrite scriptPp_opp, scriptPm_opp. lra.
Qed.
Lemma adv_rev a m fL fR : g_adv a (- m) fR fL = - g_adv a m fL fR.
Proof. unfold g_adv. rewrite Rabs_Ropp. lra. Qed.
Lemma muIp_rev g e : g_muIp g (reverse_edge e) = g_muIp g e.
Proof. unfold g_muIp, reverse_edge; cbn [eL eR]. lra. Qed.
Lemma tau_rev n g e i j : g_tau n g (reverse_edge e) i j = g_tau n g e i j.
Proof. unfold g_tau. rewrite muIp_rev, divU_rev, !dudx_rev. reflexivity. Qed.

Lemma fold_plus_seq n (f : nat -> R) a : fold_left (fun t j => t + f j) (seq 0 n) a = a + sumn n f.
Proof. apply fold_seq_sumn. Qed.
Lemma dfm_val n g e i : g_dfm n g e i
  = - sumn n (fun j => g_tau n g e i j * eA e j)
    + (if Nat.ltb i n then 0 else 2/3 * g_muIp g e * g_divU n g e * eA e i).
Proof.
  unfold g_dfm. rewrite fold_plus_seq.
  assert (D : forall m, sumn m (fun j => (if Nat.eqb i j then - 2 / 3 * g_muIp g e * g_divU n g e else 0) * eA e j)
              = if Nat.ltb i m then - 2 / 3 * g_muIp g e * g_divU n g e * eA e i else 0).
  { induction m; [reflexivity|]. rewrite sumn_S, IHm.
    destruct (Nat.ltb_spec i m), (Nat.ltb_spec i (S m)), (Nat.eqb_spec i m); subst; try lia; lra. }
  unfold g_tau.
  rewrite (sumn_ext n (fun j => ((if Nat.eqb i j then - 2 / 3 * g_muIp g e * g_divU n g e else 0) + g_muIp g e * (g_dudx n g e i j + g_dudx n g e j i)) * eA e j)
     (fun j => (if Nat.eqb i j then - 2 / 3 * g_muIp g e * g_divU n g e else 0) * eA e j
               + (-1) * (- g_muIp g e * (g_dudx n g e i j + g_dudx n g e j i) * eA e j))) by (intros; lra).
  rewrite sumn_plus, D, sumn_scal. destruct (Nat.ltb i n); lra.
Qed.
Lemma dfe_val n g e : g_dfe n g e
  = - ((1/2)*(g_kappa g (eL e) + g_kappa g (eR e))) * e_asq n e * (1 / e_axdx n (g_x g) e) * (g_T g (eR e) - g_T g (eL e))
    - sumn n (fun i => (1/2)*(g_vel g (eR e) i + g_vel g (eL e) i) * sumn n (fun j => g_tau n g e i j * eA e j)).
Proof.
  unfold g_dfe. cbv zeta.
  assert (K : forall m a, fold_left (fun t i => fold_left (fun t j => t + - (1 / 2 * (g_vel g (eR e) i + g_vel g (eL e) i)) * g_tau n g e i j * eA e j) (seq 0 n) t) (seq 0 m) a
     = a + sumn m (fun i => (-1) * ((1/2)*(g_vel g (eR e) i + g_vel g (eL e) i) * sumn n (fun j => g_tau n g e i j * eA e j)))).
  { induction m; intros a; [rewrite sumn_0; cbn; lra|].
    rewrite seq_S, fold_left_app, IHm. cbn [fold_left]. rewrite fold_plus_seq, sumn_S, Nat.add_0_l.
    rewrite (sumn_ext n (fun j => - (1 / 2 * (g_vel g (eR e) m + g_vel g (eL e) m)) * g_tau n g e m j * eA e j)
              (fun j => - (1 / 2 * (g_vel g (eR e) m + g_vel g (eL e) m)) * (g_tau n g e m j * eA e j))) by (intros; lra).
    rewrite (sumn_scal n (- (1 / 2 * (g_vel g (eR e) m + g_vel g (eL e) m))) (fun j => g_tau n g e m j * eA e j)). lra. }
  rewrite K, sumn_scal. lra.
Qed.

Lemma flux_rev n g e c : gas_flux n g (reverse_edge e) c = - gas_flux n g e c.
Proof.
  unfold gas_flux.
  assert (T : forall i, sumn n (fun j => g_tau n g (reverse_edge e) i j * eA (reverse_edge e) j)
             = - sumn n (fun j => g_tau n g e i j * eA e j)).
  { intros i. transitivity (-1 * sumn n (fun j => g_tau n g e i j * eA e j)); [|lra].
    rewrite <- sumn_scal. apply sumn_ext; intros. rewrite tau_rev. unfold reverse_edge; cbn [eA]. lra. }
  destruct (Nat.ltb c n) eqn:Ec.
  - rewrite !dfm_val, Ec, T. unfold g_fm. rewrite amag_rev, mLR_rev, pLR_rev.
    change (eL (reverse_edge e)) with (eR e). change (eR (reverse_edge e)) with (eL e).
    rewrite adv_rev. change (eA (reverse_edge e) c) with (- eA e c). lra.
  - destruct (Nat.eqb c n).
    + unfold g_fc. rewrite amag_rev, mLR_rev. change (eL (reverse_edge e)) with (eR e). change (eR (reverse_edge e)) with (eL e).
      apply adv_rev.
    + rewrite !dfe_val. unfold g_fe. rewrite amag_rev, mLR_rev, asq_rev, axdx_rev.
      change (eL (reverse_edge e)) with (eR e). change (eR (reverse_edge e)) with (eL e).
      rewrite adv_rev.
      rewrite (sumn_ext n (fun i => 1 / 2 * (g_vel g (eL e) i + g_vel g (eR e) i) * sumn n (fun j => g_tau n g (reverse_edge e) i j * eA (reverse_edge e) j))
        (fun i => (-1) * (1 / 2 * (g_vel g (eR e) i + g_vel g (eL e) i) * sumn n (fun j => g_tau n g e i j * eA e j)))).
      2:{ intros i _. rewrite T. lra. }
      rewrite sumn_scal. lra.
Qed.

(** ** C55: the result does not depend on which end of each edge the mesh database calls "left". *)
Theorem C55_orientation_independent : forall n g es flip r0 i c,
  gas_edge_loop n g (map (fun e => if flip e : bool then reverse_edge e else e) es) r0 i c
  = gas_edge_loop n g es r0 i c.
Proof.
  intros. rewrite !edge_loop_value. f_equal.
  induction es as [|e es IH]; [reflexivity|]. unfold lsum in *; cbn [map fold_right]. rewrite IH. f_equal.
  destruct (flip e); [|reflexivity]. rewrite flux_rev. unfold reverse_edge; cbn [eL eR].
  destruct (Nat.eqb i (eL e)), (Nat.eqb i (eR e)); lra.
Qed.
