(** * C67: friction velocity of the wall function *)
From Coq Require Import Reals List Bool Arith Lia Lra Psatz.
From Verif Require Import RUtil Edge_Model Edge_Proofs Elem_Model Elem_Spec Elem_Proofs Turb_Props Wall_Model.
Import ListNotations.
Local Open Scope R_scope.

(* ------------------------------------------------------------ specification *)
(** [u] is the friction velocity of the logarithmic law u+ = ln(E y+)/kappa: with A = E rho y/mu, kappa*U = u ln(A u) *)
Definition log_law (A kup u : R) : Prop := 1 <= A * u /\ u * ln (A * u) = kup.

(* ------------------------------------------------------------ logarithm facts *)
Lemma ln_le x : 0 < x -> ln x <= x - 1.
Proof. intros H. pose proof (exp_ineq1_le (ln x)). rewrite exp_ln in * by exact H. lra. Qed.
Lemma ln_ge x : 0 < x -> 1 - / x <= ln x.
Proof. intros H. pose proof (ln_le (/ x) (Rinv_0_lt_compat _ H)). rewrite ln_Rinv in H0 by exact H. lra. Qed.
Lemma ln3 : 1 <= ln 3.
Proof. rewrite <- (ln_exp 1). destruct exp_le_3 as [H| ->]; [left; apply ln_increasing; [apply exp_pos|exact H]|lra]. Qed.
Lemma ln_ge3 t : 0 < t -> 2 - 3 / t <= ln t.
Proof.
  intros H. replace t with (3 * (t / 3)) at 2 by field. rewrite ln_mult by lra.
  pose proof (ln_ge (t / 3)) as G. assert (0 < t / 3) by lra. specialize (G H0). replace (/ (t / 3)) with (3 / t) in G by (field; lra). pose proof ln3. lra.
Qed.
Lemma ln_nonneg x : 1 <= x -> 0 <= ln x.
Proof. intros [H| <-]; [rewrite <- ln_1; left; apply ln_increasing; lra|rewrite ln_1; lra]. Qed.
Lemma ln_mono x y : 0 < x -> x <= y -> ln x <= ln y.
Proof. intros H [L| <-]; [left; apply ln_increasing; assumption|lra]. Qed.

(** the logarithmic law has exactly one solution *)
Theorem C67_friction_velocity_well_defined A kup : 0 < A -> 0 <= kup ->
  exists u, log_law A kup u /\ forall v, log_law A kup v -> v = u.
Proof.
  intros HA Hk. set (c := A * kup). assert (Hc : 0 <= c) by (apply Rmult_le_pos; lra).
  destruct (IVT_cor (fun s => s * exp s - c) 0 c) as (s & Hs & E).
  - intros x. reg.
  - exact Hc.
  - rewrite Rmult_0_l. assert (1 <= exp c) by (pose proof (exp_ineq1_le c); lra). nra.
  - set (z := exp s). assert (Hz : 1 <= z) by (pose proof (exp_ineq1_le s); unfold z; lra).
    exists (z / A). split.
    + split; [replace (A * (z / A)) with z by (field; lra); exact Hz|]. replace (A * (z / A)) with z by (field; lra).
      unfold z at 2. rewrite ln_exp. fold z in E. apply (Rmult_eq_reg_l A); [|lra].
      replace (A * (z / A * s)) with (s * z) by (field; lra). fold c. lra.
    + intros v [V1 V2]. assert (Pv : 0 < v) by nra.
      assert (K : A * v * ln (A * v) = z * ln z) by (unfold z at 2; rewrite ln_exp; fold z in E; rewrite Rmult_assoc, V2; fold c; lra).
      assert (M : forall x y, 1 <= x -> x < y -> x * ln x < y * ln y).
      { intros x y Hx L. assert (ln x < ln y) by (apply ln_increasing; lra). pose proof (ln_nonneg x Hx). nra. }
      destruct (Rtotal_order (A * v) z) as [L|[L|L]].
      * specialize (M _ _ V1 L). lra.
      * rewrite <- L. field. lra.
      * specialize (M _ _ Hz L). lra.
Qed.

(* ------------------------------------------------------------ one Newton step *)
Definition nstep (A kup u : R) : R := (u + kup) / (1 + ln (A * u)).
Lemma nstep_code A kup u : 0 < 1 + ln (A * u) -> u - (kup - u * ln (A * u)) / (- (1 + ln (A * u))) = nstep A kup u.
Proof. intros H. unfold nstep. field. lra. Qed.
Lemma utau_loop_S k A kup tol u : utau_loop (S k) A kup tol u =
  (let wrk := ln (A * u) in let fPrime := - (1 + wrk) in let f := kup - u * wrk in let df := f / fPrime in let u' := u - df in
   if Rlt_dec (Rabs df) tol then (u', true) else utau_loop k A kup tol u').
Proof. reflexivity. Qed.
Lemma pow18 : 1 / 10 ^ 6 * 3 ^ 18 = 387.420489.
Proof. replace (3 ^ 18) with (3 ^ 6 * 3 ^ 6 * 3 ^ 6) by (rewrite <- !pow_add; reflexivity). lra. Qed.
Section Step.
Variables A kup r : R.
Hypothesis HA : 0 < A.
Hypothesis Hr : log_law A kup r.
Lemma r_pos : 0 < r. Proof. destruct Hr. nra. Qed.
Lemma ln_split u : 0 < u -> ln (A * u) = ln (A * r) + ln (u / r).
Proof. intros. pose proof r_pos. rewrite <- ln_mult; [f_equal; field; lra|apply Rmult_lt_0_compat; assumption|apply Rdiv_lt_0_compat; assumption]. Qed.
Lemma nstep_ge u : 0 < u -> 0 < 1 + ln (A * u) -> r <= nstep A kup u.
Proof.
  intros Hu HD. pose proof r_pos. unfold nstep. apply Rle_div_r; [exact HD|]. destruct Hr as [_ E]. rewrite <- E.
  rewrite (ln_split u Hu). pose proof (ln_le (u / r)) as L. assert (0 < u / r) by (apply Rdiv_lt_0_compat; lra). specialize (L H0).
  assert (r * ln (u / r) <= u - r) by (replace (u - r) with (r * (u / r - 1)) by (field; lra); apply Rmult_le_compat_l; lra). lra.
Qed.
Lemma nstep_third u : r <= u -> nstep A kup u - r <= (u - r) / 3.
Proof.
  intros Hu. pose proof r_pos as Pr. assert (Pu : 0 < u) by lra. destruct Hr as [R1 E].
  set (t := u / r). assert (T1 : 1 <= t) by (unfold t; apply Rle_div_r; lra).
  assert (Eu : u = r * t) by (unfold t; field; lra).
  pose proof (ln_nonneg _ R1) as L0. pose proof (ln_nonneg t T1) as Lt. pose proof (ln_split u Pu) as LS. fold t in LS.
  assert (HD : 0 < 1 + ln (A * u)) by lra. unfold nstep.
  apply (Rmult_le_reg_r (1 + ln (A * u))); [exact HD|].
  replace (((u + kup) / (1 + ln (A * u)) - r) * (1 + ln (A * u))) with (u + kup - r * (1 + ln (A * u))) by (field; lra).
  rewrite LS, <- E, Eu.
  replace (r * t + r * ln (A * r) - r * (1 + (ln (A * r) + ln t))) with (r * (t - 1 - ln t)) by ring.
  replace ((r * t - r) / 3 * (1 + (ln (A * r) + ln t))) with (r * ((t - 1) / 3 * (1 + (ln (A * r) + ln t)))) by field.
  apply Rmult_le_compat_l; [lra|].
  pose proof (ln_ge t ltac:(lra)) as G1. pose proof (ln_ge3 t ltac:(lra)) as G3.
  assert (It : t * / t = 1) by (field; lra). set (it := / t) in *. replace (3 / t) with (3 * it) in G3 by (unfold it; field; lra).
  assert (A1 : t - 1 - ln t <= (t - 1) * (1 - it)) by nra.
  assert (A2 : 3 * (1 - it) <= 1 + (ln (A * r) + ln t)) by lra. nra.
Qed.
Lemma nstep_le u : r <= u -> nstep A kup u <= u.
Proof. intros. pose proof (nstep_third u H). lra. Qed.

(** result of the loop when it reports convergence: from above, within the tolerance *)
Lemma loop_result k tol u u' : 0 < u -> 1 <= A * u -> utau_loop k A kup tol u = (u', true) -> r <= u' /\ u' - r < tol.
Proof.
  revert u. induction k as [|k IH]; intros u Hu H1 E; [discriminate E|]. cbn [utau_loop] in E.
  pose proof (ln_nonneg _ H1) as L0. rewrite nstep_code in E by lra.
  assert (G : r <= nstep A kup u) by (apply nstep_ge; lra). pose proof r_pos.
  set (df := (kup - u * ln (A * u)) / - (1 + ln (A * u))) in E. assert (Edf : nstep A kup u = u - df) by (symmetry; apply nstep_code; lra).
  destruct (Rlt_dec (Rabs df) tol) as [C|C].
  - injection E as <-. split; [exact G|]. destruct (Rle_lt_dec r u) as [D|D].
    + pose proof (nstep_third u D). pose proof (Rle_abs df). lra.
    + pose proof (Rle_abs (- df)). rewrite Rabs_Ropp in *. lra.
  - apply IH in E; [exact E|lra|]. destruct Hr. nra.
Qed.
Lemma loop_converges k tol u : r <= u -> u - r < tol * 3 ^ k -> snd (utau_loop (S k) A kup tol u) = true.
Proof.
  revert u. induction k as [|k IH]; intros u Hu Hb.
  - cbn [utau_loop]. pose proof r_pos. assert (1 <= A * u) by (destruct Hr; nra). pose proof (ln_nonneg _ H0).
    set (df := (kup - u * ln (A * u)) / - (1 + ln (A * u))). assert (Edf : nstep A kup u = u - df) by (symmetry; apply nstep_code; lra).
    pose proof (nstep_ge u ltac:(lra) ltac:(lra)). pose proof (nstep_le u Hu). destruct Rlt_dec as [C|C]; [reflexivity|exfalso; apply C].
    rewrite Rabs_pos_eq by lra. cbn in Hb. lra.
  - rewrite utau_loop_S. cbv zeta.
    destruct Rlt_dec as [C|C]; [reflexivity|]. pose proof r_pos. assert (1 <= A * u) by (destruct Hr; nra). pose proof (ln_nonneg _ H0).
    rewrite nstep_code by lra. apply IH; [apply nstep_ge; lra|]. pose proof (nstep_third u Hu).
    replace (3 ^ S k) with (3 * 3 ^ k) in Hb by reflexivity. lra.
Qed.
(** successive iterates (after the first) decrease and at least divide their distance to the solution by three *)
Lemma iterates_geometric u k : r <= u -> let x := Nat.iter k (nstep A kup) u in r <= x /\ x <= u /\ x - r <= (u - r) / 3 ^ k.
Proof.
  intros Hu. induction k as [|k (I1 & I2 & I3)]; cbn [Nat.iter nat_rect].
  - split; [exact Hu|split; [cbn; lra|]]. cbn. lra.
  - cbv zeta. set (x := Nat.iter k (nstep A kup) u) in *. pose proof r_pos. assert (1 <= A * x) by (destruct Hr; nra). pose proof (ln_nonneg _ H0).
    change (nat_rect (fun _ => R) u (fun _ : nat => nstep A kup) k) with x.
    split; [apply nstep_ge; lra|]. pose proof (nstep_le x I1). split; [lra|]. pose proof (nstep_third x I1).
    cbn [pow]. assert (0 < 3 ^ k) by (apply pow_lt; lra).
    replace ((u - r) / (3 * 3 ^ k)) with ((u - r) / 3 ^ k / 3) by (field; lra). lra.
Qed.
End Step.

Theorem C67_newton_contracts A kup r u k : 0 < A -> log_law A kup r -> r <= u ->
  let x := Nat.iter k (nstep A kup) u in r <= x <= u /\ x - r <= (u - r) / 3 ^ k.
Proof. intros HA Hr Hu x. destruct (iterates_geometric A kup r HA Hr u k Hu) as (a & b & c). unfold x. repeat split; assumption. Qed.

(** the initial guess has A u = E * yplusCrit > 1 *)
Lemma guess A_ rho mu yp : 0 < rho -> 0 < mu -> 0 < yp -> A_ = elog * rho * yp / mu -> A_ * (yplusCrit * mu / rho / yp) = elog * yplusCrit.
Proof. intros ? ? ? ->. field. lra. Qed.
Lemma crit_ln : 4 <= ln (elog * yplusCrit).
Proof.
  replace 4 with (ln (exp 1 * exp 1 * (exp 1 * exp 1))).
  - apply ln_mono; [repeat apply Rmult_lt_0_compat; apply exp_pos|]. unfold elog, yplusCrit. pose proof exp_le_3. pose proof (exp_pos 1).
    assert (exp 1 * exp 1 <= 9) by nra. assert (0 < exp 1 * exp 1) by nra. nra.
  - rewrite !ln_mult, ln_exp by (repeat apply Rmult_lt_0_compat; apply exp_pos). ring.
Qed.
(** Whatever the (positive) state, a friction velocity reported as converged is the solution of the log law from above, to
    within the tolerance; and convergence in the 20 iterations is guaranteed below an explicit speed. *)
Theorem C67_friction_velocity_accurate kappa up yp rho mu u r :
  0 < rho -> 0 < mu -> 0 < yp -> 0 <= kappa * up -> log_law (elog * rho * yp / mu) (kappa * up) r ->
  compute_utau kappa up yp rho mu (yplusCrit * mu / rho / yp) = (u, true) -> r <= u < r + 1 / 10 ^ 6.
Proof.
  intros Hr Hm Hy Hk HL. unfold compute_utau. generalize maxIt. intros its E.
  assert (HA : 0 < elog * rho * yp / mu) by (apply Rdiv_lt_0_compat; [repeat apply Rmult_lt_0_compat; unfold elog; lra|lra]).
  destruct (loop_result _ _ r HA HL its wtol (yplusCrit * mu / rho / yp) u) as [a b].
  - unfold yplusCrit. repeat apply Rdiv_lt_0_compat; lra.
  - rewrite (guess _ rho mu yp) by (reflexivity || assumption). unfold elog, yplusCrit. lra.
  - exact E.
  - unfold wtol in b. lra.
Qed.
Theorem C67_friction_velocity_converges kappa up yp rho mu :
  0 < rho -> 0 < mu -> 0 < yp -> 0 <= kappa * up -> yplusCrit * mu / rho / yp + kappa * up <= 1900 ->
  snd (compute_utau kappa up yp rho mu (yplusCrit * mu / rho / yp)) = true.
Proof.
  intros Hr Hm Hy Hk Hb. unfold compute_utau.
  assert (HA : 0 < elog * rho * yp / mu) by (apply Rdiv_lt_0_compat; [repeat apply Rmult_lt_0_compat; unfold elog; lra|lra]).
  destruct (C67_friction_velocity_well_defined _ (kappa * up) HA Hk) as (r & HL & _).
  set (u0 := yplusCrit * mu / rho / yp) in *.
  assert (P0 : 0 < u0) by (unfold u0, yplusCrit; repeat apply Rdiv_lt_0_compat; lra).
  pose proof (guess _ rho mu yp Hr Hm Hy eq_refl) as G. fold u0 in G. pose proof crit_ln as C.
  set (A := elog * rho * yp / mu) in *. rewrite <- G in C.
  assert (Em : exists k, maxIt = S (S k) /\ k = 18%nat) by (exists 18%nat; split; reflexivity). destruct Em as (k & Em & Ek).
  revert Em. generalize maxIt. intros its ->. rewrite utau_loop_S. cbv zeta.
  destruct Rlt_dec; [reflexivity|]. rewrite nstep_code by lra.
  apply (loop_converges A (kappa * up) r HA HL); [apply nstep_ge; try assumption; lra|].
  pose proof (r_pos A (kappa * up) r HA HL).
  assert (nstep A (kappa * up) u0 <= 380).
  { unfold nstep. apply Rle_div_l; [lra|]. nra. }
  unfold wtol. rewrite Ek, pow18. lra.
Qed.

(* ------------------------------------------------------------ wall shear stress *)
(** convexity of v ln(A v) *)
Lemma loglaw_convex A u r : 0 < A -> 0 < r -> 0 < u -> u * ln (A * u) - r * ln (A * r) <= (u - r) * (1 + ln (A * u)).
Proof.
  intros HA Hr Hu. assert (E : ln (A * u) = ln (A * r) + ln (u / r)).
  { rewrite <- ln_mult; [f_equal; field; lra|nra|apply Rdiv_lt_0_compat; lra]. }
  pose proof (ln_le (u / r)) as L. assert (0 < u / r) by (apply Rdiv_lt_0_compat; lra). specialize (L H).
  assert (r * ln (u / r) <= u - r) by (replace (u - r) with (r * (u / r - 1)) by (field; lra); apply Rmult_le_compat_l; lra). 
  rewrite E. lra.
Qed.
(** In the turbulent branch the traction per unit area and slip speed [up] is rho u_tau^2 up to the Newton tolerance. *)
Theorem C67_wall_stress_is_rho_utau_squared kappa up yp rho mu u am :
  0 < rho -> 0 < mu -> 0 < yp -> 0 <= kappa * up -> 0 < am ->
  compute_utau kappa up yp rho mu (yplusCrit * mu / rho / yp) = (u, true) ->
  yplusCrit < rho * yp * u / mu ->
  let tau := wlambda kappa rho mu yp u am * up / am in
  0 <= rho * u * u - tau <= rho * u * (2 / 10 ^ 6).
Proof.
  intros Hr Hm Hy Hk Ha E Hc tau.
  assert (HA : 0 < elog * rho * yp / mu) by (apply Rdiv_lt_0_compat; [repeat apply Rmult_lt_0_compat; unfold elog; lra|lra]).
  destruct (C67_friction_velocity_well_defined _ (kappa * up) HA Hk) as (r & HL & _).
  destruct (C67_friction_velocity_accurate kappa up yp rho mu u r Hr Hm Hy Hk HL E) as [U1 U2].
  pose proof (r_pos _ _ _ HA HL) as Pr. destruct HL as [R1 R2].
  assert (EA : elog * (rho * yp * u / mu) = elog * rho * yp / mu * u) by (field; lra).
  unfold tau, wlambda. cbv zeta. destruct Rlt_dec as [_|N]; [|contradiction]. rewrite EA.
  set (A := elog * rho * yp / mu) in *.
  assert (L4 : 4 <= ln (A * u)).
  { eapply Rle_trans; [apply crit_ln|]. apply ln_mono; [unfold elog, yplusCrit; lra|]. rewrite <- EA. apply Rmult_le_compat_l; [unfold elog; lra|lra]. }
  replace (rho * kappa * u / ln (A * u) * am * up / am) with (rho * u * (kappa * up) / ln (A * u)) by (field; lra).
  rewrite <- R2.
  pose proof (loglaw_convex A u r HA Pr ltac:(lra)) as CV.
  assert (MO : r * ln (A * r) <= u * ln (A * u)).
  { assert (ln (A * r) <= ln (A * u)) by (apply ln_mono; nra). pose proof (ln_nonneg _ R1). nra. }
  set (L := ln (A * u)) in *. set (m := r * ln (A * r)) in *.
  replace (rho * u * u - rho * u * m / L) with (rho * u * ((u * L - m) / L)) by (field; lra).
  assert (0 <= (u * L - m) / L <= 2 / 10 ^ 6).
  { split; [apply div_nonneg; lra|]. apply Rle_div_l; [lra|]. eapply Rle_trans; [exact CV|]. nra. }
  assert (0 < rho * u) by nra. split; [apply Rmult_le_pos; lra|apply Rmult_le_compat_l; lra].
Qed.
(** At zero slip the friction velocity is not zero but mu/(E rho y), i.e. y+ = 1/E: the wall value of k stays positive. *)
Theorem C67_friction_velocity_zero_at_rest_refuted A : 0 < A -> log_law A 0 (1 / A) /\ 0 < 1 / A.
Proof.
  intros. split; [|apply Rdiv_lt_0_compat; lra]. unfold log_law. replace (A * (1 / A)) with 1 by (field; lra). rewrite ln_1. lra.
Qed.
(** the traction coefficient is positive for positive state *)
Theorem C67_traction_coefficient_positive kappa rho mu yp u am : 0 < kappa -> 0 < rho -> 0 < mu -> 0 < yp -> 0 <= u -> 0 < am ->
  0 < wlambda kappa rho mu yp u am.
Proof.
  intros. unfold wlambda. cbv zeta. destruct Rlt_dec as [C|C].
  - assert (0 < u). { destruct H3 as [|<-]; [assumption|]. unfold yplusCrit in C. rewrite Rmult_0_r in C. unfold Rdiv in C. lra. }
    apply Rmult_lt_0_compat; [|assumption]. apply Rdiv_lt_0_compat; [repeat apply Rmult_lt_0_compat; assumption|].
    rewrite <- ln_1. apply ln_increasing; [lra|]. unfold elog, yplusCrit in *. lra.
  - apply Rmult_lt_0_compat; [|assumption]. apply Rdiv_lt_0_compat; assumption.
Qed.
