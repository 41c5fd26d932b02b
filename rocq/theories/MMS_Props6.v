(** C68, continued: the wind-energy Taylor vortex is an exact decaying vortex in a uniform stream. *)
From Coq Require Import Reals Lra Lia List.
From Coquelicot Require Import Coquelicot.
From Verif Require Import MMS_Model MMS_Spec MMS_Vortex_Model MMS_Props MMS_Props3 MMS_Props4 MMS_Props5.
Import ListNotations.
Open Scope R_scope.

(** growth of the squared core radius per unit time *)
Definition wk (v : vortex) : R := 2 * v_mu v / (v_rho v * (v_r v * v_r v)).
Definition wD (v : vortex) (t : R) : R := 1 + wk v * t.
Definition wX (v : vortex) (t x : R) : R := x - (v_cx v + v_uinf v * t).
Definition wY (v : vortex) (y : R) : R := y - v_cy v.
Definition wS (v : vortex) (t x y : R) : R := wX v t x * wX v t x + wY v y * wY v y.
Definition wF (v : vortex) (t x y : R) : R :=
  v_beta v / v_r v * (/ wD v t * / wD v t) * exp (1/2 * (1 - wS v t x y * (/ v_r v * / v_r v) * / wD v t)).
Definition wg (v : vortex) (t : R) : R := / v_r v * / v_r v * / wD v t.
Definition good (v : vortex) : Prop := v_r v <> 0 /\ v_beta v <> 0 /\ 0 < v_rho v /\ wv_tiny < v_mu v.

Lemma wk_pos : forall v, good v -> 0 < wk v.
Proof.
  intros v (A & B & C & D). unfold wk. assert (0 < wv_tiny) by (apply Rinv_0_lt_compat, pow_lt; lra).
  apply Rmult_lt_0_compat; [lra|]. apply Rinv_0_lt_compat. apply Rmult_lt_0_compat; auto. nra.
Qed.
Lemma wD_pos : forall v t, good v -> 0 <= t -> 0 < wD v t.
Proof. intros v t G H. pose proof (wk_pos v G). unfold wD. nra. Qed.
Lemma tfac_D : forall v t, good v -> wv_tfac v t = wD v t.
Proof.
  intros v t (A & B & C & D). unfold wv_tfac, wv_that, wv_Re, wD, wk. destruct (Rlt_dec wv_tiny (v_mu v)); [|contradiction].
  assert (0 < wv_tiny) by (apply Rinv_0_lt_compat, pow_lt; lra). field. repeat split; lra.
Qed.
Lemma velocity_F : forall v i t x y z, good v ->
  wv_velocity v i t x y z = match i with 0%nat => - wF v t x y * wY v y + v_uinf v | 1%nat => wF v t x y * wX v t x | _ => 0 end.
Proof.
  intros v i t x y z G. unfold wv_velocity. cbv zeta. rewrite tfac_D, sqrt_sum_sqr by auto. fold (wX v t x) (wY v y). fold (wS v t x y).
  assert (E : v_beta v / (v_r v * wD v t * wD v t) * exp (1 / 2 * (1 - wS v t x y * (/ v_r v * / v_r v) / wD v t)) = wF v t x y).
  { unfold wF, Rdiv. rewrite !Rinv_mult. ring. }
  destruct i as [|[|i]]; rewrite ?E; reflexivity.
Qed.
Lemma gradp_F : forall v i t x y z, good v ->
  wv_gradp v i t x y z = match i with 0%nat => v_rho v * wF v t x y * wF v t x y * wX v t x | 1%nat => v_rho v * wF v t x y * wF v t x y * wY v y | _ => 0 end.
Proof.
  intros v i t x y z G. unfold wv_gradp. cbv zeta. rewrite sqrt_sum_sqr. fold (wX v t x) (wY v y). fold (wS v t x y).
  destruct (polar (wX v t x) (wY v y)) as [Pc Ps].
  assert (T : 1 + 2 * (t * v_beta v / v_r v) / (v_rho v * v_beta v * v_r v / v_mu v) = wD v t).
  { rewrite <- (tfac_D v t G). unfold wv_tfac, wv_that, wv_Re. destruct G as (_ & _ & _ & M). destruct (Rlt_dec wv_tiny (v_mu v)); [reflexivity|contradiction]. }
  rewrite T.
  assert (E : v_beta v / (v_r v * wD v t * wD v t) * exp (1 / 2 * (1 - wS v t x y * (/ v_r v * / v_r v) / wD v t)) = wF v t x y).
  { unfold wF, Rdiv. rewrite !Rinv_mult. ring. }
  rewrite E. destruct G as (A & _).
  assert (Q : forall c, v_rho v * wF v t x y * wF v t x y * (sqrt (wX v t x * wX v t x + wY v y * wY v y) / v_r v) * v_r v * c
     = v_rho v * wF v t x y * wF v t x y * (sqrt (wX v t x * wX v t x + wY v y * wY v y) * c)) by (intros; field; auto).
  destruct i as [|[|i]]; rewrite ?Q, ?Pc, ?Ps; reflexivity.
Qed.

(** derivatives of the vortex factor *)
Lemma wF_x : forall v t x y z, pd 0 (fun t x y z => wF v t x y) t x y z (- wF v t x y * wX v t x * wg v t).
Proof. intros. pdu. unfold wF, wS, wX, wY, wg, Rdiv. generalize (/ wD v t) (/ v_r v). intros. auto_derive; trivial. unfold Rminus. field. Qed.
Lemma wF_y : forall v t x y z, pd 1 (fun t x y z => wF v t x y) t x y z (- wF v t x y * wY v y * wg v t).
Proof. intros. pdu. unfold wF, wS, wX, wY, wg, Rdiv. generalize (/ wD v t) (/ v_r v). intros. auto_derive; trivial. unfold Rminus. field. Qed.
Lemma wF_z : forall v t x y z, pd 2 (fun t x y z => wF v t x y) t x y z 0.
Proof. intros. pdu. apply (is_derive_const (V := R_NormedModule)). Qed.
Lemma wF_t : forall v t x y z, wD v t <> 0 -> v_r v <> 0 -> pd 3 (fun t x y z => wF v t x y) t x y z
  (wF v t x y * (- 2 * wk v / wD v t + 1/2 * wS v t x y * wg v t * wk v / wD v t + v_uinf v * wX v t x * wg v t)).
Proof.
  intros. pdu. unfold wF, wS, wX, wY, wg, wD in *.
  auto_derive; [auto|]. unfold Rminus. field. auto.
Qed.
Definition wv_grad (v : vortex) (i j : nat) : field := fun t x y z =>
  let F := wF v t x y in let X := wX v t x in let Y := wY v y in let g := wg v t in
  match i, j with
  | 0%nat, 0%nat => F * X * Y * g | 0%nat, 1%nat => - F + F * Y * Y * g
  | 1%nat, 0%nat => F - F * X * X * g | 1%nat, 1%nat => - F * X * Y * g
  | _, _ => 0 end.
Definition wv_hess (v : vortex) (i j k : nat) (t x y : R) : R :=
  let F := wF v t x y in let X := wX v t x in let Y := wY v y in let g := wg v t in
  match i, j, k with
  | 0%nat, 0%nat, 0%nat => F * Y * g - F * X * X * Y * g * g | 0%nat, 0%nat, 1%nat => F * X * g - F * X * Y * Y * g * g
  | 0%nat, 1%nat, 0%nat => F * X * g - F * X * Y * Y * g * g | 0%nat, 1%nat, 1%nat => 3 * F * Y * g - F * Y * Y * Y * g * g
  | 1%nat, 0%nat, 0%nat => - 3 * F * X * g + F * X * X * X * g * g | 1%nat, 0%nat, 1%nat => - F * Y * g + F * X * X * Y * g * g
  | 1%nat, 1%nat, 0%nat => - F * Y * g + F * X * X * Y * g * g | 1%nat, 1%nat, 1%nat => - F * X * g + F * X * Y * Y * g * g
  | _, _, _ => 0 end.
Definition wv_dt (v : vortex) (i : nat) (t x y : R) : R :=
  let F := wF v t x y in let X := wX v t x in let Y := wY v y in let g := wg v t in
  let Ft := F * (- 2 * wk v / wD v t + 1/2 * wS v t x y * g * wk v / wD v t + v_uinf v * X * g) in
  match i with 0%nat => - Ft * Y | 1%nat => Ft * X - F * v_uinf v | _ => 0 end.
Lemma wX_x : forall v t x y z, pd 0 (fun t x y z => wX v t x) t x y z 1.
Proof. intros. pdu. unfold wX. auto_derive; trivial. Qed.
Lemma wX_y : forall v t x y z, pd 1 (fun t x y z => wX v t x) t x y z 0.
Proof. intros. pdu. apply (is_derive_const (V := R_NormedModule)). Qed.
Lemma wX_z : forall v t x y z, pd 2 (fun t x y z => wX v t x) t x y z 0.
Proof. intros. pdu. apply (is_derive_const (V := R_NormedModule)). Qed.
Lemma wX_t : forall v t x y z, pd 3 (fun t x y z => wX v t x) t x y z (- v_uinf v).
Proof. intros. pdu. unfold wX. auto_derive; trivial. ring. Qed.
Lemma wY_x : forall v t x y z, pd 0 (fun t x y z => wY v y) t x y z 0.
Proof. intros. pdu. apply (is_derive_const (V := R_NormedModule)). Qed.
Lemma wY_y : forall v t x y z, pd 1 (fun t x y z => wY v y) t x y z 1.
Proof. intros. pdu. unfold wY. auto_derive; trivial. Qed.
Lemma wY_z : forall v t x y z, pd 2 (fun t x y z => wY v y) t x y z 0.
Proof. intros. pdu. apply (is_derive_const (V := R_NormedModule)). Qed.
Lemma wY_t : forall v t x y z, pd 3 (fun t x y z => wY v y) t x y z 0.
Proof. intros. pdu. apply (is_derive_const (V := R_NormedModule)). Qed.
Definition wvel (v : vortex) (i : nat) : field := fun t x y z =>
  match i with 0%nat => - wF v t x y * wY v y + v_uinf v | 1%nat => wF v t x y * wX v t x | _ => 0 end.
Lemma pd_opp : forall i f t x y z a, pd i f t x y z a -> pd i (fun t x y z => - f t x y z) t x y z (- a).
Proof. intros. eapply pd_ext; [|eapply pd_val; [|apply (pd_scal i f t x y z a (-1) H)]]. - intros; cbn; ring. - ring. Qed.
Ltac pdw :=
  lazymatch goal with
  | |- pd 0 (fun t x y z => wF _ _ _ _) _ _ _ _ _ => apply wF_x
  | |- pd 1 (fun t x y z => wF _ _ _ _) _ _ _ _ _ => apply wF_y
  | |- pd 2 (fun t x y z => wF _ _ _ _) _ _ _ _ _ => apply wF_z
  | |- pd 3 (fun t x y z => wF _ _ _ _) _ _ _ _ _ => apply wF_t; assumption
  | |- pd 0 (fun t x y z => wX _ _ _) _ _ _ _ _ => apply wX_x
  | |- pd 1 (fun t x y z => wX _ _ _) _ _ _ _ _ => apply wX_y
  | |- pd 2 (fun t x y z => wX _ _ _) _ _ _ _ _ => apply wX_z
  | |- pd 3 (fun t x y z => wX _ _ _) _ _ _ _ _ => apply wX_t
  | |- pd 0 (fun t x y z => wY _ _) _ _ _ _ _ => apply wY_x
  | |- pd 1 (fun t x y z => wY _ _) _ _ _ _ _ => apply wY_y
  | |- pd 2 (fun t x y z => wY _ _) _ _ _ _ _ => apply wY_z
  | |- pd 3 (fun t x y z => wY _ _) _ _ _ _ _ => apply wY_t
  | |- pd ?i (fun t x y z => @?f t x y z + @?g t x y z) ?a ?b ?c ?d _ => eapply (pd_plus i f g a b c d); cbv beta; pdw
  | |- pd ?i (fun t x y z => @?f t x y z - @?g t x y z) ?a ?b ?c ?d _ => eapply (pd_plus i f (fun t x y z => - g t x y z) a b c d); cbv beta; pdw
  | |- pd ?i (fun t x y z => @?f t x y z * @?g t x y z) ?a ?b ?c ?d _ => eapply (pd_prod i f g a b c d); cbv beta; pdw
  | |- pd ?i (fun t x y z => - @?f t x y z) ?a ?b ?c ?d _ => eapply (pd_opp i f a b c d); cbv beta; pdw
  | |- pd ?i (fun t x y z => ?k) ?a ?b ?c ?d _ => apply (pd_const i k a b c d)
  | |- _ => idtac "stuck" end.
Lemma wg_x : forall v j t x y z, (j < 3)%nat -> pd j (fun t x y z => wg v t) t x y z 0.
Proof. intros v j t x y z Hj. idx3 j Hj; pdu; apply (is_derive_const (V := R_NormedModule)). Qed.
Lemma wv_grad_ok : forall v a j t x y z, (a < 3)%nat -> (j < 3)%nat -> pd j (wvel v a) t x y z (wv_grad v a j t x y z).
Proof.
  intros v a j t x y z Ha Hj. idx3 a Ha; unfold wvel; idx3 j Hj; (eapply pd_val; [|pdw]); unfold wv_grad; cbv zeta; ring.
Qed.
Ltac pdg :=
  lazymatch goal with
  | |- pd _ (fun t x y z => wg _ _) _ _ _ _ _ => apply wg_x; lia
  | |- pd ?i (fun t x y z => @?f t x y z + @?g t x y z) ?a ?b ?c ?d _ => eapply (pd_plus i f g a b c d); cbv beta; pdg
  | |- pd ?i (fun t x y z => @?f t x y z - @?g t x y z) ?a ?b ?c ?d _ => eapply (pd_plus i f (fun t x y z => - g t x y z) a b c d); cbv beta; pdg
  | |- pd ?i (fun t x y z => @?f t x y z * @?g t x y z) ?a ?b ?c ?d _ => eapply (pd_prod i f g a b c d); cbv beta; pdg
  | |- pd ?i (fun t x y z => - @?f t x y z) ?a ?b ?c ?d _ => eapply (pd_opp i f a b c d); cbv beta; pdg
  | |- _ => pdw end.
Lemma wv_hess_ok : forall v i j k t x y z, (i < 3)%nat -> (j < 3)%nat -> (k < 3)%nat -> pd k (wv_grad v i j) t x y z (wv_hess v i j k t x y).
Proof.
  intros v i j k t x y z Hi Hj Hk. idx3 i Hi; idx3 j Hj; unfold wv_grad; cbv zeta; idx3 k Hk; (eapply pd_val; [|pdg]); unfold wv_hess; cbv zeta; ring.
Qed.
Lemma wv_dt_ok : forall v i t x y z, wD v t <> 0 -> v_r v <> 0 -> (i < 3)%nat -> pd 3 (wvel v i) t x y z (wv_dt v i t x y).
Proof. intros v i t x y z H0 H1 Hi. idx3 i Hi; unfold wvel; (eapply pd_val; [|pdw]); unfold wv_dt; cbv zeta; ring. Qed.
(** the decaying core pressure *)
Definition wv_core_pressure (v : vortex) : field := fun t x y z =>
  - (1/2) * exp 1 * v_beta v * v_beta v * v_rho v * (/ wD v t * / wD v t * / wD v t) * exp (- (wS v t x y * (/ v_r v * / v_r v) * / wD v t)).
Lemma wv_core_ok : forall v i t x y z, wD v t <> 0 -> v_r v <> 0 -> (i < 3)%nat -> pd i (wv_core_pressure v) t x y z
  (match i with 0%nat => v_rho v * wF v t x y * wF v t x y * wX v t x | 1%nat => v_rho v * wF v t x y * wF v t x y * wY v y | _ => 0 end).
Proof.
  intros v i t x y z H0 H1 Hi.
  assert (E : forall S, exp 1 * exp (- (S * (/ v_r v * / v_r v) * / wD v t)) = exp (1/2 * (1 - S * (/ v_r v * / v_r v) * / wD v t)) * exp (1/2 * (1 - S * (/ v_r v * / v_r v) * / wD v t))).
  { intros S0. rewrite <- !exp_plus. f_equal. field. auto. }
  idx3 i Hi; pdu; unfold wv_core_pressure.
  - eapply (is_derive_ext (fun s => - (1/2) * v_beta v * v_beta v * v_rho v * (/ wD v t * / wD v t * / wD v t) * (exp (1/2 * (1 - wS v t s y * (/ v_r v * / v_r v) * / wD v t)) * exp (1/2 * (1 - wS v t s y * (/ v_r v * / v_r v) * / wD v t))))).
    { intros s. rewrite <- E. match goal with |- ?a = ?b => change (@eq R a b) end. ring. }
    unfold wF, wS, wX, wY. unfold Rdiv. auto_derive; [trivial|]. unfold Rminus. field. auto.
  - eapply (is_derive_ext (fun s => - (1/2) * v_beta v * v_beta v * v_rho v * (/ wD v t * / wD v t * / wD v t) * (exp (1/2 * (1 - wS v t x s * (/ v_r v * / v_r v) * / wD v t)) * exp (1/2 * (1 - wS v t x s * (/ v_r v * / v_r v) * / wD v t))))).
    { intros s. rewrite <- E. match goal with |- ?a = ?b => change (@eq R a b) end. ring. }
    unfold wF, wS, wX, wY. unfold Rdiv. auto_derive; [trivial|]. unfold Rminus. field. auto.
  - apply (is_derive_const (V := R_NormedModule)).
Qed.
Lemma momentum_ext : forall rho u u' p mu c b S0 i t x y z, (i < 3)%nat ->
  (forall a t x y z, u a t x y z = u' a t x y z) -> momentum_balance rho u p mu c b S0 i t x y z -> momentum_balance rho u' p mu c b S0 i t x y z.
Proof.
  intros rho u u' p mu c b S0 i t x y z Hi E (G & dm & dp & F & T & HG & Hm & HF & HT & Hp & HS).
  exists G, dm, dp, F, T. split; [|split; [|split; [|split; [|split]]]]; auto.
  - intros. eapply pd_ext; [|apply HG; auto]. intros; apply E.
  - eapply pd_ext; [|exact Hm]. intros; cbn; rewrite E; auto.
  - intros j Hj. eapply pd_ext; [|apply (HF j Hj)]. intros; cbn; rewrite !E; auto.
Qed.

(** The vortex solves the unsteady incompressible equations for its own density and viscosity, with no source,
    from t = 0 on, together with a pressure whose initial value is the pressure function and whose gradient
    is the pressure-gradient function at all t >= 0. *)
Theorem C68_wind_energy_vortex : forall v c, v_r v <> 0 -> v_beta v <> 0 -> 0 < v_rho v -> wv_tiny < v_mu v ->
  divergence_free (wv_velocity v) /\
  exists p : field,
    (forall x y z, p 0 x y z = wv_pressure v 0 x y z) /\
    (forall i t x y z, 0 <= t -> (i < 2)%nat -> pd i p t x y z (wv_gradp v i t x y z)) /\
    (forall i t x y z, 0 <= t -> (i < 3)%nat ->
      momentum_balance (rho_const (v_rho v)) (wv_velocity v) p (v_mu v) c 0 0 i t x y z).
Proof.
  intros v c A B C D. assert (Gd : good v) by (repeat split; auto).
  assert (V : forall a t x y z, wvel v a t x y z = wv_velocity v a t x y z) by (intros; symmetry; apply velocity_F; auto).
  split.
  - apply (const_continuity _ (wv_grad v)).
    + intros. eapply pd_ext; [|apply wv_grad_ok; auto]. intros; apply V.
    + intros. unfold sum3, wv_grad. cbv zeta. ring.
  - exists (wv_core_pressure v). split; [|split].
    + intros x y z. unfold wv_core_pressure, wv_pressure. cbv zeta.
      match goal with |- context [- ?a * ?a] => replace (- a * a) with (- (a * a)) by ring end. rewrite sqrt_sum_sqr.
      unfold wD, wS, wX, wY. rewrite !Rmult_0_r, !Rplus_0_r, Rinv_1. rewrite !Rmult_1_r. reflexivity.
    + intros i t x y z Ht Hi. pose proof (wD_pos v t Gd Ht). eapply pd_val; [|apply wv_core_ok; [lra|auto|lia]]. rewrite gradp_F by auto.
      destruct i as [|[|i]]; try reflexivity.
    + intros i t x y z Ht Hi. pose proof (wD_pos v t Gd Ht) as HD.
      apply (momentum_ext _ (wvel v)); auto.
      eapply (const_momentum (v_rho v) _ _ _ _ _ _ i t x y z (wv_grad v) (fun a b d => wv_hess v a b d t x y) (wv_dt v i t x y)); auto.
      * intros; apply wv_grad_ok; auto.
      * intros; apply wv_hess_ok; auto.
      * apply wv_dt_ok; auto; lra.
      * apply wv_core_ok; auto; lra.
      * idx3 i Hi; unfold sum3, stress_pd, sum3; cbn [Nat.eqb]; unfold wvel, wv_grad, wv_hess, wv_dt; cbv zeta; unfold wS, wg, wk;
          assert (HD' : wD v t <> 0) by lra; assert (HC : v_rho v <> 0) by lra;
          revert HD'; generalize (wF v t x y) (wX v t x) (wY v y) (wD v t); intros F X Y Dt HD'; [field; auto|field; auto|ring].
Qed.
(** The constants compiled in meet the hypotheses. *)
Theorem C68_shipped_wind_energy_vortex : forall c,
  divergence_free (wv_velocity vortex_default) /\
  exists p : field,
    (forall x y z, p 0 x y z = wv_pressure vortex_default 0 x y z) /\
    (forall i t x y z, 0 <= t -> (i < 2)%nat -> pd i p t x y z (wv_gradp vortex_default i t x y z)) /\
    (forall i t x y z, 0 <= t -> (i < 3)%nat ->
      momentum_balance (rho_const (1/1000)) (wv_velocity vortex_default) p (1/10000) c 0 0 i t x y z).
Proof.
  intros c. apply (C68_wind_energy_vortex vortex_default c); cbn [v_r v_beta v_rho v_mu vortex_default]; try lra.
  unfold wv_tiny. apply Rlt_le_trans with (/ 10 ^ 5).
  - apply Rinv_lt_contravar; [apply Rmult_lt_0_compat; apply pow_lt; lra|]. apply Rlt_pow; [lra|lia].
  - cbn [pow]. lra.
Qed.
(** Not true: the guard "zero out viscous terms if mu ~ 0" leaves a division by zero: for every viscosity below the
    threshold the factor is 0/0 at every point and time. *)
Theorem C68_inviscid_vortex_undefined_refuted : forall v, v_mu v <= wv_tiny -> wv_Re v = 0 /\ (forall t, wv_that v t = 0).
Proof. intros v H. unfold wv_Re, wv_that. destruct (Rlt_dec wv_tiny (v_mu v)); [lra|]. split; auto. Qed.
(** The velocity and pressure functions agree on five and six parameters; the seven-parameter list that sets the
    viscosity of the velocity is rejected by the pressure function. *)
Theorem C68_vortex_parameter_lists : forall p v, vortex_params p = Some v ->
  (length p <> 7%nat -> vortex_pressure_params p = Some v) /\ (length p = 7%nat -> vortex_pressure_params p = None).
Proof.
  intros p v H. destruct p as [|a [|b [|r [|be [|u [|rho [|mu [|w p]]]]]]]]; cbn in H |- *; try discriminate; split; intros L; auto; try (now contradiction L); try discriminate.
Qed.
