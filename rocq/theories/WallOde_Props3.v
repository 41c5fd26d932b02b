(** C97, part 3: the wall model's equation has a solution; fluid at rest; the force on the momentum equations and
    the force reported. *)
From Coq Require Import Reals List Bool Arith Lia Lra Psatz.
From Verif Require Import RUtil Edge_Model Edge_Proofs Elem_Model Elem_Proofs Wall_Model Wall_Props Wall_Props2 Force_Model Aux_Model
  WallOde_Model WallOde_Props WallOde_Props2.
Import ListNotations.
Local Open Scope R_scope.

(** ** continuity and existence *)
Lemma c_plus f g : continuity f -> continuity g -> continuity (fun s => f s + g s).
Proof. intros F G. exact (continuity_plus f g F G). Qed.
Lemma c_minus f g : continuity f -> continuity g -> continuity (fun s => f s - g s).
Proof. intros F G. exact (continuity_minus f g F G). Qed.
Lemma c_mult f g : continuity f -> continuity g -> continuity (fun s => f s * g s).
Proof. intros F G. exact (continuity_mult f g F G). Qed.
Lemma c_const c : continuity (fun _ => c). Proof. apply continuity_const. intros a b. reflexivity. Qed.
Lemma c_id : continuity (fun s => s). Proof. exact (derivable_continuous id derivable_id). Qed.
Lemma c_div f g : continuity f -> continuity g -> (forall s, g s <> 0) -> continuity (fun s => f s / g s).
Proof. intros F G N s. exact (continuity_pt_div f g s (F s) (G s) (N s)). Qed.
Lemma c_sqrt f : continuity f -> (forall s, 0 <= f s) -> continuity (fun s => sqrt (f s)).
Proof. intros F N s. exact (continuity_pt_comp f sqrt s (F s) (continuity_pt_sqrt (f s) (N s))). Qed.
Lemma c_exp f : continuity f -> continuity (fun s => exp (f s)).
Proof. intros F s. apply (continuity_pt_comp f exp s (F s)). apply (derivable_continuous exp derivable_exp). Qed.
Lemma c_opp f : continuity f -> continuity (fun s => - f s).
Proof. intros F. exact (continuity_opp f F). Qed.
Lemma c_sumn n (f : nat -> R -> R) : (forall k, (k < n)%nat -> continuity (f k)) -> continuity (fun s => sumn n (fun k => f k s)).
Proof.
  induction n as [|n IH]; intros H.
  - unfold sumn. cbn [seq fold_left]. apply c_const.
  - assert (E : forall s, sumn (S n) (fun k => f k s) = sumn n (fun k => f k s) + f n s) by (intros; apply sumn_S).
    intros s. apply (continuity_pt_locally_ext (fun s => sumn n (fun k => f k s) + f n s) _ 1 s Rlt_0_1); [intros; symmetry; apply E|].
    apply c_plus; [apply IH; intros; apply H; lia|apply H; lia].
Qed.

Section Exist.
Variables (np : nat) (y : nat -> R) (uEx uW rho mu kappa : R).
Hypothesis Hnp : (2 <= np)%nat.
Hypothesis Hy : rising np y.
Hypothesis Hr : 0 < rho.
Hypothesis Hm : 0 < mu.
Hypothesis Hk : 0 <= kappa.
Lemma c_visc k : continuity (fun s => ode_visc (s * s) rho mu kappa y k).
Proof.
  unfold ode_visc. cbv zeta.
  assert (Q : forall s, 0 <= s * s) by (intros; nra).
  assert (C1 : continuity (fun s => sqrt (rho * (s * s)))).
  { apply c_sqrt; [apply c_mult; [apply c_const|apply c_mult; apply c_id]|]. intros s. apply Rmult_le_pos; [lra|apply Q]. }
  assert (C2 : continuity (fun s => sqrt (s * s / rho))).
  { apply c_sqrt; [apply c_div; [apply c_mult; apply c_id|apply c_const|intros; lra]|].
    intros s. apply Rmult_le_pos; [apply Q|left; now apply Rinv_0_lt_compat]. }
  assert (C3 : continuity (fun s => 1 - exp (- ((y k - y 0%nat) * sqrt (rho * (s * s)) / mu) / Aplus))).
  { apply c_minus; [apply c_const|]. apply c_exp. apply c_div; [|apply c_const|intros; unfold Aplus; lra].
    apply c_opp. apply c_div; [|apply c_const|intros; lra]. apply c_mult; [apply c_const|exact C1]. }
  apply c_plus; [apply c_const|]. apply c_mult; [apply c_mult; [|exact C3]|exact C3].
  apply c_mult; [|apply c_const]. apply c_mult; [apply c_const|exact C2].
Qed.
Lemma vis_pos s k : (k < np)%nat -> 0 < ode_visc (s * s) rho mu kappa y k.
Proof. intros H. pose proof (v_pos np y rho mu kappa (s * s) Hnp Hy ltac:(nra) Hr Hm Hk k H). lra. Qed.
Lemma c_mean k : (S k < np)%nat -> continuity (fun s => mean_visc (ode_visc (s * s) rho mu kappa y) k).
Proof. intros H. unfold mean_visc. apply c_div; [apply c_plus; apply c_visc|apply c_const|intros; lra]. Qed.
Lemma c_stress : continuity (fun s => stress_of np y uEx uW rho mu kappa (s * s)).
Proof.
  unfold stress_of. cbv zeta.
  assert (MP : forall s k, (S k < np)%nat -> mean_visc (ode_visc (s * s) rho mu kappa y) k <> 0).
  { intros s k H. unfold mean_visc. pose proof (vis_pos s k ltac:(lia)). pose proof (vis_pos s (S k) H). lra. }
  apply c_mult.
  - apply c_div; [apply c_const| |].
    + unfold resistance. apply c_sumn. intros k H. apply c_div; [apply c_const|apply c_mean; lia|]. intros s. apply MP. lia.
    + intros s. pose proof (res_pos np y rho mu kappa (s * s) Hnp Hy ltac:(nra) Hr Hm Hk). lra.
  - apply c_div; [apply c_const|apply c_mean; lia|]. intros s. apply MP. lia.
Qed.
End Exist.
(** the equation the iteration aims at always has a solution, in the laminar .. one-segment range *)
Theorem C97_wall_stress_exists np y uEx uW rho mu kappa :
  (2 <= np)%nat -> rising np y -> 0 < rho -> 0 < mu -> 0 <= kappa -> uW <= uEx ->
  exists t, 0 <= t /\ stress_of np y uEx uW rho mu kappa t = t /\
    mu * (uEx - uW) / (y (np - 1)%nat - y 0%nat) <= t <= mu * (uEx - uW) / (y 1%nat - y 0%nat).
Proof.
  intros Hnp Hy Hr Hm Hk HU.
  assert (B : forall t, 0 <= t -> mu * (uEx - uW) / (y (np - 1)%nat - y 0%nat) <= stress_of np y uEx uW rho mu kappa t <= mu * (uEx - uW) / (y 1%nat - y 0%nat)).
  { intros t Ht. rewrite <- (stress_val np y uEx uW rho mu kappa t (fun _ => 0) Hnp Hy Ht Hr Hm Hk).
    exact (proj1 (C97_wall_stress_bounds np y uEx uW rho mu kappa t (fun _ => 0) Hnp Hy Ht Hr Hm Hk HU)). }
  pose proof (Hy 0%nat ltac:(lia)) as Y1. pose proof (rising_le np y Hy 1 (np - 1) ltac:(lia) ltac:(lia)) as YL.
  set (lo := mu * (uEx - uW) / (y (np - 1)%nat - y 0%nat)) in *. set (hi := mu * (uEx - uW) / (y 1%nat - y 0%nat)) in *.
  assert (L0 : 0 <= lo).
  { unfold lo. apply Rmult_le_pos; [apply Rmult_le_pos; lra|]. left. apply Rinv_0_lt_compat. lra. }
  assert (LH : lo <= hi) by (destruct (B 0 ltac:(lra)); lra).
  set (F := fun s => stress_of np y uEx uW rho mu kappa (s * s) - s * s).
  assert (CF : continuity F) by (apply c_minus; [apply c_stress; assumption|apply c_mult; apply c_id]).
  assert (SH : sqrt hi * sqrt hi = hi) by (apply sqrt_sqrt; lra).
  destruct (IVT_cor F 0 (sqrt hi) CF (sqrt_pos hi)) as (z & Z & E).
  { assert (P0 : 0 <= F 0) by (unfold F; rewrite Rmult_0_l, Rminus_0_r; destruct (B 0 ltac:(lra)); lra).
    assert (P1 : F (sqrt hi) <= 0) by (unfold F; rewrite SH; destruct (B hi ltac:(lra)); lra). nra. }
  exists (z * z). assert (0 <= z * z) by nra. unfold F in E.
  assert (E' : stress_of np y uEx uW rho mu kappa (z * z) = z * z) by lra.
  split; [assumption|]. split; [exact E'|]. pose proof (B (z * z) H) as BB. rewrite E' in BB. exact BB.
Qed.

(** ** fluid at rest relative to the wall *)
Lemma stress_rest np y u rho mu kappa t : stress_of np y u u rho mu kappa t = 0.
Proof. unfold stress_of. cbv zeta. replace (u - u) with 0 by ring. unfold Rdiv. now rewrite !Rmult_0_l. Qed.
Theorem C97_no_slip_no_stress np y uW rho mu kappa guess u0 :
  (2 <= np)%nat -> rising np y -> 0 < rho -> 0 < mu -> 0 <= kappa -> 1 / 10^6 <= guess ->
  ode_solve np y uW uW rho mu kappa guess u0 = (0, true).
Proof.
  intros Hnp Hy Hr Hm Hk Hg.
  assert (G : 0 < guess). { apply Rlt_le_trans with (2 := Hg). apply Rdiv_lt_0_compat; [lra|apply pow_lt; lra]. }
  assert (LP : forall k, fst (ode_loop (S (S k)) np y uW uW rho mu kappa TOLERANCE guess u0) = (0, true)).
  { intros k. cbn [ode_loop]. cbv zeta. rewrite !stress_val, !stress_rest by (assumption || lra).
    destruct (Rlt_dec _ TOLERANCE) as [L|NL].
    - exfalso. replace ((0 - guess) * (0 - guess)) with (guess * guess) in L by ring.
      rewrite sqrt_square in L by lra. unfold TOLERANCE in L. lra.
    - rewrite !stress_val, !stress_rest by (assumption || lra).
      destruct (Rlt_dec _ TOLERANCE) as [L2|NL2]; [reflexivity|]. exfalso. apply NL2.
      replace ((0 - 0) * (0 - 0)) with 0 by ring. rewrite sqrt_0. unfold TOLERANCE. apply Rdiv_lt_0_compat; [lra|apply pow_lt; lra]. }
  unfold ode_solve. change MAX_ITER with (S (S 998)). rewrite LP. cbn [fst snd]. f_equal.
  replace (0 / rho) with 0 by (unfold Rdiv; ring). apply sqrt_0.
Qed.
(** the convergence test is absolute: a guess below 1e-6 is accepted as it stands, also with no slip at all *)
Theorem C97_small_guess_kept_refuted np y uW rho mu kappa guess u0 :
  (2 <= np)%nat -> rising np y -> 0 < rho -> 0 < mu -> 0 <= kappa -> 0 < guess < 1 / 10^6 ->
  ode_solve np y uW uW rho mu kappa guess u0 = (sqrt (guess / rho), true) /\ 0 < sqrt (guess / rho).
Proof.
  intros Hnp Hy Hr Hm Hk [Hg Hg2]. split; [|apply sqrt_lt_R0; apply Rdiv_lt_0_compat; assumption].
  assert (LP : forall k, fst (ode_loop (S k) np y uW uW rho mu kappa TOLERANCE guess u0) = (guess, true)).
  { intros k. cbn [ode_loop]. cbv zeta. rewrite !stress_val, !stress_rest by (assumption || lra).
    destruct (Rlt_dec _ TOLERANCE) as [L|NL]; [reflexivity|]. exfalso. apply NL.
    replace ((0 - guess) * (0 - guess)) with (guess * guess) by ring. rewrite sqrt_square by lra. exact Hg2. }
  unfold ode_solve. change MAX_ITER with (S 999). rewrite LP. reflexivity.
Qed.

(** ** the force put into the momentum equations *)
Definition slip (n : nat) (A uP uB : vec) (i : nat) : R := tanv n (nrm n A) uP i - tanv n (nrm n A) uB i.
Lemma utang_slip n A uP uB : utang n A uP uB = sqrt (sumn n (fun i => slip n A uP uB i * slip n A uP uB i)).
Proof. reflexivity. Qed.
Definition traction (f : wface) kappa ode (rho mu yp ut bc : nat -> R) (uP : nat -> vec) (ip i : nat) : R :=
  plambda kappa ode (at_f f rho ip) (at_f f mu ip) (yp ip) (ut ip) (amag (fdim f) (fA f ip))
  * slip (fdim f) (fA f ip) (uP ip) (uat_f f bc ip) i
  * / (1 - ode + ode * utang (fdim f) (fA f ip) (uP ip) (uat_f f bc ip)).
Definition divisor (f : wface) ode (bc : nat -> R) (uP : nat -> vec) (ip : nat) : R :=
  1 - ode + ode * utang (fdim f) (fA f ip) (uP ip) (uat_f f bc ip).

Lemma addB_row n nn (g : nat -> R) m s : (m <= n)%nat ->
  let s' := loop m (fun i s => addB (nn * n + i) (g i) s) s in
  (forall p q, eL_ s' p q = eL_ s p q) /\
  (forall a i, (i < n)%nat -> eB s' (a * n + i)%nat = eB s (a * n + i)%nat + (if Nat.eqb nn a then if (i <? m)%nat then g i else 0 else 0)).
Proof.
  induction m as [|m IH]; intros H; cbv zeta.
  - rewrite loop_0. split; [reflexivity|]. intros a i Hi. destruct (Nat.eqb nn a); cbn; ring.
  - rewrite loop_S. destruct (IH ltac:(lia)) as [I1 I2]. cbv zeta in I1, I2.
    set (s1 := loop m _ s) in *. clearbody s1. split.
    + intros p q. cbn. apply I1.
    + intros a i Hi. cbn [addB eB]. rewrite I2 by assumption.
      destruct (Nat.eqb_spec nn a) as [E|N].
      * subst a. destruct (Nat.eq_dec i m) as [->|Ni].
        -- rewrite Nat.eqb_refl. rewrite (proj2 (Nat.ltb_ge m m)) by lia. rewrite (proj2 (Nat.ltb_lt m (S m))) by lia. ring.
        -- rewrite (proj2 (Nat.eqb_neq (nn * n + i) (nn * n + m))) by lia.
           replace (i <? S m)%nat with (i <? m)%nat by (destruct (Nat.ltb_spec i m); destruct (Nat.ltb_spec i (S m)); lia || reflexivity). ring.
      * rewrite (proj2 (Nat.eqb_neq (a * n + i) (nn * n + m))); [ring|]. intro E. apply N. nia.
Qed.
Lemma proj_gen f kappa ode rho mu yp ut bc uP m : forall s0, (forall ip, (ip < m)%nat -> divisor f ode bc uP ip <> 0) ->
  exists s, fold_left (fun os ip =>
    match os with None => None | Some s =>
      let n := fdim f in
      let nn := fmap f ip in
      let am := amag n (fA f ip) in
      let m := nrm n (fA f ip) in
      let lam := plambda kappa ode (at_f f rho ip) (at_f f mu ip) (yp ip) (ut ip) am in
      let uB := uat_f f bc ip in
      match normalize ode (utang n (fA f ip) (uP ip) uB) with
      | None => None
      | Some nf => Some (loop n (fun i s => addB (nn*n+i) (- (lam * (tanv n m (uP ip) i - tanv n m uB i) * nf)) s) s)
      end
    end) (seq 0 m) (Some s0) = Some s /\
    (forall p q, eL_ s p q = eL_ s0 p q) /\
    (forall a i, (i < fdim f)%nat -> eB s (a * fdim f + i)%nat = eB s0 (a * fdim f + i)%nat
       - sumn m (fun ip => if Nat.eqb (fmap f ip) a then traction f kappa ode rho mu yp ut bc uP ip i else 0)).
Proof.
  induction m as [|m IH]; intros s0 H.
  - exists s0. cbn [seq fold_left]. split; [reflexivity|]. split; [reflexivity|]. intros. unfold sumn. cbn [seq fold_left]. ring.
  - destruct (IH s0) as (s1 & E1 & L1 & B1); [intros; apply H; lia|].
    rewrite seq_S, fold_left_app. rewrite E1. cbn [fold_left plus]. cbv zeta.
    unfold normalize, divo. specialize (H m ltac:(lia)). unfold divisor in H.
    destruct (Req_EM_T _ 0) as [Z|NZ]; [contradiction|].
    eexists. split; [reflexivity|].
    match goal with |- context [loop ?n (fun i s => addB (?nn * ?n + i) (@?g i) s) s1] =>
      destruct (addB_row n nn g n s1 (le_n n)) as [A1 A2] end. cbv zeta in A1, A2. split.
    + intros p q. rewrite A1. apply L1.
    + intros a i Hi. rewrite A2 by assumption. rewrite B1 by assumption. rewrite sumn_S.
      destruct (Nat.eqb (fmap f m) a); [|ring].
      rewrite (proj2 (Nat.ltb_lt i (fdim f))) by assumption. unfold traction, slip. unfold Rdiv. ring.
Qed.
(** every node receives minus the traction of its integration points; the matrix is not touched *)
Theorem C97_projected_wall_force f kappa ode rho mu yp ut bc uP s0 :
  (forall ip, (ip < fip f)%nat -> divisor f ode bc uP ip <> 0) ->
  exists s, wall_traction_projected f kappa ode rho mu yp ut bc uP s0 = Some s /\
    (forall p q, eL_ s p q = eL_ s0 p q) /\
    (forall a i, (i < fdim f)%nat -> eB s (a * fdim f + i)%nat = eB s0 (a * fdim f + i)%nat
       - sumn (fip f) (fun ip => if Nat.eqb (fmap f ip) a then traction f kappa ode rho mu yp ut bc uP ip i else 0)).
Proof. intros H. exact (proj_gen f kappa ode rho mu yp ut bc uP (fip f) s0 H). Qed.
(** with the layer model the traction is the wall stress rho*utau^2 on the area, along the slip; with the log law it
    is the coefficient of C67 times the slip of the exchange point *)
Theorem C97_layer_traction f kappa rho mu yp ut bc uP ip :
  let n := fdim f in let sl := slip n (fA f ip) (uP ip) (uat_f f bc ip) in
  let T := traction f kappa 1 rho mu yp ut bc uP ip in
  0 < amag n (fA f ip) -> 0 < sumn n (fun i => sl i * sl i) -> 0 <= at_f f rho ip ->
  sqrt (sumn n (fun i => T i * T i)) = at_f f rho ip * (ut ip * ut ip) * amag n (fA f ip) /\
  sumn n (fun i => T i * fA f ip i) = 0 /\
  (forall i, T i = at_f f rho ip * (ut ip * ut ip) * amag n (fA f ip) * (sl i / sqrt (sumn n (fun i => sl i * sl i)))).
Proof.
  intros n sl T HA HS HR.
  assert (TV : forall i, T i = at_f f rho ip * (ut ip * ut ip) * amag n (fA f ip) * (sl i / sqrt (sumn n (fun i => sl i * sl i)))).
  { intros i. unfold T, traction. rewrite utang_slip. fold n sl. unfold plambda.
    replace (1 - 1 + 1 * sqrt (sumn n (fun i => sl i * sl i))) with (sqrt (sumn n (fun i => sl i * sl i))) by ring.
    unfold Rdiv. ring. }
  pose proof (sqrt_lt_R0 _ HS) as QP. set (Q := sqrt (sumn n (fun i => sl i * sl i))) in *.
  assert (QQ : Q * Q = sumn n (fun i => sl i * sl i)) by (apply sqrt_sqrt; lra).
  set (c := at_f f rho ip * (ut ip * ut ip) * amag n (fA f ip)) in *.
  assert (C0 : 0 <= c). { unfold c. apply Rmult_le_pos; [|lra]. apply Rmult_le_pos; [assumption|]. apply Rle_0_sqr. }
  split; [|split; [|exact TV]].
  - rewrite (sumn_ext n _ (fun i => (c / Q * (c / Q)) * (sl i * sl i))) by (intros; rewrite TV; unfold Rdiv; ring).
    rewrite Edge_Proofs.sumn_scal, <- QQ. replace (c / Q * (c / Q) * (Q * Q)) with (c * c) by (field; lra). now apply sqrt_square.
  - rewrite (sumn_ext n _ (fun i => (c / Q * amag n (fA f ip)) * (nrm n (fA f ip) i * sl i))).
    + rewrite Edge_Proofs.sumn_scal.
      assert (Z : sumn n (fun i => nrm n (fA f ip) i * sl i) = 0); [|rewrite Z; ring].
      unfold sl, slip. rewrite (sumn_ext n _ (fun i => nrm n (fA f ip) i * tanv n (nrm n (fA f ip)) (uP ip) i
         - nrm n (fA f ip) i * tanv n (nrm n (fA f ip)) (uat_f f bc ip) i)) by (intros; ring).
      rewrite Elem_Proofs.sumn_minus. pose proof (nrm_unit n (fA f ip) HA) as U.
      pose proof (normal_free n (nrm n (fA f ip)) (uP ip) U) as N1. pose proof (normal_free n (nrm n (fA f ip)) (uat_f f bc ip) U) as N2.
      unfold dotn in N1, N2. rewrite N1, N2. ring.
    + intros i Hi. rewrite TV. unfold nrm. field. lra.
Qed.
Theorem C97_log_law_traction f kappa rho mu yp ut bc uP ip i :
  traction f kappa 0 rho mu yp ut bc uP ip i
  = wlambda kappa (at_f f rho ip) (at_f f mu ip) (yp ip) (ut ip) (amag (fdim f) (fA f ip)) * slip (fdim f) (fA f ip) (uP ip) (uat_f f bc ip) i
  /\ divisor f 0 bc uP ip = 1.
Proof. unfold traction, plambda, divisor. split; [|ring]. replace (1 - 0 + 0 * _) with 1 by ring. rewrite Rinv_1. ring. Qed.

(** with the layer model one exchange point moving with the wall (a flow at rest) makes the face's rows undefined *)
Lemma none_stays {A B} (g : option A -> B -> option A) l : (forall b, g None b = None) -> fold_left g l None = None.
Proof. intros H. induction l as [|b l IH]; [reflexivity|]. cbn [fold_left]. now rewrite H. Qed.
Theorem C97_rest_divides_by_zero_refuted f kappa rho mu yp ut bc uP s0 ip :
  (ip < fip f)%nat -> (forall i, (i < fdim f)%nat -> slip (fdim f) (fA f ip) (uP ip) (uat_f f bc ip) i = 0) ->
  wall_traction_projected f kappa 1 rho mu yp ut bc uP s0 = None.
Proof.
  intros H Z. unfold wall_traction_projected. replace (fip f) with (ip + S (fip f - S ip))%nat by lia.
  rewrite seq_app, fold_left_app. cbn [seq plus fold_left].
  match goal with |- fold_left ?g _ (match ?x with Some _ => _ | None => None end) = None =>
    set (G := g) end.
  assert (N : normalize 1 (utang (fdim f) (fA f ip) (uP ip) (uat_f f bc ip)) = None).
  { unfold normalize, divo. destruct (Req_EM_T _ 0) as [_|E]; [reflexivity|]. exfalso. apply E.
    rewrite utang_slip. rewrite (Elem_Proofs.sumn_zero (fdim f)); [rewrite sqrt_0; ring|].
    intros i Hi. rewrite Z by assumption. ring. }
  destruct (fold_left G (seq 0 ip) (Some s0)) as [s|]; cbv zeta; rewrite ?N; apply none_stays; reflexivity.
Qed.

(** ** the reported force is the reaction *)
Definition point_of (f : wface) (ip : nat) (yp ut : nat -> R) : spt :=
  mkPt (fmap f ip) (fA f ip) (map (fun ic => (fN f ip ic, ic)) (seq 0 (fnod f))) 0 (yp ip) (ut ip).
Lemma ipol_of f ip yp ut q : ipol (point_of f ip yp ut) q = at_f f q ip.
Proof.
  unfold ipol, point_of, at_f, sumn. cbn [s_N]. generalize 0. induction (seq 0 (fnod f)) as [|a l IH]; intros c; [reflexivity|].
  cbn [map fold_left fst snd]. apply IH.
Qed.
Theorem C97_reported_force_is_reaction f kappa ode (F : sfields) yp ut bc uP ip :
  (forall a j, q_ubc F a j = bc (a * fdim f + j)%nat) -> divisor f ode bc uP ip <> 0 -> 0 < amag (fdim f) (fA f ip) ->
  exists c, modelled_projected (fdim f) kappa ode F (point_of f ip yp ut) (uP ip) = Some c /\
    (forall i, (i < fdim f)%nat -> k_vf c i = traction f kappa ode (q_rho F) (q_mu F) yp ut bc uP ip i) /\
    (forall i, (i < fdim f)%nat -> k_pf c i = at_f f (q_p F) ip * fA f ip i) /\
    (ode = 1 -> k_tau c = at_f f (q_rho F) ip * (ut ip * ut ip)) /\
    (ode = 0 -> k_tau c * amag (fdim f) (fA f ip) = wlambda kappa (at_f f (q_rho F) ip) (at_f f (q_mu F) ip) (yp ip) (ut ip) (amag (fdim f) (fA f ip))
         * utang (fdim f) (fA f ip) (uP ip) (uat_f f bc ip)) /\
    k_yplus c = at_f f (q_rho F) ip * yp ip * ut ip / at_f f (q_mu F) ip.
Proof.
  intros Hbc HD HA. unfold modelled_projected. rewrite !ipol_of. cbn [s_A s_yp s_ut point_of]. cbv zeta.
  assert (UB : forall j, ipol (point_of f ip yp ut) (fun a => q_ubc F a j) = uat_f f bc ip j).
  { intros j. rewrite ipol_of. unfold at_f, uat_f. apply sumn_ext. intros. now rewrite Hbc. }
  fold (point_of f ip yp ut).
  assert (TB : forall m i, tanv (fdim f) m (fun j => ipol (point_of f ip yp ut) (fun a => q_ubc F a j)) i = tanv (fdim f) m (uat_f f bc ip) i).
  { intros m i. unfold tanv. apply sumn_ext. intros j Hj. cbv beta zeta. rewrite UB. reflexivity. }
  assert (UT : utang (fdim f) (fA f ip) (uP ip) (fun j => ipol (point_of f ip yp ut) (fun a => q_ubc F a j))
             = utang (fdim f) (fA f ip) (uP ip) (uat_f f bc ip)).
  { unfold utang. f_equal. apply sumn_ext. intros i Hi. cbv beta. rewrite !TB. reflexivity. }
  rewrite UT. unfold normalize, divo. unfold divisor in HD. destruct (Req_EM_T _ 0) as [Z|_]; [contradiction|].
  eexists. split; [reflexivity|]. cbn [k_vf k_pf k_tau k_yplus].
  split; [|split; [|split; [|split]]].
  - intros i Hi. unfold pad. rewrite (proj2 (Nat.ltb_lt i (fdim f)) Hi). rewrite TB. unfold traction, slip, Rdiv. ring.
  - intros i Hi. unfold pad. rewrite (proj2 (Nat.ltb_lt i (fdim f)) Hi). reflexivity.
  - intros ->. unfold plambda. field. lra.
  - intros ->. unfold plambda. field. lra.
  - reflexivity.
Qed.

(** the hypotheses are met by the points the code lays out *)
Theorem C97_layer_points_rise L : 0 < L -> rising numPoints (ode_coord numPoints bias L) /\
  ode_coord numPoints bias L (numPoints - 1) = L /\ (2 <= numPoints)%nat.
Proof.
  intros HL. destruct (C97_points_fill_the_layer numPoints bias L) as (_ & E & I & _); [unfold numPoints; lia|unfold bias; lra|assumption|].
  split; [|split; [exact E|unfold numPoints; lia]]. intros k _. specialize (I k). now rewrite Nat.add_1_r in I.
Qed.
(** and so for the friction velocity found at a wall point *)
Theorem C97_projected_friction_velocity kappa n A uP bc pD rho mu L u0 ut c :
  0 < kappa -> 0 < rho -> 0 < mu -> 0 < pD -> 0 < L ->
  friction_velocity_projected kappa n A uP bc pD 1 rho mu L u0 = (ut, c) ->
  let up := utang n A uP bc in let y := ode_coord numPoints bias L in
  0 <= ut /\ (c = true -> Rabs (stress_of numPoints y up 0 rho mu kappa (rho * ut * ut) - rho * ut * ut) < 1 / 10^6) /\
  (rho * ut * ut = rho * (yplusCrit * mu / rho / pD) * (yplusCrit * mu / rho / pD) \/ mu * up / L <= rho * ut * ut).
Proof.
  intros Hk Hr Hm Hp HL E up y. unfold friction_velocity_projected in E. cbv zeta in E.
  destruct (Rlt_dec 0 1) as [_|N]; [|lra]. unfold compute_utau_ode in E. fold up y in E.
  destruct (C97_layer_points_rise L HL) as (RY & EL & N2). fold y in RY, EL.
  assert (UP : 0 <= up) by apply sqrt_pos.
  assert (G : 0 <= rho * (yplusCrit * mu / rho / pD) * (yplusCrit * mu / rho / pD)).
  { rewrite Rmult_assoc. apply Rmult_le_pos; [lra|apply Rle_0_sqr]. }
  destruct (C97_friction_velocity_of_layer numPoints y up 0 rho mu kappa _ u0 ut c N2 RY Hr Hm ltac:(lra) UP G E) as (A1 & A2 & A3).
  split; [exact A1|]. split; [exact A2|]. destruct A3 as [A3|[A3 _]]; [now left|right].
  rewrite EL in A3. change (y 0%nat) with 0 in A3. rewrite !Rminus_0_r in A3. exact A3.
Qed.
