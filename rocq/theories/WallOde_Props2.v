(** C97, part 2: the velocity profile, the wall stress and the fixed-point iteration of the one-dimensional wall model. *)
From Coq Require Import Reals List Bool Arith Lia Lra Psatz.
From Verif Require Import RUtil Edge_Model Edge_Proofs Elem_Model Elem_Proofs Wall_Model Wall_Props2 WallOde_Model WallOde_Props.
Import ListNotations.
Local Open Scope R_scope.

(** specification: a layer with resistance dx / mean viscosity per segment; points y(0) < ... < y(np-1) *)
Definition mean_visc (v : nat -> R) (k : nat) : R := (v k + v (S k)) / 2.
Definition resistance (y v : nat -> R) (m : nat) : R := sumn m (fun k => (y (S k) - y k) / mean_visc v k).
Definition flux (y v u : nat -> R) (k : nat) : R := mean_visc v k * (u (S k) - u k) / (y (S k) - y k).
Definition rising (np : nat) (y : nat -> R) : Prop := forall k, (S k < np)%nat -> y k < y (S k).

(** ** viscosity *)
Lemma rising_le np y : rising np y -> forall j k, (j <= k)%nat -> (k < np)%nat -> y j <= y k.
Proof.
  intros H j k Hjk. induction Hjk as [|k Hk IH]; intros L; [lra|].
  specialize (H k L). specialize (IH ltac:(lia)). lra.
Qed.
Lemma blend_mono a b : 0 <= a -> a <= b -> 0 <= 1 - exp (- a / Aplus) <= 1 - exp (- b / Aplus).
Proof.
  intros Ha Hab. unfold Aplus. assert (E : exp (- b / 17) <= exp (- a / 17)).
  { destruct (Req_dec a b) as [->|N]; [lra|]. left. apply exp_increasing. lra. }
  assert (E1 : exp (- a / 17) <= 1).
  { rewrite <- exp_0. destruct (Req_dec a 0) as [->|N]; [right; f_equal; lra|]. left. apply exp_increasing. lra. }
  lra.
Qed.
Theorem C97_viscosity_rises_from_wall tau rho mu kappa np y : 0 <= tau -> 0 < rho -> 0 < mu -> 0 <= kappa -> rising np y ->
  ode_visc tau rho mu kappa y 0 = mu /\
  forall j k, (j <= k)%nat -> (k < np)%nat ->
    mu <= ode_visc tau rho mu kappa y j <= ode_visc tau rho mu kappa y k.
Proof.
  intros Ht Hr Hm Hk Hy. split.
  { unfold ode_visc. cbv zeta. rewrite Rminus_diag_eq by reflexivity. ring. }
  intros j k Hjk Hkn.
  pose proof (rising_le np y Hy 0 j ltac:(lia) ltac:(lia)) as A.
  pose proof (rising_le np y Hy j k Hjk Hkn) as B.
  unfold ode_visc. cbv zeta.
  set (aj := y j - y 0%nat). set (ak := y k - y 0%nat).
  assert (0 <= aj <= ak) as [J0 JK] by (unfold aj, ak; lra). clearbody aj ak.
  pose proof (sqrt_pos (rho * tau)) as S1. pose proof (sqrt_pos (tau / rho)) as S2.
  set (c := sqrt (rho * tau)) in *. set (d := sqrt (tau / rho)) in *. clearbody c d.
  assert (M : forall z, 0 <= z -> 0 <= z * c / mu).
  { intros z Hz. apply Rmult_le_pos; [apply Rmult_le_pos; assumption|]. left. now apply Rinv_0_lt_compat. }
  assert (N : aj * c / mu <= ak * c / mu).
  { unfold Rdiv. apply Rmult_le_compat_r; [left; now apply Rinv_0_lt_compat|]. apply Rmult_le_compat_r; assumption. }
  destruct (blend_mono _ _ (M aj J0) N) as [P Q].
  set (bj := 1 - exp (- (aj * c / mu) / Aplus)) in *. set (bk := 1 - exp (- (ak * c / mu) / Aplus)) in *.
  clearbody bj bk.
  assert (G : 0 <= kappa * rho * d) by (apply Rmult_le_pos; [apply Rmult_le_pos; lra|assumption]).
  set (g := kappa * rho * d) in *. clearbody g.
  assert (T1 : 0 <= aj * bj * bj) by (apply Rmult_le_pos; [apply Rmult_le_pos|]; assumption).
  assert (T2 : aj * bj * bj <= ak * bk * bk).
  { apply Rmult_le_compat; [apply Rmult_le_pos; assumption|assumption| |assumption].
    apply Rmult_le_compat; assumption. }
  assert (U1 : 0 <= g * (aj * bj * bj)) by (apply Rmult_le_pos; assumption).
  assert (U2 : g * (aj * bj * bj) <= g * (ak * bk * bk)) by (apply Rmult_le_compat_l; assumption).
  replace (g * aj * bj * bj) with (g * (aj * bj * bj)) by ring.
  replace (g * ak * bk * bk) with (g * (ak * bk * bk)) by ring. lra.
Qed.

(** ** the assembled rows *)
Definition lf (y v : nat -> R) (k : nat) : R := - (1/2) * (v (k + 1)%nat + v k) / (y (k + 1)%nat - y k).
Lemma assemble_gen y u v m : forall a,
  fold_left (fun ns k =>
    let dx := y (k + 1)%nat - y k in
    let lhsfac := - (1/2) * (v (k + 1)%nat + v k) / dx in
    let diffFlux := lhsfac * (u (k + 1)%nat - u k) * 0 in
    scatter k (k + 1) (- lhsfac) lhsfac lhsfac (- lhsfac) (- diffFlux) diffFlux ns)
    (seq 0 m) (fun _ => zrow) a
  = mkRow (if andb (0 <? a) (a <=? m) then lf y v (a - 1) else 0)
          ((if andb (0 <? a) (a <=? m) then - lf y v (a - 1) else 0) + (if a <? m then - lf y v a else 0))
          (if a <? m then lf y v a else 0) 0.
Proof.
  induction m as [|m IH]; intros a.
  - cbn [seq fold_left]. destruct a; cbn; unfold zrow; f_equal; ring.
  - rewrite seq_S, fold_left_app. cbn [fold_left plus]. cbv zeta. fold (lf y v m).
    match goal with |- scatter _ _ _ _ _ _ _ _ (fold_left ?g _ _) _ = _ => set (ns := fold_left g (seq 0 m) (fun _ : nat => zrow)) in * end.
    clearbody ns. unfold scatter. cbv zeta.
    destruct (Nat.eq_dec a m) as [->|N1].
    + rewrite upd_other by lia. rewrite upd_same, IH. cbn [Aw Ap Ae rhs].
      rewrite (Nat.leb_refl m). rewrite (proj2 (Nat.leb_le m (S m))) by lia.
      rewrite (proj2 (Nat.ltb_ge m m)) by lia. rewrite (proj2 (Nat.ltb_lt m (S m))) by lia.
      f_equal; ring.
    + destruct (Nat.eq_dec a (m + 1)) as [->|N2].
      * rewrite upd_same. rewrite upd_other by lia. rewrite IH. cbn [Aw Ap Ae rhs].
        rewrite (proj2 (Nat.ltb_lt 0 (m + 1))) by lia.
        rewrite (proj2 (Nat.leb_gt (m + 1) m)) by lia. rewrite (proj2 (Nat.leb_le (m + 1) (S m))) by lia.
        rewrite (proj2 (Nat.ltb_ge (m + 1) m)) by lia. rewrite (proj2 (Nat.ltb_ge (m + 1) (S m))) by lia.
        cbn [andb]. replace (m + 1 - 1)%nat with m by lia. f_equal; ring.
      * rewrite !upd_other by assumption. rewrite IH.
        replace (a <=? S m)%nat with (a <=? m)%nat by (destruct (Nat.leb_spec a m); destruct (Nat.leb_spec a (S m)); lia || reflexivity).
        replace (a <? S m)%nat with (a <? m)%nat by (destruct (Nat.ltb_spec a m); destruct (Nat.ltb_spec a (S m)); lia || reflexivity).
        reflexivity.
Qed.

Section Profile.
Variables (np : nat) (y : nat -> R) (uEx uW rho mu kappa tau : R) (u0 : nat -> R).
Hypothesis Hnp : (2 <= np)%nat.
Hypothesis Hy : rising np y.
Hypothesis Ht : 0 <= tau.
Hypothesis Hr : 0 < rho.
Hypothesis Hm : 0 < mu.
Hypothesis Hk : 0 <= kappa.
Let v := ode_visc tau rho mu kappa y.
Let ns := dirichlet (np - 1) uEx (dirichlet 0 uW (assemble np y u0 v)).
Let u := ode_profile np y uEx uW rho mu kappa tau u0.

Lemma v_pos k : (k < np)%nat -> mu <= v k.
Proof. intros H. apply (proj2 (C97_viscosity_rises_from_wall tau rho mu kappa np y Ht Hr Hm Hk Hy) k k); lia. Qed.
Lemma lf_neg k : (S k < np)%nat -> lf y v k < 0.
Proof.
  intros H. unfold lf. pose proof (Hy k H). pose proof (v_pos k ltac:(lia)). pose proof (v_pos (S k) H).
  rewrite Nat.add_1_r. replace (- (1 / 2) * (v (S k) + v k) / (y (S k) - y k)) with (- ((v (S k) + v k) / 2 / (y (S k) - y k))) by (field; lra).
  apply Ropp_lt_gt_0_contravar. apply Rdiv_lt_0_compat; lra.
Qed.
Lemma ns_first : ns 0%nat = mkRow 0 1 0 uW.
Proof. unfold ns, dirichlet. rewrite upd_other by lia. apply upd_same. Qed.
Lemma ns_last : ns (np - 1)%nat = mkRow 0 1 0 uEx.
Proof. unfold ns, dirichlet. apply upd_same. Qed.
Lemma ns_mid k : (S (S k) < np)%nat -> ns (S k) = mkRow (lf y v k) (- lf y v k - lf y v (S k)) (lf y v (S k)) 0.
Proof.
  intros H. unfold ns, dirichlet. rewrite !upd_other by lia. unfold assemble. rewrite assemble_gen.
  rewrite (proj2 (Nat.ltb_lt 0 (S k))) by lia. rewrite (proj2 (Nat.leb_le (S k) (np - 1))) by lia.
  rewrite (proj2 (Nat.ltb_lt (S k) (np - 1))) by lia. cbn [andb]. replace (S k - 1)%nat with k by lia. f_equal; ring.
Qed.
Lemma ns_dominant k : (k < np)%nat -> dominant ns k.
Proof.
  intros H. unfold dominant. destruct (Nat.eq_dec k (np - 1)) as [->|N].
  { rewrite ns_last. cbn [Aw Ap Ae]. rewrite Rabs_R0, Rabs_R1. split; intros; lra. }
  destruct k as [|k].
  { rewrite ns_first. cbn [Aw Ap Ae]. rewrite Rabs_R0, Rabs_R1. split; intros; lra. }
  rewrite ns_mid by lia. cbn [Aw Ap Ae]. pose proof (lf_neg k ltac:(lia)). pose proof (lf_neg (S k) ltac:(lia)).
  rewrite !Rabs_left by lra. rewrite Rabs_right by lra. split; [lra|]. intros [E|E]; [lia|lra].
Qed.
Lemma u_rows k : (k < np)%nat -> row_holds np ns u k.
Proof. intros H. unfold u, ode_profile. apply (C97_tridiagonal_solver_solves np ns u0); [lia|apply ns_dominant|assumption]. Qed.
Lemma u_first : u 0%nat = uW.
Proof. pose proof (u_rows 0 ltac:(lia)) as E. unfold row_holds in E. rewrite ns_first in E. cbn [Nat.eqb Aw Ap Ae rhs] in E.
  destruct (Nat.eqb _ _) in E; lra. Qed.
Lemma u_last : u (np - 1)%nat = uEx.
Proof. pose proof (u_rows (np - 1) ltac:(lia)) as E. unfold row_holds in E. rewrite ns_last in E. cbn [Aw Ap Ae rhs] in E.
  destruct (Nat.eqb _ _) in E; destruct (Nat.eqb _ _) in E; lra. Qed.
Lemma lf_flux k w : (S k < np)%nat -> flux y v w k = lf y v k * (w k - w (S k)).
Proof. intros H. unfold flux, lf, mean_visc. rewrite Nat.add_1_r. pose proof (Hy k H). field. lra. Qed.
Lemma flux_step k : (S (S k) < np)%nat -> flux y v u (S k) = flux y v u k.
Proof.
  intros H. pose proof (u_rows (S k) ltac:(lia)) as E. unfold row_holds in E. rewrite ns_mid in E by assumption.
  rewrite (proj2 (Nat.eqb_neq (S k + 1) np)) in E by lia. cbn [Nat.eqb Aw Ap Ae rhs] in E.
  replace (S k - 1)%nat with k in E by lia. replace (S k + 1)%nat with (S (S k)) in E by lia.
  rewrite !lf_flux by lia. lra.
Qed.
Lemma flux_const k : (S k < np)%nat -> flux y v u k = flux y v u 0.
Proof. induction k as [|k IH]; intros H; [reflexivity|]. rewrite flux_step by assumption. apply IH. lia. Qed.
Lemma u_step k : (S k < np)%nat -> u (S k) = u k + flux y v u 0 * ((y (S k) - y k) / mean_visc v k).
Proof.
  intros H. rewrite <- (flux_const k H). unfold flux, mean_visc. pose proof (Hy k H).
  pose proof (v_pos k ltac:(lia)). pose proof (v_pos (S k) H). field. split; lra.
Qed.
Lemma u_at k : (k < np)%nat -> u k = uW + flux y v u 0 * resistance y v k.
Proof.
  induction k as [|k IH]; intros H.
  - rewrite u_first. unfold resistance, sumn. cbn [seq fold_left]. ring.
  - rewrite u_step by assumption. rewrite IH by lia. unfold resistance. rewrite sumn_S. ring.
Qed.
Lemma seg_pos k : (S k < np)%nat -> 0 < (y (S k) - y k) / mean_visc v k.
Proof.
  intros H. pose proof (Hy k H). pose proof (v_pos k ltac:(lia)). pose proof (v_pos (S k) H).
  unfold mean_visc. apply Rdiv_lt_0_compat; lra.
Qed.
Lemma res_lt j k : (j < k)%nat -> (k < np)%nat -> resistance y v j < resistance y v k.
Proof.
  intros Hjk. induction Hjk as [|k Hjk IH]; intros H; unfold resistance in *; rewrite sumn_S.
  - pose proof (seg_pos j H). lra.
  - specialize (IH ltac:(lia)). pose proof (seg_pos k H). lra.
Qed.
Lemma res_pos : 0 < resistance y v (np - 1).
Proof. pose proof (res_lt 0 (np - 1) ltac:(lia) ltac:(lia)) as A. unfold resistance at 1, sumn in A. cbn [seq fold_left] in A. exact A. Qed.
Lemma q_val : flux y v u 0 = (uEx - uW) / resistance y v (np - 1).
Proof. pose proof (u_at (np - 1) ltac:(lia)) as E. rewrite u_last in E. pose proof res_pos. field_simplify_eq; lra. Qed.
End Profile.

(** the profile is the exact steady state of the layer: the given end velocities and one shear stress throughout *)
Theorem C97_profile_carries_one_stress np y uEx uW rho mu kappa tau u0 :
  (2 <= np)%nat -> rising np y -> 0 <= tau -> 0 < rho -> 0 < mu -> 0 <= kappa ->
  let v := ode_visc tau rho mu kappa y in
  let u := ode_profile np y uEx uW rho mu kappa tau u0 in
  u 0%nat = uW /\ u (np - 1)%nat = uEx /\
  (forall k, (S k < np)%nat -> flux y v u k = (uEx - uW) / resistance y v (np - 1)) /\
  (forall k, (k < np)%nat -> u k = uW + (uEx - uW) * (resistance y v k / resistance y v (np - 1))) /\
  (forall w, w 0%nat = uW -> w (np - 1)%nat = uEx -> (forall k, (S (S k) < np)%nat -> flux y v w (S k) = flux y v w k) ->
     forall k, (k < np)%nat -> w k = u k).
Proof.
  intros Hnp Hy Ht Hr Hm Hk v u.
  pose proof (res_pos np y rho mu kappa tau Hnp Hy Ht Hr Hm Hk) as RP. fold v in RP.
  pose proof (q_val np y uEx uW rho mu kappa tau u0 Hnp Hy Ht Hr Hm Hk) as Q. fold v u in Q.
  split; [|split; [|split; [|split]]].
  - exact (u_first np y uEx uW rho mu kappa tau u0 Hnp Hy Ht Hr Hm Hk).
  - exact (u_last np y uEx uW rho mu kappa tau u0 Hnp Hy Ht Hr Hm Hk).
  - intros k H. etransitivity; [exact (flux_const np y uEx uW rho mu kappa tau u0 Hnp Hy Ht Hr Hm Hk k H)|exact Q].
  - intros k H. etransitivity; [exact (u_at np y uEx uW rho mu kappa tau u0 Hnp Hy Ht Hr Hm Hk k H)|].
    fold v u. rewrite Q. field. lra.
  - intros w W0 W1 F k H.
    assert (FC : forall k, (S k < np)%nat -> flux y v w k = flux y v w 0).
    { clear k H. induction k as [|k IH]; intros H; [reflexivity|]. rewrite F by assumption. apply IH. lia. }
    assert (WA : forall k, (k < np)%nat -> w k = uW + flux y v w 0 * resistance y v k).
    { clear k H. induction k as [|k IH]; intros H.
      - rewrite W0. unfold resistance, sumn. cbn [seq fold_left]. ring.
      - unfold resistance. rewrite sumn_S. fold (resistance y v k). specialize (IH ltac:(lia)).
        rewrite <- (FC k H). rewrite <- (FC k H) in IH. unfold flux in *.
        pose proof (Hy k H). pose proof (v_pos np y rho mu kappa tau Hnp Hy Ht Hr Hm Hk k ltac:(lia)).
        pose proof (v_pos np y rho mu kappa tau Hnp Hy Ht Hr Hm Hk (S k) H). fold v in H1, H2.
        rewrite Rmult_plus_distr_l, <- Rplus_assoc, <- IH. unfold mean_visc. field. split; lra. }
    assert (E : flux y v w 0 = flux y v u 0).
    { pose proof (WA (np - 1)%nat ltac:(lia)) as E. rewrite W1 in E. rewrite Q. field_simplify_eq; [lra|lra]. }
    rewrite (WA k H), E. symmetry. exact (u_at np y uEx uW rho mu kappa tau u0 Hnp Hy Ht Hr Hm Hk k H).
Qed.
(** consequences: bounded by the end values and rising away from the wall *)
Theorem C97_profile_monotone np y uEx uW rho mu kappa tau u0 :
  (2 <= np)%nat -> rising np y -> 0 <= tau -> 0 < rho -> 0 < mu -> 0 <= kappa -> uW < uEx ->
  let u := ode_profile np y uEx uW rho mu kappa tau u0 in
  forall j k, (j < k)%nat -> (k < np)%nat -> uW <= u j < u k /\ u k <= uEx.
Proof.
  intros Hnp Hy Ht Hr Hm Hk HU u j k Hjk Hkn.
  destruct (C97_profile_carries_one_stress np y uEx uW rho mu kappa tau u0 Hnp Hy Ht Hr Hm Hk) as (U0 & U1 & _ & UA & _).
  fold u in U0, U1, UA. set (v := ode_visc tau rho mu kappa y) in *.
  pose proof (res_pos np y rho mu kappa tau Hnp Hy Ht Hr Hm Hk) as RP. fold v in RP.
  assert (M : forall a b, (a < b)%nat -> (b < np)%nat -> u a < u b).
  { intros a b Hab Hb. rewrite (UA a) by lia. rewrite (UA b) by lia.
    pose proof (res_lt np y rho mu kappa tau Hnp Hy Ht Hr Hm Hk a b Hab Hb) as L. fold v in L.
    apply Rplus_lt_compat_l. apply Rmult_lt_compat_l; [lra|].
    unfold Rdiv. apply Rmult_lt_compat_r; [now apply Rinv_0_lt_compat|assumption]. }
  split; [split|].
  - destruct j as [|j]; [lra|]. rewrite <- U0. left. apply M; lia.
  - now apply M.
  - destruct (Nat.eq_dec k (np - 1)) as [->|N]; [lra|]. rewrite <- U1. left. apply M; lia.
Qed.

(** ** the stress read off the profile, and the iteration *)
Definition stress_of (np : nat) (y : nat -> R) (uEx uW rho mu kappa tau : R) : R :=
  let v := ode_visc tau rho mu kappa y in
  (uEx - uW) / resistance y v (np - 1) * (mu / mean_visc v 0).
Lemma stress_val np y uEx uW rho mu kappa tau u0 :
  (2 <= np)%nat -> rising np y -> 0 <= tau -> 0 < rho -> 0 < mu -> 0 <= kappa ->
  ode_stress y mu (ode_profile np y uEx uW rho mu kappa tau u0) = stress_of np y uEx uW rho mu kappa tau.
Proof.
  intros Hnp Hy Ht Hr Hm Hk.
  destruct (C97_profile_carries_one_stress np y uEx uW rho mu kappa tau u0 Hnp Hy Ht Hr Hm Hk) as (_ & _ & F & _).
  specialize (F 0%nat ltac:(lia)). unfold stress_of. cbv zeta. rewrite <- F. unfold flux, ode_stress.
  pose proof (Hy 0%nat ltac:(lia)).
  pose proof (v_pos np y rho mu kappa tau Hnp Hy Ht Hr Hm Hk 0 ltac:(lia)).
  pose proof (v_pos np y rho mu kappa tau Hnp Hy Ht Hr Hm Hk 1 ltac:(lia)). unfold mean_visc. field. split; lra.
Qed.
(** the stress used lies between the one of a laminar layer and the one of a layer one segment thick; it is at most
    the stress the layer carries *)
Theorem C97_wall_stress_bounds np y uEx uW rho mu kappa tau u0 :
  (2 <= np)%nat -> rising np y -> 0 <= tau -> 0 < rho -> 0 < mu -> 0 <= kappa -> uW <= uEx ->
  let v := ode_visc tau rho mu kappa y in
  let u := ode_profile np y uEx uW rho mu kappa tau u0 in
  let t := ode_stress y mu u in
  mu * (uEx - uW) / (y (np - 1)%nat - y 0%nat) <= t <= mu * (uEx - uW) / (y 1%nat - y 0%nat) /\
  t <= flux y v u 0 /\ t = flux y v u 0 * (mu / ((mu + v 1%nat) / 2)).
Proof.
  intros Hnp Hy Ht Hr Hm Hk HU v u t.
  assert (TV : t = stress_of np y uEx uW rho mu kappa tau) by (apply stress_val; assumption).
  destruct (C97_profile_carries_one_stress np y uEx uW rho mu kappa tau u0 Hnp Hy Ht Hr Hm Hk) as (_ & _ & F & _).
  specialize (F 0%nat ltac:(lia)). fold v u in F. unfold stress_of in TV. cbv zeta in TV. fold v in TV.
  destruct (C97_viscosity_rises_from_wall tau rho mu kappa np y Ht Hr Hm Hk Hy) as [V0 VM]. fold v in V0, VM.
  pose proof (res_pos np y rho mu kappa tau Hnp Hy Ht Hr Hm Hk) as RP. fold v in RP.
  pose proof (Hy 0%nat ltac:(lia)) as Y1.
  pose proof (VM 0%nat 1%nat ltac:(lia) ltac:(lia)) as V1.
  assert (YL : y 1%nat <= y (np - 1)%nat) by (apply (rising_le np y Hy); lia).
  assert (M0 : mu <= mean_visc v 0) by (unfold mean_visc; lra).
  (* resistance of everything at most L / mean_visc 0 *)
  assert (RU : forall m, (m < np)%nat -> resistance y v m * mean_visc v 0 <= y m - y 0%nat).
  { induction m as [|m IH]; intros H.
    - unfold resistance, sumn. cbn [seq fold_left]. lra.
    - unfold resistance. rewrite sumn_S. fold (resistance y v m). specialize (IH ltac:(lia)).
      assert (A : mean_visc v 0 <= mean_visc v m).
      { unfold mean_visc. pose proof (VM 0%nat m ltac:(lia) ltac:(lia)). pose proof (VM 1%nat (S m) ltac:(lia) ltac:(lia)). lra. }
      pose proof (Hy m H).
      assert (B : (y (S m) - y m) / mean_visc v m * mean_visc v 0 <= y (S m) - y m).
      { replace ((y (S m) - y m) / mean_visc v m * mean_visc v 0) with ((y (S m) - y m) * mean_visc v 0 / mean_visc v m) by (field; lra).
        assert (MP : 0 < mean_visc v m) by lra. apply (proj2 (Rle_div_l _ _ _ MP)). apply Rmult_le_compat_l; lra. }
      lra. }
  (* and at least the first segment *)
  assert (RL : (y 1%nat - y 0%nat) <= resistance y v (np - 1) * mean_visc v 0).
  { assert (A : resistance y v 1 <= resistance y v (np - 1)).
    { destruct (Nat.eq_dec (np - 1) 1) as [E|N]; [rewrite E; lra|].
      left. apply (res_lt np y rho mu kappa tau Hnp Hy Ht Hr Hm Hk); lia. }
    assert (R1 : resistance y v 1 * mean_visc v 0 = y 1%nat - y 0%nat).
    { unfold resistance, sumn. cbn [seq fold_left plus]. field. lra. }
    rewrite <- R1. apply Rmult_le_compat_r; lra. }
  specialize (RU (np - 1)%nat ltac:(lia)).
  set (W := resistance y v (np - 1) * mean_visc v 0) in *.
  assert (TW : t = mu * (uEx - uW) / W) by (rewrite TV; unfold W; field; lra).
  assert (MU : 0 <= mu * (uEx - uW)) by (apply Rmult_le_pos; lra).
  split; [|split].
  - rewrite TW. unfold Rdiv. split; apply Rmult_le_compat_l; try assumption; apply Rinv_le_contravar; lra.
  - rewrite TV, F. rewrite <- (Rmult_1_r ((uEx - uW) / resistance y v (np - 1))) at 2. apply Rmult_le_compat_l.
    + apply Rmult_le_pos; [lra|]. left. now apply Rinv_0_lt_compat.
    + assert (MP : 0 < mean_visc v 0) by lra. apply (proj2 (Rle_div_l _ _ _ MP)). lra.
  - rewrite TV, F. f_equal. f_equal. unfold mean_visc. rewrite V0. reflexivity.
Qed.
(** so the stress handed on is not the one the profile carries once the first segment is turbulent *)
Theorem C97_wall_stress_is_layer_stress_refuted np y uEx uW rho mu kappa tau u0 :
  (2 <= np)%nat -> rising np y -> 0 < tau -> 0 < rho -> 0 < mu -> 0 < kappa -> uW < uEx ->
  ode_stress y mu (ode_profile np y uEx uW rho mu kappa tau u0)
  < flux y (ode_visc tau rho mu kappa y) (ode_profile np y uEx uW rho mu kappa tau u0) 0.
Proof.
  intros Hnp Hy Ht Hr Hm Hk HU.
  destruct (C97_wall_stress_bounds np y uEx uW rho mu kappa tau u0 Hnp Hy ltac:(lra) Hr Hm ltac:(lra) ltac:(lra)) as (_ & _ & E).
  cbv zeta in E. rewrite E.
  destruct (C97_profile_carries_one_stress np y uEx uW rho mu kappa tau u0 Hnp Hy ltac:(lra) Hr Hm ltac:(lra)) as (_ & _ & F & _).
  specialize (F 0%nat ltac:(lia)). rewrite F.
  pose proof (res_pos np y rho mu kappa tau Hnp Hy ltac:(lra) Hr Hm ltac:(lra)) as RP.
  set (q := _ / _ : R). assert (0 < q) by (apply Rdiv_lt_0_compat; lra). clearbody q.
  assert (V1 : mu < ode_visc tau rho mu kappa y 1).
  { unfold ode_visc. cbv zeta. pose proof (Hy 0%nat ltac:(lia)).
    assert (S1 : 0 < sqrt (rho * tau)) by (apply sqrt_lt_R0; apply Rmult_lt_0_compat; lra).
    assert (S2 : 0 < sqrt (tau / rho)) by (apply sqrt_lt_R0; apply Rdiv_lt_0_compat; lra).
    assert (B : 0 < 1 - exp (- ((y 1%nat - y 0%nat) * sqrt (rho * tau) / mu) / Aplus)).
    { assert (exp (- ((y 1%nat - y 0%nat) * sqrt (rho * tau) / mu) / Aplus) < 1); [|lra].
      apply Rlt_le_trans with (exp 0); [|rewrite exp_0; lra]. apply exp_increasing. unfold Aplus.
      assert (0 < (y 1%nat - y 0%nat) * sqrt (rho * tau) / mu); [|lra].
      apply Rdiv_lt_0_compat; [apply Rmult_lt_0_compat; lra|assumption]. }
    set (bl := 1 - exp _) in *.
    assert (0 < kappa * rho * sqrt (tau / rho) * (y 1%nat - y 0%nat) * bl * bl); [|lra].
    repeat apply Rmult_lt_0_compat; try assumption; lra. }
  rewrite <- (Rmult_1_r q) at 2. apply Rmult_lt_compat_l; [assumption|].
  assert (MP : 0 < (mu + ode_visc tau rho mu kappa y 1) / 2) by lra. apply (proj2 (Rlt_div_l _ _ _ MP)). lra.
Qed.

(** what the iteration returns *)
Lemma loop_spec np y uEx uW rho mu kappa tol : (2 <= np)%nat -> rising np y -> 0 < rho -> 0 < mu -> 0 <= kappa -> uW <= uEx ->
  forall k tau u0, 0 <= tau ->
  let res := ode_loop k np y uEx uW rho mu kappa tol tau u0 in
  0 <= fst (fst res) /\
  (snd (fst res) = true -> Rabs (stress_of np y uEx uW rho mu kappa (fst (fst res)) - fst (fst res)) < tol) /\
  (fst (fst res) = tau \/ mu * (uEx - uW) / (y (np - 1)%nat - y 0%nat) <= fst (fst res) <= mu * (uEx - uW) / (y 1%nat - y 0%nat)).
Proof.
  intros Hnp Hy Hr Hm Hk HU. induction k as [|k IH]; intros tau u0 Ht; cbn [ode_loop]; cbv zeta.
  - cbn [fst snd]. split; [assumption|]. split; [discriminate|now left].
  - pose proof (stress_val np y uEx uW rho mu kappa tau u0 Hnp Hy Ht Hr Hm Hk) as SV.
    destruct (C97_wall_stress_bounds np y uEx uW rho mu kappa tau u0 Hnp Hy Ht Hr Hm Hk HU) as (B & _). cbv zeta in B.
    destruct (Rlt_dec _ tol) as [L|NL].
    + cbn [fst snd]. split; [assumption|]. split; [|now left]. intros _. rewrite <- SV.
      match type of L with sqrt (?a * ?a) < _ => fold (Rsqr a) in L; rewrite sqrt_Rsqr_abs in L end. exact L.
    + set (u1 := ode_profile np y uEx uW rho mu kappa tau u0) in *. set (t1 := ode_stress y mu u1) in *.
      assert (P : 0 <= t1).
      { apply Rle_trans with (2 := proj1 B). pose proof (Hy 0%nat ltac:(lia)).
        pose proof (rising_le np y Hy 1 (np - 1) ltac:(lia) ltac:(lia)).
        apply Rmult_le_pos; [apply Rmult_le_pos; lra|]. left. apply Rinv_0_lt_compat. lra. }
      destruct (IH t1 u1 P) as (I1 & I2 & I3). split; [exact I1|]. split; [exact I2|].
      right. destruct I3 as [I3|I3]; [rewrite I3; exact B|exact I3].
Qed.
(** the friction velocity handed back is real, satisfies the model's equation to 1e-6 whenever convergence is
    reported, and is the guess or lies in the laminar .. one-segment range *)
Theorem C97_friction_velocity_of_layer np y uEx uW rho mu kappa guess u0 ut c :
  (2 <= np)%nat -> rising np y -> 0 < rho -> 0 < mu -> 0 <= kappa -> uW <= uEx -> 0 <= guess ->
  ode_solve np y uEx uW rho mu kappa guess u0 = (ut, c) ->
  let t := rho * ut * ut in
  0 <= ut /\ (c = true -> Rabs (stress_of np y uEx uW rho mu kappa t - t) < 1 / 10^6) /\
  (t = guess \/ mu * (uEx - uW) / (y (np - 1)%nat - y 0%nat) <= t <= mu * (uEx - uW) / (y 1%nat - y 0%nat)).
Proof.
  intros Hnp Hy Hr Hm Hk HU Hg E. unfold ode_solve in E.
  destruct (loop_spec np y uEx uW rho mu kappa TOLERANCE Hnp Hy Hr Hm Hk HU MAX_ITER guess u0 Hg) as (A & B & C).
  set (res := ode_loop _ _ _ _ _ _ _ _ _ _ _) in *. clearbody res. destruct res as [[t c'] w]. cbn [fst snd] in *.
  injection E as <- <-.
  assert (T : rho * sqrt (t / rho) * sqrt (t / rho) = t).
  { rewrite Rmult_assoc, sqrt_sqrt; [field; lra|]. apply Rmult_le_pos; [assumption|]. left. now apply Rinv_0_lt_compat. }
  cbv zeta. rewrite T. split; [apply sqrt_pos|]. split; [|exact C]. intros Hc. exact (B Hc).
Qed.
