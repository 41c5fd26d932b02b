(** C54: temperature from enthalpy *)
Require Import Reals List Bool Lra Lia Arith.
From Coquelicot Require Import Coquelicot.
From Verif Require Import RUtil Edge_Model Prop_Model.
Open Scope R_scope.

Lemma newton_step H Cp f h T : newton_T H Cp (S f) h T =
  if Rlt_dec (Rabs ((h - H T) / Cp T)) ((T + (h - H T) / Cp T) * tolerance) then (T + (h - H T) / Cp T, true) else newton_T H Cp f h (T + (h - H T) / Cp T).
Proof. reflexivity. Qed.
Section P.
Variables (H Cp : R -> R) (minT maxT : R).
Notation ext := (extract_temperature H Cp minT maxT).
Notation newton := (newton_T H Cp).

(** the stored temperature respects the user's limits *)
Theorem C54_temperature_within_limits : forall h Tsave, minT <= maxT -> minT <= nT (ext h Tsave) <= maxT.
Proof.
  intros h Ts L. unfold extract_temperature. destruct (newton 25 h Ts) as [T c].
  destruct (Rlt_dec T minT); [|destruct (negb c) eqn:?]; 
  repeat match goal with |- context[Rgt_dec ?a ?b] => destruct (Rgt_dec a b) end; cbn; lra.
Qed.

(** the temperature and enthalpy left at the node agree exactly if the node was in trouble (no convergence or clipped); otherwise the
    enthalpy is untouched and the last Newton correction was below 1e-8 of the temperature *)
Lemma newton_true fuel h T T' : newton fuel h T = (T', true) ->
  exists T0, T' = T0 + (h - H T0) / Cp T0 /\ Rabs (T' - T0) < T' * (1/100000000).
Proof.
  revert T. induction fuel as [|f IH]; intros T E; cbn in E; [discriminate|].
  destruct (Rlt_dec _ _) as [L|L]; [|eapply IH; exact E]. injection E as <-. exists T. split; [reflexivity|].
  replace (T + (h - H T) / Cp T - T) with ((h - H T) / Cp T) by ring. exact L.
Qed.
Theorem C54_node_left_consistent : forall h Tsave,
  let r := ext h Tsave in
  (trouble r = true -> nh r = H (nT r)) /\
  (trouble r = false -> nh r = h /\ exists T0, nT r = T0 + (h - H T0) / Cp T0 /\ Rabs (nT r - T0) < nT r * (1/100000000)).
Proof.
  intros h Ts r. unfold r, extract_temperature. destruct (newton 25 h Ts) as [T c] eqn:E.
  destruct (Rlt_dec T minT) as [L|L].
  - destruct (Rgt_dec minT maxT); cbn; (split; [reflexivity|discriminate]).
  - destruct (Rgt_dec T maxT); [cbn; split; [reflexivity|discriminate]|]. destruct c; cbn; [|split; [reflexivity|discriminate]].
    split; [discriminate|]. intros _. split; [reflexivity|]. exact (newton_true _ _ _ _ E).
Qed.

(** a state that is already consistent is left alone *)
Theorem C54_consistent_state_unchanged : forall h T, H T = h -> 0 < T -> minT <= T <= maxT -> ext h T = mkT T h false.
Proof.
  intros h T E P L. unfold extract_temperature. rewrite newton_step. rewrite E. replace (h - h) with 0 by ring.
  replace (0 / Cp T) with 0 by (unfold Rdiv; ring). rewrite Rplus_0_r, Rabs_R0. unfold tolerance.
  destruct (Rlt_dec 0 (T * (1/100000000))) as [_|N]; [|exfalso; apply N; lra].
  destruct (Rlt_dec T minT); [lra|]. destruct (Rgt_dec T maxT); [lra|]. reflexivity.
Qed.

(** enthalpy error of an accepted temperature: Cp must be the derivative of H (C53) with values between c1 and c2 *)
Hypothesis dH : forall t, 0 < t -> is_derive H t (Cp t).
Lemma mvt a b : 0 < a -> 0 < b -> exists c, Rmin a b <= c <= Rmax a b /\ H b - H a = Cp c * (b - a).
Proof.
  intros A B. assert (M : 0 < Rmin a b) by (unfold Rmin; destruct (Rle_dec a b); lra).
  destruct (MVT_gen H a b Cp) as (c & I & E).
  - intros x I. apply dH. lra.
  - intros x I. apply continuity_pt_filterlim. apply (ex_derive_continuous (V := R_NormedModule)). exists (Cp x). apply dH. lra.
  - exists c. split; [exact I|exact E].
Qed.
Lemma accurate h T T0 c1 c2 : 0 < c1 -> (forall t, 0 < t -> c1 <= Cp t <= c2) ->
  T = T0 + (h - H T0) / Cp T0 -> Rabs (T - T0) < T * (1/100000000) ->
  0 < T /\ Rabs (h - H T) <= (c2 - c1) * (T * (1/100000000)) /\
  forall Tstar, 0 < Tstar -> H Tstar = h -> Rabs (T - Tstar) <= (c2 - c1) / c1 * (T * (1/100000000)).
Proof.
  intros C1 B E S.
  assert (PT : 0 < T) by (pose proof (Rabs_pos (T - T0)); lra).
  assert (P0 : 0 < T0) by (apply Rabs_lt_between in S; lra).
  assert (K : Rabs (h - H T) <= (c2 - c1) * (T * (1/100000000))).
  { destruct (mvt T0 T P0 PT) as (c & I & M). assert (Pc : 0 < c) by (unfold Rmin in I; destruct (Rle_dec T0 T); lra).
    pose proof (B c Pc) as Bc. pose proof (B T0 P0) as B0.
    assert (X : h - H T0 = Cp T0 * (T - T0)) by (rewrite E; field; lra).
    replace (h - H T) with ((Cp T0 - Cp c) * (T - T0)) by lra. rewrite Rabs_mult.
    apply Rmult_le_compat; try apply Rabs_pos; [apply Rabs_le; lra|lra]. }
  split; [exact PT|]. split; [exact K|]. intros Tx Px Ex.
  destruct (mvt T Tx PT Px) as (c & I & M). assert (Pc : 0 < c) by (unfold Rmin in I; destruct (Rle_dec T Tx); lra).
  pose proof (B c Pc) as Bc. rewrite Ex in M. rewrite M, Rabs_mult in K. rewrite (Rabs_pos_eq (Cp c)) in K by lra.
  rewrite (Rabs_minus_sym T Tx). pose proof (Rabs_pos (Tx - T)).
  replace ((c2 - c1) / c1 * (T * (1/100000000))) with ((c2 - c1) * (T * (1/100000000)) / c1) by (field; lra).
  apply Rle_div_r; [exact C1|]. nra.
Qed.
Theorem C54_accepted_temperature_accurate : forall h Tsave c1 c2, 0 < c1 -> (forall t, 0 < t -> c1 <= Cp t <= c2) ->
  trouble (ext h Tsave) = false ->
  let T := nT (ext h Tsave) in
  0 < T /\ Rabs (h - H T) <= (c2 - c1) * (T * (1/100000000)) /\
  forall Tstar, 0 < Tstar -> H Tstar = h -> Rabs (T - Tstar) <= (c2 - c1) / c1 * (T * (1/100000000)).
Proof.
  intros h Ts c1 c2 C1 B. pose proof (C54_node_left_consistent h Ts) as N. revert N. generalize (ext h Ts). intros r N NT. cbv zeta in *.
  destruct (proj2 N NT) as (_ & T0 & E & S). exact (accurate h (nT r) T0 c1 c2 C1 B E S).
Qed.

(** convergence: if around the solution Cp varies by less than a factor of two, the iterates approach it geometrically and the node is
    accepted as soon as the geometric bound falls below the tolerance within the 25 iterations allowed *)
Theorem C54_converges_for_moderate_variation : forall h Tsave Tstar c1 c2 k, H Tstar = h ->
  let e0 := Rabs (Tsave - Tstar) in let r := (c2 - c1) / c1 in
  0 < c1 -> r < 1 -> 0 < Tstar - e0 -> (forall t, Tstar - e0 <= t <= Tstar + e0 -> c1 <= Cp t <= c2) ->
  (k < 25)%nat -> c2 / c1 * (r ^ k * e0) < (Tstar - e0) * (1/100000000) ->
  minT <= Tstar - e0 -> Tstar + e0 <= maxT ->
  trouble (ext h Tsave) = false.
Proof.
  intros h Ts Tx c1 c2 k EH e0 r C1 R1 P0 B Hk G Lmin Lmax.
  assert (E0 : 0 <= e0) by apply Rabs_pos.
  assert (C12 : c1 <= c2) by (pose proof (B Tx ltac:(lra)); lra).
  assert (R0 : 0 <= r) by (unfold r; apply Rmult_le_pos; [lra|left; apply Rinv_0_lt_compat; lra]).
  (* one step *)
  assert (STEP : forall T, Rabs (T - Tx) <= e0 -> Rabs (T + (h - H T) / Cp T - Tx) <= r * Rabs (T - Tx) /\ Rabs ((h - H T) / Cp T) <= c2 / c1 * Rabs (T - Tx)).
  { intros T HT. assert (IT : Tx - e0 <= T <= Tx + e0) by (apply Rabs_le_between in HT; lra).
    pose proof (B T IT) as BT. destruct (mvt T Tx) as (c & I & M); [lra|lra|].
    assert (IC : Tx - e0 <= c <= Tx + e0) by (unfold Rmin, Rmax in I; destruct (Rle_dec T Tx); lra).
    pose proof (B c IC) as Bc. rewrite EH in M.
    assert (Q : (h - H T) / Cp T = Cp c / Cp T * (Tx - T)) by (rewrite M; field; lra).
    assert (q : Rabs (1 - Cp c / Cp T) <= r).
    { replace (1 - Cp c / Cp T) with ((Cp T - Cp c) / Cp T) by (field; lra). unfold Rdiv. rewrite Rabs_mult, (Rabs_pos_eq (/ Cp T)) by (left; apply Rinv_0_lt_compat; lra).
      unfold r, Rdiv. apply Rmult_le_compat; [apply Rabs_pos|left; apply Rinv_0_lt_compat; lra|apply Rabs_le; lra|apply Rinv_le_contravar; lra]. }
    rewrite Q. split.
    - replace (T + Cp c / Cp T * (Tx - T) - Tx) with ((1 - Cp c / Cp T) * (T - Tx)) by (field; lra). rewrite Rabs_mult.
      apply Rmult_le_compat_r; [apply Rabs_pos|exact q].
    - rewrite Rabs_mult, (Rabs_minus_sym Tx T). apply Rmult_le_compat_r; [apply Rabs_pos|].
      rewrite Rabs_pos_eq by (apply Rmult_le_pos; [lra|left; apply Rinv_0_lt_compat; lra]).
      unfold Rdiv. apply Rmult_le_compat; [lra|left; apply Rinv_0_lt_compat; lra|lra|apply Rinv_le_contravar; lra]. }
  assert (STAY : forall T, Rabs (T - Tx) <= e0 -> Rabs (T + (h - H T) / Cp T - Tx) <= e0).
  { intros T HT. destruct (STEP T HT) as [A _]. pose proof (Rabs_pos (T - Tx)). nra. }
  (* j more steps allowed, already within r^m e0 *)
  assert (CONV : forall j m T, Rabs (T - Tx) <= e0 -> Rabs (T - Tx) <= r ^ m * e0 -> (m <= k)%nat -> (k - m < j)%nat ->
            exists T', newton j h T = (T', true) /\ Rabs (T' - Tx) <= e0).
  { intros j. induction j as [|j IH]; intros m T HT HM Hm Hj; [lia|]. rewrite newton_step.
    destruct (STEP T HT) as [A A2]. pose proof (STAY T HT) as ST.
    destruct (Rlt_dec (Rabs ((h - H T) / Cp T)) ((T + (h - H T) / Cp T) * tolerance)) as [L|L]; [eexists; split; [reflexivity|exact ST]|].
    destruct (Nat.eq_dec m k) as [->|N].
    - exfalso. apply L. unfold tolerance. apply Rabs_le_between in ST.
      apply Rle_lt_trans with (c2 / c1 * (r ^ k * e0)).
      + eapply Rle_trans; [exact A2|]. apply Rmult_le_compat_l; [apply Rmult_le_pos; [lra|left; apply Rinv_0_lt_compat; lra]|exact HM].
      + eapply Rlt_le_trans; [exact G|]. apply Rmult_le_compat_r; lra.
    - apply (IH (S m)); [exact ST| |lia|lia]. cbn. rewrite Rmult_assoc. eapply Rle_trans; [exact A|]. apply Rmult_le_compat_l; [exact R0|exact HM]. }
  destruct (CONV 25%nat 0%nat Ts) as (T' & E & ST); [unfold e0; lra|cbn; unfold e0; lra|lia|lia|].
  unfold extract_temperature. rewrite E. apply Rabs_le_between in ST.
  destruct (Rlt_dec T' minT); [lra|]. destruct (Rgt_dec T' maxT); [lra|]. reflexivity.
Qed.
End P.

(** constant specific heat: the exact temperature, whatever the starting guess *)
Theorem C54_constant_cp_exact : forall c Tref minT maxT h Tsave, c <> 0 -> 0 < Tref + h / c -> minT <= Tref + h / c <= maxT ->
  extract_temperature (enthalpy_const_spec_heat c Tref) (fun _ => c) minT maxT h Tsave = mkT (Tref + h / c) h false.
Proof.
  intros c Tref minT maxT h Ts C P L.
  assert (E : newton_T (enthalpy_const_spec_heat c Tref) (fun _ => c) 25 h Ts = (Tref + h / c, true)).
  { rewrite newton_step.     assert (X : Ts + (h - enthalpy_const_spec_heat c Tref Ts) / c = Tref + h / c) by (unfold enthalpy_const_spec_heat; field; exact C). rewrite X.
    destruct (Rlt_dec _ _) as [_|_]; [reflexivity|]. rewrite newton_step.
    replace ((h - enthalpy_const_spec_heat c Tref (Tref + h / c)) / c) with 0 by (unfold enthalpy_const_spec_heat; field; exact C). rewrite Rplus_0_r, Rabs_R0.
    destruct (Rlt_dec 0 ((Tref + h / c) * tolerance)) as [_|N]; [reflexivity|]. exfalso. apply N. unfold tolerance. nra. }
  unfold extract_temperature. rewrite E. destruct (Rlt_dec _ minT); [lra|]. destruct (Rgt_dec _ maxT); [lra|]. reflexivity.
Qed.
(** water between 280 K and 340 K satisfies the convergence hypotheses (C53: Cp is the derivative, it stays within 4100..4300) *)
Theorem C54_water_example : forall t, 290 <= t <= 350 -> 4100 <= water_cp t <= 4300.
Proof.
  intros T HT. replace T with (320 + (T - 320)) by ring. set (u := T - 320). assert (Hu : -30 <= u <= 30) by (unfold u; lra). clearbody u. clear T HT.
  assert (U2 : 0 <= u*u <= 900) by nra. assert (U3 : -27000 <= u*(u*u) <= 27000) by nra. assert (U4 : 0 <= (u*u)*(u*u) <= 810000) by nra.
  assert (E : water_cp (320 + u) = (12916926/3125) + (-4853/31250)*u + (3169/312500)*(u*u) + (-161/1562500)*(u*(u*u)) + (1857/1000000000)*((u*u)*(u*u))) by (unfold water_cp; field).
  rewrite E. clear E. set (u2 := u*u) in *. set (u3 := u*u2) in *. set (u4 := u2*u2) in *. clearbody u4 u3 u2. split; lra.
Qed.
