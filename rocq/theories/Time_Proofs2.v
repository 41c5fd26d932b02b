From Coq Require Import Reals ZArith List Bool Lra Lia Psatz.
From Verif Require Import Time_Model Time_Spec Time_Spec2 Time_Proofs.
Import ListNotations.
Open Scope R_scope.

(** ** C01 *)
Lemma quad_deriv p2 p1 p0 t d :
  derivable_pt_lim (fun x => p2 * x ^ 2 + p1 * x + p0) t d -> d = 2 * p2 * t + p1.
Proof.
  intros H. apply (uniqueness_limite _ _ _ _ H).
  replace (2 * p2 * t + p1) with (p2 * (INR 2 * t ^ (pred 2)) + p1 * 1 + 0) by (simpl; ring).
  apply (derivable_pt_lim_plus (fun x => p2 * x ^ 2 + p1 * x) (fun _ => p0)).
  - apply (derivable_pt_lim_plus (fun x => p2 * x ^ 2) (fun x => p1 * x)).
    + apply (derivable_pt_lim_scal (fun x => x ^ 2)). apply derivable_pt_lim_pow.
    + apply (derivable_pt_lim_scal (fun x => x)). apply derivable_pt_lim_id.
  - apply derivable_pt_lim_const.
Qed.

Lemma lin_deriv p1 p0 t d :
  derivable_pt_lim (fun x => p1 * x + p0) t d -> d = p1.
Proof.
  intros H.
  cut (derivable_pt_lim (fun x => p1 * x + p0) t (p1 * 1 + 0)).
  { intros H'. rewrite (uniqueness_limite _ _ _ _ H H'). ring. }
  apply (derivable_pt_lim_plus (fun x => p1 * x) (fun _ => p0)).
  - apply (derivable_pt_lim_scal (fun x => x)). apply derivable_pt_lim_id.
  - apply derivable_pt_lim_const.
Qed.

Lemma bdf2_exact h1 h2 : 0 < h1 -> 0 < h2 ->
  let tau := h1 / h2 in
  exact_for_quadratics ((1 + 2 * tau) / (1 + tau)) (- (1 + tau)) (tau * tau / (1 + tau)) h1 h2.
Proof.
  intros H1 H2 tau p2 p1 p0 t d Hd. apply quad_deriv in Hd. subst d.
  unfold difference3, tau. field. repeat split; lra.
Qed.

Lemma be_exact h1 : 0 < h1 -> exact_for_linears 1 (-1) h1.
Proof. intros H p1 p0 t d Hd. apply lin_deriv in Hd. subst d. field. lra. Qed.

Section P.
Variable E : Env.
Notation st := (state E).

(** state invariant at the top of the loop *)
Definition Inv (so : bool) (s : st) : Prop :=
  secondOrder (ti s) = so /\ (so = false -> g1 (ti s) = 1 /\ g2 (ti s) = -1 /\ g3 (ti s) = 0) /\
  0 < dtN (ti s) /\ 0 < dtNm1 (ti s).

Lemma neg_fold_pos (HE : positive_env E) rs : forall a (s : st), 0 < a -> 0 < dtN (ti s) ->
  0 < fst (fold_left (negotiate1 E) rs (a, s)).
Proof.
  induction rs as [|r rs IH]; intros a s Ha Hd; simpl; [exact Ha|].
  apply IH; [|exact Hd]. unfold std_min. destruct (Rlt_dec _ _); [apply HE; exact Hd|exact Ha].
Qed.

Lemma negotiated_pos (HE : positive_env E) (s : st) : 0 < dtN (ti s) -> 0 < negotiated E s.
Proof.
  intros H. unfold negotiated. destruct (adaptive (ti s)); [|exact H].
  apply neg_fold_pos; auto; lra.
Qed.

Lemma Inv_step (HE : positive_env E) so s : Inv so s ->
  Inv so (time_step E s) /\ consistent_line so (line_of (clock E s)).
Proof.
  intros (Hso & Hg & Hd & Hd1).
  pose proof (negotiated_pos HE s Hd) as Hn.
  split.
  - unfold Inv. rewrite time_step_dtN, time_step_dtNm1.
    pose proof (f_equal c_so (time_step_cfg E s)) as Hc. cbn [c_so cfg] in Hc.
    rewrite Hc. repeat split; auto; rewrite time_step_ti; cbn;
      destruct (Hg H) as (A & B & C); unfold clock, advance_clock; cbn;
      rewrite Hso, H; cbn; assumption.
  - unfold consistent_line, line_of. cbn.
    rewrite clock_count, clock_dtN, clock_dtNm1.
    unfold clock, advance_clock. cbn. rewrite Hso. destruct so.
    + unfold compute_gamma. cbn. destruct (1 <? count (ti s) + 1)%Z eqn:Hc; cbn.
      * apply Z.ltb_lt in Hc. split; [|split].
        -- field. split; [lra|]. assert (0 < negotiated E s / dtNm1 (ti s)) by (apply Rdiv_lt_0_compat; lra).
           lra.
        -- intros _ _. apply bdf2_exact; assumption.
        -- intros [?|?]; [discriminate|lia].
      * apply Z.ltb_ge in Hc. split; [lra|]. split; [intros; lia|].
        intros _. split; [reflexivity|]. now apply be_exact.
    + cbn. destruct (Hg eq_refl) as (-> & -> & ->). split; [lra|]. split; [discriminate|].
      intros _. split; [reflexivity|]. now apply be_exact.
Qed.

Lemma Inv_lines (HE : positive_env E) so n : forall s, Inv so s ->
  Forall (consistent_line so) (lines E n s).
Proof.
  induction n; intros s H; simpl; [constructor|].
  destruct (Inv_step HE so s H). constructor; auto.
Qed.

Lemma pop_restart_pos rs : forall s : st,
  (forall r db x, In r rs -> restart_of E r = Some db -> db_dt db = Some x -> 0 < x) ->
  0 < dtNm1 (ti s) -> 0 < dtNm1 (ti (fold_left (pop_restart1 E) rs s)).
Proof.
  induction rs as [|r rs IH]; intros s H Hd; cbn [fold_left]; [exact Hd|].
  apply IH; [intros; eapply H; eauto; now right|].
  unfold pop_restart1. destruct (restart_of E r) as [db|] eqn:Hr; cbn; [|exact Hd].
  destruct (db_dt db) eqn:Hx; cbn; [|exact Hd]. eapply H; eauto. now left.
Qed.

Lemma startup_Inv i w0 :
  0 < dflt (in_time_step i) 1 ->
  (forall r db x, In r (realms E) -> restart_of E r = Some db -> db_dt db = Some x -> 0 < x) ->
  Inv (dflt (in_second i) false) (startup E (mkSt (load i) w0 [] [])).
Proof.
  intros Hd Hr. set (s0 := mkSt (load i) w0 [] []).
  destruct (startup_cfg E s0) as (Hc & Hg). unfold Inv.
  pose proof (f_equal c_so Hc) as H1. cbn [c_so cfg] in H1. split; [exact H1|].
  split. { intros _. cbn in Hg. injection Hg as A B C. auto. }
  assert (Hm : 0 < dtNm1 (ti (after_restart E s0))).
  { unfold after_restart. apply pop_restart_pos; auto.
    destruct (pop_input_cfg E (realms E) (for_each E BdryToState (for_each E PopBdry (for_each E PopIC s0))))
      as (_ & _ & -> & _). rewrite !fe_ti. exact Hd. }
  rewrite startup_ti. cbn. split; [|exact Hm].
  destruct (adaptive _); [exact Hm|].
  pose proof (f_equal c_file Hc) as H2. rewrite startup_ti in H2. cbn in H2. rewrite H2. exact Hd.
Qed.

Lemma integrate_inv fuel i w0 s : integrate_realm E fuel i w0 = Some s ->
  let s0 := startup E (mkSt (load i) w0 [] []) in
  exists n, (n <= fuel)%nat /\ log s = lines E n s0 /\ ti s = ti (steps E n s0) /\
    trace s = trace s0 ++ concat (repeat (step_events E (adaptive (load i)) (nlIters (load i))) n)
              ++ map (mkEv DumpTime) (realms E) /\
    simulation_proceeds (ti (steps E n s0)) = false /\
    forall k, (k < n)%nat -> simulation_proceeds (ti (steps E k s0)) = true.
Proof.
  intros H s0. unfold integrate_realm in H.
  destruct (time_loop E fuel _) as [s'|] eqn:Hl; [|discriminate]. injection H as <-.
  destruct (time_loop_steps E fuel _ _ Hl) as (n & L & -> & Hf & Hk).
  exists n. fold s0 in Hf, Hk. repeat split; auto.
  - rewrite fe_log, steps_log, startup_log. reflexivity.
  - rewrite fe_ti. reflexivity.
  - rewrite fe_trace, steps_trace. rewrite <- app_assoc. fold s0.
    destruct (startup_cfg E (mkSt (load i) w0 [] [])) as (Hc & _). fold s0 in Hc.
    pose proof (f_equal c_ad Hc) as Ha. pose proof (f_equal c_nl Hc) as Hn. cbn [c_ad c_nl cfg ti] in Ha, Hn.
    now rewrite Ha, Hn.
Qed.

Theorem bdf_consistent fuel i w0 s :
  positive_env E ->
  0 < dflt (in_time_step i) 1 ->
  (forall r db x, In r (realms E) -> restart_of E r = Some db -> db_dt db = Some x -> 0 < x) ->
  integrate_realm E fuel i w0 = Some s ->
  Forall (consistent_line (dflt (in_second i) false)) (log s).
Proof.
  intros HE Hd Hr H. destruct (integrate_inv _ _ _ _ H) as (n & _ & -> & _).
  apply Inv_lines; auto. now apply startup_Inv.
Qed.

(** consecutive lines *)
Lemma lines_chain n : forall s k l l',
  nth_error (lines E n s) k = Some l -> nth_error (lines E n s) (S k) = Some l' ->
  l_count l' = (l_count l + 1)%Z /\ l_time l' = l_time l + l_dtN l' /\ l_dtNm1 l' = l_dtN l.
Proof.
  induction n; intros s k l l' H H'; [destruct k; discriminate|].
  destruct k.
  - cbn in H. injection H as <-. cbn [nth_error lines] in H'.
    destruct n; [discriminate|]. cbn in H'. injection H' as <-. cbn.
    rewrite !clock_count, !clock_time, !clock_dtN, !clock_dtNm1.
    rewrite time_step_count, time_step_time, time_step_dtNm1. auto.
  - cbn [nth_error lines] in H, H'. eapply IHn; eauto.
Qed.

(** ** C02 *)
Lemma count_loop N s : byTime (ti s) = false -> maxCount (ti s) = N ->
  let n := Z.to_nat (N - count (ti s)) in
  forall fuel, (n <= fuel)%nat -> time_loop E fuel s = Some (steps E n s).
Proof.
  intros Hb HN n fuel Hf.
  assert (forall k, simulation_proceeds (ti (steps E k s)) = (count (ti s) + Z.of_nat k <? N)%Z) as HP.
  { intros k. unfold simulation_proceeds.
    pose proof (f_equal c_bt (steps_cfg E k s)) as H1. pose proof (f_equal c_max (steps_cfg E k s)) as H2.
    cbn [c_bt c_max cfg] in H1, H2. rewrite H1, H2, Hb, HN, steps_count. reflexivity. }
  apply steps_time_loop; auto.
  - intros k Hk. rewrite HP. apply Z.ltb_lt. unfold n in Hk. lia.
  - rewrite HP. apply Z.ltb_ge. unfold n. lia.
Qed.

Lemma count_terminates fuel i w0 N :
  in_term_count i = Some N ->
  let s0 := startup E (mkSt (load i) w0 [] []) in
  let n := Z.to_nat (N - count (ti s0)) in
  (n <= fuel)%nat ->
  exists s, integrate_realm E fuel i w0 = Some s /\
    map l_count (log s) = counts_from (count (ti s0)) n /\
    count (ti s) = Z.max N (count (ti s0)) /\
    currentTime (ti s) = currentTime (ti s0) + sumR (map l_dtN (log s)).
Proof.
  intros HN s0 n Hf.
  destruct (startup_cfg E (mkSt (load i) w0 [] [])) as (Hc & _). fold s0 in Hc.
  pose proof (f_equal c_bt Hc) as H1. pose proof (f_equal c_max Hc) as H2. cbn in H1, H2.
  rewrite HN in H1, H2. cbn in H2.
  pose proof (count_loop N s0 H1 H2 fuel Hf) as Hl. fold n in Hl.
  unfold integrate_realm. fold s0. rewrite Hl. eexists. split; [reflexivity|].
  assert (Hl0 : log s0 = []) by (unfold s0; now rewrite startup_log).
  rewrite fe_log, fe_ti, steps_log, Hl0. cbn [app].
  rewrite lines_counts, steps_count, steps_time. split; [reflexivity|].
  split; [unfold n; lia|].
  reflexivity.
Qed.

Lemma pop_restart_count rs : forall s : st,
  count (ti (fold_left (pop_restart1 E) rs s)) = last_restart_count E rs (count (ti s)).
Proof.
  induction rs as [|r rs IH]; intros s; cbn [fold_left last_restart_count]; [reflexivity|].
  rewrite IH. f_equal. unfold pop_restart1. destruct (restart_of E r); reflexivity.
Qed.
Lemma startup_count i w0 :
  count (ti (startup E (mkSt (load i) w0 [] []))) =
  last_restart_count E (realms E) (dflt (in_count i) 0%Z).
Proof.
  rewrite startup_ti. cbn. unfold after_restart. rewrite pop_restart_count.
  match goal with |- context[fold_left (pop_input1 E) ?a ?b] => 
    destruct (pop_input_cfg E a b) as (_ & -> & _) end.
  rewrite !fe_ti. reflexivity.
Qed.

(** ** C03 *)
Lemma lines_nth n : forall k s, (k < n)%nat ->
  nth_error (lines E n s) k = Some (line_of (clock E (steps E k s))).
Proof. induction n; intros; [lia|]. destruct k; [reflexivity|]. cbn. apply IHn. lia. Qed.

Lemma fixed_negotiated s : adaptive (ti s) = false -> negotiated E s = dtN (ti s).
Proof. unfold negotiated. now intros ->. Qed.

Lemma fixed_steps n : forall s, adaptive (ti s) = false ->
  dtN (ti (steps E n s)) = dtN (ti s) /\
  currentTime (ti (steps E n s)) = currentTime (ti s) + INR n * dtN (ti s).
Proof.
  induction n; intros s Ha; [simpl; lra|].
  rewrite steps_S, time_step_dtN, time_step_time.
  destruct (IHn s Ha) as (A & B).
  assert (adaptive (ti (steps E n s)) = false) as Ha'.
  { pose proof (f_equal c_ad (steps_cfg E n s)) as H. cbn in H. now rewrite H. }
  rewrite fixed_negotiated by auto. rewrite A, B, S_INR. lra.
Qed.

Lemma INR_unbounded r : exists n, r < INR n.
Proof.
  exists (Z.to_nat (up r)). destruct (archimed r) as (H & _).
  apply Rlt_le_trans with (IZR (up r)); [lra|].
  rewrite INR_IZR_INZ. apply IZR_le. lia.
Qed.

Lemma least_step a dt T : 0 < dt -> exists n, T <= a + INR n * dt /\
  forall k, (k < n)%nat -> a + INR k * dt < T.
Proof.
  intros Hdt.
  destruct (INR_unbounded ((T - a) / dt)) as [N HN].
  assert (HT : T <= a + INR N * dt).
  { apply Rmult_lt_compat_r with (r := dt) in HN; [|lra].
    replace ((T - a) / dt * dt) with (T - a) in HN by (field; lra). lra. }
  clear HN. induction N.
  - exists O. split; [exact HT|]. intros; lia.
  - destruct (Rle_dec T (a + INR N * dt)) as [H|H].
    + apply IHN. exact H.
    + exists (S N). split; [exact HT|]. intros k Hk.
      apply Rnot_le_lt in H. apply Rle_lt_trans with (2 := H).
      apply Rplus_le_compat_l. apply Rmult_le_compat_r; [lra|]. apply le_INR. lia.
Qed.

Lemma time_terminates i w0 T :
  in_term_count i = None -> in_term_time i = Some T -> in_adaptive i = false ->
  let dt := dflt (in_time_step i) 1 in
  0 < dt ->
  let s0 := startup E (mkSt (load i) w0 [] []) in
  let t0 := currentTime (ti s0) in
  exists n s,
    (forall fuel, (n <= fuel)%nat -> integrate_realm E fuel i w0 = Some s) /\
    length (log s) = n /\
    currentTime (ti s) = t0 + INR n * dt /\
    T <= currentTime (ti s) /\
    (t0 < T -> currentTime (ti s) < T + dt) /\
    (T <= t0 -> n = O) /\
    (forall l, In l (log s) -> l_time l - dt < T /\ l_dtN l = dt).
Proof.
  intros HC HT HA dt Hdt s0 t0.
  destruct (startup_cfg E (mkSt (load i) w0 [] [])) as (Hc & _). fold s0 in Hc.
  pose proof (f_equal c_bt Hc) as H1. pose proof (f_equal c_tot Hc) as H2.
  pose proof (f_equal c_ad Hc) as H3. pose proof (f_equal c_file Hc) as H4.
  cbn in H1, H2, H3, H4. rewrite HC, HT in H1. rewrite HT in H2. cbn in H2. rewrite HA in H3.
  assert (Hd : dtN (ti s0) = dt).
  { unfold s0. rewrite startup_ti. cbn. unfold s0 in H3, H4. rewrite startup_ti in H3, H4. cbn in H3, H4.
    rewrite H3. exact H4. }
  destruct (least_step t0 dt T Hdt) as (n & Hn & Hk).
  assert (HP : forall k, simulation_proceeds (ti (steps E k s0)) = true <-> t0 + INR k * dt < T).
  { intros k. unfold simulation_proceeds.
    pose proof (f_equal c_bt (steps_cfg E k s0)) as B1. pose proof (f_equal c_tot (steps_cfg E k s0)) as B2.
    cbn in B1, B2. rewrite B1, B2, H1, H2. destruct (fixed_steps k s0 H3) as (_ & ->).
    rewrite Hd. fold t0. destruct (Rlt_dec _ _); split; auto; try discriminate. }
  exists n, (for_each E DumpTime (steps E n s0)).
  split.
  { intros fuel Hf. unfold integrate_realm. fold s0.
    rewrite (steps_time_loop E n fuel s0); auto.
    - intros k Hlt. apply HP. now apply Hk.
    - destruct (simulation_proceeds _) eqn:Hp; auto. apply HP in Hp. lra. }
  assert (Hl0 : log s0 = []) by (unfold s0; now rewrite startup_log).
  rewrite fe_log, fe_ti, steps_log, Hl0. cbn [app].
  destruct (fixed_steps n s0 H3) as (_ & Ht). rewrite Hd in Ht. fold t0 in Ht.
  rewrite lines_length, Ht. repeat split; auto.
  - intros Hlt. destruct n; [simpl; lra|].
    assert (Hq : t0 + INR n * dt < T) by (apply Hk; lia). rewrite S_INR. lra.
  - intros Hle. destruct n; auto. assert (t0 + INR 0 * dt < T) by (apply Hk; lia). simpl in *; lra.
  - intros.
    apply In_nth_error in H. destruct H as (k & Hk').
    assert (Hlt : (k < n)%nat).
    { rewrite <- (lines_length E n s0). apply nth_error_Some. congruence. }
    assert (Hline : nth_error (lines E n s0) k = Some (line_of (clock E (steps E k s0)))).
    { now apply lines_nth. }
    rewrite Hline in Hk'. injection Hk' as <-. cbn. rewrite clock_time, fixed_negotiated.
    + destruct (fixed_steps k s0 H3) as (-> & ->). rewrite Hd. fold t0. specialize (Hk k Hlt). lra.
    + pose proof (f_equal c_ad (steps_cfg E k s0)) as B. cbn in B. now rewrite B.
  - apply In_nth_error in H. destruct H as (k & Hk').
    assert (Hlt : (k < n)%nat).
    { rewrite <- (lines_length E n s0). apply nth_error_Some. congruence. }
    assert (Hline : nth_error (lines E n s0) k = Some (line_of (clock E (steps E k s0)))).
    { now apply lines_nth. }
    rewrite Hline in Hk'. injection Hk' as <-. cbn. rewrite clock_dtN, fixed_negotiated.
    + destruct (fixed_steps k s0 H3) as (-> & _). exact Hd.
    + pose proof (f_equal c_ad (steps_cfg E k s0)) as B. cbn in B. now rewrite B.
Qed.

(** adaptive: termination when proposals stay above a positive floor *)
Lemma adaptive_floor eps rs : (forall r t w, eps <= propose E r t w) -> eps <= 100000000 ->
  forall a (s : st), eps <= a -> eps <= fst (fold_left (negotiate1 E) rs (a, s)).
Proof.
  intros HE He. induction rs as [|r rs IH]; intros a s Ha; simpl; [exact Ha|].
  apply IH. unfold std_min. destruct (Rlt_dec _ _); [apply HE|exact Ha].
Qed.

Lemma adaptive_steps_time eps n : forall s, (forall s', eps <= negotiated E s' \/ adaptive (ti s') = false) ->
  adaptive (ti s) = true ->
  currentTime (ti s) + INR n * eps <= currentTime (ti (steps E n s)).
Proof.
  induction n; intros s HE Ha; [simpl; lra|].
  rewrite steps_S, time_step_time, S_INR.
  assert (adaptive (ti (steps E n s)) = true) as Ha'.
  { pose proof (f_equal c_ad (steps_cfg E n s)) as H. cbn in H. now rewrite H. }
  specialize (IHn s HE Ha). destruct (HE (steps E n s)) as [H|H]; [lra|congruence].
Qed.

Lemma bool_least (f : nat -> bool) N : f N = false -> exists n, (n <= N)%nat /\ f n = false /\ forall k, (k < n)%nat -> f k = true.
Proof.
  induction N as [N IH] using lt_wf_ind. intros HN.
  destruct N.
  - exists O. repeat split; auto. intros; lia.
  - destruct (f N) eqn:HfN.
    + destruct (Classical_Prop.classic (exists k, (k < S N)%nat /\ f k = false)) as [(k & Hk & Hf)|H].
      * destruct (IH k Hk Hf) as (n & A & B & C). exists n. repeat split; auto; lia.
      * exists (S N). repeat split; auto. intros k Hk. destruct (f k) eqn:Q; auto. exfalso. apply H. exists k. auto.
    + destruct (IH N ltac:(lia) HfN) as (n & A & B & C). exists n. repeat split; auto; lia.
Qed.

Lemma adaptive_terminates i w0 T eps :
  in_term_count i = None -> in_term_time i = Some T -> in_adaptive i = true ->
  0 < eps -> eps <= 100000000 -> (forall r t w, eps <= propose E r t w) ->
  exists n s, (forall fuel, (n <= fuel)%nat -> integrate_realm E fuel i w0 = Some s) /\
    T <= currentTime (ti s).
Proof.
  intros HC HT HA He Hm HE. set (s0 := startup E (mkSt (load i) w0 [] [])).
  destruct (startup_cfg E (mkSt (load i) w0 [] [])) as (Hc & _). fold s0 in Hc.
  pose proof (f_equal c_bt Hc) as H1. pose proof (f_equal c_tot Hc) as H2.
  pose proof (f_equal c_ad Hc) as H3.
  cbn in H1, H2, H3. rewrite HC, HT in H1. rewrite HT in H2. cbn in H2. rewrite HA in H3.
  assert (HN : forall s' : st, eps <= negotiated E s' \/ adaptive (ti s') = false).
  { intros s'. unfold negotiated. destruct (adaptive (ti s')); [left|now right].
    apply adaptive_floor; auto. }
  assert (HP : forall k, simulation_proceeds (ti (steps E k s0)) = false <-> T <= currentTime (ti (steps E k s0))).
  { intros k. unfold simulation_proceeds.
    pose proof (f_equal c_bt (steps_cfg E k s0)) as B1. pose proof (f_equal c_tot (steps_cfg E k s0)) as B2.
    cbn in B1, B2. rewrite B1, B2, H1, H2.
    destruct (Rlt_dec _ _); split; auto; try discriminate; intros; lra. }
  destruct (least_step (currentTime (ti s0)) eps T He) as (N & HN' & _).
  destruct (bool_least (fun k => simulation_proceeds (ti (steps E k s0))) N) as (n & _ & Hf & Hk).
  { apply HP. pose proof (adaptive_steps_time eps N s0 HN H3). lra. }
  exists n, (for_each E DumpTime (steps E n s0)). split.
  - intros fuel Hfu. unfold integrate_realm. fold s0. now rewrite (steps_time_loop E n fuel s0).
  - rewrite fe_ti. now apply HP.
Qed.

End P.
