From Coq Require Import Reals ZArith List Bool Lra Lia Psatz.
From Verif Require Import Time_Model Time_Spec.
Import ListNotations.
Open Scope R_scope.

Section P.
Variable E : Env.
Notation st := (state E).

(** ** calls do not touch the integrator *)
Lemma fold_call_ti p rs : forall s : st, ti (fold_left (call E p) rs s) = ti s.
Proof. induction rs as [|r rs IH]; intros s; simpl; [reflexivity|]. rewrite IH. reflexivity. Qed.
Lemma fold_call_log p rs : forall s : st, log (fold_left (call E p) rs s) = log s.
Proof. induction rs as [|r rs IH]; intros s; simpl; [reflexivity|]. rewrite IH. reflexivity. Qed.
Lemma fold_call_trace p rs : forall s : st,
  trace (fold_left (call E p) rs s) = trace s ++ map (mkEv p) rs.
Proof. induction rs as [|r rs IH]; intros s; simpl; [now rewrite app_nil_r|].
  rewrite IH. simpl. now rewrite <- app_assoc. Qed.

Lemma fe_ti p s : ti (for_each E p s) = ti s. Proof. apply fold_call_ti. Qed.
Lemma fe_log p s : log (for_each E p s) = log s. Proof. apply fold_call_log. Qed.
Lemma fe_trace p s : trace (for_each E p s) = trace s ++ map (mkEv p) (realms E).
Proof. apply fold_call_trace. Qed.

Lemma sp_ti rs : forall s : st, ti (fold_left (swap_predict1 E) rs s) = ti s.
Proof. induction rs as [|r rs IH]; intros s; simpl; [reflexivity|]. now rewrite IH. Qed.
Lemma sp_log rs : forall s : st, log (fold_left (swap_predict1 E) rs s) = log s.
Proof. induction rs as [|r rs IH]; intros s; simpl; [reflexivity|]. now rewrite IH. Qed.
Definition sp_events (rs : list nat) := flat_map (fun r => [mkEv Swap r; mkEv Predict r]) rs.
Lemma sp_trace rs : forall s : st,
  trace (fold_left (swap_predict1 E) rs s) = trace s ++ sp_events rs.
Proof. induction rs as [|r rs IH]; intros s; simpl; [now rewrite app_nil_r|].
  rewrite IH. simpl. now rewrite <- !app_assoc. Qed.

Lemma adv_ti rs : forall s : st, ti (fold_left (advance1 E) rs s) = ti s.
Proof. induction rs as [|r rs IH]; intros s; simpl; [reflexivity|]. now rewrite IH. Qed.
Lemma adv_log rs : forall s : st, log (fold_left (advance1 E) rs s) = log s.
Proof. induction rs as [|r rs IH]; intros s; simpl; [reflexivity|]. now rewrite IH. Qed.
Definition adv_events (rs : list nat) :=
  flat_map (fun r => [mkEv Advance r; mkEv (MultiXfer false) r]) rs.
Lemma adv_trace rs : forall s : st,
  trace (fold_left (advance1 E) rs s) = trace s ++ adv_events rs.
Proof. induction rs as [|r rs IH]; intros s; simpl; [now rewrite app_nil_r|].
  rewrite IH. simpl. now rewrite <- !app_assoc. Qed.

Lemma picard_ti n : forall s : st, ti (picard E n s) = ti s.
Proof. induction n; intros s; simpl; [reflexivity|]. now rewrite IHn, adv_ti. Qed.
Lemma picard_log n : forall s : st, log (picard E n s) = log s.
Proof. induction n; intros s; simpl; [reflexivity|]. now rewrite IHn, adv_log. Qed.
Lemma picard_trace n : forall s : st,
  trace (picard E n s) = trace s ++ concat (repeat (adv_events (realms E)) n).
Proof. induction n; intros s; simpl; [now rewrite app_nil_r|].
  rewrite IHn, adv_trace. now rewrite <- app_assoc. Qed.

Lemma neg_fold rs : forall a (s : st),
  let q := fold_left (negotiate1 E) rs (a, s) in
  ti (snd q) = ti s /\ log (snd q) = log s /\ trace (snd q) = trace s ++ map (mkEv AdaptDt) rs.
Proof.
  induction rs as [|r rs IH]; intros a s; simpl.
  - now rewrite app_nil_r.
  - destruct (IH (std_min a (propose E r (ti s) (world s))) (call E AdaptDt s r)) as (A & B & C).
    rewrite A, B, C. simpl. now rewrite <- app_assoc.
Qed.

(** negotiated step as a function of the state *)
Definition negotiated (s : st) : R :=
  if adaptive (ti s) then fst (fold_left (negotiate1 E) (realms E) (100000000, s)) else dtN (ti s).

Lemma set_dtN_id t : set_dtN t (dtN t) = t. Proof. destruct t; reflexivity. Qed.

Lemma negotiate_ti s : ti (negotiate E s) = set_dtN (ti s) (negotiated s).
Proof.
  unfold negotiate, negotiated. destruct (adaptive (ti s)) eqn:Ha.
  - destruct (fold_left _ _ _) as [x s1] eqn:Hf. simpl.
    pose proof (neg_fold (realms E) 100000000 s) as H. rewrite Hf in H. simpl in H.
    destruct H as (H & _). now rewrite H.
  - now rewrite set_dtN_id.
Qed.
Lemma negotiate_log s : log (negotiate E s) = log s.
Proof.
  unfold negotiate. destruct (adaptive (ti s)); [|reflexivity].
  destruct (fold_left _ _ _) as [x s1] eqn:Hf. simpl.
  pose proof (neg_fold (realms E) 100000000 s) as H. rewrite Hf in H. simpl in H. tauto.
Qed.
Lemma negotiate_trace s : trace (negotiate E s) = trace s ++
   if adaptive (ti s) then map (mkEv AdaptDt) (realms E) else [].
Proof.
  unfold negotiate. destruct (adaptive (ti s)); [|now rewrite app_nil_r].
  destruct (fold_left _ _ _) as [x s1] eqn:Hf. simpl.
  pose proof (neg_fold (realms E) 100000000 s) as H. rewrite Hf in H. simpl in H. tauto.
Qed.

Definition clock (s : st) : TI := advance_clock (set_dtN (ti s) (negotiated s)).

Lemma time_step_ti s :
  ti (time_step E s) = set_dtNm1 (clock s) (dtN (clock s)).
Proof.
  unfold time_step. cbn [ti with_ti].
  rewrite !fe_ti, picard_ti, !fe_ti, sp_ti. cbn [ti with_ti print_line].
  rewrite !negotiate_ti. reflexivity.
Qed.

Definition line_of (t : TI) : log_line :=
  mkLog (count t) (currentTime t) (dtN t) (dtNm1 t) (g1 t) (g2 t) (g3 t).

Lemma time_step_log s : log (time_step E s) = log s ++ [line_of (clock s)].
Proof.
  unfold time_step. cbn [log with_ti].
  rewrite !fe_log, picard_log, !fe_log, sp_log. cbn [log with_ti print_line ti].
  rewrite negotiate_log, negotiate_ti. reflexivity.
Qed.

Definition step_events (ad : bool) (nl : nat) : list event :=
  (if ad then map (mkEv AdaptDt) (realms E) else []) ++
  sp_events (realms E) ++ map (mkEv PopExternal) (realms E) ++ map (mkEv PreStep) (realms E) ++
  map (mkEv PopBdry) (realms E) ++ map (mkEv Banner) (realms E) ++ map (mkEv ExtXfer) (realms E) ++
  concat (repeat (adv_events (realms E)) nl) ++
  map (mkEv PostConverged) (realms E) ++ map (mkEv IoXfer) (realms E) ++ map (mkEv Output) (realms E).

Lemma clock_nl s : nlIters (clock s) = nlIters (ti s).
Proof. unfold clock, advance_clock, compute_gamma; simpl. destruct (secondOrder _); simpl; [|reflexivity].
  destruct (1 <? _)%Z; reflexivity. Qed.

Lemma time_step_trace s :
  trace (time_step E s) = trace s ++ step_events (adaptive (ti s)) (nlIters (ti s)).
Proof.
  unfold time_step, step_events. cbn [trace with_ti].
  rewrite !fe_trace, picard_trace, !fe_trace, sp_trace. cbn [trace with_ti print_line ti].
  rewrite negotiate_trace.
  replace (nlIters (ti (for_each E ExtXfer _))) with (nlIters (ti s)).
  - now rewrite <- !app_assoc.
  - rewrite !fe_ti, sp_ti. cbn [ti with_ti print_line]. rewrite negotiate_ti. symmetry. apply clock_nl.
Qed.

(** ** clock facts *)
Ltac ac := unfold clock, advance_clock, compute_gamma; simpl;
  destruct (secondOrder _); simpl; [destruct (1 <? _)%Z; simpl|].

Lemma clock_count s : count (clock s) = (count (ti s) + 1)%Z. Proof. ac; reflexivity. Qed.
Lemma clock_time s : currentTime (clock s) = currentTime (ti s) + negotiated s. Proof. ac; reflexivity. Qed.
Lemma clock_dtN s : dtN (clock s) = negotiated s. Proof. ac; reflexivity. Qed.
Lemma clock_dtNm1 s : dtNm1 (clock s) = dtNm1 (ti s). Proof. ac; reflexivity. Qed.

(** configuration never changes *)
Record config := mkCfg { c_tot : R; c_file : R; c_max : Z; c_so : bool; c_ad : bool; c_bt : bool; c_nl : nat }.
Definition cfg (t : TI) : config :=
  mkCfg (totalSimTime t) (dtFile t) (maxCount t) (secondOrder t) (adaptive t) (byTime t) (nlIters t).

Lemma clock_cfg s : cfg (clock s) = cfg (ti s).
Proof. unfold cfg, clock, advance_clock, compute_gamma; simpl.
  destruct (secondOrder (ti s)) eqn:Q; simpl; [destruct (1 <? _)%Z; simpl|]; now rewrite Q. Qed.
Lemma time_step_cfg s : cfg (ti (time_step E s)) = cfg (ti s).
Proof. rewrite time_step_ti. rewrite <- clock_cfg. reflexivity. Qed.

Lemma time_step_count s : count (ti (time_step E s)) = (count (ti s) + 1)%Z.
Proof. rewrite time_step_ti. cbn. apply clock_count. Qed.
Lemma time_step_time s : currentTime (ti (time_step E s)) = currentTime (ti s) + negotiated s.
Proof. rewrite time_step_ti. cbn. apply clock_time. Qed.
Lemma time_step_dtN s : dtN (ti (time_step E s)) = negotiated s.
Proof. rewrite time_step_ti. cbn. apply clock_dtN. Qed.
Lemma time_step_dtNm1 s : dtNm1 (ti (time_step E s)) = negotiated s.
Proof. rewrite time_step_ti. cbn. apply clock_dtN. Qed.

(** ** iterating *)
Notation steps := (steps E).
Lemma steps_S n : forall s, steps (S n) s = time_step E (steps n s).
Proof. induction n; intros s; [reflexivity|]. change (steps (S (S n)) s) with (steps (S n) (time_step E s)).
  rewrite IHn. reflexivity. Qed.

Lemma steps_cfg n s : cfg (ti (steps n s)) = cfg (ti s).
Proof. induction n; [reflexivity|]. now rewrite steps_S, time_step_cfg. Qed.

Lemma steps_count n s : count (ti (steps n s)) = (count (ti s) + Z.of_nat n)%Z.
Proof. induction n; [simpl; lia|]. rewrite steps_S, time_step_count, IHn. lia. Qed.

Fixpoint lines (n : nat) (s : st) : list log_line :=
  match n with O => [] | S k => line_of (clock s) :: lines k (time_step E s) end.

Lemma steps_log n : forall s, log (steps n s) = log s ++ lines n s.
Proof. induction n; intros s; simpl; [now rewrite app_nil_r|].
  rewrite IHn, time_step_log. now rewrite <- app_assoc. Qed.
Lemma lines_length n : forall s, length (lines n s) = n.
Proof. induction n; intros; simpl; auto. Qed.

Lemma steps_trace n : forall s, trace (steps n s) =
   trace s ++ concat (repeat (step_events (adaptive (ti s)) (nlIters (ti s))) n).
Proof. induction n; intros s; simpl; [now rewrite app_nil_r|].
  rewrite IHn, time_step_trace.
  pose proof (f_equal c_ad (time_step_cfg s)) as Ha.
  pose proof (f_equal c_nl (time_step_cfg s)) as Hn. cbn [c_ad c_nl cfg] in Ha, Hn.
  rewrite Ha, Hn. now rewrite <- app_assoc. Qed.

Lemma lines_counts n : forall s, map l_count (lines n s) = counts_from (count (ti s)) n.
Proof.
  unfold counts_from. induction n; intros s; [reflexivity|].
  cbn [lines map]. rewrite IHn. cbn [seq map]. f_equal.
  - cbn. rewrite clock_count. lia.
  - rewrite time_step_count. rewrite <- seq_shift, map_map. apply map_ext. intros. lia.
Qed.

Lemma steps_time n : forall s, currentTime (ti (steps n s)) = currentTime (ti s) + sumR (map l_dtN (lines n s)).
Proof.
  induction n; intros s; simpl; [lra|]. rewrite IHn, time_step_time. cbn. rewrite clock_dtN.
  unfold sumR. lra.
Qed.

Lemma time_loop_steps fuel : forall s s', time_loop E fuel s = Some s' ->
  exists n, (n <= fuel)%nat /\ s' = steps n s /\ simulation_proceeds (ti s') = false /\
    forall k, (k < n)%nat -> simulation_proceeds (ti (steps k s)) = true.
Proof.
  induction fuel; intros s s' H; simpl in H; destruct (simulation_proceeds (ti s)) eqn:Hp; try discriminate.
  - injection H as <-. exists O. simpl. repeat split; auto. intros; lia.
  - destruct (IHfuel _ _ H) as (n & L & -> & Hf & Hk). exists (S n). repeat split; auto; try lia.
    intros [|k] Hlt; [exact Hp|]. apply Hk. lia.
  - injection H as <-. exists O. simpl. repeat split; auto; try lia. 
Qed.

Lemma steps_time_loop n : forall fuel s,
  (forall k, (k < n)%nat -> simulation_proceeds (ti (steps k s)) = true) ->
  simulation_proceeds (ti (steps n s)) = false -> (n <= fuel)%nat ->
  time_loop E fuel s = Some (steps n s).
Proof.
  induction n; intros fuel s Hk Hf L.
  - destruct fuel; simpl in *; now rewrite Hf.
  - destruct fuel; [lia|]. cbn [time_loop]. pose proof (Hk O ltac:(lia)) as H0. cbn [steps] in H0. rewrite H0.
    apply IHn; try lia; auto. intros k Hlt. apply (Hk (S k)). lia.
Qed.

(** ** start-up *)
Lemma pop_input_cfg rs : forall s : st,
  cfg (ti (fold_left (pop_input1 E) rs s)) = cfg (ti s) /\
  count (ti (fold_left (pop_input1 E) rs s)) = count (ti s) /\
  dtNm1 (ti (fold_left (pop_input1 E) rs s)) = dtNm1 (ti s) /\
  (g1 (ti (fold_left (pop_input1 E) rs s)), g2 (ti (fold_left (pop_input1 E) rs s)),
   g3 (ti (fold_left (pop_input1 E) rs s))) = (g1 (ti s), g2 (ti s), g3 (ti s)) /\
  log (fold_left (pop_input1 E) rs s) = log s.
Proof.
  induction rs as [|r rs IH]; intros s; cbn [fold_left]; [auto|].
  destruct (IH (pop_input1 E s r)) as (A & B & C & D & F). rewrite A, B, C, D, F. cbn. auto.
Qed.

Lemma pop_restart_cfg rs : forall s : st,
  cfg (ti (fold_left (pop_restart1 E) rs s)) = cfg (ti s) /\
  (g1 (ti (fold_left (pop_restart1 E) rs s)), g2 (ti (fold_left (pop_restart1 E) rs s)),
   g3 (ti (fold_left (pop_restart1 E) rs s))) = (g1 (ti s), g2 (ti s), g3 (ti s)) /\
  log (fold_left (pop_restart1 E) rs s) = log s.
Proof.
  induction rs as [|r rs IH]; intros s; cbn [fold_left]; [auto|].
  destruct (IH (pop_restart1 E s r)) as (A & B & C). rewrite A, B, C.
  unfold pop_restart1. destruct (restart_of E r); cbn; auto.
Qed.

Lemma init_multi_ti rs : forall s : st, ti (fold_left (init_multi1 E) rs s) = ti s
   /\ log (fold_left (init_multi1 E) rs s) = log s.
Proof.
  induction rs as [|r rs IH]; intros s; cbn [fold_left]; [auto|].
  destruct (IH (init_multi1 E s r)) as (A & B). rewrite A, B.
  unfold init_multi1. destruct (restart_of E r); cbn; auto.
Qed.

Definition after_restart (s0 : st) : st :=
  fold_left (pop_restart1 E) (realms E)
   (fold_left (pop_input1 E) (realms E) (for_each E BdryToState (for_each E PopBdry (for_each E PopIC s0)))).

Lemma startup_ti s0 : ti (startup E s0) =
  let t := ti (after_restart s0) in set_dtN t (if adaptive t then dtNm1 t else dtFile t).
Proof.
  unfold startup. rewrite fe_ti. rewrite (proj1 (init_multi_ti _ _)).
  rewrite !fe_ti. cbn [ti with_ti]. rewrite ?fe_ti. reflexivity.
Qed.

Lemma startup_log s0 : log (startup E s0) = log s0.
Proof.
  unfold startup. rewrite fe_log. rewrite (proj2 (init_multi_ti _ _)).
  rewrite !fe_log. cbn [log with_ti]. rewrite !fe_log.
  destruct (pop_restart_cfg (realms E) (fold_left (pop_input1 E) (realms E)
     (for_each E BdryToState (for_each E PopBdry (for_each E PopIC s0))))) as (_ & _ & ->).
  destruct (pop_input_cfg (realms E) (for_each E BdryToState (for_each E PopBdry (for_each E PopIC s0))))
    as (_ & _ & _ & _ & ->).
  now rewrite !fe_log.
Qed.

Lemma startup_cfg s0 : cfg (ti (startup E s0)) = cfg (ti s0) /\
  (g1 (ti (startup E s0)), g2 (ti (startup E s0)), g3 (ti (startup E s0))) =
  (g1 (ti s0), g2 (ti s0), g3 (ti s0)).
Proof.
  rewrite startup_ti. unfold after_restart.
  set (s1 := fold_left (pop_input1 E) _ _).
  destruct (pop_restart_cfg (realms E) s1) as (A & B & _).
  destruct (pop_input_cfg (realms E) (for_each E BdryToState (for_each E PopBdry (for_each E PopIC s0))))
    as (A' & _ & _ & B' & _). fold s1 in A', B'.
  rewrite !fe_ti in A', B'. split.
  - rewrite <- A', <- A. reflexivity.
  - cbn. rewrite <- B', <- B. reflexivity.
Qed.
End P.
