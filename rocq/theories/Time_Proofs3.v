From Coq Require Import Reals ZArith List Bool Lra Lia Psatz.
From Verif Require Import RUtil Time_Model Time_Spec Time_Spec2 Time_Proofs Time_Proofs2.
Import ListNotations.
Open Scope R_scope.

(** ** C04: ordering *)
Lemma all_before_split {A} (P Q : A -> Prop) l1 l2 :
  (forall x, In x l1 -> ~ Q x) -> (forall x, In x l2 -> ~ P x) -> all_before P Q (l1 ++ l2).
Proof.
  intros H1 H2 i j x y Hi Hj Px Qy.
  assert (i < length l1)%nat.
  { destruct (Nat.lt_ge_cases i (length l1)); auto. rewrite nth_error_app2 in Hi by auto.
    apply nth_error_In in Hi. exfalso. eapply H2; eauto. }
  assert (length l1 <= j)%nat; [|lia].
  destruct (Nat.lt_ge_cases j (length l1)); auto. rewrite nth_error_app1 in Hj by auto.
  apply nth_error_In in Hj. exfalso. eapply H1; eauto.
Qed.

Lemma filter_map_ev (f : phase -> bool) p rs :
  filter (fun e => f (ev_phase e)) (map (mkEv p) rs) = if f p then map (mkEv p) rs else [].
Proof. induction rs; cbn; [now destruct (f p)|]. rewrite IHrs. now destruct (f p). Qed.

Lemma filter_all {A} (f : A -> bool) l : (forall x, In x l -> f x = true) -> filter f l = l.
Proof. induction l; cbn; intros H; auto. rewrite H by now left. f_equal. apply IHl. intros; apply H; now right. Qed.
Lemma filter_none {A} (f : A -> bool) l : (forall x, In x l -> f x = false) -> filter f l = [].
Proof. induction l; cbn; intros H; auto. rewrite H by now left. apply IHl. intros; apply H; now right. Qed.

Lemma in_sp rs e : In e (sp_events rs) -> ev_phase e = Swap \/ ev_phase e = Predict.
Proof. unfold sp_events. rewrite in_flat_map. intros (r & _ & [<-|[<-|[]]]); auto. Qed.
Lemma in_adv rs e : In e (adv_events rs) -> ev_phase e = Advance \/ ev_phase e = MultiXfer false.
Proof. unfold adv_events. rewrite in_flat_map. intros (r & _ & [<-|[<-|[]]]); auto. Qed.
Lemma in_rep rs n e : In e (concat (repeat (adv_events rs) n)) -> ev_phase e = Advance \/ ev_phase e = MultiXfer false.
Proof. rewrite in_concat. intros (l & Hl & He). apply repeat_spec in Hl. subst. eapply in_adv; eauto. Qed.
Lemma in_mapev p rs e : In e (map (mkEv p) rs) -> ev_phase e = p.
Proof. rewrite in_map_iff. intros (r & <- & _). reflexivity. Qed.
Lemma in_opt (b : bool) p rs e : In e (if b then map (mkEv p) rs else []) -> ev_phase e = p.
Proof. destruct b; [apply in_mapev|intros []]. Qed.

Ltac phases H :=
  repeat (apply in_app_or in H; destruct H as [H|H]);
  first [ apply in_opt in H | apply in_mapev in H | apply in_sp in H | apply in_rep in H ].
Ltac kill :=
  let x := fresh in let H := fresh in let Q := fresh in
  intros x H Q; unfold is_ph in Q; phases H;
  try (destruct H as [H|H]); rewrite H in Q; cbn in Q;
  repeat (destruct Q as [Q|Q]); try discriminate; try contradiction.

Lemma filter_opt (f : phase -> bool) (b : bool) p rs :
  filter (fun e => f (ev_phase e)) (if b then map (mkEv p) rs else []) =
  if f p then (if b then map (mkEv p) rs else []) else [].
Proof. destruct b; [apply filter_map_ev|now destruct (f p)]. Qed.
Lemma filter_sp (f : phase -> bool) rs : f Swap = f Predict ->
  filter (fun e => f (ev_phase e)) (sp_events rs) = if f Swap then sp_events rs else [].
Proof.
  intros H. destruct (f Swap) eqn:Hs.
  - apply filter_all. intros x Hx. apply in_sp in Hx. destruct Hx as [->| ->]; congruence.
  - apply filter_none. intros x Hx. apply in_sp in Hx. destruct Hx as [->| ->]; congruence.
Qed.
Lemma filter_rep (f : phase -> bool) rs n : f Advance = f (MultiXfer false) ->
  filter (fun e => f (ev_phase e)) (concat (repeat (adv_events rs) n)) =
  if f Advance then concat (repeat (adv_events rs) n) else [].
Proof.
  intros H. destruct (f Advance) eqn:Hs.
  - apply filter_all. intros x Hx. apply in_rep in Hx. destruct Hx as [->| ->]; congruence.
  - apply filter_none. intros x Hx. apply in_rep in Hx. destruct Hx as [->| ->]; congruence.
Qed.

Ltac fil f :=
  rewrite !filter_app;
  rewrite (filter_opt f), (filter_sp f) by reflexivity;
  rewrite !(filter_map_ev f), (filter_rep f) by reflexivity; cbn [phase_eqb orb Bool.eqb];
  rewrite ?app_nil_r; try reflexivity.

Lemma step_events_lockstep E ad nl : lockstep (realms E) nl ad (step_events E ad nl).
Proof.
  unfold step_events. set (rs := realms E).
  set (A := if ad then _ else _). set (B := sp_events rs).
  set (C1 := map (mkEv PopExternal) rs). set (C2 := map (mkEv PreStep) rs).
  set (C3 := map (mkEv PopBdry) rs). set (C4 := map (mkEv Banner) rs). set (C5 := map (mkEv ExtXfer) rs).
  set (D := concat _). set (F1 := map (mkEv PostConverged) rs). set (F2 := map (mkEv IoXfer) rs).
  set (F3 := map (mkEv Output) rs).
  split.
  - replace (A ++ _) with ((A ++ B) ++ (C1 ++ C2 ++ C3 ++ C4 ++ C5 ++ D ++ F1 ++ F2 ++ F3))
      by now rewrite <- !app_assoc.
    apply all_before_split; unfold A, B, C1, C2, C3, C4, C5, D, F1, F2, F3; kill.
  - replace (A ++ _) with ((A ++ B ++ C1 ++ C2) ++ (C3 ++ C4 ++ C5 ++ D ++ F1 ++ F2 ++ F3))
      by now rewrite <- !app_assoc.
    apply all_before_split; unfold A, B, C1, C2, C3, C4, C5, D, F1, F2, F3; kill.
  - replace (A ++ _) with ((A ++ B ++ C1 ++ C2 ++ C3 ++ C4 ++ C5) ++ (D ++ F1 ++ F2 ++ F3))
      by now rewrite <- !app_assoc.
    apply all_before_split; unfold A, B, C1, C2, C3, C4, C5, D, F1, F2, F3; kill.
  - replace (A ++ _) with ((A ++ B ++ C1 ++ C2 ++ C3 ++ C4 ++ C5 ++ D) ++ (F1 ++ F2 ++ F3))
      by now rewrite <- !app_assoc.
    apply all_before_split; unfold A, B, C1, C2, C3, C4, C5, D, F1, F2, F3; kill.
  - replace (A ++ _) with ((A ++ B ++ C1 ++ C2 ++ C3 ++ C4 ++ C5 ++ D ++ F1 ++ F2) ++ F3)
      by now rewrite <- !app_assoc.
    apply all_before_split; unfold A, B, C1, C2, C3, C4, C5, D, F1, F2, F3; kill.
  - unfold A, B, C1, C2, C3, C4, C5, D, F1, F2, F3.
    fil (fun p => phase_eqb p Advance || phase_eqb p (MultiXfer false)).
  - unfold A, B, C1, C2, C3, C4, C5, D, F1, F2, F3.
    fil (fun p => phase_eqb p Swap || phase_eqb p Predict).
  - unfold A, B, C1, C2, C3, C4, C5, D, F1, F2, F3. fil (fun p => phase_eqb p PreStep).
  - unfold A, B, C1, C2, C3, C4, C5, D, F1, F2, F3. fil (fun p => phase_eqb p Output).
  - unfold A, B, C1, C2, C3, C4, C5, D, F1, F2, F3. fil (fun p => phase_eqb p AdaptDt).
Qed.

Section P4.
Variable E : Env.
Lemma pop_input_trace rs : forall s : state E,
  trace (fold_left (pop_input1 E) rs s) = trace s ++ map (mkEv PopInput) rs.
Proof. induction rs as [|r rs IH]; intros s; cbn [fold_left map]; [now rewrite app_nil_r|].
  rewrite IH. cbn. now rewrite <- app_assoc. Qed.
Lemma pop_restart_trace rs : forall s : state E,
  trace (fold_left (pop_restart1 E) rs s) = trace s ++ map (mkEv PopRestart) rs.
Proof. induction rs as [|r rs IH]; intros s; cbn [fold_left map]; [now rewrite app_nil_r|].
  rewrite IH. unfold pop_restart1. destruct (restart_of E r); cbn; now rewrite <- app_assoc. Qed.
Definition im_events rs := flat_map (fun r => match restart_of E r with Some _ => [mkEv (MultiXfer true) r] | None => [] end) rs.
Lemma init_multi_trace rs : forall s : state E,
  trace (fold_left (init_multi1 E) rs s) = trace s ++ im_events rs.
Proof. induction rs as [|r rs IH]; intros s; cbn [fold_left flat_map im_events]; [now rewrite app_nil_r|].
  rewrite IH. unfold init_multi1. destruct (restart_of E r); cbn; now rewrite <- ?app_assoc. Qed.

Lemma startup_trace_ok i w0 : startup_ok (trace (startup E (mkSt (load i) w0 [] []))).
Proof.
  unfold startup. rewrite fe_trace, init_multi_trace, !fe_trace. cbn [trace with_ti].
  rewrite !fe_trace, pop_restart_trace, pop_input_trace, !fe_trace. cbn [trace app].
  intros e H Q. unfold is_ph in Q.
  repeat (apply in_app_or in H; destruct H as [H|H]); try contradiction;
   try (apply in_mapev in H; rewrite H in Q; cbn in Q; repeat (destruct Q as [Q|Q]; try discriminate); contradiction).
  unfold im_events in H. apply in_flat_map in H. destruct H as (r & _ & H).
  destruct (restart_of E r); [|contradiction]. destruct H as [<-|[]]. cbn in Q.
  repeat (destruct Q as [Q|Q]; try discriminate). contradiction.
Qed.

Theorem lockstep_run fuel i w0 s :
  integrate_realm E fuel i w0 = Some s ->
  exists pre segs post,
    trace s = pre ++ concat segs ++ post /\
    length segs = length (log s) /\
    startup_ok pre /\
    Forall (lockstep (realms E) (dflt (in_nl i) 1%nat) (in_adaptive i)) segs /\
    post = map (mkEv DumpTime) (realms E).
Proof.
  intros H. destruct (integrate_inv E _ _ _ _ H) as (n & _ & Hl & _ & Ht & _).
  exists (trace (startup E (mkSt (load i) w0 [] []))),
         (repeat (step_events E (adaptive (load i)) (nlIters (load i))) n),
         (map (mkEv DumpTime) (realms E)).
  split; [exact Ht|]. rewrite repeat_length, Hl, lines_length. split; [reflexivity|].
  split; [apply startup_trace_ok|]. split; [|reflexivity].
  apply Forall_forall. intros x Hx. apply repeat_spec in Hx. subst x. apply step_events_lockstep.
Qed.
End P4.

(** ** C05 *)
Lemma std_min_le a b : std_min a b <= a /\ std_min a b <= b /\ (std_min a b = a \/ std_min a b = b).
Proof. unfold std_min. destruct (Rlt_dec b a); repeat split; try lra; auto. Qed.
Lemma std_max_ge a b : a <= std_max a b /\ b <= std_max a b /\ (std_max a b = a \/ std_max a b = b).
Proof. unfold std_max. destruct (Rlt_dec a b); repeat split; try lra; auto. Qed.

Lemma adaptive_bounds dt target C f x :
  0 < dt -> 0 < target -> 0 <= C -> 1 <= f ->
  compute_adaptive_time_step dt target C f = Some x ->
  dt / f <= x <= dt * f /\ 0 < x.
Proof.
  intros Hd Ht HC Hf. unfold compute_adaptive_time_step, ieee_div.
  destruct (Req_EM_T C 0) as [->|HC0].
  - destruct (Rlt_dec 0 target); [|discriminate]. intros H; injection H as <-.
    assert (dt / f <= dt). { apply Rle_div_l; [lra|]. nra. }
    assert (dt <= dt * f) by nra. assert (0 < dt * f) by nra. lra.
  - assert (0 < C) by lra. intros H'; injection H' as <-.
    assert (Hq : 0 < target / C) by (apply Rdiv_lt_0_compat; lra).
    assert (Hi : 0 < 1 / f) by (apply Rdiv_lt_0_compat; lra).
    assert (Hi1 : 1 / f <= 1). { apply Rle_div_l; lra. }
    assert (G : 1 / f <= (if Rlt_dec target C then std_max (target / C) (1 / f) else std_min (target / C) f) <= f).
    { destruct (Rlt_dec target C) as [Hlt|Hge].
      - destruct (std_max_ge (target / C) (1 / f)) as (_ & G2 & [G|G]); rewrite G in *; split; try lra.
        assert (target / C <= 1). { apply Rle_div_l; lra. } lra.
      - destruct (std_min_le (target / C) f) as (_ & G2 & [G|G]); rewrite G in *; split; try lra.
        assert (1 <= target / C). { apply Rle_div_r; lra. } lra. }
    destruct G as (G1 & G2). replace (dt / f) with (dt * (1 / f)) by (field; lra).
    repeat split.
    + apply Rmult_le_compat_l; lra.
    + apply Rmult_le_compat_l; lra.
    + apply Rmult_lt_0_compat; lra.
Qed.

(** when the bound is not active the controller hits the target: with Courant
    proportional to dt, the Courant number at the new step is the target *)
Lemma adaptive_target dt target C f x :
  0 < dt -> 0 < target -> 0 < C -> 1 <= f ->
  1 / f <= target / C <= f ->
  compute_adaptive_time_step dt target C f = Some x ->
  C * (x / dt) = target.
Proof.
  intros Hd Ht HC Hf Hb. unfold compute_adaptive_time_step, ieee_div.
  destruct (Req_EM_T C 0); [lra|]. intros H; injection H as <-.
  assert ((if Rlt_dec target C then std_max (target / C) (1 / f) else std_min (target / C) f) = target / C) as ->.
  { destruct (Rlt_dec target C); [unfold std_max|unfold std_min]; destruct (Rlt_dec _ _); lra. }
  field. lra.
Qed.

Lemma negotiate_min E rs : proposals_pure E -> forall a (s : state E),
  let x := fst (fold_left (negotiate1 E) rs (a, s)) in
  x <= a /\ (forall r, In r rs -> x <= propose E r (ti s) (world s)) /\
  (x = a \/ exists r, In r rs /\ x = propose E r (ti s) (world s)).
Proof.
  intros HE. induction rs as [|r rs IH]; intros a s; cbn [fold_left].
  - cbn. split; [lra|]. split; [intros ? []|now left].
  - destruct (IH (std_min a (propose E r (ti s) (world s))) (call E AdaptDt s r)) as (A & B & C).
    destruct (std_min_le a (propose E r (ti s) (world s))) as (M1 & M2 & M3).
    change (negotiate1 E (a, s) r) with
      (std_min a (propose E r (ti s) (world s)), call E AdaptDt s r).
    cbn zeta. set (x := fst _) in *. cbn [ti world call] in B, C.
    split; [lra|]. split.
    + intros r' [<-|Hr]; [lra|]. erewrite <- HE. apply B. exact Hr.
    + destruct C as [C|(r' & Hr & C)].
      * destruct M3 as [M|M]; [left; lra|right]. exists r. split; [now left|]. lra.
      * right. exists r'. split; [now right|]. rewrite C. apply HE.
Qed.

(** ** C06: restart *)
Section Restart.
Variable E : Env.
Variable db : restart_db.
Variable sel : nat -> bool.   (* which realms are restarted *)

Variable Sim : W E -> W E -> Prop.
(** equal clocks up to stale gammas *)
Definition same_clock (t t' : TI) : Prop :=
  cfg t = cfg t' /\ currentTime t = currentTime t' /\ dtN t = dtN t' /\ dtNm1 t = dtNm1 t' /\
  count t = count t' /\
  (secondOrder t = false -> g1 t = g1 t' /\ g2 t = g2 t' /\ g3 t = g3 t').

Notation E' := (resumed_env E db sel).
Notation st' := (state E').

Definition related (s : state E) (s' : st') : Prop :=
  same_clock (ti s) (ti s') /\ Sim (world s) (world s').
Definition related_eq (s : state E) (s' : st') : Prop :=
  ti s = ti s' /\ Sim (world s) (world s').

Hypothesis HS : sim_ok E Sim.

Lemma fold_call_rel p rs : forall s s', related_eq s s' ->
  related_eq (fold_left (call E p) rs s) (fold_left (call E' p) rs s').
Proof.
  induction rs as [|r rs IH]; intros s s' H; cbn [fold_left]; auto.
  apply IH. destruct H as (H1 & H2). split; cbn; auto. rewrite <- H1. now apply HS.
Qed.
Lemma sp_rel rs : forall s s', related_eq s s' ->
  related_eq (fold_left (swap_predict1 E) rs s) (fold_left (swap_predict1 E') rs s').
Proof.
  induction rs as [|r rs IH]; intros s s' H; cbn [fold_left]; auto.
  apply IH. destruct H as (H1 & H2). split; cbn; auto. rewrite <- H1. apply HS. now apply HS.
Qed.
Lemma adv_rel rs : forall s s', related_eq s s' ->
  related_eq (fold_left (advance1 E) rs s) (fold_left (advance1 E') rs s').
Proof.
  induction rs as [|r rs IH]; intros s s' H; cbn [fold_left]; auto.
  apply IH. destruct H as (H1 & H2). split; cbn; auto. rewrite <- H1. apply HS. now apply HS.
Qed.
Lemma picard_rel n : forall s s', related_eq s s' -> related_eq (picard E n s) (picard E' n s').
Proof. induction n; intros s s' H; cbn; auto. apply IHn. now apply adv_rel. Qed.
Lemma fe_rel p s s' : related_eq s s' -> related_eq (for_each E p s) (for_each E' p s').
Proof. apply fold_call_rel. Qed.

Lemma neg_rel rs : forall a s s', related s s' ->
  fst (fold_left (negotiate1 E) rs (a, s)) = fst (fold_left (negotiate1 E') rs (a, s')) /\
  Sim (world (snd (fold_left (negotiate1 E) rs (a, s)))) (world (snd (fold_left (negotiate1 E') rs (a, s')))).
Proof.
  induction rs as [|r rs IH]; intros a s s' (H1 & H2); cbn [fold_left]; auto.
  change (negotiate1 E (a, s) r) with (std_min a (propose E r (ti s) (world s)), call E AdaptDt s r).
  change (negotiate1 E' (a, s') r) with (std_min a (propose E r (ti s') (world s')), call E' AdaptDt s' r).
  destruct HS as (_ & HA & HP).
  rewrite (HP r (ti s) (ti s') (world s) (world s')); [|apply H1|exact H2].
  apply IH. split; cbn; auto.
Qed.

Lemma negotiate_rel s s' : related s s' -> 
  negotiated E s = negotiated E' s' /\ Sim (world (negotiate E s)) (world (negotiate E' s')).
Proof.
  intros H. destruct (neg_rel (realms E) 100000000 s s' H) as (A & B).
  destruct H as ((Hc & _ & Hd & _) & Hw).
  pose proof (f_equal c_ad Hc) as Ha. cbn in Ha.
  unfold negotiated, negotiate. rewrite <- Ha. destruct (adaptive (ti s)).
  - split; [exact A|]. change (realms E') with (realms E).
    destruct (fold_left _ _ (_, s)) as [x u]. destruct (fold_left _ _ (_, s')) as [x' u'].
    cbn in *. exact B.
  - auto.
Qed.

Lemma clock_rel s s' : related s s' -> clock E s = clock E' s'.
Proof.
  intros H. destruct (negotiate_rel s s' H) as (A & _).
  destruct H as ((Hc & Ht & Hd & Hd1 & Hn & Hg) & _). unfold clock.
  rewrite <- A. destruct (ti s), (ti s'). cbn in *.
  injection Hc as ? ? ? ? ? ? ?. subst. unfold advance_clock, compute_gamma. cbn.
  destruct secondOrder0; [reflexivity|]. destruct (Hg eq_refl) as (-> & -> & ->). reflexivity.
Qed.

Lemma time_step_rel s s' : related s s' -> related (time_step E s) (time_step E' s').
Proof.
  intros H. pose proof (clock_rel s s' H) as Hc.
  destruct (negotiate_rel s s' H) as (_ & Hw).
  assert (Hti : ti (time_step E s) = ti (time_step E' s')) by (rewrite !time_step_ti, Hc; reflexivity).
  split.
  - rewrite Hti. unfold same_clock. tauto.
  - unfold time_step. cbn [world with_ti].
    assert (R0 : related_eq
       (print_line E (with_ti E (negotiate E s) (advance_clock (ti (negotiate E s)))))
       (print_line E' (with_ti E' (negotiate E' s') (advance_clock (ti (negotiate E' s')))))).
    { split; cbn; auto. rewrite !negotiate_ti. exact Hc. }
    apply (sp_rel (realms E)) in R0. apply (fe_rel PopExternal) in R0. apply (fe_rel PreStep) in R0.
    apply (fe_rel PopBdry) in R0. apply (fe_rel Banner) in R0. apply (fe_rel ExtXfer) in R0.
    assert (R1 := picard_rel (nlIters (ti (for_each E ExtXfer
        (for_each E Banner (for_each E PopBdry (for_each E PreStep (for_each E PopExternal
           (fold_left (swap_predict1 E) (realms E)
            (print_line E (with_ti E (negotiate E s) (advance_clock (ti (negotiate E s)))))))))))))
       _ _ R0).
    apply (fe_rel PostConverged) in R1. apply (fe_rel IoXfer) in R1. apply (fe_rel Output) in R1.
    rewrite (proj1 R0) in R1 at 2.
    exact (proj2 R1).
Qed.

Lemma steps_rel n : forall s s', related s s' -> related (steps E n s) (steps E' n s').
Proof. induction n; intros s s' H; cbn; auto. apply IHn. now apply time_step_rel. Qed.
Lemma lines_rel n : forall s s', related s s' -> lines E n s = lines E' n s'.
Proof. induction n; intros s s' H; cbn; auto. rewrite (clock_rel s s' H). f_equal.
  apply IHn. now apply time_step_rel. Qed.
Lemma proceeds_rel t t' : same_clock t t' -> simulation_proceeds t = simulation_proceeds t'.
Proof.
  intros (Hc & Ht & _ & _ & Hn & _). unfold simulation_proceeds.
  pose proof (f_equal c_bt Hc) as A. pose proof (f_equal c_tot Hc) as B. pose proof (f_equal c_max Hc) as C.
  cbn in A, B, C. now rewrite A, B, C, Ht, Hn.
Qed.

(** the integrator state after the resumed start-up *)
Definition restored (t : TI) : Prop :=
  currentTime t = db_time db /\ Some (dtNm1 t) = db_dt db /\ Some (count t) = db_count db.

Lemma pop_input_time rs : forall s : st',
  (forall r x, In r rs -> sel r = false -> input_time E r = Some x -> x <= db_time db) ->
  currentTime (ti s) <= db_time db ->
  currentTime (ti (fold_left (pop_input1 E') rs s)) <= db_time db.
Proof.
  induction rs as [|r rs IH]; intros s H Hs; cbn [fold_left]; auto.
  apply IH; [intros; eapply H; eauto; now right|].
  unfold pop_input1. cbn. destruct (sel r) eqn:Hr; [exact Hs|].
  destruct (input_time E r) eqn:Hx; [|exact Hs]. eapply H; eauto. now left.
Qed.

Lemma pop_restart_restored rs : forall s : st',
  db_dt db <> None -> db_count db <> None ->
  currentTime (ti s) <= db_time db ->
  (restored (ti s) \/ exists r, In r rs /\ sel r = true) ->
  restored (ti (fold_left (pop_restart1 E') rs s)).
Proof.
  induction rs as [|r rs IH]; intros s Hd Hc Hle [H|(r' & Hr & Hs)]; cbn [fold_left]; auto; try contradiction.
  - apply IH; auto; unfold pop_restart1; cbn; destruct (sel r); cbn.
    + apply Rmax_lub; lra.
    + rewrite Rmax_left; lra.
    + left. destruct H as (A & B & C). unfold restored. cbn.
      destruct (db_dt db), (db_count db); try congruence. cbn. repeat split; auto.
      rewrite Rmax_right; lra.
    + left. destruct H as (A & B & C). unfold restored. cbn. rewrite Rmax_left by lra. auto.
  - apply IH; auto; unfold pop_restart1; cbn.
    + destruct (sel r); cbn; [apply Rmax_lub; lra|rewrite Rmax_left; lra].
    + destruct (sel r) eqn:Hsr; cbn.
      * left. unfold restored. cbn. destruct (db_dt db), (db_count db); try congruence. cbn.
        repeat split; auto. rewrite Rmax_right; lra.
      * destruct Hr as [->|Hr]; [congruence|]. right. eauto.
Qed.

Lemma resumed_clock i w0' t :
  db = restart_record t -> cfg t = cfg (load i) ->
  dtNm1 t = dtN t ->                       (* true at the top of every loop iteration after a step *)
  (adaptive t = false -> dtN t = dtFile t) ->
  (secondOrder t = false -> g1 t = 1 /\ g2 t = -1 /\ g3 t = 0) ->
  dflt (in_start_time i) 0 <= currentTime t ->
  (forall r x, In r (realms E) -> sel r = false -> input_time E r = Some x -> x <= currentTime t) ->
  (exists r, In r (realms E) /\ sel r = true) ->
  same_clock t (ti (startup E' (mkSt (load i) w0' [] []))).
Proof.
  intros Hdb Hcfg Hd1 Hfix Hg Hst Hin Hsel.
  pose proof (f_equal db_time Hdb) as Hdb1. pose proof (f_equal db_dt Hdb) as Hdb2.
  pose proof (f_equal db_count Hdb) as Hdb3. cbn in Hdb1, Hdb2, Hdb3. clear Hdb.
  set (s0 := mkSt (E:=E') (load i) w0' [] []).
  destruct (startup_cfg E' s0) as (HC & HG).
  assert (HR : restored (ti (after_restart E' s0))).
  { unfold after_restart. apply pop_restart_restored; try congruence.
    - apply pop_input_time.
      + intros. rewrite Hdb1. eapply Hin; eauto.
      + rewrite !fe_ti. rewrite Hdb1. exact Hst.
    - right. exact Hsel. }
  destruct HR as (R1 & R2 & R3). rewrite Hdb1 in R1. rewrite Hdb2 in R2. rewrite Hdb3 in R3.
  injection R2 as R2. injection R3 as R3.
  unfold same_clock. rewrite HC. cbn [ti s0].
  split; [exact Hcfg|].
  rewrite startup_ti in HC, HG |- *. cbn in HC, HG |- *.
  split; [exact (eq_sym R1)|]. split.
  - pose proof (f_equal c_ad HC) as A. pose proof (f_equal c_file HC) as B. cbn in A, B.
    pose proof (f_equal c_ad Hcfg) as A'. pose proof (f_equal c_file Hcfg) as B'. cbn in A', B'.
    rewrite A, B, <- B'. destruct (in_adaptive i); [exact (eq_sym R2)|]. apply Hfix. congruence.
  - split; [rewrite Hd1; exact (eq_sym R2)|]. split; [exact (eq_sym R3)|].
    intros H. destruct (Hg H) as (-> & -> & ->). injection HG as -> -> ->. auto.
Qed.
End Restart.
