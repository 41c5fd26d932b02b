(** * Time integration: property theorems (C01-C08, C34). *)
From Coq Require Import Reals ZArith List Bool Lra Lia Floats.SpecFloat.
From Verif Require Import RUtil Time_Model Time_Spec Time_Spec2 Time_Proofs Time_Proofs2 Time_Proofs3 Time_Proofs4.
Import ListNotations.
Open Scope R_scope.

(** ** C01 *)
Theorem C01_bdf_coefficients_exact :
  forall (E : Env) fuel i (w0 : W E) s,
  positive_env E ->
  0 < dflt (in_time_step i) 1 ->
  (forall r db x, In r (realms E) -> restart_of E r = Some db -> db_dt db = Some x -> 0 < x) ->
  integrate_realm E fuel i w0 = Some s ->
  Forall (consistent_line (dflt (in_second i) false)) (log s).
Proof. exact bdf_consistent. Qed.

(** each printed line's dtNm1 is the previous line's dtN: the two step sizes in the formula
    are really the last two steps taken *)
Theorem C01_step_sizes_chain :
  forall (E : Env) fuel i (w0 : W E) s k l l',
  integrate_realm E fuel i w0 = Some s ->
  nth_error (log s) k = Some l -> nth_error (log s) (S k) = Some l' ->
  l_count l' = (l_count l + 1)%Z /\ l_time l' = l_time l + l_dtN l' /\ l_dtNm1 l' = l_dtN l.
Proof.
  intros E fuel i w0 s k l l' H. destruct (integrate_inv E _ _ _ _ H) as (n & _ & -> & _).
  apply lines_chain.
Qed.

(** ** C02 *)
Theorem C02_step_count_termination :
  forall (E : Env) fuel i (w0 : W E) N,
  in_term_count i = Some N ->
  let c0 := last_restart_count E (realms E) (dflt (in_count i) 0%Z) in
  (Z.to_nat (N - c0) <= fuel)%nat ->
  exists s t0, integrate_realm E fuel i w0 = Some s /\
    map l_count (log s) = counts_from c0 (Z.to_nat (N - c0)) /\
    count (ti s) = Z.max N c0 /\
    t0 = currentTime (ti (startup E (mkSt (load i) w0 [] []))) /\
    currentTime (ti s) = t0 + sumR (map l_dtN (log s)).
Proof.
  intros E fuel i w0 N HN c0 Hf.
  pose proof (count_terminates E fuel i w0 N HN) as H. cbn zeta in H. rewrite startup_count in H. fold c0 in H.
  destruct (H Hf) as (s & A & B & C & D). exists s. eexists. repeat split; eauto.
Qed.

(** ** C03 *)
Theorem C03_time_termination_fixed_step :
  forall (E : Env) i (w0 : W E) T,
  in_term_count i = None -> in_term_time i = Some T -> in_adaptive i = false ->
  let dt := dflt (in_time_step i) 1 in
  0 < dt ->
  let t0 := currentTime (ti (startup E (mkSt (load i) w0 [] []))) in
  exists n s,
    (forall fuel, (n <= fuel)%nat -> integrate_realm E fuel i w0 = Some s) /\
    length (log s) = n /\
    currentTime (ti s) = t0 + INR n * dt /\
    T <= currentTime (ti s) /\
    (t0 < T -> currentTime (ti s) < T + dt) /\
    (T <= t0 -> n = O) /\
    (forall l, In l (log s) -> l_time l - dt < T /\ l_dtN l = dt).
Proof. exact time_terminates. Qed.

Theorem C03_time_termination_adaptive :
  forall (E : Env) i (w0 : W E) T eps,
  in_term_count i = None -> in_term_time i = Some T -> in_adaptive i = true ->
  0 < eps -> eps <= 100000000 -> (forall r t w, eps <= propose E r t w) ->
  exists n s, (forall fuel, (n <= fuel)%nat -> integrate_realm E fuel i w0 = Some s) /\
    T <= currentTime (ti s).
Proof. exact adaptive_terminates. Qed.

(** In binary64 arithmetic the same loop need not terminate: the clock of
    src/TimeIntegrator.C:252 stagnates when dt is below half an ulp of the time.
    [bin_clock n t dt]: value of currentTime_ after n passes of [currentTime_ += timeStepN_]. *)
Fixpoint bin_clock (n : nat) (t dt : spec_float) : spec_float :=
  match n with O => t | S k => bin_clock k (SFadd 53 1024 t dt) dt end.

Theorem C03_time_termination_binary64_refuted :
  exists t0 dt T : spec_float,
    valid_binary 53 1024 t0 = true /\ valid_binary 53 1024 dt = true /\ valid_binary 53 1024 T = true /\
    SFltb (S754_zero false) dt = true /\ SFltb t0 T = true /\
    forall n, SFltb (bin_clock n t0 dt) T = true.
Proof.
  (* t0 = 2^53, dt = 1, T = 2^53+2 *)
  exists (S754_finite false 4503599627370496 1), (S754_finite false 4503599627370496 (-52)),
         (S754_finite false 4503599627370497 1).
  repeat (split; [vm_compute; reflexivity|]).
  intros n.
  assert (H : bin_clock n (S754_finite false 4503599627370496 1) (S754_finite false 4503599627370496 (-52))
              = S754_finite false 4503599627370496 1).
  { induction n; [reflexivity|]. cbn [bin_clock].
    replace (SFadd 53 1024 (S754_finite false 4503599627370496 1) (S754_finite false 4503599627370496 (-52)))
      with (S754_finite false 4503599627370496 1) by (vm_compute; reflexivity). exact IHn. }
  rewrite H. vm_compute. reflexivity.
Qed.

(** ** C04 *)
Theorem C04_lockstep_phases :
  forall (E : Env) fuel i (w0 : W E) s,
  integrate_realm E fuel i w0 = Some s ->
  exists pre segs post,
    trace s = pre ++ concat segs ++ post /\
    length segs = length (log s) /\
    startup_ok pre /\
    Forall (lockstep (realms E) (dflt (in_nl i) 1%nat) (in_adaptive i)) segs /\
    post = map (mkEv DumpTime) (realms E).
Proof. exact lockstep_run. Qed.

(** ** C05 *)
Theorem C05_proposal_bounded :
  forall dt target C f x,
  0 < dt -> 0 < target -> 0 <= C -> 1 <= f ->
  compute_adaptive_time_step dt target C f = Some x ->
  dt / f <= x <= dt * f /\ 0 < x.
Proof. exact adaptive_bounds. Qed.

Theorem C05_proposal_hits_target :
  forall dt target C f x,
  0 < dt -> 0 < target -> 0 < C -> 1 <= f ->
  1 / f <= target / C <= f ->
  compute_adaptive_time_step dt target C f = Some x ->
  C * (x / dt) = target.
Proof. exact adaptive_target. Qed.

Theorem C05_negotiated_is_minimum :
  forall (E : Env) (s : state E),
  proposals_pure E -> adaptive (ti s) = true ->
  let x := dtN (ti (time_step E s)) in
  x <= 100000000 /\ (forall r, In r (realms E) -> x <= propose E r (ti s) (world s)) /\
  (x = 100000000 \/ exists r, In r (realms E) /\ x = propose E r (ti s) (world s)).
Proof.
  intros E s HE Ha. rewrite time_step_dtN. unfold negotiated. rewrite Ha. now apply negotiate_min.
Qed.

(** ** C06 *)
Theorem C06_restart_continues_history :
  forall (E : Env) (sel : nat -> bool) (Sim : W E -> W E -> Prop) fuel i (w0 w0' : W E) s k l,
  sim_ok E Sim ->
  integrate_realm E fuel i w0 = Some s ->
  (1 <= k <= length (log s))%nat ->
  nth_error (log s) (k - 1) = Some l ->
  let E' := resumed_env E (record_of_line l) sel in
  let sk := steps E k (startup E (mkSt (load i) w0 [] [])) in
  Sim (world sk) (world (startup E' (mkSt (E:=E') (load i) w0' [] []))) ->
  dflt (in_start_time i) 0 <= l_time l ->
  (forall r x, In r (realms E) -> sel r = false -> input_time E r = Some x -> x <= l_time l) ->
  (exists r, In r (realms E) /\ sel r = true) ->
  exists s', integrate_realm E' fuel i w0' = Some s' /\
    log s = firstn k (log s) ++ log s' /\
    currentTime (ti s') = currentTime (ti s) /\ count (ti s') = count (ti s).
Proof. exact restart_continues. Qed.

Theorem C06_restart_record_is_logged_clock :
  forall (E : Env) (s : state E), exists sx l,
  time_step E s = with_ti E (for_each E Output sx) (ti (time_step E s)) /\
  log (time_step E s) = log s ++ [l] /\
  restart_record (ti sx) = record_of_line l.
Proof. exact output_sees_logged_clock. Qed.

(** With several realms restarting from records of different age (e.g. different restart
    frequencies), time is the maximum but the step count is that of the last realm: the resumed
    run starts from a (time, count) pair that never occurs in the original run. *)
Theorem C06_multi_realm_restart_refuted :
  exists (E0 E1 : Env) (i : input) (w0 : W E0) (w1 : W E1),
    realms E0 = realms E1 /\
    (* E1's databases hold clock values of E0's run *)
    (forall r db, In r (realms E1) -> restart_of E1 r = Some db ->
       exists n, let t := ti (steps E0 n (startup E0 (mkSt (load i) w0 [] []))) in
         db = restart_record t) /\
    forall n, let t := ti (steps E0 n (startup E0 (mkSt (load i) w0 [] []))) in
      let t' := ti (startup E1 (mkSt (load i) w1 [] [])) in
      (currentTime t', count t') <> (currentTime t, count t).
Proof.
  exists (two_realms (fun _ => None)), (two_realms mixed_dbs), in_fixed, tt, tt.
  split; [reflexivity|]. split.
  - intros r db _ Hr. cbn in Hr. unfold mixed_dbs in Hr.
    set (s0 := startup _ _). 
    assert (HD : forall n, dtN (ti (steps (two_realms (fun _ => None)) n s0)) = 1).
    { intros n. destruct (fixed_steps (two_realms (fun _ => None)) n s0 eq_refl) as (-> & _). reflexivity. }
    destruct (Nat.eqb r 0); injection Hr as <-; [exists 3%nat|exists 2%nat]; cbn zeta;
      unfold restart_record; rewrite HD.
    + destruct (orig_clock 3) as (A & B). fold s0 in A, B. rewrite A, B.
      f_equal. simpl; lra.
    + destruct (orig_clock 2) as (A & B). fold s0 in A, B. rewrite A, B.
      f_equal. 
  - intros n. cbn zeta. destruct (orig_clock n) as (A & B). destruct mixed_restart_clock as (C & D).
    rewrite A, B, C, D. intros H. injection H as H1 H2.
    assert (n = 2)%nat by lia. subst n. simpl in H1. lra.
Qed.

(** ** C07 *)
Theorem C07_output_schedule :
  forall hasBlock freq start h user_wall k c ex o,
  nth_error h k = Some (c, ex) ->
  nth_error (output_history hasBlock freq start user_wall h) k = Some o ->
  (o = true <-> hasBlock = true /\ freq <> 0%Z /\
     (scheduled freq start c \/
      (user_wall = true /\ ex = true /\
       forall j c' ex', (j < k)%nat -> nth_error h j = Some (c', ex') -> ex' = false))).
Proof. intros hb freq start. exact (output_history_spec hb freq start). Qed.

(** ** C08 *)
Theorem C08_nonlinear_iteration_control :
  forall (S : Type) (sv : bool -> S -> S * bool) (n : nat) (s : S),
  let (s', m) := advance_time_step S sv true n s in
  s' = sweep_state S sv n m s /\ (m <= n)%nat /\ ((0 < n)%nat -> (0 < m)%nat) /\
  (forall j, (0 < j < m)%nat -> sweep_flag S sv n j s = false) /\
  ((m < n)%nat -> sweep_flag S sv n m s = true).
Proof.
  intros S sv n s. unfold advance_time_step.
  pose proof (nl_loop_spec S sv n n 0 s eq_refl) as H. cbn [sweep_state] in H.
  destruct (nl_loop S sv n 0 n s) as [s' m]. destruct H as (A & B & C & D & F).
  repeat split; auto; try lia. intros. now apply F.
Qed.

Theorem C08_inactive_step_does_nothing :
  forall (S : Type) (sv : bool -> S -> S * bool) n s, advance_time_step S sv false n s = (s, O).
Proof. reflexivity. Qed.

(** a realm solved every [f] steps is active exactly at multiples of f *)
Theorem C08_solve_frequency :
  forall c f, f <> 0%Z -> active_time_step c f = Some true <-> (f | c)%Z.
Proof.
  intros c f Hf. unfold active_time_step. destruct (f =? 0)%Z eqn:H; [apply Z.eqb_eq in H; contradiction|].
  rewrite <- Z.rem_divide by exact Hf. rewrite <- Z.eqb_eq.
  split; [intros Q; injection Q as ->; reflexivity|intros ->; reflexivity].
Qed.

(** ** C34 *)
Theorem C34_equation_sweep :
  forall (S : Type) (eff : eq_event -> S -> S) n (system_of : nat -> S -> eqsys) s,
  let '(s', tr, conv) := solve_and_update S eff n system_of s in
  tr = [EqsPreIter] ++ flat_map (fun k => [EqPre k; EqSolve k; EqPost k]) (seq 0 n)
        ++ map EqPostDep (seq 0 n) ++ [EqsPostIter] /\
  s' = fold_left (fun x e => eff e x) tr s /\
  (conv = true <-> forall k, (k < n)%nat -> match eq_scaled_residual (system_of k s') with
                                    | None => True | Some r => r < eq_tol (system_of k s') end).
Proof. exact solve_and_update_spec. Qed.

Theorem C34_mean_system_norm :
  forall l, provide_mean_system_norm l = sumR (map fst l) / sumR (map snd l).
Proof. exact mean_system_norm_spec. Qed.

Theorem C34_mean_norm_over_multiphysics_realms :
  forall E w, let ms := filter (is_multi E) (realms E) in
  provide_mean_norm E w =
  match ms with [] => 0 | _ => sumR (map (fun r => mean_norm E r w) ms) / INR (length ms) end.
Proof. exact mean_norm_spec. Qed.

(** ** Non-vacuity: two realms, adaptive second-order run whose proposals alternate,
    stopped after 3 steps; the hypotheses of C01/C02/C04/C06 hold. *)
Definition demo : Env :=
  mkEnv nat [3%nat; 7%nat] (fun p r t w => match p with Advance => S w | _ => w end)
        (fun _ => None) (fun _ => None)
        (fun r t w => dtN t * (if Nat.eqb r 3 then 2 else if Nat.even w then 1/2 else 3))
        (fun _ => true) (fun _ _ => 1).
Definition demo_in : input := mkInput (Some 9) (Some 3%Z) (Some (1/10)) None None (Some true) (Some 2%nat) true.

Example demo_positive : positive_env demo.
Proof. intros r t w H. cbn. destruct (Nat.eqb r 3); [lra|]. destruct (Nat.even w); lra. Qed.
Example demo_runs : exists s, integrate_realm demo 5 demo_in (0%nat : W demo) = Some s
  /\ map l_count (log s) = [1; 2; 3]%Z /\ length (trace s) <> 0%nat.
Proof.
  destruct (C02_step_count_termination demo 5 demo_in 0%nat 3%Z eq_refl) as (s & t0 & A & B & _).
  { vm_compute. lia. }
  exists s. split; [exact A|]. split; [exact B|].
  destruct (C04_lockstep_phases _ _ _ _ _ A) as (pre & segs & post & Ht & _ & _ & _ & ->).
  rewrite Ht, !app_length, map_length. cbn. lia.
Qed.
Example demo_sim : sim_ok demo eq.
Proof. split; [|split].
  - intros; now subst.
  - intros; now subst.
  - intros r t t' w w' H <-. cbn. now rewrite H. Qed.
Example demo_pure : proposals_pure demo.
Proof. intros r r' t t' w. reflexivity. Qed.
(** C03: an input deck meeting the hypotheses *)
Example demo_time : exists n s, forall fuel, (n <= fuel)%nat ->
  integrate_realm demo fuel (mkInput (Some (35/100)) None (Some (1/10)) None None None None false) (0%nat : W demo) = Some s.
Proof.
  destruct (C03_time_termination_fixed_step demo
     (mkInput (Some (35/100)) None (Some (1/10)) None None None None false) 0%nat (35/100)
     eq_refl eq_refl eq_refl) as (n & s & H & _).
  - cbn. lra.
  - exists n, s. exact H.
Qed.
(** C05 *)
Example demo_dt : exists x, compute_adaptive_time_step (1/10) 1 2 (5/4) = Some x /\ x = 8/100.
Proof.
  unfold compute_adaptive_time_step, ieee_div. destruct (Req_EM_T 2 0); [lra|].
  eexists. split; [reflexivity|]. destruct (Rlt_dec 1 2); [|lra].
  unfold std_max. destruct (Rlt_dec _ _); lra.
Qed.
(** C07: frequency 3 from step 1, wall-clock threshold passed at the 3rd call *)
Example demo_out : output_history true 3 1 true [(0,false);(1,false);(2,true);(3,true);(4,true);(5,true)]%Z
  = [false; true; true; false; true; false].
Proof. reflexivity. Qed.
(** C08: converges at the third sweep of five *)
Example demo_nl : advance_time_step nat (fun _ s => (S s, Nat.leb 3 (S s))) true 5 0%nat = (3, 3)%nat.
Proof. reflexivity. Qed.

Print Assumptions C01_bdf_coefficients_exact.
Print Assumptions C01_step_sizes_chain.
Print Assumptions C02_step_count_termination.
Print Assumptions C03_time_termination_fixed_step.
Print Assumptions C03_time_termination_adaptive.
Print Assumptions C03_time_termination_binary64_refuted.
Print Assumptions C04_lockstep_phases.
Print Assumptions C05_proposal_bounded.
Print Assumptions C05_negotiated_is_minimum.
Print Assumptions C06_restart_continues_history.
Print Assumptions C06_multi_realm_restart_refuted.
Print Assumptions C07_output_schedule.
Print Assumptions C08_nonlinear_iteration_control.
Print Assumptions C34_equation_sweep.
