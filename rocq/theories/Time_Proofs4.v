From Coq Require Import Reals ZArith List Bool Lra Lia Psatz.
From Verif Require Import RUtil Time_Model Time_Spec Time_Spec2 Time_Proofs Time_Proofs2 Time_Proofs3.
Import ListNotations.
Open Scope R_scope.

(** ** C06: main theorem *)
Lemma startup_fixed E i w0 : in_adaptive i = false ->
  dtN (ti (startup E (mkSt (load i) w0 [] []))) = dtFile (load i).
Proof.
  intros Ha. destruct (startup_cfg E (mkSt (load i) w0 [] [])) as (HC & _).
  pose proof (f_equal c_ad HC) as A. pose proof (f_equal c_file HC) as B.
  rewrite startup_ti in A, B |- *. cbn in A, B |- *. rewrite A, B, Ha. reflexivity.
Qed.

Lemma fixed_dtN_file E i w0 n :
  let s := steps E n (startup E (mkSt (load i) w0 [] [])) in
  adaptive (ti s) = false -> dtN (ti s) = dtFile (ti s).
Proof.
  intros s Ha.
  destruct (startup_cfg E (mkSt (load i) w0 [] [])) as (HC & _).
  pose proof (steps_cfg E n (startup E (mkSt (load i) w0 [] []))) as HS. fold s in HS.
  rewrite HC in HS.
  pose proof (f_equal c_ad HS) as A. pose proof (f_equal c_file HS) as B. cbn in A, B.
  assert (Hi : in_adaptive i = false) by congruence.
  pose proof (f_equal c_ad HC) as A'. cbn in A'.
  destruct (fixed_steps E n (startup E (mkSt (load i) w0 [] []))) as (F & _); [congruence|].
  unfold s. rewrite F, startup_fixed by exact Hi. fold s. rewrite B. reflexivity.
Qed.

Lemma first_order_gammas E i w0 n :
  let s := steps E n (startup E (mkSt (load i) w0 [] [])) in
  secondOrder (ti s) = false -> g1 (ti s) = 1 /\ g2 (ti s) = -1 /\ g3 (ti s) = 0.
Proof.
  destruct (startup_cfg E (mkSt (load i) w0 [] [])) as (HC & HG). cbn in HG.
  induction n; intros s Hso.
  - injection HG as A B C. auto.
  - unfold s in *. rewrite steps_S in *.
    set (u := steps E n (startup E (mkSt (load i) w0 [] []))) in *.
    pose proof (f_equal c_so (time_step_cfg E u)) as D. cbn [c_so cfg] in D.
    assert (Hu : secondOrder (ti u) = false) by congruence.
    destruct (IHn Hu) as (X & Y & Z0). rewrite time_step_ti. cbn.
    unfold clock, advance_clock. cbn. rewrite Hu. auto.
Qed.

Lemma last_line E k s : (1 <= k)%nat ->
  nth_error (lines E k s) (k - 1) = Some (line_of (clock E (steps E (k - 1) s))).
Proof. intros. apply lines_nth. lia. Qed.

Lemma firstn_lines E n : forall k s, (k <= n)%nat -> firstn k (lines E n s) = lines E k s.
Proof. induction n; intros k s H. { replace k with O by lia. reflexivity. }
  destruct k; [reflexivity|]. cbn. f_equal. apply IHn. lia. Qed.
Lemma skipn_lines E n : forall k s, (k <= n)%nat -> skipn k (lines E n s) = lines E (n - k) (steps E k s).
Proof. induction n; intros k s H. { replace k with O by lia. reflexivity. }
  destruct k; [reflexivity|]. cbn. apply IHn. lia. Qed.
Lemma steps_add E a : forall b s, steps E b (steps E a s) = steps E (a + b) s.
Proof. induction a; intros; cbn; auto. Qed.

Theorem restart_continues (E : Env) (sel : nat -> bool) (Sim : W E -> W E -> Prop)
   fuel i (w0 w0' : W E) s k l :
  sim_ok E Sim ->
  integrate_realm E fuel i w0 = Some s ->
  (1 <= k <= length (log s))%nat ->
  nth_error (log s) (k - 1) = Some l ->
  let E' := resumed_env E (record_of_line l) sel in
  let sk := steps E k (startup E (mkSt (load i) w0 [] [])) in
  Sim (world sk) (world (startup E' (mkSt (E:=E') (load i) w0' [] []))) ->
  dflt (in_start_time i) 0 <= l_time l ->
  (forall r x, In r (realms E) -> sel r = false -> input_time E r = Some x -> x <= l_time l) ->
  (exists r, In r (realms E) /\ sel r = true) ->
  exists s', integrate_realm E' fuel i w0' = Some s' /\
    log s = firstn k (log s) ++ log s' /\
    currentTime (ti s') = currentTime (ti s) /\ count (ti s') = count (ti s).
Proof.
  intros HS Hrun Hk Hl E' sk Hw Hst Hin Hsel.
  destruct (integrate_inv E _ _ _ _ Hrun) as (n & Hn & Hlog & Hti & _ & Hf & Hp).
  set (s0 := startup E (mkSt (load i) w0 [] [])) in *.
  rewrite Hlog, lines_length in Hk.
  assert (Hline : l = line_of (clock E (steps E (k - 1) s0))).
  { rewrite Hlog in Hl. rewrite lines_nth in Hl by lia. congruence. }
  assert (Hsk : sk = time_step E (steps E (k - 1) s0)).
  { unfold sk. rewrite <- steps_S. f_equal. lia. }
  assert (Hrec : record_of_line l = restart_record (ti sk)).
  { rewrite Hsk, Hline. unfold record_of_line, restart_record, line_of. cbn [l_time l_dtN l_count].
    rewrite time_step_time, time_step_dtN, time_step_count, clock_time, clock_dtN, clock_count. reflexivity. }
  assert (Hcfg : cfg (ti sk) = cfg (load i)).
  { unfold sk. rewrite steps_cfg. exact (proj1 (startup_cfg E (mkSt (load i) w0 [] []))). }
  assert (Hrel : related E (record_of_line l) sel Sim sk (startup E' (mkSt (E:=E') (load i) w0' [] []))).
  { split; [|exact Hw].
    assert (Ht : currentTime (ti sk) = l_time l).
    { pose proof (f_equal db_time Hrec) as X. cbn in X. auto. }
    apply resumed_clock with (t := ti sk); auto.
    - rewrite Hsk. rewrite time_step_dtN, time_step_dtNm1. reflexivity.
    - intros. unfold sk in *. now apply fixed_dtN_file.
    - intros. unfold sk in *. now apply first_order_gammas.
    - rewrite Ht. exact Hst.
    - rewrite Ht. exact Hin. }
  set (s0' := startup E' (mkSt (E:=E') (load i) w0' [] [])) in *.
  assert (Hend : steps E (n - k) sk = steps E n s0).
  { unfold sk. rewrite steps_add. f_equal. lia. }
  assert (Hloop : time_loop E' fuel s0' = Some (steps E' (n - k) s0')).
  { apply steps_time_loop; [| |lia].
    - intros j Hj. refine (eq_trans (eq_sym (proceeds_rel _ _ (proj1 (steps_rel E _ sel Sim HS j _ _ Hrel)))) _).
      unfold sk. rewrite steps_add. apply Hp. lia.
    - refine (eq_trans (eq_sym (proceeds_rel _ _ (proj1 (steps_rel E _ sel Sim HS (n - k) _ _ Hrel)))) _).
      rewrite Hend. exact Hf. }
  unfold integrate_realm. fold s0'. rewrite Hloop. eexists. split; [reflexivity|].
  rewrite fe_log, fe_ti, steps_log.
  assert (Hl0 : log s0' = []) by (unfold s0'; now rewrite startup_log).
  rewrite Hl0. cbn [app].
  destruct (steps_rel E _ sel Sim HS (n - k) _ _ Hrel) as ((_ & Ht & _ & _ & Hc & _) & _).
  rewrite Hend in Ht, Hc. rewrite <- Hti in Ht, Hc.
  split; [|split; [exact (eq_sym Ht)|exact (eq_sym Hc)]].
  rewrite Hlog at 1. rewrite <- (firstn_skipn k (lines E n s0)) at 1. rewrite Hlog. f_equal.
  rewrite skipn_lines by lia. apply (lines_rel E _ sel Sim HS). exact Hrel.
Qed.

(** The record of step k is what output_converged_results sees in that step. *)
Theorem output_sees_logged_clock E (s : state E) : exists sx l,
  time_step E s = with_ti E (for_each E Output sx) (ti (time_step E s)) /\
  log (time_step E s) = log s ++ [l] /\
  restart_record (ti sx) = record_of_line l.
Proof.
  eexists. exists (line_of (clock E s)). split; [unfold time_step; reflexivity|].
  split; [apply time_step_log|].
  rewrite !fe_ti, picard_ti, !fe_ti, sp_ti. cbn [ti with_ti print_line]. rewrite negotiate_ti. reflexivity.
Qed.

(** ** C06, several realms whose records are of different age: the clock is a mixture *)
Definition two_realms (dbs : nat -> option restart_db) : Env :=
  mkEnv unit [0%nat; 1%nat] (fun _ _ _ w => w) (fun _ => None) dbs (fun _ _ _ => 1)
        (fun _ => true) (fun _ _ => 0).
Definition in_fixed : input := mkInput None (Some 5%Z) (Some 1) None None None None false.
Definition mixed_dbs (r : nat) : option restart_db :=
  if Nat.eqb r 0 then Some (mkDb 3 (Some 1) (Some 3%Z)) else Some (mkDb 2 (Some 1) (Some 2%Z)).

Lemma mixed_restart_clock :
  let t := ti (startup (two_realms mixed_dbs) (mkSt (E:=two_realms mixed_dbs) (load in_fixed) tt [] [])) in
  currentTime t = 3 /\ count t = 2%Z.
Proof.
  cbn. split; [|reflexivity].
  replace (Rmax 0 3) with 3 by (rewrite Rmax_right; lra). rewrite Rmax_left; lra.
Qed.
Lemma orig_clock n : let t := ti (steps (two_realms (fun _ => None)) n
    (startup (two_realms (fun _ => None)) (mkSt (E:=two_realms (fun _ => None)) (load in_fixed) tt [] []))) in
  currentTime t = INR n /\ count t = Z.of_nat n.
Proof.
  cbn zeta. set (s := startup _ _).
  assert (A : adaptive (ti s) = false) by reflexivity.
  destruct (fixed_steps (two_realms (fun _ => None)) n s A) as (_ & ->).
  rewrite steps_count. unfold s. cbn. rewrite !Rmax_left by lra. split; lra || lia.
Qed.

(** ** C07 *)
Lemma rem_divide a b : b <> 0%Z -> Z.rem a b = 0%Z <-> (b | a)%Z.
Proof. intros. apply Z.rem_divide; auto. Qed.

Lemma provide_output_spec hb freq start c uw ex :
  let (o, uw') := provide_output hb freq start c uw ex in
  (o = true <-> hb = true /\ freq <> 0%Z /\ (scheduled freq start c \/ (uw = true /\ ex = true))) /\
  (uw' = true <-> uw = true /\ ~ (hb = true /\ freq <> 0%Z /\ ex = true)).
Proof.
  unfold provide_output. destruct hb; cbn.
  2:{ split; split; try discriminate; intuition discriminate. }
  destruct (freq =? 0)%Z eqn:Hf.
  { apply Z.eqb_eq in Hf. split; split; try discriminate; intuition. }
  apply Z.eqb_neq in Hf.
  rewrite orb_true_iff, andb_true_iff, Z.leb_le, Z.eqb_eq, rem_divide by auto.
  unfold scheduled. rewrite andb_true_iff.
  split; [tauto|]. destruct uw, ex; cbn; intuition discriminate.
Qed.

Theorem output_history_spec hb freq start : forall h uw k c ex o,
  nth_error h k = Some (c, ex) ->
  nth_error (output_history hb freq start uw h) k = Some o ->
  (o = true <-> hb = true /\ freq <> 0%Z /\
     (scheduled freq start c \/
      (uw = true /\ ex = true /\ forall j c' ex', (j < k)%nat -> nth_error h j = Some (c', ex') -> ex' = false))).
Proof.
  induction h as [|[c0 ex0] h IH]; intros uw k c ex o Hh Ho; [destruct k; discriminate|].
  cbn [output_history] in Ho.
  pose proof (provide_output_spec hb freq start c0 uw ex0) as HP.
  destruct (provide_output hb freq start c0 uw ex0) as [o0 uw'] eqn:Heq.
  destruct HP as (HP1 & HP2). destruct k as [|k].
  - cbn in Hh, Ho. injection Hh as -> ->. injection Ho as <-. rewrite HP1.
    split; intros (A & B & C); repeat split; auto; destruct C as [C|C]; auto; right; [|tauto].
    destruct C as (C1 & C2). repeat split; auto. intros; lia.
  - cbn in Hh, Ho. rewrite (IH uw' k c ex o Hh Ho). rewrite HP2.
    split; intros (A & B & C); (split; [exact A|split; [exact B|]]); destruct C as [C|C]; auto; right.
    + destruct C as ((C1 & C2) & C3 & C4). repeat split; auto.
      intros [|j] c' ex' Hj Hn.
      * cbn in Hn. injection Hn as <- <-. destruct ex0; auto. exfalso; apply C2; auto.
      * eapply C4; [|exact Hn]. lia.
    + destruct C as (C1 & C2 & C3). repeat split; auto.
      * intros (_ & _ & C4). assert (ex0 = false) by (apply (C3 O c0 ex0); [lia|reflexivity]). congruence.
      * intros j c' ex' Hj Hn. apply (C3 (S j) c' ex'); [lia|exact Hn].
Qed.

(** ** C08 *)
Section NL.
Variable S : Type.
Variable sv : bool -> S -> S * bool.
Variable n : nat.
Notation sweep_state := (sweep_state S sv n).
Notation sweep_flag := (sweep_flag S sv n).

Lemma nl_loop_spec left : forall i s0, (i + left = n)%nat ->
  let (s', m) := nl_loop S sv left i n (sweep_state i s0) in
  s' = sweep_state m s0 /\ (i <= m <= n)%nat /\ (0 < left -> i < m)%nat /\
  (forall j, i < j < m -> sweep_flag j s0 = false)%nat /\
  ((m < n)%nat -> sweep_flag m s0 = true /\ (i < m)%nat).
Proof.
  induction left as [|k IH]; intros i s0 Hn; cbn [nl_loop].
  - repeat split; try lia.
  - destruct (sv (Nat.eqb (i + 1) n) (sweep_state i s0)) as [s1 conv] eqn:Hs.
    assert (Hst : s1 = sweep_state (i + 1) s0).
    { replace (i + 1)%nat with (Datatypes.S i) by lia. cbn. now rewrite Hs. }
    assert (Hfl : sweep_flag (i + 1) s0 = conv).
    { unfold sweep_flag. replace (i + 1 - 1)%nat with i by lia. now rewrite Hs. }
    destruct conv.
    + split; [exact Hst|]. split; [lia|]. split; [lia|]. split; [intros; lia|]. intros; split; [exact Hfl|lia].
    + rewrite Hst. specialize (IH (i + 1)%nat s0 ltac:(lia)).
      destruct (nl_loop S sv k (i + 1) n (sweep_state (i + 1) s0)) as [s' m].
      destruct IH as (A & B & C & D & F). split; [exact A|]. split; [lia|]. split; [lia|]. split.
      * intros j Hj. destruct (Nat.eq_dec j (i + 1)) as [->|]; [exact Hfl|]. apply D. lia.
      * intros Hm. destruct (F Hm). split; auto. lia.
Qed.
End NL.

(** ** C34: sweep structure *)
Section SW.
Variable S : Type.
Variable eff : eq_event -> S -> S.
Variable n : nat.
Variable system_of : nat -> S -> eqsys.

Lemma sweep_solve_spec ks : forall a,
  snd (fold_left (fun a k => eq_do S eff (EqPost k) (eq_do S eff (EqSolve k) (eq_do S eff (EqPre k) a))) ks a)
  = snd a ++ flat_map (fun k => [EqPre k; EqSolve k; EqPost k]) ks.
Proof. induction ks; intros; cbn [fold_left flat_map]; [now rewrite app_nil_r|].
  rewrite IHks. cbn. now rewrite <- !app_assoc. Qed.
Lemma sweep_dep_spec ks : forall a,
  snd (fold_left (fun a k => eq_do S eff (EqPostDep k) a) ks a) = snd a ++ map EqPostDep ks.
Proof. induction ks; intros; cbn [fold_left map]; [now rewrite app_nil_r|].
  rewrite IHks. cbn. now rewrite <- !app_assoc. Qed.

Lemma sweep_state_spec ks : forall a,
  fst (fold_left (fun a k => eq_do S eff (EqPost k) (eq_do S eff (EqSolve k) (eq_do S eff (EqPre k) a))) ks a)
  = fold_left (fun s e => eff e s) (flat_map (fun k => [EqPre k; EqSolve k; EqPost k]) ks) (fst a).
Proof. induction ks; intros; cbn [fold_left flat_map]; auto. rewrite IHks. reflexivity. Qed.
Lemma dep_state_spec ks : forall a,
  fst (fold_left (fun a k => eq_do S eff (EqPostDep k) a) ks a) =
  fold_left (fun s e => eff e s) (map EqPostDep ks) (fst a).
Proof. induction ks; intros; cbn [fold_left map]; auto. rewrite IHks. reflexivity. Qed.

Lemma check_fold s ks : forall b,
  fold_left (fun ok k => if negb (system_is_converged (system_of k s)) then false else ok) ks b = true
  <-> b = true /\ forall k, In k ks -> system_is_converged (system_of k s) = true.
Proof.
  induction ks as [|k ks IH]; intros b; cbn [fold_left].
  - intuition.
  - rewrite IH. destruct (system_is_converged (system_of k s)) eqn:H; cbn.
    + split; intros (A & B); (split; [exact A|]).
      * intros k' [<-|]; auto.
      * intros; apply B; now right.
    + split; [intros (A & _); discriminate|]. intros (_ & B). rewrite B in H by now left. discriminate.
Qed.

Lemma solve_and_update_spec s :
  let '(s', tr, conv) := solve_and_update S eff n system_of s in
  tr = [EqsPreIter] ++ flat_map (fun k => [EqPre k; EqSolve k; EqPost k]) (seq 0 n)
        ++ map EqPostDep (seq 0 n) ++ [EqsPostIter] /\
  s' = fold_left (fun x e => eff e x) tr s /\
  (conv = true <-> forall k, (k < n)%nat -> match eq_scaled_residual (system_of k s') with
                                    | None => True | Some r => r < eq_tol (system_of k s') end).
Proof.
  unfold solve_and_update, sweep_solve, sweep_dep. cbn [eq_do fst snd].
  split; [|split].
  - rewrite sweep_dep_spec, sweep_solve_spec. cbn. rewrite <- !app_assoc. reflexivity.
  - rewrite dep_state_spec, sweep_state_spec, sweep_dep_spec, sweep_solve_spec. cbn [eq_do fst snd].
    rewrite !fold_left_app. cbn. reflexivity.
  - unfold sweep_check. rewrite check_fold. split.
    + intros (_ & H) k Hk. specialize (H k). rewrite in_seq in H. specialize (H ltac:(lia)).
      unfold system_is_converged in H. destruct (eq_scaled_residual _); auto.
      destruct (Rlt_dec _ _); [assumption|discriminate].
    + intros H. split; auto. intros k Hk. apply in_seq in Hk. specialize (H k ltac:(lia)).
      unfold system_is_converged. destruct (eq_scaled_residual _); auto.
      destruct (Rlt_dec _ _); [reflexivity|contradiction].
Qed.
End SW.

Lemma mean_system_norm_spec l : provide_mean_system_norm l = sumR (map fst l) / sumR (map snd l).
Proof.
  unfold provide_mean_system_norm.
  assert (H : forall a, fold_left (fun a x => (fst a + fst x, snd a + snd x)) l a =
      (fst a + sumR (map fst l), snd a + sumR (map snd l))).
  { induction l; intros p; cbn [fold_left map]; unfold sumR; cbn [fold_right].
    - destruct p; cbn; f_equal; lra.
    - rewrite IHl. cbn. unfold sumR. f_equal; lra. }
  rewrite H. cbn. now rewrite !Rplus_0_l.
Qed.

Lemma mean_norm_spec E w : 
  let ms := filter (is_multi E) (realms E) in
  provide_mean_norm E w = match ms with [] => 0 | _ => sumR (map (fun r => mean_norm E r w) ms) / INR (length ms) end.
Proof.
  intros ms. unfold provide_mean_norm.
  assert (H : forall rs a z, fold_left (mean_norm1 E w) rs (a, z) =
     (a + sumR (map (fun r => mean_norm E r w) (filter (is_multi E) rs)),
      (z + Z.of_nat (length (filter (is_multi E) rs)))%Z)).
  { induction rs as [|r rs IH]; intros; cbn [fold_left filter].
    - cbn. unfold sumR. cbn. f_equal; [lra|lia].
    - unfold mean_norm1 at 2. destruct (is_multi E r); rewrite IH; cbn [map length].
      + unfold sumR. cbn [fold_right]. f_equal; [lra|lia].
      + reflexivity. }
  rewrite H. fold ms. rewrite Rplus_0_l, Z.add_0_l. destruct ms as [|m ms'].
  - cbn. unfold sumR. cbn. unfold Rdiv. ring.
  - rewrite Z.max_r by (cbn [length]; lia). rewrite INR_IZR_INZ. reflexivity.
Qed.
