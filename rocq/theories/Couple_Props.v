(** C98: which transfer of a coupled run is executed when. *)
From Coq Require Import Reals ZArith List Bool String Lia Sorted.
From Verif Require Import Opt_Model Time_Model Time_Spec Time_Proofs Time_Proofs2 Opt_Props Time_Spec2 Couple_Model.
Import ListNotations.
Open Scope list_scope.

(** ** reading *)
(** a transfer names its variables or a known coupling, not both, and its parts in one of the two ways *)
Theorem C98_transfer_input_checked n d : load n = Some d ->
  ((exists y, yget "transfer_variables" n = Some y /\ yget "coupling_physics" n = None) \/
   (yget "transfer_variables" n = None /\ exists y p, yget "coupling_physics" n = Some y /\ as_string y = Some p /\
      In p ["fluids_cht"; "fluids_robin"; "thermal_cht"; "thermal_robin"]%string)) /\
  ((yget "mesh_part_pair" n <> None /\ yget "from_target_name" n = None /\ yget "to_target_name" n = None /\
      List.length (x_fromParts d) = 1%nat /\ List.length (x_toParts d) = 1%nat) \/
   (yget "mesh_part_pair" n = None /\ yget "from_target_name" n <> None /\ yget "to_target_name" n <> None)) /\
  (yget "objective" n = None -> x_objective d = "multi_physics"%string).
Proof.
  unfold load, bind. intros H.
  destruct (match yget "name" n with Some x => as_string x | None => None end) as [nm|]; [|discriminate].
  destruct (match yget "type" n with Some x => as_string x | None => None end) as [ty|]; [|discriminate].
  destruct (match yget "objective" n with Some o => as_string o | None => Some "multi_physics"%string end) as [ob|] eqn:EO; [|discriminate].
  destruct (match yget "realm_pair" n with Some x => two_strings x | None => None end) as [rp|]; [|discriminate].
  destruct (load_parts n) as [ps|] eqn:EP; [|discriminate].
  destruct (load_vars n) as [vs|] eqn:EV; [|discriminate]. injection H as <-. cbn [x_fromParts x_toParts x_objective].
  split; [|split].
  - unfold load_vars, bind in EV. destruct (yget "transfer_variables" n) as [v|] eqn:E1.
    + destruct (yget "coupling_physics" n); [discriminate|]. left. exists v. now split.
    + destruct (yget "coupling_physics" n) as [p|] eqn:E2; [|discriminate]. right. split; [reflexivity|].
      destruct (as_string p) as [s|] eqn:E3; [|discriminate]. exists p, s. split; [reflexivity|]. split; [assumption|].
      unfold physics_vars in EV.
      destruct (String.eqb_spec s "fluids_cht") as [->|N1]; [now left|].
      destruct (String.eqb_spec s "fluids_robin") as [->|N2]; [right; now left|].
      destruct (String.eqb_spec s "thermal_cht") as [->|N3]; [right; right; now left|].
      destruct (String.eqb_spec s "thermal_robin") as [->|N4]; [right; right; right; now left|]. discriminate.
  - unfold load_parts in EP. destruct (yget "mesh_part_pair" n) as [p|] eqn:E1.
    + left. destruct (yget "from_target_name" n); [discriminate|]. destruct (yget "to_target_name" n); [discriminate|].
      split; [discriminate|]. split; [reflexivity|]. split; [reflexivity|].
      destruct (two_strings p) as [ab|]; [|discriminate]. cbn in EP. injection EP as <-. now split.
    + right. destruct (yget "from_target_name" n); [|discriminate]. destruct (yget "to_target_name" n); [|discriminate].
      split; [reflexivity|]. split; discriminate.
  - intros E. rewrite E in EO. now injection EO as <-.
Qed.

(** ** attaching: every transfer is in exactly one list of exactly one realm, in the order of the input *)
(** the realm whose calls run the transfer *)
Definition owner (o : objective) (from to : nat) : nat :=
  match o with MultiPhysics | Initialization => from | InputOutput | ExternalData => to end.
Definition obj_eqb (a b : objective) : bool :=
  match a, b with MultiPhysics, MultiPhysics | Initialization, Initialization | InputOutput, InputOutput | ExternalData, ExternalData => true | _, _ => false end.
Definition list_of (o : objective) (l : rlists) : list nat :=
  match o with MultiPhysics => l_multi l | Initialization => l_init l | InputOutput => l_io l | ExternalData => l_ext l end.
(** transfers k, k+1, ... of the list [oft] with objective [o] run by realm [r] *)
Fixpoint attached (k : nat) (oft : list (objective * nat * nat)) (o : objective) (r : nat) : list nat :=
  match oft with
  | [] => []
  | x :: l => (if obj_eqb (fst (fst x)) o && Nat.eqb (owner (fst (fst x)) (snd (fst x)) (snd x)) r then [k] else []) ++ attached (S k) l o r
  end.
Lemma obj_eqb_spec a b : reflect (a = b) (obj_eqb a b).
Proof. destruct a, b; constructor; congruence. Qed.
Lemma augment_list x o f t L o' r : list_of o' (augment x o f t L r) =
  list_of o' (L r) ++ (if obj_eqb o o' && Nat.eqb (owner o f t) r then [x] else []).
Proof.
  unfold augment. destruct o; cbn [owner]; rewrite (Nat.eqb_sym r); destruct (Nat.eqb _ r); destruct o'; cbn; now rewrite ?app_nil_r.
Qed.
Lemma breadboard_gen names : forall ds k L L', breadboard names k ds L = Some L' ->
  exists oft, map (resolve names) ds = map Some oft /\
  forall o r, list_of o (L' r) = list_of o (L r) ++ attached k oft o r.
Proof.
  induction ds as [|d ds IH]; intros k L L' H; cbn [breadboard] in H.
  - injection H as <-. exists []. split; [reflexivity|]. intros. now rewrite app_nil_r.
  - unfold bind in H. destruct (resolve names d) as [x|] eqn:E; [|discriminate].
    destruct (IH _ _ _ H) as (oft & M & A). exists (x :: oft). split; [cbn; now rewrite E, M|].
    intros o r. rewrite A, augment_list. cbn [attached]. now rewrite app_assoc.
Qed.
Lemma attached_in o r : forall oft k x, In x (attached k oft o r) <->
  (k <= x)%nat /\ exists f t, nth_error oft (x - k) = Some (o, f, t) /\ owner o f t = r.
Proof.
  induction oft as [|[[o1 f1] t1] oft IH]; intros k x; cbn [attached fst snd].
  - split; [intros []|]. intros (_ & f & t & E & _). destruct (x - k)%nat; discriminate.
  - rewrite in_app_iff, IH. destruct (obj_eqb_spec o1 o) as [Eo|No]; destruct (Nat.eqb_spec (owner o1 f1 t1) r) as [Er|Nr]; cbn [andb].
    + split.
      * intros [[->|[]]|(L & f & t & E & O)].
        -- split; [lia|]. exists f1, t1. rewrite Nat.sub_diag. cbn. split; congruence.
        -- split; [lia|]. exists f, t. split; [|assumption]. replace (x - k)%nat with (S (x - S k)) by lia. exact E.
      * intros (L & f & t & E & O). destruct (Nat.eq_dec x k) as [->|N]; [left; now left|]. right. split; [lia|].
        exists f, t. split; [|assumption]. replace (x - k)%nat with (S (x - S k)) in E by lia. exact E.
    + split.
      * intros [[]|(L & f & t & E & O)]. split; [lia|]. exists f, t. split; [|assumption]. replace (x - k)%nat with (S (x - S k)) by lia. exact E.
      * intros (L & f & t & E & O). right. destruct (Nat.eq_dec x k) as [->|N].
        -- rewrite Nat.sub_diag in E. cbn in E. congruence.
        -- split; [lia|]. exists f, t. split; [|assumption]. replace (x - k)%nat with (S (x - S k)) in E by lia. exact E.
    + split.
      * intros [[]|(L & f & t & E & O)]. split; [lia|]. exists f, t. split; [|assumption]. replace (x - k)%nat with (S (x - S k)) by lia. exact E.
      * intros (L & f & t & E & O). right. destruct (Nat.eq_dec x k) as [->|N].
        -- rewrite Nat.sub_diag in E. cbn in E. congruence.
        -- split; [lia|]. exists f, t. split; [|assumption]. replace (x - k)%nat with (S (x - S k)) in E by lia. exact E.
    + split.
      * intros [[]|(L & f & t & E & O)]. split; [lia|]. exists f, t. split; [|assumption]. replace (x - k)%nat with (S (x - S k)) by lia. exact E.
      * intros (L & f & t & E & O). right. destruct (Nat.eq_dec x k) as [->|N].
        -- rewrite Nat.sub_diag in E. cbn in E. congruence.
        -- split; [lia|]. exists f, t. split; [|assumption]. replace (x - k)%nat with (S (x - S k)) in E by lia. exact E.
Qed.
(** strictly ascending, hence without repetition and in the order of the input *)
Lemma attached_ascending o r : forall oft k, StronglySorted lt (attached k oft o r).
Proof.
  induction oft as [|x oft IH]; intros k; cbn [attached]; [constructor|].
  destruct (_ && _); cbn [app]; [|apply IH]. constructor; [apply IH|]. apply Forall_forall. intros y Hy. apply attached_in in Hy. lia.
Qed.
Theorem C98_every_transfer_attached_once names ds L :
  breadboard names 0 ds no_lists = Some L ->
  forall x d, nth_error ds x = Some d ->
  exists o f t, objective_of (x_objective d) = Some o /\ find_realm names (fst (x_realms d)) = Some f /\ find_realm names (snd (x_realms d)) = Some t /\
    forall o' r, In x (list_of o' (L r)) <-> o' = o /\ r = owner o f t.
Proof.
  intros H x d Hx. destruct (breadboard_gen names ds 0 no_lists L H) as (oft & M & A).
  assert (N : nth_error (map (resolve names) ds) x = Some (resolve names d)) by (now apply map_nth_error).
  rewrite M in N. destruct (nth_error oft x) as [[[o f] t]|] eqn:E.
  2:{ apply nth_error_None in E. assert (L2 : nth_error (map Some oft) x = None) by (apply nth_error_None; now rewrite map_length). congruence. }
  rewrite (map_nth_error Some x oft E) in N. injection N as R. unfold resolve, bind in R.
  destruct (find_realm names (fst (x_realms d))) as [f'|]; [|discriminate].
  destruct (find_realm names (snd (x_realms d))) as [t'|]; [|discriminate].
  destruct (objective_of (x_objective d)) as [o'|]; [|discriminate]. injection R as -> -> ->.
  exists o', f', t'. split; [reflexivity|]. split; [reflexivity|]. split; [reflexivity|].
  intros o r. rewrite A. replace (list_of o (no_lists r)) with (@nil nat) by (destruct o; reflexivity). cbn [app].
  rewrite attached_in, Nat.sub_0_r, E. split.
  - intros (_ & a & b & Q & O). injection Q as -> -> ->. now subst.
  - intros [-> ->]. split; [lia|]. exists f', t'. now split.
Qed.
(** an unknown realm or objective stops the set-up *)
Theorem C98_unknown_names_refused names ds x d : nth_error ds x = Some d ->
  (~ In (fst (x_realms d)) names \/ ~ In (snd (x_realms d)) names \/
   ~ In (x_objective d) ["multi_physics"; "initialization"; "input_output"; "external_data"]%string) ->
  breadboard names 0 ds no_lists = None.
Proof.
  intros Hx Hbad. destruct (breadboard names 0 ds no_lists) as [L|] eqn:H; [|reflexivity]. exfalso.
  destruct (C98_every_transfer_attached_once names ds L H x d Hx) as (o & f & t & Ho & Hf & Ht & _).
  assert (FR : forall s k, find_realm names s = Some k -> In s names).
  { intros s. unfold find_realm. induction names as [|a l IH]; intros k E; cbn in E; [discriminate|].
    destruct (String.eqb_spec a s) as [->|N]; [now left|]. destruct (index_of _ l) as [j|] eqn:Ej; [|discriminate]. right.
    clear - Ej. revert j Ej. induction l as [|a l IH]; intros j E; cbn in E; [discriminate|].
    destruct (String.eqb_spec a s) as [->|N]; [now left|]. destruct (index_of _ l) as [i|] eqn:Ei; [|discriminate]. right. now apply (IH i). }
  destruct Hbad as [B|[B|B]]; apply B.
  - now apply (FR _ f).
  - now apply (FR _ t).
  - unfold objective_of in Ho.
    destruct (String.eqb_spec (x_objective d) "multi_physics") as [->|N1]; [now left|].
    destruct (String.eqb_spec (x_objective d) "initialization") as [->|N2]; [right; now left|].
    destruct (String.eqb_spec (x_objective d) "input_output") as [->|N3]; [right; right; now left|].
    destruct (String.eqb_spec (x_objective d) "external_data") as [->|N4]; [right; right; right; now left|]. discriminate.
Qed.

(** ** the schedule *)
Section Run.
Variables (L : nat -> rlists) (cf : nat -> rcfg) (rs : list nat) (inT : nat -> option R) (rst : nat -> option restart_db)
          (prop : nat -> TI -> list action -> R).
Notation E := (coupled L cf rs inT rst prop).
Notation st := (state E).
Notation wld := (fun s : st => world s : list action).
Let d := did L cf.

Lemma w_call p r (s : st) : wld (call E p s r) = wld s ++ d p r (count (ti s)).
Proof. reflexivity. Qed.
Lemma w_each p : forall l (s : st), wld (fold_left (call E p) l s) = wld s ++ flat_map (fun r => d p r (count (ti s))) l.
Proof.
  induction l as [|r l IH]; intros s; cbn [fold_left flat_map]; [now rewrite app_nil_r|].
  cbv beta in *. rewrite IH. rewrite app_assoc. f_equal.
Qed.
Lemma w_silent p l (s : st) : (forall r c, d p r c = []) -> wld (fold_left (call E p) l s) = wld s.
Proof.
  intros H. rewrite w_each. replace (flat_map _ l) with (@nil action); [apply app_nil_r|].
  induction l as [|r l IH]; [reflexivity|]. cbn [flat_map]. now rewrite H.
Qed.
Lemma w_swap : forall l (s : st), wld (fold_left (swap_predict1 E) l s) = wld s.
Proof. induction l as [|r l IH]; intros s; [reflexivity|]. cbn [fold_left]. etransitivity; [apply IH|]. cbn. now rewrite !app_nil_r. Qed.
(** one nonlinear iteration *)
Definition sweep (c : Z) : list action := flat_map (fun r => d Advance r c ++ d (MultiXfer false) r c) rs.
Lemma w_adv : forall l (s : st), wld (fold_left (advance1 E) l s) = wld s ++ flat_map (fun r => d Advance r (count (ti s)) ++ d (MultiXfer false) r (count (ti s))) l.
Proof.
  induction l as [|r l IH]; intros s; cbn [fold_left flat_map]; [now rewrite app_nil_r|].
  cbv beta in *. rewrite IH. rewrite app_assoc. f_equal. unfold advance1. rewrite app_assoc. reflexivity.
Qed.
Lemma w_picard n : forall s : st, wld (picard E n s) = wld s ++ List.concat (repeat (sweep (count (ti s))) n).
Proof.
  induction n as [|n IH]; intros s; cbn [picard repeat List.concat]; [now rewrite app_nil_r|].
  cbv beta in *. rewrite IH, w_adv, adv_ti. now rewrite <- app_assoc.
Qed.
Lemma w_neg l : forall a (s : st), wld (snd (fold_left (negotiate1 E) l (a, s))) = wld s.
Proof. induction l as [|r l IH]; intros a s; [reflexivity|]. cbn [fold_left]. unfold negotiate1 at 2. rewrite IH. cbn. apply app_nil_r. Qed.
Lemma w_negotiate (s : st) : wld (negotiate E s) = wld s.
Proof.
  unfold negotiate. destruct (adaptive (ti s)); [|reflexivity].
  pose proof (w_neg (realms E) 100000000%R s) as H. destruct (fold_left _ _ _) as [x s1]. exact H.
Qed.
(** what is recorded in a time step with count c *)
Definition step_actions (nl : nat) (c : Z) : list action :=
  flat_map (fun r => ran (l_ext (L r)) c) rs
  ++ List.concat (repeat (sweep c) nl)
  ++ flat_map (fun r => d IoXfer r c) rs ++ flat_map (fun r => d Output r c) rs.
Lemma w_step (s : st) : wld (time_step E s) = wld s ++ step_actions (nlIters (ti s)) (count (ti s) + 1).
Proof.
  unfold time_step. cbv zeta. cbn [world with_ti]. unfold for_each. cbn [realms coupled].
  set (s1 := with_ti _ _ _). assert (W1 : wld s1 = wld s) by (apply w_negotiate).
  assert (T1 : count (ti s1) = (count (ti s) + 1)%Z /\ nlIters (ti s1) = nlIters (ti s)).
  { unfold s1. cbn [ti with_ti]. rewrite negotiate_ti. split; [exact (clock_count E s)|exact (clock_nl E s)]. }
  clearbody s1. destruct T1 as [TC TN].
  set (s2 := fold_left (call E Banner) _ _).
  assert (T2 : ti s2 = ti s1) by (unfold s2; now rewrite !fold_call_ti, sp_ti).
  assert (W2 : wld s2 = wld s1) by (unfold s2; rewrite !w_silent by reflexivity; etransitivity; [apply w_swap|reflexivity]).
  clearbody s2.
  rewrite w_each, w_each. rewrite (w_silent PostConverged) by reflexivity. rewrite !fold_call_ti, !picard_ti, !fold_call_ti.
  cbv beta. rewrite w_picard, w_each, !fold_call_ti, T2, TC, TN. rewrite W2, W1. unfold step_actions. now rewrite <- !app_assoc.
Qed.
(** what is recorded by the start-up, c being the count found by the restart *)
Definition startup_actions (c : Z) : list action :=
  flat_map (fun r => ran (l_init (L r)) c) rs ++ flat_map (fun r => d IoXfer r c) rs ++ flat_map (fun r => ran (l_ext (L r)) c) rs
  ++ flat_map (fun r => match rst r with Some _ => ran (l_multi (L r)) c | None => [] end) rs ++ flat_map (fun r => d Output r c) rs.
Lemma w_restart : forall l (s : st), wld (fold_left (pop_restart1 E) l s) = wld s.
Proof.
  induction l as [|r l IH]; intros s; [reflexivity|]. cbn [fold_left]. etransitivity; [apply IH|]. unfold pop_restart1.
  destruct (restart_of E r); cbn; apply app_nil_r.
Qed.
Lemma w_input : forall l (s : st), wld (fold_left (pop_input1 E) l s) = wld s.
Proof. induction l as [|r l IH]; intros s; [reflexivity|]. cbn [fold_left]. etransitivity; [apply IH|]. cbn. apply app_nil_r. Qed.
Lemma w_initmulti : forall l (s : st), wld (fold_left (init_multi1 E) l s) = wld s ++
   flat_map (fun r => match rst r with Some _ => ran (l_multi (L r)) (count (ti s)) | None => [] end) l.
Proof.
  induction l as [|r l IH]; intros s; cbn [fold_left flat_map]; [now rewrite app_nil_r|].
  cbv beta in *. rewrite IH. rewrite app_assoc. unfold init_multi1. cbn [restart_of coupled]. destruct (rst r).
  - cbn [world call act coupled did ti]. rewrite orb_true_r. reflexivity.
  - now rewrite app_nil_r.
Qed.
Lemma w_startup (s0 : st) : wld (startup E s0) = wld s0 ++ startup_actions (count (ti (startup E s0))).
Proof.
  assert (C : count (ti (startup E s0)) = count (ti (after_restart E s0))) by (now rewrite startup_ti).
  rewrite C. unfold startup. cbv zeta. unfold for_each. cbn [realms coupled].
  change (fold_left (pop_restart1 E) rs (fold_left (pop_input1 E) rs (fold_left (call E BdryToState) rs (fold_left (call E PopBdry) rs (fold_left (call E PopIC) rs s0)))))
    with (after_restart E s0).
  assert (W0 : wld (after_restart E s0) = wld s0).
  { unfold after_restart, for_each. cbn [realms coupled]. rewrite w_restart, w_input. rewrite !w_silent by reflexivity. reflexivity. }
  set (a := after_restart E s0) in *. clearbody a.
  set (b := with_ti E _ _). assert (B : wld b = wld (fold_left (call E ExtXfer) rs (fold_left (call E PopExternal) rs
        (fold_left (call E IoXfer) rs (fold_left (call E InitXfer) rs a))))) by reflexivity.
  assert (TB : count (ti b) = count (ti a)) by (unfold b; cbn [ti with_ti set_dtN count]; now rewrite !fold_call_ti).
  clearbody b. rewrite w_each. rewrite (proj1 (init_multi_ti _ _ _)). rewrite !fold_call_ti. cbv beta.
  rewrite w_initmulti. rewrite !fold_call_ti. rewrite !w_silent by reflexivity. rewrite B.
  rewrite w_each. rewrite !fold_call_ti. cbv beta. rewrite (w_silent PopExternal) by reflexivity. rewrite !w_each. rewrite !fold_call_ti. rewrite W0, TB.
  unfold startup_actions. now rewrite <- !app_assoc.
Qed.
Lemma w_steps n : forall s : st, wld (steps E n s) = wld s ++ flat_map (step_actions (nlIters (ti s))) (counts_from (count (ti s)) n).
Proof.
  induction n as [|n IH]; intros s; cbn [steps].
  - unfold counts_from. cbn. now rewrite app_nil_r.
  - cbv beta in *. rewrite IH. rewrite w_step. rewrite time_step_count.
    pose proof (f_equal c_nl (time_step_cfg E s)) as N. cbn [c_nl cfg] in N. rewrite N.
    rewrite <- app_assoc. f_equal. unfold counts_from. cbn [seq map flat_map]. f_equal.
    + f_equal. lia.
    + rewrite <- seq_shift, map_map. f_equal. apply map_ext. intros. lia.
Qed.
(** the whole run, in order; c0 is the count found in the restart databases, else the one of the input *)
Theorem C98_run_schedule fuel i s : integrate_realm E fuel i [] = Some s ->
  let c0 := last_restart_count E rs (dflt (in_count i) 0%Z) in
  wld s = startup_actions c0 ++ flat_map (step_actions (dflt (in_nl i) 1%nat)) (counts_from c0 (List.length (log s)))
  /\ map l_count (log s) = counts_from c0 (List.length (log s)).
Proof.
  intros H c0. unfold integrate_realm in H. destruct (time_loop _ _ _) as [s1|] eqn:T; [|discriminate]. injection H as <-.
  destruct (time_loop_steps E fuel _ _ T) as (n & _ & -> & _).
  pose proof (startup_count E i []) as C0. change (realms E) with rs in C0. fold c0 in C0.
  set (s0 := mkSt _ _ _ _) in *.
  assert (LN : log (for_each E DumpTime (steps E n (startup E s0))) = lines E n (startup E s0)).
  { rewrite fe_log, steps_log, startup_log. reflexivity. }
  assert (NN : List.length (log (for_each E DumpTime (steps E n (startup E s0)))) = n) by (rewrite LN; apply lines_length).
  pose proof (startup_cfg E s0) as [CF _]. pose proof (f_equal c_nl CF) as N. cbn [c_nl cfg] in N. rewrite NN. split.
  - unfold for_each. rewrite w_silent by reflexivity. rewrite w_steps, w_startup, N, C0. reflexivity.
  - rewrite LN, lines_counts, C0. reflexivity.
Qed.
End Run.

(** ** the text of a transfer block and what it means *)
(** A realm pair has exactly two names; anything else stops the run.  The names are used as written. *)
Theorem C98_realm_pair_is_two_names n d : load n = Some d ->
  exists a b sa sb, yget "realm_pair" n = Some (YSeq [a; b]) /\ as_string a = Some sa /\ as_string b = Some sb /\ x_realms d = (sa, sb).
Proof.
  unfold load, bind. intros H.
  destruct (match yget "name" n with Some x => as_string x | None => None end) as [nm|]; [|discriminate].
  destruct (match yget "type" n with Some x => as_string x | None => None end) as [ty|]; [|discriminate].
  destruct (match yget "objective" n with Some o => as_string o | None => Some "multi_physics"%string end) as [ob|]; [|discriminate].
  destruct (yget "realm_pair" n) as [y|]; [|discriminate]. destruct (two_strings y) as [rp|] eqn:E; [|discriminate].
  destruct (load_parts n) as [ps|]; [|discriminate]. destruct (load_vars n) as [vs|]; [|discriminate]. injection H as <-. cbn [x_realms].
  unfold two_strings in E. destruct (Nat.eqb_spec (ysize y) 2) as [N|]; [|discriminate]. unfold bind, yat in E. destruct y as [| |l|l]; try discriminate.
  destruct l as [|a [|b [|? ?]]]; try discriminate. cbn in E. destruct (as_string a) as [sa|] eqn:A; [|discriminate]. destruct (as_string b) as [sb|] eqn:B; [|discriminate].
  injection E as <-. exists a, b, sa, sb. auto.
Qed.
(** The same for a mesh part pair and for each pair of transferred variables, in the order of the input. *)
Theorem C98_part_pair_is_two_names n d : load n = Some d -> yget "mesh_part_pair" n <> None ->
  exists a b sa sb, yget "mesh_part_pair" n = Some (YSeq [a; b]) /\ as_string a = Some sa /\ as_string b = Some sb /\ x_fromParts d = [sa] /\ x_toParts d = [sb].
Proof.
  unfold load, bind. intros H NE.
  destruct (match yget "name" n with Some x => as_string x | None => None end) as [nm|]; [|discriminate].
  destruct (match yget "type" n with Some x => as_string x | None => None end) as [ty|]; [|discriminate].
  destruct (match yget "objective" n with Some o => as_string o | None => Some "multi_physics"%string end) as [ob|]; [|discriminate].
  destruct (match yget "realm_pair" n with Some x => two_strings x | None => None end) as [rp|]; [|discriminate].
  destruct (load_parts n) as [ps|] eqn:EP; [|discriminate]. destruct (load_vars n) as [vs|]; [|discriminate]. injection H as <-. cbn [x_fromParts x_toParts].
  unfold load_parts in EP. destruct (yget "mesh_part_pair" n) as [y|]; [|congruence]. destruct (yget "from_target_name" n); [discriminate|]. destruct (yget "to_target_name" n); [discriminate|].
  destruct (two_strings y) as [rp'|] eqn:E; [|discriminate]. cbn in EP. injection EP as <-. cbn [fst snd].
  unfold two_strings in E. destruct (Nat.eqb_spec (ysize y) 2) as [N|]; [|discriminate]. unfold bind, yat in E. destruct y as [| |l|l]; try discriminate.
  destruct l as [|a [|b [|? ?]]]; try discriminate. cbn in E. destruct (as_string a) as [sa|] eqn:A; [|discriminate]. destruct (as_string b) as [sb|] eqn:B; [|discriminate].
  injection E as <-. exists a, b, sa, sb. auto.
Qed.
Lemma all_some_map A B (f : A -> option B) : forall l r, all_some (map f l) = Some r -> Forall2 (fun a b => f a = Some b) l r.
Proof.
  induction l as [|a l IH]; intros r H; cbn in H; [injection H as <-; constructor|].
  destruct (f a) as [b|] eqn:E; [|discriminate]. destruct (all_some (map f l)) as [r'|] eqn:R; [|discriminate]. cbn in H. injection H as <-. constructor; [assumption|now apply IH].
Qed.
Theorem C98_variable_pairs_as_written n d l : load n = Some d -> yget "transfer_variables" n = Some (YSeq l) ->
  Forall2 (fun y ft => exists a b, y = YSeq [a; b] /\ as_string a = Some (fst ft) /\ as_string b = Some (snd ft)) l (x_vars d).
Proof.
  unfold load, bind. intros H V.
  destruct (match yget "name" n with Some x => as_string x | None => None end) as [nm|]; [|discriminate].
  destruct (match yget "type" n with Some x => as_string x | None => None end) as [ty|]; [|discriminate].
  destruct (match yget "objective" n with Some o => as_string o | None => Some "multi_physics"%string end) as [ob|]; [|discriminate].
  destruct (match yget "realm_pair" n with Some x => two_strings x | None => None end) as [rp|]; [|discriminate].
  destruct (load_parts n) as [ps|]; [|discriminate]. destruct (load_vars n) as [vs|] eqn:EV; [|discriminate]. injection H as <-. cbn [x_vars].
  unfold load_vars in EV. rewrite V in EV. destruct (yget "coupling_physics" n); [discriminate|]. apply all_some_map in EV. clear V.
  induction EV as [|y ft l vs E _ IH]; constructor; [|apply IH]. clear IH.
  unfold two_strings in E. destruct (Nat.eqb_spec (ysize y) 2) as [N|]; [|discriminate]. unfold bind, yat in E. destruct y as [| |q|q]; try discriminate.
  destruct q as [|a [|b [|? ?]]]; try discriminate. cbn in E. destruct (as_string a) as [sa|] eqn:A; [|discriminate]. destruct (as_string b) as [sb|] eqn:B; [|discriminate].
  injection E as <-. exists a, b. auto.
Qed.
(** The four couplings by name: a fluid sends the coefficient and its reference temperature (or the flux, its temperature
    as reference, and the coupling parameter); the solid sends its temperature both as nodal and as boundary value. *)
Theorem C98_coupling_physics_variables n d y p : load n = Some d -> yget "transfer_variables" n = None -> yget "coupling_physics" n = Some y -> as_string y = Some p ->
  In (p, x_vars d)
   [("fluids_cht", [("heat_transfer_coefficient", "heat_transfer_coefficient"); ("reference_temperature", "reference_temperature")]);
    ("fluids_robin", [("normal_heat_flux", "normal_heat_flux"); ("temperature", "reference_temperature"); ("robin_coupling_parameter", "robin_coupling_parameter")]);
    ("thermal_cht", [("temperature", "temperature"); ("temperature", "temperature_bc")]);
    ("thermal_robin", [("temperature", "temperature"); ("temperature", "temperature_bc")])]%string.
Proof.
  unfold load, bind. intros H V P Y.
  destruct (match yget "name" n with Some x => as_string x | None => None end) as [nm|]; [|discriminate].
  destruct (match yget "type" n with Some x => as_string x | None => None end) as [ty|]; [|discriminate].
  destruct (match yget "objective" n with Some o => as_string o | None => Some "multi_physics"%string end) as [ob|]; [|discriminate].
  destruct (match yget "realm_pair" n with Some x => two_strings x | None => None end) as [rp|]; [|discriminate].
  destruct (load_parts n) as [ps|]; [|discriminate]. destruct (load_vars n) as [vs|] eqn:EV; [|discriminate]. injection H as <-. cbn [x_vars].
  unfold load_vars in EV. rewrite V, P in EV. unfold bind in EV. rewrite Y in EV. unfold physics_vars in EV.
  destruct (String.eqb_spec p "fluids_cht") as [->|_]; [injection EV as <-; now left|].
  destruct (String.eqb_spec p "fluids_robin") as [->|_]; [injection EV as <-; right; now left|].
  destruct (String.eqb_spec p "thermal_cht") as [->|_]; [injection EV as <-; right; right; now left|].
  destruct (String.eqb_spec p "thermal_robin") as [->|_]; [injection EV as <-; right; right; right; now left|]. discriminate.
Qed.
