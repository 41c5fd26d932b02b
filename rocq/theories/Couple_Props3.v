(** C98, third part: order of the transfers relative to solving and writing; a realm that is not advanced; restarts. *)
From Coq Require Import Reals ZArith List Bool String Lia Lra Sorted.
From Verif Require Import Opt_Model Time_Model Time_Spec Time_Spec2 Time_Proofs Time_Proofs2 Time_Proofs3 Time_Proofs4 Time_Props Couple_Model Couple_Props Couple_Props2.
Import ListNotations.
Open Scope list_scope.

(** ** what a multi-physics transfer carries: the solution its realm computed last, in the same iteration *)
(** the last realm solved in a record, with its count *)
Fixpoint last_solved (prev : option (nat * Z)) (w : list action) : option (nat * Z) :=
  match w with [] => prev | Solved r c :: w' => last_solved (Some (r, c)) w' | _ :: w' => last_solved prev w' end.
Lemma ls_app : forall a b p, last_solved p (a ++ b) = last_solved (last_solved p a) b.
Proof. induction a as [|[y c|r c|r c] a IH]; intros b p; cbn; auto. Qed.
Section Order.
Variables (L : nat -> rlists) (cf : nat -> rcfg) (rs : list nat)
          (inT : nat -> option R) (rst : nat -> option restart_db) (prop : nat -> TI -> list action -> R).
Notation E := (coupled L cf rs inT rst prop).
Variable x f : nat.
Hypothesis only : forall r, In x (l_multi (L r)) <-> r = f.
Hypothesis notio : forall r, ~ In x (l_io (L r)) /\ ~ In x (l_ext (L r)) /\ ~ In x (l_init (L r)).

(** in [w], entered after solving [p], every execution of x follows a solve of f at the same count with no other solve between *)
Fixpoint good (p : option (nat * Z)) (w : list action) : Prop :=
  match w with
  | [] => True
  | Solved r c :: w' => good (Some (r, c)) w'
  | Ran y c :: w' => (y = x -> p = Some (f, c)) /\ good p w'
  | Wrote _ _ :: w' => good p w' end.
Lemma good_app : forall a b p, good p (a ++ b) <-> good p a /\ good (last_solved p a) b.
Proof. induction a as [|[y c|r c|r c] a IH]; intros b p; cbn; [tauto| | |]; rewrite IH; tauto. Qed.
Lemma ls_ran l c p : last_solved p (ran l c) = p.
Proof. induction l as [|y l IH]; cbn; auto. Qed.
Lemma good_ran l c p : (In x l -> p = Some (f, c)) -> good p (ran l c).
Proof.
  induction l as [|y l IH]; intros H; cbn; [exact I|]. split; [intros ->; apply H; now left|]. apply IH. intros J. apply H. now right.
Qed.
Lemma good_none l c p : ~ In x l -> good p (ran l c).
Proof. intros H. apply good_ran. intros J. contradiction. Qed.
Lemma good_flat (g : nat -> list action) : (forall r p, good p (g r)) -> forall l p, good p (flat_map g l).
Proof. intros H. induction l as [|r l IH]; intros p; cbn; [exact I|]. apply good_app. split; [apply H|apply IH]. Qed.
Lemma good_flat' {A} (g : A -> list action) : (forall r p, good p (g r)) -> forall l p, good p (flat_map g l).
Proof. intros H. induction l as [|r l IH]; intros p; cbn; [exact I|]. apply good_app. split; [apply H|apply IH]. Qed.
Lemma good_sweep c p : good p (sweep L cf rs c).
Proof.
  unfold sweep. revert p. apply good_flat. intros r p. cbn [did]. rewrite orb_false_r. destruct (active (cf r) c); [|exact I].
  cbn [app good]. apply good_ran. intros J. apply only in J. now rewrite J.
Qed.
Lemma good_repeat c n : forall p, good p (List.concat (repeat (sweep L cf rs c) n)).
Proof. induction n as [|n IH]; intros p; cbn [repeat List.concat]; [exact I|]. apply good_app. split; [apply good_sweep|apply IH]. Qed.
Lemma good_step nl c p : good p (step_actions L cf rs nl c).
Proof.
  unfold step_actions. rewrite !good_app. repeat split.
  - apply good_flat. intros r q. apply good_none. apply notio.
  - apply good_repeat.
  - apply good_flat. intros r q. cbn [did]. destruct (_ =? 0)%Z; [|exact I]. apply good_none. apply notio.
  - apply good_flat. intros r q. cbn [did]. match goal with |- context[if ?b then _ else _] => destruct b end; exact I.
Qed.
Lemma good_spec : forall w p pre c post, good p w -> w = pre ++ Ran x c :: post -> last_solved p pre = Some (f, c).
Proof.
  induction w as [|a w IH]; intros p pre c post G Q; [destruct pre; discriminate|].
  destruct pre as [|b pre]; cbn [app] in Q; injection Q as -> Q.
  - cbn in G. cbn. now apply G.
  - destruct b as [y c'|r c'|r c']; cbn in G |- *; eapply IH; eauto; tauto.
Qed.
(** no realm restarted: every execution of a multi_physics transfer comes after the solve of its from realm in the same step,
    with no other realm solved in between; so it carries the solution just computed, and the realms that follow in the
    iteration see it *)
Theorem C98_carries_the_solution_just_computed fuel i s : integrate_realm E fuel i [] = Some s ->
  (forall r, In r rs -> rst r = None) ->
  forall pre c post, world s = pre ++ Ran x c :: post -> last_solved None pre = Some (f, c).
Proof.
  intros H NR pre c post Q. destruct (C98_run_schedule L cf rs inT rst prop fuel i s H) as [W _]. cbv beta in W.
  apply (good_spec (world s) None pre c post); [|exact Q]. rewrite W. apply good_app. split.
  - unfold startup_actions. rewrite !good_app. repeat split.
    + apply good_flat. intros r q. apply good_none. apply notio.
    + apply good_flat. intros r q. cbn [did]. destruct (_ =? 0)%Z; [|exact I]. apply good_none. apply notio.
    + apply good_flat. intros r q. apply good_none. apply notio.
    + assert (Z0 : flat_map (fun r => match rst r with Some _ => ran (l_multi (L r)) (last_restart_count E rs (dflt (in_count i) 0%Z)) | None => [] end) rs = []).
      { clear - NR. set (c0 := last_restart_count _ _ _). clearbody c0. revert NR. induction rs as [|r l IH]; intros NR; [reflexivity|].
        cbn [flat_map]. rewrite (NR r) by now left. cbn [app]. apply IH. intros r' Hr. apply NR. now right. }
      rewrite Z0. exact I.
    + apply good_flat. intros r q. cbn [did]. match goal with |- context[if ?b then _ else _] => destruct b end; exact I.
  - apply good_flat'. intros c' p. apply good_step.
Qed.
End Order.

(** ** input_output transfers bring the data of the step that is written *)
Section Fresh.
Variables (L : nat -> rlists) (cf : nat -> rcfg) (rs : list nat)
          (inT : nat -> option R) (rst : nat -> option restart_db) (prop : nat -> TI -> list action -> R).
Notation E := (coupled L cf rs inT rst prop).
Lemma wrote_when r c : (exists c', In (Wrote r c) (did L cf Output r c')) ->
  rc_hasOut (cf r) = true /\ rc_outFreq (cf r) <> 0%Z /\ (rc_outFreq (cf r) | c - rc_outStart (cf r))%Z.
Proof.
  intros [c' J]. cbn [did] in J. unfold provide_output in J.
  destruct (rc_hasOut (cf r)); cbn [negb] in J; [|destruct J].
  destruct (Z.eqb_spec (rc_outFreq (cf r)) 0) as [Q|NZ]; [destruct J|]. cbn [andb orb fst] in J.
  destruct (_ && _) eqn:B in J; cbn [orb] in J; [|destruct J]. destruct J as [J|[]]. injection J as ->.
  apply andb_prop in B. destruct B as [_ B]. apply Z.eqb_eq in B. split; [reflexivity|]. split; [assumption|].
  now apply Z.rem_divide.
Qed.
Lemma not_wrote_ran r c l c' : ~ In (Wrote r c) (ran l c').
Proof. induction l as [|y l IH]; cbn; [tauto|]. intros [Q|Q]; [discriminate|auto]. Qed.
Lemma in_flat_realm (g : nat -> list action) a : In a (flat_map g rs) -> exists r, In r rs /\ In a (g r).
Proof. intros H. apply in_flat_map in H. exact H. Qed.
Lemma wrote_realm r r' c c' : In (Wrote r c) (did L cf Output r' c') -> r = r' /\ c = c'.
Proof. cbn [did]. match goal with |- context[if ?b then _ else _] => destruct b end; intros J; [|destruct J]. destruct J as [J|[]]. now injection J. Qed.
Lemma fresh_at x r c : In x (l_io (L r)) -> In r rs -> (rc_outFreq (cf r) | rc_outStart (cf r))%Z ->
  In (Wrote r c) (flat_map (fun r => did L cf Output r c) rs) -> In (Ran x c) (flat_map (fun r => did L cf IoXfer r c) rs).
Proof.
  intros Hx Hr D J. apply in_flat_realm in J. destruct J as (r' & _ & J). destruct (wrote_realm _ _ _ _ J) as [<- _].
  destruct (wrote_when r c (ex_intro _ c J)) as (_ & NZ & Dv).
  apply in_flat_map. exists r. split; [assumption|]. cbn [did].
  assert (DD : (rc_outFreq (cf r) | c)%Z) by (replace c with ((c - rc_outStart (cf r)) + rc_outStart (cf r))%Z by lia; now apply Z.divide_add_r).
  apply (Z.rem_divide c _ NZ) in DD. rewrite DD. cbn. apply in_map_iff. exists x. now split.
Qed.
(** when the first output is at a multiple of the output frequency, whatever an input_output realm writes was transferred in
    the same step *)
Theorem C98_output_written_with_fresh_data fuel i s x r c : integrate_realm E fuel i [] = Some s ->
  In x (l_io (L r)) -> In r rs -> (rc_outFreq (cf r) | rc_outStart (cf r))%Z ->
  In (Wrote r c) (world s) -> In (Ran x c) (world s).
Proof.
  intros H Hx Hr D J. destruct (C98_run_schedule L cf rs inT rst prop fuel i s H) as [W _]. cbv beta in W.
  set (c0 := last_restart_count _ _ _) in W. rewrite W in J |- *. apply in_app_or in J. apply in_or_app.
  assert (NW : forall (g : nat -> list action), (forall r', ~ In (Wrote r c) (g r')) -> ~ In (Wrote r c) (flat_map g rs)).
  { intros g Hg Q. apply in_flat_realm in Q. destruct Q as (r' & _ & Q). now apply (Hg r'). }
  destruct J as [J|J].
  - left. unfold startup_actions in *. rewrite !in_app_iff in J.
    destruct J as [J|[J|[J|[J|J]]]].
    + exfalso. revert J. apply NW. intros r'. apply not_wrote_ran.
    + exfalso. revert J. apply NW. intros r'. cbn [did]. destruct (_ =? 0)%Z; [apply not_wrote_ran|tauto].
    + exfalso. revert J. apply NW. intros r'. apply not_wrote_ran.
    + exfalso. revert J. apply NW. intros r'. destruct (rst r'); [apply not_wrote_ran|tauto].
    + assert (C : c = c0). { apply in_flat_realm in J. destruct J as (r' & _ & J). now apply wrote_realm in J. }
      subst c. rewrite !in_app_iff. right. left. now apply (fresh_at x r c0).
  - right. apply in_flat_map in J. destruct J as (c1 & Hc1 & J). apply in_flat_map.
    unfold step_actions in J. rewrite !in_app_iff in J. destruct J as [J|[J|[J|J]]].
    + exfalso. revert J. apply NW. intros r'. apply not_wrote_ran.
    + exfalso. apply in_concat in J. destruct J as (l & Hl & J). apply repeat_spec in Hl. subst l. revert J. unfold sweep. apply NW.
      intros r'. cbn [did]. rewrite orb_false_r. destruct (active _ _); [|tauto]. cbn [app]. intros [Q|Q]; [discriminate|]. now apply not_wrote_ran in Q.
    + exfalso. revert J. apply NW. intros r'. cbn [did]. destruct (_ =? 0)%Z; [apply not_wrote_ran|tauto].
    + assert (C : c = c1). { apply in_flat_realm in J. destruct J as (r' & _ & J). now apply wrote_realm in J. }
      subst c1. exists c. split; [assumption|]. unfold step_actions. rewrite !in_app_iff. right. right. left. now apply (fresh_at x r c).
Qed.
End Fresh.

(** ** an input deck: a fluid and a solid realm exchanging heat, and an output realm *)
Definition S' := YScalar.
Definition xf (nm ob f t : string) (vars : yaml) : yaml :=
  YMap [("name", S' nm); ("type", S' "geometric"); ("realm_pair", YSeq [S' f; S' t]);
        ("from_target_name", S' "block_1"); ("to_target_name", YSeq [S' "surface_1"; S' "surface_2"]);
        ("objective", S' ob); ("transfer_variables", vars)]%string.
Definition temp_vars : yaml := YSeq [YSeq [S' "temperature"; S' "temperature"]]%string.
Definition deck : yaml := YMap [("transfers", YSeq
  [xf "start" "initialization" "fluid" "solid" temp_vars; xf "solid_to_fluid" "multi_physics" "solid" "fluid" temp_vars;
   xf "fluid_to_solid" "multi_physics" "fluid" "solid" temp_vars; xf "out" "input_output" "fluid" "output" temp_vars])]%string.
Definition realms3 : list string := ["fluid"; "solid"; "output"]%string.
Definition ex_cfg (freq start : Z) (r : nat) : rcfg := mkRC (match r with 1%nat => 2 | _ => 1 end) (Nat.eqb r 2) freq start.
Definition ex_in : input := mkInput (Some 9%R) (Some 3%Z) (Some 1%R) None None None (Some 2%nat) false.
Definition no_restart : nat -> option restart_db := fun _ => None.
Definition exE (L : nat -> rlists) freq start rs rst := coupled L (ex_cfg freq start) rs (fun _ => None) rst (fun _ _ _ => 1%R).

Example C98_example_loads : exists ds L, load_all deck = Some ds /\ List.length ds = 4%nat /\ breadboard realms3 0 ds no_lists = Some L /\
  l_init (L 0%nat) = [0%nat] /\ l_multi (L 1%nat) = [1%nat] /\ l_multi (L 0%nat) = [2%nat] /\ l_io (L 2%nat) = [3%nat] /\
  (forall d, In d ds -> x_toParts d = ["surface_1"; "surface_2"]%string).
Proof.
  eexists. eexists. split; [reflexivity|]. split; [reflexivity|]. split; [reflexivity|].
  repeat (split; [reflexivity|]). cbn. intros d H. repeat (destruct H as [<-|H]; [reflexivity|]). contradiction.
Qed.
(** a terminated run of that deck: the solid is solved every second step only *)
Example C98_example_runs : exists ds L s, load_all deck = Some ds /\ breadboard realms3 0 ds no_lists = Some L /\
  integrate_realm (exE L 1 0 [0; 1; 2]%nat no_restart) 3 ex_in [] = Some s /\ List.length (log s) = 3%nat /\
  times 0 (world s) = 1%nat /\ times 2 (world s) = 6%nat /\ times 1 (world s) = 2%nat /\ times 3 (world s) = 4%nat.
Proof.
  destruct C98_example_loads as (ds & L & Hd & LN & HB & _). exists ds, L.
  unfold exE.
  destruct (C02_step_count_termination (coupled L (ex_cfg 1 0) [0; 1; 2]%nat (fun _ => None) no_restart (fun _ _ _ => 1%R)) 3 ex_in [] 3%Z eq_refl) as (s & t0 & A & B & _). { vm_compute. lia. }
  exists s. split; [exact Hd|]. split; [exact HB|]. split; [exact A|].
  assert (N : List.length (log s) = 3%nat) by (rewrite <- (map_length l_count), B; reflexivity). split; [exact N|].
  assert (ND : NoDup [0; 1; 2]%nat) by (repeat constructor; cbn; intuition lia).
  cbn in Hd. injection Hd as <-.
  pose proof (fun x d o f t P1 P2 P3 P4 => C98_execution_counts realms3 _ L (ex_cfg 1 0) [0;1;2]%nat (fun _ => None) no_restart (fun _ _ _ => 1%R) HB ND x d o f t 3%nat ex_in s P1 P2 P3 P4 A) as C.
  split; [|split; [|split]].
  - destruct (C 0%nat _ Initialization 0%nat 1%nat eq_refl eq_refl eq_refl eq_refl) as [_ T]. exact T.
  - destruct (C 2%nat _ MultiPhysics 0%nat 1%nat eq_refl eq_refl eq_refl eq_refl) as [_ T]. rewrite T, N. reflexivity.
  - destruct (C 1%nat _ MultiPhysics 1%nat 0%nat eq_refl eq_refl eq_refl eq_refl) as [_ T]. rewrite T, N. reflexivity.
  - destruct (C 3%nat _ InputOutput 0%nat 2%nat eq_refl eq_refl eq_refl eq_refl) as [_ T]. rewrite T, N. reflexivity.
Qed.

(** every declared multi_physics transfer is executed in a run that takes steps: refuted, a transfer from a realm the
    integrator does not name is dropped without a message *)
Theorem C98_declared_transfers_run_refuted :
  ~ (forall names ds L cf rs rst x d fuel i s, breadboard names 0 ds no_lists = Some L -> NoDup rs -> nth_error ds x = Some d ->
      integrate_realm (coupled L cf rs (fun _ => None) rst (fun _ _ _ => 1%R)) fuel i [] = Some s -> (0 < List.length (log s))%nat ->
      (forall r c, active (cf r) c = true) -> (0 < dflt (in_nl i) 1%nat)%nat ->
      (0 < times x (world s))%nat).
Proof.
  intros C. destruct C98_example_loads as (ds & L & Hd & LN & HB & _).
  set (cfg := fun r : nat => mkRC 1 false 1 0).
  destruct (C02_step_count_termination (coupled L cfg [0; 2]%nat (fun _ => None) no_restart (fun _ _ _ => 1%R)) 3 ex_in [] 3%Z eq_refl) as (s & t0 & A & B & _). { vm_compute. lia. }
  assert (N : List.length (log s) = 3%nat) by (rewrite <- (map_length l_count), B; reflexivity).
  assert (ND : NoDup [0; 2]%nat) by (repeat constructor; cbn; intuition lia).
  cbn in Hd. injection Hd as <-.
  destruct (C98_execution_counts realms3 _ L cfg [0;2]%nat (fun _ => None) no_restart (fun _ _ _ => 1%R) HB ND 1%nat _ MultiPhysics 1%nat 0%nat 3%nat ex_in s eq_refl eq_refl eq_refl eq_refl A) as [_ T].
  specialize (C realms3 _ L cfg [0;2]%nat no_restart 1%nat _ 3%nat ex_in s HB ND eq_refl A).
  rewrite N, T in C. cbn in C. assert (Q : (0 < 0)%nat); [|lia]. apply C; [lia| |lia]. intros r c. unfold active, active_time_step, cfg. cbn [rc_solve].
  change ((1 =? 0)%Z) with false. cbv iota. rewrite Z.rem_1_r. reflexivity.
Qed.

(** what an input_output realm writes was transferred in the same step: refuted when the output starts off the multiples of
    its frequency; the transfer runs at counts 0, 2, ... and the output is written at 1, 3, ... *)
Theorem C98_output_written_with_fresh_data_refuted :
  ~ (forall L cf rs rst fuel i s x r c, integrate_realm (coupled L cf rs (fun _ => None) rst (fun _ _ _ => 1%R)) fuel i [] = Some s ->
      In x (l_io (L r)) -> In r rs -> In (Wrote r c) (world s) -> In (Ran x c) (world s)).
Proof.
  intros C. set (L := fun r : nat => if Nat.eqb r 2 then mkRL [] [] [3%nat] [] else no_lists r).
  destruct (C02_step_count_termination (coupled L (ex_cfg 2 1) [0; 1; 2]%nat (fun _ => None) no_restart (fun _ _ _ => 1%R)) 3 ex_in [] 3%Z eq_refl) as (s & t0 & A & B & _). { vm_compute. lia. }
  assert (N : List.length (log s) = 3%nat) by (rewrite <- (map_length l_count), B; reflexivity).
  specialize (C L (ex_cfg 2 1) [0;1;2]%nat no_restart 3%nat ex_in s 3%nat 2%nat 1%Z A).
  destruct (C98_run_schedule L (ex_cfg 2 1) [0;1;2]%nat (fun _ => None) no_restart (fun _ _ _ => 1%R) 3%nat ex_in s A) as [W _]. cbv beta in W.
  rewrite N in W. rewrite W in C. clear W A B N s t0. lazy in C.
  assert (P3 : forall A B D X : Prop, (A -> B -> D -> X) -> A -> B -> D -> X) by auto.
  pose proof (P3 _ _ _ _ C) as C'. clear C. lapply C'; [clear C'; intros C|left; reflexivity].
  lapply C; [clear C; intros C|right; right; left; reflexivity].
  lapply C; [clear C; intros Q|repeat (first [left; reflexivity|right])].
  repeat (destruct Q as [Q|Q]; [discriminate|]). exact Q.
Qed.

(** ** restart: initialization transfers run after the restart data is read *)
(** one value per realm; [saved] in the restart database, [sent] by an initialization transfer (to realm, value) *)
Definition fieldE (rs : list nat) (rst : nat -> option restart_db) (saved : nat -> R) (sends : nat -> list (nat * R)) : Env :=
  mkEnv (nat -> R) rs (fun p r _ w =>
      match p with
      | PopRestart => match rst r with Some _ => fun a => if Nat.eqb a r then saved r else w a | None => w end
      | InitXfer => fold_left (fun w x => fun a => if Nat.eqb a (fst x) then snd x else w a) (sends r) w
      | _ => w end) (fun _ => None) rst (fun _ _ _ => 1%R) (fun _ => true) (fun _ _ => 0%R).
Section Restart.
Variables (rs : list nat) (rst : nat -> option restart_db) (saved : nat -> R) (sends : nat -> list (nat * R)).
Notation F := (fieldE rs rst saved sends).
Lemma f_same p : (forall r t w, act F p r t w = w) -> forall l (s : state F), world (fold_left (call F p) l s) = world s.
Proof. intros H. induction l as [|r l IH]; intros s; [reflexivity|]. cbn [fold_left]. rewrite IH. unfold call. cbn [world]. apply H. Qed.
Lemma f_input : forall l (s : state F), world (fold_left (pop_input1 F) l s) = world s.
Proof. induction l as [|r l IH]; intros s; [reflexivity|]. cbn [fold_left]. rewrite IH. reflexivity. Qed.
Lemma f_multi : forall l (s : state F), world (fold_left (init_multi1 F) l s) = world s.
Proof. induction l as [|r l IH]; intros s; [reflexivity|]. cbn [fold_left]. rewrite IH. unfold init_multi1. destruct (restart_of F r); reflexivity. Qed.
Lemma f_restart : forall l (s : state F) a, (forall r, In r l -> rst r <> None) -> In a l -> (world (fold_left (pop_restart1 F) l s) : nat -> R) a = saved a.
Proof.
  assert (W : forall (s : state F) r a, rst r <> None -> (world (pop_restart1 F s r) : nat -> R) a = if Nat.eqb a r then saved r else (world s : nat -> R) a).
  { intros s r a N. unfold pop_restart1. change (restart_of F r) with (rst r). destruct (rst r) eqn:E; [|contradiction]. cbn. now rewrite E. }
  induction l as [|r l IH] using rev_ind; intros s a H I; [destruct I|]. rewrite fold_left_app. cbn [fold_left].
  rewrite W by (apply H, in_or_app; right; now left). destruct (Nat.eqb_spec a r) as [->|N]; [reflexivity|].
  apply IH; [intros r' Hr; apply H, in_or_app; now left|]. apply in_app_or in I. destruct I as [I|[I|[]]]; [assumption|congruence].
Qed.
Lemma f_init : forall l (s : state F) a, (forall r x, In r l -> In x (sends r) -> fst x <> a) ->
  (world (fold_left (call F InitXfer) l s) : nat -> R) a = (world s : nat -> R) a.
Proof.
  induction l as [|r l IH]; intros s a H; [reflexivity|]. cbn [fold_left]. rewrite IH by (intros r' x Hr; apply H; now right).
  unfold call. cbn [world]. change (act F InitXfer r (ti s) (world s)) with (fold_left (fun w x => fun a => if Nat.eqb a (fst x) then snd x else w a) (sends r) (world s : nat -> R)).
  assert (Hs : forall x, In x (sends r) -> fst x <> a) by (intros x; apply H; now left). clear H IH.
  generalize (world s : nat -> R). induction (sends r) as [|x xs IHx]; intros w; [reflexivity|]. cbn [fold_left]. rewrite IHx by (intros y Hy; apply Hs; now right).
  destruct (Nat.eqb_spec a (fst x)) as [Q|N]; [|reflexivity]. exfalso. apply (Hs x); [now left|easy].
Qed.
(** a restarted run starts from the saved fields of every realm that no initialization transfer writes *)
Theorem C98_restart_kept_without_initialization i w0 a : (forall r, In r rs -> rst r <> None) -> In a rs ->
  (forall r x, In r rs -> In x (sends r) -> fst x <> a) ->
  (world (startup F (mkSt (Time_Model.load i) w0 [] [])) : nat -> R) a = saved a.
Proof.
  intros H Ia Hs. unfold startup. cbv zeta. unfold for_each. cbn [realms fieldE].
  rewrite (f_same Output) by reflexivity. rewrite f_multi.
  rewrite (f_same InitialWork), (f_same EvalProps), (f_same Derived) by reflexivity. cbn [world with_ti].
  rewrite (f_same ExtXfer), (f_same PopExternal), (f_same IoXfer) by reflexivity.
  rewrite f_init by assumption. now apply f_restart.
Qed.
End Restart.
(** of every realm: refuted, the initialization transfer runs again in a restarted run and replaces the restored field *)
Theorem C98_restart_kept_refuted : ~ (forall rs rst saved sends i w0 a, (forall r, In r rs -> rst r <> None) -> In a rs ->
  (world (startup (fieldE rs rst saved sends) (mkSt (Time_Model.load i) w0 [] [])) : nat -> R) a = saved a).
Proof.
  intros C. specialize (C [0%nat; 1%nat] (fun _ => Some (mkDb 1%R None None)) (fun _ => 7%R) (fun r => match r with O => [(1%nat, 5%R)] | _ => [] end)
    ex_in (fun _ => 0%R) 1%nat ltac:(discriminate) ltac:(right; now left)).
  cbn in C. lra.
Qed.
