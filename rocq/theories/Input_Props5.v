(** C102, continued: the surfaces a condition is put on. *)
Require Import Reals List Bool String ZArith.
From Verif Require Import Opt_Model Input_Model Input_Props4.
Import ListNotations.
Open Scope string_scope.
Section P.
Variables (as_d : yaml -> option R) (as_b : yaml -> option bool) (as_s : yaml -> option string) (as_i : yaml -> option Z).
Notation load_bc := (load_bc as_d as_b as_s as_i).
(** what the file says about the surfaces: one name; [monarch, subject] for a periodic pair; for an interface between blocks either [current, opposing] or two lists of names *)
Definition names (v : yaml) (l : list string) : Prop :=
  (exists s n, v = YScalar s /\ as_s v = Some n /\ l = [n]) \/ (exists q, v = YSeq q /\ Forall2 (fun y n => as_s y = Some n) q l) \/ ((v = YNull \/ v = YMap []) /\ l = []).
Inductive put_on (y : yaml) : bckind -> target -> Prop :=
| on_one k v s : In k [Wall; Inflow; Open; Symmetry] -> yget "target_name" y = Some v -> as_s v = Some s -> put_on y k (T1 s)
| on_pair vm vs m s : yget "target_name" y = Some (YSeq [vm; vs]) -> as_s vm = Some m -> as_s vs = Some s -> put_on y Periodic (T2 m s)
| on_nc vc vo c o : yget "target_name" y = Some (YSeq [vc; vo]) -> as_s vc = Some c -> as_s vo = Some o -> put_on y NonConformal (TL [c] [o])
| on_nc_lists vc vo c o : yget "target_name" y = None -> yget "current_target_name" y = Some vc -> yget "opposing_target_name" y = Some vo ->
    names vc c -> names vo o -> put_on y NonConformal (TL c o)
| on_none : put_on y Overset TNone.
Lemma conv_targets_names v l : conv_targets as_s v = Some l -> names v l.
Proof.
  unfold conv_targets. destruct v as [|s|q|[|? ?]]; try discriminate.
  - intros [= <-]. right. right. auto.
  - cbn. destruct (as_s (YScalar s)) as [n|] eqn:A; [|discriminate]. intros [= <-]. left. exists s, n. now repeat split.
  - intros H. right. left. exists q. split; [reflexivity|]. now apply (conv_list_iff as_s).
  - intros [= <-]. right. right. auto.
Qed.
Lemma need_some {V} (c : yaml -> option V) k y r : need c k y = Some r -> exists v, yget k y = Some v /\ c v = Some r.
Proof. unfold need. destruct (yget k y) as [v|]; [|discriminate]. intros H. now exists v. Qed.
Lemma simple_on k key ukey f rogue y b : In k [Wall; Inflow; Open; Symmetry] -> simple as_s k key ukey f rogue y = Some b -> put_on y (b_kind b) (b_target b).
Proof.
  intros I. unfold simple. destruct (need as_s key y) as [n|]; [|discriminate]. destruct (need as_s "target_name" y) as [t|] eqn:T; [|discriminate].
  destruct (need (user_data f) ukey y); [|discriminate]. destruct (_ && _)%bool; [discriminate|]. intros [= <-]. cbn [b_kind b_target].
  destruct (need_some _ _ _ _ T) as (v & V & A). econstructor; eauto.
Qed.
(** A condition that is accepted is put on the surfaces the file names, each in its role. *)
Theorem C102_targets : forall y b, load_bc y = Some b -> put_on y (b_kind b) (b_target b).
Proof.
  intros y b. unfold Input_Model.load_bc.
  destruct (yget "wall_boundary_condition" y). { apply simple_on. cbn; auto. }
  destruct (yget "inflow_boundary_condition" y). { apply simple_on. cbn; auto. }
  destruct (yget "open_boundary_condition" y). { apply simple_on. cbn; auto. }
  destruct (yget "symmetry_boundary_condition" y). { apply simple_on. cbn; auto. }
  destruct (yget "periodic_boundary_condition" y).
  { destruct (need as_s _ y); [|discriminate]. destruct (need (monarch_subject as_s) _ y) as [t|] eqn:T; [|discriminate]. destruct (need (user_data _) _ y); [|discriminate].
    intros [= <-]. cbn [b_kind b_target]. destruct (need_some _ _ _ _ T) as (v & V & A). unfold monarch_subject in A.
    destruct v as [| |[|vm [|vs [|? ?]]]|]; try discriminate. destruct (as_s vm) as [mm|] eqn:M; [|discriminate]. destruct (as_s vs) as [ss|] eqn:S; [|discriminate].
    injection A as <-. econstructor; eauto. }
  destruct (yget "non_conformal_boundary_condition" y).
  { destruct (need as_s _ y); [|discriminate]. destruct (need (user_data _) _ y); [|discriminate]. destruct (nc_targets as_s y) as [t|] eqn:A; [|discriminate].
    intros [= <-]. cbn [b_kind b_target]. unfold nc_targets in A. destruct (yget "target_name" y) as [v|] eqn:V.
    - destruct v as [| |[|vm [|vs [|? ?]]]|]; try discriminate. destruct (as_s vm) as [mm|] eqn:M; [|discriminate]. destruct (as_s vs) as [ss|] eqn:S; [|discriminate].
      injection A as <-. econstructor; eauto.
    - destruct (yget "current_target_name" y) as [c|] eqn:C; [|discriminate]. destruct (yget "opposing_target_name" y) as [o|] eqn:O; [|discriminate].
      destruct (conv_targets as_s c) as [lc|] eqn:LC; [|discriminate]. destruct (conv_targets as_s o) as [lo|] eqn:LO; [|discriminate]. injection A as <-.
      eapply on_nc_lists; eauto using conv_targets_names. }
  destruct (yget "overset_boundary_condition" y); [|discriminate].
  destruct (need as_s _ y); [|discriminate]. destruct (match yget _ y with Some _ => _ | None => _ end); [|discriminate]. destruct (need (user_data _) _ y); [|discriminate].
  destruct (String.eqb _ _); [|discriminate]. intros [= <-]. constructor.
Qed.
(** The two roles of a pair are not interchangeable: the first name is the monarch (the current side), the second the subject (the opposing side). *)
Theorem C102_pair_roles : forall y b vm vs, load_bc y = Some b -> yget "target_name" y = Some (YSeq [vm; vs]) ->
  match b_target b with T2 m s => as_s vm = Some m /\ as_s vs = Some s | TL c o => exists m s, as_s vm = Some m /\ as_s vs = Some s /\ c = [m] /\ o = [s] | _ => True end.
Proof.
  intros y b vm vs H E. pose proof (C102_targets _ _ H) as P. destruct P; try exact I.
  - rewrite E in H0. injection H0 as <- <-. now split.
  - rewrite E in H0. injection H0 as <- <-. now exists c, o.
  - rewrite E in H0. discriminate.
Qed.
(** what an initial condition says: the blocks it is for, and for every field either a list of numbers or one number *)
Definition amounts (v : yaml) (l : list R) : Prop :=
  (exists a q, v = YSeq (a :: q) /\ Forall2 (fun y x => as_d y = Some x) (a :: q) l) \/ ((forall a q, v <> YSeq (a :: q)) /\ exists x, as_d v = Some x /\ l = [x]).
Lemma ic_value_amounts v l : ic_value as_d v = Some l -> amounts v l.
Proof.
  destruct v as [|s|[|a q]|[|? ?]]; cbn [ic_value]; try discriminate.
  1,2,3,5: match goal with |- option_map _ (as_d ?v) = _ -> _ => destruct (as_d v) as [x|] eqn:E end; [|discriminate]; cbn; intros [= <-]; right; split; [congruence|]; exists x; now split.
  intros H. left. exists a, q. split; [reflexivity|]. now apply (conv_list_iff as_d).
Qed.
(** Every field named in an initial condition gets its own value, none is lost, and the blocks are those named. *)
Theorem C102_initial_values : forall y ts vs, load_constant_ic as_d as_s y = Some (ts, vs) ->
  (exists v, yget "target_name" y = Some v /\ names v ts) /\
  match yget "value" y with Some (YMap kvs) => Forall2 (fun kv w => fst w = fst kv /\ amounts (snd kv) (snd w)) kvs vs | _ => vs = [] end.
Proof.
  intros y ts vs. unfold load_constant_ic. destruct (need as_s _ y); [|discriminate]. destruct (ic_targets as_s true y) as [t|] eqn:T; [|discriminate]. intros H.
  assert (NT : exists v, yget "target_name" y = Some v /\ names v t).
  { unfold ic_targets in T. destruct (yget "target_name" y) as [v|]; [|discriminate]. exists v. split; [reflexivity|].
    destruct v as [|q|q|q]; [now apply conv_targets_names| |now apply conv_targets_names|now apply conv_targets_names].
    destruct (as_s (YScalar q)) as [n|] eqn:A; [|discriminate]. destruct (_ && _)%bool; [discriminate|]. injection T as <-. left. exists q, n. now repeat split. }
  destruct (yget "value" y) as [v|].
  - destruct v as [| | |kvs]; try discriminate; [injection H as <- <-; now split|].
    destruct (ic_values as_d kvs) as [w|] eqn:W; [|discriminate]. injection H as <- <-. split; [assumption|]. revert w W.
    induction kvs as [|(k, v) r IH]; intros w; cbn; [intros [= <-]; constructor|]. destruct (ic_value as_d v) as [x|] eqn:X; [|discriminate].
    destruct (ic_values as_d r) as [xs|]; [|discriminate]. intros [= <-]. constructor; [|now apply IH]. cbn. split; [reflexivity|now apply ic_value_amounts].
  - injection H as <- <-. now split.
Qed.
Lemma comma_in t : has_comma t = true <-> In (Ascii.ascii_of_nat 44) (list_ascii_of_string t).
Proof.
  induction t as [|c r IH]; cbn [has_comma list_ascii_of_string In]; [split; [discriminate|contradiction]|]. rewrite Bool.orb_true_iff, IH, Ascii.eqb_eq. split; intros [H|H]; auto.
Qed.
(** Several blocks given as one name with commas are refused, not taken for a block of that name. *)
Theorem C102_comma_targets_rejected : forall y s t, yget "target_name" y = Some (YScalar s) -> as_s (YScalar s) = Some t ->
  In (Ascii.ascii_of_nat 44) (list_ascii_of_string t) -> load_constant_ic as_d as_s y = None.
Proof.
  intros y s t T A C. apply comma_in in C. unfold load_constant_ic, ic_targets. rewrite T, A, C. cbn [andb]. now destruct (need as_s _ y).
Qed.
End P.
(** not vacuous: an interface between two blocks *)
Definition str_ (y : yaml) : option string := match y with YScalar s => Some s | _ => None end.
Example C102_targets_nonvacuous :
  exists b, load_bc (fun _ => None) (fun _ => None) str_ (fun _ => None)
    (YMap [("non_conformal_boundary_condition", YScalar "p"); ("target_name", YSeq [YScalar "left"; YScalar "right"]); ("non_conformal_user_data", YMap [])]) = Some b /\ b_target b = TL ["left"] ["right"].
Proof. eexists. cbn. split; reflexivity. Qed.
Print Assumptions C102_targets.
Print Assumptions C102_pair_roles.
