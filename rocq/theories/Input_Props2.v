(** * C102, continued: inflow, open, interfaces; what is accepted; kinds of conditions; order of keywords *)
From Coq Require Import Reals List Bool String Arith Lia Lra ZArith Permutation.
From Verif Require Import Opt_Model Opt_Spec Opt_Props Input_Model Input_Spec Input_Props.
Import ListNotations.
Open Scope string_scope.

Section P.
Variables (as_d : yaml -> option R) (as_b : yaml -> option bool) (as_s : yaml -> option string) (as_i : yaml -> option Z).
Notation conv := (conv as_d as_b as_s as_i).
Notation load_entry := (load_entry as_d as_b as_s as_i).
Notation load_entries := (load_entries as_d as_b as_s as_i).
Notation load_functions := (load_functions as_d as_s).
Notation load_wall := (load_wall as_d as_b as_s as_i).
Notation load_inflow := (load_inflow as_d as_b as_s as_i).
Notation load_open := (load_open as_d as_b as_s as_i).
Notation load_overset := (load_overset as_d as_b as_s as_i).
Notation load_nonconf := (load_nonconf as_d as_b as_s as_i).
Notation load_bc := (load_bc as_d as_b as_s as_i).
Notation load_bcs := (load_bcs as_d as_b as_s as_i).
Notation value_ok := (value_ok as_d as_b as_s as_i).
Notation readable := (readable as_d as_b as_s as_i).

(** ** inflow *)
Lemma inflow_parts y u : load_inflow y = Some u ->
  exists u1 u2, load_entries y inflow_entries inflow0 = Some u1 /\ load_functions y u1 = Some u2 /\ load_entry y (ent "external_data" KBool "externalData_") u2 = Some u.
Proof.
  unfold Input_Model.load_inflow. destruct (load_entries y inflow_entries inflow0) as [u1|]; [|discriminate]. destruct (load_functions y u1) as [u2|] eqn:F; [|discriminate].
  intros H. exists u1, u2. auto.
Qed.
Theorem C102_inflow_values : forall y u, load_inflow y = Some u -> forall d, In d inflow_doc -> value_ok y u d.
Proof.
  intros y u H d I. destruct (inflow_parts _ _ H) as (u1 & u2 & H1 & H2 & H3). destruct (inflow_table d I) as (m & Im & D).
  pose proof (functions_spec _ _ _ _ _ H2) as (M & _).
  assert (H3' : load_entries y [ent "external_data" KBool "externalData_"] u2 = Some u) by (cbn [Input_Model.load_entries]; now rewrite H3).
  apply in_app_or in Im. destruct Im as [Im|Im].
  - assert (V : value_ok y u1 d) by (eapply doc_value; eauto; cbn; nodup).
    assert (Q : mem u (d_mem d) = mem u1 (d_mem d)).
    { rewrite <- M. apply (entries_mem_out _ _ _ _ _ _ _ _ _ H3'). cbn. intros [X|[]]. cbn in Im. unfold as_entry in Im.
      repeat (destruct Im as [Im|Im]; [injection Im; intros; subst; congruence|]). contradiction. }
    unfold Input_Spec.value_ok in *. rewrite Q. exact V.
  - eapply doc_value; [exact H3'|cbn; nodup|exact Im|]. destruct Im as [Im|[]]. rewrite M. unfold as_entry, ent in Im.
    injection Im as E1 _ _ E2 _ _.
    rewrite (entries_mem_out _ _ _ _ _ _ _ _ (d_mem d) H1); [exact D|]. rewrite <- E2. cbn. intuition discriminate.
Qed.
Theorem C102_inflow_flags : forall y u, load_inflow y = Some u -> forall d, In d inflow_doc -> flag_ok y u d.
Proof.
  intros y u H d I. destruct (inflow_parts _ _ H) as (u1 & u2 & H1 & H2 & H3). unfold flag_ok. destruct (d_flag d) as [f|] eqn:F; [|exact Logic.I].
  assert (Fl : flg u = flg u1).
  { pose proof (functions_spec _ _ _ _ _ H2) as (_ & E & _). rewrite <- E. destruct (entry_cases _ _ _ _ _ _ _ _ H3) as [(_ & -> & _)|(v & q & _ & _ & _ & ->)]; reflexivity. }
  rewrite Fl. destruct (inflow_table d I) as (m & Im & _).
  assert (Im' : In (as_entry d m false) inflow_entries).
  { apply in_app_or in Im. destruct Im as [Im|[Im|[]]]; [exact Im|]. unfold as_entry, ent in Im. injection Im; intros; congruence. }
  assert (ND : NoDup (flags_of inflow_entries)) by (cbn; nodup).
  rewrite (entries_flag _ _ _ _ _ _ _ _ _ f H1 ND Im' F). cbn [as_entry e_test]. unfold present. destruct (yget (d_key d) y); [reflexivity|].
  each I; try discriminate F; injection F as <-; reflexivity.
Qed.
(** ** open boundary: everything but the dissipation rate *)
Theorem C102_open_values_partial : forall y u, load_open y = Some u -> forall d, In d open_doc -> d_key d <> "turbulent_dissipation" -> value_ok y u d /\ flag_ok y u d.
Proof.
  intros y u H d I N. destruct (open_table d I N) as (m & Im & D). unfold Input_Model.load_open in H. split.
  - eapply doc_value; eauto; cbn; nodup.
  - unfold flag_ok. destruct (d_flag d) as [f|] eqn:F; [|exact Logic.I].
    assert (ND : NoDup (flags_of open_entries)) by (cbn; nodup).
    rewrite (entries_flag _ _ _ _ _ _ _ _ _ f H ND Im F). cbn [as_entry e_test]. unfold present. destruct (yget (d_key d) y); [reflexivity|].
    each I; try discriminate F; injection F as <-; reflexivity.
Qed.
(** NaluParsing.C 1085: a dissipation rate given at an open boundary is dropped silently, whatever its value ... *)
Theorem C102_open_dissipation_refuted : (exists v x, as_d (YScalar v) = Some x /\ x <> 0%R) ->
  ~ (forall y u, load_open y = Some u -> forall d, In d open_doc -> value_ok y u d).
Proof.
  intros (v & x & X & Nz) H. pose (y := YMap [("turbulent_dissipation", YScalar v)]).
  specialize (H y open0 eq_refl (mkD "turbulent_dissipation" KNum "eps_" zero (Some "epsSpec_")) ltac:(cbn; repeat (first [left; reflexivity|right]))).
  unfold Input_Spec.value_ok in H. cbn in H. rewrite X in H. destruct H as (q & Q & E). cbn in Q. injection Q as <-. injection E as E. now apply Nz.
Qed.
(** ... so the value is always the default 0 and the flag false, for every file without the misspelled keyword. *)
Theorem C102_open_dissipation_never_read : forall y u, load_open y = Some u -> yget "turbulent_dissipation_" y = None ->
  mem u "eps_" = Some (VR 0) /\ flg u "epsSpec_" = Some false.
Proof.
  intros y u H N. unfold Input_Model.load_open in H.
  pose (e := mkE "turbulent_dissipation_" "turbulent_dissipation" KNum "eps_" (Some "epsSpec_") false false).
  assert (I : In e open_entries) by (cbn; repeat (first [left; reflexivity|right])).
  pose proof (entries_mem _ _ _ _ _ _ _ _ e H ltac:(cbn; nodup) I) as M. pose proof (entries_flag _ _ _ _ _ _ _ _ e "epsSpec_" H ltac:(cbn; nodup) I eq_refl) as F.
  cbn [e e_test e_mem] in M, F. rewrite N in M, F. split; [rewrite (proj1 M); reflexivity|rewrite F; reflexivity].
Qed.
(** ** overset and non-conformal data *)
Theorem C102_overset_values : forall y u, load_overset y = Some u ->
  (forall k c m, In (k, c, m) overset_required -> exists v q, yget k y = Some v /\ conv c v = Some q /\ mem u m = Some q) /\
  (forall d, In d overset_optional -> value_ok y u d).
Proof.
  intros y u H. unfold Input_Model.load_overset in H. assert (ND : NoDup (map e_mem overset_entries)) by (cbn; nodup). split.
  - intros k c m I. assert (Ie : In (entr k c m) overset_entries).
    { cbn in I. repeat (destruct I as [I|I]; [injection I as <- <- <-; cbn; repeat (first [left; reflexivity|right])|]). contradiction. }
    pose proof (entries_mem _ _ _ _ _ _ _ _ _ H ND Ie) as E. cbn in E. destruct (yget k y) eqn:K; [|destruct E; discriminate]. destruct E as (v & q & E). exists v, q. exact E.
  - intros d I. assert (exists m, In (as_entry d m false) overset_entries /\ mem overset0 (d_mem d) = Some (d_dflt d)) as (m & Im & D).
    { each I; (eexists; split; [unfold as_entry; cbn; repeat (first [left; reflexivity|right])|reflexivity]). }
    eapply doc_value; eauto.
Qed.
Theorem C102_overset_missing_rejected : forall y k c m, In (k, c, m) overset_required -> yget k y = None -> load_overset y = None.
Proof.
  intros y k c m I N. destruct (load_overset y) as [u|] eqn:L; [|reflexivity]. destruct (C102_overset_values _ _ L) as (A & _).
  destruct (A k c m I) as (v & q & E & _). congruence.
Qed.
Theorem C102_nonconformal_values : forall y u, load_nonconf y = Some u -> forall d, In d nonconf_doc -> value_ok y u d.
Proof.
  intros y u H d I. unfold Input_Model.load_nonconf in H. match type of H with Input_Model.load_entries _ _ _ _ _ ?l _ = _ => assert (exists m, In (as_entry d m false) l /\ mem nonconf0 (d_mem d) = Some (d_dflt d)) as (m & Im & D) end.
  { each I; (eexists; split; [unfold as_entry; cbn; repeat (first [left; reflexivity|right])|reflexivity]). }
  eapply doc_value; eauto; cbn; nodup.
Qed.

(** ** what is accepted *)
(** A wall is accepted exactly when every documented keyword that is present can be read in its form, neither dissipation is
    given, and the user functions are maps of names, of parameter lists and of string lists. *)
Definition functions_ok (y : yaml) : Prop :=
  match yget "user_function_name" y with
  | None => True
  | Some (YMap kvs) => (forall k v, In (k, v) kvs -> as_s v <> None) /\
      match yget "user_function_parameters" y with None => True
      | Some (YMap p) => forall k v, In (k, v) p -> exists l, v = YSeq l /\ forall x, In x l -> as_d x <> None
      | _ => False end /\
      match yget "user_function_string_parameters" y with None => True
      | Some (YMap p) => forall k v, In (k, v) p -> conv_targets as_s v <> None
      | _ => False end
  | _ => False end.
Lemma conv_list_ok {V} (c : yaml -> option V) l : conv_list c l <> None <-> forall x, In x l -> c x <> None.
Proof.
  induction l as [|a l IH]; cbn; [split; [intros _ x []|discriminate]|]. destruct (c a) as [v|] eqn:A.
  - destruct (conv_list c l) as [vs|].
    + split; [|discriminate]. intros _ x [<-|I]; [congruence|]. apply IH; [discriminate|assumption].
    + split; [congruence|]. intros H. exfalso. apply (proj2 IH); auto.
  - split; [congruence|]. intros H. exfalso. apply (H a); auto.
Qed.
Lemma load_fns_ok kvs u : load_fns as_s kvs u <> None <-> forall k v, In (k, v) kvs -> as_s v <> None.
Proof.
  revert u. induction kvs as [|[a w] kvs IH]; intro u; cbn; [split; [intros _ k v []|discriminate]|]. destruct (as_s w) as [s|] eqn:E.
  - rewrite IH. split; [intros H k v [X|I]; [injection X as <- <-; congruence|eauto]|eauto].
  - split; [congruence|]. intros H. exfalso. apply (H a w); auto.
Qed.
Lemma read_map_ok {V} (c : yaml -> option V) p m : read_map c p m <> None <-> forall k v, In (k, v) p -> c v <> None.
Proof.
  revert m. induction p as [|[a w] p IH]; intro m; cbn; [split; [intros _ k v []|discriminate]|]. destruct (c w) as [s|] eqn:E.
  - rewrite IH. split; [intros H k v [X|I]; [injection X as <- <-; congruence|eauto]|eauto].
  - split; [congruence|]. intros H. exfalso. apply (H a w); auto.
Qed.
Lemma read_vmap_ok {V} (c : yaml -> option V) p m : read_vmap c p m <> None <-> forall k v, In (k, v) p -> conv_targets c v <> None.
Proof.
  revert m. induction p as [|[a w] p IH]; intro m; cbn; [split; [intros _ k v []|discriminate]|]. destruct (conv_targets c w) as [s|] eqn:E.
  - rewrite IH. split; [intros H k v [X|I]; [injection X as <- <-; congruence|eauto]|eauto].
  - split; [congruence|]. intros H. exfalso. apply (H a w); auto.
Qed.
Lemma functions_accepted y u : load_functions y u <> None <-> functions_ok y.
Proof.
  unfold Input_Model.load_functions, functions_ok. destruct (yget "user_function_name" y) as [[| | |kvs]|]; try (split; [congruence|intros []]); [|split; [auto|discriminate]].
  pose proof (load_fns_ok kvs u) as F. destruct (load_fns as_s kvs u) as [u1|].
  2:{ split; [congruence|]. intros (A & _). apply F in A. congruence. }
  assert (F' : forall k v, In (k, v) kvs -> as_s v <> None) by (apply F; discriminate).
  assert (Dv : forall p, (read_map (dvec as_d) p sempty <> None <-> forall k v, In (k, v) p -> exists l, v = YSeq l /\ forall x, In x l -> as_d x <> None)).
  { intro p. rewrite read_map_ok. split; intros H k v I; specialize (H k v I).
    - destruct v; cbn in H; try congruence. exists l. split; [reflexivity|]. now apply conv_list_ok.
    - destruct H as (l & -> & H). cbn. now apply conv_list_ok. }
  pose proof (fun p => read_vmap_ok as_s p sempty) as Sv.
  destruct (yget "user_function_parameters" y) as [[| | |p]|]; try (split; [congruence|intros (_ & [] & _)]);
  destruct (yget "user_function_string_parameters" y) as [[| | |q]|].
  all: try (specialize (Dv p); destruct (read_map (dvec as_d) p sempty) as [mp|]; cbn [option_map]).
  all: try (specialize (Sv q); destruct (read_vmap as_s q sempty) as [mq|]; cbn [option_map]).
  all: try (split; [congruence|intros (A & B & C); first [contradiction | apply (proj2 Dv) in B; congruence | apply (proj2 Sv) in C; congruence]]).
  all: try (split; [intros _; split; [exact F'|]; split; first [exact Logic.I | (apply Dv; discriminate) | (apply Sv; discriminate)]|discriminate]).
Qed.
Theorem C102_wall_accepted : forall y, (exists u, load_wall y = Some u) <->
  (forall d, In d wall_doc -> readable y d) /\ yget "specific_dissipation_rate" y = None /\ yget "turbulent_dissipation" y = None /\ functions_ok y.
Proof.
  intro y. split.
  - intros (u & H). destruct (wall_parts _ _ _ _ _ _ H) as (u1 & H1 & H2 & A & B). split; [|split; [exact A|split; [exact B|]]].
    + intros d I. destruct (wall_table d I) as (m & Im & _). pose proof (proj1 (entries_ok _ _ _ _ y wall_all wall0) (ex_intro _ _ H1) _ Im) as E. cbn in E.
      unfold Input_Spec.readable. destruct (yget (d_key d) y) as [v|]; [|exact Logic.I]. destruct E as (w & E & C). injection E as <-. exact C.
    + apply (functions_accepted y u1). congruence.
  - intros (D & A & B & F).
    assert (exists u1, load_entries y wall_all wall0 = Some u1) as (u1 & H1).
    { apply entries_ok. intros e Ie. assert (e_test e = e_key e /\ e_req e = false /\ exists d, In d wall_doc /\ d_key d = e_key e /\ d_kind d = e_kind e) as (T & Rq & d & Id & K1 & K2).
      { each Ie; (split; [reflexivity|split; [reflexivity|]]);
        match goal with |- exists d, In d wall_doc /\ d_key d = e_key ?e /\ _ => let r := eval cbn in (find (fun d => String.eqb (d_key d) (e_key e)) wall_doc) in
          match r with Some ?d => exists d; split; [cbn; repeat (first [left; reflexivity|right])|split; reflexivity] end end. }
      rewrite T. specialize (D d Id). unfold Input_Spec.readable in D. rewrite K1, K2 in D. destruct (yget (e_key e) y) as [v|]; [eauto|exact Rq]. }
    unfold Input_Model.load_wall. unfold wall_all in H1. rewrite entries_app in H1. destruct (load_entries y wall_entries wall0) as [u0|]; [|discriminate].
    rewrite A, B. cbn [Input_Model.load_entries] in H1. fold hf_entry. destruct (load_entry y hf_entry u0) as [u1'|]; [|discriminate].
    pose proof (proj2 (functions_accepted y u1') F) as G. destruct (load_functions y u1') as [u|]; [eauto|congruence].
Qed.

(** ** only the keywords matter, not their order in the file *)
Lemma entry_ext y y' e u : (forall k, yget k y = yget k y') -> load_entry y e u = load_entry y' e u.
Proof. intros E. unfold Input_Model.load_entry. now rewrite !E. Qed.
Lemma entries_ext y y' l u : (forall k, yget k y = yget k y') -> load_entries y l u = load_entries y' l u.
Proof. intros E. revert u. induction l as [|e l IH]; intro u; cbn; [reflexivity|]. rewrite (entry_ext y y' e u E). destruct (load_entry y' e u); [apply IH|reflexivity]. Qed.
Lemma functions_ext y y' u : (forall k, yget k y = yget k y') -> load_functions y u = load_functions y' u.
Proof. intros E. unfold Input_Model.load_functions. now rewrite !E. Qed.
Lemma yget_perm l l' k : Permutation l l' -> NoDup (map fst l) -> yget k (YMap l) = yget k (YMap l').
Proof.
  intros P ND. assert (ND' : NoDup (map fst l')) by (apply (Permutation_NoDup (l := map fst l)); [now apply Permutation_map|exact ND]).
  destruct (yget k (YMap l)) as [v|] eqn:Y.
  - symmetry. apply yget_unique; [exact ND'|]. apply (Permutation_in _ P). now apply yget_in.
  - symmetry. apply yget_none. intros I. apply yget_none in Y. apply Y. apply (Permutation_in _ (Permutation_sym (Permutation_map fst P))). exact I.
Qed.
Theorem C102_keyword_order_irrelevant : forall l l', Permutation l l' -> NoDup (map fst l) ->
  load_wall (YMap l) = load_wall (YMap l') /\ load_inflow (YMap l) = load_inflow (YMap l') /\ load_open (YMap l) = load_open (YMap l') /\
  load_overset (YMap l) = load_overset (YMap l') /\ load_nonconf (YMap l) = load_nonconf (YMap l') /\ load_bc (YMap l) = load_bc (YMap l').
Proof.
  intros l l' P ND. assert (E : forall k, yget k (YMap l) = yget k (YMap l')) by (intro; now apply yget_perm).
  repeat split.
  - unfold Input_Model.load_wall. rewrite (entries_ext _ _ _ _ E), !E. destruct (load_entries (YMap l') _ _) as [u|]; [|reflexivity].
    rewrite (entry_ext _ _ _ _ E). destruct (load_entry (YMap l') _ _) as [u'|]; [|reflexivity]. now rewrite (functions_ext _ _ _ E).
  - unfold Input_Model.load_inflow. rewrite (entries_ext _ _ _ _ E). destruct (load_entries (YMap l') _ _) as [u|]; [|reflexivity].
    rewrite (functions_ext _ _ _ E). destruct (load_functions (YMap l') u) as [u'|]; [|reflexivity]. now apply entry_ext.
  - now apply entries_ext.
  - now apply entries_ext.
  - now apply entries_ext.
  - unfold Input_Model.load_bc, simple, need, nc_targets. now rewrite !E.
Qed.
(** a misspelled keyword is not reported: it is as if it were not there *)
Theorem C102_unknown_keyword_reported_refuted :
  ~ (forall l k v, NoDup (k :: map fst l) -> (forall d, In d wall_doc -> d_key d <> k) -> (forall f, In f ["user_function_name"; "user_function_parameters"; "user_function_string_parameters"] -> f <> k) ->
       load_wall (YMap ((k, v) :: l)) = None).
Proof.
  intros H. specialize (H [] "temprature" YNull). assert (N : NoDup ["temprature"]) by nodup. specialize (H N).
  assert (load_wall (YMap [("temprature", YNull)]) <> None) by (cbn; discriminate).
  apply H0, H. - intros d I. each I; discriminate. - intros f I. each I; discriminate.
Qed.

(** ** kinds of boundary conditions *)
Definition kind_key (k : bckind) : string := match k with Wall => "wall_boundary_condition" | Inflow => "inflow_boundary_condition" | Open => "open_boundary_condition"
  | Symmetry => "symmetry_boundary_condition" | Periodic => "periodic_boundary_condition" | NonConformal => "non_conformal_boundary_condition" | Overset => "overset_boundary_condition" end.
Lemma simple_kind kd key ukey f rogue y b : simple as_s kd key ukey f rogue y = Some b -> b_kind b = kd /\ need as_s key y = Some (b_name b).
Proof.
  unfold simple. destruct (need as_s key y) as [n|]; [|discriminate]. destruct (need as_s "target_name" y); [|discriminate]. destruct (need (user_data f) ukey y); [|discriminate].
  destruct (rogue && _)%bool; [discriminate|]. intros [= <-]. auto.
Qed.
Lemma need_present {V} (c : yaml -> option V) k y v : need c k y = Some v -> present k y = true.
Proof. unfold need, present. destruct (yget k y); [reflexivity|discriminate]. Qed.
Theorem C102_kind_of_condition : forall y b, load_bc y = Some b ->
  present (kind_key (b_kind b)) y = true /\ need as_s (kind_key (b_kind b)) y = Some (b_name b).
Proof.
  intros y b H. enough (need as_s (kind_key (b_kind b)) y = Some (b_name b)) by (split; [eapply need_present; eassumption|assumption]).
  revert H. unfold Input_Model.load_bc.
  do 4 (destruct (yget _ y) as [?|]; [intros H; destruct (simple_kind _ _ _ _ _ _ _ H) as (-> & N); exact N|]).
  destruct (yget _ y) as [?|].
  { destruct (need as_s "periodic_boundary_condition" y) as [n|] eqn:N; [|discriminate]. destruct (need (monarch_subject as_s) _ y); [|discriminate].
    destruct (need (user_data _) _ y); [|discriminate]. intros [= <-]. exact N. }
  destruct (yget _ y) as [?|].
  { destruct (need as_s "non_conformal_boundary_condition" y) as [n|] eqn:N; [|discriminate]. destruct (need (user_data _) _ y); [|discriminate].
    destruct (nc_targets as_s y); [|discriminate]. intros [= <-]. exact N. }
  destruct (yget "overset_boundary_condition" y) as [?|]; [|discriminate].
  destruct (need as_s "overset_boundary_condition" y) as [n|] eqn:N; [|discriminate]. destruct (match yget _ y with None => _ | Some _ => _ end) as [a|]; [|discriminate].
  destruct (need (user_data _) _ y); [|discriminate]. destruct (String.eqb a "nalu_stk"); [|discriminate]. intros [= <-]. exact N.
Qed.
(** a condition with exactly one of the seven keys is of that kind *)
Theorem C102_one_kind : forall y b k, load_bc y = Some b -> (forall k', present (kind_key k') y = true <-> k' = k) -> b_kind b = k.
Proof. intros y b k H U. apply U. apply (C102_kind_of_condition y b H). Qed.
Theorem C102_no_kind_rejected : forall y, (forall k, present (kind_key k) y = false) -> load_bc y = None.
Proof.
  intros y H. destruct (load_bc y) as [b|] eqn:L; [|reflexivity]. destruct (C102_kind_of_condition _ _ L) as (P & _). rewrite H in P. discriminate.
Qed.
(** every condition of the file is kept, in the order of the file; one that cannot be read stops the run *)
Theorem C102_conditions_in_order : forall l bs, load_bcs l = Some bs -> List.length bs = List.length l /\
  forall i y, nth_error l i = Some y -> exists b, load_bc y = Some b /\ nth_error bs i = Some b.
Proof.
  induction l as [|y l IH]; intros bs; cbn; [intros [= <-]; split; [reflexivity|intros [|i] y; discriminate]|].
  destruct (load_bc y) as [b|] eqn:B; [|discriminate]. destruct (load_bcs l) as [r|]; [|discriminate]. intros [= <-]. destruct (IH r eq_refl) as (L & N). split; [cbn; now rewrite L|].
  intros [|i] z; cbn; [intros [= <-]; eauto|apply N].
Qed.
(** a wall, inflow or open condition with its user function outside the user data is rejected *)
Theorem C102_misplaced_function_rejected : forall y b, load_bc y = Some b -> present "user_function_name" y = true -> b_kind b <> Wall /\ b_kind b <> Inflow /\ b_kind b <> Open.
Proof.
  intros y b H P.
  assert (R : forall kd key ukey f, simple as_s kd key ukey f true y = None).
  { intros. unfold simple. unfold present in P. rewrite P. destruct (need as_s key y), (need as_s "target_name" y), (need (user_data f) ukey y); reflexivity. }
  revert H. unfold Input_Model.load_bc. rewrite !R.
  do 3 (destruct (yget _ y) as [?|]; [discriminate|]).
  destruct (yget _ y) as [?|]; [intros H; destruct (simple_kind _ _ _ _ _ _ _ H) as (-> & N); repeat split; discriminate|].
  destruct (yget _ y) as [?|].
  { destruct (need as_s "periodic_boundary_condition" y) as [n|] eqn:N; [|discriminate]. destruct (need (monarch_subject as_s) _ y); [|discriminate].
    destruct (need (user_data _) _ y); [|discriminate]. intros [= <-]. repeat split; discriminate. }
  destruct (yget _ y) as [?|].
  { destruct (need as_s "non_conformal_boundary_condition" y) as [n|] eqn:N; [|discriminate]. destruct (need (user_data _) _ y); [|discriminate].
    destruct (nc_targets as_s y); [|discriminate]. intros [= <-]. repeat split; discriminate. }
  destruct (yget "overset_boundary_condition" y) as [?|]; [|discriminate].
  destruct (need as_s "overset_boundary_condition" y) as [n|] eqn:N; [|discriminate]. destruct (match yget _ y with None => _ | Some _ => _ end) as [a|]; [|discriminate].
  destruct (need (user_data _) _ y); [|discriminate]. destruct (String.eqb a "nalu_stk"); [|discriminate]. intros [= <-]. repeat split; discriminate.
Qed.
(** two kinds in one block: the earlier in a fixed list wins, whatever the file says *)
Theorem C102_wall_before_inflow : forall y b, load_bc y = Some b -> present "wall_boundary_condition" y = true -> b_kind b = Wall.
Proof.
  intros y b H P. unfold present in P. revert H. unfold Input_Model.load_bc. destruct (yget "wall_boundary_condition" y); [|discriminate].
  intros H. exact (proj1 (simple_kind _ _ _ _ _ _ _ H)).
Qed.
End P.
