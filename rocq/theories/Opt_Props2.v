(** C36, blocks of the options list: user constants (reference values and gravity), non-conformal interface options, and the
    dynamic procedure's restriction to the two one-equation models. *)
Require Import Reals List Bool String Arith Lia Lra.
From Verif Require Import Opt_Model Opt_Spec Opt_Props.
Import ListNotations.
Open Scope string_scope.

(** the values given for [field] in the blocks named [key], in the order of the options list (one value per block) *)
Definition block_given (key field : string) (es : list entry) : list yaml :=
  flat_map (fun e => if String.eqb (fst e) key then match yget field (YMap (snd e)) with Some y => [y] | None => [] end else []) es.
(** the [i]-th components of a list of sequences, those that are long enough *)
Definition components (i : nat) (ys : list yaml) : list yaml :=
  flat_map (fun y => match y with YSeq l => match nth_error l i with Some c => [c] | None => [] end | _ => [] end) ys.

Section P.
Variables (as_d : yaml -> option R) (as_b : yaml -> option bool) (as_s : yaml -> option string) (as_n : yaml -> option nat).
Notation act := (act as_d as_b as_s).
Notation load_options := (load_options as_d as_b as_s).
Notation load := (load as_d as_b as_s as_n).

Lemma key_anc key ca : find (fun ca => String.eqb key (fst ca)) chain = Some ca ->
  String.eqb key "non_conformal" = match snd ca with ANC => true | _ => false end.
Proof.
  intros H. destruct (find_some _ _ H) as [I E]. apply String.eqb_eq in E. subst key. clear H.
  unfold chain in I. cbn in I. repeat (destruct I as [I|I]; [subst ca; reflexivity|]). destruct I.
Qed.
Lemma key_user key ca : find (fun ca => String.eqb key (fst ca)) chain = Some ca ->
  String.eqb key "user_constants" = match snd ca with AUser => true | _ => false end.
Proof. intros H. apply (chain_keywords key ca H). Qed.

Ltac inv_act A := cbn [Opt_Model.act] in A; cbv zeta in A;
  repeat match type of A with
  | option_map _ ?x = Some _ => destruct x eqn:?; [cbn in A; injection A as <-|discriminate]
  | match ?x with _ => _ end = Some _ => destruct x eqn:?; try discriminate A
  | Some _ = Some _ => injection A as <-
  end.

(** one member that only one block writes: the general induction *)
Section Member.
Context {V : Type} (conv : yaml -> option V) (key field : string) (proj : opts -> V).
Hypothesis step : forall k ca kvs st st1, find (fun ca => String.eqb k (fst ca)) chain = Some ca -> act (snd ca) kvs st = Some st1 ->
  if String.eqb k key then match yget field (YMap kvs) with Some y => conv y = Some (proj st1) | None => proj st1 = proj st end else proj st1 = proj st.
Lemma member_load es st st' : load_options (map to_yaml es) st = Some st' -> honours conv (block_given key field es) (proj st) (proj st').
Proof.
  revert st. induction es as [|[k kvs] es IH]; intros st H; cbn [map Opt_Model.load_options] in H.
  - injection H as <-. reflexivity.
  - destruct (run_chain as_d as_b as_s chain (to_yaml (k, kvs)) st) as [st1|] eqn:E; [|discriminate].
    rewrite run_chain_single in E. destruct (find _ chain) as [ca|] eqn:F; [|discriminate].
    specialize (IH _ H). pose proof (step k ca kvs st st1 F E) as S1. unfold honours, block_given in *. cbn [flat_map fst snd]. rewrite last_of_app.
    match type of IH with context[last_of ?l] => destruct (last_of l) as [y|]; [exact IH|] end. destruct (String.eqb k key); [destruct (yget field (YMap kvs)) as [y|]|]; cbn [last_of]; congruence.
Qed.
End Member.

Ltac member K := let F := fresh "F" in let A := fresh "A" in clear; intros k ca kvs st st1 F A; rewrite (K k ca F); destruct (snd ca); inv_act A;
  try reflexivity; unfold get_if_present in *; cbn [rho_ref t_ref therm_exp stefan gravity set_consts ncGL ncUpw ncPstab ncDetail ncCoin ncCurNorm ncPng set_nc];
  match goal with |- context[yget ?f ?y] => destruct (yget f y) end; congruence.

(** the members are untouched by the scalar part of load() and by the final check *)
Lemma load_blocks doc kvs st : yget "solution_options" doc = Some (YMap kvs) -> load doc initial = Some st ->
  exists st1 st2, match yget "options" (YMap kvs) with None => Some st1 | Some (YSeq l) => load_options l st1 | Some _ => None end = Some st2 /\
    (rho_ref st1, t_ref st1, therm_exp st1, stefan st1, gravity st1) = (rho_ref initial, t_ref initial, therm_exp initial, stefan initial, gravity initial) /\
    (ncGL st1, ncUpw st1, ncPstab st1, ncDetail st1, ncCoin st1, ncCurNorm st1, ncPng st1) = (true, true, true, false, false, false, true) /\
    (rho_ref st, t_ref st, therm_exp st, stefan st, gravity st) = (rho_ref st2, t_ref st2, therm_exp st2, stefan st2, gravity st2) /\
    (ncGL st, ncUpw st, ncPstab st, ncDetail st, ncCoin st, ncCurNorm st, ncPng st) = (ncGL st2, ncUpw st2, ncPstab st2, ncDetail st2, ncCoin st2, ncCurNorm st2, ncPng st2) /\
    (dynProc st1 = true -> turbModel st1 = KSGS \/ turbModel st1 = LRKSGS) /\ turbModel st = turbModel st2 /\ dynProc st = dynProc st2.
Proof.
  intros HK H. unfold Opt_Model.load in H. rewrite HK in H. cbv zeta in H. set (y := YMap kvs) in *.
  repeat match type of H with bind ?x _ = Some _ => let E := fresh "E" in destruct x eqn:E; [cbn [bind] in H|discriminate H] end.
  injection H as <-.
  match goal with H : match yget "options" y with _ => _ end = Some ?s2 |- _ => rename H into Eo; rename s2 into st2 end.
  match type of Eo with context[Opt_Model.load_options _ _ _ _ ?s] => exists s, st2 end.
  split; [exact Eo|]. split; [reflexivity|]. split; [reflexivity|].
  cbn [dynProc turbModel].
  split; [destruct (get_b st2 ShiftedGrad "pressure"); reflexivity|]. split; [destruct (get_b st2 ShiftedGrad "pressure"); reflexivity|].
  split; [|split; destruct (get_b st2 ShiftedGrad "pressure"); reflexivity].
  intros ->. match goal with H : (if (_ || _)%bool then _ else _) = Some _ |- _ => revert H end.
  match goal with |- context[Nat.eqb ?m KSGS] => destruct (Nat.eqb m KSGS) eqn:A, (Nat.eqb m LRKSGS) eqn:B end; cbn; intros Q; try discriminate;
    rewrite ?Nat.eqb_eq in *; auto.
Qed.

(** gravity: written component by component *)
Lemma over_write_length o g : (List.length g <= List.length o)%nat -> List.length (over_write o g) = List.length o.
Proof. revert o. induction g as [|v g IH]; intros [|a o] H; cbn in *; try reflexivity; try lia. now rewrite IH by lia. Qed.
Lemma over_write_nth o g i : (List.length g <= List.length o)%nat -> nth_error (over_write o g) i = match nth_error g i with Some v => Some v | None => nth_error o i end.
Proof.
  revert o i. induction g as [|v g IH]; intros [|a o] i H; cbn in *; try lia; destruct i; try reflexivity.
  cbn. apply IH. lia.
Qed.
Lemma conv_list_nth l g i : conv_list as_d l = Some g -> match nth_error l i with Some y => exists v, as_d y = Some v /\ nth_error g i = Some v | None => nth_error g i = None end.
Proof.
  revert g i. induction l as [|y l IH]; intros g i H; cbn in H; [injection H as <-; destruct i; reflexivity|].
  destruct (as_d y) as [v|] eqn:E; [|discriminate]. destruct (conv_list as_d l) as [vs|]; [|discriminate]. injection H as <-.
  destruct i; cbn; [eauto|]. apply IH. reflexivity.
Qed.
Lemma load_gravity es st st' : List.length (gravity st) = 3%nat -> load_options (map to_yaml es) st = Some st' ->
  List.length (gravity st') = 3%nat /\ forall i, (i < 3)%nat ->
    honours as_d (components i (block_given "user_constants" "gravity" es)) (nth i (gravity st) 0%R) (nth i (gravity st') 0%R).
Proof.
  revert st. induction es as [|[k kvs] es IH]; intros st HL H; cbn [map Opt_Model.load_options] in H.
  - injection H as <-. split; [exact HL|]. reflexivity.
  - destruct (run_chain as_d as_b as_s chain (to_yaml (k, kvs)) st) as [st1|] eqn:E; [|discriminate].
    rewrite run_chain_single in E. destruct (find _ chain) as [ca|] eqn:F; [|discriminate].
    assert (S1 : List.length (gravity st1) = 3%nat /\
      if String.eqb k "user_constants" then
        match yget "gravity" (YMap kvs) with
        | None => gravity st1 = gravity st
        | Some y => exists l g, y = YSeq l /\ conv_list as_d l = Some g /\ (List.length g <= 3)%nat /\ gravity st1 = over_write (gravity st) g end
      else gravity st1 = gravity st).
    { rewrite (key_user k ca F). destruct (snd ca); inv_act E; try (split; [exact HL|reflexivity]);
        cbn [gravity set_consts].
      apply Nat.leb_le in Heqb. split; [rewrite over_write_length; rewrite HL; auto|]. eauto 8. }
    destruct S1 as [L1 S1]. destruct (IH _ L1 H) as [L2 IH2]. split; [exact L2|]. intros i Hi. specialize (IH2 i Hi).
    unfold honours, block_given, components in *. cbn [flat_map fst snd]. rewrite flat_map_app, last_of_app.
    match type of IH2 with context[last_of ?l] => destruct (last_of l) as [y|]; [exact IH2|] end. rewrite IH2. destruct (String.eqb k "user_constants"); [|cbn; now rewrite S1].
    destruct (yget "gravity" (YMap kvs)) as [y|]; [|cbn; now rewrite S1]. destruct S1 as (l & g & -> & C & Lg & ->).
    cbn [flat_map]. rewrite app_nil_r. pose proof (conv_list_nth l g i C) as N.
    assert (NN : forall (q : list R) d, nth i q d = match nth_error q i with Some v => v | None => d end).
    { intros q d. revert i Hi N IH2. clear. induction q; intros [|i]; intros; cbn; auto. clear -IHq. revert i. intros i. clear IHq. revert i. induction q; intros [|i]; cbn; auto. }
    rewrite !NN, over_write_nth by lia. destruct (nth_error l i) as [c|].
    + destruct N as (v & A & B). cbn [last_of]. rewrite A, B. reflexivity.
    + rewrite N. reflexivity.
Qed.

(** ** Theorems *)
Theorem C36_user_constants : forall doc es st, deck_options doc es -> load doc initial = Some st ->
  honours as_d (block_given "user_constants" "reference_density" es) 0%R (rho_ref st) /\
  honours as_d (block_given "user_constants" "reference_temperature" es) 298%R (t_ref st) /\
  honours as_d (block_given "user_constants" "thermal_expansion_coefficient" es) 1%R (therm_exp st) /\
  honours as_d (block_given "user_constants" "stefan_boltzmann" es) (5.6704 / 10^8)%R (stefan st) /\
  List.length (gravity st) = 3%nat /\
  forall i, (i < 3)%nat -> honours as_d (components i (block_given "user_constants" "gravity" es)) 0%R (nth i (gravity st) 0%R).
Proof.
  intros doc es st (kvs & HK & HO) HL. destruct (load_blocks _ _ _ HK HL) as (st1 & st2 & Ho & I & _ & J & _).
  rewrite HO in Ho. injection I as I1 I2 I3 I4 I5. injection J as -> -> -> -> ->.
  destruct (load_gravity _ _ _ (f_equal (@List.length R) I5) Ho) as [GL G].
  repeat apply conj; [| | | |exact GL|].
  - replace 0%R with (rho_ref st1) by exact I1. refine (member_load as_d _ _ rho_ref _ _ _ _ Ho). member key_user.
  - replace 298%R with (t_ref st1) by exact I2. refine (member_load as_d _ _ t_ref _ _ _ _ Ho). member key_user.
  - replace 1%R with (therm_exp st1) by exact I3. refine (member_load as_d _ _ therm_exp _ _ _ _ Ho). member key_user.
  - replace (5.6704 / 10^8)%R with (stefan st1) by (rewrite I4; cbn; lra). refine (member_load as_d _ _ stefan _ _ _ _ Ho). member key_user.
  - intros i Hi. specialize (G i Hi). rewrite I5 in G. destruct i as [|[|[|]]]; [exact G|exact G|exact G|lia].
Qed.

Theorem C36_non_conformal_options : forall doc es st, deck_options doc es -> load doc initial = Some st ->
  honours as_b (block_given "non_conformal" "gauss_labatto_quadrature" es) true (ncGL st) /\
  honours as_b (block_given "non_conformal" "upwind_advection" es) true (ncUpw st) /\
  honours as_b (block_given "non_conformal" "include_pstab" es) true (ncPstab st) /\
  honours as_b (block_given "non_conformal" "detailed_output" es) false (ncDetail st) /\
  honours as_b (block_given "non_conformal" "activate_coincident_node_error_check" es) false (ncCoin st) /\
  honours as_b (block_given "non_conformal" "current_normal" es) false (ncCurNorm st) /\
  honours as_b (block_given "non_conformal" "include_png_penalty" es) true (ncPng st).
Proof.
  intros doc es st (kvs & HK & HO) HL. destruct (load_blocks _ _ _ HK HL) as (st1 & st2 & Ho & _ & I & _ & J & _).
  rewrite HO in Ho. injection I as I1 I2 I3 I4 I5 I6 I7. injection J as -> -> -> -> -> -> ->.
  repeat apply conj.
  - assert (Q : honours as_b (block_given "non_conformal" "gauss_labatto_quadrature" es) (ncGL st1) (ncGL st2)) by (refine (member_load as_b _ _ ncGL _ _ _ _ Ho); member key_anc). rewrite I1 in Q. exact Q.
  - assert (Q : honours as_b (block_given "non_conformal" "upwind_advection" es) (ncUpw st1) (ncUpw st2)) by (refine (member_load as_b _ _ ncUpw _ _ _ _ Ho); member key_anc). rewrite I2 in Q. exact Q.
  - assert (Q : honours as_b (block_given "non_conformal" "include_pstab" es) (ncPstab st1) (ncPstab st2)) by (refine (member_load as_b _ _ ncPstab _ _ _ _ Ho); member key_anc). rewrite I3 in Q. exact Q.
  - assert (Q : honours as_b (block_given "non_conformal" "detailed_output" es) (ncDetail st1) (ncDetail st2)) by (refine (member_load as_b _ _ ncDetail _ _ _ _ Ho); member key_anc). rewrite I4 in Q. exact Q.
  - assert (Q : honours as_b (block_given "non_conformal" "activate_coincident_node_error_check" es) (ncCoin st1) (ncCoin st2)) by (refine (member_load as_b _ _ ncCoin _ _ _ _ Ho); member key_anc). rewrite I5 in Q. exact Q.
  - assert (Q : honours as_b (block_given "non_conformal" "current_normal" es) (ncCurNorm st1) (ncCurNorm st2)) by (refine (member_load as_b _ _ ncCurNorm _ _ _ _ Ho); member key_anc). rewrite I6 in Q. exact Q.
  - assert (Q : honours as_b (block_given "non_conformal" "include_png_penalty" es) (ncPng st1) (ncPng st2)) by (refine (member_load as_b _ _ ncPng _ _ _ _ Ho); member key_anc). rewrite I7 in Q. exact Q.
Qed.

(** the dynamic procedure is only accepted with one of the two one-equation models *)
Theorem C36_dynamic_needs_one_equation_model : forall doc kvs st, yget "solution_options" doc = Some (YMap kvs) -> load doc initial = Some st ->
  dynProc st = true -> nth_error TurbulenceModelNames (turbModel st) = Some "ksgs" \/ nth_error TurbulenceModelNames (turbModel st) = Some "lr_ksgs".
Proof.
  intros doc kvs st HK HL D. destruct (load_blocks _ _ _ HK HL) as (st1 & st2 & Ho & _ & _ & _ & _ & C & E & F).
  assert (Q : turbModel st2 = turbModel st1 /\ dynProc st2 = dynProc st1).
  { destruct (yget "options" (YMap kvs)) as [[| |l|]|]; try discriminate; [|injection Ho as <-; auto].
    split; [|apply (load_scalars as_d as_b as_s as_n l st1 st2 Ho)].
    clear -Ho. revert st1 Ho. induction l as [|e l IH]; intros st1 H; cbn [Opt_Model.load_options] in H; [now injection H as <-|].
    destruct (run_chain as_d as_b as_s chain e st1) as [s|] eqn:R; [|discriminate]. rewrite (IH _ H). clear -R.
    revert R. generalize chain. intros c. induction c as [|[k a] c IH]; cbn [Opt_Model.run_chain]; [discriminate|].
    destruct (yget k e) as [[| | |kvs]|]; try discriminate; [|exact IH]. intros A. destruct a; inv_act A; reflexivity. }
  destruct Q as [Q1 Q2]. rewrite F, Q2 in D. rewrite E, Q1. destruct (C D) as [-> | ->]; [left|right]; reflexivity.
Qed.
End P.

(** and both are: the decks below load *)
Theorem C36_blocks_example :
  (exists st, load ex_d ex_b ex_s ex_n (deck (map to_yaml
    [("user_constants", [("gravity", YSeq [YScalar "0.5"; YScalar "2"; YScalar "0.7"])]); ("non_conformal", [("include_png_penalty", YScalar "no")]);
     ("user_constants", [("reference_density", YScalar "2"); ("gravity", YSeq [YScalar "2"])])])
     [("turbulence_model", YScalar "lr_ksgs"); ("activate_dynamic_turbulence_procedure", YScalar "yes")]) initial = Some st /\
   gravity st = [2; 2; 7/10]%R /\ rho_ref st = 2%R /\ ncPng st = false /\ ncPstab st = true /\ dynProc st = true) /\
  (exists st, load ex_d ex_b ex_s ex_n (deck [] [("turbulence_model", YScalar "ksgs"); ("activate_dynamic_turbulence_procedure", YScalar "yes")]) initial = Some st) /\
  load ex_d ex_b ex_s ex_n (deck [] [("turbulence_model", YScalar "wale"); ("activate_dynamic_turbulence_procedure", YScalar "yes")]) initial = None.
Proof. split; [eexists; split; [reflexivity|]; cbn; repeat split|]. split; [eexists; reflexivity|reflexivity]. Qed.
