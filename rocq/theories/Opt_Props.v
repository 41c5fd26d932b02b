(** C36: solution options *)
Require Import Reals List Bool String Arith Lia Lra.
From Verif Require Import Opt_Model Opt_Spec.
Import ListNotations.
Open Scope string_scope.

Section P.
Variables (as_d : yaml -> option R) (as_b : yaml -> option bool) (as_s : yaml -> option string) (as_n : yaml -> option nat).
Notation act := (act as_d as_b as_s).
Notation run_chain := (run_chain as_d as_b as_s).
Notation load_options := (load_options as_d as_b as_s).
Notation load := (load as_d as_b as_s as_n).

Definition vals (field : string) (kvs : list (string * yaml)) : list yaml := map snd (filter (fun p => String.eqb (fst p) field) kvs).

Lemma last_of_app {A} (l r : list A) : last_of (l ++ r) = match last_of r with Some a => Some a | None => last_of l end.
Proof.
  induction l as [|a l IH]; cbn [app].
  - destruct (last_of r); reflexivity.
  - destruct (l ++ r)%list as [|b t] eqn:E.
    + apply app_eq_nil in E. destruct E as [-> ->]. reflexivity.
    + change (last_of (a :: b :: t)) with (last_of (b :: t)). rewrite IH. destruct (last_of r) eqn:Er; [reflexivity|].
      destruct l as [|c l']; [|reflexivity]. cbn in E. subst r. clear -Er. exfalso.
      revert b Er. induction t as [|x t IH]; intros b Er; cbn in *; [discriminate|]. apply (IH x Er).
Qed.

Lemma read_map_spec {V} (conv : yaml -> option V) kvs m m' f : read_map conv kvs m = Some m' ->
  match last_of (vals f kvs) with Some y => exists v, conv y = Some v /\ m' f = Some v | None => m' f = m f end.
Proof.
  revert m. induction kvs as [|[k y] r IH]; intros m H; cbn in H; [injection H as <-; reflexivity|].
  destruct (conv y) as [v|] eqn:E; [|discriminate]. specialize (IH _ H).
  unfold vals in *. cbn [filter fst]. destruct (String.eqb k f) eqn:K.
  - apply String.eqb_eq in K. subst k. cbn [map snd]. change (y :: map snd (filter (fun p => String.eqb (fst p) f) r)) with ([y] ++ map snd (filter (fun p : string * yaml => String.eqb (fst p) f) r))%list.
    rewrite last_of_app. destruct (last_of _) as [y'|]; [exact IH|]. cbn. exists v. split; [exact E|]. rewrite IH. unfold upd. now rewrite String.eqb_refl.
  - destruct (last_of _) as [y'|]; [exact IH|]. rewrite IH. unfold upd. rewrite String.eqb_sym, K. reflexivity.
Qed.

(** selection of the keyword of a documented entry *)
Lemma run_chain_single c key kvs st : run_chain c (to_yaml (key, kvs)) st =
  match find (fun ca => String.eqb key (fst ca)) c with Some ca => act (snd ca) kvs st | None => None end.
Proof.
  induction c as [|[k a] c IH]; [reflexivity|]. cbn [Opt_Model.run_chain find fst snd]. unfold to_yaml at 1, yget. cbn [find fst snd].
  destruct (String.eqb key k) eqn:K; [reflexivity|]. exact IH.
Qed.

Definition kw_of (a : action) (key : string) : Prop :=
  (forall o, existsb (String.eqb key) (d_keywords o) = match a with AD o' => dopt_beq o o' | _ => false end) /\
  (forall o, existsb (String.eqb key) (b_keywords o) = match a with AB o' => bopt_beq o o' | _ => false end) /\
  (forall o, existsb (String.eqb key) (s_keywords o) = match a with AS o' => sopt_beq o o' | _ => false end) /\
  (forall o, existsb (String.eqb key) (vs_keywords o) = match a with AVS o' => vsopt_beq o o' | _ => false end) /\
  (forall o, existsb (String.eqb key) (vd_keywords o) = match a with AVD o' => vdopt_beq o o' | _ => false end) /\
  String.eqb key "turbulence_model_constants" = match a with AConst => true | _ => false end /\
  String.eqb key "user_constants" = match a with AUser => true | _ => false end.
Lemma chain_keywords key ca : find (fun ca => String.eqb key (fst ca)) chain = Some ca -> kw_of (snd ca) key.
Proof.
  intros H. destruct (find_some _ _ H) as [I E]. apply String.eqb_eq in E. subst key. clear H.
  unfold chain in I. cbn in I.
  repeat (destruct I as [I|I]; [subst ca; unfold kw_of; cbn [snd fst]; repeat split; try (intros []; reflexivity)|]).
  destruct I.
Qed.

Lemma run_single key kvs st st' : run_chain chain (to_yaml (key, kvs)) st = Some st' -> exists a, kw_of a key /\ act a kvs st = Some st'.
Proof.
  rewrite run_chain_single. destruct (find _ chain) as [ca|] eqn:E; [|discriminate]. intros H. exists (snd ca). split; [apply chain_keywords; exact E|exact H].
Qed.

(** induction over the options list: what holds of one entry adds up *)
Lemma load_step (P : list entry -> opts -> opts -> Prop) :
  (forall st, P [] st st) ->
  (forall key kvs es a st st1 st2, kw_of a key -> act a kvs st = Some st1 -> P es st1 st2 -> P ((key, kvs) :: es) st st2) ->
  forall es st st', load_options (map to_yaml es) st = Some st' -> P es st st'.
Proof.
  intros H0 HS es. induction es as [|[key kvs] es IH]; intros st st' H; cbn [map Opt_Model.load_options] in H.
  - injection H as <-. apply H0.
  - destruct (run_chain chain (to_yaml (key, kvs)) st) as [st1|] eqn:E; [|discriminate].
    destruct (run_single _ _ _ _ E) as (a & K & A). eapply HS; [exact K|exact A|]. apply IH, H.
Qed.

Ltac inv_act A := cbn [Opt_Model.act] in A; cbv zeta in A;
  repeat match type of A with
  | option_map _ ?x = Some _ => destruct x eqn:?; [cbn in A; injection A as <-|discriminate]
  | match ?x with _ => _ end = Some _ => destruct x eqn:?; try discriminate A
  | Some _ = Some _ => injection A as <-
  end.

Lemma load_dm es st st' o f : load_options (map to_yaml es) st = Some st' ->
  match last_of (given (d_keywords o) es f) with Some y => exists v, as_d y = Some v /\ dm st' o f = Some v | None => dm st' o f = dm st o f end.
Proof.
  revert es st st'. apply (load_step (fun es st st' => match last_of (given (d_keywords o) es f) with Some y => exists v, as_d y = Some v /\ dm st' o f = Some v | None => dm st' o f = dm st o f end)); [reflexivity|].
  intros key kvs es a st st1 st2 K A IH. unfold given in *. cbn [flat_map fst snd]. rewrite last_of_app.
  destruct (last_of (flat_map _ es)) as [y|]; [exact IH|]. rewrite (proj1 K o). rewrite IH. clear IH K.
  destruct a as [o'| | | | | | |]; try (inv_act A; reflexivity).
  cbn [Opt_Model.act] in A. destruct (read_map as_d kvs (dm st o')) as [m|] eqn:E; [|discriminate]. cbn in A. injection A as <-.
  cbn [dm set_dm]. destruct (dopt_beq o o') eqn:B; [|reflexivity].
  apply internal_dopt_dec_bl in B. subst o'. exact (read_map_spec _ _ _ _ f E).
Qed.
Lemma load_bm es st st' o f : load_options (map to_yaml es) st = Some st' ->
  match last_of (given (b_keywords o) es f) with Some y => exists v, as_b y = Some v /\ bm st' o f = Some v | None => bm st' o f = bm st o f end.
Proof.
  revert es st st'. apply (load_step (fun es st st' => match last_of (given (b_keywords o) es f) with Some y => exists v, as_b y = Some v /\ bm st' o f = Some v | None => bm st' o f = bm st o f end)); [reflexivity|].
  intros key kvs es a st st1 st2 K A IH. unfold given in *. cbn [flat_map fst snd]. rewrite last_of_app.
  destruct (last_of (flat_map _ es)) as [y|]; [exact IH|]. rewrite (proj1 (proj2 K) o). rewrite IH. clear IH K.
  destruct a as [|o'| | | | | |]; try (inv_act A; reflexivity).
  cbn [Opt_Model.act] in A. destruct (read_map as_b kvs (bm st o')) as [m|] eqn:E; [|discriminate]. cbn in A. injection A as <-.
  cbn [bm set_bm]. destruct (bopt_beq o o') eqn:B; [|reflexivity].
  apply internal_bopt_dec_bl in B. subst o'. exact (read_map_spec _ _ _ _ f E).
Qed.
Lemma load_sm es st st' o f : load_options (map to_yaml es) st = Some st' ->
  match last_of (given (s_keywords o) es f) with Some y => exists v, as_s y = Some v /\ sm st' o f = Some v | None => sm st' o f = sm st o f end.
Proof.
  revert es st st'. apply (load_step (fun es st st' => match last_of (given (s_keywords o) es f) with Some y => exists v, as_s y = Some v /\ sm st' o f = Some v | None => sm st' o f = sm st o f end)); [reflexivity|].
  intros key kvs es a st st1 st2 K A IH. unfold given in *. cbn [flat_map fst snd]. rewrite last_of_app.
  destruct (last_of (flat_map _ es)) as [y|]; [exact IH|]. rewrite (proj1 (proj2 (proj2 K)) o). rewrite IH. clear IH K.
  destruct a as [| |o'| | | | |]; try (inv_act A; reflexivity).
  cbn [Opt_Model.act] in A. destruct (read_map as_s kvs (sm st o')) as [m|] eqn:E; [|discriminate]. cbn in A. injection A as <-.
  cbn [sm set_sm]. destruct (sopt_beq o o') eqn:B; [|reflexivity].
  apply internal_sopt_dec_bl in B. subst o'. exact (read_map_spec _ _ _ _ f E).
Qed.

(** lists accumulate *)
Fixpoint all_targets {V} (conv : yaml -> option V) (ys : list yaml) : option (list V) :=
  match ys with [] => Some [] | y :: r => match conv_targets conv y, all_targets conv r with Some a, Some b => Some (a ++ b)%list | _, _ => None end end.
Lemma all_targets_app {V} (conv : yaml -> option V) a b : all_targets conv (a ++ b) =
  match all_targets conv a, all_targets conv b with Some x, Some y => Some (x ++ y)%list | _, _ => None end.
Proof.
  induction a as [|y a IH]; cbn; [destruct (all_targets conv b); reflexivity|]. rewrite IH.
  destruct (conv_targets conv y), (all_targets conv a), (all_targets conv b); try reflexivity. now rewrite app_assoc.
Qed.
Definition content {V} (m : smap (list V)) f := match m f with Some l => l | None => [] end.
Lemma read_vmap_spec {V} (conv : yaml -> option V) kvs m m' f : read_vmap conv kvs m = Some m' ->
  exists vs, all_targets conv (vals f kvs) = Some vs /\ content m' f = (content m f ++ vs)%list.
Proof.
  revert m. induction kvs as [|[k y] r IH]; intros m H; cbn in H; [injection H as <-; exists []; split; [reflexivity|now rewrite app_nil_r]|].
  destruct (conv_targets conv y) as [v|] eqn:E; [|discriminate]. destruct (IH _ H) as (vs & A & B).
  unfold vals in *. cbn [filter fst]. destruct (String.eqb k f) eqn:K.
  - apply String.eqb_eq in K. subst k. cbn [map snd all_targets]. rewrite E, A. exists (v ++ vs)%list. split; [reflexivity|].
    rewrite B. unfold content, upd. rewrite String.eqb_refl. now rewrite app_assoc.
  - exists vs. split; [exact A|]. rewrite B. f_equal. unfold content, upd. rewrite String.eqb_sym, K. reflexivity.
Qed.
Lemma load_vsm es st st' o f : load_options (map to_yaml es) st = Some st' ->
  exists vs, all_targets as_s (given (vs_keywords o) es f) = Some vs /\ content (vsm st' o) f = (content (vsm st o) f ++ vs)%list.
Proof.
  revert es st st'. apply (load_step (fun es st st' => exists vs, all_targets as_s (given (vs_keywords o) es f) = Some vs /\ content (vsm st' o) f = (content (vsm st o) f ++ vs)%list)).
  { intros st. exists []. split; [reflexivity|now rewrite app_nil_r]. }
  intros key kvs es a st st1 st2 K A (vs & B & C). unfold given in *. cbn [flat_map fst snd]. rewrite all_targets_app, B, C, (proj1 (proj2 (proj2 (proj2 K))) o). clear B C K.
  destruct a as [| | |o'| | | |]; try (exists vs; split; [reflexivity|]; inv_act A; reflexivity).
  cbn [Opt_Model.act] in A. destruct (read_vmap as_s kvs (vsm st o')) as [m|] eqn:E; [|discriminate]. cbn in A. injection A as <-.
  cbn [vsm set_vsm]. destruct (vsopt_beq o o') eqn:B; [|exists vs; split; reflexivity].
  apply internal_vsopt_dec_bl in B. subst o'. destruct (read_vmap_spec _ _ _ _ f E) as (ws & F & G). unfold vals in F. rewrite F.
  exists (ws ++ vs)%list. split; [reflexivity|]. rewrite G. now rewrite app_assoc.
Qed.
Lemma load_vdm es st st' o f : load_options (map to_yaml es) st = Some st' ->
  exists vs, all_targets as_d (given (vd_keywords o) es f) = Some vs /\ content (vdm st' o) f = (content (vdm st o) f ++ vs)%list.
Proof.
  revert es st st'. apply (load_step (fun es st st' => exists vs, all_targets as_d (given (vd_keywords o) es f) = Some vs /\ content (vdm st' o) f = (content (vdm st o) f ++ vs)%list)).
  { intros st. exists []. split; [reflexivity|now rewrite app_nil_r]. }
  intros key kvs es a st st1 st2 K A (vs & B & C). unfold given in *. cbn [flat_map fst snd]. rewrite all_targets_app, B, C, (proj1 (proj2 (proj2 (proj2 (proj2 K)))) o). clear B C K.
  destruct a as [| | | |o'| | |]; try (exists vs; split; [reflexivity|]; inv_act A; reflexivity).
  cbn [Opt_Model.act] in A. destruct (read_vmap as_d kvs (vdm st o')) as [m|] eqn:E; [|discriminate]. cbn in A. injection A as <-.
  cbn [vdm set_vdm]. destruct (vdopt_beq o o') eqn:B; [|exists vs; split; reflexivity].
  apply internal_vdopt_dec_bl in B. subst o'. destruct (read_vmap_spec _ _ _ _ f E) as (ws & F & G). unfold vals in F. rewrite F.
  exists (ws ++ vs)%list. split; [reflexivity|]. rewrite G. now rewrite app_assoc.
Qed.

(** turbulence model constants *)
Lemma names_nodup : NoDup TurbulenceModelConstantNames.
Proof. repeat constructor; cbn; intuition discriminate. Qed.
Lemma index_of_nth {A} (f : A -> bool) l k : index_of f l = Some k -> exists a, nth_error l k = Some a /\ f a = true.
Proof.
  revert k. induction l as [|a l IH]; intros k H; [discriminate|]. cbn in H. destruct (f a) eqn:E.
  - injection H as <-. exists a. split; [reflexivity|exact E].
  - destruct (index_of f l) as [j|]; [|discriminate]. injection H as <-. destruct (IH j eq_refl) as (b & X & Y). exists b. split; assumption.
Qed.
Lemma index_of_complete (l : list string) k n : NoDup l -> nth_error l k = Some n -> index_of (String.eqb n) l = Some k.
Proof.
  revert k. induction l as [|a l IH]; intros k ND H; [destruct k; discriminate|]. inversion ND as [|? ? NI ND']; subst. destruct k; cbn in *.
  - injection H as ->. rewrite String.eqb_refl. reflexivity.
  - destruct (String.eqb n a) eqn:E; [exfalso; apply NI; apply String.eqb_eq in E; subst; apply (nth_error_In _ _ H)|]. rewrite (IH k ND' H). reflexivity.
Qed.
Lemma read_consts_spec kvs ps f k n : nth_error TurbulenceModelConstantNames k = Some n -> conv_pairs as_d kvs = Some ps ->
  match last_of (vals n kvs) with Some y => exists v, as_d y = Some v /\ read_consts ps f k = Some v | None => read_consts ps f k = f k end.
Proof.
  intros Hn. revert f ps. induction kvs as [|[key y] r IH]; intros f ps H; cbn in H; [injection H as <-; reflexivity|].
  destruct (as_d y) as [v|] eqn:E; [|discriminate]. destruct (conv_pairs as_d r) as [vs|]; [|discriminate]. injection H as <-.
  cbn [read_consts]. unfold vals in *. cbn [filter fst]. destruct (String.eqb key n) eqn:K.
  - apply String.eqb_eq in K. subst key. rewrite (index_of_complete _ k n names_nodup Hn). cbn [map snd].
    change (y :: map snd (filter (fun p => String.eqb (fst p) n) r)) with ([y] ++ map snd (filter (fun p : string * yaml => String.eqb (fst p) n) r))%list.
    rewrite last_of_app. specialize (IH (fun j => if Nat.eqb j k then Some v else f j) vs eq_refl).
    destruct (last_of _) as [y'|]; [exact IH|]. cbn [last_of]. exists v. split; [exact E|]. rewrite IH. now rewrite Nat.eqb_refl.
  - specialize (IH (match index_of (String.eqb key) TurbulenceModelConstantNames with Some i => fun j => if Nat.eqb j i then Some v else f j | None => f end) vs eq_refl).
    destruct (last_of _) as [y'|]; [exact IH|]. rewrite IH. destruct (index_of (String.eqb key) TurbulenceModelConstantNames) as [i|] eqn:I; [|reflexivity].
    destruct (Nat.eqb k i) eqn:KI; [|reflexivity]. apply Nat.eqb_eq in KI. subst i. destruct (index_of_nth _ _ _ I) as (b & X & Y).
    rewrite Hn in X. injection X as <-. rewrite Y in K. discriminate.
Qed.
Lemma load_tconst es st st' k n : nth_error TurbulenceModelConstantNames k = Some n -> load_options (map to_yaml es) st = Some st' ->
  match last_of (given ["turbulence_model_constants"] es n) with Some y => exists v, as_d y = Some v /\ tconst st' k = Some v | None => tconst st' k = tconst st k end.
Proof.
  intros Hn. revert es st st'. apply (load_step (fun es st st' => match last_of (given ["turbulence_model_constants"] es n) with Some y => exists v, as_d y = Some v /\ tconst st' k = Some v | None => tconst st' k = tconst st k end)); [reflexivity|].
  intros key kvs es a st st1 st2 K A IH. unfold given in *. cbn [flat_map fst snd]. rewrite last_of_app.
  destruct (last_of (flat_map _ es)) as [y|]; [exact IH|]. cbn [existsb]. rewrite orb_false_r. rewrite (proj1 (proj2 (proj2 (proj2 (proj2 (proj2 K)))))). rewrite IH. clear IH K.
  destruct a; try (inv_act A; reflexivity).
  cbn [Opt_Model.act] in A. destruct (conv_pairs as_d kvs) as [ps|] eqn:E; [|discriminate]. cbn in A. injection A as <-. cbn [tconst set_tconst].
  exact (read_consts_spec kvs ps (tconst st) k n Hn E).
Qed.

(** the whole load: what the options list starts from, and how the result is finished *)
Lemma load_inv doc st st' : load doc st = Some st' -> forall kvs, yget "solution_options" doc = Some (YMap kvs) ->
  exists model st1 st2 tm, 
    get_if_present as_s (YMap kvs) "turbulence_model" "laminar" = Some tm /\
    index_of (case_insensitive_compare tm) TurbulenceModelNames = Some model /\
    dm st1 = dm st /\ bm st1 = bm st /\ sm st1 = sm st /\ vsm st1 = vsm st /\ vdm st1 = vdm st /\
    turbModel st1 = model /\ isTurbulent st1 = (if Nat.eqb model 0 then isTurbulent st else true) /\
    tconst st1 = (fun k => match nth_error (default_constants model) k with Some v => Some v | None => tconst st k end) /\
    match yget "options" (YMap kvs) with None => st2 = st1 | Some (YSeq l) => load_options l st1 = Some st2 | Some _ => False end /\
    st' = (if get_b st2 ShiftedGrad "pressure" then set_reduced st2 true else st2).
Proof.
  unfold Opt_Model.load. intros H kvs HK. rewrite HK in H. cbv zeta in H.
  repeat match type of H with bind ?x _ = Some _ => let E := fresh "E" in destruct x eqn:E; [cbn [bind] in H|discriminate H] end.
  injection H as <-.
  match goal with H : match yget "options" (YMap kvs) with _ => _ end = Some ?s2 |- _ => rename H into Eo end.
  match goal with H : index_of _ _ = Some ?m |- _ => rename H into Em end.
  match type of Eo with context[Opt_Model.load_options _ _ _ _ ?s] => set (st1 := s) in * end.
  match type of Em with index_of (case_insensitive_compare ?t) _ = Some ?n => exists n, st1, o, t end.
  repeat apply conj; try reflexivity; try assumption.
  destruct (yget "options" (YMap kvs)) as [[| | |]|]; [discriminate|discriminate|exact Eo|discriminate|injection Eo as <-; reflexivity].
Qed.

Lemma load_model es st st' : load_options (map to_yaml es) st = Some st' -> turbModel st' = turbModel st /\ isTurbulent st' = isTurbulent st.
Proof.
  revert es st st'. apply (load_step (fun es st st' => turbModel st' = turbModel st /\ isTurbulent st' = isTurbulent st)); [split; reflexivity|].
  intros key kvs es a st st1 st2 K A [-> ->]. clear K. destruct a; inv_act A; split; reflexivity.
Qed.

Lemma finish_maps st2 : let st' := if get_b st2 ShiftedGrad "pressure" then set_reduced st2 true else st2 in
  dm st' = dm st2 /\ bm st' = bm st2 /\ sm st' = sm st2 /\ vsm st' = vsm st2 /\ vdm st' = vdm st2 /\ tconst st' = tconst st2 /\
  turbModel st' = turbModel st2 /\ isTurbulent st' = isTurbulent st2.
Proof. cbv zeta. destruct (get_b st2 ShiftedGrad "pressure"); repeat split. Qed.

(** ** Theorems.  [doc] is any input deck that is accepted; [es] its options list. *)

(** per-field queries return the last value the user gave for that field under that option's keyword, and the default otherwise *)
Theorem C36_query_returns_entry_or_default : forall doc es st, deck_options doc es -> load doc initial = Some st ->
  (forall o f, honours as_d (given (d_keywords o) es f) (d_default o) (get_d st o f)) /\
  (forall o f, honours as_b (given (b_keywords o) es f) (b_default o) (get_b st o f)) /\
  (forall f, honours as_s (given (s_keywords TanhForm) es f) "classic" (get_tanh_form st f)).
Proof.
  intros doc es st (kvs & HK & HO) HL.
  destruct (load_inv _ _ _ HL kvs HK) as (model & st1 & st2 & tm & _ & _ & Hd & Hb & Hs & _ & _ & _ & _ & _ & Ho & Est). rewrite HO in Ho.
  pose proof (finish_maps st2) as F. cbv zeta in F. rewrite <- Est in F. destruct F as (Fd & Fb & Fs & _).
  repeat split; intros.
  - unfold honours, get_d. rewrite Fd. pose proof (load_dm _ _ _ o f Ho) as L. destruct (last_of _) as [y|].
    + destruct L as (v & A & ->). exact A.
    + rewrite L, Hd. destruct o; reflexivity.
  - unfold honours, get_b. rewrite Fb. pose proof (load_bm _ _ _ o f Ho) as L. destruct (last_of _) as [y|].
    + destruct L as (v & A & ->). exact A.
    + rewrite L, Hb. destruct o; reflexivity.
  - unfold honours, get_tanh_form. rewrite Fs. pose proof (load_sm _ _ _ TanhForm f Ho) as L. destruct (last_of _) as [y|].
    + destruct L as (v & A & ->). exact A.
    + rewrite L, Hs. reflexivity.
Qed.

(** no options list: every query gives its default *)
Theorem C36_no_options_defaults : forall doc kvs st, yget "solution_options" doc = Some (YMap kvs) -> yget "options" (YMap kvs) = None ->
  load doc initial = Some st ->
  (forall o f, get_d st o f = d_default o) /\ (forall o f, get_b st o f = b_default o) /\ (forall f, get_tanh_form st f = "classic").
Proof.
  intros doc kvs st HK HO HL.
  destruct (load_inv _ _ _ HL kvs HK) as (model & st1 & st2 & tm & _ & _ & Hd & Hb & Hs & _ & _ & _ & _ & _ & Ho & Est). rewrite HO in Ho. subst st2.
  pose proof (finish_maps st1) as F. cbv zeta in F. rewrite <- Est in F. destruct F as (Fd & Fb & Fs & _).
  repeat split; intros; unfold get_d, get_tanh_form; [rewrite Fd, Hd| |rewrite Fs, Hs; reflexivity].
  - destruct o; reflexivity.
  - unfold get_b. rewrite Fb, Hb. destruct o; reflexivity.
Qed.

(** two decks that give the same values, in the same order, for one field of one option answer that query alike, whatever else
    they contain and however it is ordered *)
Theorem C36_other_entries_irrelevant : forall doc doc' es es' st st', deck_options doc es -> deck_options doc' es' ->
  load doc initial = Some st -> load doc' initial = Some st' ->
  (forall o f, given (d_keywords o) es f = given (d_keywords o) es' f -> get_d st o f = get_d st' o f) /\
  (forall o f, given (b_keywords o) es f = given (b_keywords o) es' f -> get_b st o f = get_b st' o f).
Proof.
  intros doc doc' es es' st st' D D' L L'.
  destruct (C36_query_returns_entry_or_default _ _ _ D L) as (A & B & _).
  destruct (C36_query_returns_entry_or_default _ _ _ D' L') as (A' & B' & _).
  split; intros o f E; [specialize (A o f); specialize (A' o f)|specialize (B o f); specialize (B' o f)]; rewrite <- E in *; unfold honours in *; destruct (last_of _); congruence.
Qed.

(** the laminar Prandtl flag tells whether the user gave one *)
Theorem C36_laminar_prandtl_flag : forall doc es st f, deck_options doc es -> load doc initial = Some st ->
  lam_prandtl_provided st f = negb (Nat.eqb (List.length (given ["laminar_prandtl"] es f)) 0).
Proof.
  intros doc es st f (kvs & HK & HO) HL.
  destruct (load_inv _ _ _ HL kvs HK) as (model & st1 & st2 & tm & _ & _ & Hd & _ & _ & _ & _ & _ & _ & _ & Ho & Est). rewrite HO in Ho.
  pose proof (finish_maps st2) as F. cbv zeta in F. rewrite <- Est in F. destruct F as (Fd & _). unfold lam_prandtl_provided. rewrite Fd.
  pose proof (load_dm _ _ _ LamPr f Ho) as L. change (d_keywords LamPr) with ["laminar_prandtl"] in L.
  destruct (given ["laminar_prandtl"] es f) as [|y l]; [cbn in *; rewrite L, Hd; reflexivity|].
  destruct (last_of (y :: l)) eqn:E; [destruct L as (v & _ & ->); reflexivity|].
  exfalso. clear -E. revert y E. induction l as [|z l IH]; intros y E; cbn in *; [discriminate|apply (IH z E)].
Qed.

(** source terms: every list given for an equation is kept, in order *)
Theorem C36_source_terms_accumulate : forall doc es st, deck_options doc es -> load doc initial = Some st ->
  (forall o f, all_targets as_s (given (vs_keywords o) es f) = Some (content (vsm st o) f)) /\
  (forall o f, all_targets as_d (given (vd_keywords o) es f) = Some (content (vdm st o) f)).
Proof.
  intros doc es st (kvs & HK & HO) HL.
  destruct (load_inv _ _ _ HL kvs HK) as (model & st1 & st2 & tm & _ & _ & _ & _ & _ & Hvs & Hvd & _ & _ & _ & Ho & Est). rewrite HO in Ho.
  pose proof (finish_maps st2) as F. cbv zeta in F. rewrite <- Est in F. destruct F as (_ & _ & _ & Fvs & Fvd & _). split; intros o f.
  - rewrite Fvs. destruct (load_vsm _ _ _ o f Ho) as (vs & A & B). rewrite A, B, Hvs. reflexivity.
  - rewrite Fvd. destruct (load_vdm _ _ _ o f Ho) as (vs & A & B). rewrite A, B, Hvd. reflexivity.
Qed.

Lemma constants_default model : default_constants model = turbulence_constants_default model.
Proof. unfold default_constants, turbulence_constants_default, SST, SST_DES. repeat (apply f_equal2; [first [reflexivity | lra]|]); reflexivity. Qed.

(** turbulence model constants: the user's value by name, else the default of the model in use; a lookup of any constant succeeds *)
Theorem C36_turbulence_constants : forall doc es st, deck_options doc es -> load doc initial = Some st ->
  forall k n, nth_error TurbulenceModelConstantNames k = Some n ->
    exists v dflt, get_turb_model_constant st k = Some v /\ nth_error (turbulence_constants_default (turbModel st)) k = Some dflt /\
      honours as_d (given ["turbulence_model_constants"] es n) dflt v.
Proof.
  intros doc es st (kvs & HK & HO) HL.
  destruct (load_inv _ _ _ HL kvs HK) as (model & st1 & st2 & tm & _ & _ & _ & _ & _ & _ & _ & Hm & _ & Hc & Ho & Est). rewrite HO in Ho.
  pose proof (finish_maps st2) as F. cbv zeta in F. rewrite <- Est in F. destruct F as (_ & _ & _ & _ & _ & Fc & Fm & _). intros k n Hn.
  rewrite Fm, (proj1 (load_model _ _ _ Ho)), Hm, <- constants_default.
  assert (exists d, nth_error (default_constants model) k = Some d) as (d & Hd).
  { destruct (nth_error (default_constants model) k) eqn:E; [eauto|]. apply nth_error_None in E. assert (k < List.length TurbulenceModelConstantNames)%nat by (apply nth_error_Some; congruence). cbn in *. lia. }
  pose proof (load_tconst _ _ _ k n Hn Ho) as L. unfold get_turb_model_constant, honours. rewrite Fc. destruct (last_of _) as [y|].
  - destruct L as (v & A & B). exists v, d. auto.
  - exists d, d. split; [rewrite L, Hc, Hd; reflexivity|]. auto.
Qed.

(** the turbulence model is the one named, whatever the case of the letters; the flow is turbulent iff it is not laminar; an
    unknown name is rejected *)
Theorem C36_turbulence_model : forall doc es st, deck_options doc es -> load doc initial = Some st ->
  exists nm tm, nth_error TurbulenceModelNames (turbModel st) = Some nm /\ lower tm = lower nm /\
    (exists kvs, yget "solution_options" doc = Some (YMap kvs) /\
       match yget "turbulence_model" (YMap kvs) with Some y => as_s y = Some tm | None => tm = "laminar" end) /\
    isTurbulent st = negb (String.eqb nm "laminar").
Proof.
  intros doc es st (kvs & HK & HO) HL.
  destruct (load_inv _ _ _ HL kvs HK) as (model & st1 & st2 & tm & Ht & Hi & _ & _ & _ & _ & _ & Hm & HT & _ & Ho & Est). rewrite HO in Ho.
  pose proof (finish_maps st2) as F. cbv zeta in F. rewrite <- Est in F. destruct F as (_ & _ & _ & _ & _ & _ & Fm & Fi).
  rewrite Fm, Fi, (proj1 (load_model _ _ _ Ho)), (proj2 (load_model _ _ _ Ho)), Hm, HT.
  destruct (index_of_nth _ _ _ Hi) as (nm & A & B). exists nm, tm. repeat split; [exact A|apply String.eqb_eq, B| |].
  - exists kvs. split; [exact HK|]. unfold get_if_present in Ht. destruct (yget "turbulence_model" (YMap kvs)); [exact Ht|congruence].
  - do 8 (destruct model as [|model]; [cbn in A; injection A as <-; reflexivity|]). destruct model; discriminate.
Qed.
Theorem C36_unknown_model_rejected : forall doc kvs y tm st, yget "solution_options" doc = Some (YMap kvs) ->
  yget "turbulence_model" (YMap kvs) = Some y -> as_s y = Some tm -> (forall nm, In nm TurbulenceModelNames -> lower tm <> lower nm) ->
  load doc st = None.
Proof.
  intros doc kvs y tm st HK HT HS HN. destruct (load doc st) as [st'|] eqn:E; [|reflexivity]. exfalso.
  destruct (load_inv _ _ _ E kvs HK) as (model & st1 & st2 & tm' & Ht & Hi & _). unfold get_if_present in Ht. rewrite HT, HS in Ht. injection Ht as <-.
  destruct (index_of_nth _ _ _ Hi) as (nm & A & B). apply (HN nm (nth_error_In _ _ A)). apply String.eqb_eq, B.
Qed.

(** an entry without any known keyword is rejected, wherever it stands *)
Theorem C36_unknown_option_rejected : forall l1 e l2 st, (forall ca, In ca chain -> yget (fst ca) e = None) ->
  load_options (l1 ++ e :: l2) st = None.
Proof.
  intros l1 e l2 st H. revert st. induction l1 as [|x l1 IH]; intros st; cbn [app Opt_Model.load_options].
  - assert (E : forall c, incl c chain -> run_chain c e st = None).
    { intros c. induction c as [|[k a] c IHc]; intros I; [reflexivity|]. cbn. change k with (fst (k, a)) at 1. rewrite (H (k, a)) by (apply I; left; reflexivity).
      apply IHc. intros z Hz. apply I. right; exact Hz. }
    rewrite (E chain (incl_refl _)). reflexivity.
  - destruct (run_chain chain x st); [apply IH|reflexivity].
Qed.

(** asking for the shifted pressure gradient operator always brings the reduced sensitivities *)
Theorem C36_shifted_pressure_implies_reduced : forall doc kvs st, yget "solution_options" doc = Some (YMap kvs) -> load doc initial = Some st ->
  get_b st ShiftedGrad "pressure" = true -> reducedSens st = true.
Proof.
  intros doc kvs st HK HL.
  destruct (load_inv _ _ _ HL kvs HK) as (model & st1 & st2 & tm & H). do 10 apply proj2 in H. destruct H as [_ ->].
  destruct (get_b st2 ShiftedGrad "pressure") eqn:E; [reflexivity|]. rewrite E. discriminate.
Qed.

(** scalar commands: the user's value if given, else the default, and the deprecated command is rejected *)
Definition scalar_ok {V} (conv : yaml -> option V) (y : yaml) (key : string) (dflt q : V) : Prop :=
  match yget key y with Some v => conv v = Some q | None => q = dflt end.
Lemma gip_ok {V} (conv : yaml -> option V) y key dflt q : get_if_present conv y key dflt = Some q -> scalar_ok conv y key dflt q.
Proof. unfold get_if_present, scalar_ok. destruct (yget key y); [auto|congruence]. Qed.

(** the members not touched by the options list keep what load() put in them *)
Definition same_scalars (a b : opts) : Prop :=
  divU a = divU b /\ extDef a = extDef b /\ shiftMdot a = shiftMdot b /\ consAlg a = consAlg b /\ consBc a = consBc b /\
  eigPerturb a = eigPerturb b /\ eigDelta a = eigDelta b /\ eigBias a = eigBias b /\ eigKe a = eigKe b /\
  vofJm a = vofJm b /\ vofM a = vofM b /\ vofN a = vofN b /\ vofC a = vofC b /\ quadType a = quadType b /\ acoustic a = acoustic b /\
  balForce a = balForce b /\ buoyStab a = buoyStab b /\ volSrc a = volSrc b /\ wetInit a = wetInit b /\ wetDist a = wetDist b /\
  scaleGeom a = scaleGeom b /\ dynProc a = dynProc b /\ dynClip a = dynClip b /\ restTime a = restTime b /\ interpTime a = interpTime b /\ perTime a = perTime b.
Lemma same_refl a : same_scalars a a. Proof. repeat split. Qed.
Lemma act_scalars a kvs st st1 : act a kvs st = Some st1 -> same_scalars st1 st.
Proof. intros A. destruct a; inv_act A; repeat split. Qed.
Lemma run_scalars c e st st1 : run_chain c e st = Some st1 -> same_scalars st1 st.
Proof.
  induction c as [|[k a] c IH]; cbn; [discriminate|]. destruct (yget k e) as [[| | |kvs]|]; try discriminate; [apply act_scalars|exact IH].
Qed.
Lemma load_scalars l st st' : load_options l st = Some st' -> same_scalars st' st.
Proof.
  revert st. induction l as [|e l IH]; intros st H; cbn [Opt_Model.load_options] in H; [injection H as <-; apply same_refl|].
  destruct (run_chain chain e st) as [s1|] eqn:E; [|discriminate]. pose proof (IH _ H) as A. pose proof (run_scalars _ _ _ _ E) as B.
  unfold same_scalars in *. intuition congruence.
Qed.
Lemma reduced_scalars st b : same_scalars (set_reduced st b) st. Proof. repeat split. Qed.

Theorem C36_scalar_commands : forall doc kvs st, yget "solution_options" doc = Some (YMap kvs) -> load doc initial = Some st ->
  let y := YMap kvs in
  scalar_ok as_d y "divU_stress_scaling" 0%R (divU st) /\ scalar_ok as_b y "shift_cvfem_mdot" false (shiftMdot st) /\
  scalar_ok as_b y "use_consolidated_solver_algorithm" false (consAlg st) /\
  scalar_ok as_b y "use_consolidated_face_elem_bc_algorithm" false (consBc st) /\
  scalar_ok as_b y "eigenvalue_perturbation" false (eigPerturb st) /\ scalar_ok as_d y "eigenvalue_perturbation_delta" 0%R (eigDelta st) /\
  scalar_ok as_d y "local_vof_jm" 0.003%R (vofJm st) /\ scalar_ok as_d y "local_vof_m" 0%R (vofM st) /\
  scalar_ok as_d y "local_vof_n" 0%R (vofN st) /\ scalar_ok as_d y "local_vof_c" 1%R (vofC st) /\
  scalar_ok as_b y "use_accoustically_compressible_algorithm" false (acoustic st) /\
  scalar_ok as_b y "activate_balanced_force_algorithm" false (balForce st) /\
  scalar_ok as_b y "activate_buoyancy_pressure_stabilization" (balForce st) (buoyStab st) /\
  scalar_ok as_d y "volumetric_source" 0%R (volSrc st) /\
  scalar_ok as_b y "activate_wetted_wall_initialization" false (wetInit st) /\ scalar_ok as_d y "wetted_wall_initialization_distance" (-1)%R (wetDist st) /\
  scalar_ok as_b y "scale_geometric_properties" false (scaleGeom st) /\
  scalar_ok as_b y "activate_dynamic_turbulence_procedure" false (dynProc st) /\
  scalar_ok as_d y "dynamic_turbulence_clipping_factor" 0%R (dynClip st) /\
  scalar_ok as_d y "input_variables_from_file_restoration_time" 100000000%R (restTime st) /\
  scalar_ok as_b y "input_variables_interpolate_in_time" false (interpTime st) /\
  scalar_ok as_d y "input_variables_from_file_periodic_time" 0%R (perTime st) /\
  yget "shift_cvfem_poisson" y = None.
Proof.
  intros doc kvs st HK H y. unfold Opt_Model.load in H. rewrite HK in H. cbv zeta in H. fold y in H.
  repeat match type of H with bind ?x _ = Some _ => let E := fresh "E" in destruct x eqn:E; [cbn [bind] in H|discriminate H] end.
  injection H as <-. 
  match goal with H : match yget "options" y with _ => _ end = Some ?s2 |- _ => rename H into Eo; rename s2 into st2 end.
  match type of Eo with context[Opt_Model.load_options _ _ _ _ ?s] => set (st1 := s) in * end.
  assert (S : same_scalars (if get_b st2 ShiftedGrad "pressure" then set_reduced st2 true else st2) st1).
  { assert (same_scalars st2 st1) by (destruct (yget "options" y) as [[| |l|]|]; try discriminate; [apply (load_scalars _ _ _ Eo)|injection Eo as <-; apply same_refl]).
    destruct (get_b st2 ShiftedGrad "pressure"); [|assumption]. pose proof (reduced_scalars st2 true). unfold same_scalars in *. intuition congruence. }
  set (stf := if get_b st2 ShiftedGrad "pressure" then set_reduced st2 true else st2) in *. clearbody stf. clear Eo.
  unfold same_scalars in S. decompose [and] S. clear S.
  repeat match goal with H : _ stf = _ st1 |- _ => rewrite H; clear H end. clearbody y. subst st1.
  cbn [divU shiftMdot consAlg consBc eigPerturb eigDelta vofJm vofM vofN vofC acoustic balForce buoyStab volSrc wetInit wetDist scaleGeom dynProc dynClip restTime interpTime perTime].
  repeat match goal with H : get_if_present _ _ _ _ = Some _ |- _ => apply gip_ok in H end.
  repeat apply conj; try assumption.
  - match goal with H : scalar_ok as_b y "activate_buoyancy_pressure_stabilization" (if ?b then true else false) _ |- _ => destruct b; exact H end.
  - match goal with H : match yget "shift_cvfem_poisson" y with _ => _ end = _ |- _ => destruct (yget "shift_cvfem_poisson" y); [discriminate|reflexivity] end.
Qed.
End P.

(** Conversions for examples: scalars of the listed decks *)
Definition ex_d (y : yaml) : option R := match y with YScalar "0.5" => Some (1/2)%R | YScalar "0.7" => Some (7/10)%R | YScalar "2" => Some 2%R | _ => None end.
Definition ex_b (y : yaml) : option bool := match y with YScalar "yes" => Some true | YScalar "no" => Some false | _ => None end.
Definition ex_s (y : yaml) : option string := match y with YScalar s => Some s | _ => None end.
Definition ex_n (y : yaml) : option nat := match y with YScalar "2" => Some 2%nat | _ => None end.
Definition deck (entries : list yaml) (extra : list (string * yaml)) : yaml :=
  YMap [("solution_options", YMap (("name", YScalar "opts") :: extra ++ [("options", YSeq entries)]))].

(** a deck is accepted and queried as written: repeated field, synonym keyword, other fields default *)
Theorem C36_example : exists st,
  load ex_d ex_b ex_s ex_n (deck (map to_yaml
    [("hybrid_factor", [("velocity", YScalar "0.5"); ("enthalpy", YScalar "0.7")]); ("limiter", [("velocity", YScalar "yes")]);
     ("peclet_function_tanh_width", [("velocity", YScalar "2")]); ("tanh_width", [("velocity", YScalar "0.5")]);
     ("hybrid_factor", [("velocity", YScalar "0.7")])]) [("turbulence_model", YScalar "WALE")]) initial = Some st /\
  get_d st Hybrid "velocity" = (7/10)%R /\ get_d st Hybrid "enthalpy" = (7/10)%R /\ get_d st Hybrid "mixture_fraction" = 0%R /\
  get_d st TanhWidth "velocity" = (1/2)%R /\ get_b st Limiter "velocity" = true /\ get_b st Limiter "enthalpy" = false /\
  turbModel st = 3%nat /\ isTurbulent st = true.
Proof. eexists. split; [reflexivity|]. cbn. repeat split. Qed.

(** "the user's entry is honoured" fails when two keywords share one entry of the list: only the first keyword of the parser's
    chain is read, the other is dropped without a message *)
Theorem C36_two_keywords_in_one_entry_refuted : exists st,
  load ex_d ex_b ex_s ex_n (deck [YMap [("upw_factor", YMap [("velocity", YScalar "0.5")]); ("alpha", YMap [("velocity", YScalar "0.7")])]] []) initial = Some st /\
  get_d st Alpha "velocity" = (7/10)%R /\ get_d st Upw "velocity" = 1%R.
Proof. eexists. split; [reflexivity|]. cbn. repeat split. Qed.

(** two constructor defaults are lost by load() when the user says nothing: get_if_present is called without a default, so the
    bias towards 3 becomes 0 and the quadrature type becomes the empty string *)
Theorem C36_scalar_defaults_lost_refuted : exists st, load ex_d ex_b ex_s ex_n (deck [] []) initial = Some st /\
  eigBias initial = 3%nat /\ eigBias st = 0%nat /\ quadType initial = "GaussLegendre" /\ quadType st = "".
Proof. eexists. split; [reflexivity|]. cbn. repeat split. Qed.
