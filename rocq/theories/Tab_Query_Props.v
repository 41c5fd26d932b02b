(** C61: lookups in tabulated properties *)
Require Import Reals List PeanoNat Bool Lia Lra Permutation.
From Verif Require Import Edge_Model Edge_Proofs Tab_Spline_Model Tab_Spline2_Model Tab_Spline2_Props Tab_Query_Model.
From Coq Require String.
Import ListNotations.
Open Scope R_scope.

(** ** What the user expects: every table variable gets the value that goes by its name, limited to the
    table's range and taken to its logarithm if the table says so *)
Definition limited (mn mx : R) (lg : bool) (x : R) : R :=
  let y := Rmin (Rmax x mn) mx in if lg then ln (Rmax y (1 / 10 ^ 16)) else y.
Definition expected (t : table) (names : list string) (env : string -> R) : R :=
  tb_spline t (map (fun i => limited (at_ (tb_min t) i) (at_ (tb_max t) i) (nth i (tb_log t) false) (env (nth i names String.EmptyString)))
                 (seq 0 (length names))).

Lemma findix_some l s k : findix l s = Some k -> (k < length l)%nat /\ nth k l String.EmptyString = s.
Proof.
  revert k. induction l as [|a l IH]; intros k; cbn [findix]; [discriminate|]. destruct (string_dec a s) as [->|N].
  - intros [= <-]. cbn. split; [lia|reflexivity].
  - destruct (findix l s) as [j|]; [|discriminate]. intros [= <-]. destruct (IH j eq_refl). cbn. split; [lia|assumption].
Qed.
Lemma findix_none l s : findix l s = None <-> ~ In s l.
Proof.
  induction l as [|a l IH]; cbn [findix]; [split; auto|]. destruct (string_dec a s) as [->|N].
  - split; [discriminate|intros H; contradict H; left; reflexivity].
  - destruct (findix l s); cbn [option_map].
    + split; [discriminate|]. intros H. exfalso. apply H. right. destruct (in_dec string_dec s l) as [I|I]; [exact I|]. apply IH in I. discriminate.
    + split; [|reflexivity]. intros _ [E|I]; [contradiction|]. apply (proj1 IH (@eq_refl (option nat) None) I).
Qed.
Lemma findix_in l s : In s l -> exists k, findix l s = Some k.
Proof. intros I. destruct (findix l s) eqn:E; [eauto|]. apply findix_none in E. contradiction. Qed.
Lemma limited_is mn mx (lg : bool) x : (if lg then ln (Rmax (clip_high (clip_low x mn) mx) (1 / 10 ^ 16)) else clip_high (clip_low x mn) mx) = limited mn mx lg x.
Proof.
  unfold limited. replace (clip_high (clip_low x mn) mx) with (Rmin (Rmax x mn) mx); [reflexivity|].
  unfold clip_high, clip_low. destruct (Rlt_dec x mn); destruct (Rlt_dec mx _); unfold Rmin, Rmax; repeat destruct (Rle_dec _ _); lra.
Qed.

(** ** C61: without converters the variables given in the input file are accepted exactly if they are the
    table's variables, in any order *)
Theorem C61_variables_accepted_iff_same : forall t, tb_convs t = [] -> NoDup (tb_names t) -> NoDup (tb_user t) ->
  ((exists w, update_input_mapping t = Some w) <-> Permutation (tb_names t) (tb_user t)).
Proof.
  intros t C Nn Nu. unfold update_input_mapping. rewrite C. cbn [fold_left]. split.
  - intros [w H]. destruct (Nat.eqb_spec (length (tb_names t)) (length (tb_user t))) as [L|]; [|discriminate].
    destruct (user_index (tb_user t) (tb_names t)) as [ix|] eqn:E; [|discriminate]. apply NoDup_Permutation_bis; [exact Nn|lia|].
    intros s I. unfold user_index in E. apply all_some_spec in E. destruct (in_dec string_dec s (tb_user t)) as [Y|Y]; [exact Y|].
    apply findix_none in Y. assert (In None (map Some ix)) as Q by (rewrite <- E; rewrite <- Y; apply in_map, I).
    apply in_map_iff in Q. destruct Q as (? & ? & _). discriminate.
  - intros P. rewrite (Permutation_length P), Nat.eqb_refl.
    destruct (all_some_map (findix (tb_user t)) (tb_names t)) as [r E]; [intros s I; apply findix_in, (Permutation_in _ P I)|].
    unfold user_index. rewrite E. eauto.
Qed.

Lemma fill_direct_at inputs ix buf i : (i < length buf)%nat ->
  at_ (fill_direct inputs ix buf) i = (if Nat.ltb i (length ix) then at_ inputs (at_n ix i) else at_ buf i)
  /\ length (fill_direct inputs ix buf) = length buf.
Proof.
  intros Hi. unfold fill_direct. generalize (length ix). intros m. induction m as [|m IH]; [split; reflexivity|].
  rewrite seq_S, fold_left_app. cbn [fold_left]. rewrite Nat.add_0_l. destruct IH as [A L].
  rewrite set_at_length, set_at_at, L. destruct (Nat.ltb_spec i (length buf)); [|lia]. split; [|reflexivity].
  rewrite A. destruct (Nat.eqb_spec i m) as [->|N].
  - destruct (Nat.ltb_spec m (S m)); [reflexivity|lia].
  - destruct (Nat.ltb_spec i m); destruct (Nat.ltb_spec i (S m)); try lia; reflexivity.
Qed.
Lemma user_index_nth user names ix i : user_index user names = Some ix -> (i < length names)%nat ->
  length ix = length names /\ (at_n ix i < length user)%nat /\ nth (at_n ix i) user String.EmptyString = nth i names String.EmptyString.
Proof.
  intros E Hi. unfold user_index in E. apply all_some_spec in E. assert (L : length ix = length names).
  { apply (f_equal (@length _)) in E. rewrite !map_length in E. lia. }
  split; [exact L|]. apply findix_some. apply (f_equal (fun l => nth i l None)) in E.
  rewrite (nth_indep _ None (findix user String.EmptyString)) in E by (rewrite map_length; exact Hi). rewrite map_nth in E. rewrite E.
  rewrite (nth_indep _ None (Some 0%nat)) by (rewrite map_length; lia). rewrite map_nth. reflexivity.
Qed.
Lemma env_at (env : string -> R) user k : (k < length user)%nat -> at_ (map env user) k = env (nth k user String.EmptyString).
Proof. intros H. unfold at_. rewrite (nth_indep _ 0 (env String.EmptyString)) by (rewrite map_length; exact H). apply map_nth. Qed.
Lemma fst_query t w s inputs : fst (query t w s inputs) = tb_spline t (map (checked t (lookup_values t w inputs (ts_buf s))) (seq 0 (w_dim w))).
Proof. unfold query. destruct (existsb _ _); reflexivity. Qed.
Lemma wiring_plain t w : tb_convs t = [] -> update_input_mapping t = Some w ->
  w_dim w = length (tb_names t) /\ user_index (tb_user t) (tb_names t) = Some (w_index w) /\ length (tb_names t) = length (tb_user t).
Proof.
  intros C U. unfold update_input_mapping in U. rewrite C in U. cbn [fold_left] in U.
  destruct (Nat.eqb_spec (length (tb_names t)) (length (tb_user t))) as [L|]; [|discriminate].
  destruct (user_index (tb_user t) (tb_names t)) as [ix|] eqn:E; [|discriminate]. injection U as <-. cbn. auto.
Qed.
Lemma plain_values t w s env i : tb_convs t = [] -> update_input_mapping t = Some w -> length (ts_buf s) = w_dim w -> (i < w_dim w)%nat ->
  at_ (lookup_values t w (map env (tb_user t)) (ts_buf s)) i = env (nth i (tb_names t) String.EmptyString).
Proof.
  intros C U L Hi. destruct (wiring_plain t w C U) as (D & E & _). unfold lookup_values. rewrite C.
  destruct (fill_direct_at (map env (tb_user t)) (w_index w) (ts_buf s) i ltac:(lia)) as [-> _].
  destruct (user_index_nth _ _ _ i E ltac:(lia)) as (Lx & Hx & Ex). destruct (Nat.ltb_spec i (length (w_index w))); [|lia].
  rewrite env_at by exact Hx. rewrite Ex. reflexivity.
Qed.

(** ** C61: without converters every lookup gives each table variable the value of the field of that
    name, in whatever order the input file lists them, limited to the table's range; earlier lookups do
    not matter *)
Theorem C61_lookup_uses_value_of_that_name : forall t w s env,
  tb_convs t = [] -> update_input_mapping t = Some w -> length (ts_buf s) = length (tb_names t) ->
  fst (query t w s (map env (tb_user t))) = expected t (tb_names t) env.
Proof.
  intros t w s env C U L. destruct (wiring_plain t w C U) as (D & _ & _). rewrite fst_query. unfold expected. f_equal. rewrite D.
  apply map_ext_in. intros i Hi. apply in_seq in Hi. unfold checked. rewrite (plain_values t w s env i C U) by lia. apply limited_is.
Qed.
Lemma query_buf t w s inputs : ts_buf (snd (query t w s inputs)) = lookup_values t w inputs (ts_buf s).
Proof. unfold query. destruct (existsb _ _); reflexivity. Qed.
Lemma fill_length inputs ix buf : length (fill_direct inputs ix buf) = length buf.
Proof.
  unfold fill_direct. generalize (length ix). intros m. induction m as [|m IH]; [reflexivity|].
  rewrite seq_S, fold_left_app. cbn [fold_left]. rewrite set_at_length. exact IH.
Qed.
(** after any history of lookups the buffer still has the right length, so the previous theorem applies *)
Corollary C61_lookup_independent_of_history : forall t w qs env,
  tb_convs t = [] -> update_input_mapping t = Some w ->
  fst (query t w (queries t w (initial w) qs) (map env (tb_user t))) = expected t (tb_names t) env.
Proof.
  intros t w qs env C U. apply C61_lookup_uses_value_of_that_name; try assumption.
  destruct (wiring_plain t w C U) as (<- & _ & _).
  assert (K : forall s, length (ts_buf s) = w_dim w -> length (ts_buf (queries t w s qs)) = w_dim w).
  { unfold queries. induction qs as [|q qs IH]; intros s Hs; cbn [fold_left]; [exact Hs|]. apply IH. rewrite query_buf.
    unfold lookup_values. rewrite C, fill_length. exact Hs. }
  apply K. apply repeat_length.
Qed.

(** ** C61: a lookup is counted as clipped exactly if some table variable was out of range *)
Theorem C61_clipping_counted : forall t w s env,
  tb_convs t = [] -> update_input_mapping t = Some w -> length (ts_buf s) = length (tb_names t) ->
  (forall i, at_ (tb_min t) i <= at_ (tb_max t) i) ->
  let out := exists i, (i < length (tb_names t))%nat
     /\ (env (nth i (tb_names t) String.EmptyString) < at_ (tb_min t) i \/ at_ (tb_max t) i < env (nth i (tb_names t) String.EmptyString)) in
  let s' := snd (query t w s (map env (tb_user t))) in
  (out -> ts_clipped s' = S (ts_clipped s)) /\ (~ out -> ts_clipped s' = ts_clipped s /\ ts_log s' = ts_log s).
Proof.
  intros t w s env C U L MM. destruct (wiring_plain t w C U) as (D & _ & _). unfold query.
  set (buf := lookup_values t w (map env (tb_user t)) (ts_buf s)).
  assert (V : forall i, (i < length (tb_names t))%nat -> at_ buf i = env (nth i (tb_names t) String.EmptyString)).
  { intros i Hi. apply plain_values; try assumption; lia. }
  assert (Q : existsb (is_clipped t buf) (seq 0 (w_dim w)) = true <-> exists i, (i < length (tb_names t))%nat
     /\ (env (nth i (tb_names t) String.EmptyString) < at_ (tb_min t) i \/ at_ (tb_max t) i < env (nth i (tb_names t) String.EmptyString))).
  { rewrite existsb_exists. split; intros (i & Hi & B); exists i.
    - apply in_seq in Hi. split; [lia|]. rewrite <- V by lia. unfold is_clipped, clip_low in B. pose proof (MM i).
      repeat destruct (Rlt_dec _ _) in B; cbn in B; try discriminate; lra.
    - split; [apply in_seq; lia|]. rewrite <- V in B by lia. unfold is_clipped, clip_low. pose proof (MM i).
      repeat destruct (Rlt_dec _ _); cbn; try reflexivity; lra. }
  destruct (existsb _ _); cbn [snd ts_clipped ts_log]; split.
  - reflexivity.
  - intros N. exfalso. apply N, Q. reflexivity.
  - intros Y. apply Q in Y. discriminate.
  - auto.
Qed.
