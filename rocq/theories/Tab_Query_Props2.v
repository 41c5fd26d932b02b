(** C61: lookups with converters; the log of clipped lookups; tables inside converters *)
Require Import Reals List PeanoNat Bool Lia Lra Permutation Sorted.
From Verif Require Import Edge_Model Edge_Proofs Tab_Spline_Model Tab_Spline2_Model Tab_Spline2_Props Tab_Query_Model Tab_Query_Props.
From Coq Require String.
Import ListNotations.
Open Scope R_scope.

Lemma erase_nth {A} (l : list A) k i d : (k < length l)%nat -> nth i (erase l k) d = nth (if Nat.ltb i k then i else S i) l d.
Proof.
  intros Hk. unfold erase. destruct (Nat.ltb_spec i k).
  - rewrite app_nth1 by (rewrite firstn_length; lia). revert l i Hk H. induction k as [|k IH]; intros l i Hk Hi; [lia|].
    destruct l as [|a l]; [cbn in Hk; lia|]. destruct i; [reflexivity|]. cbn. apply IH; cbn in Hk; lia.
  - rewrite app_nth2 by (rewrite firstn_length; lia). rewrite firstn_length, Nat.min_l by lia.
    revert l i Hk H. induction k as [|k IH]; intros l i Hk Hi.
    + destruct l as [|a l]; [cbn in Hk; lia|]. cbn. rewrite Nat.sub_0_r. reflexivity.
    + destruct l as [|a l]; [cbn in Hk; lia|]. destruct i as [|i]; [lia|]. cbn [skipn nth Nat.sub]. apply IH; cbn in Hk; lia.
Qed.
Lemma erase_length {A} (l : list A) k : (k < length l)%nat -> length (erase l k) = (length l - 1)%nat.
Proof. intros H. unfold erase. rewrite app_length, firstn_length, skipn_length. lia. Qed.
Lemma add_missing_app l inputs : exists more, fold_left add_missing inputs l = l ++ more.
Proof.
  revert l. induction inputs as [|s m IH]; intros l; cbn [fold_left]; [exists []; rewrite app_nil_r; reflexivity|].
  destruct (IH (add_missing l s)) as [more ->]. unfold add_missing. destruct (findix l s); [eauto|]. rewrite <- app_assoc. eauto.
Qed.
Lemma add_missing_in l inputs s : In s l \/ In s inputs -> In s (fold_left add_missing inputs l).
Proof.
  revert l. induction inputs as [|a m IH]; intros l; cbn [fold_left]; [intros [I|[]]; exact I|].
  intros [I|[<-|I]]; apply IH.
  - left. unfold add_missing. destruct (findix l a); [exact I|apply in_or_app; auto].
  - left. unfold add_missing. destruct (findix l a) eqn:E; [|apply in_or_app; right; left; reflexivity].
    apply findix_some in E. destruct E as [H <-]. apply nth_In, H.
  - right. exact I.
Qed.

(** what the user expects of a table with one converter: the converter's result for the variable it
    replaces, the field of that name for every other *)
Definition with_conv (c : converter) (env : string -> R) : string -> R :=
  fun s => if string_dec s (cv_name c) then cv_query c (map env (cv_inputs c)) else env s.

(** ** C61: with one converter and the variables listed in the order the table reports, a lookup is the
    expected one *)
Theorem C61_lookup_with_converter_in_table_order : forall t c w s env,
  tb_convs t = [c] -> NoDup (tb_names t) -> update_input_mapping t = Some w -> tb_user t = w_names w ->
  length (w_names w) = length (tb_names t) -> length (ts_buf s) = length (tb_names t) ->
  fst (query t w s (map env (tb_user t))) = expected t (tb_names t) (with_conv c env).
Proof.
  intros t c w s env C ND U Hu Ld Lb. rewrite Hu. clear Hu. rewrite fst_query. unfold expected. f_equal.
  unfold update_input_mapping in U. rewrite C in U. cbn [fold_left wire_conv] in U.
  destruct (findix (tb_names t) (cv_name c)) as [idx|] eqn:Fi; [|discriminate]. apply findix_some in Fi. destruct Fi as [Hidx Eidx].
  destruct (Nat.eqb _ _); [|discriminate]. destruct (user_index _ _) as [ix|]; [|discriminate]. injection U as <-. cbn [w_names w_dim] in *.
  set (names' := fold_left add_missing (cv_inputs c) (erase (tb_names t) idx)) in *. rewrite Ld.
  set (n := length (tb_names t)) in *.
  apply map_ext_in. intros i Hi. apply in_seq in Hi. unfold checked. rewrite limited_is. f_equal.
  unfold lookup_values. rewrite C. unfold fill_conv. cbn [length seq fold_left w_conv w_convIn w_direct app nth map at_n].
  rewrite set_at_at.
  (* the directly known values *)
  assert (FK : forall m buf, length buf = n -> (m <= n - 1)%nat ->
     let b := fold_left (fun b i => set_at b (at_n (erase (seq 0 n) idx) i) (at_ (map env names') i)) (seq 0 m) buf in
     length b = n /\ forall k, (k < m)%nat -> at_ b (if Nat.ltb k idx then k else S k) = env (nth (if Nat.ltb k idx then k else S k) (tb_names t) String.EmptyString)).
  { induction m as [|m IH]; intros buf Lbuf Hm; [split; [exact Lbuf|intros; lia]|].
    rewrite seq_S, fold_left_app. cbn [fold_left]. rewrite Nat.add_0_l. destruct (IH buf Lbuf ltac:(lia)) as [Lb' A].
    split; [rewrite set_at_length; exact Lb'|]. intros k Hk. rewrite set_at_at, Lb'.
    assert (Dm : at_n (erase (seq 0 n) idx) m = if Nat.ltb m idx then m else S m).
    { unfold at_n. rewrite erase_nth by (rewrite seq_length; exact Hidx). rewrite seq_nth; [lia|]. destruct (Nat.ltb_spec m idx); lia. }
    rewrite Dm. destruct (Nat.ltb_spec (if Nat.ltb k idx then k else S k) n) as [_|Q]; [|destruct (Nat.ltb_spec k idx); lia].
    destruct (Nat.eqb_spec (if Nat.ltb k idx then k else S k) (if Nat.ltb m idx then m else S m)) as [E|N].
    - assert (k = m) as -> by (destruct (Nat.ltb_spec k idx); destruct (Nat.ltb_spec m idx); lia).
      destruct (add_missing_app (erase (tb_names t) idx) (cv_inputs c)) as [more Em]. fold names' in Em.
      rewrite env_at by (fold n in Ld; lia). rewrite Em. rewrite app_nth1 by (rewrite erase_length by exact Hidx; fold n; lia).
      rewrite erase_nth by exact Hidx. reflexivity.
    - apply A. assert (k <> m) by (intros ->; contradiction). lia. }
  unfold fill_known. rewrite erase_length, seq_length by (rewrite seq_length; exact Hidx).
  destruct (FK (n - 1)%nat (ts_buf s) Lb ltac:(lia)) as [Lf Af]. fold n. rewrite Lf.
  destruct (Nat.ltb_spec i n) as [_|]; [|lia]. unfold with_conv.
  destruct (Nat.eqb_spec i idx) as [->|Ne].
  - rewrite Eidx. destruct (string_dec (cv_name c) (cv_name c)) as [_|]; [|contradiction]. f_equal.
    rewrite map_map. apply map_ext_in. intros q Iq. unfold position.
    destruct (findix_in names' q) as [k Ek]; [apply add_missing_in; right; exact Iq|]. rewrite Ek.
    apply findix_some in Ek. destruct Ek as [Hk <-]. apply env_at, Hk.
  - destruct (string_dec (nth i (tb_names t) String.EmptyString) (cv_name c)) as [E|_].
    { exfalso. apply Ne. apply (proj1 (NoDup_nth (tb_names t) String.EmptyString) ND); [fold n; lia|exact Hidx|congruence]. }
    destruct (Nat.lt_ge_cases i idx) as [Q|Q].
    + specialize (Af i ltac:(lia)). destruct (Nat.ltb_spec i idx); [exact Af|lia].
    + specialize (Af (i - 1)%nat ltac:(lia)). destruct (Nat.ltb_spec (i - 1) idx); [lia|]. replace (S (i - 1)) with i in Af by lia. exact Af.
Qed.

(** ** C61: with a converter, the order in which the input file lists the variables matters although it is
    accepted: the lookup ignores the map from the user's order to the table's *)
Import String.StringSyntax.
Local Open Scope string_scope.
Local Open Scope R_scope.
Definition ex_table : table := mkTable ["Z"; "c"] [mkConv "c" ["C"] (fun l => at_ l 0)] ["C"; "Z"]
  [0; 0] [10; 10] [false; false] (fun l => at_ l 0).
Theorem C61_order_with_converter_refuted : exists t c w env,
  tb_convs t = [c] /\ NoDup (tb_names t) /\ update_input_mapping t = Some w /\ Permutation (tb_user t) (w_names w)
  /\ length (w_names w) = length (tb_names t)
  /\ fst (query t w (initial w) (map env (tb_user t))) <> expected t (tb_names t) (with_conv c env).
Proof.
  exists ex_table, (mkConv "c" ["C"] (fun l => at_ l 0)). eexists. exists (fun s => if string_dec s "Z" then 1 else 2).
  split; [reflexivity|]. split; [repeat constructor; cbn; intuition discriminate|]. split; [reflexivity|].
  split; [apply perm_swap|]. split; [reflexivity|].
  rewrite fst_query. unfold expected, with_conv, limited, ex_table, lookup_values, fill_conv, fill_known, checked, clip_low, clip_high, at_, at_n, initial, set_at.
  cbn. repeat (destruct (Rlt_dec _ _); try lra). all: unfold Rmin, Rmax; repeat (destruct (Rle_dec _ _); try lra).
Qed.

(** ** C61: two converters: the second result goes to the place its variable has after the first was
    plucked out, not to its place in the table *)
Definition ex_table2 : table := mkTable ["a"; "b"; "z"] [mkConv "a" ["A"] (fun l => at_ l 0); mkConv "b" ["B"] (fun l => at_ l 0)] ["z"; "A"; "B"]
  [0; 0; 0] [10; 10; 10] [false; false; false] (fun l => at_ l 0).
Theorem C61_two_converters_refuted : exists t c1 c2 w env,
  tb_convs t = [c1; c2] /\ NoDup (tb_names t) /\ update_input_mapping t = Some w /\ tb_user t = w_names w
  /\ length (w_names w) = length (tb_names t)
  /\ fst (query t w (initial w) (map env (tb_user t))) <> expected t (tb_names t) (with_conv c1 (with_conv c2 env)).
Proof.
  exists ex_table2, (mkConv "a" ["A"] (fun l => at_ l 0)), (mkConv "b" ["B"] (fun l => at_ l 0)). eexists. exists (fun s => if string_dec s "A" then 1 else 2).
  split; [reflexivity|]. split; [repeat constructor; cbn; intuition discriminate|]. split; [reflexivity|].
  split; [reflexivity|]. split; [reflexivity|].
  rewrite fst_query. unfold expected, with_conv, limited, ex_table2, lookup_values, fill_conv, fill_known, checked, clip_low, clip_high, at_, at_n, initial, set_at.
  cbn. repeat (destruct (Rlt_dec _ _); try lra). all: unfold Rmin, Rmax; repeat (destruct (Rle_dec _ _); try lra).
Qed.

(** ** C61: a converter all of whose inputs the table already has shortens the checked values below the
    table's dimension: its own result never reaches the spline *)
Definition ex_table3 (sp : list R -> R) : table := mkTable ["z"; "c"] [mkConv "c" ["z"] (fun l => 2 * at_ l 0)] ["z"] [0; 0] [10; 10] [false; false] sp.
Theorem C61_converter_without_new_input_refuted : forall sp, exists w, update_input_mapping (ex_table3 sp) = Some w
  /\ w_dim w = 1%nat /\ forall s env, 0 <= env "z" <= 10 -> length (ts_buf s) = 1%nat ->
     fst (query (ex_table3 sp) w s (map env ["z"])) = sp [env "z"].
Proof.
  intros sp. exists (mkWiring ["z"] [0%nat] [1%nat] [[0%nat]] [0%nat] 1). split; [reflexivity|]. split; [reflexivity|]. intros s env H L.
  rewrite fst_query. cbn [w_dim seq map]. change (tb_spline (ex_table3 sp)) with sp. f_equal. f_equal.
  unfold checked. rewrite limited_is. unfold lookup_values, fill_conv, fill_known. cbn [tb_convs ex_table3 length seq fold_left w_conv w_direct w_convIn nth map at_n].
  rewrite !set_at_at, set_at_length, L. cbn. unfold limited, at_. cbn. rewrite Rmax_left, Rmin_left by lra. reflexivity.
Qed.

(** ** C61: the tables inside the Chi and Gamma converters never see their inputs *)
Theorem C61_table_inside_converter_refuted : forall t dim s in1 in2, tb_convs t = [] ->
  fst (query t (nested_wiring dim) s in1) = fst (query t (nested_wiring dim) s in2)
  /\ ts_buf (snd (query t (nested_wiring dim) s in1)) = ts_buf s.
Proof.
  intros t dim s in1 in2 C. rewrite !fst_query, query_buf. unfold lookup_values. rewrite C. unfold fill_direct. cbn. split; reflexivity.
Qed.

(** ** The log of clipped lookups *)
Definition more_severe (a b : event) : Prop := ev_sev b < ev_sev a.
Lemma insert_sorted e l : StronglySorted more_severe l -> StronglySorted more_severe (insert_event e l).
Proof.
  induction 1 as [|a l SS IH F]; cbn [insert_event]; [repeat constructor|].
  destruct (Rlt_dec (ev_sev a) (ev_sev e)) as [Q|Q].
  - constructor; [constructor; assumption|]. constructor; [exact Q|]. eapply Forall_impl; [|exact F]. unfold more_severe. intros; lra.
  - destruct (Rlt_dec (ev_sev e) (ev_sev a)) as [Q2|Q2]; [|constructor; assumption]. constructor; [exact IH|].
    clear - F Q2. induction l as [|b l IHl]; cbn [insert_event]; [constructor; [exact Q2|constructor]|].
    inversion F; subst. destruct (Rlt_dec _ _); [constructor; [exact Q2|exact F]|]. destruct (Rlt_dec _ _); [constructor; auto|exact F].
Qed.
Lemma insert_in e l x : In x (insert_event e l) -> x = e \/ In x l.
Proof.
  induction l as [|a l IH]; cbn [insert_event]; [intros [->|[]]; auto|].
  destruct (Rlt_dec _ _); [intros [->|I]; auto|]. destruct (Rlt_dec _ _); [|auto]. intros [->|I]; [right; left; reflexivity|]. destruct (IH I); [auto|right; right; auto].
Qed.
Lemma insert_keeps e l x : In x l -> In x (insert_event e l).
Proof.
  induction l as [|a l IH]; cbn [insert_event]; [intros []|]. intros I. destruct (Rlt_dec _ _); [right; exact I|].
  destruct (Rlt_dec _ _); [|exact I]. destruct I as [->|I]; [left; reflexivity|right; apply IH, I].
Qed.
Lemma insert_present e l : exists x, In x (insert_event e l) /\ ev_sev x = ev_sev e.
Proof.
  induction l as [|a l IH]; cbn [insert_event]; [exists e; split; [left|]; reflexivity|].
  destruct (Rlt_dec _ _); [exists e; split; [left|]; reflexivity|]. destruct (Rlt_dec _ _).
  - destruct IH as (x & I & E). exists x. split; [right; exact I|exact E].
  - exists a. split; [left; reflexivity|lra].
Qed.
Lemma removelast_spec {A} (l : list A) : l <> [] -> exists z, l = removelast l ++ [z].
Proof. intros N. destruct (exists_last N) as (m & z & ->). exists z. rewrite removelast_last. reflexivity. Qed.
Lemma sorted_app_last m z : StronglySorted more_severe (m ++ [z]) -> StronglySorted more_severe m /\ Forall (fun a => more_severe a z) m.
Proof.
  induction m as [|a m IH]; cbn; intros SS; [split; constructor|]. inversion SS as [|? ? S1 F]; subst. destruct (IH S1) as [A B].
  apply Forall_app in F. destruct F as [F1 F2]. inversion F2; subst. split; constructor; assumption.
Qed.

(** the log after the events evs, with room for n entries *)
Definition log_of (n : nat) (evs : list event) : list event := fold_left (fun l e => log_event n e l) evs [].
(** ** C61: the log lists, most severe first, one event per severity; they are events that happened; and
    an event that happened is missing only if one of the same severity is listed or the log is full of
    more severe ones *)
Theorem C61_log_keeps_most_severe : forall n evs, (0 < n)%nat ->
  StronglySorted more_severe (log_of n evs)
  /\ (length (log_of n evs) <= n)%nat
  /\ (forall e, In e (log_of n evs) -> In e evs)
  /\ (forall e, In e evs -> (exists x, In x (log_of n evs) /\ ev_sev x = ev_sev e)
        \/ length (log_of n evs) = n /\ forall x, In x (log_of n evs) -> ev_sev e < ev_sev x).
Proof.
  intros n evs Hn. unfold log_of. induction evs as [|e evs IH] using rev_ind; [cbn; repeat split; [constructor|lia|tauto|tauto]|].
  rewrite fold_left_app. cbn [fold_left]. set (l := fold_left _ evs []) in *. destruct IH as (SS & L & Sub & Cov).
  pose proof (insert_sorted e l SS) as SS'. set (l' := insert_event e l) in *.
  assert (L' : (length l' <= S (length l))%nat).
  { unfold l'. clear. induction l as [|a l IH]; cbn [insert_event length]; [lia|]. destruct (Rlt_dec _ _); cbn [length]; [lia|]. destruct (Rlt_dec _ _); cbn [length]; lia. }
  assert (Sub' : forall x, In x l' -> In x (evs ++ [e])).
  { intros x I. apply in_or_app. destruct (insert_in e l x I) as [->|I']; [right; left; reflexivity|left; apply Sub, I']. }
  assert (Cov' : forall x, In x (evs ++ [e]) -> (exists y, In y l' /\ ev_sev y = ev_sev x)
        \/ length l = n /\ forall y, In y l -> ev_sev x < ev_sev y).
  { intros x I. apply in_app_or in I. destruct I as [I|[<-|[]]].
    - destruct (Cov x I) as [(y & Iy & Ey)|Full]; [left; exists y; split; [apply insert_keeps, Iy|exact Ey]|right; exact Full].
    - left. apply insert_present. }
  unfold log_event. fold l'. destruct (Nat.ltb_spec n (length l')) as [Q|Q].
  - assert (l' <> []) as Ne by (intros E; rewrite E in Q; cbn in Q; lia).
    destruct (removelast_spec l' Ne) as [z Ez]. set (r := removelast l') in *.
    assert (Lr : length l' = S (length r)) by (rewrite Ez at 1; rewrite app_length; cbn; lia).
    rewrite Ez in SS'. apply sorted_app_last in SS'. destruct SS' as [Sr Fr].
    split; [exact Sr|]. split; [lia|]. split.
    { intros x I. apply Sub'. rewrite Ez. apply in_or_app. left. exact I. }
    intros x I. assert (Lf : length r = n) by lia. assert (Fz : forall y, In y r -> ev_sev z < ev_sev y) by (apply Forall_forall in Fr || idtac; intros y Iy; rewrite Forall_forall in Fr; apply (Fr y Iy)).
    destruct (Cov' x I) as [(y & Iy & Ey)|[Fl Full]].
    + rewrite Ez in Iy. apply in_app_or in Iy. destruct Iy as [Iy|[<-|[]]]; [left; eauto|]. right. split; [exact Lf|]. intros y Iy. rewrite <- Ey. apply Fz, Iy.
    + right. split; [exact Lf|]. intros y Iy.
      destruct (insert_in e l y) as [->|Il]; [fold l'; rewrite Ez; apply in_or_app; left; exact Iy| |apply Full, Il].
      (* e is in r, so z, an old entry, is less severe than e *)
      assert (Iz : In z l).
      { destruct (insert_in e l z) as [->|Il]; [fold l'; rewrite Ez; apply in_or_app; right; left; reflexivity| |exact Il].
        exfalso. specialize (Fz e Iy). lra. }
      pose proof (Full z Iz). pose proof (Fz e Iy). lra.
  - split; [exact SS'|]. split; [lia|]. split; [exact Sub'|]. intros x I. destruct (Cov' x I) as [Y|[Fl Full]]; [left; exact Y|].
    (* nothing was inserted *)
    right. assert (E : l' = l).
    { assert (K : forall m, (length (insert_event e m) <= length m)%nat -> insert_event e m = m).
      { clear. induction m as [|a m IH]; cbn [insert_event length]; [lia|]. destruct (Rlt_dec _ _); cbn [length]; [lia|]. destruct (Rlt_dec _ _); cbn [length]; [|reflexivity]. intros H. f_equal. apply IH. lia. }
      apply K. fold l'. lia. }
    rewrite E. split; [exact Fl|exact Full].
Qed.

(** ** C61: lowering the size of the log does not shrink it *)
Theorem C61_log_size_lowered_refuted : exists evs e, let l := log_of 10 evs in (length l = 3 /\ length (log_event 1 e l) = 3)%nat.
Proof.
  exists [mkEvent 2 []; mkEvent 3 []; mkEvent 4 []], (mkEvent 5 []). unfold log_of, log_event. cbn [fold_left insert_event ev_sev].
  cbn. repeat (destruct (Rlt_dec _ _); try lra; cbn). split; reflexivity.
Qed.
(** ** C61: a clipped lookup as severe as an earlier one is not logged *)
Theorem C61_equally_severe_event_refuted : exists e1 e2, e1 <> e2 /\ log_of 10 [e1; e2] = [e1].
Proof.
  exists (mkEvent 2 [1]), (mkEvent 2 [3]). split; [intros E; injection E; lra|]. unfold log_of, log_event. cbn [fold_left insert_event ev_sev].
  cbn. destruct (Rlt_dec 2 2); [lra|]. destruct (Rlt_dec 2 2); [lra|]. reflexivity.
Qed.

(** ** C61: the mixture fractions of the enthalpy converter *)
Definition rsum_l (l : list R) : R := fold_right Rplus 0 l.
Lemma rsum_app a b : rsum_l (a ++ b) = rsum_l a + rsum_l b.
Proof. unfold rsum_l. induction a as [|x a IH]; cbn; [lra|rewrite IH; lra]. Qed.
Theorem C61_mixture_fractions_sum_to_one : forall zs, rsum_l (augmented_mixfrac zs) = 1
  /\ length (augmented_mixfrac zs) = S (length zs)
  /\ ((forall z, In z zs -> 0 <= z) -> forall a, In a (augmented_mixfrac zs) -> 0 <= a <= 1)
  /\ ((forall z, In z zs -> 0 <= z) -> rsum_l zs <= 1 -> augmented_mixfrac zs = zs ++ [1 - rsum_l zs]).
Proof.
  intros zs. unfold augmented_mixfrac.
  assert (K : let st := fold_left aug_step zs ([], 1) in rsum_l (fst st) + snd st = 1 /\ length (fst st) = length zs
     /\ ((forall z, In z zs -> 0 <= z) -> 0 <= snd st /\ forall a, In a (fst st) -> 0 <= a)
     /\ ((forall z, In z zs -> 0 <= z) -> rsum_l zs <= 1 -> fst st = zs)).
  { induction zs as [|z zs IH] using rev_ind; [cbn; repeat split; try lra; intros; tauto|].
    rewrite fold_left_app. cbn [fold_left]. destruct (fold_left aug_step zs ([], 1)) as [l r]. unfold aug_step. cbn [fst snd] in *.
    destruct IH as (A & B & C & D). rewrite rsum_app, !app_length, B. cbn [rsum_l fold_right length]. split; [lra|]. split; [lia|]. split.
    - intros P. assert (Pz : 0 <= z) by (apply P, in_or_app; right; left; reflexivity).
      destruct C as [C1 C2]; [intros; apply P, in_or_app; auto|]. split; [unfold Rmin; destruct (Rle_dec _ _); lra|].
      intros a I. apply in_app_or in I. destruct I as [I|[<-|[]]]; [apply C2, I|]. unfold Rmin; destruct (Rle_dec _ _); lra.
    - intros P Q. rewrite rsum_app in Q. cbn [rsum_l fold_right] in Q. assert (Pz : 0 <= z) by (apply P, in_or_app; right; left; reflexivity).
      assert (El : l = zs) by (apply D; [intros; apply P, in_or_app; auto|lra]). rewrite El in *. f_equal. f_equal. unfold Rmin. destruct (Rle_dec _ _); lra. }
  cbn zeta in K. destruct (fold_left aug_step zs ([], 1)) as [l r]. cbn [fst snd] in *. destruct K as (A & B & C & D).
  rewrite rsum_app, app_length, B. cbn [rsum_l fold_right length]. split; [lra|]. split; [lia|]. split.
  - intros P a I. destruct (C P) as [C1 C2].
    assert (0 <= rsum_l l) by (clear - C2; unfold rsum_l; induction l as [|x l IH]; cbn; [lra|]; pose proof (C2 x (or_introl eq_refl)); assert (0 <= fold_right Rplus 0 l) by (apply IH; intros; apply C2; right; assumption); lra).
    assert (Le : forall a, In a l -> a <= rsum_l l).
    { clear - C2. unfold rsum_l. induction l as [|x l IH]; intros a I; [destruct I|]. cbn. pose proof (C2 x (or_introl eq_refl)).
      assert (0 <= fold_right Rplus 0 l) by (clear IH I; induction l as [|y l IH]; cbn; [lra|]; pose proof (C2 y (or_intror (or_introl eq_refl))); assert (0 <= fold_right Rplus 0 l) by (apply IH; intros b [Ib|Ib]; apply C2; [left; exact Ib|right; right; exact Ib]); lra).
      destruct I as [->|I]; [lra|]. assert (a <= fold_right Rplus 0 l) by (apply IH; [intros; apply C2; right; assumption|exact I]). lra. }
    apply in_app_or in I. destruct I as [I|[<-|[]]]; [pose proof (C2 a I); pose proof (Le a I); lra|lra].
  - intros P Q. rewrite (D P Q) in *. f_equal. f_equal. lra.
Qed.
(** ** C61: where enthalpy can vary, the converted enthalpy is the one whose mixture is the given value *)
Theorem C61_enthalpy_conversion_inverts_mixture : forall refMin a streamMin zs h,
  1 / 10 ^ 16 < Rabs (mixture_property (augmented_mixfrac zs) a) ->
  mixture_property (augmented_mixfrac zs) streamMin
    + mixture_property (augmented_mixfrac zs) a * (hstar_query refMin a streamMin zs h - refMin) = h.
Proof.
  intros refMin a streamMin zs h H. unfold hstar_query. cbn zeta. destruct (Rlt_dec _ _); [|lra]. field. intros E. rewrite E, Rabs_R0 in H. 
  assert (0 < 1 / 10 ^ 16) by (apply Rdiv_lt_0_compat; [lra|apply pow_lt; lra]). lra.
Qed.

(** concrete tables meet the hypotheses *)
Example C61_meets : exists w, update_input_mapping (mkTable ["Z"; "c"] [] ["c"; "Z"] [0;0] [1;1] [false;true] (fun l => at_ l 0)) = Some w /\ w_index w = [1;0]%nat.
Proof. eexists. split; reflexivity. Qed.
Example C61_meets_converter : exists w, update_input_mapping (mkTable ["Z"; "c"] [mkConv "c" ["C"] (fun l => at_ l 0)] ["Z"; "C"] [0;0] [1;1] [false;false] (fun l => at_ l 0)) = Some w
  /\ w_names w = ["Z"; "C"].
Proof. eexists. split; reflexivity. Qed.
