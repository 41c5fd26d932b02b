Require Import Reals List Arith Bool Lra Lia Permutation.
From Verif Require Import RUtil Periodic_Model.
Import ListNotations.
Open Scope R_scope.

(* ------------------------------------------------------------------ C18 *)
Definition on_some_subject (ps : list spair) (n : nat) : bool := existsb (fun p => snd p n) ps.

Ltac sel := unfold search_pairs, augment, remove_redundant, both, with_subject, sand, sor, sminus, on_some_subject in *; cbn in *.

(** every node of the subject surfaces is in exactly one search set, every other node in none *)
Theorem C18_each_subject_node_once ps n : (1 <= length ps <= 3)%nat ->
  length (filter (fun p => snd p n) (search_pairs ps)) = if on_some_subject ps n then 1%nat else 0%nat.
Proof.
  intros H. destruct ps as [|a [|b [|c [|d ps]]]]; cbn in H; try lia; sel.
  - destruct a as [fa sa]; cbn; destruct (sa n); reflexivity.
  - destruct a as [fa sa], b as [fb sb]; cbn; destruct (sa n), (sb n); reflexivity.
  - destruct a as [fa sa], b as [fb sb], c as [fc sc]; cbn; destruct (sa n), (sb n), (sc n); reflexivity.
Qed.
(** and it is searched against exactly the monarchs of all the surfaces it lies on *)
Theorem C18_searched_against_all_directions ps p n m : (1 <= length ps <= 3)%nat ->
  In p (search_pairs ps) -> snd p n = true ->
  (fst p m = true <-> forall q, In q ps -> snd q n = true -> fst q m = true).
Proof.
  intros H Hin Hn. destruct ps as [|a [|b [|c [|d ps]]]]; cbn in H; try lia.
  - cbn in Hin. destruct Hin as [<-|[]]. split.
    + intros Hm q [<-|[]] _. exact Hm.
    + intros Hq. apply Hq; [left; reflexivity|exact Hn].
  - sel. split.
    + intros Hm q [<-|[<-|[]]] Hq; repeat (destruct Hin as [<-|Hin]; [cbn in *; rewrite ?Hq in *; destruct (snd a n), (snd b n); cbn in *; try discriminate;
        try (apply andb_prop in Hm; destruct Hm); assumption|]); destruct Hin.
    + intros Hq. pose proof (Hq a (or_introl eq_refl)) as Ha. pose proof (Hq b (or_intror (or_introl eq_refl))) as Hb.
      repeat (destruct Hin as [<-|Hin]; [cbn in *; destruct (snd a n), (snd b n); cbn in *; try discriminate; rewrite ?Ha, ?Hb by reflexivity; reflexivity|]); destruct Hin.
  - sel. split.
    + intros Hm q [<-|[<-|[<-|[]]]] Hq; repeat (destruct Hin as [<-|Hin]; [cbn in *; rewrite ?Hq in *; destruct (snd a n), (snd b n), (snd c n); cbn in *; try discriminate;
        repeat (apply andb_prop in Hm; destruct Hm as [Hm ?]); assumption|]); destruct Hin.
    + intros Hq. pose proof (Hq a (or_introl eq_refl)) as Ha. pose proof (Hq b (or_intror (or_introl eq_refl))) as Hb.
      pose proof (Hq c (or_intror (or_intror (or_introl eq_refl)))) as Hc.
      repeat (destruct Hin as [<-|Hin]; [cbn in *; destruct (snd a n), (snd b n), (snd c n); cbn in *; try discriminate; rewrite ?Ha, ?Hb, ?Hc by reflexivity; reflexivity|]); destruct Hin.
Qed.
Example C18_corner_example : (* a corner of a doubly periodic box *)
  let A : spair := (fun n => Nat.eqb n 0 || Nat.eqb n 1, fun n => Nat.eqb n 2 || Nat.eqb n 3) in
  let B : spair := (fun n => Nat.eqb n 0 || Nat.eqb n 2, fun n => Nat.eqb n 1 || Nat.eqb n 3) in
  map (fun p => filter (snd p) [0;1;2;3]%nat) (search_pairs [A; B]) = [[2]; [1]; [3]]%nat.
Proof. reflexivity. Qed.
(** with more than three pairs, or with seven given by the user, shared subject nodes are not handled *)
Theorem C18_more_than_three_pairs_refuted :
  ~ (forall ps n, (1 <= length ps)%nat -> (length (filter (fun p => snd p n) (search_pairs ps)) <= 1)%nat).
Proof.
  intros H. pose (s := (fun _ : nat => false, fun _ : nat => true) : spair). specialize (H [s; s; s; s] 0%nat). cbn in H. lia.
Qed.
Theorem C18_seven_disjoint_pairs_lose_nodes_refuted :
  ~ (forall ps n, length ps = 7%nat -> length (filter (fun p => snd p n) ps) = 1%nat ->
       length (filter (fun p => snd p n) (search_pairs ps)) = 1%nat).
Proof.
  intros H. pose (e := (fun _ : nat => false, fun _ : nat => false) : spair).
  pose (s := (fun _ : nat => true, fun _ : nat => true) : spair).
  specialize (H [e; e; e; s; e; e; e] 0%nat eq_refl eq_refl). cbn in H. discriminate.
Qed.

(* ------------------------------------------------------------------ C19 *)
Lemma rsum_acc l : forall a, fold_left Rplus l a = a + rsum l.
Proof.
  unfold rsum. induction l as [|x l IH]; intros a; cbn [fold_left]; [ring|]. rewrite IH, (IH (0+x)). ring.
Qed.
Lemma rsum_cons x l : rsum (x :: l) = x + rsum l.
Proof. unfold rsum at 1. cbn [fold_left]. rewrite rsum_acc. ring. Qed.
Lemma rsum_app a b : rsum (a ++ b) = rsum a + rsum b.
Proof. induction a as [|x a IH]; [cbn [app]; change (rsum []) with 0; ring|]. cbn [app]. rewrite !rsum_cons, IH. ring. Qed.
Lemma rsum_concat l : rsum (map rsum l) = rsum (concat l).
Proof. induction l as [|x l IH]; [reflexivity|]. cbn [map concat]. rewrite rsum_cons, rsum_app, IH. reflexivity. Qed.
Lemma rsum_perm a b : Permutation a b -> rsum a = rsum b.
Proof. induction 1; rewrite ?rsum_cons; lra. Qed.
Lemma rsum_shift d l : rsum (map (fun x => x - d) l) = rsum l - INR (length l) * d.
Proof.
  induction l as [|x l IH]; [unfold rsum; cbn; ring|]. cbn [map length]. rewrite !rsum_cons, IH, S_INR. ring.
Qed.
(** For a subject surface that is the monarch surface shifted by -d, in any order and with any distribution of
    either surface over ranks, the translation is exactly d. *)
Theorem C19_translation_is_the_shift monarch subject d :
  concat monarch <> [] -> Permutation (concat subject) (map (fun x => x - d) (concat monarch)) ->
  translation monarch subject = d.
Proof.
  intros Hne HP. unfold translation. rewrite !rsum_concat, (rsum_perm _ _ HP), rsum_shift.
  assert (INR (length (concat monarch)) <> 0).
  { apply not_0_INR. destruct (concat monarch); [congruence|cbn; lia]. }
  field. assumption.
Qed.
Example C19_example : translation [[1; 2]; [5]] [[]; [5-3; 1-3; 2-3]] = 3.
Proof.
  apply C19_translation_is_the_shift; [discriminate|]. cbn.
  apply Permutation_sym. apply perm_trans with [2-3; 1-3; 5-3]; [apply perm_swap|].
  apply perm_trans with [2-3; 5-3; 1-3]; [apply perm_skip, perm_swap|].
  apply perm_trans with [5-3; 2-3; 1-3]; [apply perm_swap|]. apply perm_skip, perm_swap.
Qed.

Lemma d2_zero n a b : (forall j, (j < n)%nat -> a j = b j) -> d2 n a b = 0.
Proof.
  induction n as [|n IH]; intros H; [reflexivity|]. cbn [d2]. rewrite IH by (intros; apply H; lia). rewrite (H n) by lia. ring.
Qed.
Lemma d2_ext n a b c : (forall j, (j < n)%nat -> a j = b j) -> d2 n a c = d2 n b c.
Proof.
  induction n as [|n IH]; intros H; [reflexivity|]. cbn [d2]. rewrite IH by (intros; apply H; lia). rewrite (H n) by lia. reflexivity.
Qed.
Lemma filter_single {A} (f : A -> bool) (l : list A) x : NoDup l -> In x l -> (forall y, In y l -> f y = true <-> y = x) -> filter f l = [x].
Proof.
  induction l as [|a l IH]; intros ND Hin Hf; [destruct Hin|]. inversion ND; subst. cbn [filter].
  destruct (f a) eqn:E.
  - assert (a = x) by (apply Hf; [left; reflexivity|exact E]). subst a. f_equal.
    assert (G : forall l', (forall y, In y l' -> In y l) -> filter f l' = []).
    { induction l' as [|y l' IH']; intros G; [reflexivity|]. cbn. destruct (f y) eqn:Ey.
      - assert (y = x) by (apply Hf; [right; apply G; left; reflexivity|exact Ey]). subst. exfalso. apply H1. apply G. left; reflexivity.
      - apply IH'. intros z Hz. apply G. right; exact Hz. }
    apply G. auto.
  - apply IH; [assumption| |intros; apply Hf; right; assumption].
    destruct Hin as [->|Hin]; [|exact Hin]. assert (f x = true) by (apply Hf; [left; reflexivity|reflexivity]). congruence.
Qed.
(** With an exactly periodic mesh whose monarch points are further apart than twice the sphere radius, the search
    pairs every subject with its image and with nothing else. *)
Theorem C19_search_finds_exactly_the_images nDim tol X shift subjects monarchs im :
  0 <= tol -> NoDup monarchs ->
  (forall s, In s subjects -> In (im s) monarchs /\ forall j, (j < nDim)%nat -> X s j + shift j = X (im s) j) ->
  (forall m m', In m monarchs -> In m' monarchs -> m <> m' -> (2*tol)*(2*tol) < d2 nDim (X m) (X m')) ->
  search nDim tol X shift subjects monarchs = map (fun s => (s, im s)) subjects.
Proof.
  intros Ht ND Him Hsep. unfold search.
  assert (P : 0 <= (2*tol)*(2*tol)) by (apply Rmult_le_pos; lra).
  induction subjects as [|s ss IH]; [reflexivity|]. cbn [flat_map map].
  destruct (Him s (or_introl eq_refl)) as [Hi Hx].
  rewrite (filter_single _ monarchs (im s)).
  - cbn [map app]. f_equal. apply IH. intros; apply Him; right; assumption.
  - exact ND.
  - exact Hi.
  - intros m Hm. unfold hits.
    rewrite (d2_ext nDim (fun j => X s j + shift j) (X (im s))) by exact Hx.
    destruct (Rle_dec (d2 nDim (X (im s)) (X m)) (2*tol*(2*tol))) as [L|L].
    + split; [|reflexivity]. intros _. destruct (Nat.eq_dec (im s) m) as [->|NE]; [reflexivity|]. exfalso.
      pose proof (Hsep _ _ Hi Hm NE). lra.
    + split; [discriminate|]. intros ->. exfalso. apply L. rewrite d2_zero by reflexivity. exact P.
Qed.

(* ------------------------------------------------------------------ C44: the accepted search *)
(** success means the number of results equals the number of subject nodes, at some tolerance tol*5^k *)
Theorem C44_accepted_search_has_matching_count found nS maxErr fuel : forall e tol c tol',
  finalize_search found nS maxErr fuel e tol = Some (c, tol') -> c = nS /\ found tol' = nS.
Proof.
  induction fuel as [|f IH]; intros e tol c tol'; cbn [finalize_search].
  - destruct (Nat.eqb_spec nS (found tol)); [|destruct (Nat.eqb (S e) maxErr); discriminate]. intros H; inversion H; subst. auto.
  - destruct (Nat.eqb_spec nS (found tol)); [intros H; inversion H; subst; auto|].
    destruct (Nat.eqb (S e) maxErr); [discriminate|]. apply IH.
Qed.
(** starting with no errors, at most maxErrorCount searches are made: more fuel changes nothing *)
Theorem C44_bounded_number_of_attempts found nS maxErr : forall fuel e tol extra, (e < maxErr)%nat -> (maxErr - e <= S fuel)%nat ->
  finalize_search found nS maxErr fuel e tol = finalize_search found nS maxErr (fuel + extra) e tol.
Proof.
  induction fuel as [|f IH]; intros e tol extra He Hf.
  - assert (S e = maxErr) by lia. destruct extra; cbn [finalize_search Nat.add]; [reflexivity|].
    destruct (Nat.eqb nS (found tol)); [reflexivity|]. rewrite H, Nat.eqb_refl. reflexivity.
  - cbn [finalize_search Nat.add]. destruct (Nat.eqb nS (found tol)); [reflexivity|].
    destruct (Nat.eqb_spec (S e) maxErr); [reflexivity|]. apply IH; lia.
Qed.
(** the tolerance is adapted in the right direction: whenever there is a range of tolerances [a, b] (with b at least five times a) in which
    the right number of pairs is found, too few being found below it and too many above, the search ends with a tolerance from that
    range, from any starting value at most n factors of five away *)
Theorem C44_adaptive_tolerance_converges found nS maxErr a b : 0 < a -> 5 * a <= b ->
  (forall t, t < a -> (found t < nS)%nat) -> (forall t, a <= t <= b -> found t = nS) -> (forall t, b < t -> (nS < found t)%nat) ->
  forall n fuel e tol, (e + n < maxErr)%nat -> (n <= fuel)%nat -> a <= tol * 5^n -> tol <= b * 5^n ->
  exists tol', a <= tol' <= b /\ finalize_search found nS maxErr fuel e tol = Some (nS, tol').
Proof.
  intros Ha Hab Hlow Hin Hhigh. induction n as [|n IH]; intros fuel e tol He Hf H1 H2.
  - cbn [pow] in H1, H2. exists tol. split; [lra|]. destruct fuel; cbn [finalize_search]; rewrite Hin, Nat.eqb_refl by lra; reflexivity.
  - assert (P : 1 <= 5^n) by (apply pow_R1_Rle; lra). cbn [pow] in H1, H2.
    destruct (Rlt_dec tol a) as [L|L]; [|destruct (Rlt_dec b tol) as [G|G]].
    + pose proof (Hlow _ L) as F. destruct fuel as [|fuel]; [lia|]. cbn [finalize_search].
      destruct (Nat.eqb_spec nS (found tol)); [lia|]. destruct (Nat.eqb_spec (S e) maxErr); [lia|].
      destruct (Nat.ltb_spec (found tol) nS); [|lia]. apply IH; [lia|lia|nra|nra].
    + pose proof (Hhigh _ G) as F. destruct fuel as [|fuel]; [lia|]. cbn [finalize_search].
      destruct (Nat.eqb_spec nS (found tol)); [lia|]. destruct (Nat.eqb_spec (S e) maxErr); [lia|].
      destruct (Nat.ltb_spec (found tol) nS); [lia|]. apply IH; [lia|lia|nra|lra].
    + exists tol. split; [lra|]. destruct fuel; cbn [finalize_search]; rewrite Hin, Nat.eqb_refl by lra; reflexivity.
Qed.
(** for an exactly periodic mesh the first attempt is accepted *)
Theorem C44_matching_mesh_accepted_at_once nDim tol X shift subjects monarchs im maxErr fuel :
  0 <= tol -> NoDup monarchs ->
  (forall s, In s subjects -> In (im s) monarchs /\ forall j, (j < nDim)%nat -> X s j + shift j = X (im s) j) ->
  (forall m m', In m monarchs -> In m' monarchs -> m <> m' -> (2*tol)*(2*tol) < d2 nDim (X m) (X m')) ->
  finalize_search (fun t => length (search nDim t X shift subjects monarchs)) (length subjects) maxErr fuel 0 tol = Some (length subjects, tol).
Proof.
  intros Ht ND Him Hsep.
  assert (E : length (search nDim tol X shift subjects monarchs) = length subjects).
  { rewrite (C19_search_finds_exactly_the_images nDim tol X shift subjects monarchs im Ht ND Him Hsep). apply map_length. }
  destruct fuel; cbn [finalize_search]; rewrite E, Nat.eqb_refl; reflexivity.
Qed.
(** but equality of counts does not show that every subject was paired once: one subject with two hits hides another
    with none *)
Theorem C44_count_check_is_not_enough_refuted :
  ~ (forall nDim tol X shift subjects monarchs c tol', 0 < tol -> NoDup subjects -> NoDup monarchs ->
      finalize_search (fun t => length (search nDim t X shift subjects monarchs)) (length subjects) 10 10 0 tol = Some (c, tol') ->
      forall s, In s subjects -> exists m, In (s, m) (search nDim tol' X shift subjects monarchs)).
Proof.
  intros H.
  pose (X := fun (n : nat) (_ : nat) => match n with 0%nat => 0 | 1%nat => 1 | 2%nat => 1/2 | _ => 10 end).
  assert (Hs : search 1 1 X (fun _ => 0) [2;3]%nat [0;1]%nat = [(2,0); (2,1)]%nat).
  { unfold search. cbn [flat_map filter map app]. unfold hits. cbn [d2 X].
    repeat match goal with |- context [Rle_dec ?a ?b] => destruct (Rle_dec a b); [try (exfalso; lra)|try (exfalso; lra)] end. reflexivity. }
  specialize (H 1%nat 1 X (fun _ => 0) [2;3]%nat [0;1]%nat 2%nat 1 ltac:(lra)).
  rewrite Hs in H.
  destruct (H ltac:(repeat constructor; cbn; lia) ltac:(repeat constructor; cbn; lia)) with (s := 3%nat) as [m Hm].
  - cbn [finalize_search]. rewrite Hs. reflexivity.
  - cbn; tauto.
  - cbn in Hm. destruct Hm as [E|[E|[]]]; inversion E.
Qed.

(* ------------------------------------------------------------------ C20 *)
Definition psum (f : nat * nat -> R) (l : list (nat * nat)) : R := fold_right (fun x a => f x + a) 0 l.
Lemma psum_perm f a b : Permutation a b -> psum f a = psum f b.
Proof. unfold psum. induction 1; cbn [fold_right]; lra. Qed.
Lemma psum_cons f x l : psum f (x :: l) = f x + psum f l.
Proof. reflexivity. Qed.
Lemma psum_filter f (g : nat * nat -> bool) l : (forall x, In x l -> g x = false -> f x = 0) -> psum f (filter g l) = psum f l.
Proof.
  induction l as [|x l IH]; intros H; [reflexivity|]. cbn [filter]. rewrite (psum_cons f x l).
  rewrite <- IH by (intros; apply H; [right|]; assumption).
  destruct (g x) eqn:E; [reflexivity|]. rewrite (H x (or_introl eq_refl) E). ring.
Qed.
Lemma psum_ext f g l : (forall x, In x l -> f x = g x) -> psum f l = psum g l.
Proof. induction l as [|x l IH]; intros H; [reflexivity|]. rewrite !psum_cons, H, IH; [reflexivity| |left; reflexivity]. intros; apply H; right; assumption. Qed.

(** specification of the parallel periodic data: all (monarch, subject) pairs of the mesh *)
Record periodic (w : par) (All : list (nat * nat)) : Prop := {
  p_subjects : NoDup (map snd All);                                       (* each subject once *)
  p_apart : forall m s m' s', In (m, s) All -> In (m', s') All -> m <> s';(* no node is both *)
  p_comm : forall p, Permutation (comm w p) (filter (fun pr => Nat.eqb (owner w (fst pr)) p || Nat.eqb (owner w (snd pr)) p) All);
  p_ghost : forall p m s, In (m, s) (comm w p) -> (owner w m <> p -> ghosted w p m = true) /\ (owner w s <> p -> ghosted w p s = true);
  p_not_own : forall p n, ghosted w p n = true -> owner w n <> p }.
(** the class representative of a node, and the sum of the class *)
Definition monarch_of (All : list (nat * nat)) (n : nat) : nat :=
  match find (fun pr => Nat.eqb (snd pr) n) All with Some pr => fst pr | None => n end.
Definition class_sum (w : par) (All : list (nat * nat)) (f : field) (r : nat) : R :=
  f (owner w r) r + psum (fun pr => if Nat.eqb (fst pr) r then f (owner w (snd pr)) (snd pr) else 0) All.

Lemma fold_add_other l : forall v n, (forall m s, In (m, s) l -> m <> n) -> fold_left add1 l v n = v n.
Proof.
  induction l as [|[m s] l IH]; intros v n H; [reflexivity|]. cbn [fold_left]. rewrite IH by (intros; eapply H; right; eassumption).
  unfold add1, upd. cbn [fst]. destruct (Nat.eqb_spec n m); [|reflexivity]. subst. exfalso. eapply H; [left; reflexivity|reflexivity].
Qed.
Lemma fold_add l : forall v n, (forall m s m' s', In (m, s) l -> In (m', s') l -> m <> s') ->
  fold_left add1 l v n = v n + psum (fun pr => if Nat.eqb (fst pr) n then v (snd pr) else 0) l.
Proof.
  induction l as [|[m s] l IH]; intros v n H; [cbn; ring|]. cbn [fold_left]. rewrite psum_cons. cbn [fst snd].
  rewrite IH by (intros; eapply H; right; eassumption).
  rewrite (psum_ext _ (fun pr => if Nat.eqb (fst pr) n then v (snd pr) else 0)).
  - unfold add1, upd. cbn [fst snd]. destruct (Nat.eqb_spec n m) as [->|NE].
    + rewrite Nat.eqb_refl. ring.
    + destruct (Nat.eqb_spec m n); [congruence|]. ring.
  - intros [m' s'] Hin. cbn [fst snd]. unfold add1, upd. cbn [fst snd].
    destruct (Nat.eqb_spec s' m) as [->|_]; [|reflexivity]. exfalso.
    eapply H; [left; reflexivity|right; eassumption|reflexivity].
Qed.
Lemma fold_set_other l : forall v n, (forall m s, In (m, s) l -> s <> n) -> fold_left set1 l v n = v n.
Proof.
  induction l as [|[m s] l IH]; intros v n H; [reflexivity|]. cbn [fold_left]. rewrite IH by (intros; eapply H; right; eassumption).
  unfold set1, upd. cbn [fst snd]. destruct (Nat.eqb_spec n s); [|reflexivity]. subst. exfalso. eapply H; [left; reflexivity|reflexivity].
Qed.
Lemma fold_set l : forall v m s, NoDup (map snd l) -> (forall m s m' s', In (m, s) l -> In (m', s') l -> m <> s') ->
  In (m, s) l -> fold_left set1 l v s = v m.
Proof.
  induction l as [|[m0 s0] l IH]; intros v m s ND H Hin; [destruct Hin|]. cbn [fold_left]. cbn in ND. inversion ND; subst.
  destruct Hin as [E|Hin].
  - inversion E; subst. rewrite fold_set_other.
    + unfold set1, upd. cbn [fst snd]. rewrite Nat.eqb_refl. reflexivity.
    + intros m' s' Hin ->. apply H2. apply (in_map snd) in Hin. exact Hin.
  - rewrite (IH _ m s) by (try assumption; intros; eapply H; right; eassumption).
    unfold set1, upd. cbn [fst snd]. destruct (Nat.eqb_spec m s0); [|reflexivity]. subst. exfalso.
    eapply H; [right; exact Hin|left; reflexivity|reflexivity].
Qed.

Section C20.
Variable w : par. Variable All : list (nat * nat). Hypothesis W : periodic w All.

Lemma comm_in p m s : In (m, s) (comm w p) -> In (m, s) All /\ (owner w m = p \/ owner w s = p).
Proof.
  intros H. apply (Permutation_in _ (p_comm _ _ W p)) in H. apply filter_In in H. destruct H as [A B]. split; [exact A|].
  cbn [fst snd] in B. apply orb_prop in B. destruct B as [B|B]; apply Nat.eqb_eq in B; auto.
Qed.
Lemma comm_has p m s : In (m, s) All -> owner w m = p \/ owner w s = p -> In (m, s) (comm w p).
Proof.
  intros H B. apply (Permutation_in _ (Permutation_sym (p_comm _ _ W p))). apply filter_In. split; [exact H|]. cbn [fst snd].
  apply orb_true_iff. destruct B as [B|B]; [left|right]; apply Nat.eqb_eq; exact B.
Qed.
Lemma comm_apart p m s m' s' : In (m, s) (comm w p) -> In (m', s') (comm w p) -> m <> s'.
Proof. intros A B. apply comm_in in A. apply comm_in in B. eapply (p_apart _ _ W); [apply A|apply B]. Qed.
Lemma comm_nodup p : NoDup (map snd (comm w p)).
Proof.
  apply (Permutation_NoDup (Permutation_sym (Permutation_map snd (p_comm _ _ W p)))).
  pose proof (p_subjects _ _ W) as ND. revert ND. generalize All as l. induction l as [|[m s] l IH]; intros ND; [constructor|].
  cbn in ND. inversion ND; subst. cbn [filter fst snd]. destruct (_ || _)%bool; [|apply IH; assumption].
  cbn [map snd]. constructor; [|apply IH; assumption]. intros C. apply H1. apply in_map_iff in C. destruct C as ((a & b) & E & C).
  apply filter_In in C. destruct C as [C _]. cbn in E. subst b. exact (in_map snd _ _ C).
Qed.
Lemma communicate_own f n : communicate w f (owner w n) n = f (owner w n) n.
Proof. unfold communicate. destruct (ghosted w (owner w n) n); reflexivity. Qed.
Lemma communicate_pair f p m s : In (m, s) (comm w p) -> communicate w f p m = f (owner w m) m /\ communicate w f p s = f (owner w s) s.
Proof.
  intros H. destruct (p_ghost _ _ W p m s H) as [A B]. unfold communicate. split.
  - destruct (ghosted w p m) eqn:E; [reflexivity|]. destruct (Nat.eq_dec (owner w m) p) as [<-|N]; [reflexivity|]. specialize (A N); congruence.
  - destruct (ghosted w p s) eqn:E; [reflexivity|]. destruct (Nat.eq_dec (owner w s) p) as [<-|N]; [reflexivity|]. specialize (B N); congruence.
Qed.
Lemma add_own f n : add_subject_to_monarch w f (owner w n) n = class_sum w All f n.
Proof.
  unfold add_subject_to_monarch. cbv zeta. rewrite communicate_own, fold_add by (intros; eapply comm_apart; eassumption).
  unfold class_sum. rewrite communicate_own. f_equal.
  rewrite (psum_perm _ _ _ (p_comm _ _ W (owner w n))).
  rewrite (psum_filter (fun pr => if Nat.eqb (fst pr) n then communicate w f (owner w n) (snd pr) else 0)).
  - apply psum_ext. intros [m s] Hin. cbn [fst snd]. destruct (Nat.eqb_spec m n) as [->|]; [|reflexivity].
    apply (communicate_pair f (owner w n) n s). apply comm_has; [exact Hin|left; reflexivity].
  - intros [m s] _. cbn [fst snd]. intros E. apply orb_false_iff in E. destruct E as [E _].
    destruct (Nat.eqb_spec m n) as [->|]; [|reflexivity]. rewrite Nat.eqb_refl in E. discriminate.
Qed.
Lemma set_own_subject f m s : In (m, s) All -> set_subject_to_monarch w f (owner w s) s = f (owner w m) m.
Proof.
  intros H. unfold set_subject_to_monarch. cbv zeta.
  assert (Hc : In (m, s) (comm w (owner w s))) by (apply comm_has; [exact H|right; reflexivity]).
  rewrite communicate_own, (fold_set _ _ m s (comm_nodup _) (comm_apart _) Hc). apply (communicate_pair f _ m s Hc).
Qed.
Lemma set_own_other f n : ~ In n (map snd All) -> set_subject_to_monarch w f (owner w n) n = f (owner w n) n.
Proof.
  intros H. unfold set_subject_to_monarch. cbv zeta. rewrite communicate_own, fold_set_other, communicate_own; [reflexivity|].
  intros m s Hin ->. apply comm_in in Hin. apply H. exact (in_map snd _ _ (proj1 Hin)).
Qed.
Lemma monarch_of_subject m s : In (m, s) All -> monarch_of All s = m.
Proof.
  intros H. unfold monarch_of. pose proof (p_subjects _ _ W) as ND. revert ND H. generalize All as l.
  induction l as [|[m0 s0] l IH]; intros ND H; [destruct H|]. cbn [find snd fst]. cbn in ND. inversion ND; subst.
  destruct H as [E|H].
  - inversion E; subst. rewrite Nat.eqb_refl. reflexivity.
  - destruct (Nat.eqb_spec s0 s) as [->|NE]; [|apply IH; assumption]. exfalso. apply H2. exact (in_map snd _ _ H).
Qed.
Lemma monarch_of_other n : ~ In n (map snd All) -> monarch_of All n = n.
Proof.
  unfold monarch_of. generalize All as l. induction l as [|[m0 s0] l IH]; intros H; [reflexivity|]. cbn [find snd fst].
  destruct (Nat.eqb_spec s0 n) as [->|NE]; [exfalso; apply H; left; reflexivity|]. apply IH. intros C. apply H. right. exact C.
Qed.
Lemma subject_or_not n : (exists m, In (m, n) All) \/ ~ In n (map snd All).
Proof.
  destruct (in_dec Nat.eq_dec n (map snd All)) as [H|H]; [left|right; exact H].
  apply in_map_iff in H. destruct H as ([m s] & E & H). cbn in E. subst. exists m. exact H.
Qed.
End C20.

(** After assembling with addSubjects and setSubjects (the default of the residual/area/volume assembly), the owner's
    value of EVERY node is the sum over its periodic class of the original values, whatever the distribution of monarch
    and subject nodes over ranks; a node outside the periodic surfaces keeps its value. *)
Theorem C20_constraints_give_class_sum w All f n : periodic w All ->
  apply_constraints w true true f (owner w n) n = class_sum w All f (monarch_of All n).
Proof.
  intros W. unfold apply_constraints. cbv zeta. destruct (subject_or_not All n) as [[m H]|H].
  - rewrite (set_own_subject w All W _ m n H), (add_own w All W), (monarch_of_subject w All W m n H). reflexivity.
  - rewrite (set_own_other w All W _ n H), (add_own w All W), monarch_of_other by exact H. reflexivity.
Qed.
(** hence subjects and their monarch hold the same value *)
Theorem C20_subject_equals_monarch w All f m s : periodic w All -> In (m, s) All ->
  apply_constraints w true true f (owner w s) s = apply_constraints w true true f (owner w m) m.
Proof.
  intros W H. rewrite !(C20_constraints_give_class_sum w All f) by exact W. rewrite (monarch_of_subject w All W m s H).
  rewrite monarch_of_other; [reflexivity|]. intros C. apply in_map_iff in C. destruct C as ([m' s'] & E & C). cbn in E. subst s'.
  exact (p_apart _ _ W m s m' m H C eq_refl).
Qed.
(** a node on no periodic surface keeps its value *)
Theorem C20_other_nodes_unchanged w All a b f n : periodic w All -> ~ In n (map fst All) -> ~ In n (map snd All) ->
  apply_constraints w a b f (owner w n) n = f (owner w n) n.
Proof.
  intros W Hf Hs.
  assert (A : add_subject_to_monarch w f (owner w n) n = f (owner w n) n).
  { rewrite (add_own w All W). unfold class_sum.
    rewrite (psum_ext _ (fun _ => 0)); [assert (Z : forall l, psum (fun _ => 0) l = 0) by (induction l as [|x l IH]; [reflexivity|rewrite psum_cons, IH; ring]); rewrite Z; ring|].
    intros [m s] Hin. cbn [fst snd]. destruct (Nat.eqb_spec m n) as [->|]; [|reflexivity]. exfalso. apply Hf. exact (in_map fst _ _ Hin). }
  unfold apply_constraints. cbv zeta. destruct a, b; try rewrite (set_own_other w All W) by exact Hs; try exact A; reflexivity.
Qed.
(** ghost copies agree with the owner afterwards *)
Theorem C20_ghosts_agree w All a b f p n : periodic w All -> (a || b)%bool = true -> ghosted w p n = true ->
  apply_constraints w a b f p n = apply_constraints w a b f (owner w n) n.
Proof.
  intros W E G. assert (C : forall h, communicate w h p n = communicate w h (owner w n) n).
  { intros h. rewrite communicate_own. unfold communicate. rewrite G. reflexivity. }
  unfold apply_constraints. cbv zeta. destruct a, b; try discriminate; unfold set_subject_to_monarch, add_subject_to_monarch; cbv zeta; apply C.
Qed.
(** the delta solution (setSubjects only): every subject takes its monarch's value, every other node keeps its own *)
Theorem C20_set_only_copies_monarch w All f n : periodic w All ->
  apply_constraints w false true f (owner w n) n = f (owner w (monarch_of All n)) (monarch_of All n).
Proof.
  intros W. unfold apply_constraints. cbv zeta. destruct (subject_or_not All n) as [[m H]|H].
  - rewrite (set_own_subject w All W _ m n H), (monarch_of_subject w All W m n H). reflexivity.
  - rewrite (set_own_other w All W _ n H), monarch_of_other by exact H. reflexivity.
Qed.

(** two ranks; node 0 (monarch, rank 0) with subjects 1 (rank 0) and 2 (rank 1); node 3 outside *)
Definition w2 : par := mkPar (fun n => match n with 2%nat => 1%nat | _ => 0%nat end)
  (fun p n => match p, n with 0%nat, 2%nat => true | 1%nat, 0%nat => true | _, _ => false end)
  (fun p => match p with 0%nat => [(0,1);(0,2)]%nat | 1%nat => [(0,2)]%nat | _ => [] end).
Lemma w2_periodic : periodic w2 [(0,1);(0,2)]%nat.
Proof.
  constructor.
  - cbn. repeat constructor; cbn; lia.
  - cbn. intros m s m' s' [E|[E|[]]] [E'|[E'|[]]]; inversion E; inversion E'; subst; lia.
  - intros [|[|p]]; cbn; apply Permutation_refl.
  - intros [|[|p]] m s; cbn; [intros [E|[E|[]]]|intros [E|[]]|intros []]; inversion E; subst; cbn; split; intros; try reflexivity; lia.
  - intros [|[|p]] [|[|[|n]]]; cbn; intros; try discriminate; lia.
Qed.
Definition w2_field : field := fun p n => match p, n with 0%nat, 0%nat => 1 | 0%nat, 1%nat => 10 | 1%nat, 2%nat => 100 | 0%nat, 3%nat => 7 | _, _ => -5 end.
Example C20_example : apply_constraints w2 true true w2_field 1%nat 2%nat = 111 /\ apply_constraints w2 true true w2_field 0%nat 1%nat = 111 /\ apply_constraints w2 true true w2_field 0%nat 3%nat = 7.
Proof.
  pose proof (fun n => C20_constraints_give_class_sum w2 _ w2_field n w2_periodic) as H.
  pose proof (H 2%nat) as A. pose proof (H 1%nat) as B. pose proof (H 3%nat) as D.
  unfold class_sum, monarch_of, psum in A, B, D. cbn -[apply_constraints] in A, B, D. split; [|split]; [rewrite A|rewrite B|rewrite D]; lra.
Qed.

(* ------------------------------------------------------------------ C45: the max variant and the identifiers *)
(** the monarch's owner gets an upper bound of the class that is one of its values *)
Lemma fold_max_sp l : forall v n, (forall m s m' s', In (m, s) l -> In (m', s') l -> m <> s') -> ~ In n (map snd l) ->
  let r := fold_left max1 l v n in
  (v n <= r /\ (forall s, In (n, s) l -> NoDup (map snd l) -> v s <= r)) /\ (NoDup (map snd l) -> r = v n \/ exists s, In (n, s) l /\ r = v s).
Proof.
  induction l as [|[m s] l IH]; intros v n H Hs; cbv zeta; cbn [fold_left].
  - split; [split; [lra|intros s []]|]. left; reflexivity.
  - assert (Hns : n <> s) by (intros ->; apply Hs; left; reflexivity).
    assert (Hl : ~ In n (map snd l)) by (intros C; apply Hs; right; exact C).
    assert (Hap : forall m0 s0 m' s', In (m0, s0) l -> In (m', s') l -> m0 <> s') by (intros; eapply H; right; eassumption).
    destruct (IH (max1 v (m, s)) n Hap Hl) as [[A B] C].
    assert (E1 : max1 v (m, s) n = if Nat.eqb n m then Rmax (v n) (v s) else v n).
    { unfold max1, upd. cbn [fst snd]. destruct (Nat.eqb_spec n s); [contradiction|]. destruct (Nat.eqb_spec n m) as [->|]; reflexivity. }
    assert (E2 : forall s', s' <> s -> (exists m', In (m', s') l) -> max1 v (m, s) s' = v s').
    { intros s' Hne [m' Hin]. unfold max1, upd. cbn [fst snd]. destruct (Nat.eqb_spec s' s); [contradiction|].
      destruct (Nat.eqb_spec s' m) as [->|]; [|reflexivity]. exfalso. exact (H m s m' m (or_introl eq_refl) (or_intror Hin) eq_refl). }
    assert (Hv : v n <= max1 v (m, s) n) by (rewrite E1; destruct (Nat.eqb n m); [apply Rmax_l|lra]).
    split; [split; [lra|]|].
    + intros s' [E|Hin] ND.
      * inversion E; subst. apply Rle_trans with (max1 v (n, s') n); [rewrite E1, Nat.eqb_refl; apply Rmax_r|exact A].
      * cbn in ND. inversion ND; subst. rewrite <- (E2 s'); [apply B; assumption| |eexists; exact Hin].
        intros ->. apply H2. exact (in_map snd _ _ Hin).
    + intros ND. cbn in ND. inversion ND; subst. destruct (C H3) as [C1|(s' & Hin & C1)].
      * rewrite C1, E1. destruct (Nat.eqb_spec n m) as [->|]; [|left; reflexivity].
        unfold Rmax. destruct (Rle_dec (v m) (v s)); [right; exists s; split; [left; reflexivity|reflexivity]|left; reflexivity].
      * right. exists s'. split; [right; exact Hin|]. rewrite C1. apply E2; [|eexists; exact Hin].
        intros ->. apply H2. exact (in_map snd _ _ Hin).
Qed.
Theorem C45_monarch_gets_class_maximum w All f m : periodic w All -> ~ In m (map snd All) ->
  let r := apply_max_field w f (owner w m) m in
  f (owner w m) m <= r /\ (forall s, In (m, s) All -> f (owner w s) s <= r) /\
  (r = f (owner w m) m \/ exists s, In (m, s) All /\ r = f (owner w s) s).
Proof.
  intros W Hm. unfold apply_max_field. cbv zeta.
  assert (Hm' : ~ In m (map snd (comm w (owner w m)))).
  { intros C. apply Hm. apply in_map_iff in C. destruct C as ([a b] & E & C). cbn in E. subst. apply (comm_in w All W) in C. exact (in_map snd _ _ (proj1 C)). }
  destruct (fold_max_sp (comm w (owner w m)) (communicate w f (owner w m)) m (comm_apart w All W _) Hm') as [[A B] C].
  rewrite communicate_own in A, C. split; [exact A|]. split.
  - intros s Hin. pose proof (comm_has w All W (owner w m) m s Hin (or_introl eq_refl)) as Hc.
    rewrite <- (proj2 (communicate_pair w All W f _ m s Hc)). apply B; [exact Hc|apply (comm_nodup w All W)].
  - destruct (C (comm_nodup w All W _)) as [C1|(s & Hin & C1)]; [left; exact C1|right]. exists s.
    split; [apply (comm_in w All W _ _ _ Hin)|]. rewrite C1. apply (communicate_pair w All W f _ m s Hin).
Qed.
(** But a subject whose monarch has further subjects need not receive the class maximum: the pairs are visited once. *)
Theorem C45_max_reaches_all_subjects_refuted :
  ~ (forall w All f m s, periodic w All -> In (m, s) All ->
       apply_max_field w f (owner w s) s = apply_max_field w f (owner w m) m).
Proof.
  intros H. specialize (H w2 _ w2_field 0%nat 1%nat w2_periodic (or_introl eq_refl)).
  unfold apply_max_field, max1, communicate, upd in H. cbn in H.
  rewrite (Rmax_right 1 10), (Rmax_right 10 100) in H by lra. lra.
Qed.
Lemma fold_max_other l : forall v n, (forall m s, In (m, s) l -> m <> n /\ s <> n) -> fold_left max1 l v n = v n.
Proof.
  induction l as [|[m s] l IH]; intros v n H; [reflexivity|]. cbn [fold_left]. rewrite IH by (intros; apply H; right; assumption).
  destruct (H m s (or_introl eq_refl)) as [A B]. unfold max1, upd. cbn [fst snd].
  destruct (Nat.eqb_spec n s); [congruence|]. destruct (Nat.eqb_spec n m); [congruence|]. reflexivity.
Qed.
Lemma fold_max_pair l : forall v m s, NoDup (map snd l) -> (forall m s m' s', In (m, s) l -> In (m', s') l -> m <> s') ->
  In (m, s) l -> (forall s', In (m, s') l -> s' = s) ->
  fold_left max1 l v m = Rmax (v m) (v s) /\ fold_left max1 l v s = Rmax (v m) (v s).
Proof.
  induction l as [|[m0 s0] l IH]; intros v m s ND H Hin Hu; [destruct Hin|]. cbn [fold_left]. cbn in ND. inversion ND; subst.
  destruct Hin as [E|Hin].
  - inversion E; subst. assert (m <> s) by (eapply H; left; reflexivity).
    assert (O : forall m' s', In (m', s') l -> m' <> m /\ s' <> m /\ m' <> s /\ s' <> s).
    { intros m' s' Hi. assert (s' <> s) by (intros ->; apply H2; exact (in_map snd _ _ Hi)). repeat split.
      - intros ->. apply H1. apply Hu. right; exact Hi.
      - intros ->. exact (H m s m' m (or_introl eq_refl) (or_intror Hi) eq_refl).
      - intros ->. exact (H s s' m s (or_intror Hi) (or_introl eq_refl) eq_refl).
      - assumption. }
    rewrite !fold_max_other; [|intros m' s' Hi; destruct (O m' s' Hi) as (?&?&?&?); auto..].
    unfold max1, upd. cbn [fst snd]. rewrite !Nat.eqb_refl. destruct (Nat.eqb_spec m s); [contradiction|]. split; reflexivity.
  - assert (s0 <> s) by (intros ->; apply H2; exact (in_map snd _ _ Hin)).
    assert (m0 <> m) by (intros ->; apply H0; apply Hu; left; reflexivity).
    assert (m <> s0) by (eapply H; [right; exact Hin|left; reflexivity]).
    assert (m0 <> s) by (eapply H; [left; reflexivity|right; exact Hin]).
    assert (Q : max1 v (m0, s0) m = v m /\ max1 v (m0, s0) s = v s).
    { unfold max1, upd. cbn [fst snd]. destruct (Nat.eqb_spec m s0), (Nat.eqb_spec m m0), (Nat.eqb_spec s s0), (Nat.eqb_spec s m0); try congruence; split; reflexivity. }
    destruct Q as [Q1 Q2]. rewrite <- Q1, <- Q2. apply IH; try assumption; [intros; eapply H; right; eassumption|intros; apply Hu; right; assumption].
Qed.
(** for a class with one subject both nodes hold the class maximum on their owners *)
Theorem C45_single_subject_both_get_maximum w All f m s : periodic w All -> In (m, s) All -> (forall s', In (m, s') All -> s' = s) ->
  apply_max_field w f (owner w m) m = Rmax (f (owner w m) m) (f (owner w s) s) /\
  apply_max_field w f (owner w s) s = Rmax (f (owner w m) m) (f (owner w s) s).
Proof.
  intros W Hin Hu. unfold apply_max_field. cbv zeta.
  assert (Q : forall p, owner w m = p \/ owner w s = p ->
     fold_left max1 (comm w p) (communicate w f p) m = Rmax (f (owner w m) m) (f (owner w s) s) /\
     fold_left max1 (comm w p) (communicate w f p) s = Rmax (f (owner w m) m) (f (owner w s) s)).
  { intros p Hp. pose proof (comm_has w All W p m s Hin Hp) as Hc. destruct (communicate_pair w All W f p m s Hc) as [E1 E2].
    rewrite <- E1, <- E2. apply fold_max_pair; [apply (comm_nodup w All W)|apply (comm_apart w All W)|exact Hc|].
    intros s' Hi. apply Hu. apply (comm_in w All W p). exact Hi. }
  split; [apply (Q (owner w m)); auto|apply (Q (owner w s)); auto].
Qed.
(** nalu_global_id: afterwards every subject carries its monarch's identifier and all other nodes keep theirs *)
Theorem C45_subject_ids_are_the_monarchs ident pairs gid : NoDup (map snd pairs) ->
  (forall m s, In (m, s) pairs -> update_global_id ident pairs gid s = ident m) /\
  (forall n, ~ In n (map snd pairs) -> update_global_id ident pairs gid n = gid n).
Proof.
  unfold update_global_id. intros ND. split.
  - intros m s Hin. revert gid. induction pairs as [|[m0 s0] l IH]; intros g; [destruct Hin|]. cbn [fold_left]. cbn in ND. inversion ND; subst.
    destruct Hin as [E|Hin]; [|apply IH; assumption]. inversion E; subst. clear IH.
    set (g' := fun n => if Nat.eqb n (snd (m, s)) then ident (fst (m, s)) else g n).
    assert (G : g' s = ident m) by (unfold g'; cbn; rewrite Nat.eqb_refl; reflexivity). rewrite <- G. clear G. generalize g'. clear g' E H2 ND.
    induction l as [|[a b] l IH]; intros g0; [reflexivity|]. cbn [fold_left].
    rewrite IH; [|intros C; apply H1; right; exact C]. cbn [fst snd]. destruct (Nat.eqb_spec s b) as [->|]; [exfalso; apply H1; left; reflexivity|reflexivity].
  - intros n H. revert gid. clear ND. induction pairs as [|[a b] l IH]; intros g; [reflexivity|]. cbn [fold_left].
    rewrite IH; [|intros C; apply H; right; exact C]. cbn [fst snd]. destruct (Nat.eqb_spec n b) as [->|]; [exfalso; apply H; left; reflexivity|reflexivity].
Qed.
