(** C69: one-dimensional tables. *)
From Coq Require Import Reals List Arith Bool Permutation Sorted Lia Lra Classical.
From Verif Require Import RUtil Edge_Model Motion_Model Aux_Model Aux_Spec.
Import ListNotations.
Open Scope R_scope.

Lemma ltb_true : forall a b, ltb a b = true <-> a < b.
Proof. intros. unfold ltb. destruct (Rlt_dec a b); split; intros; auto; discriminate. Qed.
Lemma ltb_false : forall a b, ltb a b = false <-> b <= a.
Proof. intros. unfold ltb. destruct (Rlt_dec a b); split; intros; auto; try lra; discriminate. Qed.
Lemma pair_lt_fst : forall a b, fst a < fst b -> pair_lt a b = true.
Proof. intros. unfold pair_lt. rewrite (proj2 (ltb_true _ _) H). reflexivity. Qed.
Lemma pair_lt_fst_false : forall a b, fst b < fst a -> pair_lt a b = false.
Proof. intros. unfold pair_lt. rewrite (proj2 (ltb_false (fst a) (fst b))), (proj2 (ltb_true (fst b) (fst a))) by lra. reflexivity. Qed.
Lemma pair_lt_true : forall a b, pair_lt a b = true -> fst a <= fst b.
Proof. intros a b H. unfold pair_lt in H. apply orb_true_iff in H. destruct H as [H|H]; [apply ltb_true in H; lra|]. apply andb_true_iff in H. destruct H as [H _]. apply negb_true_iff, ltb_false in H. lra. Qed.
Lemma pair_lt_false : forall a b, pair_lt a b = false -> fst b <= fst a.
Proof. intros a b H. apply Rnot_lt_le. intros C. rewrite pair_lt_fst in H by auto. discriminate. Qed.

Lemma insert_perm : forall p l, Permutation (p :: l) (insert p l).
Proof. intros p l. induction l as [|h t IH]; cbn; auto. destruct (pair_lt h p); auto. eapply perm_trans; [apply perm_swap|]. auto. Qed.
Lemma sort_perm : forall l, Permutation l (sort l).
Proof. induction l as [|h t IH]; cbn; auto. eapply perm_trans; [|apply insert_perm]. auto. Qed.
Definition asc (l : list (R * R)) : Prop := StronglySorted (fun a b => fst a < fst b) l.
Lemma insert_asc : forall p l, ~ In (fst p) (map fst l) -> asc l -> asc (insert p l).
Proof.
  intros p l. induction l as [|h t IH]; intros N A; cbn.
  - constructor; constructor.
  - inversion A as [|? ? A1 A2]; subst. cbn in N. destruct (pair_lt h p) eqn:E.
    + constructor; [apply IH; auto|]. apply pair_lt_true in E.
      assert (Forall (fun b => fst h < fst b) (p :: t)) by (constructor; [assert (fst h <> fst p) by (intros C; apply N; auto); lra|auto]).
      eapply Permutation_Forall; [apply insert_perm|auto].
    + apply pair_lt_false in E. assert (fst h <> fst p) by (intros C; apply N; auto). constructor; auto.
      constructor; [lra|]. rewrite Forall_forall in *. intros b Hb. specialize (A2 b Hb). lra.
Qed.
Lemma sort_asc : forall l, NoDup (map fst l) -> asc (sort l).
Proof.
  induction l as [|h t IH]; intros N; cbn; [constructor|]. cbn in N. inversion N; subst. apply insert_asc; auto.
  intros C. apply H1. eapply Permutation_in; [|exact C]. apply Permutation_map, Permutation_sym, sort_perm.
Qed.
Lemma asc_unique : forall l l', asc l -> asc l' -> Permutation l l' -> l = l'.
Proof.
  induction l as [|h t IH]; intros l' A A' P.
  - apply Permutation_nil in P. auto.
  - destruct l' as [|h' t']; [apply Permutation_sym, Permutation_nil in P; discriminate|].
    inversion A as [|? ? A1 A2]; inversion A' as [|? ? A3 A4]; subst. rewrite Forall_forall in *.
    assert (h = h').
    { assert (I1 : In h (h' :: t')) by (eapply Permutation_in; [exact P|left; auto]).
      assert (I2 : In h' (h :: t)) by (eapply Permutation_in; [apply Permutation_sym; exact P|left; auto]).
      destruct I1 as [I1|I1]; auto. destruct I2 as [I2|I2]; auto. specialize (A2 _ I2). specialize (A4 _ I1). lra. }
    subst h'. f_equal. apply IH; auto. eapply Permutation_cons_inv; exact P.
Qed.

(** lower_bound on a partitioned list *)
Lemma lower_bound_split : forall A lt (l : list A) x,
  (forall i d, (i < lower_bound lt l x)%nat -> lt (nth i l d) x = true) /\
  (lower_bound lt l x <= length l)%nat /\
  (forall d, (lower_bound lt l x < length l)%nat -> lt (nth (lower_bound lt l x) l d) x = false).
Proof.
  intros A lt l x. induction l as [|h t IH]; cbn.
  - split; [intros; lia|]. split; [lia|]. intros; lia.
  - destruct IH as (I1 & I2 & I3). destruct (lt h x) eqn:E; cbn.
    + split; [intros i d Hi; destruct i; auto; apply I1; lia|]. split; [lia|]. intros d Hd. apply I3. lia.
    + split; [intros; lia|]. split; [lia|]. intros; auto.
Qed.
Lemma asc_nth : forall l i j d, asc l -> (i < j)%nat -> (j < length l)%nat -> fst (nth i l d) < fst (nth j l d).
Proof.
  induction l as [|h t IH]; intros i j d A Hij Hj; cbn in Hj; [lia|]. inversion A as [|? ? A1 A2]; subst.
  destruct j; [lia|]. destruct i; cbn.
  - rewrite Forall_forall in A2. apply A2. apply nth_In. lia.
  - apply IH; auto; lia.
Qed.
Lemma last_nth : forall A (l : list A) d, last l d = nth (length l - 1) l d.
Proof.
  induction l as [|h t IH]; intros d; auto. destruct t as [|b t']; auto.
  change (last (h :: b :: t') d) with (last (b :: t') d). rewrite IH. cbn [length]. replace (S (S (length t')) - 1)%nat with (S (length t')) by lia.
  replace (S (length t') - 1)%nat with (length t') by lia. reflexivity.
Qed.
Lemma divo_ok : forall a b, b <> 0 -> divo a b = Some (a / b).
Proof. intros. unfold divo. destruct (Req_EM_T b 0); [contradiction|auto]. Qed.

Lemma interp_mid : forall T it x d, (0 < it)%nat -> (it < length T)%nat -> asc T ->
  fst (nth 0 T d) < x -> x < fst (nth (length T - 1) T d) -> lower_bound pair_lt T (x, 0) = it ->
  interp T x = Some (chord (nth (it - 1) T d) (nth it T d) x).
Proof.
  intros T it x d H0 H1 A X0 X1 E. unfold interp. destruct T as [|t0 T'] eqn:ET; [cbn in H1; lia|]. rewrite <- ET in *.
  assert (E0 : t0 = nth 0 T d) by (rewrite ET; reflexivity).
  rewrite last_nth. rewrite (nth_indep T t0 d) by lia. rewrite E0.
  destruct (Rle_dec x (fst (nth 0 T d))); [lra|]. cbv zeta. destruct (Rle_dec (fst (nth (length T - 1) T d)) x); [lra|].
  rewrite E. rewrite (nth_error_nth' T d) by lia. rewrite (nth_error_nth' T d (n := it - 1)) by lia.
  pose proof (asc_nth T (it - 1) it d A ltac:(lia) ltac:(lia)).
  rewrite divo_ok by lra. f_equal. unfold chord. field. lra.
Qed.
(** at an entry of the table *)
Lemma interp_entry : forall T k d, asc T -> (2 <= length T)%nat -> (k < length T)%nat -> interp T (fst (nth k T d)) = Some (snd (nth k T d)).
Proof.
  intros T k d A L2 Hk. destruct (Nat.eq_dec k 0) as [K0|K0]; [|destruct (Nat.eq_dec k (length T - 1)) as [K1|K1]].
  - subst k. unfold interp. destruct T as [|t0 T']; [cbn in Hk; lia|]. cbn [nth]. destruct (Rle_dec (fst t0) (fst t0)); [auto|lra].
  - unfold interp. destruct T as [|t0 T'] eqn:ET; [cbn in Hk; lia|]. rewrite <- ET in *.
    assert (E0 : t0 = nth 0 T d) by (rewrite ET; reflexivity). rewrite last_nth. rewrite (nth_indep T t0 d) by lia. rewrite E0, <- K1.
    pose proof (asc_nth T 0 k d A ltac:(lia) Hk). destruct (Rle_dec (fst (nth k T d)) (fst (nth 0 T d))); [lra|]. cbv zeta.
    destruct (Rle_dec (fst (nth k T d)) (fst (nth k T d))); [auto|lra].
  - set (x := fst (nth k T d)). destruct (lower_bound_split _ pair_lt T (x, 0)) as (B1 & B2 & B3).
    assert (X0 : fst (nth 0 T d) < x) by (apply asc_nth; auto; lia). assert (X1 : x < fst (nth (length T - 1) T d)) by (apply asc_nth; auto; lia).
    assert (G : lower_bound pair_lt T (x, 0) = k \/ lower_bound pair_lt T (x, 0) = S k).
    { destruct (Nat.lt_ge_cases (lower_bound pair_lt T (x, 0)) k) as [C|C].
      - exfalso. specialize (B3 d ltac:(lia)). apply pair_lt_false in B3. cbn [fst] in B3. pose proof (asc_nth T _ k d A C Hk) as H. fold x in H. lra.
      - destruct (Nat.lt_ge_cases (S k) (lower_bound pair_lt T (x, 0))) as [C'|C']; [|lia]. exfalso.
        specialize (B1 (S k) d C'). apply pair_lt_true in B1. cbn [fst] in B1. pose proof (asc_nth T k (S k) d A ltac:(lia) ltac:(lia)) as H. fold x in H. lra. }
    destruct G as [G|G].
    + rewrite (interp_mid T k x d) by (auto; lia). f_equal. pose proof (asc_nth T (k - 1) k d A ltac:(lia) ltac:(lia)). unfold chord, x. field. lra.
    + rewrite (interp_mid T (S k) x d) by (auto; lia). f_equal. replace (S k - 1)%nat with k by lia.
      pose proof (asc_nth T k (S k) d A ltac:(lia) ltac:(lia)). unfold chord, x. field. lra.
Qed.
Lemma chord_l : forall a b, chord a b (fst a) = snd a.
Proof. intros. unfold chord. ring. Qed.
Lemma chord_r : forall a b, fst a <> fst b -> chord a b (fst b) = snd b.
Proof. intros. unfold chord. field. lra. Qed.
Lemma interp_chord : forall T k x d, asc T -> (S k < length T)%nat -> fst (nth k T d) <= x <= fst (nth (S k) T d) ->
  interp T x = Some (chord (nth k T d) (nth (S k) T d) x).
Proof.
  intros T k x d A Hk [X1 X2]. pose proof (asc_nth T k (S k) d A ltac:(lia) Hk) as Hab.
  destruct (Req_dec x (fst (nth k T d))) as [E|E]; [rewrite E, chord_l; apply interp_entry; auto; lia|].
  destruct (Req_dec x (fst (nth (S k) T d))) as [E'|E']; [rewrite E', chord_r by lra; apply interp_entry; auto; lia|].
  destruct (lower_bound_split _ pair_lt T (x, 0)) as (B1 & B2 & B3).
  assert (G : lower_bound pair_lt T (x, 0) = S k).
  { destruct (Nat.lt_ge_cases (lower_bound pair_lt T (x, 0)) (S k)) as [C|C].
    - exfalso. specialize (B3 d ltac:(lia)). apply pair_lt_false in B3. cbn [fst] in B3.
      assert (fst (nth (lower_bound pair_lt T (x, 0)) T d) <= fst (nth k T d)).
      { destruct (Nat.eq_dec (lower_bound pair_lt T (x, 0)) k) as [Q|Q]; [rewrite Q; lra|]. left. apply asc_nth; auto; lia. } lra.
    - destruct (Nat.lt_ge_cases (S k) (lower_bound pair_lt T (x, 0))) as [C'|C']; [|lia]. exfalso.
      specialize (B1 (S k) d C'). apply pair_lt_true in B1. cbn [fst] in B1. lra. }
  rewrite (interp_mid T (S k) x d); auto; try lia.
  - replace (S k - 1)%nat with k by lia. reflexivity.
  - destruct k; [lra|]. pose proof (asc_nth T 0 (S k) d A ltac:(lia) ltac:(lia)). lra.
  - destruct (Nat.eq_dec (S k) (length T - 1)) as [Q|Q]; [rewrite <- Q; lra|]. pose proof (asc_nth T (S k) (length T - 1) d A ltac:(lia) ltac:(lia)). lra.
Qed.
Lemma interp_low : forall T x d, T <> [] -> x <= fst (nth 0 T d) -> interp T x = Some (snd (nth 0 T d)).
Proof. intros T x d N H. destruct T as [|t0 T']; [contradiction|]. cbn in H |- *. destruct (Rle_dec x (fst t0)); [auto|lra]. Qed.
Lemma interp_high : forall T x d, asc T -> (2 <= length T)%nat -> fst (nth (length T - 1) T d) <= x -> interp T x = Some (snd (nth (length T - 1) T d)).
Proof.
  intros T x d A L2 H. unfold interp. destruct T as [|t0 T'] eqn:ET; [cbn in L2; lia|]. rewrite <- ET in *.
  assert (E0 : t0 = nth 0 T d) by (rewrite ET; reflexivity). rewrite last_nth. rewrite (nth_indep T t0 d) by lia. rewrite E0.
  pose proof (asc_nth T 0 (length T - 1) d A ltac:(lia) ltac:(lia)).
  destruct (Rle_dec x (fst (nth 0 T d))); [lra|]. cbv zeta. destruct (Rle_dec (fst (nth (length T - 1) T d)) x); [auto|lra].
Qed.

(** The constructor accepts exactly the lists of at least two pairs, and stores them sorted. *)
Lemma pairs_flat : forall l, pairs (flat l) = Some l.
Proof. induction l as [|[a b] t IH]; auto. change (flat ((a, b) :: t)) with (a :: b :: flat t). cbn [pairs]. rewrite IH. reflexivity. Qed.
Lemma ctor_flat : forall l, proper l -> table_ctor (flat l) = Some (sort l).
Proof. intros l [_ L]. unfold table_ctor. rewrite pairs_flat. destruct (Nat.ltb_spec (length l) 2); [lia|auto]. Qed.
Theorem C69_table_accepted : forall data, (exists T, table_ctor data = Some T) <-> exists l, data = flat l /\ (2 <= length l)%nat.
Proof.
  assert (P : forall n data r, (length data <= n)%nat -> pairs data = Some r -> data = flat r).
  { induction n as [|n IH]; intros data r Hn E; destruct data as [|a [|b t]]; cbn in E; try discriminate; try (injection E as <-; reflexivity); cbn in Hn; try lia.
    destruct (pairs t) as [r'|] eqn:E'; [|discriminate]. injection E as <-. change (a :: b :: t = a :: b :: flat r'). rewrite (IH t r' ltac:(lia) E'). reflexivity. }
  intros data. split.
  - intros [T E]. unfold table_ctor in E. destruct (pairs data) as [l|] eqn:Q; [|discriminate]. exists l. split; [eapply P; eauto|].
    destruct (Nat.ltb_spec (length l) 2); [discriminate|auto].
  - intros (l & E & L). exists (sort l). unfold table_ctor. rewrite E, pairs_flat. destruct (Nat.ltb_spec (length l) 2); [lia|auto].
Qed.
(** helper: what a stored table is *)
Lemma stored : forall l T, proper l -> table_ctor (flat l) = Some T -> asc T /\ Permutation l T /\ (2 <= length T)%nat.
Proof.
  intros l T P E. rewrite (ctor_flat l P) in E. injection E as <-. destruct P as [N L].
  split; [apply sort_asc; auto|]. split; [apply sort_perm|]. rewrite <- (Permutation_length (sort_perm l)). auto.
Qed.
(** The order in which the user lists the pairs is irrelevant. *)
Theorem C69_table_order_irrelevant : forall l l', proper l -> Permutation l l' -> table_ctor (flat l) = table_ctor (flat l').
Proof.
  intros l l' P E. assert (P' : proper l').
  { destruct P as [N L]. split; [eapply Permutation_NoDup; [apply Permutation_map; exact E|auto]|rewrite <- (Permutation_length E); auto]. }
  rewrite !ctor_flat by auto. f_equal. apply asc_unique; try (apply sort_asc; apply P || apply P').
  eapply perm_trans; [apply Permutation_sym, sort_perm|]. eapply perm_trans; [exact E|apply sort_perm].
Qed.
(** The table takes the tabulated values at the tabulated abscissas, *)
Theorem C69_table_through_points : forall l T p, proper l -> table_ctor (flat l) = Some T -> In p l -> interp T (fst p) = Some (snd p).
Proof.
  intros l T p P E I. destruct (stored l T P E) as (A & Q & L). apply (Permutation_in _ Q) in I.
  destruct (In_nth T p p I) as (k & Hk & Ek). rewrite <- Ek. apply interp_entry; auto.
Qed.
(** is straight between neighbours, *)
Theorem C69_table_piecewise_linear : forall l T a b x, proper l -> table_ctor (flat l) = Some T -> neighbours l a b ->
  fst a <= x <= fst b -> interp T x = Some (chord a b x).
Proof.
  intros l T a b x P E (Ia & Ib & Hab & Hn) Hx. destruct (stored l T P E) as (A & Q & L).
  apply (Permutation_in _ Q) in Ia. apply (Permutation_in _ Q) in Ib.
  destruct (In_nth T a a Ia) as (k & Hk & Ek). destruct (In_nth T b a Ib) as (k' & Hk' & Ek').
  assert (Lt : (k < k')%nat).
  { destruct (Nat.lt_trichotomy k k') as [?|[?|?]]; auto; exfalso; [subst k'; rewrite Ek in Ek'; subst; lra|].
    pose proof (asc_nth T k' k a A ltac:(lia) Hk) as G. rewrite Ek, Ek' in G. lra. }
  assert (k' = S k).
  { destruct (Nat.eq_dec k' (S k)) as [G|G]; auto. exfalso.
    pose proof (asc_nth T k (S k) a A ltac:(lia) ltac:(lia)) as G1. pose proof (asc_nth T (S k) k' a A ltac:(lia) Hk') as G2. rewrite Ek in G1. rewrite Ek' in G2.
    destruct (Hn (nth (S k) T a)); try lra. eapply Permutation_in; [apply Permutation_sym; exact Q|]. apply nth_In. lia. }
  subst k'. rewrite (interp_chord T k x a) by (auto; rewrite Ek, Ek'; auto). rewrite Ek, Ek'. reflexivity.
Qed.
(** and constant beyond both ends. *)
Theorem C69_table_clamped : forall l T p x, proper l -> table_ctor (flat l) = Some T -> In p l ->
  ((forall c, In c l -> fst p <= fst c) -> x <= fst p -> interp T x = Some (snd p)) /\
  ((forall c, In c l -> fst c <= fst p) -> fst p <= x -> interp T x = Some (snd p)).
Proof.
  intros l T p x P E I. destruct (stored l T P E) as (A & Q & L). apply (Permutation_in _ Q) in I.
  destruct (In_nth T p p I) as (k & Hk & Ek).
  assert (HB : forall i, (i < length T)%nat -> In (nth i T p) l) by (intros; eapply Permutation_in; [apply Permutation_sym; exact Q|apply nth_In; auto]).
  split; intros M Hx.
  - assert (k = 0%nat). { destruct k; auto. exfalso. pose proof (asc_nth T 0 (S k) p A ltac:(lia) Hk) as G. rewrite Ek in G. specialize (M _ (HB 0%nat ltac:(lia))). lra. }
    subst k. rewrite (interp_low T x p); [rewrite Ek; auto| |rewrite Ek; auto]. intros C. rewrite C in L. cbn in L. lia.
  - assert (k = (length T - 1)%nat). { destruct (Nat.eq_dec k (length T - 1)); auto. exfalso. pose proof (asc_nth T k (length T - 1) p A ltac:(lia) ltac:(lia)) as G. rewrite Ek in G. specialize (M _ (HB (length T - 1)%nat ltac:(lia))). lra. }
    subst k. rewrite (interp_high T x p); auto; rewrite Ek; auto.
Qed.
(** where the argument lies *)
Lemma locate : forall T x d, asc T -> (2 <= length T)%nat -> fst (nth 0 T d) <= x -> x <= fst (nth (length T - 1) T d) ->
  exists k, (S k < length T)%nat /\ fst (nth k T d) <= x <= fst (nth (S k) T d).
Proof.
  intros T x d A L H0 H1.
  assert (G : forall n, (n < length T)%nat -> x <= fst (nth n T d) -> (0 < n)%nat -> exists k, (S k < length T)%nat /\ fst (nth k T d) <= x <= fst (nth (S k) T d)).
  { induction n as [|n IH]; intros Hn Hx Hp; [lia|]. destruct (Rle_dec (fst (nth n T d)) x) as [C|C].
    - exists n. split; auto.
    - destruct n; [lra|]. apply IH; try lia. lra. }
  apply (G (length T - 1)%nat); auto; lia.
Qed.
Lemma chord_between : forall a b x lo hi, fst a < fst b -> fst a <= x <= fst b -> lo <= snd a <= hi -> lo <= snd b <= hi -> lo <= chord a b x <= hi.
Proof.
  intros a b x lo hi H X A B. unfold chord. set (w := (x - fst a) / (fst b - fst a)).
  assert (W : 0 <= w <= 1) by (unfold w; split; [apply Rle_div_r|apply Rle_div_l]; lra).
  replace (snd a + (snd b - snd a) / (fst b - fst a) * (x - fst a)) with (snd a * (1 - w) + snd b * w) by (unfold w; field; lra). nra.
Qed.
(** Every argument has a value, between the smallest and largest tabulated value. *)
Theorem C69_table_bounded : forall l T x lo hi, proper l -> table_ctor (flat l) = Some T ->
  (forall p, In p l -> lo <= snd p <= hi) -> exists v, interp T x = Some v /\ lo <= v <= hi.
Proof.
  intros l T x lo hi P E B. destruct (stored l T P E) as (A & Q & L). pose (d := (0, 0)).
  assert (HB : forall i, (i < length T)%nat -> lo <= snd (nth i T d) <= hi) by (intros; apply B; eapply Permutation_in; [apply Permutation_sym; exact Q|apply nth_In; auto]).
  destruct (Rle_dec x (fst (nth 0 T d))) as [C|C]; [|destruct (Rle_dec (fst (nth (length T - 1) T d)) x) as [C'|C']].
  - exists (snd (nth 0 T d)). split; [apply interp_low; auto; intros N; rewrite N in L; cbn in L; lia|apply HB; lia].
  - exists (snd (nth (length T - 1) T d)). split; [apply interp_high; auto|apply HB; lia].
  - destruct (locate T x d A L ltac:(lra) ltac:(lra)) as (k & Hk & Hx). exists (chord (nth k T d) (nth (S k) T d) x).
    split; [apply interp_chord; auto|]. apply chord_between; auto; try (apply HB; lia). apply asc_nth; auto; lia.
Qed.
