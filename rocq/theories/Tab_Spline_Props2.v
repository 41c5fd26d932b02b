(** C60 continued: what a fitted one-dimensional table returns. *)
Require Import Reals List Bool Lra Lia PeanoNat Sorted.
From Verif Require Import Edge_Model Edge_Proofs Elem_Proofs Tab_LU_Model Tab_LU_Props Tab_Spline_Model Tab_Spline_Props.
Import ListNotations.
Open Scope R_scope.

Definition increasing (l : list R) : Prop := StronglySorted Rlt l.

(* ------------------------------------------------------------------ sorting *)
Lemma increasing_nth l : increasing l -> forall i j, (i < j)%nat -> (j < length l)%nat -> at_ l i < at_ l j.
Proof.
  unfold increasing, at_. induction 1 as [|a l S IH F]; intros i j Hij Hj; [cbn in Hj; lia|].
  destruct j as [|j]; [lia|]. cbn in Hj. destruct i as [|i]; cbn [nth].
  - rewrite Forall_forall in F. apply F, nth_In. lia.
  - apply IH; lia.
Qed.
Lemma nth_increasing l : (forall i, (S i < length l)%nat -> at_ l i < at_ l (S i)) -> increasing l.
Proof.
  unfold increasing, at_. induction l as [|a l IH]; intros H; [constructor|].
  assert (S : StronglySorted Rlt l) by (apply IH; intros i Hi; apply (H (S i)); cbn; lia).
  constructor; [exact S|]. destruct l as [|b l]; [constructor|].
  assert (a < b) by (apply (H 0%nat); cbn; lia). constructor; [exact H0|].
  inversion S as [|? ? ? F]; subst. eapply Forall_impl; [|exact F]. cbn. intros; lra.
Qed.
Lemma insert_head a l : Forall (fun b => a <= b) l -> insert a l = a :: l.
Proof. destruct l as [|b m]; intros F; [reflexivity|]. inversion F; subst. cbn. destruct (Rle_dec a b); [reflexivity|contradiction]. Qed.
Lemma sort_increasing l : increasing l -> sort l = l.
Proof.
  unfold increasing. induction 1 as [|a l S IH F]; [reflexivity|]. cbn [sort fold_right]. fold (sort l). rewrite IH.
  apply insert_head. eapply Forall_impl; [|exact F]. cbn; intros; lra.
Qed.
Lemma unique_increasing l : increasing l -> unique l = l.
Proof.
  unfold increasing. induction 1 as [|a l S IH F]; [reflexivity|]. destruct l as [|b l]; [reflexivity|].
  cbn [unique] in *. destruct (Req_EM_T a b) as [E|E]; [inversion F; subst; lra|]. f_equal. exact IH.
Qed.
Lemma insert_In a l x : In x (insert a l) <-> x = a \/ In x l.
Proof.
  induction l as [|b l IH]; cbn; [intuition|]. destruct (Rle_dec a b); cbn; [intuition|]. rewrite IH. intuition.
Qed.
Lemma insert_sorted a l : StronglySorted Rle l -> StronglySorted Rle (insert a l).
Proof.
  induction 1 as [|b l S IH F]; [repeat constructor|]. cbn. destruct (Rle_dec a b) as [L|L].
  - constructor; [constructor; assumption|]. constructor; [exact L|]. eapply Forall_impl; [|exact F]. cbn; intros; lra.
  - constructor; [exact IH|]. apply Forall_forall. intros x Hx. apply insert_In in Hx. rewrite Forall_forall in F.
    destruct Hx as [->|Hx]; [lra|apply F, Hx].
Qed.
Lemma sort_sorted l : StronglySorted Rle (sort l).
Proof. induction l as [|a l IH]; [constructor|]. apply insert_sorted, IH. Qed.
Lemma unique_In l x : In x (unique l) -> In x l.
Proof.
  induction l as [|a l IH]; cbn; [tauto|]. destruct l as [|b l]; [tauto|].
  destruct (Req_EM_T a b); [intros; right; auto|]. intros [->|H]; [left; reflexivity|right; auto].
Qed.
Lemma unique_sorted l : StronglySorted Rle l -> increasing (unique l).
Proof.
  unfold increasing. induction 1 as [|a l S IH F]; [constructor|]. destruct l as [|b l]; [repeat constructor|].
  cbn [unique]. destruct (Req_EM_T a b) as [E|E]; [exact IH|]. constructor; [exact IH|].
  apply Forall_forall. intros x Hx.
  change (In x (unique (b :: l))) in Hx. apply unique_In in Hx. inversion F as [|? ? Fa Fb]; subst. inversion S as [|? ? Sa Sb]; subst.
  assert (b <= x) by (destruct Hx as [->|Hx]; [lra|]; rewrite Forall_forall in Sb; apply Sb, Hx). lra.
Qed.
Lemma req_list_spec l m : req_list l m = true <-> l = m.
Proof. unfold req_list. destruct (list_eq_dec Req_EM_T l m); split; congruence. Qed.
(** ** C60: a table is accepted exactly if its abscissae are strictly increasing or strictly
    decreasing; a decreasing table is turned round together with its values *)
Theorem C60_inputs_accepted : forall xs ys,
  (increasing xs -> sort_inputs xs ys = Some (xs, ys))
  /\ (increasing (rev xs) -> (1 < length xs)%nat -> sort_inputs xs ys = Some (rev xs, rev ys))
  /\ (sort_inputs xs ys <> None -> increasing xs \/ increasing (rev xs)).
Proof.
  intros xs ys. split; [|split].
  - intros I. unfold sort_inputs. rewrite sort_increasing, unique_increasing, Nat.eqb_refl by assumption.
    rewrite (proj2 (req_list_spec xs xs) eq_refl). reflexivity.
  - intros I L. unfold sort_inputs. pose proof (unique_sorted (sort xs) (sort_sorted xs)) as Sd.
    (* sort and unique of xs: same elements as rev xs, both increasing *)
    assert (P : unique (sort xs) = rev xs).
    { assert (SE : forall l x, In x (sort l) <-> In x l).
      { induction l as [|a l IH]; intros x; [reflexivity|]. cbn [sort fold_right]. rewrite insert_In. fold (sort l). rewrite IH. cbn. split; intros [K|K]; auto. }
      assert (UE : forall l x, In x (unique l) <-> In x l).
      { intros l x. split; [apply unique_In|]. induction l as [|a l IH]; [intros []|]. destruct l as [|b l]; [intros H; exact H|].
        cbn [unique] in *. destruct (Req_EM_T a b) as [E|]; [|intros [Ex|H]; [left; exact Ex|right; auto]].
        intros [Ex|H]; apply IH; [left; congruence|exact H]. }
      assert (EQ : forall l m, increasing l -> increasing m -> (forall x, In x l <-> In x m) -> l = m).
      { clear. unfold increasing. induction l as [|a l IH]; intros m Sl Sm E.
        - destruct m as [|b m]; [reflexivity|]. destruct (E b) as [_ K]. destruct K; left; reflexivity.
        - destruct m as [|b m]; [destruct (E a) as [K _]; destruct K; left; reflexivity|].
          inversion Sl as [|? ? Sl' Fl]; subst. inversion Sm as [|? ? Sm' Fm]; subst. rewrite Forall_forall in Fl, Fm.
          assert (AB : a = b).
          { destruct (proj1 (E a) (or_introl eq_refl)) as [?|Ha]; [auto|]. destruct (proj2 (E b) (or_introl eq_refl)) as [?|Hb]; [auto|].
            specialize (Fl b Hb). specialize (Fm a Ha). lra. }
          subst b. f_equal. apply IH; [assumption|assumption|]. intros x. split; intros Hx.
          + destruct (proj1 (E x) (or_intror Hx)) as [<-|K]; [specialize (Fl a Hx); lra|exact K].
          + destruct (proj2 (E x) (or_intror Hx)) as [<-|K]; [specialize (Fm a Hx); lra|exact K]. }
      apply EQ; [exact Sd|exact I|]. intros x. rewrite UE, SE, <- in_rev. reflexivity. }
    rewrite P, rev_length, Nat.eqb_refl. destruct (req_list xs (rev xs)) eqn:E.
    + apply req_list_spec in E. exfalso.
      assert (Q : increasing xs) by (rewrite E; exact I). pose proof (increasing_nth xs Q 0 (length xs - 1) ltac:(lia) ltac:(lia)) as A.
      pose proof (increasing_nth (rev xs) I 0 (length xs - 1) ltac:(lia) ltac:(rewrite rev_length; lia)) as B. unfold at_ in *.
      rewrite !rev_nth in B by lia. replace (length xs - S (length xs - 1))%nat with 0%nat in B by lia.
      lra.
    + rewrite (proj2 (req_list_spec (rev xs) (rev xs)) eq_refl). reflexivity.
  - intros H. unfold sort_inputs in H. pose proof (unique_sorted (sort xs) (sort_sorted xs)) as Sd.
    destruct (Nat.eqb _ _); [|contradiction]. destruct (req_list xs _) eqn:E; [apply req_list_spec in E; left; rewrite E; exact Sd|].
    destruct (req_list (rev xs) _) eqn:E2; [apply req_list_spec in E2; right; rewrite E2; exact Sd|contradiction].
Qed.

(* ------------------------------------------------------------------ range *)
Lemma max_of_spec l : l <> [] -> In (max_of l) l /\ forall x, In x l -> x <= max_of l.
Proof.
  destruct l as [|a m]; [congruence|]. intros _. cbn [max_of].
  assert (K : forall m a, (fold_left Rmax m a = a \/ In (fold_left Rmax m a) m) /\ a <= fold_left Rmax m a /\ forall x, In x m -> x <= fold_left Rmax m a).
  { clear. induction m as [|b m IH]; intros a; cbn [fold_left]; [cbn; intuition lra|].
    destruct (IH (Rmax a b)) as (A & B & C). pose proof (Rmax_l a b). pose proof (Rmax_r a b). split; [|split].
    - destruct A as [A|A]; [|right; right; exact A]. rewrite A. unfold Rmax. destruct (Rle_dec a b); [right; left; reflexivity|left; reflexivity].
    - lra.
    - intros x [<-|Hx]; [lra|apply C, Hx]. }
  destruct (K m a) as (A & B & C). split; [destruct A as [->|A]; [left; reflexivity|right; exact A]|].
  intros x [<-|Hx]; auto.
Qed.
Lemma min_of_spec l : l <> [] -> In (min_of l) l /\ forall x, In x l -> min_of l <= x.
Proof.
  destruct l as [|a m]; [congruence|]. intros _. cbn [min_of].
  assert (K : forall m a, (fold_left Rmin m a = a \/ In (fold_left Rmin m a) m) /\ fold_left Rmin m a <= a /\ forall x, In x m -> fold_left Rmin m a <= x).
  { clear. induction m as [|b m IH]; intros a; cbn [fold_left]; [cbn; intuition lra|].
    destruct (IH (Rmin a b)) as (A & B & C). pose proof (Rmin_l a b). pose proof (Rmin_r a b). split; [|split].
    - destruct A as [A|A]; [|right; right; exact A]. rewrite A. unfold Rmin. destruct (Rle_dec a b); [left; reflexivity|right; left; reflexivity].
    - lra.
    - intros x [<-|Hx]; [lra|apply C, Hx]. }
  destruct (K m a) as (A & B & C). split; [destruct A as [->|A]; [left; reflexivity|right; exact A]|].
  intros x [<-|Hx]; auto.
Qed.
Lemma range_of xs sx : (1 < length sx)%nat -> increasing sx -> (forall x, In x xs <-> In x sx) ->
  min_of xs = at_ sx 0 /\ max_of xs = at_ sx (length sx - 1) /\ min_of xs < max_of xs.
Proof.
  intros L I E.
  assert (NE : xs <> []). { intros ->. destruct sx as [|a sx]; [cbn in L; lia|]. apply (proj2 (E a)). left; reflexivity. }
  destruct (min_of_spec xs NE) as [A B]. destruct (max_of_spec xs NE) as [C D].
  assert (I0 : In (at_ sx 0) xs) by (apply E, nth_In; lia). assert (I1 : In (at_ sx (length sx - 1)) xs) by (apply E, nth_In; lia).
  apply E in A, C. destruct (In_nth _ _ 0 A) as (a & Ha & Ea). destruct (In_nth _ _ 0 C) as (c & Hc & Ec).
  assert (F0 : at_ sx 0 <= min_of xs).
  { rewrite <- Ea. destruct a as [|a]; [unfold at_; lra|]. apply Rlt_le, (increasing_nth sx I); lia. }
  assert (F1 : max_of xs <= at_ sx (length sx - 1)).
  { rewrite <- Ec. destruct (Nat.eq_dec c (length sx - 1)) as [->|N]; [unfold at_; lra|]. apply Rlt_le, (increasing_nth sx I); lia. }
  pose proof (B _ I0). pose proof (D _ I1). pose proof (increasing_nth sx I 0 (length sx - 1) ltac:(lia) ltac:(lia)). lra.
Qed.

(* ------------------------------------------------------------------ knots *)
Definition avg_uk (uk : list R) (p j : nat) : R := sumn p (fun t => at_ uk (j + t)) / INR p.
Lemma fold_seq_at uk j p : fold_left (fun t i => t + at_ uk i) (seq j p) 0 = sumn p (fun t => at_ uk (j + t)).
Proof.
  induction p as [|p IH]; [reflexivity|]. rewrite seq_S, fold_left_app, IH, sumn_S. reflexivity.
Qed.
Section Knots.
Variables (uk : list R) (n p : nat).
Hypothesis (Inc : increasing uk) (Hn : length uk = n) (Hp : (0 < p < n)%nat) (H0 : at_ uk 0 = 0) (H1 : at_ uk (n - 1) = 1).
Lemma avg_lt j : (j + p < n)%nat -> avg_uk uk p j < avg_uk uk p (S j).
Proof.
  intros Hj. unfold avg_uk. apply Rmult_lt_compat_r; [apply Rinv_0_lt_compat, lt_0_INR; lia|].
  assert (K : forall m, (m <= p)%nat -> (0 < m)%nat -> sumn m (fun t => at_ uk (j + t)) < sumn m (fun t => at_ uk (S j + t))).
  { induction m as [|m IH]; intros A B; [lia|]. rewrite !sumn_S.
    pose proof (increasing_nth uk Inc (j + m) (S j + m) ltac:(lia) ltac:(lia)) as Q.
    destruct m as [|m]; [rewrite !sumn_0; lra|]. specialize (IH ltac:(lia) ltac:(lia)). lra. }
  apply K; lia.
Qed.
Lemma avg_range j : (1 <= j)%nat -> (j + p < n)%nat -> 0 < avg_uk uk p j < 1.
Proof.
  intros Hj Hj2. unfold avg_uk. assert (P : 0 < INR p) by (apply lt_0_INR; lia).
  assert (K : forall m, (m <= p)%nat -> (0 < m)%nat -> 0 < sumn m (fun t => at_ uk (j + t)) < INR m).
  { induction m as [|m IH]; intros A B; [lia|]. rewrite sumn_S, S_INR.
    pose proof (increasing_nth uk Inc 0 (j + m) ltac:(lia) ltac:(lia)) as Q.
    pose proof (increasing_nth uk Inc (j + m) (n - 1) ltac:(lia) ltac:(lia)) as Q2.
    rewrite H0 in Q. rewrite H1 in Q2. destruct m as [|m]; [rewrite !sumn_0; cbn [INR]; lra|]. specialize (IH ltac:(lia) ltac:(lia)). lra. }
  destruct (K p (le_n p) ltac:(lia)) as [A B]. split; [apply Rdiv_lt_0_compat; lra|].
  apply (Rmult_lt_reg_r (INR p)); [lra|]. unfold Rdiv. rewrite Rmult_assoc, Rinv_l by lra. lra.
Qed.
Lemma knot_vector_value : set_knot_vector uk p = repeat 0 (p + 1) ++ map (avg_uk uk p) (seq 1 (n - p - 1)) ++ repeat 1 (p + 1).
Proof.
  unfold set_knot_vector. rewrite sort_increasing, unique_increasing, Hn by assumption. rewrite app_assoc. f_equal.
  assert (K : forall m, (m <= n - p - 1)%nat ->
    fold_left (fun ks j => let tmp := fold_left (fun t i => t + at_ uk i) (seq j p) 0 / INR p in if found tmp ks then ks else ks ++ [tmp])
      (seq 1 m) (repeat 0 (p + 1)) = repeat 0 (p + 1) ++ map (avg_uk uk p) (seq 1 m)); [|apply K; lia].
  induction m as [|m IH]; intros Hm; [cbn [seq map fold_left]; rewrite app_nil_r; reflexivity|].
  rewrite seq_S, fold_left_app, IH by lia. cbn [fold_left plus]. rewrite fold_seq_at. fold (avg_uk uk p (S m)).
  assert (N : found (avg_uk uk p (S m)) (repeat 0 (p + 1) ++ map (avg_uk uk p) (seq 1 m)) = false).
  { unfold found. destruct (in_dec Req_EM_T _ _) as [I|I]; [exfalso|reflexivity]. apply in_app_or in I. destruct I as [I|I].
    - apply repeat_spec in I. pose proof (avg_range (S m) ltac:(lia) ltac:(lia)). lra.
    - apply in_map_iff in I. destruct I as (k & E & Hk). apply in_seq in Hk.
      assert (L : forall d, (S d + k <= S m)%nat -> avg_uk uk p k < avg_uk uk p (S d + k)).
      { induction d as [|d IHd]; intros Hd; [apply avg_lt; lia|]. eapply Rlt_trans; [apply IHd; lia|]. apply (avg_lt (S d + k)). lia. }
      specialize (L (m - k)%nat ltac:(lia)). replace (S (m - k) + k)%nat with (S m) in L by lia. lra. }
  rewrite N, map_app, <- app_assoc. reflexivity.
Qed.
(** every interior knot is the average of p consecutive data abscissae *)
Lemma knot_interior k : (p < k < n)%nat -> at_ (set_knot_vector uk p) k = avg_uk uk p (k - p).
Proof.
  intros Hk. rewrite knot_vector_value. unfold at_.
  rewrite app_nth2 by (rewrite repeat_length; lia). rewrite repeat_length.
  rewrite app_nth1 by (rewrite map_length, seq_length; lia).
  rewrite (nth_indep _ 0 (avg_uk uk p 0)) by (rewrite map_length, seq_length; lia).
  rewrite map_nth, seq_nth by lia. f_equal. lia.
Qed.
Lemma knot_low k : (k <= p)%nat -> at_ (set_knot_vector uk p) k = 0.
Proof.
  intros Hk. rewrite knot_vector_value. unfold at_. rewrite app_nth1 by (rewrite repeat_length; lia). apply nth_repeat.
Qed.
Lemma knot_high k : (n <= k <= n + p)%nat -> at_ (set_knot_vector uk p) k = 1.
Proof.
  intros Hk. rewrite knot_vector_value. unfold at_.
  rewrite app_nth2 by (rewrite repeat_length; lia). rewrite repeat_length.
  rewrite app_nth2 by (rewrite map_length, seq_length; lia). rewrite map_length, seq_length.
  rewrite (nth_indep _ 0 1) by (rewrite repeat_length; lia). apply nth_repeat.
Qed.
(** ** C60: the knot vector is clamped and has no empty span inside *)
Lemma knots_good : good_knots n p (set_knot_vector uk p).
Proof.
  split; [exact Hp|]. split; [exact knot_low|]. split; [|exact knot_high].
  intros k Hk. destruct (Nat.eq_dec k p) as [->|N].
  - rewrite knot_low by lia. destruct (Nat.eq_dec (S p) n) as [E|E]; [rewrite knot_high by lia; lra|].
    rewrite knot_interior by lia. apply avg_range; lia.
  - rewrite knot_interior by lia. destruct (Nat.eq_dec (S k) n) as [E|E].
    + rewrite knot_high by lia. apply avg_range; lia.
    + rewrite knot_interior by lia. replace (S k - p)%nat with (S (k - p)) by lia. apply avg_lt. lia.
Qed.
End Knots.
