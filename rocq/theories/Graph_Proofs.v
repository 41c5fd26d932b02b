(** Lemmas for Graph_Props. *)
Require Import ZArith List Lia Bool Permutation.
From Coq Require Import Sorting.Mergesort Sorting.Sorted.
From Verif Require Import Graph_Model.
Import ListNotations.
Open Scope Z_scope.

(* ------------------------------------------------------------------ memory loops *)
Lemma upd_eq m a v : upd m a v a = v. Proof. unfold upd. now rewrite Z.eqb_refl. Qed.
Lemma upd_ne m a v x : x <> a -> upd m a v x = m x. Proof. intros. unfold upd. destruct (Z.eqb_spec x a); congruence. Qed.

Lemma shift_loop nd (Hnd : 1 <= nd) E n : forall m x,
  fold_left (fun m ptr => upd m ptr (m (ptr - nd))) (map (fun k => E - 1 - Z.of_nat k) (seq 0 n)) m x
  = if (E - 1 - Z.of_nat n <? x) && (x <=? E - 1) then m (x - nd) else m x.
Proof.
  induction n as [|n IH]; intros m x.
  - simpl. destruct (Z.ltb_spec (E-1-0) x), (Z.leb_spec x (E-1)); simpl; auto; lia.
  - rewrite seq_S, map_app, fold_left_app. cbn [map fold_left Nat.add].
    unfold upd at 1. rewrite !IH.
    destruct (Z.eqb_spec x (E - 1 - Z.of_nat n)) as [->|Hne].
    + destruct (Z.ltb_spec (E-1-Z.of_nat n) (E-1-Z.of_nat n - nd)); [lia|]. cbn [andb].
      destruct (Z.ltb_spec (E-1-Z.of_nat (S n)) (E-1-Z.of_nat n)), (Z.leb_spec (E-1-Z.of_nat n) (E-1)); cbn [andb]; auto; lia.
    + destruct (Z.ltb_spec (E-1-Z.of_nat n) x), (Z.ltb_spec (E-1-Z.of_nat (S n)) x), (Z.leb_spec x (E-1)); cbn [andb]; auto; lia.
Qed.

Lemma fill_loop ip ind n : forall m x,
  fold_left (fun m i => upd m (ip + Z.of_nat i) (ind + Z.of_nat i)) (seq 0 n) m x
  = if (ip <=? x) && (x <? ip + Z.of_nat n) then ind + (x - ip) else m x.
Proof.
  induction n as [|n IH]; intros m x.
  - simpl. destruct (Z.leb_spec ip x), (Z.ltb_spec x (ip+0)); simpl; auto; lia.
  - rewrite seq_S, fold_left_app. cbn [fold_left Nat.add]. unfold upd at 1. rewrite IH.
    destruct (Z.eqb_spec x (ip + Z.of_nat n)) as [->|];
    repeat match goal with |- context [?a <=? ?b] => destruct (Z.leb_spec a b) | |- context [?a <? ?b] => destruct (Z.ltb_spec a b) end; cbn [andb]; auto; lia.
Qed.

Lemma insert_spec m ind nd ip E x : (1 <= nd)%nat -> ip + Z.of_nat nd <= E ->
  insert m ind nd ip E x =
  if (ip <=? x) && (x <? ip + Z.of_nat nd) then ind + (x - ip)
  else if (ip + Z.of_nat nd <=? x) && (x <? E) then m (x - Z.of_nat nd) else m x.
Proof.
  intros Hn HE. unfold insert, shift_addrs. rewrite fill_loop, shift_loop by lia.
  repeat match goal with |- context [?a <=? ?b] => destruct (Z.leb_spec a b) | |- context [?a <? ?b] => destruct (Z.ltb_spec a b) end; cbn [andb]; auto; lia.
Qed.

Lemma find_invalid_spec m len : forall p n, (n <= len)%nat ->
  (forall k, (k < n)%nat -> m (p + Z.of_nat k) <> INVALID) ->
  ((n < len)%nat -> m (p + Z.of_nat n) = INVALID) ->
  find_invalid m p len = p + Z.of_nat n.
Proof.
  induction len as [|len IH]; intros p n Hn H1 H2; simpl.
  - assert (n = 0)%nat by lia. subst. simpl. lia.
  - destruct n as [|n].
    + simpl in H2. rewrite Z.add_0_r in H2. rewrite H2 by lia. rewrite Z.eqb_refl. simpl. lia.
    + assert (m p <> INVALID). { specialize (H1 0%nat ltac:(lia)). simpl in H1. now rewrite Z.add_0_r in H1. }
      destruct (Z.eqb_spec (m p) INVALID); [contradiction|].
      rewrite (IH (p+1) n); [lia|lia|intros k Hk; replace (p+1+Z.of_nat k) with (p + Z.of_nat (S k)) by lia; apply H1; lia|intros Hk; replace (p+1+Z.of_nat n) with (p + Z.of_nat (S n)) by lia; apply H2; lia].
Qed.

Lemma lower_bound_spec m n ind : forall p j, (j <= n)%nat ->
  (forall k, (k < j)%nat -> m (p + Z.of_nat k) < ind) ->
  ((j < n)%nat -> ind <= m (p + Z.of_nat j)) ->
  lower_bound m p n ind = p + Z.of_nat j.
Proof.
  induction n as [|n IH]; intros p j Hj H1 H2; simpl.
  - assert (j = 0)%nat by lia. subst. simpl. lia.
  - destruct j as [|j].
    + simpl in H2. rewrite Z.add_0_r in H2. specialize (H2 ltac:(lia)). destruct (Z.ltb_spec (m p) ind); [lia|]. simpl. lia.
    + assert (m p < ind). { specialize (H1 0%nat ltac:(lia)). simpl in H1. now rewrite Z.add_0_r in H1. }
      destruct (Z.ltb_spec (m p) ind); [|lia].
      rewrite (IH (p+1) j); [lia|lia|intros k Hk; replace (p+1+Z.of_nat k) with (p + Z.of_nat (S k)) by lia; apply H1; lia|intros Hk; replace (p+1+Z.of_nat j) with (p + Z.of_nat (S j)) by lia; apply H2; lia].
Qed.

(* ------------------------------------------------------------------ block rows *)
Definition block (nd : nat) (b : Z) : list Z := map (fun d => b + Z.of_nat d) (seq 0 nd).
Definition blocks (nd : nat) (B : list Z) : list Z := flat_map (block nd) B.

Lemma block_length nd b : length (block nd b) = nd.
Proof. unfold block. now rewrite map_length, seq_length. Qed.
Lemma blocks_length nd B : length (blocks nd B) = (nd * length B)%nat.
Proof. unfold blocks. induction B; simpl; [lia|]. rewrite app_length, block_length, IHB. lia. Qed.
Lemma blocks_app nd B C : blocks nd (B ++ C) = blocks nd B ++ blocks nd C.
Proof. apply flat_map_app. Qed.
Lemma blocks_cons nd b C : blocks nd (b :: C) = block nd b ++ blocks nd C.
Proof. reflexivity. Qed.
Lemma block_nth nd b k d0 : (k < nd)%nat -> nth k (block nd b) d0 = b + Z.of_nat k.
Proof.
  intros H. rewrite (nth_indep _ d0 (b + Z.of_nat 0)) by (rewrite block_length; auto).
  unfold block. rewrite map_nth with (f := fun d => b + Z.of_nat d). now rewrite seq_nth.
Qed.
Lemma In_blocks nd B x : In x (blocks nd B) <-> exists b d, In b B /\ (d < nd)%nat /\ x = b + Z.of_nat d.
Proof.
  unfold blocks, block. rewrite in_flat_map. split.
  - intros (b & Hb & Hx). apply in_map_iff in Hx. destruct Hx as (d & <- & Hd). apply in_seq in Hd. exists b, d. repeat split; auto; lia.
  - intros (b & d & Hb & Hd & ->). exists b. split; auto. apply in_map_iff. exists d. split; auto. apply in_seq. lia.
Qed.

Definition good (nd : nat) (b : Z) : Prop := 0 <= b /\ (Z.of_nat nd | b) /\ b + Z.of_nat nd <= INVALID.
Definition rep (m : mem) (p : Z) (len nd : nat) (B : list Z) : Prop :=
  (nd * length B <= len)%nat /\ forall k, (k < len)%nat -> m (p + Z.of_nat k) = nth k (blocks nd B) INVALID.
Definition sorted (B : list Z) : Prop := StronglySorted Z.lt B.

Lemma good_no_invalid nd B x : (forall b, In b B -> good nd b) -> In x (blocks nd B) -> x <> INVALID.
Proof. intros Hg Hx. apply In_blocks in Hx. destruct Hx as (b & d & Hb & Hd & ->). destruct (Hg b Hb) as (? & ? & ?). lia. Qed.

Lemma split_sorted B ind : sorted B -> exists B1 B2, B = B1 ++ B2 /\ (forall b, In b B1 -> b < ind) /\ (forall b, In b B2 -> ind <= b).
Proof.
  induction 1 as [|b B HB IH Hf].
  - exists [], []. repeat split; simpl; tauto.
  - rewrite Forall_forall in Hf. destruct IH as (B1 & B2 & -> & H1 & H2).
    destruct (Z.lt_ge_cases b ind) as [Hlt|Hge].
    + exists (b :: B1), B2. repeat split; auto. intros x [<-|Hx]; auto.
    + exists [], (b :: B1 ++ B2). repeat split; auto; [intros x []|].
      intros x [<-|Hx]; [lia|]. specialize (Hf x Hx). lia.
Qed.

Lemma sorted_insert B1 B2 ind : sorted (B1 ++ B2) -> (forall b, In b B1 -> b < ind) -> (forall b, In b B2 -> ind < b) ->
  sorted (B1 ++ ind :: B2).
Proof.
  unfold sorted. induction B1 as [|b B1 IH]; simpl; intros H H1 H2.
  - constructor; auto. apply Forall_forall. auto.
  - inversion H as [|? ? Hs Hf]; subst. constructor.
    + apply IH; auto.
    + rewrite Forall_forall in *. intros x Hx. apply in_app_or in Hx. destruct Hx as [Hx|[<-|Hx]].
      * apply Hf. apply in_or_app; auto.
      * apply H1; auto.
      * apply Hf. apply in_or_app; auto.
Qed.

Lemma rep_nth_valid m p len nd B k : rep m p len nd B -> (k < nd * length B)%nat -> m (p + Z.of_nat k) = nth k (blocks nd B) INVALID.
Proof. intros [H1 H2] Hk. apply H2. lia. Qed.

Lemma good_gap nd b ind d : good nd b -> good nd ind -> b < ind -> (d < nd)%nat -> b + Z.of_nat d < ind.
Proof.
  intros (_ & [q ->] & _) (_ & [q' ->] & _) H Hd.
  assert (q < q') by nia. assert ((q+1) * Z.of_nat nd <= q' * Z.of_nat nd) by (apply Z.mul_le_mono_nonneg_r; lia). lia.
Qed.

(** one index *)
Lemma insert_step_spec m p len nd B ind : (1 <= nd)%nat ->
  rep m p len nd B -> sorted B -> (forall b, In b B -> good nd b) -> good nd ind ->
  (nd * (length B + 1) <= len)%nat ->
  exists m' B', insert_step p nd (m, p + Z.of_nat (nd * length B)) ind = (m', p + Z.of_nat (nd * length B'))
    /\ rep m' p len nd B' /\ sorted B' /\ (forall x, In x B' <-> In x B \/ x = ind)
    /\ (length B <= length B' <= length B + 1)%nat
    /\ (forall x, x < p \/ p + Z.of_nat len <= x -> m' x = m x).
Proof.
  intros Hnd Hrep Hs Hg Hgi Hcap.
  destruct (split_sorted B ind Hs) as (B1 & B2 & EB & H1 & H2).
  set (j := (nd * length B1)%nat).
  assert (LB : length B = (length B1 + length B2)%nat) by (subst B; apply app_length).
  assert (LBn : lower_bound m p (Z.to_nat (p + Z.of_nat (nd * length B) - p)) ind = p + Z.of_nat j).
  { replace (Z.to_nat (p + Z.of_nat (nd * length B) - p)) with (nd * length B)%nat by lia.
    apply lower_bound_spec.
    - unfold j. nia.
    - intros k Hk. rewrite (rep_nth_valid m p len nd B) by (auto; unfold j in Hk; nia).
      subst B. rewrite blocks_app, app_nth1 by (rewrite blocks_length; exact Hk).
      assert (I : In (nth k (blocks nd B1) INVALID) (blocks nd B1)) by (apply nth_In; rewrite blocks_length; exact Hk).
      apply In_blocks in I. destruct I as (b & d & Hb & Hd & ->).
      assert (Gb := Hg b (in_or_app _ _ _ (or_introl Hb))). specialize (H1 b Hb).
      apply (good_gap nd b ind d); auto.
    - intros Hk. rewrite (rep_nth_valid m p len nd B) by auto. subst B. unfold j in *.
      rewrite blocks_app, app_nth2 by (rewrite blocks_length; lia). rewrite blocks_length, Nat.sub_diag.
      destruct B2 as [|b2 B2]; [simpl in LB; nia|]. rewrite blocks_cons, app_nth1 by (rewrite block_length; lia).
      rewrite block_nth by lia. specialize (H2 b2 (or_introl eq_refl)). lia. }
  unfold insert_step. rewrite LBn.
  assert (J : (j <= nd * length B)%nat) by (unfold j; nia).
  destruct (Z.leb_spec (p + Z.of_nat j) (p + Z.of_nat (nd * length B))); [|lia]. cbn [andb].
  (* value at the insertion point *)
  destruct B2 as [|b2 B2].
  - (* insertion at the end of the used part *)
    assert (V : m (p + Z.of_nat j) = INVALID).
    { destruct Hrep as [_ Hr]. rewrite Hr by (unfold j; simpl in LB; nia). apply nth_overflow. rewrite blocks_length. unfold j. simpl in LB. nia. }
    rewrite V. destruct (Z.eqb_spec INVALID ind) as [E|_]; [exfalso; destruct Hgi as (? & ? & ?); lia|]. cbn [negb].
    exists (insert m ind nd (p + Z.of_nat j) (p + Z.of_nat (nd * length B) + Z.of_nat nd)), (B1 ++ [ind]).
    rewrite app_nil_r in EB. subst B1.
    split; [f_equal; rewrite app_length; simpl; lia|].
    split; [|split; [|split; [|split]]].
    + split; [rewrite app_length; simpl; lia|]. intros k Hk. rewrite insert_spec by (auto; unfold j; lia).
      rewrite blocks_app, blocks_cons, app_nil_r || idtac. simpl (blocks nd [ind]) || idtac.
      destruct Hrep as [_ Hr].
      destruct (Nat.lt_ge_cases k j) as [L|G].
      * rewrite app_nth1 by (rewrite blocks_length; exact L).
        repeat match goal with |- context [?a <=? ?b] => destruct (Z.leb_spec a b) | |- context [?a <? ?b] => destruct (Z.ltb_spec a b) end; cbn [andb]; try lia.
        apply Hr; lia.
      * rewrite app_nth2 by (rewrite blocks_length; exact G). rewrite blocks_length. fold j.
        destruct (Nat.lt_ge_cases (k - j) nd) as [L2|G2].
        -- rewrite ?app_nil_r. try rewrite app_nth1 by (rewrite block_length; exact L2). rewrite block_nth by auto.
           repeat match goal with |- context [?a <=? ?b] => destruct (Z.leb_spec a b) | |- context [?a <? ?b] => destruct (Z.ltb_spec a b) end; cbn [andb]; lia.
        -- rewrite nth_overflow by (rewrite ?app_nil_r, ?app_length, ?block_length; simpl; lia).
           repeat match goal with |- context [?a <=? ?b] => destruct (Z.leb_spec a b) | |- context [?a <? ?b] => destruct (Z.ltb_spec a b) end; cbn [andb]; try (unfold j in *; lia).
           rewrite Hr by auto. apply nth_overflow. rewrite blocks_length. fold j. lia.
    + apply (sorted_insert B [] ind); [now rewrite app_nil_r|auto|intros b []].
    + intros x. rewrite in_app_iff. simpl. intuition.
    + rewrite app_length. simpl. lia.
    + intros x Hx. rewrite insert_spec by (auto; unfold j; lia).
      repeat match goal with |- context [?a <=? ?b] => destruct (Z.leb_spec a b) | |- context [?a <? ?b] => destruct (Z.ltb_spec a b) end; cbn [andb]; try reflexivity; unfold j in *; lia.
  - (* there is an element at the insertion point *)
    assert (V : m (p + Z.of_nat j) = b2).
    { rewrite (rep_nth_valid m p len nd B) by (auto; unfold j; simpl in LB; nia). subst B. unfold j.
      rewrite blocks_app, app_nth2 by (rewrite blocks_length; lia). rewrite blocks_length, Nat.sub_diag, blocks_cons, app_nth1 by (rewrite block_length; lia).
      rewrite block_nth by lia. lia. }
    rewrite V. destruct (Z.eqb_spec b2 ind) as [E|NE]; cbn [negb].
    + exists m, B. split; [reflexivity|]. split; [auto|]. split; [auto|]. split; [|split; [lia|auto]].
      intros x. split; [auto|]. intros [?| ->]; auto. rewrite EB. apply in_or_app. right. left. exact E.
    + exists (insert m ind nd (p + Z.of_nat j) (p + Z.of_nat (nd * length B) + Z.of_nat nd)), (B1 ++ ind :: b2 :: B2).
      assert (LN : length (B1 ++ ind :: b2 :: B2) = (length B + 1)%nat) by (rewrite LB, app_length; simpl; lia).
      split; [f_equal; rewrite LN; lia|].
      split; [|split; [|split; [|split]]].
      * split; [rewrite LN; lia|]. intros k Hk. rewrite insert_spec by (auto; unfold j in *; lia).
        rewrite blocks_app, blocks_cons. destruct Hrep as [_ Hr].
        destruct (Nat.lt_ge_cases k j) as [L|G].
        -- rewrite app_nth1 by (rewrite blocks_length; exact L).
           repeat match goal with |- context [?a <=? ?b] => destruct (Z.leb_spec a b) | |- context [?a <? ?b] => destruct (Z.ltb_spec a b) end; cbn [andb]; try lia.
           rewrite Hr by lia. subst B. rewrite blocks_app, app_nth1 by (rewrite blocks_length; exact L). reflexivity.
        -- rewrite app_nth2 by (rewrite blocks_length; exact G). rewrite blocks_length. fold j.
           destruct (Nat.lt_ge_cases (k - j) nd) as [L2|G2].
           ++ rewrite app_nth1 by (rewrite block_length; exact L2). rewrite block_nth by auto.
              repeat match goal with |- context [?a <=? ?b] => destruct (Z.leb_spec a b) | |- context [?a <? ?b] => destruct (Z.ltb_spec a b) end; cbn [andb]; lia.
           ++ rewrite app_nth2 by (rewrite block_length; exact G2). rewrite block_length.
              assert (OLD : (k - nd < len)%nat -> m (p + Z.of_nat k - Z.of_nat nd) = nth (k - j - nd) (blocks nd (b2 :: B2)) INVALID).
              { intros Hkk. replace (p + Z.of_nat k - Z.of_nat nd) with (p + Z.of_nat (k - nd)) by lia. rewrite Hr by auto. subst B.
                rewrite blocks_app, app_nth2 by (rewrite blocks_length; fold j; lia). rewrite blocks_length. fold j. f_equal. lia. }
              repeat match goal with |- context [?a <=? ?b] => destruct (Z.leb_spec a b) | |- context [?a <? ?b] => destruct (Z.ltb_spec a b) end; cbn [andb]; try lia.
              all: try (apply OLD; lia).
              rewrite Hr by auto. rewrite !nth_overflow; auto; rewrite blocks_length; simpl in LB |- *; unfold j in *; nia.
      * apply (sorted_insert B1 (b2 :: B2) ind); [now rewrite <- EB|auto|].
        assert (H2b := H2 b2 (or_introl eq_refl)). intros b [<-|Hb]; [lia|].
        subst B. unfold sorted in Hs. assert (S2 : StronglySorted Z.lt (b2 :: B2)).
        { clear -Hs. induction B1; simpl in Hs; auto. inversion Hs; auto. }
        inversion S2 as [|? ? _ Hf]; subst. rewrite Forall_forall in Hf. specialize (Hf b Hb). lia.
      * intros x. subst B. rewrite !in_app_iff. simpl. intuition.
      * rewrite LN. lia.
      * intros x Hx. rewrite insert_spec by (auto; unfold j in *; lia).
        repeat match goal with |- context [?a <=? ?b] => destruct (Z.leb_spec a b) | |- context [?a <? ?b] => destruct (Z.ltb_spec a b) end; cbn [andb]; try reflexivity; unfold j in *; lia.
Qed.

Lemma insert_fold_spec p len nd (Hnd : (1 <= nd)%nat) inds : forall m B,
  rep m p len nd B -> sorted B -> (forall b, In b B -> good nd b) -> (forall b, In b inds -> good nd b) ->
  (nd * (length B + length inds) <= len)%nat ->
  exists m' B', fold_left (insert_step p nd) inds (m, p + Z.of_nat (nd * length B)) = (m', p + Z.of_nat (nd * length B'))
    /\ rep m' p len nd B' /\ sorted B' /\ (forall x, In x B' <-> In x B \/ In x inds)
    /\ (length B <= length B' <= length B + length inds)%nat
    /\ (forall x, x < p \/ p + Z.of_nat len <= x -> m' x = m x).
Proof.
  induction inds as [|ind inds IH]; intros m B Hr Hs Hg Hgi Hc.
  - exists m, B. simpl. repeat split; auto; try lia; try apply Hr; tauto.
  - simpl in Hc. destruct (insert_step_spec m p len nd B ind Hnd Hr Hs Hg) as (m1 & B1 & E1 & R1 & S1 & I1 & L1 & F1); [apply Hgi; left; auto|nia|].
    destruct (IH m1 B1 R1 S1) as (m2 & B2 & E2 & R2 & S2 & I2 & L2 & F2).
    + intros b Hb. apply I1 in Hb. destruct Hb as [Hb| ->]; auto. apply Hgi; left; auto.
    + intros; apply Hgi; right; auto.
    + nia.
    + exists m2, B2. cbn [fold_left]. rewrite E1, E2. repeat split; auto; simpl; try lia; try apply R2.
      * intros Hx. apply I2 in Hx. destruct Hx as [Hx|Hx]; auto. apply I1 in Hx. intuition.
      * intros Hx. apply I2. rewrite I1. intuition.
      * intros x Hx. rewrite F2, F1; auto.
Qed.

Lemma insertIndices_spec m p len nd B inds : (1 <= nd)%nat ->
  rep m p len nd B -> sorted B -> (forall b, In b B -> good nd b) -> (forall b, In b inds -> good nd b) ->
  (nd * (length B + length inds) <= len)%nat ->
  exists B', rep (insertIndices m p len inds nd) p len nd B' /\ sorted B' /\ (forall x, In x B' <-> In x B \/ In x inds)
    /\ (length B <= length B' <= length B + length inds)%nat
    /\ (forall x, x < p \/ p + Z.of_nat len <= x -> insertIndices m p len inds nd x = m x).
Proof.
  intros Hnd Hr Hs Hg Hgi Hc. unfold insertIndices.
  assert (F : find_invalid m p len = p + Z.of_nat (nd * length B)).
  { apply find_invalid_spec.
    - apply Hr.
    - intros k Hk. rewrite (rep_nth_valid m p len nd B) by auto. apply (good_no_invalid nd B); auto. apply nth_In. rewrite blocks_length. auto.
    - intros Hk. destruct Hr as [_ Hr]. rewrite Hr by auto. apply nth_overflow. rewrite blocks_length. lia. }
  rewrite F. destruct (insert_fold_spec p len nd Hnd inds m B Hr Hs Hg Hgi Hc) as (m' & B' & E & R' & S' & I' & L' & F').
  rewrite E. exists B'. simpl. repeat split; auto; try apply R'; try apply I'; try apply L'.
Qed.

(* ------------------------------------------------------------------ row layout *)
Lemma row_ptr_S lens : forall r, row_ptr lens (S r) = (row_ptr lens r + nth r lens 0)%nat.
Proof.
  induction lens as [|l ls IH]; intros r.
  - simpl. destruct r; reflexivity.
  - destruct r; [destruct ls; simpl; lia|]. specialize (IH r).
    change (row_ptr (l :: ls) (S (S r))) with (l + row_ptr ls (S r))%nat. change (row_ptr (l :: ls) (S r)) with (l + row_ptr ls r)%nat.
    cbn [nth]. lia.
Qed.
Lemma row_ptr_mono lens a b : (a <= b)%nat -> (row_ptr lens a <= row_ptr lens b)%nat.
Proof. induction 1; auto. rewrite row_ptr_S. lia. Qed.
Lemma row_ptr_end lens a b : (a < b)%nat -> (row_ptr lens a + nth a lens 0 <= row_ptr lens b)%nat.
Proof. intros H. rewrite <- row_ptr_S. apply row_ptr_mono. lia. Qed.
Lemma row_ptr_le lens1 lens2 : (forall i, nth i lens1 0 <= nth i lens2 0)%nat -> forall r, (row_ptr lens1 r <= row_ptr lens2 r)%nat.
Proof. intros H. induction r; [destruct lens1, lens2; simpl; lia|]. rewrite !row_ptr_S. specialize (H r). lia. Qed.

Lemma const_blocks_length {A} (f : nat -> A) nd (l : list nat) :
  length (flat_map (fun i => map (fun _ => f i) (seq 0 nd)) l) = (nd * length l)%nat.
Proof. induction l; simpl; [lia|]. rewrite app_length, map_length, seq_length, IHl. lia. Qed.
Lemma map_const {A B} (v : B) (l : list A) k d0 : (k < length l)%nat -> nth k (map (fun _ => v) l) d0 = v.
Proof. revert k; induction l; simpl; intros [|k] H; try lia; auto. apply IHl; lia. Qed.
Lemma const_blocks_nth {A} (f : nat -> A) nd d0 n : forall s i d, (i < n)%nat -> (d < nd)%nat ->
  nth (nd * i + d) (flat_map (fun i => map (fun _ => f i) (seq 0 nd)) (seq s n)) d0 = f (s + i)%nat.
Proof.
  induction n as [|n IH]; intros s i d Hi Hd; [lia|]. cbn [seq flat_map].
  destruct i as [|i].
  - rewrite app_nth1 by (rewrite map_length, seq_length; lia). rewrite map_const by (rewrite seq_length; lia). f_equal; lia.
  - rewrite app_nth2 by (rewrite map_length, seq_length; nia). rewrite map_length, seq_length.
    replace (nd * S i + d - nd)%nat with (nd * i + d)%nat by nia. rewrite IH by lia. f_equal; lia.
Qed.

Section Layout.
Variable nd N : nat.
Variable L : nat -> nat.
Definition lens_of : list nat := flat_map (fun i => map (fun _ => L i) (seq 0 nd)) (seq 0 N).
Lemma lens_length : length lens_of = (nd * N)%nat.
Proof. unfold lens_of. now rewrite const_blocks_length, seq_length. Qed.
Lemma lens_nth i d : (i < N)%nat -> (d < nd)%nat -> nth (nd*i+d) lens_of 0%nat = L i.
Proof. intros. unfold lens_of. now rewrite const_blocks_nth. Qed.
Lemma ptr_dof i d : (i < N)%nat -> (d <= nd)%nat -> row_ptr lens_of (nd*i+d) = (row_ptr lens_of (nd*i) + d * L i)%nat.
Proof.
  intros Hi. induction d as [|d IH]; intros Hd.
  - rewrite !Nat.add_0_r. lia.
  - replace (nd*i + S d)%nat with (S (nd*i+d)) by lia. rewrite row_ptr_S, IH, lens_nth by lia. lia.
Qed.
Lemma ptr_block i : (i < N)%nat -> row_ptr lens_of (nd * S i) = (row_ptr lens_of (nd*i) + nd * L i)%nat.
Proof. intros. replace (nd * S i)%nat with (nd*i+nd)%nat by lia. apply ptr_dof; auto. Qed.
Lemma ptr_disjoint i j : (i < j)%nat -> (i < N)%nat -> (row_ptr lens_of (nd*i) + nd * L i <= row_ptr lens_of (nd*j))%nat.
Proof. intros. rewrite <- ptr_block by auto. apply row_ptr_mono. nia. Qed.
End Layout.

(* ------------------------------------------------------------------ copying rows *)
Lemma copy_row_spec src dst : forall len m x, src + Z.of_nat len <= dst ->
  copy_row m src dst len x = if (dst <=? x) && (x <? dst + Z.of_nat len) then m (src + (x - dst)) else m x.
Proof.
  unfold copy_row. induction len as [|n IH]; intros m x H.
  - simpl. destruct (Z.leb_spec dst x), (Z.ltb_spec x (dst+0)); simpl; auto; lia.
  - rewrite seq_S, fold_left_app. cbn [fold_left Nat.add]. unfold upd at 1. rewrite !IH by lia.
    destruct (Z.eqb_spec x (dst + Z.of_nat n)) as [->|];
    repeat match goal with |- context [?a <=? ?b] => destruct (Z.leb_spec a b) | |- context [?a <? ?b] => destruct (Z.ltb_spec a b) end; cbn [andb]; auto; try lia.
    all: f_equal; lia.
Qed.

Lemma fill_block p l n : forall m,
  let m' := fold_left (fun m d => copy_row m p (p + Z.of_nat l * Z.of_nat d) l) (seq 1 n) m in
  (forall d k, (d <= n)%nat -> (k < l)%nat -> m' (p + Z.of_nat (d*l) + Z.of_nat k) = m (p + Z.of_nat k))
  /\ (forall x, x < p + Z.of_nat l \/ p + Z.of_nat (S n * l) <= x -> m' x = m x).
Proof.
  induction n as [|n IH]; intros m.
  - cbn [seq fold_left]. split; [|auto]. intros d k Hd Hk. assert (d = 0)%nat by lia. subst. f_equal. lia.
  - rewrite seq_S. cbn zeta. rewrite fold_left_app. cbn [fold_left].
    destruct (IH m) as [H1 H2]. cbn zeta in H1, H2.
    set (m1 := fold_left _ (seq 1 n) m) in *.
    replace (Z.of_nat l * Z.of_nat (1 + n)) with (Z.of_nat (S n * l)) by lia.
    assert (C := copy_row_spec p (p + Z.of_nat (S n * l)) l m1).
    split.
    + intros d k Hd Hk. rewrite C by nia. destruct (Nat.eq_dec d (S n)) as [->|Hne].
      * destruct (Z.leb_spec (p + Z.of_nat (S n * l)) (p + Z.of_nat (S n * l) + Z.of_nat k)); [|lia].
        destruct (Z.ltb_spec (p + Z.of_nat (S n * l) + Z.of_nat k) (p + Z.of_nat (S n * l) + Z.of_nat l)); [|lia]. cbn [andb].
        replace (p + (p + Z.of_nat (S n * l) + Z.of_nat k - (p + Z.of_nat (S n * l)))) with (p + Z.of_nat k) by lia.
        apply H2. lia.
      * assert ((d * l + k < S n * l)%nat) by nia.
        destruct (Z.leb_spec (p + Z.of_nat (S n * l)) (p + Z.of_nat (d * l) + Z.of_nat k)); [lia|]. cbn [andb].
        apply H1; lia.
    + intros x Hx. rewrite C by nia.
      destruct (Z.leb_spec (p + Z.of_nat (S n * l)) x), (Z.ltb_spec x (p + Z.of_nat (S n * l) + Z.of_nat l)); cbn [andb].
      all: try (exfalso; nia). all: apply H2; nia.
Qed.

Lemma fill_extra_spec nd rowEnts L m : (1 <= nd)%nat ->
  let N := length rowEnts in
  let lens := lens_of nd N L in
  forall i d k, (i < N)%nat -> (d < nd)%nat -> (k < L i)%nat ->
  fill_extra nd rowEnts lens m (Z.of_nat (row_ptr lens (nd*i+d)) + Z.of_nat k) = m (Z.of_nat (row_ptr lens (nd*i)) + Z.of_nat k).
Proof.
  intros Hnd N lens. unfold fill_extra. destruct (Nat.eqb_spec nd 1) as [->|Hn1].
  { intros i d k Hi Hd Hk. assert (d = 0)%nat by lia. subst. now rewrite !Nat.add_0_r. }
  fold N.
  assert (G : forall n, (n <= N)%nat ->
     let m' := fold_left (fun m i =>
         let row := (nd * i)%nat in let rowLen := nth row lens 0%nat in let p := Z.of_nat (row_ptr lens row) in
         fold_left (fun m d => copy_row m p (p + Z.of_nat rowLen * Z.of_nat d) rowLen) (seq 1 (nd-1)) m) (seq 0 n) m in
     (forall i d k, (i < n)%nat -> (d < nd)%nat -> (k < L i)%nat -> m' (Z.of_nat (row_ptr lens (nd*i+d)) + Z.of_nat k) = m (Z.of_nat (row_ptr lens (nd*i)) + Z.of_nat k))
     /\ (forall x, Z.of_nat (row_ptr lens (nd*n)) <= x -> m' x = m x)).
  { induction n as [|n IH]; intros Hn.
    - simpl. split; [intros; lia|auto].
    - specialize (IH ltac:(lia)). cbn zeta in IH. cbn zeta. rewrite seq_S, fold_left_app. cbn [fold_left Nat.add].
      set (m1 := fold_left _ (seq 0 n) m) in *. destruct IH as [H1 H2].
      replace (nth (nd * n) lens 0%nat) with (L n) by (symmetry; rewrite <- (Nat.add_0_r (nd*n)); apply lens_nth; lia).
      destruct (fill_block (Z.of_nat (row_ptr lens (nd*n))) (L n) (nd-1) m1) as [F1 F2]. cbn zeta in F1, F2.
      set (m2 := fold_left _ (seq 1 (nd-1)) m1) in *.
      assert (PB := ptr_block nd N L n ltac:(lia)). fold lens in PB.
      split.
      + intros i d k Hi Hd Hk. destruct (Nat.eq_dec i n) as [->|Hne].
        * assert (PD := ptr_dof nd N L n d ltac:(lia) ltac:(lia)). fold lens in PD. rewrite PD.
          rewrite Nat2Z.inj_add. rewrite F1 by lia. apply H2. lia.
        * assert (PD := ptr_dof nd N L i d ltac:(lia) ltac:(lia)). fold lens in PD.
          assert (PJ := ptr_disjoint nd N L i n ltac:(lia) ltac:(lia)). fold lens in PJ.
          assert ((d * L i + k < nd * L i)%nat) by nia.
          rewrite F2 by lia. apply H1; lia.
      + intros x Hx. rewrite F2; [apply H2; lia|]. right. replace (S (nd-1)) with nd by lia. lia. }
  intros i d k Hi Hd Hk. destruct (G N (Nat.le_refl _)) as [G1 _]. apply G1; auto.
Qed.

(* ------------------------------------------------------------------ insertion of all the requests *)
Definition cnt (reqs : list (nat * list nat)) (i : nat) : nat :=
  fold_right (fun r n => if Nat.eqb (fst r) i then (length (snd r) + n)%nat else n) 0%nat reqs.
Lemma block_len_cnt nd reqs i : block_len nd reqs i = (nd * cnt reqs i)%nat.
Proof.
  unfold block_len. assert (G : forall reqs n, fold_left (fun n r => if Nat.eqb (fst r) i then (n + nd * length (snd r))%nat else n) reqs n = (n + nd * cnt reqs i)%nat).
  { clear. induction reqs as [|r reqs IH]; intros n; simpl; [lia|]. rewrite IH. destruct (Nat.eqb (fst r) i); nia. }
  now rewrite G.
Qed.
Lemma cnt_app r1 r2 i : cnt (r1 ++ r2) i = (cnt r1 i + cnt r2 i)%nat.
Proof. induction r1 as [|r r1 IH]; simpl; auto. destruct (Nat.eqb (fst r) i); lia. Qed.

Section Insert.
Variable idx : nat -> nat.
Variable nd : nat.
Variable rowEnts : list nat.
Let N := length rowEnts.
Hypothesis Hnd : (1 <= nd)%nat.
Hypothesis Hbig : Z.of_nat (nd * N) <= INVALID.

Definition wanted (reqs : list (nat * list nat)) (i : nat) (x : Z) : Prop :=
  exists r e, In r reqs /\ fst r = i /\ In e (snd r) /\ x = Z.of_nat (nd * idx e).

Lemma insert_requests_spec all : 
  (forall r, In r all -> (fst r < N)%nat /\ forall e, In e (snd r) -> (idx e < N)%nat) ->
  let L := fun i => block_len nd all i in
  let lens := lens_of nd N L in
  forall todo done m, all = done ++ todo ->
  (forall i, (i < N)%nat -> exists B, rep m (Z.of_nat (row_ptr lens (nd*i))) (L i) nd B /\ sorted B
      /\ (forall x, In x B <-> wanted done i x) /\ (length B <= cnt done i)%nat) ->
  let m' := insert_requests idx nd lens todo m in
  (forall i, (i < N)%nat -> exists B, rep m' (Z.of_nat (row_ptr lens (nd*i))) (L i) nd B /\ sorted B
      /\ (forall x, In x B <-> wanted all i x) /\ (length B <= cnt all i)%nat)
  /\ (forall x, x < 0 \/ Z.of_nat (row_ptr lens (nd*N)) <= x -> m' x = m x).
Proof.
  intros Hv L lens. induction todo as [|r todo IH]; intros don m E Hm.
  - rewrite app_nil_r in E. subst don. split; [exact Hm|reflexivity].
  - cbn [insert_requests fold_left]. cbn zeta.
    change (fold_left ?f todo ?a) with (insert_requests idx nd lens todo a).
    assert (Vr : In r all) by (subst all; apply in_or_app; right; left; auto).
    destruct (Hv r Vr) as [Vf Ve].
    assert (NL : nth (nd * fst r) lens 0%nat = L (fst r)) by (rewrite <- (Nat.add_0_r (nd * fst r)); apply lens_nth; auto).
    rewrite NL.
    assert (Good : forall x i, wanted all i x -> good nd x).
    { intros x i (r' & e & Hr' & _ & He & ->). destruct (Hv r' Hr') as [_ V]. specialize (V e He). repeat split; [lia| |].
      - exists (Z.of_nat (idx e)). lia.
      - assert (nd * idx e + nd <= nd * N)%nat by nia. lia. }
    assert (WM : forall i x, wanted don i x -> wanted all i x).
    { intros i x (r' & e & Hr' & H). exists r', e. split; auto. subst all. apply in_or_app; auto. }
    destruct (Hm (fst r) Vf) as (B & HR & HS & HI & HL).
    assert (CA : cnt all (fst r) = (cnt don (fst r) + (length (snd r) + cnt todo (fst r)))%nat).
    { subst all. rewrite cnt_app. simpl. now rewrite Nat.eqb_refl. }
    set (inds := map (fun e => Z.of_nat (nd * idx e)) (snd r)) in *.
    assert (II : forall x, In x inds <-> exists e, In e (snd r) /\ x = Z.of_nat (nd * idx e)).
    { intros x. unfold inds. rewrite in_map_iff. split; intros (e & A1 & A2); exists e; auto. }
    destruct (insertIndices_spec m (Z.of_nat (row_ptr lens (nd * fst r))) (L (fst r)) nd B inds Hnd HR HS) as (B' & R' & S' & I' & L' & F').
    + intros b Hb. apply (Good b (fst r)), WM, HI, Hb.
    + intros b Hb. apply II in Hb. destruct Hb as (e & He & ->). apply (Good _ (fst r)). exists r, e. auto.
    + unfold L. rewrite block_len_cnt, CA. unfold inds. rewrite map_length. nia.
    + destruct (IH (don ++ [r]) (insertIndices m (Z.of_nat (row_ptr lens (nd * fst r))) (L (fst r)) inds nd)) as [IH1 IH2]; [now rewrite <- app_assoc| |split; [exact IH1|]].
      2:{ intros x Hx. cbn zeta in IH2. rewrite IH2 by auto. apply F'. destruct Hx as [Hx|Hx]; [left; lia|right].
          assert (D := ptr_disjoint nd N L (fst r) N Vf Vf). fold lens in D. nia. }
      clear IH. intros i Hi. destruct (Nat.eq_dec i (fst r)) as [->|Hne].
      * exists B'. split; [auto|]. split; [auto|]. split.
        -- intros x. rewrite I', HI, II. split.
           ++ intros [(r' & e & A & A2)|(e & He & ->)]; [exists r', e; split; [apply in_or_app; auto|auto]|exists r, e; repeat split; auto; apply in_or_app; right; left; auto].
           ++ intros (r' & e & A & A2 & A3 & ->). apply in_app_or in A. destruct A as [A|[<-|[]]]; [left; exists r', e; auto|right; exists e; auto].
        -- rewrite cnt_app. simpl. rewrite Nat.eqb_refl. unfold inds in L'. rewrite map_length in L'. lia.
      * destruct (Hm i Hi) as (Bi & Ri & Si & Ii & Li). exists Bi. split; [|split; [auto|split]].
        -- destruct Ri as [Ra Rb]. split; [auto|]. intros k Hk. rewrite F'; [apply Rb; auto|].
           destruct (Nat.lt_total i (fst r)) as [Hlt|[?|Hgt]]; [|congruence|].
           ++ left. assert (D := ptr_disjoint nd N L i (fst r) Hlt Hi). fold lens in D. nia.
           ++ right. assert (D := ptr_disjoint nd N L (fst r) i Hgt Vf). fold lens in D. nia.
        -- intros x. rewrite Ii. split.
           ++ intros (r' & e & A & A2). exists r', e. split; auto. apply in_or_app; auto.
           ++ intros (r' & e & A & A2 & A3). apply in_app_or in A. destruct A as [A|[<-|[]]]; [exists r', e; auto|congruence].
        -- rewrite cnt_app. lia.
Qed.
End Insert.

(* ------------------------------------------------------------------ removal of unused entries *)
Lemma used_len_spec m p n : forall j old, (n <= j)%nat ->
  (forall k, (n <= k < j)%nat -> m (p + Z.of_nat k) = INVALID) ->
  (forall k, (k < n)%nat -> m (p + Z.of_nat k) <> INVALID) ->
  used_len m p j old = if Nat.eqb n 0 then old else n.
Proof.
  induction j as [|j IH]; intros old Hn H1 H2; simpl.
  - assert (n = 0)%nat by lia. now subst.
  - destruct (Nat.eq_dec n (S j)) as [->|Hne].
    + destruct (Z.eqb_spec (m (p + Z.of_nat j)) INVALID) as [E|_]; [exfalso; apply (H2 j); auto|]. reflexivity.
    + rewrite H1 by lia. rewrite Z.eqb_refl. cbn [negb]. apply IH; [lia|intros; apply H1; lia|auto].
Qed.

Lemma csr_flat newLens (f : nat -> list Z) : (forall i, (i < length newLens)%nat -> length (f i) = nth i newLens 0%nat) ->
  forall r, (r < length newLens)%nat ->
  csr_row (newLens, flat_map f (seq 0 (length newLens))) r = f r.
Proof.
  intros Hf r Hr. unfold csr_row. cbn [fst snd].
  assert (G : forall n, (n <= length newLens)%nat -> length (flat_map f (seq 0 n)) = row_ptr newLens n).
  { induction n as [|n IH]; intros Hn; [destruct newLens; reflexivity|]. rewrite seq_S, flat_map_app, app_length, IH by lia.
    simpl. rewrite app_nil_r, Hf, row_ptr_S by lia. reflexivity. }
  replace (length newLens) with (r + (1 + (length newLens - r - 1)))%nat by lia.
  rewrite seq_app, flat_map_app, skipn_app, skipn_all2 by (rewrite G; lia).
  rewrite G by lia. rewrite Nat.sub_diag. cbn [app skipn Nat.add seq flat_map].
  rewrite firstn_app, Hf by auto. rewrite Nat.sub_diag. cbn [firstn]. rewrite app_nil_r, <- Hf by auto. apply firstn_all.
Qed.

Lemma csr_flat2 n newLens (f : nat -> list Z) : length newLens = n -> (forall i, (i < n)%nat -> length (f i) = nth i newLens 0%nat) ->
  forall r, (r < n)%nat -> csr_row (newLens, flat_map f (seq 0 n)) r = f r.
Proof. intros <-. apply csr_flat. Qed.

Lemma read_row_length m p n : length (read_row m p n) = n.
Proof. unfold read_row. now rewrite map_length, seq_length. Qed.
Lemma read_row_app m p a b : read_row m p (a + b) = read_row m p a ++ read_row m (p + Z.of_nat a) b.
Proof.
  unfold read_row. rewrite seq_app, map_app. f_equal. rewrite Nat.add_0_l.
  assert (G : forall s, map (fun k => m (p + Z.of_nat k)) (seq (a + s) b) = map (fun k => m (p + Z.of_nat a + Z.of_nat k)) (seq s b)).
  { induction b as [|b IH]; intros s; simpl; auto. f_equal; [f_equal; lia|]. replace (S (a+s)) with (a + S s)%nat by lia. apply IH. }
  specialize (G 0%nat). now rewrite Nat.add_0_r in G.
Qed.

Lemma map_seq_nth (f : nat -> nat) n i : (i < n)%nat -> nth i (map f (seq 0 n)) 0%nat = f i.
Proof. intros H. rewrite (nth_indep _ 0%nat (f 0%nat)) by (rewrite map_length, seq_length; auto). rewrite map_nth, seq_nth; auto. Qed.

Lemma row_ptr_eq_all l1 l2 : (forall i, nth i l1 0 <= nth i l2 0)%nat ->
  forall n, row_ptr l1 n = row_ptr l2 n -> forall r, (r <= n)%nat -> row_ptr l1 r = row_ptr l2 r.
Proof.
  intros H. induction n as [|n IH]; intros E r Hr.
  - assert (r = 0)%nat by lia. subst; auto.
  - destruct (Nat.eq_dec r (S n)) as [->|]; auto. apply IH; [|lia].
    assert (A := row_ptr_le l1 l2 H n). rewrite !row_ptr_S in E. specialize (H n). lia.
Qed.

Lemma remove_invalid_spec lens m (rows : nat -> list Z) :
  (forall r, (r < length lens)%nat -> (length (rows r) <= nth r lens 0)%nat
     /\ ((0 < nth r lens 0)%nat -> rows r <> [])
     /\ (forall x, In x (rows r) -> x <> INVALID)
     /\ forall k, (k < nth r lens 0)%nat -> m (Z.of_nat (row_ptr lens r) + Z.of_nat k) = nth k (rows r) INVALID) ->
  length (fst (remove_invalid lens m)) = length lens /\
  forall r, (r < length lens)%nat -> csr_row (remove_invalid lens m) r = rows r.
Proof.
  intros H. unfold remove_invalid. set (n := length lens).
  set (nl := map _ (seq 0 n)).
  assert (NL : length nl = n) by (unfold nl; now rewrite map_length, seq_length).
  assert (NV : forall i, (i < n)%nat -> nth i nl 0%nat = length (rows i)).
  { intros i Hi. unfold nl. rewrite map_seq_nth by auto. destruct (H i Hi) as (A1 & A2 & A3 & A4).
    rewrite (used_len_spec m _ (length (rows i))); auto.
    - destruct (Nat.eqb_spec (length (rows i)) 0) as [E|]; auto. destruct (Nat.eq_dec (nth i lens 0%nat) 0%nat) as [E0|E0]; [lia|].
      exfalso. apply A2; [lia|]. now apply length_zero_iff_nil.
    - intros k Hk. rewrite A4 by lia. apply nth_overflow. lia.
    - intros k Hk. rewrite A4 by lia. apply A3, nth_In; auto. }
  assert (LE : forall i, (nth i nl 0 <= nth i lens 0)%nat).
  { intros i. destruct (Nat.lt_ge_cases i n) as [Hi|Hi].
    - rewrite NV by auto. apply H; auto.
    - rewrite nth_overflow by lia. lia. }
  assert (RR : forall r, (r < n)%nat -> read_row m (Z.of_nat (row_ptr lens r)) (nth r nl 0%nat) = rows r).
  { intros r Hr. rewrite NV by auto. destruct (H r Hr) as (A1 & A2 & A3 & A4).
    apply nth_ext with (d := INVALID) (d' := INVALID); rewrite read_row_length; auto.
    intros k Hk. rewrite <- A4 by lia. unfold read_row.
    rewrite (nth_indep _ INVALID (m (Z.of_nat (row_ptr lens r) + Z.of_nat 0))) by (rewrite map_length, seq_length; auto).
    rewrite map_nth with (f := fun k => m (Z.of_nat (row_ptr lens r) + Z.of_nat k)). now rewrite seq_nth. }
  destruct (Nat.ltb_spec (row_ptr nl n) (row_ptr lens n)) as [Hlt|Hge]; (split; [exact NL|]); intros r Hr.
  - rewrite (csr_flat2 n nl) by (auto; intros; apply read_row_length). now apply RR.
  - assert (EQ : row_ptr nl n = row_ptr lens n) by (assert (A := row_ptr_le nl lens LE n); lia).
    assert (EA := row_ptr_eq_all nl lens LE n EQ).
    rewrite <- (RR r Hr). unfold csr_row. cbn [fst snd].
    assert (E1 : row_ptr nl r = row_ptr lens r) by (apply EA; lia).
    assert (E2 : (row_ptr nl r + nth r nl 0 = row_ptr lens r + nth r lens 0)%nat) by (rewrite <- !row_ptr_S; apply EA; lia).
    assert (E3 : (row_ptr lens r + nth r lens 0 <= row_ptr lens n)%nat) by (apply row_ptr_end; auto).
    replace (row_ptr lens n) with (row_ptr lens r + (nth r nl 0 + (row_ptr lens n - row_ptr lens r - nth r nl 0)))%nat by lia.
    rewrite read_row_app, skipn_app, skipn_all2 by (rewrite read_row_length; lia).
    rewrite read_row_length. rewrite E1, Nat.sub_diag. cbn [app skipn]. rewrite read_row_app, firstn_app, read_row_length, Nat.sub_diag.
    cbn [firstn]. rewrite app_nil_r. rewrite firstn_all2 by (rewrite read_row_length; lia). f_equal.
Qed.

(* ------------------------------------------------------------------ connections *)
Section Conn.
Variable idx gid : nat -> nat.

Lemma In_ic c a b i x : In x (insert_connection idx c a b i) <-> In x (c i) \/ (i = idx a /\ x = b).
Proof.
  unfold insert_connection. destruct (Nat.eqb_spec i (idx a)) as [->|Hne].
  - destruct (existsb (Nat.eqb b) (c (idx a))) eqn:E.
    + apply existsb_exists in E. destruct E as (y & Hy & E). apply Nat.eqb_eq in E. subst y. split; [auto|]. intros [?|[_ ->]]; auto.
    + rewrite in_app_iff. simpl. intuition.
  - intuition congruence.
Qed.

Definition linked (es : list nat) i x : Prop := In x es /\ exists u, In u es /\ idx u = i.

Lemma In_add_pairs a rest : forall c i x,
  (In x (add_pairs idx gid c a rest i) -> In x (c i) \/ exists b, In b rest /\ ((i = idx a /\ x = b) \/ (i = idx b /\ x = a)))
  /\ (In x (c i) -> In x (add_pairs idx gid c a rest i))
  /\ (forall b, In b rest -> In b (add_pairs idx gid c a rest (idx a)) \/ In a (add_pairs idx gid c a rest (idx b))).
Proof.
  induction rest as [|b rest IH]; intros c i x.
  - simpl. repeat split; auto. intros b [].
  - cbn [add_pairs]. set (c' := insert_connection idx c _ _).
    assert (C' : forall i x, In x (c' i) <-> In x (c i) \/ (if Nat.ltb (gid a) (gid b) then i = idx a /\ x = b else i = idx b /\ x = a)).
    { intros. unfold c'. rewrite In_ic. destruct (Nat.ltb (gid a) (gid b)); tauto. }
    destruct (IH c' i x) as (A1 & A2 & A3). repeat split.
    + intros Hx. apply A1 in Hx. destruct Hx as [Hx|(b' & Hb' & Hx)].
      * apply C' in Hx. destruct Hx as [Hx|Hx]; [auto|]. right. exists b. split; [left; auto|]. destruct (Nat.ltb (gid a) (gid b)); auto.
      * right. exists b'. split; [right; auto|auto].
    + intros Hx. apply A2, C'. auto.
    + intros b' [<-|Hb'].
      * destruct (Nat.ltb (gid a) (gid b)) eqn:E.
        -- left. apply (IH c' (idx a) b). apply C'. auto.
        -- right. apply (IH c' (idx b) a). apply C'. auto.
      * apply (IH c' i x). auto.
Qed.

Lemma In_addConnections es : forall c i x,
  (In x (addConnections idx gid c es i) -> In x (c i) \/ linked es i x)
  /\ (In x (c i) -> In x (addConnections idx gid c es i))
  /\ (forall u v, In u es -> In v es -> In v (addConnections idx gid c es (idx u)) \/ In u (addConnections idx gid c es (idx v))).
Proof.
  induction es as [|a es IH]; intros c i x.
  - simpl. repeat split; auto. intros u v [].
  - cbn [addConnections]. set (c1 := insert_connection idx c a a). set (c2 := add_pairs idx gid c1 a es).
    assert (M2 : forall i x, In x (c2 i) -> In x (addConnections idx gid c2 es i)) by (intros j y; apply (IH c2 j y)).
    assert (M1 : forall i x, In x (c1 i) -> In x (c2 i)) by (intros j y; apply (In_add_pairs a es c1 j y)).
    repeat split.
    + intros Hx. apply (IH c2 i x) in Hx. destruct Hx as [Hx|(H1 & u & Hu & Eu)].
      * apply (In_add_pairs a es c1 i x) in Hx. destruct Hx as [Hx|(b & Hb & Hx)].
        -- apply In_ic in Hx. destruct Hx as [Hx|[-> ->]]; auto. right. split; [left; auto|]. exists a. split; [left|]; auto.
        -- right. destruct Hx as [[-> ->]|[-> ->]]; (split; [simpl; auto|]); [exists a|exists b]; simpl; auto.
      * right. split; [right; auto|]. exists u. split; [right|]; auto.
    + intros Hx. apply M2, M1, In_ic. auto.
    + intros u v [<-|Hu] [<-|Hv].
      * left. apply M2, M1, In_ic. auto.
      * destruct (In_add_pairs a es c1 0%nat 0%nat) as (_ & _ & A3). destruct (A3 v Hv) as [A|A]; [left|right]; apply M2, A.
      * destruct (In_add_pairs a es c1 0%nat 0%nat) as (_ & _ & A3). destruct (A3 u Hu) as [A|A]; [right|left]; apply M2, A.
      * apply (IH c2 i x); auto.
Qed.

Lemma In_build elems :
  (forall i x, In x (build idx gid elems i) -> exists es, In es elems /\ linked es i x)
  /\ (forall es u v, In es elems -> In u es -> In v es -> In v (build idx gid elems (idx u)) \/ In u (build idx gid elems (idx v))).
Proof.
  unfold build.
  assert (G : forall elems c,
     (forall i x, In x (fold_left (addConnections idx gid) elems c i) -> In x (c i) \/ exists es, In es elems /\ linked es i x)
     /\ (forall i x, In x (c i) -> In x (fold_left (addConnections idx gid) elems c i))
     /\ (forall es u v, In es elems -> In u es -> In v es -> In v (fold_left (addConnections idx gid) elems c (idx u)) \/ In u (fold_left (addConnections idx gid) elems c (idx v)))).
  { clear elems. induction elems as [|es elems IH]; intros c.
    - simpl. repeat split; auto. intros es u v [].
    - cbn [fold_left]. destruct (IH (addConnections idx gid c es)) as (A1 & A2 & A3). repeat split.
      + intros i x Hx. apply A1 in Hx. destruct Hx as [Hx|(es' & H1 & H2)]; [|right; exists es'; simpl; auto].
        apply (In_addConnections es c i x) in Hx. destruct Hx as [Hx|Hx]; auto. right. exists es. simpl; auto.
      + intros i x Hx. apply A2, (In_addConnections es c i x), Hx.
      + intros es' u v [<-|He] Hu Hv; [|eauto].
        destruct (In_addConnections es c 0%nat 0%nat) as (_ & _ & B3). destruct (B3 u v Hu Hv) as [B|B]; [left|right]; apply A2, B. }
  destruct (G elems (fun _ => [])) as (A1 & _ & A3). split; auto.
  intros i x Hx. apply A1 in Hx. destruct Hx as [[]|Hx]; auto.
Qed.
End Conn.

Lemma In_sorted_conn c i x : In x (sorted_conn c i) <-> In x (c i).
Proof.
  unfold sorted_conn. assert (P := NatSort.Permuted_sort (c i)). split; intros H.
  - eapply Permutation_in; [apply Permutation_sym, P|auto].
  - eapply Permutation_in; [apply P|auto].
Qed.

(** every row of the finished graph *)
Lemma finalize_rows idx gid nd rowEnts elems :
  (1 <= nd)%nat -> Z.of_nat (nd * length rowEnts) <= INVALID ->
  (forall i, (i < length rowEnts)%nat -> idx (nth i rowEnts 0%nat) = i) ->
  (forall es u, In es elems -> In u es -> (idx u < length rowEnts)%nat) ->
  length (fst (finalize idx gid nd rowEnts elems)) = (nd * length rowEnts)%nat /\
  forall i, (i < length rowEnts)%nat ->
  exists B, sorted B
    /\ (forall j, In (Z.of_nat (nd * j)) B <-> exists es u v, In es elems /\ In u es /\ In v es /\ idx u = i /\ idx v = j)
    /\ (forall x, In x B -> exists j, (j < length rowEnts)%nat /\ x = Z.of_nat (nd * j))
    /\ forall d, (d < nd)%nat -> csr_row (finalize idx gid nd rowEnts elems) (nd*i+d) = blocks nd B.
Proof.
  intros Hnd Hbig Hidx Hel. set (N := length rowEnts) in *.
  unfold finalize. set (c := sorted_conn (build idx gid elems)). set (reqs := requests idx rowEnts c).
  assert (CB : forall i x, In x (c i) -> exists es, In es elems /\ linked idx es i x).
  { intros i x Hx. unfold c in Hx. rewrite In_sorted_conn in Hx. now apply In_build in Hx. }
  assert (CC : forall es u v, In es elems -> In u es -> In v es -> In v (c (idx u)) \/ In u (c (idx v))).
  { intros es u v He Hu Hv. unfold c. rewrite !In_sorted_conn. eapply In_build; eauto. }
  assert (RQ : forall r, In r reqs <-> exists i, (i < N)%nat /\ c i <> [] /\
      (r = (i, c i) \/ exists b, In b (c i) /\ b <> nth i rowEnts 0%nat /\ r = (idx b, [nth i rowEnts 0%nat]))).
  { intros r. unfold reqs, requests. rewrite in_flat_map. fold N. split.
    - intros (i & Hi & Hr). apply in_seq in Hi. exists i. split; [lia|]. destruct (c i) as [|c0 cs] eqn:E; [destruct Hr|].
      split; [discriminate|]. rewrite Hidx in Hr by lia. destruct Hr as [<-|Hr]; [auto|]. right. apply in_map_iff in Hr. destruct Hr as (b & <- & Hb).
      apply filter_In in Hb. destruct Hb as [Hb Hn]. exists b. split; auto. split; auto. destruct (Nat.eqb_spec b (nth i rowEnts 0%nat)); [discriminate|auto].
    - intros (i & Hi & Hc & Hr). exists i. split; [apply in_seq; lia|]. destruct (c i) as [|c0 cs] eqn:E; [congruence|]. rewrite Hidx by lia.
      destruct Hr as [->|(b & Hb & Hn & ->)]; [left; auto|right]. apply in_map_iff. exists b. split; auto. apply filter_In. split; auto.
      destruct (Nat.eqb_spec b (nth i rowEnts 0%nat)); [contradiction|auto]. }
  assert (RV : forall r, In r reqs -> (fst r < N)%nat /\ snd r <> [] /\ forall e, In e (snd r) -> (idx e < N)%nat).
  { intros r Hr. apply RQ in Hr. destruct Hr as (i & Hi & Hc & Hr).
    assert (V : forall e, In e (c i) -> (idx e < N)%nat). { intros e He. destruct (CB i e He) as (es & H1 & H2 & _). eauto. }
    destruct Hr as [->|(b & Hb & Hn & ->)]; cbn [fst snd].
    - repeat split; auto.
    - repeat split; auto; [discriminate|]. intros e [<-|[]]. rewrite Hidx; auto. }
  change (row_lengths nd rowEnts reqs) with (lens_of nd N (block_len nd reqs)).
  set (L := block_len nd reqs). set (lens := lens_of nd N L).
  assert (LL : length lens = (nd * N)%nat) by apply lens_length.
  assert (IR := insert_requests_spec idx nd rowEnts Hnd Hbig reqs (fun r Hr => conj (proj1 (RV r Hr)) (proj2 (proj2 (RV r Hr)))) reqs [] (fun _ => INVALID) eq_refl).
  cbn zeta in IR. fold N in IR. change (fun i => block_len nd reqs i) with L in IR. fold lens in IR.
  assert (I0 : forall i, (i < N)%nat -> exists B, rep (fun _ => INVALID) (Z.of_nat (row_ptr lens (nd*i))) (L i) nd B /\ sorted B /\ (forall x, In x B <-> wanted idx nd [] i x) /\ (length B <= cnt [] i)%nat).
  { intros i Hi. exists []. repeat split; simpl; try lia; try constructor; try tauto.
    - intros k _. destruct k; reflexivity.
    - intros (r & e & [] & _). }
  specialize (IR I0). destruct IR as [IR _]. set (m := insert_requests idx nd lens reqs (fun _ => INVALID)) in *.
  assert (FE := fill_extra_spec nd rowEnts L m Hnd). cbn zeta in FE. fold N in FE. fold lens in FE.
  set (M := fill_extra nd rowEnts lens m) in *.
  (* choose the blocks *)
  assert (CH : exists Bs : nat -> list Z, forall i, (i < N)%nat -> rep m (Z.of_nat (row_ptr lens (nd*i))) (L i) nd (Bs i) /\ sorted (Bs i) /\ (forall x, In x (Bs i) <-> wanted idx nd reqs i x) /\ (length (Bs i) <= cnt reqs i)%nat).
  { clear -IR. revert IR. generalize N. intros n. induction n as [|n IH]; intros H.
    - exists (fun _ => []). intros; lia.
    - destruct IH as (Bs & HB). { intros; apply H; lia. } destruct (H n ltac:(lia)) as (B & HBn).
      exists (fun i => if Nat.eqb i n then B else Bs i). intros i Hi. destruct (Nat.eqb_spec i n) as [->|]; auto. apply HB; lia. }
  destruct CH as (Bs & HBs).
  assert (GD : forall i x, (i < N)%nat -> In x (Bs i) -> good nd x /\ exists j, (j < N)%nat /\ x = Z.of_nat (nd*j)).
  { intros i x Hi Hx. apply HBs in Hx; auto. destruct Hx as (r & e & Hr & _ & He & ->). destruct (RV r Hr) as (_ & _ & V). specialize (V e He).
    split; [|exists (idx e); auto]. repeat split; [lia|exists (Z.of_nat (idx e)); lia|]. assert (nd * idx e + nd <= nd * N)%nat by nia. lia. }
  destruct (remove_invalid_spec lens M (fun r => blocks nd (Bs (r / nd)%nat))) as [RL RS].
  { intros r Hr. rewrite LL in Hr. assert (Hi : (r / nd < N)%nat) by (apply Nat.div_lt_upper_bound; lia).
    assert (Hd : (r mod nd < nd)%nat) by (apply Nat.mod_upper_bound; lia).
    assert (Er : r = (nd * (r/nd) + r mod nd)%nat) by (apply Nat.div_mod; lia).
    set (i := (r/nd)%nat) in *. set (d := (r mod nd)%nat) in *. rewrite Er.
    destruct (HBs i Hi) as ([R1 R2] & HS & HI & HL).
    assert (NT : nth (nd*i+d) lens 0%nat = L i) by (apply lens_nth; auto). rewrite NT.
    split; [rewrite blocks_length; exact R1|]. split; [|split].
    - intros HLp E. assert (Bs i = []). { apply length_zero_iff_nil. assert (length (blocks nd (Bs i)) = 0)%nat by now rewrite E. rewrite blocks_length in *. nia. }
      (* some request targets the row *)
      assert (EX : exists r', In r' reqs /\ fst r' = i).
      { unfold L in HLp. rewrite block_len_cnt in HLp. clear -HLp. induction reqs as [|r' l IH]; simpl in HLp; [lia|].
        destruct (Nat.eqb_spec (fst r') i); [exists r'; simpl; auto|]. destruct IH as (r'' & ? & ?); auto. exists r''; simpl; auto. }
      destruct EX as (r' & Hr' & Ef). destruct (RV r' Hr') as (_ & NE & _). destruct (snd r') as [|e l] eqn:Es; [congruence|].
      assert (In (Z.of_nat (nd * idx e)) (Bs i)) by (apply HI; exists r', e; rewrite Es; simpl; auto). rewrite H in *. contradiction.
    - intros x Hx. apply (good_no_invalid nd (Bs i)); auto. intros b Hb. now apply (GD i).
    - intros k Hk. rewrite FE by auto. apply R2; auto. }
  split; [rewrite RL; exact LL|].
  intros i Hi. exists (Bs i). destruct (HBs i Hi) as (_ & HS & HI & _). split; [auto|]. split; [|split].
  - intros j. rewrite HI. split.
    + intros (r & e & Hr & Ef & He & Ex). assert (j = idx e) by nia. subst j. apply RQ in Hr. destruct Hr as (i' & Hi' & Hc & [->|(b & Hb & Hn & ->)]); cbn [fst snd] in *.
      * subst i'. destruct (CB i e He) as (es & H1 & H2 & u & Hu & Eu). exists es, u, e. auto.
      * destruct He as [<-|[]]. rewrite Hidx by auto. destruct (CB i' b Hb) as (es & H1 & H2 & u & Hu & Eu). exists es, b, u. auto.
    + intros (es & u & v & He & Hu & Hv & Eu & Ev). destruct (CC es u v He Hu Hv) as [C|C].
      * exists (i, c i), v. rewrite Eu in C. cbn [fst snd]. split; [|repeat split; auto; congruence]. apply RQ. exists i. repeat split; auto. intros E. rewrite E in C. destruct C.
      * rewrite Ev in C. assert (Hj : (j < N)%nat) by (rewrite <- Ev; eauto).
        destruct (Nat.eq_dec u (nth j rowEnts 0%nat)) as [E|NE].
        -- assert (E2 : i = j) by (rewrite <- Eu, E; apply Hidx; auto). rewrite <- E2 in C |- *. clear E.
           exists (i, c i), u. cbn [fst snd]. split; [|repeat split; auto; congruence]. apply RQ. exists i. repeat split; auto. intros E'. rewrite E' in C. destruct C.
        -- exists (idx u, [nth j rowEnts 0%nat]), (nth j rowEnts 0%nat). cbn [fst snd]. repeat split; [|auto|simpl; auto|rewrite Hidx; auto].
           apply RQ. exists j. split; [auto|]. split; [intros E'; rewrite E' in C; destruct C|]. right. exists u. auto.
  - intros x Hx. now apply (GD i).
  - intros d Hd. rewrite RS by (rewrite LL; nia). f_equal. f_equal.
    rewrite Nat.mul_comm, Nat.div_add_l by lia. rewrite Nat.div_small by lia. lia.
Qed.
