(** Lemmas for Sum_Props. *)
From Coq Require Import Reals Lra List ZArith Lia Bool Permutation.
From Coq Require Import Sorting.Sorted.
From Verif Require Import Edge_Proofs Sum_Model.
Import ListNotations.
Open Scope R_scope.

Lemma addat_eq v k x : addat v k x k = v k + x. Proof. unfold addat. now rewrite Nat.eqb_refl. Qed.
Lemma addat_ne v k x i : i <> k -> addat v k x i = v i. Proof. intros. unfold addat. destruct (Nat.eqb_spec i k); congruence. Qed.
Lemma lsum_perm {A} (f : A -> R) l l' : Permutation l l' -> lsum f l = lsum f l'.
Proof. unfold lsum. induction 1; simpl; lra. Qed.
Lemma lsum_cons {A} (f : A -> R) x l : lsum f (x :: l) = f x + lsum f l. Proof. reflexivity. Qed.
Lemma lsum_app {A} (f : A -> R) l l' : lsum f (l ++ l') = lsum f l + lsum f l'.
Proof. unfold lsum. induction l; simpl; [lra|]. rewrite IHl. lra. Qed.
Lemma lsum_map {A B} (f : B -> R) (g : A -> B) l : lsum f (map g l) = lsum (fun x => f (g x)) l.
Proof. unfold lsum. now rewrite map_map. Qed.

Definition key_le (a b : Z * nat) : Prop := (fst a <= fst b)%Z.
Definition cols_incr (cols : nat -> Z) (len : nat) : Prop := forall a b, (a < b)%nat -> (b < len)%nat -> (cols a < cols b)%Z.

Lemma seek_spec cols key : forall n off k, (off <= k)%nat -> (k < off + n)%nat -> cols k = key ->
  (forall j, (off <= j < k)%nat -> cols j <> key) -> seek cols n off key = k.
Proof.
  induction n as [|n IH]; intros off k H1 H2 Hk Hj; [lia|]. simpl.
  destruct (Z.eqb_spec (cols off) key) as [E|E].
  - destruct (Nat.eq_dec off k); auto. exfalso. apply (Hj off); auto. lia.
  - destruct (Nat.eq_dec off k) as [->|]; [contradiction|]. apply IH; auto; try lia. intros; apply Hj; lia.
Qed.

Definition hits (cols : nat -> Z) (k : nat) (input : nat -> R) (kp : Z * nat) : R := if Z.eqb (fst kp) (cols k) then input (snd kp) else 0.

Lemma gen_fold cols len input (Hinc : cols_incr cols len) pairs : forall v off,
  StronglySorted key_le pairs ->
  (forall kp, In kp pairs -> exists k, (off <= k < len)%nat /\ cols k = fst kp) ->
  forall k, (k < len)%nat ->
  fst (fold_left (row_step cols len input) pairs (v, off)) k = v k + lsum (hits cols k input) pairs.
Proof.
  induction pairs as [|kp pairs IH]; intros v off Hs Hin k Hk.
  - unfold lsum. simpl. lra.
  - inversion Hs as [|? ? Hs' Hf]; subst. rewrite Forall_forall in Hf. cbn [fold_left].
    destruct (Hin kp (or_introl eq_refl)) as (k0 & Hk0 & E0).
    assert (S0 : seek cols (len - off) off (fst kp) = k0).
    { apply seek_spec; auto; try lia. intros j Hj E. assert (H := Hinc j k0 ltac:(lia) ltac:(lia)). lia. }
    unfold row_step at 2. cbn [fst snd]. rewrite S0. destruct (Nat.ltb_spec k0 len); [|lia].
    rewrite IH; auto.
    + rewrite lsum_cons. unfold hits at 2. destruct (Nat.eq_dec k k0) as [->|Hne].
      * rewrite addat_eq. rewrite <- E0, Z.eqb_refl. lra.
      * rewrite addat_ne by auto. destruct (Z.eqb_spec (fst kp) (cols k)) as [E|]; [|lra].
        exfalso. destruct (Nat.lt_total k k0) as [L|[L|L]]; [|contradiction|].
        -- assert (H1 := Hinc k k0 L ltac:(lia)). lia.
        -- assert (H1 := Hinc k0 k L ltac:(lia)). lia.
    + intros kp' H'. destruct (Hin kp' (or_intror H')) as (k' & Hk' & E'). exists k'. split; auto. split; [|lia].
      destruct (Nat.lt_ge_cases k' k0) as [L|]; auto. exfalso. specialize (Hf kp' H'). unfold key_le in Hf.
      assert (H1 := Hinc k' k0 L ltac:(lia)). lia.
Qed.

(** strictly sorted permutations are equal *)
Definition key_lt (a b : Z * nat) : Prop := (fst a < fst b)%Z.
Lemma sorted_unique l : forall l', StronglySorted key_lt l -> StronglySorted key_lt l' -> Permutation l l' -> l = l'.
Proof.
  induction l as [|a l IH]; intros l' H H' P.
  - apply Permutation_nil in P. now subst.
  - destruct l' as [|b l']; [apply Permutation_sym, Permutation_nil in P; discriminate|].
    inversion H as [|? ? Hs Hf]; inversion H' as [|? ? Hs' Hf']; subst. rewrite Forall_forall in Hf, Hf'.
    assert (a = b).
    { assert (In a (b :: l')) by (eapply Permutation_in; [exact P|left; auto]).
      assert (In b (a :: l)) by (eapply Permutation_in; [apply Permutation_sym; exact P|left; auto]).
      destruct H0 as [|H0]; auto. destruct H1 as [|H1]; auto. specialize (Hf b H1). specialize (Hf' a H0). unfold key_lt in *. lia. }
    subst b. f_equal. apply IH; auto. eapply Permutation_cons_inv; eauto.
Qed.
Lemma sorted_strict l : StronglySorted key_le l -> NoDup (map fst l) -> StronglySorted key_lt l.
Proof.
  induction 1 as [|a l Hs IH Hf]; intros Hn; constructor.
  - apply IH. now inversion Hn.
  - rewrite Forall_forall in *. intros x Hx. specialize (Hf x Hx). inversion Hn as [|? ? Hni _]; subst.
    unfold key_le, key_lt in *. destruct (Z.eq_dec (fst a) (fst x)) as [E|]; [|lia]. exfalso. apply Hni. rewrite E. now apply in_map.
Qed.

(** sorting entities by column id *)
Fixpoint ins (f : nat -> Z) (x : nat) (l : list nat) : list nat :=
  match l with [] => [x] | y :: t => if Z.leb (f x) (f y) then x :: l else y :: ins f x t end.
Fixpoint isort (f : nat -> Z) (l : list nat) : list nat := match l with [] => [] | x :: t => ins f x (isort f t) end.
Lemma ins_perm f x l : Permutation (x :: l) (ins f x l).
Proof. induction l as [|y t IH]; simpl; auto. destruct (Z.leb (f x) (f y)); auto. eapply perm_trans; [apply perm_swap|]. now constructor. Qed.
Lemma isort_perm f l : Permutation l (isort f l).
Proof. induction l as [|x t IH]; simpl; auto. eapply perm_trans; [apply perm_skip, IH|apply ins_perm]. Qed.
Lemma ins_sorted f x l : StronglySorted (fun a b => (f a <= f b)%Z) l -> StronglySorted (fun a b => (f a <= f b)%Z) (ins f x l).
Proof.
  induction 1 as [|y t Hs IH Hf]; simpl; [repeat constructor|]. rewrite Forall_forall in Hf.
  destruct (Z.leb_spec (f x) (f y)) as [L|L]; constructor; auto.
  - constructor; auto. now apply Forall_forall.
  - apply Forall_forall. intros z [<-|Hz]; auto. specialize (Hf z Hz). lia.
  - apply Forall_forall. intros z Hz. apply (Permutation_in _ (Permutation_sym (ins_perm f x t))) in Hz. destruct Hz as [<-|Hz]; [lia|auto].
Qed.
Lemma isort_sorted f l : StronglySorted (fun a b => (f a <= f b)%Z) (isort f l).
Proof. induction l; simpl; [constructor|]. now apply ins_sorted. Qed.

(** three dofs: the sorted pairs are the triples of the sorted entities *)
Definition triple (colLID : nat -> Z) (e : nat) : list (Z * nat) := [(colLID e, 3*e)%nat; ((colLID e + 1)%Z, (3*e+1)%nat); ((colLID e + 2)%Z, (3*e+2)%nat)].
Lemma unsorted3 colLID : forall n s, map (fun p => ((colLID (p / 3)%nat + Z.of_nat (p mod 3))%Z, p)) (seq (3*s) (n * 3)) = flat_map (triple colLID) (seq s n).
Proof.
  induction n as [|n IH]; intros s; [reflexivity|].
  change (S n * 3)%nat with (3 + n*3)%nat. rewrite seq_app, map_app. cbn [seq flat_map]. f_equal.
  - assert (D : forall d, (d < 3)%nat -> ((3*s+d)/3 = s /\ (3*s+d) mod 3 = d)%nat).
    { intros d Hd. split; [rewrite Nat.mul_comm, Nat.div_add_l, Nat.div_small by lia; lia|].
      rewrite Nat.add_comm, Nat.mul_comm, Nat.mod_add, Nat.mod_small by lia. reflexivity. }
    unfold triple. cbn [map].
    destruct (D 0%nat ltac:(lia)) as [A0 B0]. destruct (D 1%nat ltac:(lia)) as [A1 B1]. destruct (D 2%nat ltac:(lia)) as [A2 B2].
    replace (3*s)%nat with (3*s+0)%nat at 1 2 3 by lia. replace (S (3*s))%nat with (3*s+1)%nat by lia. replace (S (3*s+1))%nat with (3*s+2)%nat by lia.
    rewrite A0, B0, A1, B1, A2, B2. rewrite !Nat.add_0_r. repeat f_equal; cbn; lia.
  - replace (3*s+3)%nat with (3 * S s)%nat by lia. apply IH.
Qed.

Lemma flat_map_perm {A B} (f : A -> list B) l l' : Permutation l l' -> Permutation (flat_map f l) (flat_map f l').
Proof.
  induction 1; simpl; auto.
  - now apply Permutation_app_head.
  - rewrite !app_assoc. apply Permutation_app_tail, Permutation_app_comm.
  - eapply perm_trans; eauto.
Qed.

Lemma sorted_pairs3 n colLID pairs :
  (forall a b, (a < n)%nat -> (b < n)%nat -> a <> b -> colLID a <> colLID b) ->
  (forall a, (a < n)%nat -> exists q, colLID a = 3 * q)%Z ->
  Permutation (unsorted_pairs 3 n colLID) pairs -> StronglySorted key_le pairs ->
  exists es, Permutation (seq 0 n) es /\ StronglySorted (fun a b => (colLID a < colLID b)%Z) es /\ pairs = flat_map (triple colLID) es.
Proof.
  intros Hd Hm HP HS. unfold unsorted_pairs in HP. assert (U3 := unsorted3 colLID n 0); change (3*0)%nat with 0%nat in U3; rewrite U3 in HP; clear U3.
  set (es := isort colLID (seq 0 n)). assert (P : Permutation (seq 0 n) es) by apply isort_perm.
  assert (Hin : forall e, In e es -> (e < n)%nat). { intros e He. apply (Permutation_in _ (Permutation_sym P)) in He. apply in_seq in He. lia. }
  assert (ND : NoDup es) by (eapply Permutation_NoDup; [exact P|apply seq_NoDup]).
  assert (SS : StronglySorted (fun a b => (colLID a < colLID b)%Z) es).
  { assert (S0 := isort_sorted colLID (seq 0 n)). fold es in S0. clearbody es. clear P. induction S0 as [|e es S0 IH Hf]; constructor.
    - apply IH; [intros; apply Hin; right; auto|now inversion ND].
    - rewrite Forall_forall in *. intros x Hx. specialize (Hf x Hx). inversion ND; subst.
      assert (colLID e <> colLID x) by (apply Hd; [apply Hin; left; auto|apply Hin; right; auto|intros ->; contradiction]). lia. }
  exists es. split; [auto|]. split; [auto|].
  assert (T : StronglySorted key_lt (flat_map (triple colLID) es)).
  { clearbody es. clear P ND. induction SS as [|e es SS IH Hf]; [constructor|]. rewrite Forall_forall in Hf.
    assert (IH' := IH (fun x Hx => Hin x (or_intror Hx))).
    assert (G : forall y, In y (flat_map (triple colLID) es) -> (colLID e + 3 <= fst y)%Z).
    { intros y Hy. apply in_flat_map in Hy. destruct Hy as (x & Hx & Hy). specialize (Hf x Hx).
      destruct (Hm e (Hin e (or_introl eq_refl))) as [q Eq]. destruct (Hm x (Hin x (or_intror Hx))) as [q' Eq'].
      unfold triple in Hy. simpl in Hy. destruct Hy as [<-|[<-|[<-|[]]]]; cbn [fst]; lia. }
    cbn [flat_map triple app]. repeat (constructor; [|apply Forall_forall; unfold key_lt; cbn [fst]; intros y Hy; simpl in Hy;
      repeat (destruct Hy as [<-|Hy]; [cbn [fst]; lia|]); specialize (G y Hy); lia]). exact IH'. }
  assert (PP : Permutation (flat_map (triple colLID) es) pairs).
  { eapply perm_trans; [|exact HP]. apply flat_map_perm, Permutation_sym, P. }
  assert (NK : NoDup (map fst pairs)).
  { eapply Permutation_NoDup; [apply Permutation_map, PP|]. clear -T. induction T as [|a l T IH Hf]; simpl; constructor; auto.
    rewrite Forall_forall in Hf. intros Hi. apply in_map_iff in Hi. destruct Hi as (x & E & Hx). specialize (Hf x Hx). unfold key_lt in Hf. lia. }
  symmetry. apply sorted_unique; auto. now apply sorted_strict.
Qed.

(** rows stored in blocks of three columns *)
Definition blocked3 (cols : nat -> Z) (len : nat) : Prop :=
  exists nb, len = (3 * nb)%nat /\ forall b, (b < nb)%nat ->
    (exists q, cols (3*b)%nat = 3 * q)%Z /\ cols (3*b+1)%nat = (cols (3*b)%nat + 1)%Z /\ cols (3*b+2)%nat = (cols (3*b)%nat + 2)%Z.

Lemma seek3_spec cols nb key : forall fuel b k, (b <= k)%nat -> (k < nb)%nat -> (k <= b + fuel)%nat -> cols (3*k)%nat = key ->
  (forall j, (b <= j < k)%nat -> cols (3*j)%nat <> key) ->
  seek3 cols fuel (3*nb) (3*b) key = Some (3*k)%nat.
Proof.
  induction fuel as [|f IH]; intros b k H1 H2 H3 Hk Hj.
  - assert (b = k) by lia. subst b. cbn [seek3]. rewrite Hk, Z.eqb_refl. reflexivity.
  - cbn [seek3]. destruct (Z.eqb_spec (cols (3*b)%nat) key) as [E|E].
    + destruct (Nat.eq_dec b k) as [->|]; auto. exfalso. apply (Hj b); auto; lia.
    + assert (b <> k) by (intros ->; contradiction). destruct (Nat.leb_spec (3*nb) (3*b+3)); [lia|].
      replace (3*b+3)%nat with (3 * S b)%nat by lia. apply IH; auto; try lia. intros; apply Hj; lia.
Qed.

Lemma vec3_fold cols nb colLID input (Hinc : cols_incr cols (3*nb)) (Hb : blocked3 cols (3*nb)) : forall es v b,
  StronglySorted (fun a b => (colLID a < colLID b)%Z) es ->
  (forall e, In e es -> exists k, (b <= k < nb)%nat /\ cols (3*k)%nat = colLID e) ->
  forall k, (k < 3*nb)%nat ->
  vec_3_loop cols (3*nb) input (flat_map (triple colLID) es) v (3*b) k = v k + lsum (hits cols k input) (flat_map (triple colLID) es).
Proof.
  destruct Hb as (nb' & En & Hb). assert (nb' = nb) by lia. subst nb'.
  induction es as [|e es IH]; intros v b Hs Hin k Hk.
  - unfold lsum. simpl. lra.
  - inversion Hs as [|? ? Hs' Hf]; subst. rewrite Forall_forall in Hf.
    destruct (Hin e (or_introl eq_refl)) as (k0 & Hk0 & E0).
    cbn [flat_map triple app vec_3_loop].
    rewrite (seek3_spec cols nb (colLID e) (3*nb) b k0); auto; try lia.
    2:{ intros j Hj E. assert (H := Hinc (3*j)%nat (3*k0)%nat ltac:(lia) ltac:(lia)). lia. }
    replace (3*k0+3)%nat with (3 * S k0)%nat by lia. rewrite IH; auto.
    2:{ intros e' H'. destruct (Hin e' (or_intror H')) as (k' & Hk' & E'). exists k'. split; auto. split; [|lia].
        specialize (Hf e' H'). destruct (Nat.lt_ge_cases k0 k') as [|L]; [lia|]. exfalso.
        destruct (Nat.eq_dec k0 k') as [->|]; [lia|]. assert (H1 := Hinc (3*k')%nat (3*k0)%nat ltac:(lia) ltac:(lia)). lia. }
    rewrite !lsum_cons. destruct (Hb k0 ltac:(lia)) as (_ & C1 & C2). unfold hits. cbn [fst snd].
    assert (U : forall a, (a < 3*nb)%nat -> (cols a =? cols k)%Z = Nat.eqb k a).
    { intros a Ha. destruct (Nat.eqb_spec k a) as [->|Hne]; [apply Z.eqb_refl|]. apply Z.eqb_neq.
      destruct (Nat.lt_total a k) as [L|[L|L]]; [|lia|]; [assert (H1 := Hinc a k L ltac:(lia))|assert (H1 := Hinc k a L ltac:(lia))]; lia. }
    unfold addat.
    replace (colLID e)%Z with (cols (3*k0)%nat) by auto. rewrite <- C1, <- C2. rewrite !U by lia.
    destruct (Nat.eqb_spec k (3*k0)), (Nat.eqb_spec k (3*k0+1)), (Nat.eqb_spec k (3*k0+2)); try lia; lra.
Qed.
