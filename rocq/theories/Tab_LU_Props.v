(** C59: the LU solver solves the system. *)
Require Import Reals List Bool Lra Lia PeanoNat.
From Verif Require Import Edge_Model Edge_Proofs Elem_Proofs Tab_LU_Model.
Import ListNotations.
Open Scope R_scope.

(** matrix times vector *)
Definition mv (n : nat) (A : mat) (x : nat -> R) (i : nat) : R := sumn n (fun c => A i c * x c).
(** the leading m by m block has no kernel *)
Definition regular (m : nat) (A : mat) : Prop :=
  forall z, (forall i, (i < m)%nat -> mv m A z i = 0) -> forall i, (i < m)%nat -> z i = 0.

Lemma fold_sub (f : nat -> R) l a : fold_left (fun s k => s - f k) l a = a - lsum f l.
Proof. revert a. induction l as [|k l IH]; intros a; cbn [fold_left]; unfold lsum in *; cbn; [lra|]. rewrite IH. lra. Qed.
Lemma lsum_sumn f n : lsum f (seq 0 n) = sumn n f.
Proof.
  induction n as [|n IH]; [reflexivity|]. rewrite sumn_S, <- IH, seq_S. unfold lsum. rewrite map_app, fold_right_app. cbn [map fold_right plus].
  generalize (map f (seq 0 n)) as l. induction l as [|x l IHl]; cbn; [lra|]. rewrite IHl. lra.
Qed.
Lemma sumterm_value M i j m : sumterm M i j m = M i j - sumn m (fun k => M i k * M k j).
Proof. unfold sumterm. rewrite fold_sub, lsum_sumn. reflexivity. Qed.

Lemma upd2_same M i j v : upd2 M i j v i j = v. Proof. unfold upd2. rewrite !Nat.eqb_refl. reflexivity. Qed.
Lemma upd2_other M i j v r c : (r <> i \/ c <> j) -> upd2 M i j v r c = M r c.
Proof.
  intros H. unfold upd2. destruct (Nat.eqb_spec r i), (Nat.eqb_spec c j); auto. destruct H; contradiction.
Qed.

(** the upper loop of column j *)
Lemma upper_spec M j m : (m <= j)%nat ->
  let M' := fold_left (fun M i => upd2 M i j (sumterm M i j i)) (seq 0 m) M in
  (forall r c, (c <> j \/ m <= r)%nat -> M' r c = M r c)
  /\ (forall r, (r < m)%nat -> M r j = sumn r (fun k => M r k * M' k j) + M' r j).
Proof.
  induction m as [|m IH]; intros Hm M'.
  - split; [reflexivity|intros; lia].
  - subst M'. rewrite seq_S, fold_left_app. cbn [fold_left plus].
    set (P := fold_left _ (seq 0 m) M) in *. destruct (IH ltac:(lia)) as [Q1 Q2]. fold P in Q1, Q2.
    split.
    + intros r c Hrc. rewrite upd2_other by lia. apply Q1. lia.
    + intros r Hr. destruct (Nat.eq_dec r m) as [->|N].
      * assert (E : forall v, sumn m (fun k => M m k * upd2 P m j v k j) = sumn m (fun k => P m k * P k j)).
        { intros v. apply sumn_ext. intros k Hk. rewrite upd2_other by lia. rewrite (Q1 m k) by lia. reflexivity. }
        rewrite upd2_same, E, sumterm_value. rewrite (Q1 m j) by lia. lra.
      * rewrite upd2_other by lia. rewrite (Q2 r) by lia. f_equal. apply sumn_ext; intros k Hk.
        rewrite upd2_other by lia. reflexivity.
Qed.
Lemma lower_spec dim M j m : (j + m <= dim)%nat ->
  let M' := fold_left (fun M i => upd2 M i j (sumterm M i j j)) (seq j m) M in
  (forall r c, (c <> j \/ r < j \/ j + m <= r)%nat -> M' r c = M r c)
  /\ (forall r, (j <= r < j + m)%nat -> M' r j = M r j - sumn j (fun k => M r k * M k j)).
Proof.
  induction m as [|m IH]; intros Hm M'.
  - split; [reflexivity|intros; lia].
  - subst M'. rewrite seq_S, fold_left_app. cbn [fold_left].
    set (P := fold_left _ (seq j m) M) in *. destruct (IH ltac:(lia)) as [Q1 Q2]. fold P in Q1, Q2.
    split.
    + intros r c Hrc. rewrite upd2_other by lia. apply Q1. lia.
    + intros r Hr. destruct (Nat.eq_dec r (j + m)) as [->|N].
      * rewrite upd2_same, sumterm_value. rewrite (Q1 (j + m)%nat j) by lia. f_equal. apply sumn_ext; intros k Hk.
        rewrite (Q1 (j+m)%nat k), (Q1 k j) by lia. reflexivity.
      * rewrite upd2_other by lia. apply Q2. lia.
Qed.
Lemma scale_spec M j m t :
  let M' := fold_left (fun M i => upd2 M i j (M i j * t)) (seq (j + 1) m) M in
  (forall r c, (c <> j \/ r <= j \/ j + 1 + m <= r)%nat -> M' r c = M r c)
  /\ (forall r, (j + 1 <= r < j + 1 + m)%nat -> M' r j = M r j * t).
Proof.
  induction m as [|m IH]; intros M'.
  - split; [reflexivity|intros; lia].
  - subst M'. rewrite seq_S, fold_left_app. cbn [fold_left].
    set (P := fold_left _ (seq (j + 1) m) M) in *. destruct IH as [Q1 Q2]. fold P in Q1, Q2.
    split.
    + intros r c Hrc. rewrite upd2_other by lia. apply Q1. lia.
    + intros r Hr. destruct (Nat.eq_dec r (j + 1 + m)) as [->|N].
      * rewrite upd2_same. rewrite (Q1 (j + 1 + m)%nat j) by lia. reflexivity.
      * rewrite upd2_other by lia. apply Q2. lia.
Qed.

(** one column *)
Definition col_step (dim : nat) (M : mat) (j : nat) : mat := scale_loop dim (lower_loop dim (upper_loop M j) j) j.
Lemma col_step_spec dim M j : (j < dim)%nat ->
  let F := col_step dim M j in
  (forall r c, (c <> j)%nat -> F r c = M r c)
  /\ (forall r, (r <= j)%nat -> M r j = sumn r (fun k => M r k * F k j) + F r j)
  /\ (forall r, (j < r < dim)%nat -> F r j = (M r j - sumn j (fun k => M r k * F k j)) * (1 / F j j)).
Proof.
  intros Hj F. unfold F, col_step, scale_loop, lower_loop, upper_loop.
  destruct (upper_spec M j j (le_n j)) as [U1 U2].
  set (P := fold_left _ (seq 0 j) M) in *.
  destruct (lower_spec dim P j (dim - j) ltac:(lia)) as [L1 L2].
  set (Q := fold_left _ (seq j (dim - j)) P) in *.
  destruct (scale_spec Q j (dim - (j + 1)) (1 / Q j j)) as [S1 S2].
  set (T := fold_left _ (seq (j + 1) (dim - (j + 1))) Q) in *.
  assert (TP : forall k, (k < j)%nat -> T k j = P k j).
  { intros k Hk. rewrite S1 by lia. apply L1. lia. }
  split; [|split].
  - intros r c N. rewrite S1, L1, U1 by lia. reflexivity.
  - intros r Hr. destruct (Nat.eq_dec r j) as [->|N].
    + rewrite (S1 j j), (L2 j), (U1 j j) by lia.
      rewrite (sumn_ext j (fun k => P j k * P k j) (fun k => M j k * T k j)).
      * lra.
      * intros k Hk. rewrite TP, (U1 j k) by lia. reflexivity.
    + rewrite TP by lia. rewrite (U2 r) by lia. f_equal. apply sumn_ext; intros k Hk. rewrite TP by lia. reflexivity.
  - intros r Hr. rewrite (S1 j j) by lia. rewrite (S2 r), (L2 r), (U1 r j) by lia. f_equal. f_equal.
    apply sumn_ext; intros k Hk. rewrite TP, (U1 r k) by lia. reflexivity.
Qed.

(** the whole factorisation: columns already done satisfy the defining equations *)
Definition crout (dim m : nat) (A F : mat) : Prop :=
  (forall r c, (m <= c)%nat -> F r c = A r c)
  /\ (forall c r, (c < m)%nat -> (r <= c)%nat -> A r c = sumn r (fun k => F r k * F k c) + F r c)
  /\ (forall c r, (c < m)%nat -> (c < r < dim)%nat -> F r c = (A r c - sumn c (fun k => F r k * F k c)) * (1 / F c c)).
Lemma decompose_prefix dim A m : (m <= dim)%nat -> crout dim m A (fold_left (col_step dim) (seq 0 m) A).
Proof.
  induction m as [|m IH]; intros Hm.
  - repeat split; intros; try lia.
  - rewrite seq_S, fold_left_app. cbn [fold_left plus]. destruct (IH ltac:(lia)) as (Q1 & Q2 & Q3).
    set (M := fold_left _ (seq 0 m) A) in *.
    destruct (col_step_spec dim M m ltac:(lia)) as (C1 & C2 & C3). set (F := col_step dim M m) in *.
    split; [|split].
    + intros r c Hc. rewrite C1 by lia. apply Q1. lia.
    + intros c r Hc Hr. destruct (Nat.eq_dec c m) as [->|N].
      * rewrite <- (Q1 r m) by lia. rewrite (C2 r) by lia. f_equal. apply sumn_ext; intros k Hk.
        rewrite (C1 r k) by lia. reflexivity.
      * rewrite (Q2 c r) by lia. rewrite (C1 r c) by lia. f_equal. apply sumn_ext; intros k Hk.
        rewrite (C1 r k), (C1 k c) by lia. reflexivity.
    + intros c r Hc Hr. destruct (Nat.eq_dec c m) as [->|N].
      * rewrite (C3 r) by lia. rewrite <- (Q1 r m) by lia. f_equal. f_equal. apply sumn_ext; intros k Hk.
        rewrite (C1 r k) by lia. reflexivity.
      * rewrite (C1 r c), (C1 c c) by lia. rewrite (Q3 c r) by lia. f_equal. f_equal.
        apply sumn_ext; intros k Hk. rewrite (C1 r k), (C1 k c) by lia. reflexivity.
Qed.
Lemma decompose_crout dim A : crout dim dim A (decompose dim A).
Proof. exact (decompose_prefix dim A dim (le_n dim)). Qed.

(** unit lower and upper triangular parts *)
Definition Lpart (F : mat) : mat := fun i k => if Nat.ltb k i then F i k else if Nat.eqb k i then 1 else 0.
Definition Upart (F : mat) : mat := fun k c => if Nat.leb k c then F k c else 0.
Definition pivots_ok (dim : nat) (A : mat) : Prop := forall j, (j < dim)%nat -> decompose dim A j j <> 0.

Lemma sumn_trunc n m f : (m <= n)%nat -> (forall k, (m <= k < n)%nat -> f k = 0) -> sumn n f = sumn m f.
Proof.
  intros Hm H. induction n as [|n IH]; [replace m with 0%nat by lia; reflexivity|].
  destruct (Nat.eq_dec m (S n)) as [->|N]; [reflexivity|].
  rewrite sumn_S, (H n) by lia. rewrite IH; [lra|lia|intros; apply H; lia].
Qed.
Lemma lu_product_gen dim m A F : crout dim dim A F -> (m <= dim)%nat -> (forall j, (j < m)%nat -> F j j <> 0) ->
  forall i c, (i < dim)%nat -> (c < dim)%nat -> (i <= c \/ c < m)%nat -> A i c = sumn dim (fun k => Lpart F i k * Upart F k c).
Proof.
  intros (_ & Q2 & Q3) Hm NZ i c Hi Hc Hor.
  destruct (le_lt_dec i c) as [L|L].
  - rewrite (sumn_trunc dim (S i)) by
      (try lia; intros k Hk; unfold Lpart; replace (Nat.ltb k i) with false by (symmetry; apply Nat.ltb_ge; lia);
       replace (Nat.eqb k i) with false by (symmetry; apply Nat.eqb_neq; lia); lra).
    rewrite sumn_S, (Q2 c i) by lia.
    unfold Lpart at 2. rewrite Nat.ltb_irrefl, Nat.eqb_refl. unfold Upart at 2.
    replace (Nat.leb i c) with true by (symmetry; apply Nat.leb_le; lia). rewrite Rmult_1_l. f_equal.
    apply sumn_ext; intros k Hk. unfold Lpart, Upart.
    replace (Nat.ltb k i) with true by (symmetry; apply Nat.ltb_lt; lia).
    replace (Nat.leb k c) with true by (symmetry; apply Nat.leb_le; lia). reflexivity.
  - rewrite (sumn_trunc dim (S c)) by
      (try lia; intros k Hk; unfold Upart; replace (Nat.leb k c) with false by (symmetry; apply Nat.leb_gt; lia); lra).
    rewrite sumn_S.
    rewrite (sumn_ext c (fun k => Lpart F i k * Upart F k c) (fun k => F i k * F k c)).
    + unfold Lpart, Upart. replace (Nat.ltb c i) with true by (symmetry; apply Nat.ltb_lt; lia).
      rewrite Nat.leb_refl. rewrite (Q3 c i) by lia. field. apply NZ. lia.
    + intros k Hk. unfold Lpart, Upart.
      replace (Nat.ltb k i) with true by (symmetry; apply Nat.ltb_lt; lia).
      replace (Nat.leb k c) with true by (symmetry; apply Nat.leb_le; lia). reflexivity.
Qed.
(** ** C59: the stored factors multiply to the matrix *)
Theorem C59_factors_reproduce_matrix : forall dim A, pivots_ok dim A ->
  forall i c, (i < dim)%nat -> (c < dim)%nat ->
  A i c = sumn dim (fun k => Lpart (decompose dim A) i k * Upart (decompose dim A) k c).
Proof.
  intros dim A P i c Hi Hc. apply (lu_product_gen dim dim); auto; try lia. apply decompose_crout.
Qed.

(* ------------------------------------------------------------------ substitution *)
Lemma upd1_same b i v : upd1 b i v i = v. Proof. unfold upd1. rewrite Nat.eqb_refl. reflexivity. Qed.
Lemma upd1_other b i v r : r <> i -> upd1 b i v r = b r.
Proof. intros H. unfold upd1. destruct (Nat.eqb_spec r i); [contradiction|reflexivity]. Qed.
Lemma forward_spec dim F b : (0 < dim)%nat ->
  let y := forward_subs dim F b in forall i, (i < dim)%nat -> y i + sumn i (fun j => F i j * y j) = b i.
Proof.
  intros Hd y. unfold y, forward_subs.
  assert (K : forall m, let y := fold_left (fun b i => upd1 b i (fold_left (fun s j => s - F i j * b j) (seq 0 i) (b i))) (seq 1 m) b in
     (forall i, (m < i)%nat -> y i = b i) /\ forall i, (i <= m)%nat -> y i + sumn i (fun j => F i j * y j) = b i).
  { induction m as [|m IH]; cbv zeta.
    - split; [reflexivity|]. intros i Hi. replace i with 0%nat by lia. rewrite sumn_0. cbn. lra.
    - rewrite seq_S, fold_left_app. cbn [fold_left plus]. cbv zeta in IH. destruct IH as [Q1 Q2].
      set (y1 := fold_left _ (seq 1 m) b) in *. rewrite fold_sub, lsum_sumn.
      split.
      + intros i Hi. rewrite upd1_other by lia. apply Q1. lia.
      + intros i Hi. destruct (Nat.eq_dec i (S m)) as [->|N].
        * rewrite upd1_same, (Q1 (S m)) by lia.
          assert (E : forall v, sumn (S m) (fun j => F (S m) j * upd1 y1 (S m) v j) = sumn (S m) (fun j => F (S m) j * y1 j)).
          { intros v. apply sumn_ext. intros j Hj. rewrite upd1_other by lia. reflexivity. }
          rewrite E. lra.
        * rewrite upd1_other by lia. rewrite <- (Q2 i) by lia. f_equal. apply sumn_ext; intros j Hj.
          rewrite upd1_other by lia. reflexivity. }
  intros i Hi. apply (proj2 (K (dim - 1)%nat)). lia.
Qed.

Lemma back_row_value dim F b i r : (i + 1 < dim)%nat ->
  back_row dim F b i r = if Nat.eqb r i then (b i - lsum (fun j => F i j * b j) (seq (i + 1) (dim - (i + 1)))) / F i i else b r.
Proof.
  intros Hi. unfold back_row.
  assert (K : forall m, let sb := fold_left (fun sb j => let s := fst sb - F i j * snd sb j in (s, upd1 (snd sb) i (s / F i i)))
                 (seq (i + 1) (S m)) (b i, b) in
     fst sb = b i - lsum (fun j => F i j * b j) (seq (i + 1) (S m))
     /\ forall r, snd sb r = if Nat.eqb r i then fst sb / F i i else b r).
  { induction m as [|m IH]; cbv zeta.
    - cbn [seq fold_left fst snd]. unfold lsum; cbn [map fold_right]. split; [lra|]. intros r'. unfold upd1. reflexivity.
    - rewrite (seq_S (S m)), fold_left_app. cbv zeta in IH. set (sb := fold_left _ (seq (i + 1) (S m)) (b i, b)) in *.
      destruct IH as [Q1 Q2]. cbn [fold_left fst snd]. split.
      + rewrite Q1, Q2. replace (Nat.eqb (i + 1 + S m) i) with false by (symmetry; apply Nat.eqb_neq; lia).
        unfold lsum. rewrite map_app, fold_right_app. cbn [map fold_right].
        assert (G : forall l a, fold_right Rplus a l = fold_right Rplus 0 l + a).
        { induction l as [|x l IHl]; intros a; cbn; [lra|]. rewrite IHl. lra. }
        rewrite (G _ (_ + 0)). lra.
      + intros r'. unfold upd1. destruct (Nat.eqb r' i) eqn:E; [reflexivity|]. rewrite Q2, E. reflexivity. }
  replace (dim - (i + 1))%nat with (S (dim - i - 2)) by lia. destruct (K (dim - i - 2)%nat) as [Q1 Q2].
  rewrite Q2, Q1. reflexivity.
Qed.

Lemma back_spec dim F rhs : (0 < dim)%nat -> (forall j, (j < dim)%nat -> F j j <> 0) ->
  let x := back_subs dim F rhs in
  forall i, (i < dim)%nat -> F i i * x i + lsum (fun j => F i j * x j) (seq (i + 1) (dim - (i + 1))) = forward_subs dim F rhs i.
Proof.
  intros Hd NZ x. unfold x, back_subs. set (y := forward_subs dim F rhs). cbv zeta.
  set (b0 := upd1 y (dim - 1) (y (dim - 1)%nat / F (dim - 1)%nat (dim - 1)%nat)).
  assert (K : forall m, (m <= dim - 1)%nat -> let x := fold_left (back_row dim F) (rev (seq (dim - 1 - m) m)) b0 in
     (forall r, (r < dim - 1 - m)%nat -> x r = y r)
     /\ forall i, (dim - 1 - m <= i < dim)%nat -> F i i * x i + lsum (fun j => F i j * x j) (seq (i + 1) (dim - (i + 1))) = y i).
  { induction m as [|m IH]; intros Hm; cbv zeta.
    - cbn [seq rev fold_left]. split.
      + intros r Hr. unfold b0. rewrite upd1_other by lia. reflexivity.
      + intros i Hi. replace i with (dim - 1)%nat by lia. replace (dim - (dim - 1 + 1))%nat with 0%nat by lia.
        unfold b0. rewrite upd1_same. unfold lsum; cbn [seq map fold_right]. field. apply NZ. lia.
    - set (s := (dim - 1 - S m)%nat). replace (seq s (S m)) with (s :: seq (dim - 1 - m) m) by (cbn [seq]; f_equal; f_equal; lia).
      cbn [rev]. rewrite fold_left_app. cbn [fold_left]. cbv zeta in IH. destruct (IH ltac:(lia)) as [Q1 Q2].
      set (x1 := fold_left (back_row dim F) (rev (seq (dim - 1 - m) m)) b0) in *.
      split.
      + intros r Hr. rewrite back_row_value by lia. replace (Nat.eqb r s) with false by (symmetry; apply Nat.eqb_neq; lia).
        apply Q1. lia.
      + intros i Hi.
        assert (E : lsum (fun j => F i j * back_row dim F x1 s j) (seq (i + 1) (dim - (i + 1))) = lsum (fun j => F i j * x1 j) (seq (i + 1) (dim - (i + 1)))).
        { apply lsum_ext; intros j Hj. apply in_seq in Hj. rewrite back_row_value by lia.
          replace (Nat.eqb j s) with false by (symmetry; apply Nat.eqb_neq; lia). reflexivity. }
        rewrite E, back_row_value by lia. destruct (Nat.eqb_spec i s) as [->|N].
        * rewrite (Q1 s) by lia. field. apply NZ. lia.
        * apply Q2. lia. }
  intros i Hi. destruct (K (dim - 1)%nat (le_n _)) as [_ Q]. replace (dim - 1 - (dim - 1))%nat with 0%nat in Q by lia.
  apply Q. lia.
Qed.

Lemma sumn_tail n i f : (i < n)%nat -> (forall k, (k < i)%nat -> f k = 0) ->
  sumn n f = f i + lsum f (seq (i + 1) (n - (i + 1))).
Proof.
  intros Hi Z. rewrite <- lsum_sumn. replace n with (i + (1 + (n - (i + 1))))%nat at 1 by lia.
  rewrite seq_app, seq_app. unfold lsum. rewrite !map_app, !fold_right_app. cbn [seq map fold_right plus].
  set (T := fold_right Rplus 0 (map f (seq (i + 1) (n - (i + 1))))).
  assert (G : forall l, (forall k, In k l -> f k = 0) -> forall a, fold_right Rplus a (map f l) = a).
  { induction l as [|k l IH]; intros Hl a; cbn; [reflexivity|]. rewrite IH, (Hl k) by (intros; try apply Hl; cbn; auto). lra. }
  rewrite G; [reflexivity|]. intros k Hk. apply in_seq in Hk. apply Z. lia.
Qed.
Lemma mv_LU dim A F x i : (forall i c, (i < dim)%nat -> (c < dim)%nat -> A i c = sumn dim (fun k => Lpart F i k * Upart F k c)) ->
  (i < dim)%nat -> mv dim A x i = mv dim (Lpart F) (mv dim (Upart F) x) i.
Proof.
  intros E Hi. unfold mv.
  rewrite (sumn_ext dim (fun c => A i c * x c) (fun c => sumn dim (fun k => Lpart F i k * (Upart F k c * x c)))).
  - rewrite sumn_swap. apply sumn_ext; intros k Hk. rewrite <- sumn_scal. reflexivity.
  - intros c Hc. rewrite E by assumption. rewrite <- sumn_scal_r. apply sumn_ext; intros; lra.
Qed.
Lemma mv_L dim F y i : (i < dim)%nat -> mv dim (Lpart F) y i = y i + sumn i (fun j => F i j * y j).
Proof.
  intros Hi. unfold mv. rewrite (sumn_trunc dim (S i)).
  - rewrite sumn_S. unfold Lpart at 2. rewrite Nat.ltb_irrefl, Nat.eqb_refl. rewrite Rplus_comm. f_equal; [lra|].
    apply sumn_ext; intros k Hk. unfold Lpart. replace (Nat.ltb k i) with true by (symmetry; apply Nat.ltb_lt; lia). reflexivity.
  - lia.
  - intros k Hk. unfold Lpart. replace (Nat.ltb k i) with false by (symmetry; apply Nat.ltb_ge; lia).
    replace (Nat.eqb k i) with false by (symmetry; apply Nat.eqb_neq; lia). lra.
Qed.
Lemma mv_U dim F x i : (i < dim)%nat ->
  mv dim (Upart F) x i = F i i * x i + lsum (fun j => F i j * x j) (seq (i + 1) (dim - (i + 1))).
Proof.
  intros Hi. unfold mv. rewrite (sumn_tail dim i).
  - unfold Upart at 1. rewrite Nat.leb_refl. f_equal. apply lsum_ext; intros j Hj. apply in_seq in Hj.
    unfold Upart. replace (Nat.leb i j) with true by (symmetry; apply Nat.leb_le; lia). reflexivity.
  - exact Hi.
  - intros k Hk. unfold Upart. replace (Nat.leb i k) with false by (symmetry; apply Nat.leb_gt; lia). lra.
Qed.

(** ** C59: the answer solves the system *)
Theorem C59_solution_solves_system : forall dim A rhs, (0 < dim)%nat -> pivots_ok dim A ->
  forall i, (i < dim)%nat -> mv dim A (lu_solve dim A rhs) i = rhs i.
Proof.
  intros dim A rhs Hd P i Hi. unfold lu_solve. set (F := decompose dim A).
  rewrite (mv_LU dim A F _ i (C59_factors_reproduce_matrix dim A P) Hi), mv_L by exact Hi.
  pose proof (back_spec dim F rhs Hd P) as B. cbv zeta in B.
  rewrite <- (forward_spec dim F rhs Hd i Hi). f_equal.
  - rewrite mv_U by exact Hi. apply B, Hi.
  - apply sumn_ext; intros j Hj. rewrite mv_U by lia. rewrite B by lia. reflexivity.
Qed.
(** triangular factors have no kernel *)
Lemma L_inj dim F y : (forall i, (i < dim)%nat -> mv dim (Lpart F) y i = 0) -> forall i, (i < dim)%nat -> y i = 0.
Proof.
  intros H. induction i as [i IH] using (well_founded_induction lt_wf). intros Hi.
  pose proof (H i Hi) as Q. rewrite mv_L in Q by exact Hi.
  rewrite (sumn_zero i) in Q; [lra|]. intros j Hj. rewrite (IH j Hj) by lia. lra.
Qed.
Lemma U_inj dim F x : (forall j, (j < dim)%nat -> F j j <> 0) ->
  (forall i, (i < dim)%nat -> mv dim (Upart F) x i = 0) -> forall i, (i < dim)%nat -> x i = 0.
Proof.
  intros NZ H. assert (K : forall m i, (dim - i <= m)%nat -> (i < dim)%nat -> x i = 0).
  { induction m as [|m IH]; intros i Hm Hi; [lia|].
    pose proof (H i Hi) as Q. rewrite mv_U in Q by exact Hi.
    rewrite (lsum_zero _ (seq (i + 1) (dim - (i + 1)))) in Q.
    - specialize (NZ i Hi). destruct (Rmult_integral (F i i) (x i)) as [E|E]; [lra|contradiction|exact E].
    - intros j Hj. apply in_seq in Hj. rewrite (IH j) by lia. lra. }
  intros i Hi. exact (K (dim - i)%nat i (le_n _) Hi).
Qed.
(** ** C59: ... and is the only solution *)
Theorem C59_solution_unique : forall dim A rhs z, (0 < dim)%nat -> pivots_ok dim A ->
  (forall i, (i < dim)%nat -> mv dim A z i = rhs i) -> forall i, (i < dim)%nat -> z i = lu_solve dim A rhs i.
Proof.
  intros dim A rhs z Hd P Hz i Hi. set (x := lu_solve dim A rhs). set (F := decompose dim A).
  assert (D : forall k, (k < dim)%nat -> (fun c => z c - x c) k = 0); [|specialize (D i Hi); cbn in D; lra].
  apply (U_inj dim F); [exact P|]. apply (L_inj dim F). intros k Hk.
  rewrite <- (mv_LU dim A F _ k (C59_factors_reproduce_matrix dim A P) Hk).
  transitivity (mv dim A z k - mv dim A x k).
  - unfold mv. rewrite <- sumn_minus. apply sumn_ext; intros; lra.
  - rewrite Hz by exact Hk. unfold x. rewrite C59_solution_solves_system by assumption. lra.
Qed.

(* ------------------------------------------------------------------ when does it work *)
Lemma block_product dim m A F i c : (m <= dim)%nat -> (i < m)%nat ->
  A i c = sumn dim (fun k => Lpart F i k * Upart F k c) -> A i c = sumn m (fun k => Lpart F i k * Upart F k c).
Proof.
  intros Hm Hi ->. apply sumn_trunc; [exact Hm|]. intros k Hk. unfold Lpart.
  replace (Nat.ltb k i) with false by (symmetry; apply Nat.ltb_ge; lia).
  replace (Nat.eqb k i) with false by (symmetry; apply Nat.eqb_neq; lia). lra.
Qed.
Lemma upper_solvable j F w : (forall k, (k < j)%nat -> F k k <> 0) ->
  exists x, forall i, (i < j)%nat -> mv j (Upart F) x i = w i.
Proof.
  intros NZ. destruct (Nat.eq_dec j 0) as [->|N]; [exists w; intros; lia|].
  set (G := Upart F). exists (back_subs j G w). intros i Hi.
  assert (D : forall k, G k k = F k k). { intros k. unfold G, Upart. rewrite Nat.leb_refl. reflexivity. }
  assert (E : mv j G (back_subs j G w) i = mv j (Upart G) (back_subs j G w) i).
  { apply sumn_ext; intros c Hc. unfold G, Upart. destruct (Nat.leb i c); reflexivity. }
  rewrite E, mv_U by exact Hi. rewrite (back_spec j G w ltac:(lia)); [|intros k Hk; rewrite D; auto|exact Hi].
  pose proof (forward_spec j G w ltac:(lia) i Hi) as Q. cbv zeta in Q. rewrite sumn_zero in Q; [lra|].
  intros k Hk. unfold G, Upart. replace (Nat.leb i k) with false by (symmetry; apply Nat.leb_gt; lia). lra.
Qed.
(** ** C59: the factorisation without pivoting succeeds exactly if every leading block is regular *)
Theorem C59_works_iff_leading_blocks_regular : forall dim A,
  pivots_ok dim A <-> forall m, (m <= dim)%nat -> regular m A.
Proof.
  intros dim A. set (F := decompose dim A). split.
  - intros P m Hm z Hz. apply (U_inj m F); [intros j Hj; apply P; lia|]. apply (L_inj m F).
    intros i Hi. rewrite <- (mv_LU m A F z i); [apply Hz, Hi| |exact Hi].
    intros r c Hr Hc. apply (block_product dim); [exact Hm|exact Hr|].
    apply C59_factors_reproduce_matrix; [exact P|lia|lia].
  - intros H. unfold pivots_ok. fold F. intros j.
    induction j as [j IH] using (well_founded_induction lt_wf). intros Hj E.
    destruct (upper_solvable j F (fun i => - F i j)) as [x Hx]; [intros k Hk; apply IH; lia|].
    set (z := fun c => if Nat.ltb c j then x c else 1).
    assert (Z : z j = 1). { unfold z. rewrite Nat.ltb_irrefl. reflexivity. }
    assert (K : z j = 0); [|lra].
    apply (H (S j) ltac:(lia) z); [|lia]. intros i Hi.
    rewrite (mv_LU (S j) A F z i); [|intros r c Hr Hc; apply (block_product dim); [lia|exact Hr|];
      apply (lu_product_gen dim j); [apply decompose_crout|lia|intros k Hk; apply IH; lia|lia|lia|lia]|exact Hi].
    unfold mv at 1. apply sumn_zero. intros k Hk.
    enough (Q : mv (S j) (Upart F) z k = 0) by (rewrite Q; lra).
    unfold mv. rewrite sumn_S, Z. destruct (Nat.eq_dec k j) as [->|N].
    + unfold Upart at 2. rewrite Nat.leb_refl, E. rewrite sumn_zero; [lra|].
      intros c Hc. unfold Upart. replace (Nat.leb j c) with false by (symmetry; apply Nat.leb_gt; lia). lra.
    + unfold Upart at 2. replace (Nat.leb k j) with true by (symmetry; apply Nat.leb_le; lia).
      rewrite (sumn_ext j (fun c => Upart F k c * z c) (fun c => Upart F k c * x c)).
      * pose proof (Hx k ltac:(lia)) as Q. unfold mv in Q. rewrite Q. lra.
      * intros c Hc. unfold z. replace (Nat.ltb c j) with true by (symmetry; apply Nat.ltb_lt; lia). reflexivity.
Qed.
(** strict row diagonal dominance is enough *)
Lemma sumn_abs n f : Rabs (sumn n f) <= sumn n (fun k => Rabs (f k)).
Proof.
  induction n as [|n IH]; [rewrite !sumn_0, Rabs_R0; lra|]. rewrite !sumn_S.
  eapply Rle_trans; [apply Rabs_triang|]. lra.
Qed.
Lemma sumn_le n f g : (forall k, (k < n)%nat -> f k <= g k) -> sumn n f <= sumn n g.
Proof. intros H. induction n as [|n IH]; [rewrite !sumn_0; lra|]. rewrite !sumn_S. specialize (IH ltac:(intros; apply H; lia)). specialize (H n ltac:(lia)). lra. Qed.
Lemma sumn_mono m n f : (m <= n)%nat -> (forall k, (k < n)%nat -> 0 <= f k) -> sumn m f <= sumn n f.
Proof.
  intros Hm H. induction n as [|n IH]; [replace m with 0%nat by lia; lra|].
  destruct (Nat.eq_dec m (S n)) as [->|N]; [lra|]. rewrite sumn_S. specialize (H n ltac:(lia)) as Hn.
  assert (sumn m f <= sumn n f) by (apply IH; [lia|intros; apply H; lia]). lra.
Qed.
Lemma argmax n (f : nat -> R) : (0 < n)%nat -> exists i, (i < n)%nat /\ forall k, (k < n)%nat -> f k <= f i.
Proof.
  induction n as [|n IH]; intros H; [lia|]. destruct n as [|n]; [exists 0%nat; split; [lia|]; intros k Hk; replace k with 0%nat by lia; lra|].
  destruct IH as (i & Hi & Q); [lia|]. destruct (Rle_dec (f i) (f (S n))) as [L|L].
  - exists (S n). split; [lia|]. intros k Hk. destruct (Nat.eq_dec k (S n)) as [->|N]; [lra|]. specialize (Q k ltac:(lia)). lra.
  - exists i. split; [lia|]. intros k Hk. destruct (Nat.eq_dec k (S n)) as [->|N]; [lra|]. apply Q. lia.
Qed.
Theorem C59_works_for_dominant_matrices : forall dim A,
  (forall i, (i < dim)%nat -> sumn dim (fun c => if Nat.eqb c i then 0 else Rabs (A i c)) < Rabs (A i i)) ->
  pivots_ok dim A.
Proof.
  intros dim A H. apply C59_works_iff_leading_blocks_regular. intros m Hm z Hz i Hi.
  destruct (argmax m (fun k => Rabs (z k))) as (p & Hp & Q); [lia|]. cbn in Q.
  assert (Z : Rabs (z p) = 0).
  { destruct (Rle_lt_or_eq_dec 0 (Rabs (z p)) (Rabs_pos _)) as [G|G]; [exfalso|symmetry; exact G].
    pose proof (Hz p Hp) as E. unfold mv in E.
    assert (D : A p p * z p = - sumn m (fun c => if Nat.eqb c p then 0 else A p c * z c)).
    { assert (S : sumn m (fun c => A p c * z c) = sumn m (fun c => if Nat.eqb c p then 0 else A p c * z c) + A p p * z p); [|lra].
      rewrite (sumn_ext m _ (fun c => (if Nat.eqb c p then 0 else A p c * z c) + dl c p * (A p c * z c))).
      - rewrite sumn_plus, (sumn_dl m p (fun c => A p c * z c)) by exact Hp. reflexivity.
      - intros c Hc. unfold dl. destruct (Nat.eqb c p) eqn:B; [apply Nat.eqb_eq in B; subst; lra|lra]. }
    assert (B : Rabs (A p p) * Rabs (z p) <= sumn dim (fun c => if Nat.eqb c p then 0 else Rabs (A p c)) * Rabs (z p)).
    { rewrite <- Rabs_mult, D, Rabs_Ropp. eapply Rle_trans; [apply sumn_abs|].
      rewrite <- sumn_scal_r.
      eapply Rle_trans; [|apply (sumn_mono m dim); [exact Hm|]].
      - apply sumn_le. intros k Hk. destruct (Nat.eqb k p); [rewrite Rabs_R0; lra|]. rewrite Rabs_mult.
        pose proof (Rabs_pos (A p k)). specialize (Q k Hk). nra.
      - intros k Hk. pose proof (Rabs_pos (z p)). pose proof (Rabs_pos (A p k)). destruct (Nat.eqb k p); nra. }
    specialize (H p ltac:(lia)). nra. }
  specialize (Q i Hi). pose proof (Rabs_pos (z i)).
  destruct (Req_dec (z i) 0) as [?|N]; [assumption|]. apply Rabs_no_R0 in N. lra.
Qed.
(** ** The limits of elimination without pivoting: a regular matrix can be refused, silently: the
    solver then divides by zero *)
Theorem C59_no_pivoting_refuted : exists A : mat, regular 2 A /\ ~ pivots_ok 2 A.
Proof.
  exists (fun i c => if Nat.eqb (i + c) 1 then 1 else 0). split.
  - intros z Hz i Hi. pose proof (Hz 0%nat ltac:(lia)) as E0. pose proof (Hz 1%nat ltac:(lia)) as E1.
    unfold mv, sumn in E0, E1; cbn in E0, E1. destruct i as [|[|i]]; [lra|lra|lia].
  - intros P. apply (P 0%nat); [lia|]. unfold decompose, upper_loop, lower_loop, scale_loop, upd2, sumterm. cbn. reflexivity.
Qed.
(** ** a concrete solvable case *)
Example C59_meets : pivots_ok 3 (fun i c => if Nat.eqb i c then 3 else 1).
Proof.
  apply C59_works_for_dominant_matrices. intros i Hi. do 3 (destruct i as [|i]; [unfold sumn; cbn; rewrite !Rabs_right by lra; lra|]). lia.
Qed.
