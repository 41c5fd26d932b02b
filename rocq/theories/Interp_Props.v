(** C24: piecewise linear table interpolation. *)
Require Import Reals List Lra Lia Psatz Arith.
From Verif Require Import RUtil Interp_Model.
Import ListNotations.
Open Scope R_scope.

(** Specification: a table is a list of abscissae, strictly increasing, with as many ordinates. *)
Definition table (xs ys : list R) : Prop :=
  (2 <= length xs)%nat /\ length ys = length xs /\
  (forall i, (S i < length xs)%nat -> nth i xs 0 < nth (S i) xs 0).
(** the straight line through entries i and i+1 *)
Definition line_at (xs ys : list R) (i : nat) (x : R) : R :=
  nth i ys 0 + (nth (S i) ys 0 - nth i ys 0) * ((x - nth i xs 0) / (nth (S i) xs 0 - nth i xs 0)).

Lemma read_nth l i : (i < length l)%nat -> read l i = Val (nth i l 0).
Proof. intros H. unfold read. rewrite (nth_error_nth' l 0 H). reflexivity. Qed.
Lemma read_ub l i : (length l <= i)%nat -> read l i = UB.
Proof. intros H. unfold read. rewrite (proj2 (nth_error_None l i) H). reflexivity. Qed.

Lemma mono xs ys i j : table xs ys -> (i < j)%nat -> (j < length xs)%nat -> nth i xs 0 < nth j xs 0.
Proof.
  intros [_ [_ H]] Hij Hj. induction j as [|j IH]; [lia|].
  destruct (Nat.eq_dec i j) as [->|Hne]; [auto|].
  apply Rlt_trans with (nth j xs 0); [apply IH; lia|apply H; auto].
Qed.
Lemma mono_le xs ys i j : table xs ys -> (i <= j)%nat -> (j < length xs)%nat -> nth i xs 0 <= nth j xs 0.
Proof. intros T Hij Hj. destruct (Nat.eq_dec i j) as [->|]; [lra|]. apply Rlt_le, (mono xs ys); auto; lia. Qed.

Lemma find_loop_spec xs x fuel : forall i, (1 <= i)%nat -> (i + fuel = length xs)%nat ->
  (exists j, find_loop xs x i fuel = Val (Some j) /\ (i <= S j)%nat /\ (S j < length xs)%nat /\
     x <= nth (S j) xs 0 /\ forall k, (i <= k <= j)%nat -> nth k xs 0 < x) \/
  (find_loop xs x i fuel = Val None /\ forall k, (i <= k < length xs)%nat -> nth k xs 0 < x).
Proof.
  induction fuel as [|f IH]; intros i Hi Hl; simpl.
  - right. split; auto. intros; lia.
  - rewrite read_nth by lia. simpl. destruct (Rle_dec x (nth i xs 0)) as [H|H].
    + left. exists (i-1)%nat. replace (S (i-1)) with i by lia. repeat split; auto; try lia.
    + destruct (IH (S i)) as [[j [H1 [H2 [H3 [H4 H5]]]]]|[H1 H2]]; try lia.
      * left. exists j. repeat split; auto; try lia. intros k Hk.
        destruct (Nat.eq_dec k i) as [->|]; [lra|]. apply H5; lia.
      * right. split; auto. intros k Hk. destruct (Nat.eq_dec k i) as [->|]; [lra|]. apply H2; lia.
Qed.

Lemma check_low xs ys x : table xs ys -> x < nth 0 xs 0 -> check_bounds xs x = Val (LOWLIM, 0%nat).
Proof.
  intros [H _] Hx. unfold check_bounds. destruct (Nat.ltb_spec (length xs) 2); [lia|].
  rewrite read_nth by lia. simpl. destruct (Rlt_dec _ _); [reflexivity|lra].
Qed.
Lemma check_up xs ys x : table xs ys -> nth (length xs - 1) xs 0 < x -> check_bounds xs x = Val (UPLIM, (length xs - 1)%nat).
Proof.
  intros T Hx. pose proof T as [H _]. unfold check_bounds. destruct (Nat.ltb_spec (length xs) 2); [lia|].
  rewrite !read_nth by lia. simpl.
  assert (nth 0 xs 0 < nth (length xs - 1) xs 0) by (apply (mono xs ys); auto; lia).
  destruct (Rlt_dec _ _); [lra|]. destruct (Rlt_dec _ _); [reflexivity|lra].
Qed.
Lemma check_valid xs ys x : table xs ys -> nth 0 xs 0 <= x <= nth (length xs - 1) xs 0 -> check_bounds xs x = Val (VALID, 0%nat).
Proof.
  intros T Hx. pose proof T as [H _]. unfold check_bounds. destruct (Nat.ltb_spec (length xs) 2); [lia|].
  rewrite !read_nth by lia. simpl. destruct (Rlt_dec _ _); [lra|]. destruct (Rlt_dec _ _); [lra|reflexivity].
Qed.

Lemma find_valid xs ys x : table xs ys -> nth 0 xs 0 <= x <= nth (length xs - 1) xs 0 ->
  exists j, find_index xs x = Val (VALID, j) /\ (S j < length xs)%nat /\ nth j xs 0 <= x <= nth (S j) xs 0 /\
    (nth j xs 0 < x \/ j = 0%nat).
Proof.
  intros T Hx. pose proof T as [H _]. unfold find_index. rewrite (check_valid xs ys) by auto. simpl.
  destruct (find_loop_spec xs x (length xs - 1) 1) as [[j [H1 [H2 [H3 [H4 H5]]]]]|[H1 H2]]; try lia.
  - rewrite H1. simpl. exists j. repeat split; auto.
    + destruct j; [lra|]. apply Rlt_le, H5. lia.
    + destruct j; [right; reflexivity|left; apply H5; lia].
  - exfalso. specialize (H2 (length xs - 1)%nat). lra || (assert (nth (length xs - 1) xs 0 < x) by (apply H2; lia); lra).
Qed.

(** C24. Inside the table, whatever action was chosen for out-of-range points, the result is the
    chord through any pair of neighbouring entries that bracket x. *)
Theorem C24_interpolates_inside :
  forall xs ys x oob i, table xs ys -> (S i < length xs)%nat -> nth i xs 0 <= x <= nth (S i) xs 0 ->
  linear_interp xs ys x oob = Val (line_at xs ys i x).
Proof.
  intros xs ys x oob i T Hi Hx. pose proof T as [H [Hly Hm]].
  assert (Hr : nth 0 xs 0 <= x <= nth (length xs - 1) xs 0).
  { pose proof (mono_le xs ys 0 i T ltac:(lia) ltac:(lia)).
    pose proof (mono_le xs ys (S i) (length xs - 1) T ltac:(lia) ltac:(lia)). lra. }
  destruct (find_valid xs ys x T Hr) as [j [Hf [Hj [Hxj _]]]].
  unfold linear_interp. rewrite Hf. simpl.
  replace (j+1)%nat with (S j) by lia.
  rewrite !read_nth by lia. simpl. f_equal.
  assert (Dj := Hm j Hj). assert (Di := Hm i Hi). unfold line_at.
  destruct (lt_eq_lt_dec i j) as [[Hlt| ->]|Hgt].
  - assert (nth (S i) xs 0 <= nth j xs 0) by (apply (mono_le xs ys); auto; lia).
    assert (x = nth j xs 0) by lra. assert (x = nth (S i) xs 0) by lra.
    assert (j = S i). { destruct (Nat.eq_dec j (S i)); auto. pose proof (mono xs ys (S i) j T ltac:(lia) ltac:(lia)). lra. }
    subst j. rewrite H1. field. lra.
  - field. lra.
  - assert (nth (S j) xs 0 <= nth i xs 0) by (apply (mono_le xs ys); auto; lia).
    assert (x = nth i xs 0) by lra. assert (x = nth (S j) xs 0) by lra.
    assert (i = S j). { destruct (Nat.eq_dec i (S j)); auto. pose proof (mono xs ys (S j) i T ltac:(lia) ltac:(lia)). lra. }
    subst i. rewrite H1. field. lra.
Qed.

(** C24. Table values at the knots. *)
Theorem C24_exact_at_knots :
  forall xs ys oob i, table xs ys -> (i < length xs)%nat ->
  linear_interp xs ys (nth i xs 0) oob = Val (nth i ys 0).
Proof.
  intros xs ys oob i T Hi. pose proof T as [H [Hly Hm]]. destruct (Nat.eq_dec (S i) (length xs)) as [E|E].
  - rewrite (C24_interpolates_inside xs ys _ oob (i-1) T); try lia.
    + unfold line_at. replace (S (i-1)) with i by lia. f_equal.
      pose proof (Hm (i-1)%nat ltac:(lia)) as D. replace (S (i-1)) with i in D by lia. field. lra.
    + replace (S (i-1)) with i by lia. pose proof (mono_le xs ys (i-1) i T ltac:(lia) ltac:(lia)). lra.
  - rewrite (C24_interpolates_inside xs ys _ oob i T); try lia.
    + unfold line_at. f_equal. pose proof (Hm i ltac:(lia)). field. lra.
    + pose proof (mono_le xs ys i (S i) T ltac:(lia) ltac:(lia)). lra.
Qed.

(** C24. Between neighbours the result lies between the two neighbouring ordinates. *)
Theorem C24_between_neighbours :
  forall xs ys x oob i lo hi, table xs ys -> (S i < length xs)%nat -> nth i xs 0 <= x <= nth (S i) xs 0 ->
  lo <= nth i ys 0 <= hi -> lo <= nth (S i) ys 0 <= hi ->
  exists y, linear_interp xs ys x oob = Val y /\ lo <= y <= hi.
Proof.
  intros xs ys x oob i lo hi T Hi Hx H1 H2. exists (line_at xs ys i x).
  split; [now apply C24_interpolates_inside|].
  pose proof T as [_ [_ Hm]]. specialize (Hm i Hi). unfold line_at.
  set (f := (x - nth i xs 0) / (nth (S i) xs 0 - nth i xs 0)).
  assert (0 <= f <= 1). { unfold f. split; [apply Rle_div_r|apply Rle_div_l]; lra. }
  split; nra.
Qed.

(** C24. Affine data are reproduced exactly inside, and outside when extrapolating. *)
Theorem C24_affine_exact :
  forall xs ys x a b, table xs ys -> (forall i, (i < length xs)%nat -> nth i ys 0 = a + b * nth i xs 0) ->
  linear_interp xs ys x OOB_EXTRAPOLATE = Val (a + b*x).
Proof.
  intros xs ys x a b T Hab. pose proof T as [H [Hly Hm]].
  destruct (Rlt_dec x (nth 0 xs 0)) as [L|L]; [|destruct (Rlt_dec (nth (length xs - 1) xs 0) x) as [U|U]].
  - unfold linear_interp, find_index. rewrite (check_low xs ys) by auto. simpl.
    destruct xs as [|x0 [|x1 xs']]; simpl in H; try lia. simpl length. cbn [Nat.eqb].
    rewrite !read_nth by (rewrite ?Hly; simpl; lia). simpl obind. f_equal.
    rewrite (Hab 0%nat), (Hab 1%nat) by (simpl; lia). simpl. specialize (Hm 0%nat ltac:(simpl; lia)). simpl in Hm. field. lra.
  - unfold linear_interp, find_index. rewrite (check_up xs ys) by auto. cbn [obind fst snd].
    replace (length xs - 1 + 1)%nat with (length xs) by lia. rewrite Nat.eqb_refl.
    rewrite !read_nth by lia. cbn [obind]. f_equal. 
    rewrite !Hab by lia. specialize (Hm (length xs - 1 - 1)%nat ltac:(lia)).
    replace (length xs - 1 - 1 + 1)%nat with (S (length xs - 1 - 1)) by lia. field. lra.
  - assert (Hr : nth 0 xs 0 <= x <= nth (length xs - 1) xs 0) by lra.
    destruct (find_valid xs ys x T Hr) as [j [_ [Hj [Hxj _]]]].
    rewrite (C24_interpolates_inside xs ys x _ j T Hj Hxj). f_equal. unfold line_at.
    rewrite !Hab by lia. specialize (Hm j Hj). field. lra.
Qed.

(** C24. Outside the table the chosen action decides: throw, clamp to the end value, or follow the
    end segment. *)
Theorem C24_out_of_bounds_actions :
  forall xs ys x, table xs ys ->
  (x < nth 0 xs 0 \/ nth (length xs - 1) xs 0 < x) ->
  let yend := if Rlt_dec x (nth 0 xs 0) then nth 0 ys 0 else nth (length xs - 1) ys 0 in
  let seg := if Rlt_dec x (nth 0 xs 0) then 0%nat else (length xs - 2)%nat in
  linear_interp xs ys x OOB_ERROR = Throw /\
  linear_interp xs ys x OOB_CLAMP = Val yend /\
  linear_interp xs ys x OOB_WARN = Val yend /\
  linear_interp xs ys x OOB_EXTRAPOLATE = Val (line_at xs ys seg x).
Proof.
  intros xs ys x T Hx yend seg. pose proof T as [H [Hly Hm]].
  unfold yend, seg, linear_interp, find_index. destruct (Rlt_dec x (nth 0 xs 0)) as [L|L].
  - rewrite (check_low xs ys) by auto. cbn [obind fst snd]. repeat split.
    + rewrite read_nth by lia. reflexivity.
    + rewrite read_nth by lia. reflexivity.
    + destruct (Nat.eqb_spec (0+1) (length xs)); [lia|]. change (0+1)%nat with 1%nat.
      rewrite !read_nth by lia. cbn [obind]. unfold line_at. f_equal. specialize (Hm 0%nat ltac:(lia)). field. lra.
  - destruct Hx as [Hx|Hx]; [lra|]. rewrite (check_up xs ys) by auto. cbn [obind fst snd].
    replace (length xs - 1 + 1)%nat with (length xs) by lia. rewrite Nat.eqb_refl. repeat split.
    + rewrite read_nth by lia. reflexivity.
    + rewrite read_nth by lia. reflexivity.
    + rewrite !read_nth by lia. cbn [obind]. f_equal. unfold line_at.
      specialize (Hm (length xs - 2)%nat ltac:(lia)).
      replace (length xs - 1 - 1 + 1)%nat with (S (length xs - 2)) by lia.
      replace (length xs - 1 - 1)%nat with (length xs - 2)%nat by lia. field. lra.
Qed.

(** C24. No out-of-range read, for any table of equal lengths, even unsorted, and any point; tables
    with fewer than two entries are rejected. *)
Theorem C24_memory_safe :
  forall xs ys x oob, length ys = length xs -> linear_interp xs ys x oob <> UB /\
  ((length xs < 2)%nat -> linear_interp xs ys x oob = Throw).
Proof.
  intros xs ys x oob Hl. unfold linear_interp, find_index, check_bounds.
  destruct (Nat.ltb_spec (length xs) 2) as [H|H]; cbn [obind].
  { split; [discriminate|reflexivity]. }
  split; [|lia]. rewrite !(read_nth xs) by lia. cbn [obind].
  destruct (Rlt_dec x (nth 0 xs 0)); [|destruct (Rlt_dec (nth (length xs - 1) xs 0) x)]; cbn [obind fst snd].
  - destruct oob; try discriminate; try (rewrite read_nth by lia; discriminate).
    destruct (Nat.eqb_spec (0+1) (length xs)); [lia|]. rewrite !read_nth by lia. cbn [obind]. discriminate.
  - destruct oob; try discriminate; try (rewrite read_nth by lia; discriminate).
    replace (length xs - 1 + 1)%nat with (length xs) by lia. rewrite Nat.eqb_refl. rewrite !read_nth by lia. cbn [obind]. discriminate.
  - destruct (find_loop_spec xs x (length xs - 1) 1) as [[j [H1 [H2 [H3 [H4 H5]]]]]|[H1 H2]]; try lia; rewrite H1; cbn [obind fst snd].
    + rewrite !read_nth by lia. cbn [obind]. discriminate.
    + rewrite !read_nth by lia. cbn [obind]. discriminate.
Qed.

(** C24 refuted (documentation of find_index): "xarray[i] <= x < xarray[i+1]" fails at every interior
    knot, where the interval to the left is returned. *)
Theorem C24_find_index_doc_refuted :
  exists xs x j, find_index xs x = Val (VALID, j) /\ ~ (nth j xs 0 <= x < nth (S j) xs 0).
Proof.
  exists [0;1;2], 1, 0%nat. split; [|simpl; lra].
  unfold find_index, check_bounds, read; simpl.
  repeat (match goal with |- context [Rle_dec ?a ?b] => destruct (Rle_dec a b); try lra
                 | |- context [Rlt_dec ?a ?b] => destruct (Rlt_dec a b); try lra end; simpl). reflexivity.
Qed.

Example table_demo : table [0;1;3] [5;7;4] /\ linear_interp [0;1;3] [5;7;4] 2 OOB_ERROR = Val (11/2).
Proof.
  assert (T : table [0;1;3] [5;7;4]).
  { unfold table; simpl. repeat split; try lia. intros i Hi. destruct i as [|[|i]]; simpl; try lra; lia. }
  split; auto. rewrite (C24_interpolates_inside _ _ _ _ 1 T); simpl; try lia; try lra.
  f_equal. unfold line_at; simpl. field.
Qed.
Print Assumptions C24_interpolates_inside.
