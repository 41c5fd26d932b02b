(** C69, continued: two-dimensional tables. *)
From Coq Require Import Reals List Arith Bool Permutation Lia Lra.
From Verif Require Import RUtil Edge_Model Motion_Model Aux_Model Aux_Spec Aux_Props Aux_Props2.
Import ListNotations.
Open Scope R_scope.

Definition block (sy : nat) (gx gy : nat -> R) (gh : nat -> nat -> R) (i : nat) : list row :=
  map (fun j => mkRow (gx i) (gy j) (gh i j)) (seq 0 sy).
Lemma block_length : forall sy gx gy gh i, length (block sy gx gy gh i) = sy.
Proof. intros. unfold block. rewrite map_length, seq_length. auto. Qed.
Lemma grid_S : forall n sy gx gy gh, grid_rows (S n) sy gx gy gh = grid_rows n sy gx gy gh ++ block sy gx gy gh n.
Proof. intros. unfold grid_rows. rewrite seq_S, flat_map_app. cbn. rewrite app_nil_r. reflexivity. Qed.
Lemma grid_length : forall n sy gx gy gh, length (grid_rows n sy gx gy gh) = (n * sy)%nat.
Proof. induction n; intros; [reflexivity|]. rewrite grid_S, app_length, IHn, block_length. lia. Qed.

(** the columns *)
Lemma column_app : forall a b k sy, column_x (a ++ b) k sy = column_x a k sy ++ column_x b (k + length a) sy.
Proof.
  induction a as [|r a IH]; intros b k sy; cbn; [rewrite Nat.add_0_r; auto|]. rewrite IH. replace (S k + length a)%nat with (k + S (length a))%nat by lia.
  destruct (k mod sy =? 0)%nat; reflexivity.
Qed.
Lemma column_none : forall rows k sy, (0 < k mod sy)%nat -> (k mod sy + length rows <= sy)%nat -> column_x rows k sy = [].
Proof.
  induction rows as [|r rows IH]; intros k sy H0 H1; cbn; auto. cbn in H1. destruct (Nat.eqb_spec (k mod sy) 0); [lia|].
  destruct rows as [|r' rows']; auto.
  assert (E : (S k mod sy = S (k mod sy))%nat).
  { assert (sy <> 0)%nat by (intros ->; cbn in *; lia). rewrite <- Nat.add_1_r, <- Nat.add_mod_idemp_l by auto. cbn in H1. rewrite Nat.mod_small; lia. }
  apply IH; rewrite E; cbn in *; lia.
Qed.
Lemma column_block : forall sy gx gy gh i, (0 < sy)%nat -> column_x (block sy gx gy gh i) (i * sy) sy = [gx i].
Proof.
  intros sy gx gy gh i H. unfold block. destruct sy as [|s]; [lia|]. change (seq 0 (S s)) with (0%nat :: seq 1 s). cbn [map column_x].
  rewrite Nat.mod_mul by lia. cbn [Nat.eqb r_x]. f_equal. destruct s as [|s]; [reflexivity|].
  assert (E : ((S (i * S (S s))) mod S (S s) = 1)%nat) by (rewrite <- Nat.add_1_l, Nat.mod_add by lia; apply Nat.mod_small; lia).
  apply column_none; rewrite E; [lia|]. rewrite map_length, seq_length. lia.
Qed.
Lemma column_grid : forall n sy gx gy gh, (0 < sy)%nat -> column_x (grid_rows n sy gx gy gh) 0 sy = map gx (seq 0 n).
Proof.
  induction n; intros; [reflexivity|]. rewrite grid_S, column_app, IHn, grid_length, Nat.add_0_l, column_block, seq_S, map_app by auto. reflexivity.
Qed.
Lemma first_y_grid : forall n sy gx gy gh, (0 < n)%nat -> first_y (grid_rows n sy gx gy gh) sy = Some (map gy (seq 0 sy)).
Proof.
  intros n sy gx gy gh Hn. unfold first_y. rewrite grid_length. destruct (Nat.ltb_spec (n * sy) sy); [nia|]. f_equal.
  unfold grid_rows. destruct n; [lia|]. change (seq 0 (S n)) with (0%nat :: seq 1 n). cbn [flat_map].
  rewrite firstn_app, map_length, seq_length, Nat.sub_diag. cbn [firstn]. rewrite app_nil_r, firstn_all2 by (rewrite map_length, seq_length; lia).
  rewrite map_map. reflexivity.
Qed.
(** the matrix *)
Lemma load_app : forall a b k c sx sy A A1 c1, load_A a k c sx sy A = Some A1 ->
  c1 = fold_left (fun c i => if Nat.eqb (i mod sy) (sy - 1) then S c else c) (seq k (length a)) c ->
  load_A (a ++ b) k c sx sy A = load_A b (k + length a) c1 sx sy A1.
Proof.
  induction a as [|r a IH]; intros b k c sx sy A A1 c1 E Ec.
  - cbn in *. injection E as <-. rewrite Nat.add_0_r. subst. reflexivity.
  - cbn [app load_A length seq fold_left] in *. destruct (sx <=? c)%nat; [discriminate|].
    rewrite (IH b _ _ _ _ _ _ c1 E Ec). f_equal. lia.
Qed.
Lemma count_block : forall sy i, (0 < sy)%nat -> fold_left (fun c k => if Nat.eqb (k mod sy) (sy - 1) then S c else c) (seq (i * sy) sy) i = S i.
Proof.
  intros sy i H. assert (G : forall m, (m <= sy)%nat -> fold_left (fun c k => if Nat.eqb (k mod sy) (sy - 1) then S c else c) (seq (i * sy) m) i = if Nat.eqb m sy then S i else i).
  { induction m as [|m IH]; intros Hm; [cbn [seq fold_left]; destruct (Nat.eqb_spec 0 sy); [lia|auto]|].
    rewrite seq_S, fold_left_app, IH by lia. cbn [fold_left]. destruct (Nat.eqb_spec m sy); [lia|].
    rewrite Nat.add_comm, Nat.mod_add, Nat.mod_small by lia. destruct (Nat.eqb_spec m (sy - 1)), (Nat.eqb_spec (S m) sy); auto; lia. }
  rewrite G by lia. rewrite Nat.eqb_refl. auto.
Qed.
Lemma load_block : forall sx sy gx gy gh i A, (0 < sy)%nat -> (i < sx)%nat ->
  exists A', load_A (block sy gx gy gh i) (i * sy) i sx sy A = Some A' /\
    forall a b, A' a b = if (Nat.eqb b i && (a <? sy))%nat then gh i a else A a b.
Proof.
  intros sx sy gx gy gh i A H Hi.
  assert (G : forall m s A, (s + m <= sy)%nat -> exists A', load_A (map (fun j => mkRow (gx i) (gy j) (gh i j)) (seq s m)) (i * sy + s) i sx sy A = Some A' /\
     forall a b, A' a b = if (Nat.eqb b i && (s <=? a) && (a <? s + m))%nat then gh i a else A a b).
  { induction m as [|m IH]; intros s A0 Hs; [exists A0; split; [reflexivity|]|].
    - intros a b. destruct (Nat.eqb_spec b i), (Nat.leb_spec s a), (Nat.ltb_spec a (s + 0)); cbn; auto; lia.
    - cbn [seq map load_A]. destruct (Nat.leb_spec sx i); [lia|].
      rewrite (Nat.add_comm (i * sy) s), Nat.mod_add, Nat.mod_small by lia.
      destruct (Nat.eq_dec m 0) as [M0|M0].
      + subst m. cbn [seq map load_A]. eexists. split; [reflexivity|]. intros a b. cbn [r_h].
        destruct (Nat.eqb_spec a s), (Nat.eqb_spec b i), (Nat.leb_spec s a), (Nat.ltb_spec a (s + 1)); cbn [andb]; subst; auto; lia.
      + destruct (Nat.eqb_spec s (sy - 1)); [lia|].
        specialize (IH (S s) (fun i0 j => if (i0 =? s)%nat && (j =? i)%nat then gh i s else A0 i0 j) ltac:(lia)).
        destruct IH as (A' & E & Q). exists A'. split.
        * rewrite <- E. f_equal. lia.
        * intros a b. rewrite Q.
          destruct (Nat.eqb_spec a s), (Nat.eqb_spec b i), (Nat.leb_spec s a), (Nat.leb_spec (S s) a), (Nat.ltb_spec a (S s + m)), (Nat.ltb_spec a (s + S m)); cbn [andb]; subst; auto; lia. }
  destruct (G sy 0%nat A ltac:(lia)) as (A' & E & Q). exists A'. rewrite Nat.add_0_r in E. split; [exact E|]. intros a b. rewrite Q. cbn [Nat.leb]. rewrite andb_true_r. reflexivity.
Qed.
Lemma load_grid : forall n sx sy gx gy gh, (0 < sy)%nat -> (n <= sx)%nat ->
  exists A, load_A (grid_rows n sy gx gy gh) 0 0 sx sy (fun _ _ => 0) = Some A /\
    (forall a b, A a b = if ((b <? n) && (a <? sy))%nat then gh b a else 0) /\
    fold_left (fun c k => if Nat.eqb (k mod sy) (sy - 1) then S c else c) (seq 0 (n * sy)) 0%nat = n.
Proof.
  induction n as [|n IH]; intros sx sy gx gy gh H Hn.
  - exists (fun _ _ => 0). split; [reflexivity|]. split; [|reflexivity]. intros. cbn. reflexivity.
  - destruct (IH sx sy gx gy gh H ltac:(lia)) as (A & E & Q & C). destruct (load_block sx sy gx gy gh n A H ltac:(lia)) as (A' & E' & Q').
    exists A'. split; [|split].
    + rewrite grid_S. rewrite (load_app _ _ _ _ _ _ _ A n E) by (rewrite grid_length; auto). rewrite grid_length, Nat.add_0_l. exact E'.
    + intros a b. rewrite Q', Q. destruct (Nat.eqb_spec b n), (Nat.ltb_spec a sy), (Nat.ltb_spec b n), (Nat.ltb_spec b (S n)); cbn [andb]; subst; auto; lia.
    + replace (S n * sy)%nat with (n * sy + sy)%nat by lia. rewrite seq_app, fold_left_app, C, Nat.add_0_l. apply count_block; auto.
Qed.
(** The file of a grid, without trailing white space, is read into that grid. *)
Theorem C69_grid_loaded : forall sx sy gx gy gh, (0 < sx)%nat -> (0 < sy)%nat ->
  exists t, table2_ctor (grid_rows sx sy gx gy gh) false sx sy = Some t /\
    t_X t = map gx (seq 0 sx) /\ t_Y t = map gy (seq 0 sy) /\ t_sx t = sx /\ t_sy t = sy /\
    forall i j, (i < sx)%nat -> (j < sy)%nat -> t_A t j i = gh i j.
Proof.
  intros sx sy gx gy gh Hx Hy. destruct (load_grid sx sx sy gx gy gh Hy ltac:(lia)) as (A & E & Q & _).
  unfold table2_ctor. replace (read_rows (grid_rows sx sy gx gy gh) false) with (grid_rows sx sy gx gy gh) by (destruct (grid_rows sx sy gx gy gh); reflexivity).
  destruct (Nat.eqb_spec sy 0); [lia|]. rewrite first_y_grid, E by auto. eexists. split; [reflexivity|]. cbn [t_X t_Y t_A t_sx t_sy].
  rewrite column_grid by auto. repeat split; auto. intros i j Hi Hj. rewrite Q.
  destruct (Nat.ltb_spec i sx), (Nat.ltb_spec j sy); cbn; auto; lia.
Qed.
(** Not true: a final newline in the file makes the reader take the last row twice and write outside the array. *)
Theorem C69_final_newline_refuted : forall sx sy gx gy gh, (0 < sx)%nat -> (0 < sy)%nat ->
  table2_ctor (grid_rows sx sy gx gy gh) true sx sy = None.
Proof.
  intros sx sy gx gy gh Hx Hy. destruct (load_grid sx sx sy gx gy gh Hy ltac:(lia)) as (A & E & Q & C).
  unfold table2_ctor. destruct (Nat.eqb_spec sy 0); [lia|].
  assert (RR : exists r, read_rows (grid_rows sx sy gx gy gh) true = grid_rows sx sy gx gy gh ++ [r]).
  { pose proof (grid_length sx sy gx gy gh) as Ln. destruct (grid_rows sx sy gx gy gh) as [|r0 rs] eqn:Eg; [cbn in Ln; nia|]. eexists. reflexivity. }
  destruct RR as [r RR]. rewrite RR. rewrite (load_app _ _ _ _ _ _ _ A sx E) by (rewrite grid_length; auto). cbn [load_A].
  destruct (Nat.leb_spec sx sx); [|lia]. destruct (first_y _ _); reflexivity.
Qed.

(** searching an ascending axis *)
Lemma axis_nth : forall n g i, (i < n)%nat -> nth i (map g (seq 0 n)) 0 = g i.
Proof. intros n g i H. rewrite (nth_indep _ 0 (g 0%nat)) by (rewrite map_length, seq_length; auto). rewrite map_nth, seq_nth by auto. auto. Qed.
Lemma axis_error : forall n (g : nat -> R) i, (i < n)%nat -> nth_error (A := R) (map g (seq 0 n)) i = Some (g i).
Proof. intros. rewrite (nth_error_nth' _ 0) by (rewrite map_length, seq_length; auto). rewrite axis_nth; auto. Qed.
Lemma find_entry_ok : forall n g x, (2 <= n)%nat -> ascending n g ->
  exists k, (S k < n)%nat /\ find_entry x (map g (seq 0 n)) = Some (clampr (g 0%nat) (g (n - 1)%nat) x, k, S k) /\
    g k <= clampr (g 0%nat) (g (n - 1)%nat) x <= g (S k).
Proof.
  intros n g x Hn A. set (T := map g (seq 0 n)). assert (LT : length T = n) by (unfold T; rewrite map_length, seq_length; auto).
  assert (N : forall i, (i < n)%nat -> nth i T 0 = g i) by (intros; apply axis_nth; auto).
  assert (G0 : g 0%nat < g (n - 1)%nat) by (apply A; lia).
  unfold find_entry. destruct T as [|t0 T'] eqn:ET; [cbn in LT; lia|]. rewrite <- ET in *. assert (E0 : t0 = g 0%nat) by (rewrite <- (N 0%nat) by lia; rewrite ET; reflexivity).
  rewrite last_nth, LT. rewrite (nth_indep T t0 0) by lia. rewrite N by lia. rewrite E0. unfold clampr, Rmax, Rmin.
  destruct (Rle_dec x (g 0%nat)) as [C|C].
  - exists 0%nat. split; [lia|]. pose proof (A 0%nat 1%nat ltac:(lia) ltac:(lia)).
    destruct (Rle_dec (g (n - 1)%nat) x); [lra|]. destruct (Rle_dec (g 0%nat) x).
    + assert (x = g 0%nat) by lra. subst x. split; auto. lra.
    + split; auto. lra.
  - cbv zeta. destruct (Rle_dec (g (n - 1)%nat) x) as [D|D].
    + exists (n - 1 - 1)%nat. split; [lia|]. replace (S (n - 1 - 1)) with (n - 1)%nat by lia. destruct (Rle_dec (g 0%nat) (g (n - 1)%nat)); [|lra].
      split; auto. pose proof (A (n - 1 - 1)%nat (n - 1)%nat ltac:(lia) ltac:(lia)). lra.
    + destruct (Rle_dec (g 0%nat) x); [|lra].
      destruct (lower_bound_split _ ltb T x) as (B1 & B2 & B3). set (it := lower_bound ltb T x) in *.
      assert (I0 : (0 < it)%nat).
      { destruct (Nat.eq_dec it 0) as [Z|Z]; [|lia]. exfalso. specialize (B3 0 ltac:(lia)). rewrite Z in B3. apply ltb_false in B3. rewrite N in B3 by lia. lra. }
      assert (I1 : (it < n)%nat).
      { destruct (Nat.lt_ge_cases it n); auto. exfalso. specialize (B1 (n - 1)%nat 0 ltac:(lia)). apply ltb_true in B1. rewrite N in B1 by lia. lra. }
      exists (it - 1)%nat. replace (S (it - 1)) with it by lia. split; [auto|]. split; [auto|].
      specialize (B1 (it - 1)%nat 0 ltac:(lia)). apply ltb_true in B1. rewrite N in B1 by lia.
      specialize (B3 0 ltac:(lia)). apply ltb_false in B3. rewrite N in B3 by lia. lra.
Qed.
Definition loaded (t : table2) (sx sy : nat) (gx gy : nat -> R) (gh : nat -> nat -> R) : Prop :=
  table2_ctor (grid_rows sx sy gx gy gh) false sx sy = Some t.
Lemma interp2_cell : forall t sx sy gx gy gh x y, (2 <= sx)%nat -> (2 <= sy)%nat -> ascending sx gx -> ascending sy gy -> loaded t sx sy gx gy gh ->
  exists i j, (S i < sx)%nat /\ (S j < sy)%nat /\
    gx i <= clampr (gx 0%nat) (gx (sx - 1)%nat) x <= gx (S i) /\ gy j <= clampr (gy 0%nat) (gy (sy - 1)%nat) y <= gy (S j) /\
    interp2 t x y = Some (bilinear gx gy gh i j (clampr (gx 0%nat) (gx (sx - 1)%nat) x) (clampr (gy 0%nat) (gy (sy - 1)%nat) y)).
Proof.
  intros t sx sy gx gy gh x y Hx Hy Ax Ay Lt. destruct (C69_grid_loaded sx sy gx gy gh ltac:(lia) ltac:(lia)) as (t' & E & EX & EY & Esx & Esy & EA).
  unfold loaded in Lt. rewrite Lt in E. injection E as <-.
  destruct (find_entry_ok sx gx x Hx Ax) as (i & Hi & Fi & Ci). destruct (find_entry_ok sy gy y Hy Ay) as (j & Hj & Fj & Cj).
  exists i, j. repeat split; auto; try apply Ci; try apply Cj.
  unfold interp2. rewrite EX, EY, Fi, Fj. rewrite !axis_error by lia. unfold at_A. rewrite Esx, Esy.
  destruct (Nat.ltb_spec (S j) sy), (Nat.ltb_spec j sy), (Nat.ltb_spec i sx), (Nat.ltb_spec (S i) sx); try lia. cbn [andb].
  pose proof (Ax i (S i) ltac:(lia) ltac:(lia)). pose proof (Ay j (S j) ltac:(lia) ltac:(lia)).
  rewrite !divo_ok by lra. cbv zeta. f_equal. unfold bilinear. cbv zeta. rewrite !EA by lia. field. split; lra.
Qed.
(** bilinear forms of neighbouring cells agree on the common edge, so any cell that contains the point will do *)
Lemma bilinear_x_end : forall gx gy gh i j y, gx i <> gx (S i) -> gy j <> gy (S j) ->
  bilinear gx gy gh i j (gx (S i)) y = gh (S i) j + (y - gy j) / (gy (S j) - gy j) * (gh (S i) (S j) - gh (S i) j) /\
  bilinear gx gy gh i j (gx i) y = gh i j + (y - gy j) / (gy (S j) - gy j) * (gh i (S j) - gh i j).
Proof. intros. unfold bilinear. cbv zeta. split; field; split; lra. Qed.
Lemma bilinear_y_end : forall gx gy gh i j x, gx i <> gx (S i) -> gy j <> gy (S j) ->
  bilinear gx gy gh i j x (gy (S j)) = gh i (S j) + (x - gx i) / (gx (S i) - gx i) * (gh (S i) (S j) - gh i (S j)) /\
  bilinear gx gy gh i j x (gy j) = gh i j + (x - gx i) / (gx (S i) - gx i) * (gh (S i) j - gh i j).
Proof. intros. unfold bilinear. cbv zeta. split; field; split; lra. Qed.
Lemma cell_unique : forall n g k k' x, ascending n g -> (S k < n)%nat -> (S k' < n)%nat -> g k <= x <= g (S k) -> g k' <= x <= g (S k') ->
  k = k' \/ (k' = S k /\ x = g (S k)) \/ (k = S k' /\ x = g (S k')).
Proof.
  intros n g k k' x A Hk Hk' X X'.
  destruct (Nat.lt_trichotomy k k') as [C|[C|C]]; [|auto|].
  - right. left. destruct (Nat.eq_dec k' (S k)) as [E|E]; [subst; split; auto; lra|]. pose proof (A (S k) k' ltac:(lia) ltac:(lia)). lra.
  - right. right. destruct (Nat.eq_dec k (S k')) as [E|E]; [subst; split; auto; lra|]. pose proof (A (S k') k ltac:(lia) ltac:(lia)). lra.
Qed.
Lemma bilinear_swap : forall sx sy gx gy gh i j i' j' x y, ascending sx gx -> ascending sy gy ->
  (S i < sx)%nat -> (S j < sy)%nat -> (S i' < sx)%nat -> (S j' < sy)%nat ->
  gx i <= x <= gx (S i) -> gx i' <= x <= gx (S i') -> gy j <= y <= gy (S j) -> gy j' <= y <= gy (S j') ->
  bilinear gx gy gh i j x y = bilinear gx gy gh i' j' x y.
Proof.
  intros sx sy gx gy gh i j i' j' x y Ax Ay Hi Hj Hi' Hj' X X' Y Y'.
  assert (NX : forall k, (S k < sx)%nat -> gx k <> gx (S k)) by (intros k Hk; pose proof (Ax k (S k) ltac:(lia) Hk); lra).
  assert (NY : forall k, (S k < sy)%nat -> gy k <> gy (S k)) by (intros k Hk; pose proof (Ay k (S k) ltac:(lia) Hk); lra).
  transitivity (bilinear gx gy gh i' j x y).
  - destruct (cell_unique sx gx i i' x Ax Hi Hi' X X') as [->|[[-> E]|[-> E]]]; auto; rewrite E.
    + rewrite (proj1 (bilinear_x_end gx gy gh i j y (NX i Hi) (NY j Hj))), (proj2 (bilinear_x_end gx gy gh (S i) j y (NX (S i) Hi') (NY j Hj))). reflexivity.
    + rewrite (proj2 (bilinear_x_end gx gy gh (S i') j y (NX (S i') Hi) (NY j Hj))), (proj1 (bilinear_x_end gx gy gh i' j y (NX i' Hi') (NY j Hj))). reflexivity.
  - destruct (cell_unique sy gy j j' y Ay Hj Hj' Y Y') as [->|[[-> E]|[-> E]]]; auto; rewrite E.
    + rewrite (proj1 (bilinear_y_end gx gy gh i' j x (NX i' Hi') (NY j Hj))), (proj2 (bilinear_y_end gx gy gh i' (S j) x (NX i' Hi') (NY (S j) Hj'))). reflexivity.
    + rewrite (proj2 (bilinear_y_end gx gy gh i' (S j') x (NX i' Hi') (NY (S j') Hj))), (proj1 (bilinear_y_end gx gy gh i' j' x (NX i' Hi') (NY j' Hj'))). reflexivity.
Qed.
(** Inside any cell of the grid the value is the bilinear interpolant of its four corners; outside the grid the
    point is first moved to the nearest point of the grid's rectangle. *)
Theorem C69_grid_bilinear : forall t sx sy gx gy gh i j x y, (2 <= sx)%nat -> (2 <= sy)%nat -> ascending sx gx -> ascending sy gy ->
  loaded t sx sy gx gy gh -> (S i < sx)%nat -> (S j < sy)%nat ->
  gx i <= clampr (gx 0%nat) (gx (sx - 1)%nat) x <= gx (S i) -> gy j <= clampr (gy 0%nat) (gy (sy - 1)%nat) y <= gy (S j) ->
  interp2 t x y = Some (bilinear gx gy gh i j (clampr (gx 0%nat) (gx (sx - 1)%nat) x) (clampr (gy 0%nat) (gy (sy - 1)%nat) y)).
Proof.
  intros t sx sy gx gy gh i j x y Hx Hy Ax Ay Lt Hi Hj Ci Cj.
  destruct (interp2_cell t sx sy gx gy gh x y Hx Hy Ax Ay Lt) as (i' & j' & Hi' & Hj' & Ci' & Cj' & E). rewrite E. f_equal.
  apply (bilinear_swap sx sy); auto.
Qed.
Lemma clampr_in : forall lo hi x, lo <= x <= hi -> clampr lo hi x = x.
Proof. intros. unfold clampr. rewrite Rmin_right, Rmax_right by lra. auto. Qed.
(** In particular the tabulated values are reproduced. *)
Theorem C69_grid_nodes : forall t sx sy gx gy gh i j, (2 <= sx)%nat -> (2 <= sy)%nat -> ascending sx gx -> ascending sy gy ->
  loaded t sx sy gx gy gh -> (i < sx)%nat -> (j < sy)%nat -> interp2 t (gx i) (gy j) = Some (gh i j).
Proof.
  intros t sx sy gx gy gh i j Hx Hy Ax Ay Lt Hi Hj.
  assert (M : forall n g k, (2 <= n)%nat -> ascending n g -> (k < n)%nat -> clampr (g 0%nat) (g (n - 1)%nat) (g k) = g k).
  { intros n g k Hn A Hk. apply clampr_in. split; [destruct k; [lra|left; apply A; lia]|]. destruct (Nat.eq_dec k (n - 1)) as [->|N]; [lra|left; apply A; lia]. }
  assert (Cell : forall n g k, (2 <= n)%nat -> ascending n g -> (k < n)%nat -> exists c, (S c < n)%nat /\ g c <= g k <= g (S c) /\ (k = c \/ k = S c)).
  { intros n g k Hn A Hk. destruct (Nat.eq_dec k (n - 1)) as [E|N].
    - exists (n - 2)%nat. split; [lia|]. replace (S (n - 2)) with k by lia. split; [|right; auto]. split; [left; apply A; lia|lra].
    - exists k. split; [lia|]. split; [|left; auto]. split; [lra|left; apply A; lia]. }
  destruct (Cell sx gx i Hx Ax Hi) as (a & Ha & Xa & Ka). destruct (Cell sy gy j Hy Ay Hj) as (b & Hb & Yb & Kb).
  rewrite (C69_grid_bilinear t sx sy gx gy gh a b (gx i) (gy j) Hx Hy Ax Ay Lt Ha Hb) by (rewrite M by auto; auto).
  rewrite !M by auto. f_equal. pose proof (Ax a (S a) ltac:(lia) Ha). pose proof (Ay b (S b) ltac:(lia) Hb).
  unfold bilinear. cbv zeta. destruct Ka; destruct Kb; subst; field; split; lra.
Qed.
(** and every value lies between the smallest and largest tabulated one. *)
Theorem C69_grid_bounded : forall t sx sy gx gy gh x y lo hi, (2 <= sx)%nat -> (2 <= sy)%nat -> ascending sx gx -> ascending sy gy ->
  loaded t sx sy gx gy gh -> (forall i j, (i < sx)%nat -> (j < sy)%nat -> lo <= gh i j <= hi) -> exists v, interp2 t x y = Some v /\ lo <= v <= hi.
Proof.
  intros t sx sy gx gy gh x y lo hi Hx Hy Ax Ay Lt B.
  destruct (interp2_cell t sx sy gx gy gh x y Hx Hy Ax Ay Lt) as (i & j & Hi & Hj & Ci & Cj & E). eexists. split; [exact E|].
  pose proof (Ax i (S i) ltac:(lia) ltac:(lia)). pose proof (Ay j (S j) ltac:(lia) ltac:(lia)).
  pose proof (B i j ltac:(lia) ltac:(lia)). pose proof (B (S i) j ltac:(lia) ltac:(lia)). pose proof (B i (S j) ltac:(lia) ltac:(lia)). pose proof (B (S i) (S j) ltac:(lia) ltac:(lia)).
  unfold bilinear. cbv zeta. set (X := clampr _ _ x) in *. set (Y := clampr _ _ y) in *.
  set (a := (X - gx i) / (gx (S i) - gx i)). set (b := (Y - gy j) / (gy (S j) - gy j)).
  assert (A1 : 0 <= a <= 1) by (unfold a; split; [apply Rle_div_r|apply Rle_div_l]; lra).
  assert (B1 : 0 <= b <= 1) by (unfold b; split; [apply Rle_div_r|apply Rle_div_l]; lra).
  assert (W1 : 0 <= (1 - a) * (1 - b)) by nra. assert (W2 : 0 <= a * (1 - b)) by nra. assert (W3 : 0 <= (1 - a) * b) by nra. assert (W4 : 0 <= a * b) by nra.
  assert (W : (1 - a) * (1 - b) + a * (1 - b) + (1 - a) * b + a * b = 1) by ring.
  set (w1 := (1 - a) * (1 - b)) in *. set (w2 := a * (1 - b)) in *. set (w3 := (1 - a) * b) in *. set (w4 := a * b) in *.
  split.
  - assert (w1 * lo <= w1 * gh i j) by nra. assert (w2 * lo <= w2 * gh (S i) j) by nra. assert (w3 * lo <= w3 * gh i (S j)) by nra. assert (w4 * lo <= w4 * gh (S i) (S j)) by nra. nra.
  - assert (w1 * gh i j <= w1 * hi) by nra. assert (w2 * gh (S i) j <= w2 * hi) by nra. assert (w3 * gh i (S j) <= w3 * hi) by nra. assert (w4 * gh (S i) (S j) <= w4 * hi) by nra. nra.
Qed.
(** The time factor grows linearly to one at the blending time and stays there. *)
Theorem C69_grid_ramp : forall blend, 0 < blend -> exists f : R -> R, (forall t, time_fac t blend = Some (f t)) /\
  (forall t, 0 <= t <= blend -> f t = t / blend) /\ (forall t, blend <= t -> f t = 1).
Proof.
  intros blend H. exists (fun t => Rmin (t / blend) 1). split; [|split].
  - intros t. unfold time_fac. rewrite divo_ok by lra. auto.
  - intros t Ht. apply Rmin_left. apply Rle_div_l; lra.
  - intros t Ht. apply Rmin_right. apply Rle_div_r; lra.
Qed.
(** Each point gets its own value times the time factor, in the selected component only. *)
Theorem C69_grid_evaluate : forall t sx sy gx gy gh fc ix iy blend coords time dim n fs m, (2 <= sx)%nat -> (2 <= sy)%nat -> ascending sx gx -> ascending sy gy ->
  loaded t sx sy gx gy gh -> 0 < blend -> (fc < fs)%nat ->
  exists m', table2_evaluate t fc ix iy blend coords time dim n fs m = Some m' /\
    (forall p, (p < n)%nat -> exists v, interp2 t (coords (p * dim + ix)%nat) (coords (p * dim + iy)%nat) = Some v /\
       forall i, (i < fs)%nat -> m' (p * fs + i)%nat = if Nat.eqb i fc then v * Rmin (time / blend) 1 else 0) /\
    (forall a, (n * fs <= a)%nat -> m' a = m a).
Proof.
  intros t sx sy gx gy gh fc ix iy blend coords time dim n fs m Hx Hy Ax Ay Lt Hb Hfc. unfold table2_evaluate, time_fac. rewrite divo_ok by lra.
  set (g := fun p => match interp2 t (coords (p * dim + ix)%nat) (coords (p * dim + iy)%nat) with Some v => Some (v * Rmin (time / blend) 1) | None => None end).
  destruct (point_loop_total n 0 fs fc g m) as [m' E].
  { intros p _. unfold g. destruct (interp2_cell t sx sy gx gy gh (coords (p * dim + ix)%nat) (coords (p * dim + iy)%nat) Hx Hy Ax Ay Lt) as (i & j & _ & _ & _ & _ & Q). rewrite Q. discriminate. }
  exists m'. split; [exact E|]. destruct (point_loop_spec _ _ _ _ _ _ _ Hfc E) as [I1 I2]. split; [|intros a Ha; apply I2; lia].
  intros p Hp. destruct (I1 p ltac:(lia)) as (v & Gv & W). unfold g in Gv. destruct (interp2 t _ _) as [v0|] eqn:Q; [|discriminate]. injection Gv as <-.
  exists v0. split; auto.
Qed.
(** A concrete grid: the 3 x 2 table with entries x + 10 y. *)
Example C69_grid_example : exists t, loaded t 3 2 INR INR (fun i j => INR i + 10 * INR j) /\ interp2 t (3/2) (1/2) = Some (13/2).
Proof.
  assert (A : forall n, ascending n INR) by (intros n i j H _; apply lt_INR; auto).
  destruct (C69_grid_loaded 3 2 INR INR (fun i j => INR i + 10 * INR j) ltac:(lia) ltac:(lia)) as (t & E & _). exists t. split; [exact E|].
  rewrite (C69_grid_bilinear t 3 2 INR INR _ 1 0 (3/2) (1/2) ltac:(lia) ltac:(lia) (A 3%nat) (A 2%nat) E); try lia.
  - rewrite !clampr_in by (cbn; lra). f_equal. unfold bilinear. cbv zeta. cbn. field.
  - rewrite clampr_in by (cbn; lra). cbn. lra.
  - rewrite clampr_in by (cbn; lra). cbn. lra.
Qed.
