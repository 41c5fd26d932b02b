(** C60 continued: values of fitted tables. *)
Require Import Reals List Bool Lra Lia PeanoNat Sorted.
From Verif Require Import RUtil Edge_Model Edge_Proofs Elem_Proofs Tab_LU_Model Tab_LU_Props Tab_Spline_Model Tab_Spline_Props Tab_Spline_Props2.
Import ListNotations.
Open Scope R_scope.

Lemma sumn_window n s m g : (s + m <= n)%nat -> (forall c, (c < n)%nat -> (c < s \/ s + m <= c)%nat -> g c = 0) ->
  sumn n g = sumn m (fun k => g (s + k)%nat).
Proof.
  intros H Z. rewrite (sumn_trunc n (s + m)) by (try lia; intros; apply Z; lia).
  assert (K : forall k, (k <= m)%nat -> sumn (s + k) g = sumn k (fun t => g (s + t)%nat)); [|apply K; lia].
  induction k as [|k IH]; intros Hk.
  - rewrite sumn_0, Nat.add_0_r. apply sumn_zero. intros c Hc. apply Z; lia.
  - replace (s + S k)%nat with (S (s + k)) by lia. rewrite !sumn_S, IH by lia. reflexivity.
Qed.

(** evaluation at parameter u with control points P *)
Definition evaluate (n p : nat) (U : list R) (P : nat -> R) (u : R) : R := sumn n (fun c => spline_row n p u U c * P c).
Lemma evaluate_band n p U P u N0 : good_knots n p U ->
  exists ix, find_indx n p u U = Some ix /\ (p <= ix < n)%nat
    /\ evaluate n p U P u = sumn (S p) (fun k => basis_funs ix p u U N0 k * P (ix - p + k)%nat).
Proof.
  intros G. destruct (C60_knot_search n p U u G) as (ix & E & Hix & _). exists ix. split; [exact E|]. split; [exact Hix|].
  unfold evaluate, spline_row. rewrite E. rewrite (sumn_window n (ix - p) (S p)).
  - apply sumn_ext; intros k Hk. replace (Nat.leb (ix - p) (ix - p + k)) with true by (symmetry; apply Nat.leb_le; lia).
    replace (Nat.leb (ix - p + k) (ix - p + p)) with true by (symmetry; apply Nat.leb_le; lia). cbn [andb].
    replace (ix - p + k - (ix - p))%nat with k by lia. f_equal. apply C60_basis_independent_of_history. lia.
  - lia.
  - intros c Hc [L|L].
    + replace (Nat.leb (ix - p) c) with false by (symmetry; apply Nat.leb_gt; lia). cbn [andb]. lra.
    + replace (Nat.leb c (ix - p + p)) with false by (symmetry; apply Nat.leb_gt; lia). rewrite andb_false_r. lra.
Qed.
Lemma evaluate_const n p U c u : good_knots n p U -> evaluate n p U (fun _ => c) u = c.
Proof.
  intros G. destruct (evaluate_band n p U (fun _ => c) u (fun _ => 0) G) as (ix & _ & Hix & ->).
  rewrite sumn_scal_r. rewrite (C60_basis_partition_of_unity n p U u ix _ G Hix). lra.
Qed.
Lemma evaluate_linear n p U a b u : good_knots n p U -> evaluate n p U (fun c => a + b * (knot_sum U p (c + 1) / INR p)) u = a + b * u.
Proof.
  intros G. destruct (evaluate_band n p U (fun c => a + b * (knot_sum U p (c + 1) / INR p)) u (fun _ => 0) G) as (ix & _ & Hix & ->).
  rewrite (sumn_ext _ _ (fun k => basis_funs ix p u U (fun _ => 0) k * a + b * ((knot_sum U p (ix - p + k + 1) / INR p) * basis_funs ix p u U (fun _ => 0) k)))
    by (intros; ring).
  rewrite sumn_plus, sumn_scal_r, sumn_scal, (C60_basis_partition_of_unity n p U u ix _ G Hix), (C60_basis_linear_precision n p U u ix _ G Hix). lra.
Qed.

(** a fitted spline: parameters of the fit *)
Definition fit_knots (p : nat) (xs : list R) : list R := set_knot_vector (set_uk xs (max_of xs) (min_of xs)) p.
(** the interpolation system of the increasing abscissae sx can be factorised without pivoting *)
Definition fit_solvable (p : nat) (sx : list R) : Prop :=
  pivots_ok (length sx) (spline_matrix (length sx) p (set_uk sx (max_of sx) (min_of sx)) (fit_knots p sx)).

Section Fit.
Variables (p : nat) (sx sy : list R) (clip : bool).
Hypothesis (Inc : increasing sx) (Hp : (0 < p < length sx)%nat).
Let n := length sx.
Let mn := min_of sx.
Let mx := max_of sx.
Let uk := set_uk sx mx mn.
Let U := fit_knots p sx.
Lemma fit_range : mn = at_ sx 0 /\ mx = at_ sx (n - 1) /\ mn < mx.
Proof. apply range_of; [lia|exact Inc|reflexivity]. Qed.
Lemma uk_length : length uk = n. Proof. unfold uk, set_uk. apply map_length. Qed.
Lemma uk_value i : (i < n)%nat -> at_ uk i = (at_ sx i - mn) / (mx - mn).
Proof.
  intros Hi. unfold uk, set_uk, at_. rewrite (nth_indep _ 0 (get_uk 0 mx mn false)) by (rewrite map_length; exact Hi).
  rewrite (map_nth (fun x => get_uk x mx mn false)). reflexivity.
Qed.
Lemma uk_inc : increasing uk.
Proof.
  apply nth_increasing. rewrite uk_length. intros i Hi. rewrite !uk_value by lia. destruct fit_range as (_ & _ & R).
  apply Rmult_lt_compat_r; [apply Rinv_0_lt_compat; lra|]. pose proof (increasing_nth sx Inc i (S i) ltac:(lia) ltac:(fold n; lia)). lra.
Qed.
Lemma uk_0 : at_ uk 0 = 0.
Proof. rewrite uk_value by lia. destruct fit_range as (A & _ & R). rewrite <- A. field. lra. Qed.
Lemma uk_1 : at_ uk (n - 1) = 1.
Proof. rewrite uk_value by lia. destruct fit_range as (_ & A & R). rewrite <- A. field. lra. Qed.
Lemma fit_good : good_knots n p U.
Proof. apply knots_good; [exact uk_inc|exact uk_length|exact Hp|exact uk_0|exact uk_1]. Qed.
Lemma row_is_evaluate P i : mv n (spline_matrix n p uk U) P i = evaluate n p U P (at_ uk i).
Proof. reflexivity. Qed.
Definition fit_ctrl : nat -> R := lu_solve n (spline_matrix n p uk U) (at_ sy).
Definition the_fit : spline := mkSpline p clip n mx mn U (map fit_ctrl (seq 0 n)).
Lemma fit_value N0 x : spline_value the_fit N0 x = Some (evaluate n p U fit_ctrl (get_uk x mx mn clip)).
Proof.
  unfold spline_value, the_fit. cbn [sp_order sp_clip sp_npts sp_max sp_min sp_knots sp_ctrl].
  destruct (evaluate_band n p U fit_ctrl (get_uk x mx mn clip) N0 fit_good) as (ix & E & Hix & ->). rewrite E.
  f_equal. replace (p + 1)%nat with (S p) by lia. unfold sumn. rewrite fold_seq_sumn, Rplus_0_l. apply sumn_ext; intros k Hk. f_equal.
  unfold at_. rewrite (nth_indep _ 0 (fit_ctrl 0)) by (rewrite map_length, seq_length; lia).
  rewrite (map_nth fit_ctrl), seq_nth by lia. reflexivity.
Qed.
Lemma fit_uk_in i : (i < n)%nat -> get_uk (at_ sx i) mx mn clip = at_ uk i.
Proof.
  intros Hi. rewrite uk_value by exact Hi. unfold get_uk. destruct clip; [|reflexivity].
  assert (mn <= at_ sx i <= mx).
  { destruct fit_range as (-> & -> & _). split.
    - destruct i; [lra|]. apply Rlt_le, (increasing_nth sx Inc); lia.
    - destruct (Nat.eq_dec i (n - 1)) as [->|N]; [lra|]. apply Rlt_le, (increasing_nth sx Inc); lia. }
  rewrite Rmax_left, Rmin_left by lra. reflexivity.
Qed.
Hypothesis (Solv : fit_solvable p sx).
Lemma fit_interpolates N0 i : (i < n)%nat -> spline_value the_fit N0 (at_ sx i) = Some (at_ sy i).
Proof.
  intros Hi. rewrite fit_value, fit_uk_in by exact Hi. f_equal. rewrite <- row_is_evaluate.
  apply C59_solution_solves_system; [lia|exact Solv|exact Hi].
Qed.
Lemma fit_linear N0 a b x : (forall i, (i < n)%nat -> at_ sy i = a + b * at_ sx i) ->
  spline_value the_fit N0 x = Some (a + b * (if clip then Rmin (Rmax x mn) mx else x)).
Proof.
  intros L. rewrite fit_value. f_equal. destruct fit_range as (_ & _ & R).
  set (Q := fun c => (a + b * mn) + (b * (mx - mn)) * (knot_sum U p (c + 1) / INR p)).
  assert (E : forall k, (k < n)%nat -> Q k = fit_ctrl k).
  { apply C59_solution_unique; [lia|exact Solv|]. intros i Hi. rewrite row_is_evaluate. unfold Q.
    rewrite evaluate_linear by exact fit_good. rewrite (uk_value i Hi), (L i Hi). field. lra. }
  transitivity (evaluate n p U Q (get_uk x mx mn clip)).
  - apply sumn_ext; intros c Hc. rewrite E by exact Hc. reflexivity.
  - unfold Q. rewrite evaluate_linear by exact fit_good. unfold get_uk. destruct clip; field; lra.
Qed.
End Fit.

Lemma fit_increasing p xs ys clip : increasing xs -> spline_fit p xs ys clip = Some (the_fit p xs ys clip).
Proof. intros I. unfold spline_fit. rewrite (proj1 (C60_inputs_accepted xs ys) I). reflexivity. Qed.
Lemma fit_decreasing p xs ys clip : increasing (rev xs) -> (1 < length xs)%nat ->
  spline_fit p xs ys clip = Some (the_fit p (rev xs) (rev ys) clip).
Proof.
  intros I L. unfold spline_fit. rewrite (proj1 (proj2 (C60_inputs_accepted xs ys)) I L).
  destruct (range_of xs (rev xs)) as (A & B & _); [rewrite rev_length; exact L|exact I|intros; apply in_rev|].
  destruct (range_of (rev xs) (rev xs)) as (C & D & _); [rewrite rev_length; exact L|exact I|reflexivity|].
  unfold the_fit, fit_ctrl, fit_knots. rewrite A, B, C, D, rev_length. reflexivity.
Qed.
(** ** C60: the order of the table does not matter: a decreasing table gives the same spline as the
    table turned round *)
Theorem C60_decreasing_table_same_spline : forall p xs ys clip, increasing (rev xs) -> (1 < length xs)%nat ->
  spline_fit p xs ys clip = spline_fit p (rev xs) (rev ys) clip.
Proof. intros. rewrite fit_decreasing, fit_increasing by assumption. reflexivity. Qed.

(** ** C60: the fitted table passes through every data point, exactly; tables in decreasing order too *)
Theorem C60_table_interpolates_data : forall p xs ys clip N0 i,
  (increasing xs /\ fit_solvable p xs \/ increasing (rev xs) /\ fit_solvable p (rev xs)) ->
  (0 < p < length xs)%nat -> length ys = length xs -> (i < length xs)%nat ->
  exists s, spline_fit p xs ys clip = Some s /\ spline_value s N0 (at_ xs i) = Some (at_ ys i).
Proof.
  intros p xs ys clip N0 i H Hp Ly Hi. destruct H as [[I S]|[I S]].
  - exists (the_fit p xs ys clip). split; [apply fit_increasing, I|apply fit_interpolates; assumption].
  - exists (the_fit p (rev xs) (rev ys) clip). split; [apply fit_decreasing; [exact I|lia]|].
    assert (Ex : at_ xs i = at_ (rev xs) (length xs - 1 - i)).
    { unfold at_. rewrite rev_nth by lia. f_equal. lia. }
    assert (Ey : at_ ys i = at_ (rev ys) (length xs - 1 - i)).
    { unfold at_. rewrite rev_nth by lia. f_equal. lia. }
    rewrite Ex, Ey. apply fit_interpolates; [exact I|rewrite rev_length; exact Hp|exact S|rewrite rev_length; lia].
Qed.
(** ** C60: constant and linear data are reproduced everywhere, and continued outside the table unless
    clipping is on; with clipping the end values are kept *)
Theorem C60_linear_data_reproduced : forall p xs ys clip N0 a b x,
  increasing xs -> (0 < p < length xs)%nat -> fit_solvable p xs ->
  (forall i, (i < length xs)%nat -> at_ ys i = a + b * at_ xs i) ->
  exists s, spline_fit p xs ys clip = Some s
    /\ spline_value s N0 x = Some (a + b * (if clip then Rmin (Rmax x (at_ xs 0)) (at_ xs (length xs - 1)) else x)).
Proof.
  intros p xs ys clip N0 a b x I Hp S L. exists (the_fit p xs ys clip). split; [apply fit_increasing, I|].
  rewrite (fit_linear p xs ys clip I Hp S N0 a b x L). destruct (fit_range p xs I Hp) as (-> & -> & _). reflexivity.
Qed.
(** ** C60: inside the table (or with clipping) the value lies between the smallest and the largest
    control point, whatever the data and whether or not the fit was exact *)
Theorem C60_value_within_control_points : forall p xs ys clip N0 x lo hi,
  increasing xs -> (0 < p < length xs)%nat -> (clip = true \/ at_ xs 0 <= x <= at_ xs (length xs - 1)) ->
  exists s v, spline_fit p xs ys clip = Some s /\ spline_value s N0 x = Some v
    /\ ((forall k, (k < length xs)%nat -> lo <= at_ (sp_ctrl s) k <= hi) -> lo <= v <= hi).
Proof.
  intros p xs ys clip N0 x lo hi I Hp B. set (s := the_fit p xs ys clip).
  pose proof (fit_range p xs I Hp) as (Emn & Emx & R).
  pose proof (fit_good p xs I Hp) as G.
  set (n := length xs) in *. set (mn := min_of xs) in *. set (mx := max_of xs) in *. set (U := fit_knots p xs) in *.
  set (u := get_uk x mx mn clip).
  assert (Hu : 0 <= u <= 1).
  { unfold u, get_uk. set (v := if clip then Rmin (Rmax x mn) mx else x).
    assert (V : mn <= v <= mx).
    { unfold v. destruct clip; [|rewrite Emn, Emx; destruct B as [?|B]; [discriminate|exact B]].
      split; [apply Rmin_glb; [apply Rmax_r|lra]|apply Rmin_r]. }
    split; [apply Rle_div_r; lra|apply Rle_div_l; lra]. }
  destruct (evaluate_band n p U (fit_ctrl p xs ys) u N0 G) as (ix & E & Hix & V).
  exists s, (evaluate n p U (fit_ctrl p xs ys) u). split; [apply fit_increasing, I|]. split; [apply (fit_value p xs ys clip I Hp)|].
  intros C. rewrite V.
  assert (NN : forall r, (r <= p)%nat -> 0 <= basis_funs ix p u U N0 r).
  { apply (C60_basis_nonnegative n p U u ix N0 G Hix).
    destruct (C60_knot_search n p U u G) as (ix' & E' & H1 & H2 & H3 & H4 & H5). rewrite E in E'. injection E' as <-.
    destruct (Rle_dec 1 u) as [L|L].
    - specialize (H5 L). subst ix. replace (n - 1 + 1)%nat with n in * by lia. destruct G as (_ & _ & _ & O). rewrite (O n) in * by lia.
      assert (u = 1) by lra. lra.
    - specialize (H3 ltac:(lra)). lra. }
  pose proof (C60_basis_partition_of_unity n p U u ix N0 G Hix) as PU.
  assert (C' : forall k, (k <= p)%nat -> lo <= fit_ctrl p xs ys (ix - p + k)%nat <= hi).
  { intros k Hk. specialize (C (ix - p + k)%nat ltac:(lia)). unfold s, the_fit in C. cbn [sp_ctrl] in C. unfold at_ in C.
    rewrite (nth_indep _ 0 (fit_ctrl p xs ys 0)) in C by (rewrite map_length, seq_length; fold n; lia).
    rewrite (map_nth (fit_ctrl p xs ys)), seq_nth in C by (fold n; lia). exact C. }
  split.
  - replace lo with (sumn (S p) (fun k => basis_funs ix p u U N0 k * lo)) by (rewrite sumn_scal_r, PU; lra).
    apply sumn_le. intros k Hk. apply Rmult_le_compat_l; [apply NN; lia|apply C'; lia].
  - replace hi with (sumn (S p) (fun k => basis_funs ix p u U N0 k * hi)) by (rewrite sumn_scal_r, PU; lra).
    apply sumn_le. intros k Hk. apply Rmult_le_compat_l; [apply NN; lia|apply C'; lia].
Qed.
(** ** C60: with clipping, outside the table the value at the nearer end is returned *)
Theorem C60_clipping_keeps_end_values : forall p xs ys N0 N1 x, increasing xs -> (0 < p < length xs)%nat ->
  exists s, spline_fit p xs ys true = Some s
   /\ (x <= at_ xs 0 -> spline_value s N0 x = spline_value s N1 (at_ xs 0))
   /\ (at_ xs (length xs - 1) <= x -> spline_value s N0 x = spline_value s N1 (at_ xs (length xs - 1))).
Proof.
  intros p xs ys N0 N1 x I Hp. exists (the_fit p xs ys true). split; [apply fit_increasing, I|].
  pose proof (fit_range p xs I Hp) as (Emn & Emx & R).
  rewrite !(fit_value p xs ys true I Hp). rewrite <- Emn, <- Emx. split; intros L; f_equal; f_equal; unfold get_uk; cbv iota; f_equal; f_equal.
  - rewrite (Rmax_right x), (Rmax_left (min_of xs) (min_of xs)) by lra. reflexivity.
  - rewrite (Rmax_left x), (Rmax_left (max_of xs)), !Rmin_right by lra. reflexivity.
Qed.
