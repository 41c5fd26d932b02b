(** C60 continued: linear tables need no hypothesis on the linear system. *)
Require Import Reals List Bool Lra Lia PeanoNat Sorted.
From Verif Require Import RUtil Edge_Model Edge_Proofs Elem_Proofs Tab_LU_Model Tab_LU_Props Tab_Spline_Model Tab_Spline_Props Tab_Spline_Props2 Tab_Spline_Props3.
Import ListNotations.
Open Scope R_scope.

Section Linear.
Variables (sx : list R).
Hypothesis (Inc : increasing sx) (Hn : (1 < length sx)%nat).
Let n := length sx.
Let uk := set_uk sx (max_of sx) (min_of sx).
Let U := fit_knots 1 sx.
Let Hp : (0 < 1 < length sx)%nat. Proof. lia. Qed.
Lemma lin_knot k : (1 <= k <= n)%nat -> at_ U k = at_ uk (k - 1).
Proof.
  intros Hk. pose proof (fit_good 1 sx Inc Hp) as (_ & Z & _ & O). fold n in O. fold U in Z, O.
  pose proof (uk_inc 1 sx Inc Hp) as I. pose proof (uk_length sx) as L. fold uk in I, L. fold n in L.
  pose proof (uk_0 1 sx Inc Hp) as E0. pose proof (uk_1 1 sx Inc Hp) as E1. fold uk in E0, E1. fold n in E1.
  destruct (Nat.eq_dec k 1) as [->|N1]; [rewrite Z by lia; symmetry; exact E0|].
  destruct (Nat.eq_dec k n) as [->|N2]; [rewrite O by lia; symmetry; exact E1|].
  unfold U, fit_knots. fold uk. rewrite (knot_interior uk n 1 I L ltac:(unfold n; lia) E0 E1) by lia.
  unfold avg_uk. rewrite sumn_S, sumn_0, Nat.add_0_r. cbn [INR]. lra.
Qed.
Lemma basis1 ix u r : (r <= 1)%nat -> (1 <= ix < n)%nat ->
  basis_funs ix 1 u U (fun _ => 0) r = match r with 0%nat => (at_ U (ix + 1) - u) / (at_ U (ix + 1) - at_ U ix) | _ => (u - at_ U ix) / (at_ U (ix + 1) - at_ U ix) end.
Proof.
  intros Hr Hix. unfold basis_funs, basis_pass, left_, right_. cbn [seq fold_left fst snd plus].
  replace (ix + 1 - (1 - 0))%nat with ix by lia. replace (at_ U (ix + 1) - u + (u - at_ U ix)) with (at_ U (ix + 1) - at_ U ix) by ring.
  rewrite upd1_same. destruct r as [|[|r]]; [|rewrite upd1_same; unfold Rdiv; ring|lia].
  rewrite upd1_other by lia. rewrite upd1_same. unfold Rdiv. ring.
Qed.
(** a point between two neighbouring abscissae is weighted linearly; the span may also be the
    neighbouring one when the point is a data point *)
Lemma lin_matrix i c : (i < n)%nat -> (c < n)%nat -> spline_matrix n 1 uk U i c = if Nat.eqb i c then 1 else 0.
Proof.
  intros Hi Hc. unfold spline_matrix, spline_row.
  pose proof (fit_good 1 sx Inc Hp) as G. fold n U in G.
  destruct (C60_knot_search n 1 U (at_ uk i) G) as (ix & E & Hix & Hpos & Hin & Hlo & Hhi). rewrite E.
  pose proof (uk_inc 1 sx Inc Hp) as I. pose proof (uk_length sx) as L. fold uk in I, L. fold n in L.
  pose proof (uk_0 1 sx Inc Hp) as E0. pose proof (uk_1 1 sx Inc Hp) as E1. fold uk in E0, E1. fold n in E1.
  assert (X : (i < n - 1 /\ ix = i + 1)%nat \/ (i = n - 1 /\ ix = n - 1)%nat).
  { destruct (Nat.eq_dec i (n - 1)) as [->|N]; [right; split; [reflexivity|apply Hhi; rewrite E1; lra]|left].
    split; [lia|]. assert (B : 0 <= at_ uk i < 1).
    { split; [rewrite <- E0; destruct i; [lra|apply Rlt_le, (increasing_nth uk I); lia]|rewrite <- E1; apply (increasing_nth uk I); lia]. }
    specialize (Hin B). rewrite !lin_knot in Hin by lia. replace (ix + 1 - 1)%nat with ix in Hin by lia.
    destruct (Nat.lt_trichotomy (ix - 1) i) as [Q|[Q|Q]]; [|lia|].
    - destruct (Nat.eq_dec ix i) as [->|Ne]; [lra|]. pose proof (increasing_nth uk I ix i ltac:(lia) ltac:(lia)). lra.
    - pose proof (increasing_nth uk I i (ix - 1) ltac:(lia) ltac:(lia)). lra. }
  destruct X as [[Q ->]|[-> ->]].
  - replace (i + 1 - 1)%nat with i by lia.
    assert (K : at_ U (i + 1) = at_ uk i) by (rewrite lin_knot by lia; f_equal; lia).
    destruct (Nat.leb_spec i c) as [L1|L1]; cbn [andb].
    + destruct (Nat.leb_spec c (i + 1)) as [L2|L2].
      * rewrite basis1 by lia. rewrite K in *. destruct (Nat.eqb_spec i c) as [<-|Ne].
        -- rewrite Nat.sub_diag. field. lra.
        -- replace (c - i)%nat with 1%nat by lia. unfold Rdiv. ring.
      * destruct (Nat.eqb_spec i c); [lia|reflexivity].
    + destruct (Nat.eqb_spec i c); [lia|reflexivity].
  - replace (n - 1 + 1)%nat with n in * by lia.
    assert (K : at_ U n = at_ uk (n - 1)) by (rewrite lin_knot by lia; reflexivity).
    destruct (Nat.leb_spec (n - 1 - 1) c) as [L1|L1]; cbn [andb].
    + replace (Nat.leb c (n - 1 - 1 + 1)) with true by (symmetry; apply Nat.leb_le; lia).
      rewrite basis1 by lia. replace (n - 1 + 1)%nat with n by lia. rewrite K in *.
      destruct (Nat.eqb_spec (n - 1) c) as [<-|Ne].
      * replace (n - 1 - (n - 1 - 1))%nat with 1%nat by lia. field. lra.
      * replace (c - (n - 1 - 1))%nat with 0%nat by lia. unfold Rdiv. ring.
    + destruct (Nat.eqb_spec (n - 1) c); [lia|reflexivity].
Qed.
Lemma lin_solvable : fit_solvable 1 sx.
Proof.
  unfold fit_solvable. apply C59_works_iff_leading_blocks_regular. intros m Hm z Hz i Hi.
  rewrite <- (Hz i Hi). unfold mv. fold n uk U. fold n in Hm.
  rewrite (sumn_ext m _ (fun c => dl i c * z c)).
  - unfold dl. rewrite (sumn_ext m _ (fun c => (if Nat.eqb c i then 1 else 0) * z c)).
    + symmetry. exact (sumn_dl m i z Hi).
    + intros c Hc. rewrite Nat.eqb_sym. reflexivity.
  - intros c Hc. rewrite lin_matrix by lia. unfold dl. reflexivity.
Qed.
Lemma lin_ctrl sy k : (k < n)%nat -> fit_ctrl 1 sx sy k = at_ sy k.
Proof.
  intros Hk. symmetry. apply C59_solution_unique; [lia|exact lin_solvable| |exact Hk].
  intros i Hi. unfold mv. fold n uk U. rewrite (sumn_ext n _ (fun c => dl i c * at_ sy c)).
  - unfold dl. rewrite (sumn_ext n _ (fun c => (if Nat.eqb c i then 1 else 0) * at_ sy c)).
    + exact (sumn_dl n i (at_ sy) Hi).
    + intros c Hc. rewrite Nat.eqb_sym. reflexivity.
  - intros c Hc. rewrite lin_matrix by (fold n in Hi; lia). reflexivity.
Qed.
End Linear.

(** ** C60: the system of a linear table is always solvable ... *)
Theorem C60_linear_table_always_solvable : forall xs, increasing xs -> (1 < length xs)%nat -> fit_solvable 1 xs.
Proof. exact lin_solvable. Qed.
(** ** ... and a linear table is the broken line through the data *)
Theorem C60_linear_table_is_piecewise_linear : forall xs ys clip N0 i x,
  increasing xs -> (S i < length xs)%nat -> length ys = length xs -> at_ xs i <= x <= at_ xs (S i) ->
  exists s, spline_fit 1 xs ys clip = Some s
    /\ spline_value s N0 x = Some (at_ ys i + (at_ ys (S i) - at_ ys i) * (x - at_ xs i) / (at_ xs (S i) - at_ xs i)).
Proof.
  intros xs ys clip N0 i x I Hi Ly B.
  assert (Hp : (0 < 1 < length xs)%nat) by lia.
  exists (the_fit 1 xs ys clip). split; [apply fit_increasing, I|].
  destruct (Req_dec x (at_ xs (S i))) as [->|Nx].
  { rewrite fit_interpolates; [|exact I|exact Hp|apply lin_solvable; [exact I|lia]|exact Hi]. f_equal.
    pose proof (increasing_nth xs I i (S i) ltac:(lia) Hi). field. lra. }
  rewrite fit_value by assumption. f_equal.
  set (n := length xs) in *. set (mn := min_of xs). set (mx := max_of xs). set (U := fit_knots 1 xs).
  pose proof (fit_good 1 xs I Hp) as G. fold n U in G. pose proof (fit_range 1 xs I Hp) as (Emn & Emx & R). fold n mn mx in Emn, Emx, R.
  assert (Hlt : x < at_ xs (S i)) by (destruct B as [? [?|?]]; [assumption|contradiction]).
  assert (Bx : mn <= x < mx).
  { rewrite Emn, Emx. split.
    - destruct i; [lra|]. pose proof (increasing_nth xs I 0 (S i) ltac:(lia) ltac:(fold n; lia)). lra.
    - destruct (Nat.eq_dec (S i) (n - 1)) as [<-|N]; [lra|]. pose proof (increasing_nth xs I (S i) (n - 1) ltac:(lia) ltac:(fold n; lia)). lra. }
  assert (Eu : get_uk x mx mn clip = (x - mn) / (mx - mn)).
  { unfold get_uk. destruct clip; [rewrite Rmax_left, Rmin_left by lra|]; reflexivity. }
  rewrite Eu. set (u := (x - mn) / (mx - mn)).
  assert (Hu : 0 <= u < 1) by (unfold u; split; [apply Rle_div_r; lra|apply Rlt_div_l; lra]).
  destruct (C60_knot_search n 1 U u G) as (ix & E & Hix & Hpos & Hin & _). specialize (Hin Hu).
  destruct (evaluate_band n 1 U (fit_ctrl 1 xs ys) u (fun _ => 0) G) as (ix' & E' & _ & ->). rewrite E in E'. injection E' as <-.
  unfold U in Hin, Hpos. rewrite !(lin_knot xs I ltac:(lia)) in Hin, Hpos by (fold n; lia). rewrite !(uk_value xs) in Hin, Hpos by (fold n; lia).
  fold mn mx in Hin, Hpos. replace (ix + 1 - 1)%nat with ix in * by lia. unfold u in Hin.
  assert (M : forall a b, (a - mn) / (mx - mn) <= (b - mn) / (mx - mn) <-> a <= b).
  { intros a b. unfold Rdiv. split; intros Q; [apply Rmult_le_reg_r in Q; [lra|apply Rinv_0_lt_compat; lra]|apply Rmult_le_compat_r; [apply Rlt_le, Rinv_0_lt_compat; lra|lra]]. }
  destruct Hin as [H1 H2]. apply (proj1 (M _ _)) in H1. assert (H2' : x < at_ xs ix) by (apply Rnot_le_lt; intros Q; apply (proj2 (M _ _)) in Q; lra).
  assert (IX : ix = S i).
  { destruct (Nat.lt_trichotomy ix (S i)) as [Q|[Q|Q]]; [|exact Q|].
    - destruct (Nat.eq_dec ix i) as [->|Ne]; [lra|]. pose proof (increasing_nth xs I ix i ltac:(lia) ltac:(fold n; lia)). lra.
    - destruct (Nat.eq_dec (ix - 1) (S i)) as [Q2|Ne]; [rewrite Q2 in H1; lra|].
      pose proof (increasing_nth xs I (S i) (ix - 1) ltac:(lia) ltac:(fold n; lia)). lra. }
  subst ix. rewrite !sumn_S, sumn_0. replace (S i - 1 + 0)%nat with i by lia. replace (S i - 1 + 1)%nat with (S i) by lia.
  rewrite !(lin_ctrl xs I ltac:(lia)) by (fold n; lia). rewrite !(basis1 xs ltac:(lia)) by (fold n; lia).
  rewrite !(lin_knot xs I ltac:(lia)) by (fold n; lia).
  replace (S i + 1 - 1)%nat with (S i) by lia. replace (S i - 1)%nat with i by lia. rewrite !(uk_value xs) by (fold n; lia). fold mn mx.
  unfold u. pose proof (increasing_nth xs I i (S i) ltac:(lia) Hi). field. split; lra.
Qed.

(** ** A concrete quadratic table meets the hypotheses *)
Example C60_meets : increasing [0; 1; 3] /\ (0 < 2 < length [0;1;3])%nat.
Proof. split; [repeat constructor; lra|cbn; lia]. Qed.
(** ** Too few points: nothing checks that there are more points than the order, and the knot vector
    then belongs to a larger table: the band of a row does not fit the matrix *)
Theorem C60_too_few_points_refuted : exists xs p,
  increasing xs /\ (1 < length xs)%nat /\ (length xs <= p)%nat
  /\ find_indx (length xs) p 0 (fit_knots p xs) = Some p /\ (length xs <= p - p + p)%nat
  /\ length (fit_knots p xs) <> (length xs + p + 1)%nat.
Proof.
  exists [0; 1], 3%nat. split; [repeat constructor; lra|]. split; [cbn; lia|]. split; [cbn; lia|].
  assert (L : fit_knots 3 [0;1] = [0;0;0;0;1;1;1;1]).
  { unfold fit_knots, set_uk, get_uk, max_of, min_of. cbn [map fold_left].
    assert (I : increasing [(0 - Rmin 0 1) / (Rmax 0 1 - Rmin 0 1); (1 - Rmin 0 1) / (Rmax 0 1 - Rmin 0 1)]).
    { rewrite Rmin_left, Rmax_right by lra. repeat constructor. lra. }
    unfold set_knot_vector. rewrite sort_increasing, unique_increasing by exact I. reflexivity. }
  split; [|split; [cbn; lia|rewrite L; cbn; lia]].
  rewrite L. unfold find_indx, at_. cbn [nth]. destruct (Rle_dec 0 0); [reflexivity|lra].
Qed.
