(** C60: B-spline tables: knot search and basis functions. *)
Require Import Reals List Bool Lra Lia PeanoNat.
From Verif Require Import Edge_Model Edge_Proofs Elem_Proofs Tab_LU_Model Tab_LU_Props Tab_Spline_Model.
Import ListNotations.
Open Scope R_scope.

(** a clamped knot vector on [0,1] for n control points and order p *)
Definition good_knots (n p : nat) (U : list R) : Prop :=
  (0 < p < n)%nat /\ (forall k, (k <= p)%nat -> at_ U k = 0)
  /\ (forall k, (p <= k < n)%nat -> at_ U k < at_ U (S k))
  /\ (forall k, (n <= k <= n + p)%nat -> at_ U k = 1).

Lemma knots_mono n p U : good_knots n p U -> forall a b, (a <= b <= n + p)%nat -> at_ U a <= at_ U b.
Proof.
  intros ((Hp & Hn) & Z & I & O) a b Hab.
  assert (step : forall k, (k < n + p)%nat -> at_ U k <= at_ U (S k)).
  { intros k Hk. destruct (lt_dec k p) as [L|L].
    - rewrite !Z by lia. lra.
    - destruct (lt_dec k n) as [M|M]; [apply Rlt_le, I; lia|]. rewrite !O by lia. lra. }
  destruct Hab as [Hab Hb]. induction Hab as [|b Hab IH]; [lra|].
  eapply Rle_trans; [apply IH; lia|apply step; lia].
Qed.
Lemma knots_strict n p U : good_knots n p U -> forall i a b, (p <= i < n)%nat -> (a <= i)%nat -> (S i <= b <= n + p)%nat -> at_ U a < at_ U b.
Proof.
  intros G i a b Hi Ha Hb. pose proof (knots_mono n p U G a i ltac:(lia)). pose proof (knots_mono n p U G (S i) b ltac:(lia)).
  destruct G as (_ & _ & I & _). specialize (I i Hi). lra.
Qed.

Lemma search_ok U u : forall fuel low high, (high - low < fuel)%nat -> (low < high)%nat -> at_ U low <= u < at_ U high ->
  exists m, search fuel u U low high = Some m /\ (low <= m < high)%nat /\ at_ U m <= u < at_ U (m + 1).
Proof.
  induction fuel as [|f IH]; intros low high Hf Hlh B; [lia|].
  assert (M : (low <= (low + high) / 2 < high)%nat).
  { split; [apply Nat.div_le_lower_bound; lia|apply Nat.div_lt_upper_bound; lia]. }
  cbn [search]. set (mid := ((low + high) / 2)%nat) in *. destruct (Rlt_dec u (at_ U mid)) as [L|L].
  - assert (low <> mid) by (intros E; rewrite <- E in L; lra).
    destruct (IH low mid) as (m & E & Hm & Q); [lia|lia|lra|]. exists m. split; [exact E|]. split; [lia|exact Q].
  - destruct (Rle_dec (at_ U (mid + 1)) u) as [K|K].
    + assert (mid + 1 <> high)%nat by (intros E; rewrite E in K; lra).
      assert (low <> mid).
      { intros E. assert (high = low + 1 \/ low + 2 <= high)%nat as [E2|E2] by lia; [lia|].
        assert (low + 1 <= mid)%nat by (apply Nat.div_le_lower_bound; lia). lia. }
      destruct (IH mid high) as (m & E & Hm & Q); [lia|lia|lra|]. exists m. split; [exact E|]. split; [lia|exact Q].
    + exists mid. split; [reflexivity|]. split; [lia|lra].
Qed.
(** ** C60: the knot search always ends, with a span that has positive length and contains the
    abscissa; below the table the first span is used, above it the last *)
Theorem C60_knot_search : forall n p U u, good_knots n p U ->
  exists ix, find_indx n p u U = Some ix /\ (p <= ix < n)%nat /\ at_ U ix < at_ U (ix + 1)
    /\ (0 <= u < 1 -> at_ U ix <= u < at_ U (ix + 1))
    /\ (u <= 0 -> ix = p) /\ (1 <= u -> ix = (n - 1)%nat).
Proof.
  intros n p U u G. pose proof G as ((Hp & Hn) & Z & I & O). unfold find_indx. rewrite (Z 0%nat), (O (n + 1)%nat) by lia.
  destruct (Rle_dec u 0) as [L|L].
  - exists p. split; [reflexivity|]. split; [lia|]. replace (p + 1)%nat with (S p) by lia. split; [apply I; lia|].
    split; [|split; [reflexivity|intros; lra]]. intros B. rewrite Z by lia. pose proof (I p ltac:(lia)). rewrite (Z p) in H by lia. lra.
  - destruct (Rle_dec 1 u) as [K|K].
    + exists (n - 1)%nat. split; [reflexivity|]. split; [lia|]. replace (n - 1 + 1)%nat with (S (n - 1)) by lia. split; [apply I; lia|].
      split; [intros; lra|split; [intros; lra|reflexivity]].
    + destruct (search_ok U u (n + 2) p (n + 1)) as (m & E & Hm & Q); [lia|lia|rewrite (Z p), (O (n + 1)%nat) by lia; lra|].
      assert (m <> n). { intros ->. rewrite (O n) in Q by lia. lra. }
      exists m. split; [exact E|]. split; [lia|]. split; [lra|]. split; [intros; exact Q|split; intros; lra].
Qed.

(* ------------------------------------------------------------------ basis functions *)
Section Basis.
Variables (U : list R) (u : R) (i : nat).
Definition den (j r : nat) : R := right_ U u i (r + 1) + left_ U u i (j - r).
Lemma pass_spec N j (c : nat -> R) : forall m, (m <= j)%nat ->
  let st := fold_left (fun st r =>
      let tmp := fst st r / (right_ U u i (r + 1) + left_ U u i (j - r)) in
      (upd1 (fst st) r (snd st + right_ U u i (r + 1) * tmp), left_ U u i (j - r) * tmp)) (seq 0 m) (N, 0) in
  (forall r, (m <= r)%nat -> fst st r = N r)
  /\ sumn m (fun r => c r * fst st r) + c m * snd st
     = sumn m (fun r => N r * ((c r * right_ U u i (r + 1) + c (S r) * left_ U u i (j - r)) / den j r))
  /\ ((forall r, (r < j)%nat -> 0 <= N r /\ 0 < den j r /\ 0 <= right_ U u i (r + 1) /\ 0 <= left_ U u i (j - r)) ->
      0 <= snd st /\ forall r, (r < m)%nat -> 0 <= fst st r).
Proof.
  induction m as [|m IH]; intros Hm st.
  - unfold st; cbn [seq fold_left fst snd]. split; [reflexivity|]. split; [rewrite !sumn_0; lra|]. intros _. split; [lra|intros; lia].
  - subst st. rewrite seq_S, fold_left_app. cbn [fold_left plus]. destruct (IH ltac:(lia)) as (Q1 & Q2 & Q3).
    set (st := fold_left _ (seq 0 m) (N, 0)) in *. cbn [fst snd]. fold (den j m). split; [|split].
    + intros r Hr. rewrite upd1_other by lia. apply Q1. lia.
    + rewrite !sumn_S, upd1_same, (Q1 m) by lia. rewrite <- Q2.
      rewrite (sumn_ext m (fun r => c r * upd1 (fst st) m (snd st + right_ U u i (m + 1) * (N m / den j m)) r) (fun r => c r * fst st r))
        by (intros r Hr; rewrite upd1_other by lia; reflexivity).
      unfold Rdiv. ring.
    + intros H. destruct (Q3 H) as [S1 S2]. rewrite (Q1 m) by lia. destruct (H m ltac:(lia)) as (A & B & C & D).
      assert (T : 0 <= N m / den j m) by (apply Rmult_le_pos; [lra|apply Rlt_le, Rinv_0_lt_compat; lra]).
      split; [apply Rmult_le_pos; assumption|]. intros r Hr. destruct (Nat.eq_dec r m) as [->|Ne].
      * rewrite upd1_same. pose proof (Rmult_le_pos _ _ C T). lra.
      * rewrite upd1_other by lia. apply S2. lia.
Qed.
Lemma basis_pass_spec N j c :
  sumn (S j) (fun r => c r * basis_pass U u i N j r)
  = sumn j (fun r => N r * ((c r * right_ U u i (r + 1) + c (S r) * left_ U u i (j - r)) / den j r)).
Proof.
  unfold basis_pass. destruct (pass_spec N j c j (le_n j)) as (_ & Q & _). rewrite <- Q, sumn_S, upd1_same.
  f_equal. apply sumn_ext; intros r Hr. rewrite upd1_other by lia. reflexivity.
Qed.
Lemma basis_pass_nonneg N j :
  (forall r, (r < j)%nat -> 0 <= N r /\ 0 < den j r /\ 0 <= right_ U u i (r + 1) /\ 0 <= left_ U u i (j - r)) ->
  forall r, (r <= j)%nat -> 0 <= basis_pass U u i N j r.
Proof.
  intros H r Hr. unfold basis_pass. destruct (pass_spec N j (fun _ => 0) j (le_n j)) as (_ & _ & Q). destruct (Q H) as [S1 S2].
  destruct (Nat.eq_dec r j) as [->|N0]; [rewrite upd1_same; exact S1|rewrite upd1_other by lia; apply S2; lia].
Qed.
(** the values do not depend on what the work array held *)
Lemma pass_ext N N' j : (forall r, (r < j)%nat -> N r = N' r) -> forall r, (r <= j)%nat -> basis_pass U u i N j r = basis_pass U u i N' j r.
Proof.
  intros H. unfold basis_pass.
  assert (K : forall m, (m <= j)%nat ->
    let f := (fun st r =>
      let tmp := fst st r / (right_ U u i (r + 1) + left_ U u i (j - r)) in
      (upd1 (fst st) r (snd st + right_ U u i (r + 1) * tmp), left_ U u i (j - r) * tmp)) in
    snd (fold_left f (seq 0 m) (N, 0)) = snd (fold_left f (seq 0 m) (N', 0))
    /\ forall r, (r < j)%nat -> fst (fold_left f (seq 0 m) (N, 0)) r = fst (fold_left f (seq 0 m) (N', 0)) r).
  { induction m as [|m IH]; intros Hm f; [split; [reflexivity|exact H]|].
    subst f. rewrite seq_S, !fold_left_app. cbn [fold_left plus]. destruct (IH ltac:(lia)) as [Q1 Q2].
    set (a := fold_left _ (seq 0 m) (N, 0)) in *. set (b := fold_left _ (seq 0 m) (N', 0)) in *. cbn [fst snd].
    rewrite (Q2 m) by lia. rewrite Q1. split; [reflexivity|]. intros r Hr. unfold upd1.
    destruct (Nat.eqb r m); [reflexivity|apply Q2, Hr]. }
  destruct (K j (le_n j)) as [Q1 Q2]. cbv zeta in Q1, Q2. intros r Hr.
  destruct (Nat.eq_dec r j) as [->|Ne]; [rewrite !upd1_same; exact Q1|]. rewrite !upd1_other by lia. apply Q2. lia.
Qed.
End Basis.

Lemma basis_funs_S i p u U N0 : basis_funs i (S p) u U N0 = basis_pass U u i (basis_funs i p u U N0) (S p).
Proof. unfold basis_funs. rewrite seq_S, fold_left_app. reflexivity. Qed.
Theorem C60_basis_independent_of_history : forall i p u U N0 N1 r, (r <= p)%nat ->
  basis_funs i p u U N0 r = basis_funs i p u U N1 r.
Proof.
  intros i p u U N0 N1. induction p as [|p IH]; intros r Hr.
  - replace r with 0%nat by lia. unfold basis_funs. cbn [seq fold_left]. rewrite !upd1_same. reflexivity.
  - rewrite !basis_funs_S. apply pass_ext; [|exact Hr]. intros k Hk. apply IH. lia.
Qed.

(** the denominator is the width of a knot interval around the span, so it is positive *)
Lemma den_value U u i j r : (r < j)%nat -> (j <= i)%nat -> den U u i j r = at_ U (i + r + 1) - at_ U (i + 1 + r - j).
Proof.
  intros Hr Hj. unfold den, right_, left_. replace (i + (r + 1))%nat with (i + r + 1)%nat by lia.
  replace (i + 1 - (j - r))%nat with (i + 1 + r - j)%nat by lia. lra.
Qed.
Lemma den_pos n p U u i j r : good_knots n p U -> (p <= i < n)%nat -> (r < j)%nat -> (j <= p)%nat -> 0 < den U u i j r.
Proof.
  intros G Hi Hr Hj. rewrite den_value by lia. pose proof (knots_strict n p U G i (i + 1 + r - j) (i + r + 1) Hi ltac:(lia) ltac:(lia)). lra.
Qed.

(** ** C60: the basis functions add up to one, for every abscissa (also outside the table) *)
Lemma basis_sum n p U u i N0 : good_knots n p U -> (p <= i < n)%nat ->
  forall j, (j <= p)%nat -> sumn (S j) (fun r => basis_funs i j u U N0 r) = 1.
Proof.
  intros G Hi. induction j as [|j IH]; intros Hj.
  - rewrite sumn_S, sumn_0. unfold basis_funs. cbn [seq fold_left]. rewrite upd1_same. lra.
  - rewrite (sumn_ext _ _ (fun r => 1 * basis_funs i (S j) u U N0 r)) by (intros; lra).
    rewrite basis_funs_S, (basis_pass_spec U u i (basis_funs i j u U N0) (S j) (fun _ => 1)).
    etransitivity; [|exact (IH ltac:(lia))]. apply sumn_ext; intros r Hr.
    pose proof (den_pos n p U u i (S j) r G Hi ltac:(lia) Hj) as D. unfold den in *. field. lra.
Qed.
Theorem C60_basis_partition_of_unity : forall n p U u i N0, good_knots n p U -> (p <= i < n)%nat ->
  sumn (S p) (basis_funs i p u U N0) = 1.
Proof. intros. exact (basis_sum n p U u i N0 H H0 p (le_n p)). Qed.
(** ** C60: they are never negative on their span *)
Theorem C60_basis_nonnegative : forall n p U u i N0, good_knots n p U -> (p <= i < n)%nat ->
  at_ U i <= u <= at_ U (i + 1) -> forall r, (r <= p)%nat -> 0 <= basis_funs i p u U N0 r.
Proof.
  intros n p U u i N0 G Hi B.
  assert (K : forall j, (j <= p)%nat -> forall r, (r <= j)%nat -> 0 <= basis_funs i j u U N0 r); [|exact (K p (le_n p))].
  induction j as [|j IH]; intros Hj r Hr.
  - replace r with 0%nat by lia. unfold basis_funs. cbn [seq fold_left]. rewrite upd1_same. lra.
  - rewrite basis_funs_S. apply basis_pass_nonneg; [|exact Hr]. intros k Hk. split; [apply IH; lia|]. split; [apply (den_pos n p); auto; lia|].
    unfold right_, left_. split.
    + pose proof (knots_mono n p U G (i + 1) (i + (k + 1)) ltac:(lia)). lra.
    + pose proof (knots_mono n p U G (i + 1 - (S j - k)) i ltac:(lia)). lra.
Qed.
(** ** C60: linear precision: weighted with the knot averages they reproduce the abscissa *)
Definition knot_sum (U : list R) (j s : nat) : R := sumn j (fun t => at_ U (s + t)).   (* U_s + ... + U_(s+j-1) *)
Lemma knot_sum_S U j s : knot_sum U (S j) s = at_ U s + knot_sum U j (S s).
Proof.
  unfold knot_sum. induction j as [|j IH]; [rewrite sumn_S, !sumn_0; replace (s + 0)%nat with s by lia; lra|].
  rewrite sumn_S, IH, sumn_S. replace (S s + j)%nat with (s + S j)%nat by lia. lra.
Qed.
Lemma basis_greville n p U u i N0 : good_knots n p U -> (p <= i < n)%nat ->
  forall j, (j <= p)%nat -> sumn (S j) (fun r => knot_sum U j (i + 1 + r - j) * basis_funs i j u U N0 r) = INR j * u.
Proof.
  intros G Hi. induction j as [|j IH]; intros Hj.
  - rewrite sumn_S, sumn_0. unfold knot_sum. rewrite sumn_0. cbn. lra.
  - rewrite basis_funs_S, (basis_pass_spec U u i (basis_funs i j u U N0) (S j) (fun r => knot_sum U (S j) (i + 1 + r - S j))).
    rewrite S_INR. rewrite Rmult_plus_distr_r, Rmult_1_l, <- (IH ltac:(lia)).
    transitivity (sumn (S j) (fun r => knot_sum U j (i + 1 + r - j) * basis_funs i j u U N0 r) + u * sumn (S j) (fun r => basis_funs i j u U N0 r));
      [|rewrite (basis_sum n p U u i N0 G Hi j ltac:(lia)); lra].
    rewrite <- sumn_scal, <- sumn_plus.
    apply sumn_ext; intros r Hr.
    pose proof (den_pos n p U u i (S j) r G Hi ltac:(lia) Hj) as D.
    replace (i + 1 + S r - S j)%nat with (S (i + 1 + r - S j)) by lia.
    rewrite (knot_sum_S U j (i + 1 + r - S j)).
    assert (E : knot_sum U (S j) (S (i + 1 + r - S j)) = knot_sum U j (i + 1 + r - j) + at_ U (i + r + 1)).
    { unfold knot_sum. rewrite sumn_S. replace (S (i + 1 + r - S j))%nat with (i + 1 + r - j)%nat by lia.
      f_equal. f_equal. lia. }
    rewrite E. replace (S (i + 1 + r - S j))%nat with (i + 1 + r - j)%nat by lia.
    rewrite den_value in * by lia. unfold right_, left_.
    replace (i + (r + 1))%nat with (i + r + 1)%nat by lia. replace (i + 1 - (S j - r))%nat with (i + 1 + r - S j)%nat by lia.
    field. lra.
Qed.
Theorem C60_basis_linear_precision : forall n p U u i N0, good_knots n p U -> (p <= i < n)%nat ->
  sumn (S p) (fun r => (knot_sum U p (i - p + r + 1) / INR p) * basis_funs i p u U N0 r) = u.
Proof.
  intros n p U u i N0 G Hi. pose proof G as ((Hp & _) & _).
  assert (P : INR p <> 0) by (apply not_0_INR; lia).
  rewrite (sumn_ext _ _ (fun r => / INR p * (knot_sum U p (i + 1 + r - p) * basis_funs i p u U N0 r))).
  - rewrite sumn_scal, (basis_greville n p U u i N0 G Hi p (le_n p)). field. exact P.
  - intros r Hr. replace (i - p + r + 1)%nat with (i + 1 + r - p)%nat by lia. unfold Rdiv. ring.
Qed.
