(** C60: two-dimensional tables *)
Require Import Reals List PeanoNat Bool Lia Lra.
From Verif Require Import Edge_Model Edge_Proofs Tab_LU_Model Tab_LU_Props Tab_Spline_Model Tab_Spline_Props Tab_Spline_Props2 Tab_Spline_Props3 Tab_Spline_Props4 Tab_Spline2_Model.
Import ListNotations.
Open Scope R_scope.

Lemma all_some_spec {A} (l : list (option A)) (r : list A) : all_some l = Some r <-> l = map Some r.
Proof.
  revert r. induction l as [|[a|] l IH]; intros r; cbn [all_some].
  - split; [intros [= <-]; reflexivity|]. destruct r; [reflexivity|discriminate].
  - destruct (all_some l) as [q|]; split.
    + intros [= <-]. cbn [map]. f_equal. apply IH. reflexivity.
    + intros E. destruct r as [|b r]; [discriminate|]. injection E as -> E. apply IH in E. injection E as ->. reflexivity.
    + discriminate.
    + intros E. destruct r as [|b r]; [discriminate|]. injection E as -> E. apply IH in E. discriminate.
  - split; [discriminate|]. destruct r; discriminate.
Qed.
Lemma all_some_map {A B} (f : A -> option B) (l : list A) : (forall a, In a l -> exists b, f a = Some b) ->
  exists r, all_some (map f l) = Some r.
Proof.
  induction l as [|a l IH]; intros H; [exists []; reflexivity|]. cbn [map all_some].
  destruct (H a (or_introl eq_refl)) as [b ->]. destruct IH as [r ->]; [intros; apply H; right; assumption|]. eauto.
Qed.
Lemma all_some_nth {A} (f : nat -> option A) m r d j : all_some (map f (seq 0 m)) = Some r -> (j < m)%nat ->
  length r = m /\ f j = Some (nth j r d).
Proof.
  intros E Hj. apply all_some_spec in E. assert (L : length r = m).
  { apply (f_equal (@length _)) in E. rewrite !map_length, seq_length in E. lia. }
  split; [exact L|]. apply (f_equal (fun l => nth j l None)) in E.
  rewrite (nth_indep _ None (f 0%nat)) in E by (rewrite map_length, seq_length; exact Hj).
  rewrite map_nth, seq_nth in E by exact Hj. rewrite (nth_indep _ None (Some d)) in E by (rewrite map_length; lia).
  rewrite map_nth in E. exact E.
Qed.
Lemma all_some_length {A} (f : nat -> option A) m r : all_some (map f (seq 0 m)) = Some r -> length r = m.
Proof. intros E. apply all_some_spec in E. apply (f_equal (@length _)) in E. rewrite !map_length, seq_length in E. lia. Qed.

Lemma set_at_length l k v : length (set_at l k v) = length l.
Proof. unfold set_at. rewrite map_length, seq_length. reflexivity. Qed.
Lemma set_at_at l k v i : at_ (set_at l k v) i = if Nat.ltb i (length l) then if Nat.eqb i k then v else at_ l i else 0.
Proof.
  unfold set_at. destruct (Nat.ltb_spec i (length l)).
  - unfold at_ at 1. set (f := fun i0 : nat => _). rewrite (nth_indep _ 0 (f 0%nat)) by (rewrite map_length, seq_length; lia).
    rewrite map_nth, seq_nth by lia. reflexivity.
  - unfold at_ at 1. apply nth_overflow. rewrite map_length, seq_length. lia.
Qed.

(** the fit of a table depends on the dependent variables only through the control points *)
Lemma fit_shape p xs ys ys' clip s s' : spline_fit p xs ys clip = Some s -> spline_fit p xs ys' clip = Some s' ->
  s' = with_ctrl s (sp_ctrl s') /\ length (sp_ctrl s) = length xs /\ sp_npts s = length xs /\ sp_order s = p.
Proof.
  unfold spline_fit, sort_inputs.
  destruct (Nat.eqb (length xs) (length (unique (sort xs)))); [|discriminate].
  destruct (req_list xs (unique (sort xs))).
  - intros [= <-] [= <-]. cbn. rewrite map_length, seq_length. auto.
  - destruct (req_list (rev xs) (unique (sort xs))); [|discriminate]. intros [= <-] [= <-]. cbn. rewrite map_length, seq_length. auto.
Qed.
(** a lookup reads the control points of one band only *)
Lemma value_band s c c' N0 x ix : find_indx (sp_npts s) (sp_order s) (get_uk x (sp_max s) (sp_min s) (sp_clip s)) (sp_knots s) = Some ix ->
  (forall k, (k <= sp_order s)%nat -> at_ c (ix - sp_order s + k) = at_ c' (ix - sp_order s + k)) ->
  spline_value (with_ctrl s c) N0 x = spline_value (with_ctrl s c') N0 x.
Proof.
  intros E H. unfold spline_value, with_ctrl. cbn [sp_order sp_clip sp_npts sp_max sp_min sp_knots sp_ctrl]. rewrite E.
  f_equal. rewrite !fold_seq_sumn. f_equal. apply sumn_ext; intros k Hk. rewrite H by lia. reflexivity.
Qed.

(** the loop that refreshes the scratch control points *)
Lemma refresh (vals : nat -> option R) (v : nat -> R) shift m l :
  (forall k, (k < m)%nat -> vals (shift + k)%nat = Some (v (shift + k)%nat)) -> (shift + m <= length l)%nat ->
  exists c, fold_left (fun c k => match c with
        | None => None
        | Some l => match vals (shift + k)%nat with
                    | Some v => Some (set_at l (shift + k) v) | None => None end
        end) (seq 0 m) (Some l) = Some c
    /\ length c = length l
    /\ (forall k, (k < m)%nat -> at_ c (shift + k) = v (shift + k)%nat)
    /\ (forall i, (i < shift \/ shift + m <= i)%nat -> at_ c i = at_ l i).
Proof.
  induction m as [|m IH]; intros H L.
  - exists l. cbn. repeat split; [lia].
  - destruct IH as (c & E & Lc & A & B); [intros; apply H; lia|lia|].
    rewrite seq_S, fold_left_app, E. cbn [fold_left]. rewrite Nat.add_0_l, H by lia.
    eexists. split; [reflexivity|]. rewrite set_at_length. split; [exact Lc|]. split.
    + intros k Hk. rewrite set_at_at. destruct (Nat.ltb_spec (shift + k) (length c)); [|lia].
      destruct (Nat.eqb_spec (shift + k) (shift + m)) as [->|N]; [reflexivity|apply A; lia].
    + intros i Hi. rewrite set_at_at. destruct (Nat.ltb_spec i (length c)).
      * destruct (Nat.eqb_spec i (shift + m)); [lia|]. apply B. lia.
      * unfold at_. symmetry. apply nth_overflow. lia.
Qed.

(** a table whose lookups end: what the constructor builds, with whatever earlier lookups left in the
    scratch control points *)
Definition table2 (s : spline2) : Prop :=
  let sp := s2_first s in
  (0 < sp_order sp < sp_npts sp)%nat /\ length (sp_ctrl sp) = sp_npts sp /\ length (s2_second s) = sp_npts sp
  /\ good_knots (sp_npts sp) (sp_order sp) (sp_knots sp)
  /\ (forall k N0 y, (k < sp_npts sp)%nat -> exists v, spline_value (nth k (s2_second s) no_spline) N0 y = Some v
        /\ forall N1, spline_value (nth k (s2_second s) no_spline) N1 y = Some v).

(** what a lookup means: the second-direction splines give the control points of a curve in the first
    direction, which is evaluated *)
Lemma value2_meaning s N0 x y : table2 s ->
  exists v c, spline2_value s N0 x y = Some (v, mkSpline2 (with_ctrl (s2_first s) c) (s2_second s))
    /\ length c = length (sp_ctrl (s2_first s))
    /\ forall C, (forall k, (k < sp_npts (s2_first s))%nat -> spline_value (nth k (s2_second s) no_spline) N0 y = Some (at_ C k)) ->
       spline_value (with_ctrl (s2_first s) C) N0 x = Some v.
Proof.
  intros (Hp & Lc & Ls & G & V). set (sp := s2_first s) in *.
  unfold spline2_value. fold sp.
  destruct (C60_knot_search _ _ _ (get_uk x (sp_max sp) (sp_min sp) (sp_clip sp)) G) as (ix & E & Hix & _). rewrite E.
  set (val := fun k => match spline_value (nth k (s2_second s) no_spline) N0 y with Some v => v | None => 0 end).
  assert (Hv : forall k, (k < sp_npts sp)%nat -> spline_value (nth k (s2_second s) no_spline) N0 y = Some (val k)).
  { intros k Hk. unfold val. destruct (V k N0 y Hk) as (v & -> & _). reflexivity. }
  destruct (refresh (fun k => spline_value (nth k (s2_second s) no_spline) N0 y) val (ix - sp_order sp) (sp_order sp + 1) (sp_ctrl sp))
    as (c & -> & Lc' & A & _); [intros k Hk; apply Hv; lia|lia|].
  assert (Sv : exists v, spline_value (with_ctrl sp c) N0 x = Some v).
  { unfold spline_value, with_ctrl. cbn [sp_order sp_clip sp_npts sp_max sp_min sp_knots sp_ctrl]. rewrite E. eauto. }
  destruct Sv as [v Ev]. rewrite Ev. exists v, c. split; [reflexivity|]. split; [exact Lc'|].
  intros C HC. rewrite <- Ev. apply (value_band sp C c N0 x ix E). intros k Hk. rewrite A by lia.
  specialize (HC (ix - sp_order sp + k)%nat ltac:(lia)). rewrite Hv in HC by lia. congruence.
Qed.
Lemma table2_ctrl s c : table2 s -> length c = length (sp_ctrl (s2_first s)) -> table2 (mkSpline2 (with_ctrl (s2_first s) c) (s2_second s)).
Proof. intros (A & B & C & D & E) L. unfold table2. cbn [s2_first s2_second with_ctrl sp_npts sp_order sp_ctrl sp_knots]. rewrite L. auto. Qed.
Lemma value2_ctrl s c N0 N1 x y : table2 s -> length c = length (sp_ctrl (s2_first s)) ->
  option_map fst (spline2_value (mkSpline2 (with_ctrl (s2_first s) c) (s2_second s)) N0 x y) = option_map fst (spline2_value s N1 x y).
Proof.
  intros T L. pose proof (table2_ctrl s c T L) as T'.
  destruct (value2_meaning _ N0 x y T') as (v & c1 & E1 & _ & M1). destruct (value2_meaning _ N1 x y T) as (w & c2 & E2 & _ & M2).
  rewrite E1, E2. cbn [option_map fst]. f_equal. cbn [s2_first s2_second with_ctrl sp_npts] in M1.
  destruct T as (Hp & Lc & Ls & G & V).
  set (C := map (fun k => match spline_value (nth k (s2_second s) no_spline) N0 y with Some v => v | None => 0 end) (seq 0 (sp_npts (s2_first s)))).
  assert (HC : forall k, (k < sp_npts (s2_first s))%nat -> at_ C k = match spline_value (nth k (s2_second s) no_spline) N0 y with Some v => v | None => 0 end).
  { intros k Hk. unfold C, at_. set (f := fun k0 : nat => _). rewrite (nth_indep _ 0 (f 0%nat)) by (rewrite map_length, seq_length; lia).
    rewrite map_nth, seq_nth by lia. reflexivity. }
  specialize (M1 C). specialize (M2 C). assert (Q1 : spline_value (with_ctrl (s2_first s) C) N0 x = Some v).
  { apply M1. intros k Hk. rewrite HC by exact Hk. destruct (V k N0 y Hk) as (? & -> & _). reflexivity. }
  assert (Q2 : spline_value (with_ctrl (s2_first s) C) N1 x = Some w).
  { apply M2. intros k Hk. rewrite HC by exact Hk. destruct (V k N0 y Hk) as (? & Ea & Eb). rewrite Ea. apply Eb. }
  assert (Q3 : spline_value (with_ctrl (s2_first s) C) N0 x = spline_value (with_ctrl (s2_first s) C) N1 x).
  { unfold spline_value, with_ctrl. cbn [sp_order sp_clip sp_npts sp_max sp_min sp_knots sp_ctrl].
    destruct (C60_knot_search _ _ _ (get_uk x (sp_max (s2_first s)) (sp_min (s2_first s)) (sp_clip (s2_first s))) G) as (ix & -> & Hix & _).
    f_equal. rewrite !fold_seq_sumn. f_equal. apply sumn_ext; intros k Hk. f_equal. apply C60_basis_independent_of_history; lia. }
  congruence.
Qed.

(** what the constructor builds is such a table *)
Lemma fit_any_value p xs ys clip : (increasing xs \/ increasing (rev xs)) -> (0 < p < length xs)%nat ->
  exists s, spline_fit p xs ys clip = Some s /\ good_knots (length xs) p (sp_knots s)
   /\ forall c N0 x, exists v, spline_value (with_ctrl s c) N0 x = Some v /\ forall N1, spline_value (with_ctrl s c) N1 x = Some v.
Proof.
  intros I Hp.
  assert (V : forall s, sp_order s = p -> sp_npts s = length xs -> good_knots (length xs) p (sp_knots s) ->
     forall c N0 x, exists v, spline_value (with_ctrl s c) N0 x = Some v /\ forall N1, spline_value (with_ctrl s c) N1 x = Some v).
  { intros s <- Es G c N0 x. unfold spline_value, with_ctrl. cbn [sp_order sp_clip sp_npts sp_max sp_min sp_knots sp_ctrl]. rewrite Es.
    destruct (C60_knot_search _ _ _ (get_uk x (sp_max s) (sp_min s) (sp_clip s)) G) as (ix & -> & Hix & _).
    eexists. split; [reflexivity|]. intros N1. f_equal. rewrite !fold_seq_sumn. f_equal. apply sumn_ext; intros k Hk. f_equal. apply C60_basis_independent_of_history; lia. }
  destruct I as [I|I].
  - exists (the_fit p xs ys clip). split; [apply fit_increasing, I|]. pose proof (fit_good p xs I Hp) as G. split; [exact G|]. apply V; [reflexivity|reflexivity|exact G].
  - exists (the_fit p (rev xs) (rev ys) clip). split; [apply fit_decreasing; [exact I|lia]|].
    pose proof (fit_good p (rev xs) I ltac:(rewrite rev_length; exact Hp)) as G. rewrite rev_length in G. split; [exact G|]. apply V; [reflexivity| |exact G].
    cbn. apply rev_length.
Qed.
Lemma with_own s : with_ctrl s (sp_ctrl s) = s. Proof. destruct s; reflexivity. Qed.

Definition monotone_abscissae (xs : list R) : Prop := increasing xs \/ increasing (rev xs).
Definition solvable_abscissae (p : nat) (xs : list R) : Prop :=
  increasing xs /\ fit_solvable p xs \/ increasing (rev xs) /\ fit_solvable p (rev xs).

Lemma fit2_built p xs1 xs2 d clip : monotone_abscissae xs1 -> monotone_abscissae xs2 ->
  (0 < p < length xs1)%nat -> (0 < p < length xs2)%nat -> length d = (length xs1 * length xs2)%nat ->
  exists s lines, spline2_fit p xs1 xs2 d clip = Some s /\ table2 s
    /\ length lines = length xs2 /\ s2_first s = hd no_spline lines
    /\ (forall j, (j < length xs2)%nat -> spline_fit p xs1 (grid_line d (length xs1) j) clip = Some (nth j lines no_spline))
    /\ (forall i, (i < length xs1)%nat ->
          spline_fit p xs2 (map (fun l => at_ (sp_ctrl l) i) lines) clip = Some (nth i (s2_second s) no_spline)).
Proof.
  intros I1 I2 H1 H2 L. unfold spline2_fit. rewrite L, Nat.eqb_refl.
  destruct (all_some_map (fun j => spline_fit p xs1 (grid_line d (length xs1) j) clip) (seq 0 (length xs2))) as [lines E1].
  { intros j _. destruct (fit_any_value p xs1 (grid_line d (length xs1) j) clip I1 H1) as (s & E & _). eauto. }
  rewrite E1.
  destruct (all_some_map (fun i => spline_fit p xs2 (map (fun l => at_ (sp_ctrl l) i) lines) clip) (seq 0 (length xs1))) as [sec E2].
  { intros j _. destruct (fit_any_value p xs2 (map (fun l => at_ (sp_ctrl l) j) lines) clip I2 H2) as (s & E & _). eauto. }
  rewrite E2. eexists; exists lines. split; [reflexivity|]. cbn [s2_first s2_second].
  assert (L1 : length lines = length xs2) by (apply (all_some_length _ _ _ E1)).
  assert (A1 : forall j, (j < length xs2)%nat -> spline_fit p xs1 (grid_line d (length xs1) j) clip = Some (nth j lines no_spline)).
  { intros j Hj. apply (all_some_nth _ _ _ no_spline j E1 Hj). }
  assert (A2 : forall i, (i < length xs1)%nat -> spline_fit p xs2 (map (fun l => at_ (sp_ctrl l) i) lines) clip = Some (nth i sec no_spline)).
  { intros j Hj. apply (all_some_nth _ _ _ no_spline j E2 Hj). }
  assert (Eh : hd no_spline lines = nth 0 lines no_spline) by (destruct lines; reflexivity).
  split; [|split; [exact L1|split; [reflexivity|split; [exact A1|exact A2]]]].
  unfold table2. cbn [s2_first s2_second]. rewrite Eh.
  pose proof (A1 0%nat ltac:(lia)) as F0. destruct (fit_shape _ _ _ _ _ _ _ F0 F0) as (_ & Lc & En & Eo).
  destruct (fit_any_value p xs1 (grid_line d (length xs1) 0) clip I1 H1) as (s0 & E0 & G0 & _). rewrite F0 in E0. injection E0 as <-.
  rewrite En, Eo. split; [exact H1|]. split; [exact Lc|]. split; [apply (all_some_length _ _ _ E2)|]. split; [exact G0|].
  intros k N0 y Hk. destruct (fit_any_value p xs2 (map (fun l => at_ (sp_ctrl l) k) lines) clip I2 H2) as (s1 & E1' & _ & V1).
  rewrite (A2 k Hk) in E1'. injection E1' as <-. specialize (V1 (sp_ctrl (nth k sec no_spline)) N0 y). rewrite with_own in V1. exact V1.
Qed.

(** ** C60: a lookup in a two-dimensional table gives the same number whatever was looked up before,
    although every lookup overwrites control points of the shared first-direction spline *)
Theorem C60_lookup_2d_independent_of_history : forall p xs1 xs2 d clip s N0 N1 N2 qs x y,
  monotone_abscissae xs1 -> monotone_abscissae xs2 -> (0 < p < length xs1)%nat -> (0 < p < length xs2)%nat ->
  spline2_fit p xs1 xs2 d clip = Some s ->
  exists s', spline2_after s N0 qs = Some s'
    /\ exists v, option_map fst (spline2_value s' N1 x y) = Some v /\ option_map fst (spline2_value s N2 x y) = Some v.
Proof.
  intros p xs1 xs2 d clip s N0 N1 N2 qs x y I1 I2 H1 H2 F.
  assert (L : length d = (length xs1 * length xs2)%nat).
  { unfold spline2_fit in F. destruct (Nat.eqb_spec (length d) (length xs1 * length xs2)); [assumption|discriminate]. }
  destruct (fit2_built p xs1 xs2 d clip I1 I2 H1 H2 L) as (s0 & lines & F' & T & _). rewrite F in F'. injection F' as <-. clear - T.
  assert (K : exists s', spline2_after s N0 qs = Some s' /\ exists c, s' = mkSpline2 (with_ctrl (s2_first s) c) (s2_second s)
     /\ length c = length (sp_ctrl (s2_first s))).
  { revert s T. induction qs as [|q qs IH]; intros s T; cbn [spline2_after].
    - exists s. split; [reflexivity|]. exists (sp_ctrl (s2_first s)). split; [|reflexivity]. rewrite with_own. destruct s; reflexivity.
    - destruct (value2_meaning s N0 (fst q) (snd q) T) as (v & c & -> & Lc & _).
      destruct (IH _ (table2_ctrl s c T Lc)) as (s' & E & c' & -> & Lc'). exists (mkSpline2 (with_ctrl (s2_first s) c') (s2_second s)).
      split; [exact E|]. exists c'. split; [reflexivity|]. cbn in Lc'. lia. }
  destruct K as (s' & E & c & -> & Lc). exists (mkSpline2 (with_ctrl (s2_first s) c) (s2_second s)). split; [exact E|].
  destruct (value2_meaning s N2 x y T) as (v & c2 & E2 & _). exists v. rewrite (value2_ctrl s c N1 N2 x y T Lc), E2. split; reflexivity.
Qed.

(** ** C60: a two-dimensional table passes through every grid value *)
Theorem C60_table_2d_interpolates_data : forall p xs1 xs2 d clip N0 i j,
  solvable_abscissae p xs1 -> solvable_abscissae p xs2 -> (0 < p < length xs1)%nat -> (0 < p < length xs2)%nat ->
  length d = (length xs1 * length xs2)%nat -> (i < length xs1)%nat -> (j < length xs2)%nat ->
  exists s, spline2_fit p xs1 xs2 d clip = Some s
    /\ option_map fst (spline2_value s N0 (at_ xs1 i) (at_ xs2 j)) = Some (at_ d (i + j * length xs1)).
Proof.
  intros p xs1 xs2 d clip N0 i j S1 S2 H1 H2 L Hi Hj.
  assert (I1 : monotone_abscissae xs1) by (destruct S1 as [[? _]|[? _]]; [left|right]; assumption).
  assert (I2 : monotone_abscissae xs2) by (destruct S2 as [[? _]|[? _]]; [left|right]; assumption).
  destruct (fit2_built p xs1 xs2 d clip I1 I2 H1 H2 L) as (s & lines & F & T & Ll & Ef & A1 & A2).
  exists s. split; [exact F|]. destruct (value2_meaning s N0 (at_ xs1 i) (at_ xs2 j) T) as (v & c & E & _ & M). rewrite E. cbn [option_map fst]. f_equal.
  assert (Eh : s2_first s = nth 0 lines no_spline) by (rewrite Ef; destruct lines; reflexivity).
  destruct (fit_shape _ _ _ _ _ _ _ (A1 0%nat ltac:(lia)) (A1 j Hj)) as (Sh & _ & En & _). rewrite <- Eh in Sh, En.
  specialize (M (sp_ctrl (nth j lines no_spline))). rewrite <- Sh, En in M.
  assert (Q : Some v = Some (at_ d (i + j * length xs1))); [|congruence]. rewrite <- M.
  - destruct (C60_table_interpolates_data p xs1 (grid_line d (length xs1) j) clip N0 i S1 H1) as (s1 & F1 & V1); [unfold grid_line; rewrite map_length, seq_length; reflexivity|exact Hi|].
    rewrite (A1 j Hj) in F1. injection F1 as <-. rewrite V1. f_equal. unfold grid_line. unfold at_ at 1. set (f := fun i0 : nat => _).
    rewrite (nth_indep _ 0 (f 0%nat)) by (rewrite map_length, seq_length; lia). rewrite map_nth, seq_nth by lia. reflexivity.
  - intros k Hk. destruct (C60_table_interpolates_data p xs2 (map (fun l => at_ (sp_ctrl l) k) lines) clip N0 j S2 H2) as (s1 & F1 & V1); [rewrite map_length; exact Ll|exact Hj|].
    rewrite (A2 k Hk) in F1. injection F1 as <-. rewrite V1. f_equal. set (f := fun l : spline => _). unfold at_ at 1.
    rewrite (nth_indep _ 0 (f no_spline)) by (rewrite map_length; lia). rewrite map_nth. reflexivity.
Qed.
(** with order one there is nothing to assume about the linear systems *)
Corollary C60_bilinear_table_interpolates_data : forall xs1 xs2 d clip N0 i j,
  increasing xs1 -> increasing xs2 -> (i < length xs1)%nat -> (j < length xs2)%nat -> (1 < length xs1)%nat -> (1 < length xs2)%nat ->
  length d = (length xs1 * length xs2)%nat ->
  exists s, spline2_fit 1 xs1 xs2 d clip = Some s
    /\ option_map fst (spline2_value s N0 (at_ xs1 i) (at_ xs2 j)) = Some (at_ d (i + j * length xs1)).
Proof.
  intros. apply C60_table_2d_interpolates_data; try assumption; try lia; left; (split; [assumption|apply lin_solvable; assumption]).
Qed.
(** ** C60: a table of the wrong size is refused *)
Theorem C60_wrong_size_2d_refused : forall p xs1 xs2 d clip, length d <> (length xs1 * length xs2)%nat -> spline2_fit p xs1 xs2 d clip = None.
Proof. intros p xs1 xs2 d clip H. unfold spline2_fit. destruct (Nat.eqb_spec (length d) (length xs1 * length xs2)); [contradiction|reflexivity]. Qed.

Example C60_2d_meets : exists s, spline2_fit 1 [0;1;3] [0;2] [5;6;7;8;9;10] true = Some s
  /\ option_map fst (spline2_value s (fun _ => 0) 1 2) = Some 9.
Proof.
  destruct (C60_bilinear_table_interpolates_data [0;1;3] [0;2] [5;6;7;8;9;10] true (fun _ => 0) 1 1) as (s & E & V); cbn [length]; try lia;
    try (repeat constructor; lra). eauto.
Qed.
