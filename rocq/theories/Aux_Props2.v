(** C69, continued: Lipschitz bound, evaluation over points, repeated abscissas, profiles, moving walls. *)
From Coq Require Import Reals List Arith Bool Permutation Sorted Lia Lra.
From Verif Require Import RUtil Edge_Model Motion_Model Aux_Model Aux_Spec Aux_Props.
Import ListNotations.
Open Scope R_scope.

Lemma chord_lip : forall a b x K, fst a < fst b -> Rabs (snd b - snd a) <= K * (fst b - fst a) -> fst a <= x <= fst b ->
  Rabs (chord a b x - snd a) <= K * (x - fst a) /\ Rabs (snd b - chord a b x) <= K * (fst b - x).
Proof.
  intros a b x K H S0 X. unfold chord. set (s := (snd b - snd a) / (fst b - fst a)).
  assert (E : Rabs s <= K).
  { unfold s, Rdiv. rewrite Rabs_mult, (Rabs_right (/ _)) by (apply Rle_ge, Rlt_le, Rinv_0_lt_compat; lra). apply (proj2 (Rle_div_l (Rabs (snd b - snd a)) K (fst b - fst a) ltac:(lra))); lra. }
  assert (E2 : snd b - snd a = s * (fst b - fst a)) by (unfold s; field; lra).
  split.
  - replace (snd a + s * (x - fst a) - snd a) with (s * (x - fst a)) by ring. rewrite Rabs_mult, (Rabs_right (x - fst a)) by lra. apply Rmult_le_compat_r; lra.
  - replace (snd b - (snd a + s * (x - fst a))) with (s * (fst b - x)) by lra. rewrite Rabs_mult, (Rabs_right (fst b - x)) by lra. apply Rmult_le_compat_r; lra.
Qed.
Lemma nodes_lip : forall T K d j i, (forall k, (S k < length T)%nat -> Rabs (snd (nth (S k) T d) - snd (nth k T d)) <= K * (fst (nth (S k) T d) - fst (nth k T d))) ->
  (i <= j)%nat -> (j < length T)%nat -> Rabs (snd (nth j T d) - snd (nth i T d)) <= K * (fst (nth j T d) - fst (nth i T d)).
Proof.
  intros T K d j. induction j as [|j IH]; intros i H Hij Hj.
  - assert (i = 0)%nat by lia. subst. rewrite !Rminus_diag_eq by reflexivity. rewrite Rabs_R0. lra.
  - destruct (Nat.eq_dec i (S j)) as [->|N]; [rewrite !Rminus_diag_eq by reflexivity; rewrite Rabs_R0; lra|].
    specialize (IH i H ltac:(lia) ltac:(lia)). specialize (H j Hj).
    replace (snd (nth (S j) T d) - snd (nth i T d)) with ((snd (nth (S j) T d) - snd (nth j T d)) + (snd (nth j T d) - snd (nth i T d))) by ring.
    eapply Rle_trans; [apply Rabs_triang|]. lra.
Qed.
Lemma interp_lip_core : forall T K d x y u v, asc T -> (2 <= length T)%nat ->
  (forall k, (S k < length T)%nat -> Rabs (snd (nth (S k) T d) - snd (nth k T d)) <= K * (fst (nth (S k) T d) - fst (nth k T d))) ->
  fst (nth 0 T d) <= x -> x <= y -> y <= fst (nth (length T - 1) T d) ->
  interp T x = Some u -> interp T y = Some v -> Rabs (v - u) <= K * (y - x).
Proof.
  intros T K d x y u v A L H X0 XY Y1 Eu Ev.
  destruct (locate T x d A L X0 ltac:(lra)) as (k & Hk & Hx). destruct (locate T y d A L ltac:(lra) Y1) as (m & Hm & Hy).
  rewrite (interp_chord T k x d A Hk Hx) in Eu. rewrite (interp_chord T m y d A Hm Hy) in Ev. injection Eu as <-. injection Ev as <-.
  pose proof (asc_nth T k (S k) d A ltac:(lia) Hk) as Ak. pose proof (asc_nth T m (S m) d A ltac:(lia) Hm) as Am.
  destruct (chord_lip _ _ x K Ak (H k Hk) Hx) as [X1 X2]. destruct (chord_lip _ _ y K Am (H m Hm) Hy) as [Y1' Y2].
  destruct (Nat.lt_trichotomy k m) as [C|[C|C]].
  - pose proof (nodes_lip T K d m (S k) H ltac:(lia) ltac:(lia)) as N.
    replace (chord (nth m T d) (nth (S m) T d) y - chord (nth k T d) (nth (S k) T d) x) with
      ((chord (nth m T d) (nth (S m) T d) y - snd (nth m T d)) + ((snd (nth m T d) - snd (nth (S k) T d)) + (snd (nth (S k) T d) - chord (nth k T d) (nth (S k) T d) x))) by ring.
    eapply Rle_trans; [apply Rabs_triang|]. eapply Rle_trans; [apply Rplus_le_compat_l, Rabs_triang|]. lra.
  - subst m. unfold chord. set (a := nth k T d) in *. set (b := nth (S k) T d) in *.
    replace (snd a + (snd b - snd a) / (fst b - fst a) * (y - fst a) - (snd a + (snd b - snd a) / (fst b - fst a) * (x - fst a))) with ((snd b - snd a) / (fst b - fst a) * (y - x)) by ring.
    rewrite Rabs_mult, (Rabs_right (y - x)) by lra. apply Rmult_le_compat_r; [lra|].
    unfold Rdiv. rewrite Rabs_mult, (Rabs_right (/ _)) by (apply Rle_ge, Rlt_le, Rinv_0_lt_compat; lra). apply (proj2 (Rle_div_l (Rabs (snd b - snd a)) K (fst b - fst a) ltac:(lra))). apply (H k Hk).
  - (* m < k: then x = y at a common entry *)
    assert (fst (nth (S m) T d) <= fst (nth k T d)).
    { destruct (Nat.eq_dec (S m) k) as [->|?]; [lra|]. left. apply asc_nth; auto; lia. }
    assert (x = y) by lra. subst y.
    assert (Q : Some (chord (nth m T d) (nth (S m) T d) x) = Some (chord (nth k T d) (nth (S k) T d) x)) by (rewrite <- (interp_chord T m x d A Hm Hy), <- (interp_chord T k x d A Hk Hx); reflexivity).
    injection Q as Q. rewrite Q, Rminus_diag_eq, Rabs_R0 by reflexivity. lra.
Qed.
(** The value changes no faster than the steepest segment of the table; in particular it is continuous. *)
Theorem C69_table_lipschitz : forall l T K x y u v, proper l -> table_ctor (flat l) = Some T ->
  (forall a b, neighbours l a b -> Rabs (snd b - snd a) <= K * (fst b - fst a)) ->
  interp T x = Some u -> interp T y = Some v -> Rabs (u - v) <= K * Rabs (x - y).
Proof.
  intros l T K x y u v P E N Eu Ev. destruct (stored l T P E) as (A & Q & L). pose (d := (0, 0)).
  assert (Hs : forall k, (S k < length T)%nat -> Rabs (snd (nth (S k) T d) - snd (nth k T d)) <= K * (fst (nth (S k) T d) - fst (nth k T d))).
  { intros k Hk. apply N. assert (I : forall i, (i < length T)%nat -> In (nth i T d) l) by (intros; eapply Permutation_in; [apply Permutation_sym; exact Q|apply nth_In; auto]).
    split; [apply I; lia|]. split; [apply I; lia|]. split; [apply asc_nth; auto; lia|]. intros c Hc. apply (Permutation_in _ Q) in Hc.
    destruct (In_nth T c d Hc) as (i & Hi & Ei). destruct (Nat.le_gt_cases i k) as [G|G].
    - left. rewrite <- Ei. destruct (Nat.eq_dec i k) as [->|?]; [lra|]. left. apply asc_nth; auto; lia.
    - right. rewrite <- Ei. destruct (Nat.eq_dec i (S k)) as [->|?]; [lra|]. left. apply asc_nth; auto; lia. }
  set (lo := fst (nth 0 T d)). set (hi := fst (nth (length T - 1) T d)).
  assert (LH : lo < hi) by (apply asc_nth; auto; lia).
  assert (NE : T <> []) by (intros C; rewrite C in L; cbn in L; lia).
  pose (c := fun x => Rmax lo (Rmin hi x)).
  assert (CL : forall x w, interp T x = Some w -> interp T (c x) = Some w /\ lo <= c x <= hi).
  { intros x0 w H. unfold c, Rmax, Rmin. destruct (Rle_dec hi x0) as [C|C].
    - destruct (Rle_dec lo hi) as [D|D]; [|lra]. split; [|lra]. rewrite (interp_high T x0 d A L C) in H. rewrite (interp_high T hi d A L ltac:(unfold hi; lra)). exact H.
    - destruct (Rle_dec lo x0) as [D|D].
      + split; auto; lra.
      + split; [|lra]. rewrite (interp_low T x0 d NE) in H by (fold lo; lra). rewrite (interp_low T lo d NE) by (fold lo; lra). exact H. }
  assert (CD : forall x y, x <= y -> c x <= c y /\ c y - c x <= y - x).
  { intros a b Hab. unfold c, Rmax, Rmin. repeat destruct (Rle_dec _ _); split; lra. }
  assert (KP : 0 <= K).
  { specialize (Hs 0%nat ltac:(lia)). pose proof (asc_nth T 0 1 d A ltac:(lia) ltac:(lia)) as G. pose proof (Rabs_pos (snd (nth 1 T d) - snd (nth 0 T d))). destruct (Rle_dec 0 K); auto. nra. }
  assert (W : forall x y u v, x <= y -> interp T x = Some u -> interp T y = Some v -> Rabs (v - u) <= K * (y - x)).
  { intros a b ua vb Hab Ha Hb. destruct (CL a ua Ha) as [Ha' Ba]. destruct (CL b vb Hb) as [Hb' Bb]. destruct (CD a b Hab) as [C1 C2].
    eapply Rle_trans; [apply (interp_lip_core T K d (c a) (c b) ua vb A L Hs)|]; auto; try (apply Ba || apply Bb). apply Rmult_le_compat_l; auto. }
  destruct (Rle_dec x y) as [C|C].
  - rewrite Rabs_minus_sym, (Rabs_minus_sym x y), (Rabs_right (y - x)) by lra. apply W; auto.
  - rewrite (Rabs_right (x - y)) by lra. apply W; auto. lra.
Qed.

(** A concrete table meets the hypotheses: three entries, out of order. *)
Example C69_table_example : exists T, table_ctor [2; 5; 0; 1; 1; 3] = Some T /\ interp T (1/2) = Some 2 /\ interp T 9 = Some 5 /\ interp T (-1) = Some 1.
Proof.
  pose (l := [(2, 5); (0, 1); (1, 3)]). assert (P : proper l).
  { split; [|cbn; lia]. cbn. repeat constructor; cbn; intros H; repeat destruct H as [H|H]; try lra; auto. }
  exists (sort l). assert (E : table_ctor (flat l) = Some (sort l)) by (apply ctor_flat; auto). split; [exact E|].
  split; [|split].
  - rewrite (C69_table_piecewise_linear l (sort l) (0, 1) (1, 3) (1/2) P E).
    + f_equal. unfold chord. cbn. field.
    + split; [cbn; auto|]. split; [cbn; auto|]. split; [cbn; lra|]. intros c [<-|[<-|[<-|[]]]]; cbn; lra.
    + cbn. lra.
  - apply (C69_table_clamped l (sort l) (2, 5) 9 P E); [cbn; auto| |cbn; lra]. intros c [<-|[<-|[<-|[]]]]; cbn; lra.
  - apply (proj1 (C69_table_clamped l (sort l) (0, 1) (-1) P E ltac:(cbn; auto))); [|cbn; lra]. intros c [<-|[<-|[<-|[]]]]; cbn; lra.
Qed.
(** Not true of tables with a step (an abscissa listed twice): at the step itself the value may be 0/0. *)
Theorem C69_table_with_step_refuted : exists T, table_ctor [0; 0; 1; -1; 1; 1; 2; 0] = Some T /\ interp T 1 = None.
Proof.
  exists [(0, 0); (1, -1); (1, 1); (2, 0)].
  assert (L : forall a b, a < b -> ltb a b = true) by (intros; apply ltb_true; auto).
  assert (G : forall a b, b <= a -> ltb a b = false) by (intros; apply ltb_false; auto).
  split.
  - assert (P0 : pair_lt (2, 0) (1, 1) = false) by (apply pair_lt_fst_false; cbn; lra).
    assert (P1 : pair_lt (1, 1) (1, -1) = false) by (unfold pair_lt; cbn [fst snd]; rewrite (G 1 1), (G 1 (-1)) by lra; reflexivity).
    assert (P2 : pair_lt (1, -1) (0, 0) = false) by (apply pair_lt_fst_false; cbn; lra).
    unfold table_ctor. cbn [pairs length Nat.ltb Nat.leb]. f_equal. unfold sort. cbn [fold_right insert]. rewrite P0. cbn [insert]. rewrite P1. cbn [insert]. rewrite P2. reflexivity.
  - unfold interp. cbn [fst snd last]. destruct (Rle_dec 1 0); [lra|]. cbv zeta. destruct (Rle_dec 2 1); [lra|].
    cbn [lower_bound].
    rewrite (pair_lt_fst (0, 0) (1, 0)) by (cbn; lra).
    assert (P1 : pair_lt (1, -1) (1, 0) = true) by (unfold pair_lt; cbn [fst snd]; rewrite (G 1 1), (L (-1) 0) by lra; reflexivity).
    assert (P2 : pair_lt (1, 1) (1, 0) = false) by (unfold pair_lt; cbn [fst snd]; rewrite (G 1 1), (G 1 0) by lra; reflexivity).
    rewrite P1, P2. cbn [nth_error Nat.sub fst snd]. unfold divo. destruct (Req_EM_T (1 - 1) 0); [auto|lra].
Qed.

(* ------------------------------------------------------------------ evaluation over points *)
Lemma zero_out_spec : forall fs o m a, zero_out o fs m a = if ((o <=? a) && (a <? o + fs))%nat then 0 else m a.
Proof.
  intros fs o m a. unfold zero_out. induction fs as [|fs IH].
  - cbn [seq fold_left]. destruct (Nat.leb_spec o a), (Nat.ltb_spec a (o + 0)); cbn; auto; lia.
  - rewrite seq_S, fold_left_app. cbn [fold_left]. unfold write at 1. rewrite Nat.add_0_l, IH.
    destruct (Nat.eqb_spec a (o + fs)); subst;
      repeat match goal with |- context [(?x <=? ?y)%nat] => destruct (Nat.leb_spec x y) | |- context [(?x <? ?y)%nat] => destruct (Nat.ltb_spec x y) end; cbn; auto; lia.
Qed.
(** the writes of n points *)
Lemma point_loop_spec : forall n s fs fc g m m', (fc < fs)%nat -> point_loop (seq s n) fs fc g m = Some m' ->
  (forall p, (s <= p < s + n)%nat -> exists v, g p = Some v /\ forall i, (i < fs)%nat -> m' (p * fs + i)%nat = if Nat.eqb i fc then v else 0) /\
  (forall a, (a < s * fs \/ (s + n) * fs <= a)%nat -> m' a = m a).
Proof.
  induction n as [|n IH]; intros s fs fc g m m' Hfc E.
  - cbn in E. injection E as <-. split; [intros; lia|auto].
  - cbn [seq point_loop] in E. destruct (g s) as [v|] eqn:Eg; [|discriminate]. specialize (IH _ _ _ _ _ _ Hfc E). destruct IH as [I1 I2]. split.
    + intros p Hp. destruct (Nat.eq_dec p s) as [->|Np].
      * exists v. split; auto. intros i Hi. rewrite I2 by (left; nia). unfold write. rewrite zero_out_spec.
        destruct (Nat.eqb_spec (s * fs + i) (s * fs + fc)); destruct (Nat.eqb_spec i fc); try lia; auto.
        destruct (Nat.leb_spec (s * fs) (s * fs + i)), (Nat.ltb_spec (s * fs + i) (s * fs + fs)); cbn; auto; lia.
      * apply I1. lia.
    + intros a Ha. rewrite I2 by nia. unfold write. rewrite zero_out_spec.
      destruct (Nat.eqb_spec a (s * fs + fc)); [nia|].
      destruct (Nat.leb_spec (s * fs) a), (Nat.ltb_spec a (s * fs + fs)); cbn; auto; nia.
Qed.
Lemma point_loop_total : forall n s fs fc g m, (forall p, (s <= p < s + n)%nat -> g p <> None) -> exists m', point_loop (seq s n) fs fc g m = Some m'.
Proof.
  induction n as [|n IH]; intros s fs fc g m H; cbn; [eauto|]. destruct (g s) as [v|] eqn:E; [apply IH; intros; apply H; lia|]. exfalso. apply (H s); [lia|auto].
Qed.
(** Every point gets its own interpolated value in the selected component, zero in the others, and nothing
    else is written. *)
Theorem C69_table_evaluate : forall l T fc ic coords t dim n fs m, proper l -> table_ctor (flat l) = Some T -> (fc < fs)%nat ->
  exists m', table_evaluate T fc ic coords t dim n fs m = Some m' /\
    (forall p, (p < n)%nat -> exists v,
       interp T (if (ic <? 3)%nat then coords (p * dim + ic)%nat else t) = Some v /\
       forall i, (i < fs)%nat -> m' (p * fs + i)%nat = if Nat.eqb i fc then v else 0) /\
    (forall a, (n * fs <= a)%nat -> m' a = m a).
Proof.
  intros l T fc ic coords t dim n fs m P E Hfc.
  assert (TOT : forall x, interp T x <> None).
  { intros x. destruct (stored l T P E) as (A & Q & L).
    destruct (Rle_dec x (fst (nth 0 T (0,0)))) as [C|C]; [rewrite (interp_low T x (0,0)); [discriminate| |auto]; intros N; rewrite N in L; cbn in L; lia|].
    destruct (Rle_dec (fst (nth (length T - 1) T (0,0))) x) as [C'|C']; [rewrite (interp_high T x (0,0)); auto; discriminate|].
    destruct (locate T x (0,0) A L ltac:(lra) ltac:(lra)) as (k & Hk & Hx). rewrite (interp_chord T k x (0,0)); auto; discriminate. }
  unfold table_evaluate. destruct (point_loop_total n 0 fs fc (fun p => interp T (if (ic <? 3)%nat then coords (p * dim + ic)%nat else t)) m) as [m' E']; [intros; apply TOT|].
  exists m'. split; [exact E'|]. destruct (point_loop_spec _ _ _ _ _ _ _ Hfc E') as [I1 I2]. split.
  - intros p Hp. apply I1. lia.
  - intros a Ha. apply I2. lia.
Qed.

(* ------------------------------------------------------------------ profiles *)
(** The linear profile takes the two given values at the two given stations. *)
Theorem C69_linear_profile : forall qL qR xL xR, xL <> xR ->
  exists mb, linear_ctor qL qR xL xR = Some mb /\ linear_value mb xL = qL /\ linear_value mb xR = qR /\
    forall x, xL <= x <= xR -> Rmin qL qR <= linear_value mb x <= Rmax qL qR.
Proof.
  intros qL qR xL xR N. unfold linear_ctor. rewrite divo_ok by lra. eexists. split; [reflexivity|]. unfold linear_value. cbn [fst snd].
  split; [field; lra|]. split; [field; lra|]. intros x Hx. set (w := (x - xL) / (xR - xL)).
  assert (W : 0 <= w <= 1) by (unfold w; split; [apply Rle_div_r|apply Rle_div_l]; lra).
  replace ((qR - qL) / (xR - xL) * x + (qL - (qR - qL) / (xR - xL) * xL)) with (qL * (1 - w) + qR * w) by (unfold w; field; lra).
  unfold Rmin, Rmax. destruct (Rle_dec qL qR); nra.
Qed.
Lemma powr_pos : forall b e, 0 < b -> powr b e = Rpower b e.
Proof. intros. unfold powr. destruct (Req_EM_T b 0); [lra|auto]. Qed.
Lemma powr_nonneg : forall b e, 0 <= b -> 0 <= powr b e.
Proof. intros. unfold powr. destruct (Req_EM_T b 0); [lra|]. unfold Rpower. left. apply exp_pos. Qed.
Lemma powr_mono : forall a b e, 0 <= a -> a <= b -> 0 < e -> powr a e <= powr b e.
Proof.
  intros a b e Ha Hab He. destruct (Req_dec a 0) as [->|N].
  - replace (powr 0 e) with 0; [apply powr_nonneg; lra|]. unfold powr. destruct (Req_EM_T 0 0); [auto|lra].
  - rewrite !powr_pos by lra. apply Rle_Rpower_l; lra.
Qed.
(** The power-law inflow takes the known speed at the known height, grows with height and is positive. *)
Theorem C69_powerlaw_profile : forall u yk al, 0 < u -> / 10 ^ 16 <= yk -> 0 < al ->
  powerlaw u yk al yk = u /\ (forall y, 0 < powerlaw u yk al y) /\ (forall y y', y <= y' -> powerlaw u yk al y <= powerlaw u yk al y').
Proof.
  intros u yk al Hu Hy Ha. assert (Pt : 0 < / 10 ^ 16) by (apply Rinv_0_lt_compat, pow_lt; lra). assert (0 < yk) by lra. unfold powerlaw. split; [|split].
  - cbv zeta. rewrite Rmax_right by lra. replace (yk / yk) with 1 by (field; lra). rewrite powr_pos by lra. unfold Rpower. rewrite ln_1, Rmult_0_r, exp_0. ring.
  - intros y. cbv zeta. assert (0 < Rmax (/ 10 ^ 16) y) by (eapply Rlt_le_trans; [exact Pt|apply Rmax_l]).
    rewrite powr_pos by (apply Rdiv_lt_0_compat; lra). apply Rmult_lt_0_compat; auto. apply exp_pos.
  - intros y y' Hyy. cbv zeta. apply Rmult_le_compat_l; [lra|].
    assert (0 < Rmax (/ 10 ^ 16) y) by (eapply Rlt_le_trans; [exact Pt|apply Rmax_l]).
    apply powr_mono; auto; [left; apply Rdiv_lt_0_compat; lra|]. apply Rmult_le_compat_r; [left; apply Rinv_0_lt_compat; lra|].
    apply Rmax_lub; [apply Rmax_l|]. eapply Rle_trans; [exact Hyy|apply Rmax_r].
Qed.
(** The pipe profile is axisymmetric, has its largest value at the centre line, falls with the distance from it
    and is zero at and outside the wall. *)
Theorem C69_powerlaw_pipe_profile : forall uc xc yc Rr e, 0 <= uc -> 0 < Rr -> 0 < e ->
  powerlaw_pipe uc xc yc Rr e xc yc = uc /\
  (forall x y x' y', (x - xc) * (x - xc) + (y - yc) * (y - yc) <= (x' - xc) * (x' - xc) + (y' - yc) * (y' - yc) ->
     powerlaw_pipe uc xc yc Rr e x' y' <= powerlaw_pipe uc xc yc Rr e x y) /\
  (forall x y, Rr * Rr <= (x - xc) * (x - xc) + (y - yc) * (y - yc) -> powerlaw_pipe uc xc yc Rr e x y = 0).
Proof.
  intros uc xc yc Rr e Hu HR He. unfold powerlaw_pipe. cbv zeta. split; [|split].
  - replace ((xc - xc) * (xc - xc) + (yc - yc) * (yc - yc)) with 0 by ring. rewrite sqrt_0. unfold Rdiv. rewrite Rmult_0_l, Rminus_0_r, Rmax_right by lra.
    rewrite powr_pos by lra. unfold Rpower. rewrite ln_1, Rmult_0_r, exp_0. ring.
  - intros x y x' y' H. apply Rmult_le_compat_l; auto. apply powr_mono; auto; [apply Rmax_l|].
    apply sqrt_le_1_alt in H. apply Rmax_lub; [apply Rmax_l|]. eapply Rle_trans; [|apply Rmax_r].
    apply Rplus_le_compat_l, Ropp_le_contravar, Rmult_le_compat_r; [left; apply Rinv_0_lt_compat; lra|exact H].
  - intros x y H. apply sqrt_le_1_alt in H. rewrite sqrt_square in H by lra. set (r := sqrt _) in *.
    assert (1 <= r / Rr) by (apply Rle_div_r; lra). rewrite Rmax_left by lra. unfold powr. destruct (Req_EM_T 0 0); [ring|lra].
Qed.
