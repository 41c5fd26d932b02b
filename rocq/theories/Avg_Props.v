(** Property theorems for the averaging post-processors (C21, C22, C23, C37). *)
Require Import Reals List Lra Lia Bool Psatz.
From Verif Require Import RUtil Avg_Model Avg_Spec Avg_Proofs.
Import ListNotations.
Open Scope R_scope.

(** C21. In the default mode the stored averages are, after every history of steps and restarts of
    a simulation, the step-size weighted (density and step-size weighted for Favre) means over the
    current averaging window, and the filter length is the length of that window. *)
Theorem C21_classic_averages_are_window_means :
  forall c forced0 h, cfg_type c = NALU_CLASSIC -> physical h ->
  let w := window (cfg_interval c) (cfg_start c) forced0 h in
  let st := avg_run c (fresh c forced0) h in
  w <> nil ->
  av_cur st = total_dt w /\
  av_rhoRA st = wmean (by_dt w) smp_rho /\
  (forall k, av_RA st k = wmean (by_dt w) (fun s => smp_q s k)) /\
  (forall k, av_FA st k = wmean (favre (by_dt w)) (fun s => smp_q s k)) /\
  (forall k, av_res st k = wmean (by_dt w) (fun s => smp_rho s * smp_q s k)).
Proof.
  intros c f0 h Hty Hp w st Hw.
  destruct (classic_rep c f0 h Hty Hp) as [[r1 r2 r3 r4 r5 _ _] _].
  fold st in r1, r2, r3, r4, r5. change (snd (wfold _ _ f0 h)) with w in *.
  assert (Hin : forall s, In s w -> 0 < smp_dt s /\ 0 < smp_rho s).
  { intros s Hs. apply Hp. eapply (window_in _ _ f0 h); exact Hs. }
  assert (P1 : 0 < wsum (by_dt w) (fun _ => 1)).
  { rewrite total_wsum. apply total_dt_pos; auto. intros s Hs; now apply Hin. }
  assert (P2 : 0 < wsum (by_dt w) smp_rho) by (apply wsum_pos_bydt; auto).
  rewrite r1 in r2, r3, r5.
  split; [now rewrite r1, total_wsum|]. unfold wmean. rewrite favre_one.
  repeat split; intros; rewrite ?wsum_favre.
  - rewrite <- r2. field. lra.
  - rewrite <- r3. field. lra.
  - rewrite <- r4. field. lra.
  - rewrite <- r5. field. lra.
Qed.

(** C21. Every average stays within the range of the samples of its window. *)
Theorem C21_averages_in_sample_range :
  forall c forced0 h k lo hi, cfg_type c = NALU_CLASSIC -> physical h ->
  let w := window (cfg_interval c) (cfg_start c) forced0 h in
  let st := avg_run c (fresh c forced0) h in
  w <> nil ->
  (forall s, In s w -> lo <= smp_q s k <= hi) ->
  lo <= av_RA st k <= hi /\ lo <= av_FA st k <= hi.
Proof.
  intros c f0 h k lo hi Hty Hp w st Hw Hr.
  destruct (C21_classic_averages_are_window_means c f0 h Hty Hp Hw) as [_ [_ [H1 [H2 _]]]].
  fold w st in H1, H2.
  assert (Hin : forall s, In s w -> 0 < smp_dt s /\ 0 < smp_rho s).
  { intros s Hs. apply Hp. eapply (window_in _ _ f0 h); exact Hs. }
  assert (Hsnd : map snd (by_dt w) = w). { unfold by_dt. rewrite map_map. simpl. apply map_id. }
  assert (N : nonneg (by_dt w)) by (apply by_dt_nonneg; intros s Hs; now apply Hin).
  rewrite H1, H2. split; apply wmean_range; auto.
  - rewrite total_wsum. apply total_dt_pos; auto. intros s Hs; now apply Hin.
  - rewrite Hsnd. auto.
  - apply favre_nonneg; auto. rewrite Hsnd. intros s Hs; now apply Hin.
  - rewrite favre_one. apply wsum_pos_bydt; auto.
  - unfold favre. rewrite map_map. simpl. intros s Hs. apply Hr. rewrite <- Hsnd. exact Hs.
Qed.

(** C21. The window never exceeds the interval unless it holds a single sample, and it always ends
    with the latest sample taken at or after the start time. *)
Theorem C21_window_length_bounded :
  forall c forced0 h, cfg_type c = NALU_CLASSIC -> physical h -> 0 <= cfg_interval c ->
  av_cur (avg_run c (fresh c forced0) h) <= cfg_interval c \/
  exists s, In (Step s) h /\ av_cur (avg_run c (fresh c forced0) h) = smp_dt s.
Proof.
  intros c f0 h Hty Hp HT.
  destruct (classic_rep c f0 h Hty Hp) as [[r1 _ _ _ _ _ _] _]. rewrite r1, total_wsum. clear r1.
  induction h as [|e h IH] using rev_ind; [left; simpl; lra|].
  specialize (IH (physical_snoc _ _ Hp)). rewrite wfold_snoc.
  assert (IH' : total_dt (snd (wfold (cfg_interval c) (cfg_start c) f0 h)) <= cfg_interval c \/
     (exists s : sample, In (Step s) (h++[e]) /\ total_dt (snd (wfold (cfg_interval c) (cfg_start c) f0 h)) = smp_dt s)).
  { destruct IH as [IH|[s [Hi IH]]]; [left; auto|right; exists s; split; auto; apply in_or_app; auto]. }
  clear IH. destruct e as [s|f]; simpl window_step; [|exact IH'].
  assert (NEW : total_dt [s] <= cfg_interval c \/ exists s0, In (Step s0) (h ++ [Step s]) /\ total_dt [s] = smp_dt s0).
  { right. exists s. split; [apply in_or_app; right; simpl; auto|simpl; lra]. }
  destruct (Rlt_dec (smp_time s) (cfg_start c)); [exact IH'|].
  destruct (fst _); [exact NEW|].
  destruct (Rlt_dec _ _) as [Hl|Hl]; [exact NEW|]. left. cbn [snd]. rewrite total_dt_snoc. lra.
Qed.

(** C21. Moving-exponential mode: with every step shorter than the interval, the averages are the
    weighted means with the exponential-window weights; those weights are non-negative and sum to
    one. *)
Theorem C21_exponential_averages :
  forall c l, cfg_type c = MOVING_EXPONENTIAL -> 0 < cfg_interval c -> l <> nil ->
  (forall s, In s l -> cfg_start c <= smp_time s /\ 0 < smp_dt s < cfg_interval c /\ 0 < smp_rho s) ->
  let W := exp_weights (cfg_interval c) 0 l in
  let st := avg_run c (fresh c false) (map Step l) in
  nonneg W /\ wsum W (fun _ => 1) = 1 /\ map snd W = l /\
  av_cur st = Rmin (cfg_interval c) (total_dt l) /\
  av_rhoRA st = wsum W smp_rho /\
  (forall k, av_RA st k = wsum W (fun s => smp_q s k)) /\
  (forall k, av_FA st k = wmean (favre W) (fun s => smp_q s k)).
Proof.
  intros c l Hty HT Hne Hl W st.
  assert (Hs : forall s, In s l -> cfg_start c <= smp_time s) by (intros; now apply Hl).
  assert (Ho : exp_ok (cfg_interval c) l) by (intros s Hi; apply Hl in Hi; tauto).
  destruct (exp_weights_pos _ l HT Ho) as [P1 P2]. destruct (P2 Hne) as [Q1 Q2]. fold W in P1, Q1, Q2.
  destruct (expo_rep c l Hty HT Hs Ho) as [[r1 r2 r3 r4 _ _ _] _]. fold st W in r1, r2, r3, r4.
  rewrite wsum_scaleW, Q1 in r1.
  assert (Cp : 0 < Rmin (cfg_interval c) (total_dt l)).
  { apply Rmin_glb_lt; auto. apply total_dt_pos; auto. intros x Hx. now apply Ho. }
  rewrite Rmult_1_r in r1. rewrite r1, wsum_scaleW in r2.
  split; [exact P1|]. split; [exact Q1|]. split; [apply exp_weights_snd|]. split; [exact r1|].
  split; [|split]; intros.
  - apply Rmult_eq_reg_l with (Rmin (cfg_interval c) (total_dt l)); lra.
  - specialize (r3 k). rewrite r1, wsum_scaleW in r3. apply Rmult_eq_reg_l with (Rmin (cfg_interval c) (total_dt l)); lra.
  - specialize (r4 k). rewrite !wsum_scaleW in r4. unfold wmean. rewrite favre_one, wsum_favre.
    assert (av_FA st k * wsum W smp_rho = wsum W (fun s => smp_rho s * smp_q s k)).
    { apply Rmult_eq_reg_l with (Rmin (cfg_interval c) (total_dt l)); [|lra]. rewrite <- r4. ring. }
    rewrite <- H. field. lra.
Qed.

(** C21 refuted: a forced reset in moving-exponential mode does not start a new window with the
    current sample: the history is dropped but the old filter length is kept, so the average of a
    constant field becomes wrong. *)
Theorem C21_exponential_forced_reset_refuted :
  exists c h s, cfg_type c = MOVING_EXPONENTIAL /\
    (forall x, In (Step x) (h ++ [Restart true; Step s]) -> 0 < smp_dt x < cfg_interval c /\ 0 < smp_rho x /\ smp_q x 0%nat = 1) /\
    av_RA (avg_run c (fresh c false) (h ++ [Restart true; Step s])) 0%nat <> 1 /\
    av_RA (avg_run c (fresh c false) h) 0%nat = 1.
Proof.
  pose (s := mkSample 0 1 1 (fun _ => 1)).
  exists (mkCfg MOVING_EXPONENTIAL 10 0 3), [Step s], s.
  split; [reflexivity|]. split; [|].
  - intros x Hx. simpl in Hx. destruct Hx as [Hx|[Hx|[Hx|[]]]]; inversion Hx; subst; simpl; lra.
  - unfold avg_run, event_step, execute, filter_update, s, fresh; simpl.
    repeat (match goal with |- context [Rle_dec ?a ?b] => destruct (Rle_dec a b); try lra
                 | |- context [Rlt_dec ?a ?b] => destruct (Rlt_dec a b); try lra end; simpl);
    unfold reynolds_upd; split; try lra.
Qed.

(** C21 refuted: in moving-exponential mode a step longer than the interval gives the old average a
    negative weight, so the average leaves the range of the samples. *)
Theorem C21_exponential_long_step_refuted :
  exists c l, cfg_type c = MOVING_EXPONENTIAL /\ 0 < cfg_interval c /\
    (forall s, In s l -> 0 < smp_dt s /\ 0 < smp_rho s /\ 0 <= smp_q s 0%nat <= 1) /\
    av_RA (avg_run c (fresh c false) (map Step l)) 0%nat < 0.
Proof.
  exists (mkCfg MOVING_EXPONENTIAL 2 0 3), [mkSample 0 1 1 (fun _ => 1); mkSample 0 3 1 (fun _ => 0)].
  split; [reflexivity|]. split; [simpl; lra|]. split.
  - intros x Hx. simpl in Hx. destruct Hx as [<-|[<-|[]]]; simpl; lra.
  - unfold avg_run, event_step, execute, filter_update, fresh; simpl.
    repeat (match goal with |- context [Rle_dec ?a ?b] => destruct (Rle_dec a b); try lra
                 | |- context [Rlt_dec ?a ?b] => destruct (Rlt_dec a b); try lra end; simpl);
    unfold reynolds_upd; simpl in *; lra.
Qed.

(** C22. The stored components are, in the order xx,xy,(xz),yy,(yz),(zz), the covariances of the
    velocity samples of the window. *)
Theorem C22_stresses_are_window_covariances :
  forall c forced0 h, cfg_type c = NALU_CLASSIC -> physical h ->
  let w := window (cfg_interval c) (cfg_start c) forced0 h in
  let st := avg_run c (fresh c forced0) h in
  av_rstress st = map (fun ij => wcov (by_dt w) (fun s => smp_q s (fst ij)) (fun s => smp_q s (snd ij)))
                      (upper_pairs (cfg_ndim c)) /\
  av_fstress st = map (fun ij => wcov (favre (by_dt w)) (fun s => smp_q s (fst ij)) (fun s => smp_q s (snd ij)))
                      (upper_pairs (cfg_ndim c)).
Proof.
  intros c f0 h Hty Hp w st.
  destruct (classic_rep c f0 h Hty Hp) as [[_ _ _ _ _ r6 r7] _]. split; [exact r6|exact r7].
Qed.

Example upper_pairs_order :
  upper_pairs 3 = [(0,0);(0,1);(0,2);(1,1);(1,2);(2,2)]%nat /\ upper_pairs 2 = [(0,0);(0,1);(1,1)]%nat.
Proof. split; reflexivity. Qed.

(** C22. The same in moving-exponential mode with the exponential weights. *)
Theorem C22_stresses_are_exponential_covariances :
  forall c l, cfg_type c = MOVING_EXPONENTIAL -> 0 < cfg_interval c -> l <> nil ->
  (forall s, In s l -> cfg_start c <= smp_time s /\ 0 < smp_dt s < cfg_interval c /\ 0 < smp_rho s) ->
  let W := exp_weights (cfg_interval c) 0 l in
  let st := avg_run c (fresh c false) (map Step l) in
  av_rstress st = map (fun ij => wcov W (fun s => smp_q s (fst ij)) (fun s => smp_q s (snd ij)))
                      (upper_pairs (cfg_ndim c)) /\
  av_fstress st = map (fun ij => wcov (favre W) (fun s => smp_q s (fst ij)) (fun s => smp_q s (snd ij)))
                      (upper_pairs (cfg_ndim c)).
Proof.
  intros c l Hty HT Hne Hl W st.
  assert (Hs : forall s, In s l -> cfg_start c <= smp_time s) by (intros; now apply Hl).
  assert (Ho : exp_ok (cfg_interval c) l) by (intros s Hi; apply Hl in Hi; tauto).
  destruct (exp_weights_pos _ l HT Ho) as [P1 P2]. destruct (P2 Hne) as [Q1 Q2]. fold W in P1, Q1, Q2.
  destruct (expo_rep c l Hty HT Hs Ho) as [[_ _ _ _ _ r6 r7] _]. fold st W in r6, r7.
  assert (Cp : 0 < Rmin (cfg_interval c) (total_dt l)).
  { apply Rmin_glb_lt; auto. apply total_dt_pos; auto. intros x Hx. now apply Ho. }
  assert (SC : forall a V f, a <> 0 -> wsum V (fun _ => 1) <> 0 -> wmean (scaleW a V) f = wmean V f).
  { intros a V f Ha Hv. unfold wmean. rewrite !wsum_scaleW. field. auto. }
  assert (FS : forall a V, favre (scaleW a V) = scaleW a (favre V)).
  { intros a V. unfold favre, scaleW. rewrite !map_map. apply map_ext. intros [? ?]; simpl. f_equal. ring. }
  rewrite r6, r7. unfold cov_list, wcov. split; apply map_ext; intros [i j]; simpl.
  - rewrite !SC by lra. reflexivity.
  - rewrite !FS. rewrite !SC by (rewrite ?favre_one; lra). reflexivity.
Qed.

(** C22. Consequences for any history: the stress matrix has a non-negative diagonal and satisfies
    the Cauchy-Schwarz bound (so its 2x2 minors are non-negative), and vanishes for a steady flow. *)
Definition stress_entry (n : nat) (l : list R) (i j : nat) (x : R) : Prop :=
  In ((i,j), x) (combine (upper_pairs n) l).

Lemma stress_entry_map n f i j x : stress_entry n (map f (upper_pairs n)) i j x -> x = f (i,j).
Proof.
  unfold stress_entry. induction (upper_pairs n) as [|p l IH]; simpl; [tauto|].
  intros [H|H]; [congruence|auto].
Qed.

Theorem C22_stress_realizable :
  forall c forced0 h i j xi xj xij, cfg_type c = NALU_CLASSIC -> physical h ->
  window (cfg_interval c) (cfg_start c) forced0 h <> nil ->
  let st := avg_run c (fresh c forced0) h in
  forall l, l = av_rstress st \/ l = av_fstress st ->
  stress_entry (cfg_ndim c) l i i xi -> stress_entry (cfg_ndim c) l j j xj ->
  stress_entry (cfg_ndim c) l i j xij ->
  0 <= xi /\ xij * xij <= xi * xj.
Proof.
  intros c f0 h i j xi xj xij Hty Hp Hw st l Hl Hi Hj Hij.
  destruct (C22_stresses_are_window_covariances c f0 h Hty Hp) as [R1 R2].
  set (w := window (cfg_interval c) (cfg_start c) f0 h) in *.
  assert (Hin : forall s, In s w -> 0 < smp_dt s /\ 0 < smp_rho s).
  { intros s Hs. apply Hp. eapply (window_in _ _ f0 h); exact Hs. }
  assert (Hsnd : map snd (by_dt w) = w). { unfold by_dt. rewrite map_map. simpl. apply map_id. }
  assert (N : nonneg (by_dt w)) by (apply by_dt_nonneg; intros s Hs; now apply Hin).
  assert (N2 : nonneg (favre (by_dt w))). { apply favre_nonneg; auto. rewrite Hsnd. intros s Hs; now apply Hin. }
  assert (P1 : 0 < wsum (by_dt w) (fun _ => 1)).
  { rewrite total_wsum. apply total_dt_pos; auto. intros s Hs; now apply Hin. }
  assert (P2 : 0 < wsum (favre (by_dt w)) (fun _ => 1)). { rewrite favre_one. apply wsum_pos_bydt; auto. }
  fold st in R1, R2.
  destruct Hl as [-> | ->]; rewrite ?R1, ?R2 in *;
  apply stress_entry_map in Hi; apply stress_entry_map in Hj; apply stress_entry_map in Hij;
  simpl in *; subst; split; auto using wcov_diag_nonneg, wcov_cauchy.
Qed.

Theorem C22_steady_flow_has_no_stress :
  forall c forced0 h u, cfg_type c = NALU_CLASSIC -> physical h ->
  (forall s, In (Step s) h -> forall k, smp_q s k = u k) ->
  let st := avg_run c (fresh c forced0) h in
  (forall x, In x (av_rstress st) -> x = 0) /\ (forall x, In x (av_fstress st) -> x = 0).
Proof.
  intros c f0 h u Hty Hp Hu st.
  destruct (C22_stresses_are_window_covariances c f0 h Hty Hp) as [R1 R2]. fold st in R1, R2.
  set (w := window (cfg_interval c) (cfg_start c) f0 h) in *.
  assert (Z : forall W i j, (forall s, In s (map snd W) -> forall k, smp_q s k = u k) ->
     (W = nil \/ wsum W (fun _ => 1) <> 0) -> wcov W (fun s => smp_q s i) (fun s => smp_q s j) = 0).
  { intros W i j HW HN.
    destruct HN as [->|HN]; [apply wcov_nil|].
    assert (EX : forall f g, (forall s, In s (map snd W) -> f s = g s) -> wsum W f = wsum W g).
    { clear -W. induction W as [|[v s] W IH]; intros f g H; simpl; [reflexivity|].
      rewrite (H s) by (simpl; auto). rewrite (IH f g); auto. intros x Hx. apply H. simpl; auto. }
    unfold wcov, wmean.
    rewrite (EX (fun s => smp_q s i * smp_q s j) (fun _ => u i * u j)) by (intros s Hs; now rewrite !HW).
    rewrite (EX (fun s => smp_q s i) (fun _ => u i)) by (intros s Hs; now rewrite !HW).
    rewrite (EX (fun s => smp_q s j) (fun _ => u j)) by (intros s Hs; now rewrite !HW).
    rewrite !(wsum_const W (_ * _)), (wsum_const W (u i)), (wsum_const W (u j)). field. auto. }
  assert (Hin : forall s, In s w -> In (Step s) h) by (intros s Hs; eapply (window_in _ _ f0 h); exact Hs).
  assert (Hsnd : map snd (by_dt w) = w). { unfold by_dt. rewrite map_map. simpl. apply map_id. }
  assert (C1 : by_dt w = nil \/ wsum (by_dt w) (fun _ => 1) <> 0).
  { destruct w as [|s0 w0] eqn:E; [left; reflexivity|right]. apply Rgt_not_eq. apply wsum_pos_bydt; [congruence|].
    intros s Hs. split; [|lra]. now apply Hp, Hin. }
  assert (C2 : favre (by_dt w) = nil \/ wsum (favre (by_dt w)) (fun _ => 1) <> 0).
  { destruct w as [|s0 w0] eqn:E; [left; reflexivity|right]. apply Rgt_not_eq. rewrite favre_one. apply wsum_pos_bydt; [congruence|].
    intros s Hs. now apply Hp, Hin. }
  split; intros x Hx; [rewrite R1 in Hx|rewrite R2 in Hx]; apply in_map_iff in Hx; destruct Hx as [[i j] [<- _]]; simpl;
    apply Z; auto.
  - rewrite Hsnd. auto.
  - unfold favre. rewrite map_map. simpl. intros s Hs. apply Hu, Hin. rewrite <- Hsnd. exact Hs.
Qed.

(** C22. The resolved turbulent kinetic energy is half the squared fluctuation, hence non-negative. *)
Theorem C22_tke_nonneg : forall c st s, cfg_start c <= smp_time s -> 0 <= av_tke (execute c st s).
Proof.
  intros c st s H. unfold execute. destruct (Rle_dec _ _); [|lra].
  destruct (filter_update _ _ _ _) as [[old cur] z]. cbv zeta.
  assert (T : forall n u uA, 0 <= tke_of n u uA).
  { intros n u uA. unfold tke_of. assert (G : forall l a, 0 <= a -> 0 <= fold_left (fun sum j => sum + (1/2)*(u j - uA j)*(u j - uA j)) l a).
    { induction l as [|j l IH]; intros a Ha; simpl; [auto|]. apply IH.
      assert (0 <= (u j - uA j) * (u j - uA j)) by apply Rle_0_sqr. lra. }
    apply G. lra. }
  destruct (Rlt_dec 0 old); apply T.
Qed.

(** projections of one executed step *)
Lemma exec_facts c st s old cur z : cfg_start c <= smp_time s ->
  filter_update c (av_cur st) (av_forced st) (smp_dt s) = (old, cur, z) ->
  let st' := execute c st s in
  av_cur st' = cur /\ av_forced st' = false /\
  (0 < old -> av_tvar st' = snd (tflux_loop (seq 0 (cfg_ndim c)) old cur z (smp_dt s) (smp_rho s) (smp_q s (cfg_ndim c)) (smp_q s) (av_tflux st) (av_tvar st))
     /\ av_resstress st' = stress_loop (cfg_ndim c) (fun i j => resstress_upd old cur z (smp_dt s) (smp_rho s) (smp_q s i) (smp_q s j)) (av_resstress st)) /\
  (old <= 0 -> av_tvar st' = av_tvar st /\ av_resstress st' = av_resstress st).
Proof.
  intros Ht Hf st'. unfold st', execute. destruct (Rle_dec (cfg_start c) (smp_time s)); [|contradiction].
  rewrite Hf. destruct (Rlt_dec 0 old); cbn [av_cur av_forced av_tvar av_resstress];
  (split; [reflexivity|]; split; [reflexivity|]; split; intros; [|]; try lra; split; reflexivity).
Qed.
Lemma filter_append c cur dt : cfg_type c = NALU_CLASSIC -> cur + dt <= cfg_interval c ->
  filter_update c cur false dt = (cur, cur + dt, 1).
Proof.
  intros Hc H. unfold filter_update. rewrite Hc. destruct (Rlt_dec (cfg_interval c) (cur + dt)); [lra|]. reflexivity.
Qed.

(** C22 refuted: the resolved stress of a new simulation omits the first sample (the first step is
    skipped because the old filter is zero, but its duration is still counted). *)
Theorem C22_resolved_stress_refuted :
  exists c h, cfg_type c = NALU_CLASSIC /\ physical h /\
  let w := window (cfg_interval c) (cfg_start c) false h in
  av_resstress (avg_run c (fresh c false) h) <>
    map (fun ij => wmean (by_dt w) (fun s => smp_rho s * smp_q s (fst ij) * smp_q s (snd ij))) (upper_pairs (cfg_ndim c)).
Proof.
  pose (s := mkSample 0 1 1 (fun _ => 1)).
  exists (mkCfg NALU_CLASSIC 10 0 2), [Step s; Step s].
  split; [reflexivity|]. split.
  - intros x Hx. simpl in Hx. destruct Hx as [Hx|[Hx|[]]]; inversion Hx; subst; simpl; lra.
  - set (c := mkCfg NALU_CLASSIC 10 0 2). intros w.
    change (avg_run c (fresh c false) [Step s; Step s]) with (execute c (execute c (fresh c false) s) s).
    destruct (exec_facts c (fresh c false) s 0 1 1) as (C1 & F1 & _ & Z1);
      [simpl; lra|cbn [fresh av_cur av_forced]; rewrite filter_append; [f_equal; f_equal; simpl; ring|reflexivity|simpl; lra]|].
    destruct (Z1 ltac:(lra)) as [_ R1].
    destruct (exec_facts c (execute c (fresh c false) s) s 1 2 1) as (C2 & F2 & Z2 & _);
      [simpl; lra|rewrite C1, F1, filter_append; [f_equal; f_equal; simpl; ring|reflexivity|simpl; lra]|].
    destruct (Z2 ltac:(lra)) as [_ R2]. rewrite R2, R1.
    assert (W : w = [s; s]).
    { unfold w, window, window_step, s; simpl.
      repeat (match goal with |- context [Rle_dec ?a ?b] => destruct (Rle_dec a b); try lra
                 | |- context [Rlt_dec ?a ?b] => destruct (Rlt_dec a b); simpl in *; try lra end; simpl in *); reflexivity. }
    rewrite W. unfold resstress_upd, stress_loop, wmean, s; simpl. intros E. injection E. intros. lra.
Qed.

(** C22 refuted: the temperature variance is updated nDim times per step, so it is not the mean of
    rho T^2 over the window: here in 2-D, window of the last step only being new. *)
Theorem C22_temperature_variance_refuted :
  exists c h s, cfg_type c = NALU_CLASSIC /\ physical (h ++ [Step s]) /\
  (forall x, In (Step x) (h ++ [Step s]) -> smp_time x >= cfg_start c) /\
  let st := avg_run c (fresh c false) h in
  let st' := execute c st s in
  (* the step appends to the window ... *)
  av_cur st' = av_cur st + smp_dt s /\
  (* ... but the result is not the time-weighted mean of the old value and the new sample *)
  av_tvar st' * av_cur st' <> av_tvar st * av_cur st + smp_rho s * smp_q s (cfg_ndim c) * smp_q s (cfg_ndim c) * smp_dt s.
Proof.
  pose (s := mkSample 0 1 1 (fun _ => 1)).
  exists (mkCfg NALU_CLASSIC 10 0 2), [Step s], s.
  split; [reflexivity|]. split; [|split].
  - intros x Hx. simpl in Hx. destruct Hx as [Hx|[Hx|[]]]; inversion Hx; subst; simpl; lra.
  - intros x Hx. simpl in Hx. destruct Hx as [Hx|[Hx|[]]]; inversion Hx; subst; simpl; lra.
  - set (c := mkCfg NALU_CLASSIC 10 0 2). intros st st'.
    assert (E0 : st = execute c (fresh c false) s) by reflexivity.
    destruct (exec_facts c (fresh c false) s 0 1 1) as (C1 & F1 & _ & Z1);
      [simpl; lra|cbn [fresh av_cur av_forced]; rewrite filter_append; [f_equal; f_equal; simpl; ring|reflexivity|simpl; lra]|].
    destruct (Z1 ltac:(lra)) as [R1 _]. rewrite <- E0 in C1, F1, R1.
    destruct (exec_facts c st s 1 2 1) as (C2 & F2 & Z2 & _);
      [simpl; lra|rewrite C1, F1, filter_append; [f_equal; f_equal; simpl; ring|reflexivity|simpl; lra]|].
    destruct (Z2 ltac:(lra)) as [R2 _]. fold st' in C2, R2. rewrite R2, C2, C1, R1.
    unfold s, c, fresh. simpl. split; lra.
Qed.

(** C23 *)
Lemma ema_first scale avg0 dt v : ema_run (mkEma scale true) avg0 [(dt, v)] = v.
Proof. unfold ema_run, ema_execute, ema_alpha; simpl. ring. Qed.

Lemma ema_state l e a : exists b, fst (fold_left ema_execute l (e, a)) = mkEma (ema_scale e) b /\ (ema_init e = false -> b = false) /\ (l <> nil -> b = false).
Proof.
  revert e a. induction l as [|[dt v] l IH]; intros e a; simpl.
  - exists (ema_init e). destruct e; simpl. split; [reflexivity|split; [auto|congruence]].
  - destruct (IH (mkEma (ema_scale e) false) (ema_alpha e dt * v + (1 - ema_alpha e dt)*a)) as [b [H1 [H2 H3]]].
    simpl in *. exists b. rewrite H1. auto.
Qed.

Lemma ema_range_aux scale l : 0 < scale -> forall e a lo hi, ema_scale e = scale ->
  (forall p, In p l -> 0 < fst p /\ lo <= snd p <= hi) ->
  (ema_init e = false \/ l = nil -> lo <= a <= hi) ->
  lo <= ema_run e a l <= hi.
Proof.
  intros Hs. induction l as [|[dt v] l IH]; intros e a lo hi He Hp Ha; unfold ema_run in *; simpl.
  - apply Ha. auto.
  - apply IH; [exact He| intros p Hi; apply Hp; simpl; auto|]. intros _.
    destruct (Hp (dt,v)) as [Hd Hv]; [simpl; auto|]. simpl in Hd, Hv.
    unfold ema_alpha. destruct (ema_init e) eqn:Ei; [lra|].
    specialize (Ha (or_introl eq_refl)). rewrite He.
    assert (0 < dt/scale) by (apply Rdiv_lt_0_compat; auto).
    assert (0 <= Rmin 1 (dt/scale) <= 1). { unfold Rmin. destruct (Rle_dec _ _); lra. }
    set (al := Rmin 1 (dt/scale)) in *. split; nra.
Qed.

(** C23. A new (non restarted) averager: whatever the initial contents of the average field, after
    at least one step with positive dt the average is within the range of the samples. *)
Theorem C23_moving_average_in_range :
  forall scale avg0 l lo hi, 0 < scale -> l <> nil ->
  (forall dt v, In (dt, v) l -> 0 < dt /\ lo <= v <= hi) ->
  lo <= ema_run (mkEma scale true) avg0 l <= hi.
Proof.
  intros scale a l lo hi Hs Hn Hp. apply (ema_range_aux scale); auto.
  - intros [dt v] Hi. now apply Hp.
  - simpl. intros [H|H]; congruence.
Qed.

Theorem C23_first_sample_exact :
  forall scale avg0 dt v, ema_run (mkEma scale true) avg0 [(dt, v)] = v.
Proof. intros. apply ema_first. Qed.

(** C23. Under a constant signal v the error |avg - v| of a restarted averager is multiplied by
    (1 - min(1, dt/scale)) at each step; it never grows and is zero as soon as dt >= scale. *)
Theorem C23_contracts_to_constant_signal :
  forall scale avg0 v dts, 0 < scale -> (forall dt, In dt dts -> 0 < dt) ->
  Rabs (ema_run (mkEma scale false) avg0 (map (fun dt => (dt, v)) dts) - v)
  = fold_right (fun dt a => (1 - Rmin 1 (dt / scale)) * a) (Rabs (avg0 - v)) dts.
Proof.
  intros scale avg0 v dts Hs. revert avg0.
  induction dts as [|dt l IH] using rev_ind; intros avg0 Hd; [reflexivity|].
  rewrite map_app, fold_right_app. unfold ema_run in *. rewrite fold_left_app. simpl.
  assert (Hd' : forall d, In d l -> 0 < d) by (intros; apply Hd, in_or_app; auto).
  specialize (IH avg0 Hd').
  destruct (ema_state (map (fun dt => (dt,v)) l) (mkEma scale false) avg0) as [b [E1 [E2 _]]].
  destruct (fold_left ema_execute (map (fun dt0 : R => (dt0, v)) l) (mkEma scale false, avg0)) as [e a] eqn:E.
  simpl in *. rewrite E1. specialize (E2 eq_refl). subst b. unfold ema_alpha; simpl.
  assert (Hdt : 0 < dt) by (apply Hd, in_or_app; right; simpl; auto).
  assert (0 < dt/scale) by (apply Rdiv_lt_0_compat; auto).
  assert (B : 0 <= 1 - Rmin 1 (dt/scale)). { unfold Rmin. destruct (Rle_dec _ _); lra. }
  set (al := Rmin 1 (dt/scale)) in *.
  replace (al * v + (1-al)*a - v) with ((1-al)*(a - v)) by ring.
  rewrite Rabs_mult, (Rabs_right (1-al)) by lra. rewrite IH.
  clear. generalize (Rabs (avg0 - v)). induction l as [|d l IHl]; intros r; simpl; [reflexivity|].
  rewrite <- IHl. ring.
Qed.

Theorem C23_constant_signal_is_kept :
  forall scale b v l, 0 < scale -> (forall p, In p l -> 0 < fst p /\ snd p = v) ->
  ema_run (mkEma scale b) v l = v.
Proof.
  intros scale b v l Hs H.
  assert (v <= ema_run (mkEma scale b) v l <= v); [|lra].
  apply (ema_range_aux scale); auto.
  - intros p Hi. destruct (H p Hi) as [? ->]. lra.
  - intros _. lra.
Qed.

(** C37. Instantaneous flow diagnostics. *)
Definition tr2 n (A : nat -> nat -> R) := fold_right (fun i a => A i i + a) 0 (seq 0 n).
Definition mm n (A B : nat -> nat -> R) i j := fold_right (fun k a => A i k * B k j + a) 0 (seq 0 n).

Theorem C37_q_criterion_is_second_invariant :
  forall n du, n = 2%nat \/ n = 3%nat ->
  q_criterion n du = 1/2 * (tr2 n du * tr2 n du - tr2 n (mm n du du)).
Proof. intros n du [->| ->]; unfold q_criterion, tr2, mm; simpl.
  all: field.
Qed.

(** A complex number (re, im) is an eigenvalue of the 2x2 matrix iff it is a root of
    l^2 - tr l + det. *)
Definition eig2 (a11 a12 a21 a22 re im : R) : Prop :=
  re*re - im*im - (a11+a22)*re + (a11*a22 - a12*a21) = 0 /\ 2*re*im - (a11+a22)*im = 0.

Theorem C37_lambda_ci_2d_is_swirl :
  forall a11 a12 a21 a22,
  (exists re, eig2 a11 a12 a21 a22 re (lambda_ci_2d a11 a12 a21 a22)) /\
  0 <= lambda_ci_2d a11 a12 a21 a22 /\
  (forall re im, eig2 a11 a12 a21 a22 re im -> im <= lambda_ci_2d a11 a12 a21 a22).
Proof.
  intros a b c d. unfold lambda_ci_2d, eig2.
  set (tr := a + d). set (det := a*d - b*c).
  destruct (Rle_dec 0 _) as [H|H].
  - assert (Hd : 0 <= tr*tr - 4*det) by lra.
    split; [|split; [lra|]].
    + exists ((tr + sqrt (tr*tr - 4*det))/2). pose proof (sqrt_sqrt _ Hd). split; [|ring].
      set (q := sqrt (tr*tr-4*det)) in *.
      replace ((tr+q)/2*((tr+q)/2) - 0*0 - tr*((tr+q)/2) + det) with ((q*q - (tr*tr - 4*det))/4) by field.
      rewrite H0. lra.
    + intros re im [E1 E2]. destruct (Rle_dec im 0); auto. exfalso.
      assert (2*re - tr = 0). { apply Rmult_eq_reg_r with im; lra. }
      assert (re = tr/2) by lra. subst re. assert (0 < im*im) by (apply Rmult_lt_0_compat; lra). lra.
  - assert (Hd : 0 < -(tr*tr - 4*det)) by lra.
    assert (E : - (- tr * - tr - 4*1*det) = -(tr*tr - 4*det)) by ring. rewrite E.
    set (q := sqrt (-(tr*tr-4*det))) in *.
    assert (Hq : 0 < q) by (apply sqrt_lt_R0; lra).
    assert (Hqq : q*q = -(tr*tr - 4*det)) by (apply sqrt_sqrt; lra).
    rewrite Rmax_left by lra.
    split; [|split; [lra|]].
    + exists (tr/2). split; [|field]. 
      replace (tr/2*(tr/2) - q/2*(q/2) - tr*(tr/2) + det) with ((-(tr*tr - 4*det) - q*q)/4) by field. lra.
    + intros re im [E1 E2]. destruct (Rle_dec im 0); [lra|].
      assert (2*re - tr = 0). { apply Rmult_eq_reg_r with im; lra. }
      assert (re = tr/2) by lra. subst re.
      assert (im*im = (q/2)*(q/2)) by lra. nra.
Qed.

(** C37 refuted: the sub-filter stress of the second node of a bucket reads, in 3-D, the velocity
    gradient with the wrong stride (entries of the previous node). *)
Theorem C37_sfs_stress_gradient_index_refuted :
  exists k i j, (i < 3)%nat /\ (j < 3)%nat /\ sfs_grad_index 3 k i j <> dudx_index 3 k i j /\
  exists i' j', (i' < 3)%nat /\ (j' < 3)%nat /\ sfs_grad_index 3 k i j = dudx_index 3 (k-1) i' j'.
Proof. exists 1%nat, 0%nat, 0%nat. repeat split; try lia; try discriminate. exists 2%nat, 0%nat. repeat split; lia. Qed.

(** The velocity gradient [du i j] = d u_i / d x_j of a rigid rotation u = w x r, plus any strain
    (symmetric part): the vorticity is twice the rotation vector, whatever the strain. *)
Definition rotation_gradient (w1 w2 w3 : R) (i j : nat) : R :=
  match i, j with
  | O, S O => - w3 | O, S (S O) => w2
  | S O, O => w3   | S O, S (S O) => - w1
  | S (S O), O => - w2 | S (S O), S O => w1
  | _, _ => 0
  end.
Theorem C37_vorticity_is_twice_rotation_rate :
  forall w1 w2 w3 (S : nat -> nat -> R), (forall i j, S i j = S j i) ->
  vorticity (fun i j => rotation_gradient w1 w2 w3 i j + S i j) = (2*w1, 2*w2, 2*w3).
Proof.
  intros w1 w2 w3 S H. unfold vorticity, rotation_gradient.
  rewrite (H 2%nat 1%nat), (H 2%nat 0%nat), (H 1%nat 0%nat).
  f_equal; [f_equal|]; ring.
Qed.

(** Non-vacuity: a history with three steps, a restart, and two windows meets the hypotheses. *)
Definition demo_s (t v : R) := mkSample t 1 1 (fun k => v).
Definition demo_h := [Step (demo_s 1 2); Step (demo_s 2 4); Restart false; Step (demo_s 3 6)].
Definition demo_c := mkCfg NALU_CLASSIC 2 0 3.
Example demo_physical : physical demo_h.
Proof. intros x Hx. simpl in Hx. destruct Hx as [Hx|[Hx|[Hx|[Hx|[]]]]]; inversion Hx; subst; simpl; lra. Qed.
Example demo_window : window 2 0 false (firstn 3 demo_h) = [demo_s 1 2; demo_s 2 4] /\ window 2 0 false demo_h = [demo_s 3 6].
Proof.
  unfold window, demo_h, window_step; simpl.
  repeat (match goal with |- context [Rle_dec ?a ?b] => destruct (Rle_dec a b); try lra
                 | |- context [Rlt_dec ?a ?b] => destruct (Rlt_dec a b); try lra end; simpl). auto.
Qed.

Print Assumptions C21_classic_averages_are_window_means.
Print Assumptions C22_stress_realizable.
