Require Import Reals List Lra Lia Bool Psatz.
From Verif Require Import RUtil Avg_Model Avg_Spec.
Import ListNotations.
Open Scope R_scope.

(* ---------- wsum algebra ---------- *)
Lemma wsum_app W1 W2 f : wsum (W1++W2) f = wsum W1 f + wsum W2 f.
Proof. induction W1 as [|[w s] W IH]; simpl; [lra|rewrite IH; lra]. Qed.
Lemma wsum_ext W f g : (forall s, f s = g s) -> wsum W f = wsum W g.
Proof. intros H; induction W as [|[w s] W IH]; simpl; [lra|rewrite IH, H; lra]. Qed.
Lemma wsum_plus W f g : wsum W (fun s => f s + g s) = wsum W f + wsum W g.
Proof. induction W as [|[w s] W IH]; simpl; [lra|rewrite IH; lra]. Qed.
Lemma wsum_scal W a f : wsum W (fun s => a * f s) = a * wsum W f.
Proof. induction W as [|[w s] W IH]; simpl; [lra|rewrite IH; lra]. Qed.
Lemma wsum_favre W f : wsum (favre W) f = wsum W (fun s => smp_rho s * f s).
Proof. unfold favre. induction W as [|[w s] W IH]; simpl; [lra|rewrite IH; lra]. Qed.
Definition nonneg (W : wlist) := Forall (fun p => 0 <= fst p) W.
Lemma wsum_nonneg W f : nonneg W -> (forall s, In s (map snd W) -> 0 <= f s) -> 0 <= wsum W f.
Proof.
  induction W as [|[w s] W IH]; simpl; intros HW Hf; [lra|].
  inversion HW; subst; simpl in *.
  assert (0 <= f s) by (apply Hf; auto). assert (0 <= wsum W f) by (apply IH; auto). nra.
Qed.
Lemma wsum_le W f g : nonneg W -> (forall s, In s (map snd W) -> f s <= g s) -> wsum W f <= wsum W g.
Proof.
  intros HW H.
  assert (0 <= wsum W (fun s => g s + (-1) * f s)).
  { apply wsum_nonneg; auto. intros s Hs. specialize (H s Hs). lra. }
  rewrite wsum_plus, wsum_scal in H0. lra.
Qed.
Lemma wsum_const W a : wsum W (fun _ => a) = a * wsum W (fun _ => 1).
Proof. rewrite <- wsum_scal. apply wsum_ext. intros; lra. Qed.

Lemma wmean_range W f lo hi : nonneg W -> 0 < wsum W (fun _ => 1) ->
  (forall s, In s (map snd W) -> lo <= f s <= hi) -> lo <= wmean W f <= hi.
Proof.
  intros HW HS H. unfold wmean. split.
  - apply Rle_div_r; [lra|]. rewrite <- wsum_const. apply wsum_le; auto. intros; apply H; auto.
  - apply Rle_div_l; [lra|]. rewrite <- wsum_const. apply wsum_le; auto. intros; apply H; auto.
Qed.

(* variance as a sum of squares *)
Lemma wcov_centered W f g : wsum W (fun _ => 1) <> 0 ->
  wcov W f g = wsum W (fun s => (f s - wmean W f) * (g s - wmean W g)) / wsum W (fun _ => 1).
Proof.
  intros HS.
  rewrite (wsum_ext W (fun s => (f s - wmean W f) * (g s - wmean W g))
     (fun s => f s * g s + ((- wmean W g) * f s + ((- wmean W f) * g s + (wmean W f * wmean W g) * 1)))) by (intros; ring).
  rewrite !wsum_plus, !wsum_scal.
  unfold wcov, wmean. field. exact HS.
Qed.
Lemma wcov_diag_nonneg W f : nonneg W -> 0 < wsum W (fun _ => 1) -> 0 <= wcov W f f.
Proof.
  intros HW HS. rewrite wcov_centered by lra.
  apply Rle_div_r; [lra|]. rewrite Rmult_0_l. apply wsum_nonneg; auto.
  intros; apply Rle_0_sqr.
Qed.
Lemma wcov_sym W f g : wcov W f g = wcov W g f.
Proof. unfold wcov. unfold wmean at 1. rewrite (wsum_ext W (fun s => f s * g s) (fun s => g s * f s)) by (intros; ring).
  unfold wmean. ring. Qed.
Lemma wcov_quad W f g l : wsum W (fun _ => 1) <> 0 ->
  wcov W (fun s => f s + l * g s) (fun s => f s + l * g s) = wcov W f f + 2 * l * wcov W f g + l * l * wcov W g g.
Proof.
  intros HS. unfold wcov, wmean.
  rewrite (wsum_ext W (fun s => (f s + l * g s) * (f s + l * g s))
     (fun s => f s * f s + ((2*l) * (f s * g s) + (l*l) * (g s * g s)))) by (intros; ring).
  rewrite !wsum_plus, !wsum_scal. field. exact HS.
Qed.
Lemma wcov_cauchy W f g : nonneg W -> 0 < wsum W (fun _ => 1) ->
  wcov W f g * wcov W f g <= wcov W f f * wcov W g g.
Proof.
  intros HW HS.
  assert (Q : forall l, 0 <= wcov W f f + 2 * l * wcov W f g + l * l * wcov W g g).
  { intros l. rewrite <- wcov_quad by lra. apply wcov_diag_nonneg; auto. }
  pose proof (wcov_diag_nonneg W f HW HS) as Hf.
  pose proof (wcov_diag_nonneg W g HW HS) as Hg.
  set (a := wcov W f f) in *. set (b := wcov W f g) in *. set (c := wcov W g g) in *.
  destruct (Req_dec c 0) as [C0|C0].
  - rewrite C0 in *. destruct (Req_dec b 0) as [->|B0]; [lra|].
    exfalso. pose proof (Q (-(a+1)/(2*b))) as H.
    assert (2 * (-(a+1)/(2*b)) * b = -(a+1)) by (field; auto). lra.
  - pose proof (Q (-b/c)) as H.
    assert (a + 2*(-b/c)*b + (-b/c)*(-b/c)*c = a - b*b/c) as E by (field; auto).
    rewrite E in H.
    assert (b*b/c <= a) by lra. apply Rle_div_l in H0; lra.
Qed.

(* ---------- invariant ---------- *)
Definition vel (i : nat) (s : sample) : R := smp_q s i.
Definition cov_list n W := map (fun ij => wcov W (vel (fst ij)) (vel (snd ij))) (upper_pairs n).

Record rep (c : avg_cfg) (st : avg_state) (W : wlist) : Prop := mkRep {
  rep_cur : av_cur st = wsum W (fun _ => 1);
  rep_rho : av_rhoRA st * av_cur st = wsum W smp_rho;
  rep_RA : forall k, av_RA st k * av_cur st = wsum W (fun s => smp_q s k);
  rep_FA : forall k, av_FA st k * wsum W smp_rho = wsum W (fun s => smp_rho s * smp_q s k);
  rep_res : forall k, av_res st k * av_cur st = wsum W (fun s => smp_rho s * smp_q s k);
  rep_rs : av_rstress st = cov_list (cfg_ndim c) W;
  rep_fs : av_fstress st = cov_list (cfg_ndim c) (favre W) }.

Lemma wcov_nil f g : wcov nil f g = 0.
Proof. unfold wcov, wmean; simpl. unfold Rdiv. ring. Qed.

Lemma rep_fresh c f : rep c (fresh c f) nil.
Proof.
  constructor; simpl; intros; try ring.
  - unfold cov_list, zeros. apply map_ext. intros. symmetry. apply wcov_nil.
  - unfold cov_list, zeros. apply map_ext. intros. symmetry. apply wcov_nil.
Qed.

Lemma stress_loop_cov n f W W' :
  (forall i j, f i j (wcov W (vel i) (vel j)) = wcov W' (vel i) (vel j)) ->
  stress_loop n f (cov_list n W) = cov_list n W'.
Proof.
  intros H. unfold stress_loop, cov_list.
  induction (upper_pairs n) as [|[i j] l IH]; simpl; [reflexivity|].
  rewrite H, IH. reflexivity.
Qed.

(* generic step *)
Definition old_stress_ok (old z : R) (W W' : wlist) (a : R) :=
  (z = 1 /\ 0 < wsum W (fun _ => 1) /\ 0 < wsum W smp_rho /\ 0 < old /\ a * wsum W (fun _ => 1) = old) \/ (z = 0 /\ a = 0).

Lemma rs_step W W' a s old cur z i j :
  (forall f, wsum W' f = a * wsum W f + smp_dt s * f s) ->
  a * wsum W (fun _ => 1) = old * z -> cur = old*z + smp_dt s -> 0 < cur -> 0 < old ->
  old_stress_ok old z W W' a ->
  rstress_upd old cur z (smp_dt s) (smp_q s i) (smp_q s j)
     (wmean W' (vel i)) (wmean W' (vel j)) (wcov W (vel i) (vel j)) = wcov W' (vel i) (vel j).
Proof.
  intros HW Ha Hc Hcp Hop Hs.
  assert (H1 : wsum W' (fun _ => 1) = cur) by (rewrite HW, Ha; lra).
  unfold rstress_upd, wcov, wmean. cbv zeta. rewrite H1, !HW. unfold vel.
  destruct Hs as [[Hz [HS [_ [Ho Ha']]]]|[Hz Ha0]]; subst z.
  - rewrite Rmult_1_r in *.
    set (S := wsum W (fun _ => 1)) in *. clearbody S.
    rewrite Hc, <- Ha' in *. clear Ha Ha' Hc H1 HW.
    assert (a <> 0) by (intros ->; rewrite Rmult_0_l in *; lra).
    field. repeat split; lra.
  - subst a. rewrite !Rmult_0_r, !Rmult_0_l, !Rplus_0_l. field. lra.
Qed.

Lemma fs_step W W' a s old cur z i j :
  (forall f, wsum W' f = a * wsum W f + smp_dt s * f s) ->
  a * wsum W (fun _ => 1) = old * z -> cur = old*z + smp_dt s -> 0 < cur -> 0 < old ->
  0 < wsum W' smp_rho ->
  old_stress_ok old z W W' a ->
  fstress_upd old cur z (smp_dt s) (smp_rho s) (wmean W' smp_rho) (smp_q s i) (smp_q s j)
     (wmean (favre W') (vel i)) (wmean (favre W') (vel j)) (wcov (favre W) (vel i) (vel j))
  = wcov (favre W') (vel i) (vel j).
Proof.
  intros HW Ha Hc Hcp Hop Hrho Hs.
  assert (H1 : wsum W' (fun _ => 1) = cur) by (rewrite HW, Ha; lra).
  assert (FR : forall V, wsum (favre V) (fun _ => 1) = wsum V smp_rho).
  { intros V. rewrite wsum_favre. apply wsum_ext. intros; ring. }
  rewrite (HW smp_rho) in Hrho.
  unfold fstress_upd, wcov, wmean. cbv zeta. rewrite !FR, !wsum_favre, H1, !HW. unfold vel.
  destruct Hs as [[Hz [HS [HR [Ho Ha']]]]|[Hz Ha0]]; subst z.
  - rewrite Rmult_1_r in *.
    set (S := wsum W (fun _ => 1)) in *. clearbody S.
    set (RW := wsum W smp_rho) in *. clearbody RW.
    rewrite Hc, <- Ha' in *. clear Ha Ha' Hc H1 HW FR.
    assert (a <> 0) by (intros ->; rewrite Rmult_0_l in *; lra).
    set (X := wsum W _). clearbody X.
    set (Y := wsum W _). clearbody Y.
    set (Z := wsum W _). clearbody Z.
    assert (X1 : (a*S + smp_dt s) * ((a*RW + smp_dt s * smp_rho s)/(a*S+smp_dt s)) - smp_rho s * smp_dt s = a * RW) by (field; lra).
    rewrite X1.
    assert (RW <> 0) by lra.
    field. repeat split; try lra.
  - subst a. assert (0 < smp_dt s) by lra. assert (smp_rho s <> 0) by (intros E0; rewrite E0 in *; lra).
    rewrite !Rmult_0_l, !Rplus_0_l in *.
    set (X := wsum W _). clearbody X.
    set (Y := wsum W _). clearbody Y.
    rewrite Hc. rewrite !Rmult_0_r, !Rplus_0_l.
    unfold Rdiv. field. split; lra.
Qed.

Lemma favre_one V : wsum (favre V) (fun _ => 1) = wsum V smp_rho.
Proof. rewrite wsum_favre. apply wsum_ext. intros; ring. Qed.

Lemma wcov_single w s f g : w <> 0 -> wcov [(w,s)] f g = 0.
Proof. intros H. unfold wcov, wmean; simpl. field. lra. Qed.

Lemma cov_single n w s : w <> 0 -> cov_list n [(w,s)] = cov_list n nil.
Proof. intros H. unfold cov_list. apply map_ext. intros. rewrite wcov_single, wcov_nil; auto. Qed.

Lemma exec_rep c st W W' s old cur z a :
  rep c st W ->
  cfg_start c <= smp_time s ->
  filter_update c (av_cur st) (av_forced st) (smp_dt s) = (old, cur, z) ->
  (forall f, wsum W' f = a * wsum W f + smp_dt s * f s) ->
  a * wsum W (fun _ => 1) = old * z -> cur = old*z + smp_dt s -> 0 < cur ->
  0 < wsum W' smp_rho ->
  (0 < old -> old_stress_ok old z W W' a) ->
  (old <= 0 -> W = nil /\ W' = [(smp_dt s, s)] /\ 0 < smp_rho s) ->
  rep c (execute c st s) W' /\ av_forced (execute c st s) = false.
Proof.
  intros HR Hst Hf HW Ha Hc Hcp Hrho Hs1 Hs2.
  destruct HR as [r1 r2 r3 r4 r5 r6 r7].
  assert (H1 : wsum W' (fun _ => 1) = cur) by (rewrite HW, Ha; lra).
  assert (Erho : reynolds_upd old cur z (smp_dt s) (av_rhoRA st) (smp_rho s) = wmean W' smp_rho).
  { unfold reynolds_upd, wmean. rewrite H1. f_equal. rewrite HW, <- r2, r1.
    replace (a * (av_rhoRA st * wsum W (fun _ : sample => 1))) with (av_rhoRA st * (a * wsum W (fun _ => 1))) by ring.
    rewrite Ha. ring. }
  assert (ERA : forall k, reynolds_upd old cur z (smp_dt s) (av_RA st k) (smp_q s k) = wmean W' (vel k)).
  { intros k. unfold reynolds_upd, wmean. rewrite H1. f_equal. rewrite HW. unfold vel. rewrite <- r3, r1.
    replace (a * (av_RA st k * wsum W (fun _ : sample => 1))) with (av_RA st k * (a * wsum W (fun _ => 1))) by ring.
    rewrite Ha. ring. }
  assert (EFA : forall k, favre_upd old cur z (smp_dt s) (av_rhoRA st) (wmean W' smp_rho) (smp_rho s) (av_FA st k) (smp_q s k) = wmean (favre W') (vel k)).
  { intros k. unfold favre_upd, wmean. rewrite favre_one, wsum_favre, H1, (HW (fun s0 => smp_rho s0 * vel k s0)).
    unfold vel at 1. change (fun s0 => smp_rho s0 * vel k s0) with (fun s0 => smp_rho s0 * smp_q s0 k).
    rewrite <- r4, <- r2, r1. 
    replace (a * (av_FA st k * (av_rhoRA st * wsum W (fun _ : sample => 1)))) with (av_FA st k * av_rhoRA st * (a * wsum W (fun _ => 1))) by ring.
    rewrite Ha. unfold vel. field. split; lra. }
  assert (Eres : forall k, resolved_upd old cur z (smp_dt s) (smp_rho s) (av_res st k) (smp_q s k) * cur = wsum W' (fun s0 => smp_rho s0 * smp_q s0 k)).
  { intros k. unfold resolved_upd. rewrite HW. rewrite <- r5, r1.
    replace (a * (av_res st k * wsum W (fun _ : sample => 1))) with (av_res st k * (a * wsum W (fun _ => 1))) by ring.
    rewrite Ha. field. lra. }
  unfold execute. destruct (Rle_dec (cfg_start c) (smp_time s)) as [_|]; [|lra].
  rewrite Hf. rewrite Erho.
  destruct (Rlt_dec 0 old) as [Ho|Ho]; cbn [av_cur av_forced av_rhoRA av_RA av_FA av_res av_rstress av_fstress]; (split; [|reflexivity]).
  - constructor; cbn [av_cur av_forced av_rhoRA av_RA av_FA av_res av_rstress av_fstress].
    + auto.
    + unfold wmean. rewrite H1. field. lra.
    + intros k. rewrite ERA. unfold wmean. rewrite H1. unfold vel. field. lra.
    + intros k. rewrite EFA. unfold wmean. rewrite favre_one, wsum_favre. unfold vel. field. lra.
    + exact Eres.
    + rewrite r6. apply stress_loop_cov. intros i j. rewrite !ERA. eapply rs_step; eauto.
    + rewrite r7. unfold cov_list.
      change (stress_loop (cfg_ndim c) (fun i j : nat => fstress_upd old cur z (smp_dt s) (smp_rho s) (wmean W' smp_rho) (smp_q s i) (smp_q s j) (favre_upd old cur z (smp_dt s) (av_rhoRA st) (wmean W' smp_rho) (smp_rho s) (av_FA st i) (smp_q s i)) (favre_upd old cur z (smp_dt s) (av_rhoRA st) (wmean W' smp_rho) (smp_rho s) (av_FA st j) (smp_q s j))) (cov_list (cfg_ndim c) (favre W)) = cov_list (cfg_ndim c) (favre W')).
      apply stress_loop_cov. intros i j. rewrite !EFA. eapply fs_step; eauto.
  - destruct (Hs2 ltac:(lra)) as [-> [-> Hrs]].
    assert (smp_dt s <> 0). { intros E0. simpl in Hrho. rewrite E0 in Hrho. lra. }
    constructor; cbn [av_cur av_forced av_rhoRA av_RA av_FA av_res av_rstress av_fstress].
    + auto.
    + unfold wmean. rewrite H1. field. lra.
    + intros k. rewrite ERA. unfold wmean. rewrite H1. unfold vel. field. lra.
    + intros k. rewrite EFA. unfold wmean. rewrite favre_one, wsum_favre. unfold vel. field. lra.
    + exact Eres.
    + rewrite r6. symmetry. apply cov_single. auto.
    + rewrite r7. unfold favre at 2. simpl map. symmetry. rewrite cov_single; [reflexivity|].
      simpl. apply Rmult_integral_contrapositive_currified; lra.
Qed.

(* ---------- classic windows ---------- *)
Lemma total_wsum w : wsum (by_dt w) (fun _ => 1) = total_dt w.
Proof. induction w as [|s w IH]; simpl; [lra|rewrite IH; lra]. Qed.
Lemma by_dt_app w s : by_dt (w ++ [s]) = by_dt w ++ [(smp_dt s, s)].
Proof. unfold by_dt. rewrite map_app. reflexivity. Qed.

(** all samples have a positive step and a positive density *)
Definition physical (h : list event) : Prop :=
  forall s, In (Step s) h -> 0 < smp_dt s /\ 0 < smp_rho s.

Definition wfold T start f0 h := fold_left (window_step T start) h (f0, nil).
Lemma wfold_snoc T st f0 h e : wfold T st f0 (h++[e]) = window_step T st (wfold T st f0 h) e.
Proof. unfold wfold. now rewrite fold_left_app. Qed.

Lemma window_in T st f0 h : forall s, In s (snd (wfold T st f0 h)) -> In (Step s) h.
Proof.
  induction h as [|e h IH] using rev_ind; intros x Hx; [destruct Hx|].
  rewrite wfold_snoc in Hx. apply in_or_app.
  destruct e as [s|f]; simpl in Hx; [|left; auto].
  destruct (Rlt_dec (smp_time s) st); [left; auto|].
  destruct (fst (wfold T st f0 h)). { destruct Hx as [->|[]]. right; simpl; auto. }
  destruct (Rlt_dec T _). { destruct Hx as [->|[]]. right; simpl; auto. }
  simpl in Hx. apply in_app_or in Hx. destruct Hx as [Hx|[->|[]]]; [left; auto|right; simpl; auto].
Qed.

Lemma wsum_pos_bydt w (g : sample -> R) : w <> nil -> (forall s, In s w -> 0 < smp_dt s /\ 0 < g s) ->
  0 < wsum (by_dt w) g.
Proof.
  intros Hn H. destruct w as [|s w]; [congruence|]. clear Hn.
  revert s H. induction w as [|s' w IH]; intros s H; simpl.
  - destruct (H s) as [? ?]; [simpl; auto|]. nra.
  - specialize (IH s'). simpl in IH. assert (0 < smp_dt s' * g s' + wsum (by_dt w) g).
    { apply IH. intros x Hx. apply H. simpl in *. tauto. }
    destruct (H s) as [? ?]; [simpl; auto|]. simpl. unfold by_dt in *. nra.
Qed.

Lemma avg_run_snoc c st h e : avg_run c st (h ++ [e]) = event_step c (avg_run c st h) e.
Proof. unfold avg_run. now rewrite fold_left_app. Qed.

Lemma physical_snoc h e : physical (h ++ [e]) -> physical h.
Proof. intros H s Hs. apply H. apply in_or_app; auto. Qed.

Lemma total_dt_pos w : (forall s, In s w -> 0 < smp_dt s) -> w <> nil -> 0 < total_dt w.
Proof. intros H Hn. rewrite <- total_wsum. apply wsum_pos_bydt; auto. intros s Hs. split; [auto|lra]. Qed.

Lemma classic_rep c f0 h :
  cfg_type c = NALU_CLASSIC -> physical h ->
  rep c (avg_run c (fresh c f0) h) (by_dt (snd (wfold (cfg_interval c) (cfg_start c) f0 h))) /\
  av_forced (avg_run c (fresh c f0) h) = fst (wfold (cfg_interval c) (cfg_start c) f0 h).
Proof.
  intros Hty. induction h as [|e h IH] using rev_ind; intros Hp.
  - split; [apply rep_fresh|reflexivity].
  - specialize (IH (physical_snoc _ _ Hp)). destruct IH as [IH1 IH2].
    assert (Hin : forall s, In s (snd (wfold (cfg_interval c) (cfg_start c) f0 h)) -> 0 < smp_dt s /\ 0 < smp_rho s).
    { intros s Hs. apply Hp, in_or_app. left. eapply window_in; eauto. }
    rewrite avg_run_snoc, wfold_snoc.
    set (st := avg_run c (fresh c f0) h) in *.
    set (fw := wfold (cfg_interval c) (cfg_start c) f0 h) in *. clearbody st fw.
    destruct e as [s|f]; cbn [event_step window_step].
    2:{ split; [|reflexivity]. destruct IH1. constructor; assumption. }
    destruct (Rlt_dec (smp_time s) (cfg_start c)) as [Hl|Hl].
    { unfold execute. destruct (Rle_dec (cfg_start c) (smp_time s)); [lra|]. auto. }
    assert (Hs : 0 < smp_dt s /\ 0 < smp_rho s) by (apply Hp, in_or_app; right; simpl; auto).
    destruct Hs as [Hdt Hrho].
    pose proof (rep_cur _ _ _ IH1) as Hcur. rewrite total_wsum in Hcur.
    assert (Hnn : 0 <= total_dt (snd fw)).
    { destruct (snd fw) as [|s0 w0] eqn:E; [simpl; lra|]. apply Rlt_le, total_dt_pos; [|congruence]. intros x Hx. now apply Hin. }
    assert (Hnew : forall old, old = total_dt (snd fw) -> (filter_update c (av_cur st) (av_forced st) (smp_dt s) = (old, smp_dt s, 0)) ->
        rep c (execute c st s) (by_dt [s]) /\ av_forced (execute c st s) = false).
    { intros old Ho Hfu. eapply (exec_rep c st (by_dt (snd fw)) (by_dt [s]) s old (smp_dt s) 0 0); eauto; simpl; try lra.
      - intros; lra.
      - rewrite Rplus_0_r. now apply Rmult_lt_0_compat.
      - intros. right. auto.
      - intros Hold. split; [|auto]. destruct (snd fw) as [|s0 w0] eqn:E; [reflexivity|].
        exfalso. assert (0 < total_dt (s0::w0)); [|lra]. apply total_dt_pos; [|congruence]. intros x Hx; now apply Hin. }
    destruct (fst fw) eqn:Ef.
    { cbn [fst snd]. apply (Hnew (total_dt (snd fw)) eq_refl).
      unfold filter_update. rewrite Hty, Hcur, IH2. now rewrite orb_true_r. }
    destruct (Rlt_dec (cfg_interval c) (total_dt (snd fw) + smp_dt s)) as [Hlt|Hlt].
    { cbn [fst snd]. apply (Hnew (total_dt (snd fw)) eq_refl).
      unfold filter_update. rewrite Hty, Hcur, IH2. destruct (Rlt_dec _ _); [reflexivity|lra]. }
    cbn [fst snd].
    assert (Hfu : filter_update c (av_cur st) (av_forced st) (smp_dt s) = (total_dt (snd fw), total_dt (snd fw) + smp_dt s, 1)).
    { unfold filter_update. rewrite Hty, Hcur, IH2. destruct (Rlt_dec _ _); [lra|reflexivity]. }
    eapply (exec_rep c st (by_dt (snd fw)) (by_dt (snd fw ++ [s])) s _ _ 1 1); eauto; try lra.
    + intros g. rewrite by_dt_app, wsum_app. simpl. lra.
    + rewrite total_wsum. lra.
    + apply wsum_pos_bydt. { now destruct (snd fw). } intros x Hx. apply in_app_or in Hx.
      destruct Hx as [Hx|[->|[]]]; auto.
    + intros Ho. left. rewrite total_wsum. repeat split; try lra.
      apply wsum_pos_bydt; auto. intros E. rewrite E in Ho. simpl in Ho. lra.
    + intros Ho. destruct (snd fw) as [|s0 w0] eqn:E; [auto|].
      exfalso. assert (0 < total_dt (s0::w0)); [|lra]. apply total_dt_pos; [|congruence]. intros x Hx; now apply Hin.
Qed.

Lemma by_dt_nonneg w : (forall s, In s w -> 0 < smp_dt s) -> nonneg (by_dt w).
Proof. intros H. unfold nonneg, by_dt. rewrite Forall_map. apply Forall_forall. intros x Hx. simpl. apply Rlt_le, H, Hx. Qed.
Lemma favre_nonneg W : nonneg W -> (forall s, In s (map snd W) -> 0 < smp_rho s) -> nonneg (favre W).
Proof.
  unfold nonneg, favre. intros H Hr. rewrite Forall_map. rewrite Forall_forall in *.
  intros [w s] Hx. simpl. specialize (H _ Hx). simpl in H. assert (0 < smp_rho s) by (apply Hr; apply (in_map snd _ _ Hx)). nra.
Qed.

(* ---------- exponential ---------- *)
Definition scaleW (a : R) (W : wlist) : wlist := map (fun p => (a * fst p, snd p)) W.
Lemma wsum_scaleW a W f : wsum (scaleW a W) f = a * wsum W f.
Proof. unfold scaleW. induction W as [|[w s] W IH]; simpl; [lra|rewrite IH; lra]. Qed.
Lemma decay_snoc T t l s : decay T t (l++[s]) = decay T t l * (1 - smp_dt s / Rmin T (t + total_dt l + smp_dt s)).
Proof.
  revert t. induction l as [|x l IH]; intros t; simpl.
  - rewrite Rplus_0_r. ring.
  - rewrite IH. rewrite Rmult_assoc. do 2 f_equal. f_equal. f_equal. f_equal. lra.
Qed.
Lemma exp_weights_snoc T t l s :
  exp_weights T t (l++[s]) =
  scaleW (1 - smp_dt s / Rmin T (t + total_dt l + smp_dt s)) (exp_weights T t l) ++ [(smp_dt s / Rmin T (t + total_dt l + smp_dt s), s)].
Proof.
  revert t. induction l as [|x l IH]; intros t; simpl.
  - rewrite Rplus_0_r, Rmult_1_r. reflexivity.
  - rewrite IH, decay_snoc. f_equal.
    + f_equal. replace (t + smp_dt x + total_dt l + smp_dt s) with (t + (smp_dt x + total_dt l) + smp_dt s) by ring. ring.
    + replace (t + smp_dt x + total_dt l + smp_dt s) with (t + (smp_dt x + total_dt l) + smp_dt s) by ring. reflexivity.
Qed.
Lemma exp_weights_snd T t l : map snd (exp_weights T t l) = l.
Proof. revert t; induction l as [|x l IH]; intros t; simpl; [reflexivity|now rewrite IH]. Qed.

Lemma total_dt_snoc l s : total_dt (l++[s]) = total_dt l + smp_dt s.
Proof. induction l; simpl; [lra|rewrite IHl; lra]. Qed.
Lemma total_dt_nonneg w : (forall s, In s w -> 0 < smp_dt s) -> 0 <= total_dt w.
Proof. destruct w; intros H; [simpl; lra|]. apply Rlt_le, total_dt_pos; [auto|congruence]. Qed.

(** restricted to the active, physical steps with dt < T *)
Definition exp_ok (T : R) (l : list sample) : Prop :=
  forall s, In s l -> 0 < smp_dt s < T /\ 0 < smp_rho s.

Lemma exp_weights_pos T l : 0 < T -> exp_ok T l -> nonneg (exp_weights T 0 l) /\
  (l <> nil -> wsum (exp_weights T 0 l) (fun _ => 1) = 1 /\ 0 < wsum (exp_weights T 0 l) smp_rho).
Proof.
  intros HT. induction l as [|s l IH] using rev_ind; intros H.
  - split; [constructor|congruence].
  - assert (Hl : exp_ok T l) by (intros x Hx; apply H, in_or_app; auto).
    destruct (IH Hl) as [I1 I2].
    destruct (H s) as [Hdt Hr]. { apply in_or_app; right; simpl; auto. }
    rewrite exp_weights_snoc. rewrite Rplus_0_l.
    pose proof (total_dt_nonneg l (fun x Hx => proj1 (proj1 (Hl x Hx)))) as Hn.
    set (C := Rmin T (total_dt l + smp_dt s)).
    assert (HC : smp_dt s <= C) by (unfold C, Rmin; destruct (Rle_dec _ _); lra).
    assert (Hb : 0 < smp_dt s / C <= 1). { split; [apply Rdiv_lt_0_compat; lra|]. apply Rle_div_l; lra. }
    split.
    + unfold nonneg. apply Forall_app. split.
      * unfold scaleW. rewrite Forall_map. unfold nonneg in I1. rewrite Forall_forall in *. intros p Hp. simpl. specialize (I1 p Hp). nra.
      * constructor; [simpl; lra|constructor].
    + intros _. rewrite !wsum_app, !wsum_scaleW. simpl.
      destruct l as [|x l'].
      * simpl in *. unfold C. rewrite Rplus_0_l. rewrite Rmin_right by lra.
        split; [field; lra|]. unfold Rdiv. rewrite Rinv_r by lra. lra.
      * destruct I2 as [J1 J2]; [congruence|]. rewrite J1. split; [field; lra|]. nra.
Qed.

Lemma expo_rep c l :
  cfg_type c = MOVING_EXPONENTIAL -> 0 < cfg_interval c ->
  (forall s, In s l -> cfg_start c <= smp_time s) -> exp_ok (cfg_interval c) l ->
  let st := avg_run c (fresh c false) (map Step l) in
  let C := Rmin (cfg_interval c) (total_dt l) in
  rep c st (scaleW C (exp_weights (cfg_interval c) 0 l)) /\ av_forced st = false.
Proof.
  intros Hty HT. induction l as [|s l IH] using rev_ind; intros Hst H.
  - simpl. split; [apply rep_fresh|reflexivity].
  - cbv zeta in *.
    assert (Hl : exp_ok (cfg_interval c) l) by (intros x Hx; apply H, in_or_app; auto).
    assert (Hsl : forall x, In x l -> cfg_start c <= smp_time x) by (intros x Hx; apply Hst, in_or_app; auto).
    specialize (IH Hsl Hl). destruct IH as [IH1 IH2].
    destruct (H s) as [Hdt Hr]. { apply in_or_app; right; simpl; auto. }
    assert (Hss : cfg_start c <= smp_time s) by (apply Hst, in_or_app; right; simpl; auto).
    pose proof (total_dt_nonneg l (fun x Hx => proj1 (proj1 (Hl x Hx)))) as Hn.
    destruct (exp_weights_pos _ l HT Hl) as [P1 P2].
    rewrite map_app. cbn [map]. rewrite avg_run_snoc. cbn [event_step].
    set (st := avg_run c (fresh c false) (map Step l)) in *. clearbody st.
    rewrite exp_weights_snoc, Rplus_0_l, total_dt_snoc.
    set (T := cfg_interval c) in *.
    set (C' := Rmin T (total_dt l + smp_dt s)).
    set (C := Rmin T (total_dt l)) in *.
    pose proof (rep_cur _ _ _ IH1) as Hcur. rewrite wsum_scaleW in Hcur.
    assert (HC' : smp_dt s <= C' /\ C' <= T) by (unfold C', Rmin; destruct (Rle_dec _ _); lra).
    set (E := exp_weights T 0 l) in *.
    assert (HcurC : av_cur st = C).
    { rewrite Hcur. destruct l as [|x l'].
      - unfold C, E. simpl. rewrite Rmin_right by lra. lra.
      - destruct P2 as [J1 _]; [congruence|]. rewrite J1. lra. }
    assert (Hfu : filter_update c (av_cur st) (av_forced st) (smp_dt s) = (C' - smp_dt s, C', 1)).
    { unfold filter_update. rewrite Hty, IH2, HcurC. fold T. unfold C, C'. 
      destruct (Rlt_dec T (Rmin T (total_dt l) + smp_dt s)) as [Hlt|Hlt].
      - rewrite (Rmin_left T (total_dt l + smp_dt s)); [reflexivity|].
        unfold Rmin in Hlt. destruct (Rle_dec T (total_dt l)); lra.
      - unfold Rmin in *. destruct (Rle_dec T (total_dt l)); [lra|].
        destruct (Rle_dec T (total_dt l + smp_dt s)); (apply f_equal2; [apply f_equal2; lra|reflexivity]). }
    assert (HCpos : l <> nil -> 0 < C).
    { intros Hne. unfold C. apply Rmin_glb_lt; [lra|]. apply total_dt_pos; [|auto]. intros x Hx. apply Hl, Hx. }
    set (a := if Req_EM_T C 0 then 0 else (C' - smp_dt s)/C).
    eapply (exec_rep c st (scaleW C E) _ s _ _ 1 a); eauto; try lra.
    + intros f. rewrite !wsum_scaleW, wsum_app, wsum_scaleW. simpl.
      destruct l as [|x l'].
      * unfold E, C' in *. simpl. field. simpl in HC'. lra.
      * specialize (HCpos ltac:(congruence)). unfold a. destruct (Req_EM_T C 0); [lra|]. field. lra.
    + rewrite !wsum_scaleW. destruct l as [|x l'].
      * unfold E, C'. simpl. rewrite Rplus_0_l, (Rmin_right T (smp_dt s)) by lra. ring.
      * specialize (HCpos ltac:(congruence)). destruct P2 as [J1 _]; [congruence|]. rewrite J1.
        unfold a. destruct (Req_EM_T C 0); [lra|]. field. lra.
    + rewrite !wsum_scaleW, wsum_app, wsum_scaleW. simpl.
      destruct l as [|x l'].
      * unfold E. simpl. rewrite Rmult_0_r, !Rplus_0_l, Rplus_0_r.
        replace (C' * (smp_dt s / C' * smp_rho s)) with (smp_dt s * smp_rho s) by (field; lra). nra.
      * destruct P2 as [_ J2]; [congruence|].
        replace (C' * ((1 - smp_dt s / C') * wsum E smp_rho + (smp_dt s / C' * smp_rho s + 0)))
          with ((C' - smp_dt s) * wsum E smp_rho + smp_dt s * smp_rho s) by (field; lra).
        assert (0 <= (C' - smp_dt s) * wsum E smp_rho) by (apply Rmult_le_pos; lra). nra.
    + intros Ho. left. rewrite !wsum_scaleW. destruct l as [|x l'].
      * exfalso. unfold C' in Ho. simpl in Ho. rewrite Rplus_0_l, Rmin_right in Ho; lra.
      * specialize (HCpos ltac:(congruence)). destruct P2 as [J1 J2]; [congruence|]. rewrite J1.
        repeat split; try lra; try nra. unfold a. destruct (Req_EM_T C 0); [lra|]. field. lra.
    + intros Ho. destruct l as [|x l'].
      * unfold E. simpl. repeat split; [|lra]. unfold C'. simpl. rewrite Rplus_0_l, Rmin_right by lra.
        unfold scaleW. simpl. do 2 f_equal. field. lra.
      * exfalso. specialize (HCpos ltac:(congruence)).
        assert (0 < total_dt (x :: l')). { apply total_dt_pos; [|congruence]. intros y Hy. apply Hl, Hy. }
        unfold C', Rmin in Ho. destruct (Rle_dec _ _); lra.
Qed.
