(** C81, part 1: the local search keeps, for every point, the nearest candidate element *)
Require Import String Reals List Bool Arith Lra Lia.
From Verif Require Import ME_Model ME_Shape_Model ME_Point_Model Opt_Model Xfer_Model.
Import ListNotations.
Open Scope list_scope.
Open Scope R_scope.

(** multimap order: equal keys are adjacent because keys ascend *)
Fixpoint by_key (km : keymap) : Prop :=
  match km with [] => True | (k, _) :: r => (forall k' b', In (k', b') r -> (k <= k')%nat) /\ by_key r end.
(** the candidates of a point, in order *)
Definition candidates (pt : nat) (km : keymap) : list nat := map snd (filter (fun e => Nat.eqb (fst e) pt) km).
(** a candidate that the element search can locate *)
Definition locatable (m : fmesh) (p : vec) (b : nat) (r : found) : Prop := locate m p b = Some r /\ f_dist r < dbl_max.
(** [b] is the first of the nearest candidates [l] of a point at [p], found at [r] *)
Definition nearest (m : fmesh) (p : vec) (l : list nat) (b : nat) (r : found) : Prop :=
  exists l1 l2, l = (l1 ++ b :: l2)%list /\ locatable m p b r /\
    (forall b' r', In b' l1 -> locate m p b' = Some r' -> f_dist r < f_dist r') /\
    (forall b' r', In b' l2 -> locate m p b' = Some r' -> f_dist r <= f_dist r').

Lemma cand_fold m x pt info mx l : let st := fold_left (cand_step m x pt) l (mkC dbl_max None info mx 0) in
  c_count st = List.length l /\ mx <= c_max st /\ (forall k, k <> pt -> c_info st k = info k) /\
  (forall b' r', In b' l -> locate m (x pt) b' = Some r' -> c_best st <= f_dist r') /\
  match c_near st with
  | None => c_best st = dbl_max /\ c_info st pt = info pt /\ c_max st = mx
  | Some b => exists r, nearest m (x pt) l b r /\ c_best st = f_dist r /\ c_info st pt = Some (f_par r) /\ f_dist r <= c_max st
  end.
Proof.
  induction l as [|b l IH] using rev_ind; cbv zeta in *.
  - cbn. repeat split; auto; try lra. intros ? ? [].
  - rewrite fold_left_app. cbn [fold_left]. set (st := fold_left _ l _) in *. clearbody st.
    destruct IH as (N & Mx & I & B & Q). rewrite app_length. cbn [List.length]. unfold cand_step.
    assert (BB : c_best st <= dbl_max) by (destruct (c_near st); [destruct Q as (r & (l1 & l2 & _ & (_ & lt) & _) & e & _); lra|lra]).
    destruct (locate m (x pt) b) as [r|] eqn:E; [destruct (Rlt_dec (f_dist r) (c_best st)) as [h|h]|]; cbn [c_count c_max c_info c_best c_near].
    + split; [lia|]. split; [pose proof (Rmax_l (c_max st) (f_dist r)); lra|]. split; [|split].
      * intros k Hk. apply Nat.eqb_neq in Hk. rewrite Hk. apply I. now apply Nat.eqb_neq.
      * intros b' r' H L. apply in_app_or in H. destruct H as [H|[<-|[]]]; [specialize (B _ _ H L); lra|]. rewrite E in L. injection L as <-. lra.
      * exists r. split; [|split; [reflexivity|split; [now rewrite Nat.eqb_refl|apply Rmax_r]]].
        exists l, []. split; [reflexivity|]. split; [split; [exact E|lra]|]. split; [|intros ? ? []].
        intros b' r' H L. specialize (B _ _ H L). lra.
    + split; [lia|]. split; [exact Mx|]. split; [exact I|]. split.
      * intros b' r' H L. apply in_app_or in H. destruct H as [H|[<-|[]]]; [apply (B _ _ H L)|]. rewrite E in L. injection L as <-. lra.
      * destruct (c_near st) as [b0|]; [|exact Q]. destruct Q as (r0 & (l1 & l2 & -> & L0 & A1 & A2) & Q2). exists r0. split; [|exact Q2].
        exists l1, (l2 ++ [b])%list. split; [now rewrite <- app_assoc|]. split; [exact L0|]. split; [exact A1|].
        intros b' r' H L. apply in_app_or in H. destruct H as [H|[<-|[]]]; [apply (A2 _ _ H L)|]. rewrite E in L. injection L as <-.
        destruct Q2 as [q _]. lra.
    + split; [lia|]. split; [exact Mx|]. split; [exact I|]. split.
      * intros b' r' H L. apply in_app_or in H. destruct H as [H|[<-|[]]]; [apply (B _ _ H L)|]. congruence.
      * destruct (c_near st) as [b0|]; [|exact Q]. destruct Q as (r0 & (l1 & l2 & -> & L0 & A1 & A2) & Q2). exists r0. split; [|exact Q2].
        exists l1, (l2 ++ [b])%list. split; [now rewrite <- app_assoc|]. split; [exact L0|]. split; [exact A1|].
        intros b' r' H L. apply in_app_or in H. destruct H as [H|[<-|[]]]; [apply (A2 _ _ H L)|]. congruence.
Qed.

(** the run of a key in an ordered map *)
Lemma run_spec k km : by_key km -> (forall k' b', In (k', b') km -> (k <= k')%nat) ->
  fst (run k km) = candidates k km /\ by_key (snd (run k km)) /\ (forall k' b', In (k', b') (snd (run k km)) -> (k < k')%nat) /\
  (forall k', k' <> k -> candidates k' (snd (run k km)) = candidates k' km) /\ (List.length (snd (run k km)) <= List.length km)%nat /\
  (forall e, In e (snd (run k km)) -> In e km).
Proof.
  induction km as [|[k0 b0] r IH]; intros HB HL; [cbn; repeat split; auto; intros ? ? []|].
  cbn [run]. destruct HB as [HB1 HB2]. destruct (Nat.eqb k0 k) eqn:E.
  - apply Nat.eqb_eq in E. subst k0. destruct (run k r) as [g rest] eqn:R. cbn [fst snd].
    destruct (IH HB2 HB1) as (A & B & C & D & F & G). cbn [fst snd] in *.
    split; [unfold candidates; cbn [filter fst]; rewrite Nat.eqb_refl; cbn [map snd]; f_equal; exact A|].
    split; [exact B|]. split; [exact C|]. split; [|cbn [List.length]; split; [lia|intros e He; right; auto]].
    intros k' Hk. rewrite (D k' Hk). unfold candidates. cbn [filter fst]. assert (Hk2 : k <> k') by auto. apply Nat.eqb_neq in Hk2. now rewrite Hk2.
  - cbn [fst snd]. apply Nat.eqb_neq in E. assert (K : (k < k0)%nat) by (specialize (HL k0 b0 (or_introl eq_refl)); lia).
    assert (LT : forall k' b', In (k', b') ((k0, b0) :: r) -> (k < k')%nat).
    { intros k' b' [H|H]; [injection H as <- <-; exact K|]. specialize (HB1 k' b' H). lia. }
    split; [|split; [split; assumption|split; [exact LT|repeat split; auto]]].
    unfold candidates. symmetry. replace (filter (fun e => Nat.eqb (fst e) k) ((k0, b0) :: r)) with (@nil (nat * nat)); [reflexivity|].
    clear -LT. revert LT. generalize ((k0, b0) :: r). induction l as [|[k1 b1] l IH]; intros LT; [reflexivity|]. cbn.
    assert (Q : k1 <> k) by (specialize (LT k1 b1 (or_introl eq_refl)); lia). apply Nat.eqb_neq in Q. rewrite Q. apply IH. intros; eapply LT; right; eauto.
Qed.

Lemma cand_none k km : (forall b, ~ In (k, b) km) -> candidates k km = [].
Proof.
  unfold candidates. induction km as [|[k0 b0] r IH]; intros H; [reflexivity|]. cbn.
  destruct (Nat.eqb k0 k) eqn:E; [apply Nat.eqb_eq in E; subst; exfalso; apply (H b0); left; reflexivity|]. apply IH. intros b Hb. apply (H b). right; exact Hb.
Qed.
Lemma cand_in k km b : In b (candidates k km) <-> In (k, b) km.
Proof.
  unfold candidates. rewrite in_map_iff. split.
  - intros ([k' b'] & E & H). apply filter_In in H. destruct H as [H K]. cbn in *. apply Nat.eqb_eq in K. now subst.
  - intros H. exists (k, b). split; [reflexivity|]. apply filter_In. split; [exact H|]. apply Nat.eqb_refl.
Qed.

(** what happened to the point [pt] *)
Definition resolved (m : fmesh) (x : nat -> vec) (km : keymap) (info : tinfo) (km' : keymap) (info' : tinfo) (pt : nat) : Prop :=
  (exists b r, nearest m (x pt) (candidates pt km) b r /\ candidates pt km' = [b] /\ info' pt = Some (f_par r)) \/
  ((forall b r, In b (candidates pt km) -> ~ locatable m (x pt) b r) /\ candidates pt km' = [] /\ info' pt = info pt).

Lemma filter_loop_spec m x fuel : forall km info d, (List.length km <= fuel)%nat -> by_key km ->
  let '(km', info', d') := filter_loop fuel m x km info d in
  by_key km' /\ (forall k b, In (k, b) km' -> In (k, b) km) /\ (forall pt, resolved m x km info km' info' pt) /\
  d_max d <= d_max d' /\ (d_count d <= d_count d')%nat /\
  (forall pt, (List.length (candidates pt km) <= d_count d')%nat) /\
  (forall pt b r, In (pt, b) km' -> locate m (x pt) b = Some r -> f_dist r <= d_max d').
Proof.
  induction fuel as [|n IH]; intros km info d HF HB.
  - destruct km; [|cbn in HF; lia]. cbn. repeat split; auto; try lra; try lia; try (intros; contradiction).
    intros pt. right. repeat split; intros; try contradiction; auto. 
  - destruct km as [|[pt b] r]; [specialize (IH [] info d ltac:(cbn; lia) I); destruct n; exact IH|].
    cbn [filter_loop]. destruct (run pt r) as [g rest] eqn:R. destruct HB as [HB1 HB2].
    destruct (run_spec pt r HB2 HB1) as (Eg & Br & Lr & Cr & Lenr & Inr). rewrite R in *. cbn [fst snd] in *.
    pose proof (cand_fold m x pt info (d_max d) (b :: g)) as CF. cbv zeta in CF. set (st := fold_left _ (b :: g) _) in *. clearbody st.
    destruct CF as (N & Mx & I & B & Q).
    cbn [List.length] in HF. specialize (IH rest (c_info st) (mkD (c_max st) (Nat.max (d_count d) (c_count st))) ltac:(lia) Br).
    destruct (filter_loop n m x rest (c_info st) _) as [[km' info'] d'] eqn:FL. destruct IH as (K1 & K2 & K3 & K4 & K5 & K6 & K7). cbn [d_max d_count] in *.
    assert (Cpt : candidates pt ((pt, b) :: r) = b :: g) by (unfold candidates; cbn [filter fst]; rewrite Nat.eqb_refl; cbn [map snd]; f_equal; now rewrite Eg).
    assert (Coth : forall k, k <> pt -> candidates k ((pt, b) :: r) = candidates k rest).
    { intros k Hk. rewrite (Cr k Hk). unfold candidates. cbn [filter fst]. assert (Q1 : pt <> k) by auto. apply Nat.eqb_neq in Q1. now rewrite Q1. }
    assert (NP : forall b', ~ In (pt, b') km') by (intros b' H; apply K2 in H; apply Lr in H; lia).
    set (keep := match c_near st with Some b' => [(pt, b')] | None => [] end).
    assert (KO : forall k, k <> pt -> candidates k (keep ++ km') = candidates k km').
    { intros k Hk. unfold keep. destruct (c_near st); [|reflexivity]. unfold candidates. cbn. assert (Q1 : pt <> k) by auto. apply Nat.eqb_neq in Q1. now rewrite Q1. }
    assert (KP : candidates pt (keep ++ km') = match c_near st with Some b' => [b'] | None => [] end).
    { unfold keep. destruct (c_near st) as [b'|]; [|apply cand_none, NP]. unfold candidates. cbn. rewrite Nat.eqb_refl. cbn. f_equal. apply (cand_none pt km' NP). }
    assert (IP : info' pt = c_info st pt).
    { destruct (K3 pt) as [(b' & r' & (l1 & l2 & E & _) & _)|(_ & _ & E)]; [|exact E].
      rewrite (cand_none pt rest) in E by (intros b2 H2; apply Lr in H2; lia). destruct l1; discriminate. }
    assert (KI : forall k b', In (k, b') (keep ++ km') -> In (k, b') ((pt, b) :: r)).
    { intros k b' H. apply in_app_or in H. destruct H as [H|H]; [|right; apply Inr, K2, H]. unfold keep in H. destruct (c_near st) as [b2|]; [|destruct H].
      destruct H as [H|[]]. injection H as <- <-. destruct Q as (r' & (l1 & l2 & E & _) & _). apply cand_in. rewrite Cpt, E. apply in_or_app. right; left; reflexivity. }
    split; [|split; [exact KI|split; [|split; [lra|split; [lia|split]]]]].
    + unfold keep. destruct (c_near st) as [b'|]; [|exact K1]. cbn. split; [|exact K1]. intros k' b2 H. apply K2, Lr in H. lia.
    + intros k. destruct (Nat.eq_dec k pt) as [->|Hk].
      * unfold resolved. rewrite KP, Cpt, IP. destruct (c_near st) as [b'|].
        -- left. destruct Q as (r' & A & _ & C & _). exists b', r'. auto.
        -- right. destruct Q as (Q1 & Q2 & _). split; [|auto]. intros b' r' H [L L2]. specialize (B _ _ H L). lra.
      * unfold resolved. rewrite (KO k Hk), (Coth k Hk). destruct (K3 k) as [A|(A1 & A2 & A3)]; [left; exact A|right]. rewrite A3, I by exact Hk. auto.
    + intros k. destruct (Nat.eq_dec k pt) as [->|Hk]; [rewrite Cpt; lia|rewrite (Coth k Hk); apply K6].
    + intros k b' r' H L. apply in_app_or in H. destruct H as [H|H]; [|apply (K7 k b' r' H L)]. unfold keep in H. destruct (c_near st) as [b2|]; [|destruct H].
      destruct H as [H|[]]. injection H as <- <-. destruct Q as (r2 & (l1 & l2 & _ & (L2 & _) & _) & _ & _ & Q4). rewrite L in L2. injection L2 as <-. lra.
Qed.

(** ** Theorems *)

(** After the search every point has exactly one element left, the first of its nearest candidates, and the stored parametric
    coordinates are the ones found in that element; a point none of whose candidates could be located has lost all of them and keeps
    whatever coordinates it had.  No pair is invented. *)
Theorem C81_nearest_candidate_kept : forall m x km info km' info' d', by_key km -> filter_to_nearest m x km info = (km', info', d') ->
  (forall pt, resolved m x km info km' info' pt) /\ (forall pt b, In (pt, b) km' -> In (pt, b) km) /\ by_key km' /\ NoDup (map fst km').
Proof.
  intros m x km info km' info' d' HB E. unfold filter_to_nearest in E.
  pose proof (filter_loop_spec m x (List.length km) km info (mkD (- dbl_max) 0) ltac:(lia) HB) as S1. rewrite E in S1.
  destruct S1 as (A & B & C & _). split; [exact C|]. split; [exact B|]. split; [exact A|].
  assert (L1 : forall pt, (List.length (candidates pt km') <= 1)%nat).
  { intros pt. destruct (C pt) as [(b & r & _ & -> & _)|(_ & -> & _)]; cbn; lia. }
  clear -L1. induction km' as [|[k b] r IH]; [constructor|]. cbn. constructor.
  - intros H. apply in_map_iff in H. destruct H as ([k' b'] & E & H). cbn in E. subst k'. specialize (L1 k).
    unfold candidates in L1. cbn [filter fst] in L1. rewrite Nat.eqb_refl in L1. cbn in L1.
    assert (In b' (candidates k r)) by (apply cand_in; exact H). unfold candidates in *. destruct (map snd _); [contradiction|]. cbn in L1. lia.
  - apply IH. intros pt. specialize (L1 pt). unfold candidates in *. cbn [filter fst] in L1. destruct (Nat.eqb k pt); cbn in *; lia.
Qed.

(** a point with a candidate element that contains it (parametric distance at most one) ends with such an element *)
Theorem C81_containing_element_chosen : forall m x km info km' info' d' pt b r, by_key km -> filter_to_nearest m x km info = (km', info', d') ->
  In (pt, b) km -> locate m (x pt) b = Some r -> f_dist r <= 1 ->
  exists b' r', candidates pt km' = [b'] /\ In (pt, b') km /\ locate m (x pt) b' = Some r' /\ f_dist r' <= f_dist r /\ info' pt = Some (f_par r').
Proof.
  intros m x km info km' info' d' pt b r HB E HI HL HD.
  assert (BIG : 1 < dbl_max) by (unfold dbl_max; assert (1 <= 2^971) by (apply pow_R1_Rle; lra); assert (2^1024 = 2^53 * 2^971) by (rewrite <- pow_add; reflexivity);
    assert (4 <= 2^53) by (cbn; lra); nra).
  destruct (C81_nearest_candidate_kept _ _ _ _ _ _ _ HB E) as (A & B & _). destruct (A pt) as [(b' & r' & N & C & I)|(N & _)].
  - exists b', r'. assert (IB : In (pt, b') km) by (apply B, cand_in; rewrite C; left; reflexivity).
    destruct N as (l1 & l2 & El & (L & _) & A1 & A2). repeat split; auto.
    assert (H : In b (candidates pt km)) by (apply cand_in; exact HI). rewrite El in H. apply in_app_or in H. destruct H as [H|[<-|H]].
    + specialize (A1 _ _ H HL). lra.
    + rewrite L in HL. injection HL as <-. lra.
    + apply (A2 _ _ H HL).
  - exfalso. apply (N b r); [apply cand_in; exact HI|]. split; [exact HL|lra].
Qed.

(** the two diagnostics bound what was chosen: the printed distance is at least that of every pair kept, the printed count at least the
    number of candidates of every point *)
Theorem C81_diagnostics_bound : forall m x km info km' info' d', by_key km -> filter_to_nearest m x km info = (km', info', d') ->
  (forall pt b r, In (pt, b) km' -> locate m (x pt) b = Some r -> f_dist r <= d_max d') /\
  (forall pt, (List.length (candidates pt km) <= d_count d')%nat).
Proof.
  intros m x km info km' info' d' HB E. unfold filter_to_nearest in E.
  pose proof (filter_loop_spec m x (List.length km) km info (mkD (- dbl_max) 0) ltac:(lia) HB) as S1. rewrite E in S1.
  destruct S1 as (_ & _ & _ & _ & _ & C & D). auto.
Qed.
