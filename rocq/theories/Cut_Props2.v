(** C78, donor search: which element a fringe node gets its value from. *)
Require Import Reals List Bool Arith Lra Lia Permutation.
From Verif Require Import Motion_Model Cut_Model Edge_Model Edge_Proofs Sum_Proofs Cut_Props.
Import ListNotations.
Open Scope R_scope.

(* ------------------------------------------------------------------ specification *)
(** element [e] was offered as a donor of point [pt] of rank [rank] by the coarse search *)
Definition candidate (rank pt : nat) (keys : list skey) (e : nat) : Prop :=
  exists k, In k keys /\ k_pt k = pt /\ k_ptproc k = rank /\ k_el k = e.
(** the best donor: smallest parametric distance, the smallest identifier among equally good ones *)
Definition best_donor (cands : nat -> Prop) (dist : nat -> R * v3) (e : nat) : Prop :=
  cands e /\ forall e', cands e' -> fst (dist e) < fst (dist e') \/ (fst (dist e) = fst (dist e') /\ (e <= e')%nat).

Definition key_le (a b : skey) : Prop := skey_lt b a = false.
Fixpoint sorted (l : list skey) : Prop := match l with [] => True | h :: t => (forall k, In k t -> key_le h k) /\ sorted t end.

Ltac keys := unfold key_le, skey_lt in *; repeat (rewrite ?orb_true_iff, ?orb_false_iff, ?andb_true_iff, ?andb_false_iff, ?Nat.ltb_lt, ?Nat.ltb_ge, ?Nat.eqb_eq, ?Nat.eqb_neq in * ).
Lemma insert_perm k l : Permutation (insert_key k l) (k :: l).
Proof.
  induction l as [|h t IH]; cbn; [auto|]. destruct (skey_lt k h); [auto|].
  apply perm_trans with (h :: k :: t); [apply perm_skip, IH|apply perm_swap].
Qed.
Lemma key_le_trans a b c : key_le a b -> key_le b c -> key_le a c.
Proof. intros. keys. lia. Qed.
Lemma key_lt_le a b : skey_lt a b = true -> key_le a b.
Proof. intros. keys. lia. Qed.
Lemma insert_sorted k l : sorted l -> sorted (insert_key k l).
Proof.
  induction l as [|h t IH]; cbn; [intuition|]. intros [H1 H2]. destruct (skey_lt k h) eqn:E.
  - cbn. split; [|auto]. intros x [<-|Hx]; [apply key_lt_le, E|]. apply key_le_trans with h; [apply key_lt_le, E|auto].
  - cbn. split; [|auto]. intros x Hx. apply (Permutation_in _ (insert_perm k t)) in Hx. destruct Hx as [<-|Hx]; [exact E|auto].
Qed.
(** the search results are sorted by point, then rank of the point, then element, and none is lost *)
Theorem C78_search_results_sorted l : Permutation (sort_keys l) l /\ sorted (sort_keys l).
Proof.
  unfold sort_keys. induction l as [|h t [IH1 IH2]]; cbn; [auto|]. split.
  - apply perm_trans with (h :: fold_right insert_key [] t); [apply insert_perm|apply perm_skip, IH1].
  - apply insert_sorted, IH2.
Qed.

Definition step (rank pt : nat) (dist : nat -> R * v3) := fun si k =>
    if Nat.eqb rank (k_ptproc k) then
      if Nat.eqb (k_pt k) pt then
        let d := dist (k_el k) in
        if Rlt_dec (fst d) (si_best si) then mkSI (fst d) (Some (k_el k)) (snd d) else si
      else si
    else si.
Lemma fold_step rank pt dist keys : forall si, sorted keys ->
  (forall e, si_el si = Some e -> forall e', candidate rank pt keys e' -> (e <= e')%nat) ->
  let r := fold_left (step rank pt dist) keys si in
  (r = si /\ (forall e, candidate rank pt keys e -> si_best si <= fst (dist e))) \/
  (exists e, candidate rank pt keys e /\ r = mkSI (fst (dist e)) (Some e) (snd (dist e)) /\ fst (dist e) < si_best si /\
     forall e', candidate rank pt keys e' -> fst (dist e) < fst (dist e') \/ (fst (dist e) = fst (dist e') /\ (e <= e')%nat)).
Proof.
  induction keys as [|k t IH]; intros si Hs Hi r; cbn [fold_left] in r.
  - left. split; [reflexivity|]. intros e (k & [] & _).
  - assert (Er : r = fold_left (step rank pt dist) t (step rank pt dist si k)) by reflexivity. clearbody r.
    cbn in Hs. destruct Hs as [Hs1 Hs2].
    assert (Ct : forall e, candidate rank pt t e -> candidate rank pt (k :: t) e) by (intros e (x & X1 & X2); exists x; split; [right; auto|auto]).
    assert (Cc : forall e, candidate rank pt (k :: t) e -> candidate rank pt t e \/ (k_pt k = pt /\ k_ptproc k = rank /\ k_el k = e)).
    { intros e (x & [<-|X1] & X2); [right; auto|left; exists x; auto]. }
    destruct (Nat.eq_dec (k_ptproc k) rank) as [E1|E1]; [destruct (Nat.eq_dec (k_pt k) pt) as [E2|E2]|].
    + assert (Ck : candidate rank pt (k :: t) (k_el k)) by (exists k; cbn; auto).
      assert (Hmin : forall e', candidate rank pt t e' -> (k_el k <= e')%nat).
      { intros e' (x & X1 & X2 & X3 & <-). specialize (Hs1 x X1). keys. lia. }
      destruct (Rlt_dec (fst (dist (k_el k))) (si_best si)) as [L|L].
      * assert (Es : step rank pt dist si k = mkSI (fst (dist (k_el k))) (Some (k_el k)) (snd (dist (k_el k)))).
        { unfold step. rewrite E1, E2, !Nat.eqb_refl. cbn. destruct (Rlt_dec _ _); [reflexivity|contradiction]. }
        destruct (IH (step rank pt dist si k) Hs2) as [[R1 R2]|(e & R1 & R2 & R3 & R4)].
        { rewrite Es. cbn. intros e [= <-]. exact Hmin. }
        -- right. exists (k_el k). split; [exact Ck|]. split; [rewrite Er, R1; exact Es|]. split; [exact L|].
           intros e' He'. destruct (Cc _ He') as [H|(_ & _ & <-)]; [|right; auto].
           specialize (R2 _ H). rewrite Es in R2. cbn in R2. specialize (Hmin _ H).
           destruct (Rle_lt_or_eq_dec _ _ R2); [left|right]; auto.
        -- right. rewrite Es in R3. cbn in R3. exists e. split; [auto|]. split; [rewrite Er; exact R2|]. split; [lra|].
           intros e' He'. destruct (Cc _ He') as [H|(_ & _ & <-)]; [auto|left; auto].
      * assert (Es : step rank pt dist si k = si).
        { unfold step. rewrite E1, E2, !Nat.eqb_refl. cbn. destruct (Rlt_dec _ _); [contradiction|reflexivity]. }
        rewrite Es in Er. destruct (IH si Hs2) as [[R1 R2]|(e & R1 & R2 & R3 & R4)]; [eauto| |].
        -- left. split; [rewrite Er; exact R1|]. intros e' He'. destruct (Cc _ He') as [H|(_ & _ & <-)]; [auto|lra].
        -- right. exists e. split; [auto|]. split; [rewrite Er; exact R2|]. split; [auto|].
           intros e' He'. destruct (Cc _ He') as [H|(_ & _ & <-)]; [auto|left; lra].
    + assert (Es : step rank pt dist si k = si).
      { unfold step. destruct (Nat.eqb rank (k_ptproc k)); [|reflexivity]. destruct (Nat.eqb_spec (k_pt k) pt); [contradiction|reflexivity]. }
      rewrite Es in Er. destruct (IH si Hs2) as [[R1 R2]|(e & R1 & R2 & R3 & R4)]; [eauto| |].
      * left. split; [rewrite Er; exact R1|]. intros e' He'. destruct (Cc _ He') as [H|(H & _)]; [auto|contradiction].
      * right. exists e. split; [auto|]. split; [rewrite Er; exact R2|]. split; [auto|].
        intros e' He'. destruct (Cc _ He') as [H|(H & _)]; [auto|contradiction].
    + assert (Es : step rank pt dist si k = si).
      { unfold step. destruct (Nat.eqb_spec rank (k_ptproc k)); [congruence|reflexivity]. }
      rewrite Es in Er. destruct (IH si Hs2) as [[R1 R2]|(e & R1 & R2 & R3 & R4)]; [eauto| |].
      * left. split; [rewrite Er; exact R1|]. intros e' He'. destruct (Cc _ He') as [H|(_ & H & _)]; [auto|contradiction].
      * right. exists e. split; [auto|]. split; [rewrite Er; exact R2|]. split; [auto|].
        intros e' He'. destruct (Cc _ He') as [H|(_ & H & _)]; [auto|contradiction].
Qed.

Lemma candidate_perm rank pt k1 k2 e : Permutation k1 k2 -> candidate rank pt k1 e -> candidate rank pt k2 e.
Proof. intros P (k & H & R). exists k. split; [eapply Permutation_in; eauto|auto]. Qed.

(** the donor of a fringe node is its best candidate: the one the point is parametrically nearest to, the lowest identifier among equals;
    its distance and coordinates are the ones recorded.  Only a node whose every candidate is 1e16 or farther has no donor. *)
Theorem C78_donor_is_the_best_candidate rank pt dist keys :
  let r := complete_search rank pt dist (sort_keys keys) in
  (exists e, best_donor (candidate rank pt keys) dist e /\ fst (dist e) < 10^16 /\ r = mkSI (fst (dist e)) (Some e) (snd (dist e))) \/
  (si_el r = None /\ forall e, candidate rank pt keys e -> 10^16 <= fst (dist e)).
Proof.
  intro r. destruct (C78_search_results_sorted keys) as [P S'].
  assert (C : forall e, candidate rank pt (sort_keys keys) e <-> candidate rank pt keys e)
    by (intro e; split; apply candidate_perm; [exact P|apply Permutation_sym, P]).
  destruct (fold_step rank pt dist (sort_keys keys) (mkSI (10^16) None (V3 0 0 0)) S') as [[R1 R2]|(e & R1 & R2 & R3 & R4)].
  { intros e H. discriminate H. }
  - right. split; [unfold r, complete_search; fold (step rank pt dist); rewrite R1; reflexivity|].
    intros e He. apply R2, C, He.
  - left. exists e. split; [split; [apply C, R1|intros e' He'; apply R4, C, He']|]. split; [exact R3|exact R2].
Qed.
(** so the result does not depend on the order in which the coarse search reported its pairs, nor on the rank that asks: two ranks that hold
    the node and were offered the same elements choose the same donor and the same coordinates *)
Lemma best_donor_unique c1 c2 dist a b : (forall e, c1 e <-> c2 e) -> best_donor c1 dist a -> best_donor c2 dist b -> a = b.
Proof.
  intros C [A1 A2] [B1 B2]. destruct (A2 b (proj2 (C b) B1)) as [H|[H H']]; destruct (B2 a (proj1 (C a) A1)) as [G|[G G']]; try lra; lia.
Qed.
Theorem C78_donor_independent_of_rank_and_order rank1 rank2 pt dist keys1 keys2 :
  (forall e, candidate rank1 pt keys1 e <-> candidate rank2 pt keys2 e) ->
  complete_search rank1 pt dist (sort_keys keys1) = complete_search rank2 pt dist (sort_keys keys2).
Proof.
  intros C.
  destruct (C78_donor_is_the_best_candidate rank1 pt dist keys1) as [(a & A1 & A2 & A3)|[A1 A2]];
  destruct (C78_donor_is_the_best_candidate rank2 pt dist keys2) as [(b & B1 & B2 & B3)|[B1 B2]].
  - rewrite A3, B3. rewrite (best_donor_unique _ _ dist a b C A1 B1). reflexivity.
  - exfalso. destruct A1 as [A1 _]. apply C, B2 in A1. lra.
  - exfalso. destruct B1 as [B1 _]. apply (proj2 (C b)), A2 in B1. lra.
  - assert (Q : forall rank keys, (forall e, candidate rank pt keys e -> 10^16 <= fst (dist e)) ->
               complete_search rank pt dist (sort_keys keys) = mkSI (10^16) None (V3 0 0 0)).
    { clear. intros rank keys H. destruct (C78_search_results_sorted keys) as [P S'].
      destruct (fold_step rank pt dist (sort_keys keys) (mkSI (10^16) None (V3 0 0 0)) S') as [[R1 R2]|(e & R1 & R2 & R3 & R4)].
      { intros e G. discriminate G. }
      - exact R1.
      - exfalso. cbn [si_best] in R3. specialize (H e (candidate_perm _ _ _ _ _ P R1)). lra. }
    rewrite (Q _ _ A2), (Q _ _ B2). reflexivity.
Qed.

(** ** an element that contains the point is always a candidate *)
(** [p] is a convex combination of the nodes *)
Definition combo (w : list (R * v3)) : v3 := V3 (lsum (fun a => fst a * vx (snd a)) w) (lsum (fun a => fst a * vy (snd a)) w) (lsum (fun a => fst a * vz (snd a)) w).
Lemma convex_bounds (f : v3 -> R) (w : list (R * v3)) lo hi : (forall a, In a w -> 0 <= fst a) ->
  (forall a, In a w -> lo <= f (snd a) <= hi) -> lo * lsum fst w <= lsum (fun a => fst a * f (snd a)) w <= hi * lsum fst w.
Proof.
  induction w as [|a t IH]; cbn [lsum fold_right]; intros H1 H2.
  - unfold lsum; cbn. lra.
  - rewrite !lsum_cons. destruct IH as [I1 I2]; [intros; apply H1; right; auto|intros; apply H2; right; auto|].
    specialize (H1 a (or_introl eq_refl)). specialize (H2 a (or_introl eq_refl)). split; nra.
Qed.
Theorem C78_containing_element_is_a_candidate (w : list (R * v3)) :
  (forall a, In a w -> 0 <= fst a) -> lsum fst w = 1 -> in_box (elem_box (map snd w)) (combo w).
Proof.
  intros H1 H2.
  assert (B : forall a, In a w -> in_box (elem_box (map snd w)) (snd a)) by (intros a Ha; apply elem_box_contains, in_map, Ha).
  pose proof (convex_bounds vx w (vx (fst (elem_box (map snd w)))) (vx (snd (elem_box (map snd w)))) H1 ltac:(intros a Ha; specialize (B a Ha); unfold in_box in B; tauto)) as X.
  pose proof (convex_bounds vy w (vy (fst (elem_box (map snd w)))) (vy (snd (elem_box (map snd w)))) H1 ltac:(intros a Ha; specialize (B a Ha); unfold in_box in B; tauto)) as Y.
  pose proof (convex_bounds vz w (vz (fst (elem_box (map snd w)))) (vz (snd (elem_box (map snd w)))) H1 ltac:(intros a Ha; specialize (B a Ha); unfold in_box in B; tauto)) as Z.
  rewrite H2 in X, Y, Z. unfold in_box, combo. cbn [vx vy vz]. repeat split; lra.
Qed.
(** then the donor is at least as good as the containing element: its parametric distance is not larger, in particular at most 1 (a point
    inside) when the containing element's is *)
Theorem C78_donor_at_least_as_good rank pt dist keys e : candidate rank pt keys e -> fst (dist e) <= 1 ->
  exists d, si_el (complete_search rank pt dist (sort_keys keys)) = Some d /\ candidate rank pt keys d /\
    si_best (complete_search rank pt dist (sort_keys keys)) = fst (dist d) /\ fst (dist d) <= fst (dist e) /\
    si_iso (complete_search rank pt dist (sort_keys keys)) = snd (dist d).
Proof.
  intros Hc H1. destruct (C78_donor_is_the_best_candidate rank pt dist keys) as [(d & D1 & D2 & D3)|[A1 A2]].
  - exists d. rewrite D3. cbn. split; [reflexivity|]. destruct D1 as [D1 D1']. split; [exact D1|]. split; [reflexivity|].
    split; [|reflexivity]. destruct (D1' e Hc) as [?|[? ?]]; lra.
  - exfalso. specialize (A2 e Hc). lra.
Qed.

(** ** clipping *)
(** with clipping (and detailed output) on, a point outside its donor gets coordinates within 1e-6 of the parametric cube and the
    others keep theirs; each coordinate goes to the nearest allowed value (in particular one already inside is kept); without it
    nothing changes *)
Theorem C78_clipped_coordinates si :
  si_best (finish_search true true si) = si_best si /\ si_el (finish_search true true si) = si_el si /\
  (1 + /10^6 < si_best si -> let c := si_iso (finish_search true true si) in let o := si_iso si in
     Rabs (vx c) <= 1 + /10^6 /\ Rabs (vy c) <= 1 + /10^6 /\ Rabs (vz c) <= 1 + /10^6 /\
     (forall y, Rabs y <= 1 + /10^6 -> Rabs (vx o - vx c) <= Rabs (vx o - y) /\
        Rabs (vy o - vy c) <= Rabs (vy o - y) /\ Rabs (vz o - vz c) <= Rabs (vz o - y))) /\
  (si_best si <= 1 + /10^6 -> finish_search true true si = si) /\
  (forall clip, finish_search false clip si = si) /\ (forall d, finish_search d false si = si).
Proof.
  assert (T : 0 < /10^6) by (apply Rinv_0_lt_compat; lra).
  assert (K : forall x, Rabs (clip1 (/10^6) x) <= 1 + /10^6).
  { intro x. unfold clip1. generalize dependent (/10^6). intros t T. apply Rabs_le.
    destruct (Rlt_dec (1+t) x); destruct (Rlt_dec _ _); lra. }
  assert (N : forall x y, Rabs y <= 1 + /10^6 -> Rabs (x - clip1 (/10^6) x) <= Rabs (x - y)).
  { intros x y. clear K. unfold clip1. generalize dependent (/10^6). intros t T Hy. assert (-(1+t) <= y <= 1+t) by (unfold Rabs in Hy; destruct (Rcase_abs y); lra).
    unfold Rabs. destruct (Rlt_dec (1+t) x); destruct (Rlt_dec _ _); repeat destruct (Rcase_abs _); lra. }
  unfold finish_search. destruct (Rlt_dec (1 + /10^6) (si_best si)) as [L|L]; cbn.
  - repeat split; try apply K; try (apply N; assumption); try reflexivity; try lra. destruct d; reflexivity.
  - repeat split; try reflexivity; try lra. all: try (intros; exfalso; apply L; assumption). destruct d; reflexivity.
Qed.
(** asking for clipping is not enough: unless the detailed output is also switched on, a point outside its donor keeps coordinates
    outside the parametric cube (the donor values are then extrapolated) *)
Theorem C78_clipping_needs_detailed_output_refuted :
  exists si, 1 + /10^6 < si_best si /\ ~ Rabs (vx (si_iso (finish_search false true si))) <= 1 + /10^6 /\
    Rabs (vx (si_iso (finish_search true true si))) <= 1 + /10^6.
Proof.
  assert (T : 0 < /10^6 < 1) by lra.
  exists (mkSI 3 (Some 1%nat) (V3 3 0 0)). cbn [si_best]. split; [lra|]. split.
  - cbn. rewrite Rabs_right by lra. lra.
  - apply C78_clipped_coordinates. cbn [si_best]. lra.
Qed.

(** a node offered four pairs (one for another rank, two equally good elements 7 and 4 reported in the wrong order) *)
Example C78_donor_hypotheses_met :
  let keys := [mkK 5 0 7 0; mkK 5 0 9 1; mkK 5 0 4 1; mkK 5 1 2 0] in
  let dist := fun e => ((if Nat.eqb e 9 then 2 else 1/2), V3 0 0 (INR e)) in
  si_el (complete_search 0 5 dist (sort_keys keys)) = Some 4%nat /\ best_donor (candidate 0 5 keys) dist 4.
Proof.
  intros keys dist.
  assert (E : sort_keys keys = [mkK 5 0 4 1; mkK 5 0 7 0; mkK 5 0 9 1; mkK 5 1 2 0]) by reflexivity.
  assert (B : best_donor (candidate 0 5 keys) dist 4).
  { split; [exists (mkK 5 0 4 1); cbn; intuition|]. intros e (k & Hk & H1 & H2 & <-). cbn in Hk.
    destruct Hk as [<-|[<-|[<-|[<-|[]]]]]; cbn in *; try discriminate; unfold dist; cbn; [right; split; [lra|lia]|left; lra|right; split; [lra|lia]]. }
  split; [|exact B].
  destruct (C78_donor_is_the_best_candidate 0 5 dist keys) as [(d & D1 & D2 & D3)|[A1 A2]].
  - rewrite D3. cbn. f_equal. apply (best_donor_unique _ _ dist d 4 (fun e => iff_refl _) D1 B).
  - exfalso. destruct B as [B _]. specialize (A2 _ B). unfold dist in A2. cbn in A2. lra.
Qed.
