(** C92: explicit filtering - which elements are filtered over, and the filtered value. *)
Require Import Reals List Bool Lra Lia Arith Permutation Sorted.
From Verif Require Import RUtil Edge_Model Edge_Proofs Elem_Model Sum_Proofs Motion_Model Cut_Model Cut_Props Cut_Props2 Filter_Model.
From Verif Require Geom_Props Force_Props.
Import ListNotations.
Open Scope R_scope.

(** *** specification *)
(** the filter of node n reaches element e: the box of the given size around the node meets the element's bounding box *)
Definition reaches (M : fmesh) (size : v3) (n : nat) (e : felem) : Prop := boxes_meet (filter_box size (fm_x M n)) (felem_box M e) = true.
Definition ids_ok (M : fmesh) : Prop := NoDup (map fst (fm_nodes M)) /\ NoDup (map fl_id (fm_els M)).
(** the stencil of node n: identifiers of the reached elements, ascending *)
Definition stencil_of (M : fmesh) (size : v3) (n : nat) (l : list nat) : Prop :=
  StronglySorted lt l /\ forall i, In i l <-> exists e, In e (fm_els M) /\ fl_id e = i /\ reaches M size n e.
Lemma ascending_unique (l l' : list nat) : StronglySorted lt l -> StronglySorted lt l' -> (forall i, In i l <-> In i l') -> l = l'.
Proof.
  revert l'. induction l as [|x l IH]; intros l' S1 S2 H.
  - destruct l' as [|y l']; [reflexivity|]. exfalso. apply (proj2 (H y)). left; reflexivity.
  - destruct l' as [|y l']; [exfalso; apply (proj1 (H x)); left; reflexivity|].
    inversion S1 as [|? ? S1' F1]; subst. inversion S2 as [|? ? S2' F2]; subst. rewrite Forall_forall in F1, F2.
    assert (x = y).
    { destruct (proj1 (H x) (or_introl eq_refl)) as [E|E]; [auto|]. destruct (proj2 (H y) (or_introl eq_refl)) as [E'|E']; [auto|]. specialize (F1 y E'). specialize (F2 x E). lia. }
    subst y. f_equal. apply IH; [assumption|assumption|]. intros i. split; intros Hi.
    + destruct (proj1 (H i) (or_intror Hi)) as [E|E]; [subst; specialize (F1 i Hi); lia|exact E].
    + destruct (proj2 (H i) (or_intror Hi)) as [E|E]; [subst; specialize (F2 i Hi); lia|exact E].
Qed.

(** *** the search *)
Lemma all_hits_in M size k : In k (all_hits M size) <->
  exists n e, In n (fm_nodes M) /\ In e (fm_els M) /\ reaches M size (fst n) e /\ k = mkK (fst n) (snd n) (fl_id e) (fl_proc e).
Proof.
  unfold all_hits. rewrite in_flat_map. split.
  - intros (n & Hn & H). apply in_flat_map in H. destruct H as (e & He & H). destruct (boxes_meet _ _) eqn:E; [|destruct H]. destruct H as [<- | []]. exists n, e. auto.
  - intros (n & e & Hn & He & H & ->). exists n. split; [exact Hn|]. apply in_flat_map. exists e. split; [exact He|]. unfold reaches in H. rewrite H. left; reflexivity.
Qed.
Lemma ghost_in r keys p : In p (elems_to_ghost r keys) <-> exists k, In k keys /\ k_elproc k = r /\ k_ptproc k <> r /\ p = (k_el k, k_ptproc k).
Proof.
  unfold elems_to_ghost. set (step := fun l k => _).
  assert (G : forall ks l, In p (fold_left step ks l) <-> In p l \/ exists k, In k ks /\ k_elproc k = r /\ k_ptproc k <> r /\ p = (k_el k, k_ptproc k)).
  { induction ks as [|k ks IH]; intros l; cbn [fold_left].
    - split; [auto|]. intros [H|(k & [] & _)]. exact H.
    - rewrite IH. unfold step. destruct (Nat.eqb_spec (k_elproc k) r) as [E|E], (Nat.eqb_spec (k_ptproc k) r) as [E'|E']; cbn [andb negb].
      1,3,4: split; [intros [H|(k' & H & Q)]; [auto|right; exists k'; split; [right|]; assumption]|intros [H|(k' & [<- | H] & Q)]; [auto|tauto|right; exists k'; auto]].
      rewrite in_app_iff. cbn [In]. split.
      + intros [[H|[H|[]]]|(k' & H & Q)]; [auto| |right; exists k'; split; [right|]; assumption]. right. exists k. split; [left; reflexivity|]. auto.
      + intros [H|(k' & [<- | H] & Q1 & Q2 & Q3)]; [auto|left; right; left; auto|right; exists k'; auto]. }
  rewrite G. destruct (C78_search_results_sorted keys) as [P _]. split.
  - intros [[]|(k & H & Q)]. exists k. split; [apply (Permutation_in _ P), H|exact Q].
  - intros (k & H & Q). right. exists k. split; [apply (Permutation_in _ (Permutation_sym P)), H|exact Q].
Qed.
Lemma complete_value r here keys : (forall k, In k keys -> k_ptproc k = r -> here (k_el k) = true) ->
  exists f, complete r here keys = Some f /\ forall n, f n = map k_el (filter (fun k => (Nat.eqb r (k_ptproc k) && Nat.eqb n (k_pt k))%bool) (sort_keys keys)).
Proof.
  intros H. unfold complete. destruct (C78_search_results_sorted keys) as [P _].
  assert (H' : forall k, In k (sort_keys keys) -> k_ptproc k = r -> here (k_el k) = true) by (intros k Hk; apply H, (Permutation_in _ P), Hk).
  clear H P. revert H'. generalize (sort_keys keys) as ks. clear keys. intros ks.
  assert (G : forall f0, (forall k, In k ks -> k_ptproc k = r -> here (k_el k) = true) ->
    exists f, fold_left (fun st k => match st with None => None | Some f => if Nat.eqb r (k_ptproc k)
      then if here (k_el k) then Some (fun n => if Nat.eqb n (k_pt k) then f n ++ [k_el k] else f n) else None else Some f end) ks (Some f0) = Some f /\
      forall n, f n = f0 n ++ map k_el (filter (fun k => (Nat.eqb r (k_ptproc k) && Nat.eqb n (k_pt k))%bool) ks)).
  { induction ks as [|k ks IH]; intros f0 H; cbn [fold_left].
    - exists f0. split; [reflexivity|]. intros n. cbn. rewrite app_nil_r. reflexivity.
    - destruct (Nat.eqb_spec r (k_ptproc k)) as [E|E].
      + rewrite (H k (or_introl eq_refl) (eq_sym E)). destruct (IH (fun n => if Nat.eqb n (k_pt k) then f0 n ++ [k_el k] else f0 n)) as (f & F1 & F2); [intros; apply H; [right|]; assumption|].
        exists f. split; [exact F1|]. intros n. rewrite F2. cbn [filter]. rewrite <- E, Nat.eqb_refl. cbn [andb]. destruct (Nat.eqb n (k_pt k)); [|reflexivity]. rewrite <- app_assoc. reflexivity.
      + destruct (IH f0) as (f & F1 & F2); [intros; apply H; [right|]; assumption|]. exists f. split; [exact F1|]. intros n. rewrite F2. cbn [filter].
        destruct (Nat.eqb_spec r (k_ptproc k)); [contradiction|]. reflexivity. }
  intros H. destruct (G (fun _ => []) H) as (f & F1 & F2). exists f. split; [exact F1|exact F2].
Qed.
Lemma nodup_id M e e' : NoDup (map fl_id (fm_els M)) -> In e (fm_els M) -> In e' (fm_els M) -> fl_id e = fl_id e' -> e = e'.
Proof.
  generalize (fm_els M) as l. induction l as [|x l IH]; intros ND H H' E; [destruct H|]. inversion ND as [|? ? NI ND']; subst.
  destruct H as [-> | H], H' as [-> | H']; [reflexivity| | |apply IH; assumption]; exfalso; apply NI.
  - rewrite E. apply in_map, H'.
  - rewrite <- E. apply in_map, H.
Qed.
(** ** C92: every rank finds, for each of its nodes, exactly the elements of the whole mesh that the node's filter reaches, in
    ascending order, and none of them is missing on the rank *)
Theorem C92_stencil : forall M size hits ranks r n, ids_ok M -> Permutation hits (all_hits M size) ->
  (forall e, In e (fm_els M) -> In (fl_proc e) ranks) -> In (n, r) (fm_nodes M) ->
  exists f, complete r (exists_on M hits ranks r) (seen_by r hits) = Some f /\ stencil_of M size n (f n).
Proof.
  intros M size hits ranks r n [ND1 ND2] P HR Hn.
  assert (HI : forall k, In k hits <-> exists n e, In n (fm_nodes M) /\ In e (fm_els M) /\ reaches M size (fst n) e /\ k = mkK (fst n) (snd n) (fl_id e) (fl_proc e)).
  { intros k. rewrite <- all_hits_in. split; [apply Permutation_in; exact P|apply Permutation_in, Permutation_sym; exact P]. }
  assert (SI : forall s k, In k (seen_by s hits) <-> In k hits /\ (k_ptproc k = s \/ k_elproc k = s)).
  { intros s k. unfold seen_by. rewrite filter_In, orb_true_iff, !Nat.eqb_eq. reflexivity. }
  destruct (complete_value r (exists_on M hits ranks r) (seen_by r hits)) as (f & F1 & F2).
  { intros k Hk Hp. apply SI in Hk. destruct Hk as [Hk _]. pose proof Hk as Hk'. apply HI in Hk'. destruct Hk' as (n' & e & Hn' & He & _ & ->). cbn [k_el k_ptproc] in *.
    unfold exists_on. apply orb_true_iff. destruct (Nat.eq_dec (fl_proc e) r) as [E|E].
    - left. apply existsb_exists. exists e. split; [exact He|]. rewrite E, !Nat.eqb_refl. reflexivity.
    - right. apply existsb_exists. exists (fl_proc e). split; [apply HR, He|]. apply existsb_exists. exists (fl_id e, r). cbn [fst snd]. rewrite !Nat.eqb_refl. split; [|reflexivity].
      apply ghost_in. eexists. split; [apply SI; split; [exact Hk|right; reflexivity]|]. cbn [k_elproc k_ptproc k_el]. rewrite Hp. auto. }
  exists f. split; [exact F1|]. rewrite F2. destruct (C78_search_results_sorted (seen_by r hits)) as [PS SS]. split.
  - assert (Q : forall k, In k (sort_keys (seen_by r hits)) -> In k hits) by (intros k Hk; apply (Permutation_in _ PS), SI in Hk; apply Hk).
    assert (NDH : NoDup (sort_keys (seen_by r hits))).
    { apply (Permutation_NoDup (Permutation_sym PS)). unfold seen_by. apply NoDup_filter, (Permutation_NoDup (Permutation_sym P)). unfold all_hits.
      assert (X : forall nodes, NoDup (map fst nodes) -> NoDup (flat_map (fun n : nat * nat => flat_map (fun e => if boxes_meet (filter_box size (fm_x M (fst n))) (felem_box M e)
         then [mkK (fst n) (snd n) (fl_id e) (fl_proc e)] else []) (fm_els M)) nodes)).
      { induction nodes as [|a nodes IH]; intros ND; [constructor|]. cbn [flat_map]. inversion ND as [|? ? NI ND']; subst. 
        assert (Y : forall els, NoDup (map fl_id els) -> NoDup (flat_map (fun e => if boxes_meet (filter_box size (fm_x M (fst a))) (felem_box M e) then [mkK (fst a) (snd a) (fl_id e) (fl_proc e)] else []) els)).
        { induction els as [|e els IHe]; intros NDe; [constructor|]. cbn [flat_map]. inversion NDe as [|? ? NIe NDe']; subst. destruct (boxes_meet _ _); [|apply IHe; assumption].
          cbn [app]. constructor; [|apply IHe; assumption]. intros H. apply in_flat_map in H. destruct H as (e' & He' & H). destruct (boxes_meet _ _); [|destruct H]. destruct H as [H|[]]. injection H as H1 _. apply NIe. rewrite <- H1. apply in_map, He'. }
        specialize (Y (fm_els M) ND2). specialize (IH ND'). revert Y IH.
        assert (D : forall k, In k (flat_map (fun e => if boxes_meet (filter_box size (fm_x M (fst a))) (felem_box M e) then [mkK (fst a) (snd a) (fl_id e) (fl_proc e)] else []) (fm_els M)) ->
           ~ In k (flat_map (fun n => flat_map (fun e => if boxes_meet (filter_box size (fm_x M (fst n))) (felem_box M e) then [mkK (fst n) (snd n) (fl_id e) (fl_proc e)] else []) (fm_els M)) nodes)).
        { intros k H1 H2. apply in_flat_map in H1. destruct H1 as (e1 & _ & H1). destruct (boxes_meet _ _) in H1; [|destruct H1]. destruct H1 as [<- | []].
          apply in_flat_map in H2. destruct H2 as (n2 & Hn2 & H2). apply in_flat_map in H2. destruct H2 as (e2 & _ & H2). destruct (boxes_meet _ _) in H2; [|destruct H2]. destruct H2 as [H2|[]].
          injection H2 as H2 _. apply NI. rewrite <- H2. apply in_map, Hn2. }
        revert D. generalize (flat_map (fun e => if boxes_meet (filter_box size (fm_x M (fst a))) (felem_box M e) then [mkK (fst a) (snd a) (fl_id e) (fl_proc e)] else []) (fm_els M)) as l1.
        generalize (flat_map (fun n => flat_map (fun e => if boxes_meet (filter_box size (fm_x M (fst n))) (felem_box M e) then [mkK (fst n) (snd n) (fl_id e) (fl_proc e)] else []) (fm_els M)) nodes) as l2.
        clear. intros l2 l1 D N1 N2. induction l1 as [|x l1 IH]; [exact N2|]. cbn [app]. inversion N1; subst. constructor.
        - rewrite in_app_iff. intros [H|H]; [contradiction|]. apply (D x); [left; reflexivity|exact H].
        - apply IH; [intros k Hk; apply D; right; exact Hk|assumption]. }
      apply X, ND1. }
    clear PS F1 F2. revert SS Q NDH. generalize (sort_keys (seen_by r hits)) as ks. induction ks as [|k ks IH]; intros SS Q NDH; [constructor|].
    cbn [filter]. destruct SS as [S1 S2]. inversion NDH as [|? ? NI ND']; subst. destruct (Nat.eqb_spec r (k_ptproc k)) as [E|E]; [|apply IH; auto; intros; apply Q; right; assumption].
    destruct (Nat.eqb_spec n (k_pt k)) as [E2|E2]; cbn [andb]; [|apply IH; auto; intros; apply Q; right; assumption].
    cbn [map]. constructor; [apply IH; auto; intros; apply Q; right; assumption|]. apply Forall_forall. intros i Hi. apply in_map_iff in Hi. destruct Hi as (k' & <- & Hk').
    apply filter_In in Hk'. destruct Hk' as [Hk' B]. apply andb_true_iff in B. rewrite !Nat.eqb_eq in B. destruct B as [B1 B2].
    specialize (S1 k' Hk'). pose proof (proj1 (HI k) (Q k (or_introl eq_refl))) as (n1 & e1 & _ & He1 & _ & K1). pose proof (proj1 (HI k') (Q k' (or_intror Hk'))) as (n2 & e2 & _ & He2 & _ & K2).
    unfold key_le, skey_lt in S1. rewrite K1, K2 in *. cbn [k_el k_pt k_ptproc k_elproc] in *.
    destruct (Nat.lt_trichotomy (fl_id e1) (fl_id e2)) as [L|[L|L]]; [exact L| |].
    + exfalso. rewrite (nodup_id M e1 e2 ND2 He1 He2 L) in *. apply NI. replace (fst n1) with (fst n2) by congruence. replace (snd n1) with (snd n2) by congruence. exact Hk'.
    + exfalso. revert S1. rewrite <- E2, <- B2, <- E, <- B1. rewrite !Nat.ltb_irrefl, !Nat.eqb_refl. cbn [orb andb].
      rewrite (proj2 (Nat.ltb_lt _ _) L). cbn [orb]. discriminate.
  - intros i. rewrite in_map_iff. split.
    + intros (k & <- & Hk). apply filter_In in Hk. destruct Hk as [Hk B]. apply andb_true_iff in B. rewrite !Nat.eqb_eq in B. destruct B as [_ B2].
      apply (Permutation_in _ PS), SI in Hk. destruct Hk as [Hk _]. apply HI in Hk. destruct Hk as (n' & e & _ & He & Re & ->). cbn [k_el k_pt] in *. exists e. rewrite B2. auto.
    + intros (e & He & <- & Re). exists (mkK n r (fl_id e) (fl_proc e)). split; [reflexivity|]. apply filter_In. split; [|cbn [k_ptproc k_pt]; rewrite !Nat.eqb_refl; reflexivity].
      apply (Permutation_in _ (Permutation_sym PS)). apply SI. split; [|left; reflexivity]. apply HI. exists (n, r), e. auto.
Qed.
(** ** C92: the stencil does not depend on how nodes and elements are distributed over the ranks, nor on the order the search
    returns its hits: two distributions of the same mesh give the same list *)
Definition same_mesh (M M' : fmesh) : Prop :=
  (forall n, fm_x M n = fm_x M' n) /\
  (forall i ns, (exists e, In e (fm_els M) /\ fl_id e = i /\ fl_nodes e = ns) <-> (exists e, In e (fm_els M') /\ fl_id e = i /\ fl_nodes e = ns)).
Lemma same_reaches M M' size n e e' : same_mesh M M' -> fl_nodes e = fl_nodes e' -> reaches M size n e -> reaches M' size n e'.
Proof.
  intros [X _] E. unfold reaches, felem_box. rewrite <- X, <- E. intros H. rewrite <- H. f_equal. f_equal. apply map_ext. intros; symmetry; apply X.
Qed.
Theorem C92_distribution_independent : forall M M' size hits hits' ranks ranks' r r' n f f', same_mesh M M' -> ids_ok M -> ids_ok M' ->
  Permutation hits (all_hits M size) -> Permutation hits' (all_hits M' size) ->
  (forall e, In e (fm_els M) -> In (fl_proc e) ranks) -> (forall e, In e (fm_els M') -> In (fl_proc e) ranks') ->
  In (n, r) (fm_nodes M) -> In (n, r') (fm_nodes M') ->
  complete r (exists_on M hits ranks r) (seen_by r hits) = Some f -> complete r' (exists_on M' hits' ranks' r') (seen_by r' hits') = Some f' -> f n = f' n.
Proof.
  intros M M' size hits hits' ranks ranks' r r' n f f' SM I I' P P' HR HR' Hn Hn' F F'.
  destruct (C92_stencil M size hits ranks r n I P HR Hn) as (g & G & S1 & S2). destruct (C92_stencil M' size hits' ranks' r' n I' P' HR' Hn') as (g' & G' & S1' & S2').
  rewrite F in G. injection G as <-. rewrite F' in G'. injection G' as <-. apply ascending_unique; [exact S1|exact S1'|]. intros i. rewrite S2, S2'. split.
  - intros (e & He & <- & R). destruct (proj1 (proj2 SM (fl_id e) (fl_nodes e))) as (e' & He' & E1 & E2); [exists e; auto|]. exists e'. split; [exact He'|]. split; [exact E1|].
    exact (same_reaches M M' size n e e' SM (eq_sym E2) R).
  - intros (e & He & <- & R). destruct (proj2 (proj2 SM (fl_id e) (fl_nodes e))) as (e' & He' & E1 & E2); [exists e; auto|]. exists e'. split; [exact He'|]. split; [exact E1|].
    apply (same_reaches M' M size n e e'); auto. split; [intros; symmetry; apply (proj1 SM)|intros; symmetry; apply (proj2 SM)].
Qed.
(** ** C92: the elements around a node are always in its stencil, and a larger filter only adds elements *)
Theorem C92_own_elements : forall M size n e, 0 <= vx size -> 0 <= vy size -> 0 <= vz size -> In n (fl_nodes e) -> reaches M size n e.
Proof.
  intros M size n e H1 H2 H3 Hn. unfold reaches. apply (common_point_meet _ _ (fm_x M n)).
  - unfold in_box, filter_box. cbn [fst snd vx vy vz]. lra.
  - apply elem_box_contains. apply in_map, Hn.
Qed.
Theorem C92_larger_filter : forall M size size' n e, vx size <= vx size' -> vy size <= vy size' -> vz size <= vz size' -> reaches M size n e -> reaches M size' n e.
Proof.
  intros M size size' n e H1 H2 H3 H. unfold reaches in *. apply boxes_meet_spec in H. apply boxes_meet_spec. unfold filter_box in *. cbn [fst snd vx vy vz] in *. lra.
Qed.
(** reached = no further away than half the filter size in every direction (elements' bounding boxes, in range of the initial box) *)
Theorem C92_reach : forall M size n e, (reaches M size n e <->
  let b := felem_box M e in let p := fm_x M n in
  (vx (fst b) - (1/2)*vx size <= vx p <= vx (snd b) + (1/2)*vx size) /\ (vy (fst b) - (1/2)*vy size <= vy p <= vy (snd b) + (1/2)*vy size) /\ (vz (fst b) - (1/2)*vz size <= vz p <= vz (snd b) + (1/2)*vz size)).
Proof. intros M size n e. unfold reaches. rewrite boxes_meet_spec. unfold filter_box. cbn [fst snd vx vy vz]. cbv zeta. split; intros; lra. Qed.

(** *** the filtered value *)
(** volume of an element, mean of a field over its nodes, volume-weighted mean over a list of elements *)
Definition volume (e : felem) : R := lsum (fun v => v) (fl_scv e).
Definition node_mean (q : nat -> R) (e : felem) : R := lsum q (fl_nodes e) / INR (length (fl_nodes e)).
Definition volume_mean (q : nat -> R) (els : list felem) : R := lsum (fun e => volume e * node_mean q e) els / lsum volume els.
Definition sound (e : felem) : Prop := 0 < volume e /\ fl_nodes e <> [].
Lemma fold_lsum {A} (f : A -> R) l : forall a, fold_left (fun a x => a + f x) l a = a + lsum f l.
Proof. induction l as [|x l IH]; intros a; cbn [fold_left]; [unfold lsum; cbn; ring|]. rewrite IH, lsum_cons. ring. Qed.
Lemma elem_volume_value e : elem_volume e = volume e.
Proof. unfold elem_volume, volume. rewrite (fold_lsum (fun v => v)). ring. Qed.
Lemma elem_mean_value q e v : elem_mean q e v = v * node_mean q e.
Proof.
  unfold elem_mean, node_mean. cbv zeta. rewrite (fold_lsum (fun n => q n * (1 / INR (length (fl_nodes e))) * v)).
  rewrite (lsum_ext _ (fun n => (v / INR (length (fl_nodes e))) * q n)) by (intros; unfold Rdiv; ring). rewrite lsum_scal. unfold Rdiv. ring.
Qed.
Lemma assemble_value q els : fst (assemble_filter q els) = lsum volume els /\ snd (assemble_filter q els) = lsum (fun e => volume e * node_mean q e) els.
Proof.
  unfold assemble_filter.
  set (step := fun (st : R * R) (e : felem) => _).
  assert (ST : forall st e, fst (step st e) = fst st + volume e /\ snd (step st e) = snd st + volume e * node_mean q e).
  { intros st e. unfold step. cbv zeta. cbn [fst snd]. rewrite elem_mean_value, elem_volume_value. auto. }
  clearbody step.
  assert (G : forall st, fst (fold_left step els st) = fst st + lsum volume els /\ snd (fold_left step els st) = snd st + lsum (fun e => volume e * node_mean q e) els).
  { induction els as [|e els IH]; intros st; cbn [fold_left]; [unfold lsum; cbn; split; ring|]. destruct (IH (step st e)) as [-> ->].
    destruct (ST st e) as [-> ->]. rewrite !lsum_cons. split; ring. }
  destruct (G (0,0)) as [-> ->]. cbn [fst snd]. split; ring.
Qed.
(** ** C92: the filtered value is the volume-weighted mean, over the elements of the stencil - for a periodic node those of all
    its images - of the means over each element's nodes, whatever the number of ranks sharing the node *)
Theorem C92_filtered_value : forall q images others, filtered q images others = volume_mean q (concat images).
Proof.
  intros q images others. unfold filtered, volume_mean. cbv zeta.
  set (step := fun (st : R * R) els => _).
  assert (G : forall st, fst (fold_left step images st) = fst st + lsum volume (concat images) /\ snd (fold_left step images st) = snd st + lsum (fun e => volume e * node_mean q e) (concat images)).
  { induction images as [|els images IH]; intros st; cbn [fold_left concat]; [unfold lsum; cbn; split; ring|]. destruct (IH (step st els)) as [-> ->]. unfold step. cbn [fst snd].
    destruct (assemble_value q els) as [-> ->]. rewrite !lsum_app. split; ring. }
  destruct (G (0,0)) as [-> ->]. cbn [fst snd]. rewrite !Rplus_0_l. unfold Rdiv. ring.
Qed.
Lemma vsum_pos els : (forall e, In e els -> sound e) -> els <> [] -> 0 < lsum volume els.
Proof.
  intros H N. destruct els as [|e els]; [contradiction|]. rewrite lsum_cons. apply Rplus_lt_le_0_compat; [apply H; left; reflexivity|].
  assert (P : forall e', In e' els -> 0 < volume e') by (intros; apply H; right; assumption). clear - P. induction els as [|x els IH]; [unfold lsum; cbn; lra|].
  rewrite lsum_cons. apply Rplus_le_le_0_compat; [left; apply P; left; reflexivity|apply IH; intros; apply P; right; assumption].
Qed.
Lemma node_mean_between q e lo hi : fl_nodes e <> [] -> (forall n, In n (fl_nodes e) -> lo <= q n <= hi) -> lo <= node_mean q e <= hi.
Proof.
  intros N H. unfold node_mean. assert (P : 0 < INR (length (fl_nodes e))) by (apply lt_0_INR; destruct (fl_nodes e); [contradiction|cbn; lia]).
  assert (B : lo * INR (length (fl_nodes e)) <= lsum q (fl_nodes e) <= hi * INR (length (fl_nodes e))).
  { clear N P. induction (fl_nodes e) as [|x l IH]; [unfold lsum; cbn; lra|]. rewrite lsum_cons. cbn [length]. rewrite S_INR. specialize (IH ltac:(intros; apply H; right; assumption)). specialize (H x (or_introl eq_refl)). lra. }
  split; [apply Rle_div_r; [exact P|lra]|apply Rle_div_l; [exact P|lra]].
Qed.
(** ** C92: so it lies between the extremes of the field over the nodes of the stencil, and constants are unchanged *)
Theorem C92_filter_bounded : forall q images others lo hi, concat images <> [] -> (forall e, In e (concat images) -> sound e) ->
  (forall e n, In e (concat images) -> In n (fl_nodes e) -> lo <= q n <= hi) -> lo <= filtered q images others <= hi.
Proof.
  intros q images others lo hi N HS H. rewrite C92_filtered_value. unfold volume_mean. set (els := concat images) in *. pose proof (vsum_pos els HS N) as P.
  split; [apply Rle_div_r|apply Rle_div_l]; try exact P; rewrite <- lsum_scal; apply Force_Props.lsum_le; intros e He; destruct (HS e He) as [V NE];
    pose proof (node_mean_between q e lo hi NE (fun n => H e n He)); nra.
Qed.
Theorem C92_constants_kept : forall q images others c, concat images <> [] -> (forall e, In e (concat images) -> sound e) -> (forall n, q n = c) -> filtered q images others = c.
Proof.
  intros q images others c N HS H. pose proof (C92_filter_bounded q images others c c N HS) as B. assert (c <= filtered q images others <= c) by (apply B; intros; rewrite H; lra). lra.
Qed.
Theorem C92_filter_linear : forall a b p q images others,
  filtered (fun n => a * p n + b * q n) images others = a * filtered p images others + b * filtered q images others.
Proof.
  intros a b p q images others. rewrite !C92_filtered_value. unfold volume_mean.
  rewrite (lsum_ext _ (fun e => a * (volume e * node_mean p e) + b * (volume e * node_mean q e))).
  - rewrite lsum_plus, !lsum_scal. unfold Rdiv. ring.
  - intros e _. unfold node_mean. rewrite lsum_plus, !lsum_scal. unfold Rdiv. ring.
Qed.
(** ** C92: a linear field is filtered to its value at the volume-weighted mean of the elements' node means; so it is unchanged at
    every node whose stencil is centred there *)
Theorem C92_linear_field : forall (c : R) (g : v3) X images others, concat images <> [] -> (forall e, In e (concat images) -> sound e) ->
  filtered (fun n => c + (vx g * vx (X n) + vy g * vy (X n) + vz g * vz (X n))) images others
  = c + (vx g * volume_mean (fun n => vx (X n)) (concat images) + vy g * volume_mean (fun n => vy (X n)) (concat images) + vz g * volume_mean (fun n => vz (X n)) (concat images)).
Proof.
  intros c g X images others N HS. pose proof (C92_constants_kept (fun _ => c) images others c N HS (fun _ => eq_refl)) as C0.
  transitivity (filtered (fun n => 1 * c + 1 * (1 * (vx g * vx (X n) + vy g * vy (X n)) + vz g * vz (X n))) images others).
  { rewrite !C92_filtered_value. unfold volume_mean. f_equal. apply lsum_ext. intros e _. f_equal. unfold node_mean. f_equal. apply lsum_ext. intros; ring. }
  rewrite (C92_filter_linear 1 1 (fun _ => c)), C0, (C92_filter_linear 1 (vz g) (fun n => vx g * vx (X n) + vy g * vy (X n)) (fun n => vz (X n))), (C92_filter_linear (vx g) (vy g)), !C92_filtered_value. ring.
Qed.
(** a unit square of two triangles: filter of half size at node 0 *)
Definition ex_mesh : fmesh := mkFM [(0,0);(1,0);(2,1);(3,1)]%nat (fun n => nth n [V3 0 0 0; V3 1 0 0; V3 1 1 0; V3 0 1 0] (V3 0 0 0))
  [mkFEl 7 1 [0;1;2]%nat [1/6;1/6;1/6]; mkFEl 5 0 [0;2;3]%nat [1/6;1/6;1/6]].
Example C92_meets : ids_ok ex_mesh /\ (forall e, In e (fm_els ex_mesh) -> In (fl_proc e) [0;1]%nat) /\ In (2,1)%nat (fm_nodes ex_mesh) /\
  (forall e, In e (concat [fm_els ex_mesh]) -> sound e) /\ concat [fm_els ex_mesh] <> [].
Proof.
  split; [split; repeat constructor; cbn; lia|]. split; [intros e [<- | [<- | []]]; cbn; auto|]. split; [cbn; auto|]. split.
  - intros e [<- | [<- | []]]; (split; [unfold volume, lsum; cbn; lra|discriminate]).
  - discriminate.
Qed.
