(** C13 (row numbering) and C16 (sparsity graph), stated on Graph_Model. *)
Require Import ZArith List Lia Bool.
From Coq Require Import Sorting.Sorted.
From Verif Require Import Graph_Model Graph_Proofs.
Import ListNotations.
Open Scope Z_scope.

(* ================================================================== C13 *)
(** row id of (node, dof): the decoding macros recover node and dof *)
Theorem C13_decode_encode : forall gid nd d, 1 <= gid -> 0 <= d < nd ->
  GLOBAL_ENTITY_ID (GID_ gid nd d) nd = gid /\ GLOBAL_ENTITY_ID_IDOF (GID_ gid nd d) nd = d.
Proof.
  intros gid nd d Hg Hd. unfold GLOBAL_ENTITY_ID, GLOBAL_ENTITY_ID_IDOF, GID_.
  replace (nd * (gid - 1) + d + 1 - 1) with (nd * (gid-1) + d) by lia.
  assert (0 <= nd * (gid-1)) by nia.
  rewrite Z.quot_div_nonneg, Z.rem_mod_nonneg by lia.
  split.
  - rewrite Z.mul_comm, Z.div_add_l, Z.div_small by lia. lia.
  - rewrite Z.add_comm, Z.mul_comm, Z.mod_add, Z.mod_small by lia. lia.
Qed.

Theorem C13_encode_injective : forall nd g1 d1 g2 d2, 1 <= g1 -> 1 <= g2 -> 0 <= d1 < nd -> 0 <= d2 < nd ->
  GID_ g1 nd d1 = GID_ g2 nd d2 -> g1 = g2 /\ d1 = d2.
Proof.
  intros nd g1 d1 g2 d2 H1 H2 H3 H4 E.
  destruct (C13_decode_encode g1 nd d1 H1 H3) as [A B]. destruct (C13_decode_encode g2 nd d2 H2 H4) as [A' B'].
  rewrite E in A, B. split; congruence.
Qed.

(** for nodes 1..n the row ids are exactly 1..nd*n *)
Theorem C13_range : forall nd n r, 1 <= nd ->
  (1 <= r <= nd * n <-> exists g d, 1 <= g <= n /\ 0 <= d < nd /\ r = GID_ g nd d).
Proof.
  intros nd n r Hn. unfold GID_. split.
  - intros Hr. exists ((r-1) / nd + 1), ((r-1) mod nd).
    assert (A := Z.div_mod (r-1) nd ltac:(lia)). assert (B := Z.mod_pos_bound (r-1) nd ltac:(lia)).
    assert (0 <= (r-1)/nd) by (apply Z.div_pos; lia).
    assert ((r-1)/nd < n) by (apply Z.div_lt_upper_bound; lia).
    repeat split; lia.
  - intros (g & d & Hg & Hd & ->). nia.
Qed.

(** the decoding is wrong for id 0: ids must start at 1 (STK guarantees this) *)
Theorem C13_ids_must_be_positive : exists nd d, 0 <= d < nd /\ GLOBAL_ENTITY_ID (GID_ 0 nd d) nd <> 0.
Proof. exists 3, 1. split; [lia|]. vm_compute. discriminate. Qed.

(** the row list built from the node ids: position numDof*k+d holds the row id of (k-th node, d) ... *)
Theorem C13_row_list : forall nd ids, 
  length (gids_of nd ids) = (nd * length ids)%nat /\
  forall k d, (k < length ids)%nat -> (d < nd)%nat ->
    nth (nd*k+d) (gids_of nd ids) 0 = GID_ (nth k ids 0) (Z.of_nat nd) (Z.of_nat d).
Proof.
  intros nd ids. unfold gids_of. split.
  - induction ids; simpl; [lia|]. rewrite app_length, map_length, seq_length, IHids. lia.
  - induction ids as [|x ids IH]; intros k d Hk Hd; [simpl in Hk; lia|]. cbn [flat_map].
    destruct k as [|k].
    + rewrite app_nth1 by (rewrite map_length, seq_length; lia). rewrite Nat.mul_0_r, Nat.add_0_l.
      rewrite (nth_indep _ 0 (GID_ x (Z.of_nat nd) (Z.of_nat 0))) by (rewrite map_length, seq_length; lia).
      rewrite map_nth with (f := fun d => GID_ x (Z.of_nat nd) (Z.of_nat d)). rewrite seq_nth by lia. reflexivity.
    + rewrite app_nth2 by (rewrite map_length, seq_length; nia). rewrite map_length, seq_length.
      replace (nd * S k + d - nd)%nat with (nd*k+d)%nat by nia. cbn [nth length] in *. apply IH; lia.
Qed.

(** ... no row id is listed twice when the node ids are distinct and positive ... *)
Theorem C13_row_list_nodup : forall nd ids, NoDup ids -> (forall x, In x ids -> 1 <= x) -> NoDup (gids_of nd ids).
Proof.
  intros nd ids H1 H2. apply (NoDup_nth _ 0). destruct (C13_row_list nd ids) as [HL HN]. rewrite HL. intros a b Ha Hb E.
  destruct (Nat.eq_dec nd 0) as [->|Hn0]; [lia|].
  assert (Aa : a = (nd * (a/nd) + a mod nd)%nat) by (apply Nat.div_mod; lia).
  assert (Ab : b = (nd * (b/nd) + b mod nd)%nat) by (apply Nat.div_mod; lia).
  assert ((a / nd < length ids)%nat) by (apply Nat.div_lt_upper_bound; lia).
  assert ((b / nd < length ids)%nat) by (apply Nat.div_lt_upper_bound; lia).
  assert ((a mod nd < nd)%nat) by (apply Nat.mod_upper_bound; lia).
  assert ((b mod nd < nd)%nat) by (apply Nat.mod_upper_bound; lia).
  rewrite Aa, Ab in E. rewrite !HN in E by auto.
  apply C13_encode_injective in E; try lia; try (apply H2, nth_In; auto).
  destruct E as [E1 E2]. assert (a/nd = b/nd)%nat by (apply (NoDup_nth ids 0); auto).
  rewrite Aa, Ab. apply Nat2Z.inj in E2. congruence.
Qed.

(** ... and myLIDs_ maps the k-th id to local row numDof*k, so ids and local row blocks are in
    bijection *)
Lemma myLIDs_spec nd ids : forall l0, NoDup ids -> forall k, (k < length ids)%nat ->
  myLIDs nd l0 ids (nth k ids 0) = Some (nd * (l0 + Z.of_nat k)).
Proof.
  induction ids as [|x ids IH]; intros l0 HN k Hk; [simpl in Hk; lia|]. inversion HN as [|? ? Hx HN']; subst.
  assert (Miss : forall l0 y ids, ~ In y ids -> myLIDs nd l0 ids y = None).
  { clear. intros l0 y ids. revert l0. induction ids as [|z l IH]; intros l0 H; simpl; auto. simpl in H. rewrite IH by tauto.
    destruct (Z.eqb_spec z y); tauto. }
  cbn [myLIDs]. destruct k as [|k].
  - cbn [nth]. rewrite Miss by auto. rewrite Z.eqb_refl. f_equal. lia.
  - cbn [nth length] in *. rewrite IH by (auto; lia). f_equal. lia.
Qed.
Theorem C13_local_numbering : forall nd ids, 1 <= nd -> NoDup ids ->
  (forall k, (k < length ids)%nat -> myLIDs nd 0 ids (nth k ids 0) = Some (nd * Z.of_nat k)) /\
  (forall x y v, In x ids -> In y ids -> myLIDs nd 0 ids x = Some v -> myLIDs nd 0 ids y = Some v -> x = y).
Proof.
  intros nd ids Hn HN. split.
  - intros k Hk. now rewrite myLIDs_spec.
  - intros x y v Hx Hy Ex Ey. destruct (In_nth ids x 0 Hx) as (i & Hi & <-). destruct (In_nth ids y 0 Hy) as (j & Hj & <-).
    rewrite myLIDs_spec in Ex, Ey by auto. assert (nd * (0 + Z.of_nat i) = nd * (0 + Z.of_nat j)) by congruence.
    assert (i = j) by nia. now subst.
Qed.
Example C13_witness : gids_of 3 [4; 7] = [10;11;12;19;20;21] /\ myLIDs 3 0 [4;7] 7 = Some 3 /\ GLOBAL_ENTITY_ID 20 3 = 7 /\ GLOBAL_ENTITY_ID_IDOF 20 3 = 1.
Proof. repeat split. Qed.

(* ================================================================== C16 *)
(** Specification: row blocks i and j are adjacent when some registered edge/face/element contains
    a node of block i and a node of block j (periodic images share a block). *)
Definition adjacent (idx : nat -> nat) (elems : list (list nat)) (i j : nat) : Prop :=
  exists es u v, In es elems /\ In u es /\ In v es /\ idx u = i /\ idx v = j.

(** The situation the code sets up: at least one dof, the row count fits the index type, rowEnts is
    the list of row nodes in numbering order, every connected node has a row. *)
Definition numbered (idx : nat -> nat) (nd : nat) (rowEnts : list nat) (elems : list (list nat)) : Prop :=
  (1 <= nd)%nat /\ Z.of_nat (nd * length rowEnts) <= INVALID /\
  (forall i, (i < length rowEnts)%nat -> idx (nth i rowEnts 0%nat) = i) /\
  (forall es u, In es elems -> In u es -> (idx u < length rowEnts)%nat).

Lemma sorted_blocks nd B : (forall b, In b B -> exists j, b = Z.of_nat (nd * j)) -> sorted B -> StronglySorted Z.lt (blocks nd B).
Proof.
  intros Hg Hs. induction Hs as [|b B HB IH Hf]; [constructor|]. rewrite blocks_cons.
  assert (IH' : StronglySorted Z.lt (blocks nd B)) by (apply IH; intros; apply Hg; right; auto).
  rewrite Forall_forall in Hf.
  assert (Hb : forall x, In x (blocks nd B) -> b + Z.of_nat nd <= x).
  { intros x Hx. apply In_blocks in Hx. destruct Hx as (b' & d & Hb' & Hd & ->). specialize (Hf b' Hb').
    destruct (Hg b (or_introl eq_refl)) as [j ->]. destruct (Hg b' (or_intror Hb')) as [j' ->].
    assert (j < j')%nat by nia. assert (nd * (j+1) <= nd * j')%nat by nia. lia. }
  unfold block. assert (G : forall s n, (s + n = nd)%nat -> StronglySorted Z.lt (map (fun d => b + Z.of_nat d) (seq s n) ++ blocks nd B)).
  { intros s n; revert s; induction n as [|n IHn]; intros s E; cbn [seq map app]; auto. constructor; [apply IHn; lia|].
    apply Forall_forall. intros x Hx. apply in_app_or in Hx. destruct Hx as [Hx|Hx].
    - apply in_map_iff in Hx. destruct Hx as (d & <- & Hd). apply in_seq in Hd. lia.
    - specialize (Hb x Hx). lia. }
  apply G. lia.
Qed.

(** the finished graph has one row per (node, dof); in every row the column indices are strictly
    increasing (hence no duplicate and no unused slot) and are exactly the dofs of the adjacent
    blocks *)
Theorem C16_graph_rows_are_adjacency : forall idx gid nd rowEnts elems,
  numbered idx nd rowEnts elems ->
  let g := finalize idx gid nd rowEnts elems in
  let N := length rowEnts in
  length (fst g) = (nd * N)%nat /\
  forall i d, (i < N)%nat -> (d < nd)%nat ->
    StronglySorted Z.lt (csr_row g (nd*i+d)) /\
    forall x, In x (csr_row g (nd*i+d)) <->
      exists j e, (j < N)%nat /\ (e < nd)%nat /\ x = Z.of_nat (nd*j+e) /\ adjacent idx elems i j.
Proof.
  intros idx gid nd rowEnts elems (H1 & H2 & H3 & H4) g N.
  destruct (finalize_rows idx gid nd rowEnts elems H1 H2 H3 H4) as [HL HR]. split; [exact HL|].
  intros i d Hi Hd. destruct (HR i Hi) as (B & HS & HB & HJ & HC). specialize (HC d Hd). unfold g. rewrite HC. split.
  - apply sorted_blocks; auto. intros b Hb. destruct (HJ b Hb) as (j & _ & ->). eauto.
  - intros x. rewrite In_blocks. split.
    + intros (b & e & Hb & He & ->). destruct (HJ b Hb) as (j & Hj & ->). exists j, e. repeat split; auto; [lia|].
      apply HB in Hb. exact Hb.
    + intros (j & e & Hj & He & -> & Ha). exists (Z.of_nat (nd*j)), e. repeat split; auto; [|lia]. apply HB. exact Ha.
Qed.

(** consequences a user relies on: structural symmetry and a diagonal entry for every connected row *)
Theorem C16_graph_symmetric : forall idx gid nd rowEnts elems,
  numbered idx nd rowEnts elems ->
  let g := finalize idx gid nd rowEnts elems in
  forall i d j e, (i < length rowEnts)%nat -> (j < length rowEnts)%nat -> (d < nd)%nat -> (e < nd)%nat ->
  (In (Z.of_nat (nd*j+e)) (csr_row g (nd*i+d)) <-> In (Z.of_nat (nd*i+d)) (csr_row g (nd*j+e))).
Proof.
  intros idx gid nd rowEnts elems HN g i d j e Hi Hj Hd He.
  destruct (C16_graph_rows_are_adjacency idx gid nd rowEnts elems HN) as [_ G].
  unfold g. rewrite (proj2 (G i d Hi Hd)), (proj2 (G j e Hj He)).
  assert (U : forall i d i' d', (d < nd)%nat -> (d' < nd)%nat -> Z.of_nat (nd*i+d) = Z.of_nat (nd*i'+d') -> i = i').
  { intros a b a' b' Hb Hb' E. assert (Hn : (nd*a+b = nd*a'+b')%nat) by lia.
    assert (Ea : ((nd*a+b)/nd = a)%nat) by (rewrite Nat.mul_comm, Nat.div_add_l, Nat.div_small by lia; lia).
    assert (Ea' : ((nd*a'+b')/nd = a')%nat) by (rewrite Nat.mul_comm, Nat.div_add_l, Nat.div_small by lia; lia). congruence. }
  split; intros (j' & e' & Hj' & He' & E & (es & u & v & A1 & A2 & A3 & A4 & A5)).
  - apply U in E; auto. subst j'. exists i, d. repeat split; auto. exists es, v, u. auto.
  - apply U in E; auto. subst j'. exists j, e. repeat split; auto. exists es, v, u. auto.
Qed.
Theorem C16_graph_diagonal : forall idx gid nd rowEnts elems,
  numbered idx nd rowEnts elems ->
  forall es u d, In es elems -> In u es -> (d < nd)%nat ->
  In (Z.of_nat (nd * idx u + d)) (csr_row (finalize idx gid nd rowEnts elems) (nd * idx u + d)).
Proof.
  intros idx gid nd rowEnts elems HN es u d He Hu Hd.
  destruct (C16_graph_rows_are_adjacency idx gid nd rowEnts elems HN) as [_ G]. destruct HN as (_ & _ & _ & H4).
  apply (G (idx u) d); eauto. exists (idx u), d. repeat split; eauto. exists es, u, u. auto.
Qed.

(** insertion never writes outside the arrays sized by compute_graph_row_lengths *)
Theorem C16_row_capacity_suffices : forall idx gid nd rowEnts elems m0,
  numbered idx nd rowEnts elems ->
  let reqs := requests idx rowEnts (sorted_conn (build idx gid elems)) in
  let lens := row_lengths nd rowEnts reqs in
  (forall x, m0 x = INVALID) ->
  forall x, x < 0 \/ Z.of_nat (row_ptr lens (length lens)) <= x ->
  insert_requests idx nd lens reqs m0 x = m0 x.
Proof.
  intros idx gid nd rowEnts elems m0 (H1 & H2 & H3 & H4) reqs lens Hm x Hx.
  assert (RV : forall r, In r reqs -> (fst r < length rowEnts)%nat /\ forall e, In e (snd r) -> (idx e < length rowEnts)%nat).
  { intros r Hr. unfold reqs, requests in Hr. apply in_flat_map in Hr. destruct Hr as (i & Hi & Hr). apply in_seq in Hi.
    assert (V : forall e, In e (sorted_conn (build idx gid elems) i) -> (idx e < length rowEnts)%nat).
    { intros e He. rewrite In_sorted_conn in He. apply In_build in He. destruct He as (es & A & B & _). eauto. }
    destruct (sorted_conn (build idx gid elems) i) as [|c0 cs] eqn:E; [destruct Hr|].
    destruct Hr as [<-|Hr]; cbn [fst snd].
    - split; [rewrite H3; lia|auto].
    - apply in_map_iff in Hr. destruct Hr as (b & <- & Hb). apply filter_In in Hb. cbn [fst snd]. split; [apply V; tauto|].
      intros e [<-|[]]. rewrite H3; lia. }
  destruct (insert_requests_spec idx nd rowEnts H1 H2 reqs RV reqs [] m0 eq_refl) as [_ F].
  - intros i Hi. exists []. repeat split; simpl; try lia; try constructor; try tauto.
    + intros k _. rewrite Hm. destruct k; reflexivity.
    + intros (r & e & [] & _).
  - apply F. unfold lens in Hx. change (row_lengths nd rowEnts reqs) with (lens_of nd (length rowEnts) (block_len nd reqs)) in Hx.
    rewrite lens_length in Hx. exact Hx.
Qed.

(** ... but with more than one dof per node the shifting loop of LocalGraphArrays::insert reads
    before the row: inserting the first index into row 0 reads in front of the array *)
Theorem C16_insert_reads_out_of_bounds_refuted : forall nd, (2 <= nd)%nat ->
  exists a, In a (insert_reads nd 0 (Z.of_nat nd)) /\ a < 0.
Proof.
  intros nd H. exists (-1). split; [|lia]. unfold insert_reads, shift_addrs. rewrite map_map. apply in_map_iff.
  exists 0%nat. split; [lia|]. apply in_seq. lia.
Qed.
(** with one dof per node every read is inside the row *)
Theorem C16_insert_reads_in_bounds_scalar : forall ip rowEnd a, In a (insert_reads 1 ip rowEnd) -> ip <= a < rowEnd - 1.
Proof.
  intros ip rowEnd a H. unfold insert_reads, shift_addrs in H. rewrite map_map in H. apply in_map_iff in H.
  destruct H as (k & <- & Hk). apply in_seq in Hk. lia.
Qed.

(** a node in no registered connection gets an empty row: no diagonal entry *)
Theorem C16_isolated_row_is_empty : forall idx gid nd rowEnts elems,
  numbered idx nd rowEnts elems ->
  forall i d, (i < length rowEnts)%nat -> (d < nd)%nat -> (forall es u, In es elems -> In u es -> idx u <> i) ->
  csr_row (finalize idx gid nd rowEnts elems) (nd*i+d) = [].
Proof.
  intros idx gid nd rowEnts elems HN i d Hi Hd Hiso.
  destruct (C16_graph_rows_are_adjacency idx gid nd rowEnts elems HN) as [_ G]. destruct (G i d Hi Hd) as [_ I].
  destruct (csr_row (finalize idx gid nd rowEnts elems) (nd*i+d)) as [|x l]; auto. exfalso.
  destruct (proj1 (I x) (or_introl eq_refl)) as (j & e & _ & _ & _ & es & u & v & A1 & A2 & _ & A4 & _). eapply Hiso; eauto.
Qed.

(** two triangles sharing an edge, two dofs per node, entity 3 a periodic image of entity 0 *)
Definition ex_idx (e : nat) : nat := nth e [0;1;2;0]%nat 0%nat.
Example C16_witness : numbered ex_idx 2 [0;1;2]%nat [[0;1;2];[1;2;3]]%nat
  /\ csr_row (finalize ex_idx (fun e => S e) 2 [0;1;2]%nat [[0;1];[1;3]]%nat) 2 = [0;1;2;3].
Proof.
  split; [|reflexivity]. split; [lia|]. split; [unfold INVALID; simpl; lia|]. split.
  - intros [|[|[|i]]] H; simpl in *; auto; lia.
  - intros es u [<-|[<-|[]]] Hu; simpl in Hu; intuition; subst; vm_compute; lia.
Qed.
