(** C82: solution norms *)
Require Import String.
Require Import Reals List Bool Arith Lra Lia Permutation.
From Verif Require Import Edge_Model Edge_Proofs Opt_Model Norm_Model.
From Verif Require Sum_Proofs.
Import ListNotations.
Open Scope R_scope.
Open Scope list_scope.

(** --- specification --- *)
(** the nodes the norms range over: all nodes of all buckets of all ranks *)
Definition all_nodes (ranks : list (list bucket)) : list nat := concat (concat ranks).
(** error of one component at a node *)
Definition err (f : fpair) (i a : nat) : R := Rabs (f_dof f a i - f_exact f a i).
(** the largest error, the mean error and the root mean square error *)
Definition is_max (F : nat -> R) (l : list nat) (M : R) : Prop :=
  (forall a, In a l -> F a <= M) /\ (exists a, In a l /\ F a = M).
Definition mean (F : nat -> R) (l : list nat) : R := lsum F l / INR (List.length l).
Definition rms (F : nat -> R) (l : list nat) : R := sqrt (lsum (fun a => F a * F a) l / INR (List.length l)).
(** every dof is stored with the number of components setup assumed *)
Definition sizes_ok (fs : list fpair) : Prop := forall f, In f fs -> f_stride f = f_size f.

(** --- the loops as a sequence of updates --- *)
Definition apply_ev (total : nat) (s : norms) (e : nat * R) : norms :=
  mkN (put (n_oo s) (fst e) (Rmax (snd e) (n_oo s (fst e))))
      (let v := put (n_12 s) (fst e) (n_12 s (fst e) + snd e) in
       put v (fst e + total) (v (fst e + total)%nat + snd e * snd e))
      (n_count s).
Definition diff_at (f : fpair) (b : bucket) (k i : nat) : R :=
  Rabs (field_data (f_stride f) (f_dof f) b (k * f_size f + i) - field_data (f_size f) (f_exact f) b (k * f_size f + i)).
Definition node_evs (off : nat) (f : fpair) (b : bucket) (k : nat) : list (nat * R) :=
  map (fun i => ((off + i)%nat, diff_at f b k i)) (seq 0 (f_size f)).
Definition field_evs (off : nat) (f : fpair) (b : bucket) : list (nat * R) :=
  flat_map (node_evs off f b) (seq 0 (List.length b)).
Fixpoint evs (off : nat) (fs : list fpair) (b : bucket) : list (nat * R) :=
  match fs with [] => [] | f :: r => field_evs off f b ++ evs (off + f_size f) r b end.
Definition with_count (s : norms) (c : nat) := mkN (n_oo s) (n_12 s) c.

Lemma field_loop_evs total off f b s : field_loop total off f b s = fold_left (apply_ev total) (field_evs off f b) s.
Proof.
  unfold field_loop, field_evs. generalize (seq 0 (List.length b)) as ks. intros ks. revert s.
  induction ks as [|k ks IH]; intros s; [reflexivity|]. cbn [fold_left flat_map]. rewrite fold_left_app, IH. f_equal.
  unfold node_evs. generalize (seq 0 (f_size f)) as is. intros is. revert s.
  induction is as [|i is IHi]; intros s; [reflexivity|]. cbn [fold_left map]. rewrite IHi. reflexivity.
Qed.
Lemma bucket_fold total fs b : forall s off,
  fst (fold_left (fun st f => (field_loop total (snd st) f b (fst st), (snd st + f_size f)%nat)) fs (s, off))
  = fold_left (apply_ev total) (evs off fs b) s.
Proof.
  induction fs as [|f fs IH]; intros s off; [reflexivity|]. cbn [fold_left evs fst snd]. rewrite IH, fold_left_app, field_loop_evs. reflexivity.
Qed.
Lemma bucket_loop_evs total fs s b :
  bucket_loop total fs s b = fold_left (apply_ev total) (evs 0 fs b) (with_count s (n_count s + List.length b)).
Proof. unfold bucket_loop. cbv zeta. apply bucket_fold. Qed.

Definition sel (p : nat) (l : list (nat * R)) : list R := map snd (filter (fun e => Nat.eqb (fst e) p) l).
Lemma sel_app p l1 l2 : sel p (l1 ++ l2) = sel p l1 ++ sel p l2.
Proof. unfold sel. rewrite filter_app, map_app. reflexivity. Qed.
Lemma fold_oo total l : forall s p, n_oo (fold_left (apply_ev total) l s) p = fold_left (fun m d => Rmax d m) (sel p l) (n_oo s p).
Proof.
  induction l as [|e l IH]; intros s p; [reflexivity|]. cbn [fold_left]. rewrite IH. unfold sel. cbn [filter]. unfold apply_ev at 1. cbn [n_oo].
  unfold put. destruct (Nat.eqb_spec p (fst e)) as [->|N].
  - rewrite Nat.eqb_refl. reflexivity.
  - destruct (Nat.eqb_spec (fst e) p); [congruence|]. reflexivity.
Qed.
Lemma fold_cnt total l : forall s, n_count (fold_left (apply_ev total) l s) = n_count s.
Proof. induction l as [|e l IH]; intros s; [reflexivity|]. cbn [fold_left]. rewrite IH. reflexivity. Qed.
Lemma fold_l1 total l : forall s p, (p < total)%nat -> (forall e, In e l -> (fst e < total)%nat) ->
  n_12 (fold_left (apply_ev total) l s) p = n_12 s p + fold_right Rplus 0 (sel p l).
Proof.
  induction l as [|e l IH]; intros s p Hp H; [cbn; lra|]. cbn [fold_left]. rewrite IH; [|exact Hp|intros; apply H; right; assumption].
  assert (He := H e (or_introl eq_refl)). unfold sel. cbn [filter]. unfold apply_ev. cbn [n_12]. unfold put.
  destruct (Nat.eqb_spec p (fst e + total)); [lia|]. destruct (Nat.eqb_spec p (fst e)) as [->|N].
  - rewrite Nat.eqb_refl. cbn. lra.
  - destruct (Nat.eqb_spec (fst e) p); [congruence|]. reflexivity.
Qed.
Lemma fold_l2 total l : forall s p, (p < total)%nat -> (forall e, In e l -> (fst e < total)%nat) ->
  n_12 (fold_left (apply_ev total) l s) (p + total)%nat = n_12 s (p + total)%nat + fold_right Rplus 0 (map (fun d => d * d) (sel p l)).
Proof.
  induction l as [|e l IH]; intros s p Hp H; [cbn; lra|]. cbn [fold_left]. rewrite IH; [|exact Hp|intros; apply H; right; assumption].
  assert (He := H e (or_introl eq_refl)). unfold sel. cbn [filter]. unfold apply_ev. cbn [n_12]. unfold put.
  destruct (Nat.eqb_spec (p + total) (fst e)); [lia|]. destruct (Nat.eqb_spec (p + total) (fst e + total)) as [E|N].
  - assert (fst e = p) as <- by lia. rewrite Nat.eqb_refl. destruct (Nat.eqb_spec (fst e + total) (fst e)); [lia|]. cbn. lra.
  - destruct (Nat.eqb_spec (fst e) p); [subst; lia|]. reflexivity.
Qed.

(** offset of field j and total size *)
Fixpoint offs (fs : list fpair) (j : nat) : nat :=
  match j, fs with S j, f :: r => (f_size f + offs r j)%nat | _, _ => O end.
Lemma total_from fs : forall a, fold_left (fun a f => (a + f_size f)%nat) fs a = (a + offs fs (List.length fs))%nat.
Proof. induction fs as [|f fs IH]; intros a; cbn [fold_left offs List.length]; [lia|]. rewrite IH. lia. Qed.
Lemma offs_lt fs j f i : nth_error fs j = Some f -> (i < f_size f)%nat -> (offs fs j + i < total_size fs)%nat.
Proof.
  unfold total_size. rewrite total_from. revert j. induction fs as [|g fs IH]; intros [|j]; cbn; try discriminate.
  - intros E; injection E as ->. lia.
  - intros E Hi. specialize (IH j E Hi). lia.
Qed.
Lemma field_evs_range off f b e : In e (field_evs off f b) -> (off <= fst e < off + f_size f)%nat.
Proof.
  unfold field_evs. intros H. apply in_flat_map in H. destruct H as (k & _ & H). unfold node_evs in H. apply in_map_iff in H.
  destruct H as (i & <- & Hi). apply in_seq in Hi. cbn. lia.
Qed.
Lemma evs_range fs b : forall off e, In e (evs off fs b) -> (off <= fst e < off + offs fs (List.length fs))%nat.
Proof.
  induction fs as [|f fs IH]; intros off e; cbn [evs]; [intros []|]. rewrite in_app_iff. intros [H|H].
  - apply field_evs_range in H. cbn. lia.
  - apply IH in H. cbn. lia.
Qed.
Lemma sel_none p l : (forall e, In e l -> fst e <> p) -> sel p l = [].
Proof.
  intros H. unfold sel. replace (filter (fun e => Nat.eqb (fst e) p) l) with (@nil (nat * R)); [reflexivity|]. symmetry.
  induction l as [|e l IH]; [reflexivity|]. cbn [filter]. destruct (Nat.eqb_spec (fst e) p) as [E|N]; [destruct (H e (or_introl eq_refl) E)|].
  apply IH. intros x Hx. apply H. right. exact Hx.
Qed.
Lemma sel_seq off (d : nat -> R) i n : (i < n)%nat -> sel (off + i) (map (fun i => ((off + i)%nat, d i)) (seq 0 n)) = [d i].
Proof.
  intros Hi. replace n with (i + (1 + (n - i - 1)))%nat by lia. rewrite seq_app, map_app, sel_app, seq_app, map_app, sel_app.
  rewrite (sel_none _ (map _ (seq 0 i))), (sel_none _ (map _ (seq (0 + i + 1) _))).
  - cbn. rewrite Nat.eqb_refl. reflexivity.
  - intros e He. apply in_map_iff in He. destruct He as (x & <- & Hx). apply in_seq in Hx. cbn. lia.
  - intros e He. apply in_map_iff in He. destruct He as (x & <- & Hx). apply in_seq in Hx. cbn. lia.
Qed.
Lemma diff_err f b k i : f_stride f = f_size f -> (i < f_size f)%nat -> diff_at f b k i = err f i (nth k b O).
Proof.
  intros E Hi. unfold diff_at, err, field_data. rewrite E. rewrite Nat.div_add_l, (Nat.div_small i), Nat.add_0_r by lia.
  rewrite (Nat.add_comm (k * f_size f) i), Nat.mod_add, Nat.mod_small by lia. reflexivity.
Qed.
Lemma nth_map_seq {A} (b : list nat) (F : nat -> A) : map (fun k => F (nth k b O)) (seq 0 (List.length b)) = map F b.
Proof.
  induction b as [|x b IH]; [reflexivity|]. cbn [List.length seq map nth]. f_equal. rewrite <- seq_shift, map_map. exact IH.
Qed.
Lemma sel_field off f b i : f_stride f = f_size f -> (i < f_size f)%nat -> sel (off + i) (field_evs off f b) = map (err f i) b.
Proof.
  intros E Hi. unfold field_evs. rewrite <- (nth_map_seq b (err f i)). generalize (seq 0 (List.length b)) as ks.
  induction ks as [|k ks IH]; [reflexivity|]. cbn [flat_map map]. rewrite sel_app, IH. unfold node_evs.
  rewrite (sel_seq off (diff_at f b k) i (f_size f) Hi), (diff_err f b k i E Hi). reflexivity.
Qed.
Lemma sel_evs fs b : sizes_ok fs -> forall off j f i, nth_error fs j = Some f -> (i < f_size f)%nat ->
  sel (off + offs fs j + i) (evs off fs b) = map (err f i) b.
Proof.
  induction fs as [|g fs IH]; intros OK off [|j] f i; cbn [nth_error]; try discriminate; intros E Hi; cbn [evs offs]; rewrite sel_app.
  - injection E as ->. rewrite Nat.add_0_r, sel_field; [|apply OK; left; reflexivity|exact Hi].
    rewrite sel_none; [apply app_nil_r|]. intros e He. apply evs_range in He. lia.
  - rewrite sel_none; [|intros e He; apply field_evs_range in He; lia]. cbn [app].
    replace (off + (f_size g + offs fs j) + i)%nat with (off + f_size g + offs fs j + i)%nat by lia. apply IH; [|exact E|exact Hi].
    intros h Hh. apply OK. right. exact Hh.
Qed.

(** --- one rank --- *)
Section Run.
Variables (fs : list fpair).
Hypothesis OK : sizes_ok fs.
Let total := total_size fs.
Lemma evs_lt b e : In e (evs 0 fs b) -> (fst e < total)%nat.
Proof. intros H. apply evs_range in H. unfold total, total_size. rewrite total_from. lia. Qed.
Variables (j : nat) (f : fpair) (i : nat).
Hypothesis Ej : nth_error fs j = Some f.
Hypothesis Hi : (i < f_size f)%nat.
Let p := (offs fs j + i)%nat.
Lemma p_lt : (p < total)%nat.
Proof. exact (offs_lt fs j f i Ej Hi). Qed.
Lemma buckets_spec bs : forall s, let r := fold_left (bucket_loop total fs) bs s in
  n_oo r p = fold_left (fun m d => Rmax d m) (map (err f i) (concat bs)) (n_oo s p)
  /\ n_12 r p = n_12 s p + lsum (err f i) (concat bs)
  /\ n_12 r (p + total)%nat = n_12 s (p + total)%nat + lsum (fun a => err f i a * err f i a) (concat bs)
  /\ n_count r = (n_count s + List.length (concat bs))%nat.
Proof.
  induction bs as [|b bs IH]; intros s; cbn [fold_left concat].
  - cbn. repeat split; try lra. lia.
  - specialize (IH (bucket_loop total fs s b)). cbv zeta in IH |- *. destruct IH as (I1 & I2 & I3 & I4). rewrite I1, I2, I3, I4.
    rewrite bucket_loop_evs. rewrite fold_oo, fold_cnt, fold_l1, fold_l2 by (first [apply p_lt|intros e He; apply (evs_lt b e He)]).
    assert (Q := sel_evs fs b OK 0 j f i Ej Hi). change (0 + offs fs j + i)%nat with p in Q. rewrite Q. cbn [with_count n_oo n_12 n_count].
    rewrite map_app, fold_left_app, app_length, map_map. rewrite !Sum_Proofs.lsum_app. change (fold_right Rplus 0 (map (err f i) b)) with (lsum (err f i) b). change (fold_right Rplus 0 (map (fun x => err f i x * err f i x) b)) with (lsum (fun a => err f i a * err f i a) b). repeat split; try lra. lia.
Qed.
Lemma rank_spec bs : let r := rank_norms fs bs in
  n_oo r p = fold_left (fun m d => Rmax d m) (map (err f i) (concat bs)) (- 10 ^ 16)
  /\ n_12 r p = lsum (err f i) (concat bs)
  /\ n_12 r (p + total)%nat = lsum (fun a => err f i a * err f i a) (concat bs)
  /\ n_count r = List.length (concat bs).
Proof.
  cbv zeta. unfold rank_norms. destruct (buckets_spec bs init_norms) as (I1 & I2 & I3 & I4). fold total.
  rewrite I1, I2, I3, I4. cbn [init_norms n_oo n_12 n_count]. repeat split; lra.
Qed.
End Run.

Lemma fold_max_out l : forall m, m <= fold_left (fun m d => Rmax d m) l m /\
  (forall d, In d l -> d <= fold_left (fun m d => Rmax d m) l m) /\
  (fold_left (fun m d => Rmax d m) l m = m \/ In (fold_left (fun m d => Rmax d m) l m) l).
Proof.
  induction l as [|d l IH]; intros m; cbn [fold_left].
  - split; [lra|]. split; [intros ? []|left; reflexivity].
  - destruct (IH (Rmax d m)) as (A & B & C). assert (M := Rmax_l d m). assert (M' := Rmax_r d m). split; [lra|]. split.
    + intros x [<-|Hx]; [lra|apply B, Hx].
    + destruct C as [C|C]; [|right; right; exact C]. rewrite C. destruct (Rle_dec d m).
      * left. apply Rmax_right. assumption.
      * right. left. symmetry. apply Rmax_left. lra.
Qed.
Lemma fold_max_in l : forall m, let M := fold_left Rmax l m in
  m <= M /\ (forall d, In d l -> d <= M) /\ (M = m \/ In M l).
Proof.
  induction l as [|d l IH]; intros m; cbn [fold_left].
  - cbn. split; [lra|]. split; [intros ? []|left; reflexivity].
  - cbv zeta. destruct (IH (Rmax m d)) as (A & B & C). assert (M := Rmax_l m d). assert (M' := Rmax_r m d). split; [lra|]. split.
    + intros x [<-|Hx]; [lra|apply B, Hx].
    + destruct C as [C|C]; [|right; right; exact C]. rewrite C. destruct (Rle_dec d m).
      * left. apply Rmax_left. assumption.
      * right. left. symmetry. apply Rmax_right. lra.
Qed.
Lemma reduce_max_spec vs : vs <> [] -> (forall d, In d vs -> d <= reduce_max vs) /\ In (reduce_max vs) vs.
Proof.
  destruct vs as [|v vs]; [congruence|]. intros _. unfold reduce_max. cbn [hd tl]. destruct (fold_max_in vs v) as (A & B & C). split.
  - intros d [<-|H]; [exact A|apply B, H].
  - destruct C as [C|C]; [left; symmetry; exact C|right; exact C].
Qed.
Lemma reduce_sum_lsum {A} (F : A -> R) l : reduce_sum (map F l) = lsum F l.
Proof.
  unfold reduce_sum. enough (forall a, fold_left Rplus (map F l) a = a + lsum F l) as H by (rewrite H; lra).
  induction l as [|x l IH]; intros a; cbn [map fold_left]; [cbn; lra|]. rewrite IH. unfold lsum. cbn. lra.
Qed.
Lemma lsum_concat {A} (F : A -> R) ls : lsum (fun l => lsum F l) ls = lsum F (concat ls).
Proof. induction ls as [|l ls IH]; [reflexivity|]. cbn [concat]. rewrite Sum_Proofs.lsum_app, <- IH. reflexivity. Qed.
Lemma count_all (ls : list norms) (g : norms -> list nat) : (forall l, In l ls -> n_count l = List.length (g l)) ->
  forall a, fold_left (fun a l => (a + n_count l)%nat) ls a = (a + List.length (flat_map g ls))%nat.
Proof.
  induction ls as [|l ls IH]; intros H a; cbn [fold_left flat_map List.length]; [lia|]. rewrite IH; [|intros; apply H; right; assumption].
  rewrite app_length, (H l (or_introl eq_refl)). lia.
Qed.

Lemma err_nonneg f i a : 0 <= err f i a.
Proof. apply Rabs_pos. Qed.
Lemma big_pos : - 10 ^ 16 < 0.
Proof. assert (0 < 10 ^ 16) by (apply pow_lt; lra). lra. Qed.

Section All.
Variables (fs : list fpair) (ranks : list (list bucket)).
Hypothesis OK : sizes_ok fs.
Variables (j : nat) (f : fpair) (i : nat).
Hypothesis Ej : nth_error fs j = Some f.
Hypothesis Hi : (i < f_size f)%nat.
Let p := (offs fs j + i)%nat.
Lemma all_l1 : n_12 (all_norms fs ranks) p = lsum (err f i) (all_nodes ranks).
Proof.
  unfold all_norms, all_nodes. cbn [n_12]. rewrite map_map. rewrite reduce_sum_lsum. etransitivity; [|exact (lsum_concat (err f i) (concat ranks))].
  etransitivity; [|exact (lsum_concat (fun l => lsum (err f i) l) ranks)]. apply lsum_ext. intros bs _.
  etransitivity; [|symmetry; exact (lsum_concat (err f i) bs)]. apply (rank_spec fs OK j f i Ej Hi bs).
Qed.
Lemma all_l2 : n_12 (all_norms fs ranks) (p + total_size fs)%nat = lsum (fun a => err f i a * err f i a) (all_nodes ranks).
Proof.
  unfold all_norms, all_nodes. cbn [n_12]. rewrite map_map. rewrite reduce_sum_lsum. etransitivity; [|exact (lsum_concat (fun a => err f i a * err f i a) (concat ranks))].
  etransitivity; [|exact (lsum_concat (fun l => lsum (fun a => err f i a * err f i a) l) ranks)]. apply lsum_ext. intros bs _.
  etransitivity; [|symmetry; exact (lsum_concat (fun a => err f i a * err f i a) bs)].
  apply (rank_spec fs OK j f i Ej Hi bs).
Qed.
Lemma all_count : n_count (all_norms fs ranks) = List.length (all_nodes ranks).
Proof.
  unfold all_norms, all_nodes. cbn [n_count].
  enough (forall a, fold_left (fun a l => (a + n_count l)%nat) (map (rank_norms fs) ranks) a = (a + List.length (concat (concat ranks)))%nat) as H by apply H.
  induction ranks as [|bs rs IH]; intros a; cbn [map fold_left concat]; [cbn; lia|]. rewrite IH, concat_app, app_length.
  destruct (rank_spec fs OK j f i Ej Hi bs) as (_ & _ & _ & ->). lia.
Qed.
Lemma in_all a : In a (all_nodes ranks) <-> exists bs, In bs ranks /\ In a (concat bs).
Proof.
  unfold all_nodes. split.
  - intros H. apply in_concat in H. destruct H as (b & Hb & Ha). apply in_concat in Hb. destruct Hb as (bs & H1 & H2).
    exists bs. split; [exact H1|]. apply in_concat. exists b. auto.
  - intros (bs & H1 & H2). apply in_concat in H2. destruct H2 as (b & Hb & Ha). apply in_concat. exists b. split; [|exact Ha].
    apply in_concat. exists bs. auto.
Qed.
Lemma all_oo : all_nodes ranks <> [] -> is_max (err f i) (all_nodes ranks) (n_oo (all_norms fs ranks) p).
Proof.
  intros NE. unfold all_norms. cbn [n_oo]. rewrite map_map.
  assert (NR : map (fun x => n_oo (rank_norms fs x) p) ranks <> []).
  { destruct ranks; [cbn in NE; congruence|discriminate]. }
  destruct (reduce_max_spec _ NR) as (UB & AT). set (M := reduce_max _) in *.
  assert (RS : forall bs, n_oo (rank_norms fs bs) p = fold_left (fun m d => Rmax d m) (map (err f i) (concat bs)) (- 10 ^ 16)).
  { intros bs. apply (rank_spec fs OK j f i Ej Hi bs). }
  assert (U : forall a, In a (all_nodes ranks) -> err f i a <= M).
  { intros a Ha. apply in_all in Ha. destruct Ha as (bs & H1 & H2).
    apply Rle_trans with (n_oo (rank_norms fs bs) p); [|apply UB; apply in_map_iff; exists bs; auto].
    rewrite RS. apply (fold_max_out (map (err f i) (concat bs)) (- 10 ^ 16)). apply in_map. exact H2. }
  split; [exact U|]. apply in_map_iff in AT. destruct AT as (bs & E & Hbs). rewrite RS in E.
  destruct (fold_max_out (map (err f i) (concat bs)) (- 10 ^ 16)) as (_ & _ & [C|C]).
  - exfalso. destruct (all_nodes ranks) as [|a l] eqn:E'; [congruence|]. specialize (U a (or_introl eq_refl)).
    assert (0 <= err f i a) by apply err_nonneg. assert (Hb := big_pos). rewrite <- E, C in U. lra.
  - rewrite E in C. apply in_map_iff in C. destruct C as (a & E2 & Ha). exists a. split; [|exact E2]. apply in_all. exists bs. auto.
Qed.
End All.

(** --- the rows written --- *)
Lemma rows_fold (fs : list fpair) g : forall rest k acc off total,
  fst (fold_left (fun st (jf : nat * fpair) =>
         (fst st ++ map (fun i => mkRow (fst jf) i (n_count g) (n_oo g (snd st + i)%nat)
             (div_count (n_12 g (snd st + i)%nat) (n_count g))
             (option_map sqrt (div_count (n_12 g (snd st + i + total)%nat) (n_count g)))) (seq 0 (f_size (snd jf))),
          (snd st + f_size (snd jf))%nat))
       (combine (seq k (List.length rest)) rest) (acc, off)) =
  acc ++ flat_map (fun t => match nth_error rest t with Some f => map (fun i => mkRow (k + t) i (n_count g) (n_oo g (off + offs rest t + i)%nat)
             (div_count (n_12 g (off + offs rest t + i)%nat) (n_count g))
             (option_map sqrt (div_count (n_12 g (off + offs rest t + i + total)%nat) (n_count g)))) (seq 0 (f_size f)) | None => [] end) (seq 0 (List.length rest)).
Proof.
  clear fs. induction rest as [|f rest IH]; intros k acc off total; [cbn; now rewrite app_nil_r|].
  cbn [List.length seq combine fold_left fst snd]. rewrite IH. rewrite <- app_assoc. f_equal. cbn [flat_map nth_error offs]. f_equal.
  - rewrite !Nat.add_0_r. reflexivity.
  - rewrite <- seq_shift, flat_map_concat_map, flat_map_concat_map, map_map. f_equal. apply map_ext. intros t. cbn [nth_error offs].
    destruct (nth_error rest t) as [h|]; [|reflexivity]. apply map_ext. intros i.
    replace (S k + t)%nat with (k + S t)%nat by lia.
    replace (off + f_size f + offs rest t + i)%nat with (off + (f_size f + offs rest t) + i)%nat by lia. reflexivity.
Qed.
(** the row of component i of field j, as the user expects it *)
Definition expected_row (ranks : list (list bucket)) (j : nat) (f : fpair) (i : nat) (r : row) : Prop :=
  w_field r = j /\ w_comp r = i /\ w_count r = List.length (all_nodes ranks)
  /\ is_max (err f i) (all_nodes ranks) (w_oo r)
  /\ w_1 r = Some (mean (err f i) (all_nodes ranks)) /\ w_2 r = Some (rms (err f i) (all_nodes ranks)).
(** A block of rows is written at exactly the steps that are multiples of the frequency; it has one row per field
    and component, in the order of the input, each holding the maximum, mean and root mean square of the error of
    that component over the active target nodes, every node counted once. *)
Theorem C82_norms freq step fs ranks : sizes_ok fs -> all_nodes ranks <> [] -> (0 < freq)%nat -> (step mod freq = 0)%nat ->
  exists rs, execute freq step fs ranks = Some rs
  /\ map (fun r => (w_field r, w_comp r)) rs
     = flat_map (fun j => map (fun i => (j, i)) (seq 0 (match nth_error fs j with Some f => f_size f | None => O end))) (seq 0 (List.length fs))
  /\ forall r, In r rs -> exists f, nth_error fs (w_field r) = Some f /\ (w_comp r < f_size f)%nat /\ expected_row ranks (w_field r) f (w_comp r) r.
Proof.
  intros OK NE Hf Hs. unfold execute. destruct (Nat.eqb_spec freq 0); [lia|]. rewrite Hs. cbn [Nat.eqb]. eexists. split; [reflexivity|].
  unfold rows. cbv zeta. rewrite (rows_fold fs (all_norms fs ranks) fs 0 [] 0 (total_size fs)). cbn [app]. split.
  - rewrite flat_map_concat_map, flat_map_concat_map, concat_map, map_map. f_equal. apply map_ext. intros t.
    destruct (nth_error fs t) as [f|]; [|reflexivity]. rewrite map_map. reflexivity.
  - intros r Hr. apply in_flat_map in Hr. destruct Hr as (t & Ht & Hr). apply in_seq in Ht.
    destruct (nth_error fs t) as [f|] eqn:E; [|destruct Hr]. apply in_map_iff in Hr. destruct Hr as (i & <- & Hi). apply in_seq in Hi.
    assert (Hi' : (i < f_size f)%nat) by lia. exists f. cbn [w_field w_comp Nat.add]. split; [exact E|]. split; [exact Hi'|].
    unfold expected_row. cbn [w_field w_comp w_count w_oo w_1 w_2].
    rewrite (all_l1 fs ranks OK t f i E Hi'), (all_l2 fs ranks OK t f i E Hi'), (all_count fs ranks OK t f i E Hi').
    unfold div_count. destruct (Nat.eqb_spec (List.length (all_nodes ranks)) 0) as [Z|Z]; [apply length_zero_iff_nil in Z; congruence|].
    repeat split; apply (all_oo fs ranks OK t f i E Hi' NE).
Qed.
Theorem C82_frequency freq step fs ranks : (0 < freq)%nat -> (step mod freq <> 0)%nat -> execute freq step fs ranks = Some [].
Proof. intros Hf Hs. unfold execute. destruct (Nat.eqb_spec freq 0); [lia|]. destruct (Nat.eqb_spec (step mod freq) 0); [contradiction|reflexivity]. Qed.

Lemma is_max_perm F l l' M : Permutation l l' -> is_max F l M -> is_max F l' M.
Proof.
  intros P (A & a & Ha & E). split.
  - intros x Hx. apply A. apply (Permutation_in x (Permutation_sym P) Hx).
  - exists a. split; [apply (Permutation_in a P Ha)|exact E].
Qed.
Lemma is_max_unique F l M M' : is_max F l M -> is_max F l M' -> M = M'.
Proof. intros (A & a & Ha & <-) (B & b & Hb & <-). apply Rle_antisym; [apply B, Ha|apply A, Hb]. Qed.
(** The file does not depend on how the nodes are distributed over ranks and buckets, or on their order. *)
Theorem C82_decomposition freq step fs ranks ranks' : sizes_ok fs -> all_nodes ranks <> [] ->
  Permutation (all_nodes ranks) (all_nodes ranks') -> execute freq step fs ranks = execute freq step fs ranks'.
Proof.
  intros OK NE P. assert (NE' : all_nodes ranks' <> []). { intros E. rewrite E in P. apply Permutation_sym, Permutation_nil in P. congruence. }
  unfold execute. destruct (Nat.eqb freq 0); [reflexivity|]. destruct (Nat.eqb (step mod freq) 0); [|reflexivity]. f_equal.
  unfold rows. cbv zeta. rewrite (rows_fold fs (all_norms fs ranks) fs 0 [] 0 (total_size fs)), (rows_fold fs (all_norms fs ranks') fs 0 [] 0 (total_size fs)).
  f_equal. rewrite !flat_map_concat_map. f_equal. apply map_ext_in. intros t Ht. destruct (nth_error fs t) as [f|] eqn:E; [|reflexivity].
  apply map_ext_in. intros i Hi. apply in_seq in Hi. assert (Hi' : (i < f_size f)%nat) by lia. cbn [Nat.add].
  rewrite (all_l1 fs ranks OK t f i E Hi'), (all_l2 fs ranks OK t f i E Hi'), (all_count fs ranks OK t f i E Hi').
  rewrite (all_l1 fs ranks' OK t f i E Hi'), (all_l2 fs ranks' OK t f i E Hi'), (all_count fs ranks' OK t f i E Hi').
  rewrite (Permutation_length P). rewrite (Sum_Proofs.lsum_perm _ _ _ P), (Sum_Proofs.lsum_perm (fun a => err f i a * err f i a) _ _ P).
  replace (n_oo (all_norms fs ranks) (offs fs t + i)%nat) with (n_oo (all_norms fs ranks') (offs fs t + i)%nat); [reflexivity|].
  apply (is_max_unique (err f i) (all_nodes ranks')); [apply all_oo; assumption|]. apply (is_max_perm _ _ _ _ P), all_oo; assumption.
Qed.
