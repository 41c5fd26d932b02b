(** C105: balancing the ownership of nodes between processes. *)
Require Import List Arith Bool Lia Reals Lra Permutation.
From Verif Require Import Bal_Model.
Import ListNotations.

(** a mesh a run can have: every process below [nranks] lists the nodes it shares with another, each once, in any order *)
Definition mesh_ok (m : mesh) : Prop :=
  NoDup (nds m) /\ (forall r, NoDup (ord m r)) /\ (forall n, NoDup (shr m n))
  /\ (forall r n, In n (ord m r) <-> In n (nds m) /\ In r (shr m n) /\ exists p, p <> r /\ In p (shr m n))
  /\ (forall n p, In n (nds m) -> In p (shr m n) -> p < nranks m).
(** every node has an owner that holds it *)
Definition owned_by_holder (m : mesh) (own : owners) : Prop := forall n, In n (nds m) -> In (own n) (shr m n).

Lemma others_in m r n p : In p (others m r n) <-> In p (shr m n) /\ p <> r.
Proof. unfold others. rewrite filter_In, negb_true_iff, Nat.eqb_neq. tauto. Qed.
(** ** the choice of the destination *)
Lemma choose_gen k t r : forall procs a d, (d = r /\ a = (1, 1)) \/ (a = (k, t d) /\ t d < k) ->
  let c := snd (fold_left (fun (s : (nat * nat) * rank) p => let load := (k, t p) in if gt_frac load (fst s) then (load, p) else s) procs (a, d)) in
  (c = r /\ (d = r /\ a = (1, 1)) /\ (forall p, In p procs -> k <= t p))
  \/ (t c < k /\ (In c procs \/ (c = d /\ a = (k, t d) /\ t d < k)) /\ (forall p, In p procs -> t c <= t p) /\ (a = (k, t d) /\ t d < k -> t c <= t d)).
Proof.
  induction procs as [|p l IH]; intros a d H; cbv zeta; cbn [fold_left].
  - destruct H as [(E & A) | (A & L)]; cbn [snd].
    + left. split; [assumption|]. split; [now split|]. intros ? [].
    + right. split; [assumption|]. split; [right; auto|]. split; [intros ? []|]. intros _. lia.
  - cbv zeta in IH. destruct (gt_frac (k, t p) (fst (a, d))) eqn:G.
    + assert (L : t p < k).
      { unfold gt_frac in G. cbn [fst snd] in G. apply Nat.ltb_lt in G. destruct H as [(_ & ->) | (-> & L)]; cbn [fst snd] in G; nia. }
      destruct (IH (k, t p) p (or_intror (conj eq_refl L))) as [(_ & (Ep & A) & _) | (L1 & I1 & M1 & T1)].
      * injection A as A1 A2. lia.
      * right. specialize (T1 (conj eq_refl L)). split; [assumption|]. split; [left; destruct I1 as [I1|(-> & _)]; cbn; auto|]. split; [intros q [<-|Q]; auto|].
        intros (-> & Ld). unfold gt_frac in G. cbn [fst snd] in G. apply Nat.ltb_lt in G. nia.
    + cbn [fst] in G. unfold gt_frac in G. cbn [fst snd] in G. apply Nat.ltb_ge in G.
      destruct (IH a d H) as [(E & D & M1) | (L1 & I1 & M1 & T1)].
      * left. split; [assumption|]. split; [assumption|]. intros q [<-|Q]; [|auto]. destruct D as (_ & ->). cbn [fst snd] in G. lia.
      * right. split; [assumption|]. split; [destruct I1; [left; right; assumption|now right]|]. split; [|assumption]. intros q [<-|Q]; [|auto].
        destruct H as [(E & ->) | (-> & L)]; cbn [fst snd] in G; [lia|]. specialize (T1 (conj eq_refl L)). assert (t d <= t p) by nia. lia.
Qed.
(** The process a node is offered to is a least loaded process of those that hold it, and only one that owns strictly fewer nodes; otherwise the node stays. *)
Theorem C105_destination_is_least_loaded : forall k t r procs, let d := choose k t r procs in
  (d = r /\ (forall p, In p procs -> k <= t p)) \/ (In d procs /\ t d < k /\ (forall p, In p procs -> t d <= t p)).
Proof.
  intros k t r procs d. destruct (choose_gen k t r procs (1, 1) r (or_introl (conj eq_refl eq_refl))) as [(E & _ & M) | (L & I & M & _)].
  - left. now split.
  - right. destruct I as [I | (_ & A & Lr)]; [now split; [|split]|]. injection A as A1 A2. lia.
Qed.
Lemma choose_cases m (own : owners) r s n : let d := choose (v_k s) (v_t s) r (others m r n) in
  (d = r /\ (forall p, In p (others m r n) -> v_k s <= v_t s p)) \/ (d <> r /\ In d (shr m n) /\ v_t s d < v_k s /\ (forall p, In p (others m r n) -> v_t s d <= v_t s p)).
Proof.
  intros d. destruct (C105_destination_is_least_loaded (v_k s) (v_t s) r (others m r n)) as [(E & M)|(I & L & M)]; [now left|].
  right. apply others_in in I. fold d in I, L, M. tauto.
Qed.

(** ** what one process decides *)
Definition to (p : rank) (l : list (node * rank)) : nat := length (filter (fun e => Nat.eqb (snd e) p) l).
Lemma to_app p l l' : to p (l ++ l') = to p l + to p l'.
Proof. unfold to. now rewrite filter_app, app_length. Qed.

Lemma to_one p n d : to p [(n, d)] = if Nat.eqb p d then 1 else 0.
Proof. unfold to. cbn. rewrite (Nat.eqb_sym d p). now destruct (Nat.eqb p d). Qed.

Lemma nodup_snoc {A} (l : list A) x : NoDup (l ++ [x]) <-> ~ In x l /\ NoDup l.
Proof.
  split.
  - intros H. assert (H' : NoDup (x :: l)) by (eapply Permutation_NoDup; [|exact H]; apply Permutation_sym, Permutation_cons_append). now apply NoDup_cons_iff.
  - intros H. eapply Permutation_NoDup; [apply Permutation_cons_append|]. now apply NoDup_cons_iff.
Qed.
Lemma nodup_front {A} (a b : list A) : NoDup (a ++ b) -> NoDup a.
Proof. induction a as [|x a IH]; [constructor|]. cbn. intros H. apply NoDup_cons_iff in H. destruct H as (N & H). constructor; [intro; apply N, in_or_app; now left|auto]. Qed.

Definition inv (m : mesh) (own : owners) (r : rank) (done : list node) (s : view) : Prop :=
  v_k s + length (v_mv s) = count m own r
  /\ (forall p, v_t s p = count m own p + to p (v_mv s))
  /\ NoDup (map fst (v_mv s))
  /\ (forall n p, In (n, p) (v_mv s) -> In n done /\ own n = r /\ p <> r /\ In p (shr m n)).

Lemma inv_give m own r done s n : inv m own r done s -> ~ In n done -> inv m own r (done ++ [n]) (give m own r s n).
Proof.
  intros (K & T & N & M) Hn. unfold give.
  assert (W : inv m own r (done ++ [n]) s).
  { split; [assumption|]. split; [assumption|]. split; [assumption|]. intros x p I. destruct (M x p I) as (A & B). split; [apply in_or_app; now left|assumption]. }
  destruct (Nat.eqb_spec (own n) r) as [O|O]; [|assumption].
  destruct (choose_cases m own r s n) as [(E & _)|(E & I & L & _)]; cbv zeta.
  - rewrite E, Nat.eqb_refl. assumption.
  - destruct (Nat.eqb_spec (choose (v_k s) (v_t s) r (others m r n)) r) as [E'|_]; [contradiction|].
    set (d := choose (v_k s) (v_t s) r (others m r n)) in *. split; [|split; [|split]]; cbn [v_k v_t v_mv].
    + rewrite app_length. cbn. lia.
    + intros p. rewrite to_app, to_one, T. destruct (Nat.eqb p d); lia.
    + rewrite map_app. cbn. apply nodup_snoc. split; [|assumption].
      intros Q. apply in_map_iff in Q. destruct Q as ((x, p) & <- & Q). apply Hn. now destruct (M x p Q).
    + intros x p Q. apply in_app_or in Q. destruct Q as [Q|[Q|[]]]; [destruct (M x p Q) as (A & B); split; [apply in_or_app; now left|assumption]|].
      injection Q as <- <-. split; [apply in_or_app; right; now left|]. tauto.
Qed.
Lemma fold_inv m own r (P : view -> Prop) : forall l done s, NoDup (done ++ l) -> inv m own r done s -> P s ->
  (forall s n done', inv m own r done' s -> P s -> P (give m own r s n)) ->
  inv m own r (done ++ l) (fold_left (give m own r) l s) /\ P (fold_left (give m own r) l s).
Proof.
  induction l as [|n l IH]; intros done s ND I HP Step; cbn [fold_left]; [rewrite app_nil_r; now split|].
  replace (done ++ n :: l) with ((done ++ [n]) ++ l) in * by (rewrite <- app_assoc; reflexivity).
  apply IH; auto; [|eapply Step; eassumption]. apply inv_give; [assumption|]. apply nodup_front, nodup_snoc in ND. tauto.
Qed.
Lemma inv0 m own r : inv m own r [] (mkView (count m own r) (count m own) []).
Proof. split; [cbn; lia|]. split; [intros; cbn; lia|]. split; [constructor|]. intros n p []. Qed.
Lemma decide_inv m own r : mesh_ok m -> inv m own r (ord m r) (decide m own r).
Proof. intros (_ & N & _). apply (fold_inv m own r (fun _ => True) (ord m r) [] _); auto using inv0. apply N. Qed.
(** the process keeps at least as many nodes as the least loaded process *)
Lemma decide_lower m own r lo : mesh_ok m -> (forall p, lo <= count m own p \/ ~ p < nranks m) -> r < nranks m -> lo <= v_k (decide m own r).
Proof.
  intros (ND & N & NS & S & B) L R.
  assert (G : forall l done s, NoDup (done ++ l) -> (forall n, In n l -> In n (nds m)) -> inv m own r done s -> lo <= v_k s -> lo <= v_k (fold_left (give m own r) l s)).
  { induction l as [|n l IH]; intros done s Nd In_ I HL; cbn [fold_left]; [assumption|].
    replace (done ++ n :: l) with ((done ++ [n]) ++ l) in * by (rewrite <- app_assoc; reflexivity).
    assert (Hn : ~ In n done). { apply nodup_front, nodup_snoc in Nd. tauto. }
    apply (IH (done ++ [n])); auto; [intros; apply In_; now right|now apply inv_give|].
    unfold give. destruct (Nat.eqb (own n) r); [|assumption]. destruct (choose_cases m own r s n) as [(E & _)|(E & Id & Lt & _)]; cbv zeta.
    - rewrite E, Nat.eqb_refl. assumption.
    - destruct (Nat.eqb_spec (choose (v_k s) (v_t s) r (others m r n)) r); [assumption|]. cbn [v_k]. destruct I as (_ & T & _).
      specialize (T (choose (v_k s) (v_t s) r (others m r n))). destruct (L (choose (v_k s) (v_t s) r (others m r n))) as [L1|L1]; [lia|].
      exfalso. apply L1. apply (B n); [apply In_; now left|assumption]. }
  apply (G (ord m r) []); auto using inv0; [apply N|intros n Hn; now apply S in Hn|cbn; destruct (L r); [assumption|contradiction]].
Qed.
(** the process never takes another above its own count *)
Lemma decide_upper m own r : mesh_ok m -> let s := decide m own r in forall p, 0 < to p (v_mv s) -> v_t s p <= count m own r.
Proof.
  intros OK. destruct OK as (_ & N & _).
  destruct (fold_inv m own r (fun s => forall p, 0 < to p (v_mv s) -> v_t s p <= count m own r) (ord m r) [] (mkView (count m own r) (count m own) []) (N r) (inv0 m own r)) as (_ & E); [cbn; lia| |exact E].
  intros s n done' (K & _) H. unfold give. destruct (Nat.eqb (own n) r); [|assumption]. destruct (choose_cases m own r s n) as [(E & _)|(E & _ & L & _)]; cbv zeta.
  - rewrite E, Nat.eqb_refl. assumption.
  - destruct (Nat.eqb_spec (choose (v_k s) (v_t s) r (others m r n)) r); [assumption|]. set (d := choose (v_k s) (v_t s) r (others m r n)) in *. cbn [v_mv v_t].
    intros p Hp. rewrite to_app, to_one in Hp. destruct (Nat.eqb_spec p d) as [Q|]; [rewrite Q; lia|apply H; lia].
Qed.

(** ** one round *)
Lemma find_in (l : list (node * rank)) n : moved_to l n = None -> forall p, ~ In (n, p) l.
Proof.
  unfold moved_to. destruct (find (fun e => Nat.eqb (fst e) n) l) eqn:F; [discriminate|]. intros _ p I. apply (find_none _ _ F) in I. cbn in I. now rewrite Nat.eqb_refl in I.
Qed.
Lemma moved_in (l : list (node * rank)) n p : moved_to l n = Some p -> In (n, p) l.
Proof.
  unfold moved_to. destruct (find (fun e => Nat.eqb (fst e) n) l) as [(x, q)|] eqn:F; [|discriminate]. cbn. intros [= <-]. apply find_some in F. destruct F as (I & E). cbn in E. apply Nat.eqb_eq in E. now subst.
Qed.
(** Whatever the loads, after a round every node still has exactly one owner and that owner holds the node; nodes held by one process never move. *)
Theorem C105_round_keeps_owners_valid : forall m own, mesh_ok m -> owned_by_holder m own -> owned_by_holder m (round m own).
Proof.
  intros m own OK V n Hn. unfold round. destruct (moved_to _ n) as [p|] eqn:E; [|now apply V].
  apply moved_in in E. destruct (decide_inv m own (own n) OK) as (_ & _ & _ & M). now destruct (M n p E) as (_ & _ & _ & I).
Qed.
Theorem C105_private_nodes_stay : forall m own n, mesh_ok m -> (forall p, In p (shr m n) -> p = own n) -> round m own n = own n.
Proof.
  intros m own n OK H. unfold round. destruct (moved_to _ n) as [p|] eqn:E; [|reflexivity].
  apply moved_in in E. destruct (decide_inv m own (own n) OK) as (_ & _ & _ & M). destruct (M n p E) as (_ & _ & X & I). now apply H in I.
Qed.
Lemma count_split m own r : count m own r = length (filter (fun n => Nat.eqb (own n) r) (nds m)).
Proof. reflexivity. Qed.
Lemma filter_len_le {A} (f g : A -> bool) l : (forall x, In x l -> f x = true -> g x = true) -> length (filter f l) <= length (filter g l).
Proof.
  induction l as [|x l IH]; intros H; [cbn; lia|]. cbn. assert (I : length (filter f l) <= length (filter g l)) by (apply IH; intros; apply H; [now right|assumption]).
  destruct (f x) eqn:F; [rewrite (H x (or_introl eq_refl) F); cbn; lia|]. destruct (g x); cbn; lia.
Qed.
Lemma filter_len_or {A} (f g h : A -> bool) l : (forall x, In x l -> f x = true -> g x = true \/ h x = true) -> length (filter f l) <= length (filter g l) + length (filter h l).
Proof.
  induction l as [|x l IH]; intros H; [cbn; lia|]. cbn. assert (I : length (filter f l) <= length (filter g l) + length (filter h l)) by (apply IH; intros; apply H; [now right|assumption]).
  destruct (f x) eqn:F; [|destruct (g x), (h x); cbn; lia]. destruct (H x (or_introl eq_refl) F) as [->| ->]; [destruct (h x)|destruct (g x)]; cbn; lia.
Qed.
Lemma filter_in_moves (l : list (node * rank)) (q : node -> bool) nd : NoDup nd -> (forall n, In n nd -> q n = true -> In n (map fst l)) -> length (filter q nd) <= length l.
Proof.
  intros N H. rewrite <- (map_length fst l). apply NoDup_incl_length; [now apply NoDup_filter|]. intros n Hn. apply filter_In in Hn. now apply H.
Qed.
(** a process owns afterwards at least what it kept *)
Lemma count_kept m own r : mesh_ok m -> v_k (decide m own r) <= count m (round m own) r.
Proof.
  intros OK. destruct (decide_inv m own r OK) as (K & _ & Nd & M). set (s := decide m own r) in *.
  assert (L : count m own r <= count m (round m own) r + length (filter (fun n => if in_dec Nat.eq_dec n (map fst (v_mv s)) then true else false) (nds m))).
  { unfold count. apply filter_len_or. intros n _ E. destruct (in_dec Nat.eq_dec n (map fst (v_mv s))) as [|X]; [now right|left].
    apply Nat.eqb_eq in E. apply Nat.eqb_eq. unfold round. rewrite E. fold s. destruct (moved_to (v_mv s) n) as [p|] eqn:F; [|reflexivity].
    exfalso. apply X. apply moved_in in F. apply in_map_iff. now exists (n, p). }
  assert (L2 : length (filter (fun n => if in_dec Nat.eq_dec n (map fst (v_mv s)) then true else false) (nds m)) <= length (v_mv s)).
  { destruct OK as (ND & _). apply filter_in_moves; [assumption|]. intros n _. destruct (in_dec Nat.eq_dec n _); [auto|discriminate]. }
  lia.
Qed.
Lemma in_seq_count m own p : p < nranks m -> In (count m own p) (map (count m own) (seq 0 (nranks m))).
Proof. intro. apply in_map, in_seq. lia. Qed.
Lemma most_ge m own p : p < nranks m -> count m own p <= most m own.
Proof.
  intros H. unfold most. apply (in_seq_count m own) in H. induction (map (count m own) (seq 0 (nranks m))) as [|a l IH]; [destruct H|]. cbn. destruct H as [->|H]; [lia|]. specialize (IH H). lia.
Qed.
Lemma most_le m own M : (forall p, p < nranks m -> count m own p <= M) -> most m own <= M.
Proof.
  intros H. unfold most. assert (G : forall x, In x (map (count m own) (seq 0 (nranks m))) -> x <= M).
  { intros x I. apply in_map_iff in I. destruct I as (p & <- & I). apply in_seq in I. apply H. lia. }
  induction (map (count m own) (seq 0 (nranks m))) as [|a l IH]; cbn; [lia|]. assert (a <= M) by (apply G; now left). assert (fold_right Nat.max 0 l <= M) by (apply IH; intros; apply G; now right). lia.
Qed.
Lemma least_le m own p : p < nranks m -> least m own <= count m own p.
Proof.
  intros H. unfold least. apply (in_seq_count m own) in H. induction (map (count m own) (seq 0 (nranks m))) as [|a l IH]; [destruct H|]. cbn. destruct H as [->|H]; [lia|]. specialize (IH H). lia.
Qed.
Lemma least_ge m own L : 0 < nranks m -> (forall p, p < nranks m -> L <= count m own p) -> L <= least m own.
Proof.
  intros P H. assert (A : L <= most m own) by (apply Nat.le_trans with (count m own 0); [auto|now apply most_ge]). unfold least.
  assert (G : forall x, In x (map (count m own) (seq 0 (nranks m))) -> L <= x).
  { intros x I. apply in_map_iff in I. destruct I as (p & <- & I). apply in_seq in I. apply H. lia. }
  induction (map (count m own) (seq 0 (nranks m))) as [|a l IH]; cbn; [assumption|]. assert (L <= a) by (apply G; now left). specialize (IH (fun x I => G x (or_intror I))). lia.
Qed.
(** No round lets the smallest number of nodes of any process drop. *)
Theorem C105_minimum_never_drops : forall m own, mesh_ok m -> 0 < nranks m -> least m own <= least m (round m own).
Proof.
  intros m own OK P. apply least_ge; [assumption|]. intros p Hp. eapply Nat.le_trans; [|apply count_kept; assumption].
  apply decide_lower; auto. intros q. destruct (Nat.lt_ge_cases q (nranks m)); [left; now apply least_le|right; lia].
Qed.
(** If no process receives nodes from two others in the round, the largest number does not grow either: the load factor only improves. *)
Definition single_giver (m : mesh) (own : owners) : Prop :=
  forall n n' , In n (nds m) -> In n' (nds m) -> round m own n = round m own n' -> own n <> round m own n -> own n' <> round m own n' -> own n = own n'.
Lemma count_after m own p r : mesh_ok m -> (forall n, In n (nds m) -> round m own n = p -> own n = p \/ own n = r) -> r <> p ->
  count m (round m own) p <= count m own p + to p (v_mv (decide m own r)).
Proof.
  intros OK H Hr. set (s := decide m own r).
  assert (L : count m (round m own) p <= count m own p + length (filter (fun n => if in_dec Nat.eq_dec n (map fst (filter (fun e => Nat.eqb (snd e) p) (v_mv s))) then true else false) (nds m))).
  { unfold count. apply filter_len_or. intros n Hn E. apply Nat.eqb_eq in E. destruct (H n Hn E) as [O|O]; [left; now apply Nat.eqb_eq|right].
    destruct (in_dec Nat.eq_dec n _) as [|X]; [reflexivity|exfalso; apply X]. unfold round in E. rewrite O in E. fold s in E. destruct (moved_to (v_mv s) n) as [q|] eqn:F; [|congruence].
    subst q. apply moved_in in F. apply in_map_iff. exists (n, p). split; [reflexivity|]. apply filter_In. split; [assumption|]. cbn. apply Nat.eqb_refl. }
  eapply Nat.le_trans; [exact L|]. apply Nat.add_le_mono_l. destruct OK as (ND & _). unfold to. apply filter_in_moves; [assumption|].
  intros n _. destruct (in_dec Nat.eq_dec n _); [auto|discriminate].
Qed.
Theorem C105_single_giver_never_worse : forall m own, mesh_ok m -> owned_by_holder m own -> single_giver m own -> most m (round m own) <= most m own.
Proof.
  intros m own OK V SG. apply most_le. intros p Hp.
  destruct (find (fun n => Nat.eqb (round m own n) p && negb (Nat.eqb (own n) p))%bool (nds m)) as [n|] eqn:F.
  - apply find_some in F. destruct F as (Hn & F). apply andb_true_iff in F. destruct F as (F1 & F2). apply Nat.eqb_eq in F1. apply negb_true_iff, Nat.eqb_neq in F2.
    eapply Nat.le_trans; [apply (count_after m own p (own n) OK)|].
    + intros x Hx E. destruct (Nat.eq_dec (own x) p) as [|D]; [now left|right]. apply SG; [assumption|assumption| | |]; congruence.
    + assumption.
    + destruct (decide_inv m own (own n) OK) as (_ & T & _ & M). rewrite <- T. eapply Nat.le_trans; [apply decide_upper; [assumption|]|].
      * unfold round in F1. destruct (moved_to (v_mv (decide m own (own n))) n) as [q|] eqn:E; [|congruence]. subst q. apply moved_in in E. unfold to.
        assert (Q : In (n, p) (filter (fun e => Nat.eqb (snd e) p) (v_mv (decide m own (own n))))) by (apply filter_In; split; [assumption|apply Nat.eqb_refl]).
        destruct (filter (fun e => Nat.eqb (snd e) p) (v_mv (decide m own (own n)))); [destruct Q|cbn; lia].
      * apply most_ge. destruct OK as (_ & _ & _ & _ & B). apply (B n); auto.
  - eapply Nat.le_trans; [|apply (most_ge m own p Hp)]. unfold count. apply filter_len_le. intros n Hn E. apply (find_none _ _ F) in Hn. rewrite E in Hn. cbn in Hn.
    now apply negb_false_iff in Hn.
Qed.
