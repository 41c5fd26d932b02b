(** C105, continued: many rounds, fixed points, meshes where balancing fails. *)
Require Import List Arith Bool Lia Reals Lra FunctionalExtensionality.
From Verif Require Import Bal_Model Bal_Props.
Import ListNotations.
Open Scope nat_scope.

Lemma sum_one P (f : nat -> nat) r : r < P -> list_sum (map (fun p => if Nat.eqb r p then 1 else 0) (seq 0 P)) = 1.
Proof.
  intros H. assert (G : forall s, s <= r -> r < s + P -> list_sum (map (fun p => if Nat.eqb r p then 1 else 0) (seq s P)) = 1).
  { clear H. induction P as [|P IH]; intros s A B; [lia|]. cbn. destruct (Nat.eqb_spec r s) as [->|N].
    - enough (Z : forall k t, s < t -> list_sum (map (fun p => if Nat.eqb s p then 1 else 0) (seq t k)) = 0) by (rewrite Z by lia; reflexivity).
      induction k as [|k IHk]; intros t L; [reflexivity|]. cbn. destruct (Nat.eqb_spec s t); [lia|]. apply IHk. lia.
    - apply IH; lia. }
  apply G; lia.
Qed.
Lemma sum_add P (f g : nat -> nat) : list_sum (map (fun p => f p + g p) (seq 0 P)) = list_sum (map f (seq 0 P)) + list_sum (map g (seq 0 P)).
Proof. induction (seq 0 P) as [|p l IH]; [reflexivity|]. cbn. unfold list_sum in IH. rewrite IH. lia. Qed.
Lemma counts_total (own : owners) P l : (forall n, In n l -> own n < P) -> list_sum (map (fun r => length (filter (fun n => Nat.eqb (own n) r) l)) (seq 0 P)) = length l.
Proof.
  induction l as [|n l IH]; intros H; [cbn; induction (seq 0 P); [reflexivity|assumption]|].
  transitivity (list_sum (map (fun r => (if Nat.eqb (own n) r then 1 else 0) + length (filter (fun n => Nat.eqb (own n) r) l)) (seq 0 P))).
  - f_equal. apply map_ext. intros r. cbn. destruct (Nat.eqb (own n) r); reflexivity.
  - rewrite sum_add, sum_one, IH; [reflexivity|intros; apply H; now right|exact own|apply H; now left].
Qed.
(** However many rounds are run, every node is owned by exactly one process that holds it, the counts of all processes add up to the number of nodes, and the smallest count is not below the first. *)
Theorem C105_balance_keeps_owners_valid : forall target k m own, mesh_ok m -> 0 < nranks m -> owned_by_holder m own ->
  let own' := balance target k m own in
  owned_by_holder m own' /\ list_sum (map (count m own') (seq 0 (nranks m))) = length (nds m) /\ least m own <= least m own'.
Proof.
  intros target k m own OK P V own'.
  assert (G : forall k own, owned_by_holder m own -> owned_by_holder m (rounds target m k own) /\ least m own <= least m (rounds target m k own)).
  { clear - OK P. induction k as [|k IH]; intros own V; cbn; [now split|]. destruct (converged target m own); [now split|].
    destruct (IH (round m own) (C105_round_keeps_owners_valid m own OK V)) as (A & B). split; [assumption|].
    eapply Nat.le_trans; [apply C105_minimum_never_drops; assumption|assumption]. }
  assert (V' : owned_by_holder m own' /\ least m own <= least m own').
  { unfold own', balance. destruct (Nat.eqb (nranks m) 1); [now split|now apply G]. }
  destruct V' as (V' & L). split; [assumption|]. split; [|assumption]. apply counts_total. intros n Hn.
  destruct OK as (_ & _ & _ & _ & B). apply (B n); auto.
Qed.
(** Two processes: the largest count never grows either, so the load factor never gets worse. *)
Lemma two_single_giver m own : mesh_ok m -> nranks m = 2 -> owned_by_holder m own -> single_giver m own.
Proof.
  intros OK P V n n' Hn Hn' E D D'. pose proof (C105_round_keeps_owners_valid m own OK V) as V'.
  assert (B : forall own n, owned_by_holder m own -> In n (nds m) -> own n < 2). { clear - OK P. intros own n V H. rewrite <- P. destruct OK as (_ & _ & _ & _ & B). apply (B n); auto. }
  pose proof (B own n V Hn). pose proof (B own n' V Hn'). pose proof (B _ n V' Hn). pose proof (B _ n' V' Hn'). lia.
Qed.
Theorem C105_two_processes_improve : forall target k m own, mesh_ok m -> nranks m = 2 -> owned_by_holder m own ->
  most m (balance target k m own) <= most m own /\ least m own <= least m (balance target k m own).
Proof.
  intros target k m own OK P V. split; [|apply C105_balance_keeps_owners_valid; auto; lia]. unfold balance. rewrite P. cbn [Nat.eqb].
  revert own V. induction k as [|k IH]; intros own V; cbn; [lia|]. destruct (converged target m own); [lia|].
  eapply Nat.le_trans; [apply IH, C105_round_keeps_owners_valid; assumption|]. apply C105_single_giver_never_worse; auto using two_single_giver.
Qed.
(** ** where a round stops *)
Lemma fold_still m own r : forall l s, (forall n, In n l -> own n = r -> choose (v_k s) (v_t s) r (others m r n) = r) -> fold_left (give m own r) l s = s.
Proof.
  induction l as [|n l IH]; intros s H; [reflexivity|]. cbn. assert (E : give m own r s n = s).
  { unfold give. destruct (Nat.eqb_spec (own n) r) as [O|]; [|reflexivity]. rewrite (H n (or_introl eq_refl) O). cbv zeta. now rewrite Nat.eqb_refl. }
  rewrite E. apply IH. intros; apply H; [now right|assumption].
Qed.
Lemma fold_moves m own r : forall l s, exists l', v_mv (fold_left (give m own r) l s) = v_mv s ++ l'.
Proof.
  induction l as [|n l IH]; intros s; [exists []; cbn; now rewrite app_nil_r|]. cbn. destruct (IH (give m own r s n)) as (l' & ->). unfold give. destruct (Nat.eqb (own n) r); [|now exists l'].
  cbv zeta. destruct (Nat.eqb _ r); [now exists l'|]. cbn. rewrite <- app_assoc. now eexists.
Qed.
(** A round moves nothing exactly when no process holds a node it could give to a holder with fewer nodes. *)
Theorem C105_fixed_point : forall m own, mesh_ok m -> owned_by_holder m own ->
  (forall n, In n (nds m) -> round m own n = own n) <-> (forall n p, In n (nds m) -> In p (shr m n) -> count m own (own n) <= count m own p).
Proof.
  intros m own OK V. split.
  - intros H n p Hn Hp. destruct (Nat.eq_dec p (own n)) as [->|D]; [lia|].
    assert (Ho : In n (ord m (own n))). { destruct OK as (_ & _ & _ & S & _). apply S. split; [assumption|]. split; [now apply V|]. now exists p. }
    assert (G : forall l s, In n l -> v_mv (fold_left (give m own (own n)) l s) = v_mv s -> v_k s <= v_t s p).
    { induction l as [|x l IH]; intros s I E; [destruct I|]. cbn in E.
      assert (Ex : give m own (own n) s x = s).
      { destruct (fold_moves m own (own n) l (give m own (own n) s x)) as (l' & F). rewrite F in E. unfold give in *. destruct (Nat.eqb (own x) (own n)); [|reflexivity].
        cbv zeta in *. destruct (Nat.eqb _ (own n)); [reflexivity|]. exfalso. cbn in E. rewrite <- app_assoc in E. rewrite <- (app_nil_r (v_mv s)) in E at 2. apply app_inv_head in E. discriminate. }
      destruct I as [->|I]; [|apply (IH s); [assumption|now rewrite Ex in E]].
      unfold give in Ex. rewrite Nat.eqb_refl in Ex. cbv zeta in Ex. destruct (choose_cases m own (own n) s n) as [(C & M)|(C & _)].
      - apply M. apply others_in. now split.
      - destruct (Nat.eqb_spec (choose (v_k s) (v_t s) (own n) (others m (own n) n)) (own n)); [contradiction|]. apply (f_equal v_mv) in Ex. cbn in Ex. rewrite <- (app_nil_r (v_mv s)) in Ex at 2. apply app_inv_head in Ex. discriminate. }
    specialize (G (ord m (own n)) (mkView (count m own (own n)) (count m own) []) Ho). cbn [v_mv v_k v_t] in G. apply G.
    destruct (v_mv (fold_left (give m own (own n)) (ord m (own n)) _)) as [|(x, q) l] eqn:E; [reflexivity|exfalso]. fold (decide m own (own n)) in E. destruct (decide_inv m own (own n) OK) as (_ & _ & N & M).
    rewrite E in *. destruct (M x q (or_introl eq_refl)) as (Ix & Ox & Dq & _). destruct OK as (_ & _ & _ & S & _). apply S in Ix. destruct Ix as (Ix & _).
    specialize (H x Ix). unfold round in H. rewrite Ox, E in H. unfold moved_to in H. cbn in H. rewrite Nat.eqb_refl in H. cbn in H. congruence.
  - intros H n Hn. unfold round. unfold decide. rewrite fold_still; [reflexivity|]. cbn [v_k v_t]. intros x Hx Ox.
    destruct (choose_cases m own (own n) (mkView (count m own (own n)) (count m own) []) x) as [(C & _)|(C & I & L & _)]; [exact C|]. cbn [v_k v_t] in *.
    destruct OK as (_ & _ & _ & S & _). apply S in Hx. destruct Hx as (Hx & _). specialize (H x _ Hx I). rewrite Ox in H. lia.
Qed.
(** Every count a process waits for is sent: process q expects a number from p exactly when p sends one to q. *)
Theorem C105_exchange_matches : forall m p q, mesh_ok m -> In q (neighbours m p) <-> In p (neighbours m q).
Proof.
  assert (G : forall m p q, mesh_ok m -> In q (neighbours m p) -> In p (neighbours m q)).
  { intros m p q (_ & _ & _ & S & _) H. unfold neighbours in *. apply nodup_In in H. apply nodup_In. apply in_flat_map in H. destruct H as (n & Hn & H). apply in_flat_map.
    apply others_in in H. apply S in Hn. destruct Hn as (A & B & _). exists n. split; [apply S; split; [assumption|split; [tauto|exists p; split; [intro; subst; tauto|assumption]]]|]. apply others_in. split; [assumption|]. intro; subst; tauto. }
  intros m p q OK. split; apply G; assumption.
Qed.
(** a process that shares a node knows the count of every process it may give the node to *)
Theorem C105_destinations_known : forall m r n p, mesh_ok m -> In n (ord m r) -> In p (others m r n) -> In p (neighbours m r).
Proof. intros m r n p _ H I. unfold neighbours. apply nodup_In, in_flat_map. now exists n. Qed.
(** Reaching the target stops balancing; an empty process keeps it going. *)
Theorem C105_target : forall target m own k, converged target m own = true -> balance target k m own = own.
Proof. intros target m own k H. unfold balance. destruct (Nat.eqb _ 1); [reflexivity|]. destruct k; cbn; [reflexivity|]. now rewrite H. Qed.
Theorem C105_target_meaning : forall target m own, converged target m own = true <-> 0 < least m own /\ (INR (most m own) <= target * INR (least m own))%R.
Proof.
  intros target m own. unfold converged. destruct (Nat.eqb_spec (least m own) 0) as [E|E]; [split; [discriminate|intros (A & _); lia]|].
  assert (P : (0 < INR (least m own))%R) by (apply lt_0_INR; lia).
  destruct (Rle_dec _ _) as [H|H]; split; try discriminate; try reflexivity.
  - intros _. split; [lia|]. apply (Rmult_le_compat_r (INR (least m own))) in H; [|lra]. unfold Rdiv in H. rewrite Rmult_assoc, Rinv_l, Rmult_1_r in H; lra.
  - intros (_ & A). exfalso. apply H. apply (Rmult_le_reg_r (INR (least m own))); [assumption|]. unfold Rdiv. rewrite Rmult_assoc, Rinv_l, Rmult_1_r; lra.
Qed.

(** ** four processes that hold all nodes of an interface *)
Definition all4 : list rank := [0;1;2;3].
Definition square (k : nat) : mesh := mkMesh 4 (seq 0 k) (fun _ => all4) (fun r => if Nat.ltb r 4 then seq 0 k else []).
Lemma square_ok k : mesh_ok (square k).
Proof.
  split; [apply seq_NoDup|]. split; [intro r; change (NoDup (if Nat.ltb r 4 then seq 0 k else [])); destruct (Nat.ltb r 4); [apply seq_NoDup|constructor]|]. split; [intro; unfold square, all4; cbn [shr]; repeat constructor; cbn; intuition lia|]. split.
  - intros r n. cbn [ord square nds shr nranks]. destruct (Nat.ltb_spec r 4) as [L|L].
    + split; [|tauto]. intros H. split; [assumption|]. split; [unfold all4; cbn; lia|]. destruct r; [exists 1|exists 0]; split; try lia; cbn; auto.
    + split; [intros []|]. intros (_ & H & _). unfold all4 in H. cbn in H. lia.
  - intros n p _ H. cbn [shr nranks square] in *. unfold all4 in H. cbn in H. lia.
Qed.
(** Balancing should settle, or at least not be futile: here two processes with two nodes each hand all of them to the two empty ones, which hand them back in the next round, for ever; no number of rounds gives every process a node. *)
Definition own22 : owners := fun n => match n with 0 | 1 => 0 | _ => 1 end.
Definition own22' : owners := fun n => match n with 0 | 2 => 2 | _ => 3 end.
Definition same4 (a b : owners) : Prop := forall n, n < 4 -> a n = b n.
Lemma give_ext m a b r : (forall n, In n (nds m) -> a n = b n) -> forall l s, (forall n, In n l -> In n (nds m)) -> fold_left (give m a r) l s = fold_left (give m b r) l s.
Proof.
  intros H. induction l as [|n l IH]; intros s I; [reflexivity|]. cbn. replace (give m b r s n) with (give m a r s n); [apply IH; intros; apply I; now right|].
  unfold give. now rewrite (H n (I n (or_introl eq_refl))).
Qed.
Lemma count_ext m (a b : owners) r : (forall n, In n (nds m) -> a n = b n) -> count m a r = count m b r.
Proof. intros H. unfold count. f_equal. apply filter_ext_in. intros n Hn. now rewrite (H n Hn). Qed.
Lemma decide_ext m a b r : mesh_ok m -> (forall n, In n (nds m) -> a n = b n) -> decide m a r = decide m b r.
Proof.
  intros (_ & _ & _ & S & _) H. unfold decide. replace (count m a) with (count m b) by (apply functional_extensionality; intro; symmetry; now apply count_ext).
  apply give_ext; [assumption|]. intros n Hn. now apply S in Hn.
Qed.
Lemma round_ext m a b : mesh_ok m -> (forall n, In n (nds m) -> a n = b n) -> forall n, In n (nds m) -> round m a n = round m b n.
Proof. intros OK H n Hn. unfold round. now rewrite (H n Hn), (decide_ext m a b (b n) OK H). Qed.
Theorem C105_balancing_settles_refuted : exists m own, mesh_ok m /\ owned_by_holder m own
  /\ (exists best, owned_by_holder m best /\ most m best = least m best)
  /\ forall target k, least m (balance target k m own) = 0 /\ most m (balance target k m own) = 2
       /\ (forall n, In n (nds m) -> balance target (2*k) m own n = own n) /\ (exists n, In n (nds m) /\ balance target (2*k+1) m own n <> own n).
Proof.
  set (m := square 4). assert (OK : mesh_ok m) by apply square_ok.
  assert (R1 : forall n, In n (nds m) -> round m own22 n = own22' n) by (intros n H; cbn in H; destruct H as [<-|[<-|[<-|[<-|[]]]]]; vm_compute; reflexivity).
  assert (R2 : forall n, In n (nds m) -> round m own22' n = own22 n) by (intros n H; cbn in H; destruct H as [<-|[<-|[<-|[<-|[]]]]]; vm_compute; reflexivity).
  assert (LM : forall own, (forall n, In n (nds m) -> own n = own22 n) \/ (forall n, In n (nds m) -> own n = own22' n) -> least m own = 0 /\ most m own = 2).
  { intros own H. assert (E : forall o, (forall n, In n (nds m) -> own n = o n) -> least m own = least m o /\ most m own = most m o).
    { intros o Ho. assert (C : count m own = count m o) by (apply functional_extensionality; intro; now apply count_ext). unfold least, most. now rewrite C. }
    destruct H as [H|H]; destruct (E _ H) as (-> & ->); vm_compute; split; reflexivity. }
  assert (G : forall target k own, (forall n, In n (nds m) -> own n = own22 n) \/ (forall n, In n (nds m) -> own n = own22' n) ->
    least m (rounds target m k own) = 0 /\ most m (rounds target m k own) = 2
    /\ forall o, (o = own22 \/ o = own22') -> (forall n, In n (nds m) -> own n = o n) -> forall n, In n (nds m) -> rounds target m k own n = (if Nat.even k then o else round m o) n).
  { intros target. induction k as [|k IH]; intros own H; cbn [rounds].
    - destruct (LM own H) as (A & B). split; [assumption|]. split; [assumption|]. intros o _ Ho n Hn. cbn. now apply Ho.
    - destruct (LM own H) as (A & B). unfold converged. rewrite A. cbn [Nat.eqb].
      assert (H' : (forall n, In n (nds m) -> round m own n = own22 n) \/ (forall n, In n (nds m) -> round m own n = own22' n)).
      { destruct H as [H|H]; [right|left]; intros n Hn; rewrite (round_ext m own _ OK H n Hn); auto. }
      destruct (IH (round m own) H') as (A' & B' & C'). split; [assumption|]. split; [assumption|]. intros o Oo Ho n Hn.
      rewrite Nat.even_succ, <- Nat.negb_even.
      destruct Oo as [-> | ->].
      + rewrite (C' own22'); [|now right| |assumption].
        * destruct (Nat.even k); cbn [negb]; [now rewrite R1|now apply R2].
        * intros x Hx. rewrite (round_ext m own own22 OK Ho x Hx). now apply R1.
      + rewrite (C' own22); [|now left| |assumption].
        * destruct (Nat.even k); cbn [negb]; [now rewrite R2|now apply R1].
        * intros x Hx. rewrite (round_ext m own own22' OK Ho x Hx). now apply R2. }
  exists m, own22. split; [assumption|]. split; [intros n H; cbn in H; destruct H as [<-|[<-|[<-|[<-|[]]]]]; cbn; auto|]. split.
  { exists (fun n => n). split; [intros n H; cbn in H; destruct H as [<-|[<-|[<-|[<-|[]]]]]; cbn; auto|vm_compute; reflexivity]. }
  intros target k. unfold balance. change (Nat.eqb (nranks m) 1) with false. cbv iota.
  assert (Z : forall n, In n (nds m) -> own22 n = own22 n) by reflexivity.
  destruct (G target k own22 (or_introl Z)) as (A & B & _). split; [assumption|]. split; [assumption|]. split.
  - intros n Hn. destruct (G target (2*k) own22 (or_introl Z)) as (_ & _ & C). rewrite (C own22 (or_introl eq_refl) Z n Hn). now rewrite Nat.even_mul.
  - exists 0. split; [cbn; now left|]. destruct (G target (2*k+1) own22 (or_introl Z)) as (_ & _ & C). rewrite (C own22 (or_introl eq_refl) Z 0 (or_introl eq_refl)).
    rewrite Nat.add_1_r, Nat.even_succ, <- Nat.negb_even, Nat.even_mul. cbn [Nat.even orb negb]. rewrite R1 by now left. cbn. discriminate.
Qed.
(** A round should not make the imbalance worse. Three processes with five nodes each all give to the one with two, which ends with eight while they keep three: the load factor goes from 5/2 to 8/3. *)
Definition own3 : owners := fun n => if Nat.ltb n 5 then 0 else if Nat.ltb n 10 then 1 else if Nat.ltb n 15 then 2 else 3.
Theorem C105_round_never_worse_refuted : exists m own, mesh_ok m /\ owned_by_holder m own /\ 0 < least m own
  /\ most m own < most m (round m own) /\ (INR (most m own) / INR (least m own) < INR (most m (round m own)) / INR (least m (round m own)))%R.
Proof.
  exists (square 17), own3. split; [apply square_ok|]. split.
  { intros n _. unfold own3, square, all4. cbn [shr]. destruct (Nat.ltb n 5); [cbn; auto|]. destruct (Nat.ltb n 10); [cbn; auto|]. destruct (Nat.ltb n 15); cbn; auto. }
  replace (most (square 17) own3) with 5 by (vm_compute; reflexivity). replace (least (square 17) own3) with 2 by (vm_compute; reflexivity).
  replace (most (square 17) (round (square 17) own3)) with 8 by (vm_compute; reflexivity). replace (least (square 17) (round (square 17) own3)) with 3 by (vm_compute; reflexivity).
  split; [lia|]. split; [lia|]. cbn. lra.
Qed.
(** Giving iterations or a target switches balancing on, even beside balance_nodes: no. *)
Theorem C105_option : forall on i t, balancing_on on i t = true <-> on = Some true \/ i = true \/ t = true.
Proof. intros [[]|] [] []; cbn; intuition congruence. Qed.
(** The hypotheses are met and balancing works: two processes that share six nodes, five owned by the first; one round gives three each. *)
Definition pair6 : mesh := mkMesh 2 (seq 0 6) (fun _ => [0;1]) (fun r => if Nat.ltb r 2 then seq 0 6 else []).
Lemma pair6_ok : mesh_ok pair6.
Proof.
  split; [apply seq_NoDup|]. split; [intro r; change (NoDup (if Nat.ltb r 2 then seq 0 6 else [])); destruct (Nat.ltb r 2); [apply seq_NoDup|constructor]|].
  split; [intro; unfold pair6; cbn [shr]; repeat constructor; cbn; intuition lia|]. split.
  - intros r n. cbn [ord pair6 nds shr nranks]. destruct (Nat.ltb_spec r 2) as [L|L].
    + split; [|tauto]. intros H. split; [assumption|]. split; [cbn; lia|]. destruct r; [exists 1|exists 0]; split; try lia; cbn; auto.
    + split; [intros []|]. intros (_ & H & _). cbn in H. lia.
  - intros n p _ H. cbn [shr nranks pair6] in *. cbn in H. lia.
Qed.
Definition own51 : owners := fun n => if Nat.ltb n 5 then 0 else 1.
Theorem C105_case : mesh_ok pair6 /\ owned_by_holder pair6 own51 /\ single_giver pair6 own51
  /\ (most pair6 own51, least pair6 own51) = (5, 1) /\ (most pair6 (round pair6 own51), least pair6 (round pair6 own51)) = (3, 3)
  /\ map (balance 1 9 pair6 own51) (nds pair6) = [1;1;0;0;0;1].
Proof.
  assert (V : owned_by_holder pair6 own51) by (intros n _; unfold own51; cbn [shr pair6]; destruct (Nat.ltb n 5); cbn; auto).
  split; [apply pair6_ok|]. split; [exact V|]. split; [apply two_single_giver; [apply pair6_ok|reflexivity|exact V]|]. split; [vm_compute; reflexivity|]. split; [vm_compute; reflexivity|].
  assert (C0 : converged 1 pair6 own51 = false).
  { apply not_true_is_false. intro H. apply C105_target_meaning in H. destruct H as (_ & H). replace (most pair6 own51) with 5 in H by (vm_compute; reflexivity). replace (least pair6 own51) with 1 in H by (vm_compute; reflexivity). cbn in H. lra. }
  assert (C1 : converged 1 pair6 (round pair6 own51) = true).
  { apply C105_target_meaning. replace (most pair6 (round pair6 own51)) with 3 by (vm_compute; reflexivity). replace (least pair6 (round pair6 own51)) with 3 by (vm_compute; reflexivity). split; [lia|cbn; lra]. }
  unfold balance. change (Nat.eqb (nranks pair6) 1) with false. cbv iota. change 9 with (S 8). cbn [rounds]. rewrite C0. change 8 with (S 7). cbn [rounds]. rewrite C1. vm_compute. reflexivity.
Qed.
