(** * C99: which boundary condition's value a shared node takes *)
From Coq Require Import Reals List Bool Arith Lia Lra Permutation Sorted.
From Verif Require Import Edge_Model Edge_Proofs Elem_Proofs Asm_Model Asm_Spec Asm_Props Asm_Props2.
Import ListNotations.
Open Scope R_scope.

Notation reg := (nat * (nat -> bool) * nat)%type.
Definition dkeys (m : list reg) := map (fun e => fst (fst e)) m.
(** what the entry of key [k] says of node [n] *)
Definition covers_node (m : list reg) k n := exists rows f, In (k, rows, f) m /\ rows n = true.
Lemma reg_dir_keys k p f m x : In x (dkeys (reg_dir k p f m)) <-> x = k \/ In x (dkeys m).
Proof.
  unfold dkeys. induction m as [|[[k' rows] f'] m IH]; cbn [reg_dir map fst]; [cbn; intuition|].
  destruct (Nat.eqb_spec k k') as [->|N]; [cbn; intuition|].
  destruct (Nat.ltb_spec k k'); cbn [map fst In]; [intuition|]. rewrite IH. intuition.
Qed.
Lemma reg_dir_asc k p f m : asc (dkeys m) -> asc (dkeys (reg_dir k p f m)).
Proof.
  unfold asc, dkeys. induction m as [|[[k' rows] f'] m IH]; cbn [reg_dir map fst]; intros H; [repeat constructor|].
  inversion H as [|? ? H1 H2]; subst. destruct (Nat.eqb_spec k k') as [->|N]; [assumption|].
  destruct (Nat.ltb_spec k k'); cbn [map fst].
  - constructor; [assumption|]. constructor; [assumption|]. eapply Forall_impl; [|exact H2]. cbv beta; lia.
  - constructor; [now apply IH|]. apply Forall_forall. intros x Hx. apply (reg_dir_keys k p f m x) in Hx.
    destruct Hx as [->|Hx]; [lia|]. rewrite Forall_forall in H2. now apply H2.
Qed.
Lemma reg_dir_covers k p f m k1 n : asc (dkeys m) ->
  (covers_node (reg_dir k p f m) k1 n <-> (k1 = k /\ p n = true) \/ covers_node m k1 n).
Proof.
  unfold covers_node. induction m as [|[[k' rows] f'] m IH]; cbn [reg_dir]; intros H.
  - split.
    + intros (q & g & [E|[]] & Hq). inversion E; subst. now left.
    + intros [[-> Hp]|(q & g & [] & _)]. exists p, f. split; [now left|assumption].
  - inversion H as [|? ? H1 H2]; subst. destruct (Nat.eqb_spec k k') as [->|N].
    + split.
      * intros (q & g & [E|Hq] & Hn).
        -- inversion E; subst. apply orb_true_iff in Hn. destruct Hn as [Hn|Hn]; [|now left].
           right. exists rows, g. split; [now left|assumption].
        -- right. exists q, g. split; [now right|assumption].
      * intros [[-> Hn]|(q & g & [E|Hq] & Hn)].
        -- exists (fun x => rows x || p x), f'. split; [now left|]. cbv beta. rewrite Hn. apply orb_true_r.
        -- inversion E; subst. exists (fun x => q x || p x), g. split; [now left|]. cbv beta. now rewrite Hn.
        -- exists q, g. split; [now right|assumption].
    + destruct (Nat.ltb_spec k k').
      * split.
        -- intros (q & g & [E|Hq] & Hn); [inversion E; subst; now left|right; exists q, g; now split].
        -- intros [[-> Hn]|(q & g & Hq & Hn)]; [exists p, f; split; [now left|assumption]|exists q, g; split; [now right|assumption]].
      * specialize (IH H1). split.
        -- intros (q & g & [E|Hq] & Hn); [right; exists q, g; split; [now left|assumption]|].
           destruct (proj1 IH (ex_intro _ q (ex_intro _ g (conj Hq Hn)))) as [A|(q' & g' & A & B)]; [now left|right; exists q', g'; split; [now right|assumption]].
        -- intros [A|(q & g & [E|Hq] & Hn)].
           ++ destruct (proj2 IH (or_introl A)) as (q & g & B & C). exists q, g; split; [now right|assumption].
           ++ exists q, g; split; [now left|assumption].
           ++ destruct (proj2 IH (or_intror (ex_intro _ q (ex_intro _ g (conj Hq Hn))))) as (q' & g' & B & C). exists q', g'; split; [now right|assumption].
Qed.
Lemma reg_dir_field (F : nat -> nat) k p m : (forall k rows f, In (k, rows, f) m -> f = F k) ->
  forall k1 rows1 f1, In (k1, rows1, f1) (reg_dir k p (F k) m) -> f1 = F k1.
Proof.
  induction m as [|[[k' rows] f'] m IH]; cbn [reg_dir]; intros H k1 rows1 f1 Hin.
  - destruct Hin as [E|[]]. now inversion E.
  - assert (Hm : forall k rows f, In (k, rows, f) m -> f = F k) by (intros; eapply H; right; eauto).
    destruct (Nat.eqb k k').
    + destruct Hin as [E|Hin]; [inversion E; subst; eapply H; now left|eapply Hm; eauto].
    + destruct (Nat.ltb k k').
      * destruct Hin as [E|Hin]; [now inversion E|eapply H; eauto].
      * destruct Hin as [E|Hin]; [inversion E; subst; eapply H; now left|eapply IH; eauto].
Qed.
Lemma reg_dirs_fold (F : nat -> nat) (l m : list reg) : asc (dkeys m) -> (forall k rows f, In (k, rows, f) m -> f = F k) ->
  (forall k rows f, In (k, rows, f) l -> f = F k) ->
  let m' := fold_left (fun m e => reg_dir (fst (fst e)) (snd (fst e)) (snd e) m) l m in
  asc (dkeys m') /\ (forall k rows f, In (k, rows, f) m' -> f = F k)
  /\ (forall k n, covers_node m' k n <-> covers_node l k n \/ covers_node m k n).
Proof.
  revert m; induction l as [|[[k p] f] l IH]; intros m Ha Hf Hl; cbn [fold_left fst snd].
  - split; [exact Ha|split; [exact Hf|]]. intros k n. split; [now right|intros [(? & ? & [] & _)|A]; exact A].
  - assert (E : f = F k) by (eapply Hl; now left). rewrite E.
    destruct (IH (reg_dir k p (F k) m)) as (A & B & C); [now apply reg_dir_asc|now apply reg_dir_field|intros; eapply Hl; right; eauto|].
    split; [exact A|split; [exact B|]]. intros k1 n. rewrite (C k1 n), reg_dir_covers by assumption. unfold covers_node. split.
    + intros [(q & g & D & G)|[[-> D]|D]].
      * left. exists q, g. split; [now right|assumption].
      * left. exists p, (F k). split; [left; congruence|assumption].
      * now right.
    + intros [(q & g & [D|D] & G)|D].
      * inversion D; subst. right; left; now split.
      * left. exists q, g. now split.
      * now right; right.
Qed.
Lemma asc_split (m : list reg) k rows f : asc (dkeys m) -> In (k, rows, f) m ->
  exists pre post, m = pre ++ (k, rows, f) :: post /\ forall k' r' f', In (k', r', f') post -> (k < k')%nat.
Proof.
  intros Ha Hin. apply in_split in Hin. destruct Hin as (pre & post & ->). exists pre, post. split; [reflexivity|].
  intros k' r' f' Hin. unfold asc, dkeys in Ha. rewrite map_app in Ha. cbn [map fst] in Ha.
  induction pre as [|a pre IH]; cbn [map app] in Ha; inversion Ha as [|? ? A B]; subst; [|now apply IH].
  rewrite Forall_forall in B. apply B. apply (in_map (fun e : reg => fst (fst e))) in Hin. exact Hin.
Qed.

(** The conditions of one kind (inflow = 1, wall = 2, ...) write one field [F kind]. A node under several kinds takes the
    value of the greatest kind that covers it, in the order of the AlgorithmType enumeration, however the input lists
    them. *)
Theorem C99_greatest_kind_prevails : forall named typed cons (F : nat -> nat) (l : list reg) values q r n delta k,
  (forall k rows f, In (k, rows, f) l -> f = F k) ->
  covers_node l k r -> (forall k', covers_node l k' r -> (k' <= k)%nat) -> (r < n)%nat ->
  let s := driver named typed cons (dirs_of (reg_dirs l) values) q in
  (forall c, g_A s r c = if Nat.eqb r c then 1 else 0) /\ g_b s r = values (F k) r - q r
  /\ (sumn n (fun c => g_A s r c * delta c) = g_b s r -> q r + delta r = values (F k) r).
Proof.
  intros named typed cons F l values q r n delta k HF Hc Hmax Hr. cbv zeta.
  destruct (reg_dirs_fold F l [] ltac:(constructor) ltac:(intros ? ? ? []) HF) as (A & B & C).
  fold (reg_dirs l) in A, B, C.
  assert (Hm : covers_node (reg_dirs l) k r) by (apply C; now left).
  destruct Hm as (rows & f & Hin & Hrow).
  pose proof (B _ _ _ Hin) as Ef. destruct (asc_split _ _ _ _ A Hin) as (pre & post & E & Hpost).
  assert (Hd : dirs_of (reg_dirs l) values = dirs_of pre values ++ Dirichlet rows (values f) :: dirs_of post values)
    by (rewrite E; unfold dirs_of; now rewrite map_app).
  assert (Hp : forall d', In d' (dirs_of post values) -> dir_rows d' r = false).
  { intros d' Hd'. apply in_map_iff in Hd'. destruct Hd' as ([[k' r'] f'] & <- & Hk'). cbn [dir_rows fst snd].
    destruct (r' r) eqn:Er; [|reflexivity]. exfalso. pose proof (Hpost _ _ _ Hk').
    assert (covers_node (reg_dirs l) k' r) by (exists r', f'; split; [rewrite E; apply in_or_app; right; now right|assumption]).
    apply C in H0. destruct H0 as [H0|(? & ? & [] & _)]. apply Hmax in H0. lia. }
  rewrite Hd. rewrite <- Ef.
  destruct (C99_prescribed_rows named typed cons (dirs_of pre values) (Dirichlet rows (values f)) (dirs_of post values) q r Hrow Hp) as [A1 B1].
  split; [exact A1|split; [exact B1|]].
  exact (C99_boundary_value_reached named typed cons (dirs_of pre values) (Dirichlet rows (values f)) (dirs_of post values) q r n delta Hr Hrow Hp).
Qed.

(** an input deck's conditions: kind, field of the kind, nodes, value *)
Definition deck := list (nat * nat * (nat -> bool) * (R -> nat -> R)).
Definition deck_data (d : deck) : list bcalg := map (fun e => match e with (_, f, nodes, v) => mkBC nodes f v end) d.
Definition deck_dirs (d : deck) : list reg := map (fun e => match e with (k, f, nodes, _) => (k, nodes, f) end) d.
(** Prescribed value in terms of the input: the last condition of the greatest kind covering the node. *)
Theorem C99_prescribed_value : forall named typed cons (F : nat -> nat) (pre post : deck) k nodes v f0 t q r n delta,
  let d := pre ++ (k, F k, nodes, v) :: post in
  (forall k f ns v, In (k, f, ns, v) d -> f = F k) -> (forall k k', F k = F k' -> k = k') ->
  nodes r = true -> (forall k' f' ns v', In (k', f', ns, v') d -> ns r = true -> (k' <= k)%nat) ->
  (forall f' ns v', In (k, f', ns, v') post -> ns r = false) -> (r < n)%nat ->
  let s := driver named typed cons (dirs_of (reg_dirs (deck_dirs d)) (populate t (deck_data d) f0)) q in
  sumn n (fun c => g_A s r c * delta c) = g_b s r -> q r + delta r = v t r.
Proof.
  intros named typed cons F pre post k nodes v f0 t q r n delta. cbv zeta. set (d := pre ++ (k, F k, nodes, v) :: post).
  intros HF Hinj Hn Hmax Hlast Hr Hs.
  assert (E1 : populate t (deck_data d) f0 (F k) r = v t r).
  { unfold d, deck_data. rewrite map_app. cbn [map].
    apply (C99_last_condition_wins t (deck_data pre) (mkBC nodes (F k) v)); [now split|].
    intros b Hb [W1 W2]. apply in_map_iff in Hb. destruct Hb as ([[[k' f'] ns] v'] & <- & Hin). cbn [b_field b_nodes] in W1, W2.
    assert (In (k', f', ns, v') d) by (unfold d; apply in_or_app; right; now right).
    pose proof (HF _ _ _ _ H) as Hf. rewrite W1 in Hf. apply Hinj in Hf. subst k'.
    rewrite (Hlast _ _ _ Hin) in W2. discriminate. }
  rewrite <- E1.
  refine (proj2 (proj2 (C99_greatest_kind_prevails named typed cons F (deck_dirs d) (populate t (deck_data d) f0) q r n delta k _ _ _ Hr)) Hs).
  - intros k1 rows f Hin. apply in_map_iff in Hin. destruct Hin as ([[[k' f'] ns] v'] & E & Hin). inversion E; subst. eapply HF; eauto.
  - exists nodes, (F k). split; [|assumption]. apply in_map_iff. exists (k, F k, nodes, v). split; [reflexivity|]. unfold d. apply in_elt.
  - intros k1 (rows & f & Hin & Hrow). apply in_map_iff in Hin. destruct Hin as ([[[k' f'] ns] v'] & E & Hin). inversion E; subst. eapply Hmax; eauto.
Qed.
(** So it is not the last condition of the input that decides at a node under an inflow and a wall: volume of fluid and
    turbulent dissipation give each kind its own field, and the wall's value is enforced even when the inflow comes last. *)
Theorem C99_last_of_input_prevails_refuted :
  ~ (forall (d pre : deck) k f nodes v f0 t q r n delta, d = pre ++ [(k, f, nodes, v)] -> nodes r = true -> (r < n)%nat ->
     let s := driver [] [] [] (dirs_of (reg_dirs (deck_dirs d)) (populate t (deck_data d) f0)) q in
     (forall i, (i < n)%nat -> sumn n (fun c => g_A s i c * delta c) = g_b s i) -> q r + delta r = v t r).
Proof.
  intros H.
  set (wall := (2%nat, 20%nat, fun n : nat => Nat.eqb n 0, fun (_ : R) (_ : nat) => 0) : nat * nat * (nat -> bool) * (R -> nat -> R)).
  set (inflow := (1%nat, 10%nat, fun n : nat => Nat.eqb n 0, fun (_ : R) (_ : nat) => 1) : nat * nat * (nat -> bool) * (R -> nat -> R)).
  specialize (H [wall; inflow] [wall] 1%nat 10%nat (fun n => Nat.eqb n 0) (fun _ _ => 1) (fun _ _ => 5) 0 (fun _ => 0) 0%nat 1%nat (fun _ => 0) eq_refl eq_refl ltac:(lia)).
  cbv zeta in H. enough (0 + 0 = 1 :> R) by lra. apply H. intros i Hi. assert (i = 0)%nat by lia. subst i.
  unfold sumn. cbn [seq fold_left].
  pose proof (C99_greatest_kind_prevails [] [] [] (fun k => (10*k)%nat) (deck_dirs [wall; inflow])
    (populate 0 (deck_data [wall; inflow]) (fun _ _ => 5)) (fun _ => 0) 0 1 (fun _ => 0) 2) as G.
  destruct G as (G1 & G2 & _).
  - intros k rows f [E|[E|[]]]; inversion E; reflexivity.
  - exists (fun n => Nat.eqb n 0), 20%nat. split; [now left|reflexivity].
  - intros k' (rows & f & [E|[E|[]]] & _); inversion E; lia.
  - lia.
  - rewrite G1, G2. cbn. ring.
Qed.

(** A case: three nodes in a row, an inflow value at node 0, a wall at nodes 0 and 2, diffusion between. *)
Example C99_case : 
  let wall := (2%nat, 20%nat, fun n : nat => Nat.eqb n 0 || Nat.eqb n 2, fun (_ : R) (n : nat) => INR n) : nat * nat * (nat -> bool) * (R -> nat -> R) in
  let inflow := (1%nat, 10%nat, fun n : nat => Nat.eqb n 0, fun (_ : R) (_ : nat) => 7) : nat * nat * (nat -> bool) * (R -> nat -> R) in
  let A := mkG (fun r c => if Nat.eqb r c then 2 else -1) (fun _ => 0) in
  let s := driver [A] [] [] (dirs_of (reg_dirs (deck_dirs [inflow; wall])) (populate 3 (deck_data [inflow; wall]) (fun _ _ => 9))) (fun _ => 4) in
  g_b s 0%nat = -4 /\ g_b s 2%nat = -2 /\ g_A s 0%nat 1%nat = 0 /\ g_A s 1%nat 1%nat = 2 /\ g_b s 1%nat = 0.
Proof.
  cbv zeta. unfold driver, dirs_of, reg_dirs, deck_dirs, deck_data, populate, run_bc, apply_dir, apply_con, gadd, gzero, hit.
  cbn -[INR Rplus Rminus IZR]. cbn [INR]. repeat split; lra.
Qed.
