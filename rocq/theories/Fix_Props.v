(** C76: the pressure reference *)
Require Import Reals List Bool Arith Lra Lia Permutation.
From Verif Require Import Edge_Model Edge_Proofs Edge_Props Fix_Model.
From Verif Require Sum_Proofs Tab_LU_Props Elem_Proofs.
Import ListNotations.
Open Scope R_scope.

(** ** choice of the node *)
Lemma nearest_local_spec n (big : R) loc nodes : forall st,
  (forall p, snd st = Some p -> fst st = dist2 n loc (pn_x p)) ->
  let r := fold_left (fun st p => let d := dist2 n loc (pn_x p) in if Rlt_dec d (fst st) then (d, Some p) else st) nodes st in
  fst r <= fst st /\ (forall p, In p nodes -> fst r <= dist2 n loc (pn_x p)) /\
  (r = st \/ exists p, In p nodes /\ r = (dist2 n loc (pn_x p), Some p) /\ dist2 n loc (pn_x p) < fst st).
Proof.
  induction nodes as [|p nodes IH]; intros st Hst; cbn [fold_left].
  - cbv zeta. split; [lra|]. split; [intros p []|left; reflexivity].
  - cbv zeta in IH |- *. destruct (Rlt_dec (dist2 n loc (pn_x p)) (fst st)) as [L|L].
    + specialize (IH (dist2 n loc (pn_x p), Some p)). cbn [fst snd] in IH. destruct IH as (A & B & C); [intros p' [= <-]; reflexivity|].
      set (r := fold_left _ nodes _) in *. split; [lra|]. split; [intros p' [<-|Hp]; [exact A|auto]|].
      right. destruct C as [C|(p' & Hp & C & D)]; [exists p; split; [now left|split; [exact C|exact L]]|exists p'; split; [now right|split; [exact C|lra]]].
    + destruct (IH st Hst) as (A & B & C). set (r := fold_left _ nodes _) in *. split; [exact A|]. split; [intros p' [<-|Hp]; [lra|auto]|].
      destruct C as [C|(p' & Hp & C & D)]; [left; exact C|right; exists p'; split; [now right|split; assumption]].
Qed.
Lemma min_proc_spec big ds : match min_proc big ds with
  | Some r => (r < length ds)%nat /\ nth r ds 0 < big /\ forall r', (r' < length ds)%nat -> nth r ds 0 <= nth r' ds 0
  | None => forall r', (r' < length ds)%nat -> big <= nth r' ds 0 end.
Proof.
  unfold min_proc.
  assert (G : forall l st, (match snd st with Some r => (r < length ds)%nat /\ fst st = nth r ds 0 /\ fst st < big | None => fst st = big end) ->
     (forall x, In x l -> (x < length ds)%nat) ->
     let r := fold_left (fun st r => let d := nth r ds 0 in if Rlt_dec d (fst st) then (d, Some r) else st) l st in
     fst r <= fst st /\ (forall x, In x l -> fst r <= nth x ds 0) /\ (match snd r with Some k => (k < length ds)%nat /\ fst r = nth k ds 0 /\ fst r < big | None => fst r = big end)).
  { induction l as [|x l IH]; intros st Hst Hl; cbn [fold_left]; cbv zeta; [split; [lra|split; [intros x []|exact Hst]]|]. cbv zeta in IH.
    destruct (Rlt_dec (nth x ds 0) (fst st)) as [L|L].
    - destruct (IH (nth x ds 0, Some x)) as (A & B & C); [cbn [fst snd]; split; [apply Hl; now left|split; [reflexivity|]]|intros; apply Hl; now right|].
      + destruct (snd st); [destruct Hst as (_ & _ & Hst)|]; lra.
      + cbn [fst] in A. split; [lra|split; [intros y [<-|Hy]; [exact A|auto]|exact C]].
    - destruct (IH st Hst) as (A & B & C); [intros; apply Hl; now right|]. split; [exact A|split; [intros y [<-|Hy]; [lra|auto]|exact C]]. }
  destruct (G (seq 0 (length ds)) (big, None)) as (A & B & C); [reflexivity|intros x Hx; apply in_seq in Hx; lia|].
  set (r := fold_left _ _ _) in *. destruct (snd r) as [k|].
  - destruct C as (C1 & C2 & C3). split; [exact C1|]. rewrite <- C2. split; [exact C3|]. intros r' Hr. apply B. apply in_seq. lia.
  - intros r' Hr. rewrite <- C. apply B. apply in_seq. lia.
Qed.
Lemma fold_max_single (f : nat -> nat) m k v : (k < m)%nat -> f k = v -> (forall r, r <> k -> f r = 0%nat) -> fold_left Nat.max (map f (seq 0 m)) 0%nat = v.
Proof.
  intros Hk Hv Hz.
  assert (G : forall l a, fold_left Nat.max (map f l) a = if in_dec Nat.eq_dec k l then Nat.max a v else a).
  { induction l as [|x l IH]; intros a; cbn [map fold_left]; [destruct (in_dec Nat.eq_dec k []) as [[]|]; reflexivity|]. rewrite IH.
    destruct (in_dec Nat.eq_dec k (x :: l)) as [i|i], (in_dec Nat.eq_dec k l) as [j|j].
    - destruct (Nat.eq_dec x k) as [->|N]; [rewrite Hv; lia|rewrite (Hz x N); lia].
    - destruct i as [->|i]; [rewrite Hv; reflexivity|contradiction].
    - exfalso. apply i. now right.
    - destruct (Nat.eq_dec x k) as [->|N]; [exfalso; apply i; now left|rewrite (Hz x N); lia]. }
  rewrite G. destruct (in_dec Nat.eq_dec k (seq 0 m)) as [i|i]; [lia|]. exfalso. apply i. apply in_seq. lia.
Qed.
(** The chosen node is a node of the search parts nearest to the given location, over all ranks (some may have none). *)
Theorem C76_nearest_node n big loc ranks : (exists p, In p (concat ranks) /\ dist2 n loc (pn_x p) < big) ->
  exists p, In p (concat ranks) /\ determine_nearest_node n big loc ranks = pn_id p /\
    forall p', In p' (concat ranks) -> dist2 n loc (pn_x p) <= dist2 n loc (pn_x p').
Proof.
  intros (p0 & Hp0 & Hb). unfold determine_nearest_node. cbv zeta.
  set (res := map (nearest_local n big loc) ranks).
  assert (SP : forall l, let r := nearest_local n big loc l in fst r <= big /\ (forall p, In p l -> fst r <= dist2 n loc (pn_x p)) /\
     (r = (big, None) \/ exists p, In p l /\ r = (dist2 n loc (pn_x p), Some p) /\ dist2 n loc (pn_x p) < big)).
  { intros l. exact (nearest_local_spec n big loc l (big, None) ltac:(intros p E; discriminate)). }
  assert (NT : forall r, (r < length ranks)%nat -> nth r (map fst res) 0 = fst (nearest_local n big loc (nth r ranks []))).
  { intros r Hr. unfold res. rewrite map_map. rewrite (nth_indep _ 0 (fst (nearest_local n big loc []))) by (rewrite map_length; exact Hr).
    exact (map_nth (fun l => fst (nearest_local n big loc l)) ranks [] r). }
  assert (NR : forall r, (r < length ranks)%nat -> nth r res (big, None) = nearest_local n big loc (nth r ranks [])).
  { intros r Hr. unfold res. rewrite (nth_indep _ (big, None) (nearest_local n big loc [])) by (rewrite map_length; exact Hr). apply map_nth. }
  assert (LN : length (map fst res) = length ranks) by (unfold res; rewrite !map_length; reflexivity).
  apply in_concat in Hp0. destruct Hp0 as (l0 & Hl0 & Hp0). apply (In_nth _ _ []) in Hl0. destruct Hl0 as (r0 & Hr0 & El0).
  assert (W : forall r p', (r < length ranks)%nat -> In p' (nth r ranks []) -> nth r (map fst res) 0 <= dist2 n loc (pn_x p')).
  { intros r p' Hr Hp'. rewrite NT by exact Hr. apply (SP (nth r ranks [])), Hp'. }
  pose proof (min_proc_spec big (map fst res)) as MP. destruct (min_proc big (map fst res)) as [k|].
  - rewrite LN in MP. destruct MP as (Hk & Lb & Mn). destruct (SP (nth k ranks [])) as (_ & _ & C). rewrite NT in Lb by exact Hk.
    destruct C as [C|(p & Hp & C & D)]; [rewrite C in Lb; cbn [fst] in Lb; lra|].
    exists p. split; [apply in_concat; exists (nth k ranks []); split; [apply nth_In, Hk|exact Hp]|]. split.
    + rewrite (fold_max_single _ (length ranks) k (pn_id p)); [reflexivity|exact Hk| |].
      * rewrite Nat.eqb_refl. rewrite NR by exact Hk. rewrite C. reflexivity.
      * intros r Hr. destruct (Nat.eqb_spec r k); [contradiction|reflexivity].
    + intros p' Hp'. apply in_concat in Hp'. destruct Hp' as (l & Hl & Hp'). apply (In_nth _ _ []) in Hl. destruct Hl as (r & Hr & El).
      assert (E : nth k (map fst res) 0 = dist2 n loc (pn_x p)) by (rewrite NT by exact Hk; rewrite C; reflexivity). rewrite <- E.
      eapply Rle_trans; [apply Mn, Hr|]. apply W; [exact Hr|rewrite El; exact Hp'].
  - exfalso. rewrite LN in MP. specialize (MP r0 Hr0). pose proof (W r0 p0 Hr0 ltac:(rewrite El0; exact Hp0)). lra.
Qed.
(** So with a unique nearest node the choice does not depend on the decomposition. *)
Corollary C76_choice_decomposition_free n big loc ranks ranks' p : In p (concat ranks) -> Permutation (concat ranks) (concat ranks') -> dist2 n loc (pn_x p) < big ->
  (forall p', In p' (concat ranks) -> pn_id p' <> pn_id p -> dist2 n loc (pn_x p) < dist2 n loc (pn_x p')) ->
  determine_nearest_node n big loc ranks = pn_id p /\ determine_nearest_node n big loc ranks' = pn_id p.
Proof.
  intros Hp P Hb U. split.
  - destruct (C76_nearest_node n big loc ranks) as (p1 & H1 & -> & M); [exists p; auto|].
    destruct (Nat.eq_dec (pn_id p1) (pn_id p)) as [|N]; [assumption|]. specialize (U p1 H1 N). specialize (M p Hp). lra.
  - assert (Hp' : In p (concat ranks')) by (eapply Permutation_in; eassumption).
    destruct (C76_nearest_node n big loc ranks') as (p1 & H1 & -> & M); [exists p; auto|].
    destruct (Nat.eq_dec (pn_id p1) (pn_id p)) as [|N]; [assumption|].
    specialize (U p1 (Permutation_in _ (Permutation_sym P) H1) N). specialize (M p Hp'). lra.
Qed.
(** the squared distance is what its name says *)
Lemma C76_dist2_meaning n loc x : dist2 n loc x = sumn n (fun j => (loc j - x j)*(loc j - x j)).
Proof. unfold dist2. rewrite fold_seq_sumn. ring. Qed.

(** ** the row *)
(** If exactly one rank owns the node and every rank with a contribution to its row owns or shares it, the global system keeps
    every other row and has p'_k = ref in row k. *)
Theorem C76_only_that_row_changes k ref p ranks :
  length (filter (fun q => pr_owned q k) ranks) = 1%nat ->
  (forall q, In q ranks -> pr_owned q k = false -> pr_shared q k = false -> (forall j, pr_lhs q k j = 0) /\ pr_rhs q k = 0) ->
  (forall i j, glob_lhs (fix_pressure k ref p ranks) i j = if Nat.eqb i k then (if Nat.eqb j k then 1 else 0) else glob_lhs ranks i j) /\
  (forall i, glob_rhs (fix_pressure k ref p ranks) i = if Nat.eqb i k then ref - p k else glob_rhs ranks i).
Proof.
  intros HO HZ. unfold glob_lhs, glob_rhs, fix_pressure. setoid_rewrite map_map.
  assert (OWN : forall c, lsum (fun q => if pr_owned q k then c else 0) ranks = c * INR (length (filter (fun q => pr_owned q k) ranks))).
  { intros c. clear. induction ranks as [|q l IH]; [unfold lsum; cbn; ring|]. rewrite Sum_Proofs.lsum_cons, IH. cbn [filter]. destruct (pr_owned q k); [cbn [length]; rewrite S_INR|]; ring. }
  rewrite HO in OWN. cbn [INR] in OWN.
  split.
  - intros i j. change (lsum (fun q => pr_lhs (fix_rank k ref p q) i j) ranks = (if Nat.eqb i k then if Nat.eqb j k then 1 else 0 else lsum (fun q => pr_lhs q i j) ranks)).
    destruct (Nat.eqb_spec i k) as [->|N].
    + rewrite (lsum_ext _ (fun q => if pr_owned q k then (if Nat.eqb j k then 1 else 0) else 0)); [rewrite OWN; ring|].
      intros q Hq. unfold fix_rank. destruct (pr_owned q k) eqn:E1; [|destruct (pr_shared q k) eqn:E2]; cbn [orb pr_lhs]; rewrite ?Nat.eqb_refl; cbn [andb]; try reflexivity.
      apply (HZ q Hq E1 E2).
    + apply lsum_ext. intros q Hq. unfold fix_rank. destruct (pr_owned q k || pr_shared q k)%bool; [|reflexivity]. cbn [pr_lhs]. destruct (Nat.eqb_spec i k); [contradiction|reflexivity].
  - intros i. change (lsum (fun q => pr_rhs (fix_rank k ref p q) i) ranks = (if Nat.eqb i k then ref - p k else lsum (fun q => pr_rhs q i) ranks)).
    destruct (Nat.eqb_spec i k) as [->|N].
    + rewrite (lsum_ext _ (fun q => if pr_owned q k then ref - p k else 0)); [rewrite OWN; ring|].
      intros q Hq. unfold fix_rank. destruct (pr_owned q k) eqn:E1; [|destruct (pr_shared q k) eqn:E2]; cbn [orb pr_rhs]; rewrite ?Nat.eqb_refl; try reflexivity.
      apply (HZ q Hq E1 E2).
    + apply lsum_ext. intros q Hq. unfold fix_rank. destruct (pr_owned q k || pr_shared q k)%bool; [|reflexivity]. cbn [pr_rhs]. destruct (Nat.eqb_spec i k); [contradiction|reflexivity].
Qed.

(** ** the pressure equation with a reference node *)
Inductive connected (es : list edge) : nat -> nat -> Prop :=
| con_refl a : connected es a a
| con_step a b e : connected es a b -> In e es -> (eL e = b) -> connected es a (eR e)
| con_back a b e : connected es a b -> In e es -> (eR e = b) -> connected es a (eL e).

Section Solve.
Variables (n : nat) (tau noc : R) (c : ct_fields) (es : list edge) (nodes : list nat).
Hypothesis HC : covers nodes es.
Hypothesis Hax : forall e, In e es -> 0 < e_axdx n (c_x c) e /\ 0 < e_asq n e.
Hypothesis Hcon : forall a b, In a nodes -> In b nodes -> connected es a b.
Let op := continuity_edge n tau noc c.
Let Lm := assembled_lhs op es.
(** the row k is replaced by p_k + dp_k = ref; all the others keep rhs b *)
Definition fixed_solution (b : nat -> R) (k : nat) (ref : R) (dp : nat -> R) : Prop :=
  dp k = ref - c_p c k /\ forall i, In i nodes -> i <> k -> lsum (fun j => Lm i j * dp j) nodes = b i.

Lemma energy x : lsum (fun i => x i * lsum (fun j => Lm i j * x j) nodes) nodes
  = lsum (fun e => (e_asq n e * (1/e_axdx n (c_x c) e)) * ((x (eL e) - x (eR e))*(x (eL e) - x (eR e)))) es.
Proof.
  pose proof HC as [Hn Hc].
  rewrite (lsum_ext _ (fun i => lsum (fun e => x i * ((if Nat.eqb (eL e) i then s00 (op e) * x (eL e) + s01 (op e) * x (eR e) else 0)
                 + (if Nat.eqb (eR e) i then s10 (op e) * x (eL e) + s11 (op e) * x (eR e) else 0))) es)).
  2:{ intros i _. unfold Lm. rewrite (assembled_matvec _ es nodes x) by auto. now rewrite lsum_scal. }
  rewrite lsum_comm. apply lsum_ext. intros e He. destruct (Hc e He) as [HL HR]. unfold op, continuity_edge. cbn [s00 s01 s10 s11]. cbv zeta.
  set (K := 1/e_axdx n (c_x c) e). set (a := e_asq n e).
  rewrite (lsum_ext _ (fun i => (if Nat.eqb (eL e) i then x (eL e) * (- (- a * K) * x (eL e) + (- a * K) * x (eR e)) else 0)
      + (if Nat.eqb (eR e) i then x (eR e) * ((- a * K) * x (eL e) + - (- a * K) * x (eR e)) else 0))).
  - rewrite lsum_plus, !lsum_indicator by auto. ring.
  - intros i Hi. destruct (Nat.eqb_spec (eL e) i) as [->|], (Nat.eqb_spec (eR e) i) as [->|]; ring.
Qed.
Lemma zero_energy x : lsum (fun i => x i * lsum (fun j => Lm i j * x j) nodes) nodes = 0 -> forall e, In e es -> x (eL e) = x (eR e).
Proof.
  rewrite energy. intros Z e He.
  assert (NN : forall e, In e es -> 0 < e_asq n e * (1/e_axdx n (c_x c) e)) by (intros e' H'; destruct (Hax e' H'); apply Rmult_lt_0_compat; [assumption|apply Rdiv_lt_0_compat; lra]).
  assert (P : (e_asq n e * (1/e_axdx n (c_x c) e)) * ((x (eL e) - x (eR e))*(x (eL e) - x (eR e))) = 0).
  { revert Z NN. clear - He. induction es as [|e0 l IH]; [destruct He|]. rewrite Sum_Proofs.lsum_cons. intros Z NN.
    assert (N1 : 0 <= (e_asq n e0 * (1/e_axdx n (c_x c) e0)) * ((x (eL e0) - x (eR e0))*(x (eL e0) - x (eR e0)))).
    { apply Rmult_le_pos; [apply Rlt_le, NN; now left|apply Rle_0_sqr]. }
    assert (N2 : 0 <= lsum (fun e => (e_asq n e * (1/e_axdx n (c_x c) e)) * ((x (eL e) - x (eR e))*(x (eL e) - x (eR e)))) l).
    { clear - NN. induction l as [|a l IH]; [unfold lsum; cbn; lra|]. rewrite Sum_Proofs.lsum_cons. 
      assert (0 <= (e_asq n a * (1/e_axdx n (c_x c) a)) * ((x (eL a) - x (eR a))*(x (eL a) - x (eR a)))) by (apply Rmult_le_pos; [apply Rlt_le, NN; right; now left|apply Rle_0_sqr]).
      assert (0 <= lsum (fun e => (e_asq n e * (1/e_axdx n (c_x c) e)) * ((x (eL e) - x (eR e))*(x (eL e) - x (eR e)))) l) by (apply IH; intros e' [->|H']; apply NN; [now left|right; now right]). lra. }
    destruct He as [->|He]; [lra|]. apply IH; [exact He|lra|intros; apply NN; now right]. }
  specialize (NN e He). apply Rmult_integral in P. destruct P as [P|P]; [lra|]. apply Rmult_integral in P. lra.
Qed.
Lemma constant_on (x : nat -> R) : (forall e, In e es -> x (eL e) = x (eR e)) -> forall a b, connected es a b -> x a = x b.
Proof. intros H a b R. induction R as [a|a b e R IH He E|a b e R IH He E]; [reflexivity| |]; pose proof (H e He); congruence. Qed.

(** With a reference node the pressure equation on a connected mesh has at most one solution, whatever the right-hand side ... *)
Theorem C76_unique_pressure b k ref dp dp' : In k nodes -> fixed_solution b k ref dp -> fixed_solution b k ref dp' ->
  forall i, In i nodes -> dp i = dp' i.
Proof.
  intros Hk [A1 A2] [B1 B2] i Hi. set (x := fun i => dp i - dp' i).
  assert (Rw : forall i, In i nodes -> i <> k -> lsum (fun j => Lm i j * x j) nodes = 0).
  { intros a Ha Na. unfold x. rewrite (lsum_ext _ (fun j => Lm a j * dp j + (-1) * (Lm a j * dp' j))) by (intros; ring). rewrite lsum_plus, lsum_scal, A2, B2 by assumption. ring. }
  assert (Z : lsum (fun i => x i * lsum (fun j => Lm i j * x j) nodes) nodes = 0).
  { apply lsum_zero. intros a Ha. destruct (Nat.eq_dec a k) as [->|Na]; [unfold x at 1; rewrite A1, B1; ring|rewrite Rw by assumption; ring]. }
  pose proof (constant_on x (zero_energy x Z) i k (Hcon i k Hi Hk)) as E. unfold x in E. rewrite A1, B1 in E. lra.
Qed.
(** ... attains the reference value there ... *)
Theorem C76_reference_value b k ref dp : fixed_solution b k ref dp -> c_p (update_pressure c dp) k = ref.
Proof. intros [A _]. unfold update_pressure. cbn [c_p]. rewrite A. ring. Qed.
(** ... and if the right-hand side is globally balanced (no net source in the closed domain) it also satisfies the replaced
    row, *)
Theorem C76_replaced_row_holds b k ref dp : In k nodes -> lsum b nodes = 0 -> fixed_solution b k ref dp ->
  lsum (fun j => Lm k j * dp j) nodes = b k.
Proof.
  intros Hk Hb [A1 A2]. pose proof HC as [Hn Hc].
  assert (CS : lsum (fun i => lsum (fun j => Lm i j * dp j) nodes) nodes = 0).
  { rewrite lsum_comm. apply lsum_zero. intros j _. rewrite (lsum_ext _ (fun i => dp j * Lm i j)) by (intros; ring). rewrite lsum_scal.
    unfold Lm. rewrite (assembled_colsum op es nodes j HC); [ring|]. intros e He. unfold op, continuity_edge. cbn. split; ring. }
  assert (D : lsum (fun i => lsum (fun j => Lm i j * dp j) nodes - b i) nodes = 0).
  { rewrite (lsum_ext _ (fun i => lsum (fun j => Lm i j * dp j) nodes + (-1) * b i)) by (intros; ring). rewrite lsum_plus, lsum_scal, CS, Hb. ring. }
  rewrite (lsum_ext _ (fun i => if Nat.eqb k i then lsum (fun j => Lm k j * dp j) nodes - b k else 0)) in D.
  - rewrite lsum_indicator in D by assumption. lra.
  - intros i Hi. destruct (Nat.eqb_spec k i) as [->|N]; [reflexivity|]. rewrite A2 by auto. ring.
Qed.
(** so that neither the choice of the node nor of the value influences the flow: mass flow rates through all edges agree and
    pressures differ by a constant. *)
Theorem C76_reference_does_not_affect_flow b k ref dp k' ref' dp' : In k nodes -> In k' nodes -> lsum b nodes = 0 ->
  fixed_solution b k ref dp -> fixed_solution b k' ref' dp' ->
  (exists c0, forall i, In i nodes -> dp' i = dp i + c0) /\
  (forall e, In e es -> mdot_edge n tau noc (update_pressure c dp) e = mdot_edge n tau noc (update_pressure c dp') e).
Proof.
  intros Hk Hk' Hb F F'. set (x := fun i => dp' i - dp i).
  assert (R1 : forall i, In i nodes -> lsum (fun j => Lm i j * dp j) nodes = b i).
  { intros i Hi. destruct (Nat.eq_dec i k) as [->|N]; [eapply C76_replaced_row_holds; eassumption|apply F; assumption]. }
  assert (R2 : forall i, In i nodes -> lsum (fun j => Lm i j * dp' j) nodes = b i).
  { intros i Hi. destruct (Nat.eq_dec i k') as [->|N]; [eapply C76_replaced_row_holds; eassumption|apply F'; assumption]. }
  assert (Z : lsum (fun i => x i * lsum (fun j => Lm i j * x j) nodes) nodes = 0).
  { apply lsum_zero. intros a Ha. unfold x at 2. rewrite (lsum_ext (fun j => Lm a j * (dp' j - dp j)) (fun j => Lm a j * dp' j + (-1) * (Lm a j * dp j))) by (intros; ring).
    rewrite lsum_plus, lsum_scal, R1, R2 by assumption. ring. }
  pose proof (zero_energy x Z) as E. split.
  - exists (x k). intros i Hi. pose proof (constant_on x E i k (Hcon i k Hi Hk)) as Q. unfold x in *. lra.
  - intros e He. rewrite !mdot_sum. unfold update_pressure. cbn [c_p c_x c_rho c_vrtm c_Gp]. specialize (E e He). unfold x in E. f_equal.
    replace (1 * dp (eR e) + 1 * c_p c (eR e) - (1 * dp (eL e) + 1 * c_p c (eL e)))
      with (1 * dp' (eR e) + 1 * c_p c (eR e) - (1 * dp' (eL e) + 1 * c_p c (eL e))) by lra. reflexivity.
Qed.
End Solve.

(** a two-edge mesh on two ranks: the second rank has the node nearest to 0.9, and the balanced problem has a solution *)
Definition ex_ct : ct_fields := mkCt (fun i _ => INR i) (fun _ _ => 0) (fun _ _ => 0) (fun _ => 0) (fun _ => 1).
Definition ex_edges : list edge := [mkEdge 0 1 (fun _ => 1); mkEdge 1 2 (fun _ => 1)].
Definition ex_b (i : nat) : R := match i with 0%nat => 1 | 1%nat => 0 | _ => -1 end.
Definition ex_dp (i : nat) : R := match i with 0%nat => 5 | 1%nat => 4 | _ => 3 end.
Example C76_hypotheses_met :
  (exists p, In p (concat [[mkPn 7 (fun _ => 0)]; []; [mkPn 3 (fun _ => 1); mkPn 4 (fun _ => 2)]]) /\ dist2 1 (fun _ => 9/10) (pn_x p) < 1000) /\
  determine_nearest_node 1 1000 (fun _ => 9/10) [[mkPn 7 (fun _ => 0)]; []; [mkPn 3 (fun _ => 1); mkPn 4 (fun _ => 2)]] = 3%nat /\
  covers [0;1;2]%nat ex_edges /\ (forall e, In e ex_edges -> 0 < e_axdx 1 (c_x ex_ct) e /\ 0 < e_asq 1 e) /\
  (forall a b, In a [0;1;2]%nat -> In b [0;1;2]%nat -> connected ex_edges a b) /\
  lsum ex_b [0;1;2]%nat = 0 /\ fixed_solution 1 1 0 ex_ct ex_edges [0;1;2]%nat ex_b 0 5 ex_dp /\ fixed_solution 1 1 0 ex_ct ex_edges [0;1;2]%nat ex_b 2 0 (fun i => ex_dp i - 3).
Proof.
  assert (EX : exists p, In p (concat [[mkPn 7 (fun _ => 0)]; []; [mkPn 3 (fun _ => 1); mkPn 4 (fun _ => 2)]]) /\ dist2 1 (fun _ => 9/10) (pn_x p) < 1000).
  { exists (mkPn 3 (fun _ => 1)). split; [cbn; auto|]. rewrite C76_dist2_meaning. cbn. lra. }
  split; [exact EX|]. split.
  { apply (C76_choice_decomposition_free 1 1000 (fun _ => 9/10) [[mkPn 7 (fun _ => 0)]; []; [mkPn 3 (fun _ => 1); mkPn 4 (fun _ => 2)]] [[mkPn 7 (fun _ => 0)]; []; [mkPn 3 (fun _ => 1); mkPn 4 (fun _ => 2)]] (mkPn 3 (fun _ => 1))); [cbn; auto|apply Permutation_refl| |].
    - rewrite C76_dist2_meaning. cbn. lra.
    - intros p' Hp' N. cbn in Hp'. destruct Hp' as [<-|[<-|[<-|[]]]]; [| exfalso; now apply N |]; rewrite !C76_dist2_meaning; cbn; lra. }
  split. { split; [repeat constructor; cbn; intuition lia|]. intros e [<-|[<-|[]]]; cbn; auto. }
  split. { intros e [<-|[<-|[]]]; unfold e_axdx, e_asq, dxj, sumn; cbn; lra. }
  split.
  { assert (P01 : connected ex_edges 0 1) by (exact (con_step ex_edges 0 0 (mkEdge 0 1 (fun _ => 1)) (con_refl _ _) (or_introl eq_refl) eq_refl)).
    assert (P12 : connected ex_edges 1 2) by (exact (con_step ex_edges 1 1 (mkEdge 1 2 (fun _ => 1)) (con_refl _ _) (or_intror (or_introl eq_refl)) eq_refl)).
    assert (P02 : connected ex_edges 0 2) by (exact (con_step ex_edges 0 1 (mkEdge 1 2 (fun _ => 1)) P01 (or_intror (or_introl eq_refl)) eq_refl)).
    assert (P10 : connected ex_edges 1 0) by (exact (con_back ex_edges 1 1 (mkEdge 0 1 (fun _ => 1)) (con_refl _ _) (or_introl eq_refl) eq_refl)).
    assert (P21 : connected ex_edges 2 1) by (exact (con_back ex_edges 2 2 (mkEdge 1 2 (fun _ => 1)) (con_refl _ _) (or_intror (or_introl eq_refl)) eq_refl)).
    assert (P20 : connected ex_edges 2 0) by (exact (con_back ex_edges 2 1 (mkEdge 0 1 (fun _ => 1)) P21 (or_introl eq_refl) eq_refl)).
    intros a b [<-|[<-|[<-|[]]]] [<-|[<-|[<-|[]]]]; first [assumption|apply con_refl]. }
  split. { unfold lsum; cbn. lra. }
  split; split.
  - cbn. lra.
  - intros i [<-|[<-|[<-|[]]]] N; [exfalso; now apply N| |]; unfold lsum, assembled_lhs, continuity_edge, ex_dp, ex_b, e_axdx, e_asq, dxj, sumn; cbn; unfold lsum; cbn; unfold add_lhs; cbn; field.
  - cbn. lra.
  - intros i [<-|[<-|[<-|[]]]] N; [| |exfalso; now apply N]; unfold lsum, assembled_lhs, continuity_edge, ex_dp, ex_b, e_axdx, e_asq, dxj, sumn; cbn; unfold lsum; cbn; unfold add_lhs; cbn; field.
Qed.
