(** C15 (Dirichlet rows), C17 (residual scaling), C42 (nonlinear loop), C43 (iteration statistics). *)
From Coq Require Import Reals Lra List Arith Bool Lia.
From Verif Require Import RUtil Sys_Model.
Import ListNotations.
Open Scope R_scope.

Lemma rsum_cons {A} (f : A -> R) x l : rsum f (x :: l) = f x + rsum f l. Proof. reflexivity. Qed.
Lemma rsum_ext {A} (f g : A -> R) l : (forall x, In x l -> f x = g x) -> rsum f l = rsum g l.
Proof. induction l; simpl; intros H; auto. rewrite H, IHl; auto. Qed.
Lemma rsum_zero {A} (f : A -> R) l : (forall x, In x l -> f x = 0) -> rsum f l = 0.
Proof. induction l; simpl; intros H; auto. rewrite H, IHl; auto. lra. Qed.
Lemma rsum_single {A} (f : A -> R) l x : NoDup l -> In x l -> (forall y, In y l -> y <> x -> f y = 0) -> rsum f l = f x.
Proof.
  induction l as [|y l IH]; intros Hn Hi Hz; [destruct Hi|]. inversion Hn; subst. simpl. destruct Hi as [->|Hi].
  - rewrite rsum_zero; [lra|]. intros z Hz'. apply Hz; [right; auto|]. intros ->. contradiction.
  - rewrite (Hz y) by (simpl; auto; intros ->; contradiction). rewrite IH; auto; [lra|]. intros; apply Hz; simpl; auto.
Qed.
Lemma rsum_app {A} (f : A -> R) l l' : rsum f (l ++ l') = rsum f l + rsum f l'.
Proof. induction l; simpl; [lra|]. rewrite IHl. lra. Qed.

(* ================================================================== C15 *)
(** A rank's maps as Nalu builds them: distinct row ids and column ids, the column map starting with
    the owned rows, no repeated column. *)
Definition rank_ok (q : rank) : Prop :=
  (nOwned q <= nTotal q)%nat /\
  (forall a b, (a < nTotal q)%nat -> (b < nTotal q)%nat -> rgid q a = rgid q b -> a = b) /\
  (forall a b, cgid q a = cgid q b -> a = b) /\
  (forall r, (r < nOwned q)%nat -> cgid q r = rgid q r) /\
  (forall r, NoDup (rcols q r)).
(** The rank's list of constrained rows realises the global constraint "value of row g must change by
    [need g]" on exactly the rows of its copies of constrained nodes. *)
Definition constrains (C : nat -> Prop) (need : nat -> R) (q : rank) (l : list (nat * R)) : Prop :=
  (forall r v, In (r, v) l -> (r < nTotal q)%nat /\ C (rgid q r) /\ v = need (rgid q r)) /\
  (forall r, (r < nTotal q)%nat -> C (rgid q r) -> exists v, In (r, v) l).

Lemma apply_spec l : forall q, (forall r v, In (r, v) l -> (r < nTotal q)%nat) ->
  exists q', applyDirichletBCs q l = Some q' /\ nOwned q' = nOwned q /\ nTotal q' = nTotal q /\ rgid q' = rgid q /\ cgid q' = cgid q /\ rcols q' = rcols q
  /\ (forall r, (forall v, ~ In (r, v) l) -> (forall c, rval q' r c = rval q r c) /\ rrhs q' r = rrhs q r)
  /\ (forall r, (exists v, In (r, v) l) ->
        (forall c, rval q' r c = if Nat.eqb c r then (if Nat.ltb r (nOwned q) then 1 else 0) else 0) /\
        exists v, In (r, v) l /\ rrhs q' r = if Nat.ltb r (nOwned q) then v else 0).
Proof.
  induction l as [|[r0 v0] l IH]; intros q Hv.
  - exists q. cbn. repeat split; auto; try tauto; destruct H as [? []].
  - cbn [applyDirichletBCs]. unfold dirichlet_row. assert (H0 := Hv r0 v0 (or_introl eq_refl)).
    destruct (Nat.ltb_spec (nTotal q) r0); [lia|].
    set (q1 := {| nOwned := nOwned q; nTotal := nTotal q; rgid := rgid q; cgid := cgid q; rcols := rcols q; rval := _; rrhs := _ |}).
    destruct (IH q1) as (q' & E & A1 & A2 & A3 & A4 & A5 & A6 & A7); [intros; apply (Hv r v); right; auto|].
    exists q'. split; [exact E|]. repeat split; auto.
    + intros c. destruct (A6 r) as [B _]; [intros v Hin; apply (H1 v); right; auto|]. rewrite B. cbn [rval q1]. unfold set1.
      destruct (Nat.eqb_spec r r0) as [->|]; auto. exfalso. apply (H1 v0). left; auto.
    + destruct (A6 r) as [_ B]; [intros v Hin; apply (H1 v); right; auto|]. rewrite B. cbn [rrhs q1]. unfold set1.
      destruct (Nat.eqb_spec r r0) as [->|]; auto. exfalso. apply (H1 v0). left; auto.
    + intros c. assert (D : (exists v, In (r, v) l) \/ forall v, ~ In (r, v) l).
      { clear. induction l as [|[a b] l IH]; [right; intros v []|]. destruct (Nat.eq_dec a r) as [->|]; [left; exists b; left; auto|].
        destruct IH as [[v Hv]|Hn]; [left; exists v; right; auto|right; intros v [Hv|Hv]; [congruence|apply (Hn v Hv)]]. }
      destruct D as [D|D].
      * destruct (A7 r D) as [B _]. rewrite B. reflexivity.
      * destruct (A6 r D) as [B _]. rewrite B. destruct H1 as [v [Hin|Hin]]; [|exfalso; eapply D; eauto]. inversion Hin; subst.
        cbn [rval q1]. unfold set1. rewrite Nat.eqb_refl. reflexivity.
    + assert (D : (exists v, In (r, v) l) \/ forall v, ~ In (r, v) l).
      { clear. induction l as [|[a b] l IH]; [right; intros v []|]. destruct (Nat.eq_dec a r) as [->|]; [left; exists b; left; auto|].
        destruct IH as [[v Hv]|Hn]; [left; exists v; right; auto|right; intros v [Hv|Hv]; [congruence|apply (Hn v Hv)]]. }
      destruct D as [D|D].
      * destruct (A7 r D) as [_ [v [Hin B]]]. exists v. split; [right; auto|]. exact B.
      * destruct (A6 r D) as [_ B]. destruct H1 as [v [Hin|Hin]]; [|exfalso; eapply D; eauto]. inversion Hin; subst.
        exists v. split; [left; auto|]. rewrite B. cbn [rrhs q1]. unfold set1. rewrite Nat.eqb_refl. reflexivity.
Qed.

Lemma rank_after C need q l q' g : rank_ok q -> constrains C need q l -> applyDirichletBCs q l = Some q' ->
  (C g -> (forall r, (r < nOwned q)%nat -> rgid q r <> g) -> (forall h, rank_entry q' g h = 0) /\ rank_rhs q' g = 0) /\
  (C g -> forall r0, (r0 < nOwned q)%nat -> rgid q r0 = g -> In r0 (rcols q r0) ->
      (forall h, rank_entry q' g h = if Nat.eqb h g then 1 else 0) /\ rank_rhs q' g = need g) /\
  (~ C g -> (forall h, rank_entry q' g h = rank_entry q g h) /\ rank_rhs q' g = rank_rhs q g).
Proof.
  intros (K1 & K2 & K3 & K4 & K5) (L1 & L2) E.
  destruct (apply_spec l q (fun r v H => proj1 (L1 r v H))) as (q1 & E1 & A1 & A2 & A3 & A4 & A5 & A6 & A7).
  assert (q1 = q') by congruence. subst q1. clear E1.
  unfold rank_entry, rank_rhs. rewrite A2, A3, A4, A5. repeat split.
  - intros h. apply rsum_zero. intros r Hr. apply in_seq in Hr. destruct (Nat.eqb_spec (rgid q r) g) as [Eg|]; auto.
    assert (Hs : Nat.ltb r (nOwned q) = false) by (apply Nat.ltb_ge; destruct (Nat.lt_ge_cases r (nOwned q)) as [L|]; auto; exfalso; eapply H0; eauto).
    destruct (A7 r) as [B _]; [apply L2; [lia|congruence]|]. apply rsum_zero. intros c Hc. rewrite B, Hs. destruct (Nat.eqb (cgid q c) h), (Nat.eqb c r); reflexivity.
  - apply rsum_zero. intros r Hr. apply in_seq in Hr. destruct (Nat.eqb_spec (rgid q r) g) as [Eg|]; auto.
    assert (Hs : Nat.ltb r (nOwned q) = false) by (apply Nat.ltb_ge; destruct (Nat.lt_ge_cases r (nOwned q)) as [L|]; auto; exfalso; eapply H0; eauto).
    destruct (A7 r) as [_ [v [_ B]]]; [apply L2; [lia|congruence]|]. now rewrite B, Hs.
  - intros h. rewrite (rsum_single _ _ r0); [|apply seq_NoDup|apply in_seq; lia|].
    + rewrite H1, Nat.eqb_refl. destruct (A7 r0) as [B _]; [apply L2; [lia|congruence]|].
      assert (Ho : Nat.ltb r0 (nOwned q) = true) by (apply Nat.ltb_lt; auto).
      rewrite (rsum_single _ _ r0); [|apply K5|auto|].
      * rewrite B, Nat.eqb_refl, Ho, K4 by auto. rewrite H1. rewrite (Nat.eqb_sym h g). reflexivity.
      * intros c Hc Hne. rewrite B. destruct (Nat.eqb_spec c r0); [contradiction|]. destruct (Nat.eqb (cgid q c) h); reflexivity.
    + intros r Hr Hne. apply in_seq in Hr. destruct (Nat.eqb_spec (rgid q r) g) as [Eg|]; auto. exfalso. apply Hne, K2; [lia|lia|congruence].
  - rewrite (rsum_single _ _ r0); [|apply seq_NoDup|apply in_seq; lia|].
    + rewrite H1, Nat.eqb_refl. destruct (A7 r0) as [_ [v [Hin B]]]; [apply L2; [lia|congruence]|].
      assert (Ho : Nat.ltb r0 (nOwned q) = true) by (apply Nat.ltb_lt; auto). rewrite B, Ho. destruct (L1 r0 v Hin) as (_ & _ & ->). now rewrite H1.
    + intros r Hr Hne. apply in_seq in Hr. destruct (Nat.eqb_spec (rgid q r) g) as [Eg|]; auto. exfalso. apply Hne, K2; [lia|lia|congruence].
  - intros h. apply rsum_ext. intros r Hr. destruct (Nat.eqb_spec (rgid q r) g) as [Eg|]; auto.
    destruct (A6 r) as [B _]. { intros v Hin. destruct (L1 r v Hin) as (_ & HC & _). congruence. }
    apply rsum_ext. intros c _. now rewrite B.
  - apply rsum_ext. intros r Hr. destruct (Nat.eqb_spec (rgid q r) g) as [Eg|]; auto.
    apply A6. intros v Hin. destruct (L1 r v Hin) as (_ & HC & _). congruence.
Qed.

(** apply the conditions on every rank *)
Fixpoint apply_all (qs : list rank) (ls : list (list (nat * R))) : option (list rank) :=
  match qs, ls with
  | [], [] => Some []
  | q :: qs, l :: ls => match applyDirichletBCs q l, apply_all qs ls with Some q', Some qs' => Some (q' :: qs') | _, _ => None end
  | _, _ => None
  end.
Definition owns (q : rank) (g : nat) : Prop := exists r, (r < nOwned q)%nat /\ rgid q r = g.

Theorem C15_dirichlet_rows_exact : forall (C : nat -> Prop) (need : nat -> R) qs ls,
  Forall rank_ok qs -> Forall2 (constrains C need) qs ls ->
  exists qs', apply_all qs ls = Some qs' /\
  (* constrained rows: owned by exactly one rank, whose row stores its diagonal *)
  (forall g, C g -> forall q1 q q2, qs = q1 ++ q :: q2 -> (forall p, In p (q1 ++ q2) -> ~ owns p g) ->
     forall r0, (r0 < nOwned q)%nat -> rgid q r0 = g -> In r0 (rcols q r0) ->
     (forall h, global_entry qs' g h = if Nat.eqb h g then 1 else 0) /\ global_rhs qs' g = need g) /\
  (* all other rows are untouched *)
  (forall g, ~ C g -> (forall h, global_entry qs' g h = global_entry qs g h) /\ global_rhs qs' g = global_rhs qs g).
Proof.
  intros C need qs ls Hok Hc.
  assert (G : exists qs', apply_all qs ls = Some qs' /\ Forall2 (fun q q' => exists l, constrains C need q l /\ applyDirichletBCs q l = Some q') qs qs').
  { clear Hok. induction Hc as [|q l qs ls Hql Hc IH]; [exists []; split; [reflexivity|constructor]|].
    destruct IH as (qs' & E & F). destruct (apply_spec l q (fun r v H => proj1 (proj1 Hql r v H))) as (q' & E' & _).
    exists (q' :: qs'). cbn. rewrite E', E. split; [reflexivity|]. constructor; [exists l; auto|auto]. }
  destruct G as (qs' & E & F). exists qs'. split; [exact E|]. clear E Hc ls. split.
  - intros g HC q1 q q2 Eq Hno r0 Hr0 Er0 Hd. subst qs.
    assert (Z : forall qa qa', Forall rank_ok qa -> Forall2 (fun q q' => exists l, constrains C need q l /\ applyDirichletBCs q l = Some q') qa qa' ->
       (forall p, In p qa -> ~ owns p g) -> (forall h, global_entry qa' g h = 0) /\ global_rhs qa' g = 0).
    { clear - HC. intros qa qa' Hok F. induction F as [|a a' qa qa' (l & Hl & El) F IH]; intros Hno; [cbn; auto|].
      inversion Hok; subst. destruct IH as [I1 I2]; auto. { intros; apply Hno; right; auto. }
      destruct (rank_after C need a l a' g H1 Hl El) as (R1 & _ & _). destruct (R1 HC) as [S1 S2].
      { intros r Hr Er. apply (Hno a (or_introl eq_refl)). exists r; auto. }
      unfold global_entry, global_rhs in *. split; [intros h; rewrite !rsum_cons, S1, I1; lra|rewrite !rsum_cons, S2, I2; lra]. }
    apply Forall2_app_inv_l in F. destruct F as (q1' & q2' & F1 & F2 & ->). inversion F2 as [|? q' ? q2'' (l & Hl & El) F3]; subst.
    apply Forall_app in Hok. destruct Hok as [Ok1 Ok2]. inversion Ok2; subst.
    destruct (Z q1 q1' Ok1 F1) as [Z1 Z1']. { intros; apply Hno, in_or_app; auto. }
    destruct (Z q2 q2'' H2 F3) as [Z2 Z2']. { intros; apply Hno, in_or_app; auto. }
    destruct (rank_after C need q l q' (rgid q r0) H1 Hl El) as (_ & R2 & _). destruct (R2 HC r0 Hr0 eq_refl Hd) as [S1 S2].
    unfold global_entry, global_rhs in *. split.
    + intros h. rewrite rsum_app, rsum_cons,  Z1, Z2, S1. lra.
    + rewrite rsum_app, rsum_cons,  Z1', Z2', S2. lra.
  - intros g HC. induction F as [|a a' qa qa' (l & Hl & El) F IH]; [cbn; auto|]. inversion Hok; subst.
    destruct IH as [I1 I2]; auto. destruct (rank_after C need a l a' g H1 Hl El) as (_ & _ & R3). destruct (R3 HC) as [S1 S2].
    unfold global_entry, global_rhs in *. split; [intros h; rewrite !rsum_cons, S1, I1; lra|rewrite !rsum_cons, S2, I2; lra].
Qed.

(** hence any exact solution of the assembled system followed by the update q := q + delta gives the
    boundary value: with need g = bc g - sol g, delta satisfies sol g + delta g = bc g *)
Theorem C15_exact_solve_imposes_value : forall (A : nat -> nat -> R) (b x bc sol : nat -> R) cols g,
  NoDup cols -> In g cols ->
  (forall h, A g h = if Nat.eqb h g then 1 else 0) -> b g = bc g - sol g ->
  rsum (fun h => A g h * x h) cols = b g -> sol g + x g = bc g.
Proof.
  intros A b x bc sol cols g Hn Hi HA Hb Hx. rewrite (rsum_single _ _ g) in Hx; auto.
  - rewrite HA, Nat.eqb_refl in Hx. lra.
  - intros h _ Hne. rewrite HA. destruct (Nat.eqb_spec h g); [contradiction|]. lra.
Qed.

(** if the row's graph lacks the diagonal the owner's row becomes zero: no condition is imposed *)
Theorem C15_missing_diagonal_zero_row_refuted : forall q r v q', rank_ok q -> (r < nOwned q)%nat -> ~ In r (rcols q r) ->
  applyDirichletBCs q [(r, v)] = Some q' -> forall h, rank_entry q' (rgid q r) h = 0.
Proof.
  intros q r v q' (K1 & K2 & K3 & K4 & K5) Hr Hd E h.
  destruct (apply_spec [(r,v)] q) as (q1 & E1 & A1 & A2 & A3 & A4 & A5 & A6 & A7). { intros a b [H|[]]. inversion H; subst. lia. }
  assert (q1 = q') by congruence. subst q1. unfold rank_entry. rewrite A2, A3, A4, A5. apply rsum_zero. intros r' Hr'. apply in_seq in Hr'.
  destruct (Nat.eqb_spec (rgid q r') (rgid q r)) as [Eg|]; auto. assert (r' = r) by (apply K2; auto; lia). subst r'.
  destruct (A7 r) as [B _]; [exists v; left; auto|]. apply rsum_zero. intros c Hc. rewrite B. destruct (Nat.eqb_spec c r) as [->|]; [contradiction|].
  destruct (Nat.eqb (cgid q c) h); reflexivity.
Qed.
(** the range check lets localId = number of rows through: one past the last row *)
Theorem C15_guard_off_by_one_refuted : forall q v, exists q', dirichlet_row q (nTotal q) v = Some q'.
Proof. intros q v. unfold dirichlet_row. rewrite Nat.ltb_irrefl. eauto. Qed.
(** a node without a row (not in myLIDs_) is silently looked up as row 0 *)
Theorem C15_unknown_node_is_row_zero_refuted : forall myLIDs id, (forall v, ~ In (id, v) myLIDs) -> lookup_myLID myLIDs id = 0%nat.
Proof.
  induction myLIDs as [|[k v] l IH]; intros id H; [reflexivity|]. cbn. destruct (Nat.eqb_spec k id) as [->|].
  - exfalso. apply (H v). left; auto.
  - apply IH. intros w Hw. apply (H w). right; auto.
Qed.
(** resetRows / prepareConstraints leave zero rows on every rank holding a copy *)
Theorem C15_reset_rows_zero : forall q l g, rank_ok q -> (forall r, (r < nTotal q)%nat -> rgid q r = g -> In r l) ->
  (forall h, rank_entry (resetRows q l) g h = 0) /\ rank_rhs (resetRows q l) g = 0.
Proof.
  intros q l g _ H.
  assert (G : forall l q, let q' := resetRows q l in nTotal q' = nTotal q /\ rgid q' = rgid q /\ cgid q' = cgid q /\ rcols q' = rcols q /\
     forall r, (In r l -> (forall c, rval q' r c = 0) /\ rrhs q' r = 0) /\ ((forall c, rval q r c = 0) -> forall c, rval q' r c = 0) /\ (rrhs q r = 0 -> rrhs q' r = 0)).
  { clear. induction l as [|a l IH]; intros q; cbn zeta; [cbn; tauto|]. unfold resetRows in *. cbn [fold_left].
    destruct (IH (reset_row q a)) as (A & B & C & D & E). cbn zeta in *. repeat split; auto.
    all: destruct (E r) as (E1 & E2 & E3).
    - destruct H as [->|H]; [|apply E1; auto]. apply E2. intros c. cbn. unfold set1. now rewrite Nat.eqb_refl.
    - destruct H as [->|H]; [|apply E1; auto]. apply E3. cbn. unfold set1. now rewrite Nat.eqb_refl.
    - intros H. apply E2. intros c. cbn. unfold set1. destruct (Nat.eqb r a); auto.
    - intros H. apply E3. cbn. unfold set1. destruct (Nat.eqb r a); auto. }
  destruct (G l q) as (A & B & C & D & E). cbn zeta in *. unfold rank_entry, rank_rhs. rewrite A, B, C, D. split.
  - intros h. apply rsum_zero. intros r Hr. apply in_seq in Hr. destruct (Nat.eqb_spec (rgid q r) g); auto. apply rsum_zero. intros c _.
    destruct (E r) as (E1 & _). destruct E1 as [E1 _]; [apply H; auto; lia|]. rewrite E1. destruct (Nat.eqb (cgid q c) h); reflexivity.
  - apply rsum_zero. intros r Hr. apply in_seq in Hr. destruct (Nat.eqb_spec (rgid q r) g); auto. apply (proj1 (E r)). apply H; auto; lia.
Qed.

(** witness: node 1 shared by two ranks, owned by the first *)
Definition exq1 : rank := {| nOwned := 2; nTotal := 2; rgid := fun r => S r; cgid := fun c => S c; rcols := fun _ => [0;1]%nat; rval := fun r c => 5; rrhs := fun _ => 7 |}.
Definition exq2 : rank := {| nOwned := 1; nTotal := 2; rgid := fun r => if Nat.eqb r 0 then 3%nat else 1%nat; cgid := fun c => if Nat.eqb c 0 then 3%nat else if Nat.eqb c 1 then 1%nat else (2+c)%nat;
  rcols := fun _ => [0;1]%nat; rval := fun r c => 2; rrhs := fun _ => 1 |}.
Example C15_witness : Forall rank_ok [exq1; exq2] /\ Forall2 (constrains (fun g => g = 1%nat) (fun _ => 4)) [exq1; exq2] [[(0%nat,4)];[(1%nat,4)]] /\ ~ owns exq2 1.
Proof.
  split; [|split].
  - constructor; [|constructor; [|constructor]]; (split; [cbn; lia|]); (split; [|split; [|split]]); cbn.
    + intros; lia.
    + intros; lia.
    + reflexivity.
    + intros _. repeat constructor; simpl; intuition lia.
    + intros x y Hx Hy. destruct x as [|[|]], y as [|[|]]; cbn; lia.
    + intros x y. destruct x as [|[|x]], y as [|[|y]]; cbn; lia.
    + intros r Hr. assert (r = 0)%nat by lia. now subst.
    + intros _. repeat constructor; simpl; intuition lia.
  - constructor; [|constructor; [|constructor]].
    + split.
      * intros r v [H|[]]. inversion H; subst. cbn. repeat split; auto; lia.
      * intros r Hr E. cbn in *. exists 4. left. f_equal. lia.
    + split.
      * intros r v [H|[]]. inversion H; subst. cbn. repeat split; auto; lia.
      * intros r Hr E. cbn in *. exists 4. left. f_equal. destruct r as [|[|]]; cbn in *; lia.
  - intros (r & Hr & E). cbn in *. assert (r = 0)%nat by lia. subst. discriminate.
Qed.

(* ================================================================== C17 *)
Lemma eps_pos : 0 < dbl_eps. Proof. unfold dbl_eps. apply Rinv_0_lt_compat, pow_lt. lra. Qed.

(** after the k-th solve of a step the reported value is the current residual over the first residual
    of that step, whatever happened in earlier steps *)
Theorem C17_scaled_by_first_of_step : forall l2 s first rest,
  let s' := resid_step l2 s (first :: rest) in
  scaledNonLinearResidual s' = (l2 * last (first :: rest) 0) / Rmax dbl_eps (l2 * first)
  /\ nonLinearResidual s' = l2 * last (first :: rest) 0.
Proof.
  intros l2 s first rest. unfold resid_step. cbn zeta. cbn [fold_left].
  assert (G : forall rest st n0, firstTimeStepSolve st = false -> firstNonLinearResidual st = l2 * first ->
     scaledNonLinearResidual st = l2 * n0 / Rmax dbl_eps (l2 * first) -> nonLinearResidual st = l2 * n0 ->
     let st' := fold_left (solve_resid l2) rest st in
     scaledNonLinearResidual st' = l2 * last (n0 :: rest) 0 / Rmax dbl_eps (l2 * first) /\ nonLinearResidual st' = l2 * last (n0 :: rest) 0).
  { clear. induction rest as [|n rest IH]; intros st n0 H1 H2 H3 H4; cbn zeta; [cbn; auto|]. cbn [fold_left].
    change (last (n0 :: n :: rest) 0) with (last (n :: rest) 0). apply IH; cbn; rewrite ?H1, ?H2; auto. }
  apply G; cbn; auto.
Qed.
(** so the first report of a step is exactly 1, unless the residual is below machine epsilon *)
Theorem C17_first_report_is_one : forall l2 s n2, dbl_eps <= l2 * n2 ->
  scaledNonLinearResidual (resid_step l2 s [n2]) = 1.
Proof.
  intros l2 s n2 H. destruct (C17_scaled_by_first_of_step l2 s n2 []) as [-> _]. cbn [last].
  rewrite Rmax_right by auto. assert (E := eps_pos). unfold Rdiv. apply Rinv_r. lra.
Qed.
Theorem C17_tiny_first_report_below_one : forall l2 s n2, 0 <= l2 * n2 < dbl_eps ->
  scaledNonLinearResidual (resid_step l2 s [n2]) = l2 * n2 / dbl_eps /\ 0 <= scaledNonLinearResidual (resid_step l2 s [n2]) < 1.
Proof.
  intros l2 s n2 H. assert (E := eps_pos). destruct (C17_scaled_by_first_of_step l2 s n2 []) as [-> _]. cbn [last].
  destruct H as [Ha Hb]. rewrite Rmax_left by lra. split; [reflexivity|]. split; [apply Rle_div_r; [lra|]; rewrite Rmult_0_l; lra|apply Rlt_div_l; [lra|]; rewrite Rmult_1_l; lra].
Qed.
(** unit invariance: multiplying every residual by c > 0 does not change the report (as long as the
    first residuals are not below epsilon) *)
Theorem C17_scale_invariant : forall l2 s s2 c first rest, 0 < c -> dbl_eps <= l2 * first -> dbl_eps <= l2 * (c * first) ->
  scaledNonLinearResidual (resid_step l2 s (map (Rmult c) (first :: rest))) = scaledNonLinearResidual (resid_step l2 s2 (first :: rest)).
Proof.
  intros l2 s s2 c first rest Hc H1 H2. cbn [map].
  destruct (C17_scaled_by_first_of_step l2 s (c*first) (map (Rmult c) rest)) as [-> _].
  destruct (C17_scaled_by_first_of_step l2 s2 first rest) as [-> _].
  rewrite !Rmax_right by auto. assert (E := eps_pos).
  assert (L : last (c * first :: map (Rmult c) rest) 0 = c * last (first :: rest) 0).
  { clear. revert first. induction rest as [|x rest IH]; intros first; [reflexivity|]. cbn [map].
    change (last (c * first :: c * x :: map (Rmult c) rest) 0) with (last (c*x :: map (Rmult c) rest) 0).
    change (last (first :: x :: rest) 0) with (last (x :: rest) 0). apply IH. }
  rewrite L.
  assert (l2 <> 0) by (intros ->; lra). assert (first <> 0) by (intros ->; lra).
  field. repeat split; lra.
Qed.
(** before any solve a system never counts as converged for the usual tolerances *)
Theorem C17_unsolved_not_converged : forall tol, tol <= 100000000 -> system_is_converged tol resid0 = false.
Proof. intros. unfold system_is_converged, resid0. cbn. destruct (Rlt_dec 100000000 tol); [lra|reflexivity]. Qed.
Example C17_witness : scaledNonLinearResidual (resid_step 2 resid0 [3; 5; 6]) = 2.
Proof.
  destruct (C17_scaled_by_first_of_step 2 resid0 3 [5;6]) as [-> _]. cbn [last].
  assert (dbl_eps < 1). { unfold dbl_eps. rewrite <- Rinv_1. apply Rinv_lt_contravar; [|apply Rlt_pow_R1; lra || lia].
    rewrite Rmult_1_l. apply pow_lt. lra. }
  rewrite Rmax_right by lra. lra.
Qed.

(* ================================================================== C42 *)
(** overall convergence is the conjunction over the equation systems *)
Theorem C42_overall_convergence_is_all : forall l,
  overall_converged l = true <-> forall tol s, In (tol, s) l -> scaledNonLinearResidual s < tol.
Proof.
  assert (G : forall l ok, fold_left (fun ok ts => if negb (system_is_converged (fst ts) (snd ts)) then false else ok) l ok = true <->
     ok = true /\ forall tol s, In (tol, s) l -> scaledNonLinearResidual s < tol).
  { induction l as [|[t s] l IH]; intros ok; cbn [fold_left]; [cbn; intuition|]. rewrite IH. cbn [fst snd].
    unfold system_is_converged. destruct (Rlt_dec (scaledNonLinearResidual s) t) as [H|H]; cbn [negb].
    - split; intros [A B]; (split; [auto|]); intros t' s'.
      + intros [E|Hin]; [inversion E; subst; auto|eauto].
      + intros Hin. apply B. right; auto.
    - split; [intros [A _]; discriminate|]. intros [_ B]. exfalso. apply H, B. left; auto. }
  intros l. unfold overall_converged. rewrite G. intuition.
Qed.
(** the loop does iterations 1,2,...; it stops at the first converged one or at the limit *)
Lemma loop_spec conv num : forall fuel i, (i + fuel = num)%nat ->
  let l := nonlinear_loop conv num i fuel in
  map fst l = seq (S i) (length l) /\ (length l <= fuel)%nat /\ ((0 < fuel)%nat -> (0 < length l)%nat) /\
  (forall k, (S i <= k)%nat -> (k < i + length l)%nat -> conv k = false) /\
  ((length l < fuel)%nat -> (0 < length l)%nat -> conv (i + length l)%nat = true) /\
  (forall k b, In (k, b) l -> b = Nat.eqb k num).
Proof.
  induction fuel as [|f IH]; intros i E; cbn zeta; cbn [nonlinear_loop].
  - cbn. repeat split; try lia; tauto.
  - destruct (Nat.ltb_spec i num); [|lia]. destruct (conv (S i)) eqn:Ec.
    + cbn. repeat split; try lia.
      * intros _ _. replace (i+1)%nat with (S i) by lia. exact Ec.
      * intros k b [H'|[]]. inversion H'; subst. reflexivity.
    + destruct (IH (S i) ltac:(lia)) as (A & B & C & D & F & G). cbn zeta in *. set (l := nonlinear_loop conv num (S i) f) in *.
      cbn [map fst length seq]. repeat split; try lia.
      * f_equal. exact A.
      * intros k H1 H2. destruct (Nat.eq_dec k (S i)) as [->|]; auto. apply D; lia.
      * intros H1 _. replace (i + S (length l))%nat with (S i + length l)%nat by lia. apply F; [lia|]. apply C. lia.
      * intros k b [H'|H']; [inversion H'; subst; reflexivity|eauto].
Qed.
Theorem C42_stops_at_first_convergence : forall conv num,
  let l := advance_nonlinear conv num in
  map fst l = seq 1 (length l) /\ (length l <= num)%nat /\ ((1 <= num)%nat -> (1 <= length l)%nat) /\
  (forall k, (1 <= k < length l)%nat -> conv k = false) /\
  ((1 <= num)%nat -> (length l < num)%nat -> conv (length l) = true).
Proof.
  intros conv num. unfold advance_nonlinear. destruct (loop_spec conv num num 0 ltac:(lia)) as (A & B & C & D & E & _). cbn zeta in *.
  repeat split; auto.
  - intros k Hk. apply D; lia.
Qed.
(** the flag selecting the tighter final tolerance is set exactly at iteration num ... *)
Theorem C42_final_flag : forall conv num k b, In (k, b) (advance_nonlinear conv num) -> (b = true <-> k = num).
Proof.
  intros conv num k b H. destruct (loop_spec conv num num 0 ltac:(lia)) as (_ & _ & _ & _ & _ & G). cbn zeta in G. rewrite (G k b H). apply Nat.eqb_eq.
Qed.
(** ... so when the iteration converges early no solve of the step uses the final tolerance *)
Theorem C42_final_tolerance_skipped_refuted : exists conv num, (1 <= num)%nat /\ advance_nonlinear conv num <> [] /\
  forall k b, In (k, b) (advance_nonlinear conv num) -> b = false.
Proof.
  exists (fun k => Nat.eqb k 2), 5%nat. split; [lia|]. split; [discriminate|].
  intros k b [H|[H|[]]]; inversion H; reflexivity.
Qed.
(** the reported maximum norm bounds every system's scaled residual and is attained *)
Theorem C42_system_norm_is_maximum : forall l, l <> [] -> (forall s, In s l -> -10000000000000000 <= scaledNonLinearResidual s) ->
  (forall s, In s l -> scaledNonLinearResidual s <= provide_system_norm l) /\ exists s, In s l /\ provide_system_norm l = scaledNonLinearResidual s.
Proof.
  intros l Hne Hlo. unfold provide_system_norm.
  assert (G : forall l m, m <= fold_left (fun m s => Rmax m (scaledNonLinearResidual s)) l m
     /\ (forall s, In s l -> scaledNonLinearResidual s <= fold_left (fun m s => Rmax m (scaledNonLinearResidual s)) l m)
     /\ (fold_left (fun m s => Rmax m (scaledNonLinearResidual s)) l m = m \/ exists s, In s l /\ fold_left (fun m s => Rmax m (scaledNonLinearResidual s)) l m = scaledNonLinearResidual s)).
  { clear. induction l as [|x l IH]; intros m; cbn [fold_left]; [cbn; repeat split; auto; try lra; tauto|].
    destruct (IH (Rmax m (scaledNonLinearResidual x))) as (A & B & C). assert (M1 := Rmax_l m (scaledNonLinearResidual x)). assert (M2 := Rmax_r m (scaledNonLinearResidual x)).
    split; [lra|]. split.
    - intros s [<-|Hs]; [lra|auto].
    - destruct C as [C|(s & Hs & C)]; [|right; exists s; split; [right; auto|auto]]. rewrite C. unfold Rmax. destruct (Rle_dec m (scaledNonLinearResidual x)); auto.
      right. exists x. split; [left|]; auto. }
  destruct (G l (-10000000000000000)) as (A & B & C). split; [exact B|].
  destruct C as [C|C]; [|exact C]. destruct l as [|x l]; [contradiction|]. exists x. split; [left; auto|].
  specialize (B x (or_introl eq_refl)). specialize (Hlo x (or_introl eq_refl)). lra.
Qed.

(* ================================================================== C43 *)
(** after any list of solves the reported average, minimum and maximum are those of the list *)
Theorem C43_iteration_statistics : forall l,
  let s := fold_left update_iteration_statistics l stats0 in
  cntIt s = length l /\
  (l <> [] -> avgIt s = rsum INR l / INR (length l)) /\
  (forall x, In x l -> minIt s <= INR x <= maxIt s) /\
  (l <> [] -> (forall x, In x l -> INR x <= 10000000000) -> (exists x, In x l /\ minIt s = INR x) /\ (exists x, In x l /\ maxIt s = INR x)).
Proof.
  intros l.
  assert (G : forall l, let s := fold_left update_iteration_statistics l stats0 in
     cntIt s = length l /\ INR (length l) * avgIt s = rsum INR l /\ (forall x, In x l -> minIt s <= INR x <= maxIt s)
     /\ (minIt s = 10000000000 \/ exists x, In x l /\ minIt s = INR x) /\ (maxIt s = 0 \/ exists x, In x l /\ maxIt s = INR x)
     /\ 0 <= maxIt s /\ minIt s <= 10000000000).
  { clear. induction l as [|x l IH] using rev_ind; cbn zeta.
    - cbn. repeat split; auto; try lra; tauto.
    - rewrite fold_left_app. cbn [fold_left]. cbn zeta in IH. set (s := fold_left _ l stats0) in *. destruct IH as (A & B & C & D & E & F & H).
      rewrite app_length, rsum_app. cbn [length rsum fold_right update_iteration_statistics cntIt avgIt minIt maxIt].
      assert (X := pos_INR x). assert (N := pos_INR (length l)). rewrite A.
      replace (length l + 1)%nat with (S (length l)) by lia. rewrite S_INR.
      repeat split; auto.
      + rewrite <- B. field. lra.
      + apply in_app_or in H0. destruct H0 as [H0|[E0|[]]]; [specialize (C _ H0); assert (M := Rmin_l (minIt s) (INR x)); lra|assert (M := Rmin_r (minIt s) (INR x)); subst; lra].
      + apply in_app_or in H0. destruct H0 as [H0|[E0|[]]]; [specialize (C _ H0); assert (M := Rmax_l (maxIt s) (INR x)); lra|assert (M := Rmax_r (maxIt s) (INR x)); subst; lra].
      + unfold Rmin. destruct (Rle_dec (minIt s) (INR x)); [|right; exists x; split; [apply in_or_app; right; left; auto|auto]].
        destruct D as [D|(y & Hy & D)]; [left; auto|right; exists y; split; [apply in_or_app; auto|auto]].
      + unfold Rmax. destruct (Rle_dec (maxIt s) (INR x)); [right; exists x; split; [apply in_or_app; right; left; auto|auto]|].
        destruct E as [E|(y & Hy & E)]; [left; auto|right; exists y; split; [apply in_or_app; auto|auto]].
      + assert (M := Rmax_l (maxIt s) (INR x)). lra.
      + assert (M := Rmin_l (minIt s) (INR x)). lra. }
  destruct (G l) as (A & B & C & D & E & F & H). cbn zeta in *. set (s := fold_left _ l stats0) in *. repeat split; auto.
  - intros Hne. assert (NZ : INR (length l) <> 0). { apply not_0_INR. destruct l; [contradiction|cbn; lia]. } rewrite <- B. field. auto.
  - apply C; auto.
  - apply C; auto.
  - destruct D as [D|D]; auto. destruct l as [|x l]; [contradiction|]. exists x. split; [left; auto|]. specialize (C x (or_introl eq_refl)). specialize (H1 x (or_introl eq_refl)). lra.
  - destruct E as [E|E]; auto. destruct l as [|x l]; [contradiction|]. exists x. split; [left; auto|]. specialize (C x (or_introl eq_refl)). assert (X := pos_INR x). lra.
Qed.
