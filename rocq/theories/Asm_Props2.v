(** * C99: registration, the order of assembly, prescribed values *)
From Coq Require Import Reals List Bool Arith Lia Lra Permutation Sorted.
From Verif Require Import Edge_Model Edge_Proofs Elem_Proofs Asm_Model Asm_Spec Asm_Props.
Import ListNotations.
Open Scope R_scope.

(** ** registration *)
Definition keys {B} (m : list (nat * B)) := map fst m.
Definition asc (l : list nat) := StronglySorted lt l.
Lemma register_keys k p m x : In x (keys (register k p m)) <-> x = k \/ In x (keys m).
Proof.
  unfold keys. induction m as [|[k' ps] m IH]; cbn [register map fst]; [cbn; intuition|].
  destruct (Nat.eqb_spec k k') as [->|N]; [cbn; intuition|].
  destruct (Nat.ltb_spec k k'); cbn [map fst In]; [intuition|]. rewrite IH. intuition.
Qed.
Lemma register_asc k p m : asc (keys m) -> asc (keys (register k p m)).
Proof.
  unfold asc, keys. induction m as [|[k' ps] m IH]; cbn [register map fst]; intros H; [repeat constructor|].
  inversion H as [|? ? H1 H2]; subst. destruct (Nat.eqb_spec k k') as [->|N]; [assumption|].
  destruct (Nat.ltb_spec k k'); cbn [map fst].
  - constructor; [assumption|]. constructor; [assumption|]. eapply Forall_impl; [|exact H2]. cbv beta; lia.
  - constructor; [now apply IH|]. apply Forall_forall. intros x Hx. apply (register_keys k p m x) in Hx.
    destruct Hx as [->|Hx]; [lia|]. rewrite Forall_forall in H2. now apply H2.
Qed.
Definition has (m : list (nat * list nat)) k p := exists ps, In (k, ps) m /\ In p ps.
Lemma existsb_in p ps : existsb (Nat.eqb p) ps = true <-> In p ps.
Proof. rewrite existsb_exists. split; [intros (x & H & E); apply Nat.eqb_eq in E; now subst|intros H; exists p; split; [assumption|apply Nat.eqb_refl]]. Qed.
Lemma register_has k p m k1 p1 : asc (keys m) -> (has (register k p m) k1 p1 <-> (k1 = k /\ p1 = p) \/ has m k1 p1).
Proof.
  unfold has. induction m as [|[k' ps] m IH]; cbn [register]; intros H.
  - split.
    + intros (q & [E|[]] & Hq). inversion E; subst. destruct Hq as [<-|[]]. now left.
    + intros [[-> ->]|(q & [] & _)]. exists [p]. split; now left.
  - inversion H as [|? ? H1 H2]; subst. destruct (Nat.eqb_spec k k') as [->|N].
    + split.
      * intros (q & [E|Hq] & Hp).
        -- inversion E; subst. destruct (existsb (Nat.eqb p) ps) eqn:Ep.
           ++ right. exists ps. split; [now left|assumption].
           ++ apply in_app_or in Hp. destruct Hp as [Hp|[<-|[]]]; [right; exists ps; split; [now left|assumption]|now left].
        -- right. exists q. split; [now right|assumption].
      * intros [[-> ->]|(q & [E|Hq] & Hp)].
        -- eexists. split; [now left|]. destruct (existsb (Nat.eqb p) ps) eqn:Ep; [now apply existsb_in|apply in_or_app; right; now left].
        -- inversion E; subst. eexists. split; [now left|]. destruct (existsb (Nat.eqb p) q); [assumption|apply in_or_app; now left].
        -- exists q. split; [now right|assumption].
    + destruct (Nat.ltb_spec k k').
      * split.
        -- intros (q & [E|Hq] & Hp); [inversion E; subst; destruct Hp as [<-|[]]; now left|right; exists q; now split].
        -- intros [[-> ->]|(q & Hq & Hp)]; [exists [p]; split; now left|exists q; split; [now right|assumption]].
      * specialize (IH H1). split.
        -- intros (q & [E|Hq] & Hp); [right; exists q; split; [now left|assumption]|].
           destruct (proj1 IH (ex_intro _ q (conj Hq Hp))) as [A|(q' & A & B)]; [now left|right; exists q'; split; [now right|assumption]].
        -- intros [A|(q & [E|Hq] & Hp)].
           ++ destruct (proj2 IH (or_introl A)) as (q & B & C). exists q; split; [now right|assumption].
           ++ exists q; split; [now left|assumption].
           ++ destruct (proj2 IH (or_intror (ex_intro _ q (conj Hq Hp)))) as (q' & B & C). exists q'; split; [now right|assumption].
Qed.
Lemma register_nodup k p m : (forall k ps, In (k, ps) m -> NoDup ps) -> forall k1 ps1, In (k1, ps1) (register k p m) -> NoDup ps1.
Proof.
  induction m as [|[k' ps] m IH]; cbn [register]; intros H k1 ps1 Hin.
  - destruct Hin as [E|[]]. inversion E; subst. repeat constructor; intros [].
  - assert (Hm : forall k ps, In (k, ps) m -> NoDup ps) by (intros; eapply H; right; eauto).
    destruct (Nat.eqb k k').
    + destruct Hin as [E|Hin]; [|eapply Hm; eauto]. inversion E; subst.
      destruct (existsb (Nat.eqb p) ps) eqn:Ep; [eapply H; now left|].
      apply (Permutation_NoDup (Permutation_cons_append ps p)).
      constructor; [|eapply H; now left]. intros A. apply existsb_in in A. congruence.
    + destruct (Nat.ltb k k').
      * destruct Hin as [E|Hin]; [inversion E; subst; repeat constructor; intros []|eapply H; eauto].
      * destruct Hin as [E|Hin]; [inversion E; subst; eapply H; now left|eapply IH; eauto].
Qed.
Lemma register_fold l m : asc (keys m) -> (forall k ps, In (k, ps) m -> NoDup ps) ->
  let m' := fold_left (fun m kp => register (fst kp) (snd kp) m) l m in
  asc (keys m') /\ (forall k ps, In (k, ps) m' -> NoDup ps) /\ (forall k p, has m' k p <-> In (k, p) l \/ has m k p).
Proof.
  revert m; induction l as [|[k p] l IH]; intros m Ha Hn; cbn [fold_left fst snd].
  - repeat split; try assumption; [intros A; now right|intros [[]|A]; assumption].
  - destruct (IH (register k p m)) as (A & B & C); [now apply register_asc|now apply register_nodup|].
    split; [exact A|split; [exact B|]]. intros k1 p1. rewrite C, register_has by assumption. cbn [In].
    split; [intros [D|[[-> ->]|D]]|intros [[D|D]|D]]; auto; inversion D; auto.
Qed.

(** An algorithm is created once for each key, its parts are those it was registered with, none twice. *)
Theorem C99_one_algorithm_per_key : forall l, let m := register_all l in
  asc (keys m) /\ (forall k ps, In (k, ps) m -> NoDup ps)
  /\ (forall k p, (exists ps, In (k, ps) m /\ In p ps) <-> In (k, p) l).
Proof.
  intros l m. destruct (register_fold l [] ltac:(constructor) ltac:(intros ? ? [])) as (A & B & C).
  split; [exact A|split; [exact B|]]. intros k p. specialize (C k p). split; [intros D; destruct (proj1 C D) as [E|(ps & [] & _)]; exact E|intros D; exact (proj2 C (or_introl D))].
Qed.
(** An entity that lies in several of an algorithm's parts, or in a part registered several times, is visited once. *)
Theorem C99_entity_selected_once : forall l member mesh k ps, NoDup mesh -> In (k, ps) (register_all l) ->
  NoDup (selected member ps mesh)
  /\ forall e, In e (selected member ps mesh) <-> In e mesh /\ exists p, In (k, p) l /\ member p e = true.
Proof.
  intros l member mesh k ps Hm Hin. split; [now apply NoDup_filter|].
  intros e. unfold selected. rewrite filter_In, existsb_exists.
  destruct (C99_one_algorithm_per_key l) as (A & _ & C).
  assert (U : forall p, In p ps <-> In (k, p) l).
  { intros p. rewrite <- (C k p). split; [intros Hp; exists ps; now split|]. intros (ps' & Hin' & Hp).
    assert (ps' = ps); [|now subst]. clear - A Hin Hin'. revert A Hin Hin'. generalize (register_all l) as m.
    induction m as [|[k0 q] m IH]; intros A Hin Hin'; [destruct Hin|]. unfold asc, keys in *. cbn [map fst] in A. inversion A as [|? ? A1 A2]; subst.
    assert (F : forall x, In (k, x) m -> (k0 < k)%nat).
    { intros x Hx. rewrite Forall_forall in A2. apply A2. apply (in_map fst) in Hx. exact Hx. }
    destruct Hin as [E|Hin], Hin' as [E'|Hin'].
    - congruence.
    - inversion E; subst. pose proof (F _ Hin'). lia.
    - inversion E'; subst. pose proof (F _ Hin). lia.
    - now apply IH. }
  split; intros [H1 (p & H2 & H3)]; split; auto; exists p; split; auto; now apply U.
Qed.
(** so the order in which boundary conditions and target parts are listed does not change what an algorithm visits *)
Theorem C99_registration_order_irrelevant : forall l l' member mesh k ps ps', NoDup mesh -> Permutation l l' ->
  In (k, ps) (register_all l) -> In (k, ps') (register_all l') ->
  selected member ps mesh = selected member ps' mesh.
Proof.
  intros l l' member mesh k ps ps' Hm Hp H H'.
  destruct (C99_entity_selected_once l member mesh k ps Hm H) as [_ A].
  destruct (C99_entity_selected_once l' member mesh k ps' Hm H') as [_ B].
  unfold selected in *. apply filter_ext_in. intros e He.
  assert (E : existsb (fun p => member p e) ps = true <-> existsb (fun p => member p e) ps' = true).
  { specialize (A e). specialize (B e). rewrite filter_In in A, B. split; intros T.
    - destruct (proj1 A (conj He T)) as (_ & p & Q1 & Q2). refine (proj2 (proj2 B (conj He (ex_intro _ p (conj _ Q2))))).
      now apply (Permutation_in _ Hp).
    - destruct (proj1 B (conj He T)) as (_ & p & Q1 & Q2). refine (proj2 (proj2 A (conj He (ex_intro _ p (conj _ Q2))))).
      now apply (Permutation_in _ (Permutation_sym Hp)). }
  destruct (existsb _ ps), (existsb _ ps'); intuition congruence.
Qed.

(** ** order of assembly *)
Lemma dir_fold_none q dirs s r : (forall d, In d dirs -> dir_rows d r = false) ->
  (forall c, g_A (fold_left (apply_dir q) dirs s) r c = g_A s r c) /\ g_b (fold_left (apply_dir q) dirs s) r = g_b s r.
Proof.
  revert s; induction dirs as [|d dirs IH]; intros s H; cbn [fold_left]; [now split|].
  destruct (IH (apply_dir q s d)) as [A B]; [intros; apply H; now right|].
  rewrite B. split; [intros c; rewrite A|]; unfold apply_dir; cbn [g_A g_b]; now rewrite (H d (or_introl eq_refl)).
Qed.
Lemma con_fold_none cons s r : (forall c, In c cons -> fst c r = false) ->
  (forall c, g_A (fold_left apply_con cons s) r c = g_A s r c + lsum (fun k : (nat -> bool) * gsys => g_A (snd k) r c) cons)
  /\ g_b (fold_left apply_con cons s) r = g_b s r + lsum (fun k : (nat -> bool) * gsys => g_b (snd k) r) cons.
Proof.
  revert s; induction cons as [|k cons IH]; intros s H; cbn [fold_left]; [split; [intros c|]; unfold lsum; cbn; ring|].
  destruct (IH (apply_con s k)) as [A B]; [intros; apply H; now right|].
  rewrite B. split; [intros c; rewrite A|]; rewrite Sum_Proofs.lsum_cons; unfold apply_con, gadd; cbn [g_A g_b]; rewrite (H k (or_introl eq_refl)); ring.
Qed.
Lemma fold_gadd' l s : fold_left gadd l s = gadd s (gsum l).
Proof. rewrite <- (map_id l) at 2. rewrite <- (fold_gadd (fun x => x)). reflexivity. Qed.
Lemma base_system named typed : same (fold_left gadd typed (fold_left gadd named gzero))
  (mkG (fun r c => lsum (fun a => g_A a r c) (named ++ typed)) (fun r => lsum (fun a => g_b a r) (named ++ typed))).
Proof.
  rewrite !fold_gadd', gzero_add, <- gsum_app, <- (map_id (named ++ typed)). split; intros; cbn [g_A g_b].
  - now rewrite gsum_A, map_id. 
  - now rewrite gsum_b, map_id.
Qed.

(** Rows under a boundary value: identity row, right-hand side value minus current value, whatever was assembled or
    constrained before; among several the last one applies. *)
Theorem C99_prescribed_rows : forall named typed cons pre d post q r,
  dir_rows d r = true -> (forall d', In d' post -> dir_rows d' r = false) ->
  (forall c, g_A (driver named typed cons (pre ++ d :: post) q) r c = if Nat.eqb r c then 1 else 0)
  /\ g_b (driver named typed cons (pre ++ d :: post) q) r = dir_value d r - q r.
Proof.
  intros named typed cons pre d post q r Hd Hp. unfold driver. rewrite fold_left_app. cbn [fold_left].
  set (s := fold_left (apply_dir q) pre _). destruct (dir_fold_none q post (apply_dir q s d) r Hp) as [A B].
  rewrite B. split; [intros c; rewrite A|]; unfold apply_dir; cbn [g_A g_b]; now rewrite Hd.
Qed.
(** Constrained rows hold the constraint's contributions only. *)
Theorem C99_constrained_rows : forall named typed pre k post dirs q r,
  (forall d, In d dirs -> dir_rows d r = false) -> fst k r = true -> (forall k', In k' post -> fst k' r = false) ->
  (forall c, g_A (driver named typed (pre ++ k :: post) dirs q) r c = lsum (fun k => g_A (snd k) r c) (k :: post))
  /\ g_b (driver named typed (pre ++ k :: post) dirs q) r = lsum (fun k => g_b (snd k) r) (k :: post).
Proof.
  intros named typed pre k post dirs q r Hd Hk Hp. unfold driver.
  match goal with |- context [fold_left (apply_dir q) dirs ?s] => destruct (dir_fold_none q dirs s r Hd) as [A B] end.
  rewrite B. split; [intros c; rewrite A|]; rewrite fold_left_app; cbn [fold_left];
    match goal with |- context [fold_left apply_con post ?s] => destruct (con_fold_none post s r Hp) as [A' B'] end;
    rewrite ?A', ?B', Sum_Proofs.lsum_cons; unfold apply_con, gadd; cbn [g_A g_b]; rewrite Hk; ring.
Qed.
(** All other rows hold the sum of everything assembled, in whatever order. *)
Theorem C99_free_rows : forall named typed cons dirs q r,
  (forall d, In d dirs -> dir_rows d r = false) -> (forall k, In k cons -> fst k r = false) ->
  (forall c, g_A (driver named typed cons dirs q) r c = lsum (fun a => g_A a r c) (named ++ typed ++ map snd cons))
  /\ g_b (driver named typed cons dirs q) r = lsum (fun a => g_b a r) (named ++ typed ++ map snd cons).
Proof.
  intros named typed cons dirs q r Hd Hc. unfold driver.
  match goal with |- context [fold_left (apply_dir q) dirs ?s] => destruct (dir_fold_none q dirs s r Hd) as [A B] end.
  match goal with |- context [fold_left apply_con cons ?s] => destruct (con_fold_none cons s r Hc) as [A' B'] end.
  destruct (base_system named typed) as [A0 B0]. cbn [g_A g_b] in A0, B0.
  assert (M : forall F : gsys -> R, lsum F (map snd cons) = lsum (fun k => F (snd k)) cons) by (intros F; unfold lsum; now rewrite map_map).
  rewrite B, B', B0. split; [intros c; rewrite A, A', A0|]; rewrite !Sum_Proofs.lsum_app, M; ring.
Qed.
(** ... so the names of kernels and the order of sub-algorithms do not matter, for any row *)
Theorem C99_algorithm_order_irrelevant : forall named typed named' typed' cons dirs q,
  Permutation (named ++ typed) (named' ++ typed') ->
  same (driver named typed cons dirs q) (driver named' typed' cons dirs q).
Proof.
  intros named typed named' typed' cons dirs q H. apply same_eq. unfold driver. do 2 f_equal.
  rewrite !fold_gadd', !gzero_add, <- !gsum_app. now apply gsum_perm.
Qed.

(** After an exact solve and update the prescribed rows hold the prescribed values. *)
Theorem C99_boundary_value_reached : forall named typed cons pre d post q r n delta, (r < n)%nat ->
  dir_rows d r = true -> (forall d', In d' post -> dir_rows d' r = false) ->
  sumn n (fun c => g_A (driver named typed cons (pre ++ d :: post) q) r c * delta c) = g_b (driver named typed cons (pre ++ d :: post) q) r ->
  q r + delta r = dir_value d r.
Proof.
  intros named typed cons pre d post q r n delta Hr Hd Hp H.
  destruct (C99_prescribed_rows named typed cons pre d post q r Hd Hp) as [A B]. rewrite B in H.
  rewrite (sumn_ext n _ (fun c => dl c r * delta c)) in H by (intros c _; rewrite A, Nat.eqb_sym; reflexivity).
  rewrite sumn_dl in H by assumption. lra.
Qed.
(** The reference pressure is applied last and prevails over open or other boundary values at its node. *)
Theorem C99_reference_pressure_prevails : forall named typed cons dirs q node p,
  g_b (driver named typed cons (dirs ++ [RefPressure node p]) q) node = p - q node
  /\ forall c, g_A (driver named typed cons (dirs ++ [RefPressure node p]) q) node c = if Nat.eqb node c then 1 else 0.
Proof.
  intros named typed cons dirs q node p.
  destruct (C99_prescribed_rows named typed cons dirs (RefPressure node p) [] q node) as [A B]; [apply Nat.eqb_refl|intros ? []|].
  split; [exact B|exact A].
Qed.

(** ** which boundary value *)
Definition writes (a : bcalg) k n := b_field a = k /\ b_nodes a n = true.
Lemma populate_none t l f k n : (forall a, In a l -> ~ writes a k n) -> populate t l f k n = f k n.
Proof.
  unfold populate. revert f; induction l as [|a l IH]; intros f H; cbn [fold_left]; [reflexivity|].
  rewrite IH by (intros; apply H; now right). unfold run_bc. destruct (Nat.eqb_spec k (b_field a)) as [E|N]; [|reflexivity].
  destruct (b_nodes a n) eqn:En; [|reflexivity]. exfalso. apply (H a (or_introl eq_refl)). split; auto.
Qed.
(** At each node a boundary field holds the value, at the current time, of the last condition in the input that writes it. *)
Theorem C99_last_condition_wins : forall t pre a post f k n, writes a k n -> (forall b, In b post -> ~ writes b k n) ->
  populate t (pre ++ a :: post) f k n = b_fun a t n.
Proof.
  intros t pre a post f k n [E En] H. unfold populate. rewrite fold_left_app. cbn [fold_left].
  match goal with |- fold_left (run_bc t) post ?x k n = _ => change (populate t post x k n = b_fun a t n) end.
  rewrite (populate_none t post) by assumption. unfold run_bc. now rewrite E, Nat.eqb_refl, En.
Qed.
Theorem C99_untouched_boundary_data : forall t l f k n, (forall a, In a l -> ~ writes a k n) -> populate t l f k n = f k n.
Proof. exact populate_none. Qed.
Lemma last_writer l k n : (forall a, In a l -> ~ writes a k n) \/ exists pre a post, l = pre ++ a :: post /\ writes a k n /\ forall b, In b post -> ~ writes b k n.
Proof.
  induction l as [|a l IH]; [left; intros ? []|]. destruct IH as [H|(pre & b & post & -> & Hb & Hp)].
  - assert (D : writes a k n \/ ~ writes a k n).
    { unfold writes. destruct (Nat.eq_dec (b_field a) k), (b_nodes a n); intuition congruence. }
    destruct D as [D|D]; [right; exists [], a, l; now split|]. left. intros b [<-|Hb]; auto.
  - right. exists (a :: pre), b, post. split; [reflexivity|now split].
Qed.
(** Populating again at the same time changes nothing; the previous contents do not matter where something is written. *)
Theorem C99_populate_idempotent : forall t l f k n, populate t l (populate t l f) k n = populate t l f k n.
Proof.
  intros t l f k n. destruct (last_writer l k n) as [H|(pre & a & post & -> & Ha & Hp)].
  - now rewrite !(populate_none t l) by assumption.
  - now rewrite !C99_last_condition_wins by assumption.
Qed.
(** Conditions that agree wherever two of them write the same entry can be listed in any order. *)
Theorem C99_input_order_irrelevant_when_disjoint : forall t l l' f k n, Permutation l l' ->
  (forall a b, In a l -> In b l -> writes a k n -> writes b k n -> b_fun a t n = b_fun b t n) ->
  populate t l f k n = populate t l' f k n.
Proof.
  intros t l l' f k n Hp H. destruct (last_writer l k n) as [N|(pre & a & post & E & Ha & Hq)];
    destruct (last_writer l' k n) as [N'|(pre' & a' & post' & E' & Ha' & Hq')].
  - now rewrite !populate_none by assumption.
  - exfalso. apply (N a'); [|assumption]. apply (Permutation_in _ (Permutation_sym Hp)). subst l'. apply in_elt.
  - exfalso. apply (N' a); [|assumption]. apply (Permutation_in _ Hp). subst l. apply in_elt.
  - assert (Ia : In a l) by (subst l; apply in_elt).
    assert (Ia' : In a' l) by (apply (Permutation_in _ (Permutation_sym Hp)); subst l'; apply in_elt).
    rewrite E, E', !C99_last_condition_wins by assumption. now apply H.
Qed.
(** At a corner shared by two conditions on one field the order in the input decides. *)
Theorem C99_corner_value_independent_of_order_refuted :
  ~ (forall t l l' f k n, Permutation l l' -> populate t l f k n = populate t l' f k n).
Proof.
  intros H.
  set (lid := mkBC (fun n => Nat.leb n 2) 0 (fun _ _ => 1)). set (side := mkBC (fun n => Nat.leb 2 n) 0 (fun _ _ => 0)).
  specialize (H 0 [lid; side] [side; lid] (fun _ _ => 0) 0%nat 2%nat (perm_swap _ _ _)). cbv in H. lra.
Qed.
