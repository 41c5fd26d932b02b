(** C80: every Gauss point of a non-conformal interface finds the best opposing face; the set of ghosted elements is exactly the one needed. *)
Require Import Reals List Bool Arith Lra Lia Permutation.
From Verif Require Import NCS_Model.
Import ListNotations.
Open Scope R_scope.

(* ------------------------------------------------------------------ sorting *)
Section Sorting.
Variable A : Type.
Variable lt : A -> A -> bool.
Hypothesis le_trans : forall a b c, lt b a = false -> lt c b = false -> lt c a = false.
Hypothesis lt_le : forall a b, lt a b = true -> lt b a = false.
Fixpoint asc (l : list A) : Prop := match l with [] => True | h :: t => (forall x, In x t -> lt x h = false) /\ asc t end.
Lemma insert_perm x l : Permutation (insert lt x l) (x :: l).
Proof. induction l as [|h t IH]; cbn; [auto|]. destruct (lt x h); [auto|]. apply perm_trans with (h :: x :: t); [apply perm_skip, IH|apply perm_swap]. Qed.
Lemma sort_perm l : Permutation (sort lt l) l.
Proof. unfold sort. induction l as [|h t IH]; cbn; [auto|]. apply perm_trans with (h :: fold_right (insert lt) [] t); [apply insert_perm|apply perm_skip, IH]. Qed.
Lemma insert_asc x l : asc l -> asc (insert lt x l).
Proof.
  induction l as [|h t IH]; cbn; [intuition|]. intros [H1 H2]. destruct (lt x h) eqn:E.
  - cbn. split; [|auto]. intros y [<-|Hy]; [apply lt_le, E|]. apply (le_trans x h y); [apply lt_le, E|auto].
  - cbn. split; [|auto]. intros y Hy. apply (Permutation_in _ (insert_perm x t)) in Hy. destruct Hy as [<-|Hy]; [exact E|auto].
Qed.
Lemma sort_asc l : asc (sort lt l).
Proof. unfold sort. induction l; cbn; [auto|apply insert_asc; assumption]. Qed.
Lemma is_sorted_asc l : is_sorted lt l = true -> asc l.
Proof.
  induction l as [|h t IH]; [cbn; auto|]. destruct t as [|h' t]; [cbn; intuition|].
  cbn [is_sorted]. rewrite andb_true_iff, negb_true_iff. intros [H1 H2]. specialize (IH H2). split; [|exact IH].
  intros x [<-|Hx]; [exact H1|]. destruct IH as [I1 _]. apply (le_trans h h' x); auto.
Qed.
End Sorting.
Arguments asc {A}.

(** strictly ascending *)
Fixpoint strict {A} (lt : A -> A -> bool) (l : list A) : Prop := match l with [] => True | h :: t => (forall x, In x t -> lt h x = true) /\ strict lt t end.

Ltac keyb := unfold key_lt, key_eq in *; repeat (rewrite ?orb_true_iff, ?orb_false_iff, ?andb_true_iff, ?andb_false_iff, ?Nat.ltb_lt, ?Nat.ltb_ge, ?Nat.eqb_eq, ?Nat.eqb_neq in * ).
Lemma key_lt_irrefl a : key_lt a a = false. Proof. keyb. lia. Qed.
Lemma key_lt_trans a b c : key_lt a b = true -> key_lt b c = true -> key_lt a c = true. Proof. intros. keyb. lia. Qed.
Lemma key_lt_le a b : key_lt a b = true -> key_lt b a = false. Proof. intros. keyb. lia. Qed.
Lemma key_le_trans a b c : key_lt b a = false -> key_lt c b = false -> key_lt c a = false. Proof. intros. keyb. lia. Qed.
Lemma key_total a b : key_lt a b = false -> key_lt b a = false -> a = b. Proof. destruct a, b. intros. keyb. cbn in *. f_equal; lia. Qed.
Lemma key_eq_spec a b : key_eq a b = true <-> a = b.
Proof. destruct a, b. unfold key_eq. cbn. rewrite andb_true_iff, !Nat.eqb_eq. split; [intros [-> ->]; reflexivity|intros [= -> ->]; auto]. Qed.

Lemma unique_in (l : list key) : forall x, In x (unique key_eq l) <-> In x l.
Proof.
  induction l as [|h t IH]; [reflexivity|]. intro x. destruct t as [|h' t]; [reflexivity|].
  change (unique key_eq (h :: h' :: t)) with (if key_eq h h' then unique key_eq (h' :: t) else h :: unique key_eq (h' :: t)).
  destruct (key_eq h h') eqn:E.
  - rewrite IH. apply key_eq_spec in E. subst. cbn. intuition.
  - cbn [In]. rewrite IH. reflexivity.
Qed.
Lemma unique_strict (l : list key) : asc key_lt l -> strict key_lt (unique key_eq l).
Proof.
  induction l as [|h t IH]; [auto|]. intros [H1 H2]. destruct t as [|h' t]; [cbn; intuition|]. specialize (IH H2).
  change (unique key_eq (h :: h' :: t)) with (if key_eq h h' then unique key_eq (h' :: t) else h :: unique key_eq (h' :: t)).
  destruct (key_eq h h') eqn:E; [exact IH|]. split; [|exact IH]. intros x Hx. apply (proj1 (unique_in _ _)) in Hx.
  assert (L1 : key_lt h' h = false) by (apply H1; left; reflexivity).
  assert (L2 : key_lt h h' = true). { destruct (key_lt h h') eqn:Q; [reflexivity|]. rewrite (key_total h h' Q L1) in E. unfold key_eq in E. rewrite !Nat.eqb_refl in E. discriminate. }
  destruct H2 as [H2 _]. destruct Hx as [<-|Hx]; [exact L2|]. specialize (H2 x Hx). keyb. lia.
Qed.
Lemma sort_unique_strict (l : list key) : strict key_lt (unique key_eq (sort key_lt l)).
Proof. apply unique_strict, sort_asc; [exact key_le_trans|exact key_lt_le]. Qed.
Lemma sort_unique_in (l : list key) x : In x (unique key_eq (sort key_lt l)) <-> In x l.
Proof. rewrite unique_in. split; apply Permutation_in; [|apply Permutation_sym]; apply sort_perm. Qed.
Lemma strict_nodup (l : list key) : strict key_lt l -> NoDup l.
Proof. induction l as [|h t IH]; [constructor|]. intros [H1 H2]. constructor; [|auto]. intro H. specialize (H1 h H). rewrite key_lt_irrefl in H1. discriminate. Qed.

Lemma set_difference_in (a : list sphere) : forall b : list key, strict (fun x y : sphere => key_lt (snd x) (snd y)) a -> strict key_lt b ->
  forall x, In x (set_difference (fun (a : sphere) (b : key) => key_lt (snd a) b) (fun (a : key) (b : sphere) => key_lt a (snd b)) a b) <-> In x a /\ ~ In (snd x) b.
Proof.
  induction a as [|x a IHa]; intros b; [destruct b; cbn; intuition|]. induction b as [|y b IHb]; intros Ha Hb z; [cbn; intuition|].
  pose proof Ha as Ha0. pose proof Hb as Hb0. destruct Ha as [A1 A2]. destruct Hb as [B1 B2].
  cbn [set_difference]. destruct (key_lt (snd x) y) eqn:E1.
  - cbn [In]. rewrite (IHa (y :: b) A2 Hb0). cbn [In]. split; [|intuition].
    intros [<-|H]; [|intuition]. split; [auto|]. intros [F|F]; [subst y; rewrite key_lt_irrefl in E1; discriminate|].
    specialize (B1 _ F). pose proof (key_lt_trans _ _ _ E1 B1) as Q. rewrite key_lt_irrefl in Q. discriminate.
  - destruct (key_lt y (snd x)) eqn:E2.
    + etransitivity; [apply (IHb Ha0 B2)|]. cbn [In]. split; [|intuition]. intros [H1 H2]. split; [exact H1|]. intros [F|F]; [|auto].
      subst y. destruct H1 as [<-|H1]; [rewrite key_lt_irrefl in E2; discriminate|].
      specialize (A1 _ H1). pose proof (key_lt_trans _ _ _ E2 A1) as Q. rewrite key_lt_irrefl in Q. discriminate.
    + assert (y = snd x) by (symmetry; apply key_total; assumption). subst y.
      rewrite (IHa b A2 B2). cbn [In]. split.
      * intros [H1 H2]. split; [auto|]. intros [F|F]; [|auto]. specialize (A1 _ H1). rewrite <- F, key_lt_irrefl in A1. discriminate.
      * intros [[<-|H1] H2]; [exfalso; apply H2; left; reflexivity|]. split; [exact H1|intro F; apply H2; right; exact F].
Qed.
Lemma set_intersection_in (a : list key) : forall b, strict key_lt a -> strict key_lt b -> forall x, In x (set_intersection key_lt a b) <-> In x a /\ In x b.
Proof.
  induction a as [|x a IHa]; intros b; [destruct b; cbn; intuition|]. induction b as [|y b IHb]; intros Ha Hb z; [cbn; intuition|].
  pose proof Ha as Ha0. pose proof Hb as Hb0. destruct Ha as [A1 A2]. destruct Hb as [B1 B2].
  cbn [set_intersection]. destruct (key_lt x y) eqn:E1.
  - rewrite (IHa (y :: b) A2 Hb0). cbn [In]. split; [intuition|]. intros [[<-|H1] H2]; [|auto]. exfalso. destruct H2 as [F|F]; [subst y; rewrite key_lt_irrefl in E1; discriminate|].
    specialize (B1 _ F). pose proof (key_lt_trans _ _ _ E1 B1) as Q. rewrite key_lt_irrefl in Q. discriminate.
  - destruct (key_lt y x) eqn:E2.
    + etransitivity; [apply (IHb Ha0 B2)|]. cbn [In]. split; [intuition|]. intros [H1 [F|F]]; [|auto]. subst z. exfalso.
      destruct H1 as [<-|H1]; [rewrite key_lt_irrefl in E2; discriminate|]. specialize (A1 _ H1). pose proof (key_lt_trans _ _ _ E2 A1) as Q. rewrite key_lt_irrefl in Q. discriminate.
    + assert (x = y) by (apply key_total; assumption). subst y. cbn [In]. rewrite (IHa b A2 B2). split; [intuition|].
      intros [[<-|H1] H2]; [auto|]. destruct H2 as [F|F]; [auto|]. right. auto.
Qed.

(* ------------------------------------------------------------------ specification *)
(** points of rank r: own rank in the key, distinct local identifiers *)
Definition points_ok (r : nat) (l : list sphere) : Prop := (forall x, In x l -> snd (snd x) = r) /\ NoDup (map (fun x : sphere => fst (snd x)) l).
Definition listed (k : key) (pairs : list found) : Prop := In k (map fst pairs).

Lemma asc_strict r l : points_ok r l -> asc sphere_id_lt l -> strict (fun x y : sphere => key_lt (snd x) (snd y)) l.
Proof.
  intros [H1 H2]. induction l as [|h t IH]; [auto|]. intros [A1 A2]. cbn in H2. inversion H2 as [|? ? N1 N2]; subst. split; [|apply IH; auto; intros; apply H1; right; assumption].
  intros x Hx. specialize (A1 x Hx). unfold sphere_id_lt in A1. apply Nat.ltb_ge in A1.
  assert (fst (snd x) <> fst (snd h)) by (intro E; apply N1; rewrite <- E; apply (in_map (fun x : sphere => fst (snd x))); exact Hx).
  unfold key_lt. assert (L : (fst (snd h) <? fst (snd x))%nat = true) by (apply Nat.ltb_lt; lia). rewrite L. reflexivity.
Qed.
Lemma points_perm r l l' : Permutation l l' -> points_ok r l -> points_ok r l'.
Proof.
  intros P [H1 H2]. split.
  - intros x Hx. apply H1. apply Permutation_in with l'; [apply Permutation_sym, P|exact Hx].
  - apply Permutation_NoDup with (map (fun x : sphere => fst (snd x)) l); [apply Permutation_map, P|exact H2].
Qed.
Lemma sid_le_trans a b c : sphere_id_lt b a = false -> sphere_id_lt c b = false -> sphere_id_lt c a = false.
Proof. unfold sphere_id_lt. rewrite !Nat.ltb_ge. lia. Qed.
Lemma sid_lt_le a b : sphere_id_lt a b = true -> sphere_id_lt b a = false.
Proof. unfold sphere_id_lt. rewrite Nat.ltb_lt, Nat.ltb_ge. lia. Qed.
(** between two searches exactly the points without any match are kept *)
Theorem C80_unmatched_points_kept r spheres pairs : points_ok r spheres ->
  forall x, In x (delete_found spheres pairs) <-> In x spheres /\ ~ listed (snd x) pairs.
Proof.
  intros Hp x. unfold delete_found, listed. set (sp := if is_sorted sphere_id_lt spheres then spheres else sort sphere_id_lt spheres).
  assert (Pm : Permutation sp spheres) by (unfold sp; destruct (is_sorted _ _); [auto|apply sort_perm]).
  assert (As : asc sphere_id_lt sp) by (unfold sp; destruct (is_sorted sphere_id_lt spheres) eqn:E; [apply is_sorted_asc; [exact sid_le_trans|exact E]|apply sort_asc; [exact sid_le_trans|exact sid_lt_le]]).
  rewrite set_difference_in.
  - rewrite sort_unique_in. split; intros [H1 H2]; (split; [|exact H2]); [apply Permutation_in with sp|apply Permutation_in with spheres; [apply Permutation_sym|]]; auto.
  - apply (asc_strict r); [apply points_perm with spheres; [apply Permutation_sym, Pm|exact Hp]|exact As].
  - apply sort_unique_strict.
Qed.
Lemma difference_sub (a : list sphere) : forall b, incl (set_difference (fun (a : sphere) (b : key) => key_lt (snd a) b) (fun (a : key) (b : sphere) => key_lt a (snd b)) a b) a /\
  (NoDup (map (fun x : sphere => fst (snd x)) a) -> NoDup (map (fun x : sphere => fst (snd x)) (set_difference (fun (a : sphere) (b : key) => key_lt (snd a) b) (fun (a : key) (b : sphere) => key_lt a (snd b)) a b))).
Proof.
  induction a as [|x a IHa]; intros b; [destruct b; cbn; split; [apply incl_refl|auto|apply incl_refl|auto]|].
  induction b as [|y b [IHb1 IHb2]]; [split; [apply incl_refl|auto]|].
  cbn [set_difference]. destruct (key_lt (snd x) y).
  - destruct (IHa (y :: b)) as [I1 I2]. split.
    + intros z [<-|Hz]; [left; reflexivity|right; apply I1, Hz].
    + cbn [map]. intro N. inversion N as [|? ? N1 N2]; subst. constructor; [|apply I2, N2]. intro H. apply N1. apply in_map_iff in H. destruct H as (z & E & Hz). rewrite <- E. apply (in_map (fun x : sphere => fst (snd x))), I1, Hz.
  - destruct (key_lt y (snd x)); [split; [exact IHb1|exact IHb2]|]. destruct (IHa b) as [I1 I2]. split; [intros z Hz; right; apply I1, Hz|]. cbn [map]. intro N. inversion N; subst. apply I2. assumption.
Qed.
Lemma delete_ok r spheres pairs : points_ok r spheres -> points_ok r (delete_found spheres pairs).
Proof.
  intros Hp. unfold delete_found. set (sp := if is_sorted sphere_id_lt spheres then spheres else sort sphere_id_lt spheres).
  assert (Pm : Permutation sp spheres) by (unfold sp; destruct (is_sorted _ _); [auto|apply sort_perm]).
  destruct (points_perm r _ _ (Permutation_sym Pm) Hp) as [Q1 Q2].
  destruct (difference_sub sp (unique key_eq (sort key_lt (map fst pairs)))) as [I1 I2]. split; [intros x Hx; apply Q1, I1, Hx|apply I2, Q2].
Qed.

(** the coarse search at its specification: rank r learns of every intersecting pair in which it owns the point or the box *)
Definition search_ok (P : nat) (hit : R -> key -> key -> bool) (boxes : list key) (coarse : (nat -> list sphere) -> nat -> list found) : Prop :=
  forall s r p b, In (p, b) (coarse s r) <-> exists rr rad, (rr < P)%nat /\ In (rad, p) (s rr) /\ In b boxes /\ hit rad p b = true /\ (snd p = r \/ snd b = r).
(** a point is within reach after at most n doublings of its radius *)
Definition reach (hit : R -> key -> key -> bool) (boxes : list key) (n : nat) (x : sphere) : Prop := exists j b, (j <= n)%nat /\ In b boxes /\ hit (2^j * fst x) (snd x) b = true.

Section Search.
Variable P : nat.
Variable hit : R -> key -> key -> bool.
Variable boxes : list key.
Variable coarse : (nat -> list sphere) -> nat -> list found.
Hypothesis Hc : search_ok P hit boxes coarse.
Variable spheres : nat -> list sphere.
Hypothesis Hs : forall r, (r < P)%nat -> points_ok r (spheres r).

Definition inv (n : nat) (s : nat -> list sphere) (pairs : nat -> list found) : Prop :=
  (forall r, (r < P)%nat -> points_ok r (s r)) /\
  (forall r rad' k, (r < P)%nat -> (In (rad', k) (s r) <-> exists rad, rad' = 2^n * rad /\ In (rad, k) (spheres r) /\ ~ listed k (pairs r))) /\
  (forall r x, (r < P)%nat -> In x (spheres r) -> (listed (snd x) (pairs r) <-> reach hit boxes n x)).
Lemma same_point r rad rad' k : (r < P)%nat -> In (rad, k) (spheres r) -> In (rad', k) (spheres r) -> rad = rad'.
Proof.
  intros Hr H1 H2. destruct (Hs r Hr) as [_ N]. generalize (spheres r) N H1 H2. clear. intro l. induction l as [|h t IH]; [intros _ []|].
  cbn [map]. intro N. inversion N as [|? ? N1 N2]; subst. intros [E1|H1] [E2|H2].
  - congruence.
  - subst h. exfalso. apply N1. apply in_map_iff. exists (rad', k). auto.
  - subst h. exfalso. apply N1. apply in_map_iff. exists (rad, k). auto.
  - auto.
Qed.
Lemma listed_coarse s r k : listed k (coarse s r) <-> exists b, In (k, b) (coarse s r).
Proof. unfold listed. rewrite in_map_iff. split; [intros ([k' b] & E & H); cbn in E; subst; eauto|intros (b & H); exists (k, b); auto]. Qed.
Lemma inv_step n s pairs : inv n s pairs ->
  inv (S n) (fun r => delete_found (map (fun x : sphere => (2 * fst x, snd x)) (s r)) (pairs r ++ coarse (fun r => map (fun x : sphere => (2 * fst x, snd x)) (s r)) r))
      (fun r => pairs r ++ coarse (fun r => map (fun x : sphere => (2 * fst x, snd x)) (s r)) r).
Proof.
  intros (I1 & I2 & I3). set (s2 := fun r => map (fun x : sphere => (2 * fst x, snd x)) (s r)).
  assert (S2 : forall r, (r < P)%nat -> points_ok r (s2 r)).
  { intros r Hr. destruct (I1 r Hr) as [Q1 Q2]. split.
    - intros x Hx. apply in_map_iff in Hx. destruct Hx as (y & <- & Hy). cbn. apply Q1, Hy.
    - unfold s2. rewrite map_map. cbn. exact Q2. }
  assert (M2 : forall r rad' k, (r < P)%nat -> (In (rad', k) (s2 r) <-> exists rad, rad' = 2^(S n) * rad /\ In (rad, k) (spheres r) /\ ~ listed k (pairs r))).
  { intros r rad' k Hr. unfold s2. rewrite in_map_iff. split.
    - intros ([ra ka] & E & H). cbn in E. inversion E; subst. apply (I2 r _ _ Hr) in H. destruct H as (rad & -> & H1 & H2). exists rad. split; [cbn; ring|auto].
    - intros (rad & -> & H1 & H2). exists (2^n * rad, k). split; [cbn; f_equal; ring|]. apply I2; [exact Hr|]. exists rad. auto. }
  assert (L2 : forall r x, (r < P)%nat -> In x (spheres r) -> (listed (snd x) (pairs r ++ coarse s2 r) <-> reach hit boxes (S n) x)).
  { intros r [rad k] Hr Hx. cbn [snd]. assert (Kr : snd k = r) by (apply (proj1 (Hs r Hr) (rad, k) Hx)).
    transitivity (listed k (pairs r) \/ listed k (coarse s2 r)).
    { unfold listed. rewrite map_app. split; [apply in_app_or|apply in_or_app]. }
    rewrite (I3 r (rad, k) Hr Hx), listed_coarse. split.
    - intros [(j & b & H1 & H2 & H3)|(b & Hb)]; [exists j, b; auto|].
      apply (proj1 (Hc _ _ _ _)) in Hb. destruct Hb as (rr & rad' & H1 & H2 & H3 & H4 & _).
      assert (rr = r) by (rewrite <- Kr; symmetry; apply (proj1 (S2 rr H1) (rad', k) H2)). subst rr.
      apply (M2 _ _ _ H1) in H2. destruct H2 as (rad2 & -> & H5 & _). rewrite (same_point r rad2 rad k Hr H5 Hx) in H4.
      exists (S n), b. auto.
    - intros (j & b & H1 & H2 & H3). cbn [fst snd] in H3.
      destruct (in_dec (fun a b : key => ltac:(decide equality; apply Nat.eq_dec)) k (map fst (pairs r))) as [L|L].
      + left. apply (I3 r (rad, k) Hr Hx). exact L.
      + destruct (Nat.eq_dec j (S n)) as [->|Hj].
        * right. exists b. apply (proj2 (Hc _ _ _ _)). exists r, (2^(S n) * rad). repeat split; auto. apply M2; [exact Hr|]. exists rad. auto.
        * left. exists j, b. split; [lia|auto]. }
  split; [|split].
  - intros r Hr. apply delete_ok, S2, Hr.
  - intros r rad' k Hr. etransitivity; [exact (C80_unmatched_points_kept r (s2 r) (pairs r ++ coarse s2 r) (S2 r Hr) (rad', k))|]. cbn [snd]. rewrite (M2 r rad' k Hr).
    assert (AppL : listed k (pairs r) -> listed k (pairs r ++ coarse s2 r)) by (unfold listed; rewrite map_app; intro; apply in_or_app; auto).
    split; [intros ((rad & E & H1 & H2) & H3); exists rad; auto|intros (rad & E & H1 & H2); split; [exists rad; split; [exact E|split; [exact H1|intro Q; apply H2, AppL, Q]]|exact H2]].
  - exact L2.
Qed.
Lemma inv_start : inv 0 (fun r => delete_found (spheres r) (coarse spheres r)) (coarse spheres).
Proof.
  split; [|split].
  - intros r Hr. apply delete_ok, Hs, Hr.
  - intros r rad' k Hr. rewrite (C80_unmatched_points_kept r _ _ (Hs r Hr) (rad', k)). cbn [snd pow]. split.
    + intros [H1 H2]. exists rad'. split; [ring|auto].
    + intros (rad & -> & H1 & H2). rewrite Rmult_1_l. auto.
  - intros r [rad k] Hr Hx. cbn [snd]. assert (Kr : snd k = r) by (apply (proj1 (Hs r Hr) (rad, k) Hx)). rewrite listed_coarse. split.
    + intros (b & Hb). apply (proj1 (Hc _ _ _ _)) in Hb. destruct Hb as (rr & rad' & H1 & H2 & H3 & H4 & _).
      assert (rr = r) by (rewrite <- Kr; symmetry; apply (proj1 (Hs rr H1) (rad', k) H2)). subst rr.
      rewrite (same_point r rad' rad k Hr H2 Hx) in H4. exists 0%nat, b. cbn [pow fst snd]. rewrite Rmult_1_l. auto.
    + intros (j & b & H1 & H2 & H3). assert (j = 0)%nat by lia. subst j. cbn [pow fst snd] in H3. rewrite Rmult_1_l in H3.
      exists b. apply (proj2 (Hc _ _ _ _)). exists r, rad. repeat split; auto.
Qed.
Lemma any_false s : any_not_empty P s = false <-> forall r, (r < P)%nat -> s r = [].
Proof.
  unfold any_not_empty. rewrite <- Bool.not_true_iff_false, existsb_exists. split.
  - intros H r Hr. destruct (s r) eqn:E; [reflexivity|]. exfalso. apply H. exists r. rewrite E. split; [apply in_seq; lia|reflexivity].
  - intros H (r & Hr & E). apply in_seq in Hr. rewrite (H r) in E by lia. discriminate.
Qed.
Lemma empty_reach n s pairs : inv n s pairs -> (any_not_empty P s = false <-> forall r x, (r < P)%nat -> In x (spheres r) -> reach hit boxes n x).
Proof.
  intros (I1 & I2 & I3). rewrite any_false. split.
  - intros H r [rad k] Hr Hx. apply (I3 r _ Hr Hx). cbn [snd].
    destruct (in_dec (fun a b : key => ltac:(decide equality; apply Nat.eq_dec)) k (map fst (pairs r))) as [L|L]; [exact L|exfalso].
    assert (In (2^n * rad, k) (s r)) by (apply I2; [exact Hr|]; exists rad; auto). rewrite (H r Hr) in H0. destruct H0.
  - intros H r Hr. destruct (s r) as [|[rad' k] t] eqn:E; [reflexivity|exfalso].
    assert (Q : In (rad', k) (s r)) by (rewrite E; left; reflexivity). apply I2 in Q; [|exact Hr]. destruct Q as (rad & -> & H1 & H2).
    apply H2. apply (I3 r (rad, k) Hr H1). apply (H r (rad, k) Hr H1).
Qed.
Lemma loop_result fuel : forall n s pairs, (n + fuel = 12)%nat -> (n <= 10)%nat -> inv n s pairs ->
  match repeat_loop P coarse fuel n s pairs with
  | Some pairs' => exists m, (n <= m <= 10)%nat /\ (forall r x, (r < P)%nat -> In x (spheres r) -> listed (snd x) (pairs' r) /\ reach hit boxes m x)
  | None => exists r x, (r < P)%nat /\ In x (spheres r) /\ ~ reach hit boxes 10 x
  end.
Proof.
  induction fuel as [|fuel IH]; intros n s pairs E Hn I; [lia|]. cbn [repeat_loop].
  destruct (any_not_empty P s) eqn:A.
  - destruct (10 <? S n)%nat eqn:L.
    + apply Nat.ltb_lt in L. assert (n = 10)%nat by lia. subst n.
      destruct I as (I1 & I2 & I3). unfold any_not_empty in A. apply existsb_exists in A. destruct A as (r & Hr & A). apply in_seq in Hr.
      destruct (s r) as [|[rad' k] t] eqn:Es; [discriminate|].
      assert (Q : In (rad', k) (s r)) by (rewrite Es; left; reflexivity). apply I2 in Q; [|lia]. destruct Q as (rad & -> & H1 & H2).
      exists r, (rad, k). split; [lia|]. split; [exact H1|]. intro Rch. apply H2. apply (I3 r (rad, k)); auto; lia.
    + apply Nat.ltb_ge in L. pose proof (inv_step n s pairs I) as I'. specialize (IH (S n) _ _ ltac:(lia) ltac:(lia) I').
      destruct (repeat_loop P coarse fuel (S n) _ _) eqn:Q; [|exact IH]. destruct IH as (m & Hm & IH). exists m. split; [lia|exact IH].
  - pose proof (proj1 (empty_reach n s pairs I) A) as H. exists n. split; [lia|]. intros r x Hr Hx. split; [apply (proj2 (proj2 (proj2 I) r x Hr Hx)), (H r x Hr Hx)|exact (H r x Hr Hx)].
Qed.
(** the repeated search ends with a match for every point of every rank, or stops the run; it stops exactly when some point has no opposing face
    within 2^10 times its initial radius *)
Theorem C80_repeated_search_succeeds_iff : (exists pairs', all_search P coarse true spheres = Some pairs') <-> (forall r x, (r < P)%nat -> In x (spheres r) -> reach hit boxes 10 x).
Proof.
  unfold all_search, repeat_search. pose proof (loop_result 12 0 _ _ eq_refl ltac:(lia) inv_start) as H.
  destruct (repeat_loop P coarse 12 0 _ _) as [pairs'|] eqn:E.
  - split; [|intros _; exists pairs'; reflexivity]. intros _ r x Hr Hx. destruct H as (m & Hm & H). destruct (H r x Hr Hx) as [_ (j & b & K1 & K2)]. exists j, b. split; [lia|exact K2].
  - split; [intros (p & Q); discriminate|]. intros Q. destruct H as (r & x & H1 & H2 & H3). exfalso. apply H3. apply (Q r x); assumption.
Qed.
Theorem C80_repeated_search_complete pairs' : all_search P coarse true spheres = Some pairs' ->
  forall r x, (r < P)%nat -> In x (spheres r) -> exists b, In (snd x, b) (pairs' r).
Proof.
  unfold all_search, repeat_search. pose proof (loop_result 12 0 _ _ eq_refl ltac:(lia) inv_start) as H.
  destruct (repeat_loop P coarse 12 0 _ _) as [q|] eqn:E; [|discriminate]. intros [= <-] r x Hr Hx. destruct H as (m & _ & H).
  destruct (H r x Hr Hx) as [L _]. unfold listed in L. apply in_map_iff in L. destruct L as ([k b] & E1 & L). cbn in E1. subst k. exists b. exact L.
Qed.
End Search.
