(** C109: the coupled velocity-pressure system keeps its two representations in step. *)
From Coq Require Import Reals List Arith Lra Lia.
From Verif Require Import Mono_Model.
Import ListNotations.
Open Scope R_scope.

(** * Specification *)
(** velocity and pressure at every node are the node's entries of the coupled unknown *)
Definition in_step (n d : nat) (u v p : mem) : Prop :=
  (forall k j, (k < n)%nat -> (j < d)%nat -> v (k * d + j)%nat = u (k * (d + 1) + j)%nat) /\ (forall k, (k < n)%nat -> p k = u (k * (d + 1) + d)%nat).
Fixpoint total (incs : list mem) (i : nat) : R := match incs with [] => 0 | m :: r => m i + total r i end.

(** * Copies *)
Lemma upd_same m i v : upd m i v i = v. Proof. unfold upd. rewrite Nat.eqb_refl. reflexivity. Qed.
Lemma upd_other m i v x : x <> i -> upd m i v x = m x. Proof. intros H. unfold upd. apply Nat.eqb_neq in H. rewrite H. reflexivity. Qed.
Lemma copies_out {A} (f g : A -> nat) l src dst x : (forall i, In i l -> f i <> x) -> copies f g l src dst x = dst x.
Proof.
  unfold copies. revert dst. induction l as [|a l IH]; intros dst H; cbn; [reflexivity|].
  rewrite IH by (intros; apply H; right; assumption). apply upd_other. intros E. apply (H a (or_introl eq_refl)). symmetry; exact E.
Qed.
Lemma copies_in {A} (f g : A -> nat) (l : list A) src dst i : (forall a b, In a l -> In b l -> f a = f b -> g a = g b) -> In i l -> copies f g l src dst (f i) = src (g i).
Proof.
  unfold copies. revert dst i. induction l as [|a l IH]; intros dst i INJ I; [destruct I|]. cbn.
  destruct (in_dec Nat.eq_dec (f i) (map f l)) as [M|M].
  - apply in_map_iff in M. destruct M as (b & E & B). rewrite <- E. rewrite IH; [|intros x y X Y; apply INJ; right; assumption|exact B]. f_equal. apply INJ; [right; exact B|exact I|exact E].
  - destruct I as [<-|I]; [|exfalso; apply M; apply in_map; exact I]. change (fold_left _ l ?z) with (copies f g l src z). rewrite copies_out; [apply upd_same|].
    intros b B E. apply M. apply in_map_iff. exists b. auto.
Qed.
Lemma pos_inj w k j k' j' : (j < w)%nat -> (j' < w)%nat -> (k * w + j = k' * w + j')%nat -> k = k' /\ j = j'.
Proof.
  intros H H' E. assert (K : k = k'). { apply (f_equal (fun z => Nat.div z w)) in E. rewrite !Nat.div_add_l in E by lia. rewrite !Nat.div_small in E by assumption. lia. }
  subst. split; [reflexivity|lia].
Qed.
Lemma in_slots n d k j : In (k, j) (slots n d) <-> (k < n)%nat /\ (j < d)%nat.
Proof. unfold slots. rewrite in_prod_iff, !in_seq. lia. Qed.

Section P.
Variables (n d : nat).
Lemma down_in_step s : in_step n d (Un (copy_down n d s)) (Vn (copy_down n d s)) (Pr (copy_down n d s)).
Proof.
  split; cbn.
  - intros k j Hk Hj. apply (copies_in (vpos d) (upos d) (slots n d) (Un s) (Vn s) (k, j)); [|apply in_slots; auto].
    intros [a b] [a' b'] A B E. apply in_slots in A, B. unfold vpos in E. cbn in E. apply pos_inj in E; [|lia|lia]. destruct E; subst. reflexivity.
  - intros k Hk. apply (copies_in (fun k => k) (ppos d) (seq 0 n) (Un s) (Pr s) k); [|apply in_seq; lia]. intros a b _ _ E. cbn in E. subst. reflexivity.
Qed.
Lemma up_in_step s : in_step n d (Un (copy_up n d s)) (Vn (copy_up n d s)) (Pr (copy_up n d s)).
Proof.
  split; cbn.
  - intros k j Hk Hj. symmetry. rewrite copies_out.
    + apply (copies_in (upos d) (vpos d) (slots n d) (Vn s) (Un s) (k, j)); [|apply in_slots; auto].
      intros [a b] [a' b'] A B E. apply in_slots in A, B. unfold upos in E. cbn in E. apply pos_inj in E; [|lia|lia]. destruct E; subst. reflexivity.
    + intros i _ E. unfold ppos in E. apply pos_inj in E; lia.
  - intros k Hk. symmetry. apply (copies_in (ppos d) (fun k => k) (seq 0 n) (Pr s) _ k); [|apply in_seq; lia].
    intros a b _ _ E. unfold ppos in E. apply pos_inj in E; lia.
Qed.
Lemma axpby_at inc u i : axpby n d inc u i = if Nat.ltb i (n * (d + 1)) then u i + inc i else u i.
Proof.
  unfold axpby. generalize (n * (d + 1))%nat. intros N. revert i. induction N as [|N IH]; intros i; [reflexivity|].
  rewrite seq_S, fold_left_app. cbn [fold_left Nat.add]. unfold upd. destruct (Nat.eqb i N) eqn:E.
  - apply Nat.eqb_eq in E. subst i. rewrite IH. destruct (Nat.ltb N N) eqn:L; [apply Nat.ltb_lt in L; lia|]. destruct (Nat.ltb N (S N)) eqn:L2; [ring|apply Nat.ltb_ge in L2; lia].
  - apply Nat.eqb_neq in E. rewrite IH. destruct (Nat.ltb i N) eqn:L; destruct (Nat.ltb i (S N)) eqn:L2; try reflexivity; [apply Nat.ltb_lt in L; apply Nat.ltb_ge in L2; lia|apply Nat.ltb_ge in L; apply Nat.ltb_lt in L2; lia].
Qed.
Lemma solve_U incs : forall s i, (i < n * (d + 1))%nat -> Un (solve n d incs s) i = Un s i + total incs i.
Proof.
  induction incs as [|m r IH]; intros s i H; [cbn; ring|]. cbn [solve fold_left]. change (fold_left (iteration n d) r ?x) with (solve n d r x). rewrite IH by exact H.
  cbn [iteration copy_down set_Un Un total]. rewrite axpby_at. apply Nat.ltb_lt in H. rewrite H. ring.
Qed.
Lemma solve_old incs : forall s, Uo (solve n d incs s) = Uo s /\ Uoo (solve n d incs s) = Uoo s /\ Vo (solve n d incs s) = Vo s /\ Voo (solve n d incs s) = Voo s.
Proof. induction incs as [|m r IH]; intros s; [auto|]. cbn [solve fold_left]. destruct (IH (iteration n d s m)) as (A & B & C & D). unfold solve in *. rewrite A, B, C, D. auto. Qed.
Lemma solve_in_step incs s : (incs <> [] \/ in_step n d (Un s) (Vn s) (Pr s)) -> in_step n d (Un (solve n d incs s)) (Vn (solve n d incs s)) (Pr (solve n d incs s)).
Proof.
  revert s. induction incs as [|m r IH]; intros s H; [destruct H as [H|H]; [congruence|exact H]|].
  cbn [solve fold_left]. apply IH. right. apply down_in_step.
Qed.
Variable K : nat.
Lemma swap_old s : Uo (swap_states K s) = Un s /\ Vo (swap_states K s) = Vn s.
Proof. unfold swap_states. destruct (Nat.eqb K 2); auto. Qed.
Lemma predict_U s i : (i < n * (d + 1))%nat -> Un (predict n d s) i = Uo s i.
Proof. intros H. cbn. apply (copies_in (fun i => i) (fun i => i) (seq 0 (n * (d + 1))) (Uo s) (Un s) i); [auto|apply in_seq; lia]. Qed.

(** after any time step that iterates, velocity and pressure are the coupled unknown, whatever state it started from and whatever was written in between *)
Theorem C109_in_step : forall s i, increments i <> [] -> let s' := time_step n d K s i in in_step n d (Un s') (Vn s') (Pr s').
Proof. intros s i H. apply solve_in_step. left; exact H. Qed.
(** the new unknown is the old one plus the increments the solver gave, entry by entry; the old state is the last step's new one *)
Theorem C109_step_adds_the_increments : forall s i x, (x < n * (d + 1))%nat -> Un (time_step n d K s i) x = Un s x + total (increments i) x /\ Uo (time_step n d K s i) = Un s.
Proof.
  intros s i x H. unfold time_step. split.
  - rewrite solve_U by exact H. f_equal. unfold external, pre_timestep. cbn [Un copy_down]. rewrite predict_U by exact H. rewrite (proj1 (swap_old s)). reflexivity.
  - rewrite (proj1 (solve_old _ _)). cbn. apply (proj1 (swap_old s)).
Qed.
(** the solver sees the same history in both representations: once in step, the old states are in step too *)
Theorem C109_history_in_step : forall s i, in_step n d (Un s) (Vn s) (Pr s) ->
  let s' := time_step n d K s i in forall k j, (k < n)%nat -> (j < d)%nat -> Vo s' (k * d + j)%nat = Uo s' (k * (d + 1) + j)%nat.
Proof.
  intros s i (H & _) s' k j Hk Hj. unfold s', time_step. destruct (solve_old (increments i) (external (ext_v i) (ext_p i) (pre_timestep n d (predict n d (swap_states K s))))) as (A & _ & B & _).
  rewrite A, B. cbn. rewrite (proj1 (swap_old s)), (proj2 (swap_old s)). apply H; assumption.
Qed.
Lemma run_snoc r ins i s : run n d K r (ins ++ [i]) s = time_step n d K (run n d K r ins s) i.
Proof. unfold run. rewrite fold_left_app. reflexivity. Qed.
Lemma initial_in_step s : in_step n d (Un (initial_work n d false s)) (Vn s) (Pr s).
Proof. exact (up_in_step s). Qed.
(** a fresh run of any number of steps ends with the initial velocity and pressure plus everything the solver added *)
Theorem C109_fresh_run : forall ins s, (forall i, In i ins -> increments i <> []) -> let s' := run n d K false ins s in
  (forall k j, (k < n)%nat -> (j < d)%nat -> Vn s' (k * d + j)%nat = Vn s (k * d + j)%nat + total (concat (map increments ins)) (k * (d + 1) + j)%nat) /\
  (forall k, (k < n)%nat -> Pr s' k = Pr s k + total (concat (map increments ins)) (k * (d + 1) + d)%nat).
Proof.
  intros ins s NE s'.
  assert (T : forall a b x, total (a ++ b) x = total a x + total b x). { induction a as [|m r IH]; intros b x; cbn; [ring|rewrite IH; ring]. }
  assert (G : forall l, (forall i, In i l -> increments i <> []) -> let z := run n d K false l s in in_step n d (Un z) (Vn z) (Pr z) /\
    forall x, (x < n * (d + 1))%nat -> Un z x = Un (copy_up n d s) x + total (concat (map increments l)) x).
  { induction l as [|i l IH] using rev_ind; intros N z; unfold z; clear z.
    - split; [exact (up_in_step s)|]. intros x _. cbn. ring.
    - rewrite run_snoc. destruct IH as (_ & U); [intros; apply N; apply in_or_app; auto|]. split; [apply C109_in_step; apply N; apply in_or_app; right; left; reflexivity|].
      intros x Hx. rewrite (proj1 (C109_step_adds_the_increments _ i x Hx)). rewrite U by exact Hx. rewrite map_app, concat_app, T. cbn [map concat]. rewrite app_nil_r. ring. }
  destruct (G ins NE) as ((A & B) & U). destruct (up_in_step s) as (C & D). cbn [Vn Pr copy_up] in C, D.
  assert (L : forall k j, (k < n)%nat -> (j <= d)%nat -> (k * (d + 1) + j < n * (d + 1))%nat) by (intros; nia).
  split; [intros k j Hk Hj|intros k Hk]; unfold s'.
  - rewrite A by assumption. rewrite U by (apply L; lia). rewrite <- C by assumption. reflexivity.
  - rewrite B by assumption. rewrite U by (apply L; lia). rewrite <- D by assumption. reflexivity.
Qed.
(** a restarted run goes on from the coupled unknown that was saved, whatever the velocity and pressure in memory *)
Theorem C109_restart_needs_only_the_unknown : forall i ins s1 s2, (forall x, In x (i :: ins) -> increments x <> []) -> (forall x, (x < n * (d + 1))%nat -> Un s1 x = Un s2 x) ->
  let a := run n d K true (i :: ins) s1 in let b := run n d K true (i :: ins) s2 in
  (forall k j, (k < n)%nat -> (j < d)%nat -> Vn a (k * d + j)%nat = Vn b (k * d + j)%nat) /\ (forall k, (k < n)%nat -> Pr a k = Pr b k).
Proof.
  intros i ins s1 s2 NE H a b.
  assert (G : forall l, (forall x, (x < n * (d + 1))%nat -> Un (run n d K true l s1) x = Un (run n d K true l s2) x)).
  { induction l as [|y l IH] using rev_ind; intros x Hx; [exact (H x Hx)|]. rewrite !run_snoc. rewrite !(proj1 (C109_step_adds_the_increments _ y x Hx)). rewrite IH by exact Hx. reflexivity. }
  assert (S : forall s, in_step n d (Un (run n d K true (i :: ins) s)) (Vn (run n d K true (i :: ins) s)) (Pr (run n d K true (i :: ins) s))).
  { intros s. destruct (exists_last (l := i :: ins)) as (l & y & E); [discriminate|]. rewrite E. rewrite run_snoc. apply C109_in_step. apply NE. rewrite E. apply in_or_app; right; left; reflexivity. }
  destruct (S s1) as (A1 & B1). destruct (S s2) as (A2 & B2). fold a in A1, B1. fold b in A2, B2.
  assert (L : forall k j, (k < n)%nat -> (j <= d)%nat -> (k * (d + 1) + j < n * (d + 1))%nat) by (intros; nia).
  split; [intros k j Hk Hj; rewrite A1, A2 by assumption|intros k Hk; rewrite B1, B2 by assumption]; apply G; apply L; lia.
Qed.
(** nothing beyond the nodes' own storage is written *)
Theorem C109_nothing_else_written : forall s, (forall x, (n * d <= x)%nat -> Vn (copy_down n d s) x = Vn s x) /\ (forall x, (n <= x)%nat -> Pr (copy_down n d s) x = Pr s x) /\
  (forall x, (n * (d + 1) <= x)%nat -> Un (copy_up n d s) x = Un s x) /\ (forall inc x, (n * (d + 1) <= x)%nat -> axpby n d inc (Un s) x = Un s x).
Proof.
  intros s. repeat split; intros.
  - cbn. apply copies_out. intros [k j] I. apply in_slots in I. unfold vpos. cbn. nia.
  - cbn. apply copies_out. intros k I. apply in_seq in I. lia.
  - cbn. rewrite copies_out; [apply copies_out|]; [intros [k j] I; apply in_slots in I; unfold upos; cbn; nia|intros k I; apply in_seq in I; unfold ppos; nia].
  - rewrite axpby_at. destruct (Nat.ltb x (n * (d + 1))) eqn:L; [apply Nat.ltb_lt in L; lia|reflexivity].
Qed.
(** what boundary conditions or transfers write into velocity and pressure during a step has no effect on it (the authors' FIXME, lines 486-492) *)
Theorem C109_boundary_data_lost_refuted : forall s v p v' p' incs, incs <> [] ->
  let a := time_step n d K s (mkIn v p incs) in let b := time_step n d K s (mkIn v' p' incs) in
  (forall k j, (k < n)%nat -> (j < d)%nat -> Vn a (k * d + j)%nat = Vn b (k * d + j)%nat) /\ (forall k, (k < n)%nat -> Pr a k = Pr b k).
Proof.
  intros s v p v' p' incs NE a b. destruct (C109_in_step s (mkIn v p incs) NE) as (A1 & B1). destruct (C109_in_step s (mkIn v' p' incs) NE) as (A2 & B2). fold a in A1, B1. fold b in A2, B2.
  assert (L : forall k j, (k < n)%nat -> (j <= d)%nat -> (k * (d + 1) + j < n * (d + 1))%nat) by (intros; nia).
  assert (E : forall x, (x < n * (d + 1))%nat -> Un a x = Un b x).
  { intros x Hx. unfold a, b. rewrite (proj1 (C109_step_adds_the_increments s (mkIn v p incs) x Hx)), (proj1 (C109_step_adds_the_increments s (mkIn v' p' incs) x Hx)). reflexivity. }
  split; [intros k j Hk Hj; rewrite A1, A2 by assumption|intros k Hk; rewrite B1, B2 by assumption]; apply E; apply L; lia.
Qed.
(** at a restart the start-up work (gradients, Courant and Reynolds numbers) is done on the velocity in memory, not on the one that was saved *)
Theorem C109_restart_initial_velocity_refuted : (0 < n)%nat -> (0 < d)%nat -> exists s, ~ in_step n d (Un (initial_work n d true s)) (Vn (initial_work n d true s)) (Pr (initial_work n d true s)).
Proof. intros Hn Hd. exists (mkB (fun _ => 1) (fun _ => 1) (fun _ => 1) (fun _ => 0) (fun _ => 0) (fun _ => 0) (fun _ => 0)). cbn. intros (H & _). specialize (H 0%nat 0%nat Hn Hd). lra. Qed.
End P.
(** two nodes in the plane, one step of two iterations *)
Theorem C109_nonvacuous : let s := mkB (fun _ => 9) (fun _ => 9) (fun _ => 9) (fun i => INR i) (fun _ => 0) (fun _ => 0) (fun k => 10 + INR k) in
  let s' := run 2 2 3 false [mkIn (fun _ => 7) (fun _ => 7) [fun i => INR i; fun _ => 1]] s in
  Vn s' 3%nat = 3 + (4 + 1) /\ Pr s' 1%nat = 11 + (5 + 1) /\ Un s' 4%nat = 8.
Proof. cbn. repeat split; ring. Qed.
