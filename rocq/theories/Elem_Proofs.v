Require Import Reals List Bool Lra Lia Arith.
From Verif Require Import RUtil Edge_Model Edge_Proofs Elem_Model Elem_Spec.
Import ListNotations.
Open Scope R_scope.

Definition dl (i j : nat) : R := if Nat.eqb i j then 1 else 0.

(** [s'] is [s] plus the matrix A and the vector b *)
Definition eff (s s' : esys) (A : nat -> nat -> R) (b : nat -> R) : Prop :=
  (forall i j, eL_ s' i j = eL_ s i j + A i j) /\ (forall i, eB s' i = eB s i + b i).

Lemma eff_refl s : eff s s (fun _ _ => 0) (fun _ => 0).
Proof. split; intros; lra. Qed.
Lemma eff_trans s s' s'' A b A' b' : eff s s' A b -> eff s' s'' A' b' ->
  eff s s'' (fun i j => A i j + A' i j) (fun i => b i + b' i).
Proof. intros [H1 H2] [H3 H4]. split; intros; [rewrite H3, H1|rewrite H4, H2]; lra. Qed.
Lemma eff_ext s s' A b A' b' : eff s s' A b -> (forall i j, A i j = A' i j) -> (forall i, b i = b' i) -> eff s s' A' b'.
Proof. intros [H1 H2] E1 E2. split; intros; [rewrite H1, E1|rewrite H2, E2]; lra. Qed.
Lemma eff_addL i j v s : eff s (addL i j v s) (fun a b => dl a i * dl b j * v) (fun _ => 0).
Proof. split; intros; cbn; unfold dl; [destruct (Nat.eqb _ i), (Nat.eqb _ j); cbn; lra|lra]. Qed.
Lemma eff_addB i v s : eff s (addB i v s) (fun _ _ => 0) (fun a => dl a i * v).
Proof. split; intros; cbn; unfold dl; [lra|destruct (Nat.eqb _ i); cbn; lra]. Qed.

Lemma loop_S {S} n (body : nat -> S -> S) s : loop (Datatypes.S n) body s = body n (loop n body s).
Proof. unfold loop. rewrite seq_S, fold_left_app. reflexivity. Qed.
Lemma loop_0 {S} (body : nat -> S -> S) s : loop 0 body s = s. Proof. reflexivity. Qed.

Lemma eff_loop n body A b s :
  (forall k s, (k < n)%nat -> eff s (body k s) (A k) (b k)) ->
  eff s (loop n body s) (fun i j => sumn n (fun k => A k i j)) (fun i => sumn n (fun k => b k i)).
Proof.
  revert s. induction n; intros s H.
  - eapply eff_ext; [apply eff_refl| |]; intros; cbn; rewrite ?sumn_0; reflexivity.
  - rewrite loop_S. eapply eff_ext.
    + eapply eff_trans; [apply IHn; intros; apply H; lia|apply H; lia].
    + intros; rewrite sumn_S; reflexivity.
    + intros; rewrite sumn_S; reflexivity.
Qed.

(** loops that thread an accumulator besides the system *)
Lemma loop_acc {T} n (body : nat -> esys * T -> esys * T) (h : nat -> T -> T) A b s a :
  (forall k s a, (k < n)%nat -> snd (body k (s, a)) = h k a) ->
  (forall k s a, (k < n)%nat -> eff s (fst (body k (s, a))) (A k) (b k)) ->
  snd (loop n body (s, a)) = loop n h a /\
  eff s (fst (loop n body (s, a))) (fun i j => sumn n (fun k => A k i j)) (fun i => sumn n (fun k => b k i)).
Proof.
  intros H1 H2. induction n.
  - split; [reflexivity|]. eapply eff_ext; [apply eff_refl| |]; intros; cbn; rewrite ?sumn_0; reflexivity.
  - destruct IHn as [E1 E2]; [intros; apply H1; lia|intros; apply H2; lia|].
    rewrite !loop_S. destruct (loop n body (s,a)) as [s' a'] eqn:E. cbn [fst snd] in *.
    split.
    + rewrite H1 by lia. rewrite E1. reflexivity.
    + eapply eff_ext.
      * eapply eff_trans; [exact E2|apply H2; lia].
      * intros; rewrite sumn_S; reflexivity.
      * intros; rewrite sumn_S; reflexivity.
Qed.
Lemma loop_sum n (f : nat -> R) a : loop n (fun k x => x + f k) a = a + sumn n f.
Proof. induction n; [rewrite loop_0, sumn_0; lra|]. rewrite loop_S, sumn_S, IHn. lra. Qed.
Lemma loop_sum2 n (f g : nat -> R) a c : loop n (fun k x => (fst x + f k, snd x + g k)) (a, c) = (a + sumn n f, c + sumn n g).
Proof. induction n; [rewrite loop_0, !sumn_0; f_equal; lra|]. rewrite loop_S, !sumn_S, IHn. cbn. f_equal; lra. Qed.

(* sums of deltas *)
Lemma sumn_minus n f g : sumn n (fun j => f j - g j) = sumn n f - sumn n g.
Proof. induction n; [rewrite !sumn_0; lra|]. rewrite !sumn_S, IHn. lra. Qed.
Lemma sumn_zero n f : (forall j, (j < n)%nat -> f j = 0) -> sumn n f = 0.
Proof. induction n; intros H; [apply sumn_0|]. rewrite sumn_S, IHn, H by auto. lra. Qed.
Lemma sumn_scal_r n a f : sumn n (fun j => f j * a) = sumn n f * a.
Proof. rewrite Rmult_comm, <- sumn_scal. apply sumn_ext. intros; lra. Qed.
Lemma sumn_opp n f : sumn n (fun j => - f j) = - sumn n f.
Proof. induction n; [rewrite !sumn_0; lra|]. rewrite !sumn_S, IHn. lra. Qed.
Lemma sumn_swap n m f : sumn n (fun i => sumn m (fun j => f i j)) = sumn m (fun j => sumn n (fun i => f i j)).
Proof.
  induction n. - rewrite sumn_0. symmetry. apply sumn_zero. intros; apply sumn_0.
  - rewrite sumn_S, IHn, <- sumn_plus. apply sumn_ext. intros. rewrite sumn_S. reflexivity.
Qed.
Lemma sumn_dl n k f : (k < n)%nat -> sumn n (fun i => dl i k * f i) = f k.
Proof.
  induction n; intros H; [lia|]. rewrite sumn_S. unfold dl at 2. destruct (Nat.eqb_spec n k).
  - subst. rewrite sumn_zero; [lra|]. intros j Hj. unfold dl. destruct (Nat.eqb_spec j k); [lia|lra].
  - rewrite IHn by lia. lra.
Qed.
Lemma dl_sym i j : dl i j = dl j i.
Proof. unfold dl. rewrite Nat.eqb_sym. reflexivity. Qed.

(* flat indices *)
Lemma flat_inj d a b i j : (i < d)%nat -> (j < d)%nat -> (a*d+i = b*d+j)%nat -> a = b /\ i = j.
Proof.
  intros Hi Hj E. assert (Ha : ((a*d+i)/d = a)%nat) by (rewrite Nat.div_add_l by lia; rewrite Nat.div_small; lia).
  assert (Hb : ((b*d+j)/d = b)%nat) by (rewrite Nat.div_add_l by lia; rewrite Nat.div_small; lia).
  rewrite E in Ha. split; [congruence|]. assert (a = b) by congruence. subst. lia.
Qed.
Lemma dl_flat d a b i j : (i < d)%nat -> (j < d)%nat -> dl (a*d+i) (b*d+j) = dl a b * dl i j.
Proof.
  intros Hi Hj. unfold dl. destruct (Nat.eqb_spec (a*d+i) (b*d+j)) as [E|E].
  - destruct (flat_inj _ _ _ _ _ Hi Hj E) as [-> ->]. rewrite !Nat.eqb_refl. lra.
  - destruct (Nat.eqb_spec a b), (Nat.eqb_spec i j); subst; try lra; try congruence.
Qed.
Lemma sumn_flat n d f : sumn (n*d) f = sumn n (fun a => sumn d (fun i => f (a*d+i)%nat)).
Proof.
  induction n; [reflexivity|]. rewrite sumn_S, <- IHn.
  replace (S n * d)%nat with (n*d + d)%nat by lia.
  generalize (n*d)%nat. intros p. clear IHn. induction d; [rewrite Nat.add_0_r, sumn_0; lra|].
  rewrite Nat.add_succ_r, !sumn_S, IHd. lra.
Qed.

Lemma Rplus_minus_a x y z : x + y - z = x + (y - z). Proof. ring. Qed.
(** pair-flux systems: row il gets +A, row ir gets -A *)
Section Pair.
Variables (n : nat).
Lemma pair_conservative (k : esys -> esys) np (l r : nat -> nat) (A : nat -> nat -> R) (F : nat -> R) :
  (forall s, eff s (k s) (fun i j => sumn np (fun ip => (dl i (l ip) - dl i (r ip)) * A ip j))
                        (fun i => sumn np (fun ip => - ((dl i (l ip) - dl i (r ip)) * F ip)))) ->
  (forall ip, (ip < np)%nat -> (l ip < n)%nat /\ (r ip < n)%nat) -> conservative n k.
Proof.
  intros H Hm s. destruct (H s) as [H1 H2]. split.
  - rewrite (sumn_ext n _ _ (fun i _ => H2 i)), sumn_plus, sumn_swap, (sumn_zero np); [lra|].
    intros ip Hip. destruct (Hm ip Hip).
    rewrite (sumn_ext n _ (fun i => dl i (r ip) * F ip - dl i (l ip) * F ip)) by (intros; lra).
    rewrite sumn_minus, (sumn_dl n (r ip) (fun _ => F ip)), (sumn_dl n (l ip) (fun _ => F ip)) by tauto. lra.
  - intros j. rewrite (sumn_ext n _ _ (fun i _ => H1 i j)), sumn_plus, sumn_swap, (sumn_zero np); [lra|].
    intros ip Hip. destruct (Hm ip Hip).
    rewrite (sumn_ext n _ (fun i => dl i (l ip) * A ip j - dl i (r ip) * A ip j)) by (intros; lra).
    rewrite sumn_minus, (sumn_dl n (r ip) (fun _ => A ip j)), (sumn_dl n (l ip) (fun _ => A ip j)) by tauto. lra.
Qed.
Lemma pair_newton (k : (nat -> R) -> esys -> esys) np (l r : nat -> nat) (A : nat -> nat -> R) (F : (nat -> R) -> nat -> R) :
  (forall q s, eff s (k q s) (fun i j => sumn np (fun ip => (dl i (l ip) - dl i (r ip)) * A ip j))
                        (fun i => sumn np (fun ip => - ((dl i (l ip) - dl i (r ip)) * F q ip)))) ->
  (forall q d ip, (ip < np)%nat -> F (fun a => q a + d a) ip = F q ip + sumn n (fun j => A ip j * d j)) ->
  exact_newton n k.
Proof.
  intros H HF q d s i Hi. destruct (H q s) as [H1 H2]. destruct (H (fun a => q a + d a) s) as [_ H4].
  rewrite H2, H4.
  assert (E : sumn n (fun j => (eL_ (k q s) i j - eL_ s i j) * d j)
            = sumn np (fun ip => (dl i (l ip) - dl i (r ip)) * sumn n (fun j => A ip j * d j))).
  { rewrite (sumn_ext n _ (fun j => sumn np (fun ip => (dl i (l ip) - dl i (r ip)) * (A ip j * d j)))).
    - rewrite sumn_swap. apply sumn_ext. intros. apply sumn_scal.
    - intros j _. rewrite H1. rewrite (Rplus_comm (eL_ s i j)). unfold Rminus at 1. rewrite Rplus_assoc, Rplus_opp_r, Rplus_0_r.
      rewrite <- sumn_scal_r. apply sumn_ext. intros; lra. }
  rewrite E. rewrite Rplus_minus_a. f_equal. rewrite <- sumn_minus. apply sumn_ext.
  intros ip Hip. rewrite HF by assumption. unfold Rminus. ring.
Qed.
End Pair.
