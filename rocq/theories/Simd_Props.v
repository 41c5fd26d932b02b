(** C25: SIMD grouping of the element loop. *)
Require Import ZArith List Lia Arith Bool.
From Verif Require Import Simd_Model.
Import ListNotations.

Lemma groups_ceil w n : (0 < w)%nat -> let g := get_num_simd_groups w n in (n <= g*w /\ (g*w < n + w))%nat.
Proof.
  intros Hw. cbv zeta. unfold get_num_simd_groups. pose proof (Nat.div_mod n w ltac:(lia)).
  pose proof (Nat.mod_upper_bound n w ltac:(lia)). cbv zeta.
  destruct (Nat.ltb_spec 0 (n mod w)); nia.
Qed.

Lemma group_len w n g : (0 < w)%nat -> (g < get_num_simd_groups w n)%nat ->
  Z.to_nat (get_length_of_next_simd_group (Z.of_nat w) (Z.of_nat g) (Z.of_nat n)) = Nat.min w (n - g*w) /\ (g*w < n)%nat.
Proof.
  intros Hw Hg. pose proof (groups_ceil w n Hw) as [H1 H2].
  assert (g*w < n)%nat by nia. split; auto.
  unfold get_length_of_next_simd_group.
  destruct (Z.ltb_spec (Z.of_nat n - Z.of_nat g * Z.of_nat w) (Z.of_nat w));
  match goal with |- context [if ?b then _ else _] => destruct b eqn:E end;
  rewrite ?orb_true_iff, ?orb_false_iff, ?Z.ltb_lt, ?Z.ltb_ge in E; lia.
Qed.

(** C25. Every group has between 1 and simdLen lanes. *)
Theorem C25_group_length :
  forall w n g, (0 < w)%nat -> (g < get_num_simd_groups w n)%nat ->
  let len := get_length_of_next_simd_group (Z.of_nat w) (Z.of_nat g) (Z.of_nat n) in
  (1 <= len <= Z.of_nat w)%Z.
Proof. intros w n g Hw Hg. cbv zeta. pose proof (group_len w n g Hw Hg) as [H1 H2]. lia. Qed.

Lemma seq_blocks w n : (0 < w)%nat -> forall g, (g <= get_num_simd_groups w n)%nat ->
  flat_map (fun g => map (fun lane => g*w + lane) (seq 0 (Z.to_nat (get_length_of_next_simd_group (Z.of_nat w) (Z.of_nat g) (Z.of_nat n))))) (seq 0 g)
  = seq 0 (Nat.min (g*w) n).
Proof.
  intros Hw. induction g as [|g IH]; intros Hg; [reflexivity|].
  rewrite seq_S, flat_map_app, IH by lia. simpl flat_map. rewrite app_nil_r.
  destruct (group_len w n g Hw ltac:(lia)) as [-> H2].
  rewrite (Nat.min_l (g*w) n) by lia.
  replace (Nat.min (S g * w) n) with (g*w + Nat.min w (n - g*w))%nat by (simpl; lia).
  rewrite seq_app. f_equal. rewrite Nat.add_0_l.
  generalize (Nat.min w (n - g*w)) as m. generalize (g*w)%nat as a. clear. intros a m.
  assert (G : forall b, map (fun lane => a + lane)%nat (seq b m) = seq (a+b) m).
  { induction m as [|m IHm]; intros b; simpl; [reflexivity|]. rewrite IHm. f_equal. f_equal. lia. }
  rewrite G. f_equal. lia.
Qed.

(** C25. The (group, lane) loop enumerates exactly 0 .. length-1, each once, in order, for every
    bucket length and SIMD width. *)
Theorem C25_each_element_exactly_once :
  forall w n, (0 < w)%nat -> visited w n = seq 0 n.
Proof.
  intros w n Hw. unfold visited. rewrite seq_blocks by auto.
  pose proof (groups_ceil w n Hw) as [H _]. now rewrite Nat.min_r by lia.
Qed.

(** C25. Interleaving then extracting one lane returns that element's data; unused lanes and entries
    beyond the view are untouched. *)
Lemma inner {A} (views : nat -> nat -> A) i n d i' l' :
  fold_left (fun d lane => set_data d i lane (views lane i)) (seq 0 n) d i' l'
  = if (Nat.eqb i' i && Nat.ltb l' n)%bool then views l' i else d i' l'.
Proof.
  induction n as [|n IH]; [simpl; now rewrite andb_false_r|].
  rewrite seq_S, fold_left_app. simpl. unfold set_data at 1. rewrite IH.
  destruct (Nat.eqb_spec i' i) as [->|]; simpl; [|reflexivity].
  destruct (Nat.eqb_spec l' n) as [->|].
  - destruct (Nat.ltb_spec n (S n)); [reflexivity|lia].
  - destruct (Nat.ltb_spec l' n), (Nat.ltb_spec l' (S n)); try reflexivity; lia.
Qed.
Theorem C25_interleave_roundtrip :
  forall (A : Type) dim simdElems (views dest : nat -> nat -> A) lane i,
  extract_lane (interleave dim simdElems views dest) lane i
  = if (Nat.ltb i dim && Nat.ltb lane simdElems)%bool then views lane i else dest i lane.
Proof.
  intros A dim n views dest lane i. unfold extract_lane, interleave.
  induction dim as [|m IH]; [reflexivity|].
  rewrite seq_S, fold_left_app. simpl. rewrite inner, IH.
  destruct (Nat.eqb_spec i m) as [->|].
  - destruct (Nat.ltb_spec m (S m)); [|lia]. simpl. destruct (Nat.ltb_spec m m); [lia|]. simpl. now destruct (Nat.ltb lane n).
  - simpl. destruct (Nat.ltb_spec i m), (Nat.ltb_spec i (S m)); try reflexivity; lia.
Qed.

Example simd_demo : visited 4 10 = [0;1;2;3;4;5;6;7;8;9]%nat /\ get_num_simd_groups 4 10 = 3%nat.
Proof. split; reflexivity. Qed.
