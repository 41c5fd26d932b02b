(** C102, continued: what a value in the file means. *)
Require Import Reals List Bool String ZArith.
From Verif Require Import Opt_Model Input_Model.
Import ListNotations.
Open Scope string_scope.
Section P.
Variables (as_d : yaml -> option R) (as_b : yaml -> option bool) (as_s : yaml -> option string) (as_i : yaml -> option Z).
Notation conv := (conv as_d as_b as_s as_i).
(** the meaning of a value, by kind: a velocity is a sequence of two or three numbers, the third being zero when absent; a list of names is one name or a sequence of names *)
Inductive means : kind -> yaml -> val -> Prop :=
| m_vel2 a b x y : as_d a = Some x -> as_d b = Some y -> means KVel (YSeq [a; b]) (V3 x y 0%R)
| m_vel3 a b c r x y z : as_d a = Some x -> as_d b = Some y -> as_d c = Some z -> means KVel (YSeq (a :: b :: c :: r)) (V3 x y z)
| m_num s x : as_d (YScalar s) = Some x -> means KNum (YScalar s) (VR x)
| m_dbl y x : as_d y = Some x -> means KDbl y (VR x)
| m_bool y b : as_b y = Some b -> means KBool y (VB b)
| m_seq l q : Forall2 (fun y x => as_d y = Some x) l q -> means KSeq (YSeq l) (VL q)
| m_str y s : as_s y = Some s -> means KStr y (VS s)
| m_one s n : as_s (YScalar s) = Some n -> means KStrs (YScalar s) (VLS [n])
| m_many l q : Forall2 (fun y n => as_s y = Some n) l q -> means KStrs (YSeq l) (VLS q)
| m_int y z : as_i y = Some z -> means KInt y (VI z).
Lemma conv_list_iff {A} (c : yaml -> option A) l q : conv_list c l = Some q <-> Forall2 (fun y x => c y = Some x) l q.
Proof.
  revert q. induction l as [|y l IH]; intros q; cbn.
  - split; [intros [= <-]; constructor|intros H; now inversion H].
  - destruct (c y) as [x|] eqn:C.
    + destruct (conv_list c l) as [r|] eqn:L.
      * split; [intros [= <-]; constructor; [assumption|now apply IH]|]. intros H. inversion H as [|? x' ? r' H1 H2]; subst. apply IH in H2. congruence.
      * split; [discriminate|]. intros H. inversion H as [|? x' ? r' H1 H2]; subst. apply IH in H2. discriminate.
    + split; [discriminate|]. intros H. inversion H; congruence.
Qed.
(** Every value is read as what it says, and one that says nothing of its kind is rejected. *)
Theorem C102_value_meaning : forall k y v, conv k y = Some v <-> means k y v.
Proof.
  intros k y v. split.
  - destruct k; cbn.
    + destruct y as [|s|[|a [|b r]]|]; try discriminate. destruct (as_d a) as [x|] eqn:A; [|discriminate]. destruct (as_d b) as [z|] eqn:B; [|discriminate].
      destruct r as [|c r]; [intros [= <-]; now constructor|]. destruct (as_d c) as [w|] eqn:C; [|discriminate]. intros [= <-]. now constructor.
    + destruct y; try discriminate. destruct (as_d _) eqn:A; [|discriminate]. intros [= <-]. now constructor.
    + destruct (as_d _) eqn:A; [|discriminate]. intros [= <-]. now constructor.
    + destruct (as_b _) eqn:A; [|discriminate]. intros [= <-]. now constructor.
    + destruct y as [| |l|]; try discriminate. destruct (conv_list as_d l) eqn:A; [|discriminate]. intros [= <-]. constructor. now apply conv_list_iff.
    + destruct (as_s _) eqn:A; [|discriminate]. intros [= <-]. now constructor.
    + destruct y as [|s|l|]; try discriminate.
      * destruct (as_s _) eqn:A; [|discriminate]. intros [= <-]. now constructor.
      * destruct (conv_list as_s l) eqn:A; [|discriminate]. intros [= <-]. constructor. now apply conv_list_iff.
    + destruct (as_i _) eqn:A; [|discriminate]. intros [= <-]. now constructor.
  - intros H. destruct H; cbn.
    + now rewrite H, H0.
    + now rewrite H, H0, H1.
    + now rewrite H.
    + now rewrite H.
    + now rewrite H.
    + apply conv_list_iff in H. now rewrite H.
    + now rewrite H.
    + now rewrite H.
    + apply conv_list_iff in H. now rewrite H.
    + now rewrite H.
Qed.
(** a bare name where a list of names is expected is a list of one *)
Theorem C102_one_name : forall s n, as_s (YScalar s) = Some n -> conv KStrs (YScalar s) = Some (VLS [n]).
Proof. intros s n H. apply C102_value_meaning. now constructor. Qed.
End P.
