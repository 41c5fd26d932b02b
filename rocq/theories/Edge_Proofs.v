Require Import Reals List Bool Lra Lia Psatz Arith.
From Verif Require Import RUtil Edge_Model.
Import ListNotations.
Open Scope R_scope.

Lemma fold_add {A} (f : A -> R) l a : fold_left (fun x y => x + f y) l a = a + fold_left (fun x y => x + f y) l 0.
Proof.
  revert a. induction l as [|y l IH]; intros a; simpl; [lra|]. rewrite IH, (IH (0 + f y)). lra.
Qed.
Lemma fold_add_map {A} (f : A -> R) l : fold_left (fun x y => x + f y) l 0 = fold_right Rplus 0 (map f l).
Proof. induction l as [|y l IH]; simpl; [lra|]. rewrite fold_add, IH. lra. Qed.

Lemma sumn_S n f : sumn (S n) f = sumn n f + f n.
Proof. unfold sumn. rewrite seq_S, fold_left_app. simpl. reflexivity. Qed.
Lemma sumn_0 f : sumn 0 f = 0. Proof. reflexivity. Qed.
Lemma sumn_ext n f g : (forall j, (j < n)%nat -> f j = g j) -> sumn n f = sumn n g.
Proof. induction n; intros H; [reflexivity|]. rewrite !sumn_S, IHn, H; auto. Qed.
Lemma sumn_plus n f g : sumn n (fun j => f j + g j) = sumn n f + sumn n g.
Proof. induction n; [rewrite !sumn_0; lra|]. rewrite !sumn_S, IHn. lra. Qed.
Lemma sumn_scal n a f : sumn n (fun j => a * f j) = a * sumn n f.
Proof. induction n; [rewrite !sumn_0; lra|]. rewrite !sumn_S, IHn. lra. Qed.
Lemma sumn_nonneg n f : (forall j, (j<n)%nat -> 0 <= f j) -> 0 <= sumn n f.
Proof. induction n; intros H; [rewrite sumn_0; lra|]. rewrite sumn_S. assert (0 <= f n) by auto. assert (0 <= sumn n f) by auto. lra. Qed.
Lemma fold_seq_sumn n f a : fold_left (fun t j => t + f j) (seq 0 n) a = a + sumn n f.
Proof. unfold sumn. apply fold_add. Qed.

(* list sums *)
Definition lsum {A} (f : A -> R) (l : list A) : R := fold_right Rplus 0 (map f l).
Lemma lsum_plus {A} (f g : A -> R) l : lsum (fun x => f x + g x) l = lsum f l + lsum g l.
Proof. unfold lsum. induction l; simpl; [lra|]. rewrite IHl. lra. Qed.
Lemma lsum_ext {A} (f g : A -> R) l : (forall x, In x l -> f x = g x) -> lsum f l = lsum g l.
Proof. unfold lsum. intros H. induction l; simpl; [reflexivity|]. rewrite H, IHl; simpl; auto. intros; apply H; simpl; auto. Qed.
Lemma lsum_scal {A} a (f : A -> R) l : lsum (fun x => a * f x) l = a * lsum f l.
Proof. unfold lsum. induction l; simpl; [lra|]. rewrite IHl. lra. Qed.
Lemma lsum_zero {A} (f : A -> R) l : (forall x, In x l -> f x = 0) -> lsum f l = 0.
Proof. unfold lsum. intros H. induction l; simpl; [reflexivity|]. rewrite H, IHl; simpl; auto; [lra|]. intros; apply H; simpl; auto. Qed.
Lemma lsum_comm {A B} (f : A -> B -> R) l m : lsum (fun x => lsum (f x) m) l = lsum (fun y => lsum (fun x => f x y) l) m.
Proof.
  induction l as [|x l IH]; simpl.
  - symmetry. apply lsum_zero. reflexivity.
  - unfold lsum at 1. simpl. fold (lsum (fun x => lsum (f x) m) l). rewrite IH.
    rewrite <- lsum_plus. apply lsum_ext. intros. reflexivity.
Qed.
Lemma lsum_indicator (l : list nat) k a : NoDup l -> In k l -> lsum (fun i => if Nat.eqb k i then a else 0) l = a.
Proof.
  unfold lsum. induction l as [|x l IH]; intros Hn Hi; [destruct Hi|]. simpl. inversion Hn; subst.
  destruct (Nat.eqb_spec k x) as [->|Hne].
  - rewrite (lsum_zero (fun i => if Nat.eqb x i then a else 0) l) || idtac.
    change (a + lsum (fun i => if Nat.eqb x i then a else 0) l = a).
    rewrite lsum_zero; [lra|]. intros y Hy. destruct (Nat.eqb_spec x y); [subst; tauto|reflexivity].
  - destruct Hi as [->|Hi]; [congruence|]. rewrite IH; auto. lra.
Qed.
Lemma rhs_lsum op es i : assembled_rhs op es i = lsum (fun e => add_rhs (op e) e i) es.
Proof. apply fold_add_map. Qed.
Lemma lhs_lsum op es i j : assembled_lhs op es i j = lsum (fun e => add_lhs (op e) e i j) es.
Proof. apply fold_add_map. Qed.

Definition covers (nodes : list nat) (es : list edge) : Prop :=
  NoDup nodes /\ forall e, In e es -> In (eL e) nodes /\ In (eR e) nodes.

Lemma assembled_conservative op es nodes : covers nodes es ->
  (forall e, In e es -> sr0 (op e) + sr1 (op e) = 0) ->
  lsum (assembled_rhs op es) nodes = 0.
Proof.
  intros [Hn Hc] H.
  rewrite (lsum_ext _ (fun i => lsum (fun e => add_rhs (op e) e i) es)) by (intros; apply rhs_lsum).
  rewrite lsum_comm. apply lsum_zero. intros e He. unfold add_rhs. rewrite lsum_plus.
  destruct (Hc e He). rewrite !lsum_indicator; auto.
Qed.
Lemma assembled_colsum op es nodes j : covers nodes es ->
  (forall e, In e es -> s00 (op e) + s10 (op e) = 0 /\ s01 (op e) + s11 (op e) = 0) ->
  lsum (fun i => assembled_lhs op es i j) nodes = 0.
Proof.
  intros [Hn Hc] H.
  rewrite (lsum_ext _ (fun i => lsum (fun e => add_lhs (op e) e i j) es)) by (intros; apply lhs_lsum).
  rewrite lsum_comm. apply lsum_zero. intros e He. unfold add_lhs. rewrite !lsum_plus.
  destruct (Hc e He). destruct (H e He) as [HA HB].
  assert (I : forall k b a, In k nodes -> lsum (fun x => if (Nat.eqb k x && b)%bool then a else 0) nodes = if b then a else 0).
  { intros k b a Hk. destruct b.
    - rewrite (lsum_ext _ (fun i => if Nat.eqb k i then a else 0)) by (intros; now rewrite andb_true_r). now apply lsum_indicator.
    - apply lsum_zero. intros. now rewrite andb_false_r. }
  rewrite !I by auto. destruct (Nat.eqb (eL e) j), (Nat.eqb (eR e) j); lra.
Qed.
(** matrix-vector product of the assembled matrix over the node list *)
Lemma assembled_matvec op es nodes v i : covers nodes es ->
  lsum (fun j => assembled_lhs op es i j * v j) nodes
  = lsum (fun e => (if Nat.eqb (eL e) i then s00 (op e) * v (eL e) + s01 (op e) * v (eR e) else 0)
                 + (if Nat.eqb (eR e) i then s10 (op e) * v (eL e) + s11 (op e) * v (eR e) else 0)) es.
Proof.
  intros [Hn Hc].
  rewrite (lsum_ext _ (fun j => lsum (fun e => v j * add_lhs (op e) e i j) es))
    by (intros; rewrite lhs_lsum, lsum_scal; ring).
  rewrite lsum_comm. apply lsum_ext. intros e He. destruct (Hc e He). unfold add_lhs.
  assert (I : forall k b a, In k nodes -> lsum (fun j => v j * (if (b && Nat.eqb k j)%bool then a else 0)) nodes = if b then a * v k else 0).
  { intros k b a Hk. destruct b; simpl.
    - rewrite (lsum_ext _ (fun j => if Nat.eqb k j then a * v k else 0)).
      + now apply lsum_indicator.
      + intros j Hj. destruct (Nat.eqb_spec k j); [subst; ring|ring].
    - apply lsum_zero. intros. ring. }
  rewrite (lsum_ext _ (fun j => v j * (if Nat.eqb (eL e) i && Nat.eqb (eL e) j then s00 (op e) else 0)
     + v j * (if Nat.eqb (eL e) i && Nat.eqb (eR e) j then s01 (op e) else 0)
     + v j * (if Nat.eqb (eR e) i && Nat.eqb (eL e) j then s10 (op e) else 0)
     + v j * (if Nat.eqb (eR e) i && Nat.eqb (eR e) j then s11 (op e) else 0))) by (intros; ring).
  rewrite !lsum_plus. rewrite !I by auto.
  destruct (Nat.eqb (eL e) i), (Nat.eqb (eR e) i); ring.
Qed.

(* ---- limiter ---- *)
Lemma van_leer_range a b s : 0 < s -> 0 <= van_leer a b s <= 1.
Proof.
  intros Hs. unfold van_leer.
  assert (D : 0 < (a+b)*(a+b) + s) by (pose proof (Rle_0_sqr (a+b)) as SQ; unfold Rsqr in SQ; lra).
  assert (H : 0 <= a*b + Rabs (a*b)) by (unfold Rabs; destruct (Rcase_abs (a*b)); lra).
  split; [apply Rle_div_r; lra|]. apply Rle_div_l; [lra|]. rewrite Rmult_1_l.
  pose proof (Rle_0_sqr (a-b)) as SQ; unfold Rsqr in SQ; pose proof (Rle_0_sqr (a+b)) as SQ2; unfold Rsqr in SQ2; unfold Rabs; destruct (Rcase_abs (a*b)); lra.
Qed.
Lemma van_leer_opposite a b s : a*b <= 0 -> van_leer a b s = 0.
Proof.
  intros H. unfold van_leer. rewrite Rabs_left1 by lra. unfold Rdiv. ring.
Qed.
Lemma van_leer_same a b s : 0 <= a*b -> van_leer a b s = 4*(a*b)/((a+b)*(a+b)+s).
Proof. intros H. unfold van_leer. rewrite Rabs_right by lra. f_equal. ring. Qed.

(** the limited increment ((a+b)/4)*lim lies between 0 and b *)
Lemma limited_increment a b s : 0 < s ->
  let d := (a+b)/4 * van_leer a b s in (0 <= d <= b) \/ (b <= d <= 0).
Proof.
  intros Hs d. destruct (Rle_dec (a*b) 0) as [H|H].
  - unfold d. rewrite van_leer_opposite by auto. destruct (Rle_dec 0 b); [left|right]; lra.
  - assert (Hab : 0 < a*b) by lra. unfold d. rewrite van_leer_same by lra.
    assert (D : 0 < (a+b)*(a+b) + s) by (pose proof (Rle_0_sqr (a+b)) as SQ; unfold Rsqr in SQ; lra).
    replace ((a+b)/4*(4*(a*b)/((a+b)*(a+b)+s))) with ((a+b)*(a*b)/((a+b)*(a+b)+s)) by (field; lra).
    assert (K : b*((a+b)*(a+b)+s) - (a+b)*(a*b) = (b*b)*(a+b) + b*s) by ring.
    destruct (Rlt_dec 0 b) as [Hb|Hb].
    + assert (Ha : 0 < a) by (apply Rmult_lt_reg_r with b; lra). left. split.
      * apply Rle_div_r; [lra|]. rewrite Rmult_0_l. apply Rmult_le_pos; lra.
      * apply Rle_div_l; [lra|]. 
        assert (0 <= (b*b)*(a+b)) by (apply Rmult_le_pos; [apply Rle_0_sqr|lra]).
        assert (0 <= b*s) by (apply Rmult_le_pos; lra). lra.
    + assert (Hb' : b < 0). { destruct (Req_dec b 0) as [->|]; [rewrite Rmult_0_r in Hab; lra|lra]. }
      assert (Ha : a < 0). { destruct (Rlt_dec a 0); auto. assert (a*b <= 0); [|lra]. replace 0 with (a*0) by ring. apply Rmult_le_compat_l; lra. }
      right. split.
      * apply Rle_div_r; [lra|]. 
        assert (0 <= (b*b)*(-(a+b))) by (apply Rmult_le_pos; [apply Rle_0_sqr|lra]).
        assert (0 <= (-b)*s) by (apply Rmult_le_pos; lra). lra.
      * apply Rle_div_l; [lra|]. assert (0 <= (-(a+b))*(a*b)) by (apply Rmult_le_pos; lra). lra.
Qed.
