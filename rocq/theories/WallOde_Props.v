(** C97, part 1: the points of the one-dimensional wall model and its tridiagonal solver. *)
From Coq Require Import Reals List Bool Arith Lia Lra Psatz.
From Verif Require Import Edge_Model Edge_Proofs Elem_Model Wall_Model Wall_Props2 WallOde_Model.
Import ListNotations.
Local Open Scope R_scope.

(** the exchange point lies at the requested distance along the inward normal *)
Theorem C97_exchange_point_at_distance n x A pD : 0 < amag n A ->
  ode_length n x (exchange_point n x A pD) = Rabs pD /\
  sumn n (fun j => (exchange_point n x A pD j - x j) * A j) = - pD * amag n A.
Proof.
  intros H. pose proof (nrm_unit n A H) as U. unfold dotn in U. split.
  - unfold ode_length, exchange_point.
    rewrite (sumn_ext n _ (fun i => (pD * pD) * (nrm n A i * nrm n A i))) by (intros; ring).
    rewrite Edge_Proofs.sumn_scal, U, Rmult_1_r. fold (Rsqr pD). apply sqrt_Rsqr_abs.
  - unfold exchange_point.
    rewrite (sumn_ext n _ (fun i => (- pD * amag n A) * (nrm n A i * nrm n A i))).
    + rewrite Edge_Proofs.sumn_scal, U. ring.
    + intros i Hi. unfold nrm. field. lra.
Qed.

(** geometric spacing: general number of points np >= 3 and bias b > 1 *)
Section Points.
Variables (np : nat) (b L : R).
Hypothesis Hnp : (3 <= np)%nat.
Hypothesis Hb : 1 < b.
Let r := ode_r np b.
Lemma den_pos : 0 < INR (np - 2). Proof. apply lt_0_INR. lia. Qed.
Lemma r_gt1 : 1 < r.
Proof.
  unfold r, ode_r. apply Rle_lt_trans with (Rpower b 0); [rewrite Rpower_O by lra; lra|]. apply Rpower_lt; [lra|].
  apply Rdiv_lt_0_compat; [lra|apply den_pos].
Qed.
Lemma r_pow k : r ^ k = Rpower b (INR k / INR (np - 2)).
Proof.
  pose proof den_pos. rewrite <- Rpower_pow by (pose proof r_gt1; lra).
  unfold r, ode_r. rewrite Rpower_mult. f_equal. field. lra.
Qed.
Lemma dy_pow k : ode_dy np b L k = ode_L1 np b L * r ^ k.
Proof. induction k as [|k IH]; cbn [ode_dy pow]; [ring|]. rewrite IH. fold r. ring. Qed.
Lemma L1_val : ode_L1 np b L = L * (1 - r) / (1 - r ^ (np - 1)).
Proof. unfold ode_L1. rewrite r_pow. reflexivity. Qed.
Lemma pow_gt1 k : (0 < k)%nat -> 1 < r ^ k.
Proof. intros Hk. apply Rlt_pow_R1; [apply r_gt1|lia]. Qed.
Lemma coord_val k : ode_coord np b L k = ode_L1 np b L * ((r ^ k - 1) / (r - 1)).
Proof.
  pose proof r_gt1. induction k as [|k IH]; cbn [ode_coord pow]; [field; lra|].
  rewrite IH, dy_pow. field. lra.
Qed.
Lemma L1_pos : 0 < L -> 0 < ode_L1 np b L.
Proof.
  intros HL. rewrite L1_val. pose proof r_gt1. pose proof (pow_gt1 (np - 1) ltac:(lia)).
  replace (L * (1 - r) / (1 - r ^ (np - 1))) with (L * (r - 1) / (r ^ (np - 1) - 1)) by (field; lra).
  apply Rdiv_lt_0_compat; [apply Rmult_lt_0_compat; lra|lra].
Qed.
Lemma dy_pos k : 0 < L -> 0 < ode_dy np b L k.
Proof. intros HL. rewrite dy_pow. apply Rmult_lt_0_compat; [now apply L1_pos|apply pow_lt]. pose proof r_gt1. lra. Qed.
End Points.

Theorem C97_points_fill_the_layer np b L : (3 <= np)%nat -> 1 < b -> 0 < L ->
  ode_coord np b L 0 = 0 /\ ode_coord np b L (np - 1) = L /\
  (forall k, ode_coord np b L k < ode_coord np b L (k + 1)) /\
  (forall k, ode_coord np b L (k + 2) - ode_coord np b L (k + 1) = Rpower b (1 / INR (np - 2)) * (ode_coord np b L (k + 1) - ode_coord np b L k)) /\
  ode_coord np b L (np - 1) - ode_coord np b L (np - 2) = b * (ode_coord np b L 1 - ode_coord np b L 0).
Proof.
  intros Hnp Hb HL. pose proof (r_gt1 np b Hnp Hb) as R1.
  assert (ST : forall k, ode_coord np b L (k + 1) - ode_coord np b L k = ode_dy np b L k).
  { intros k. rewrite Nat.add_1_r. cbn [ode_coord]. ring. }
  split; [reflexivity|]. split; [|split; [|split]].
  - rewrite coord_val by assumption. rewrite L1_val by assumption.
    pose proof (pow_gt1 np b Hnp Hb (np - 1) ltac:(lia)). field. lra.
  - intros k. pose proof (dy_pos np b L Hnp Hb k HL). rewrite <- ST in H. lra.
  - intros k. replace (k + 2)%nat with (k + 1 + 1)%nat by lia. rewrite !ST.
    rewrite (Nat.add_1_r k). cbn [ode_dy]. unfold ode_r. ring.
  - replace (np - 1)%nat with (np - 2 + 1)%nat by lia. rewrite ST.
    pose proof (ST 0%nat) as S0. cbn [plus] in S0. rewrite S0.
    rewrite !dy_pow by assumption. cbn [pow]. rewrite (r_pow np b Hnp Hb (np - 2)).
    replace (INR (np - 2) / INR (np - 2)) with 1 by (field; apply Rgt_not_eq, Rlt_gt, den_pos; assumption).
    rewrite Rpower_1 by lra. ring.
Qed.

(** ** the Thomas algorithm *)
Lemma upd_same ns k r : upd ns k r k = r. Proof. unfold upd. now rewrite Nat.eqb_refl. Qed.
Lemma upd_other ns k r a : a <> k -> upd ns k r a = ns a.
Proof. intros H. unfold upd. now rewrite (proj2 (Nat.eqb_neq a k) H). Qed.

(** row [k] is satisfied by [u] in a system of [np] rows *)
Definition row_holds (np : nat) (ns : nat -> row) (u : nat -> R) (k : nat) : Prop :=
  (if Nat.eqb k 0 then 0 else Aw (ns k) * u (k - 1)%nat) + Ap (ns k) * u k
  + (if Nat.eqb (k + 1) np then 0 else Ae (ns k) * u (k + 1)%nat) = rhs (ns k).
(** weak diagonal dominance, strict wherever the row does not lean on its predecessor *)
Definition dominant (ns : nat -> row) (k : nat) : Prop :=
  Rabs (Aw (ns k)) + Rabs (Ae (ns k)) <= Rabs (Ap (ns k)) /\
  ((k = 0%nat \/ Aw (ns k) = 0) -> Rabs (Ae (ns k)) < Rabs (Ap (ns k))).

Section Fwd.
Variable ns : nat -> row.
Let step := fun (ns : nat -> row) (k : nat) =>
    let p := ns (k - 1)%nat in let r := ns k in let m := Aw r / Ap p in
    upd ns k (mkRow (Aw r) (Ap r - m * Ae p) (Ae r) (rhs r - m * rhs p)).
Fixpoint piv (k : nat) : R := match k with O => Ap (ns 0%nat) | S j => Ap (ns (S j)) - Aw (ns (S j)) / piv j * Ae (ns j) end.
Fixpoint red (k : nat) : R := match k with O => rhs (ns 0%nat) | S j => rhs (ns (S j)) - Aw (ns (S j)) / piv j * red j end.
Lemma fwd_gen m : forall a, fold_left step (seq 1 m) ns a =
  if (a <=? m)%nat then mkRow (Aw (ns a)) (piv a) (Ae (ns a)) (red a) else ns a.
Proof.
  induction m as [|m IH]; intros a.
  - cbn [seq fold_left]. destruct a; cbn; [destruct (ns 0%nat); reflexivity|reflexivity].
  - rewrite seq_S, fold_left_app. cbn [fold_left plus]. unfold step at 1. cbv zeta.
    destruct (Nat.eq_dec a (S m)) as [->|N].
    + rewrite upd_same, !IH. replace (S m - 1)%nat with m by lia. rewrite Nat.leb_refl.
      rewrite (proj2 (Nat.leb_gt (S m) m)) by lia. rewrite Nat.leb_refl.
      cbn [Aw Ap Ae rhs piv red]. reflexivity.
    + rewrite upd_other by assumption. rewrite IH.
      destruct (Nat.leb_spec a m); destruct (Nat.leb_spec a (S m)); try lia; reflexivity.
Qed.
Lemma piv_dominant np : (forall k, (k < np)%nat -> dominant ns k) -> forall k, (k < np)%nat -> Rabs (Ae (ns k)) < Rabs (piv k).
Proof.
  intros D. induction k as [|k IH]; intros Hk.
  - cbn [piv]. apply (D 0%nat Hk). now left.
  - destruct (D (S k) Hk) as [W St]. specialize (IH ltac:(lia)). cbn [piv].
    pose proof (Rabs_pos (Ae (ns k))). pose proof (Rabs_pos (Ae (ns (S k)))).
    destruct (Req_dec (Aw (ns (S k))) 0) as [Z|NZ].
    + rewrite Z. unfold Rdiv. rewrite !Rmult_0_l, Rminus_0_r. now apply St; right.
    + assert (P : 0 < Rabs (piv k)) by lra.
      assert (Pn : piv k <> 0) by (intro E; rewrite E, Rabs_R0 in P; lra).
      pose proof (Rabs_pos_lt _ NZ) as A.
      assert (B : Rabs (Aw (ns (S k)) / piv k * Ae (ns k)) < Rabs (Aw (ns (S k)))).
      { unfold Rdiv. rewrite !Rabs_mult, Rabs_inv.
        apply Rmult_lt_reg_r with (Rabs (piv k)); [assumption|].
        replace (Rabs (Aw (ns (S k))) * / Rabs (piv k) * Rabs (Ae (ns k)) * Rabs (piv k))
          with (Rabs (Aw (ns (S k))) * Rabs (Ae (ns k))) by (field; lra).
        apply Rmult_lt_compat_l; assumption. }
      pose proof (Rabs_triang_inv (Ap (ns (S k))) (Aw (ns (S k)) / piv k * Ae (ns k))). lra.
Qed.
End Fwd.

Lemma setv_same u k v : setv u k v k = v. Proof. unfold setv. now rewrite Nat.eqb_refl. Qed.
Lemma setv_other u k v a : a <> k -> setv u k v a = u a.
Proof. intros H. unfold setv. now rewrite (proj2 (Nat.eqb_neq a k) H). Qed.
Lemma back_gen (ns : nat -> row) m : forall u, let w := fold_left (fun u k => setv u k ((rhs (ns k) - Ae (ns k) * u (k + 1)%nat) / Ap (ns k))) (rev (seq 0 m)) u in
  (forall a, (m <= a)%nat -> w a = u a) /\ (forall k, (k < m)%nat -> w k = (rhs (ns k) - Ae (ns k) * w (k + 1)%nat) / Ap (ns k)).
Proof.
  induction m as [|m IH]; intros u; cbv zeta.
  - cbn [seq rev fold_left]. split; [reflexivity|intros; lia].
  - rewrite seq_S, rev_app_distr. cbn [rev app plus fold_left].
    set (u1 := setv u m _). destruct (IH u1) as [H1 H2]. cbv zeta in H1, H2. split.
    + intros a Ha. rewrite H1 by lia. unfold u1. apply setv_other. lia.
    + intros k Hk. destruct (Nat.eq_dec k m) as [->|N]; [|apply H2; lia].
      rewrite H1 by lia. rewrite (H1 (m + 1)%nat) by lia. unfold u1 at 1. rewrite setv_same.
      unfold u1. rewrite setv_other by lia. reflexivity.
Qed.

(** the solver solves every diagonally dominant tridiagonal system *)
Theorem C97_tridiagonal_solver_solves np ns u0 : (1 <= np)%nat ->
  (forall k, (k < np)%nat -> dominant ns k) -> forall k, (k < np)%nat -> row_holds np ns (tdma np ns u0) k.
Proof.
  intros Hnp D. pose proof (piv_dominant ns np D) as P.
  assert (PN : forall k, (k < np)%nat -> piv ns k <> 0).
  { intros k Hk E. specialize (P k Hk). rewrite E, Rabs_R0 in P. pose proof (Rabs_pos (Ae (ns k))). lra. }
  unfold tdma. set (fs := forward np ns).
  assert (F : forall a, (a < np)%nat -> fs a = mkRow (Aw (ns a)) (piv ns a) (Ae (ns a)) (red ns a)).
  { intros a Ha. unfold fs, forward. rewrite fwd_gen. rewrite (proj2 (Nat.leb_le a (np - 1))) by lia. reflexivity. }
  unfold backward. set (w0 := setv u0 _ _). destruct (back_gen fs (np - 1) w0) as [B1 B2]. cbv zeta in B1, B2.
  set (w := fold_left _ _ _) in *. clearbody w.
  assert (E : forall k, (k < np)%nat -> piv ns k * w k + (if Nat.eqb (k + 1) np then 0 else Ae (ns k) * w (k + 1)%nat) = red ns k).
  { intros k Hk. destruct (Nat.eqb_spec (k + 1) np) as [Ek|Nk].
    - rewrite B1 by lia. unfold w0. replace k with (np - 1)%nat in * by lia. rewrite setv_same.
      rewrite F by lia. cbn [Ap rhs]. field. now apply PN.
    - rewrite B2 by lia. rewrite F by lia. cbn [Ap Ae rhs]. field. now apply PN. }
  intros k Hk. unfold row_holds. destruct k as [|k].
  - cbn [Nat.eqb]. specialize (E 0%nat Hk). cbn [piv red] in E. lra.
  - cbn [Nat.eqb]. replace (S k - 1)%nat with k by lia.
    pose proof (E (S k) Hk) as E1. pose proof (E k ltac:(lia)) as E0.
    rewrite (proj2 (Nat.eqb_neq (k + 1) np)) in E0 by lia. rewrite (Nat.add_1_r k) in E0.
    cbn [piv red] in E1. specialize (PN k ltac:(lia)).
    assert (G : Aw (ns (S k)) / piv ns k * (piv ns k * w k) = Aw (ns (S k)) * w k) by (field; assumption).
    assert (G2 : piv ns k * w k = red ns k - Ae (ns k) * w (S k)) by lra. rewrite G2 in G.
    rewrite <- G. nra.
Qed.

(** the hypotheses are met: a system with three rows, the middle one weakly dominant *)
Example C97_dominant_system_exists :
  let ns k := match k with 1%nat => mkRow (-1) 2 (-1) 0 | 2%nat => mkRow 0 1 0 3 | _ => mkRow 0 1 0 1 end in
  (forall k, (k < 3)%nat -> dominant ns k) /\ tdma 3 ns (fun _ => 0) 1%nat = 2.
Proof.
  cbv zeta. split.
  - intros k Hk. assert (E : k = 0%nat \/ k = 1%nat \/ k = 2%nat) by lia.
    destruct E as [-> |[-> | ->]]; unfold dominant; cbn [Aw Ap Ae]; (split; [|intros]);
      rewrite ?Rabs_R0, ?Rabs_R1; rewrite ?(Rabs_left (-1)) by lra; rewrite ?(Rabs_right 2) by lra; lra.
  - cbv [tdma forward backward seq rev app fold_left upd setv Nat.eqb Nat.sub Nat.add Aw Ap Ae rhs]. lra.
Qed.
