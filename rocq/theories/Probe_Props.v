(** C83: data probes *)
Require Import String.
Require Import Reals List Bool Arith Lra Lia Permutation.
From Verif Require Import Edge_Model Opt_Model Probe_Model.
Import ListNotations.
Open Scope R_scope.
Open Scope list_scope.

(** --- generic: what the coordinate loops leave --- *)
Lemma fold_set (F : nat -> rvec) m : forall a c n,
  fold_left (fun c k => set_pt c k (F k)) (seq a m) c n = if ((a <=? n) && (n <? a + m))%nat then F n else c n.
Proof.
  induction m as [|m IH]; intros a c n; cbn [seq fold_left].
  - destruct (Nat.leb_spec a n), (Nat.ltb_spec n (a + 0)); cbn; try reflexivity. lia.
  - rewrite IH. unfold set_pt. destruct (Nat.leb_spec (S a) n), (Nat.ltb_spec n (S a + m)), (Nat.leb_spec a n), (Nat.ltb_spec n (a + S m)), (Nat.eqb_spec n a);
      cbn; try reflexivity; try lia. subst. reflexivity.
Qed.
Lemma fold_set_in F size c n : (n < size)%nat -> fold_left (fun c k => set_pt c k (F k)) (seq 0 size) c n = F n.
Proof. intros H. rewrite fold_set. destruct (Nat.ltb_spec n (0 + size)); [|lia]. reflexivity. Qed.

(** --- lines --- *)
(** The points of a line of site: [n] equally spaced points, the first at the tail and the last at the tip. *)
Theorem C83_line nDim n tip tail c k i : (k < n)%nat ->
  let x := fill nDim (Line n tip tail) n c in
  x 0%nat i = tail i
  /\ ((2 <= n)%nat -> x (n - 1)%nat i = tip i)
  /\ ((2 <= n)%nat -> x k i = tail i + INR k / INR (n - 1) * (tip i - tail i))
  /\ ((k + 1 < n)%nat -> x (k + 1)%nat i - x k i = (tip i - tail i) / INR (n - 1)).
Proof.
  intros Hk x. assert (E : forall m, (m < n)%nat -> x m i = tail i + INR m * ((tip i - tail i) / INR (Nat.max 1 (n - 1)))).
  { intros m Hm. unfold x, fill, fill_line. cbv zeta. rewrite (fold_set_in (fun k i => tail i + INR k * ((tip i - tail i) / INR (Nat.max 1 (n - 1)))) n c m Hm). reflexivity. }
  assert (HM : (2 <= n)%nat -> Nat.max 1 (n - 1) = (n - 1)%nat /\ INR (n - 1) <> 0).
  { intros H. split; [lia|]. apply not_0_INR. lia. }
  split; [|split; [|split]].
  - rewrite E by lia. cbn. lra.
  - intros H. destruct (HM H) as (M & NZ). rewrite E by lia. rewrite M. field. exact NZ.
  - intros H. destruct (HM H) as (M & NZ). rewrite E by lia. rewrite M. field. exact NZ.
  - intros H. destruct (HM ltac:(lia)) as (M & NZ). rewrite !E by lia. rewrite M, plus_INR. cbn [INR]. field. exact NZ.
Qed.
(** --- planes --- *)
(** The points of a plane: the regular grid spanned by the two edges.  The second direction needs three points or more. *)
Theorem C83_plane nDim n1 n2 tail tip1 tip2 c a b i : (a < n1)%nat -> (b < n2)%nat -> (2 <= n1)%nat -> (3 <= n2)%nat ->
  fill nDim (Plane n1 n2 tail tip1 tip2) (n1 * n2) c (b * n1 + a)%nat i
  = tail i + INR a / INR (n1 - 1) * (tip1 i - tail i) + INR b / INR (n2 - 1) * (tip2 i - tail i).
Proof.
  intros Ha Hb H1 H2. unfold fill, fill_plane. cbv zeta.
  rewrite (fold_set_in (fun k i => tail i + INR (k mod n1) * ((tip1 i - tail i) / INR (Nat.max 1 (n1 - 1))) + INR (k / n1) * ((tip2 i - tail i) / INR (Nat.max 2 (n2 - 1)))) (n1 * n2) c (b * n1 + a)%nat) by nia.
  rewrite Nat.div_add_l, (Nat.div_small a) by lia. rewrite Nat.add_0_r, (Nat.add_comm (b * n1) a), Nat.mod_add, Nat.mod_small by lia.
  replace (Nat.max 1 (n1 - 1)) with (n1 - 1)%nat by lia. replace (Nat.max 2 (n2 - 1)) with (n2 - 1)%nat by lia.
  assert (INR (n1 - 1) <> 0) by (apply not_0_INR; lia). assert (INR (n2 - 1) <> 0) by (apply not_0_INR; lia). field. split; assumption.
Qed.
(** every point of the probe is one grid point *)
Theorem C83_plane_numbering n1 n2 n : (0 < n1)%nat -> (n < n1 * n2)%nat ->
  exists! ab : nat * nat, (fst ab < n1)%nat /\ (snd ab < n2)%nat /\ n = (snd ab * n1 + fst ab)%nat.
Proof.
  intros H1 Hn. exists (n mod n1, n / n1)%nat. split.
  - cbn [fst snd]. repeat split.
    + apply Nat.mod_upper_bound. lia.
    + apply Nat.div_lt_upper_bound; lia.
    + rewrite (Nat.mul_comm (n / n1)). apply Nat.div_mod. lia.
  - intros [a b] (Ha & Hb & ->). cbn [fst snd] in *. rewrite Nat.div_add_l, (Nat.div_small a), Nat.add_0_r by lia.
    rewrite (Nat.add_comm (b * n1) a), Nat.mod_add, Nat.mod_small by lia. reflexivity.
Qed.
(** With two points in the second direction the far edge is not reached: the spacing is half of what was asked. *)
Theorem C83_plane_two_rows_refuted : exists tail tip1 tip2 c,
  fill 3 (Plane 2 2 tail tip1 tip2) 4 c 2%nat 1%nat = 1/2 /\ tip2 1%nat = 1 /\ tail 1%nat = 0.
Proof.
  exists (fun _ => 0), (fun i => if Nat.eqb i 0 then 1 else 0), (fun i => if Nat.eqb i 1 then 1 else 0), (fun _ _ => 0).
  split; [|split; reflexivity]. unfold fill, fill_plane. cbn. lra.
Qed.

(** --- rings --- *)
Definition dot3 (a b : rvec) : R := a 0%nat * b 0%nat + a 1%nat * b 1%nat + a 2%nat * b 2%nat.
Definition cross3 (a b : rvec) : rvec := fun k => match k with
  | 0%nat => a 1%nat * b 2%nat - a 2%nat * b 1%nat | 1%nat => a 2%nat * b 0%nat - a 0%nat * b 2%nat
  | _ => a 0%nat * b 1%nat - a 1%nat * b 0%nat end.
(** rotation of v by theta about the axis u through the origin (Rodrigues) *)
Definition turned (theta : R) (u v : rvec) : rvec := fun k =>
  v k * cos theta + cross3 u v k * sin theta + u k * dot3 u v * (1 - cos theta).
Lemma mat_vec_turned theta u v i : (i < 3)%nat -> mat_vec v (compute_R theta u) i = turned theta u v i.
Proof.
  intros Hi. unfold mat_vec, turned, dot3, cross3. destruct i as [|[|[|]]]; [| | |lia]; cbn; ring.
Qed.
Lemma inner_ring (seed normal origin : rvec) dT m : forall a c th n,
  fst (fold_left (fun (st : coords * R) m => (set_pt (fst st) m (fun i => mat_vec seed (compute_R (snd st) normal) i + origin i), snd st + dT)) (seq a m) (c, th)) n
  = if ((a <=? n) && (n <? a + m))%nat then (fun i => mat_vec seed (compute_R (th + INR (n - a) * dT) normal) i + origin i) else c n.
Proof.
  induction m as [|m IH]; intros a c th n; cbn [seq fold_left fst snd].
  - destruct (Nat.leb_spec a n), (Nat.ltb_spec n (a + 0)); cbn; try reflexivity. lia.
  - rewrite IH. unfold set_pt. destruct (Nat.leb_spec (S a) n), (Nat.ltb_spec n (S a + m)), (Nat.leb_spec a n), (Nat.ltb_spec n (a + S m)), (Nat.eqb_spec n a);
      cbn [andb]; try reflexivity; try lia.
    + replace (th + dT + INR (n - S a) * dT) with (th + INR (n - a) * dT); [reflexivity|]. replace (n - a)%nat with (S (n - S a)) by lia. rewrite S_INR. ring.
    + subst. rewrite Nat.sub_diag. cbn [INR]. rewrite Rmult_0_l, Rplus_0_r. reflexivity.
Qed.
(** seed point k of a ring probe, relative to the origin of the ring *)
Definition seed_at (nDim nline : nat) (tip tail origin : rvec) (k : nat) : rvec :=
  fun tc => if (tc <? nDim)%nat then tail tc + INR k * ((tip tc - tail tc) / INR (Nat.max 1 (nline - 1))) - origin tc else 0.
Definition step_ring (nDim n nline : nat) (tip tail normal origin : rvec) (size : nat) (c : coords) (k : nat) : coords :=
  fst (fold_left (fun (st : coords * R) m =>
    (set_pt (fst st) m (fun i => mat_vec (seed_at nDim nline tip tail origin k) (compute_R (snd st) normal) i + origin i), snd st + 2 * acos (-1) / INR n))
    (seq (k*n) (size - k*n)) (c, 0)).
Lemma fill_ring_steps nDim n nline tip tail normal origin size c :
  fill_ring nDim n nline tip tail normal origin size c = fold_left (step_ring nDim n nline tip tail normal origin size) (seq 0 nline) c.
Proof. reflexivity. Qed.
Lemma steps_value nDim n nline tip tail normal origin size c K : forall m, (m < K * n)%nat -> (m < size)%nat -> (0 < n)%nat ->
  fold_left (step_ring nDim n nline tip tail normal origin size) (seq 0 K) c m
  = (fun i => mat_vec (seed_at nDim nline tip tail origin (m / n)) (compute_R (INR (m mod n) * (2 * acos (-1) / INR n)) normal) i + origin i).
Proof.
  induction K as [|K IH]; intros m Hm Hs Hn; [lia|]. rewrite seq_S, fold_left_app. cbn [Nat.add fold_left]. unfold step_ring at 1. rewrite inner_ring.
  destruct (Nat.leb_spec (K * n) m) as [L|L].
  - destruct (Nat.ltb_spec m (K * n + (size - K * n))); [|lia]. cbn [andb].
    assert (Q : (m / n = K)%nat) by (symmetry; apply (Nat.div_unique m n K (m - K * n)); nia).
    assert (Q2 : (m mod n = m - K * n)%nat) by (symmetry; apply (Nat.mod_unique m n K (m - K * n)); nia).
    rewrite Q, Q2, Rplus_0_l. reflexivity.
  - cbn [andb]. apply IH; assumption.
Qed.
(** Point a of circle k of a ring probe is the k-th point of the seed line, turned by a/n of a full turn about the axis
    through the origin of the ring (three dimensions). *)
Theorem C83_ring n nline tip tail normal origin c k a i : (k < nline)%nat -> (a < n)%nat -> (i < 3)%nat ->
  fill 3 (Ring n nline tip tail normal origin) (n * nline) c (k * n + a)%nat i
  = turned (INR a * (2 * PI / INR n)) normal
      (fun j => tail j + INR k / INR (Nat.max 1 (nline - 1)) * (tip j - tail j) - origin j) i + origin i.
Proof.
  intros Hk Ha Hi. unfold fill. rewrite fill_ring_steps, steps_value by nia.
  rewrite Nat.div_add_l, (Nat.div_small a) by lia. rewrite Nat.add_0_r, (Nat.add_comm (k * n) a), Nat.mod_add, Nat.mod_small by lia.
  assert (P : acos (-1) = PI) by apply acos_opp1 || (rewrite <- cos_PI; apply acos_cos; split; [left; apply PI_RGT_0|lra]).
  rewrite P. f_equal. rewrite mat_vec_turned by exact Hi.
  assert (NZ : INR (Nat.max 1 (nline - 1)) <> 0) by (apply not_0_INR; lia).
  assert (E : forall j, (j < 3)%nat -> seed_at 3 nline tip tail origin k j = tail j + INR k / INR (Nat.max 1 (nline - 1)) * (tip j - tail j) - origin j).
  { intros j Hj. unfold seed_at. destruct (Nat.ltb_spec j 3); [|lia]. field. exact NZ. }
  unfold turned, dot3, cross3. rewrite !E by lia. destruct i as [|[|[|]]]; [| | |lia]; rewrite ?E by lia; reflexivity.
Qed.
(** --- geometry of a circle of probe points, unit axis --- *)
Lemma turned_dot theta th' u v : dot3 u u = 1 ->
  dot3 (turned theta u v) (turned th' u v) = dot3 u v * dot3 u v + (dot3 v v - dot3 u v * dot3 u v) * cos (theta - th').
Proof.
  intros HU. rewrite cos_minus. unfold turned, dot3, cross3 in *. generalize (sin theta) (cos theta) (sin th') (cos th'). intros s c s' c'.
  generalize dependent (u 2%nat). generalize dependent (u 1%nat). generalize dependent (u 0%nat). intros a b d HU.
  generalize (v 0%nat) (v 1%nat) (v 2%nat). intros x y z.
  assert (E : d * d = 1 - a * a - b * b) by lra. clear HU. ring [E].
Qed.
Theorem C83_ring_circle theta th' u v : dot3 u u = 1 ->
  dot3 (turned theta u v) (turned theta u v) = dot3 v v          (* same distance from the origin of the ring *)
  /\ dot3 u (turned theta u v) = dot3 u v                        (* same height along the axis *)
  /\ (let w k := turned theta u v k - turned th' u v k in
      dot3 w w = 2 * (dot3 v v - dot3 u v * dot3 u v) * (1 - cos (theta - th'))).   (* chord between two points *)
Proof.
  intros HU. split; [|split].
  - rewrite turned_dot by exact HU. replace (theta - theta) with 0 by ring. rewrite cos_0. ring.
  - unfold turned, dot3, cross3 in *. generalize (sin theta) (cos theta). intros s c. assert (E : u 2%nat * u 2%nat = 1 - u 0%nat * u 0%nat - u 1%nat * u 1%nat) by lra. ring [E].
  - cbv zeta. assert (A := turned_dot theta theta u v HU). assert (B := turned_dot th' th' u v HU). assert (C := turned_dot theta th' u v HU).
    replace (theta - theta) with 0 in A by ring. replace (th' - th') with 0 in B by ring. rewrite cos_0 in A, B.
    transitivity (dot3 (turned theta u v) (turned theta u v) - 2 * dot3 (turned theta u v) (turned th' u v) + dot3 (turned th' u v) (turned th' u v)).
    + unfold dot3. ring.
    + rewrite A, B, C. ring.
Qed.
(** All the points of one circle are different if the seed is off the axis. *)
Theorem C83_ring_distinct n u v a b : dot3 u u = 1 -> dot3 u v * dot3 u v < dot3 v v -> (a < b < n)%nat ->
  exists i, (i < 3)%nat /\ turned (INR a * (2 * PI / INR n)) u v i <> turned (INR b * (2 * PI / INR n)) u v i.
Proof.
  intros HU OFF Hab. set (ta := INR a * (2 * PI / INR n)). set (tb := INR b * (2 * PI / INR n)).
  destruct (Req_dec (turned ta u v 0%nat) (turned tb u v 0%nat)) as [E0|E0]; [|exists 0%nat; auto].
  destruct (Req_dec (turned ta u v 1%nat) (turned tb u v 1%nat)) as [E1|E1]; [|exists 1%nat; auto].
  destruct (Req_dec (turned ta u v 2%nat) (turned tb u v 2%nat)) as [E2|E2]; [|exists 2%nat; auto]. exfalso.
  destruct (C83_ring_circle tb ta u v HU) as (_ & _ & Q). cbv zeta in Q. unfold dot3 at 1 in Q. cbv beta in Q. rewrite E0, E1, E2 in Q.
  assert (L : cos (tb - ta) < 1).
  { assert (PP := PI_RGT_0). assert (Hn : 0 < INR n) by (apply lt_0_INR; lia).
    assert (D : tb - ta = INR (b - a) * (2 * PI / INR n)) by (unfold ta, tb; rewrite minus_INR by lia; field; lra).
    assert (D1 : 0 < tb - ta).
    { rewrite D. apply Rmult_lt_0_compat; [apply lt_0_INR; lia|]. apply Rdiv_lt_0_compat; lra. }
    assert (D2 : tb - ta < 2 * PI).
    { rewrite D. assert (INR (b - a) < INR n) by (apply lt_INR; lia). apply Rmult_lt_reg_r with (INR n); [exact Hn|].
      replace (INR (b - a) * (2 * PI / INR n) * INR n) with (INR (b - a) * (2 * PI)) by (field; lra). nra. }
    replace (tb - ta) with (2 * ((tb - ta) / 2)) by field. rewrite cos_2a_sin. assert (0 < sin ((tb - ta) / 2)) by (apply sin_gt_0; lra). nra. }
  nra.
Qed.
