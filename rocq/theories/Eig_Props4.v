(** C94: a rotation does not remove the entry it is meant for; packs; the edge contribution. *)
Require Import Reals List Bool Arith Lia Lra Psatz.
From Verif Require Import Edge_Model Edge_Proofs Eig_Model Eig_Props Eig_Props2 Eig_Props3.
Import ListNotations.
Open Scope R_scope.

(** *** an example for the hypotheses: a diagonal normalised stress *)
Definition ex_b : mat := fun i j => if Nat.eqb i j then match i with 0%nat => 1/6 | 1%nat => -1/6 | _ => 0 end else 0.
Lemma ex_b_sym : symmetric 3 ex_b.
Proof. intros i j Hi Hj. unfold ex_b. rewrite (Nat.eqb_sym j i). destruct (Nat.eqb_spec i j) as [->|]; reflexivity. Qed.
Example C94_realizable_example : forall v, 0 <= qform (snd (pert_stress (1/2) 0 1 1 ex_b)) v.
Proof.
  intros v. assert (Z : 2 * off2 (snd (sym_diagonalize3 ex_b)) <= 0^2).
  { unfold off2. rewrite !(fun i j Hi Hj => proj1 (C94_diagonal_kept ex_b ex_b_sym ltac:(intros a c _ _ N; unfold ex_b; destruct (Nat.eqb_spec a c); [contradiction|reflexivity]) i j Hi Hj)) by lia. unfold ex_b. cbn [Nat.eqb]. lra. }
  assert (Q : forall v, -1/3 * len2 v <= qform ex_b v <= 2/3 * len2 v).
  { intros u. unfold len2, qform, ex_b, sumn. cbn [seq fold_left Nat.eqb]. pose proof (Rle_0_sqr (u 0%nat)); pose proof (Rle_0_sqr (u 1%nat)); pose proof (Rle_0_sqr (u 2%nat)). unfold Rsqr in *. split; lra. }
  destruct (C94_realizable (1/2) 0 1 1 ex_b 0 ex_b_sym ltac:(lra) ltac:(lra) Z Q) as [_ K]. specialize (K v). lra.
Qed.

(** *** the product formed in place: after a rotation in the plane of the chosen pair the chosen entry is not zero, although nothing
    else interferes (the quaternion product would give exactly 0 here) *)
Definition planar1 : mat := fun i j => match i, j with 0%nat, 1%nat => 1 | 1%nat, 0%nat => 1 | _, _ => 0 end.
Theorem C94_rotation_removes_entry_refuted : exists A q', symmetric 3 A /\ jac_step A quat_one = Some q' /\ off (Dmat A q') (largest (Dmat A quat_one)) <> 0.
Proof.
  assert (Sy : symmetric 3 planar1) by (intros i j Hi Hj; ix i Hi; ix j Hj; reflexivity).
  assert (O : forall k, off (Dmat planar1 quat_one) k = match k with 0%nat | 1%nat => 0 | _ => 1 end).
  { intros k. unfold off. destruct k as [|[|k]]; rewrite (Dmat_one planar1) by (try exact Sy; lia); reflexivity. }
  assert (L : largest (Dmat planar1 quat_one) = 2%nat).
  { unfold largest, gtb. rewrite !O. rewrite Rabs_R0, Rabs_R1. destruct (Rlt_dec 0 0) as [C|_]; [lra|]. destruct (Rlt_dec 1 0) as [C|_]; [lra|]. reflexivity. }
  set (c := 1 / sqrt (1+1)). set (x := sqrt ((1-c)/2)). set (w := sqrt (1 - x*x)).
  assert (S2 : sqrt (1+1) * sqrt (1+1) = 2) by (rewrite sqrt_sqrt; lra). assert (S0 : 0 < sqrt (1+1)) by (apply sqrt_lt_R0; lra).
  assert (CC : c*c = 1/2). { unfold c. revert S2 S0. generalize (sqrt (1+1)). intros r R2 R0. transitivity (1/(r*r)); [field; lra|rewrite R2; reflexivity]. }
  assert (C0 : 0 < c) by (unfold c; apply Rdiv_lt_0_compat; lra). assert (CB : 7/10 < c < 71/100) by nra.
  assert (X2 : x*x = (1-c)/2) by (apply sqrt_sqrt; lra). assert (X0 : 0 < x) by (apply sqrt_lt_R0; lra).
  assert (W2 : w*w = (1+c)/2) by (unfold w; rewrite sqrt_sqrt; rewrite X2; lra). assert (W0 : 0 < w) by (apply sqrt_lt_R0; rewrite X2; lra).
  assert (XB : 38/100 < x < 39/100) by nra. assert (WB : 92/100 < w < 93/100) by nra.
  exists planar1, (quat_unit (quat_times quat_one (jr_quat 2 x w))). split; [exact Sy|]. split.
  - unfold jac_step. cbn zeta. rewrite L. change (off (Dmat planar1 quat_one) 2) with (off (Dmat planar1 quat_one) 2). rewrite (O 2%nat).
    destruct (Req_EM_T 1 0) as [E|_]; [lra|]. change ((2 + 2) mod 3)%nat with 1%nat. change ((2 + 1) mod 3)%nat with 0%nat.
    rewrite !(Dmat_one planar1) by (try exact Sy; lia). change (planar1 1%nat 1%nat) with 0. change (planar1 0%nat 0%nat) with 0. replace ((0-0)/(2*1)) with 0 by field.
    assert (T : jac_t 0 = -1). { unfold jac_t, jac_sgn. destruct (Rlt_dec 0 0) as [E|_]; [lra|]. cbn zeta. replace (0 * -1) with 0 by ring. destruct (Rlt_dec 0 (10^6)) as [_|E]; [|exfalso; apply E; apply pow_lt; lra]. replace (0*0+1) with 1 by ring. rewrite sqrt_1. field. }
    rewrite T. replace (-1 * -1 + 1) with (1+1) by ring. fold c. destruct (Req_EM_T c 1) as [E|_]; [lra|].
    assert (G : jac_sgn 0 = -1) by (unfold jac_sgn; destruct (Rlt_dec 0 0); lra). rewrite G. replace (-1 * sqrt ((1-c)/2) * -1) with x by (unfold x; ring). fold w.
    destruct (Req_EM_T w 1) as [E|_]; [lra|]. reflexivity.
  - rewrite L. unfold off. rewrite Dmat_val. 
    set (p := quat_times quat_one (jr_quat 2 x w)).
    assert (P0 : q0_ p = 0) by (unfold p, quat_times, quat_one, jr_quat; cbn; ring). assert (P1 : q1_ p = 0) by (unfold p, quat_times, quat_one, jr_quat; cbn; ring).
    assert (P2 : q2_ p = x) by (unfold p, quat_times, quat_one, jr_quat; cbn; ring). assert (P3 : q3_ p = w - x*x) by (unfold p, quat_times, quat_one, jr_quat; cbn; ring).
    assert (N : 0 < quat_len2 p) by (unfold quat_len2; rewrite P0, P1, P2, P3; nra).
    assert (R0 : 0 < sqrt (quat_len2 p)) by (apply sqrt_lt_R0; exact N). assert (RR : sqrt (quat_len2 p) * sqrt (quat_len2 p) = quat_len2 p) by (apply sqrt_sqrt; lra).
    unfold quat_unit. set (r := sqrt (quat_len2 p)) in *. clearbody r. rewrite P0, P1, P2, P3.
    unfold QtAQ, sumn, upper, planar1. cbn [seq fold_left Nat.leb quat_mat q0_ q1_ q2_ q3_].
    set (u := w - x*x). intros E.
    assert (E4 : (u*u - x*x)*(u*u - x*x) - (2*(x*u))*(2*(x*u)) = 0).
    { transitivity ((r*r)*(r*r) * 0); [rewrite <- E|ring]. field. lra. }
    assert (UB : 76/100 < u < 8/10) by (unfold u; nra).
    assert (F : (u*u - x*x - 2*(x*u)) * (u*u - x*x + 2*(x*u)) = 0) by (rewrite <- E4; ring).
    assert (u*u - x*x + 2*(x*u) > 0) by nra.
    assert (G : u*u - x*x - 2*(x*u) = 0) by (apply Rmult_integral in F; lra).
    assert (u*x > 76/100*(38/100)) by nra. assert (u*u < 64/100) by nra. assert (x*x > 38/100*(38/100)) by nra. nra.
Qed.

(** *** packs *)
Lemma quat_times_one q : quat_times q (jr_quat 3 0 1) = q.
Proof. destruct q as [a b c d]. unfold quat_times, jr_quat. cbn. f_equal; ring. Qed.
Lemma lane_pick_largest D k : lane_pick D = Some k -> largest D = k.
Proof.
  unfold lane_pick, largest, gtb. destruct (Rlt_dec (Rabs (off D 1)) (Rabs (off D 0))), (Rlt_dec (Rabs (off D 2)) (Rabs (off D 0))), (Rlt_dec (Rabs (off D 2)) (Rabs (off D 1))),
    (Rlt_dec (Rabs (off D 0)) (Rabs (off D 1))), (Rlt_dec (Rabs (off D 1)) (Rabs (off D 2))), (Rlt_dec (Rabs (off D 0)) (Rabs (off D 2))); cbn [andb]; intros E; try discriminate E; try (injection E as <-; reflexivity); lra.
Qed.
(** a lane at which no off-diagonal entry is strictly the largest stays where it is *)
Lemma lane_none A q : quat_len2 q = 1 -> lane_pick (Dmat A q) = None -> lane_step A q = (1, q).
Proof.
  intros U N. unfold lane_step. cbn zeta. rewrite N. replace (1 - 0*0) with 1 by ring. rewrite sqrt_1, quat_times_one, quat_unit_one by exact U. reflexivity.
Qed.
Lemma lane_some A q k : quat_len2 q = 1 -> lane_pick (Dmat A q) = Some k -> off (Dmat A q) k <> 0 ->
  exists q', jac_step A q = Some q' /\ snd (lane_step A q) = q' /\ fst (lane_step A q) <> 1.
Proof.
  intros U N NZ. pose proof (lane_pick_largest _ _ N) as L. unfold lane_step, jac_step. cbn zeta. rewrite N, L. set (D := Dmat A q) in *.
  destruct (Req_EM_T (off D k) 0) as [E|_]; [contradiction|].
  set (th := (D _ _ - D _ _) / _).
  destruct (jac_t_props th) as ((P & T1) & B). assert (G : jac_sgn th * jac_sgn th = 1) by (unfold jac_sgn; destruct (Rlt_dec 0 th); ring).
  assert (T : (if Rlt_dec (th * jac_sgn th) (10^6) then jac_sgn th / (th * jac_sgn th + sqrt (th * jac_sgn th * (th * jac_sgn th) + 1)) else 1/2 * jac_sgn th / (th * jac_sgn th)) = jac_t th).
  { unfold jac_t. cbn zeta. destruct (Rlt_dec _ (10^6)) as [|X]; [reflexivity|]. assert (0 < 10^6) by (apply pow_lt; lra). set (a := th * jac_sgn th) in *. assert (0 < a) by lra. clearbody a. field. lra. }
  rewrite T. destruct (half_angle (jac_sgn th) (jac_t th) G P) as (C & XW & CC & SC & W). cbn zeta in *.
  destruct (Req_EM_T _ 1) as [E|_]; [lra|]. set (x := jac_sgn th * _ * -1) in *. destruct (Req_EM_T _ 1) as [E|_]; [contradiction|].
  eexists. split; [reflexivity|]. cbn [fst snd].
  assert (X : -1 * (jac_sgn th * sqrt ((1 - 1 / sqrt (jac_t th * jac_t th + 1)) / 2)) = x) by (unfold x; ring). rewrite X. split; [reflexivity|exact W].
Qed.
Lemma lane_len A q : quat_len2 q = 1 -> quat_len2 (snd (lane_step A q)) = 1.
Proof.
  intros U. destruct (lane_pick (Dmat A q)) as [k|] eqn:N; [|rewrite lane_none by assumption; exact U].
  destruct (Req_EM_T (off (Dmat A q) k) 0) as [Z|NZ].
  - exfalso. clear U. revert N. unfold lane_pick, gtb. pose proof (Rabs_pos (off (Dmat A q) 0)). pose proof (Rabs_pos (off (Dmat A q) 1)). pose proof (Rabs_pos (off (Dmat A q) 2)).
    assert (ZZ : Rabs (off (Dmat A q) k) = 0) by (rewrite Z; apply Rabs_R0).
    destruct (Rlt_dec (Rabs (off (Dmat A q) 1)) (Rabs (off (Dmat A q) 0))), (Rlt_dec (Rabs (off (Dmat A q) 2)) (Rabs (off (Dmat A q) 0))), (Rlt_dec (Rabs (off (Dmat A q) 2)) (Rabs (off (Dmat A q) 1))),
    (Rlt_dec (Rabs (off (Dmat A q) 0)) (Rabs (off (Dmat A q) 1))), (Rlt_dec (Rabs (off (Dmat A q) 1)) (Rabs (off (Dmat A q) 2))), (Rlt_dec (Rabs (off (Dmat A q) 0)) (Rabs (off (Dmat A q) 2))); cbn [andb]; intros E; try discriminate E; injection E as <-; lra.
  - destruct (lane_some A q k U N NZ) as (q' & J & -> & _). exact (jac_step_some A q q' U J).
Qed.
Lemma pack_units n : forall l, (forall Aq, In Aq l -> quat_len2 (snd Aq) = 1) -> forall Aq, In Aq (pack_loop n l) -> quat_len2 (snd Aq) = 1.
Proof.
  assert (Step : forall l, (forall Aq, In Aq l -> quat_len2 (snd Aq) = 1) -> forall Aq, In Aq (combine (map fst l) (map snd (map (fun Aq => lane_step (fst Aq) (snd Aq)) l))) -> quat_len2 (snd Aq) = 1).
  { induction l as [|[A q] l IH]; cbn [map combine]; intros H Aq [].
    - subst Aq. cbn [snd fst]. apply lane_len. exact (H (A, q) (or_introl eq_refl)).
    - apply IH; [intros X HX; apply H; right; exact HX|assumption]. }
  induction n as [|n IH]; intros l H; cbn [pack_loop]; destruct (forallb _ _); try exact H. apply IH, Step, H.
Qed.
Lemma pack_mats n : forall l, map fst (pack_loop n l) = map fst l.
Proof.
  induction n as [|n IH]; intros l; cbn [pack_loop]; destruct (forallb _ _); try reflexivity. rewrite IH.
  induction l as [|a l IHl]; [reflexivity|]. cbn [map combine]. f_equal. exact IHl.
Qed.
(** in every lane of every pack Q is orthogonal and A = Q D Q^T exactly *)
Theorem C94_pack_decomposition As k A : nth_error As k = Some A -> symmetric 3 A ->
  exists Q D, nth_error (pack_diagonalize3 As) k = Some (Q, D) /\ orthogonal 3 Q /\ symmetric 3 D /\ composed 3 Q D A.
Proof.
  intros H Sy. unfold pack_diagonalize3. set (l := map (fun A => (A, quat_one)) As).
  assert (U : forall Aq, In Aq l -> quat_len2 (snd Aq) = 1) by (intros Aq HA; unfold l in HA; apply in_map_iff in HA; destruct HA as (X & <- & _); exact one_len).
  pose proof (pack_units 23 l U) as U'. pose proof (pack_mats 23 l) as Ms. set (l' := pack_loop 23 l) in *. clearbody l'.
  assert (E : nth_error (map fst l') k = Some A) by (rewrite Ms; unfold l; rewrite map_map; cbn [fst]; rewrite map_id; exact H).
  rewrite nth_error_map in E. destruct (nth_error l' k) as [[A' q]|] eqn:F; [|discriminate]. cbn in E. injection E as ->.
  assert (Uq : quat_len2 q = 1) by exact (U' (A, q) (nth_error_In _ _ F)).
  exists (quat_mat q), (Dmat A q). rewrite nth_error_map, F. cbn [option_map fst snd]. split; [reflexivity|]. split; [apply quat_orth; exact Uq|]. split; [intros i j Hi Hj; apply Dmat_sym; assumption|apply Dmat_back; assumption].
Qed.
(** a lane that meets no tie gets the result of the scalar version, whatever the other lanes contain *)
Definition no_tie (n : nat) (A : mat) (q : quat4) : Prop := forall m, (m <= n)%nat -> let D := Dmat A (jac_loop m A q) in off2 D = 0 \/ lane_pick D <> None.
Lemma lane_is_scalar A q : quat_len2 q = 1 -> off2 (Dmat A q) = 0 \/ lane_pick (Dmat A q) <> None ->
  match jac_step A q with Some q' => snd (lane_step A q) = q' /\ fst (lane_step A q) <> 1 | None => lane_step A q = (1, q) end.
Proof.
  intros U T. destruct (lane_pick (Dmat A q)) as [k|] eqn:N.
  - destruct (Req_EM_T (off (Dmat A q) k) 0) as [Z|NZ].
    + exfalso. revert N. unfold lane_pick, gtb. pose proof (Rabs_pos (off (Dmat A q) 0)). pose proof (Rabs_pos (off (Dmat A q) 1)). pose proof (Rabs_pos (off (Dmat A q) 2)).
      assert (ZZ : Rabs (off (Dmat A q) k) = 0) by (rewrite Z; apply Rabs_R0). clear T.
      destruct (Rlt_dec (Rabs (off (Dmat A q) 1)) (Rabs (off (Dmat A q) 0))), (Rlt_dec (Rabs (off (Dmat A q) 2)) (Rabs (off (Dmat A q) 0))), (Rlt_dec (Rabs (off (Dmat A q) 2)) (Rabs (off (Dmat A q) 1))),
      (Rlt_dec (Rabs (off (Dmat A q) 0)) (Rabs (off (Dmat A q) 1))), (Rlt_dec (Rabs (off (Dmat A q) 1)) (Rabs (off (Dmat A q) 2))), (Rlt_dec (Rabs (off (Dmat A q) 0)) (Rabs (off (Dmat A q) 2))); cbn [andb]; intros E; try discriminate E; injection E as <-; lra.
    + destruct (lane_some A q k U N NZ) as (q' & -> & E1 & E2). split; assumption.
  - destruct T as [T|T]; [|contradiction]. apply (proj2 (jac_step_none A q)) in T. rewrite T. apply lane_none; assumption.
Qed.
Theorem C94_pack_lane_is_scalar n : forall l k A q, nth_error l k = Some (A, q) -> quat_len2 q = 1 -> no_tie n A q ->
  nth_error (pack_loop n l) k = Some (A, jac_loop n A q).
Proof.
  induction n as [|n IH]; intros l k A q H U T; pose proof (lane_is_scalar A q U) as LS.
  - assert (E : jac_loop 0 A q = q) by (cbn [jac_loop]; destruct (jac_step A q); reflexivity). cbn [pack_loop]. rewrite E. destruct (forallb _ _); exact H.
  - assert (T0 : off2 (Dmat A q) = 0 \/ lane_pick (Dmat A q) <> None).
    { specialize (T 0%nat ltac:(lia)). cbn [jac_loop] in T. destruct (jac_step A q); exact T. }
    specialize (LS T0). cbn [pack_loop jac_loop]. destruct (forallb _ _) eqn:F.
    + destruct (jac_step A q) as [q'|]; [|exact H]. exfalso. destruct LS as [_ LS]. rewrite forallb_forall in F.
      specialize (F (lane_step A q)). unfold is_one in F. destruct (Req_EM_T (fst (lane_step A q)) 1); [contradiction|].
      assert (false = true); [apply F; apply in_map_iff; exists (A, q); split; [reflexivity|exact (nth_error_In _ _ H)]|discriminate].
    + assert (N : nth_error (combine (map fst l) (map snd (map (fun Aq => lane_step (fst Aq) (snd Aq)) l))) k = Some (A, snd (lane_step A q))).
      { clear - H. revert k H. induction l as [|a l IHl]; intros k H; destruct k; cbn in H |- *; try discriminate; [injection H as ->; reflexivity|apply IHl; exact H]. }
      destruct (jac_step A q) as [q'|] eqn:J.
      * destruct LS as [LS _]. rewrite LS in N. apply IH; [exact N|exact (jac_step_some A q q' U J)|].
        intros m Hm. specialize (T (S m) ltac:(lia)). cbn [jac_loop] in T. rewrite J in T. exact T.
      * rewrite LS in N. cbn [snd] in N. assert (JL : jac_loop n A q = q) by (destruct n; cbn [jac_loop]; rewrite J; reflexivity).
        rewrite <- JL. apply IH; [exact N|exact U|]. intros m Hm. specialize (T 0%nat ltac:(lia)). cbn [jac_loop] in T. rewrite J in T.
        assert (JM : jac_loop m A q = q) by (destruct m; cbn [jac_loop]; rewrite J; reflexivity). rewrite JM. exact T.
Qed.
Lemma pack_stop n l : forallb (fun wq => is_one (fst wq)) (map (fun Aq => lane_step (fst Aq) (snd Aq)) l) = true -> pack_loop n l = l.
Proof. intros H. destruct n; cbn [pack_loop]; rewrite H; reflexivity. Qed.
(** two off-diagonal entries of the same size: the pack version takes the matrix for diagonal and returns it as it came *)
Definition tied : mat := fun i j => if Nat.eqb i j then 2 else 1.
Theorem C94_pack_diagonal_refuted : exists A, symmetric 3 A /\
  forall Q D, nth_error (pack_diagonalize3 [A]) 0 = Some (Q, D) -> ~ diagonal 3 D /\ forall i j, (i < 3)%nat -> (j < 3)%nat -> D i j = A i j.
Proof.
  assert (Sy : symmetric 3 tied) by (intros i j Hi Hj; unfold tied; rewrite (Nat.eqb_sym j i); reflexivity).
  exists tied. split; [exact Sy|].
  assert (N : lane_pick (Dmat tied quat_one) = None).
  { unfold lane_pick, gtb, off. rewrite !(Dmat_one tied) by (try exact Sy; lia). unfold tied. cbn [Nat.eqb]. destruct (Rlt_dec (Rabs 1) (Rabs 1)); [lra|reflexivity]. }
  intros Q D. unfold pack_diagonalize3. cbn [map]. rewrite pack_stop.
  2:{ cbn [map fst snd]. rewrite (lane_none tied quat_one one_len N). cbn [forallb fst]. unfold is_one. destruct (Req_EM_T 1 1) as [_|C]; [reflexivity|contradiction]. }
  cbn [map nth_error fst snd]. intros E. injection E as _ <-.
  split; [|intros i j Hi Hj; apply Dmat_one; assumption]. intros Di. specialize (Di 0%nat 1%nat ltac:(lia) ltac:(lia) ltac:(lia)). rewrite (Dmat_one tied) in Di by (try exact Sy; lia). unfold tied in Di. cbn [Nat.eqb] in Di. lra.
Qed.
