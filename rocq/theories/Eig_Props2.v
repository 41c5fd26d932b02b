(** C94: Jacobi rotations. *)
Require Import Reals List Bool Arith Lia Lra Psatz.
From Verif Require Import Edge_Model Edge_Proofs Eig_Model Eig_Props.
Import ListNotations.
Open Scope R_scope.

Lemma quat_unit_one q : quat_len2 q = 1 -> quat_unit q = q.
Proof. intros H. unfold quat_unit. rewrite H, sqrt_1. destruct q as [a b c d]. cbn [q0_ q1_ q2_ q3_]. unfold Rdiv. rewrite Rinv_1, !Rmult_1_r. reflexivity. Qed.
Lemma quat_unit_len q : 0 < quat_len2 q -> quat_len2 (quat_unit q) = 1.
Proof.
  intros P. assert (S1 : sqrt (quat_len2 q) * sqrt (quat_len2 q) = quat_len2 q) by (apply sqrt_sqrt; lra).
  assert (S0 : sqrt (quat_len2 q) <> 0) by (intros E; rewrite E in S1; lra). unfold quat_unit. set (r := sqrt (quat_len2 q)) in *. clearbody r.
  transitivity (quat_len2 q / (r*r)); [unfold quat_len2; cbn [q0_ q1_ q2_ q3_]; field; exact S0|]. rewrite S1. field. lra.
Qed.
(** the product formed in place is not the quaternion product, but it never vanishes *)
Lemma quat_times_pos q k x w : quat_len2 q = 1 -> 0 < w -> 0 < quat_len2 (quat_times q (jr_quat k x w)).
Proof.
  intros U W. set (p := quat_times q (jr_quat k x w)).
  assert (N : 0 <= quat_len2 p) by (unfold quat_len2; pose proof (Rle_0_sqr (q0_ p)); pose proof (Rle_0_sqr (q1_ p)); pose proof (Rle_0_sqr (q2_ p)); pose proof (Rle_0_sqr (q3_ p)); unfold Rsqr in *; lra).
  destruct N as [N|Z]; [exact N|exfalso].
  assert (Z4 : q0_ p = 0 /\ q1_ p = 0 /\ q2_ p = 0 /\ q3_ p = 0) by (unfold quat_len2 in Z; repeat split; nra). clear Z.
  unfold p, quat_times, jr_quat in Z4. destruct q as [a b c d]. cbn zeta in Z4. cbn [q0_ q1_ q2_ q3_] in *.
  set (j0 := if Nat.eqb k 0 then x else 0) in *. set (j1 := if Nat.eqb k 1 then x else 0) in *. set (j2 := if Nat.eqb k 2 then x else 0) in *.
  destruct Z4 as (Z0 & Z1 & Z2 & Z3). rewrite Z0 in Z1, Z2, Z3. rewrite Z1 in Z2, Z3. rewrite Z2 in Z3.
  assert (Hd : d = 0) by nra. rewrite Hd in *.
  assert (Hc : c = 0) by nra. rewrite Hc in *.
  assert (Hb : b = 0) by nra. rewrite Hb in *.
  assert (Ha : a = 0) by nra. rewrite Ha in *. unfold quat_len2 in U. cbn [q0_ q1_ q2_ q3_] in U. lra.
Qed.
Lemma quat_orth q : quat_len2 q = 1 -> orthogonal 3 (quat_mat q).
Proof.
  intros H i j Hi Hj. destruct q as [a b c d]. unfold quat_len2 in H. cbn [q0_ q1_ q2_ q3_] in H.
  assert (E : (if Nat.eqb i j then (a*a+b*b+c*c+d*d)*(a*a+b*b+c*c+d*d) else 0) = if Nat.eqb i j then 1 else 0) by (rewrite H; destruct (Nat.eqb i j); ring).
  rewrite <- E. unfold sumn. ix i Hi; ix j Hj; cbn [seq fold_left quat_mat q0_ q1_ q2_ q3_ Nat.eqb]; ring.
Qed.
Lemma quat_orth_rows q : quat_len2 q = 1 -> forall i j, (i < 3)%nat -> (j < 3)%nat ->
  quat_mat q i 0%nat * quat_mat q j 0%nat + quat_mat q i 1%nat * quat_mat q j 1%nat + quat_mat q i 2%nat * quat_mat q j 2%nat = if Nat.eqb i j then 1 else 0.
Proof.
  intros H i j Hi Hj. destruct q as [a b c d]. unfold quat_len2 in H. cbn [q0_ q1_ q2_ q3_] in H.
  assert (E : (if Nat.eqb i j then (a*a+b*b+c*c+d*d)*(a*a+b*b+c*c+d*d) else 0) = if Nat.eqb i j then 1 else 0) by (rewrite H; destruct (Nat.eqb i j); ring).
  rewrite <- E. ix i Hi; ix j Hj; cbn [quat_mat q0_ q1_ q2_ q3_ Nat.eqb]; ring.
Qed.
Lemma upper_sym A i j : (i < 3)%nat -> (j < 3)%nat -> upper A i j = upper A j i.
Proof. intros Hi Hj. ix i Hi; ix j Hj; reflexivity. Qed.
Lemma upper_of A : symmetric 3 A -> forall i j, (i < 3)%nat -> (j < 3)%nat -> upper A i j = A i j.
Proof. intros Sy i j Hi Hj. unfold upper. destruct (i <=? j)%nat; [reflexivity|apply Sy; assumption]. Qed.
(** D in terms of any Q *)
Definition QtAQ (Q A : mat) (i j : nat) : R :=
  sumn 3 (fun a => sumn 3 (fun b => Q a i * A a b * Q b j)).
Lemma Dmat_val A q i j : Dmat A q i j = QtAQ (quat_mat q) (upper A) i j.
Proof.
  unfold Dmat, AQ, QtAQ, sumn. cbn [seq fold_left]. rewrite !(upper_sym A 1 0), !(upper_sym A 2 0), !(upper_sym A 2 1) by lia. ring.
Qed.
Lemma Dmat_sym A q i j : (i < 3)%nat -> (j < 3)%nat -> Dmat A q i j = Dmat A q j i.
Proof.
  intros Hi Hj. rewrite !Dmat_val. unfold QtAQ, sumn. cbn [seq fold_left]. rewrite !(upper_sym A 1 0), !(upper_sym A 2 0), !(upper_sym A 2 1) by lia. ring.
Qed.
(** A is recovered exactly, whatever is left beside the diagonal *)
Lemma Dmat_back A q : symmetric 3 A -> quat_len2 q = 1 -> composed 3 (quat_mat q) (Dmat A q) A.
Proof.
  intros Sy H i j Hi Hj. pose proof (quat_orth_rows q H) as O.
  assert (E : forall a, (a < 3)%nat -> sumn 3 (fun k => quat_mat q i k * quat_mat q a k) = if Nat.eqb i a then 1 else 0).
  { intros a Ha. rewrite <- (O i a Hi Ha). unfold sumn. cbn [seq fold_left]. ring. }
  assert (F : forall a, (a < 3)%nat -> sumn 3 (fun k => quat_mat q j k * quat_mat q a k) = if Nat.eqb j a then 1 else 0).
  { intros a Ha. rewrite <- (O j a Hj Ha). unfold sumn. cbn [seq fold_left]. ring. }
  transitivity (sumn 3 (fun a => sumn 3 (fun b => (if Nat.eqb i a then 1 else 0) * upper A a b * (if Nat.eqb j b then 1 else 0)))).
  - rewrite <- (upper_of A Sy i j Hi Hj). unfold sumn. ix i Hi; ix j Hj; cbn [seq fold_left Nat.eqb]; ring.
  - rewrite (sumn_ext 3 _ (fun a => sumn 3 (fun b => sumn 3 (fun k => quat_mat q i k * quat_mat q a k) * upper A a b * sumn 3 (fun k => quat_mat q j k * quat_mat q b k)))).
    2:{ intros a Ha. apply sumn_ext. intros b Hb. rewrite E, F by assumption. reflexivity. }
    rewrite (sumn_ext 3 (fun k => sumn 3 (fun l => quat_mat q i k * Dmat A q k l * quat_mat q j l)) (fun k => sumn 3 (fun l => quat_mat q i k * QtAQ (quat_mat q) (upper A) k l * quat_mat q j l))).
    2:{ intros k Hk. apply sumn_ext. intros l Hl. rewrite Dmat_val. reflexivity. }
    unfold QtAQ, sumn. cbn [seq fold_left].
    generalize (quat_mat q i 0%nat) (quat_mat q i 1%nat) (quat_mat q i 2%nat) (quat_mat q j 0%nat) (quat_mat q j 1%nat) (quat_mat q j 2%nat).
    generalize (quat_mat q 0%nat 0%nat) (quat_mat q 0%nat 1%nat) (quat_mat q 0%nat 2%nat) (quat_mat q 1%nat 0%nat) (quat_mat q 1%nat 1%nat) (quat_mat q 1%nat 2%nat) (quat_mat q 2%nat 0%nat) (quat_mat q 2%nat 1%nat) (quat_mat q 2%nat 2%nat).
    generalize (upper A 0%nat 0%nat) (upper A 0%nat 1%nat) (upper A 0%nat 2%nat) (upper A 1%nat 0%nat) (upper A 1%nat 1%nat) (upper A 1%nat 2%nat) (upper A 2%nat 0%nat) (upper A 2%nat 1%nat) (upper A 2%nat 2%nat).
    intros. ring.
Qed.

(** *** the angle *)
Lemma jac_t_props th : let t := jac_t th in 0 < jac_sgn th * t <= 1 /\ Rabs (1 - t*t - 2*th*t) <= 1/10.
Proof.
  unfold jac_t. set (g := jac_sgn th). assert (G : g*g = 1) by (unfold g, jac_sgn; destruct (Rlt_dec 0 th); ring).
  assert (Ha : 0 <= th*g) by (unfold g, jac_sgn; destruct (Rlt_dec 0 th); lra). set (a := th*g) in *.
  assert (Th : th = a*g) by (unfold a; rewrite Rmult_assoc, G; ring).
  assert (B6 : (10:R)^6 = 1000000) by ring. cbn zeta. destruct (Rlt_dec a (10^6)) as [L|L].
  - assert (S1 : 1 <= sqrt (a*a+1)) by (rewrite <- sqrt_1 at 1; apply sqrt_le_1_alt; nra).
    assert (SS : sqrt (a*a+1) * sqrt (a*a+1) = a*a+1) by (apply sqrt_sqrt; nra). set (s := sqrt (a*a+1)) in *.
    assert (P : 0 < a + s) by lra. split.
    + replace (g * (g/(a+s))) with (1/(a+s)) by (unfold Rdiv; rewrite <- Rmult_assoc, G; ring). split; [apply Rdiv_lt_0_compat; lra|].
      apply (Rmult_le_reg_r (a+s)); [lra|]. unfold Rdiv. rewrite Rmult_assoc, Rinv_l by lra. lra.
    + replace (1 - g/(a+s)*(g/(a+s)) - 2*th*(g/(a+s))) with 0; [rewrite Rabs_R0; lra|].
      rewrite Th. replace (1 - g/(a+s)*(g/(a+s)) - 2*(a*g)*(g/(a+s))) with (1 - (g*g)*(/(a+s)*/(a+s)) - 2*a*(g*g)*/(a+s)) by (unfold Rdiv; ring).
      rewrite G. apply (Rmult_eq_reg_r ((a+s)*(a+s))); [|nra].
      replace ((1 - 1*(/(a+s)*/(a+s)) - 2*a*1*/(a+s)) * ((a+s)*(a+s))) with ((a+s)*(a+s) - 1 - 2*a*(a+s)) by (field; lra). nra.
  - assert (Ba : 1000000 <= a) by lra. assert (P : 0 < a + a) by lra. split.
    + replace (g * (g/(a+a))) with (1/(a+a)) by (unfold Rdiv; rewrite <- Rmult_assoc, G; ring). split; [apply Rdiv_lt_0_compat; lra|].
      apply (Rmult_le_reg_r (a+a)); [lra|]. unfold Rdiv. rewrite Rmult_assoc, Rinv_l by lra. lra.
    + rewrite Th. replace (1 - g/(a+a)*(g/(a+a)) - 2*(a*g)*(g/(a+a))) with (1 - (g*g)*(/(a+a)*/(a+a)) - 2*a*(g*g)*/(a+a)) by (unfold Rdiv; ring).
      rewrite G. replace (1 - 1*(/(a+a)*/(a+a)) - 2*a*1*/(a+a)) with (- (/(a+a)*/(a+a))) by (field; lra). rewrite Rabs_Ropp.
      assert (I : 0 < /(a+a) <= 1/10). { split; [apply Rinv_0_lt_compat; lra|]. replace (1/10) with (/10) by field. apply Rinv_le_contravar; lra. }
      rewrite Rabs_pos_eq by nra. nra.
Qed.
(** cosine and sine of the rotation from the half angle *)
Lemma half_angle g t : g*g = 1 -> 0 < g*t -> let c := 1 / sqrt (t*t+1) in let x := (g * sqrt ((1-c)/2)) * (-1) in let w := sqrt (1 - x*x) in
  0 < c < 1 /\ x*x + w*w = 1 /\ w*w - x*x = c /\ 2*x*w = - (t*c) /\ w <> 1.
Proof.
  intros G Pt c x w. assert (T2 : 0 < t*t) by (assert (t <> 0) by (intros E; rewrite E in Pt; lra); nra).
  assert (S1 : 1 < sqrt (t*t+1)) by (rewrite <- sqrt_1 at 1; apply sqrt_lt_1_alt; lra).
  assert (SS : sqrt (t*t+1) * sqrt (t*t+1) = t*t+1) by (apply sqrt_sqrt; lra).
  assert (C0 : 0 < c) by (unfold c; apply Rdiv_lt_0_compat; lra).
  assert (C1 : c < 1). { unfold c. apply (Rmult_lt_reg_r (sqrt (t*t+1))); [lra|]. unfold Rdiv. rewrite Rmult_assoc, Rinv_l by lra. lra. }
  assert (CC : c*c*(t*t+1) = 1) by (unfold c; revert S1 SS; generalize (sqrt (t*t+1)); intros r S1 SS; rewrite <- SS; field; lra).
  assert (XX : x*x = (1-c)/2). { unfold x. replace (g * sqrt ((1-c)/2) * -1 * (g * sqrt ((1-c)/2) * -1)) with ((g*g)*(sqrt ((1-c)/2) * sqrt ((1-c)/2))) by ring. rewrite G, sqrt_sqrt by lra. ring. }
  assert (WW : w*w = (1+c)/2) by (unfold w; rewrite sqrt_sqrt; rewrite XX; lra).
  split; [lra|]. split; [lra|]. split; [lra|]. split.
  - (* 2xw = -g sqrt(1-c^2) and sqrt(1-c^2) = g t c *)
    assert (W0 : 0 <= w) by apply sqrt_pos. assert (H0 : 0 <= sqrt ((1-c)/2)) by apply sqrt_pos. set (y := sqrt ((1-c)/2)) in *.
    assert (YY : y*y = (1-c)/2) by (apply sqrt_sqrt; lra).
    assert (E : 2*y*w = g*t*c).
    { assert (P1 : 0 <= 2*y*w) by (apply Rmult_le_pos; lra). assert (P2 : 0 <= g*t*c) by (apply Rmult_le_pos; lra).
      assert (Q : (2*y*w)*(2*y*w) = (g*t*c)*(g*t*c)).
      { transitivity (4*(y*y)*(w*w)); [ring|]. rewrite YY, WW. transitivity (1 - c*c); [field|]. transitivity ((g*g)*(t*t*(c*c))); [rewrite G; nra|ring]. }
      nra. }
    unfold x. transitivity (- (g*(2*y*w))); [ring|]. rewrite E. transitivity (- ((g*g)*(t*c))); [ring|]. rewrite G. ring.
  - intros E. rewrite E in WW. lra.
Qed.

Lemma largest_spec D : (largest D < 3)%nat /\ forall k, (k < 3)%nat -> Rabs (off D k) <= Rabs (off D (largest D)).
Proof.
  unfold largest, gtb. 
  destruct (Rlt_dec (Rabs (off D 1)) (Rabs (off D 0))), (Rlt_dec (Rabs (off D 2)) (Rabs (off D 0))); cbn [andb];
    try (destruct (Rlt_dec (Rabs (off D 2)) (Rabs (off D 1)))); (split; [lia|]); intros k Hk; ix k Hk; lra.
Qed.
Lemma off2_offs D : off2 D = (off D 0)^2 + (off D 1)^2 + (off D 2)^2.
Proof. unfold off2, off. ring. Qed.
Lemma off2_largest D : off2 D <= 3 * (off D (largest D))^2.
Proof.
  destruct (largest_spec D) as [_ M]. rewrite off2_offs.
  assert (B : forall k, (k < 3)%nat -> (off D k)^2 <= (off D (largest D))^2).
  { intros k Hk. specialize (M k Hk). rewrite <- (Rsqr_pow2 (off D k)), <- (Rsqr_pow2 (off D (largest D))). apply Rsqr_le_abs_1. exact M. }
  pose proof (B 0%nat ltac:(lia)). pose proof (B 1%nat ltac:(lia)). pose proof (B 2%nat ltac:(lia)). lra.
Qed.
Lemma jac_step_none A q : jac_step A q = None <-> off2 (Dmat A q) = 0.
Proof.
  unfold jac_step. set (D := Dmat A q). destruct (Req_EM_T (off D (largest D)) 0) as [Z|NZ].
  - split; [intros _|reflexivity]. pose proof (off2_largest D) as B. rewrite Z in B. assert (0 <= off2 D) by (rewrite off2_offs; pose proof (pow2_ge_0 (off D 0)); pose proof (pow2_ge_0 (off D 1)); pose proof (pow2_ge_0 (off D 2)); lra). lra.
  - split; [|intros E; exfalso; apply NZ; destruct (largest_spec D) as [L _]; rewrite off2_offs in E; pose proof (pow2_ge_0 (off D 0)); pose proof (pow2_ge_0 (off D 1)); pose proof (pow2_ge_0 (off D 2)); revert L; generalize (largest D); intros k L; ix k L; nra].
    destruct (jac_t_props ((D ((largest D + 2) mod 3)%nat ((largest D + 2) mod 3)%nat - D ((largest D + 1) mod 3)%nat ((largest D + 1) mod 3)%nat) / (2 * off D (largest D)))) as ((P & _) & _).
    set (th := (D ((largest D + 2) mod 3)%nat _ - _) / _) in *. set (g := jac_sgn th) in *.
    assert (G : g*g = 1) by (unfold g, jac_sgn; destruct (Rlt_dec 0 th); ring).
    destruct (half_angle g (jac_t th) G P) as (C & _ & _ & _ & W).
    destruct (Req_EM_T _ 1) as [E|_]; [lra|]. destruct (Req_EM_T _ 1) as [E|_]; [contradiction|]. discriminate.
Qed.
(** every step keeps the quaternion a unit one *)
Lemma jac_step_some A q q' : quat_len2 q = 1 -> jac_step A q = Some q' -> quat_len2 q' = 1.
Proof.
  intros U. unfold jac_step. set (D := Dmat A q). destruct (Req_EM_T (off D (largest D)) 0) as [|NZ]; [discriminate|].
  set (k := largest D) in *. set (th := (D _ _ - D _ _) / _). destruct (jac_t_props th) as ((P & T1) & B). set (t := jac_t th) in *. set (g := jac_sgn th) in *.
  assert (G : g*g = 1) by (unfold g, jac_sgn; destruct (Rlt_dec 0 th); ring).
  destruct (half_angle g t G P) as (C & XW & CC & SC & W). cbn zeta in *. set (c := 1 / sqrt (t*t+1)) in *. set (x := g * sqrt ((1-c)/2) * -1) in *. set (w := sqrt (1 - x*x)) in *.
  destruct (Req_EM_T c 1) as [|_]; [discriminate|]. destruct (Req_EM_T w 1) as [|_]; [discriminate|]. intros E. injection E as <-.
  assert (W0 : 0 < w) by (assert (0 <= w) by apply sqrt_pos; nra). apply quat_unit_len, quat_times_pos; assumption.
Qed.
Lemma jac_loop_inv n A q : quat_len2 q = 1 -> quat_len2 (jac_loop n A q) = 1.
Proof.
  revert q. induction n as [|n IH]; intros q U; cbn [jac_loop]; destruct (jac_step A q) as [q'|] eqn:E; try exact U.
  apply IH. exact (jac_step_some A q q' U E).
Qed.
Lemma Dmat_one A i j : symmetric 3 A -> (i < 3)%nat -> (j < 3)%nat -> Dmat A quat_one i j = A i j.
Proof.
  intros Sy Hi Hj. rewrite Dmat_val, <- (upper_of A Sy i j Hi Hj). unfold QtAQ, sumn, quat_one. ix i Hi; ix j Hj; cbn [seq fold_left quat_mat q0_ q1_ q2_ q3_]; ring.
Qed.
Lemma off2_one A : symmetric 3 A -> off2 (Dmat A quat_one) = off2 A.
Proof. intros Sy. unfold off2. rewrite !Dmat_one by (try assumption; lia). reflexivity. Qed.
Lemma one_len : quat_len2 quat_one = 1.
Proof. unfold quat_len2, quat_one. cbn [q0_ q1_ q2_ q3_]. ring. Qed.

(** the decomposition in space: Q is orthogonal, A = Q D Q^T exactly, D is symmetric with the trace of A; D is diagonal whenever one more
    step would leave it where it is (the loop then ends) *)
Theorem C94_space_decomposition A : symmetric 3 A -> let Q := fst (sym_diagonalize3 A) in let D := snd (sym_diagonalize3 A) in
  orthogonal 3 Q /\ symmetric 3 D /\ composed 3 Q D A /\ trace3 D = trace3 A.
Proof.
  intros Sy. unfold sym_diagonalize3. pose proof (jac_loop_inv 23 A quat_one one_len) as U. set (q := jac_loop 23 A quat_one) in *. clearbody q. cbn [fst snd].
  split; [apply quat_orth; exact U|]. split; [intros i j Hi Hj; apply Dmat_sym; assumption|]. split; [apply Dmat_back; assumption|].
  unfold trace3. pose proof (quat_orth_rows q U) as O. rewrite !Dmat_val. rewrite <- !(upper_of A Sy) by lia.
  transitivity (sumn 3 (fun a => sumn 3 (fun b => upper A a b * (quat_mat q a 0%nat * quat_mat q b 0%nat + quat_mat q a 1%nat * quat_mat q b 1%nat + quat_mat q a 2%nat * quat_mat q b 2%nat)))).
  - unfold QtAQ, sumn. cbn [seq fold_left]. ring.
  - rewrite (sumn_ext 3 _ (fun a => sumn 3 (fun b => upper A a b * if Nat.eqb a b then 1 else 0))) by (intros a Ha; apply sumn_ext; intros b Hb; rewrite O by assumption; reflexivity).
    unfold sumn. cbn [seq fold_left Nat.eqb]. ring.
Qed.
(** the loop is left before its last pass only with a diagonal D: if the result with one pass more is the same, D is diagonal *)
Theorem C94_loop_left_only_diagonal A q n : quat_len2 q = 1 ->
  (exists m, (m < n)%nat /\ jac_step A (jac_loop m A q) = None) -> diagonal 3 (Dmat A (jac_loop n A q)).
Proof.
  intros U (m & Hm & E). assert (K : forall n q, (m < n)%nat -> jac_step A (jac_loop m A q) = None -> jac_loop n A q = jac_loop m A q).
  { clear. induction m as [|m IH]; intros n q L E.
    - cbn [jac_loop] in *. assert (E' : jac_step A q = None) by (destruct (jac_step A q) eqn:F; [rewrite F in E; discriminate|reflexivity]). destruct n; [lia|]. cbn [jac_loop]. rewrite E'. reflexivity.
    - destruct n; [lia|]. cbn [jac_loop] in *. destruct (jac_step A q) as [q'|] eqn:F; [|reflexivity]. apply IH; [lia|exact E]. }
  rewrite (K n q Hm E). apply (proj1 (jac_step_none A _)) in E. rewrite off2_offs in E.
  set (D := Dmat A (jac_loop m A q)) in *. assert (Z : off D 0 = 0 /\ off D 1 = 0 /\ off D 2 = 0) by (repeat split; nra).
  assert (Sy : symmetric 3 D) by (intros i j Hi Hj; apply Dmat_sym; assumption). unfold off in Z. destruct Z as (Z0 & Z1 & Z2).
  intros i j Hi Hj N. assert (S10 : D 1%nat 0%nat = D 0%nat 1%nat) by (apply Sy; lia). assert (S20 : D 2%nat 0%nat = D 0%nat 2%nat) by (apply Sy; lia). assert (S21 : D 2%nat 1%nat = D 1%nat 2%nat) by (apply Sy; lia).
  ix i Hi; ix j Hj; try contradiction; congruence.
Qed.
(** a diagonal matrix is returned unchanged with Q = 1 *)
Theorem C94_diagonal_kept A : symmetric 3 A -> diagonal 3 A -> forall i j, (i < 3)%nat -> (j < 3)%nat ->
  snd (sym_diagonalize3 A) i j = A i j /\ fst (sym_diagonalize3 A) i j = if Nat.eqb i j then 1 else 0.
Proof.
  intros Sy Di i j Hi Hj. assert (Z : off2 (Dmat A quat_one) = 0) by (rewrite off2_one by exact Sy; unfold off2; rewrite !Di by lia; ring).
  apply jac_step_none in Z. unfold sym_diagonalize3. cbn [jac_loop]. rewrite Z. cbn [fst snd]. split; [apply Dmat_one; assumption|].
  unfold quat_one. ix i Hi; ix j Hj; cbn [quat_mat q0_ q1_ q2_ q3_ Nat.eqb]; ring.
Qed.
(** and the reconstruction is the inverse of the decomposition *)
Theorem C94_reconstruct_decomposition A : symmetric 3 A -> forall i j, (i < 3)%nat -> (j < 3)%nat ->
  reconstruct 3 (snd (sym_diagonalize3 A)) (fst (sym_diagonalize3 A)) i j = A i j.
Proof.
  intros Sy i j Hi Hj. destruct (C94_space_decomposition A Sy) as (_ & _ & C & _). rewrite (C i j Hi Hj). unfold reconstruct, mat_mul, sumn. cbn [seq fold_left]. ring.
Qed.
