(** C94: sorted eigenvalues, perturbation, realizability; a rotation does not remove the entry it is meant for; packs. *)
Require Import Reals List Bool Arith Lia Lra Psatz Permutation.
From Verif Require Import Edge_Model Edge_Proofs Eig_Model Eig_Props Eig_Props2.
Import ListNotations.
Open Scope R_scope.

(** *** sorting *)
Lemma pick_spec (f : nat -> R) l : forall j0, let j := fold_left (fun j k => if Rlt_dec (f j) (f k) then k else j) l j0 in
  (j = j0 \/ In j l) /\ f j0 <= f j /\ forall k, In k l -> f k <= f j.
Proof.
  induction l as [|a l IH]; intros j0; cbn [fold_left].
  - split; [left; reflexivity|]. split; [lra|intros k []].
  - destruct (IH (if Rlt_dec (f j0) (f a) then a else j0)) as (I1 & I2 & I3). cbn zeta in *. set (j := fold_left _ l _) in *. clearbody j.
    destruct (Rlt_dec (f j0) (f a)) as [L|L].
    + split; [right; destruct I1 as [->|]; [left; reflexivity|right; assumption]|]. split; [lra|]. intros k [<-|Hk]; [exact I2|apply I3; exact Hk].
    + split; [destruct I1 as [->|]; [left; reflexivity|right; right; assumption]|]. split; [exact I2|]. intros k [<-|Hk]; [lra|apply I3; exact Hk].
Qed.
(** the state after passes 0..n-1: data are the diagonal entries of the listed rows, rows a permutation, the first n in order *)
Definition sorted_to (D : mat) (n : nat) (st : (nat -> R) * (nat -> nat)) : Prop :=
  (forall k, (k < 3)%nat -> fst st k = D (snd st k) (snd st k)) /\ (forall k, (k < 3)%nat -> (snd st k < 3)%nat)
  /\ (forall k l, (k < 3)%nat -> (l < 3)%nat -> snd st k = snd st l -> k = l)
  /\ (forall k l, (k < n)%nat -> (k < l < 3)%nat -> fst st l <= fst st k).
Lemma pass_sorted D n st : (n < 3)%nat -> sorted_to D n st -> sorted_to D (S n) (sort_pass st n).
Proof.
  intros Hn (S1 & S2 & S3 & S4). unfold sort_pass. set (j := fold_left _ _ n).
  destruct (pick_spec (fst st) (seq n (3 - n)) n) as (J1 & _ & J3). cbn zeta in J1, J3. fold j in J1, J3. clearbody j.
  assert (J : (n <= j < 3)%nat) by (destruct J1 as [->|J1]; [lia|apply in_seq in J1; lia]).
  assert (M : forall k, (n <= k < 3)%nat -> fst st k <= fst st j) by (intros k Hk; apply J3, in_seq; lia). clear J1 J3.
  unfold sorted_to, swap. cbn [fst snd].
  assert (C : forall k, (k < 3)%nat -> exists k', (k' < 3)%nat /\ (if Nat.eqb k n then fst st j else if Nat.eqb k j then fst st n else fst st k) = fst st k' /\ (if Nat.eqb k n then snd st j else if Nat.eqb k j then snd st n else snd st k) = snd st k'
              /\ (k' = if Nat.eqb k n then j else if Nat.eqb k j then n else k)).
  { intros k Hk. exists (if Nat.eqb k n then j else if Nat.eqb k j then n else k). destruct (Nat.eqb k n), (Nat.eqb k j); repeat split; lia. }
  split; [|split; [|split]].
  - intros k Hk. destruct (C k Hk) as (k' & K1 & -> & -> & _). apply S1; exact K1.
  - intros k Hk. destruct (C k Hk) as (k' & K1 & _ & -> & _). apply S2; exact K1.
  - intros k l Hk Hl. destruct (C k Hk) as (k' & K1 & _ & -> & K4). destruct (C l Hl) as (l' & L1 & _ & -> & L4). intros E. apply S3 in E; [|assumption|assumption].
    rewrite K4, L4 in E. destruct (Nat.eqb_spec k n), (Nat.eqb_spec k j), (Nat.eqb_spec l n), (Nat.eqb_spec l j); lia.
  - intros k l Hk Hl. destruct (Nat.eqb_spec k n) as [->|Nk].
    + destruct (Nat.eqb_spec l n); [lia|]. destruct (Nat.eqb_spec l j) as [->|]; apply M; lia.
    + destruct (Nat.eqb_spec k j) as [->|]; [lia|]. destruct (Nat.eqb_spec l n) as [->|]; [apply S4; lia|]. destruct (Nat.eqb_spec l j) as [->|]; apply S4; lia.
Qed.
Lemma perm_of (a b c : nat) : (a < 3)%nat -> (b < 3)%nat -> (c < 3)%nat -> a <> b -> a <> c -> b <> c -> Permutation [a; b; c] [0; 1; 2]%nat.
Proof.
  intros Ha Hb Hc N1 N2 N3. assert (C : (a = 0 /\ b = 1 /\ c = 2 \/ a = 0 /\ b = 2 /\ c = 1 \/ a = 1 /\ b = 0 /\ c = 2 \/ a = 1 /\ b = 2 /\ c = 0 \/ a = 2 /\ b = 0 /\ c = 1 \/ a = 2 /\ b = 1 /\ c = 0)%nat) by lia.
  destruct C as [(->&->&->)|[(->&->&->)|[(->&->&->)|[(->&->&->)|[(->&->&->)|(->&->&->)]]]]].
  - apply Permutation_refl.
  - apply perm_skip, perm_swap.
  - apply perm_swap.
  - apply (Permutation_trans (l' := [1;0;2]%nat)); [apply perm_skip, perm_swap|apply perm_swap].
  - apply (Permutation_trans (l' := [0;2;1]%nat)); [apply perm_swap|apply perm_skip, perm_swap].
  - apply (Permutation_trans (l' := [2;0;1]%nat)); [apply perm_skip, perm_swap|apply (Permutation_trans (l' := [0;2;1]%nat)); [apply perm_swap|apply perm_skip, perm_swap]].
Qed.
Theorem C94_eigenvalues_sorted D : let r := row_map D in
  Permutation [r 0%nat; r 1%nat; r 2%nat] [0; 1; 2]%nat /\ D (r 1%nat) (r 1%nat) <= D (r 0%nat) (r 0%nat) /\ D (r 2%nat) (r 2%nat) <= D (r 1%nat) (r 1%nat).
Proof.
  unfold row_map. set (st0 := (fun k => D k k, fun k : nat => k)).
  assert (I0 : sorted_to D 0 st0) by (unfold sorted_to, st0; cbn [fst snd]; repeat split; auto; lia).
  change (fold_left sort_pass (seq 0 3) st0) with (sort_pass (sort_pass (sort_pass st0 0) 1) 2).
  pose proof (pass_sorted D 0 _ ltac:(lia) I0) as I1. pose proof (pass_sorted D 1 _ ltac:(lia) I1) as I2. pose proof (pass_sorted D 2 _ ltac:(lia) I2) as (S1 & S2 & S3 & S4).
  set (st := sort_pass _ 2) in *. clearbody st. cbn zeta. rewrite <- !S1 by lia. split; [|split; apply S4; lia].
  apply perm_of; try (apply S2; lia); intros E; apply S3 in E; lia.
Qed.
Lemma perm3 (a b c : nat) : Permutation [a; b; c] [0; 1; 2]%nat ->
  (a = 0 /\ b = 1 /\ c = 2 \/ a = 0 /\ b = 2 /\ c = 1 \/ a = 1 /\ b = 0 /\ c = 2 \/ a = 1 /\ b = 2 /\ c = 0 \/ a = 2 /\ b = 0 /\ c = 1 \/ a = 2 /\ b = 1 /\ c = 0)%nat.
Proof.
  intros P. assert (N : NoDup [a;b;c]) by (apply (Permutation_NoDup (Permutation_sym P)); repeat constructor; cbn; lia).
  assert (L : forall y, In y [a;b;c] -> (y < 3)%nat) by (intros y Hy; apply (Permutation_in _ P) in Hy; cbn in Hy; lia).
  pose proof (L a ltac:(cbn; auto)). pose proof (L b ltac:(cbn; auto)). pose proof (L c ltac:(cbn; auto)). clear L P.
  inversion N as [|? ? N1 N2]; subst. inversion N2 as [|? ? N3 _]; subst. cbn in N1, N3. lia.
Qed.
Lemma bias_sum t : bias t 0 + bias t 1 + bias t 2 = 0.
Proof. unfold bias. destruct t as [|[|[|]]]; lra. Qed.
Lemma bias_bounds t k : -1/3 <= bias t k <= 2/3.
Proof. unfold bias. destruct t as [|[|[|]]], k as [|[|[|]]]; lra. Qed.

(** each eigenvalue moves the fraction delta towards its limiting state, by rank; the rest of D is untouched; the trace scales *)
Theorem C94_perturbed_eigenvalues delta t D : let r := row_map D in
  (forall k, (k < 3)%nat -> perturb delta t D (r k) (r k) = (1 - delta) * D (r k) (r k) + delta * bias t k)
  /\ (forall i j, i <> j -> perturb delta t D i j = D i j)
  /\ trace3 (perturb delta t D) = (1 - delta) * trace3 D.
Proof.
  cbn zeta. destruct (C94_eigenvalues_sorted D) as [P _]. apply perm3 in P. unfold perturb. set (r := row_map D) in *. clearbody r.
  split; [|split].
  - intros k Hk. destruct P as [(A&B&C)|[(A&B&C)|[(A&B&C)|[(A&B&C)|[(A&B&C)|(A&B&C)]]]]]; ix k Hk; rewrite ?A, ?B, ?C; cbn [Nat.eqb andb]; reflexivity.
  - intros i j N. assert (Z : forall m, (Nat.eqb i m && Nat.eqb j m)%bool = false).
    { intros m. destruct (Nat.eqb_spec i m), (Nat.eqb_spec j m); cbn; try reflexivity. exfalso. apply N. congruence. }
    rewrite !Z. reflexivity.
  - pose proof (bias_sum t) as S. unfold trace3. destruct P as [(A&B&C)|[(A&B&C)|[(A&B&C)|[(A&B&C)|[(A&B&C)|(A&B&C)]]]]]; rewrite ?A, ?B, ?C; cbn [Nat.eqb andb]; set (b0 := bias t 0) in *; set (b1 := bias t 1) in *; set (b2 := bias t 2) in *; clearbody b0 b1 b2; replace b2 with (- b0 - b1) by lra; ring.
Qed.
(** the diagonal of the perturbed D *)
Lemma perturb_diag delta t D i : (i < 3)%nat -> exists k, (k < 3)%nat /\ perturb delta t D i i = (1 - delta) * D i i + delta * bias t k.
Proof.
  intros Hi. destruct (C94_perturbed_eigenvalues delta t D) as (E & _ & _). destruct (C94_eigenvalues_sorted D) as [P _]. apply perm3 in P.
  cbn zeta in E. set (r := row_map D) in *.
  assert (Ex : exists k, (k < 3)%nat /\ r k = i).
  { destruct P as [(A&B&C)|[(A&B&C)|[(A&B&C)|[(A&B&C)|[(A&B&C)|(A&B&C)]]]]]; ix i Hi;
      first [exists 0%nat; split; [lia|assumption] | exists 1%nat; split; [lia|assumption] | exists 2%nat; split; [lia|assumption]]. }
  destruct Ex as (k & Hk & <-). exists k. split; [exact Hk|apply E; exact Hk].
Qed.

(** *** quadratic forms: v . M v *)
Definition qform (M : mat) (v : nat -> R) : R := sumn 3 (fun i => sumn 3 (fun j => v i * M i j * v j)).
Definition len2 (v : nat -> R) : R := sumn 3 (fun i => v i * v i).
Lemma qform_reconstruct D Q v : qform (reconstruct 3 D Q) v = qform D (fun k => sumn 3 (fun i => Q i k * v i)).
Proof.
  unfold qform, reconstruct, mat_mul, sumn. cbn [seq fold_left].
  generalize (Q 0%nat 0%nat) (Q 0%nat 1%nat) (Q 0%nat 2%nat) (Q 1%nat 0%nat) (Q 1%nat 1%nat) (Q 1%nat 2%nat) (Q 2%nat 0%nat) (Q 2%nat 1%nat) (Q 2%nat 2%nat).
  generalize (D 0%nat 0%nat) (D 0%nat 1%nat) (D 0%nat 2%nat) (D 1%nat 0%nat) (D 1%nat 1%nat) (D 1%nat 2%nat) (D 2%nat 0%nat) (D 2%nat 1%nat) (D 2%nat 2%nat).
  generalize (v 0%nat) (v 1%nat) (v 2%nat). intros. ring.
Qed.
Lemma qform_ext M N v : (forall i j, (i < 3)%nat -> (j < 3)%nat -> M i j = N i j) -> qform M v = qform N v.
Proof. intros H. unfold qform. apply sumn_ext. intros i Hi. apply sumn_ext. intros j Hj. rewrite H by assumption. reflexivity. Qed.
Lemma len_turned q v : quat_len2 q = 1 -> len2 (fun k => sumn 3 (fun i => quat_mat q i k * v i)) = len2 v.
Proof.
  intros U. pose proof (quat_orth_rows q U) as O. unfold len2.
  transitivity (sumn 3 (fun i => sumn 3 (fun j => v i * v j * (quat_mat q i 0%nat * quat_mat q j 0%nat + quat_mat q i 1%nat * quat_mat q j 1%nat + quat_mat q i 2%nat * quat_mat q j 2%nat)))).
  - unfold sumn. cbn [seq fold_left]. ring.
  - rewrite (sumn_ext 3 _ (fun i => sumn 3 (fun j => v i * v j * if Nat.eqb i j then 1 else 0))) by (intros i Hi; apply sumn_ext; intros j Hj; rewrite O by assumption; reflexivity).
    unfold sumn. cbn [seq fold_left Nat.eqb]. ring.
Qed.
Lemma off_form (d01 d02 d12 w0 w1 w2 e : R) : 0 <= e -> 2*(d01^2 + d02^2 + d12^2) <= e^2 ->
  Rabs (2*(d01*w0*w1 + d02*w0*w2 + d12*w1*w2)) <= e * (w0*w0 + w1*w1 + w2*w2).
Proof.
  intros He B.
  set (L := w0*w0+w1*w1+w2*w2). assert (HL : 0 <= L) by (unfold L; nra).
  assert (Sq : (2*(d01*w0*w1 + d02*w0*w2 + d12*w1*w2))^2 <= (e*L)^2).
  { assert (CS : (d01*w0*w1 + d02*w0*w2 + d12*w1*w2)^2 <= (d01^2+d02^2+d12^2) * ((w0*w1)^2 + (w0*w2)^2 + (w1*w2)^2)).
    { pose proof (pow2_ge_0 (d01*(w0*w2) - d02*(w0*w1))). pose proof (pow2_ge_0 (d01*(w1*w2) - d12*(w0*w1))). pose proof (pow2_ge_0 (d02*(w1*w2) - d12*(w0*w2))). nra. }
    assert (PL : 2*((w0*w1)^2 + (w0*w2)^2 + (w1*w2)^2) <= L^2) by (unfold L; nra).
    assert (D0 : 0 <= d01^2+d02^2+d12^2) by (pose proof (pow2_ge_0 d01); pose proof (pow2_ge_0 d02); pose proof (pow2_ge_0 d12); lra).
    replace ((2*(d01*w0*w1 + d02*w0*w2 + d12*w1*w2))^2) with (4*(d01*w0*w1 + d02*w0*w2 + d12*w1*w2)^2) by ring.
    replace ((e*L)^2) with (e^2*L^2) by ring. set (a := d01^2+d02^2+d12^2) in *. set (b := (w0*w1)^2 + (w0*w2)^2 + (w1*w2)^2) in *.
    assert (b >= 0) by (unfold b; pose proof (pow2_ge_0 (w0*w1)); pose proof (pow2_ge_0 (w0*w2)); pose proof (pow2_ge_0 (w1*w2)); lra).
    apply Rle_trans with (4*(a*b)); [lra|]. apply Rle_trans with (2*a*L^2); [nra|]. apply Rmult_le_compat_r; [apply pow2_ge_0|exact B]. }
  rewrite <- (Rabs_pos_eq (e*L)) by (apply Rmult_le_pos; assumption). apply Rsqr_le_abs_0. unfold Rsqr. nra.
Qed.
(** realizability: a normalised stress whose eigenvalues lie in [-1/3, 2/3] is moved to one in the same range, up to delta times what the
    iteration left beside the diagonal; when D is diagonal (e = 0) the range is kept exactly, the stress is positive semi-definite *)
Theorem C94_realizable delta pertK t k b e : symmetric 3 b -> 0 <= delta <= 1 -> 0 <= e -> 2 * off2 (snd (sym_diagonalize3 b)) <= e^2 ->
  (forall v, -1/3 * len2 v <= qform b v <= 2/3 * len2 v) ->
  let b' := fst (pert_stress delta pertK t k b) in let Rs := snd (pert_stress delta pertK t k b) in
  (forall v, (-1/3 - delta*e) * len2 v <= qform b' v <= (2/3 + delta*e) * len2 v)
  /\ (forall v, - (2 * Rmax (k * (1 + pertK)) (1/10^16) * (delta*e)) * len2 v <= qform Rs v).
Proof.
  intros Sy Hd He Bo Bq. unfold pert_stress. cbn zeta. cbn [fst snd].
  pose proof (jac_loop_inv 23 b quat_one one_len) as U. unfold sym_diagonalize3 in *. set (q := jac_loop 23 b quat_one) in *. clearbody q. cbn [fst snd] in *.
  set (D := Dmat b q) in *. set (Q := quat_mat q) in *.
  assert (SyD : symmetric 3 D) by (intros i j Hi Hj; apply Dmat_sym; assumption).
  assert (First : forall v, (-1/3 - delta*e) * len2 v <= qform (reconstruct 3 (perturb delta t D) Q) v <= (2/3 + delta*e) * len2 v).
  { intros v. rewrite qform_reconstruct. set (y := fun k0 => sumn 3 (fun i => Q i k0 * v i)).
    assert (EL : len2 y = len2 v) by (apply len_turned; exact U).
    assert (EB : qform D y = qform b v).
    { unfold y. rewrite <- qform_reconstruct. apply qform_ext. intros i j Hi Hj. rewrite (Dmat_back b q Sy U i j Hi Hj). unfold reconstruct, mat_mul, sumn. cbn [seq fold_left]. unfold D, Q. ring. }
    specialize (Bq v). rewrite <- EB, <- EL in Bq. rewrite <- EL. clear EB EL. clearbody y. clear v U.
    destruct (C94_perturbed_eigenvalues delta t D) as (_ & Of & _).
    destruct (perturb_diag delta t D 0 ltac:(lia)) as (k0 & _ & E0). destruct (perturb_diag delta t D 1 ltac:(lia)) as (k1 & _ & E1). destruct (perturb_diag delta t D 2 ltac:(lia)) as (k2 & _ & E2).
    pose proof (bias_bounds t k0) as G0. pose proof (bias_bounds t k1) as G1. pose proof (bias_bounds t k2) as G2.
    assert (S10 : D 1%nat 0%nat = D 0%nat 1%nat) by (apply SyD; lia). assert (S20 : D 2%nat 0%nat = D 0%nat 2%nat) by (apply SyD; lia). assert (S21 : D 2%nat 1%nat = D 1%nat 2%nat) by (apply SyD; lia).
    pose proof (off_form (D 0%nat 1%nat) (D 0%nat 2%nat) (D 1%nat 2%nat) (y 0%nat) (y 1%nat) (y 2%nat) e He Bo) as OF.
    unfold qform, len2, sumn in *. cbn [seq fold_left] in *. rewrite E0, E1, E2, !(Of 0%nat), !(Of 1%nat 0%nat), !(Of 1%nat 2%nat), !(Of 2%nat) by lia. rewrite S10, S20, S21 in *.
    set (g0 := bias t k0) in *. set (g1 := bias t k1) in *. set (g2 := bias t k2) in *.
    set (d01 := D 0%nat 1%nat) in *. set (d02 := D 0%nat 2%nat) in *. set (d12 := D 1%nat 2%nat) in *. set (d0 := D 0%nat 0%nat) in *. set (d1 := D 1%nat 1%nat) in *. set (d2 := D 2%nat 2%nat) in *.
    clearbody g0 g1 g2 d01 d02 d12 d0 d1 d2. clear - Hd He Bq G0 G1 G2 OF.
    set (y0 := y 0%nat) in *. set (y1 := y 1%nat) in *. set (y2 := y 2%nat) in *. clearbody y0 y1 y2. clear y.
    set (F := 2*(d01*y0*y1 + d02*y0*y2 + d12*y1*y2)) in *. set (B0 := d0*(y0*y0) + d1*(y1*y1) + d2*(y2*y2)).
    set (L := y0*y0+y1*y1+y2*y2) in *.
    assert (Eq1 : 0 + (0 + y0*d0*y0 + y0*d01*y1 + y0*d02*y2) + (0 + y1*d01*y0 + y1*d1*y1 + y1*d12*y2) + (0 + y2*d02*y0 + y2*d12*y1 + y2*d2*y2) = B0 + F) by (unfold B0, F; ring).
    rewrite Eq1 in Bq. replace (0 + y0*y0 + y1*y1 + y2*y2) with L in * by (unfold L; ring).
    set (G := g0*(y0*y0) + g1*(y1*y1) + g2*(y2*y2)).
    assert (GB : -1/3 * L <= G <= 2/3 * L) by (unfold G, L; pose proof (Rle_0_sqr y0); pose proof (Rle_0_sqr y1); pose proof (Rle_0_sqr y2); unfold Rsqr in *; split; nra).
    match goal with |- _ <= ?X <= _ => assert (Eq2 : X = (1 - delta)*(B0 + F) + delta*G + delta*F) by (unfold B0, F, G; ring); rewrite Eq2 end.
    assert (FB : - (e*L) <= F <= e*L) by (split; [pose proof (Rle_abs (-F)) as Z; rewrite Rabs_Ropp in Z; lra|pose proof (Rle_abs F); lra]).
    clear OF Eq1 Eq2. assert (HL : 0 <= L) by (unfold L; nra). set (H := B0 + F) in *. clearbody G F H L. split; nra. }
  split; [exact First|]. intros v. destruct (First v) as [Lo _]. set (kp := Rmax _ _) in *.
  assert (Kp : 0 < kp) by (apply Rlt_le_trans with (1/10^16); [apply Rdiv_lt_0_compat; [lra|apply pow_lt; lra]|apply Rmax_r]).
  set (b' := reconstruct 3 (perturb delta t D) Q) in *. clearbody b' kp. 
  assert (E : qform (fun i j => (b' i j + (if Nat.eqb i j then 1/3 else 0)) * 2 * kp) v = 2*kp*(qform b' v + 1/3*len2 v)) by (unfold qform, len2, sumn; cbn [seq fold_left Nat.eqb]; ring).
  rewrite E. set (L := len2 v) in *. set (qb := qform b' v) in *. clearbody L qb. assert (P : - (delta*e*L) <= qb + 1/3*L) by lra.
  apply Rle_trans with (2*kp*(- (delta*e*L))); [right; ring|]. apply Rmult_le_compat_l; lra.
Qed.
(** delta 0 and no change of turbulent energy: the ordinary stress, exactly, whatever the iteration left *)
Theorem C94_no_perturbation b t k : symmetric 3 b -> 1/10^16 <= k -> forall i j, (i < 3)%nat -> (j < 3)%nat ->
  snd (pert_stress 0 0 t k b) i j = 2*k*b i j + (if Nat.eqb i j then 2/3*k else 0).
Proof.
  intros Sy Hk i j Hi Hj. unfold pert_stress. cbn zeta. cbn [snd].
  assert (E : reconstruct 3 (perturb 0 t (snd (sym_diagonalize3 b))) (fst (sym_diagonalize3 b)) i j = b i j).
  { rewrite <- (C94_reconstruct_decomposition b Sy i j Hi Hj). set (D := snd (sym_diagonalize3 b)).
    assert (P : forall a c, (a < 3)%nat -> (c < 3)%nat -> perturb 0 t D a c = D a c).
    { intros a c Ha Hc. destruct (Nat.eq_dec a c) as [<-|N]; [|apply C94_perturbed_eigenvalues; exact N]. destruct (perturb_diag 0 t D a Ha) as (k' & _ & ->). ring. }
    unfold reconstruct, mat_mul. cbn [seq fold_left]. rewrite !P by lia. reflexivity. }
  rewrite E. replace (k*(1+0)) with k by ring. rewrite Rmax_left by exact Hk. destruct (Nat.eqb i j); field.
Qed.
(** in particular the edge stress in space is the Boussinesq stress of the edge velocity gradient *)
Theorem C94_unperturbed_edge_stress h g bold e : h_delta h = 0 -> h_pertK h = 0 -> forall i j, (i < 3)%nat -> (j < 3)%nat ->
  let G := edge_dudx 3 h g e in
  snd (edge_stress 3 h g bold e) i j = - nut_ip h g e * (G i j + G j i) + (if Nat.eqb i j then 2/3*(k_ip g e + nut_ip h g e * h_divU h * trace3 G) else 0).
Proof.
  intros Hd Hp i j Hi Hj G. unfold edge_stress. rewrite Hd, Hp. fold G.
  assert (Hk : 1/10^16 <= k_ip g e) by (unfold k_ip; pose proof (Rmax_r (g_k g (eL e)) (1/10^16)); pose proof (Rmax_r (g_k g (eR e)) (1/10^16)); lra).
  assert (K0 : 0 < k_ip g e) by (apply Rlt_le_trans with (1/10^16); [apply Rdiv_lt_0_compat; [lra|apply pow_lt; lra]|exact Hk]).
  rewrite C94_no_perturbation; [|intros a c Ha Hc; unfold norm_stress; rewrite (proj2 (Nat.ltb_lt a 3) Ha), (proj2 (Nat.ltb_lt c 3) Hc), (Nat.eqb_sym c a); cbn [andb]; destruct (Nat.eqb a c) eqn:E; [apply Nat.eqb_eq in E; subst; field; lra|field; lra]|exact Hk|exact Hi|exact Hj].
  unfold norm_stress. rewrite (proj2 (Nat.ltb_lt i 3) Hi), (proj2 (Nat.ltb_lt j 3) Hj). cbn [andb]. unfold trace3. destruct (Nat.eqb i j); unfold sumn; cbn [seq fold_left]; field; lra.
Qed.
