(** C94: the eigen-decomposition. *)
Require Import Reals List Bool Arith Lia Lra Psatz.
From Verif Require Import Edge_Model Edge_Proofs Eig_Model.
Import ListNotations.
Open Scope R_scope.

(** *** specification *)
Definition msum (n : nat) (f : nat -> R) : R := sumn n f.
Definition symmetric (n : nat) (A : mat) : Prop := forall i j, (i < n)%nat -> (j < n)%nat -> A i j = A j i.
Definition orthogonal (n : nat) (Q : mat) : Prop := forall i j, (i < n)%nat -> (j < n)%nat -> sumn n (fun k => Q k i * Q k j) = if Nat.eqb i j then 1 else 0.
Definition diagonal (n : nat) (D : mat) : Prop := forall i j, (i < n)%nat -> (j < n)%nat -> i <> j -> D i j = 0.
(** A = Q D Q^T *)
Definition composed (n : nat) (Q D A : mat) : Prop := forall i j, (i < n)%nat -> (j < n)%nat -> A i j = sumn n (fun k => sumn n (fun l => Q i k * D k l * Q j l)).
(** square of the Frobenius norm of the part above the diagonal *)
Definition off2 (D : mat) : R := (D 0%nat 1%nat)^2 + (D 0%nat 2%nat)^2 + (D 1%nat 2%nat)^2.
Definition trace3 (A : mat) : R := A 0%nat 0%nat + A 1%nat 1%nat + A 2%nat 2%nat.

Ltac ix i H := let C := fresh in assert (C : (i = 0 \/ i = 1 \/ i = 2)%nat) by lia; clear H; destruct C as [->|[->| ->]].

(** *** two by two *)
Theorem C94_plane_decomposition A : symmetric 2 A -> let Q := fst (sym_diagonalize2 A) in let D := snd (sym_diagonalize2 A) in
  orthogonal 2 Q /\ diagonal 2 D /\ composed 2 Q D A.
Proof.
  intros Sy. assert (S : A 1%nat 0%nat = A 0%nat 1%nat) by (apply Sy; lia).
  assert (two : forall i, (i < 2)%nat -> i = 0%nat \/ i = 1%nat) by (intros; lia).
  unfold sym_diagonalize2. cbn [fst snd]. destruct (Req_EM_T (A 1%nat 0%nat) 0) as [Z|NZ].
  - cbn zeta. split; [|split].
    + intros i j Hi Hj. destruct (two i Hi) as [->| ->], (two j Hj) as [->| ->]; unfold sumn; cbn [seq fold_left Nat.eqb]; ring.
    + intros i j Hi Hj N. destruct (two i Hi) as [->| ->], (two j Hj) as [->| ->]; try reflexivity; contradiction.
    + intros i j Hi Hj. destruct (two i Hi) as [->| ->], (two j Hj) as [->| ->]; unfold sumn; cbn [seq fold_left Nat.eqb]; try ring; rewrite <- ?S, ?Z; ring.
  - rewrite S in *. cbn zeta. set (a := A 0%nat 0%nat) in *. set (b := A 0%nat 1%nat) in *. set (d := A 1%nat 1%nat) in *.
    assert (Disc : (a+d)*(a+d)/4 - (a*d - b*b) = ((a-d)/2)^2 + b^2) by field. rewrite Disc.
    assert (Pos : 0 <= ((a-d)/2)^2 + b^2) by (pose proof (pow2_ge_0 ((a-d)/2)); pose proof (pow2_ge_0 b); lra).
    set (s := sqrt (((a-d)/2)^2 + b^2)). assert (SS : s*s = ((a-d)/2)^2 + b^2) by (apply sqrt_sqrt; exact Pos). clearbody s.
    assert (B2 : 0 < b*b) by nra.
    set (h := (a-d)/2) in *. assert (Ha : a = (a+d)/2 + h) by (unfold h; field). assert (Hdd : d = (a+d)/2 - h) by (unfold h; field).
    set (tr := (a+d)/2) in *. rewrite Ha, Hdd. clearbody h tr.
    replace (tr + h - (tr + s)) with (h - s) by ring. replace (- (tr - h) + (tr - s)) with (h - s) by ring.
    assert (N0 : 0 < b*b + (h-s)*(h-s)) by nra.
    replace (- b * - b + (h-s)*(h-s)) with (b*b + (h-s)*(h-s)) by ring. replace ((h-s)*(h-s) + b*b) with (b*b + (h-s)*(h-s)) by ring.
    set (n := sqrt (b*b + (h-s)*(h-s))). assert (NN : n*n = b*b + (h-s)*(h-s)) by (apply sqrt_sqrt; lra).
    assert (n <> 0) by (intros E; rewrite E in NN; lra). clearbody n.
    assert (NI : / n * / n * (b*b + (h-s)*(h-s)) = 1) by (rewrite <- NN; field; assumption).
    unfold Rdiv. set (m := / n) in *. clearbody m. clear NN H n.
    assert (SS' : s*s = h*h + b*b) by (rewrite SS; ring). clear SS.
    split; [|split].
    + intros i j Hi Hj. destruct (two i Hi) as [->| ->], (two j Hj) as [->| ->]; unfold sumn; cbn [seq fold_left Nat.eqb]; try ring; rewrite <- NI; ring.
    + intros i j Hi Hj N. destruct (two i Hi) as [->| ->], (two j Hj) as [->| ->]; try reflexivity; contradiction.
    + intros i j Hi Hj.
      assert (K : m*m*(b*b - (h-s)*(h-s)) * s = h).
      { transitivity (h * (m*m*(b*b + (h-s)*(h-s)))); [|rewrite NI; ring].
        assert (E : (b*b - (h-s)*(h-s)) * s = h * (b*b + (h-s)*(h-s))).
        { replace (b*b) with (s*s - h*h) by (rewrite SS'; ring). ring. }
        transitivity (m*m*((b*b - (h-s)*(h-s)) * s)); [ring|]. rewrite E. ring. }
      assert (K2 : m*m*((s-h)*s)*2 = 1).
      { rewrite <- NI. transitivity (m*m*(2*((s-h)*s))); [ring|]. f_equal. replace (b*b) with (s*s - h*h) by (rewrite SS'; ring). ring. }
      destruct (two i Hi) as [->| ->], (two j Hj) as [->| ->]; unfold sumn; cbn [seq fold_left].
      * fold a. rewrite Ha. transitivity (tr * (m*m*(b*b + (h-s)*(h-s))) + m*m*(b*b - (h-s)*(h-s)) * s); [rewrite NI, K|]; ring.
      * fold b. transitivity (b * (m*m*((s-h)*s)*2)); [rewrite K2; ring|ring].
      * rewrite S. transitivity (b * (m*m*((s-h)*s)*2)); [rewrite K2; ring|ring].
      * fold d. rewrite Hdd. transitivity (tr * (m*m*(b*b + (h-s)*(h-s))) - m*m*(b*b - (h-s)*(h-s)) * s); [rewrite NI, K|]; ring.
Qed.
