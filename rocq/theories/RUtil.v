(** Small lemmas on reals used throughout. *)
From Coq Require Import Reals Lra Psatz.
Open Scope R_scope.
Lemma Rle_div_l a b c : 0 < c -> (a / c <= b <-> a <= b * c).
Proof.
  intros H. split; intros G.
  - apply Rmult_le_compat_r with (r := c) in G; [|lra]. unfold Rdiv in G.
    rewrite Rmult_assoc, Rinv_l in G; lra.
  - apply Rmult_le_reg_r with c; [exact H|]. unfold Rdiv. rewrite Rmult_assoc, Rinv_l; lra.
Qed.
Lemma Rle_div_r a b c : 0 < c -> (a <= b / c <-> a * c <= b).
Proof.
  intros H. split; intros G.
  - apply Rmult_le_compat_r with (r := c) in G; [|lra]. unfold Rdiv in G.
    rewrite Rmult_assoc, Rinv_l in G; lra.
  - apply Rmult_le_reg_r with c; [exact H|]. unfold Rdiv. rewrite Rmult_assoc, Rinv_l; lra.
Qed.
Lemma Rlt_div_l a b c : 0 < c -> (a / c < b <-> a < b * c).
Proof.
  intros H. split; intros G.
  - apply Rmult_lt_compat_r with (r := c) in G; [|lra]. unfold Rdiv in G.
    rewrite Rmult_assoc, Rinv_l in G; lra.
  - apply Rmult_lt_reg_r with c; [exact H|]. unfold Rdiv. rewrite Rmult_assoc, Rinv_l; lra.
Qed.
Lemma Rlt_div_r a b c : 0 < c -> (a < b / c <-> a * c < b).
Proof.
  intros H. split; intros G.
  - apply Rmult_lt_compat_r with (r := c) in G; [|lra]. unfold Rdiv in G.
    rewrite Rmult_assoc, Rinv_l in G; lra.
  - apply Rmult_lt_reg_r with c; [exact H|]. unfold Rdiv. rewrite Rmult_assoc, Rinv_l; lra.
Qed.
