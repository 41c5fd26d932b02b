(** C95: the theorems. The legacy arrays, started from zero, hold exactly the consolidated kernel's matrix and
    right-hand side; nothing is written outside them; conservation and exact linearisation hold for the arrays. *)
Require Import Reals List Bool Arith Lia Lra.
From Verif Require Import Edge_Model Edge_Proofs Elem_Model Elem_Spec Elem_Proofs Elem_Props Elem_Props2 Bnd_Model Bnd_Spec Bnd_Props Bnd_Props2
  Leg_Model Leg_Props Leg_Props2 Leg_Props3.
Import ListNotations.
Open Scope R_scope.

Definition ezero : esys := mkE (fun _ _ => 0) (fun _ => 0).
(** the flat arrays of [n] rows contain the system [s] and no write fell outside them *)
Definition contains (n : nat) (f : fsys) (s : esys) : Prop :=
  (forall a b, (a < n)%nat -> (b < n)%nat -> fl f (a*n+b)%nat = eL_ s a b) /\ (forall a, (a < n)%nat -> fb f a = eB s a)
  /\ (forall k, (n*n <= k)%nat -> fl f k = 0) /\ (forall k, (n <= k)%nat -> fb f k = 0).
Lemma holds_contains n f s : holds n f s -> contains n f s.
Proof. intros [[H1 H2] [H3 H4]]. repeat split; auto. Qed.
Lemma zero_holds n : holds n fzero ezero.
Proof. repeat split; intros; reflexivity. Qed.

Theorem C95_scalar_agrees : forall m o G mdot coef q, lr_ok m ->
  contains (le_n m) (leg_scalar m o G mdot coef q fzero)
    (scalar_upw (elem_of m) o (fun a j => G (le_d m*a+j)%nat) mdot coef q ezero).
Proof. intros. apply holds_contains, scalar_leg; [assumption|apply zero_holds]. Qed.
Theorem C95_scalar_diff_agrees : forall m coef q, lr_ok m ->
  contains (le_n m) (leg_scalar_diff m coef q fzero) (scalar_diff (elem_of m) coef q ezero).
Proof. intros. apply holds_contains, diff_leg; [assumption|apply zero_holds]. Qed.
Theorem C95_continuity_agrees : forall m tau c, lr_ok m ->
  contains (le_n m) (leg_continuity m tau c fzero) (continuity_adv (elem_of m) tau c ezero).
Proof. intros. apply holds_contains, continuity_leg; [assumption|apply zero_holds]. Qed.
Theorem C95_momentum_agrees : forall m o G incl mdot mu u, lr_ok m ->
  contains (le_n m*le_d m) (leg_momentum m o G incl mdot mu u fzero)
    (momentum_upw (elem_of m) o (fun a i j => G (a*le_d m*le_d m + i*le_d m + j)%nat) incl mdot mu u ezero).
Proof. intros. apply holds_contains, momentum_leg; [assumption|apply zero_holds]. Qed.
Theorem C95_scalar_open_agrees : forall m o G mdot q qE, face_ok (face_of m) ->
  contains (lf_n m) (leg_scalar_open m o G mdot q qE fzero) (scalar_open_elem (face_of m) o G mdot q qE ezero).
Proof. intros. apply holds_contains, scalar_open_leg; [assumption|apply zero_holds]. Qed.
Theorem C95_continuity_open_agrees : forall m pen tau c, face_ok (face_of m) ->
  contains (lf_n m) (leg_continuity_open m pen tau c fzero) (continuity_open_elem (face_of m) pen tau c ezero).
Proof. intros. apply holds_contains, continuity_open_leg; [assumption|apply zero_holds]. Qed.
Theorem C95_momentum_open_agrees : forall m o w mdot u, face_ok (face_of m) ->
  contains (lf_n m*lf_d m) (leg_momentum_open m o w mdot u fzero) (momentum_open_elem (face_of m) o w mdot u ezero).
Proof. intros. apply holds_contains, momentum_open_leg; [assumption|apply zero_holds]. Qed.
Theorem C95_symmetry_agrees : forall m mu incl u, face_ok (face_of m) ->
  contains (lf_n m*lf_d m) (leg_momentum_sym m mu incl u fzero) (momentum_sym_elem (face_of m) mu incl u ezero).
Proof. intros. apply holds_contains, sym_leg; [assumption|apply zero_holds]. Qed.

(* ---- properties of the arrays themselves *)
(** right-hand side and every matrix column sum to zero over the rows of the array *)
Definition array_conservative (n : nat) (f : fsys) : Prop :=
  sumn n (fb f) = 0 /\ forall j, (j < n)%nat -> sumn n (fun a => fl f (a*n+j)%nat) = 0.
Definition array_conservative_vec (d nodes : nat) (f : fsys) : Prop :=
  forall i, (i < d)%nat -> sumn nodes (fun a => fb f (a*d+i)%nat) = 0 /\
    forall j, (j < nodes*d)%nat -> sumn nodes (fun a => fl f ((a*d+i)*(nodes*d)+j)%nat) = 0.
(** rhs(q+e) = rhs(q) - lhs*e, row by row of the array *)
Definition array_newton (n : nat) (k : (nat -> R) -> fsys) : Prop :=
  forall q e i, (i < n)%nat -> fb (k (fun a => q a + e a)) i = fb (k q) i - sumn n (fun j => fl (k q) (i*n+j)%nat * e j).

Lemma sumn_0' n : sumn n (fun _ => 0) = 0. Proof. apply sumn_zero. reflexivity. Qed.
Lemma contains_conservative n f k : contains n f (k ezero) -> conservative n k -> array_conservative n f.
Proof.
  intros (H1 & H2 & _) HC. destruct (HC ezero) as [E1 E2]. split.
  - rewrite (sumn_ext n _ (eB (k ezero))) by (intros; apply H2; assumption). rewrite E1. apply sumn_0'.
  - intros j Hj. rewrite (sumn_ext n _ (fun a => eL_ (k ezero) a j)) by (intros; apply H1; assumption). rewrite E2. apply sumn_0'.
Qed.
Lemma contains_conservative_vec d nodes f k : contains (nodes*d) f (k ezero) -> conservative_vec d nodes k -> array_conservative_vec d nodes f.
Proof.
  intros (H1 & H2 & _) HC i Hi. destruct (HC ezero i Hi) as [E1 E2]. split.
  - rewrite (sumn_ext nodes _ (fun a => eB (k ezero) (a*d+i)%nat)) by (intros; apply H2, row_lt; assumption). rewrite E1. apply sumn_0'.
  - intros j Hj. rewrite (sumn_ext nodes _ (fun a => eL_ (k ezero) (a*d+i)%nat j)) by (intros; apply H1; [apply row_lt|]; assumption). rewrite E2. apply sumn_0'.
Qed.
Lemma contains_newton n (F : (nat -> R) -> fsys) k : (forall q, contains n (F q) (k q ezero)) -> exact_newton n k -> array_newton n F.
Proof.
  intros HF HN q e i Hi. destruct (HF q) as (H1 & H2 & _). destruct (HF (fun a => q a + e a)) as (_ & H4 & _).
  rewrite H4, H2 by assumption. rewrite (HN q e ezero i Hi). f_equal. apply sumn_ext. intros j Hj. rewrite H1 by assumption.
  cbn [eL_ ezero]. ring.
Qed.
Lemma maps_of m : lr_ok m -> maps_ok (elem_of m).
Proof. intros H. split; [exact H|]. intros ip Hip. cbn [nscv elem_of] in Hip. lia. Qed.

Theorem C95_conservative : forall m o G Gu incl mdot coef q u tau c, lr_ok m ->
  array_conservative (le_n m) (leg_scalar m o G mdot coef q fzero) /\
  array_conservative (le_n m) (leg_scalar_diff m coef q fzero) /\
  array_conservative (le_n m) (leg_continuity m tau c fzero) /\
  array_conservative_vec (le_d m) (le_n m) (leg_momentum m o Gu incl mdot coef u fzero).
Proof.
  intros. pose proof (maps_of m H) as HM. split; [|split; [|split]].
  - exact (contains_conservative _ _ _ (C95_scalar_agrees m o G mdot coef q H) (C49_scalar_upwind_conservative _ _ _ _ _ _ HM)).
  - exact (contains_conservative _ _ _ (C95_scalar_diff_agrees m coef q H) (C49_scalar_diff_conservative _ _ _ HM)).
  - exact (contains_conservative _ _ _ (C95_continuity_agrees m tau c H) (C49_continuity_conservative _ _ _ HM)).
  - exact (contains_conservative_vec _ _ _ _ (C95_momentum_agrees m o Gu incl mdot coef u H) (C49_momentum_upwind_conservative _ _ _ _ _ _ _ HM)).
Qed.

Theorem C95_exact_linearisation : forall m o G Gu mdot coef tau c, lr_ok m -> u_lim o = false -> tau <> 0 -> le_dnl m = le_dn m ->
  array_newton (le_n m) (fun q => leg_scalar m o G mdot coef q fzero) /\
  array_newton (le_n m) (fun q => leg_scalar_diff m coef q fzero) /\
  array_newton (le_n m) (fun p => leg_continuity m tau (with_p c p) fzero) /\
  array_newton (le_n m*le_d m) (fun u => leg_momentum m o Gu 0 mdot coef u fzero).
Proof.
  intros m o G Gu mdot coef tau c H Hl Ht Hd. pose proof (maps_of m H) as HM. split; [|split; [|split]].
  - exact (contains_newton _ _ _ (fun q => C95_scalar_agrees m o G mdot coef q H) (C50_scalar_upwind_newton _ _ _ _ _ HM Hl)).
  - exact (contains_newton _ _ _ (fun q => C95_scalar_diff_agrees m coef q H) (C50_scalar_diff_newton (elem_of m) coef)).
  - refine (contains_newton _ _ (fun p => continuity_adv (elem_of m) tau (with_p c p)) (fun p => C95_continuity_agrees m tau (with_p c p) H) _). apply (C50_continuity_newton (elem_of m) tau c Ht).
    intros. cbn [dndx_lhs dndx elem_of]. rewrite Hd. reflexivity.
  - exact (contains_newton _ _ _ (fun u => C95_momentum_agrees m o Gu 0 mdot coef u H) (C50_momentum_upwind_newton _ _ _ _ _ HM Hl)).
Qed.
Theorem C95_boundary_linearisation : forall m o G mdot qE mu, face_ok (face_of m) ->
  array_newton (lf_n m) (fun q => leg_scalar_open m o G mdot q qE fzero) /\
  array_newton (lf_n m*lf_d m) (fun u => leg_momentum_sym m mu 0 u fzero).
Proof.
  intros m o G mdot qE mu H. split.
  - exact (contains_newton _ _ (fun q => scalar_open_elem (face_of m) o G mdot q qE) (fun q => C95_scalar_open_agrees m o G mdot q qE H) (C71_elem_scalar_matrix _ _ _ _ _ H)).
  - exact (contains_newton _ _ (fun u => momentum_sym_elem (face_of m) mu 0 u) (fun u => C95_symmetry_agrees m mu 0 u H) (C72_elem_symmetry_matrix (face_of m) mu)).
Qed.

(** the gradient operators: residual and matrix use the same one unless the reduced (edge-like) stencil is asked
    for without shifting; then the residual keeps the plain operator *)
Theorem C95_gradient_choice : forall shift reduced plain shifted,
  let '(dn, dnl) := grad_choice shift reduced plain shifted in
  (shift || negb reduced = true -> dnl = dn)%bool /\
  (shift = false -> dn = plain /\ (reduced = true -> dnl = shifted)) /\ (shift = true -> dn = shifted).
Proof. intros [] [] plain shifted; cbn; repeat split; intros; try discriminate; reflexivity. Qed.

(** a uniform scalar only sees the net mass outflow; a level change of the pressure does nothing *)
Theorem C95_uniform_scalar : forall m o G mdot coef q c i, lr_ok m -> (i < le_n m)%nat ->
  unity (le_n m) (le_ip m) (fun ip ic => le_Na m (ip*le_n m+ic)%nat) -> grad_unity (elem_of m) ->
  (forall a, (a < le_n m)%nat -> q a = c) -> (forall k, G k = 0) ->
  fb (leg_scalar m o G mdot coef q fzero) i = - c * net_out (elem_of m) mdot i.
Proof.
  intros m o G mdot coef q c i H Hi HU HG Hq HG0. destruct (C95_scalar_agrees m o G mdot coef q H) as (_ & E & _).
  rewrite E by assumption. rewrite (C51_uniform_scalar_upwind (elem_of m) o _ mdot coef q c ezero i (maps_of m H) HU HG Hq) by (intros; apply HG0).
  cbn [eB ezero]. ring.
Qed.
Theorem C95_pressure_level_irrelevant : forall m tau c k i, lr_ok m -> (i < le_n m)%nat -> grad_unity (elem_of m) ->
  fb (leg_continuity m tau (with_p c (fun a => cf_p c a + k)) fzero) i = fb (leg_continuity m tau c fzero) i.
Proof.
  intros m tau c k i H Hi HG. destruct (C95_continuity_agrees m tau c H) as (_ & E & _).
  destruct (C95_continuity_agrees m tau (with_p c (fun a => cf_p c a + k)) H) as (_ & E' & _).
  rewrite E, E' by assumption. apply C51_pressure_level_irrelevant. exact HG.
Qed.

(* ---- a unit triangle, flat data as the master element returns it *)
Definition of_l (l : list R) (k : nat) : R := nth k l 0.
Definition tri_fel : fel := mkFel 3 3 2 (fun k => nth k [0;1;1;2;0;2]%nat 0%nat)
  (of_l [5/12;5/12;1/6; 1/6;5/12;5/12; 5/12;1/6;5/12]) (of_l [1/2;1/2;0; 0;1/2;1/2; 1/2;0;1/2])
  (of_l [-1;-1;1;0;0;1; -1;-1;1;0;0;1; -1;-1;1;0;0;1]) (of_l [-1;-1;1;0;0;1; -1;-1;1;0;0;1; -1;-1;1;0;0;1])
  (of_l [1/3;1/6; -1/6;1/6; 1/6;1/3]).
Theorem C95_example : lr_ok tri_fel /\
  unity 3 3 (fun ip ic => le_Na tri_fel (ip*3+ic)%nat) /\ grad_unity (elem_of tri_fel) /\
  fb (leg_scalar_diff tri_fel (fun _ => 1) (of_l [0;1;0]) fzero) 0 = 1/2 /\
  fl (leg_scalar_diff tri_fel (fun _ => 1) (of_l [0;1;0]) fzero) 1 = -1/2.
Proof.
  assert (L : lr_ok tri_fel).
  { intros ip Hip. cbn [le_ip le_n tri_fel] in *. assert (ip = 0 \/ ip = 1 \/ ip = 2)%nat as [->|[->| ->]] by lia; cbn; lia. }
  split; [exact L|]. split; [|split; [|split]].
  - intros ip Hip. assert (ip = 0 \/ ip = 1 \/ ip = 2)%nat as [->|[->| ->]] by lia; unfold sumn; cbn; lra.
  - intros ip j Hip Hj. cbn [nscs ndim npe elem_of tri_fel le_ip le_d le_n] in *.
    assert (ip = 0 \/ ip = 1 \/ ip = 2)%nat as [->|[->| ->]] by lia; assert (j = 0 \/ j = 1)%nat as [->| ->] by lia; unfold sumn; cbn; lra.
  - cbv [leg_scalar_diff loop fold_left seq incL incB fb fl fzero le_ip le_n le_d le_lr le_N le_dn le_A tri_fel of_l nth Nat.mul Nat.add Nat.eqb]. lra.
  - cbv [leg_scalar_diff loop fold_left seq incL incB fb fl fzero le_ip le_n le_d le_lr le_N le_dn le_A tri_fel of_l nth Nat.mul Nat.add Nat.eqb]. lra.
Qed.
