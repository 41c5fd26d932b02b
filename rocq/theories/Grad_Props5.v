(** C91 continued: solving the projected-nodal-gradient system. *)
Require Import Reals List Bool Lra Lia Arith.
From Verif Require Import RUtil Edge_Model Edge_Proofs Elem_Model Elem_Spec Elem_Proofs Elem_Props2 Rad_Quad_Proofs3 Sum_Proofs.
From Verif Require Tab_LU_Props Sys_Props.
From Verif Require Import Vof_Model Vof_Model2 Vof_Spec Vof_Props6 Grad_Model Grad_Spec Grad_Props Grad_Props3 Grad_Props4.
Import ListNotations.
Open Scope R_scope.

(** t solves the linear system S in N unknowns *)
Definition solves (N : nat) (S : esys) (t : nat -> R) : Prop := forall r, (r < N)%nat -> sumn N (fun c => eL_ S r c * t c) = eB S r.

Lemma mass_apply d NN es fs t i a : png_mesh d NN es fs ->
  sumn NN (fun b => scv_total es (fun e ip => sumn (npe (ve_me e)) (fun ic => at_node b (ve_node e ic) * Nv (ve_me e) ip ic)) a * t (b*d+i)%nat)
  = scv_total es (at_scvp d t i) a.
Proof.
  intros [ME _].
  rewrite (sumn_ext NN _ (fun b => scv_total es (fun e ip => sumn (npe (ve_me e)) (fun ic => at_node b (ve_node e ic) * (Nv (ve_me e) ip ic * t (b*d+i)%nat))) a)).
  2:{ intros b _. rewrite Rmult_comm, <- scv_total_scal. apply scv_total_ext. intros e ip _ _. rewrite <- sumn_scal. apply sumn_ext. intros; ring. }
  rewrite <- scv_total_sumn. apply scv_total_ext. intros e ip He _. rewrite (sumn_swap NN (npe (ve_me e))). unfold at_scvp. apply sumn_ext. intros ic Hic.
  destruct (ME e He) as (_ & _ & HN).
  rewrite (sumn_ext NN _ (fun b => dl b (ve_node e ic) * (Nv (ve_me e) ip ic * t (b*d+i)%nat))) by (intros; reflexivity).
  apply (sumn_dl NN (ve_node e ic) (fun b => Nv (ve_me e) ip ic * t (b*d+i)%nat)). apply HN, Hic.
Qed.
(** matrix times vector: the volume integral of the vector *)
Lemma png_apply d NN q qb dynP es fs G t a i : png_mesh d NN es fs -> (i < d)%nat ->
  sumn (NN*d) (fun c => eL_ (png_system d q qb dynP es fs G) (a*d+i)%nat c * t c) = scv_total es (at_scvp d t i) a.
Proof.
  intros M Hi. rewrite sumn_flat. rewrite <- (mass_apply d NN es fs t i a M). apply sumn_ext. intros b _.
  rewrite (sumn_ext d _ (fun k => dl k i * (scv_total es (fun e ip => sumn (npe (ve_me e)) (fun ic => at_node b (ve_node e ic) * Nv (ve_me e) ip ic)) a * t (b*d+k)%nat))).
  - apply (sumn_dl d i (fun k => scv_total es (fun e ip => sumn (npe (ve_me e)) (fun ic => at_node b (ve_node e ic) * Nv (ve_me e) ip ic)) a * t (b*d+k)%nat) Hi).
  - intros k Hk. rewrite (C91_png_matrix d NN) by assumption. unfold dl. rewrite (Nat.eqb_sym i k). destruct (Nat.eqb k i); ring.
Qed.
Lemma at_scvp_plus d G t i e ip : at_scvp d (fun r => 1 * t r + 1 * G r) i e ip = at_scvp d G i e ip + at_scvp d t i e ip.
Proof. unfold at_scvp. rewrite <- sumn_plus. apply sumn_ext. intros; ring. Qed.
Lemma scv_total_plus els f g a : scv_total els (fun e ip => f e ip + g e ip) a = scv_total els f a + scv_total els g a.
Proof. unfold scv_total. rewrite <- lsum_plus. apply lsum_ext. intros e _. rewrite <- sumn_plus. apply sumn_ext. intros ip _. destruct (Nat.eqb _ _); ring. Qed.
(** ** C91: the matrix is the exact derivative of the residual *)
Theorem C91_png_newton : forall d NN q qb dynP es fs G t a i, png_mesh d NN es fs -> (i < d)%nat ->
  eB (png_system d q qb dynP es fs (fun r => 1 * t r + 1 * G r)) (a*d+i)%nat
  = eB (png_system d q qb dynP es fs G) (a*d+i)%nat - sumn (NN*d) (fun c => eL_ (png_system d q qb dynP es fs G) (a*d+i)%nat c * t c).
Proof.
  intros d NN q qb dynP es fs G t a i M Hi. rewrite (png_apply d NN) by assumption. rewrite !(C91_png_residual d NN) by assumption.
  rewrite (scv_total_ext es (at_scvp d (fun r => 1 * t r + 1 * G r) i) (fun e ip => at_scvp d G i e ip + at_scvp d t i e ip)) by (intros; apply at_scvp_plus).
  rewrite scv_total_plus. ring.
Qed.
(** ** C91: whatever the start, after the first exact linear solve - and after any further iterations - the gradient satisfies
    the weak equation: the volume integral of the gradient over each control volume is the outward surface integral of q *)
Definition weak_gradient (d NN : nat) (q qb : nat -> R) (dynP : gface -> nat -> R) es fs (G : nat -> R) : Prop :=
  forall a i, (a < NN)%nat -> (i < d)%nat ->
    scv_total es (at_scvp d G i) a = inner_surface es (at_ip q) a i + outer_surface fs (fun f ip => at_bip qb f ip - dynP f ip) a i.
Lemma flat_idx d NN a i : (a < NN)%nat -> (i < d)%nat -> (a*d+i < NN*d)%nat.
Proof. intros. nia. Qed.
Theorem C91_png_converges : forall d NN q qb dynP es fs solve G k, png_mesh d NN es fs ->
  (forall G, solves (NN*d) (png_system d q qb dynP es fs G) (solve (png_system d q qb dynP es fs G))) -> (0 < k)%nat ->
  weak_gradient d NN q qb dynP es fs (png_solve solve k (png_system d q qb dynP es fs) G).
Proof.
  intros d NN q qb dynP es fs solve G k M HS Hk a i Ha Hi. destruct k as [|k]; [lia|]. unfold png_solve. rewrite loop_S. cbv zeta.
  set (G' := loop k _ G). clearbody G'. pose proof (HS G' (a*d+i)%nat (flat_idx d NN a i Ha Hi)) as E. rewrite (png_apply d NN) in E by assumption.
  rewrite (C91_png_residual d NN) in E by assumption.
  rewrite (scv_total_ext es _ (fun e ip => at_scvp d G' i e ip + at_scvp d (solve (png_system d q qb dynP es fs G')) i e ip)) by (intros; apply at_scvp_plus).
  rewrite scv_total_plus, E. ring.
Qed.
(** ** C91: the weak equation has at most one solution when every sub-control-volume point gives more than half its weight
    to its own node *)
Definition dominant (NN : nat) (es : list velem) : Prop :=
  (forall e, In e es -> forall ip, (ip < nscv (ve_me e))%nat ->
     0 < vol (ve_me e) ip /\ sumn (npe (ve_me e)) (Nv (ve_me e) ip) = 1 /\ (forall ic, (ic < npe (ve_me e))%nat -> 0 <= Nv (ve_me e) ip ic) /\ 1/2 < Nv (ve_me e) ip (nearest (ve_me e) ip)) /\
  (forall a, (a < NN)%nat -> exists e ip, In e es /\ (ip < nscv (ve_me e))%nat /\ ve_node e (nearest (ve_me e) ip) = a).
Lemma sumn_member n k (f : nat -> R) : (k < n)%nat -> (forall i, (i < n)%nat -> 0 <= f i) -> f k <= sumn n f.
Proof.
  intros Hk H. induction n as [|n IH]; [lia|]. rewrite sumn_S. pose proof (H n ltac:(lia)). destruct (Nat.eq_dec k n) as [->|N].
  - pose proof (sumn_nonneg n f ltac:(intros; apply H; lia)). lra.
  - specialize (IH ltac:(lia) ltac:(intros; apply H; lia)). lra.
Qed.
Lemma scv_total_pos es f a : (forall e ip, In e es -> (ip < nscv (ve_me e))%nat -> ve_node e (nearest (ve_me e) ip) = a -> 0 < vol (ve_me e) ip * f e ip) ->
  (exists e ip, In e es /\ (ip < nscv (ve_me e))%nat /\ ve_node e (nearest (ve_me e) ip) = a) -> 0 < scv_total es f a.
Proof.
  intros H (e & ip & He & Hip & Hn).
  assert (P : forall e, In e es -> forall ip, (ip < nscv (ve_me e))%nat -> 0 <= if Nat.eqb a (ve_node e (nearest (ve_me e) ip)) then vol (ve_me e) ip * f e ip else 0).
  { intros e' He' ip' Hip'. destruct (Nat.eqb_spec a (ve_node e' (nearest (ve_me e') ip'))) as [E|]; [|lra]. left. apply H; auto. }
  assert (Q : 0 < sumn (nscv (ve_me e)) (fun ip => if Nat.eqb a (ve_node e (nearest (ve_me e) ip)) then vol (ve_me e) ip * f e ip else 0)).
  { apply Rlt_le_trans with (if Nat.eqb a (ve_node e (nearest (ve_me e) ip)) then vol (ve_me e) ip * f e ip else 0).
    - rewrite Hn, Nat.eqb_refl. apply H; assumption.
    - apply (sumn_member (nscv (ve_me e)) ip (fun ip => if Nat.eqb a (ve_node e (nearest (ve_me e) ip)) then vol (ve_me e) ip * f e ip else 0)); [exact Hip|intros; apply P; assumption]. }
  unfold scv_total. clear H Hn. induction es as [|e' es IH]; [destruct He|]. rewrite lsum_cons. destruct He as [-> | He].
  - apply Rplus_lt_le_0_compat; [exact Q|]. clear - P. induction es as [|e2 es IH]; [unfold lsum; cbn; lra|]. rewrite lsum_cons.
    apply Rplus_le_le_0_compat; [|apply IH; intros e3 [-> | H3]; apply P; [left; reflexivity | right; right; exact H3]].
    apply sumn_nonneg. intros ip Hip. apply P; [right; left; reflexivity|exact Hip].
  - apply Rplus_le_lt_0_compat; [apply sumn_nonneg; intros; apply P; [left; reflexivity|assumption]|]. apply IH; auto. intros e2 H2. apply P. right. exact H2.
Qed.
Lemma mass_injective d NN es fs t i : png_mesh d NN es fs -> dominant NN es ->
  (forall a, (a < NN)%nat -> scv_total es (at_scvp d t i) a = 0) -> forall a, (a < NN)%nat -> t (a*d+i)%nat = 0.
Proof.
  intros [ME _] [D1 D2] H.
  assert (POS : forall p (s : R), (p < NN)%nat -> (s = 1 \/ s = -1) -> (forall a, (a < NN)%nat -> Rabs (t (a*d+i)%nat) <= s * t (p*d+i)%nat) -> 0 < s * t (p*d+i)%nat -> False).
  { intros p s Hp Hs Hm Hpos.
    assert (0 < scv_total es (fun e ip => s * at_scvp d t i e ip) p).
    { apply scv_total_pos; [|apply D2; exact Hp]. intros e ip He Hip Hn. destruct (D1 e He ip Hip) as (V1 & V2 & V3 & V4). destruct (ME e He) as (_ & [_ M2] & HN).
      apply Rmult_lt_0_compat; [exact V1|]. set (w := nearest (ve_me e) ip) in *. set (T := s * t (p*d+i)%nat) in *.
      assert (L : forall ic, (ic < npe (ve_me e))%nat -> Nv (ve_me e) ip ic * (s * t (ve_node e ic * d + i)%nat) >= dl ic w * (2 * Nv (ve_me e) ip w * T) - Nv (ve_me e) ip ic * T).
      { intros ic Hic. specialize (V3 ic Hic). specialize (Hm (ve_node e ic) (HN ic Hic)). unfold dl. destruct (Nat.eqb_spec ic w) as [E|N].
        - rewrite E, Hn. fold T. rewrite E in V3. lra.
        - assert (- T <= s * t (ve_node e ic * d + i)%nat).
          { pose proof (Rle_abs (t (ve_node e ic * d + i)%nat)). pose proof (Rle_abs (- t (ve_node e ic * d + i)%nat)) as Q. rewrite Rabs_Ropp in Q. destruct Hs as [-> | ->]; lra. }
          nra. }
      apply Rlt_le_trans with (sumn (npe (ve_me e)) (fun ic => dl ic w * (2 * Nv (ve_me e) ip w * T) - Nv (ve_me e) ip ic * T)).
      - rewrite sumn_minus. rewrite (sumn_dl (npe (ve_me e)) w (fun _ => 2 * Nv (ve_me e) ip w * T)) by (apply M2; exact Hip).
        rewrite (sumn_ext (npe (ve_me e)) (fun ic => Nv (ve_me e) ip ic * T) (fun ic => T * Nv (ve_me e) ip ic)) by (intros; ring). rewrite sumn_scal, V2. nra.
      - unfold at_scvp. rewrite <- sumn_scal. apply Tab_LU_Props.sumn_le. intros ic Hic. specialize (L ic Hic). lra. }
    rewrite scv_total_scal, (H p Hp) in H0. lra. }
  intros a Ha. destruct (Tab_LU_Props.argmax NN (fun a => Rabs (t (a*d+i)%nat))) as (p & Hp & Q); [lia|]. cbv beta in Q.
  assert (Z : Rabs (t (p*d+i)%nat) = 0).
  { destruct (Req_dec (Rabs (t (p*d+i)%nat)) 0) as [E|N]; [exact E|exfalso]. pose proof (Rabs_pos (t (p*d+i)%nat)).
    destruct (Rle_dec 0 (t (p*d+i)%nat)) as [K|K].
    - apply (POS p 1 Hp (or_introl eq_refl)); [intros b Hb; specialize (Q b Hb); rewrite (Rabs_right (t (p*d+i)%nat)) in Q by lra; lra|]. rewrite Rabs_right in N by lra. lra.
    - apply (POS p (-1) Hp (or_intror eq_refl)); [intros b Hb; specialize (Q b Hb); rewrite (Rabs_left (t (p*d+i)%nat)) in Q by lra; lra|lra]. }
  specialize (Q a Ha). rewrite Z in Q. pose proof (Rabs_pos (t (a*d+i)%nat)). destruct (Req_dec (t (a*d+i)%nat) 0) as [E|N]; [exact E|]. apply Rabs_pos_lt in N. lra.
Qed.
Theorem C91_png_unique : forall d NN q qb dynP es fs G H, png_mesh d NN es fs -> dominant NN es ->
  weak_gradient d NN q qb dynP es fs G -> weak_gradient d NN q qb dynP es fs H -> forall a i, (a < NN)%nat -> (i < d)%nat -> G (a*d+i)%nat = H (a*d+i)%nat.
Proof.
  intros d NN q qb dynP es fs G H M D WG WH a i Ha Hi. apply Rminus_diag_uniq.
  apply (mass_injective d NN es fs (fun r => G r - H r) i M D); [|exact Ha]. intros b Hb.
  rewrite (scv_total_ext es _ (fun e ip => at_scvp d G i e ip + -1 * at_scvp d H i e ip)).
  2:{ intros. unfold at_scvp. rewrite <- sumn_scal, <- sumn_plus. apply sumn_ext. intros; ring. }
  rewrite scv_total_plus, scv_total_scal, (WG b i Hb Hi), (WH b i Hb Hi). ring.
Qed.
(** ** C91: with the nodes' own values at the sub-control-volume points (shifted) the solution is the Green-Gauss gradient *)
Theorem C91_png_lumped : forall d NN V q qb dynP es fs G a i, png_mesh d NN es fs -> (a < NN)%nat -> (i < d)%nat ->
  (forall e, In e es -> forall ip ic, (ip < nscv (ve_me e))%nat -> (ic < npe (ve_me e))%nat -> Nv (ve_me e) ip ic = if Nat.eqb ic (nearest (ve_me e) ip) then 1 else 0) ->
  (forall b, V b = scv_total es (fun _ _ => 1) b) -> V a <> 0 ->
  weak_gradient d NN q qb dynP es fs G -> G (a*d+i)%nat = rank_grad d V q qb dynP es [] fs a i.
Proof.
  intros d NN V q qb dynP es fs G a i M Ha Hi HL HV Va W. pose proof (W a i Ha Hi) as E.
  assert (EQ : scv_total es (at_scvp d G i) a = G (a*d+i)%nat * V a).
  { rewrite HV, <- scv_total_scal. unfold scv_total. apply lsum_ext. intros e He. apply sumn_ext. intros ip Hip.
    destruct (Nat.eqb_spec a (ve_node e (nearest (ve_me e) ip))) as [Q|]; [|reflexivity]. f_equal. rewrite Rmult_1_r. unfold at_scvp.
    destruct M as [ME _]. destruct (ME e He) as (_ & [_ M2] & _).
    rewrite (sumn_ext (npe (ve_me e)) _ (fun ic => dl ic (nearest (ve_me e) ip) * G (ve_node e ic * d + i)%nat)).
    - rewrite (sumn_dl (npe (ve_me e)) (nearest (ve_me e) ip) (fun ic => G (ve_node e ic * d + i)%nat)) by (apply M2; exact Hip). rewrite <- Q. reflexivity.
    - intros ic Hic. rewrite HL by assumption. reflexivity. }
  rewrite (C91_green_gauss d V q qb dynP es [] fs a i) by assumption.
  apply Rmult_eq_reg_r with (V a); [|exact Va]. rewrite <- EQ, E. unfold outer_surface at 2. change (lsum _ []) with 0.
  field. exact Va.
Qed.
