(** C85: viscous momentum kernel; the master elements meet the hypotheses. *)
Require Import Reals List Bool Lra Lia Arith.
From Verif Require Import RUtil ME_Model ME_Shape_Model ME_Shape_Spec ME_Shape_Props ME_Shape_Props2 Tensor_Model Tensor_Props.
From Verif Require Import Edge_Model Edge_Proofs Elem_Model Elem_Spec Elem_Proofs Elem_Proofs2 Elem_Props4.
From Verif Require Import Fem_Model Fem_Spec Fem_Props Fem_Props2.
Import ListNotations.
Open Scope R_scope.

Lemma fem_divU_div m u ip : fem_divU m u ip = div m u ip.
Proof. unfold fem_divU, div, gradu, grad, comp. rewrite sumn_swap. reflexivity. Qed.

Lemma fem_mom_diff_gal m incl mu u : galv (f_ngp m) (f_npe m) (f_dim m) (fem_mom_diff m incl mu u)
  (fun ip a i b j => ipF m ip * (value m mu ip * (dl i j * dot (f_dim m) (dshape m a ip) (dshape m b ip) + f_dn m ip a j * f_dn m ip b i)))
  (fun ip a i => - (ipF m ip * (value m mu ip * dot (f_dim m) (dshape m a ip) (fun j => gradu m u ip i j + gradu m u ip j i)
      - INR (f_npe m) * (2/3 * value m mu ip * div m u ip * incl) * f_dn m ip a i))).
Proof.
  unfold fem_mom_diff. cbv zeta. apply galv_loop. intros ip ir s Hip Hir. rewrite fem_divU_div. change (at_gp m mu ip) with (value m mu ip).
  set (F := ipF m ip). set (M := value m mu ip). set (d := f_dim m). set (K := 2/3*M*div m u ip*incl).
  set (D := fun ic => dot d (dshape m ir ip) (dshape m ic ip)).
  set (z := fun ic i => F * (M * D ic) * u (ic*d+i)%nat + sumn d (fun j => F * (M * (f_dn m ip ir j * f_dn m ip ic i)) * u (ic*d+j)%nat) - F * (K * f_dn m ip ir i)).
  eapply eff_ext.
  - apply (eff_loop (f_npe m) _ (fun ic row col => sumn d (fun i => dl row (ir*d+i) * sumn d (fun j => dl col (ic*d+j) * (F * (M * (dl i j * D ic + f_dn m ip ir j * f_dn m ip ic i))))))
      (fun ic row => sumn d (fun i => dl row (ir*d+i) * - z ic i))).
    intros ic s1 Hic. apply (eff_loop d _ (fun i row col => dl row (ir*d+i) * sumn d (fun j => dl col (ic*d+j) * (F * (M * (dl i j * D ic + f_dn m ip ir j * f_dn m ip ic i)))))
      (fun i row => dl row (ir*d+i) * - z ic i)).
    intros i s2 Hi.
    match goal with |- context [loop d ?b (?s0, 0)] =>
      destruct (loop_acc d b (fun j a => a + M * f_dn m ip ir j * f_dn m ip ic j * F)
        (fun j row col => dl row (ir*d+i) * (dl col (ic*d+j) * (F * (M * (f_dn m ip ir j * f_dn m ip ic i)))))
        (fun j row => dl row (ir*d+i) * - (F * (M * (f_dn m ip ir j * f_dn m ip ic i)) * u (ic*d+j)%nat)) s0 0) as [E1 E2];
      [reflexivity| |destruct (loop d b (s0, 0)) as [s' x]] end.
    { intros j s3 a Hj. cbn [fst]. eapply eff_ext; [effs| |]; intros; cbv beta; ring. }
    cbn [fst snd] in *. rewrite loop_sum, Rplus_0_l in E1.
    assert (Ex : x = F * (M * D ic)). { rewrite E1. unfold D, dot. rewrite <- !sumn_scal. apply sumn_ext. intros; unfold dshape; ring. }
    clear E1. subst x. eapply eff_ext.
    + eapply eff_trans; [|eff1]. eapply eff_trans; [|eff1]. eapply eff_trans; [|exact E2]. eff1.
    + intros row col; cbv beta. rewrite sumn_scal.
      rewrite (sumn_ext d (fun j => dl col (ic*d+j) * (F * (M * (dl i j * D ic + _)))) (fun j => dl i j * (dl col (ic*d+j) * (F * (M * D ic))) + dl col (ic*d+j) * (F * (M * (f_dn m ip ir j * f_dn m ip ic i))))) by (intros; ring).
      rewrite sumn_plus, sumn_dl2 by assumption. ring.
    + intros row; cbv beta. rewrite sumn_scal, sumn_opp. unfold z. ring.
  - intros row col. cbv beta. rewrite sumn_swap. unfold rowA. apply sumn_ext. intros i Hi. rewrite sumn_scal. reflexivity.
  - intros row. cbv beta. rewrite sumn_swap. unfold rowB. apply sumn_ext. intros i Hi. rewrite sumn_scal. f_equal. rewrite sumn_opp. f_equal.
    unfold z. rewrite sumn_minus, sumn_plus.
    assert (A0 : sumn (f_npe m) (fun _ => F * (K * f_dn m ip ir i)) = INR (f_npe m) * (F * (K * f_dn m ip ir i))).
    { generalize (f_npe m). intros n. induction n; [rewrite sumn_0; cbn; ring|]. rewrite sumn_S, IHn, S_INR. ring. }
    assert (A1 : sumn (f_npe m) (fun ic => F * (M * D ic) * u (ic*d+i)%nat) = F * (M * dot d (dshape m ir ip) (fun j => gradu m u ip i j))).
    { unfold gradu. change (fun j => grad m (comp (f_dim m) u i) ip j) with (grad m (comp (f_dim m) u i) ip). unfold d. rewrite (dot_cols m (dshape m ir ip) (comp (f_dim m) u i)).
      rewrite <- !sumn_scal. apply sumn_ext. intros. unfold D, comp, d. ring. }
    assert (A2 : sumn (f_npe m) (fun ic => sumn d (fun j => F * (M * (f_dn m ip ir j * f_dn m ip ic i)) * u (ic*d+j)%nat)) = F * (M * dot d (dshape m ir ip) (fun j => gradu m u ip j i))).
    { rewrite sumn_swap. unfold dot. rewrite <- !sumn_scal. apply sumn_ext. intros j Hj. unfold gradu, grad, comp. fold d.
      rewrite (sumn_ext (f_npe m) (fun i0 => F * _ * _) (fun ic => (F * (M * f_dn m ip ir j)) * (f_dn m ip ic i * u (ic*d+j)%nat))) by (intros; ring).
      rewrite sumn_scal. unfold dshape. ring. }
    rewrite A0, A1, A2, (dot_plus d (dshape m ir ip) (fun j => gradu m u ip i j) (fun j => gradu m u ip j i)).
    generalize (dot d (dshape m ir ip) (fun j => gradu m u ip i j)) (dot d (dshape m ir ip) (fun j => gradu m u ip j i)). intros X Y. ring.
Qed.
(** without the divergence term the residual is the weak form of mu*(grad u + grad u^T) *)
Theorem C85_viscous_weak_form_partial : forall m mu u s a i, (a < f_npe m)%nat -> (i < f_dim m)%nat ->
  added_rhs (fem_mom_diff m 0 mu u) s (a*f_dim m+i) =
  - integral m (fun ip => dot (f_dim m) (dshape m a ip) (fun j => value m mu ip * (gradu m u ip i j + gradu m u ip j i))).
Proof.
  intros. rewrite (galv_rhs _ _ _ _ _ _ s a i (fem_mom_diff_gal m 0 mu u)) by assumption. unfold integral. rewrite <- sumn_opp. apply sumn_ext. intros ip _.
  unfold ipF.
  assert (E : dot (f_dim m) (dshape m a ip) (fun j => value m mu ip * (gradu m u ip i j + gradu m u ip j i)) = value m mu ip * dot (f_dim m) (dshape m a ip) (fun j => gradu m u ip i j + gradu m u ip j i)).
  { unfold dot. rewrite <- sumn_scal. apply sumn_ext. intros; ring. }
  rewrite E. ring.
Qed.
(** with it, the isotropic part -2/3 mu div u is counted once per element node instead of once *)
Theorem C85_divergence_stress_multiplied : forall m mu u s a i, (a < f_npe m)%nat -> (i < f_dim m)%nat ->
  added_rhs (fem_mom_diff m 1 mu u) s (a*f_dim m+i) =
  - integral m (fun ip => dot (f_dim m) (dshape m a ip) (fun j => value m mu ip * (gradu m u ip i j + gradu m u ip j i)))
  + INR (f_npe m) * integral m (fun ip => 2/3 * value m mu ip * div m u ip * dshape m a ip i).
Proof.
  intros m mu u s a i Ha Hi. rewrite <- (C85_viscous_weak_form_partial m mu u s a i Ha Hi).
  rewrite !(galv_rhs _ _ _ _ _ _ s a i (fem_mom_diff_gal m _ mu u)) by assumption. unfold integral. rewrite <- sumn_scal, <- sumn_plus. apply sumn_ext.
  intros. unfold ipF, dshape. ring.
Qed.
Theorem C85_viscous_conservative : forall m incl mu u, fem_grad_unity m -> conservative_vec (f_dim m) (f_npe m) (fem_mom_diff m incl mu u).
Proof.
  intros m incl mu u H. apply (galv_conservative _ _ _ _ _ _ (fem_mom_diff_gal m incl mu u)).
  - intros ip i b j Hip Hi Hb Hj. rewrite sumn_scal, sumn_scal, sumn_plus, sumn_scal, sumn_scal_r, dot_rows, H by assumption. ring.
  - intros ip i Hip Hi. rewrite sumn_opp, sumn_scal, sumn_minus, sumn_scal, sumn_scal, dot_rows, H by assumption. ring.
Qed.
Theorem C85_viscous_newton_partial : forall m mu, exact_newton (f_npe m*f_dim m) (fem_mom_diff m 0 mu).
Proof.
  intros m mu. apply (galv_newton (f_ngp m) (f_npe m) (f_dim m) (fem_mom_diff m 0 mu) _ _ (fem_mom_diff_gal m 0 mu)). intros u e ip a i Hip Ha Hi.
  rewrite (dot_ext (f_dim m) (dshape m a ip) (fun j => gradu m (fun x => u x + e x) ip i j + gradu m (fun x => u x + e x) ip j i) (dshape m a ip)
     (fun j => (gradu m u ip i j + gradu m u ip j i) + (gradu m e ip i j + gradu m e ip j i))) by (intros; unfold gradu; rewrite ?comp_plus, ?grad_plus; ring).
  rewrite dot_plus.
  assert (E : sumn (f_npe m) (fun b => sumn (f_dim m) (fun j => ipF m ip * (value m mu ip * (dl i j * dot (f_dim m) (dshape m a ip) (dshape m b ip) + f_dn m ip a j * f_dn m ip b i)) * e (b*f_dim m+j)%nat))
      = ipF m ip * (value m mu ip * dot (f_dim m) (dshape m a ip) (fun j => gradu m e ip i j + gradu m e ip j i))).
  { rewrite dot_plus. unfold gradu at 1. change (fun j => grad m (comp (f_dim m) e i) ip j) with (grad m (comp (f_dim m) e i) ip). rewrite (dot_cols m (dshape m a ip) (comp (f_dim m) e i)).
    assert (E2 : dot (f_dim m) (dshape m a ip) (fun j => gradu m e ip j i) = sumn (f_npe m) (fun b => sumn (f_dim m) (fun j => f_dn m ip a j * f_dn m ip b i * e (b*f_dim m+j)%nat))).
    { unfold dot. rewrite sumn_swap. apply sumn_ext. intros j _. unfold gradu, grad, comp, dshape. rewrite <- sumn_scal. apply sumn_ext. intros; ring. }
    rewrite E2, <- sumn_plus, <- !sumn_scal. apply sumn_ext. intros b _.
    rewrite (sumn_ext (f_dim m) (fun j => ipF m ip * _ * _) (fun j => dl i j * (ipF m ip * value m mu ip * dot (f_dim m) (dshape m a ip) (dshape m b ip) * e (b*f_dim m+j)%nat)
       + (ipF m ip * value m mu ip) * (f_dn m ip a j * f_dn m ip b i * e (b*f_dim m+j)%nat))) by (intros; ring).
    rewrite sumn_plus, sumn_dl2, sumn_scal by assumption. unfold comp. ring. }
  rewrite E. ring.
Qed.
Theorem C85_viscous_symmetric : forall m incl mu u, symmetric (f_npe m*f_dim m) (fem_mom_diff m incl mu u).
Proof.
  intros m incl mu u s row col Hr Hc. destruct (flat_div _ _ _ Hr) as (a & i & Ha & Hi & ->). destruct (flat_div _ _ _ Hc) as (b & j & Hb & Hj & ->).
  rewrite !(galv_added _ _ _ _ _ _ s _ _ _ _ (fem_mom_diff_gal m incl mu u)) by assumption. apply sumn_ext. intros ip _. rewrite dot_sym, dl_sym. ring.
Qed.
(** viscous dissipation: the quadratic form is the integral of mu/2 |grad x + grad x^T|^2 *)
Theorem C85_viscous_dissipation : forall m incl mu u s x,
  energy (f_npe m*f_dim m) (fem_mom_diff m incl mu u) s x =
  integral m (fun ip => value m mu ip / 2 * sumn (f_dim m) (fun i => sumn (f_dim m) (fun j => (gradu m x ip i j + gradu m x ip j i) * (gradu m x ip i j + gradu m x ip j i)))).
Proof.
  intros m incl mu u s x. unfold energy. rewrite sumn_flat.
  set (n := f_npe m). set (d := f_dim m).
  assert (E0 : forall ip, (ip < f_ngp m)%nat -> sumn n (fun a => sumn d (fun i => sumn n (fun b => sumn d (fun j =>
      x (a*d+i)%nat * (ipF m ip * (value m mu ip * (dl i j * dot d (dshape m a ip) (dshape m b ip) + f_dn m ip a j * f_dn m ip b i))) * x (b*d+j)%nat)))) =
      ipF m ip * (value m mu ip * sumn d (fun i => sumn d (fun j => gradu m x ip i j * (gradu m x ip i j + gradu m x ip j i))))).
  { intros ip Hip. 
    rewrite (sumn_ext n _ (fun a => sumn d (fun i => sumn d (fun j => (ipF m ip * value m mu ip * (gradu m x ip i j + gradu m x ip j i)) * (f_dn m ip a j * x (a*d+i)%nat))))).
    - rewrite sumn_swap. rewrite <- !sumn_scal. apply sumn_ext. intros i Hi. rewrite sumn_swap, <- !sumn_scal. apply sumn_ext. intros j Hj. rewrite sumn_scal.
      unfold gradu at 3, grad, comp. fold n d. ring.
    - intros a Ha. apply sumn_ext. intros i Hi.
      assert (E1 : sumn n (fun b => sumn d (fun j => x (a*d+i)%nat * (ipF m ip * (value m mu ip * (dl i j * dot d (dshape m a ip) (dshape m b ip) + f_dn m ip a j * f_dn m ip b i))) * x (b*d+j)%nat))
        = (x (a*d+i)%nat * ipF m ip * value m mu ip) * (dot d (dshape m a ip) (fun j => gradu m x ip i j) + dot d (dshape m a ip) (fun j => gradu m x ip j i))).
      { unfold gradu at 1. change (fun j => grad m (comp (f_dim m) x i) ip j) with (grad m (comp (f_dim m) x i) ip). unfold d at 4. rewrite (dot_cols m (dshape m a ip) (comp (f_dim m) x i)).
        assert (E2 : dot d (dshape m a ip) (fun j => gradu m x ip j i) = sumn n (fun b => sumn d (fun j => f_dn m ip a j * f_dn m ip b i * x (b*d+j)%nat))).
        { unfold dot. rewrite (sumn_swap n d). apply sumn_ext. intros j _. unfold gradu, grad, comp, dshape. fold n d. rewrite <- sumn_scal. apply sumn_ext. intros; ring. }
        rewrite E2. fold n d. rewrite <- sumn_plus, <- sumn_scal. apply sumn_ext. intros b _.
        rewrite (sumn_ext d (fun j => _ * x (b*d+j)%nat) (fun j => dl i j * (x (a*d+i)%nat * ipF m ip * value m mu ip * dot d (dshape m a ip) (dshape m b ip) * x (b*d+j)%nat)
            + (x (a*d+i)%nat * ipF m ip * value m mu ip) * (f_dn m ip a j * f_dn m ip b i * x (b*d+j)%nat))) by (intros; ring).
        rewrite sumn_plus, sumn_dl2, sumn_scal by assumption. unfold comp, d. ring. }
      rewrite E1, <- dot_plus. unfold dot. rewrite <- sumn_scal. apply sumn_ext. intros. unfold dshape. ring. }
  transitivity (sumn (f_ngp m) (fun ip => ipF m ip * (value m mu ip * sumn d (fun i => sumn d (fun j => gradu m x ip i j * (gradu m x ip i j + gradu m x ip j i)))))).
  - rewrite <- (sumn_ext (f_ngp m) _ _ E0). rewrite (sumn_swap (f_ngp m)). apply sumn_ext. intros a Ha. rewrite (sumn_swap (f_ngp m)). apply sumn_ext. intros i Hi.
    rewrite (sumn_swap (f_ngp m)), sumn_flat. apply sumn_ext. intros b Hb. rewrite (sumn_swap (f_ngp m)). apply sumn_ext. intros j Hj.
    pose proof (galv_added _ _ _ _ _ _ s a i b j (fem_mom_diff_gal m incl mu u) Ha Hi Hb Hj) as E. unfold added in *. unfold d. rewrite E, <- sumn_scal, <- sumn_scal_r. reflexivity.
  - unfold integral. apply sumn_ext. intros ip _. fold d. unfold ipF.
    assert (E : sumn d (fun i => sumn d (fun j => (gradu m x ip i j + gradu m x ip j i) * (gradu m x ip i j + gradu m x ip j i))) =
       sumn d (fun i => sumn d (fun j => gradu m x ip i j * (gradu m x ip i j + gradu m x ip j i))) + sumn d (fun i => sumn d (fun j => gradu m x ip j i * (gradu m x ip i j + gradu m x ip j i)))).
    { rewrite <- sumn_plus. apply sumn_ext. intros. rewrite <- sumn_plus. apply sumn_ext. intros; ring. }
    rewrite E. rewrite (sumn_swap d d (fun i j => gradu m x ip j i * _)).
    rewrite (sumn_ext d (fun j => sumn d (fun i => gradu m x ip j i * (gradu m x ip i j + gradu m x ip j i))) (fun i => sumn d (fun j => gradu m x ip i j * (gradu m x ip i j + gradu m x ip j i)))) by (intros; apply sumn_ext; intros; ring).
    field.
Qed.
Theorem C85_viscous_positive : forall m incl mu u s x, fem_positive m -> (forall ip, (ip < f_ngp m)%nat -> 0 <= value m mu ip) ->
  0 <= energy (f_npe m*f_dim m) (fem_mom_diff m incl mu u) s x.
Proof.
  intros m incl mu u s x H Hm. rewrite C85_viscous_dissipation. apply integral_nonneg; [assumption|]. intros ip Hip. pose proof (Hm ip Hip). apply Rmult_le_pos; [lra|].
  assert (N : forall d (f : nat -> R), (forall i, 0 <= f i) -> 0 <= sumn d f).
  { intros d f Hf. induction d; [rewrite sumn_0; lra|]. rewrite sumn_S. specialize (Hf d). lra. }
  apply N. intros i. apply N. intros j. apply Rle_0_sqr.
Qed.
(** a rigid motion (velocity v0 + W x with W antisymmetric) feels no viscous force, divergence term or not *)
Theorem C85_rigid_motion_no_viscous_force : forall m x incl mu u v0 W s a i, fem_grad_unity m -> fem_linear_exact m x -> (a < f_npe m)%nat -> (i < f_dim m)%nat ->
  (forall k l, W k l = - W l k) ->
  (forall ic k, (ic < f_npe m)%nat -> (k < f_dim m)%nat -> u (ic*f_dim m+k)%nat = v0 k + sumn (f_dim m) (fun l => W k l * x ic l)) ->
  added_rhs (fem_mom_diff m incl mu u) s (a*f_dim m+i) = 0.
Proof.
  intros m x incl mu u v0 W s a i HU HL Ha Hi HW Hu. rewrite (galv_rhs _ _ _ _ _ _ s a i (fem_mom_diff_gal m incl mu u)) by assumption. apply sumn_zero. intros ip Hip.
  assert (G : forall k l, (k < f_dim m)%nat -> (l < f_dim m)%nat -> gradu m u ip k l = W k l).
  { intros k l Hk Hl. unfold gradu. apply (C85_linear_gradient m x (comp (f_dim m) u k) (v0 k) (W k) ip l HU HL Hip Hl). intros ic Hic. apply Hu; assumption. }
  assert (E1 : dot (f_dim m) (dshape m a ip) (fun j => gradu m u ip i j + gradu m u ip j i) = 0).
  { unfold dot. apply sumn_zero. intros j Hj. rewrite !G, (HW j i) by assumption. ring. }
  assert (E2 : div m u ip = 0).
  { unfold div. apply sumn_zero. intros k Hk. rewrite G by assumption. specialize (HW k k). lra. }
  rewrite E1, E2. ring.
Qed.

(* ------------------------------------------------------------------ master elements *)
Lemma fem_of_ok n ngp N D pt wt x :
  (forall p, ME_Model.rsum (map (N p) (seq 0 n)) = 1) -> derivative_table n 3 (fun _ => True) N D ->
  (forall ip, (ip < ngp)%nat -> grad_op_det 3 n (D (pt ip)) x <> 0) ->
  let m := fem_of n ngp N D pt wt x in
  fem_unity m /\ fem_grad_unity m /\ fem_linear_exact m x.
Proof.
  intros HN HD Hdet m.
  assert (Z : forall p j, (j < 3)%nat -> sumn n (fun a => D p a j) = 0).
  { intros p j Hj. rewrite <- rsum_sumn. apply (C30_derivatives_sum_to_zero n 3 N D p j); [exact HD|exact HN|exact Hj]. }
  split; [|split].
  - intros ip Hip. change (sumn n (N (pt ip)) = 1). rewrite <- rsum_sumn. apply HN.
  - intros ip j Hip Hj. cbn in *. etransitivity; [|apply (C41_gradient_of_constant_is_zero 3 n (D (pt ip)) x 1 j); intros; apply Z; assumption].
    apply sumn_ext. intros; ring.
  - intros ip j k Hip Hj Hk. cbn in *.
    etransitivity; [|apply (C41_gradient_exact_for_linear_fields 3 n (D (pt ip)) x 0 (fun l => if Nat.eqb l k then 1 else 0) j (or_intror eq_refl) Hj);
      [intros; apply Z; assumption | apply Hdet; assumption]].
    apply sumn_ext. intros a _. f_equal. rewrite Rplus_0_l. symmetry. apply (sumn_dl 3 k (fun l => x a l) Hk).
Qed.
(** both element types instantiated for these kernels, on every non-degenerate geometry *)
Theorem C85_elements_meet_hypotheses :
  (forall x, (forall ip, (ip < 8)%nat -> f_det (hex8_fem x) ip <> 0) ->
     fem_unity (hex8_fem x) /\ fem_grad_unity (hex8_fem x) /\ fem_linear_exact (hex8_fem x) x) /\
  (forall ngp pt wt x, (forall ip, (ip < ngp)%nat -> f_det (tet10_fem ngp pt wt x) ip <> 0) ->
     fem_unity (tet10_fem ngp pt wt x) /\ fem_grad_unity (tet10_fem ngp pt wt x) /\ fem_linear_exact (tet10_fem ngp pt wt x) x).
Proof.
  split.
  - intros x H. apply (fem_of_ok 8 8 hex8g_shape hex8g_deriv hex8_gp (fun _ => 1) x).
    + intros p. apply (nb_unity _ _ _ _ _ C30_hex8_general_basis p Logic.I).
    + exact (proj1 C30_hex8_fem_derivatives).
    + exact H.
  - intros ngp pt wt x H. apply (fem_of_ok 10 ngp tet10_shape tet10_deriv pt wt x).
    + intros p. apply (nb_unity _ _ _ _ _ C30_tet10_basis p Logic.I).
    + exact C30_tet10_derivatives.
    + exact H.
Qed.
