(** C85: finite-element kernels, scalar equations. *)
Require Import Reals List Bool Lra Lia Arith.
From Verif Require Import RUtil Edge_Model Edge_Proofs Elem_Model Elem_Spec Elem_Proofs Elem_Proofs2.
From Verif Require Import Fem_Model Fem_Spec.
Import ListNotations.
Open Scope R_scope.

(* ------------------------------------------------------------------ generic Galerkin assembly *)
Definition gA (np n : nat) (c : nat -> nat -> nat -> R) (row col : nat) : R :=
  sumn np (fun ip => sumn n (fun ir => dl row ir * sumn n (fun ic => dl col ic * c ip ir ic))).
Definition gB (np n : nat) (r : nat -> nat -> R) (row : nat) : R :=
  sumn np (fun ip => sumn n (fun ir => dl row ir * r ip ir)).
Lemma sumn_dl2 n k f : (k < n)%nat -> sumn n (fun i => dl k i * f i) = f k.
Proof. intros H. rewrite <- (sumn_dl n k f H). apply sumn_ext. intros. rewrite dl_sym. reflexivity. Qed.
Lemma gA_at np n c a b : (a < n)%nat -> (b < n)%nat -> gA np n c a b = sumn np (fun ip => c ip a b).
Proof. intros Ha Hb. unfold gA. apply sumn_ext. intros ip _. rewrite sumn_dl2 by assumption. apply sumn_dl2; assumption. Qed.
Lemma gB_at np n r a : (a < n)%nat -> gB np n r a = sumn np (fun ip => r ip a).
Proof. intros Ha. unfold gB. apply sumn_ext. intros ip _. apply sumn_dl2; assumption. Qed.
(** the shape of every scalar kernel *)
Definition gal (np n : nat) (k : esys -> esys) (c : nat -> nat -> nat -> R) (r : nat -> nat -> R) : Prop :=
  forall s, eff s (k s) (gA np n c) (gB np n r).
Lemma gal_loop np n (body : nat -> nat -> esys -> esys) c r :
  (forall ip ir s, (ip < np)%nat -> (ir < n)%nat ->
     eff s (body ip ir s) (fun row col => dl row ir * sumn n (fun ic => dl col ic * c ip ir ic)) (fun row => dl row ir * r ip ir)) ->
  gal np n (fun s => loop np (fun ip s => loop n (body ip) s) s) c r.
Proof.
  intros H s. unfold gA, gB. apply (eff_loop np _ (fun ip row col => sumn n (fun ir => dl row ir * sumn n (fun ic => dl col ic * c ip ir ic)))
    (fun ip row => sumn n (fun ir => dl row ir * r ip ir))). intros ip s1 Hip.
  apply (eff_loop n _ (fun ir row col => dl row ir * sumn n (fun ic => dl col ic * c ip ir ic)) (fun ir row => dl row ir * r ip ir)).
  intros. apply H; assumption.
Qed.
Lemma gal_added np n k c r s a b : gal np n k c r -> (a < n)%nat -> (b < n)%nat -> added k s a b = sumn np (fun ip => c ip a b).
Proof. intros H Ha Hb. destruct (H s) as [E _]. unfold added. rewrite E, gA_at by assumption. ring. Qed.
Lemma gal_rhs np n k c r s a : gal np n k c r -> (a < n)%nat -> added_rhs k s a = sumn np (fun ip => r ip a).
Proof. intros H Ha. destruct (H s) as [_ E]. unfold added_rhs. rewrite E, gB_at by assumption. ring. Qed.
Lemma gal_newton np n (k : (nat -> R) -> esys -> esys) c (r : (nat -> R) -> nat -> nat -> R) :
  (forall q, gal np n (k q) c (r q)) ->
  (forall q e ip a, (ip < np)%nat -> (a < n)%nat -> r (fun x => q x + e x) ip a = r q ip a - sumn n (fun b => c ip a b * e b)) ->
  exact_newton n k.
Proof.
  intros H Hr q e s a Ha.
  pose proof (gal_rhs _ _ _ _ _ s a (H (fun x => q x + e x)) Ha) as E1.
  pose proof (gal_rhs _ _ _ _ _ s a (H q) Ha) as E2. unfold added_rhs in *.
  assert (E3 : sumn n (fun j => (eL_ (k q s) a j - eL_ s a j) * e j) = sumn np (fun ip => sumn n (fun b => c ip a b * e b))).
  { rewrite sumn_swap. apply sumn_ext. intros b Hb. pose proof (gal_added _ _ _ _ _ s a b (H q) Ha Hb) as E. unfold added in E.
    rewrite E, <- sumn_scal_r. reflexivity. }
  rewrite E3.
  assert (E4 : sumn np (fun ip => r (fun x => q x + e x) ip a) = sumn np (fun ip => r q ip a) - sumn np (fun ip => sumn n (fun b => c ip a b * e b))).
  { rewrite <- sumn_minus. apply sumn_ext. intros. apply Hr; assumption. }
  rewrite E4 in E1. lra.
Qed.
Lemma gal_conservative np n k c r : gal np n k c r ->
  (forall ip b, (ip < np)%nat -> (b < n)%nat -> sumn n (fun a => c ip a b) = 0) ->
  (forall ip, (ip < np)%nat -> sumn n (fun a => r ip a) = 0) -> conservative n k.
Proof.
  intros H Hc Hr s. split.
  - assert (E : sumn n (eB (k s)) - sumn n (eB s) = 0); [|lra]. rewrite <- sumn_minus.
    rewrite (sumn_ext n _ (fun a => sumn np (fun ip => r ip a))).
    2:{ intros a Ha. apply (gal_rhs _ _ _ _ _ s a H Ha). }
    rewrite sumn_swap. apply sumn_zero. intros; apply Hr; assumption.
  - intros b. assert (E : sumn n (fun i => eL_ (k s) i b) - sumn n (fun i => eL_ s i b) = 0); [|lra]. rewrite <- sumn_minus.
    destruct (H s) as [E _].
    rewrite (sumn_ext n _ (fun a => gA np n c a b)) by (intros a _; rewrite E; ring).
    unfold gA. rewrite sumn_swap. apply sumn_zero. intros ip Hip. rewrite sumn_swap.
    rewrite (sumn_ext n _ (fun ir => sumn n (fun ic => dl b ic * c ip ir ic))).
    2:{ intros ir Hir. rewrite (sumn_dl n ir (fun _ => sumn n (fun ic => dl b ic * c ip ir ic))) by assumption. reflexivity. }
    rewrite sumn_swap. apply sumn_zero. intros ic Hic. rewrite sumn_scal, Hc by assumption. ring.
Qed.

(* ------------------------------------------------------------------ diffusion *)
Lemma fem_diff_gal m coef q : gal (f_ngp m) (f_npe m) (fem_diff m coef q)
  (fun ip a b => ipF m ip * (at_gp m coef ip * dot (f_dim m) (dshape m a ip) (dshape m b ip)))
  (fun ip a => - (ipF m ip * (at_gp m coef ip * dot (f_dim m) (dshape m a ip) (grad m q ip)))).
Proof.
  unfold fem_diff. apply gal_loop. intros ip ir s Hip Hir. cbv zeta.
  match goal with |- context [loop (f_npe m) ?b (s, 0)] =>
    destruct (loop_acc (f_npe m) b (fun ic x => x + dot (f_dim m) (dshape m ir ip) (dshape m ic ip) * q ic)
       (fun ic row col => dl row ir * (dl col ic * (ipF m ip * (at_gp m coef ip * dot (f_dim m) (dshape m ir ip) (dshape m ic ip))))) (fun _ _ => 0) s 0) as [E1 E2];
    [| |destruct (loop (f_npe m) b (s, 0)) as [s' rs]] end.
  - intros ic s1 a Hic. cbv beta. rewrite loop_sum2. cbn [snd]. f_equal. unfold dot, dshape. rewrite sumn_scal_r. reflexivity.
  - intros ic s1 a Hic. cbv beta. rewrite loop_sum2. cbn [fst]. eapply eff_ext; [effs| |]; intros; cbv beta; unfold dot, dshape; ring.
  - cbn [fst snd] in *. rewrite loop_sum in E1. subst rs. eapply eff_ext.
    + eapply eff_trans; [exact E2|effs].
    + intros row col; cbv beta. rewrite sumn_scal. ring.
    + intros row; cbv beta. rewrite sumn_zero by reflexivity. unfold dot, grad.
      replace (0 + sumn (f_npe m) (fun k => sumn (f_dim m) (fun j => dshape m ir ip j * dshape m k ip j) * q k))
        with (sumn (f_dim m) (fun j => dshape m ir ip j * sumn (f_npe m) (fun ic => f_dn m ip ic j * q ic))); [ring|].
      rewrite Rplus_0_l. rewrite (sumn_ext (f_npe m) _ (fun k => sumn (f_dim m) (fun j => dshape m ir ip j * (dshape m k ip j * q k)))).
      2:{ intros k _. rewrite <- sumn_scal_r. apply sumn_ext. intros; ring. }
      rewrite sumn_swap. apply sumn_ext. intros j _. rewrite sumn_scal. reflexivity.
Qed.
Lemma grad_plus m q e ip j : grad m (fun a => q a + e a) ip j = grad m q ip j + grad m e ip j.
Proof. unfold grad. rewrite <- sumn_plus. apply sumn_ext. intros; ring. Qed.
Lemma value_plus m q e ip : value m (fun a => q a + e a) ip = value m q ip + value m e ip.
Proof. unfold value. rewrite <- sumn_plus. apply sumn_ext. intros; ring. Qed.
Lemma dot_plus d a b c : dot d a (fun j => b j + c j) = dot d a b + dot d a c.
Proof. unfold dot. rewrite <- sumn_plus. apply sumn_ext. intros; ring. Qed.
Lemma dot_ext d a b a' b' : (forall j, (j < d)%nat -> a j = a' j) -> (forall j, (j < d)%nat -> b j = b' j) -> dot d a b = dot d a' b'.
Proof. intros H1 H2. unfold dot. apply sumn_ext. intros j Hj. rewrite H1, H2 by assumption. reflexivity. Qed.
Lemma dot_sym d a b : dot d a b = dot d b a.
Proof. unfold dot. apply sumn_ext. intros; ring. Qed.
(** sum over the columns of the gradients *)
Lemma dot_cols m x e ip : dot (f_dim m) x (grad m e ip) = sumn (f_npe m) (fun b => dot (f_dim m) x (dshape m b ip) * e b).
Proof.
  unfold dot, grad. rewrite (sumn_ext (f_npe m) _ (fun k => sumn (f_dim m) (fun j => x j * (dshape m k ip j * e k)))).
  2:{ intros k _. rewrite <- sumn_scal_r. apply sumn_ext. intros; ring. }
  rewrite sumn_swap. apply sumn_ext. intros j _. rewrite sumn_scal. reflexivity.
Qed.
Lemma dot_rows m y ip : fem_grad_unity m -> (ip < f_ngp m)%nat -> sumn (f_npe m) (fun a => dot (f_dim m) (dshape m a ip) y) = 0.
Proof.
  intros H Hip. unfold dot. rewrite sumn_swap. apply sumn_zero. intros j Hj.
  rewrite (sumn_scal_r (f_npe m) (y j) (fun a => dshape m a ip j)). unfold dshape. rewrite H by assumption. ring.
Qed.

Theorem C85_diffusion_weak_form : forall m coef q s a, (a < f_npe m)%nat ->
  added_rhs (fem_diff m coef q) s a = - integral m (fun ip => value m coef ip * dot (f_dim m) (dshape m a ip) (grad m q ip)).
Proof. intros m coef q s a Ha. rewrite (gal_rhs _ _ _ _ _ s a (fem_diff_gal m coef q) Ha). unfold integral. rewrite <- sumn_opp. reflexivity. Qed.
Theorem C85_diffusion_newton : forall m coef, exact_newton (f_npe m) (fem_diff m coef).
Proof.
  intros m coef. apply (gal_newton (f_ngp m) (f_npe m) (fem_diff m coef) _ _ (fem_diff_gal m coef)). intros q e ip a Hip Ha.
  rewrite (dot_ext (f_dim m) (dshape m a ip) (grad m (fun x => q x + e x) ip) (dshape m a ip) (fun j => grad m q ip j + grad m e ip j)) by (intros; auto using grad_plus).
  rewrite dot_plus, (dot_cols m (dshape m a ip) e).
  rewrite (sumn_ext (f_npe m) (fun b => ipF m ip * (at_gp m coef ip * dot (f_dim m) (dshape m a ip) (dshape m b ip)) * e b)
     (fun b => (ipF m ip * at_gp m coef ip) * (dot (f_dim m) (dshape m a ip) (dshape m b ip) * e b))) by (intros; ring).
  rewrite sumn_scal. ring.
Qed.
Theorem C85_diffusion_conservative : forall m coef q, fem_grad_unity m -> conservative (f_npe m) (fem_diff m coef q).
Proof.
  intros m coef q H. apply (gal_conservative _ _ _ _ _ (fem_diff_gal m coef q)).
  - intros ip b Hip Hb. rewrite sumn_scal, sumn_scal, dot_rows by assumption. ring.
  - intros ip Hip. rewrite sumn_opp, sumn_scal, sumn_scal, dot_rows by assumption. ring.
Qed.
Theorem C85_diffusion_symmetric : forall m coef q, symmetric (f_npe m) (fem_diff m coef q).
Proof.
  intros m coef q s a b Ha Hb. rewrite !(gal_added _ _ _ _ _ s _ _ (fem_diff_gal m coef q)) by assumption.
  apply sumn_ext. intros ip _. rewrite dot_sym. reflexivity.
Qed.
Lemma gal_energy np n k c r s x : gal np n k c r ->
  energy n k s x = sumn np (fun ip => sumn n (fun a => sumn n (fun b => x a * c ip a b * x b))).
Proof.
  intros H. unfold energy. rewrite (sumn_ext n _ (fun a => sumn np (fun ip => sumn n (fun b => x a * c ip a b * x b)))).
  - rewrite sumn_swap. reflexivity.
  - intros a Ha. rewrite (sumn_ext n _ (fun b => sumn np (fun ip => x a * c ip a b * x b))).
    + rewrite sumn_swap. reflexivity.
    + intros b Hb. rewrite (gal_added _ _ _ _ _ s a b H Ha Hb), <- sumn_scal, <- sumn_scal_r. reflexivity.
Qed.
Theorem C85_diffusion_energy : forall m coef q s x,
  energy (f_npe m) (fem_diff m coef q) s x = integral m (fun ip => value m coef ip * dot (f_dim m) (grad m x ip) (grad m x ip)).
Proof.
  intros m coef q s x. rewrite (gal_energy _ _ _ _ _ s x (fem_diff_gal m coef q)). apply sumn_ext. intros ip _.
  rewrite (dot_cols m (grad m x ip) x). unfold ipF.
  rewrite (sumn_ext (f_npe m) (fun a => sumn _ _) (fun a => (f_det m ip * f_wt m ip * at_gp m coef ip) * (dot (f_dim m) (grad m x ip) (dshape m a ip) * x a))).
  - rewrite sumn_scal. unfold value, at_gp. ring.
  - intros a Ha. rewrite (dot_sym _ (grad m x ip)), (dot_cols m (dshape m a ip) x).
    rewrite (sumn_ext (f_npe m) _ (fun b => (f_det m ip * f_wt m ip * at_gp m coef ip * x a) * (dot (f_dim m) (dshape m a ip) (dshape m b ip) * x b))) by (intros; ring).
    rewrite sumn_scal. ring.
Qed.
Lemma integral_nonneg m f : fem_positive m -> (forall ip, (ip < f_ngp m)%nat -> 0 <= f ip) -> 0 <= integral m f.
Proof.
  intros H Hf. unfold integral. generalize (le_n (f_ngp m)). generalize (f_ngp m) at 1 3. intros n. induction n; intros Hn; [rewrite sumn_0; lra|].
  rewrite sumn_S. apply Rplus_le_le_0_compat; [apply IHn; lia|]. apply Rmult_le_pos; [apply H|apply Hf]; lia.
Qed.
Lemma dot_nonneg d a : 0 <= dot d a a.
Proof. unfold dot. induction d; [rewrite sumn_0; lra|]. rewrite sumn_S. pose proof (Rle_0_sqr (a d)). unfold Rsqr in *. lra. Qed.
Theorem C85_diffusion_positive : forall m coef q s x, fem_positive m ->
  (forall ip, (ip < f_ngp m)%nat -> 0 <= value m coef ip) -> 0 <= energy (f_npe m) (fem_diff m coef q) s x.
Proof.
  intros m coef q s x H Hk. rewrite C85_diffusion_energy. apply integral_nonneg; [assumption|].
  intros ip Hip. apply Rmult_le_pos; [apply Hk; assumption|apply dot_nonneg].
Qed.
Lemma grad_const m c ip j : fem_grad_unity m -> (ip < f_ngp m)%nat -> (j < f_dim m)%nat -> grad m (fun _ => c) ip j = 0.
Proof. intros H Hip Hj. unfold grad. rewrite sumn_scal_r, H by assumption. ring. Qed.
Theorem C85_constant_no_diffusion : forall m coef c s a, fem_grad_unity m -> (a < f_npe m)%nat ->
  added_rhs (fem_diff m coef (fun _ => c)) s a = 0.
Proof.
  intros m coef c s a H Ha. rewrite C85_diffusion_weak_form by assumption. unfold integral. rewrite sumn_zero; [ring|].
  intros ip Hip. unfold dot. rewrite (sumn_zero (f_dim m)); [ring|]. intros j Hj. rewrite grad_const by assumption. ring.
Qed.
(** a linear field has its exact gradient at every point *)
Theorem C85_linear_gradient : forall m x q c g ip j, fem_grad_unity m -> fem_linear_exact m x -> (ip < f_ngp m)%nat -> (j < f_dim m)%nat ->
  (forall ic, (ic < f_npe m)%nat -> q ic = c + sumn (f_dim m) (fun k => g k * x ic k)) -> grad m q ip j = g j.
Proof.
  intros m x q c g ip j HU HL Hip Hj Hq. unfold grad.
  rewrite (sumn_ext (f_npe m) _ (fun ic => c * f_dn m ip ic j + sumn (f_dim m) (fun k => g k * (f_dn m ip ic j * x ic k)))).
  2:{ intros ic Hic. rewrite Hq by assumption. rewrite Rmult_plus_distr_l, <- sumn_scal. f_equal; [ring|]. apply sumn_ext. intros; ring. }
  rewrite sumn_plus, sumn_scal, HU by assumption. rewrite sumn_swap.
  rewrite (sumn_ext (f_dim m) _ (fun k => dl j k * g k)).
  - rewrite sumn_dl2 by assumption. ring.
  - intros k Hk. rewrite sumn_scal, HL by assumption. unfold dl. destruct (Nat.eqb j k); ring.
Qed.

(* ------------------------------------------------------------------ advection *)
Lemma loop_neg n (f : nat -> R) a : loop n (fun k x => x - f k) a = a - sumn n f.
Proof. induction n; [rewrite loop_0, sumn_0; lra|]. rewrite loop_S, sumn_S, IHn. lra. Qed.
Lemma cols_loop n s r (w : nat -> R) : 
  eff s (loop n (fun ic s => addL r ic (w ic) s) s) (fun row col => dl row r * sumn n (fun ic => dl col ic * w ic)) (fun _ => 0).
Proof.
  eapply eff_ext.
  - apply (eff_loop n _ (fun ic row col => dl row r * (dl col ic * w ic)) (fun _ _ => 0)). intros. eapply eff_ext; [apply eff_addL| |]; intros; cbv beta; ring.
  - intros; cbv beta. rewrite sumn_scal. reflexivity.
  - intros; cbv beta. apply sumn_zero. reflexivity.
Qed.
Lemma fem_adv_gal m rho v q : gal (f_ngp m) (f_npe m) (fem_adv m rho v q)
  (fun ip a b => - (ipF m ip * (dot (f_dim m) (dshape m a ip) (mass_flux m rho v ip) * f_N m ip b)))
  (fun ip a => ipF m ip * (dot (f_dim m) (dshape m a ip) (mass_flux m rho v ip) * value m q ip)).
Proof.
  unfold fem_adv. apply gal_loop. intros ip ir s Hip Hir. cbv zeta. rewrite loop_neg.
  assert (E : 0 - sumn (f_dim m) (fun k => rhoU_gp m rho v ip k * f_dn m ip ir k) = - dot (f_dim m) (dshape m ir ip) (mass_flux m rho v ip)).
  { unfold dot, dshape, mass_flux, rhoU_gp. rewrite (sumn_ext _ (fun k => _ * f_dn m ip ir k) (fun j => f_dn m ip ir j * sumn (f_npe m) (fun ic => f_N m ip ic * rho ic * v (ic * f_dim m + j)%nat))) by (intros; ring). ring. }
  rewrite E. eapply eff_ext.
  - eapply eff_trans; [apply cols_loop|effs].
  - intros row col; cbv beta. rewrite Rplus_0_r || idtac. 
    rewrite (sumn_ext (f_npe m) _ (fun ic => dl col ic * (- (ipF m ip * (dot (f_dim m) (dshape m ir ip) (mass_flux m rho v ip) * f_N m ip ic))))) by (intros; ring). ring.
  - intros row; cbv beta. unfold value, at_gp. ring.
Qed.
Theorem C85_advection_weak_form : forall m rho v q s a, (a < f_npe m)%nat ->
  added_rhs (fem_adv m rho v q) s a = integral m (fun ip => dot (f_dim m) (dshape m a ip) (mass_flux m rho v ip) * value m q ip).
Proof. intros m rho v q s a Ha. rewrite (gal_rhs _ _ _ _ _ s a (fem_adv_gal m rho v q) Ha). reflexivity. Qed.
Theorem C85_advection_newton : forall m rho v, exact_newton (f_npe m) (fem_adv m rho v).
Proof.
  intros m rho v. apply (gal_newton (f_ngp m) (f_npe m) (fem_adv m rho v) _ _ (fem_adv_gal m rho v)). intros q e ip a Hip Ha.
  rewrite value_plus. unfold value at 2.
  rewrite (sumn_ext (f_npe m) (fun b => - _ * e b) (fun b => - (ipF m ip * dot (f_dim m) (dshape m a ip) (mass_flux m rho v ip)) * (f_N m ip b * e b))) by (intros; ring).
  rewrite sumn_scal. ring.
Qed.
Theorem C85_advection_conservative : forall m rho v q, fem_grad_unity m -> conservative (f_npe m) (fem_adv m rho v q).
Proof.
  intros m rho v q H. apply (gal_conservative _ _ _ _ _ (fem_adv_gal m rho v q)).
  - intros ip b Hip Hb. rewrite sumn_opp, sumn_scal, sumn_scal_r, dot_rows by assumption. ring.
  - intros ip Hip. rewrite sumn_scal, sumn_scal_r, dot_rows by assumption. ring.
Qed.

(* ------------------------------------------------------------------ time derivative *)
Lemma fem_mass_gal m t r1 r0 rm q1 q0 qm : gal (f_ngp m) (f_npe m) (fem_mass m t r1 r0 rm q1 q0 qm)
  (fun ip a b => ipF m ip * (f_N m ip a * (ga1 t / dt t * value m r1 ip) * f_N m ip b))
  (fun ip a => - (ipF m ip * (f_N m ip a * ((ga1 t * (value m r1 ip * value m q1 ip) + ga2 t * (value m r0 ip * value m q0 ip)
       + ga3 t * (value m rm ip * value m qm ip)) / dt t)))).
Proof.
  unfold fem_mass. apply gal_loop. intros ip ir s Hip Hir. cbv zeta. eapply eff_ext.
  - eapply eff_trans; [apply cols_loop|effs].
  - intros row col; cbv beta. rewrite (sumn_ext (f_npe m) _ (fun ic => dl col ic * (ipF m ip * (f_N m ip ir * (ga1 t / dt t * value m r1 ip) * f_N m ip ic)))); [ring|].
    intros. unfold value, at_gp, Rdiv. ring.
  - intros row; cbv beta. unfold value, at_gp, Rdiv. ring.
Qed.
Theorem C85_mass_weak_form : forall m t r1 r0 rm q1 q0 qm s a, (a < f_npe m)%nat ->
  added_rhs (fem_mass m t r1 r0 rm q1 q0 qm) s a =
  - integral m (fun ip => shape m a ip * ((ga1 t * (value m r1 ip * value m q1 ip) + ga2 t * (value m r0 ip * value m q0 ip)
       + ga3 t * (value m rm ip * value m qm ip)) / dt t)).
Proof. intros. rewrite (gal_rhs _ _ _ _ _ s a (fem_mass_gal m t r1 r0 rm q1 q0 qm)) by assumption. unfold integral. rewrite <- sumn_opp. reflexivity. Qed.
Theorem C85_mass_newton : forall m t r1 r0 rm q0 qm, exact_newton (f_npe m) (fun q1 => fem_mass m t r1 r0 rm q1 q0 qm).
Proof.
  intros m t r1 r0 rm q0 qm. apply (gal_newton (f_ngp m) (f_npe m) (fun q1 => fem_mass m t r1 r0 rm q1 q0 qm) _ _ (fun q1 => fem_mass_gal m t r1 r0 rm q1 q0 qm)).
  intros q e ip a Hip Ha. cbv beta. rewrite value_plus.
  rewrite (sumn_ext (f_npe m) (fun b => _ * e b) (fun b => (ipF m ip * (f_N m ip a * (ga1 t / dt t * value m r1 ip))) * (f_N m ip b * e b))) by (intros; ring).
  rewrite sumn_scal. change (sumn (f_npe m) (fun b => f_N m ip b * e b)) with (value m e ip). unfold Rdiv. ring.
Qed.
Theorem C85_mass_symmetric : forall m t r1 r0 rm q1 q0 qm, symmetric (f_npe m) (fem_mass m t r1 r0 rm q1 q0 qm).
Proof.
  intros. intros s a b Ha Hb. rewrite !(gal_added _ _ _ _ _ s _ _ (fem_mass_gal m t r1 r0 rm q1 q0 qm)) by assumption.
  apply sumn_ext. intros; ring.
Qed.
Theorem C85_mass_energy : forall m t r1 r0 rm q1 q0 qm s x,
  energy (f_npe m) (fem_mass m t r1 r0 rm q1 q0 qm) s x = integral m (fun ip => ga1 t / dt t * value m r1 ip * (value m x ip * value m x ip)).
Proof.
  intros. rewrite (gal_energy _ _ _ _ _ s x (fem_mass_gal m t r1 r0 rm q1 q0 qm)). apply sumn_ext. intros ip _.
  rewrite (sumn_ext (f_npe m) _ (fun a => (ipF m ip * (ga1 t / dt t * value m r1 ip) * value m x ip) * (f_N m ip a * x a))).
  - rewrite sumn_scal. unfold ipF, value. ring.
  - intros a _. rewrite (sumn_ext (f_npe m) _ (fun b => (ipF m ip * (ga1 t / dt t * value m r1 ip) * (f_N m ip a * x a)) * (f_N m ip b * x b))) by (intros; ring).
    rewrite sumn_scal. unfold value. ring.
Qed.
Theorem C85_mass_positive : forall m t r1 r0 rm q1 q0 qm s x, fem_positive m -> 0 < dt t -> 0 <= ga1 t ->
  (forall ip, (ip < f_ngp m)%nat -> 0 <= value m r1 ip) -> 0 <= energy (f_npe m) (fem_mass m t r1 r0 rm q1 q0 qm) s x.
Proof.
  intros m t r1 r0 rm q1 q0 qm s x H Ht Hg Hr. rewrite C85_mass_energy. apply integral_nonneg; [assumption|]. intros ip Hip.
  apply Rmult_le_pos; [apply Rmult_le_pos; [apply Rmult_le_pos; [assumption|left; apply Rinv_0_lt_compat; assumption]|apply Hr; assumption]|apply Rle_0_sqr].
Qed.
(** rows sum to the rate of change of the total content *)
Theorem C85_mass_total : forall m t r1 r0 rm q1 q0 qm s, fem_unity m ->
  sumn (f_npe m) (added_rhs (fem_mass m t r1 r0 rm q1 q0 qm) s) =
  - ((ga1 t * integral m (fun ip => value m r1 ip * value m q1 ip) + ga2 t * integral m (fun ip => value m r0 ip * value m q0 ip)
      + ga3 t * integral m (fun ip => value m rm ip * value m qm ip)) / dt t).
Proof.
  intros m t r1 r0 rm q1 q0 qm s HU.
  rewrite (sumn_ext (f_npe m) _ (fun a => sumn (f_ngp m) (fun ip => f_N m ip a * - (ipF m ip * ((ga1 t * (value m r1 ip * value m q1 ip) + ga2 t * (value m r0 ip * value m q0 ip)
       + ga3 t * (value m rm ip * value m qm ip)) / dt t))))).
  2:{ intros a Ha. rewrite (gal_rhs _ _ _ _ _ s a (fem_mass_gal m t r1 r0 rm q1 q0 qm)) by assumption. apply sumn_ext. intros; ring. }
  rewrite sumn_swap. unfold integral. rewrite <- !sumn_scal, <- !sumn_plus. unfold Rdiv. rewrite <- sumn_scal_r, <- sumn_opp. apply sumn_ext. intros ip Hip.
  rewrite sumn_scal_r, HU by assumption. unfold ipF. ring.
Qed.

Lemma fem_heat_gal m t rho cp t1 t0 tm : gal (f_ngp m) (f_npe m) (fem_heat_mass m t rho cp t1 t0 tm)
  (fun ip a b => ipF m ip * (f_N m ip a * (ga1 t / dt t * (value m rho ip * value m cp ip)) * f_N m ip b))
  (fun ip a => - (ipF m ip * (f_N m ip a * (value m rho ip * value m cp ip * ((ga1 t * value m t1 ip + ga2 t * value m t0 ip + ga3 t * value m tm ip) / dt t))))).
Proof.
  unfold fem_heat_mass. apply gal_loop. intros ip ir s Hip Hir. cbv zeta.
  match goal with |- context [loop (f_npe m) ?b (s, 0)] =>
    destruct (loop_acc (f_npe m) b (fun ic x => x + f_N m ip ir * f_N m ip ic * ((ga1 t * t1 ic + ga2 t * t0 ic + ga3 t * tm ic) / dt t))
       (fun ic row col => dl row ir * (dl col ic * (ipF m ip * (f_N m ip ir * (ga1 t / dt t * (value m rho ip * value m cp ip)) * f_N m ip ic)))) (fun _ _ => 0) s 0) as [E1 E2];
    [reflexivity| |destruct (loop (f_npe m) b (s, 0)) as [s' rs]] end.
  - intros ic s1 a Hic. cbn [fst]. eapply eff_ext; [effs| |]; intros; cbv beta; unfold value, at_gp, ipF, Rdiv; ring.
  - cbn [fst snd] in *. rewrite loop_sum in E1. subst rs. eapply eff_ext.
    + eapply eff_trans; [exact E2|effs].
    + intros row col; cbv beta. rewrite sumn_scal. ring.
    + intros row; cbv beta. rewrite (sumn_zero (f_npe m) (fun _ => 0)) by reflexivity.
      rewrite (sumn_ext (f_npe m) _ (fun ic => f_N m ip ir * / dt t * ga1 t * (f_N m ip ic * t1 ic) + f_N m ip ir * / dt t * ga2 t * (f_N m ip ic * t0 ic) + f_N m ip ir * / dt t * ga3 t * (f_N m ip ic * tm ic))) by (intros; unfold Rdiv; ring).
      rewrite !sumn_plus, !sumn_scal. unfold value, at_gp, ipF, Rdiv. ring.
Qed.
Theorem C85_heat_mass_weak_form : forall m t rho cp t1 t0 tm s a, (a < f_npe m)%nat ->
  added_rhs (fem_heat_mass m t rho cp t1 t0 tm) s a =
  - integral m (fun ip => shape m a ip * (value m rho ip * value m cp ip * ((ga1 t * value m t1 ip + ga2 t * value m t0 ip + ga3 t * value m tm ip) / dt t))).
Proof. intros. rewrite (gal_rhs _ _ _ _ _ s a (fem_heat_gal m t rho cp t1 t0 tm)) by assumption. unfold integral. rewrite <- sumn_opp. reflexivity. Qed.
Theorem C85_heat_mass_newton : forall m t rho cp t0 tm, exact_newton (f_npe m) (fun t1 => fem_heat_mass m t rho cp t1 t0 tm).
Proof.
  intros m t rho cp t0 tm. apply (gal_newton (f_ngp m) (f_npe m) (fun t1 => fem_heat_mass m t rho cp t1 t0 tm) _ _ (fun t1 => fem_heat_gal m t rho cp t1 t0 tm)).
  intros q e ip a Hip Ha. cbv beta. rewrite value_plus.
  rewrite (sumn_ext (f_npe m) (fun b => _ * e b) (fun b => (ipF m ip * (f_N m ip a * (ga1 t / dt t * (value m rho ip * value m cp ip)))) * (f_N m ip b * e b))) by (intros; ring).
  rewrite sumn_scal. change (sumn (f_npe m) (fun b => f_N m ip b * e b)) with (value m e ip). unfold Rdiv. ring.
Qed.
Theorem C85_steady_no_storage : forall m t rho cp T s a, ga1 t + ga2 t + ga3 t = 0 -> (a < f_npe m)%nat ->
  added_rhs (fem_heat_mass m t rho cp T T T) s a = 0 /\ added_rhs (fem_mass m t rho rho rho T T T) s a = 0.
Proof.
  intros m t rho cp T s a Hg Ha. rewrite C85_heat_mass_weak_form, C85_mass_weak_form by assumption. unfold integral. split; rewrite sumn_zero; try lra; intros ip _.
  - replace (ga1 t * value m T ip + ga2 t * value m T ip + ga3 t * value m T ip) with ((ga1 t + ga2 t + ga3 t) * value m T ip) by ring. rewrite Hg. unfold Rdiv. ring.
  - replace (ga1 t * (value m rho ip * value m T ip) + ga2 t * (value m rho ip * value m T ip) + ga3 t * (value m rho ip * value m T ip))
      with ((ga1 t + ga2 t + ga3 t) * (value m rho ip * value m T ip)) by ring. rewrite Hg. unfold Rdiv. ring.
Qed.

(* ------------------------------------------------------------------ continuity *)
Lemma fem_continuity_gal m tau rho p v Gp : gal (f_ngp m) (f_npe m) (fem_continuity m tau rho p v Gp)
  (fun ip a b => ipF m ip * dot (f_dim m) (dshape m a ip) (dshape m b ip))
  (fun ip a => ipF m ip * dot (f_dim m) (dshape m a ip) (stab_flux m tau rho p v Gp ip) / tau).
Proof.
  unfold fem_continuity. cbv zeta. apply gal_loop. intros ip ir s Hip Hir. rewrite loop_neg.
  match goal with |- context [0 - sumn (f_dim m) ?f] =>
    replace (0 - sumn (f_dim m) f) with (- dot (f_dim m) (dshape m ir ip) (stab_flux m tau rho p v Gp ip)) end.
  2:{ unfold dot. rewrite (sumn_ext (f_dim m) (fun k => _ * f_dn m ip ir k) (fun j => dshape m ir ip j * stab_flux m tau rho p v Gp ip j)); [ring|].
      intros. unfold dshape, stab_flux, mass_flux, grad, value, comp, rhoU_gp. ring. }
  eapply eff_ext.
  - eapply eff_trans; [apply cols_loop|effs].
  - intros row col; cbv beta. rewrite (sumn_ext (f_npe m) _ (fun ic => dl col ic * (ipF m ip * dot (f_dim m) (dshape m ir ip) (dshape m ic ip)))); [ring|].
    intros. rewrite loop_sum. unfold dot, dshape. ring.
  - intros row; cbv beta. unfold Rdiv. ring.
Qed.
(** residual: minus the divergence of the stabilised mass flux in weak form, scaled by the projection time scale *)
Theorem C85_continuity_weak_form : forall m tau rho p v Gp s a, (a < f_npe m)%nat ->
  added_rhs (fem_continuity m tau rho p v Gp) s a = integral m (fun ip => dot (f_dim m) (dshape m a ip) (stab_flux m tau rho p v Gp ip)) / tau.
Proof.
  intros. rewrite (gal_rhs _ _ _ _ _ s a (fem_continuity_gal m tau rho p v Gp)) by assumption. unfold integral, Rdiv. rewrite <- sumn_scal_r.
  apply sumn_ext. intros. unfold ipF. ring.
Qed.
Theorem C85_continuity_newton : forall m tau rho v Gp, tau <> 0 -> exact_newton (f_npe m) (fun p => fem_continuity m tau rho p v Gp).
Proof.
  intros m tau rho v Gp Ht. apply (gal_newton (f_ngp m) (f_npe m) (fun p => fem_continuity m tau rho p v Gp) _ _ (fun p => fem_continuity_gal m tau rho p v Gp)).
  intros q e ip a Hip Ha. cbv beta.
  rewrite (dot_ext (f_dim m) (dshape m a ip) (stab_flux m tau rho (fun x => q x + e x) v Gp ip) (dshape m a ip) (fun j => stab_flux m tau rho q v Gp ip j + (- tau) * grad m e ip j)).
  2: reflexivity. 2:{ intros. unfold stab_flux. rewrite grad_plus. ring. }
  rewrite dot_plus. assert (E : dot (f_dim m) (dshape m a ip) (fun j => - tau * grad m e ip j) = - tau * dot (f_dim m) (dshape m a ip) (grad m e ip)).
  { unfold dot. rewrite <- sumn_scal. apply sumn_ext. intros; ring. }
  rewrite E, (dot_cols m (dshape m a ip) e).
  rewrite (sumn_ext (f_npe m) (fun b => ipF m ip * _ * e b) (fun b => ipF m ip * (dot (f_dim m) (dshape m a ip) (dshape m b ip) * e b))) by (intros; ring).
  rewrite sumn_scal. field. assumption.
Qed.
Theorem C85_continuity_conservative : forall m tau rho p v Gp, fem_grad_unity m -> conservative (f_npe m) (fem_continuity m tau rho p v Gp).
Proof.
  intros m tau rho p v Gp H. apply (gal_conservative _ _ _ _ _ (fem_continuity_gal m tau rho p v Gp)).
  - intros ip b Hip Hb. rewrite sumn_scal, dot_rows by assumption. ring.
  - intros ip Hip. unfold Rdiv. rewrite sumn_scal_r, sumn_scal, dot_rows by assumption. ring.
Qed.
Theorem C85_pressure_matrix_symmetric_positive : forall m tau rho p v Gp,
  symmetric (f_npe m) (fem_continuity m tau rho p v Gp) /\
  (fem_positive m -> forall s x, 0 <= energy (f_npe m) (fem_continuity m tau rho p v Gp) s x).
Proof.
  intros m tau rho p v Gp. split.
  - intros s a b Ha Hb. rewrite !(gal_added _ _ _ _ _ s _ _ (fem_continuity_gal m tau rho p v Gp)) by assumption.
    apply sumn_ext. intros ip _. rewrite dot_sym. reflexivity.
  - intros H s x. rewrite (gal_energy _ _ _ _ _ s x (fem_continuity_gal m tau rho p v Gp)).
    rewrite (sumn_ext (f_ngp m) _ (fun ip => f_det m ip * f_wt m ip * dot (f_dim m) (grad m x ip) (grad m x ip))).
    + apply (integral_nonneg m (fun ip => dot (f_dim m) (grad m x ip) (grad m x ip)) H). intros; apply dot_nonneg.
    + intros ip _. rewrite (dot_cols m (grad m x ip) x). unfold ipF.
      rewrite (sumn_ext (f_npe m) (fun a => sumn _ _) (fun a => (f_det m ip * f_wt m ip) * (dot (f_dim m) (grad m x ip) (dshape m a ip) * x a))).
      * rewrite sumn_scal. ring.
      * intros a Ha. rewrite (dot_sym _ (grad m x ip)), (dot_cols m (dshape m a ip) x).
        rewrite (sumn_ext (f_npe m) _ (fun b => (f_det m ip * f_wt m ip * x a) * (dot (f_dim m) (dshape m a ip) (dshape m b ip) * x b))) by (intros; ring).
        rewrite sumn_scal. ring.
Qed.
(** where the nodal gradient interpolates the pressure gradient, the stabilisation vanishes *)
Theorem C85_no_stabilisation_on_consistent_gradient : forall m tau rho p v Gp s a, (a < f_npe m)%nat ->
  (forall ip j, (ip < f_ngp m)%nat -> (j < f_dim m)%nat -> value m (comp (f_dim m) Gp j) ip = grad m p ip j) ->
  added_rhs (fem_continuity m tau rho p v Gp) s a = integral m (fun ip => dot (f_dim m) (dshape m a ip) (mass_flux m rho v ip)) / tau.
Proof.
  intros m tau rho p v Gp s a Ha HG. rewrite C85_continuity_weak_form by assumption. f_equal. unfold integral. apply sumn_ext. intros ip Hip. f_equal.
  apply dot_ext; [reflexivity|]. intros j Hj. unfold stab_flux. rewrite HG by assumption. ring.
Qed.
