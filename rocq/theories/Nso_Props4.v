(** C87, fourth part: the residuals entering the coefficient are those of the transport equation. *)
Require Import Reals List Lia Lra.
From Verif Require Import Edge_Model Edge_Proofs Elem_Model Elem_Spec Elem_Proofs Elem_Props Elem_Props2 Elem_Props3 Fem_Model Fem_Spec Fem_Props Vof_Spec Vof_Props Vof_Props3 Nso_Model Nso_Spec Nso_Props Nso_Props3.
Open Scope R_scope.

(** divergence of a nodal vector field that is linear in the positions *)
Lemma div_linear m x (F : nat -> nat -> R) (g : nat -> R) (H : nat -> nat -> R) ip : grad_linear_exact m x -> (ip < nscs m)%nat ->
  (forall ic j, (ic < npe m)%nat -> (j < ndim m)%nat -> F ic j = g j + sumn (ndim m) (fun k => H j k * x ic k)) ->
  sumn (npe m) (fun ic => sumn (ndim m) (fun j => F ic j * dndx m ip ic j)) = sumn (ndim m) (fun j => H j j).
Proof.
  intros [HU HX] Hip HF. rewrite sumn_swap. apply sumn_ext. intros j Hj.
  rewrite (sumn_ext (npe m) _ (fun ic => g j * dndx m ip ic j + sumn (ndim m) (fun k => H j k * (dndx m ip ic j * x ic k)))).
  - rewrite sumn_plus, sumn_scal, HU by assumption. rewrite sumn_swap.
    rewrite (sumn_ext (ndim m) _ (fun k => dl k j * H j k)).
    + rewrite Rmult_0_r, Rplus_0_l. exact (sumn_dl (ndim m) j (fun k => H j k) Hj).
    + intros k Hk. rewrite sumn_scal, HX by assumption. rewrite dl_sym. unfold dl. ring.
  - intros ic Hic. rewrite HF by assumption. rewrite Rmult_plus_distr_r. f_equal. rewrite <- sumn_scal_r. apply sumn_ext. intros; ring.
Qed.

(** uniform density, velocity and diffusivity, a field with gradient g whose nodal gradients have the Jacobian H:
    the residual is  rho dq/dt + rho V.grad q - kappa div(grad q) + extra *)
Theorem C87_residual_is_transport_equation : forall m o t x q1 q0 qm rho V kappa G g c H g0 extra ip,
  grad_linear_exact m x -> unity (npe m) (nscs m) (Ns m) -> (ip < nscs m)%nat -> dt t <> 0 -> ga1 t + ga2 t + ga3 t = 0 ->
  (forall ic, (ic < npe m)%nat -> n_r1 o ic = rho /\ n_r0 o ic = rho /\ n_rm o ic = rho) ->
  (forall ic j, (ic < npe m)%nat -> (j < ndim m)%nat -> n_v o (ic*ndim m+j)%nat = V j) ->
  (forall ic, (ic < npe m)%nat -> q1 ic = c + sumn (ndim m) (fun k => g k * x ic k)) ->
  (forall ic j, (ic < npe m)%nat -> (j < ndim m)%nat -> G (ic*ndim m+j)%nat = g0 j + sumn (ndim m) (fun k => H j k * x ic k)) ->
  n_resPde m o t q1 q0 qm (n_dif m (fun _ => kappa) G ip) extra ip
  = rho*(ga1 t*at_scs m q1 ip + ga2 t*at_scs m q0 ip + ga3 t*at_scs m qm ip)/dt t
    + rho*sumn (ndim m) (fun j => V j * g j) - kappa*sumn (ndim m) (fun j => H j j) + extra.
Proof.
  intros m o t x q1 q0 qm rho V kappa G g c H g0 extra ip HX HN Hip Hdt Hg HR HV HQ HG.
  assert (R1 : at_scs m (n_r1 o) ip = rho /\ at_scs m (n_r0 o) ip = rho /\ at_scs m (n_rm o) ip = rho).
  { unfold at_scs. repeat split; (rewrite (sumn_ext (npe m) _ (fun ic => Ns m ip ic * rho)) by (intros ic Hic; destruct (HR ic Hic) as (A & B & C); rewrite ?A, ?B, ?C; reflexivity);
      rewrite sumn_scal_r, HN by assumption; ring). }
  destruct R1 as (R1 & R2 & R3).
  assert (A : n_adv m o q1 ip = rho*sumn (ndim m) (fun j => V j * g j)).
  { unfold n_adv.
    rewrite (sumn_ext (npe m) _ (fun ic => sumn (ndim m) (fun j => (rho*V j*q1 ic) * dndx m ip ic j))).
    - rewrite (div_linear m x (fun ic j => rho*V j*q1 ic) (fun j => rho*V j*c) (fun j k => rho*V j*g k) ip HX Hip).
      + rewrite <- sumn_scal. apply sumn_ext. intros; ring.
      + intros ic j Hic Hj. rewrite HQ by assumption. rewrite Rmult_plus_distr_l. f_equal. rewrite <- sumn_scal. apply sumn_ext. intros; ring.
    - intros ic Hic. apply sumn_ext. intros j Hj. destruct (HR ic Hic) as (E & _). rewrite E, HV by assumption. ring. }
  assert (Cn : n_cont m o ip = 0).
  { unfold n_cont. rewrite (sumn_ext (npe m) _ (fun ic => sumn (ndim m) (fun j => (rho*V j) * dndx m ip ic j))).
    - rewrite (div_linear m x (fun ic j => rho*V j) (fun j => rho*V j) (fun j k => 0) ip HX Hip).
      + apply sumn_zero. reflexivity.
      + intros ic j Hic Hj. rewrite (sumn_zero (ndim m)) by (intros; ring). ring.
    - intros ic Hic. apply sumn_ext. intros j Hj. destruct (HR ic Hic) as (E & _). rewrite E, HV by assumption. ring. }
  assert (D : n_dif m (fun _ => kappa) G ip = kappa*sumn (ndim m) (fun j => H j j)).
  { unfold n_dif. rewrite (div_linear m x (fun ic j => kappa*G (ic*ndim m+j)%nat) (fun j => kappa*g0 j) (fun j k => kappa*H j k) ip HX Hip).
    - rewrite <- sumn_scal. reflexivity.
    - intros ic j Hic Hj. rewrite HG by assumption. rewrite Rmult_plus_distr_l. f_equal. rewrite <- sumn_scal. apply sumn_ext. intros; ring. }
  unfold n_resPde, n_contRes. rewrite A, Cn, D, R1, R2, R3.
  replace (ga1 t*rho + ga2 t*rho + ga3 t*rho) with ((ga1 t + ga2 t + ga3 t)*rho) by ring. rewrite Hg. field. exact Hdt.
Qed.
(** the momentum kernel's viscous term: divergence of mu (grad u + grad u^T) for uniform viscosity. (The dilatation
    part uses the divergence at the point, so with uniform viscosity it contributes nothing.) *)
Theorem C87_momentum_residual_viscous : forall m x incl mu Gu (g : nat -> nat -> R) (H : nat -> nat -> nat -> R) k ip,
  grad_linear_exact m x -> (ip < nscs m)%nat -> (k < ndim m)%nat ->
  (forall ic i j, (ic < npe m)%nat -> (i < ndim m)%nat -> (j < ndim m)%nat ->
     Gu ((ic*ndim m+i)*ndim m+j)%nat = g i j + sumn (ndim m) (fun l => H i j l * x ic l)) ->
  n_mdif m incl (fun _ => mu) Gu k ip = mu*sumn (ndim m) (fun j => H k j j + H j k j).
Proof.
  intros m x incl mu Gu g H k ip HX Hip Hk HG. unfold n_mdif. cbv zeta.
  rewrite (div_linear m x (fun ic j => mu*(Gu ((ic*ndim m+k)*ndim m+j)%nat + Gu ((ic*ndim m+j)*ndim m+k)%nat
      - 2/3*n_divG m Gu ip*(if Nat.eqb k j then 1 else 0)*incl))
     (fun j => mu*(g k j + g j k - 2/3*n_divG m Gu ip*(if Nat.eqb k j then 1 else 0)*incl)) (fun j l => mu*(H k j l + H j k l)) ip HX Hip).
  - rewrite <- sumn_scal. reflexivity.
  - intros ic j Hic Hj. rewrite !HG by assumption.
    rewrite (sumn_ext (ndim m) (fun l => mu*(H k j l + H j k l) * x ic l) (fun l => mu*(H k j l * x ic l + H j k l * x ic l))) by (intros; ring).
    rewrite sumn_scal, sumn_plus. ring.
Qed.
(** the finite-element residual does not see the level of the field, and vanishes for a uniform field *)
Theorem C87_fem_residual_level : forall m rho v q c ip, fem_unity m -> fem_grad_unity m -> (ip < f_ngp m)%nat ->
  nf_residual m rho v (fun a => q a + c) ip = nf_residual m rho v q ip.
Proof.
  intros m rho v q c ip HN HU Hip. unfold nf_residual.
  assert (A : at_gp m (fun a => q a + c) ip = at_gp m q ip + c).
  { unfold at_gp. rewrite (sumn_ext _ _ (fun ic => f_N m ip ic * q ic + f_N m ip ic * c)) by (intros; ring).
    rewrite sumn_plus, sumn_scal_r, HN by assumption. ring. }
  assert (B : sumn (f_dim m) (fun j => nf_rhoV m rho v ip j * nf_grad m (fun a => q a + c) ip j) = sumn (f_dim m) (fun j => nf_rhoV m rho v ip j * nf_grad m q ip j)).
  { apply sumn_ext. intros j Hj. f_equal. unfold nf_grad.
    rewrite (sumn_ext _ _ (fun ic => q ic * f_dn m ip ic j + c * f_dn m ip ic j)) by (intros; ring). rewrite sumn_plus, sumn_scal, HU by assumption. ring. }
  rewrite A, B.
  rewrite (sumn_ext (f_npe m) (fun ic => sumn (f_dim m) (fun j => rho ic * v (ic * f_dim m + j)%nat * (q ic + c) * f_dn m ip ic j))
    (fun ic => sumn (f_dim m) (fun j => rho ic * v (ic * f_dim m + j)%nat * q ic * f_dn m ip ic j)
       + c * sumn (f_dim m) (fun j => rho ic * v (ic * f_dim m + j)%nat * f_dn m ip ic j))).
  - rewrite sumn_plus, sumn_scal. ring.
  - intros ic Hic. rewrite <- sumn_scal, <- sumn_plus. apply sumn_ext. intros; ring.
Qed.
Theorem C87_fem_residual_uniform : forall m rho v c ip, fem_unity m -> fem_grad_unity m -> (ip < f_ngp m)%nat ->
  nf_residual m rho v (fun _ => c) ip = 0.
Proof.
  intros m rho v c ip HN HU Hip.
  transitivity (nf_residual m rho v (fun _ : nat => 0 + c) ip).
  - replace (0 + c) with c by ring. reflexivity.
  - rewrite (C87_fem_residual_level m rho v (fun _ => 0) c ip HN HU Hip). unfold nf_residual.
    rewrite (sumn_zero (f_npe m) (fun ic => sumn (f_dim m) (fun j => rho ic * v (ic * f_dim m + j)%nat * 0 * f_dn m ip ic j))) by (intros; apply sumn_zero; intros; ring).
    assert (A : at_gp m (fun _ => 0) ip = 0) by (unfold at_gp; apply sumn_zero; intros; ring). rewrite A.
    rewrite (sumn_zero (f_dim m)) by (intros; unfold nf_grad; rewrite (sumn_zero (f_npe m)) by (intros; ring); ring). ring.
Qed.
