(** C104: the hybrid turbulence stress. *)
Require Import Reals List Bool Lra Lia Psatz Arith.
From Verif Require Import RUtil Edge_Model Edge_Proofs Elem_Model Elem_Spec Elem_Proofs Elem_Proofs2 Elem_Proofs3 Elem_Props Turb_Model Hyb_Model.
Import ListNotations.
Open Scope R_scope.

(** ** what the kernel adds *)
Definition hyb_lap (m : me) (f : hyb) (ip ic : nat) : R := sumn (ndim m) (fun j => hyb_fac m (at_scs m (h_alpha f) ip) (mut_ip m f ip) ip ic j j).
Definition hyb_sym (m : me) (f : hyb) (ip ic i j : nat) : R := hyb_fac m (at_scs m (h_alpha f) ip) (mut_ip m f ip) ip ic i j.
Definition hyb_row (m : me) (f : hyb) (ip ic i col : nat) : R :=
  dl col (ic*ndim m+i) * hyb_lap m f ip ic + sumn (ndim m) (fun j => dl col (ic*ndim m+j) * hyb_sym m f ip ic i j).
Definition hyb_nflux (m : me) (f : hyb) (u : nat -> R) (ip ic i : nat) : R :=
  sumn (ndim m) (fun j => hyb_sym m f ip ic i j * u (ic*ndim m+j)%nat) + hyb_lap m f ip ic * u (ic*ndim m+i)%nat.
Lemma hyb_node_eff m f u ip ic s :
  eff s (hyb_node m f u ip ic s)
   (fun row col => sumn (ndim m) (fun i => side m ip row i * hyb_row m f ip ic i col))
   (fun row => sumn (ndim m) (fun i => - (side m ip row i * (hyb_nflux m f u ip ic i + tke_stress m f ip i)))).
Proof.
  unfold hyb_node. cbv zeta.
  apply (eff_loop (ndim m) _ (fun i row col => side m ip row i * hyb_row m f ip ic i col)
    (fun i row => - (side m ip row i * (hyb_nflux m f u ip ic i + tke_stress m f ip i)))).
  clear s. intros i s Hi.
  match goal with |- context [loop (ndim m) ?b (?s0, 0)] =>
    destruct (loop_acc (ndim m) b (fun j a => a + hyb_fac m (at_scs m (h_alpha f) ip) (mut_ip m f ip) ip ic j j)
       (fun j row col => side m ip row i * (dl col (ic*ndim m+j) * hyb_sym m f ip ic i j))
       (fun j row => - (side m ip row i * (hyb_sym m f ip ic i j * u (ic*ndim m+j)%nat))) s0 0) as [E1 E2];
    [reflexivity| |destruct (loop (ndim m) b (s0, 0)) as [s' riC]] end.
  - intros j s1 a Hj. cbn [fst]. eapply eff_ext; [effs| |]; intros; unfold hyb_sym, side; cbv beta; ring.
  - cbn [fst snd] in *. rewrite loop_sum in E1. rewrite Rplus_0_l in E1. subst riC. fold (hyb_lap m f ip ic).
    eapply eff_ext.
    + do 4 (eapply eff_trans; [|eff1]). exact E2.
    + intros row col; cbv beta. rewrite sumn_scal. unfold hyb_row, side. ring.
    + intros row; cbv beta. rewrite sumn_opp, sumn_scal. unfold hyb_nflux, side. ring.
Qed.
Definition hyb_flux (m : me) (f : hyb) (u : nat -> R) (ip i : nat) : R := sumn (npe m) (fun ic => hyb_nflux m f u ip ic i + tke_stress m f ip i).
Lemma hyb_eff m f u s :
  eff s (momentum_hybrid m f u s)
   (fun row col => sumn (nscs m) (fun ip => sumn (ndim m) (fun i => side m ip row i * sumn (npe m) (fun ic => hyb_row m f ip ic i col))))
   (fun row => sumn (nscs m) (fun ip => sumn (ndim m) (fun i => - (side m ip row i * hyb_flux m f u ip i)))).
Proof.
  unfold momentum_hybrid.
  apply (eff_loop (nscs m) _ (fun ip row col => sumn (ndim m) (fun i => side m ip row i * sumn (npe m) (fun ic => hyb_row m f ip ic i col)))
   (fun ip row => sumn (ndim m) (fun i => - (side m ip row i * hyb_flux m f u ip i)))).
  clear s. intros ip s Hip. eapply eff_ext.
  - apply (eff_loop (npe m) _ (fun ic row col => sumn (ndim m) (fun i => side m ip row i * hyb_row m f ip ic i col))
       (fun ic row => sumn (ndim m) (fun i => - (side m ip row i * (hyb_nflux m f u ip ic i + tke_stress m f ip i))))). intros ic s1 _. apply hyb_node_eff.
  - intros row col; cbv beta. apply sum_side.
  - intros row; cbv beta. rewrite (sumn_ext (npe m) _ (fun ic => - sumn (ndim m) (fun i => side m ip row i * (hyb_nflux m f u ip ic i + tke_stress m f ip i)))) by (intros; apply sumn_opp).
    rewrite (sumn_opp (npe m)), (sum_side m ip row (npe m) (fun ic i => hyb_nflux m f u ip ic i + tke_stress m f ip i)), <- sumn_opp. reflexivity.
Qed.

(** ** vocabulary *)
(** gradient of the interpolated velocity at a point: du_i/dx_k *)
Definition du_at (m : me) (u : nat -> R) (ip i k : nat) : R := sumn (npe m) (fun ic => dndx m ip ic k * u (ic*ndim m+i)%nat).
(** the hybrid stress: alpha (mu_jk du_i/dx_k + mu_ik du_j/dx_k) *)
Definition hybrid_stress (m : me) (f : hyb) (u : nat -> R) (ip i j : nat) : R :=
  at_scs m (h_alpha f) ip * sumn (ndim m) (fun k => mut_ip m f ip j k * du_at m u ip i k + mut_ip m f ip i k * du_at m u ip j k).
(** the part of the pressure carried by the unresolved motion *)
Definition tke_pressure (m : me) (f : hyb) (ip : nat) : R := 2/3 * at_scs m (h_alpha f) ip * at_scs m (h_rho f) ip * at_scs m (h_tke f) ip.

Lemma fac_val m al M ip ic r j v : hyb_fac m al M ip ic r j * v = (- al * area m ip j) * sumn (ndim m) (fun k => M r k * (dndx m ip ic k * v)).
Proof.
  unfold hyb_fac. rewrite <- sumn_scal, Rmult_assoc, <- sumn_scal_r. apply sumn_ext; intros; ring.
Qed.
Lemma hyb_flux_val m f u ip i : (i < ndim m)%nat ->
  hyb_flux m f u ip i = - sumn (ndim m) (fun j => hybrid_stress m f u ip i j * area m ip j) + INR (npe m) * (tke_pressure m f ip * area m ip i).
Proof.
  intros Hi. unfold hyb_flux. rewrite sumn_plus. f_equal.
  2:{ unfold tke_stress, tke_pressure. generalize (2/3 * at_scs m (h_alpha f) ip * at_scs m (h_rho f) ip * at_scs m (h_tke f) ip * area m ip i); intro c.
      generalize (npe m). induction n; [cbn; ring|]. rewrite sumn_S, IHn, S_INR. ring. }
  unfold hyb_nflux. rewrite sumn_plus. unfold hyb_sym, hyb_lap, hybrid_stress. set (al := at_scs m (h_alpha f) ip). set (M := mut_ip m f ip).
  rewrite <- sumn_opp.
  rewrite (sumn_ext (npe m) (fun ic => sumn (ndim m) (fun j => hyb_fac m al M ip ic i j * u (ic*ndim m+j)%nat)) (fun ic => sumn (ndim m) (fun j => (- al * area m ip j) * sumn (ndim m) (fun k => M i k * (dndx m ip ic k * u (ic*ndim m+j)%nat))))).
  2:{ intros ic _. apply sumn_ext; intros j _. apply fac_val. }
  rewrite (sumn_ext (npe m) (fun ic => sumn (ndim m) _ * u _) (fun ic => sumn (ndim m) (fun j => (- al * area m ip j) * sumn (ndim m) (fun k => M j k * (dndx m ip ic k * u (ic*ndim m+i)%nat))))).
  2:{ intros ic _. rewrite <- sumn_scal_r. apply sumn_ext; intros j _. apply fac_val. }
  rewrite (sumn_swap (npe m)), (sumn_swap (npe m)), <- sumn_plus. apply sumn_ext; intros j Hj. rewrite !sumn_scal, !(sumn_swap (npe m)).
  rewrite (sumn_ext (ndim m) (fun k => sumn (npe m) (fun ic => M i k * _)) (fun k => M i k * du_at m u ip j k)) by (intros; apply sumn_scal).
  rewrite (sumn_ext (ndim m) (fun k => sumn (npe m) (fun ic => M j k * _)) (fun k => M j k * du_at m u ip i k)) by (intros; apply sumn_scal).
  rewrite sumn_plus. ring.
Qed.
(** ** C104 *)
Theorem C104_hybrid_momentum_conserved : forall m f u, maps_ok m -> conservative_vec (ndim m) (npe m) (momentum_hybrid m f u).
Proof. intros m f u H. apply (vec_conservative m H (fun ip i col => sumn (npe m) (fun ic => hyb_row m f ip ic i col)) (fun u => momentum_hybrid m f u) (hyb_flux m f)). intros; apply hyb_eff. Qed.
Theorem C104_hybrid_kernel_additive : forall m f u, additive (momentum_hybrid m f u).
Proof. intros m f u. eapply eff_additive. intros; apply hyb_eff. Qed.
Lemma hyb_nflux_plus m f u d ip ic i : hyb_nflux m f (fun a => u a + d a) ip ic i = hyb_nflux m f u ip ic i + hyb_nflux m f d ip ic i.
Proof. unfold hyb_nflux. rewrite (sumn_ext (ndim m) (fun j => _ * (u _ + d _)) (fun j => hyb_sym m f ip ic i j * u (ic*ndim m+j)%nat + hyb_sym m f ip ic i j * d (ic*ndim m+j)%nat)) by (intros; ring). rewrite sumn_plus. ring. Qed.
Lemma hyb_row_apply m f d ip ic i : (ic < npe m)%nat -> (i < ndim m)%nat -> sumn (npe m*ndim m) (fun col => hyb_row m f ip ic i col * d col) = hyb_nflux m f d ip ic i.
Proof.
  intros Hc Hi. unfold hyb_row, hyb_nflux.
  assert (B : forall j, (j < ndim m)%nat -> (ic*ndim m+j < npe m*ndim m)%nat) by (intros; nia).
  rewrite (sumn_ext (npe m*ndim m) _ (fun col => dl col (ic*ndim m+i) * (hyb_lap m f ip ic * d col)
      + sumn (ndim m) (fun j => dl col (ic*ndim m+j) * (hyb_sym m f ip ic i j * d col)))).
  2:{ intros col _. rewrite Rmult_plus_distr_r, <- sumn_scal_r. f_equal; [ring|apply sumn_ext; intros; ring]. }
  rewrite sumn_plus, sumn_dl by auto. rewrite sumn_swap.
  rewrite (sumn_ext (ndim m) (fun j => sumn (npe m*ndim m) _) (fun j => hyb_sym m f ip ic i j * d (ic*ndim m+j)%nat)).
  - ring.
  - intros j Hj. apply (sumn_dl (npe m*ndim m) (ic*ndim m+j) (fun col => hyb_sym m f ip ic i j * d col)). auto.
Qed.
(** The matrix is the exact sensitivity of the force to the velocities. *)
Theorem C104_hybrid_matrix_exact : forall m f, maps_ok m -> exact_newton (npe m * ndim m) (momentum_hybrid m f).
Proof.
  intros m f Hm. apply (vec_newton m (fun ip i col => sumn (npe m) (fun ic => hyb_row m f ip ic i col)) (momentum_hybrid m f) (hyb_flux m f)).
  - intros; apply hyb_eff.
  - intros u d ip i Hip Hi.
    rewrite (sumn_ext (npe m*ndim m) _ (fun col => sumn (npe m) (fun ic => hyb_row m f ip ic i col * d col))) by (intros; symmetry; apply sumn_scal_r).
    rewrite sumn_swap. unfold hyb_flux. rewrite <- sumn_plus. apply sumn_ext; intros ic Hc. rewrite hyb_row_apply, hyb_nflux_plus by assumption. ring.
Qed.
Lemma vec_net m (k : esys -> esys) A F s a i : eff s (k s) A (fun row => sumn (nscs m) (fun ip => sumn (ndim m) (fun i => - (side m ip row i * F ip i)))) -> (i < ndim m)%nat ->
  eB (k s) (a*ndim m+i)%nat = eB s (a*ndim m+i)%nat - net_out m (fun ip => F ip i) a.
Proof.
  intros (_ & E) Hi. rewrite E. unfold net_out, Rminus. f_equal. rewrite <- sumn_opp. apply sumn_ext; intros ip _. rewrite side_row_opp by assumption.
  unfold dl. destruct (Nat.eqb a (lrL m ip)), (Nat.eqb a (lrR m ip)); ring.
Qed.
(** Every node is pushed by the hybrid stress on the faces of its control volume, less the pressure of the unresolved motion --
    which however is counted once for every node of the element. *)
Theorem C104_hybrid_force_partial : forall m f u s a i, (i < ndim m)%nat ->
  eB (momentum_hybrid m f u s) (a*ndim m+i)%nat = eB s (a*ndim m+i)%nat
   - net_out m (fun ip => INR (npe m) * tke_pressure m f ip * area m ip i - sumn (ndim m) (fun j => hybrid_stress m f u ip i j * area m ip j)) a.
Proof.
  intros m f u s a i Hi. rewrite (vec_net m (momentum_hybrid m f u) _ (hyb_flux m f u) s a i (hyb_eff m f u s) Hi). f_equal.
  unfold net_out. apply sumn_ext; intros ip _. rewrite hyb_flux_val by assumption. destruct (Nat.eqb a (lrL m ip)), (Nat.eqb a (lrR m ip)); ring.
Qed.
(** with an isotropic tensor the stress is that of an eddy viscosity *)
Theorem C104_isotropic_hybrid_is_eddy_viscosity : forall m f nu u ip i j, (i < ndim m)%nat -> (j < ndim m)%nat ->
  (forall ic k l, h_mut f ic k l = if Nat.eqb k l then nu ic else 0) ->
  hybrid_stress m f u ip i j = at_scs m (h_alpha f) ip * at_scs m nu ip * (du_at m u ip i j + du_at m u ip j i).
Proof.
  intros m f nu u ip i j Hi Hj H. unfold hybrid_stress.
  assert (E : forall k l, mut_ip m f ip k l = dl l k * at_scs m nu ip).
  { intros k l. unfold mut_ip, at_scs, dl. rewrite Nat.eqb_sym. destruct (Nat.eqb k l) eqn:K.
    - rewrite Rmult_1_l. apply sumn_ext; intros. now rewrite H, K.
    - rewrite Rmult_0_l. apply sumn_zero; intros. rewrite H, K. ring. }
  rewrite (sumn_ext (ndim m) _ (fun k => dl k j * (at_scs m nu ip * du_at m u ip i k) + dl k i * (at_scs m nu ip * du_at m u ip j k))) by (intros; rewrite !E; ring).
  rewrite sumn_plus, (sumn_dl (ndim m) j (fun k => at_scs m nu ip * du_at m u ip i k)), (sumn_dl (ndim m) i (fun k => at_scs m nu ip * du_at m u ip j k)) by assumption. ring.
Qed.
Lemma du_linear m x u w b ip i k : grad_linear_exact m x -> (ip < nscs m)%nat -> (i < ndim m)%nat -> (k < ndim m)%nat ->
  (forall ic i, (ic < npe m)%nat -> (i < ndim m)%nat -> u (ic*ndim m+i)%nat = b i + sumn (ndim m) (fun k => w i k * x ic k)) -> du_at m u ip i k = w i k.
Proof.
  intros (GU & GL) Hip Hi Hk U. unfold du_at.
  rewrite (sumn_ext (npe m) _ (fun ic => b i * dndx m ip ic k + sumn (ndim m) (fun l => w i l * (dndx m ip ic k * x ic l)))).
  2:{ intros ic Hc. rewrite U by assumption. rewrite Rmult_plus_distr_l, <- sumn_scal. f_equal; [ring|apply sumn_ext; intros; ring]. }
  rewrite sumn_plus, sumn_scal, GU, sumn_swap by assumption.
  rewrite (sumn_ext (ndim m) _ (fun l => dl l k * w i l)).
  - rewrite (sumn_dl (ndim m) k (fun l => w i l)) by assumption. ring.
  - intros l Hl. rewrite sumn_scal, (GL ip k l Hip Hk Hl). unfold dl. rewrite Nat.eqb_sym. destruct (Nat.eqb l k); ring.
Qed.
(** A uniform velocity is not resisted, whatever the tensor ... *)
Theorem C104_uniform_velocity_no_hybrid_stress : forall m f u b ip i j, grad_unity m -> (ip < nscs m)%nat -> (i < ndim m)%nat -> (j < ndim m)%nat ->
  (forall ic i, (ic < npe m)%nat -> (i < ndim m)%nat -> u (ic*ndim m+i)%nat = b i) -> hybrid_stress m f u ip i j = 0.
Proof.
  intros m f u b ip i j G Hip Hi Hj U.
  assert (Z : forall i k, (i < ndim m)%nat -> (k < ndim m)%nat -> du_at m u ip i k = 0).
  { intros i0 k Hi0 Hk. unfold du_at. rewrite (sumn_ext (npe m) _ (fun ic => b i0 * dndx m ip ic k)) by (intros; rewrite U by assumption; ring). rewrite sumn_scal, G by assumption. ring. }
  unfold hybrid_stress. rewrite sumn_zero; [ring|]. intros k Hk. rewrite !Z by assumption. ring.
Qed.
(** ... nor is a rotation of the whole fluid, if the tensor is isotropic ... *)
Theorem C104_rigid_rotation_no_hybrid_stress : forall m x f nu u w b ip i j, grad_linear_exact m x -> (ip < nscs m)%nat -> (i < ndim m)%nat -> (j < ndim m)%nat ->
  (forall ic k l, h_mut f ic k l = if Nat.eqb k l then nu ic else 0) -> (forall i k, w k i = - w i k) ->
  (forall ic i, (ic < npe m)%nat -> (i < ndim m)%nat -> u (ic*ndim m+i)%nat = b i + sumn (ndim m) (fun k => w i k * x ic k)) -> hybrid_stress m f u ip i j = 0.
Proof.
  intros m x f nu u w b ip i j G Hip Hi Hj I W U. rewrite (C104_isotropic_hybrid_is_eddy_viscosity m f nu) by assumption.
  rewrite !(du_linear m x u w b) by assumption. rewrite (W i j). ring.
Qed.
(** a linear velocity field gives the stress of its gradient *)
Theorem C104_linear_velocity_hybrid_stress : forall m x f u w b ip i j, grad_linear_exact m x -> (ip < nscs m)%nat -> (i < ndim m)%nat -> (j < ndim m)%nat ->
  (forall ic i, (ic < npe m)%nat -> (i < ndim m)%nat -> u (ic*ndim m+i)%nat = b i + sumn (ndim m) (fun k => w i k * x ic k)) ->
  hybrid_stress m f u ip i j = at_scs m (h_alpha f) ip * sumn (ndim m) (fun k => mut_ip m f ip j k * w i k + mut_ip m f ip i k * w j k).
Proof. intros m x f u w b ip i j G Hip Hi Hj U. unfold hybrid_stress. f_equal. apply sumn_ext; intros k Hk. now rewrite !(du_linear m x u w b) by assumption. Qed.

(** ** a triangle (0,0), (1,0), (0,1) with one face between its first two nodes *)
Definition tx (ic k : nat) : R := match ic, k with 1%nat, 0%nat => 1 | 2%nat, 1%nat => 1 | _, _ => 0 end.
Definition tg (ip ic k : nat) : R := match ic, k with 0%nat, _ => -1 | 1%nat, 0%nat => 1 | 2%nat, 1%nat => 1 | _, _ => 0 end.
Definition tm : me := mkMe 3 1 3 2 (fun _ => 0%nat) (fun _ => 1%nat) (fun _ _ => 1/3) (fun _ _ => 1/3) tg tg (fun _ j => match j with 0%nat => 1 | _ => 0 end)
  (fun ip => ip) (fun _ _ => 1/3) (fun _ => 1/6).
Lemma tm_ok : maps_ok tm.
Proof. split; intros ip H; cbn in *; lia. Qed.
Lemma tm_exact : grad_linear_exact tm tx.
Proof.
  split.
  - intros ip j _ Hj. cbn in *. destruct j as [|[|]]; [| |lia]; cbn; lra.
  - intros ip j k _ Hj Hk. cbn in *. destruct j as [|[|]], k as [|[|]]; try lia; cbn; lra.
Qed.
(** The pressure of the unresolved motion should be counted once. *)
Theorem C104_tke_pressure_once_refuted : exists m x f u, maps_ok m /\ grad_linear_exact m x /\ unity (npe m) (nscs m) (Ns m) /\ (forall k, u k = 0) /\ (forall ic i j, h_mut f ic i j = 0) /\
  (forall ic, h_alpha f ic = 1) /\ (forall ic, h_rho f ic = 1) /\ (forall ic, h_tke f ic = 3/2) /\
  forall s, exists a i, (a < npe m)%nat /\ (i < ndim m)%nat /\ eB (momentum_hybrid m f u s) (a*ndim m+i)%nat <> eB s (a*ndim m+i)%nat - net_out m (fun ip => area m ip i) a.
Proof.
  exists tm, tx, (mkHyb (fun _ => 1) (fun _ => 3/2) (fun _ => 1) (fun _ _ _ => 0)), (fun _ => 0).
  split; [apply tm_ok|]. split; [apply tm_exact|]. split; [intros ip _; cbn; lra|]. do 5 (split; [reflexivity|]).
  intros s. exists 0%nat, 0%nat. split; [cbn; lia|]. split; [cbn; lia|]. rewrite C104_hybrid_force_partial by (cbn; lia).
  set (X := eB s _). unfold net_out, tke_pressure, hybrid_stress, mut_ip, at_scs, du_at. cbn. lra.
Qed.
(** With an anisotropic tensor a rigid rotation is resisted. *)
Theorem C104_rotation_any_tensor_refuted : exists m x f u w, grad_linear_exact m x /\ (forall i k, w k i = - w i k) /\ (forall ic i j, h_mut f ic i j = h_mut f ic j i) /\
  (forall ic v, 0 <= sumn (ndim m) (fun i => sumn (ndim m) (fun j => v i * h_mut f ic i j * v j))) /\
  (forall ic i, (ic < npe m)%nat -> (i < ndim m)%nat -> u (ic*ndim m+i)%nat = sumn (ndim m) (fun k => w i k * x ic k)) /\ hybrid_stress m f u 0 0 1 <> 0.
Proof.
  set (w := fun i k : nat => match i, k with 0%nat, 1%nat => -1 | 1%nat, 0%nat => 1 | _, _ => 0 end).
  set (f := mkHyb (fun _ => 1) (fun _ => 0) (fun _ => 1) (fun _ i j => match i, j with 0%nat, 0%nat => 1 | _, _ => 0 end)).
  set (u := fun k : nat => match k with 2%nat => 0 | 3%nat => 1 | 4%nat => -1 | _ => 0 end).
  assert (U : forall ic i, (ic < npe tm)%nat -> (i < ndim tm)%nat -> u (ic*ndim tm+i)%nat = 0 + sumn (ndim tm) (fun k => w i k * tx ic k)).
  { intros ic i Hc Hi. cbn in *. destruct ic as [|[|[|]]], i as [|[|]]; try lia; cbn; lra. }
  exists tm, tx, f, u, w. split; [apply tm_exact|]. split. { intros [|[|]] [|[|]]; cbn; lra. }
  split. { intros ic [|] [|]; reflexivity. } split. { intros ic v. cbn. nra. }
  split. { intros ic i Hc Hi. rewrite U by assumption. ring. }
  rewrite (C104_linear_velocity_hybrid_stress tm tx f u w (fun _ => 0)); [|apply tm_exact|cbn; lia|cbn; lia|cbn; lia|exact U].
  unfold mut_ip, at_scs. cbn. lra.
Qed.
