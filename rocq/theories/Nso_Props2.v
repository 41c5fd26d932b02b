(** C87: momentum and finite-element stabilisation. *)
Require Import Reals List Bool Lra Lia Arith.
From Verif Require Import RUtil Edge_Model Edge_Proofs Elem_Model Elem_Spec Elem_Proofs Elem_Proofs2 Elem_Proofs3 Elem_Props2 Elem_Props3 Rad_Quad_Proofs3.
From Verif Require Import Vof_Model Vof_Model2 Vof_Spec Vof_Props Vof_Props2 Vof_Props3 Vof_Props5 Fem_Model Nso_Model Nso_Spec Nso_Props.
From Verif Require Fem_Spec Fem_Props.
Import ListNotations.
Open Scope R_scope.

(** assembly of all components with given coefficients (one per component) *)
Definition vec_with (m : me) (o : nso) (nu : nat -> nat -> R) (Gu : nat -> R) (u : nat -> R) (s0 : esys) : esys :=
  loop (nscs m) (fun ip s => loop (ndim m) (fun k s => n_assemble m o (ndim m) k (nu k ip) (gcmp (ndim m) Gu k) (cmp (ndim m) u k) ip s) s) s0.
Definition nso_row (m : me) (o : nso) (nu : nat -> nat -> R) (ip k col : nat) : R :=
  sumn (npe m) (fun ic => dl col (ic*ndim m+k) * (nu k ip * - n_fac m o ip ic)).
Definition nso_stress (m : me) (o : nso) (nu : nat -> nat -> R) (Gu u : nat -> R) (ip k : nat) : R :=
  metric_flux m (n_gU o) (n_fourth o) (nu k) (gcmp (ndim m) Gu k) (cmp (ndim m) u k) ip.
Lemma vec_with_eff m o nu Gu u s : eff s (vec_with m o nu Gu u s)
   (fun row col => sumn (nscs m) (fun ip => sumn (ndim m) (fun k => side m ip row k * nso_row m o nu ip k col)))
   (fun row => sumn (nscs m) (fun ip => sumn (ndim m) (fun k => - (side m ip row k * nso_stress m o nu Gu u ip k)))).
Proof.
  unfold vec_with.
  apply (eff_loop (nscs m) _ (fun ip row col => sumn (ndim m) (fun k => side m ip row k * nso_row m o nu ip k col)) (fun ip row => sumn (ndim m) (fun k => - (side m ip row k * nso_stress m o nu Gu u ip k)))).
  intros ip s1 Hip.
  apply (eff_loop (ndim m) _ (fun k row col => side m ip row k * nso_row m o nu ip k col) (fun k row => - (side m ip row k * nso_stress m o nu Gu u ip k))).
  intros k s2 Hk. exact (assemble_eff m o (ndim m) k (nu k) (gcmp (ndim m) Gu k) (cmp (ndim m) u k) ip s2).
Qed.
Lemma vec_gain m k A F s a i : (forall s, eff s (k s) A (fun row => sumn (nscs m) (fun ip => sumn (ndim m) (fun i => - (side m ip row i * F ip i))))) ->
  (i < ndim m)%nat -> gain k s (a*ndim m+i) = - net_out m (fun ip => F ip i) a.
Proof.
  intros H Hi. unfold gain. rewrite (proj2 (H s)). unfold net_out. rewrite <- sumn_opp. match goal with |- ?b + ?x - ?b = ?y => replace (b + x - b) with x by ring end. apply sumn_ext.
  intros ip _. rewrite (side_row_opp m ip a i (F ip)) by assumption. unfold dl. destruct (Nat.eqb a (lrL m ip)), (Nat.eqb a (lrR m ip)); ring.
Qed.
(** each momentum component gets the net flux -nu_k A_i g^ij (d_j u_k - f G_j u_k) *)
Theorem C87_momentum_residual : forall m o t incl mu p Gu u0 um u1 s a k, (k < ndim m)%nat ->
  gain (momentum_nso m o t incl mu p Gu u0 um u1) s (a*ndim m+k)
  = - net_out m (metric_flux m (n_gU o) (n_fourth o) (n_mom_nu m o t incl mu p Gu u1 u0 um k) (gcmp (ndim m) Gu k) (cmp (ndim m) u1 k)) a.
Proof. intros m o t incl mu p Gu u0 um u1 s a k Hk. exact (vec_gain m _ _ _ s a k (vec_with_eff m o (n_mom_nu m o t incl mu p Gu u1 u0 um) Gu u1) Hk). Qed.
Theorem C87_momentum_ke_residual : forall m o p Gp Gu u s a k, (k < ndim m)%nat ->
  gain (momentum_nso_ke m o p Gp Gu u) s (a*ndim m+k)
  = - net_out m (metric_flux m (n_gU o) (n_fourth o) (n_ke_nu m o 1 u p Gp) (gcmp (ndim m) Gu k) (cmp (ndim m) u k)) a.
Proof. intros m o p Gp Gu u s a k Hk. exact (vec_gain m _ _ _ s a k (vec_with_eff m o (fun _ => n_ke_nu m o 1 u p Gp) Gu u) Hk). Qed.
Theorem C87_momentum_grad_residual : forall m o p Gp Gu u s a k, (k < ndim m)%nat ->
  gain (momentum_nso_grad m o p Gp Gu u) s (a*ndim m+k)
  = - net_out m (metric_flux m (n_gU o) (n_fourth o) (n_grad_nu m o p Gp u k) (gcmp (ndim m) Gu k) (cmp (ndim m) u k)) a.
Proof. intros m o p Gp Gu u s a k Hk. exact (vec_gain m _ _ _ s a k (vec_with_eff m o (n_grad_nu m o p Gp u) Gu u) Hk). Qed.
Theorem C87_momentum_conservative : forall m o t incl mu p Gp Gu u0 um u, maps_ok m ->
  conservative_vec (ndim m) (npe m) (momentum_nso m o t incl mu p Gu u0 um u) /\
  conservative_vec (ndim m) (npe m) (momentum_nso_ke m o p Gp Gu u) /\
  conservative_vec (ndim m) (npe m) (momentum_nso_grad m o p Gp Gu u).
Proof.
  intros m o t incl mu p Gp Gu u0 um u HM.
  assert (H : forall nu, conservative_vec (ndim m) (npe m) (vec_with m o nu Gu u)).
  { intros nu. exact (vec_conservative m HM (nso_row m o nu) (vec_with m o nu Gu) (nso_stress m o nu Gu) (vec_with_eff m o nu Gu) u). }
  split; [exact (H (n_mom_nu m o t incl mu p Gu u u0 um))|]. split; [exact (H (fun _ => n_ke_nu m o 1 u p Gp))|exact (H (n_grad_nu m o p Gp u))].
Qed.
Lemma row_comp_pick n d k (c e : nat -> R) : (k < d)%nat ->
  sumn (n*d) (fun col => sumn n (fun ic => dl col (ic*d+k) * c ic) * e col) = sumn n (fun ic => c ic * e (ic*d+k)%nat).
Proof.
  intros Hk. rewrite (sumn_ext (n*d) _ (fun col => sumn n (fun ic => dl col (ic*d+k) * (c ic * e col)))) by (intros; rewrite <- sumn_scal_r; apply sumn_ext; intros; ring).
  rewrite (sumn_swap (n*d) n). apply sumn_ext. intros ic Hic. apply (sumn_dl (n*d) (ic*d+k) (fun col => c ic * e col)). nia.
Qed.
Lemma vec_with_newton m o nu Gu : exact_newton (npe m * ndim m) (vec_with m o nu Gu).
Proof.
  apply (vec_newton m (nso_row m o nu) (vec_with m o nu Gu) (nso_stress m o nu Gu) (vec_with_eff m o nu Gu)).
  intros u e ip k Hip Hk. unfold nso_row. rewrite (row_comp_pick (npe m) (ndim m) k) by assumption. unfold nso_stress.
  change (cmp (ndim m) (fun a => u a + e a) k) with (fun a => cmp (ndim m) u k a + cmp (ndim m) e k a). rewrite metric_flux_plus. f_equal.
  rewrite <- (fac_pick m o (nu k ip) ip (cmp (ndim m) e k)). reflexivity.
Qed.
(** the matrix is the exact derivative with the coefficient held at the current solution: residual at u + e with that coefficient *)
Theorem C87_momentum_newton_coefficient_held : forall m o t incl mu p Gu u0 um u e s a k, (a < npe m)%nat -> (k < ndim m)%nat ->
  - net_out m (metric_flux m (n_gU o) (n_fourth o) (n_mom_nu m o t incl mu p Gu u u0 um k) (gcmp (ndim m) Gu k) (cmp (ndim m) (fun b => u b + e b) k)) a
  = gain (momentum_nso m o t incl mu p Gu u0 um u) s (a*ndim m+k)
    - sumn (npe m * ndim m) (fun col => gainL (momentum_nso m o t incl mu p Gu u0 um u) s (a*ndim m+k) col * e col).
Proof.
  intros m o t incl mu p Gu u0 um u e s a k Ha Hk. set (nu := n_mom_nu m o t incl mu p Gu u u0 um).
  pose proof (vec_with_newton m o nu Gu u e s (a*ndim m+k)%nat ltac:(nia)) as N.
  pose proof (vec_gain m _ _ _ s a k (vec_with_eff m o nu Gu (fun b => u b + e b)) Hk) as G. unfold nso_stress in G.
  etransitivity; [exact (eq_sym G)|]. unfold gain. rewrite N. unfold gainL. change (momentum_nso m o t incl mu p Gu u0 um u) with (vec_with m o nu Gu u). ring.
Qed.
(** uniform velocity untouched by any of the three *)
Theorem C87_momentum_uniform : forall m o t incl mu p Gp Gu u0 um u U s a k, (k < ndim m)%nat -> grad_unity m ->
  (forall ic l, (ic < npe m)%nat -> (l < ndim m)%nat -> u (ic*ndim m+l)%nat = U l) -> (forall a, Gu a = 0) ->
  gain (momentum_nso m o t incl mu p Gu u0 um u) s (a*ndim m+k) = 0 /\ gain (momentum_nso_ke m o p Gp Gu u) s (a*ndim m+k) = 0 /\
  gain (momentum_nso_grad m o p Gp Gu u) s (a*ndim m+k) = 0.
Proof.
  intros m o t incl mu p Gp Gu u0 um u U s a k Hk HG HU HZ.
  assert (Z : forall nu, - net_out m (metric_flux m (n_gU o) (n_fourth o) nu (gcmp (ndim m) Gu k) (cmp (ndim m) u k)) a = 0).
  { intros nu. rewrite (net_out_ext m _ (fun ip => 0 * 1)); [rewrite (net_out_scal m 0 (fun _ => 1)); ring|]. intros ip Hip. rewrite Rmult_0_l. apply metric_flux_zero. intros j Hj.
    rewrite (grad_const m _ (U k)) by (try assumption; intros; unfold cmp; apply HU; assumption). rewrite (sumn_zero (npe m)) by (intros; unfold gcmp; rewrite HZ; ring). ring. }
  rewrite C87_momentum_residual, C87_momentum_ke_residual, C87_momentum_grad_residual by assumption. repeat split; apply Z.
Qed.
(** with the fourth-order option a linear velocity with its exact nodal gradient is untouched *)
Theorem C87_momentum_fourth_order_linear : forall m o t incl mu p Gp Gu u0 um u x (c : nat -> R) (g : nat -> nat -> R) s a k, (k < ndim m)%nat ->
  grad_linear_exact m x -> unity (npe m) (nscs m) (Ns m) -> n_fourth o = 1 ->
  linear_field m x (g k) (c k) (cmp (ndim m) u k) -> (forall ic j, (ic < npe m)%nat -> (j < ndim m)%nat -> gcmp (ndim m) Gu k ic j = g k j) ->
  gain (momentum_nso m o t incl mu p Gu u0 um u) s (a*ndim m+k) = 0 /\ gain (momentum_nso_ke m o p Gp Gu u) s (a*ndim m+k) = 0 /\
  gain (momentum_nso_grad m o p Gp Gu u) s (a*ndim m+k) = 0.
Proof.
  intros m o t incl mu p Gp Gu u0 um u x c g s a k Hk HX HN H4 HL HG.
  assert (Z : forall nu, - net_out m (metric_flux m (n_gU o) (n_fourth o) nu (gcmp (ndim m) Gu k) (cmp (ndim m) u k)) a = 0).
  { intros nu. rewrite (net_out_ext m _ (fun ip => 0 * 1)); [rewrite (net_out_scal m 0 (fun _ => 1)); ring|]. intros ip Hip. rewrite Rmult_0_l. apply metric_flux_zero. intros j Hj.
    rewrite (grad_lin m x (g k) (c k) _ ip j HX HL Hip Hj), H4.
    rewrite (sumn_ext (npe m) _ (fun ic => Ns m ip ic * g k j)) by (intros; rewrite HG by assumption; reflexivity). rewrite sumn_scal_r, HN by assumption. ring. }
  rewrite C87_momentum_residual, C87_momentum_ke_residual, C87_momentum_grad_residual by assumption. repeat split; apply Z.
Qed.
(** the energy- and gradient-based coefficients are between zero and the upwind-like value ... *)
Theorem C87_ke_coefficient_bounds : forall m o tc u p Gp ip, 0 <= n_Cupw o -> 0 <= at_scs m (n_r1 o) ip -> 0 < tc ->
  0 <= n_ke_nu m o tc u p Gp ip <= n_Cupw o * sqrt (n_quad (ndim m) (n_gL o) (n_rhoV m o ip) ip).
Proof.
  intros m o tc u p Gp ip HC HR HT. unfold n_ke_nu. split; [|apply Rmin_l]. apply Rmin_glb.
  - apply Rmult_le_pos; [assumption|apply sqrt_pos].
  - apply Rmult_le_pos; [apply Rmult_le_pos; [assumption|apply sqrt_pos]|left; apply Rinv_0_lt_compat; assumption].
Qed.
(** ... and act only where the pressure gradient differs from the interpolated nodal gradient: nothing for a linear pressure *)
Theorem C87_fine_scale_pressure : forall m o tc u p Gp ip, 0 <= n_Cupw o ->
  (forall j, (j < ndim m)%nat -> grad_at (npe m) (dndx m) p ip j = sumn (npe m) (fun ic => Ns m ip ic * Gp (ic*ndim m+j)%nat)) ->
  n_ke_nu m o tc u p Gp ip = 0 /\ forall k, (k < ndim m)%nat -> n_grad_nu m o p Gp u k ip = 0.
Proof.
  intros m o tc u p Gp ip HC HP. split.
  - unfold n_ke_nu. assert (Z : n_keRes m o u p Gp ip = 0).
    { unfold n_keRes. apply sumn_zero. intros j Hj. rewrite n_grad_at, HP by assumption. unfold Rdiv, Rminus. rewrite Rplus_opp_r. ring. }
    rewrite Z. replace (0*0/_) with 0 by (unfold Rdiv; ring). rewrite sqrt_0. replace (_ * 0 / tc) with 0 by (unfold Rdiv; ring).
    apply Rmin_right. apply Rmult_le_pos; [assumption|apply sqrt_pos].
  - intros k Hk. unfold n_grad_nu. cbv zeta. rewrite n_grad_at, HP by assumption. rewrite Rminus_diag_eq by reflexivity. apply nu_zero_res. assumption.
Qed.
Theorem C87_linear_pressure_no_stabilisation : forall m o p Gp Gu u x g c s a k, 0 <= n_Cupw o -> (k < ndim m)%nat ->
  grad_linear_exact m x -> unity (npe m) (nscs m) (Ns m) -> linear_field m x g c p ->
  (forall ic j, (ic < npe m)%nat -> (j < ndim m)%nat -> Gp (ic*ndim m+j)%nat = g j) ->
  gain (momentum_nso_ke m o p Gp Gu u) s (a*ndim m+k) = 0 /\ gain (momentum_nso_grad m o p Gp Gu u) s (a*ndim m+k) = 0.
Proof.
  intros m o p Gp Gu u x g c s a k HC Hk HX HN HL HG. rewrite C87_momentum_ke_residual, C87_momentum_grad_residual by assumption.
  assert (P : forall ip j, (ip < nscs m)%nat -> (j < ndim m)%nat -> grad_at (npe m) (dndx m) p ip j = sumn (npe m) (fun ic => Ns m ip ic * Gp (ic*ndim m+j)%nat)).
  { intros ip j Hip Hj. rewrite (grad_lin m x g c p ip j HX HL Hip Hj). rewrite (sumn_ext (npe m) _ (fun ic => Ns m ip ic * g j)) by (intros; rewrite HG by assumption; reflexivity).
    rewrite sumn_scal_r, HN by assumption. ring. }
  split; (rewrite (net_out_ext m _ (fun ip => 0 * 1)); [rewrite (net_out_scal m 0 (fun _ => 1)); ring|]); intros ip Hip; unfold metric_flux.
  - rewrite (proj1 (C87_fine_scale_pressure m o 1 u p Gp ip HC (fun j Hj => P ip j Hip Hj))). ring.
  - rewrite (proj2 (C87_fine_scale_pressure m o 1 u p Gp ip HC (fun j Hj => P ip j Hip Hj)) k Hk). ring.
Qed.

(* ------------------------------------------------------------------ symmetric-gradient form *)
Definition sij_coef (m : me) (o : nso) (nu : R) (ip ic i l : nat) : R :=
  - nu * n_gU o ip i l * dndx m ip ic i * area m ip l + dl l i * sumn (ndim m) (fun j => - nu * n_gU o ip i j * dndx m ip ic j * area m ip j).
Definition sij_row (m : me) (o : nso) (nu : nat -> R) (ip i col : nat) : R :=
  sumn (npe m) (fun ic => sumn (ndim m) (fun l => dl col (ic*ndim m+l) * sij_coef m o (nu ip) ip ic i l)).
(** stress: -nu g^ij (d_j u_i + d_i u_j) A_j, and the divergence part times the factor w *)
Definition sij_stress (m : me) (o : nso) (incl w : R) (nu : nat -> R) (u : nat -> R) (ip i : nat) : R :=
  - nu ip * sumn (ndim m) (fun j => n_gU o ip i j * (grad_at (npe m) (dndx m) (cmp (ndim m) u i) ip j + grad_at (npe m) (dndx m) (cmp (ndim m) u j) ip i) * area m ip j)
  + w * (2/3 * nu ip * div_at (npe m) (ndim m) (dndx m) u ip * n_gU o ip i i * area m ip i * incl).
Definition sij_with (m : me) (o : nso) (incl : R) (nu : nat -> R) (dv : nat -> R) (u : nat -> R) (s0 : esys) : esys :=
  let d := ndim m in
  loop (nscs m) (fun ip s =>
    let il := lrL m ip in let ir := lrR m ip in
    loop (npe m) (fun ic s =>
      loop d (fun i s =>
        let divUs := 2/3*nu ip*dv ip*area m ip i*n_gU o ip i i*incl in
        let iL := (il*d+i)%nat in let iR := (ir*d+i)%nat in
        let '(s, a) := loop d (fun j x =>
            let '(s, a) := x in
            let fi := - nu ip*n_gU o ip i j*dndx m ip ic j*area m ip j in
            let fj := - nu ip*n_gU o ip i j*dndx m ip ic i*area m ip j in
            let s := addL iL (ic*d+j)%nat fj s in
            let s := addL iR (ic*d+j)%nat (- fj) s in
            let s := addB iL (- (fj*u (ic*d+j)%nat)) s in
            let s := addB iR (fj*u (ic*d+j)%nat) s in
            (s, a + fi)) (s, 0) in
        let s := addL iL (ic*d+i)%nat a s in
        let s := addL iR (ic*d+i)%nat (- a) s in
        let s := addB iL (- (a*u (ic*d+i)%nat + divUs)) s in
        addB iR (a*u (ic*d+i)%nat + divUs) s) s) s) s0.
Lemma sij_sum m o incl nu dv u ip i : (i < ndim m)%nat -> dv ip = div_at (npe m) (ndim m) (dndx m) u ip ->
  sumn (npe m) (fun ic => sumn (ndim m) (fun l => sij_coef m o (nu ip) ip ic i l * u (ic*ndim m+l)%nat) + 2/3*nu ip*dv ip*area m ip i*n_gU o ip i i*incl)
  = sij_stress m o incl (INR (npe m)) nu u ip i.
Proof.
  intros Hi Hd. rewrite sumn_plus, (sumn_const (npe m)), Hd. unfold sij_stress. f_equal; [|ring].
  set (d := ndim m). rewrite (sumn_ext (npe m) _ (fun ic => - nu ip * sumn d (fun j => n_gU o ip i j * area m ip j * (dndx m ip ic j * u (ic*d+i)%nat + dndx m ip ic i * u (ic*d+j)%nat)))).
  - rewrite sumn_scal. f_equal. rewrite (sumn_swap (npe m) d). apply sumn_ext. intros j _. rewrite sumn_scal, sumn_plus. unfold grad_at, cmp. ring.
  - intros ic _. unfold sij_coef. fold d.
    rewrite (sumn_ext d _ (fun l => - nu ip * (n_gU o ip i l * area m ip l * (dndx m ip ic i * u (ic*d+l)%nat)) + dl l i * (sumn d (fun j => - nu ip * n_gU o ip i j * dndx m ip ic j * area m ip j) * u (ic*d+i)%nat))).
    + rewrite sumn_plus, sumn_scal, (sumn_dl d i (fun _ => sumn d (fun j => - nu ip * n_gU o ip i j * dndx m ip ic j * area m ip j) * u (ic*d+i)%nat)) by assumption.
      rewrite (sumn_ext d (fun j => - nu ip * n_gU o ip i j * dndx m ip ic j * area m ip j) (fun j => - nu ip * (n_gU o ip i j * area m ip j * dndx m ip ic j))) by (intros; ring).
      rewrite sumn_scal, Rmult_assoc, <- Rmult_plus_distr_l, <- sumn_scal_r, <- sumn_plus. f_equal. apply sumn_ext. intros; ring.
    + intros l _. unfold dl. destruct (Nat.eqb_spec l i) as [->|]; ring.
Qed.
Lemma sij_eff m o incl nu dv u s : (forall ip, dv ip = div_at (npe m) (ndim m) (dndx m) u ip) -> eff s (sij_with m o incl nu dv u s)
   (fun row col => sumn (nscs m) (fun ip => sumn (ndim m) (fun i => side m ip row i * sij_row m o nu ip i col)))
   (fun row => sumn (nscs m) (fun ip => sumn (ndim m) (fun i => - (side m ip row i * sij_stress m o incl (INR (npe m)) nu u ip i)))).
Proof.
  intros Hdv. unfold sij_with. cbv zeta. set (d := ndim m).
  apply (eff_loop (nscs m) _ (fun ip row col => sumn d (fun i => side m ip row i * sij_row m o nu ip i col))
    (fun ip row => sumn d (fun i => - (side m ip row i * sij_stress m o incl (INR (npe m)) nu u ip i)))).
  intros ip s1 Hip. set (DV := fun i => 2/3*nu ip*dv ip*area m ip i*n_gU o ip i i*incl).
  eapply eff_ext.
  - apply (eff_loop (npe m) _ (fun ic row col => sumn d (fun i => side m ip row i * sumn d (fun l => dl col (ic*d+l) * sij_coef m o (nu ip) ip ic i l)))
      (fun ic row => sumn d (fun i => - (side m ip row i * (sumn d (fun l => sij_coef m o (nu ip) ip ic i l * u (ic*d+l)%nat) + DV i))))).
    intros ic s2 Hic.
    apply (eff_loop d _ (fun i row col => side m ip row i * sumn d (fun l => dl col (ic*d+l) * sij_coef m o (nu ip) ip ic i l))
      (fun i row => - (side m ip row i * (sumn d (fun l => sij_coef m o (nu ip) ip ic i l * u (ic*d+l)%nat) + DV i)))).
    intros i s3 Hi. fold (DV i).
    match goal with |- context [loop d ?b (s3, 0)] => set (body := b) end.
    destruct (loop_acc d body (fun j a => a + - nu ip*n_gU o ip i j*dndx m ip ic j*area m ip j)
      (fun j row col => side m ip row i * (dl col (ic*d+j) * (- nu ip*n_gU o ip i j*dndx m ip ic i*area m ip j)))
      (fun j row => - (side m ip row i * (- nu ip*n_gU o ip i j*dndx m ip ic i*area m ip j*u (ic*d+j)%nat))) s3 0) as [H1 H2].
    + reflexivity.
    + intros j s4 a _. cbn [body fst]. eapply eff_ext.
      * eapply eff_trans; [|apply eff_addB]. eapply eff_trans; [|apply eff_addB]. eapply eff_trans; apply eff_addL.
      * intros. cbv beta. unfold side, d. ring.
      * intros. cbv beta. unfold side, d. ring.
    + destruct (loop d body (s3, 0)) as [s4 a]. cbn [fst snd] in H1, H2. rewrite loop_sum, Rplus_0_l in H1.
      assert (SP : forall (f : nat -> R), sumn d (fun l => f l * sij_coef m o (nu ip) ip ic i l)
         = sumn d (fun j => f j * (- nu ip*n_gU o ip i j*dndx m ip ic i*area m ip j)) + f i * a).
      { intros f. unfold sij_coef. fold d. rewrite <- H1. rewrite (sumn_ext d _ (fun l => f l * (- nu ip*n_gU o ip i l*dndx m ip ic i*area m ip l) + dl l i * (f l * a))) by (intros; ring).
        rewrite sumn_plus, (sumn_dl d i (fun l => f l * a)) by assumption. reflexivity. }
      eapply eff_ext.
      * eapply eff_trans; [exact H2|]. eapply eff_trans; [|apply eff_addB]. eapply eff_trans; [|apply eff_addB]. eapply eff_trans; apply eff_addL.
      * intros row col. cbv beta. rewrite SP, sumn_scal. unfold side, d. ring.
      * intros row. cbv beta. rewrite (sumn_ext d (fun l => sij_coef m o (nu ip) ip ic i l * u (ic*d+l)%nat) (fun l => u (ic*d+l)%nat * sij_coef m o (nu ip) ip ic i l)) by (intros; ring).
        rewrite (SP (fun l => u (ic*d+l)%nat)). rewrite sumn_opp, sumn_scal.
        rewrite (sumn_ext d (fun j => - nu ip*n_gU o ip i j*dndx m ip ic i*area m ip j*u (ic*d+j)%nat) (fun j => u (ic*d+j)%nat * (- nu ip*n_gU o ip i j*dndx m ip ic i*area m ip j))) by (intros; ring).
        unfold side, d. ring.
  - intros row col. cbv beta. apply (sum_side m ip row (npe m) (fun ic i => sumn d (fun l => dl col (ic*d+l) * sij_coef m o (nu ip) ip ic i l))).
  - intros row. cbv beta.
    rewrite (sumn_ext (npe m) _ (fun ic => - sumn d (fun i => side m ip row i * (sumn d (fun l => sij_coef m o (nu ip) ip ic i l * u (ic*d+l)%nat) + DV i)))) by (intros; apply sumn_opp).
    rewrite sumn_opp, sumn_opp. f_equal.
    etransitivity; [apply (sum_side m ip row (npe m) (fun ic i => sumn d (fun l => sij_coef m o (nu ip) ip ic i l * u (ic*d+l)%nat) + DV i))|].
    apply sumn_ext. intros i Hi. f_equal. apply (sij_sum m o incl nu dv u ip i Hi (Hdv ip)).
Qed.
Lemma n_divU_div m u ip : n_divU m u ip = div_at (npe m) (ndim m) (dndx m) u ip.
Proof. unfold n_divU, div_at. rewrite sumn_swap. apply sumn_ext. intros j _. apply sumn_ext. intros; ring. Qed.
(** without the divergence option: component i gets -nu g^ij (d_j u_i + d_i u_j) A_j; momentum is conserved; rotations are free *)
Theorem C87_sij_residual : forall m o p Gp u s a i, (i < ndim m)%nat ->
  gain (momentum_nso_sij m o 0 p Gp u) s (a*ndim m+i) = - net_out m (fun ip => sij_stress m o 0 1 (n_ke_nu m o 1 u p Gp) u ip i) a.
Proof.
  intros m o p Gp u s a i Hi.
  pose proof (vec_gain m _ _ _ s a i (fun s => sij_eff m o 0 (n_ke_nu m o 1 u p Gp) (n_divU m u) u s (n_divU_div m u)) Hi) as G.
  etransitivity; [exact G|]. f_equal. apply net_out_ext. intros ip _. unfold sij_stress. ring.
Qed.
Theorem C87_sij_conservative : forall m o incl p Gp u, maps_ok m -> conservative_vec (ndim m) (npe m) (momentum_nso_sij m o incl p Gp u).
Proof.
  intros m o incl p Gp u HM. set (nu := n_ke_nu m o 1 u p Gp).
  exact (vec_conservative m HM (sij_row m o nu) (fun _ => sij_with m o incl nu (n_divU m u) u) (fun _ => sij_stress m o incl (INR (npe m)) nu u)
    (fun _ s => sij_eff m o incl nu (n_divU m u) u s (n_divU_div m u)) u).
Qed.
Theorem C87_sij_rotation_free : forall m o incl w nu u x (c : nat -> R) (W : nat -> nat -> R) ip i, grad_linear_exact m x -> (ip < nscs m)%nat -> (i < ndim m)%nat ->
  (forall k, (k < ndim m)%nat -> linear_field m x (W k) (c k) (cmp (ndim m) u k)) -> (forall k j, W k j = - W j k) ->
  sij_stress m o incl w nu u ip i = 0.
Proof.
  intros m o incl w nu u x c W ip i HX Hip Hi HL HW. unfold sij_stress.
  assert (G : forall k j, (k < ndim m)%nat -> (j < ndim m)%nat -> grad_at (npe m) (dndx m) (cmp (ndim m) u k) ip j = W k j) by (intros k j Hk Hj; apply (grad_lin m x (W k) (c k) _ ip j HX (HL k Hk) Hip Hj)).
  assert (D : div_at (npe m) (ndim m) (dndx m) u ip = 0).
  { unfold div_at. apply sumn_zero. intros j Hj. change (grad_at (npe m) (dndx m) (cmp (ndim m) u j) ip j = 0). rewrite G by assumption. pose proof (HW j j). lra. }
  rewrite D, (sumn_zero (ndim m)); [ring|]. intros j Hj. rewrite !G by assumption. rewrite (HW j i). ring.
Qed.
(** with the divergence option the -2/3 div(u) stress should be counted once; the kernel adds it inside the loop over the element's
    nodes, so it is multiplied by their number *)
Theorem C87_sij_divergence_excess : forall m o p Gp u s a i, (i < ndim m)%nat ->
  gain (momentum_nso_sij m o 1 p Gp u) s (a*ndim m+i)
  = - net_out m (fun ip => sij_stress m o 1 1 (n_ke_nu m o 1 u p Gp) u ip i) a
    - (INR (npe m) - 1) * net_out m (fun ip => 2/3 * n_ke_nu m o 1 u p Gp ip * div_at (npe m) (ndim m) (dndx m) u ip * n_gU o ip i i * area m ip i) a.
Proof.
  intros m o p Gp u s a i Hi.
  pose proof (vec_gain m _ _ _ s a i (fun s => sij_eff m o 1 (n_ke_nu m o 1 u p Gp) (n_divU m u) u s (n_divU_div m u)) Hi) as G.
  etransitivity; [exact G|]. rewrite <- net_out_scal. unfold net_out. rewrite <- !sumn_opp, <- sumn_minus. apply sumn_ext. intros ip _. unfold sij_stress.
  destruct (Nat.eqb a (lrL m ip)), (Nat.eqb a (lrR m ip)); ring.
Qed.
