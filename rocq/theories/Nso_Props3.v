(** C87, third part: the finite-element operator; the counted divergence stress on an element. *)
Require Import Reals List Lia Lra.
From Verif Require Import Edge_Model Edge_Proofs Elem_Model Elem_Spec Elem_Proofs Elem_Proofs2 Elem_Proofs3 Elem_Props Elem_Props2 Fem_Model Fem_Spec Fem_Props Vof_Spec Vof_Props Vof_Props3 Nso_Model Nso_Spec Nso_Props Nso_Props2.
Open Scope R_scope.

(** w_i g^ij v_j at a point *)
Definition metric_dot (d : nat) (g : nat -> nat -> R) (w v : nat -> R) : R := dot d w (fun i => dot d (g i) v).
Lemma fac_dot m gU ip a b : nf_fac m gU ip a b = metric_dot (f_dim m) (gU ip) (dshape m a ip) (dshape m b ip).
Proof. unfold nf_fac, metric_dot, dot, dshape. apply sumn_ext. intros i _. rewrite <- sumn_scal. apply sumn_ext. intros; ring. Qed.
Lemma metric_cols m g w q ip : metric_dot (f_dim m) g w (grad m q ip) = sumn (f_npe m) (fun b => metric_dot (f_dim m) g w (dshape m b ip) * q b).
Proof.
  unfold metric_dot. rewrite (dot_ext (f_dim m) w (fun i => dot (f_dim m) (g i) (grad m q ip)) w (fun i => sumn (f_npe m) (fun b => dot (f_dim m) (g i) (dshape m b ip) * q b))).
  - unfold dot at 1. rewrite (sumn_ext (f_dim m) _ (fun i => sumn (f_npe m) (fun b => w i * dot (f_dim m) (g i) (dshape m b ip) * q b))).
    + rewrite (sumn_swap (f_dim m) (f_npe m)). apply sumn_ext. intros b _. rewrite sumn_scal_r. reflexivity.
    + intros i _. rewrite <- sumn_scal. apply sumn_ext. intros; ring.
  - reflexivity.
  - intros i _. apply dot_cols.
Qed.
Lemma metric_sym d g w v : (forall i j, (i < d)%nat -> (j < d)%nat -> g i j = g j i) -> metric_dot d g w v = metric_dot d g v w.
Proof.
  intros H. unfold metric_dot, dot. rewrite (sumn_ext d _ (fun i => sumn d (fun j => w i * g i j * v j))) by (intros; rewrite <- sumn_scal; apply sumn_ext; intros; ring).
  rewrite sumn_swap. apply sumn_ext. intros i Hi. rewrite <- sumn_scal. apply sumn_ext. intros j Hj. rewrite (H j i) by assumption. ring.
Qed.
Lemma metric_rows m g y ip : fem_grad_unity m -> (ip < f_ngp m)%nat -> sumn (f_npe m) (fun a => metric_dot (f_dim m) g (dshape m a ip) y) = 0.
Proof. intros. apply (dot_rows m (fun i => dot (f_dim m) (g i) y) ip); assumption. Qed.
Lemma nf_grad_grad m q ip j : nf_grad m q ip j = grad m q ip j.
Proof. apply sumn_ext. intros; ring. Qed.

Definition fem_with (m : fem) (nu : nat -> R) (gU : nat -> nat -> nat -> R) (q : nat -> R) (s0 : esys) : esys :=
  loop (f_ngp m) (fun ip s =>
    loop (f_npe m) (fun ir s =>
      let '(s, g) := loop (f_npe m) (fun ic x =>
          let '(s, g) := x in
          (addL ir ic (nu ip*nf_fac m gU ip ir ic*ipF m ip) s, g + nf_fac m gU ip ir ic*q ic)) (s, 0) in
      addB ir (- (nu ip*g*ipF m ip)) s) s) s0.
Lemma fem_with_gal m nu gU q : gal (f_ngp m) (f_npe m) (fem_with m nu gU q)
  (fun ip a b => ipF m ip * (nu ip * metric_dot (f_dim m) (gU ip) (dshape m a ip) (dshape m b ip)))
  (fun ip a => - (ipF m ip * (nu ip * metric_dot (f_dim m) (gU ip) (dshape m a ip) (grad m q ip)))).
Proof.
  apply gal_loop. intros ip ir s Hip Hir.
  match goal with |- context [loop (f_npe m) ?b (s, 0)] => set (body := b) end.
  destruct (loop_acc (f_npe m) body (fun ic g => g + nf_fac m gU ip ir ic*q ic)
    (fun ic row col => dl row ir * (dl col ic * (nu ip*nf_fac m gU ip ir ic*ipF m ip))) (fun _ _ => 0) s 0) as [H1 H2].
  - reflexivity.
  - intros ic s1 g _. cbn [body fst]. eapply eff_ext; [apply eff_addL|intros; cbv beta; ring|reflexivity].
  - destruct (loop (f_npe m) body (s, 0)) as [s1 g]. cbn [fst snd] in H1, H2. rewrite loop_sum, Rplus_0_l in H1.
    eapply eff_ext; [eapply eff_trans; [exact H2|apply eff_addB]| |].
    + intros row col. cbv beta. rewrite Rplus_0_r, sumn_scal. f_equal. apply sumn_ext. intros ic _. rewrite fac_dot. ring.
    + intros row. cbv beta. rewrite (sumn_zero (f_npe m)) by reflexivity. rewrite H1, metric_cols.
      rewrite (sumn_ext (f_npe m) (fun ic => nf_fac m gU ip ir ic * q ic) (fun b => metric_dot (f_dim m) (gU ip) (dshape m ir ip) (dshape m b ip) * q b)) by (intros; rewrite fac_dot; reflexivity). ring.
Qed.
Section Fem.
  Variables (m : fem) (Cupw small : R) (gU gL : nat -> nat -> nat -> R) (rho v : nat -> R).
  Let K := fem_nso m Cupw small gU gL rho v.
  Let nu := fun q => nf_nu m Cupw small gU gL rho v q.
  Lemma fem_nso_gal q : gal (f_ngp m) (f_npe m) (K q)
    (fun ip a b => ipF m ip * (nu q ip * metric_dot (f_dim m) (gU ip) (dshape m a ip) (dshape m b ip)))
    (fun ip a => - (ipF m ip * (nu q ip * metric_dot (f_dim m) (gU ip) (dshape m a ip) (grad m q ip)))).
  Proof. exact (fem_with_gal m (nu q) gU q). Qed.
  (** the weak form of diffusion along the metric *)
  Theorem C87_fem_weak_form : forall q s a, (a < f_npe m)%nat ->
    added_rhs (K q) s a = - integral m (fun ip => nu q ip * metric_dot (f_dim m) (gU ip) (dshape m a ip) (grad m q ip)).
  Proof. intros q s a Ha. rewrite (gal_rhs _ _ _ _ _ s a (fem_nso_gal q) Ha). unfold integral. rewrite <- sumn_opp. reflexivity. Qed.
  Theorem C87_fem_conservative : forall q, fem_grad_unity m -> conservative (f_npe m) (K q).
  Proof.
    intros q H. apply (gal_conservative _ _ _ _ _ (fem_nso_gal q)).
    - intros ip b Hip Hb. rewrite sumn_scal, sumn_scal, metric_rows by assumption. ring.
    - intros ip Hip. rewrite sumn_opp, sumn_scal, sumn_scal, metric_rows by assumption. ring.
  Qed.
  Theorem C87_fem_symmetric : forall q, (forall ip i j, (ip < f_ngp m)%nat -> (i < f_dim m)%nat -> (j < f_dim m)%nat -> gU ip i j = gU ip j i) ->
    symmetric (f_npe m) (K q).
  Proof.
    intros q HS s a b Ha Hb. rewrite !(gal_added _ _ _ _ _ s _ _ (fem_nso_gal q)) by assumption.
    apply sumn_ext. intros ip Hip. rewrite (metric_sym (f_dim m) (gU ip)) by (intros; apply HS; assumption). reflexivity.
  Qed.
  Theorem C87_fem_energy : forall q s x,
    energy (f_npe m) (K q) s x = integral m (fun ip => nu q ip * metric_dot (f_dim m) (gU ip) (grad m x ip) (grad m x ip)).
  Proof.
    intros q s x. rewrite (gal_energy _ _ _ _ _ s x (fem_nso_gal q)). apply sumn_ext. intros ip _.
    set (y := fun i => dot (f_dim m) (gU ip i) (grad m x ip)). change (metric_dot (f_dim m) (gU ip) (grad m x ip) (grad m x ip)) with (dot (f_dim m) (grad m x ip) y).
    rewrite (dot_sym _ (grad m x ip) y), (dot_cols m y x). unfold ipF.
    rewrite (sumn_ext (f_npe m) (fun a => sumn _ _) (fun a => (f_det m ip * f_wt m ip * nu q ip) * (dot (f_dim m) y (dshape m a ip) * x a))).
    - rewrite sumn_scal. ring.
    - intros a Ha. rewrite (dot_sym _ y). change (dot (f_dim m) (dshape m a ip) y) with (metric_dot (f_dim m) (gU ip) (dshape m a ip) (grad m x ip)).
      rewrite (metric_cols m (gU ip) (dshape m a ip) x ip).
      rewrite (sumn_ext (f_npe m) _ (fun b => (f_det m ip * f_wt m ip * nu q ip * x a) * (metric_dot (f_dim m) (gU ip) (dshape m a ip) (dshape m b ip) * x b))) by (intros; ring).
      rewrite sumn_scal. ring.
  Qed.
  Lemma fem_nu_bounds q ip : 0 <= Cupw -> 0 <= nu q ip.
  Proof. intros HC. unfold nu, nf_nu. cbv zeta. apply Rmin_glb; [apply Rmult_le_pos; [assumption|apply sqrt_pos]|apply sqrt_pos]. Qed.
  (** the operator only damps *)
  Theorem C87_fem_dissipative : forall q s x, fem_positive m -> 0 <= Cupw -> (forall ip, (ip < f_ngp m)%nat -> psd (f_dim m) (gU ip)) ->
    0 <= energy (f_npe m) (K q) s x.
  Proof.
    intros q s x HP HC HG. rewrite C87_fem_energy. apply integral_nonneg; [assumption|]. intros ip Hip. apply Rmult_le_pos; [apply fem_nu_bounds; assumption|].
    pose proof (HG ip Hip (grad m x ip)) as P. unfold metric_dot, dot.
    rewrite (sumn_ext (f_dim m) _ (fun i => sumn (f_dim m) (fun j => grad m x ip i * gU ip i j * grad m x ip j))); [exact P|].
    intros i _. rewrite <- sumn_scal. apply sumn_ext. intros; ring.
  Qed.
  (** a uniform field is left alone *)
  Theorem C87_fem_uniform : forall c s a, fem_grad_unity m -> (a < f_npe m)%nat -> added_rhs (K (fun _ => c)) s a = 0.
  Proof.
    intros c s a H Ha. rewrite C87_fem_weak_form by assumption. unfold integral. rewrite sumn_zero; [ring|]. intros ip Hip.
    unfold metric_dot, dot. rewrite (sumn_zero (f_dim m)); [ring|]. intros i Hi. rewrite (sumn_zero (f_dim m)); [ring|]. intros j Hj. rewrite (Fem_Props.grad_const m c ip j) by assumption. ring.
  Qed.
  (** the matrix is the derivative of the residual with the coefficient held *)
  Theorem C87_fem_newton_coefficient_held : forall q e s a, (a < f_npe m)%nat ->
    - integral m (fun ip => nu q ip * metric_dot (f_dim m) (gU ip) (dshape m a ip) (grad m (fun b => q b + e b) ip))
    = added_rhs (K q) s a - sumn (f_npe m) (fun b => added (K q) s a b * e b).
  Proof.
    intros q e s a Ha. rewrite C87_fem_weak_form by assumption.
    rewrite (sumn_ext (f_npe m) _ (fun b => sumn (f_ngp m) (fun ip => ipF m ip * (nu q ip * metric_dot (f_dim m) (gU ip) (dshape m a ip) (dshape m b ip)) * e b))).
    2:{ intros b Hb. rewrite (gal_added _ _ _ _ _ s a b (fem_nso_gal q) Ha Hb), <- sumn_scal_r. reflexivity. }
    rewrite (sumn_swap (f_npe m) (f_ngp m)). unfold integral. rewrite <- !sumn_opp, <- sumn_minus. apply sumn_ext. intros ip _.
    rewrite !(metric_cols m). rewrite (sumn_ext (f_npe m) (fun b => ipF m ip * _ * e b) (fun b => (ipF m ip * nu q ip) * (metric_dot (f_dim m) (gU ip) (dshape m a ip) (dshape m b ip) * e b))) by (intros; ring).
    rewrite sumn_scal. rewrite (sumn_ext (f_npe m) (fun b => _ * (q b + e b)) (fun b => metric_dot (f_dim m) (gU ip) (dshape m a ip) (dshape m b ip) * q b + metric_dot (f_dim m) (gU ip) (dshape m a ip) (dshape m b ip) * e b)) by (intros; ring).
    rewrite sumn_plus. unfold ipF. ring.
  Qed.
  (** coefficient between zero and the upwind value; zero where density-velocity is zero *)
  Theorem C87_fem_coefficient_bounds : forall q ip, 0 <= Cupw -> 0 < small -> psd (f_dim m) (gU ip) ->
    0 <= nu q ip <= Cupw * sqrt (n_quad (f_dim m) gL (mass_flux m rho v ip) ip) /\
    nu q ip * sqrt (n_quad (f_dim m) gU (grad m q ip) ip + small) <= Rabs (nf_residual m rho v q ip).
  Proof.
    intros q ip HC Hs HG. split; [split; [apply fem_nu_bounds; assumption|unfold nu, nf_nu; cbv zeta; apply Rmin_l]|].
    unfold nu, nf_nu. cbv zeta. set (r := nf_residual m rho v q ip).
    assert (E : n_quad (f_dim m) gU (nf_grad m q ip) ip = n_quad (f_dim m) gU (grad m q ip) ip) by (unfold n_quad; apply sumn_ext; intros; apply sumn_ext; intros; rewrite !nf_grad_grad; reflexivity).
    rewrite E. set (g := n_quad (f_dim m) gU (grad m q ip) ip). assert (Hg : 0 <= g) by (apply (HG (grad m q ip))).
    replace (Rabs r) with (sqrt (r*r/(g+small)) * sqrt (g+small)).
    - apply Rmult_le_compat_r; [apply sqrt_pos|apply Rmin_r].
    - rewrite <- sqrt_mult_alt by (apply Rmult_le_pos; [apply Rle_0_sqr|left; apply Rinv_0_lt_compat; lra]).
      replace (r*r/(g+small)*(g+small)) with (Rsqr r) by (unfold Rsqr; field; lra). apply sqrt_Rsqr_abs.
  Qed.
End Fem.

(* ------------------------------------------------------------------ the divergence stress on the triangle *)
Definition ex_o : nso := mkNso (fun _ => 1) (fun _ => 1) (fun _ => 1) (fun k => 1) (fun _ i j => if Nat.eqb i j then 1 else 0)
   (fun _ i j => if Nat.eqb i j then 1 else 0) 1 1 0 0 0.
(** u = (x, 0), p = x, nodal pressure gradient 0 *)
Definition ex_u (k : nat) : R := match k with 2%nat => 1 | _ => 0 end.
Definition ex_p (k : nat) : R := match k with 1%nat => 1 | _ => 0 end.
Lemma ex_nu_pos ip : 0 < n_ke_nu tri_el ex_o 1 ex_u ex_p (fun _ => 0) ip.
Proof.
  unfold n_ke_nu.
  assert (A : n_quad (ndim tri_el) (n_gL ex_o) (n_rhoV tri_el ex_o ip) ip = 2) by (unfold n_quad, n_rhoV, sumn; cbn; field).
  assert (B : n_quad (ndim tri_el) (n_gU ex_o) (n_grad tri_el (n_ke tri_el ex_u) ip) ip = 1/4) by (unfold n_quad, n_grad, n_ke, sumn; cbn; field).
  assert (Cc : n_keRes tri_el ex_o ex_u ex_p (fun _ => 0) ip = 1/6) by (unfold n_keRes, n_grad, at_scs, sumn; cbn; field).
  assert (D : at_scs tri_el (n_r1 ex_o) ip = 1) by (unfold at_scs, sumn; cbn; field).
  rewrite A, B, Cc, D. cbn [n_Cupw n_small ex_o]. apply Rmin_glb_lt; [rewrite Rmult_1_l; apply sqrt_lt_R0; lra|]. rewrite Rmult_1_l. unfold Rdiv at 1. rewrite Rinv_1, Rmult_1_r. apply sqrt_lt_R0. lra.
Qed.
Theorem C87_sij_divergence_counted_per_node_refuted : exists m o p Gp u a i, maps_ok m /\ grad_linear_exact m tri_xy /\ (i < ndim m)%nat /\
  forall s, gain (momentum_nso_sij m o 1 p Gp u) s (a*ndim m+i) <> - net_out m (fun ip => sij_stress m o 1 1 (n_ke_nu m o 1 u p Gp) u ip i) a.
Proof.
  exists tri_el, ex_o, ex_p, (fun _ => 0), ex_u, 0%nat, 0%nat. destruct tri_el_ok as (H1 & _ & _ & _ & H2). split; [assumption|]. split; [assumption|]. split; [cbn; lia|]. intros s.
  rewrite C87_sij_divergence_excess by (cbn; lia). intros E.
  assert (Z : (INR (npe tri_el) - 1) * net_out tri_el (fun ip => 2/3 * n_ke_nu tri_el ex_o 1 ex_u ex_p (fun _ => 0) ip * div_at (npe tri_el) (ndim tri_el) (dndx tri_el) ex_u ip * n_gU ex_o ip 0 0 * area tri_el ip 0) 0 = 0) by lra.
  clear E. unfold net_out in Z. cbn [npe nscs tri_el] in Z.
  pose proof (ex_nu_pos 0). pose proof (ex_nu_pos 2).
  assert (DV : forall ip, div_at 3 (ndim tri_el) (dndx tri_el) ex_u ip = 1) by (intros; unfold div_at, sumn; cbn; field).
  unfold sumn in Z. cbn [seq fold_left lrL lrR tri_el Nat.eqb] in Z. rewrite !DV in Z. cbn [area tri_el n_gU ex_o Nat.eqb] in Z.
  replace (INR 3) with 3 in Z by (cbn; lra). nra.
Qed.
