(** C79, momentum across the interface. *)
Require Import Reals List Bool Arith Lra Lia Permutation.
From Verif Require Import Edge_Model Edge_Proofs Sum_Proofs Elem_Model Elem_Spec Elem_Proofs Elem_Proofs2 Elem_Proofs3 NC_Model NC_Props NC_Props2 NC_Props3.
Import ListNotations.
Open Scope R_scope.

Definition pen_mu (o : ncopt) (g : dg) (mu : nat -> R) : R := (face_value (d_c g) mu * inv_length o (d_c g) (cNx o g) + face_value (d_o g) mu * inv_length o (d_o g) (oNx o g)) / 2.
(** viscous columns of one side for row component i *)
Definition visc_cols (o : ncopt) (s : side) (n : nat -> R) (k : R) (i j : nat) : R :=
  sumn (s_npe s) (fun ic => sumn (nd o) (fun jj => dl j (s_node s ic*nd o+i) * (k * s_dndx s ic jj * n jj) + dl j (s_node s ic*nd o+jj) * (k * s_dndx s ic i * n jj))).
Definition mom_coef (o : ncopt) (g : dg) (m : R) (mu : nat -> R) (i j : nat) : R :=
  sumn (s_nf (d_c g)) (fun ic => dl j (s_node (d_c g) (s_ord (d_c g) ic)*nd o+i) * (s_r (d_c g) ic * (pen_mu o g mu*c_amag o g + (eta o*Rabs m + m)/2))) +
  visc_cols o (d_c g) (cNx o g) (- face_value (d_c g) mu*c_amag o g/2) i j +
  sumn (s_nf (d_o g)) (fun ic => dl j (s_node (d_o g) (s_ord (d_o g) ic)*nd o+i) * (- (s_r (d_o g) ic * (pen_mu o g mu*c_amag o g + (eta o*Rabs m - m)/2)))) +
  visc_cols o (d_o g) (oNx o g) (face_value (d_o g) mu*c_amag o g/2) i j.
Lemma eff_cols2 n d r (c1 c2 : nat -> nat -> nat) (v1 v2 : nat -> nat -> R) s :
  eff s (loop n (fun ic s => loop d (fun j s => addL r (c1 ic j) (v1 ic j) (addL r (c2 ic j) (v2 ic j) s)) s) s)
    (fun i j => dl i r * sumn n (fun ic => sumn d (fun jj => dl j (c2 ic jj) * v2 ic jj + dl j (c1 ic jj) * v1 ic jj))) (fun _ => 0).
Proof.
  eapply eff_ext; [apply (eff_loop n _ (fun ic i j => sumn d (fun jj => dl i r * (dl j (c2 ic jj) * v2 ic jj + dl j (c1 ic jj) * v1 ic jj))) (fun _ _ => 0))| |].
  - intros ic s' _. eapply eff_ext; [apply (eff_loop d _ (fun jj i j => dl i r * (dl j (c2 ic jj) * v2 ic jj + dl j (c1 ic jj) * v1 ic jj)) (fun _ _ => 0))| |].
    + intros jj s2 _. eapply eff_ext; [eapply eff_trans; [apply eff_addL|apply eff_addL]| |]; intros; cbv beta; ring.
    + reflexivity.
    + intros. cbv beta. apply sumn_zero; reflexivity.
  - intros i j. cbv beta. rewrite <- sumn_scal. apply sumn_ext; intros. apply sumn_scal.
  - intros i. cbv beta. apply sumn_zero; reflexivity.
Qed.
Lemma nc_momentum_eff o g incl m mu u s : eff s (nc_momentum o g incl m mu u s)
  (fun i' j => sumn (nd o) (fun i => dl i' (rowv o g i) * mom_coef o g m mu i j)) (fun i' => sumn (nd o) (fun i => dl i' (rowv o g i) * - nc_mom_flux o g incl m mu u i)).
Proof.
  unfold nc_momentum. cbv zeta.
  apply (eff_loop (nd o) _ (fun i i' j => dl i' (rowv o g i) * mom_coef o g m mu i j) (fun i i' => dl i' (rowv o g i) * - nc_mom_flux o g incl m mu u i)).
  intros i s' Hi. eapply eff_ext.
  - eapply eff_trans; [|apply eff_cols2]. eapply eff_trans; [|apply eff_cols]. eapply eff_trans; [|apply eff_cols2]. eapply eff_trans; [|apply eff_cols]. apply eff_addB.
  - intros i' j. cbv beta. unfold mom_coef, rowv, row, visc_cols, pen_mu.
    rewrite (sumn_ext (s_npe (d_c g)) (fun ic => sumn (nd o) (fun jj => dl j (s_node (d_c g) ic * nd o + i) * (- face_value (d_c g) mu * c_amag o g / 2 * s_dndx (d_c g) ic jj * cNx o g jj) + dl j (s_node (d_c g) ic * nd o + jj) * (- face_value (d_c g) mu * c_amag o g / 2 * s_dndx (d_c g) ic i * cNx o g jj)))
      (fun ic => sumn (nd o) (fun jj => dl j (s_node (d_c g) ic * nd o + i) * (- face_value (d_c g) mu * s_dndx (d_c g) ic jj * cNx o g jj * c_amag o g / 2) + dl j (s_node (d_c g) ic * nd o + jj) * (- face_value (d_c g) mu * s_dndx (d_c g) ic i * cNx o g jj * c_amag o g / 2))))
      by (intros; apply sumn_ext; intros; field).
    rewrite (sumn_ext (s_npe (d_o g)) (fun ic => sumn (nd o) (fun jj => dl j (s_node (d_o g) ic * nd o + i) * (face_value (d_o g) mu * c_amag o g / 2 * s_dndx (d_o g) ic jj * oNx o g jj) + dl j (s_node (d_o g) ic * nd o + jj) * (face_value (d_o g) mu * c_amag o g / 2 * s_dndx (d_o g) ic i * oNx o g jj)))
      (fun ic => sumn (nd o) (fun jj => dl j (s_node (d_o g) ic * nd o + i) * (- (- face_value (d_o g) mu * s_dndx (d_o g) ic jj * oNx o g jj * c_amag o g / 2)) + dl j (s_node (d_o g) ic * nd o + jj) * (- (- face_value (d_o g) mu * s_dndx (d_o g) ic i * oNx o g jj * c_amag o g / 2)))))
      by (intros; apply sumn_ext; intros; field).
    ring.
  - intros i'. cbv beta. unfold rowv, row. ring.
Qed.
(** strain seen on side s: sum_j (du_i/dx_j + du_j/dx_i) n_j, and the extra term actually added for div u *)
Definition comp (o : ncopt) (u : nat -> R) (i k : nat) : R := u (k * nd o + i)%nat.
Lemma mom_flux_grad o s n mu incl u i : mom_flux o s n mu incl u i =
  - mu * (dot (nd o) (grad_at s (comp o u i)) n + dot (nd o) (fun j => grad_at s (comp o u j) i) n) + incl * (2/3*mu*dot (nd o) (fun j => grad_at s (comp o u j) j) n).
Proof.
  unfold mom_flux. cbv zeta. unfold dot, grad_at, comp. rewrite sumn_swap.
  rewrite <- sumn_plus, <- !sumn_scal, <- sumn_plus. apply sumn_ext. intros j Hj.
  transitivity (- mu * n j * sumn (s_npe s) (fun ic => s_dndx s ic j * u (s_node s ic * nd o + i)%nat)
     + - mu * n j * sumn (s_npe s) (fun ic => s_dndx s ic i * u (s_node s ic * nd o + j)%nat)
     + incl * (2/3*mu) * n j * sumn (s_npe s) (fun ic => s_dndx s ic j * u (s_node s ic * nd o + j)%nat)); [|ring].
  rewrite <- !sumn_scal, <- !sumn_plus. apply sumn_ext. intros. ring.
Qed.
Lemma visc_apply N o s n k i e : side_in N s -> (i < nd o)%nat ->
  sumn (N*nd o) (fun j => visc_cols o s n k i j * e j) = k * (dot (nd o) (grad_at s (comp o e i)) n + dot (nd o) (fun j => grad_at s (comp o e j) i) n).
Proof.
  intros (S1 & S2) Hi. unfold visc_cols.
  rewrite (sumn_ext (N*nd o) _ (fun j => sumn (s_npe s) (fun ic => sumn (nd o) (fun jj => dl j (s_node s ic*nd o+i) * (k * s_dndx s ic jj * n jj * e j) + dl j (s_node s ic*nd o+jj) * (k * s_dndx s ic i * n jj * e j))))).
  2:{ intros j _. rewrite <- sumn_scal_r. apply sumn_ext; intros. rewrite <- sumn_scal_r. apply sumn_ext; intros. ring. }
  rewrite sumn_swap. rewrite (sumn_ext (s_npe s) _ (fun ic => sumn (nd o) (fun jj => k * (n jj * (s_dndx s ic jj * comp o e i (s_node s ic)) + n jj * (s_dndx s ic i * comp o e jj (s_node s ic)))))).
  2:{ intros ic Hic. rewrite sumn_swap. apply sumn_ext. intros jj Hjj. rewrite sumn_plus.
      rewrite (sumn_dl (N*nd o) (s_node s ic*nd o+i) (fun j => k * s_dndx s ic jj * n jj * e j)) by (apply flat_in; auto).
      rewrite (sumn_dl (N*nd o) (s_node s ic*nd o+jj) (fun j => k * s_dndx s ic i * n jj * e j)) by (apply flat_in; auto).
      unfold comp. ring. }
  rewrite sumn_swap. unfold dot, grad_at. rewrite <- sumn_plus, <- sumn_scal. apply sumn_ext. intros j Hj.
  transitivity (k * (n j * sumn (s_npe s) (fun ic => s_dndx s ic j * comp o e i (s_node s ic)) + n j * sumn (s_npe s) (fun ic => s_dndx s ic i * comp o e j (s_node s ic)))); [|ring].
  rewrite <- !sumn_scal, <- sumn_plus, <- sumn_scal. reflexivity.
Qed.
Lemma mom_apply N o g m mu i e : point_in N g -> (i < nd o)%nat -> sumn (N*nd o) (fun j => mom_coef o g m mu i j * e j) = nc_mom_flux o g 0 m mu e i.
Proof.
  intros (Pc & Po & _) Hi. pose proof Pc as (C1 & C2). pose proof Po as (O1 & O2). unfold mom_coef.
  set (FC := pen_mu o g mu*c_amag o g + (eta o*Rabs m + m)/2). set (FO := pen_mu o g mu*c_amag o g + (eta o*Rabs m - m)/2).
  rewrite (sumn_ext (N*nd o) _ (fun j => ((sumn (s_nf (d_c g)) (fun ic => dl j (s_node (d_c g) (s_ord (d_c g) ic)*nd o+i) * (s_r (d_c g) ic * FC)) * e j
    + visc_cols o (d_c g) (cNx o g) (- face_value (d_c g) mu*c_amag o g/2) i j * e j)
    + sumn (s_nf (d_o g)) (fun ic => dl j (s_node (d_o g) (s_ord (d_o g) ic)*nd o+i) * (- (s_r (d_o g) ic * FO))) * e j)
    + visc_cols o (d_o g) (oNx o g) (face_value (d_o g) mu*c_amag o g/2) i j * e j)) by (intros; ring).
  rewrite !sumn_plus, !sumn_cols by (intros; apply flat_in; auto). rewrite !(visc_apply N) by assumption.
  rewrite (sumn_ext (s_nf (d_c g)) _ (fun ic => FC * (s_r (d_c g) ic * comp o e i (s_node (d_c g) (s_ord (d_c g) ic))))) by (intros; unfold comp; ring).
  rewrite (sumn_ext (s_nf (d_o g)) _ (fun ic => - FO * (s_r (d_o g) ic * comp o e i (s_node (d_o g) (s_ord (d_o g) ic))))) by (intros; unfold comp; ring).
  rewrite !sumn_scal. fold (face_value (d_c g) (comp o e i)) (face_value (d_o g) (comp o e i)).
  unfold nc_mom_flux. cbv zeta. rewrite !mom_flux_grad. fold (comp o e i). unfold FC, FO, pen_mu. field.
Qed.
Lemma mom_flux_plus o g incl m mu u e i : nc_mom_flux o g incl m mu (fun a => u a + e a) i = nc_mom_flux o g incl m mu u i + nc_mom_flux o g incl m mu e i.
Proof.
  unfold nc_mom_flux. cbv zeta.
  assert (F : forall s, face_value s (fun k => u (k*nd o+i)%nat + e (k*nd o+i)%nat) = face_value s (fun k => u (k*nd o+i)%nat) + face_value s (fun k => e (k*nd o+i)%nat)) by (intro; apply (face_value_plus s (fun k => u (k*nd o+i)%nat) (fun k => e (k*nd o+i)%nat))).
  assert (G : forall s n mu', mom_flux o s n mu' incl (fun a => u a + e a) i = mom_flux o s n mu' incl u i + mom_flux o s n mu' incl e i).
  { intros. unfold mom_flux. cbv zeta. rewrite <- sumn_plus. apply sumn_ext; intros. rewrite <- sumn_plus. apply sumn_ext; intros. ring. }
  rewrite !F, !G. field.
Qed.
(** without the div(u) stress the momentum matrix is the exact sensitivity of the interface fluxes *)
Theorem C79_momentum_matrix_exact N o mdot mu l : (forall g, In g l -> point_in N g) -> exact_newton (N * nd o) (fun u => nc_momentum_all o 0 mdot mu u l).
Proof.
  intros Hl u e s i' Hi'. unfold nc_momentum_all.
  destruct (eff_list (fun g s => nc_momentum o g 0 (mdot g) mu (fun a => u a + e a) s) _ _ l (fun g s => nc_momentum_eff o g 0 (mdot g) mu (fun a => u a + e a) s) s) as [_ E2].
  destruct (eff_list (fun g s => nc_momentum o g 0 (mdot g) mu u s) _ _ l (fun g s => nc_momentum_eff o g 0 (mdot g) mu u s) s) as [G1 G2].
  rewrite E2, G2.
  rewrite (sumn_ext (N*nd o) _ (fun j => lsum (fun g => sumn (nd o) (fun i => dl i' (rowv o g i) * mom_coef o g (mdot g) mu i j)) l * e j)) by (intros; rewrite G1; ring).
  clear E2 G1 G2. induction l as [|g t IH].
  - unfold lsum; cbn. rewrite sumn_zero by (intros; unfold lsum; cbn; ring). ring.
  - rewrite !lsum_cons. rewrite (sumn_ext (N*nd o) _ (fun j => sumn (nd o) (fun i => dl i' (rowv o g i) * (mom_coef o g (mdot g) mu i j * e j)) + lsum (fun g => sumn (nd o) (fun i => dl i' (rowv o g i) * mom_coef o g (mdot g) mu i j)) t * e j)).
    2:{ intros j _. rewrite lsum_cons, Rmult_plus_distr_r. f_equal. rewrite <- sumn_scal_r. apply sumn_ext; intros; ring. }
    rewrite sumn_plus, sumn_swap. specialize (IH (fun x Hx => Hl x (or_intror Hx))).
    rewrite (sumn_ext (nd o) (fun j => sumn (N * nd o) _) (fun i => dl i' (rowv o g i) * nc_mom_flux o g 0 (mdot g) mu e i)).
    2:{ intros i Hi. rewrite sumn_scal, (mom_apply N) by (try apply Hl; cbn; auto). reflexivity. }
    rewrite (sumn_ext (nd o) (fun i => dl i' (rowv o g i) * - nc_mom_flux o g 0 (mdot g) mu (fun a => u a + e a) i) (fun i => dl i' (rowv o g i) * - nc_mom_flux o g 0 (mdot g) mu u i + - (dl i' (rowv o g i) * nc_mom_flux o g 0 (mdot g) mu e i))).
    2:{ intros i _. rewrite mom_flux_plus. ring. }
    rewrite sumn_plus, sumn_opp. lra.
Qed.
(** a linear velocity u_i = a_i + b_i.x crosses with its exact flux: viscous -mu (grad u + grad u^T).A and mdot u; [incl] is the include_divu
    option, whose term is the one actually coded *)
Theorem C79_linear_velocity_exact_flux o g X xg (a : nat -> R) (b : nat -> nat -> R) u mu m incl i :
  sees (nd o) X (d_c g) xg -> sees (nd o) X (d_o g) xg -> opposite_normals o g -> c_amag o g <> 0 -> (i < nd o)%nat ->
  (forall k j, (j < nd o)%nat -> u (k*nd o+j)%nat = linear (nd o) (a j) (b j) (X k)) ->
  nc_mom_flux o g incl m (fun _ => mu) u i = - mu * sumn (nd o) (fun j => (b i j + b j i) * d_A g j) + m * linear (nd o) (a i) (b i) xg + incl * (2/3*mu*sumn (nd o) (fun j => b j j * d_A g j)).
Proof.
  intros Hc Ho Hn Ha Hi Hu. unfold nc_mom_flux. cbv zeta. rewrite !mom_flux_grad.
  rewrite (face_value_const _ _ _ _ _ Hc), (face_value_const _ _ _ _ _ Ho).
  assert (FV : forall s, sees (nd o) X s xg -> face_value s (fun k => u (k*nd o+i)%nat) = linear (nd o) (a i) (b i) xg).
  { intros s Hs. rewrite (face_value_ext s _ (fun k => linear (nd o) (a i) (b i) (X k))) by (intro; apply Hu, Hi). apply (face_value_linear _ _ _ _ _ _ Hs). }
  rewrite (FV _ Hc), (FV _ Ho).
  assert (GR : forall s j k, sees (nd o) X s xg -> (j < nd o)%nat -> (k < nd o)%nat -> grad_at s (comp o u j) k = b j k).
  { intros s j k Hs Hj Hk. rewrite <- (grad_linear _ _ _ _ (a j) (b j) k Hs Hk). unfold grad_at, comp. apply sumn_ext; intros. rewrite Hu by exact Hj. reflexivity. }
  assert (D : forall s n, sees (nd o) X s xg ->
    dot (nd o) (grad_at s (comp o u i)) n = dot (nd o) (b i) n /\ dot (nd o) (fun j => grad_at s (comp o u j) i) n = dot (nd o) (fun j => b j i) n /\ dot (nd o) (fun j => grad_at s (comp o u j) j) n = dot (nd o) (fun j => b j j) n).
  { intros s n Hs. repeat split; (apply dot_ext; [intros; apply GR; assumption|reflexivity]). }
  destruct (D _ (cNx o g) Hc) as (D1 & D2 & D3). destruct (D _ (oNx o g) Ho) as (D4 & D5 & D6). rewrite D1, D2, D3, D4, D5, D6.
  assert (N1 : forall w, dot (nd o) w (oNx o g) = - dot (nd o) w (cNx o g)) by (intros; rewrite <- dot_neg_r; apply dot_ext; [reflexivity|exact Hn]).
  rewrite !N1.
  assert (A1 : sumn (nd o) (fun j => (b i j + b j i) * d_A g j) = (dot (nd o) (b i) (cNx o g) + dot (nd o) (fun j => b j i) (cNx o g)) * c_amag o g).
  { rewrite Rmult_plus_distr_r, !cNx_A by exact Ha. unfold dot. rewrite <- sumn_plus. apply sumn_ext; intros; ring. }
  assert (A2 : sumn (nd o) (fun j => b j j * d_A g j) = dot (nd o) (fun j => b j j) (cNx o g) * c_amag o g) by (rewrite cNx_A by exact Ha; reflexivity).
  rewrite A1, A2. field.
Qed.
(** the flux of momentum through the interface should contain + 2/3 mu (div u) A_i; what is coded is 2/3 mu sum_j (du_j/dx_j) A_j for every i *)
Theorem C79_divergence_stress_refuted : exists o g X xg a b mu,
  sees (nd o) X (d_c g) xg /\ sees (nd o) X (d_o g) xg /\ opposite_normals o g /\ c_amag o g <> 0 /\ 0 < mu /\
  exists u i, (i < nd o)%nat /\ (forall k j, (j < nd o)%nat -> u (k*nd o+j)%nat = linear (nd o) (a j) (b j) (X k)) /\
  nc_mom_flux o g 1 0 (fun _ => mu) u i <> - mu * sumn (nd o) (fun j => (b i j + b j i) * d_A g j) + 2/3*mu*sumn (nd o) (fun j => b j j) * d_A g i.
Proof.
  destruct C79_hypotheses_met as (H1 & H2 & H3 & H4 & _).
  set (b := fun i j : nat => match i, j with 1%nat, 1%nat => 1 | _, _ => 0 end).
  exists ex_o, ex_g, ex_X, ex_xg, (fun _ => 0), b, 1. split; [exact H1|]. split; [exact H2|]. split; [exact H3|]. split; [exact H4|]. split; [lra|].
  set (u := fun r : nat => linear 2 0 (b (r mod 2)%nat) (ex_X (r / 2)%nat)).
  exists u, 0%nat.
  assert (Hu : forall k j, (j < nd ex_o)%nat -> u (k*nd ex_o+j)%nat = linear (nd ex_o) 0 (b j) (ex_X k)).
  { intros k j Hj. unfold u. cbn [nd ex_o] in *. rewrite Nat.div_add_l by lia. rewrite (Nat.div_small j 2) by exact Hj. rewrite Nat.add_0_r, Nat.add_comm, Nat.mod_add, Nat.mod_small by lia. reflexivity. }
  split; [cbn; lia|]. split; [exact Hu|].
  rewrite (C79_linear_velocity_exact_flux ex_o ex_g ex_X ex_xg (fun _ => 0) b u 1 0 1 0 H1 H2 H3 H4) by (try exact Hu; cbn; lia).
  unfold linear, dot, b. cbn. lra.
Qed.
(** on matching points momentum is conserved, component by component, with or without that term *)
Theorem C79_momentum_flux_antisymmetric o g g' incl m mu u i : mirrored o g g' -> (i < nd o)%nat -> nc_mom_flux o g' incl (- m) mu u i = - nc_mom_flux o g incl m mu u i.
Proof.
  intros M Hi. unfold nc_mom_flux. cbv zeta. rewrite (mirror_amag o g g' M), !mom_flux_grad.
  rewrite (inv_length_ext o _ _ _ (mirror_cNx o g g' M)), (inv_length_ext o _ _ _ (mirror_oNx o g g' M)), Rabs_Ropp.
  assert (Dc : forall w, dot (nd o) w (cNx o g') = dot (nd o) w (oNx o g)) by (intros; apply dot_ext; [reflexivity|apply (mirror_cNx o g g' M)]).
  assert (Do : forall w, dot (nd o) w (oNx o g') = dot (nd o) w (cNx o g)) by (intros; apply dot_ext; [reflexivity|apply (mirror_oNx o g g' M)]).
  rewrite !Dc, !Do. destruct M as (-> & -> & _). field.
Qed.
Lemma mirror_mom o g g' m mu i j : mirrored o g g' -> mom_coef o g' (- m) mu i j = - mom_coef o g m mu i j.
Proof.
  intros M. unfold mom_coef, pen_mu. rewrite (mirror_amag o g g' M).
  rewrite (inv_length_ext o _ _ _ (mirror_cNx o g g' M)), (inv_length_ext o _ _ _ (mirror_oNx o g g' M)), Rabs_Ropp.
  assert (Vx : forall s n n' k, (forall j, (j < nd o)%nat -> n' j = n j) -> visc_cols o s n' k i j = visc_cols o s n k i j).
  { intros s n n' k H. unfold visc_cols. apply sumn_ext; intros. apply sumn_ext; intros. rewrite H by assumption. reflexivity. }
  rewrite (Vx _ _ _ _ (mirror_cNx o g g' M)), (Vx _ _ _ _ (mirror_oNx o g g' M)).
  assert (Vn : forall s n k, visc_cols o s n (- k) i j = - visc_cols o s n k i j).
  { intros. unfold visc_cols. rewrite <- sumn_opp. apply sumn_ext; intros. rewrite <- sumn_opp. apply sumn_ext; intros. ring. }
  destruct M as (-> & -> & _).
  rewrite !Ropp_plus_distr, <- !Vn, <- !sumn_opp.
  rewrite (Rplus_comm (face_value (d_o g) mu * inv_length o (d_o g) (oNx o g))).
  replace (- (face_value (d_o g) mu * c_amag o g / 2)) with (- face_value (d_o g) mu * c_amag o g / 2) by field.
  replace (- (- face_value (d_c g) mu * c_amag o g / 2)) with (face_value (d_c g) mu * c_amag o g / 2) by field.
  assert (S4 : forall a b c d a' b' c' d', a = c' -> b = d' -> c = a' -> d = b' -> a + b + c + d = a' + b' + c' + d') by (intros; subst; ring).
  apply S4; try reflexivity; apply sumn_ext; intros; field.
Qed.
Theorem C79_momentum_conserved N o incl mdot mu u l l' : Permutation l l' -> paired o mdot l' -> (forall g, In g l -> point_in N g) ->
  conservative_vec (nd o) N (nc_momentum_all o incl mdot mu u l).
Proof.
  intros P Hp Hl s i Hi. unfold nc_momentum_all.
  destruct (eff_list (fun g s => nc_momentum o g incl (mdot g) mu u s) _ _ l (fun g s => nc_momentum_eff o g incl (mdot g) mu u s) s) as [E1 E2].
  assert (Q : forall f : dg -> nat -> R, sumn N (fun a => lsum (fun g => sumn (nd o) (fun c => dl (a*nd o+i) (rowv o g c) * f g c)) l) = lsum (fun g => f g i) l).
  { clear - Hl Hi. intros f. induction l as [|x t IH]; [unfold lsum; cbn; apply sumn_zero; reflexivity|].
    rewrite (sumn_ext N _ (fun a => sumn (nd o) (fun c => dl (a*nd o+i) (rowv o x c) * f x c) + lsum (fun g => sumn (nd o) (fun c => dl (a*nd o+i) (rowv o g c) * f g c)) t)) by (intros; rewrite lsum_cons; reflexivity).
    rewrite sumn_plus, lsum_cons, IH by (intros; apply Hl; cbn; auto). f_equal.
    rewrite (sumn_ext N _ (fun a => dl a (row x) * f x i)).
    - apply (sumn_dl N (row x) (fun _ => f x i)). destruct (Hl x (or_introl eq_refl)) as ((K1 & _) & _ & K3). unfold row. auto.
    - intros a _. rewrite (sumn_ext (nd o) _ (fun c => dl c i * (dl a (row x) * f x c))); [apply (sumn_dl (nd o) i (fun c => dl a (row x) * f x c)), Hi|].
      intros c Hc. unfold rowv. rewrite dl_flat by assumption. rewrite (dl_sym i c). ring. }
  split.
  - rewrite (sumn_ext N _ (fun a => eB s (a*nd o+i)%nat + lsum (fun g => sumn (nd o) (fun c => dl (a*nd o+i) (rowv o g c) * - nc_mom_flux o g incl (mdot g) mu u c)) l)) by (intros; apply E2).
    rewrite sumn_plus, (Q (fun g c => - nc_mom_flux o g incl (mdot g) mu u c)), (lsum_perm _ _ _ P).
    assert (Z : lsum (fun g => - nc_mom_flux o g incl (mdot g) mu u i) l' = 0); [|rewrite Z; ring].
    clear - Hp Hi. revert Hp. induction l' as [|a|a b t IH] using pair_induction; [reflexivity|intros []|].
    intros (M & E & Hp). rewrite !lsum_cons, (IH Hp), E, (C79_momentum_flux_antisymmetric o a b incl (mdot a) mu u i M Hi). ring.
  - intro j. rewrite (sumn_ext N _ (fun a => eL_ s (a*nd o+i)%nat j + lsum (fun g => sumn (nd o) (fun c => dl (a*nd o+i) (rowv o g c) * mom_coef o g (mdot g) mu c j)) l)) by (intros; apply E1).
    rewrite sumn_plus, (Q (fun g c => mom_coef o g (mdot g) mu c j)), (lsum_perm _ _ _ P).
    assert (Z : lsum (fun g => mom_coef o g (mdot g) mu i j) l' = 0); [|rewrite Z; ring].
    clear - Hp Hi. revert Hp. induction l' as [|a|a b t IH] using pair_induction; [reflexivity|intros []|].
    intros (M & E & Hp). rewrite !lsum_cons, (IH Hp), E, (mirror_mom o a b (mdot a) mu i j M). ring.
Qed.
