(** C85: momentum at an open face; faces of quadratic tetrahedra; what is wrong with the divergence stress. *)
Require Import Reals List Bool Lra Lia Arith.
From Verif Require Import RUtil ME_Model ME_Shape_Model Tensor_Model.
From Verif Require Import Edge_Model Edge_Proofs Elem_Model Elem_Spec Elem_Proofs Elem_Proofs2 Elem_Props3.
From Verif Require Import Fem_Model Fem_Spec Fem_Props Fem_Props2 Fem_Props3 Fem_Props4.
Import ListNotations.
Open Scope R_scope.

(** the viscous functional of the kernel *)
Definition visc_c (m : ffem) (mu : nat -> R) (ip i ic j : nat) (ph : nat -> R) : R :=
  let d := ff_dim m in let M := f_value m mu ip in let n := ff_nrm m ip in
     - M * ff_dn m ip ic j * n j * (1 - n i * n i) * ph (ic*d+i)%nat
     - M * ff_dn m ip ic i * n j * (1 - n i * n i) * ph (ic*d+j)%nat
     + sumn d (fun l => (1 - dl i l) * (M * ff_dn m ip ic j * n j * (n i * n l) * ph (ic*d+l)%nat + M * ff_dn m ip ic l * n j * (n i * n l) * ph (ic*d+j)%nat)).
Definition visc_T (m : ffem) (mu : nat -> R) (ip i : nat) (ph : nat -> R) : R :=
  sumn (ff_npe m) (fun ic => sumn (ff_dim m) (fun j => visc_c m mu ip i ic j ph)).
Definition div_T (m : ffem) (mu : nat -> R) (u : nat -> R) (ip i : nat) : R :=
  let n := ff_nrm m ip in
  2/3 * f_value m mu ip * sumn (ff_dim m) (fun j => f_gradu m u ip j j * n j) * (1 - n i * n i + n i * sumn (ff_dim m) (fun l => (1 - dl i l) * n l)).

Definition fwv (m : ffem) (k : esys -> esys) (al : nat -> nat -> nat -> R) (be : nat -> nat -> R) : Prop :=
  forall s, eff s (k s)
    (fun row col => sumn (ff_nip m) (fun ip => sumn (ff_npf m) (fun ir => sumn (ff_dim m) (fun i => dl row (ff_ord m ir*ff_dim m+i) * (ff_N m ip ir * (ff_ipF m ip * al ip i col))))))
    (fun row => sumn (ff_nip m) (fun ip => sumn (ff_npf m) (fun ir => sumn (ff_dim m) (fun i => dl row (ff_ord m ir*ff_dim m+i) * - (ff_N m ip ir * (ff_ipF m ip * be ip i)))))).
Lemma face_pick m a i (f : nat -> nat -> R) : (i < ff_dim m)%nat ->
  sumn (ff_npf m) (fun ir => sumn (ff_dim m) (fun i' => dl (a*ff_dim m+i) (ff_ord m ir*ff_dim m+i') * f ir i')) = sumn (ff_npf m) (fun ir => dl a (ff_ord m ir) * f ir i).
Proof.
  intros Hi. apply sumn_ext. intros ir _. rewrite (sumn_ext (ff_dim m) _ (fun i' => dl i i' * (dl a (ff_ord m ir) * f ir i'))) by (intros; rewrite dl_flat by assumption; ring).
  apply (sumn_dl' (ff_dim m) i (fun i' => dl a (ff_ord m ir) * f ir i')). assumption.
Qed.
Lemma fwv_rhs m k al be s a i : fwv m k al be -> (i < ff_dim m)%nat -> added_rhs k s (a*ff_dim m+i) = - f_integral m (fun ip => f_shape m a ip * be ip i).
Proof.
  intros H Hi. unfold added_rhs. rewrite (proj2 (H s)). unfold Rminus. rewrite Rplus_comm, <- Rplus_assoc, Rplus_opp_l, Rplus_0_l. unfold f_integral.
  rewrite <- sumn_opp. apply sumn_ext. intros ip _. rewrite (face_pick m a i (fun ir i => - (ff_N m ip ir * (ff_ipF m ip * be ip i)))) by assumption.
  rewrite f_shape_dl, <- sumn_scal_r, <- sumn_scal, <- sumn_opp. apply sumn_ext. intros. unfold ff_ipF. ring.
Qed.
Lemma fwv_added m k al be s a i col : fwv m k al be -> (i < ff_dim m)%nat -> added k s (a*ff_dim m+i) col = f_integral m (fun ip => f_shape m a ip * al ip i col).
Proof.
  intros H Hi. unfold added. rewrite (proj1 (H s)). unfold Rminus. rewrite Rplus_comm, <- Rplus_assoc, Rplus_opp_l, Rplus_0_l. unfold f_integral.
  apply sumn_ext. intros ip _. rewrite (face_pick m a i (fun ir i => (ff_N m ip ir * (ff_ipF m ip * al ip i col)))) by assumption.
  rewrite f_shape_dl, <- sumn_scal_r, <- sumn_scal. apply sumn_ext. intros. unfold ff_ipF. ring.
Qed.
Lemma fwv_newton m (k : (nat -> R) -> esys -> esys) al be : (forall q, fwv m (k q) al (be q)) ->
  (forall q e ip i, (ip < ff_nip m)%nat -> (i < ff_dim m)%nat -> be (fun a => q a + e a) ip i = be q ip i + sumn (ff_npe m*ff_dim m) (fun b => al ip i b * e b)) ->
  exact_newton (ff_npe m*ff_dim m) k.
Proof.
  intros H L q e s row Hrow. destruct (flat_div _ _ _ Hrow) as (a & i & Ha & Hi & ->).
  set (N := (ff_npe m*ff_dim m)%nat) in *.
  pose proof (fwv_rhs m _ _ _ s a i (H (fun a => q a + e a)) Hi) as E1. pose proof (fwv_rhs m _ _ _ s a i (H q) Hi) as E2.
  rewrite (sumn_ext N _ (fun j => f_integral m (fun ip => f_shape m a ip * (al ip i j * e j)))).
  2:{ intros j _. pose proof (fwv_added m _ _ _ s a i j (H q) Hi) as E. unfold added in E. rewrite E. unfold f_integral. rewrite <- sumn_scal_r. apply sumn_ext. intros; ring. }
  assert (E : f_integral m (fun ip => f_shape m a ip * be (fun a => q a + e a) ip i) =
     f_integral m (fun ip => f_shape m a ip * be q ip i) + sumn N (fun j => f_integral m (fun ip => f_shape m a ip * (al ip i j * e j)))).
  { unfold f_integral. rewrite (sumn_swap N), <- sumn_plus. apply sumn_ext. intros ip Hip. rewrite L by assumption.
    rewrite (sumn_ext N (fun i0 => _ * (_ * (al ip i i0 * e i0))) (fun b => (ff_det m ip * ff_wt m ip * f_shape m a ip) * (al ip i b * e b))) by (intros; ring).
    rewrite sumn_scal. ring. }
  unfold added_rhs in E1, E2. rewrite E in E1. lra.
Qed.

Lemma mom_open_fwv m o incl mvcf mu ubc vm u : fwv m (fem_mom_open m o incl mvcf mu ubc vm u)
  (fun ip i col => open_mass_flux m o ip * upw (open_mass_flux m o ip) 1 0 * f_value m (trace m (comp (ff_dim m) (fun x => dl col x) i)) ip + visc_T m mu ip i (fun x => dl col x))
  (fun ip i => open_mass_flux m o ip * open_velocity m o mvcf ubc vm u ip i + visc_T m mu ip i u + incl * div_T m mu u ip i).
Proof.
  intros s. unfold fem_mom_open. cbv zeta. set (d := ff_dim m).
  apply (eff_loop (ff_nip m) _
    (fun ip row col => sumn (ff_npf m) (fun ir => sumn d (fun i => dl row (ff_ord m ir*d+i) * (ff_N m ip ir * (ff_ipF m ip * (open_mass_flux m o ip * upw (open_mass_flux m o ip) 1 0 * f_value m (trace m (comp d (fun x => dl col x) i)) ip + visc_T m mu ip i (fun x => dl col x)))))))
    (fun ip row => sumn (ff_npf m) (fun ir => sumn d (fun i => dl row (ff_ord m ir*d+i) * - (ff_N m ip ir * (ff_ipF m ip * (open_mass_flux m o ip * open_velocity m o mvcf ubc vm u ip i + visc_T m mu ip i u + incl * div_T m mu u ip i))))))).
  intros ip s1 Hip. rewrite open_flux_spec. change (at_fip m mu ip) with (f_value m mu ip). change (at_fip m (o_rho o) ip) with (f_value m (o_rho o) ip).
  rewrite !loop_sum, !Rplus_0_l.
  set (F := ff_ipF m ip). set (mf := open_mass_flux m o ip). set (n := ff_nrm m ip). set (M := f_value m mu ip). set (rb := f_value m (o_rho o) ip).
  set (rv := sumn d (fun k => sumn (ff_npf m) _ * n k)). set (us := sumn d (fun k => at_fip m _ ip * n k)).
  set (dU := fun j ic => 2/3 * M * ff_dn m ip ic j * u (ic*d+j)%nat * n j * incl).
  set (K := fun i => 1 - n i*n i + n i * sumn d (fun l => (1 - dl i l) * n l)).
  eapply eff_ext.
  - eapply eff_trans; swap 1 2.
    + (* diffusion *)
      apply (eff_loop (ff_npf m) _ 
        (fun ir row col => sumn (ff_npe m) (fun ic => sumn d (fun j => sumn d (fun i => dl row (ff_ord m ir*d+i) * (ff_N m ip ir * F * visc_c m mu ip i ic j (fun x => dl col x))))))
        (fun ir row => sumn (ff_npe m) (fun ic => sumn d (fun j => sumn d (fun i => dl row (ff_ord m ir*d+i) * - (ff_N m ip ir * F * (visc_c m mu ip i ic j u + dU j ic * K i))))))).
      intros ir s2 Hir. apply (eff_loop (ff_npe m) _
        (fun ic row col => sumn d (fun j => sumn d (fun i => dl row (ff_ord m ir*d+i) * (ff_N m ip ir * F * visc_c m mu ip i ic j (fun x => dl col x)))))
        (fun ic row => sumn d (fun j => sumn d (fun i => dl row (ff_ord m ir*d+i) * - (ff_N m ip ir * F * (visc_c m mu ip i ic j u + dU j ic * K i)))))).
      intros ic s3 Hic. apply (eff_loop d _
        (fun j row col => sumn d (fun i => dl row (ff_ord m ir*d+i) * (ff_N m ip ir * F * visc_c m mu ip i ic j (fun x => dl col x))))
        (fun j row => sumn d (fun i => dl row (ff_ord m ir*d+i) * - (ff_N m ip ir * F * (visc_c m mu ip i ic j u + dU j ic * K i))))).
      intros j s4 Hj. apply (eff_loop d _
        (fun i row col => dl row (ff_ord m ir*d+i) * (ff_N m ip ir * F * visc_c m mu ip i ic j (fun x => dl col x)))
        (fun i row => dl row (ff_ord m ir*d+i) * - (ff_N m ip ir * F * (visc_c m mu ip i ic j u + dU j ic * K i)))).
      intros i s5 Hi. set (w := ff_N m ip ir). set (r := (ff_ord m ir*d+i)%nat). eapply eff_ext.
      * eapply eff_trans; swap 1 2.
        -- apply (eff_loop d _
          (fun l row col => dl row r * (w * F * ((1 - dl i l) * (M * ff_dn m ip ic j * n j * (n i * n l) * dl col (ic*d+l) + M * ff_dn m ip ic l * n j * (n i * n l) * dl col (ic*d+j)))))
          (fun l row => dl row r * - (w * F * ((1 - dl i l) * (M * ff_dn m ip ic j * n j * (n i * n l) * u (ic*d+l)%nat + M * ff_dn m ip ic l * n j * (n i * n l) * u (ic*d+j)%nat + dU j ic * (n i * n l)))))).
           intros l s6 Hl. assert (D : dl i l = if Nat.eqb i l then 1 else 0) by reflexivity. rewrite D. clear D. destruct (Nat.eqb i l).
           ++ eapply eff_ext; [apply eff_refl| |]; intros; cbv beta; ring.
           ++ eapply eff_ext; [effs| |]; intros; cbv beta; unfold dU, Rdiv; ring.
        -- effs.
      * intros row col. cbv beta. unfold visc_c. cbv zeta. fold d M n. rewrite !sumn_scal. fold r w. ring.
      * intros row. cbv beta. unfold visc_c, K. cbv zeta. fold d M n. rewrite sumn_scal, sumn_opp, sumn_scal.
        rewrite (sumn_ext d (fun l => (1 - dl i l) * (_ + dU j ic * (n i * n l)))
          (fun l => (1 - dl i l) * (M * ff_dn m ip ic j * n j * (n i * n l) * u (ic*d+l)%nat + M * ff_dn m ip ic l * n j * (n i * n l) * u (ic*d+j)%nat) + (dU j ic * n i) * ((1 - dl i l) * n l))) by (intros; ring).
        rewrite sumn_plus, sumn_scal. fold r w. unfold dU, Rdiv. ring.
    + (* advection *)
      apply (eff_loop d _
        (fun i row col => sumn (ff_npf m) (fun ir => dl row (ff_ord m ir*d+i) * (f_value m (trace m (comp d (fun x => dl col x) i)) ip * (ff_N m ip ir * (mf * F * (if Rlt_dec 0 mf then 1 else 0))))))
        (fun i row => sumn (ff_npf m) (fun ir => dl row (ff_ord m ir*d+i) * - (ff_N m ip ir * (F * (mf * open_velocity m o mvcf ubc vm u ip i)))))).
      intros i s2 Hi. apply (eff_loop (ff_npf m) _ 
         (fun ir row col => dl row (ff_ord m ir*d+i) * (f_value m (trace m (comp d (fun x => dl col x) i)) ip * (ff_N m ip ir * (mf * F * (if Rlt_dec 0 mf then 1 else 0)))))
         (fun ir row => dl row (ff_ord m ir*d+i) * - (ff_N m ip ir * (F * (mf * open_velocity m o mvcf ubc vm u ip i))))).
      intros ir s3 Hir. eapply eff_ext.
      * eapply eff_trans; [|apply eff_addB]. eapply eff_trans; [apply eff_addB|].
        apply (eff_loop (ff_npf m) _ (fun ic row col => dl row (ff_ord m ir*d+i) * dl col (ff_ord m ic*d+i) * (ff_N m ip ir * ff_N m ip ic * (mf * F * (if Rlt_dec 0 mf then 1 else 0)))) (fun _ _ => 0)). intros ic s4 Hic. apply eff_addL.
      * intros row col. cbv beta. rewrite Rplus_0_l, Rplus_0_r. unfold f_value, trace, comp. rewrite <- sumn_scal_r, <- sumn_scal. apply sumn_ext. intros; ring.
      * intros row. cbv beta. rewrite (sumn_zero (ff_npf m) (fun _ => 0)) by reflexivity. unfold open_velocity, f_tangential, upw. cbv zeta. fold d n mf rb.
        change (f_value m (trace m (comp d u i)) ip) with (at_fip m (fun ic => u (ff_ord m ic*d+i)%nat) ip).
        change (f_value m (comp d ubc i) ip) with (at_fip m (fun ic => ubc (ic*d+i)%nat) ip).
        change (dot d (fun j => f_value m (comp d ubc j) ip) n) with us.
        change (dot d (fun j => sumn (ff_npf m) (fun ic => ff_N m ip ic * o_rho o ic * vm (ic*d+j)%nat)) n) with rv.
        destruct (Rlt_dec 0 mf); unfold Rdiv; ring.
  - intros row col. cbv beta. rewrite (sumn_swap d (ff_npf m)), <- sumn_plus. apply sumn_ext. intros ir Hir.
    rewrite (sumn_ext (ff_npe m) _ (fun ic => sumn d (fun i => sumn d (fun j => dl row (ff_ord m ir*d+i) * (ff_N m ip ir * F * visc_c m mu ip i ic j (fun x => dl col x)))))) by (intros; apply sumn_swap).
    rewrite (sumn_swap (ff_npe m) d), <- sumn_plus. apply sumn_ext. intros i Hi.
    rewrite (sumn_ext (ff_npe m) _ (fun ic => (dl row (ff_ord m ir*d+i) * (ff_N m ip ir * F)) * sumn d (fun j => visc_c m mu ip i ic j (fun x => dl col x)))) by (intros; rewrite <- sumn_scal; apply sumn_ext; intros; ring).
    rewrite sumn_scal. unfold visc_T. fold d mf. unfold upw. destruct (Rlt_dec 0 mf); ring.
  - intros row. cbv beta. rewrite (sumn_swap d (ff_npf m)), <- sumn_plus. apply sumn_ext. intros ir Hir.
    rewrite (sumn_ext (ff_npe m) _ (fun ic => sumn d (fun i => sumn d (fun j => dl row (ff_ord m ir*d+i) * - (ff_N m ip ir * F * (visc_c m mu ip i ic j u + dU j ic * K i)))))) by (intros; apply sumn_swap).
    rewrite (sumn_swap (ff_npe m) d), <- sumn_plus. apply sumn_ext. intros i Hi.
    rewrite (sumn_ext (ff_npe m) _ (fun ic => (dl row (ff_ord m ir*d+i) * - (ff_N m ip ir * F)) * (sumn d (fun j => visc_c m mu ip i ic j u) + sumn d (fun j => dU j ic) * K i)))
      by (intros; rewrite <- sumn_scal_r, <- sumn_plus, <- sumn_scal; apply sumn_ext; intros; ring).
    rewrite sumn_scal, sumn_plus, sumn_scal_r.
    assert (E0 : sumn (ff_npe m) (fun ic => sumn d (fun j => dU j ic)) = 2/3 * M * incl * sumn d (fun j => f_gradu m u ip j j * n j)).
    { rewrite (sumn_swap (ff_npe m) d), <- sumn_scal. apply sumn_ext. intros j _. unfold dU, f_gradu, f_grad, comp. fold d.
        rewrite <- !sumn_scal_r, <- !sumn_scal. apply sumn_ext. intros; ring. }
    rewrite E0. unfold visc_T, div_T, K. cbv zeta. fold d n M. ring.
Qed.
Lemma visc_T_tangential m mu ip i u : (i < ff_dim m)%nat -> visc_T m mu ip i u = - f_tangential m (f_traction m mu u ip) ip i.
Proof.
  intros Hi. unfold visc_T, visc_c, f_tangential. cbv zeta. set (d := ff_dim m). set (M := f_value m mu ip). set (n := ff_nrm m ip). fold d in Hi.
  set (T := f_traction m mu u ip).
  assert (HT : forall k, (k < d)%nat -> T k = M * sumn (ff_npe m) (fun ic => sumn d (fun j => ff_dn m ip ic j * n j * u (ic*d+k)%nat + ff_dn m ip ic k * n j * u (ic*d+j)%nat))).
  { intros k Hk. unfold T, f_traction. fold M. f_equal. unfold dot. fold d n. rewrite (sumn_swap (ff_npe m) d). apply sumn_ext. intros j _. unfold f_gradu, f_grad, comp. fold d.
    rewrite <- sumn_plus, <- sumn_scal_r. apply sumn_ext. intros; ring. }
  assert (E : sumn (ff_npe m) (fun ic => sumn d (fun j =>
     - M * ff_dn m ip ic j * n j * (1 - n i * n i) * u (ic*d+i)%nat - M * ff_dn m ip ic i * n j * (1 - n i * n i) * u (ic*d+j)%nat
     + sumn d (fun l => (1 - dl i l) * (M * ff_dn m ip ic j * n j * (n i * n l) * u (ic*d+l)%nat + M * ff_dn m ip ic l * n j * (n i * n l) * u (ic*d+j)%nat)))) =
     - (1 - n i * n i) * T i + n i * sumn d (fun l => (1 - dl i l) * n l * T l)).
  { rewrite (HT i Hi). 
    rewrite (sumn_ext d (fun l => (1 - dl i l) * n l * T l) (fun l => sumn (ff_npe m) (fun ic => sumn d (fun j => (1 - dl i l) * n l * M * (ff_dn m ip ic j * n j * u (ic*d+l)%nat + ff_dn m ip ic l * n j * u (ic*d+j)%nat))))).
    2:{ intros l Hl. rewrite (HT l Hl), <- !sumn_scal. apply sumn_ext. intros ic _. rewrite <- !sumn_scal. apply sumn_ext. intros; ring. }
    rewrite (sumn_swap d (ff_npe m)), <- !sumn_scal, <- sumn_plus. apply sumn_ext. intros ic _.
    rewrite (sumn_swap d d), <- !sumn_scal, <- sumn_plus. apply sumn_ext. intros j _.
    rewrite (sumn_ext d (fun l => (1 - dl i l) * (M * ff_dn m ip ic j * n j * (n i * n l) * u (ic*d+l)%nat + M * ff_dn m ip ic l * n j * (n i * n l) * u (ic*d+j)%nat))
       (fun l => n i * ((1 - dl i l) * n l * M * (ff_dn m ip ic j * n j * u (ic*d+l)%nat + ff_dn m ip ic l * n j * u (ic*d+j)%nat)))) by (intros; ring).
    rewrite sumn_scal. ring. }
  rewrite E. unfold dot. fold d.
  rewrite (sumn_ext d (fun l => (1 - dl i l) * n l * T l) (fun l => T l * n l - dl i l * (n l * T l))) by (intros; ring).
  rewrite sumn_minus, (sumn_dl' d i (fun l => n l * T l) Hi). ring.
Qed.
(** momentum through an open face: the advected velocity times the mass flux, less the tangential viscous traction *)
Theorem C85_open_momentum_flux : forall m o mvcf mu ubc vm u s a i, (i < ff_dim m)%nat ->
  added_rhs (fem_mom_open m o 0 mvcf mu ubc vm u) s (a*ff_dim m+i) =
  - f_integral m (fun ip => f_shape m a ip * (open_mass_flux m o ip * open_velocity m o mvcf ubc vm u ip i - f_tangential m (f_traction m mu u ip) ip i)).
Proof.
  intros m o mvcf mu ubc vm u s a i Hi. rewrite (fwv_rhs _ _ _ _ s a i (mom_open_fwv m o 0 mvcf mu ubc vm u) Hi). f_equal. unfold f_integral. apply sumn_ext. intros ip _.
  rewrite visc_T_tangential by assumption. ring.
Qed.
(** no viscous force is applied normal to the face *)
Theorem C85_tangential_traction_has_no_normal_part : forall m t ip, ff_unit_normal m -> (ip < ff_nip m)%nat ->
  dot (ff_dim m) (f_tangential m t ip) (ff_nrm m ip) = 0.
Proof.
  intros m t ip H Hip. unfold f_tangential. set (c := dot (ff_dim m) t (ff_nrm m ip)). unfold dot.
  rewrite (sumn_ext _ _ (fun j => t j * ff_nrm m ip j - c * (ff_nrm m ip j * ff_nrm m ip j))) by (intros; ring).
  rewrite sumn_minus, sumn_scal, (H ip Hip). fold (dot (ff_dim m) t (ff_nrm m ip)). fold c. ring.
Qed.
Lemma visc_T_cols m mu ip i e : (i < ff_dim m)%nat -> sumn (ff_npe m*ff_dim m) (fun b => visc_T m mu ip i (fun x => dl b x) * e b) = visc_T m mu ip i e.
Proof.
  intros Hi. unfold visc_T. set (d := ff_dim m). set (N := (ff_npe m*d)%nat). fold d in Hi.
  rewrite (sumn_ext N _ (fun b => sumn (ff_npe m) (fun ic => sumn d (fun j => visc_c m mu ip i ic j (fun x => dl b x) * e b))))
    by (intros; rewrite <- sumn_scal_r; apply sumn_ext; intros; rewrite <- sumn_scal_r; reflexivity).
  rewrite (sumn_swap N). apply sumn_ext. intros ic Hic. rewrite (sumn_swap N). apply sumn_ext. intros j Hj.
  assert (P : forall c k, (k < d)%nat -> sumn N (fun b => c * (dl b (ic*d+k) * e b)) = c * e (ic*d+k)%nat).
  { intros c k Hk. rewrite sumn_scal, sumn_dl; [reflexivity|]. unfold N. nia. }
  unfold visc_c. cbv zeta. fold d. set (M := f_value m mu ip). set (n := ff_nrm m ip).
  rewrite (sumn_ext N _ (fun b => (- M * ff_dn m ip ic j * n j * (1 - n i * n i)) * (dl b (ic*d+i) * e b) - (M * ff_dn m ip ic i * n j * (1 - n i * n i)) * (dl b (ic*d+j) * e b)
     + sumn d (fun l => ((1 - dl i l) * (M * ff_dn m ip ic j * n j * (n i * n l))) * (dl b (ic*d+l) * e b) + ((1 - dl i l) * (M * ff_dn m ip ic l * n j * (n i * n l))) * (dl b (ic*d+j) * e b)))).
  2:{ intros b _. rewrite Rmult_plus_distr_r, <- sumn_scal_r. f_equal; [ring|]. apply sumn_ext. intros; ring. }
  rewrite sumn_plus, sumn_minus, (P _ i Hi), (P _ j Hj). f_equal. rewrite (sumn_swap N). apply sumn_ext. intros l Hl. rewrite sumn_plus, (P _ l Hl), (P _ j Hj). ring.
Qed.
Lemma visc_T_plus m mu ip i u e : visc_T m mu ip i (fun x => u x + e x) = visc_T m mu ip i u + visc_T m mu ip i e.
Proof.
  unfold visc_T. rewrite <- sumn_plus. apply sumn_ext. intros ic _. rewrite <- sumn_plus. apply sumn_ext. intros j _. unfold visc_c. cbv zeta.
  set (d := ff_dim m). set (M := f_value m mu ip). set (n := ff_nrm m ip).
  rewrite (sumn_ext d (fun l => (1 - dl i l) * (M * ff_dn m ip ic j * n j * (n i * n l) * (u (ic*d+l)%nat + e (ic*d+l)%nat) + M * ff_dn m ip ic l * n j * (n i * n l) * (u (ic*d+j)%nat + e (ic*d+j)%nat)))
    (fun l => (1 - dl i l) * (M * ff_dn m ip ic j * n j * (n i * n l) * u (ic*d+l)%nat + M * ff_dn m ip ic l * n j * (n i * n l) * u (ic*d+j)%nat)
            + (1 - dl i l) * (M * ff_dn m ip ic j * n j * (n i * n l) * e (ic*d+l)%nat + M * ff_dn m ip ic l * n j * (n i * n l) * e (ic*d+j)%nat))) by (intros; ring).
  rewrite sumn_plus. ring.
Qed.
Lemma f_value_cols_v m e ip i : ff_map_ok m -> (i < ff_dim m)%nat ->
  sumn (ff_npe m*ff_dim m) (fun b => f_value m (trace m (comp (ff_dim m) (fun x => dl b x) i)) ip * e b) = f_value m (trace m (comp (ff_dim m) e i)) ip.
Proof.
  intros HM Hi. unfold f_value, trace, comp. rewrite (sumn_ext (ff_npe m*ff_dim m) _ (fun b => sumn (ff_npf m) (fun ic => dl b (ff_ord m ic*ff_dim m+i) * (ff_N m ip ic * e b)))).
  - rewrite sumn_swap. apply sumn_ext. intros ic Hic. rewrite sumn_dl; [reflexivity|]. specialize (HM ic Hic). nia.
  - intros b _. rewrite <- sumn_scal_r. apply sumn_ext. intros; ring.
Qed.
(** the matrix is the exact derivative with respect to the velocity of the element *)
Theorem C85_open_momentum_newton_partial : forall m o mvcf mu ubc vm, ff_map_ok m ->
  exact_newton (ff_npe m*ff_dim m) (fem_mom_open m o 0 mvcf mu ubc vm).
Proof.
  intros m o mvcf mu ubc vm HM. apply (fwv_newton m (fem_mom_open m o 0 mvcf mu ubc vm) _ _ (fun u => mom_open_fwv m o 0 mvcf mu ubc vm u)). intros u e ip i Hip Hi.
  rewrite (sumn_ext (ff_npe m*ff_dim m) _ (fun b => (open_mass_flux m o ip * upw (open_mass_flux m o ip) 1 0) * (f_value m (trace m (comp (ff_dim m) (fun x => dl b x) i)) ip * e b)
     + visc_T m mu ip i (fun x => dl b x) * e b)) by (intros; ring).
  rewrite sumn_plus, sumn_scal, f_value_cols_v, visc_T_cols, visc_T_plus by assumption. unfold open_velocity. cbv zeta.
  change (trace m (comp (ff_dim m) (fun a => u a + e a) i)) with (fun a => trace m (comp (ff_dim m) u i) a + trace m (comp (ff_dim m) e i) a). rewrite f_value_plus.
  unfold upw. destruct (Rlt_dec _ _); ring.
Qed.
(** a uniform stream with the matching specified velocity carries momentum in proportion to mass *)
Theorem C85_open_momentum_uniform : forall m o mu vm c s a i, ff_unity m -> ff_grad_unity m -> o_tau o <> 0 -> (i < ff_dim m)%nat ->
  (forall ip, (ip < ff_nip m)%nat -> f_value m (o_rho o) ip <> 0 /\ open_mass_flux m o ip = f_value m (o_rho o) ip * dot (ff_dim m) c (ff_nrm m ip)) ->
  added_rhs (fem_mom_open m o 0 0 mu (fun x => c (x mod ff_dim m)%nat) vm (fun x => c (x mod ff_dim m)%nat)) s (a*ff_dim m+i) =
  c i * o_tau o * added_rhs (fem_cont_open m o) s a.
Proof.
  intros m o mu vm c s a i HU HG Ht Hi Hm. rewrite C85_open_momentum_flux, C85_open_continuity_weak_form by assumption.
  assert (C : forall k, (k < ff_dim m)%nat -> comp (ff_dim m) (fun x => c (x mod ff_dim m)%nat) k = fun ic => c ((ic*ff_dim m+k) mod ff_dim m)%nat) by reflexivity.
  assert (C2 : forall ic k, (k < ff_dim m)%nat -> ((ic*ff_dim m+k) mod ff_dim m)%nat = k).
  { intros ic k Hk. rewrite Nat.add_comm, Nat.mod_add by lia. apply Nat.mod_small. assumption. }
  assert (V : forall ip k, (ip < ff_nip m)%nat -> (k < ff_dim m)%nat -> f_value m (comp (ff_dim m) (fun x => c (x mod ff_dim m)%nat) k) ip = c k).
  { intros ip k Hip Hk. rewrite <- (f_value_const m (c k) ip HU Hip). unfold f_value, comp. apply sumn_ext. intros. rewrite C2 by assumption. reflexivity. }
  assert (V2 : forall ip k, (ip < ff_nip m)%nat -> (k < ff_dim m)%nat -> f_value m (trace m (comp (ff_dim m) (fun x => c (x mod ff_dim m)%nat) k)) ip = c k).
  { intros ip k Hip Hk. rewrite <- (f_value_const m (c k) ip HU Hip). unfold f_value, comp, trace. apply sumn_ext. intros. rewrite C2 by assumption. reflexivity. }
  assert (G : forall ip k j, (ip < ff_nip m)%nat -> (k < ff_dim m)%nat -> (j < ff_dim m)%nat -> f_gradu m (fun x => c (x mod ff_dim m)%nat) ip k j = 0).
  { intros ip k j Hip Hk Hj. unfold f_gradu. rewrite <- (f_grad_const m (c k) ip j HG Hip Hj). unfold f_grad, comp. apply sumn_ext. intros. rewrite C2 by assumption. reflexivity. }
  unfold f_integral. rewrite Ropp_mult_distr_r_reverse, <- sumn_scal. f_equal. apply sumn_ext. intros ip Hip. destruct (Hm ip Hip) as [Hr Hf].
  assert (TZ : forall k, (k < ff_dim m)%nat -> f_traction m mu (fun x => c (x mod ff_dim m)%nat) ip k = 0).
  { intros k Hk. unfold f_traction, dot. rewrite sumn_zero; [ring|]. intros j Hj. rewrite !G by assumption. ring. }
  assert (T0 : f_tangential m (f_traction m mu (fun x => c (x mod ff_dim m)%nat) ip) ip i = 0).
  { unfold f_tangential, dot. rewrite TZ by assumption. rewrite sumn_zero; [ring|]. intros k Hk. rewrite TZ by assumption. ring. }
  rewrite T0. unfold open_velocity, f_tangential. cbv zeta. rewrite V2, V by assumption.
  rewrite (dot_ext (ff_dim m) (fun j => f_value m (comp (ff_dim m) (fun x => c (x mod ff_dim m)%nat) j) ip) (ff_nrm m ip) c (ff_nrm m ip)) by (intros; first [reflexivity | apply V; assumption]).
  destruct (Rlt_dec _ _).
  - field. assumption.
  - rewrite Rmult_0_l, Rplus_0_r. replace (open_mass_flux m o ip / f_value m (o_rho o) ip) with (dot (ff_dim m) c (ff_nrm m ip)) by (rewrite Hf; field; assumption). field. assumption.
Qed.
(** with the divergence stress switched on, a further force appears; the stress -2/3 mu div(u) n is normal to the face
    and should leave the tangential traction unchanged *)
Theorem C85_open_divergence_stress : forall m o mvcf mu ubc vm u s a i, (i < ff_dim m)%nat ->
  added_rhs (fem_mom_open m o 1 mvcf mu ubc vm u) s (a*ff_dim m+i) =
  added_rhs (fem_mom_open m o 0 mvcf mu ubc vm u) s (a*ff_dim m+i) - f_integral m (fun ip => f_shape m a ip * div_T m mu u ip i).
Proof.
  intros m o mvcf mu ubc vm u s a i Hi. rewrite !(fwv_rhs _ _ _ _ s a i (mom_open_fwv m o _ mvcf mu ubc vm u) Hi). unfold f_integral. unfold Rminus. rewrite <- !sumn_opp, <- sumn_plus. apply sumn_ext.
  intros; ring.
Qed.
Definition ex_face : ffem := mkFF 1 1 2 3 (fun _ => 0%nat) (fun _ _ => 1) (fun _ ic j => match j with 0%nat => match ic with 0%nat => 1 | _ => -1 end | _ => 0 end) (fun _ => 1) (fun _ => 1)
  (fun _ j => match j with 0%nat => 1 | _ => 0 end).
Definition ex_open : fopen := mkFO 4 1 (fun _ => 1) (fun x => match x with 0%nat => 2 | _ => 0 end) (fun _ => 0) (fun _ => 0) (fun _ => 0) (fun _ => 0) (fun _ => 0).
Example C85_face_meets_hypotheses : ff_unity ex_face /\ ff_grad_unity ex_face /\ ff_map_ok ex_face /\ ff_unit_normal ex_face /\ o_tau ex_open <> 0 /\
  open_mass_flux ex_face ex_open 0 = f_value ex_face (o_rho ex_open) 0 * dot 3 (fun j => match j with 0%nat => 2 | _ => 0 end) (ff_nrm ex_face 0).
Proof.
  repeat apply conj.
  - intros ip Hip. unfold sumn; cbn. lra.
  - intros ip j Hip Hj. unfold sumn; cbn. destruct j; lra.
  - intros ir Hir. cbn. lia.
  - intros ip Hip. unfold sumn; cbn. lra.
  - cbn. lra.
  - unfold open_mass_flux, f_value, f_grad, dot, comp, invL, sumn. cbn. lra.
Qed.
Theorem C85_open_divergence_stress_refuted :
  exists m o mu ubc vm u s a i, ff_unity m /\ ff_grad_unity m /\ ff_map_ok m /\ ff_unit_normal m /\ (a < ff_npe m)%nat /\ (i < ff_dim m)%nat /\
  added_rhs (fem_mom_open m o 1 0 mu ubc vm u) s (a*ff_dim m+i) <>
  - f_integral m (fun ip => f_shape m a ip * (open_mass_flux m o ip * open_velocity m o 0 ubc vm u ip i - f_tangential m (f_traction m mu u ip) ip i)).
Proof.
  destruct C85_face_meets_hypotheses as (H1 & H2 & H3 & H4 & _).
  exists ex_face, ex_open, (fun _ => 1), (fun _ => 0), (fun _ => 0), (fun x => match x with 0%nat => 1 | _ => 0 end), (mkE (fun _ _ => 0) (fun _ => 0)), 0%nat, 1%nat.
  do 4 (split; [assumption|]). split; [cbn; lia|]. split; [cbn; lia|].
  rewrite C85_open_divergence_stress, C85_open_momentum_flux by (cbn; lia). intros E.
  match type of E with ?A - ?B = ?C => assert (E2 : B = 0) by (unfold Rminus in E; lra) end. clear E.
  unfold f_integral, div_T, f_gradu, f_grad, comp, f_value, f_shape, sumn, dl in E2. cbn in E2. lra.
Qed.

(* ------------------------------------------------------------------ divergence stress inside the element *)
Lemma sumn_witness n (f : nat -> R) : sumn n f <> 0 -> exists a, (a < n)%nat /\ f a <> 0.
Proof.
  induction n; intros H; [rewrite sumn_0 in H; lra|]. rewrite sumn_S in H. destruct (Req_dec (f n) 0) as [E|E].
  - destruct IHn as (a & Ha & E2); [intros Z; apply H; lra|]. exists a. split; [lia|assumption].
  - exists n. split; [lia|assumption].
Qed.
(** on every element with at least two nodes, some velocity field gets a viscous force differing from the weak form of
    mu*(grad u + grad u^T) - 2/3 mu div(u) I *)
Theorem C85_divergence_stress_refuted : forall m x s, fem_unity m -> fem_linear_exact m x -> (2 <= f_npe m)%nat -> (1 <= f_dim m)%nat -> integral m (fun _ => 1) <> 0 ->
  exists u a i, (a < f_npe m)%nat /\ (i < f_dim m)%nat /\
    added_rhs (fem_mom_diff m 1 (fun _ => 1) u) s (a*f_dim m+i) <>
    - integral m (fun ip => dot (f_dim m) (dshape m a ip) (fun j => gradu m u ip i j + gradu m u ip j i - (if Nat.eqb i j then 2/3 * div m u ip else 0))).
Proof.
  intros m x s HU HL Hn Hd HV. set (u := fun r => x (r / f_dim m)%nat (r mod f_dim m)%nat). set (d := f_dim m) in *.
  assert (C : forall k ic, (k < d)%nat -> comp d u k ic = x ic k).
  { intros k ic Hk. unfold comp, u. fold d. rewrite Nat.div_add_l, Nat.div_small, Nat.add_0_r by lia. rewrite Nat.add_comm, Nat.mod_add, Nat.mod_small by lia. reflexivity. }
  assert (G : forall ip k, (ip < f_ngp m)%nat -> (k < d)%nat -> gradu m u ip k k = 1).
  { intros ip k Hip Hk. unfold gradu, grad. rewrite (sumn_ext _ _ (fun ic => f_dn m ip ic k * x ic k)) by (intros; rewrite C by assumption; reflexivity).
    rewrite (HL ip k k Hip Hk Hk), Nat.eqb_refl. reflexivity. }
  assert (D : forall ip, (ip < f_ngp m)%nat -> div m u ip = INR d).
  { intros ip Hip. unfold div. fold d. rewrite (sumn_ext d _ (fun _ => 1)) by (intros; apply G; assumption). clear. induction d; [rewrite sumn_0; reflexivity|]. rewrite sumn_S, IHd, S_INR. reflexivity. }
  assert (M1 : forall ip, (ip < f_ngp m)%nat -> value m (fun _ => 1) ip = 1).
  { intros ip Hip. unfold value. rewrite sumn_scal_r, (HU ip Hip). ring. }
  destruct (sumn_witness (f_npe m) (fun a => x a 0%nat * integral m (fun ip => 2/3 * INR d * dshape m a ip 0%nat))) as (a & Ha & Ea).
  { rewrite (sumn_ext _ _ (fun a => sumn (f_ngp m) (fun ip => (2/3 * INR d) * (f_det m ip * f_wt m ip) * (f_dn m ip a 0%nat * x a 0%nat)))) by (intros; unfold integral; rewrite <- sumn_scal; apply sumn_ext; intros; unfold dshape; ring).
    rewrite sumn_swap. rewrite (sumn_ext (f_ngp m) _ (fun ip => (2/3 * INR d) * (f_det m ip * f_wt m ip * 1))).
    - rewrite sumn_scal. fold (integral m (fun _ => 1)). pose proof (lt_0_INR d ltac:(lia)) as HD. intros Z. apply HV. apply Rmult_integral in Z. destruct Z; [lra|assumption].
    - intros ip Hip. rewrite sumn_scal, (HL ip 0%nat 0%nat Hip Hd Hd), Nat.eqb_refl. ring. }
  assert (Ea2 : integral m (fun ip => 2/3 * INR d * dshape m a ip 0%nat) <> 0) by (intros Z; apply Ea; rewrite Z; ring). clear Ea.
  exists u, a, 0%nat. split; [assumption|]. split; [lia|]. unfold d. rewrite C85_divergence_stress_multiplied by (fold d; lia || assumption). fold d.
  assert (I1 : integral m (fun ip => 2/3 * value m (fun _ => 1) ip * div m u ip * dshape m a ip 0%nat) = integral m (fun ip => 2/3 * INR d * dshape m a ip 0%nat)).
  { unfold integral. apply sumn_ext. intros ip Hip. rewrite M1, D by assumption. ring. }
  assert (I2 : integral m (fun ip => dot d (dshape m a ip) (fun j => gradu m u ip 0 j + gradu m u ip j 0 - (if Nat.eqb 0 j then 2/3 * div m u ip else 0))) =
    integral m (fun ip => dot d (dshape m a ip) (fun j => value m (fun _ => 1) ip * (gradu m u ip 0 j + gradu m u ip j 0))) - integral m (fun ip => 2/3 * INR d * dshape m a ip 0%nat)).
  { unfold integral. rewrite <- sumn_minus. apply sumn_ext. intros ip Hip. rewrite M1, D by assumption.
    assert (Z : dot d (dshape m a ip) (fun j => gradu m u ip 0 j + gradu m u ip j 0 - (if Nat.eqb 0 j then 2/3 * INR d else 0)) =
       dot d (dshape m a ip) (fun j => 1 * (gradu m u ip 0 j + gradu m u ip j 0)) - 2/3 * INR d * dshape m a ip 0%nat).
    { unfold dot. rewrite (sumn_ext d (fun j => dshape m a ip j * (_ - _)) (fun j => dshape m a ip j * (1 * (gradu m u ip 0 j + gradu m u ip j 0)) - dl 0 j * (2/3 * INR d * dshape m a ip j))).
      - rewrite sumn_minus, (sumn_dl' d 0 (fun j => 2/3 * INR d * dshape m a ip j)) by lia. reflexivity.
      - intros j _. unfold dl. destruct (Nat.eqb 0 j); ring. }
    rewrite Z. ring. }
  rewrite I1, I2. intros Z. apply Ea2.
  assert (Hn2 : 2 <= INR (f_npe m)) by (apply (le_INR 2); assumption).
  match type of Z with ?A + _ * ?B = _ => assert (Y : (INR (f_npe m) - 1) * B = 0) by lra end.
  apply Rmult_integral in Y. destruct Y; [lra|assumption].
Qed.

(* ------------------------------------------------------------------ faces of quadratic tetrahedra *)
Theorem C85_tri6_normal : forall p x, tri6_det p x <> 0 ->
  sumn 3 (fun j => tri6_normal p x j * tri6_normal p x j) = 1 /\
  (forall c, (c < 2)%nat -> sumn 3 (fun j => tri6_normal p x j * tri6_tangent p x c j) = 0) /\
  0 < tri6_det p x.
Proof.
  intros p x H. set (D := tri6_det p x) in *.
  assert (P : 0 <= tri6_areavec p x 2*tri6_areavec p x 2 + tri6_areavec p x 0*tri6_areavec p x 0 + tri6_areavec p x 1*tri6_areavec p x 1) by nra.
  assert (E : D * D = tri6_areavec p x 2*tri6_areavec p x 2 + tri6_areavec p x 0*tri6_areavec p x 0 + tri6_areavec p x 1*tri6_areavec p x 1).
  { unfold D, tri6_det. apply sqrt_sqrt. assumption. }
  assert (Q : 0 <= D) by (unfold D, tri6_det; apply sqrt_pos).
  repeat apply conj; [| |lra].
  - rewrite !sumn_S, sumn_0. unfold tri6_normal. fold D.
    set (a := tri6_areavec p x 0) in *. set (b := tri6_areavec p x 1) in *. set (c := tri6_areavec p x 2) in *.
    replace (0 + a / D * (a / D) + b / D * (b / D) + c / D * (c / D)) with ((c*c+a*a+b*b) / (D*D)) by (field; assumption). rewrite <- E. field. assumption.
  - intros c Hc. rewrite !sumn_S, sumn_0. unfold tri6_normal. fold D. unfold tri6_areavec. cbv zeta.
    destruct c as [|[|c]]; [| |lia]; field; assumption.
Qed.
Theorem C85_tri6_weights : Rabs (lsum (fun w => w) tri6_weights - 1/2) <= 1 / 1000000000000000.
Proof. unfold tri6_weights, lsum. cbn [fold_right map]. apply Rabs_le. lra. Qed.
