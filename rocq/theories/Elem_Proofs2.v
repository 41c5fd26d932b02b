Require Import Reals List Bool Lra Lia Arith.
From Verif Require Import RUtil Edge_Model Edge_Proofs Elem_Model Elem_Spec Elem_Proofs.
Import ListNotations.
Open Scope R_scope.

Ltac eff1 := first [apply eff_addL | apply eff_addB].
(** chain of additions *)
Ltac effs := first [eff1 | eapply eff_trans; [|eff1]; effs].


(* ---------------------------------------------------------------- scalar diffusion *)
Definition diff_coef (m : me) (coef : nat -> R) (ip ic : nat) : R := lhsfacDiff m (at_scs m coef ip) ip ic.

Lemma scalar_diff_eff m coef q s :
  eff s (scalar_diff m coef q s)
    (fun i j => sumn (nscs m) (fun ip => (dl i (lrL m ip) - dl i (lrR m ip)) * sumn (npe m) (fun ic => dl j ic * diff_coef m coef ip ic)))
    (fun i => sumn (nscs m) (fun ip => - ((dl i (lrL m ip) - dl i (lrR m ip)) * sumn (npe m) (fun ic => diff_coef m coef ip ic * q ic)))).
Proof.
  unfold scalar_diff. 
  apply (eff_loop (nscs m) _ (fun ip i j => (dl i (lrL m ip) - dl i (lrR m ip)) * sumn (npe m) (fun ic => dl j ic * diff_coef m coef ip ic))
     (fun ip i => - ((dl i (lrL m ip) - dl i (lrR m ip)) * sumn (npe m) (fun ic => diff_coef m coef ip ic * q ic)))).
  clear s. intros ip s Hip. cbv zeta.
  match goal with |- context [loop (npe m) ?b (s, 0)] =>
    destruct (loop_acc (npe m) b (fun ic a => a + diff_coef m coef ip ic * q ic)
       (fun ic i j => (dl i (lrL m ip) - dl i (lrR m ip)) * (dl j ic * diff_coef m coef ip ic)) (fun _ _ => 0) s 0) as [E1 E2];
    [reflexivity| |destruct (loop (npe m) b (s, 0)) as [s' qD]] end.
  - intros ic s1 a Hic. cbn [fst]. eapply eff_ext; [effs| |]; intros; unfold diff_coef; cbv beta; ring.
  - cbn [fst snd] in *. rewrite loop_sum in E1. subst qD. eapply eff_ext.
    + eapply eff_trans; [exact E2|effs].
    + intros i j; cbv beta. rewrite sumn_scal. ring.
    + intros i; cbv beta. rewrite sumn_zero by (intros; reflexivity). ring.
Qed.

(* ---------------------------------------------------------------- scalar advection-diffusion *)
Definition adv_coef (m : me) (mdot coef : nat -> R) (ip ic : nat) : R := Na m ip ic * mdot ip + diff_coef m coef ip ic.

Lemma scalar_advdiff_eff m mdot coef q s :
  eff s (scalar_advdiff m mdot coef q s)
    (fun i j => sumn (nscs m) (fun ip => (dl i (lrL m ip) - dl i (lrR m ip)) * sumn (npe m) (fun ic => dl j ic * adv_coef m mdot coef ip ic)))
    (fun i => sumn (nscs m) (fun ip => - ((dl i (lrL m ip) - dl i (lrR m ip)) * sumn (npe m) (fun ic => adv_coef m mdot coef ip ic * q ic)))).
Proof.
  unfold scalar_advdiff. 
  apply (eff_loop (nscs m) _ (fun ip i j => (dl i (lrL m ip) - dl i (lrR m ip)) * sumn (npe m) (fun ic => dl j ic * adv_coef m mdot coef ip ic))
     (fun ip i => - ((dl i (lrL m ip) - dl i (lrR m ip)) * sumn (npe m) (fun ic => adv_coef m mdot coef ip ic * q ic)))).
  clear s. intros ip s Hip. cbv zeta.
  match goal with |- context [loop (npe m) ?b (s, (0, 0))] =>
    destruct (loop_acc (npe m) b (fun ic a => (fst a + Na m ip ic * mdot ip * q ic, snd a + diff_coef m coef ip ic * q ic))
       (fun ic i j => (dl i (lrL m ip) - dl i (lrR m ip)) * (dl j ic * adv_coef m mdot coef ip ic)) (fun _ _ => 0) s (0,0)) as [E1 E2];
    [intros ? ? [? ?] ?; reflexivity| |destruct (loop (npe m) b (s, (0,0))) as [s' [qA qD]]] end.
  - intros ic s1 [a1 a2] Hic. cbn [fst]. eapply eff_ext; [effs| |]; intros; unfold adv_coef, diff_coef; cbv beta; ring.
  - cbn [fst snd] in *. rewrite loop_sum2 in E1. injection E1 as -> ->. eapply eff_ext.
    + eapply eff_trans; [exact E2|effs].
    + intros i j; cbv beta. rewrite sumn_scal. ring.
    + intros i; cbv beta. rewrite sumn_zero by (intros; reflexivity).
      rewrite (sumn_ext (npe m) (fun ic => adv_coef m mdot coef ip ic * q ic) (fun ic => Na m ip ic * mdot ip * q ic + diff_coef m coef ip ic * q ic)) by (intros; unfold adv_coef; ring).
      rewrite sumn_plus. ring.
Qed.

(* ---------------------------------------------------------------- upwinded scalar *)
Definition upL (o : upw) (pf md : R) : R := (1/2)*(md + Rabs md)*pf*u_alphaUpw o + (1/2)*u_alpha o*(1-pf)*md.
Definition upR (o : upw) (pf md : R) : R := (1/2)*(md - Rabs md)*pf*u_alphaUpw o + (1/2)*u_alpha o*(1-pf)*md.
Definition upC (o : upw) (pf : R) : R := pf*(1 - u_alphaUpw o) + (1-pf)*(1 - u_alpha o).

Definition upw_row (m : me) (o : upw) (mdot coef : nat -> R) (ip j : nat) : R :=
  let pf := pec_of m o coef ip in
  dl j (lrL m ip) * upL o pf (mdot ip) + dl j (lrR m ip) * upR o pf (mdot ip)
  + sumn (npe m) (fun ic => dl j ic * (Na m ip ic * mdot ip * upC o pf + diff_coef m coef ip ic)).
Definition upw_flux (m : me) (o : upw) (G : nat -> nat -> R) (mdot coef q : nat -> R) (ip : nat) : R :=
  mdot ip * face_val m o G coef q (mdot ip) ip + sumn (npe m) (fun ic => diff_coef m coef ip ic * q ic).

Lemma scalar_upw_eff m o G mdot coef q s :
  eff s (scalar_upw m o G mdot coef q s)
    (fun i j => sumn (nscs m) (fun ip => (dl i (lrL m ip) - dl i (lrR m ip)) * upw_row m o mdot coef ip j))
    (fun i => sumn (nscs m) (fun ip => - ((dl i (lrL m ip) - dl i (lrR m ip)) * upw_flux m o G mdot coef q ip))).
Proof.
  unfold scalar_upw.
  apply (eff_loop (nscs m) _ (fun ip i j => (dl i (lrL m ip) - dl i (lrR m ip)) * upw_row m o mdot coef ip j)
     (fun ip i => - ((dl i (lrL m ip) - dl i (lrR m ip)) * upw_flux m o G mdot coef q ip))).
  clear s. intros ip s Hip. cbv zeta.
  match goal with |- context [loop (npe m) ?b (?s0, 0)] =>
    destruct (loop_acc (npe m) b (fun ic a => a + diff_coef m coef ip ic * q ic)
       (fun ic i j => (dl i (lrL m ip) - dl i (lrR m ip)) *
           (dl j ic * (Na m ip ic * mdot ip * upC o (pec_of m o coef ip) + diff_coef m coef ip ic))) (fun _ _ => 0) s0 0) as [E1 E2];
    [reflexivity| |destruct (loop (npe m) b (s0, 0)) as [s' qD]] end.
  - intros ic s1 a Hic. cbn [fst]. eapply eff_ext; [effs| |]; intros; unfold diff_coef, upC; cbv beta; ring.
  - cbn [fst snd] in *. rewrite loop_sum in E1. subst qD. eapply eff_ext.
    + eapply eff_trans; [|eff1]. eapply eff_trans; [|eff1]. eapply eff_trans; [|exact E2]. effs.
    + intros i j; cbv beta. rewrite sumn_scal. unfold upw_row, upL, upR. cbv zeta. ring.
    + intros i; cbv beta. rewrite sumn_zero by (intros; reflexivity). unfold upw_flux. ring.
Qed.

(* ---------------------------------------------------------------- continuity *)
Lemma continuity_eff m tau c s :
  eff s (continuity_adv m tau c s)
    (fun i j => sumn (nscs m) (fun ip => (dl i (lrL m ip) - dl i (lrR m ip)) *
        sumn (npe m) (fun ic => dl j ic * sumn (ndim m) (fun k => - dndx_lhs m ip ic k * area m ip k))))
    (fun i => sumn (nscs m) (fun ip => - ((dl i (lrL m ip) - dl i (lrR m ip)) * (mdot_elem m tau c ip / tau)))).
Proof.
  unfold continuity_adv. cbv zeta.
  apply (eff_loop (nscs m) _ (fun ip i j => (dl i (lrL m ip) - dl i (lrR m ip)) *
        sumn (npe m) (fun ic => dl j ic * sumn (ndim m) (fun k => - dndx_lhs m ip ic k * area m ip k)))
     (fun ip i => - ((dl i (lrL m ip) - dl i (lrR m ip)) * (mdot_elem m tau c ip / tau)))).
  clear s. intros ip s Hip. cbv zeta.
  set (z := fun _ : nat => 0).
  assert (A : forall n (s:esys) (a : (nat -> R) * ((nat -> R) * (nat -> R))),
     forall f1 f2 f3, let r := loop n (fun ic (x : (nat -> R) * ((nat -> R) * (nat -> R))) =>
        ((fun j => fst x j + f1 ic j), ((fun j => fst (snd x) j + f2 ic j), (fun j => snd (snd x) j + f3 ic j)))) a in
     forall j, fst r j = fst a j + sumn n (fun ic => f1 ic j) /\ fst (snd r) j = fst (snd a) j + sumn n (fun ic => f2 ic j)
             /\ snd (snd r) j = snd (snd a) j + sumn n (fun ic => f3 ic j)).
  { induction n; intros s0 a f1 f2 f3 r j.
    - unfold r. rewrite loop_0, !sumn_0. repeat split; lra.
    - unfold r. rewrite loop_S, !sumn_S. destruct (IHn s0 a f1 f2 f3 j) as (H1 & H2 & H3).
      cbn [fst snd]. rewrite H1, H2, H3. repeat split; lra. }
  match goal with |- context [loop (npe m) ?b (s, (z, (z, z)))] =>
    destruct (loop_acc (npe m) b (fun ic x =>
        ((fun j => fst x j + Ns m ip ic * cf_rho c ic * cf_v c (ic*ndim m+j)%nat),
         ((fun j => fst (snd x) j + Ns m ip ic * cf_Gp c (ic*ndim m+j)%nat), (fun j => snd (snd x) j + dndx m ip ic j * cf_p c ic))))
       (fun ic i j => (dl i (lrL m ip) - dl i (lrR m ip)) * (dl j ic * sumn (ndim m) (fun k => - dndx_lhs m ip ic k * area m ip k)))
       (fun _ _ => 0) s (z, (z, z))) as [E1 E2];
    [intros ? ? [? [? ?]] ?; reflexivity| |destruct (loop (npe m) b (s, (z,(z,z)))) as [s' [rhoU [Gp dp]]]] end.
  - intros ic s1 [a1 [a2 a3]] Hic. cbn [fst]. eapply eff_ext; [effs| |]; intros; cbv beta; ring.
  - cbn [fst snd] in *.
    pose proof (A (npe m) s (z, (z, z)) (fun ic j => Ns m ip ic * cf_rho c ic * cf_v c (ic*ndim m+j)%nat)
       (fun ic j => Ns m ip ic * cf_Gp c (ic*ndim m+j)%nat) (fun ic j => dndx m ip ic j * cf_p c ic)) as B.
    cbv beta zeta in B. rewrite <- E1 in B. cbn [fst snd] in B.
    assert (M : sumn (ndim m) (fun j => (rhoU j - tau * (dp j - Gp j)) * area m ip j) = mdot_elem m tau c ip).
    { unfold mdot_elem. apply sumn_ext. intros j _. destruct (B j) as (-> & -> & ->). unfold z. ring. }
    rewrite M. eapply eff_ext.
    + eapply eff_trans; [exact E2|effs].
    + intros i j; cbv beta. rewrite sumn_scal. ring.
    + intros i; cbv beta. rewrite sumn_zero by (intros; reflexivity). ring.
Qed.
