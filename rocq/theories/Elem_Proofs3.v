Require Import Reals List Bool Lra Lia Arith.
From Verif Require Import RUtil Edge_Model Edge_Proofs Elem_Model Elem_Spec Elem_Proofs Elem_Proofs2.
Import ListNotations.
Open Scope R_scope.

(* ---------------------------------------------------------------- momentum *)
(** coefficient of column (ic,j) in the viscous flux of component i *)
Definition visc_sym (m : me) (muIp : R) (ip ic i j : nat) : R := - muIp * dndx m ip ic i * area m ip j.
Definition visc_lap (m : me) (muIp : R) (ip ic : nat) : R := sumn (ndim m) (fun j => - muIp * dndx m ip ic j * area m ip j).
Definition node_row (m : me) (muIp fA : R) (ip ic i col : nat) : R :=
  dl col (ic*ndim m+i) * (fA + visc_lap m muIp ip ic) + sumn (ndim m) (fun j => dl col (ic*ndim m+j) * visc_sym m muIp ip ic i j).
Definition node_flux (m : me) (muIp : R) (u : nat -> R) (ip ic i : nat) : R :=
  sumn (ndim m) (fun j => visc_sym m muIp ip ic i j * u (ic*ndim m+j)%nat) + visc_lap m muIp ip ic * u (ic*ndim m+i)%nat.
Definition side (m : me) (ip row i : nat) : R := dl row (lrL m ip*ndim m+i) - dl row (lrR m ip*ndim m+i).

Lemma viscous_eff m muIp u fA ip ic s :
  eff s (viscous_node m muIp u fA ip ic s)
   (fun row col => sumn (ndim m) (fun i => side m ip row i * node_row m muIp fA ip ic i col))
   (fun row => sumn (ndim m) (fun i => - (side m ip row i * node_flux m muIp u ip ic i))).
Proof.
  unfold viscous_node. cbv zeta.
  apply (eff_loop (ndim m) _ (fun i row col => side m ip row i * node_row m muIp fA ip ic i col)
    (fun i row => - (side m ip row i * node_flux m muIp u ip ic i))).
  clear s. intros i s Hi.
  match goal with |- context [loop (ndim m) ?b (?s0, 0)] =>
    destruct (loop_acc (ndim m) b (fun j a => a + - muIp * dndx m ip ic j * area m ip j)
       (fun j row col => side m ip row i * (dl col (ic*ndim m+j) * visc_sym m muIp ip ic i j))
       (fun j row => - (side m ip row i * (visc_sym m muIp ip ic i j * u (ic*ndim m+j)%nat))) s0 0) as [E1 E2];
    [reflexivity| |destruct (loop (ndim m) b (s0, 0)) as [s' riC]] end.
  - intros j s1 a Hj. cbn [fst]. eapply eff_ext; [effs| |]; intros; unfold visc_sym, side; cbv beta; ring.
  - cbn [fst snd] in *. rewrite loop_sum in E1. rewrite Rplus_0_l in E1. subst riC.
    change (sumn (ndim m) (fun k => - muIp * dndx m ip ic k * area m ip k)) with (visc_lap m muIp ip ic).
    eapply eff_ext.
    + do 4 (eapply eff_trans; [|eff1]). eapply eff_trans; [|exact E2]. effs.
    + intros row col; cbv beta. rewrite sumn_scal. unfold node_row, side. ring.
    + intros row; cbv beta. rewrite sumn_opp, sumn_scal. unfold node_flux, side. ring.
Qed.

Definition mom_row (m : me) (mu mdot : nat -> R) (fA : nat -> nat -> R) (ip i col : nat) : R :=
  sumn (npe m) (fun ic => node_row m (at_scs m mu ip) (fA ip ic) ip ic i col).
Definition mom_visc (m : me) (mu u : nat -> R) (ip i : nat) : R := sumn (npe m) (fun ic => node_flux m (at_scs m mu ip) u ip ic i).
Definition mom_divu (m : me) (inc : R) (mu u : nat -> R) (ip i : nat) : R := 2/3*at_scs m mu ip*divU_of m u ip*area m ip i*inc.
Definition mom_flux (m : me) (inc : R) (mdot mu u : nat -> R) (ip i : nat) : R :=
  mdot ip * at_adv m (fun ic => u (ic*ndim m+i)%nat) ip + mom_divu m inc mu u ip i + mom_visc m mu u ip i.

Lemma sum_side m ip row (n : nat) (f : nat -> nat -> R) :
  sumn n (fun ic => sumn (ndim m) (fun i => side m ip row i * f ic i)) = sumn (ndim m) (fun i => side m ip row i * sumn n (fun ic => f ic i)).
Proof. rewrite sumn_swap. apply sumn_ext. intros. apply sumn_scal. Qed.

Lemma momentum_eff m inc mdot mu u s :
  eff s (momentum_advdiff m inc mdot mu u s)
   (fun row col => sumn (nscs m) (fun ip => sumn (ndim m) (fun i => side m ip row i * mom_row m mu mdot (fun ip ic => Na m ip ic * mdot ip) ip i col)))
   (fun row => sumn (nscs m) (fun ip => sumn (ndim m) (fun i => - (side m ip row i * mom_flux m inc mdot mu u ip i)))).
Proof.
  unfold momentum_advdiff. cbv zeta.
  apply (eff_loop (nscs m) _ (fun ip row col => sumn (ndim m) (fun i => side m ip row i * mom_row m mu mdot (fun ip ic => Na m ip ic * mdot ip) ip i col))
   (fun ip row => sumn (ndim m) (fun i => - (side m ip row i * mom_flux m inc mdot mu u ip i)))).
  clear s. intros ip s Hip.
  eapply eff_ext.
  - eapply eff_trans; [|apply (eff_loop (npe m) _ (fun ic row col => sumn (ndim m) (fun i => side m ip row i * node_row m (at_scs m mu ip) (Na m ip ic * mdot ip) ip ic i col))
       (fun ic row => sumn (ndim m) (fun i => - (side m ip row i * node_flux m (at_scs m mu ip) u ip ic i))));
       intros ic s1 Hic; apply viscous_eff].
    apply (eff_loop (ndim m) _ (fun _ _ _ => 0) (fun i row => - (side m ip row i * (mdot ip * at_adv m (fun ic => u (ic*ndim m+i)%nat) ip + mom_divu m inc mu u ip i)))).
    intros i s1 Hi. eapply eff_ext; [effs| |]; intros; unfold side, mom_divu; cbv beta; ring.
  - intros row col; cbv beta. rewrite sumn_zero by (intros; reflexivity). rewrite Rplus_0_l, sum_side. reflexivity.
  - intros row; cbv beta. rewrite (sumn_ext (npe m) _ (fun ic => - sumn (ndim m) (fun i => side m ip row i * node_flux m (at_scs m mu ip) u ip ic i))) by (intros; apply sumn_opp).
    rewrite (sumn_opp (npe m)), (sum_side m ip row (npe m) (fun ic i => node_flux m (at_scs m mu ip) u ip ic i)), <- sumn_opp, <- sumn_plus. apply sumn_ext. intros i _. unfold mom_flux, mom_visc. ring.
Qed.

(** upwinded momentum *)
Definition mupw_row (m : me) (o : upw) (mdot mu : nat -> R) (ip i col : nat) : R :=
  let pf := pec_of m o mu ip in
  dl col (lrL m ip*ndim m+i) * upL o pf (mdot ip) + dl col (lrR m ip*ndim m+i) * upR o pf (mdot ip)
  + mom_row m mu mdot (fun ip ic => Na m ip ic * mdot ip * upC o (pec_of m o mu ip)) ip i col.
Definition mupw_flux (m : me) (o : upw) (G : nat -> nat -> nat -> R) (inc : R) (mdot mu u : nat -> R) (ip i : nat) : R :=
  mdot ip * face_val m o (fun n j => G n i j) mu (fun ic => u (ic*ndim m+i)%nat) (mdot ip) ip
  + mom_divu m inc mu u ip i + mom_visc m mu u ip i.

Lemma momentum_upw_eff m o G inc mdot mu u s :
  eff s (momentum_upw m o G inc mdot mu u s)
   (fun row col => sumn (nscs m) (fun ip => sumn (ndim m) (fun i => side m ip row i * mupw_row m o mdot mu ip i col)))
   (fun row => sumn (nscs m) (fun ip => sumn (ndim m) (fun i => - (side m ip row i * mupw_flux m o G inc mdot mu u ip i)))).
Proof.
  unfold momentum_upw. cbv zeta.
  apply (eff_loop (nscs m) _ (fun ip row col => sumn (ndim m) (fun i => side m ip row i * mupw_row m o mdot mu ip i col))
   (fun ip row => sumn (ndim m) (fun i => - (side m ip row i * mupw_flux m o G inc mdot mu u ip i)))).
  clear s. intros ip s Hip.
  eapply eff_ext.
  - eapply eff_trans; [|apply (eff_loop (npe m) _ (fun ic row col => sumn (ndim m) (fun i => side m ip row i * node_row m (at_scs m mu ip) (Na m ip ic * mdot ip * (pec_of m o mu ip*(1 - u_alphaUpw o) + (1-pec_of m o mu ip)*(1 - u_alpha o))) ip ic i col))
       (fun ic row => sumn (ndim m) (fun i => - (side m ip row i * node_flux m (at_scs m mu ip) u ip ic i))));
       intros ic s1 Hic; apply viscous_eff].
    apply (eff_loop (ndim m) _ (fun i row col => side m ip row i *
         (dl col (lrL m ip*ndim m+i) * upL o (pec_of m o mu ip) (mdot ip) + dl col (lrR m ip*ndim m+i) * upR o (pec_of m o mu ip) (mdot ip)))
        (fun i row => - (side m ip row i * (mdot ip * face_val m o (fun n j => G n i j) mu (fun ic => u (ic*ndim m+i)%nat) (mdot ip) ip + mom_divu m inc mu u ip i)))).
    intros i s1 Hi. eapply eff_ext; [effs| |]; intros; unfold side, mom_divu, upL, upR; cbv beta; ring.
  - intros row col; cbv beta. rewrite sum_side, <- sumn_plus. apply sumn_ext. intros i _. unfold mupw_row, mom_row, upC. cbv zeta. ring.
  - intros row; cbv beta. rewrite (sumn_ext (npe m) _ (fun ic => - sumn (ndim m) (fun i => side m ip row i * node_flux m (at_scs m mu ip) u ip ic i))) by (intros; apply sumn_opp).
    rewrite (sumn_opp (npe m)), (sum_side m ip row (npe m) (fun ic i => node_flux m (at_scs m mu ip) u ip ic i)), <- sumn_opp, <- sumn_plus. apply sumn_ext. intros i _. unfold mupw_flux, mom_visc. ring.
Qed.

(** collapse of the component sum on a row a*d+i *)
Lemma side_row m ip a i (f : nat -> R) : (i < ndim m)%nat ->
  sumn (ndim m) (fun k => side m ip (a*ndim m+i) k * f k) = (dl a (lrL m ip) - dl a (lrR m ip)) * f i.
Proof.
  intros Hi. rewrite (sumn_ext (ndim m) _ (fun k => dl k i * ((dl a (lrL m ip) - dl a (lrR m ip)) * f k))).
  - apply (sumn_dl (ndim m) i (fun k => (dl a (lrL m ip) - dl a (lrR m ip)) * f k)). assumption.
  - intros k Hk. unfold side. rewrite !dl_flat by assumption. rewrite (dl_sym i k). ring.
Qed.
Lemma side_row_opp m ip a i (f : nat -> R) : (i < ndim m)%nat ->
  sumn (ndim m) (fun k => - (side m ip (a*ndim m+i) k * f k)) = - ((dl a (lrL m ip) - dl a (lrR m ip)) * f i).
Proof. intros Hi. rewrite sumn_opp, side_row by assumption. reflexivity. Qed.

Lemma pair_sum_zero n np l r (X : nat -> R) :
  (forall ip, (ip < np)%nat -> (l ip < n)%nat /\ (r ip < n)%nat) ->
  sumn n (fun a => sumn np (fun ip => (dl a (l ip) - dl a (r ip)) * X ip)) = 0.
Proof.
  intros Hm. rewrite sumn_swap. apply sumn_zero. intros ip Hip. destruct (Hm ip Hip).
  rewrite (sumn_ext n _ (fun i => dl i (l ip) * X ip - dl i (r ip) * X ip)) by (intros; lra).
  rewrite sumn_minus, (sumn_dl n (r ip) (fun _ => X ip)), (sumn_dl n (l ip) (fun _ => X ip)) by tauto. lra.
Qed.

Section Vec.
Variable m : me.
Hypothesis Hmaps : maps_ok m.
Variables (Arow : nat -> nat -> nat -> R) (k : (nat -> R) -> esys -> esys) (F : (nat -> R) -> nat -> nat -> R).
Hypothesis HE : forall u s, eff s (k u s)
   (fun row col => sumn (nscs m) (fun ip => sumn (ndim m) (fun i => side m ip row i * Arow ip i col)))
   (fun row => sumn (nscs m) (fun ip => sumn (ndim m) (fun i => - (side m ip row i * F u ip i)))).

Lemma vec_conservative u : conservative_vec (ndim m) (npe m) (k u).
Proof.
  intros s i Hi. destruct (HE u s) as [H1 H2]. split.
  - rewrite (sumn_ext (npe m) _ _ (fun a _ => H2 (a*ndim m+i)%nat)), sumn_plus.
    rewrite (sumn_ext (npe m) (fun a => sumn (nscs m) _) (fun a => sumn (nscs m) (fun ip => (dl a (lrL m ip) - dl a (lrR m ip)) * (- F u ip i)))).
    + rewrite pair_sum_zero by apply Hmaps. lra.
    + intros a _. apply sumn_ext. intros ip _. rewrite side_row_opp by assumption. ring.
  - intros j. rewrite (sumn_ext (npe m) _ _ (fun a _ => H1 (a*ndim m+i)%nat j)), sumn_plus.
    rewrite (sumn_ext (npe m) (fun a => sumn (nscs m) _) (fun a => sumn (nscs m) (fun ip => (dl a (lrL m ip) - dl a (lrR m ip)) * Arow ip i j))).
    + rewrite pair_sum_zero by apply Hmaps. lra.
    + intros a _. apply sumn_ext. intros ip _. apply (side_row m ip a i (fun k => Arow ip k j)). assumption.
Qed.

Lemma row_split n d row : (row < n*d)%nat -> exists a i, row = (a*d+i)%nat /\ (a < n)%nat /\ (i < d)%nat.
Proof.
  intros H. assert (d <> 0)%nat by (intros ->; lia).
  exists (row/d)%nat, (row mod d)%nat. repeat split.
  - rewrite Nat.mul_comm. apply Nat.div_mod. assumption.
  - apply Nat.div_lt_upper_bound; lia.
  - apply Nat.mod_upper_bound. assumption.
Qed.

Lemma vec_newton :
  (forall u d ip i, (ip < nscs m)%nat -> (i < ndim m)%nat ->
     F (fun a => u a + d a) ip i = F u ip i + sumn (npe m * ndim m) (fun col => Arow ip i col * d col)) ->
  exact_newton (npe m * ndim m) k.
Proof.
  intros HF u d s row Hrow. destruct (row_split _ _ _ Hrow) as (a & i & -> & Ha & Hi).
  destruct (HE u s) as [H1 H2]. destruct (HE (fun a => u a + d a) s) as [_ H4].
  rewrite H2, H4.
  rewrite (sumn_ext (nscs m) (fun ip => sumn (ndim m) (fun k0 => - (side m ip _ k0 * F (fun a0 => u a0 + d a0) ip k0)))
      (fun ip => - ((dl a (lrL m ip) - dl a (lrR m ip)) * F (fun a0 => u a0 + d a0) ip i))) by (intros; apply side_row_opp; assumption).
  rewrite (sumn_ext (nscs m) (fun ip => sumn (ndim m) (fun k0 => - (side m ip _ k0 * F u ip k0)))
      (fun ip => - ((dl a (lrL m ip) - dl a (lrR m ip)) * F u ip i))) by (intros; apply side_row_opp; assumption).
  assert (E : sumn (npe m*ndim m) (fun j => (eL_ (k u s) (a*ndim m+i) j - eL_ s (a*ndim m+i) j) * d j)
            = sumn (nscs m) (fun ip => (dl a (lrL m ip) - dl a (lrR m ip)) * sumn (npe m*ndim m) (fun j => Arow ip i j * d j))).
  { rewrite (sumn_ext (npe m*ndim m) _ (fun j => sumn (nscs m) (fun ip => (dl a (lrL m ip) - dl a (lrR m ip)) * (Arow ip i j * d j)))).
    - rewrite sumn_swap. apply sumn_ext. intros. apply sumn_scal.
    - intros j _. rewrite H1. rewrite (sumn_ext (nscs m) (fun ip => sumn (ndim m) _) (fun ip => (dl a (lrL m ip) - dl a (lrR m ip)) * Arow ip i j)).
      + rewrite (Rplus_comm (eL_ s _ j)). unfold Rminus at 1. rewrite Rplus_assoc, Rplus_opp_r, Rplus_0_r.
        rewrite <- sumn_scal_r. apply sumn_ext. intros; lra.
      + intros ip _. apply (side_row m ip a i (fun k => Arow ip k j)). assumption. }
  rewrite E, Rplus_minus_a. f_equal. rewrite <- sumn_minus. apply sumn_ext.
  intros ip Hip. rewrite HF by assumption. ring.
Qed.
End Vec.
