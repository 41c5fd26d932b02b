(** C84, neo-Hookean stress. *)
Require Import Reals List Bool Lra Lia Arith.
From Verif Require Import RUtil Edge_Model Edge_Proofs Elem_Model Elem_Spec Elem_Proofs Elem_Proofs2 Elem_Proofs3 Elem_Props Elem_Props2.
From Verif Require Import Disp_Model Disp_Spec Disp_Props.
Import ListNotations.
Open Scope R_scope.

Definition neo_coef (m : me) (c : R) (J : R) (F : nat -> nat -> R) (ip ic i l : nat) : R :=
  sumn (ndim m) (fun k => - c * (F i k / J) * dndx m ip ic k * area m ip l)
  + - (c/J) * dndx m ip ic i * area m ip l
  + kd i l * sumn (ndim m) (fun j => - (c/J) * dndx m ip ic j * area m ip j).
Definition neo_vol (m : me) (mu la be J : R) (ip i : nat) : R :=
  sumn (ndim m) (fun j => la * kd i j * area m ip j * (J - (1 + 75/100*mu/la)) + (mu*be/J) * kd i j * area m ip j).
Definition ncf (m : me) (mu u : nat -> R) (ip : nat) := neo_coef m (at_scs m mu ip * beta m u ip) (Jdet m u ip) (gradTens m u ip) ip.
Definition nvl (m : me) (mu la u : nat -> R) (ip i : nat) := neo_vol m (at_scs m mu ip) (at_scs m la ip) (beta m u ip) (Jdet m u ip) ip i.

Lemma neo_eff m mu la u s :
  eff s (neohookean m mu la u s)
   (fun row col => sumn (nscs m) (fun ip => sumn (ndim m) (fun i => side m ip row i * crow m (ncf m mu u ip) i col)))
   (fun row => sumn (nscs m) (fun ip => sumn (ndim m) (fun i => - (side m ip row i * (cflux m (ncf m mu u ip) u i - nvl m mu la u ip i))))).
Proof.
  unfold neohookean. cbv zeta.
  apply (eff_loop (nscs m) _ (fun ip row col => sumn (ndim m) (fun i => side m ip row i * crow m (ncf m mu u ip) i col))
     (fun ip row => sumn (ndim m) (fun i => - (side m ip row i * (cflux m (ncf m mu u ip) u i - nvl m mu la u ip i))))).
  clear s. intros ip s Hip. unfold ncf, nvl. set (muI := at_scs m mu ip). set (laI := at_scs m la ip).
  set (F := gradTens m u ip). set (be := beta m u ip). set (J := Jdet m u ip).
  eapply eff_ext.
  - eapply eff_trans; swap 1 2.
    + apply (eff_loop (ndim m) _ (fun _ _ _ => 0) (fun i row => side m ip row i * neo_vol m muI laI be J ip i)).
      intros i s1 Hi. eapply eff_ext.
      * apply (eff_loop (ndim m) _ (fun _ _ _ => 0) (fun j row => side m ip row i * (laI * kd i j * area m ip j * (J - (1 + 75/100*muI/laI)) + (muI*be/J) * kd i j * area m ip j))).
        intros j s2 Hj. eapply eff_ext; [effs| |]; intros; unfold side; cbv beta; ring.
      * intros; cbv beta. apply sumn_zero. reflexivity.
      * intros row; cbv beta. rewrite sumn_scal. reflexivity.
    + apply (eff_loop (npe m) _ (fun ic row col => sumn (ndim m) (fun i => side m ip row i * sumn (ndim m) (fun l => dl col (ic*ndim m+l) * neo_coef m (muI*be) J F ip ic i l)))
       (fun ic row => sumn (ndim m) (fun i => - (side m ip row i * sumn (ndim m) (fun l => neo_coef m (muI*be) J F ip ic i l * u (ic*ndim m+l)%nat))))).
      intros ic s1 Hic.
      apply (eff_loop (ndim m) _ (fun i row col => side m ip row i * sumn (ndim m) (fun l => dl col (ic*ndim m+l) * neo_coef m (muI*be) J F ip ic i l))
       (fun i row => - (side m ip row i * sumn (ndim m) (fun l => neo_coef m (muI*be) J F ip ic i l * u (ic*ndim m+l)%nat)))).
      intros i s2 Hi.
      match goal with |- context [loop (ndim m) ?b (?s0, 0)] =>
        destruct (loop_acc (ndim m) b (fun j a => a + - (muI*be/J) * dndx m ip ic j * area m ip j)
         (fun j row col => side m ip row i * (dl col (ic*ndim m+j) * (- (muI*be/J) * dndx m ip ic i * area m ip j
              + sumn (ndim m) (fun k => - (muI*be) * (F i k / J) * dndx m ip ic k * area m ip j))))
         (fun j row => - (side m ip row i * ((- (muI*be/J) * dndx m ip ic i * area m ip j
              + sumn (ndim m) (fun k => - (muI*be) * (F i k / J) * dndx m ip ic k * area m ip j)) * u (ic*ndim m+j)%nat))) s0 0) as [E1 E2];
        [reflexivity| |destruct (loop (ndim m) b (s0, 0)) as [s' riC]] end.
      * intros j s3 a Hj. cbn [fst]. eapply eff_ext.
        -- do 4 (eapply eff_trans; [|eff1]).
           apply (eff_loop (ndim m) _ (fun k row col => (side m ip row i * dl col (ic*ndim m+j)) * (- (muI*be) * (F i k / J) * dndx m ip ic k * area m ip j))
              (fun k row => (- (side m ip row i * u (ic*ndim m+j)%nat)) * (- (muI*be) * (F i k / J) * dndx m ip ic k * area m ip j))).
           intros k s4 Hk. eapply eff_ext; [effs| |]; intros; unfold side; cbv beta; ring.
        -- intros row col; cbv beta. rewrite sumn_scal. unfold side. ring.
        -- intros row; cbv beta. rewrite sumn_scal. unfold side. ring.
      * cbn [fst snd] in *. rewrite loop_sum, Rplus_0_l in E1. subst riC.
        eapply eff_ext.
        -- do 4 (eapply eff_trans; [|eff1]). exact E2.
        -- intros row col; cbv beta. rewrite sumn_scal.
           replace (sumn (ndim m) (fun l => dl col (ic*ndim m+l) * neo_coef m (muI*be) J F ip ic i l))
             with (sumn (ndim m) (fun j => dl col (ic*ndim m+j) * (- (muI*be/J) * dndx m ip ic i * area m ip j
                + sumn (ndim m) (fun k => - (muI*be) * (F i k / J) * dndx m ip ic k * area m ip j)))
                + dl col (ic*ndim m+i) * sumn (ndim m) (fun j => - (muI*be/J) * dndx m ip ic j * area m ip j)); [unfold side; ring|].
           rewrite <- (kd_row (ndim m) i (fun l => dl col (ic*ndim m+l) * sumn (ndim m) (fun j => - (muI*be/J) * dndx m ip ic j * area m ip j))) by assumption.
           rewrite <- !sumn_plus. apply sumn_ext. intros l Hl. unfold neo_coef. ring.
        -- intros row; cbv beta. rewrite sumn_opp, sumn_scal.
           replace (sumn (ndim m) (fun l => neo_coef m (muI*be) J F ip ic i l * u (ic*ndim m+l)%nat))
             with (sumn (ndim m) (fun j => (- (muI*be/J) * dndx m ip ic i * area m ip j
                + sumn (ndim m) (fun k => - (muI*be) * (F i k / J) * dndx m ip ic k * area m ip j)) * u (ic*ndim m+j)%nat)
                + sumn (ndim m) (fun j => - (muI*be/J) * dndx m ip ic j * area m ip j) * u (ic*ndim m+i)%nat); [unfold side; ring|].
           rewrite <- (kd_row (ndim m) i (fun l => sumn (ndim m) (fun j => - (muI*be/J) * dndx m ip ic j * area m ip j) * u (ic*ndim m+l)%nat)) by assumption.
           rewrite <- !sumn_plus. apply sumn_ext. intros l Hl. unfold neo_coef. ring.
  - intros row col; cbv beta. rewrite (sumn_zero (ndim m) (fun _ => 0)) by reflexivity. rewrite Rplus_0_r, sum_side. reflexivity.
  - intros row; cbv beta.
    rewrite (sumn_ext (npe m) _ (fun ic => - sumn (ndim m) (fun i => side m ip row i * sumn (ndim m) (fun l => neo_coef m (muI*be) J F ip ic i l * u (ic*ndim m+l)%nat)))) by (intros; apply sumn_opp).
    rewrite sumn_opp, (sum_side m ip row (npe m) (fun ic i => sumn (ndim m) (fun l => neo_coef m (muI*be) J F ip ic i l * u (ic*ndim m+l)%nat))), <- sumn_opp, <- sumn_plus.
    apply sumn_ext. intros i Hi. unfold cflux. ring.
Qed.

(** the lagged quantities are the usual invariants of F = 1 + grad(disp) *)
Lemma gradTens_spec m u ip i j : gradTens m u ip i j = grad_disp m u ip i j + delta i j.
Proof. reflexivity. Qed.
Lemma Iconst_frob m u ip : ndim m = 2%nat \/ ndim m = 3%nat -> Iconst m u ip = frob2 (ndim m) (gradTens m u ip).
Proof. unfold Iconst, frob2. intros [-> | ->]; cbn [Nat.eqb]; unfold sumn; cbn [seq fold_left]; ring. Qed.
Lemma Jdet_det m u ip : Jdet m u ip = det (ndim m) (gradTens m u ip).
Proof. unfold Jdet, det, det3, det2. destruct (Nat.eqb (ndim m) 3); ring. Qed.

Lemma neo_flux m mu la u ip i : (i < ndim m)%nat -> ndim m = 2%nat \/ ndim m = 3%nat ->
  at_scs m la ip <> 0 -> Jdet m u ip <> 0 ->
  nvl m mu la u ip i - cflux m (ncf m mu u ip) u i
  = neo_traction (ndim m) (at_scs m mu ip) (at_scs m la ip) (gradTens m u ip) (area m ip) i
    + at_scs m mu ip * (1 - 1/(1 + frob2 (ndim m) (gradTens m u ip))) / det (ndim m) (gradTens m u ip)
        * sumn (ndim m) (fun j => grad_disp m u ip j i * area m ip j).
Proof.
  intros Hi Hd Hla HJ. unfold neo_traction. cbv zeta. rewrite <- Iconst_frob, <- Jdet_det by assumption.
  fold (beta m u ip). unfold nvl, ncf, neo_vol, cflux, neo_coef.
  set (J := Jdet m u ip) in *. set (be := beta m u ip). set (mI := at_scs m mu ip). set (lI := at_scs m la ip) in *. set (D := grad_disp m u ip).
  rewrite (sumn_ext (npe m) _ (fun ic => sumn (ndim m) (fun l =>
        (- (mI*be/J) * area m ip l) * (sumn (ndim m) (fun k => gradTens m u ip i k * (dndx m ip ic k * u (ic*ndim m+l)%nat)) + dndx m ip ic i * u (ic*ndim m+l)%nat
            + dndx m ip ic l * u (ic*ndim m+i)%nat)))).
  2:{ intros ic Hic.
      rewrite (sumn_ext (ndim m) _ (fun l => (- (mI*be/J) * area m ip l) * (sumn (ndim m) (fun k => gradTens m u ip i k * (dndx m ip ic k * u (ic*ndim m+l)%nat)) + dndx m ip ic i * u (ic*ndim m+l)%nat)
        + kd i l * (sumn (ndim m) (fun j => - (mI*be/J) * dndx m ip ic j * area m ip j) * u (ic*ndim m+l)%nat))).
      - rewrite sumn_plus, kd_row by assumption. rewrite <- sumn_scal_r, <- sumn_plus. apply sumn_ext. intros; ring.
      - intros l Hl. rewrite !Rmult_plus_distr_r, Rmult_plus_distr_l.
        rewrite (sumn_ext (ndim m) (fun k => - (mI*be) * _ * _ * _) (fun k => (- (mI*be/J) * area m ip l) * (gradTens m u ip i k * dndx m ip ic k))) by (intros; unfold Rdiv; ring).
        rewrite (sumn_ext (ndim m) (fun k => gradTens m u ip i k * (_ * _)) (fun k => (gradTens m u ip i k * dndx m ip ic k) * u (ic*ndim m+l)%nat)) by (intros; ring).
        rewrite sumn_scal, sumn_scal_r. ring. }
  rewrite sumn_swap.
  rewrite (sumn_ext (ndim m) (fun j => sumn (npe m) _) (fun l => (- (mI*be/J) * area m ip l) * (sumn (ndim m) (fun k => gradTens m u ip i k * D l k) + D l i + D i l))).
  2:{ intros l Hl. rewrite sumn_scal. f_equal. rewrite !sumn_plus, sumn_swap. unfold D, grad_disp. do 2 f_equal. apply sumn_ext. intros k Hk. rewrite sumn_scal. reflexivity. }
  rewrite (sumn_ext (ndim m) (fun j => lI * kd i j * _ * _ + _) (fun j => kd i j * (area m ip j * (lI*(J-1) - 3/4*mI + mI*be/J)))).
  2:{ intros j Hj. field. split; assumption. }
  rewrite kd_row by assumption.
  rewrite (sumn_ext (ndim m) (fun j => (mI*be/J * sumn (ndim m) _ + _) * area m ip j)
     (fun l => (mI*be/J) * area m ip l * (sumn (ndim m) (fun k => gradTens m u ip i k * D l k) + D i l) + kd i l * (area m ip l * (lI*(J-1) - 3/4*mI + mI*be/J)))).
  2:{ intros l Hl. rewrite (sumn_ext (ndim m) (fun k => gradTens m u ip i k * gradTens m u ip l k) (fun k => gradTens m u ip i k * D l k + kd l k * gradTens m u ip i k)).
      - rewrite sumn_plus, kd_row, (gradTens_spec m u ip i l) by assumption. fold D. change (delta i l) with (kd i l). ring.
      - intros k Hk. rewrite (gradTens_spec m u ip l k). fold D. change (delta l k) with (kd l k). ring. }
  rewrite sumn_plus, kd_row by assumption. rewrite <- (sumn_scal (ndim m) (mI*be/J)).
  match goal with |- ?v - ?a = ?b + ?v + ?c => enough (- a = b + c) by lra end.
  rewrite <- sumn_opp, <- sumn_plus. apply sumn_ext. intros; unfold Rdiv; ring.
Qed.

(** what is assembled: the neo-Hookean traction, plus (mu beta/J) D^T A, which belongs to no stress *)
Theorem C84_neo_force_partial : forall m mu la u s a i, (i < ndim m)%nat -> ndim m = 2%nat \/ ndim m = 3%nat ->
  (forall ip, (ip < nscs m)%nat -> at_scs m la ip <> 0 /\ det (ndim m) (fun i j => grad_disp m u ip i j + delta i j) <> 0) ->
  eB (neohookean m mu la u s) (a*ndim m+i)
  = eB s (a*ndim m+i)%nat + net_out m (fun ip =>
      let F := fun i j => grad_disp m u ip i j + delta i j in
      neo_traction (ndim m) (at_scs m mu ip) (at_scs m la ip) F (area m ip) i
      + at_scs m mu ip * (1 - 1/(1 + frob2 (ndim m) F)) / det (ndim m) F * sumn (ndim m) (fun j => grad_disp m u ip j i * area m ip j)) a.
Proof.
  intros m mu la u s a i Hi Hd Hn. destruct (neo_eff m mu la u s) as [_ H]. rewrite H. f_equal.
  rewrite net_out_dl. apply sumn_ext. intros ip Hip. rewrite side_row_opp by assumption. destruct (Hn ip Hip) as [H1 H2].
  cbv zeta. change (fun i0 j => grad_disp m u ip i0 j + delta i0 j) with (gradTens m u ip) in *.
  rewrite <- (neo_flux m mu la u ip i) by (try assumption; rewrite Jdet_det; assumption). ring.
Qed.
Theorem C84_neo_conservative : forall m mu la u, maps_ok m -> conservative_vec (ndim m) (npe m) (neohookean m mu la u).
Proof.
  intros m mu la u Hm s i Hi. destruct (neo_eff m mu la u s) as [H1 H2]. split.
  - rewrite (sumn_ext (npe m) _ _ (fun a _ => H2 (a*ndim m+i)%nat)), sumn_plus.
    rewrite (sumn_ext (npe m) (fun a => sumn (nscs m) _) (fun a => sumn (nscs m) (fun ip => (dl a (lrL m ip) - dl a (lrR m ip)) * (- (cflux m (ncf m mu u ip) u i - nvl m mu la u ip i))))).
    + rewrite pair_sum_zero by apply Hm. lra.
    + intros a _. apply sumn_ext. intros ip _. rewrite side_row_opp by assumption. ring.
  - intros j. rewrite (sumn_ext (npe m) _ _ (fun a _ => H1 (a*ndim m+i)%nat j)), sumn_plus.
    rewrite (sumn_ext (npe m) (fun a => sumn (nscs m) _) (fun a => sumn (nscs m) (fun ip => (dl a (lrL m ip) - dl a (lrR m ip)) * crow m (ncf m mu u ip) i j))).
    + rewrite pair_sum_zero by apply Hm. lra.
    + intros a _. apply sumn_ext. intros ip _. apply (side_row m ip a i (fun k => crow m (ncf m mu u ip) k j)). assumption.
Qed.

(** at rest (or under a uniform translation) a three-dimensional body is stress free ... *)
Lemma translated_grad m u c ip i j : grad_unity m -> (ip < nscs m)%nat -> (i < ndim m)%nat -> (j < ndim m)%nat ->
  (forall ic i, (ic < npe m)%nat -> (i < ndim m)%nat -> u (ic*ndim m+i)%nat = c i) -> grad_disp m u ip i j = 0.
Proof.
  intros HU Hip Hi Hj Hu. unfold grad_disp. rewrite (sumn_ext (npe m) _ (fun ic => dndx m ip ic j * c i)) by (intros; rewrite Hu by assumption; reflexivity).
  rewrite sumn_scal_r, HU by assumption. ring.
Qed.
Theorem C84_neo_translation_no_force_3d : forall m mu la u c s a i, ndim m = 3%nat -> grad_unity m ->
  (forall ip, (ip < nscs m)%nat -> at_scs m la ip <> 0) ->
  (forall ic i, (ic < npe m)%nat -> (i < ndim m)%nat -> u (ic*ndim m+i)%nat = c i) -> (i < 3)%nat ->
  eB (neohookean m mu la u s) (a*3+i) = eB s (a*3+i)%nat.
Proof.
  intros m mu la u c s a i Hd HU Hla Hu Hi.
  assert (G : forall ip i j, (ip < nscs m)%nat -> (i < 3)%nat -> (j < 3)%nat -> grad_disp m u ip i j = 0).
  { intros. apply (translated_grad m u c); first [assumption | rewrite Hd; assumption]. }
  pose proof (C84_neo_force_partial m mu la u s a i) as T. rewrite Hd in T. rewrite T; clear T; try auto.
  - rewrite net_out_dl, sumn_zero; [lra|]. intros ip Hip. cbv zeta.
    rewrite (sumn_zero 3 (fun j => grad_disp m u ip j i * area m ip j)) by (intros; rewrite G by assumption; ring).
    match goal with |- _ * (?t + _) = 0 => enough (E : t = 0) by (rewrite E; ring) end.
    unfold neo_traction, frob2, det, det3. cbn [Nat.eqb]. unfold sumn at 2 3 4. cbn [seq fold_left].
    rewrite !G by (assumption || lia). unfold delta. cbn [Nat.eqb].
    apply sumn_zero. intros j Hj. unfold sumn; cbn [seq fold_left]. rewrite !G by (assumption || lia).
    destruct i as [|[|[|i]]]; [| | |lia]; (destruct j as [|[|[|j]]]; [| | |lia]); cbn [Nat.eqb]; field.
  - intros ip Hip. split; [auto|]. unfold det, det3. cbn [Nat.eqb]. rewrite !G by (assumption || lia). unfold delta. cbn [Nat.eqb]. lra.
Qed.
