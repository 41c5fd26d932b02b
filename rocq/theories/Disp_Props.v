(** C84: solid displacement: stress, inertia, pressure load, elastic constants. *)
Require Import Reals List Bool Lra Lia Arith.
From Verif Require Import RUtil Edge_Model Edge_Proofs Elem_Model Elem_Spec Elem_Proofs Elem_Proofs2 Elem_Proofs3 Elem_Props Elem_Props2.
From Verif Require Import Disp_Model Disp_Spec.
Import ListNotations.
Open Scope R_scope.

(** coefficients [C ip ic i l] of unknown (ic,l) in the flux of component i at point ip *)
Definition crow (m : me) (C : nat -> nat -> nat -> R) (i col : nat) : R :=
  sumn (npe m) (fun ic => sumn (ndim m) (fun l => dl col (ic*ndim m+l) * C ic i l)).
Definition cflux (m : me) (C : nat -> nat -> nat -> R) (u : nat -> R) (i : nat) : R :=
  sumn (npe m) (fun ic => sumn (ndim m) (fun l => C ic i l * u (ic*ndim m+l)%nat)).
Lemma crow_flux m C (e : nat -> R) i : sumn (npe m*ndim m) (fun col => crow m C i col * e col) = cflux m C e i.
Proof.
  unfold crow, cflux.
  rewrite (sumn_ext (npe m*ndim m) _ (fun col => sumn (npe m) (fun ic => sumn (ndim m) (fun l => dl col (ic*ndim m+l) * (C ic i l * e col))))).
  2:{ intros col _. rewrite <- sumn_scal_r. apply sumn_ext. intros ic _. rewrite <- sumn_scal_r. apply sumn_ext. intros; ring. }
  rewrite sumn_swap. apply sumn_ext. intros ic Hic. rewrite sumn_swap. apply sumn_ext. intros l Hl.
  apply (sumn_dl (npe m*ndim m) (ic*ndim m+l) (fun col => C ic i l * e col)). nia.
Qed.
Lemma cflux_plus m C u e i : cflux m C (fun a => u a + e a) i = cflux m C u i + cflux m C e i.
Proof. unfold cflux. rewrite <- sumn_plus. apply sumn_ext. intros. rewrite <- sumn_plus. apply sumn_ext. intros; ring. Qed.

Lemma kd_row d i (f : nat -> R) : (i < d)%nat -> sumn d (fun l => kd i l * f l) = f i.
Proof. intros H. rewrite <- (sumn_dl d i f H). apply sumn_ext. intros l _. unfold kd, dl. rewrite Nat.eqb_sym. destruct (Nat.eqb l i); lra. Qed.
Lemma kd_refl i : kd i i = 1. Proof. unfold kd. rewrite Nat.eqb_refl. reflexivity. Qed.

(* ------------------------------------------------------------------ linear elasticity *)
Definition el_coef (m : me) (mu la : R) (ip ic i l : nat) : R :=
  - mu * dndx m ip ic i * area m ip l
  + sumn (ndim m) (fun j => - la * kd i j * dndx m ip ic l * area m ip j)
  + kd i l * sumn (ndim m) (fun j => - mu * dndx m ip ic j * area m ip j).

Lemma elastic_eff m mu la u s :
  eff s (elastic m mu la u s)
   (fun row col => sumn (nscs m) (fun ip => sumn (ndim m) (fun i => side m ip row i * crow m (el_coef m (at_scs m mu ip) (at_scs m la ip) ip) i col)))
   (fun row => sumn (nscs m) (fun ip => sumn (ndim m) (fun i => - (side m ip row i * cflux m (el_coef m (at_scs m mu ip) (at_scs m la ip) ip) u i)))).
Proof.
  unfold elastic. cbv zeta.
  apply (eff_loop (nscs m) _ (fun ip row col => sumn (ndim m) (fun i => side m ip row i * crow m (el_coef m (at_scs m mu ip) (at_scs m la ip) ip) i col))
     (fun ip row => sumn (ndim m) (fun i => - (side m ip row i * cflux m (el_coef m (at_scs m mu ip) (at_scs m la ip) ip) u i)))).
  clear s. intros ip s Hip. set (muI := at_scs m mu ip). set (laI := at_scs m la ip).
  eapply eff_ext.
  - apply (eff_loop (npe m) _ (fun ic row col => sumn (ndim m) (fun i => side m ip row i * sumn (ndim m) (fun l => dl col (ic*ndim m+l) * el_coef m muI laI ip ic i l)))
       (fun ic row => sumn (ndim m) (fun i => - (side m ip row i * sumn (ndim m) (fun l => el_coef m muI laI ip ic i l * u (ic*ndim m+l)%nat))))).
    intros ic s1 Hic.
    apply (eff_loop (ndim m) _ (fun i row col => side m ip row i * sumn (ndim m) (fun l => dl col (ic*ndim m+l) * el_coef m muI laI ip ic i l))
       (fun i row => - (side m ip row i * sumn (ndim m) (fun l => el_coef m muI laI ip ic i l * u (ic*ndim m+l)%nat)))).
    intros i s2 Hi.
    match goal with |- context [loop (ndim m) ?b (?s0, 0)] =>
      destruct (loop_acc (ndim m) b (fun j a => a + - muI * dndx m ip ic j * area m ip j)
         (fun j row col => side m ip row i * (dl col (ic*ndim m+j) * (- muI * dndx m ip ic i * area m ip j)
              + sumn (ndim m) (fun l => dl col (ic*ndim m+l) * (- laI * kd i j * dndx m ip ic l * area m ip j))))
         (fun j row => - (side m ip row i * ((- muI * dndx m ip ic i * area m ip j) * u (ic*ndim m+j)%nat
              + sumn (ndim m) (fun l => (- laI * kd i j * dndx m ip ic l * area m ip j) * u (ic*ndim m+l)%nat)))) s0 0) as [E1 E2];
      [reflexivity| |destruct (loop (ndim m) b (s0, 0)) as [s' riC]] end.
    + intros j s3 a Hj. cbn [fst]. eapply eff_ext.
      * eapply eff_trans; [|apply (eff_loop (ndim m) _ (fun l row col => side m ip row i * (dl col (ic*ndim m+l) * (- laI * kd i j * dndx m ip ic l * area m ip j)))
            (fun l row => - (side m ip row i * ((- laI * kd i j * dndx m ip ic l * area m ip j) * u (ic*ndim m+l)%nat))))].
        2:{ intros l s4 Hl. eapply eff_ext; [effs| |]; intros; unfold side; cbv beta; ring. }
        effs.
      * intros row col; cbv beta. rewrite sumn_scal. unfold side. ring.
      * intros row; cbv beta. rewrite sumn_opp, sumn_scal. unfold side. ring.
    + cbn [fst snd] in *. rewrite loop_sum, Rplus_0_l in E1. subst riC.
      eapply eff_ext.
      * do 4 (eapply eff_trans; [|eff1]). exact E2.
      * intros row col; cbv beta. rewrite sumn_scal, sumn_plus.
        rewrite (sumn_swap (ndim m) (ndim m)).
        replace (sumn (ndim m) (fun l => dl col (ic*ndim m+l) * el_coef m muI laI ip ic i l))
          with (sumn (ndim m) (fun j => dl col (ic*ndim m+j) * (- muI * dndx m ip ic i * area m ip j))
             + sumn (ndim m) (fun l => sumn (ndim m) (fun j => dl col (ic*ndim m+l) * (- laI * kd i j * dndx m ip ic l * area m ip j)))
             + dl col (ic*ndim m+i) * sumn (ndim m) (fun j => - muI * dndx m ip ic j * area m ip j)); [unfold side; ring|].
        rewrite <- (kd_row (ndim m) i (fun l => dl col (ic*ndim m+l) * sumn (ndim m) (fun j => - muI * dndx m ip ic j * area m ip j))) by assumption.
        rewrite <- !sumn_plus. apply sumn_ext. intros l Hl. rewrite sumn_scal. unfold el_coef. ring.
      * intros row; cbv beta. rewrite sumn_opp, sumn_scal, sumn_plus. rewrite (sumn_swap (ndim m) (ndim m)).
        replace (sumn (ndim m) (fun l => el_coef m muI laI ip ic i l * u (ic*ndim m+l)%nat))
          with (sumn (ndim m) (fun j => (- muI * dndx m ip ic i * area m ip j) * u (ic*ndim m+j)%nat)
             + sumn (ndim m) (fun l => sumn (ndim m) (fun j => (- laI * kd i j * dndx m ip ic l * area m ip j) * u (ic*ndim m+l)%nat))
             + sumn (ndim m) (fun j => - muI * dndx m ip ic j * area m ip j) * u (ic*ndim m+i)%nat); [unfold side; ring|].
        rewrite <- (kd_row (ndim m) i (fun l => sumn (ndim m) (fun j => - muI * dndx m ip ic j * area m ip j) * u (ic*ndim m+l)%nat)) by assumption.
        rewrite <- !sumn_plus. apply sumn_ext. intros l Hl. rewrite sumn_scal_r. unfold el_coef. ring.
  - intros row col; cbv beta. rewrite sum_side. reflexivity.
  - intros row; cbv beta.
    rewrite (sumn_ext (npe m) _ (fun ic => - sumn (ndim m) (fun i => side m ip row i * sumn (ndim m) (fun l => el_coef m muI laI ip ic i l * u (ic*ndim m+l)%nat)))) by (intros; apply sumn_opp).
    rewrite sumn_opp, (sum_side m ip row (npe m) (fun ic i => sumn (ndim m) (fun l => el_coef m muI laI ip ic i l * u (ic*ndim m+l)%nat))), <- sumn_opp. reflexivity.
Qed.

(** the flux is minus Hooke's traction on the sub-control-surface *)
Lemma el_flux m mu la u ip i : (i < ndim m)%nat ->
  cflux m (el_coef m mu la ip) u i = - hooke_traction (ndim m) mu la (grad_disp m u ip) (area m ip) i.
Proof.
  intros Hi. unfold cflux, hooke_traction, el_coef, grad_disp.
  rewrite (sumn_ext (npe m) _ (fun ic => sumn (ndim m) (fun j => - mu * area m ip j * (dndx m ip ic i * u (ic*ndim m+j)%nat))
     + (- la * area m ip i) * sumn (ndim m) (fun l => dndx m ip ic l * u (ic*ndim m+l)%nat)
     + sumn (ndim m) (fun j => - mu * area m ip j * (dndx m ip ic j * u (ic*ndim m+i)%nat)))).
  2:{ intros ic Hic. rewrite (sumn_ext (ndim m) (fun l => _ * u (ic*ndim m+l)%nat)
        (fun l => - mu * area m ip l * (dndx m ip ic i * u (ic*ndim m+l)%nat) + (- la * area m ip i) * (dndx m ip ic l * u (ic*ndim m+l)%nat)
           + kd i l * (sumn (ndim m) (fun j => - mu * dndx m ip ic j * area m ip j) * u (ic*ndim m+l)%nat))).
      - rewrite !sumn_plus, kd_row, sumn_scal by assumption. do 2 f_equal. rewrite <- sumn_scal_r. apply sumn_ext. intros; ring.
      - intros l Hl. rewrite (sumn_ext (ndim m) (fun j => - la * kd i j * _ * _) (fun j => kd i j * (- la * dndx m ip ic l * area m ip j))) by (intros; ring).
        rewrite kd_row by assumption. ring. }
  rewrite !sumn_plus, sumn_scal.
  rewrite (sumn_swap (npe m)), (sumn_swap (npe m) (ndim m) (fun ic j => - mu * area m ip j * (dndx m ip ic j * _))), (sumn_swap (npe m) (ndim m) (fun ic l => dndx m ip ic l * _)).
  rewrite (sumn_ext (ndim m) (fun j => (mu * _ + la * delta i j * _) * area m ip j)
    (fun j => mu * area m ip j * sumn (npe m) (fun ic => dndx m ip ic i * u (ic*ndim m+j)%nat) + mu * area m ip j * sumn (npe m) (fun ic => dndx m ip ic j * u (ic*ndim m+i)%nat)
       + kd i j * (la * area m ip j * sumn (ndim m) (fun l => sumn (npe m) (fun ic => dndx m ip ic l * u (ic*ndim m+l)%nat))))).
  2:{ intros j Hj. unfold delta, kd. destruct (Nat.eqb i j); ring. }
  rewrite !sumn_plus, (kd_row (ndim m) i (fun j => la * area m ip j * _)) by assumption.
  rewrite (sumn_ext (ndim m) (fun j => sumn (npe m) (fun i0 => - mu * area m ip j * (dndx m ip i0 i * _))) (fun j => - (mu * area m ip j * sumn (npe m) (fun ic => dndx m ip ic i * u (ic*ndim m+j)%nat)))).
  2:{ intros; rewrite sumn_scal; ring. }
  rewrite (sumn_ext (ndim m) (fun j => sumn (npe m) (fun i0 => - mu * area m ip j * (dndx m ip i0 j * _))) (fun j => - (mu * area m ip j * sumn (npe m) (fun ic => dndx m ip ic j * u (ic*ndim m+i)%nat)))).
  2:{ intros; rewrite sumn_scal; ring. }
  rewrite !sumn_opp. ring.
Qed.

(** the residual of a node's component is the sum of Hooke's tractions over the sub-control-surfaces around it:
    entering with + where the node is on the left (inside) and - on the right *)
Theorem C84_elastic_force : forall m mu la u s a i, (i < ndim m)%nat ->
  eB (elastic m mu la u s) (a*ndim m+i)
  = eB s (a*ndim m+i)%nat + net_out m (fun ip => hooke_traction (ndim m) (at_scs m mu ip) (at_scs m la ip) (grad_disp m u ip) (area m ip) i) a.
Proof.
  intros m mu la u s a i Hi. destruct (elastic_eff m mu la u s) as [_ H]. rewrite H. f_equal.
  rewrite net_out_dl. apply sumn_ext. intros ip Hip. rewrite side_row_opp, el_flux by assumption. ring.
Qed.
Theorem C84_elastic_conservative : forall m mu la u, maps_ok m -> conservative_vec (ndim m) (npe m) (elastic m mu la u).
Proof. intros m mu la u Hm. eapply (vec_conservative m Hm _ (fun u => elastic m mu la u)). intros; apply elastic_eff. Qed.
Theorem C84_elastic_newton : forall m mu la, exact_newton (npe m*ndim m) (elastic m mu la).
Proof.
  intros m mu la. eapply (vec_newton m _ _ (fun u ip i => cflux m (el_coef m (at_scs m mu ip) (at_scs m la ip) ip) u i)).
  - intros; apply elastic_eff.
  - intros u d ip i Hip Hi. rewrite cflux_plus. f_equal. symmetry. apply crow_flux.
Qed.

(** gradient of an affine displacement *)
Lemma grad_affine m x u c W ip i j : grad_linear_exact m x -> (ip < nscs m)%nat -> (i < ndim m)%nat -> (j < ndim m)%nat ->
  (forall ic i, (ic < npe m)%nat -> (i < ndim m)%nat -> u (ic*ndim m+i)%nat = c i + sumn (ndim m) (fun j => W i j * x ic j)) ->
  grad_disp m u ip i j = W i j.
Proof.
  intros [HU HL] Hip Hi Hj Hu. unfold grad_disp.
  rewrite (sumn_ext (npe m) _ (fun ic => dndx m ip ic j * c i + sumn (ndim m) (fun l => W i l * (dndx m ip ic j * x ic l)))).
  2:{ intros ic Hic. rewrite Hu by assumption. rewrite Rmult_plus_distr_l, <- sumn_scal. f_equal. apply sumn_ext. intros; ring. }
  rewrite sumn_plus, sumn_scal_r, HU, sumn_swap by assumption.
  rewrite (sumn_ext (ndim m) _ (fun l => dl l j * W i l)).
  - rewrite (sumn_dl (ndim m) j (W i)) by assumption. ring.
  - intros l Hl. rewrite sumn_scal, HL by assumption. unfold dl. rewrite (Nat.eqb_sym l j). destruct (Nat.eqb j l); ring.
Qed.
Lemma sumn_ext2 d (f g : nat -> nat -> R) : (forall i j, (i < d)%nat -> (j < d)%nat -> f i j = g i j) ->
  sumn d (fun i => sumn d (f i)) = sumn d (fun i => sumn d (g i)).
Proof. intros H. apply sumn_ext. intros i Hi. apply sumn_ext. intros; auto. Qed.

(** translations and infinitesimal rotations are stress free, whatever the elastic constants *)
Theorem C84_elastic_rigid_motion_no_force : forall m x mu la u c W s a i, grad_linear_exact m x -> small_rigid m x u c W -> (i < ndim m)%nat ->
  eB (elastic m mu la u s) (a*ndim m+i) = eB s (a*ndim m+i)%nat.
Proof.
  intros m x mu la u c W s a i HG [HW Hu] Hi. rewrite C84_elastic_force by assumption.
  rewrite net_out_dl, sumn_zero; [lra|]. intros ip Hip.
  match goal with |- _ * ?t = 0 => enough (E : t = 0) by (rewrite E; ring) end.
  unfold hooke_traction. apply sumn_zero. intros j Hj.
  rewrite !(grad_affine m x u c W) by assumption.
  rewrite (sumn_zero (ndim m)). 2:{ intros l Hl. rewrite (grad_affine m x u c W) by assumption. pose proof (HW l l Hl Hl). lra. }
  rewrite (HW i j) by assumption. ring.
Qed.
(** a linear displacement gives the same Hooke stress at every point of the element *)
Theorem C84_elastic_patch : forall m x mu la u c W ip i mu0 la0, grad_linear_exact m x -> unity (npe m) (nscs m) (Ns m) ->
  (forall ic, (ic < npe m)%nat -> mu ic = mu0) -> (forall ic, (ic < npe m)%nat -> la ic = la0) ->
  (forall ic i, (ic < npe m)%nat -> (i < ndim m)%nat -> u (ic*ndim m+i)%nat = c i + sumn (ndim m) (fun j => W i j * x ic j)) ->
  (ip < nscs m)%nat -> (i < ndim m)%nat ->
  hooke_traction (ndim m) (at_scs m mu ip) (at_scs m la ip) (grad_disp m u ip) (area m ip) i
  = hooke_traction (ndim m) mu0 la0 W (area m ip) i.
Proof.
  intros m x mu la u c W ip i mu0 la0 HG HN Hmu Hla Hu Hip Hi.
  assert (E1 : at_scs m mu ip = mu0).
  { unfold at_scs. rewrite (sumn_ext (npe m) _ (fun ic => Ns m ip ic * mu0)) by (intros; rewrite Hmu by assumption; reflexivity). rewrite sumn_scal_r, HN by assumption. ring. }
  assert (E2 : at_scs m la ip = la0).
  { unfold at_scs. rewrite (sumn_ext (npe m) _ (fun ic => Ns m ip ic * la0)) by (intros; rewrite Hla by assumption; reflexivity). rewrite sumn_scal_r, HN by assumption. ring. }
  rewrite E1, E2. unfold hooke_traction. apply sumn_ext. intros j Hj.
  rewrite !(grad_affine m x u c W) by assumption.
  rewrite (sumn_ext (ndim m) (fun l => grad_disp m u ip l l) (fun l => W l l)) by (intros; apply (grad_affine m x u c W); assumption).
  reflexivity.
Qed.
