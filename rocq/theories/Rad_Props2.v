(** C63 (element kernels, examples). *)
From Coq Require Import Reals List Bool Arith Lia Lra Psatz.
From Verif Require Import RUtil Edge_Model Edge_Proofs Edge_Props Elem_Model Elem_Spec Elem_Proofs Elem_Proofs2 Elem_Props Elem_Props2 Elem_Props3
  Rad_Model Rad_Props.
Import ListNotations.
Local Open Scope R_scope.

(** ** element kernels *)
(** what crosses a sub-control surface per solid angle *)
Definition k_sa (m : me) (S : vec) (ip : nat) : R := sumn (ndim m) (fun j => S j * area m ip j).
Definition k_ext (m : me) (f : refields) (ip : nat) : R := at_scs m (fun c => q_mua f c + q_mus f c) ip.
Definition k_tau (m : me) (fac : R) (f : refields) (ip : nat) : R :=
  let h := sumn (ndim m) (fun j => area m ip j / sqrt (sumn (ndim m) (fun j => area m ip j * area m ip j))
             * (q_x f (lrR m ip * ndim m + j)%nat - q_x f (lrL m ip * ndim m + j)%nat)) in
  sqrt (1 / ((2/h)*(2/h) + k_ext m f ip * k_ext m f ip)) * fac.
Definition k_row (m : me) (S : vec) (fac : R) (f : refields) (ip ic : nat) : R :=
  k_sa m S ip * Ns m ip ic
  - k_tau m fac f ip * k_sa m S ip * (Ns m ip ic * k_ext m f ip + sumn (ndim m) (fun j => S j * dndx m ip ic j)).
Definition k_flux (m : me) (S : vec) (fac : R) (f : refields) (q : nat -> R) (ip : nat) : R :=
  k_sa m S ip * at_scs m q ip
  - k_tau m fac f ip * k_sa m S ip
    * (sumn (npe m) (fun ic => sumn (ndim m) (fun j => S j * dndx m ip ic j) * q ic) + k_ext m f ip * at_scs m q ip
       - at_scs m (q_src f) ip - sumn (npe m) (fun ic => Ns m ip ic * q_mus f ic * q_G f ic * (1/PI/4))).

Lemma rad_sucv_eff m S fac f q s :
  eff s (rad_sucv_kernel m S fac f q s)
    (fun i j => sumn (nscs m) (fun ip => (dl i (lrL m ip) - dl i (lrR m ip)) * sumn (npe m) (fun ic => dl j ic * k_row m S fac f ip ic)))
    (fun i => sumn (nscs m) (fun ip => - ((dl i (lrL m ip) - dl i (lrR m ip)) * k_flux m S fac f q ip))).
Proof.
  unfold rad_sucv_kernel.
  apply (eff_loop (nscs m) _ (fun ip i j => (dl i (lrL m ip) - dl i (lrR m ip)) * sumn (npe m) (fun ic => dl j ic * k_row m S fac f ip ic))
     (fun ip i => - ((dl i (lrL m ip) - dl i (lrR m ip)) * k_flux m S fac f q ip))).
  clear s. intros ip s Hip. cbv zeta.
  fold (k_sa m S ip). fold (k_ext m f ip).
  change (sqrt (1 / (2 / sumn (ndim m) (fun j => area m ip j / sqrt (sumn (ndim m) (fun j0 => area m ip j0 * area m ip j0))
             * (q_x f (lrR m ip * ndim m + j)%nat - q_x f (lrL m ip * ndim m + j)%nat)) *
       (2 / sumn (ndim m) (fun j => area m ip j / sqrt (sumn (ndim m) (fun j0 => area m ip j0 * area m ip j0))
             * (q_x f (lrR m ip * ndim m + j)%nat - q_x f (lrL m ip * ndim m + j)%nat))) + k_ext m f ip * k_ext m f ip)) * fac)
   with (k_tau m fac f ip).
  set (sa := k_sa m S ip). set (tau := k_tau m fac f ip). set (ex := k_ext m f ip).
  match goal with |- context [loop (npe m) ?b (?s1, 0)] =>
    destruct (loop_acc (npe m) b (fun ic a => a + sumn (ndim m) (fun j => S j * dndx m ip ic j) * q ic)
       (fun ic i j => (dl i (lrL m ip) - dl i (lrR m ip)) * (dl j ic * (- tau * sa * (Ns m ip ic * ex + sumn (ndim m) (fun j => S j * dndx m ip ic j)))))
       (fun _ _ => 0) s1 0) as [E1 E2];
    [intros ? ? ? ?; reflexivity| |destruct (loop (npe m) b (s1, 0)) as [s' qA]] end.
  - intros ic s1 a1 Hic. cbn [fst]. eapply eff_ext; [effs| |]; intros; cbv beta; ring.
  - cbn [fst snd] in *. rewrite loop_sum in E1. subst qA. eapply eff_ext.
    + eapply eff_trans; [eapply eff_trans; [|exact E2]|effs].
      eapply eff_trans; [|eff1]. eapply eff_trans; [|eff1].
      apply (eff_loop (npe m) _ (fun ic i j => (dl i (lrL m ip) - dl i (lrR m ip)) * (dl j ic * (sa * Ns m ip ic))) (fun _ _ => 0)).
      intros ic s1 Hic. eapply eff_ext; [effs| |]; intros; cbv beta; ring.
    + intros i j; cbv beta. rewrite !sumn_scal.
      rewrite (sumn_ext (npe m) (fun ic => dl j ic * k_row m S fac f ip ic)
        (fun ic => dl j ic * (sa * Ns m ip ic) + dl j ic * (- tau * sa * (Ns m ip ic * ex + sumn (ndim m) (fun j => S j * dndx m ip ic j)))))
        by (intros; unfold k_row; fold sa; fold tau; fold ex; ring).
      rewrite sumn_plus. ring.
    + intros i; cbv beta. rewrite !(sumn_zero (npe m) (fun _ => 0)) by (intros; reflexivity).
      unfold k_flux. fold sa. fold tau. fold ex. ring.
Qed.
Lemma rad_bb_eff m f q s :
  eff s (rad_bb_kernel m f q s)
   (fun i j => sumn (nscv m) (fun ip => dl i (nearest m ip) * sumn (npe m) (fun ic => dl j ic * (Nv m ip ic * (at_scv m (fun c => q_mua f c + q_mus f c) ip * Elem_Model.vol m ip)))))
   (fun i => sumn (nscv m) (fun ip => dl i (nearest m ip) * (- ((at_scv m (fun c => q_mua f c + q_mus f c) ip * at_scv m q ip - at_scv m (q_src f) ip) * Elem_Model.vol m ip)))).
Proof.
  unfold rad_bb_kernel.
  apply (eff_loop (nscv m) _ (fun ip i j => dl i (nearest m ip) * sumn (npe m) (fun ic => dl j ic * (Nv m ip ic * (at_scv m (fun c => q_mua f c + q_mus f c) ip * Elem_Model.vol m ip))))
     (fun ip i => dl i (nearest m ip) * (- ((at_scv m (fun c => q_mua f c + q_mus f c) ip * at_scv m q ip - at_scv m (q_src f) ip) * Elem_Model.vol m ip)))).
  clear s. intros ip s Hip. cbv zeta beta. set (ex := at_scv m (fun c => q_mua f c + q_mus f c) ip). eapply eff_ext.
  - eapply eff_trans; [|apply (eff_loop (npe m) _ (fun ic i j => dl i (nearest m ip) * (dl j ic * (Nv m ip ic * (ex * Elem_Model.vol m ip)))) (fun _ _ => 0))].
    + effs.
    + intros ic s1 Hic. eapply eff_ext; [effs| |]; intros; cbv beta; ring.
  - intros i j; cbv beta. rewrite sumn_scal. ring.
  - intros i; cbv beta. rewrite sumn_zero by (intros; reflexivity). ring.
Qed.
Lemma rad_scat_eff m f s :
  eff s (rad_scat_kernel m f s) (fun i j => 0)
   (fun i => sumn (nscv m) (fun ip => dl i (nearest m ip) * (at_scv m (fun c => q_mus f c * q_G f c) ip * (1/PI/4) * Elem_Model.vol m ip))).
Proof.
  unfold rad_scat_kernel. eapply eff_ext.
  - apply (eff_loop (nscv m) _ (fun _ _ _ => 0)
     (fun ip i => dl i (nearest m ip) * (at_scv m (fun c => q_mus f c * q_G f c) ip * (1/PI/4) * Elem_Model.vol m ip))).
    intros ip s1 Hip. eapply eff_ext; [effs| |]; intros; cbv beta; ring.
  - intros i j; cbv beta. apply sumn_zero. reflexivity.
  - reflexivity.
Qed.

(** what leaves one control volume of the element enters another *)
Theorem C63_element_transport_conserves : forall m S fac f q, maps_ok m -> conservative (npe m) (rad_sucv_kernel m S fac f q).
Proof.
  intros m S fac f q [Hm _]. eapply (pair_conservative (npe m) _ (nscs m) (lrL m) (lrR m)).
  - intros s. apply rad_sucv_eff.
  - assumption.
Qed.
(** every element kernel hands the solver its exact sensitivity *)
Theorem C63_element_newton_exact : forall m S fac f,
  exact_newton (npe m) (rad_sucv_kernel m S fac f) /\ exact_newton (npe m) (rad_bb_kernel m f).
Proof.
  intros m S fac f. split.
  - eapply (pair_newton (npe m) _ (nscs m) (lrL m) (lrR m)).
    + intros q s. apply rad_sucv_eff.
    + intros q d ip Hip. cbv beta. rewrite (sumn_ext (npe m) (fun j => sumn (npe m) (fun ic => dl j ic * k_row m S fac f ip ic) * d j)
         (fun j => k_row m S fac f ip j * d j)).
      2:{ intros j Hj. rewrite sumn_dl' by assumption. reflexivity. }
      unfold k_flux, k_row.
      assert (A : at_scs m (fun a => q a + d a) ip = at_scs m q ip + at_scs m d ip)
        by (unfold at_scs; rewrite <- sumn_plus; apply sumn_ext; intros; ring).
      rewrite A.
      set (g := fun ic => sumn (ndim m) (fun j => S j * dndx m ip ic j)).
      rewrite (sumn_ext (npe m) (fun ic => sumn (ndim m) (fun j => S j * dndx m ip ic j) * (q ic + d ic)) (fun ic => g ic * q ic + g ic * d ic)) by (intros; unfold g; ring).
      rewrite sumn_plus.
      rewrite (sumn_ext (npe m) (fun j => (k_sa m S ip * Ns m ip j - k_tau m fac f ip * k_sa m S ip * (Ns m ip j * k_ext m f ip + sumn (ndim m) (fun j0 => S j0 * dndx m ip j j0))) * d j)
        (fun j => (k_sa m S ip - k_tau m fac f ip * k_sa m S ip * k_ext m f ip) * (Ns m ip j * d j) + (- k_tau m fac f ip * k_sa m S ip) * (g j * d j)))
        by (intros; unfold g; ring).
      rewrite sumn_plus, !sumn_scal. unfold g, at_scs. ring.
  - eapply (scv_newton m _ (fun ip => at_scv m (fun c => q_mua f c + q_mus f c) ip * Elem_Model.vol m ip)).
    + intros q s. apply rad_bb_eff.
    + intros q d ip _. cbv beta. rewrite (at_scv_plus m q d ip). ring.
Qed.

(** radiative equilibrium: with a uniform intensity and sources that balance extinction node by node, the
    three kernels together leave only the intensity times the net area of the element's sub-control
    surfaces, which cancels against the neighbours and the walls *)
Theorem C63_element_equilibrium : forall m S fac f q c s i,
  unity (npe m) (nscs m) (Ns m) -> unity (npe m) (nscv m) (Nv m) -> grad_unity m ->
  (forall a, (a < npe m)%nat -> q a = c) ->
  (forall a, (a < npe m)%nat -> q_src f a + q_mus f a * q_G f a / (4*PI) = (q_mua f a + q_mus f a) * c) ->
  eB (rad_scat_kernel m f (rad_bb_kernel m f q (rad_sucv_kernel m S fac f q s))) i
  = eB s i - c * net_out m (fun ip => sumn (ndim m) (fun j => S j * area m ip j)) i.
Proof.
  intros m S fac f q c s i HU HV HG Hq HQ. pose proof PI_RGT_0 as HPI.
  destruct (rad_scat_eff m f (rad_bb_kernel m f q (rad_sucv_kernel m S fac f q s))) as [_ H1].
  destruct (rad_bb_eff m f q (rad_sucv_kernel m S fac f q s)) as [_ H2].
  rewrite H1, H2, (eff_net m _ _ _ _ i (rad_sucv_eff m S fac f q s)).
  rewrite (net_out_ext m _ (fun ip => c * k_sa m S ip)).
  - assert (N : net_out m (fun ip => c * k_sa m S ip) i = c * net_out m (fun ip => sumn (ndim m) (fun j => S j * area m ip j)) i).
    { rewrite !net_out_dl, <- sumn_scal. apply sumn_ext. intros ip _. unfold k_sa. ring. }
    rewrite N. rewrite Rplus_assoc, <- sumn_plus, sumn_zero; [ring|].
    intros ip Hip. rewrite <- Rmult_plus_distr_l.
    assert (E : at_scv m q ip = c).
    { unfold at_scv. rewrite (sumn_ext (npe m) _ (fun ic => Nv m ip ic * c)) by (intros; rewrite Hq by assumption; reflexivity).
      rewrite sumn_scal_r, HV by assumption. ring. }
    rewrite E.
    assert (Z : at_scv m (fun a => q_mua f a + q_mus f a) ip * c = at_scv m (q_src f) ip + at_scv m (fun a => q_mus f a * q_G f a) ip * (1/PI/4)).
    { unfold at_scv. rewrite <- !sumn_scal_r, <- sumn_plus. apply sumn_ext. intros a Ha.
      transitivity (Nv m ip a * ((q_mua f a + q_mus f a) * c)); [ring|]. rewrite <- (HQ a Ha). field. lra. }
    rewrite Z. ring.
  - intros ip Hip. unfold k_flux.
    assert (E : at_scs m q ip = c).
    { unfold at_scs. rewrite (sumn_ext (npe m) _ (fun ic => Ns m ip ic * c)) by (intros; rewrite Hq by assumption; reflexivity).
      rewrite sumn_scal_r, HU by assumption. ring. }
    rewrite E.
    assert (G0 : sumn (npe m) (fun ic => sumn (ndim m) (fun j => S j * dndx m ip ic j) * q ic) = 0).
    { rewrite (sumn_ext (npe m) _ (fun ic => sumn (ndim m) (fun j => S j * dndx m ip ic j) * c)) by (intros; rewrite Hq by assumption; reflexivity).
      rewrite sumn_scal_r, sumn_swap, sumn_zero; [ring|]. intros j Hj. rewrite sumn_scal, HG by assumption. ring. }
    rewrite G0.
    assert (Z : k_ext m f ip * c = at_scs m (q_src f) ip + sumn (npe m) (fun ic => Ns m ip ic * q_mus f ic * q_G f ic * (1/PI/4))).
    { unfold k_ext, at_scs. rewrite <- !sumn_scal_r, <- sumn_plus. apply sumn_ext. intros a Ha.
      transitivity (Ns m ip a * ((q_mua f a + q_mus f a) * c)); [ring|]. rewrite <- (HQ a Ha). field. lra. }
    rewrite Z. ring.
Qed.

(** ** the two-cell slab: hypotheses of the upwind theorems are met and the bounds are informative *)
Definition ex_v (a : R) : vec := fun j => match j with O => a | _ => 0 end.
Definition ex_es : list edge := [mkEdge 0 1 (ex_v 1)].
Definition ex_bs : list bip := [mkBip 0 (ex_v (-1)) [(1, 0%nat)]; mkBip 1 (ex_v 1) [(1, 1%nat)]].
Definition ex_f : rfields :=
  mkRF (fun i => ex_v (INR i)) (fun _ => 1) (fun _ => 0) (fun _ => 0) (fun _ => 0) (fun _ => 1) (fun i => match i with O => 2 | _ => 0 end).
Definition ex_I (i : nat) : R := match i with O => 1 | _ => 1/2 end.
Example C63_nonvacuous :
  covers [0;1]%nat ex_es /\ bips_on [0;1]%nat ex_bs /\ lumped ex_bs
  /\ (forall i, In i [0;1]%nat -> closed_cv ex_es ex_bs i)
  /\ (forall i, In i [0;1]%nat -> 0 < r_vol ex_f i /\ 0 < r_mua ex_f i + r_mus ex_f i)
  /\ (forall b, In b ex_bs -> 0 <= r_Ibc ex_f (b_nn b) <= 2)
  /\ (forall i, In i [0;1]%nat -> 0 * (r_mua ex_f i + r_mus ex_f i) <= emission true ex_f i <= 2 * (r_mua ex_f i + r_mus ex_f i))
  /\ (forall i, In i [0;1]%nat -> rad_rhs Upwind true 1 (ex_v 1) ex_f ex_es ex_bs ex_I i = 0).
Proof.
  split; [|split; [|split; [|split; [|split; [|split; [|split]]]]]].
  - split; [repeat constructor; cbn; lia|]. intros e [<-|[]]. cbn. auto.
  - intros b [<-|[<-|[]]]; cbn; split; auto; intros p [<-|[]]; cbn; auto.
  - intros b [<-|[<-|[]]]; reflexivity.
  - intros i [<-|[<-|[]]] [|j]; unfold lsum; cbn; lra.
  - intros i _. cbn. lra.
  - intros b [<-|[<-|[]]]; cbn; lra.
  - intros i _. unfold emission. cbn. unfold Rdiv. rewrite !Rmult_0_l. lra.
  - assert (E1 : sjaj 1 (ex_v 1) (ex_v 1) = 1) by (unfold sjaj, sumn; cbn; ring).
    assert (E2 : sjaj 1 (ex_v 1) (ex_v (-1)) = -1) by (unfold sjaj, sumn; cbn; ring).
    intros i [<-|[<-|[]]]; rewrite rad_rhs_sums; unfold lsum, wall_out, absorbed, add_rhs, ex_es, ex_bs;
      cbn [edge_op rad_edge_upwind sr0 sr1 map fold_right b_nn b_A b_N eL eR eA Nat.eqb fst snd r_vol r_mua r_mus r_src r_G r_Ibc ex_f ex_I];
      fold (sjaj 1 (ex_v 1) (ex_v 1)); fold (sjaj 1 (ex_v 1) (ex_v (-1))); rewrite ?E1, ?E2; cbv zeta;
      unfold lsum; cbn [map fold_right fst snd]; cbv [ex_f ex_I r_vol r_mua r_mus r_src r_G r_Ibc]; unfold Rdiv; rewrite ?Rmult_0_l;
      repeat match goal with |- context [Rlt_dec ?a ?b] => destruct (Rlt_dec a b); [try lra|try lra] end; lra.
Qed.
