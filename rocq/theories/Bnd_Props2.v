(** C72: viscous tractions at open and symmetry boundaries. *)
Require Import Reals List Bool Lra Lia Arith.
From Verif Require Import RUtil Edge_Model Edge_Proofs Elem_Model Elem_Spec Elem_Proofs Elem_Proofs2 Bnd_Model Bnd_Spec Bnd_Proofs Bnd_Props.
Import ListNotations.
Open Scope R_scope.

Lemma dl_refl i : dl i i = 1. Proof. unfold dl. rewrite Nat.eqb_refl. reflexivity. Qed.
Lemma stress_flux f mu u ip l : stress f mu u ip l = viscous_flux (f_d f) mu 0 (grad_u f u ip) (f_A f ip) l.
Proof.
  unfold stress, viscous_flux, grad_u. rewrite sumn_swap.
  replace (2/3*mu*0*_*_) with 0 by ring. rewrite Rplus_0_r, <- sumn_scal. apply sumn_ext. intros j Hj.
  rewrite <- sumn_plus. rewrite <- sumn_scal_r, <- sumn_scal. apply sumn_ext. intros ic Hic. ring.
Qed.
Lemma pj_part open d n T i : (i < d)%nat ->
  sumn d (fun l => pj open n i l * T l) = if open then tangential_part d n T i else normal_part d n T i.
Proof.
  intros Hi. unfold pj, tangential_part, normal_part, dotp. destruct open.
  - rewrite (sumn_ext d _ (fun l => dl l i * T l + (- n i) * (n l * T l))) by (intros; ring).
    rewrite sumn_plus, sumn_dl, sumn_scal by assumption. ring.
  - rewrite <- sumn_scal. apply sumn_ext. intros; ring.
Qed.
Lemma sum_rows f np nn g a i : (i < f_d f)%nat ->
  sumn np (fun ip => sumn (f_d f) (fun l => - (dl (a*f_d f+i) (nn ip*f_d f+l) * g ip l))) = - out_at np nn (fun ip => g ip i) a.
Proof.
  intros Hi. rewrite out_dl, <- sumn_opp. apply sumn_ext. intros ip _.
  rewrite (row_pick f (nn ip) (g ip) a i Hi). reflexivity.
Qed.
Lemma adv_through f o w mdot u ip s i : (i < f_d f)%nat ->
  mom_through f (f_nn f) (mom_open_adv_elem f o w mdot u ip) s ip i = elem_adv f o w u (mdot ip) ip i.
Proof.
  intros Hi. unfold mom_through. destruct (mom_open_adv_elem_eff f o w mdot u ip s) as [_ H]. rewrite H.
  rewrite row_pick by assumption. rewrite dl_refl. ring.
Qed.
Lemma adv_through_edge f w mdot u ip s i : (i < f_d f)%nat ->
  mom_through f (f_ord f) (mom_open_adv f w mdot u ip) s ip i = edge_adv f w u (mdot ip) ip i.
Proof.
  intros Hi. unfold mom_through. destruct (mom_open_adv_eff f w mdot u ip s) as [_ H]. rewrite H.
  rewrite row_pick by assumption. rewrite dl_refl. ring.
Qed.

(** C72 element scheme, without the div(u) part of the stress: an open face transmits the tangential part
    of the viscous stress (and the advected momentum), a symmetry face the normal part, and nothing else. *)
Theorem C72_elem_open_traction : forall f o w mdot u s a i, (i < f_d f)%nat -> vf_incl w = 0 ->
  eB (momentum_open_elem f o w mdot u s) (a*f_d f+i)%nat
  = eB s (a*f_d f+i)%nat
    - out_at (f_ip f) (f_nn f) (fun ip => mom_through f (f_nn f) (mom_open_adv_elem f o w mdot u ip) s ip i
        + tangential_part (f_d f) (f_n f ip) (viscous_flux (f_d f) (at_face f (vf_mu w) ip) 0 (grad_u f u ip) (f_A f ip)) i) a.
Proof.
  intros f o w mdot u s a i Hi H0. destruct (momentum_open_elem_eff f o w mdot u s) as [_ H]. rewrite H.
  rewrite (sum_rows f (f_ip f) (f_nn f) (fun ip i => elem_adv f o w u (mdot ip) ip i + (sumn (f_d f) (fun l => pj true (f_n f ip) i l * stress f (at_face f (vf_mu w) ip) u ip l)
        + divterm f (at_face f (vf_mu w) ip) (vf_incl w) u ip * sumn (f_d f) (fun l => pjd true (f_n f ip) i l))) a i Hi).
  unfold Rminus. do 2 f_equal. apply out_ext. intros ip Hip. rewrite adv_through by assumption. f_equal.
  rewrite (pj_part true) by assumption. replace (divterm f _ _ u ip) with 0.
  - rewrite Rmult_0_l, Rplus_0_r. unfold tangential_part, normal_part, dotp. rewrite stress_flux. f_equal. f_equal.
    apply sumn_ext. intros l _. rewrite stress_flux. reflexivity.
  - symmetry. unfold divterm. rewrite H0. apply sumn_zero. intros ic _. apply sumn_zero. intros; ring.
Qed.
Theorem C72_elem_symmetry_traction : forall f mu u s a i, (i < f_d f)%nat ->
  eB (momentum_sym_elem f mu 0 u s) (a*f_d f+i)%nat
  = eB s (a*f_d f+i)%nat
    - out_at (f_ip f) (f_nn f) (fun ip => normal_part (f_d f) (f_n f ip) (viscous_flux (f_d f) (at_face f mu ip) 0 (grad_u f u ip) (f_A f ip)) i) a.
Proof.
  intros f mu u s a i Hi. destruct (momentum_sym_elem_eff f mu 0 u s) as [_ H]. rewrite H.
  rewrite (sum_rows f (f_ip f) (f_nn f) (fun ip i => (sumn (f_d f) (fun l => pj false (f_n f ip) i l * stress f (at_face f mu ip) u ip l)
        + divterm f (at_face f mu ip) 0 u ip * sumn (f_d f) (fun l => pjd false (f_n f ip) i l))) a i Hi).
  unfold Rminus. do 2 f_equal. apply out_ext. intros ip Hip.
  rewrite (pj_part false) by assumption. replace (divterm f _ _ u ip) with 0.
  - rewrite Rmult_0_l, Rplus_0_r. unfold normal_part, dotp. f_equal. apply sumn_ext. intros l _. rewrite stress_flux. reflexivity.
  - symmetry. unfold divterm. apply sumn_zero. intros ic _. apply sumn_zero. intros; ring.
Qed.

Lemma vF_flux f w u ip i : v_F f w u ip i
  = viscous_flux (f_d f) (vf_mu w (f_ord f ip)) (vf_incl w) (v_duidxj f w u ip) (f_A f ip) i.
Proof.
  unfold v_F, viscous_flux. cbv zeta. rewrite fold_seq_sumn.
  rewrite (sumn_ext (f_d f) (fun j => - vf_mu w (f_ord f ip) * _ * _) (fun j => - vf_mu w (f_ord f ip) * ((v_duidxj f w u ip i j + v_duidxj f w u ip j i) * f_A f ip j))) by (intros; ring).
  rewrite sumn_scal. ring.
Qed.
(** C72 edge scheme, including the div(u) part *)
Theorem C72_edge_open_traction : forall f w mdot u s a i, (i < f_d f)%nat ->
  eB (momentum_open_edge f w mdot u s) (a*f_d f+i)%nat
  = eB s (a*f_d f+i)%nat
    - out_at (f_npf f) (f_ord f) (fun ip => mom_through f (f_ord f) (mom_open_adv f w mdot u ip) s ip i
        + tangential_part (f_d f) (f_n f ip) (viscous_flux (f_d f) (vf_mu w (f_ord f ip)) (vf_incl w) (v_duidxj f w u ip) (f_A f ip)) i) a.
Proof.
  intros f w mdot u s a i Hi. destruct (momentum_open_edge_eff f w mdot u s) as [_ H]. rewrite H.
  rewrite (sum_rows f (f_npf f) (f_ord f) (fun ip i => v_F f w u ip i - f_n f ip i * v_Fn f w u ip + edge_adv f w u (mdot ip) ip i) a i Hi).
  match goal with |- ?x + - ?y = ?x - ?z => change (x - y = x - z) end. f_equal. apply out_ext. intros ip Hip. rewrite adv_through_edge by assumption.
  unfold tangential_part, normal_part, dotp, v_Fn. rewrite vF_flux.
  rewrite (sumn_ext (f_d f) (fun i0 => f_n f ip i0 * v_F f w u ip i0) (fun i0 => f_n f ip i0 * viscous_flux (f_d f) (vf_mu w (f_ord f ip)) (vf_incl w) (v_duidxj f w u ip) (f_A f ip) i0)) by (intros; rewrite vF_flux; reflexivity).
  ring.
Qed.
Theorem C72_edge_symmetry_traction : forall f w u s a i, (i < f_d f)%nat ->
  eB (momentum_sym_edge f w u s) (a*f_d f+i)%nat
  = eB s (a*f_d f+i)%nat
    - out_at (f_npf f) (f_ord f) (fun ip => normal_part (f_d f) (f_n f ip) (viscous_flux (f_d f) (vf_mu w (f_ord f ip)) (vf_incl w) (v_duidxj f w u ip) (f_A f ip)) i) a.
Proof.
  intros f w u s a i Hi. destruct (mom_sym_edge_eff f w u s) as [_ H]. rewrite H.
  rewrite (sum_rows f (f_npf f) (f_ord f) (fun ip i => f_n f ip i * v_Fn f w u ip) a i Hi).
  unfold Rminus. do 2 f_equal. apply out_ext. intros ip Hip.
  unfold normal_part, dotp, v_Fn. f_equal. apply sumn_ext. intros. rewrite vF_flux. reflexivity.
Qed.

(** the two projections are what their names say *)
Theorem C72_parts : forall d n T, dotp d n n = 1 ->
  dotp d n (tangential_part d n T) = 0 /\
  (forall t, dotp d t n = 0 -> dotp d t (normal_part d n T) = 0) /\
  (forall i, tangential_part d n T i + normal_part d n T i = T i).
Proof.
  intros d n T Hn. split; [|split].
  - transitivity (dotp d n (fun i => 1 * T i + (- dotp d n T) * n i)).
    + unfold dotp at 1 2. apply sumn_ext. intros. unfold tangential_part, normal_part. ring.
    + rewrite dotp_lin, Hn. ring.
  - intros t Ht. transitivity (dotp d t (fun i => dotp d n T * n i + 0 * n i)).
    + unfold dotp at 1 2. apply sumn_ext. intros. unfold normal_part. ring.
    + rewrite dotp_lin, Ht. ring.
  - intros. unfold tangential_part. ring.
Qed.

(** a rigid motion feels no viscous traction at either kind of boundary *)
Theorem C72_rigid_motion_no_traction : forall f (x : nat -> nat -> R) mu incl u (b : nat -> R) (W : nat -> nat -> R) ip i,
  face_grad_exact f x -> (ip < f_ip f)%nat -> (i < f_d f)%nat ->
  (forall k l, (k < f_d f)%nat -> (l < f_d f)%nat -> W k l = - W l k) ->
  (forall ic k, (ic < f_npe f)%nat -> (k < f_d f)%nat -> u (ic*f_d f+k)%nat = b k + sumn (f_d f) (fun l => W k l * x ic l)) ->
  viscous_flux (f_d f) mu incl (grad_u f u ip) (f_A f ip) i = 0.
Proof.
  intros f x mu incl u b W ip i [HU HL] Hip Hi HW Hu.
  assert (G : forall k j, (k < f_d f)%nat -> (j < f_d f)%nat -> grad_u f u ip k j = W k j).
  { intros k j Hk Hj. unfold grad_u.
    rewrite (sumn_ext (f_npe f) _ (fun ic => f_dn f ip ic j * b k + sumn (f_d f) (fun l => W k l * (f_dn f ip ic j * x ic l)))).
    - rewrite sumn_plus, sumn_scal_r, HU, sumn_swap by assumption.
      rewrite (sumn_ext (f_d f) _ (fun l => dl l j * W k l)).
      + rewrite sumn_dl by assumption. ring.
      + intros l Hl. rewrite sumn_scal, HL by assumption. unfold dl. rewrite (Nat.eqb_sym j l). ring.
    - intros ic Hic. rewrite Hu by assumption. rewrite Rmult_plus_distr_l. f_equal. rewrite <- sumn_scal. apply sumn_ext. intros; ring. }
  unfold viscous_flux. rewrite !sumn_zero; [ring| |].
  - intros j Hj. rewrite G by assumption. pose proof (HW j j Hj Hj). lra.
  - intros j Hj. rewrite !G by assumption. pose proof (HW i j Hi Hj) as E. rewrite E. ring.
Qed.

(* ================================================================ matrices *)
(** Newton consistency for systems touching the rows of the nearest node's components *)
Lemma row_newton2 N d (k : (nat -> R) -> esys -> esys) np (nn : nat -> nat) (A : nat -> nat -> nat -> R) (F : (nat -> R) -> nat -> nat -> R) :
  (forall q s, eff s (k q s) (fun i j => sumn np (fun ip => sumn d (fun c => dl i (nn ip*d+c) * A ip c j)))
                             (fun i => sumn np (fun ip => sumn d (fun c => - (dl i (nn ip*d+c) * F q ip c))))) ->
  (forall q e ip c, (ip < np)%nat -> (c < d)%nat -> F (fun a => q a + e a) ip c = F q ip c + sumn N (fun j => A ip c j * e j)) ->
  exact_newton N k.
Proof.
  intros H HF q e s i Hi.
  destruct (H (fun a => q a + e a) s) as [_ H1]. destruct (H q s) as [H2 H3]. rewrite H1, H3.
  rewrite (sumn_ext N (fun j => _ * e j) (fun j => sumn np (fun ip => sumn d (fun c => dl i (nn ip*d+c) * (A ip c j * e j))))).
  - rewrite (sumn_ext np (fun ip => sumn d (fun c => - (dl i (nn ip*d+c) * F (fun a => q a + e a) ip c)))
       (fun ip => sumn d (fun c => - (dl i (nn ip*d+c) * F q ip c)) - sumn N (fun j => sumn d (fun c => dl i (nn ip*d+c) * (A ip c j * e j))))).
    + rewrite sumn_minus. rewrite (sumn_swap np N). ring.
    + intros ip Hip. rewrite (sumn_swap N d), <- sumn_minus. apply sumn_ext. intros c Hc.
      rewrite HF by assumption. rewrite sumn_scal. ring.
  - intros j Hj. rewrite H2. replace (eL_ s i j + _ - eL_ s i j) with (sumn np (fun ip => sumn d (fun c => dl i (nn ip*d+c) * A ip c j))) by ring.
    rewrite <- sumn_scal_r. apply sumn_ext. intros ip _. rewrite <- sumn_scal_r. apply sumn_ext. intros; ring.
Qed.

Lemma flat_lt n d a i : (a < n)%nat -> (i < d)%nat -> (a*d+i < n*d)%nat.
Proof. intros. nia. Qed.
Lemma pick1 n d a i e : (a < n)%nat -> (i < d)%nat -> sumn (n*d) (fun j => dl j (a*d+i) * e j) = e (a*d+i)%nat.
Proof. intros. apply sumn_dl. apply flat_lt; assumption. Qed.
Lemma scol_stress f mu e ip l : (l < f_d f)%nat -> sumn (f_npe f*f_d f) (fun col => scol f mu ip l col * e col) = stress f mu e ip l.
Proof.
  intros Hl. unfold scol, stress.
  rewrite (sumn_ext (f_npe f*f_d f) _ (fun col => sumn (f_npe f) (fun ic => sumn (f_d f) (fun j =>
     dl col (ic*f_d f+l) * (- mu*f_dn f ip ic j*f_A f ip j * e col) + dl col (ic*f_d f+j) * (- mu*f_dn f ip ic l*f_A f ip j * e col))))).
  - rewrite sumn_swap. apply sumn_ext. intros ic Hic. rewrite sumn_swap. apply sumn_ext. intros j Hj.
    rewrite sumn_plus.
    rewrite (sumn_dl (f_npe f*f_d f) (ic*f_d f+l) (fun col => - mu*f_dn f ip ic j*f_A f ip j * e col)) by (apply flat_lt; assumption).
    rewrite (sumn_dl (f_npe f*f_d f) (ic*f_d f+j) (fun col => - mu*f_dn f ip ic l*f_A f ip j * e col)) by (apply flat_lt; assumption). reflexivity.
  - intros col _. rewrite <- sumn_scal_r. apply sumn_ext. intros ic _. rewrite <- sumn_scal_r. apply sumn_ext. intros; ring.
Qed.
Lemma stress_plus f mu u e ip l : stress f mu (fun a => u a + e a) ip l = stress f mu u ip l + stress f mu e ip l.
Proof. unfold stress. rewrite <- sumn_plus. apply sumn_ext. intros ic _. rewrite <- sumn_plus. apply sumn_ext. intros; ring. Qed.
Lemma pj_newton open f mu u e ip i : (i < f_d f)%nat ->
  sumn (f_d f) (fun l => pj open (f_n f ip) i l * stress f mu (fun a => u a + e a) ip l)
  = sumn (f_d f) (fun l => pj open (f_n f ip) i l * stress f mu u ip l)
    + sumn (f_npe f*f_d f) (fun col => sumn (f_d f) (fun l => pj open (f_n f ip) i l * scol f mu ip l col) * e col).
Proof.
  intros Hi. rewrite (sumn_ext (f_npe f*f_d f) _ (fun col => sumn (f_d f) (fun l => pj open (f_n f ip) i l * (scol f mu ip l col * e col))))
    by (intros; rewrite <- sumn_scal_r; apply sumn_ext; intros; ring).
  rewrite sumn_swap, <- sumn_plus. apply sumn_ext. intros l Hl. rewrite stress_plus, sumn_scal, scol_stress by assumption. ring.
Qed.
Lemma divterm_zero f mu u ip : divterm f mu 0 u ip = 0.
Proof. unfold divterm. apply sumn_zero. intros ic _. apply sumn_zero. intros; ring. Qed.
Lemma elem_u_plus f o w u e ip i : elem_u f o w (fun a => u a + e a) ip i
  = elem_u f o w u ip i + (ou_pec o ip*ou_alphaUpw o*e (f_nn f ip*f_d f+i)%nat
     + (ou_pec o ip*(1 - ou_alphaUpw o) + (1 - ou_pec o ip))*sumn (f_npf f) (fun ic => f_Na f ip ic * e (f_ord f ic*f_d f+i)%nat)).
Proof. unfold elem_u. cbv zeta. rewrite (at_face_adv_plus f (fun a => u (a*f_d f+i)%nat) (fun a => e (a*f_d f+i)%nat)).
  change (sumn (f_npf f) (fun ic => f_Na f ip ic * e (f_ord f ic*f_d f+i)%nat)) with (at_face_adv f (fun a => e (a*f_d f+i)%nat) ip). ring. Qed.
Lemma urow_pick f o e ip i : face_ok f -> (ip < f_ip f)%nat -> (i < f_d f)%nat ->
  sumn (f_npe f*f_d f) (fun col => elem_urow f o ip i col * e col)
  = ou_pec o ip*ou_alphaUpw o*e (f_nn f ip*f_d f+i)%nat
     + (ou_pec o ip*(1 - ou_alphaUpw o) + (1 - ou_pec o ip))*sumn (f_npf f) (fun ic => f_Na f ip ic * e (f_ord f ic*f_d f+i)%nat).
Proof.
  intros [Ho Hn] Hip Hi. destruct (Hn ip Hip) as [Hl E]. unfold elem_urow.
  rewrite (sumn_ext _ _ (fun j => dl j (f_nn f ip*f_d f+i) * (ou_pec o ip*ou_alphaUpw o*e j)
         + (ou_pec o ip*(1 - ou_alphaUpw o) + (1 - ou_pec o ip))*(sumn (f_npf f) (fun ic => dl j (f_ord f ic*f_d f+i) * f_Na f ip ic) * e j))) by (intros; ring).
  rewrite sumn_plus, sumn_scal. 
  rewrite (sumn_dl (f_npe f*f_d f) (f_nn f ip*f_d f+i) (fun j => ou_pec o ip*ou_alphaUpw o*e j)) by (apply flat_lt; [rewrite E; auto|assumption]).
  rewrite (pick_face (f_npe f*f_d f) (f_npf f) (fun ic => f_ord f ic*f_d f+i)%nat) by (intros; apply flat_lt; auto). reflexivity.
Qed.

(** C72 element scheme: the matrices of both kernels are the exact sensitivities (div(u) part off) *)
Theorem C72_elem_symmetry_matrix : forall f mu, exact_newton (f_npe f*f_d f) (fun u => momentum_sym_elem f mu 0 u).
Proof.
  intros f mu.
  apply (row_newton2 _ (f_d f) _ (f_ip f) (f_nn f) (fun ip i col => sumn (f_d f) (fun l => pj false (f_n f ip) i l * scol f (at_face f mu ip) ip l col))
    (fun u ip i => sumn (f_d f) (fun l => pj false (f_n f ip) i l * stress f (at_face f mu ip) u ip l)
        + divterm f (at_face f mu ip) 0 u ip * sumn (f_d f) (fun l => pjd false (f_n f ip) i l))).
  - intros. apply momentum_sym_elem_eff.
  - intros u e ip i Hip Hi. rewrite !divterm_zero, pj_newton by assumption. ring.
Qed.
Theorem C72_elem_open_matrix : forall f o w mdot, face_ok f -> vf_incl w = 0 ->
  exact_newton (f_npe f*f_d f) (fun u => momentum_open_elem f o w mdot u).
Proof.
  intros f o w mdot Hf H0.
  apply (row_newton2 _ (f_d f) _ (f_ip f) (f_nn f) (fun ip i col => upside (mdot ip) (elem_urow f o ip i col) 0 + sumn (f_d f) (fun l => pj true (f_n f ip) i l * scol f (at_face f (vf_mu w) ip) ip l col))
    (fun u ip i => elem_adv f o w u (mdot ip) ip i + (sumn (f_d f) (fun l => pj true (f_n f ip) i l * stress f (at_face f (vf_mu w) ip) u ip l)
        + divterm f (at_face f (vf_mu w) ip) (vf_incl w) u ip * sumn (f_d f) (fun l => pjd true (f_n f ip) i l)))).
  - intros. apply momentum_open_elem_eff.
  - intros u e ip i Hip Hi. rewrite H0, !divterm_zero, pj_newton by assumption.
    rewrite (sumn_ext (f_npe f*f_d f) (fun j => (_ + _) * e j) (fun col => upside (mdot ip) (elem_urow f o ip i col) 0 * e col + sumn (f_d f) (fun l => pj true (f_n f ip) i l * scol f (at_face f (vf_mu w) ip) ip l col) * e col)) by (intros; ring).
    rewrite sumn_plus. unfold elem_adv, upside. destruct (Rlt_dec 0 (mdot ip)).
    + rewrite elem_u_plus.
      rewrite (sumn_ext (f_npe f*f_d f) (fun j => mdot ip * _ * e j) (fun j => mdot ip * (elem_urow f o ip i j * e j))) by (intros; ring).
      rewrite sumn_scal, urow_pick by assumption. ring.
    + rewrite (sumn_zero _ (fun j => mdot ip * 0 * e j)) by (intros; ring). ring.
Qed.

(* edge scheme *)
Definition jump (f : fe) (e : nat -> R) (ip k : nat) : R := e (f_ord f ip*f_d f+k)%nat - e (f_op f ip*f_d f+k)%nat.
Lemma rl_pick f e ip J : (f_ord f ip < f_npe f)%nat -> (f_op f ip < f_npe f)%nat ->
  sumn (f_npe f*f_d f) (fun col => sumn (f_d f) (fun k => rl f ip col k * J k) * e col) = sumn (f_d f) (fun k => J k * jump f e ip k).
Proof.
  intros H1 H2.
  rewrite (sumn_ext (f_npe f*f_d f) _ (fun col => sumn (f_d f) (fun k => dl col (f_ord f ip*f_d f+k) * (J k * e col) + - (dl col (f_op f ip*f_d f+k) * (J k * e col))))).
  - rewrite sumn_swap. apply sumn_ext. intros k Hk. rewrite sumn_plus, sumn_opp.
    rewrite (sumn_dl (f_npe f*f_d f) (f_ord f ip*f_d f+k) (fun col => J k * e col)) by (apply flat_lt; assumption).
    rewrite (sumn_dl (f_npe f*f_d f) (f_op f ip*f_d f+k) (fun col => J k * e col)) by (apply flat_lt; assumption).
    unfold jump. ring.
  - intros col _. rewrite <- sumn_scal_r. apply sumn_ext. intros k _. unfold rl. ring.
Qed.
Lemma du_plus f w u e ip i j : v_duidxj f w (fun a => u a + e a) ip i j
  = v_duidxj f w u ip i j + jump f e ip i * f_A f ip j * (1/v_axdx f (vf_x w) ip).
Proof. unfold v_duidxj, jump. cbv zeta. ring. Qed.
Lemma vF_plus f w u e ip i : vf_incl w = 0 -> v_F f w (fun a => u a + e a) ip i
  = v_F f w u ip i - vf_mu w (f_ord f ip)*(1/v_axdx f (vf_x w) ip)*(f_asq f ip*jump f e ip i + f_A f ip i*dotp (f_d f) (f_A f ip) (jump f e ip)).
Proof.
  intros H0. rewrite !vF_flux. unfold viscous_flux. rewrite H0.
  replace (2/3*vf_mu w (f_ord f ip)*0) with 0 by ring. rewrite !Rmult_0_l, !Rplus_0_r.
  rewrite (sumn_ext (f_d f) (fun j => (v_duidxj f w (fun a => u a + e a) ip i j + _) * _)
    (fun j => (v_duidxj f w u ip i j + v_duidxj f w u ip j i)*f_A f ip j
       + (1/v_axdx f (vf_x w) ip)*(jump f e ip i * (f_A f ip j*f_A f ip j) + f_A f ip i*(f_A f ip j*jump f e ip j)))) by (intros; rewrite !du_plus; ring).
  rewrite sumn_plus, sumn_scal, sumn_plus, !sumn_scal. fold (f_asq f ip). unfold dotp. ring.
Qed.
(** exact sensitivity of the open (tangential) and symmetry (normal) tractions *)
Definition jopen_exact (f : fe) (w : vfields) (ip i k : nat) : R :=
  - vf_mu w (f_ord f ip)*(1/v_axdx f (vf_x w) ip)*f_asq f ip*(dl k i - f_n f ip i*f_n f ip k).
Definition jsym_exact (f : fe) (w : vfields) (ip i k : nat) : R :=
  - vf_mu w (f_ord f ip)*(1/v_axdx f (vf_x w) ip)*f_asq f ip*(2*f_n f ip i*f_n f ip k).
Lemma A_n f ip i : f_asq f ip <> 0 -> f_A f ip i = f_amag f ip * f_n f ip i.
Proof. intros H. destruct (amag_pos f ip H). unfold f_n. field. lra. Qed.
Lemma vFn_plus f w u e ip : vf_incl w = 0 -> f_asq f ip <> 0 -> v_Fn f w (fun a => u a + e a) ip
  = v_Fn f w u ip - 2*vf_mu w (f_ord f ip)*(1/v_axdx f (vf_x w) ip)*f_asq f ip*dotp (f_d f) (f_n f ip) (jump f e ip).
Proof.
  intros H0 Ha. destruct (amag_pos f ip Ha) as [P1 P2]. unfold v_Fn. set (K := vf_mu w (f_ord f ip)*(1/v_axdx f (vf_x w) ip)).
  rewrite (sumn_ext (f_d f) (fun i => f_n f ip i * v_F f w (fun a => u a + e a) ip i)
    (fun i => f_n f ip i * v_F f w u ip i + (- K*f_asq f ip)*(f_n f ip i*jump f e ip i)
       + (- K*dotp (f_d f) (f_A f ip) (jump f e ip))*(f_amag f ip*(f_n f ip i*f_n f ip i)))).
  - rewrite !sumn_plus, !sumn_scal. fold (dotp (f_d f) (f_n f ip) (jump f e ip)). fold (dotp (f_d f) (f_n f ip) (f_n f ip)).
    rewrite unit_normal by assumption.
    assert (E : dotp (f_d f) (f_A f ip) (jump f e ip) = f_amag f ip * dotp (f_d f) (f_n f ip) (jump f e ip)).
    { unfold dotp. rewrite <- sumn_scal. apply sumn_ext. intros. rewrite (A_n f ip) by assumption. ring. }
    rewrite E. unfold K. set (q := dotp (f_d f) (f_n f ip) (jump f e ip)). rewrite <- P2. ring.
  - intros i Hi. rewrite vF_plus by assumption. fold K. rewrite (A_n f ip i) by assumption. ring.
Qed.
Lemma open_exact_newton f w mdot : vf_incl w = 0 ->
  (forall ip, (ip < f_npf f)%nat -> f_asq f ip <> 0 /\ (f_ord f ip < f_npe f)%nat /\ (f_op f ip < f_npe f)%nat) ->
  (forall ip i k, (ip < f_npf f)%nat -> (i < f_d f)%nat -> (k < f_d f)%nat -> jopen f w ip i k = jopen_exact f w ip i k) ->
  exact_newton (f_npe f*f_d f) (fun u => momentum_open_edge f w mdot u).
Proof.
  intros H0 Hm HJ.
  apply (row_newton2 _ (f_d f) _ (f_npf f) (f_ord f) (fun ip i col => sumn (f_d f) (fun k => rl f ip col k * jopen f w ip i k) + dl col (f_ord f ip*f_d f+i) * upside (mdot ip) 1 0)
    (fun u ip i => v_F f w u ip i - f_n f ip i * v_Fn f w u ip + edge_adv f w u (mdot ip) ip i)).
  - intros. apply momentum_open_edge_eff.
  - intros u e ip i Hip Hi. destruct (Hm ip Hip) as (Ha & Hr & Hp). destruct (amag_pos f ip Ha) as [P1 P2].
    rewrite (sumn_ext (f_npe f*f_d f) _ (fun col => sumn (f_d f) (fun k => rl f ip col k * jopen f w ip i k) * e col + dl col (f_ord f ip*f_d f+i) * (upside (mdot ip) 1 0 * e col))) by (intros; ring).
    rewrite sumn_plus, rl_pick by assumption.
    rewrite (sumn_dl (f_npe f*f_d f) (f_ord f ip*f_d f+i) (fun col => upside (mdot ip) 1 0 * e col)) by (apply flat_lt; assumption).
    rewrite (sumn_ext (f_d f) _ (fun k => (- vf_mu w (f_ord f ip)*(1/v_axdx f (vf_x w) ip)*f_asq f ip)*(dl k i*jump f e ip k + (- f_n f ip i)*(f_n f ip k*jump f e ip k)))).
    + rewrite sumn_scal, sumn_plus, sumn_dl, sumn_scal by assumption. fold (dotp (f_d f) (f_n f ip) (jump f e ip)).
      rewrite vF_plus, vFn_plus by assumption.
      assert (E : dotp (f_d f) (f_A f ip) (jump f e ip) = f_amag f ip * dotp (f_d f) (f_n f ip) (jump f e ip)).
      { unfold dotp. rewrite <- sumn_scal. apply sumn_ext. intros. rewrite (A_n f ip) by assumption. ring. }
      rewrite E, (A_n f ip i) by assumption. rewrite <- P2.
      unfold edge_adv, upside. destruct (Rlt_dec 0 (mdot ip)); ring.
    + intros k Hk. rewrite HJ by assumption. unfold jopen_exact. ring.
Qed.
Lemma sym_exact_newton f w : vf_incl w = 0 ->
  (forall ip, (ip < f_npf f)%nat -> f_asq f ip <> 0 /\ (f_ord f ip < f_npe f)%nat /\ (f_op f ip < f_npe f)%nat) ->
  (forall ip i k, (ip < f_npf f)%nat -> (i < f_d f)%nat -> (k < f_d f)%nat -> jsym f w ip i k = jsym_exact f w ip i k) ->
  exact_newton (f_npe f*f_d f) (fun u => momentum_sym_edge f w u).
Proof.
  intros H0 Hm HJ.
  apply (row_newton2 _ (f_d f) _ (f_npf f) (f_ord f) (fun ip i col => sumn (f_d f) (fun k => rl f ip col k * jsym f w ip i k))
    (fun u ip i => f_n f ip i * v_Fn f w u ip)).
  - intros. apply mom_sym_edge_eff.
  - intros u e ip i Hip Hi. destruct (Hm ip Hip) as (Ha & Hr & Hp).
    rewrite rl_pick by assumption.
    rewrite (sumn_ext (f_d f) _ (fun k => (- 2*vf_mu w (f_ord f ip)*(1/v_axdx f (vf_x w) ip)*f_asq f ip*f_n f ip i)*(f_n f ip k*jump f e ip k))).
    + rewrite sumn_scal. fold (dotp (f_d f) (f_n f ip) (jump f e ip)). rewrite vFn_plus by assumption. ring.
    + intros k Hk. rewrite HJ by assumption. unfold jsym_exact. ring.
Qed.
