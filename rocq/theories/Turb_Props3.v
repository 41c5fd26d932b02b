(** * C66 (continued): omega, linearisations, DES length scale, element kernels, clipping *)
From Coq Require Import Reals List Bool Arith Lia Lra Psatz.
From Coquelicot Require Import Coquelicot.
From Verif Require Import Edge_Model Edge_Proofs Elem_Model Elem_Spec Elem_Proofs Elem_Proofs2 Elem_Props Elem_Props3 Tensor_Props Turb_Model Turb_Props Turb_Props2.
Import ListNotations.
Local Open Scope R_scope.

Definition cross n (dk dw : vec) := sumn n (fun i => dk i * dw i).
(** constants in their admissible range *)
Definition sc_ok (c : sst_c) : Prop := 0 <= c_ratio c /\ 0 <= c_bs c /\ 0 <= c_b1 c /\ 0 <= c_b2 c /\ 0 <= c_g1 c /\ 0 <= c_g2 c /\ 0 <= c_sw2 c.
Lemma blend_nonneg f a b : 0 <= f <= 1 -> 0 <= a -> 0 <= b -> 0 <= f * a + (1 - f) * b.
Proof. intros. nra. Qed.
(** omega stays non-negative at every node whose cross-diffusion is non-negative (both SST and DES forms: any Dk) *)
Lemma sdr_source_sign c n f rho sdr mut vol Dk g dk dw : sc_ok c -> 0 <= f <= 1 -> 0 <= rho -> 0 < sdr -> 0 <= mut -> 0 <= vol -> 0 <= Dk ->
  0 <= cross n dk dw ->
  0 <= fst (src_sdr c n f rho sdr mut vol Dk g dk dw) /\
  0 <= fst (src_sdr c n f rho sdr mut vol Dk g dk dw) * sdr + snd (src_sdr c n f rho sdr mut vol Dk g dk dw).
Proof.
  intros (h1 & h2 & h3 & h4 & h5 & h6 & h7) Hf Hr Hw Hm Hv HD Hc. unfold src_sdr. cbv zeta. cbn [fst snd]. change (sumn n (fun i => dk i * dw i)) with (cross n dk dw).
  set (beta := f * c_b1 c + (1 - f) * c_b2 c). assert (Hb : 0 <= beta) by (apply blend_nonneg; assumption).
  set (gamma := f * c_g1 c + (1 - f) * c_g2 c). assert (Hg : 0 <= gamma) by (apply blend_nonneg; assumption).
  set (P := limited _ _ _). assert (HP : 0 <= P) by (apply limited_nonneg; [assumption|apply Rmult_le_pos; [apply prod2_nonneg|assumption]|assumption]).
  set (M := Rmax mut (1 / 10 ^ 16)). assert (HM : 0 < M) by (eapply Rlt_le_trans; [|apply Rmax_r]; lra).
  set (Sw := 2 * (1 - f) * c_sw2 c * rho * cross n dk dw / sdr).
  assert (HS : 0 <= Sw) by (apply div_nonneg; [|assumption]; repeat (apply Rmult_le_pos; [|lra]); lra).
  assert (HS2 : 0 <= Sw / sdr) by (apply div_nonneg; assumption). rewrite (Rmax_left (Sw / sdr) 0) by exact HS2.
  set (Pw := gamma * rho * P / M). assert (HPw : 0 <= Pw) by (apply div_nonneg; [|assumption]; repeat apply Rmult_le_pos; assumption).
  split.
  - apply Rmult_le_pos; [|assumption]. assert (0 <= beta * rho * sdr) by (repeat apply Rmult_le_pos; lra). lra.
  - replace ((2 * beta * rho * sdr + Sw / sdr) * vol * sdr + (Pw - beta * rho * sdr * sdr + Sw) * vol) with ((beta * rho * (sdr * sdr) + Pw + 2 * Sw) * vol) by (field; lra).
    apply Rmult_le_pos; [|assumption]. assert (0 <= beta * rho * (sdr * sdr)) by (repeat apply Rmult_le_pos; lra). lra.
Qed.
Theorem C66_omega_stays_nonnegative N A c n (f rho tke sdr mut vol : nat -> R) (G : nat -> mat) (dk dw : nat -> vec) b q' :
  mmatrix N A -> (forall i, (i < N)%nat -> 0 <= b i) -> sc_ok c ->
  (forall i, (i < N)%nat -> 0 <= f i <= 1 /\ 0 <= rho i /\ 0 <= tke i /\ 0 < sdr i /\ 0 <= mut i /\ 0 <= vol i) ->
  (forall i, (i < N)%nat -> 0 <= cross n (dk i) (dw i)) ->
  let src i := src_sdr_sst c n (f i) (rho i) (tke i) (sdr i) (mut i) (vol i) (G i) (dk i) (dw i) in
  updated N A (fun i => fst (src i)) b (fun i => snd (src i)) sdr q' -> forall i, (i < N)%nat -> 0 <= q' i.
Proof.
  intros HA Hb Hc H HX src U.
  assert (D : forall i, (i < N)%nat -> 0 <= fst (src i) /\ 0 <= fst (src i) * sdr i + snd (src i)).
  { intros i Hi. destruct (H i Hi) as (h0 & h1 & h2 & h3 & h4 & h5). destruct Hc as (c1 & c2 & cr). unfold src, src_sdr_sst.
    apply sdr_source_sign; try assumption; [unfold sc_ok; tauto| |apply HX; exact Hi]. repeat apply Rmult_le_pos; lra. }
  eapply (update_nonneg N A _ b _ sdr q' HA); [| exact Hb| |exact U]; intros i Hi; apply D; exact Hi.
Qed.
Theorem C66_des_omega_stays_nonnegative N A c n ckw cke (f rho tke sdr mut lmax vol : nat -> R) (G : nat -> mat) (dk dw : nat -> vec) b q' :
  mmatrix N A -> (forall i, (i < N)%nat -> 0 <= b i) -> sc_ok c ->
  (forall i, (i < N)%nat -> 0 <= f i <= 1 /\ 0 <= rho i /\ 0 <= tke i /\ 0 < sdr i /\ 0 <= mut i /\ 0 <= vol i) ->
  (forall i, (i < N)%nat -> 0 <= cross n (dk i) (dw i)) ->
  let src i := src_sdr_des c n ckw cke (f i) (rho i) (tke i) (sdr i) (mut i) (lmax i) (vol i) (G i) (dk i) (dw i) in
  updated N A (fun i => fst (src i)) b (fun i => snd (src i)) sdr q' -> forall i, (i < N)%nat -> 0 <= q' i.
Proof.
  intros HA Hb Hc H HX src U.
  assert (D : forall i, (i < N)%nat -> 0 <= fst (src i) /\ 0 <= fst (src i) * sdr i + snd (src i)).
  { intros i Hi. destruct (H i Hi) as (h0 & h1 & h2 & h3 & h4 & h5). unfold src, src_sdr_des.
    apply sdr_source_sign; try assumption; [|apply HX; exact Hi].
    apply div_nonneg; [|apply l_des_pos]. apply Rmult_le_pos; [apply Rmult_le_pos; assumption|apply sqrt_pos]. }
  eapply (update_nonneg N A _ b _ sdr q' HA); [| exact Hb| |exact U]; intros i Hi; apply D; exact Hi.
Qed.
(** with opposed gradients of k and omega the explicit cross-diffusion sink drives omega negative *)
Theorem C66_omega_stays_nonnegative_any_cross_diffusion_refuted :
  exists c rho tke sdr vol dk dw, sc_ok c /\ 0 < rho /\ 0 < tke /\ 0 < sdr /\ 0 < vol /\
    let src := src_sdr_sst c 3 0 rho tke sdr 0 vol (fun _ _ => 0) dk dw in
    exists q', updated 1 (fun _ _ => 1) (fun _ => fst src) (fun _ => sdr) (fun _ => snd src) (fun _ => sdr) q' /\ q' 0%nat < 0.
Proof.
  exists (mkSC 10 (9/100) (75/1000) (828/10000) (5/9) (44/100) (856/1000)), 1, 1, 1, 1, (fun _ => 1), (fun _ => -100).
  split; [unfold sc_ok; cbn; lra|]. repeat (split; [lra|]). cbv zeta.
  set (src := src_sdr_sst _ _ _ _ _ _ _ _ _ _ _).
  assert (E : fst src = 2 * (828/10000) /\ snd src = - (828/10000) - 2 * (856/1000) * 300).
  { unfold src, src_sdr_sst, src_sdr. cbv zeta. cbn [fst snd c_ratio c_bs c_b1 c_b2 c_g1 c_g2 c_sw2].
    rewrite !sumn_S, !sumn_0. assert (Z : prod2 3 (fun _ _ => 0) = 0) by (unfold prod2; apply sumn_zero; intros; apply sumn_zero; intros; ring).
    rewrite Z, C66_production_limited, Rmin_left by lra. rewrite Rmult_0_l.
    rewrite (Rmax_right 0 (1/10^16)) by lra. rewrite Rmax_right by lra. split; field. }
  destruct E as [E1 E2]. exists (fun _ => (1 + fst src + snd src) / (1 + fst src)). split.
  - intros i Hi. rewrite !sumn_S, !sumn_0. rewrite E1, E2. field.
  - rewrite E1, E2. lra.
Qed.

(* ------------------------------------------------------------ linearisations *)
(** the matrix entry per unit volume is the derivative of the dissipation with respect to the unknown *)
Theorem C66_dissipation_linearised :
  (forall n ratio bs rho sdr mut vol g k,
     is_derive (fun k => bs * rho * sdr * k) k (fst (src_tke_sst n ratio bs rho k sdr mut 1 g)) /\
     fst (src_tke_sst n ratio bs rho k sdr mut vol g) = fst (src_tke_sst n ratio bs rho k sdr mut 1 g) * vol) /\
  (forall n ratio bs ckw cke f rho sdr mut lmax vol g k, 0 < k ->
     let l := l_des bs ckw cke f k sdr lmax in
     is_derive (fun k => rho * k * sqrt k / l) k (fst (src_tke_des n ratio bs ckw cke f rho k sdr mut lmax 1 g)) /\
     fst (src_tke_des n ratio bs ckw cke f rho k sdr mut lmax vol g) = fst (src_tke_des n ratio bs ckw cke f rho k sdr mut lmax 1 g) * vol) /\
  (forall n ratio lr cEps rho mu mut dsq vol g k, 0 < k -> 0 < vol ->
     is_derive (fun k => cEps * rho * (k * sqrt k) / filter_of n vol) k (fst (src_ksgs n ratio lr cEps rho k mu mut dsq vol g) / vol)) /\
  (forall c n f rho mut vol Dk g dk dw w, 0 < w ->
     let C := 2 * (1 - f) * c_sw2 c * rho * cross n dk dw in
     fst (src_sdr c n f rho w mut vol Dk g dk dw) =
       (Derive (fun w => (f * c_b1 c + (1 - f) * c_b2 c) * rho * w * w) w + Rmax (- Derive (fun w => C / w) w) 0) * vol).
Proof.
  split; [|split; [|split]].
  - intros n ratio bs rho sdr mut vol g k. split.
    + unfold src_tke_sst. cbv zeta. cbn [fst]. auto_derive; [trivial|ring].
    + unfold src_tke_sst. cbv zeta. cbn [fst]. ring.
  - intros n ratio bs ckw cke f rho sdr mut lmax vol g k H l. split.
    + unfold src_tke_des. cbv zeta. cbn [fst]. fold l. pose proof (l_des_pos bs ckw cke f k sdr lmax) as Pl. fold l in Pl. clearbody l.
      replace (1.5 * rho / l * sqrt k * 1) with (rho * (3/2 * sqrt k) / l) by (replace 1.5 with (3/2) by lra; field; lra).
      auto_derive; [lra|]. pose proof (sqrt_lt_R0 k H). assert (E : sqrt k * sqrt k = k) by (apply sqrt_sqrt; lra).
      replace (rho * k * (1 * / (2 * sqrt k))) with (rho * (sqrt k / 2)) by (rewrite <- E at 2; field; lra). field. lra.
    + unfold src_tke_des. cbv zeta. cbn [fst]. ring.
  - intros n ratio lr cEps rho mu mut dsq vol g k Hk Hv. unfold src_ksgs. cbv zeta. cbn [fst].
    pose proof (filter_pos n vol Hv) as Pl. set (l := filter_of n vol) in *. clearbody l.
    replace (1.5 * cEps * rho * sqrt k / l * vol / vol) with (cEps * rho * (3/2 * sqrt k) / l) by (replace 1.5 with (3/2) by lra; field; lra).
    auto_derive; [lra|]. pose proof (sqrt_lt_R0 k Hk). assert (E : sqrt k * sqrt k = k) by (apply sqrt_sqrt; lra).
    replace (k * (1 * / (2 * sqrt k))) with (sqrt k / 2) by (rewrite <- E at 2; field; lra). field. lra.
  - intros c n f rho mut vol Dk g dk dw w Hw C. unfold src_sdr. cbv zeta. cbn [fst].
    replace (Derive (fun w => (f * c_b1 c + (1 - f) * c_b2 c) * rho * w * w) w) with (2 * (f * c_b1 c + (1 - f) * c_b2 c) * rho * w)
      by (symmetry; apply is_derive_unique; auto_derive; [trivial|ring]).
    replace (Derive (fun w => C / w) w) with (- (C / (w * w))) by (symmetry; apply is_derive_unique; auto_derive; [lra|field; lra]).
    do 2 f_equal. f_equal. unfold C, cross. field. lra.
Qed.

(* ------------------------------------------------------------ DES length scale *)
(** The DES dissipation is the RANS one when the grid length is larger, and never smaller than it. *)
Theorem C66_des_dissipation_at_least_rans n ratio bs ckw cke f rho tke sdr mut lmax g :
  0 < bs -> 0 < sdr -> 0 <= rho -> 0 < tke -> 1/10^16 <= sqrt tke / bs / sdr ->
  let l := l_des bs ckw cke f tke sdr lmax in
  bs * rho * sdr * tke <= rho * tke * sqrt tke / l /\
  (sqrt tke / bs / sdr <= (f * ckw + (1 - f) * cke) * lmax ->
     rho * tke * sqrt tke / l = bs * rho * sdr * tke /\ snd (src_tke_des n ratio bs ckw cke f rho tke sdr mut lmax 1 g) = snd (src_tke_sst n ratio bs rho tke sdr mut 1 g)).
Proof.
  intros Hb Hw Hr Hk Hm l. pose proof (sqrt_lt_R0 tke Hk) as Hs.
  assert (E : rho * tke * sqrt tke / (sqrt tke / bs / sdr) = bs * rho * sdr * tke) by (field; lra).
  split.
  - rewrite <- E. apply Rmult_le_compat_l; [repeat apply Rmult_le_pos; lra|].
    apply Rinv_le_contravar; [apply l_des_pos|]. unfold l, l_des. apply Rmax_lub; [exact Hm|apply Rmin_l].
  - intros Hg. assert (El : l = sqrt tke / bs / sdr) by (unfold l, l_des; rewrite Rmin_left by exact Hg; apply Rmax_right; exact Hm).
    split; [rewrite El; exact E|]. unfold src_tke_des, src_tke_sst. cbv zeta. cbn [snd]. fold l. rewrite El, E. reflexivity.
Qed.

(* ------------------------------------------------------------ element kernels *)
Lemma consistent_eff m src s : eff s (consistent m src s)
   (fun i j => sumn (nscv m) (fun ip => dl i (nearest m ip) * sumn (npe m) (fun ic => dl j ic * (Nv m ip ic * fst (src ip)))))
   (fun i => sumn (nscv m) (fun ip => dl i (nearest m ip) * snd (src ip))).
Proof.
  unfold consistent.
  apply (eff_loop (nscv m) _ (fun ip i j => dl i (nearest m ip) * sumn (npe m) (fun ic => dl j ic * (Nv m ip ic * fst (src ip))))
     (fun ip i => dl i (nearest m ip) * snd (src ip))).
  clear s. intros ip s Hip. cbv zeta beta. eapply eff_ext.
  - eapply eff_trans; [|apply (eff_loop (npe m) _ (fun ic i j => dl i (nearest m ip) * (dl j ic * (Nv m ip ic * fst (src ip)))) (fun _ _ => 0))].
    + eff1.
    + intros ic s1 Hic. eapply eff_ext; [eff1| |]; intros; cbv beta; ring.
  - intros i j; cbv beta. rewrite sumn_scal. ring.
  - intros i; cbv beta. rewrite (sumn_zero (npe m)) by reflexivity. ring.
Qed.
(** sum over the element of what the kernel adds to the right-hand side is the volume integral of the source, and the
    matrix rows applied to a nodal field give the linear coefficient times the interpolated field *)
Theorem C66_element_source_integrates m src s : maps_ok m ->
  sumn (npe m) (fun i => eB (consistent m src s) i - eB s i) = sumn (nscv m) (fun ip => snd (src ip)) /\
  (forall q, sumn (npe m) (fun i => sumn (npe m) (fun j => (eL_ (consistent m src s) i j - eL_ s i j) * q j))
     = sumn (nscv m) (fun ip => fst (src ip) * at_scv m q ip)).
Proof.
  intros [_ Hn]. destruct (consistent_eff m src s) as [HL HB]. split.
  - rewrite (sumn_ext (npe m) _ (fun i => sumn (nscv m) (fun ip => dl i (nearest m ip) * snd (src ip)))) by (intros; rewrite HB; ring).
    rewrite sumn_swap. apply sumn_ext. intros ip Hip. apply (sumn_dl (npe m) (nearest m ip) (fun _ => snd (src ip))). apply Hn. exact Hip.
  - intros q.
    rewrite (sumn_ext (npe m) _ (fun i => sumn (nscv m) (fun ip => dl i (nearest m ip) * (fst (src ip) * at_scv m q ip)))).
    + rewrite sumn_swap. apply sumn_ext. intros ip Hip. apply (sumn_dl (npe m) (nearest m ip) (fun _ => fst (src ip) * at_scv m q ip)). apply Hn. exact Hip.
    + intros i Hi.
      rewrite (sumn_ext (npe m) _ (fun j => sumn (nscv m) (fun ip => dl i (nearest m ip) * (sumn (npe m) (fun ic => dl j ic * (Nv m ip ic * fst (src ip))) * q j)))).
      2:{ intros j _. rewrite HL. rewrite (Rplus_comm (eL_ s i j)). unfold Rminus at 1. rewrite Rplus_assoc, Rplus_opp_r, Rplus_0_r.
          rewrite <- sumn_scal_r. apply sumn_ext. intros; ring. }
      rewrite sumn_swap. apply sumn_ext. intros ip _. rewrite sumn_scal, sum_col. f_equal. unfold at_scv. rewrite <- sumn_scal. apply sumn_ext. intros; ring.
Qed.
Lemma consistent_row m src s q i : 
  sumn (npe m) (fun j => (eL_ (consistent m src s) i j - eL_ s i j) * q j) + (eB (consistent m src s) i - eB s i)
    = sumn (nscv m) (fun ip => dl i (nearest m ip) * (fst (src ip) * at_scv m q ip + snd (src ip))).
Proof.
  destruct (consistent_eff m src s) as [HL HB]. rewrite HB.
  rewrite (sumn_ext (npe m) _ (fun j => sumn (nscv m) (fun ip => dl i (nearest m ip) * (sumn (npe m) (fun ic => dl j ic * (Nv m ip ic * fst (src ip))) * q j)))).
  2:{ intros j _. rewrite HL. rewrite (Rplus_comm (eL_ s i j)). unfold Rminus at 1. rewrite Rplus_assoc, Rplus_opp_r, Rplus_0_r.
      rewrite <- sumn_scal_r. apply sumn_ext. intros; ring. }
  rewrite sumn_swap. unfold Rminus at 1. rewrite (Rplus_comm (eB s i)), Rplus_assoc, Rplus_opp_r, Rplus_0_r, <- sumn_plus. apply sumn_ext. intros ip _.
  rewrite sumn_scal, sum_col. replace (at_scv m q ip) with (sumn (npe m) (fun ic => Nv m ip ic * q ic)) by reflexivity.
  rewrite Rmult_plus_distr_l. f_equal. f_equal. rewrite <- sumn_scal. apply sumn_ext. intros; ring.
Qed.
Definition nodal_nonneg m (q : nat -> R) : Prop := forall a, (a < npe m)%nat -> 0 <= q a.
Definition scv_ok (m : me) : Prop := (forall ip ic, (ip < nscv m)%nat -> (ic < npe m)%nat -> 0 <= Nv m ip ic) /\ (forall ip, (ip < nscv m)%nat -> 0 <= Elem_Model.vol m ip).
Lemma at_scv_nonneg m q ip : scv_ok m -> nodal_nonneg m q -> (ip < nscv m)%nat -> 0 <= at_scv m q ip.
Proof. intros [H _] Hq Hip. unfold at_scv. apply Edge_Proofs.sumn_nonneg. intros. apply Rmult_le_pos; auto. Qed.
Lemma dl_nonneg i j : 0 <= dl i j. Proof. unfold dl. destruct Nat.eqb; lra. Qed.
(** The element k source leaves, in every row, matrix times current k plus right-hand side equal to the (non-negative)
    limited production: the dissipation is entirely implicit. *)
Theorem C66_element_k_dissipation_implicit m dv ratio bs rho tke sdr mut u s i : scv_ok m -> 0 <= ratio -> 0 <= bs ->
  nodal_nonneg m rho -> nodal_nonneg m tke -> nodal_nonneg m sdr -> nodal_nonneg m mut ->
  let k := k_tke_sst m dv ratio bs rho tke sdr mut u s in
  let P ip := Rmin (2 * at_scv m mut ip * frob2 (ndim m) (sij (gradv m dv u ip))) (ratio * (bs * at_scv m rho ip * at_scv m sdr ip * at_scv m tke ip)) in
  sumn (npe m) (fun j => (eL_ k i j - eL_ s i j) * tke j) + (eB k i - eB s i) = sumn (nscv m) (fun ip => dl i (nearest m ip) * (P ip * Elem_Model.vol m ip)) /\
  0 <= sumn (npe m) (fun j => (eL_ k i j - eL_ s i j) * tke j) + (eB k i - eB s i).
Proof.
  intros Hm Hr Hb Hrho Hk Hw Hmu k P.
  assert (E : sumn (npe m) (fun j => (eL_ k i j - eL_ s i j) * tke j) + (eB k i - eB s i) = sumn (nscv m) (fun ip => dl i (nearest m ip) * (P ip * Elem_Model.vol m ip))).
  { unfold k, k_tke_sst. rewrite consistent_row. apply sumn_ext. intros ip _. f_equal. unfold src_tke_sst. cbv zeta. cbn [fst snd].
    rewrite C66_production_limited. replace (prod2 (ndim m) (gradv m dv u ip) * at_scv m mut ip) with (2 * at_scv m mut ip * frob2 (ndim m) (sij (gradv m dv u ip))) by (rewrite prod2_strain; ring).
    unfold P. ring. }
  split; [exact E|]. rewrite E. apply Edge_Proofs.sumn_nonneg. intros ip Hip. apply Rmult_le_pos; [apply dl_nonneg|]. apply Rmult_le_pos; [|apply Hm; exact Hip].
  unfold P. apply Rmin_glb.
  - pose proof (frob2_nonneg (ndim m) (sij (gradv m dv u ip))). pose proof (at_scv_nonneg m mut ip Hm Hmu Hip). repeat apply Rmult_le_pos; lra.
  - repeat apply Rmult_le_pos; try assumption; apply at_scv_nonneg; assumption.
Qed.
Theorem C66_element_keps_dissipation_implicit m dv ratio inc ce1 ce2 rho tke eps mut u s i :
  (forall ip, (ip < nscv m)%nat -> tiny <= at_scv m tke ip) ->
  let k := k_tke_keps m dv ratio inc rho tke eps mut u s in
  let e := k_eps_keps m dv ratio inc ce1 ce2 rho tke eps mut u s in
  let P ip := Rmin (prod_keps (ndim m) inc (at_scv m rho ip) (at_scv m tke ip) (at_scv m mut ip) (gradv m dv u ip)) (ratio * (at_scv m rho ip * at_scv m eps ip)) in
  sumn (npe m) (fun j => (eL_ k i j - eL_ s i j) * tke j) + (eB k i - eB s i) = sumn (nscv m) (fun ip => dl i (nearest m ip) * (P ip * Elem_Model.vol m ip)) /\
  sumn (npe m) (fun j => (eL_ e i j - eL_ s i j) * eps j) + (eB e i - eB s i) =
    sumn (nscv m) (fun ip => dl i (nearest m ip) * (ce1 * P ip * at_scv m eps ip / at_scv m tke ip * Elem_Model.vol m ip)).
Proof.
  intros Ht k e P. pose proof tiny_pos as T. split.
  - unfold k, k_tke_keps. rewrite consistent_row. apply sumn_ext. intros ip Hip. specialize (Ht ip Hip). f_equal. unfold src_tke_keps. cbv zeta. cbn [fst snd].
    rewrite C66_production_limited, (Rmax_right tiny) by exact Ht. fold (P ip). field. lra.
  - unfold e, k_eps_keps. rewrite consistent_row. apply sumn_ext. intros ip Hip. specialize (Ht ip Hip). f_equal. unfold src_eps_keps. cbv zeta. cbn [fst snd].
    rewrite C66_production_limited, (Rmax_right tiny) by exact Ht. fold (P ip). field. lra.
Qed.
(** the omega element kernel evaluates the same nodal formula at each sub-control-volume point *)
Theorem C66_element_omega_source m dv c f rho tke sdr mut u s : maps_ok m ->
  sumn (npe m) (fun i => eB (k_sdr_sst m dv c f rho tke sdr mut u s) i - eB s i) =
  sumn (nscv m) (fun ip => snd (src_sdr_sst c (ndim m) (at_scv m f ip) (at_scv m rho ip) (at_scv m tke ip) (at_scv m sdr ip) (at_scv m mut ip)
                            (Elem_Model.vol m ip) (gradv m dv u ip) (gradsc m dv tke ip) (gradsc m dv sdr ip))).
Proof. intros H. unfold k_sdr_sst. apply (C66_element_source_integrates m _ s H). Qed.

(* one-equation model: the element kernel adds to node a its share of the nodal source *)
Lemma lumped_eff m src s : eff s (lumpedk m src s)
   (fun i j => sumn (nscv m) (fun ip => dl i (nearest m ip) * dl j (nearest m ip) * fst (src ip)))
   (fun i => sumn (nscv m) (fun ip => dl i (nearest m ip) * snd (src ip))).
Proof.
  unfold lumpedk. apply (eff_loop (nscv m) _ (fun ip i j => dl i (nearest m ip) * dl j (nearest m ip) * fst (src ip)) (fun ip i => dl i (nearest m ip) * snd (src ip))).
  clear s. intros ip s _. cbv zeta. eapply eff_ext; [effs| |]; intros; cbv beta; ring.
Qed.
Lemma ksgs_fac_filter n cEps rho tke V : (n = 2 \/ n = 3)%nat -> 0 <= tke -> 0 < V -> ksgs_fac n cEps rho tke V = cEps * rho * sqrt tke / filter_of n V.
Proof.
  intros [-> | ->] Hk HV; unfold ksgs_fac, filter_of; cbn [Nat.eqb].
  - rewrite sqrt_div by lra. unfold cpow. destruct Req_EM_T; [lra|]. replace (1 / INR 2) with (/ 2) by (cbn; field). rewrite Rpower_sqrt by assumption. unfold Rdiv. ring.
  - do 2 f_equal. cbn. f_equal. field.
Qed.
Lemma pm (x y : R) : x + y - x = y. Proof. ring. Qed.
Lemma dl_pick m a (F : nat -> R -> R) n :
  sumn n (fun ip => dl a (nearest m ip) * F (nearest m ip) (Elem_Model.vol m ip)) = sumn n (fun ip => dl a (nearest m ip) * F a (Elem_Model.vol m ip)).
Proof.
  apply sumn_ext. intros ip _. unfold dl. destruct (Nat.eqb_spec a (nearest m ip)) as [->|]; ring.
Qed.
Theorem C66_ksgs_element_share_of_nodal m ratio lr cEps rho tke mu mut dsq dualVol G s a : (ndim m = 2 \/ ndim m = 3)%nat ->
  0 <= tke a -> 0 < dualVol a ->
  let k := k_ksgs m ratio lr cEps rho tke mu mut dsq dualVol G s in
  let nodal := src_ksgs (ndim m) ratio lr (cEps a) (rho a) (tke a) (mu a) (mut a) (dsq a) (dualVol a) (G a) in
  let share := sumn (nscv m) (fun ip => dl a (nearest m ip) * Elem_Model.vol m ip) / dualVol a in
  eB k a - eB s a = share * snd nodal /\ eL_ k a a - eL_ s a a = share * fst nodal.
Proof.
  intros Hn Hk HV k nodal share. unfold k, k_ksgs.
  match goal with |- context [lumpedk m ?f s] => destruct (lumped_eff m f s) as [HL HB] end.
  rewrite HL, HB, !pm.
  pose proof (filter_pos (ndim m) (dualVol a) HV) as PF.
  unfold nodal, src_ksgs, share. cbv zeta. cbn [fst snd]. rewrite cpow_32 by assumption. split.
  - rewrite (dl_pick m a (fun b v => (limited ratio (prod2 (ndim m) (G b) * mut b)
        (ksgs_fac (ndim m) (cEps b) (rho b) (tke b) (dualVol b) * tke b + lr * 2 * mu b * dsq b)
        - (ksgs_fac (ndim m) (cEps b) (rho b) (tke b) (dualVol b) * tke b + lr * 2 * mu b * dsq b)) * v)).
    rewrite ksgs_fac_filter by assumption.
    replace (cEps a * rho a * sqrt (tke a) / filter_of (ndim m) (dualVol a) * tke a) with (cEps a * rho a * (tke a * sqrt (tke a)) / filter_of (ndim m) (dualVol a)) by (field; lra).
    set (D := cEps a * rho a * (tke a * sqrt (tke a)) / filter_of (ndim m) (dualVol a) + lr * 2 * mu a * dsq a).
    set (P := limited _ _ _). replace (sumn (nscv m) (fun ip => dl a (nearest m ip) * Elem_Model.vol m ip) / dualVol a * ((P - D) * dualVol a))
      with ((P - D) * sumn (nscv m) (fun ip => dl a (nearest m ip) * Elem_Model.vol m ip)) by (field; lra).
    rewrite <- sumn_scal. apply sumn_ext. intros; ring.
  - rewrite (sumn_ext (nscv m) _ (fun ip => dl a (nearest m ip) * (1.5 * ksgs_fac (ndim m) (cEps (nearest m ip)) (rho (nearest m ip)) (tke (nearest m ip)) (dualVol (nearest m ip)) * Elem_Model.vol m ip))).
    2:{ intros ip _. unfold dl. destruct (Nat.eqb a (nearest m ip)); ring. }
    rewrite (dl_pick m a (fun b v => 1.5 * ksgs_fac (ndim m) (cEps b) (rho b) (tke b) (dualVol b) * v)).
    rewrite ksgs_fac_filter by assumption. set (c := 1.5). clearbody c.
    replace (sumn (nscv m) (fun ip => dl a (nearest m ip) * Elem_Model.vol m ip) / dualVol a * (c * cEps a * rho a * sqrt (tke a) / filter_of (ndim m) (dualVol a) * dualVol a))
      with ((c * (cEps a * rho a * sqrt (tke a) / filter_of (ndim m) (dualVol a))) * sumn (nscv m) (fun ip => dl a (nearest m ip) * Elem_Model.vol m ip)) by (field; lra).
    rewrite <- sumn_scal. apply sumn_ext. intros; ring.
Qed.

(* ------------------------------------------------------------ clipping *)
(** After the SST update the stored k and omega are non-negative; a realisable update is stored unchanged; otherwise the
    pair is reset to the ratio mu/rho (eddy viscosity equal to molecular). *)
Theorem C66_sst_clip rho mu tke sdr dk dw mut : 0 < rho -> 0 < mu ->
  let '(k, w, v) := sst_update rho mu tke sdr dk dw mut in
  0 <= k /\ 0 <= w /\
  (0 <= tke + dk -> 0 < sdr + dw -> k = tke + dk /\ w = sdr + dw /\ v = mut) /\
  (tke + dk < 0 \/ sdr + dw <= 0 -> rho * k = mu * w /\ v = mu).
Proof.
  intros Hr Hm. unfold sst_update. cbv zeta.
  destruct (Rle_dec 0 (tke + dk)) as [A|A]; [destruct (Rlt_dec 0 (sdr + dw)) as [B|B]|destruct (Rlt_dec (sdr + dw) 0) as [B|B]].
  - repeat split; try lra.
  - split; [lra|]. split; [apply div_nonneg; [apply Rmult_le_pos; lra|lra]|]. split; [lra|]. intros _. split; [field; lra|reflexivity].
  - split; [lra|]. split; [apply div_nonneg; [apply Rmult_le_pos; lra|lra]|]. split; [lra|]. intros _. split; [field; lra|reflexivity].
  - split; [apply div_nonneg; [apply Rmult_le_pos; lra|lra]|]. split; [lra|]. split; [lra|]. intros _. split; [field; lra|reflexivity].
Qed.
(** omega is strictly positive after the update except in two corner cases, in which it is exactly zero (and every later
    division by omega is a division by zero) *)
Theorem C66_sst_clip_omega_positive rho mu tke sdr dk dw mut : 0 < rho -> 0 < mu ->
  let '(k, w, v) := sst_update rho mu tke sdr dk dw mut in
  w = 0 <-> (tke + dk = 0 /\ sdr + dw <= 0) \/ (tke + dk < 0 /\ sdr + dw = 0).
Proof.
  intros Hr Hm. unfold sst_update. cbv zeta.
  destruct (Rle_dec 0 (tke + dk)) as [A|A]; [destruct (Rlt_dec 0 (sdr + dw)) as [B|B]|destruct (Rlt_dec (sdr + dw) 0) as [B|B]].
  - lra.
  - split.
    + intros E. left. split; [|lra]. assert (F : rho * (tke + dk) = 0) by (replace (rho * (tke + dk)) with (rho * (tke + dk) / mu * mu) by (field; lra); rewrite E; ring).
      apply Rmult_integral in F. destruct F; lra.
    + intros [[E _]|[E _]]; [|lra]. rewrite E. field. lra.
  - split; [|lra]. intros E. assert (0 < rho * (1 / 10 ^ 8) / mu) by (apply Rdiv_lt_0_compat; [apply Rmult_lt_0_compat; lra|lra]). lra.
  - lra.
Qed.
Theorem C66_sst_clip_keeps_omega_positive_refuted : exists rho mu tke sdr dk dw mut, 0 < rho /\ 0 < mu /\ 0 < tke /\ 0 < sdr /\
  let '(k, w, v) := sst_update rho mu tke sdr dk dw mut in k = 0 /\ w = 0.
Proof.
  exists 1, 1, 1, 1, (-1), (-2), 1. repeat (split; [lra|]). unfold sst_update. cbv zeta.
  destruct (Rle_dec 0 (1 + -1)); [|lra]. destruct (Rlt_dec 0 (1 + -2)); [lra|]. split; lra.
Qed.
Theorem C66_initial_clip rho mu tke sdr : 0 < rho -> 0 < mu ->
  let '(k, w) := sst_initial rho mu tke sdr in
  0 <= k /\ 0 <= w /\ (0 <= tke -> 0 < sdr -> k = tke /\ w = sdr) /\ (sdr <= 0 \/ tke < 0 -> rho * k = mu * w).
Proof.
  intros Hr Hm. unfold sst_initial. cbv zeta.
  destruct (Rle_dec 0 tke) as [A|A]; [destruct (Rlt_dec 0 sdr) as [B|B]|destruct (Rlt_dec sdr 0) as [B|B]].
  - repeat split; try lra.
  - split; [lra|]. split; [apply div_nonneg; [apply Rmult_le_pos; lra|lra]|]. split; [lra|]. intros _. field; lra.
  - split; [lra|]. split; [apply div_nonneg; [apply Rmult_le_pos; lra|lra]|]. split; [lra|]. intros _. field; lra.
  - split; [apply div_nonneg; [apply Rmult_le_pos; lra|lra]|]. split; [lra|]. split; [lra|]. intros _. field; lra.
Qed.
Theorem C66_tke_clip tke dk : 0 <= tke_update tke dk /\ (0 <= tke + dk -> tke_update tke dk = tke + dk).
Proof. unfold tke_update. destruct Rlt_dec; split; intros; lra. Qed.

(** Non-vacuity: a two-node diffusion-plus-time matrix is an M-matrix, and the k update has a solution with positive data *)
Example C66_nonvacuous : exists A q', mmatrix 2 A /\
  let src := src_tke_sst 2 10 (9/100) 1 2 5 (1/10) 1 exG in
  updated 2 A (fun _ => fst src) (fun _ => 6) (fun _ => snd src) (fun _ => 2) q' /\ 0 < fst src /\ 0 < q' 0%nat.
Proof.
  exists (fun i j => if Nat.eqb i j then 5 else -2), (fun _ => (6 + 2 * fst (src_tke_sst 2 10 (9/100) 1 2 5 (1/10) 1 exG) + snd (src_tke_sst 2 10 (9/100) 1 2 5 (1/10) 1 exG)) / (3 + fst (src_tke_sst 2 10 (9/100) 1 2 5 (1/10) 1 exG))).
  split.
  { split; [intros [|[|]] [|[|]] ? ? ?; try lia; cbn; lra|intros [|[|]] ?; try lia; cbn; lra]. }
  cbv zeta. set (src := src_tke_sst _ _ _ _ _ _ _ _ _).
  assert (E1 : fst src = 45/100) by (unfold src, src_tke_sst; cbv zeta; cbn [fst]; field).
  assert (E2 : 0 <= fst src * 2 + snd src).
  { unfold src, src_tke_sst. cbv zeta. cbn [fst snd]. assert (0 <= limited 10 (prod2 2 exG * (1/10)) (9/100 * 1 * 5 * 2)); [|lra].
    apply limited_nonneg; [lra|apply Rmult_le_pos; [apply prod2_nonneg|lra]|lra]. }
  clearbody src. split; [|split].
  - intros [|[|]] ?; try lia; rewrite !sumn_S, !sumn_0; cbn [Nat.eqb]; rewrite E1; field.
  - lra.
  - rewrite E1 in *. lra.
Qed.
