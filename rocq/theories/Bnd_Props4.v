(** C72 continued: the dilatational part of the stress in the element kernels, and concrete cases. *)
Require Import Reals List Bool Lra Lia Arith Psatz.
From Verif Require Import RUtil Edge_Model Edge_Proofs Elem_Model Elem_Spec Elem_Proofs Elem_Proofs2 Bnd_Model Bnd_Spec Bnd_Proofs Bnd_Props Bnd_Props2 Bnd_Props3.
Import ListNotations.
Open Scope R_scope.

(** a face of area (1,0) with one point; the parent element's gradient of direction k0 is node 0 minus node 1 *)
Definition ex_g (k0 : nat) : fe :=
  mkFe 1 1 2 2 (fun _ => 0%nat) (fun _ => 0%nat) (fun _ => 0%nat) (fun _ => 1%nat) (fun _ _ => 1) (fun _ _ => 1)
    (fun _ ic j => if Nat.eqb j k0 then (if Nat.eqb ic 0 then 1 else -1) else 0)
    (fun _ ic j => if Nat.eqb j k0 then (if Nat.eqb ic 0 then 1 else -1) else 0)
    (fun _ j => if Nat.eqb j 0 then 1 else 0).
Definition ex_u (k : nat) : nat -> R := fun a => if Nat.eqb a k then 1 else 0.
Definition ex_o : oupw := mkOu (fun _ => 0) 0 0 (fun _ => 0).
Definition ex_wi (incl : R) : vfields :=
  mkVf (fun _ => 0) (fun _ => 1) (fun _ => 1) (fun _ _ _ => 0) (fun _ => 0) (fun _ => 0) incl 0 0.

Lemma ex_n k0 i : f_n (ex_g k0) 0 i = if Nat.eqb i 0 then 1 else 0.
Proof.
  unfold f_n, f_amag, f_asq. cbn [ex_g f_d f_A]. rewrite sumn2. cbn [Nat.eqb].
  replace (1*1+0*0) with 1 by ring. rewrite sqrt_1. destruct (Nat.eqb i 0); field.
Qed.

(** C72, refuted with the dilatational stress on (includeDivU): an open face of the element scheme then
    transmits a tangential force that the stress does not have: area (1,0), du_0/dx_0 = 1 only. *)
Theorem C72_refuted_elem_open_divU :
  ~ (forall f o w mdot u s a i, (i < f_d f)%nat ->
      eB (momentum_open_elem f o w mdot u s) (a*f_d f+i)%nat
      = eB s (a*f_d f+i)%nat
        - out_at (f_ip f) (f_nn f) (fun ip => mom_through f (f_nn f) (mom_open_adv_elem f o w mdot u ip) s ip i
            + tangential_part (f_d f) (f_n f ip) (viscous_flux (f_d f) (at_face f (vf_mu w) ip) (vf_incl w) (grad_u f u ip) (f_A f ip)) i) a).
Proof.
  intros H. specialize (H (ex_g 0) ex_o (ex_wi 1) (fun _ => 0) (ex_u 0) zero_sys 0%nat 1%nat ltac:(cbn; lia)).
  destruct (momentum_open_elem_eff (ex_g 0) ex_o (ex_wi 1) (fun _ => 0) (ex_u 0) zero_sys) as [_ E]. rewrite E in H. clear E.
  rewrite (sum_rows (ex_g 0) (f_ip (ex_g 0)) (f_nn (ex_g 0)) (fun ip i => elem_adv (ex_g 0) ex_o (ex_wi 1) (ex_u 0) 0 ip i + (sumn (f_d (ex_g 0)) (fun l => pj true (f_n (ex_g 0) ip) i l * stress (ex_g 0) (at_face (ex_g 0) (vf_mu (ex_wi 1)) ip) (ex_u 0) ip l)
        + divterm (ex_g 0) (at_face (ex_g 0) (vf_mu (ex_wi 1)) ip) (vf_incl (ex_wi 1)) (ex_u 0) ip * sumn (f_d (ex_g 0)) (fun l => pjd true (f_n (ex_g 0) ip) i l))) 0%nat 1%nat ltac:(cbn; lia)) in H.
  unfold out_at in H. change (f_ip (ex_g 0)) with 1%nat in H. rewrite !sumn_S, !sumn_0 in H. change (Nat.eqb 0 (f_nn (ex_g 0) 0)) with true in H. cbv iota in H. rewrite (adv_through (ex_g 0) ex_o (ex_wi 1) (fun _ => 0) (ex_u 0) 0 zero_sys 1%nat ltac:(cbn; lia)) in H.
  rewrite (pj_part true (f_d (ex_g 0)) (f_n (ex_g 0) 0) (stress (ex_g 0) (at_face (ex_g 0) (vf_mu (ex_wi 1)) 0) (ex_u 0) 0) 1%nat ltac:(cbn; lia)) in H.
  assert (D : divterm (ex_g 0) (at_face (ex_g 0) (vf_mu (ex_wi 1)) 0) (vf_incl (ex_wi 1)) (ex_u 0) 0 = 2/3).
  { unfold divterm, at_face. cbn [f_npe f_d f_npf ex_g]. rewrite !sumn2, !sumn_S, !sumn_0. cbn. field. }
  assert (P : sumn (f_d (ex_g 0)) (fun l => pjd true (f_n (ex_g 0) 0) 1 l) = 1).
  { change (f_d (ex_g 0)) with 2%nat. rewrite sumn2. unfold pjd, pj. cbn [Nat.eqb]. rewrite dl_refl, !ex_n. cbn [Nat.eqb]. ring. }
  rewrite D, P in H.
  assert (T1 : tangential_part (f_d (ex_g 0)) (f_n (ex_g 0) 0) (stress (ex_g 0) (at_face (ex_g 0) (vf_mu (ex_wi 1)) 0) (ex_u 0) 0) 1 = 0).
  { unfold tangential_part, normal_part. rewrite ex_n. cbn [Nat.eqb]. unfold stress. cbn [f_npe f_d ex_g]. rewrite !sumn2. cbn. ring. }
  assert (T2 : tangential_part (f_d (ex_g 0)) (f_n (ex_g 0) 0) (viscous_flux (f_d (ex_g 0)) (at_face (ex_g 0) (vf_mu (ex_wi 1)) 0) (vf_incl (ex_wi 1)) (grad_u (ex_g 0) (ex_u 0) 0) (f_A (ex_g 0) 0)) 1 = 0).
  { unfold tangential_part, normal_part. rewrite ex_n. cbn [Nat.eqb]. unfold viscous_flux, grad_u. cbn [f_npe f_d ex_g]. rewrite !sumn2. cbn. ring. }
  rewrite T1, T2 in H. cbv beta in H. lra.
Qed.
(** C72, refuted: a symmetry face of the element scheme omits the pressure-like dilatational stress of the
    other directions: area (1,0), du_1/dx_1 = 1 only. *)
Theorem C72_refuted_elem_symmetry_divU :
  ~ (forall f mu incl u s a i, (i < f_d f)%nat ->
      eB (momentum_sym_elem f mu incl u s) (a*f_d f+i)%nat
      = eB s (a*f_d f+i)%nat
        - out_at (f_ip f) (f_nn f) (fun ip => normal_part (f_d f) (f_n f ip) (viscous_flux (f_d f) (at_face f mu ip) incl (grad_u f u ip) (f_A f ip)) i) a).
Proof.
  intros H. specialize (H (ex_g 1) (fun _ => 1) 1 (ex_u 1) zero_sys 0%nat 0%nat ltac:(cbn; lia)).
  destruct (momentum_sym_elem_eff (ex_g 1) (fun _ => 1) 1 (ex_u 1) zero_sys) as [_ E]. rewrite E in H. clear E.
  rewrite (sum_rows (ex_g 1) (f_ip (ex_g 1)) (f_nn (ex_g 1)) (fun ip i => (sumn (f_d (ex_g 1)) (fun l => pj false (f_n (ex_g 1) ip) i l * stress (ex_g 1) (at_face (ex_g 1) (fun _ => 1) ip) (ex_u 1) ip l)
        + divterm (ex_g 1) (at_face (ex_g 1) (fun _ => 1) ip) 1 (ex_u 1) ip * sumn (f_d (ex_g 1)) (fun l => pjd false (f_n (ex_g 1) ip) i l))) 0%nat 0%nat ltac:(cbn; lia)) in H.
  unfold out_at in H. change (f_ip (ex_g 1)) with 1%nat in H. rewrite !sumn_S, !sumn_0 in H. change (Nat.eqb 0 (f_nn (ex_g 1) 0)) with true in H. cbv iota in H.
  rewrite (pj_part false (f_d (ex_g 1)) (f_n (ex_g 1) 0) (stress (ex_g 1) (at_face (ex_g 1) (fun _ => 1) 0) (ex_u 1) 0) 0%nat ltac:(cbn; lia)) in H.
  assert (D : divterm (ex_g 1) (at_face (ex_g 1) (fun _ => 1) 0) 1 (ex_u 1) 0 = 0).
  { unfold divterm, at_face. cbn [f_npe f_d f_npf ex_g]. rewrite !sumn2, !sumn_S, !sumn_0. cbn. ring. }
  rewrite D in H.
  assert (T1 : normal_part (f_d (ex_g 1)) (f_n (ex_g 1) 0) (stress (ex_g 1) (at_face (ex_g 1) (fun _ => 1) 0) (ex_u 1) 0) 0 = 0).
  { unfold normal_part, dotp. change (f_d (ex_g 1)) with 2%nat. rewrite sumn2, !ex_n. cbn [Nat.eqb]. unfold stress. cbn [f_npe f_d ex_g]. rewrite !sumn2. cbn. ring. }
  assert (T2 : normal_part (f_d (ex_g 1)) (f_n (ex_g 1) 0) (viscous_flux (f_d (ex_g 1)) (at_face (ex_g 1) (fun _ => 1) 0) 1 (grad_u (ex_g 1) (ex_u 1) 0) (f_A (ex_g 1) 0)) 0 = 2/3).
  { unfold normal_part, dotp. change (f_d (ex_g 1)) with 2%nat. rewrite sumn2, !ex_n. cbn [Nat.eqb]. unfold viscous_flux, grad_u, at_face. cbn [f_npe f_d f_npf ex_g]. rewrite !sumn2, !sumn_S, !sumn_0. cbn. field. }
  rewrite T1, T2 in H. cbv beta in H. lra.
Qed.

(** concrete faces satisfying the hypotheses used above *)
Example C72_hypotheses_met :
  face_ok (ex_g 0) /\ edge_face_ok (ex_g 0) /\ dotp 2 (f_n (ex_g 0) 0) (f_n (ex_g 0) 0) = 1 /\ vf_incl (ex_wi 0) = 0 /\
  (exists x, face_grad_exact (mkFe 1 1 2 1 (fun _ => 0%nat) (fun _ => 0%nat) (fun _ => 0%nat) (fun _ => 1%nat) (fun _ _ => 1) (fun _ _ => 1)
      (fun _ ic _ => if Nat.eqb ic 0 then 1 else -1) (fun _ ic _ => 0) (fun _ _ => 1)) x).
Proof.
  split; [|split; [|split; [|split; [reflexivity|]]]].
  - split; cbn; intros; lia.
  - intros ip Hip. split; [|cbn; lia]. unfold f_asq. cbn [f_d ex_g f_A]. rewrite sumn2. cbn. lra.
  - unfold dotp. rewrite sumn2, !ex_n. cbn [Nat.eqb]. ring.
  - exists (fun ic _ => if Nat.eqb ic 0 then 1 else 0). split.
    + intros. cbn [f_npe]. rewrite sumn2. cbn. ring.
    + intros ip j k _ Hj Hk. cbn in Hj, Hk. replace j with 0%nat by lia. replace k with 0%nat by lia. cbn [f_npe]. rewrite sumn2. cbn. ring.
Qed.

(* ---------------------------------------------------------------- open edge matrix in three dimensions *)
Lemma newton_rowJ_open f w u e s i : f_npf f = 1%nat -> vf_incl w = 0 -> edge_face_ok f -> (i < f_d f)%nat ->
  exact_newton (f_npe f*f_d f) (fun u => momentum_open_edge f w (fun _ => 0) u) ->
  eB (momentum_open_edge f w (fun _ => 0) (fun a => u a + e a) s) (f_ord f 0*f_d f+i)%nat - eB (momentum_open_edge f w (fun _ => 0) u s) (f_ord f 0*f_d f+i)%nat
  = - sumn (f_d f) (fun k => jopen f w 0 i k * jump f e 0 k).
Proof.
  intros H1 H0 Hf Hi HN. destruct (Hf 0%nat ltac:(lia)) as (Ha & Hr & Hp).
  rewrite (HN u e s (f_ord f 0*f_d f+i)%nat) by (apply flat_lt; assumption).
  destruct (momentum_open_edge_eff f w (fun _ => 0) u s) as [HA _].
  rewrite (sumn_ext (f_npe f*f_d f) _ (fun j => sumn (f_d f) (fun k => rl f 0 j k * jopen f w 0 i k) * e j)).
  - rewrite rl_pick by assumption. ring.
  - intros j _. rewrite HA, H1, sumn_S, sumn_0.
    rewrite (sumn_ext (f_d f) (fun i0 => dl (f_ord f 0*f_d f+i) (f_ord f 0*f_d f+i0) * _) (fun i0 => dl i0 i * sumn (f_d f) (fun k => rl f 0 j k * jopen f w 0 i0 k))).
    + rewrite (sumn_dl (f_d f) i (fun i0 => sumn (f_d f) (fun k => rl f 0 j k * jopen f w 0 i0 k))) by assumption. ring.
    + intros i0 Hi0. rewrite dl_flat, dl_refl by assumption. rewrite (dl_sym i i0).
      replace (upside 0 1 0) with 0 by (unfold upside; destruct (Rlt_dec 0 0); lra). ring.
Qed.
Lemma true_rowJ_open f w u e s i : f_npf f = 1%nat -> vf_incl w = 0 -> edge_face_ok f -> (i < f_d f)%nat ->
  eB (momentum_open_edge f w (fun _ => 0) (fun a => u a + e a) s) (f_ord f 0*f_d f+i)%nat - eB (momentum_open_edge f w (fun _ => 0) u s) (f_ord f 0*f_d f+i)%nat
  = - sumn (f_d f) (fun k => jopen_exact f w 0 i k * jump f e 0 k).
Proof.
  intros H1 H0 Hf Hi. destruct (Hf 0%nat ltac:(lia)) as (Ha & Hr & Hp). destruct (amag_pos f 0 Ha) as [P1 P2].
  destruct (momentum_open_edge_eff f w (fun _ => 0) (fun a => u a + e a) s) as [_ HB]. destruct (momentum_open_edge_eff f w (fun _ => 0) u s) as [_ HC]. rewrite HB, HC, H1.
  rewrite !sumn_S, !sumn_0.
  rewrite (row_pick f (f_ord f 0) (fun i => v_F f w (fun a => u a + e a) 0 i - f_n f 0 i * v_Fn f w (fun a => u a + e a) 0 + edge_adv f w (fun a => u a + e a) 0 0 i)),
    (row_pick f (f_ord f 0) (fun i => v_F f w u 0 i - f_n f 0 i * v_Fn f w u 0 + edge_adv f w u 0 0 i)) by assumption.
  assert (Z : forall v, edge_adv f w v 0 0 i = 0) by (intros; unfold edge_adv, upside; destruct (Rlt_dec 0 0); ring).
  rewrite dl_refl, !Z, vFn_plus, vF_plus by assumption. unfold jopen_exact.
  assert (E : dotp (f_d f) (f_A f 0) (jump f e 0) = f_amag f 0 * dotp (f_d f) (f_n f 0) (jump f e 0)).
  { unfold dotp. rewrite <- sumn_scal. apply sumn_ext. intros. rewrite (A_n f 0) by assumption. ring. }
  rewrite E, (A_n f 0 i) by assumption.
  rewrite (sumn_ext (f_d f) (fun k => _ * jump f e 0 k) (fun k => (- vf_mu w (f_ord f 0)*(1/v_axdx f (vf_x w) 0)*f_asq f 0)*(dl k i*jump f e 0 k + (- f_n f 0 i)*(f_n f 0 k*jump f e 0 k)))) by (intros; ring).
  rewrite sumn_scal, sumn_plus, sumn_dl, sumn_scal by assumption. fold (dotp (f_d f) (f_n f 0) (jump f e 0)). rewrite <- P2. ring.
Qed.
(** C72, refuted: in three dimensions the open-boundary matrix of the edge scheme is not the sensitivity
    when no component of the area vanishes. Area (1,1,1), edge vector (1,1,1). *)
Theorem C72_refuted_edge_open_matrix_3d :
  exists f w, vf_incl w = 0 /\ edge_face_ok f /\ f_d f = 3%nat /\ ~ exact_newton (f_npe f*f_d f) (fun u => momentum_open_edge f w (fun _ => 0) u).
Proof.
  set (A := fun _ : nat => 1). exists (ex_f 3 A), (ex_w 3 A).
  assert (OK : edge_face_ok (ex_f 3 A)).
  { intros ip Hip. split; [|cbn; split; lia]. unfold f_asq. cbn [f_d ex_f f_A]. rewrite sumn3'. unfold A. lra. }
  split; [reflexivity|]. split; [exact OK|]. split; [reflexivity|]. intros HN.
  set (e := fun a : nat => if Nat.eqb a 1 then 1 else 0).
  pose proof (newton_rowJ_open (ex_f 3 A) (ex_w 3 A) (fun _ => 0) e zero_sys 0%nat eq_refl eq_refl OK ltac:(cbn; lia) HN) as E1.
  pose proof (true_rowJ_open (ex_f 3 A) (ex_w 3 A) (fun _ => 0) e zero_sys 0%nat eq_refl eq_refl OK ltac:(cbn; lia)) as E2.
  pose proof (eq_trans (eq_sym E1) E2) as E3. clear E1 E2 HN. rename E3 into E2.
  assert (Q : f_asq (ex_f 3 A) 0 = 3) by (unfold f_asq; cbn [f_d ex_f f_A]; rewrite sumn3'; unfold A; ring).
  assert (X : v_axdx (ex_f 3 A) (vf_x (ex_w 3 A)) 0 = 3) by (unfold v_axdx, v_dx; cbn [f_d ex_f f_A f_ord f_op ex_w vf_x]; rewrite sumn3'; unfold A; cbn; ring).
  destruct (amag_pos (ex_f 3 A) 0 ltac:(lra)) as [P1 P2]. rewrite Q in P2.
  assert (N : forall i j, f_n (ex_f 3 A) 0 i * f_n (ex_f 3 A) 0 j = 1/3).
  { intros i j. unfold f_n. change (f_A (ex_f 3 A) 0 i) with 1. change (f_A (ex_f 3 A) 0 j) with 1.
    replace (1/3) with (/ (f_amag (ex_f 3 A) 0 * f_amag (ex_f 3 A) 0)) by (rewrite P2; lra). field. lra. }
  change (f_d (ex_f 3 A)) with 3%nat in E2. rewrite !sumn3' in E2.
  assert (J0 : jump (ex_f 3 A) e 0 0 = 0) by (unfold jump, e; cbn; ring).
  assert (J1 : jump (ex_f 3 A) e 0 1 = 1) by (unfold jump, e; cbn; ring).
  assert (J2 : jump (ex_f 3 A) e 0 2 = 0) by (unfold jump, e; cbn; ring).
  rewrite J0, J1, J2 in E2. rewrite !Rmult_0_r, !Rmult_1_r in E2. unfold jopen, jopen_exact in E2. cbv zeta in E2. rewrite Q, X in E2.
  unfold dl, off in E2. cbn [Nat.eqb] in E2. rewrite !N in E2.
  change (f_A (ex_f 3 A) 0 0) with 1 in E2. change (f_A (ex_f 3 A) 0 1) with 1 in E2. change (vf_mu (ex_w 3 A) (f_ord (ex_f 3 A) 0)) with 1 in E2.
  lra.
Qed.
