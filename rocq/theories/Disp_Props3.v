(** C84: rigid motions of the neo-Hookean solid, inertia, pressure load, elastic constants, mesh velocity. *)
Require Import Reals ZArith List Bool Lra Lia Arith.
From Verif Require Import RUtil ME_Model ME_Shape_Model ME_Shape_Spec Tensor_Model Time_Model Edge_Model Edge_Proofs.
From Verif Require Import Elem_Model Elem_Spec Elem_Proofs Elem_Proofs2 Elem_Proofs3 Elem_Props Elem_Props2 Elem_Props3 Elem_Props4.
From Verif Require Import Disp_Model Disp_Spec Disp_Props Disp_Props2.
Import ListNotations.
Open Scope R_scope.

Lemma det3_ext F G : (forall i j, (i < 3)%nat -> (j < 3)%nat -> F i j = G i j) -> det3 F = det3 G.
Proof. intros H. unfold det3. rewrite !H by lia. reflexivity. Qed.
Lemma frob2_ext d F G : (forall i j, (i < d)%nat -> (j < d)%nat -> F i j = G i j) -> frob2 d F = frob2 d G.
Proof. intros H. unfold frob2. apply sumn_ext. intros. apply sumn_ext. intros. rewrite H by assumption. reflexivity. Qed.

(** the specification is objective: a rigid motion stresses nothing (3-D) *)
Theorem C84_neo_law_objective : forall mu la Q A i, (i < 3)%nat ->
  (forall i j, (i < 3)%nat -> (j < 3)%nat -> sumn 3 (fun k => Q i k * Q j k) = delta i j) -> det3 Q = 1 ->
  neo_traction 3 mu la Q A i = 0.
Proof.
  intros mu la Q A i Hi HQ HJ. unfold neo_traction, det. cbn [Nat.eqb]. rewrite HJ. cbv zeta.
  assert (E : frob2 3 Q = 3).
  { unfold frob2. rewrite (sumn_ext 3 _ (fun i => 1)); [unfold sumn; cbn; lra|]. intros k Hk. rewrite (HQ k k) by assumption. unfold delta. rewrite Nat.eqb_refl. reflexivity. }
  rewrite E. apply sumn_zero. intros j Hj. rewrite (HQ i j) by assumption. field.
Qed.
(** what the kernel does on a rigid rotation Q: a spurious traction 3/4 mu (Q^T - 1) A *)
Theorem C84_neo_rotation_force : forall m x mu la u c Q s a i, ndim m = 3%nat -> grad_linear_exact m x ->
  rigid m x u c Q -> det3 Q = 1 -> (forall ip, (ip < nscs m)%nat -> at_scs m la ip <> 0) -> (i < 3)%nat ->
  eB (neohookean m mu la u s) (a*3+i)
  = eB s (a*3+i)%nat + net_out m (fun ip => 3/4 * at_scs m mu ip * sumn 3 (fun j => (Q j i - delta j i) * area m ip j)) a.
Proof.
  intros m x mu la u c Q s a i Hd HG [HQ Hu] HJ Hla Hi. rewrite Hd in HQ, Hu.
  assert (Hu' : forall ic i, (ic < npe m)%nat -> (i < ndim m)%nat -> u (ic*ndim m+i)%nat = c i + sumn (ndim m) (fun j => (Q i j - delta i j) * x ic j)).
  { rewrite Hd. intros ic k Hic Hk. pose proof (Hu ic k Hic Hk) as E.
    rewrite (sumn_ext 3 _ (fun j => Q k j * x ic j - kd k j * x ic j)) by (intros; unfold delta, kd; ring).
    rewrite sumn_minus, (kd_row 3 k (x ic)) by assumption. lra. }
  assert (G : forall ip k j, (ip < nscs m)%nat -> (k < 3)%nat -> (j < 3)%nat -> grad_disp m u ip k j = Q k j - delta k j).
  { intros. apply (grad_affine m x u c (fun i j => Q i j - delta i j)); rewrite ?Hd; try assumption. rewrite Hd in Hu'. assumption. }
  assert (GF : forall ip k j, (ip < nscs m)%nat -> (k < 3)%nat -> (j < 3)%nat -> grad_disp m u ip k j + delta k j = Q k j).
  { intros. rewrite G by assumption. ring. }
  pose proof (C84_neo_force_partial m mu la u s a i) as T. rewrite Hd in T. rewrite T; clear T; try auto.
  - f_equal. apply net_out_ext. intros ip Hip. cbv zeta.
    assert (E1 : frob2 3 (fun k j => grad_disp m u ip k j + delta k j) = frob2 3 Q) by (apply frob2_ext; intros; apply GF; assumption).
    assert (E2 : det 3 (fun k j => grad_disp m u ip k j + delta k j) = 1) by (unfold det; cbn [Nat.eqb]; rewrite (det3_ext _ Q); [exact HJ|intros; apply GF; assumption]).
    assert (E3 : frob2 3 Q = 3).
    { unfold frob2. rewrite (sumn_ext 3 _ (fun i => 1)); [unfold sumn; cbn; lra|]. intros k Hk. rewrite (HQ k k) by assumption. unfold delta. rewrite Nat.eqb_refl. reflexivity. }
    unfold neo_traction. cbv zeta. rewrite E1, E2, E3.
    rewrite (sumn_ext 3 (fun j => grad_disp m u ip j i * _) (fun j => (Q j i - delta j i) * area m ip j)) by (intros; rewrite G by assumption; reflexivity).
    rewrite (sumn_zero 3). 2:{ intros j Hj.
      rewrite (sumn_ext 3 (fun k => (grad_disp m u ip i k + delta i k) * _) (fun k => Q i k * Q j k)) by (intros; rewrite !GF by assumption; reflexivity).
      rewrite HQ by assumption. field. }
    field.
  - intros ip Hip. split; [auto|]. unfold det; cbn [Nat.eqb]. rewrite (det3_ext _ Q) by (intros; apply GF; assumption). lra.
Qed.

(** the unit tetrahedron turned by half a turn about the z axis *)
Definition half_turn (i j : nat) : R := if Nat.eqb i j then (if Nat.eqb i 2 then 1 else -1) else 0.
Definition tet_x (a k : nat) : R := comp k (tet4_nodes a).
Definition tet_me := me_of 4 3 tet4_shape tet4_deriv tet_lrscv (fun _ => V (1/4) (1/4) (1/4)) (fun _ => V (1/4) (1/4) (1/4)) 4 (fun ip => ip) tet_x
   (fun ip j => if Nat.eqb ip 0 then 1 else 0) (fun _ => 1).
Definition turned_tet (a : nat) : R := let ic := (a/3)%nat in let i := (a mod 3)%nat in sumn 3 (fun j => (half_turn i j - delta i j) * tet_x ic j).
Lemma tet_me_ok : ndim tet_me = 3%nat /\ npe tet_me = 4%nat /\ nscs tet_me = 6%nat /\ grad_linear_exact tet_me tet_x /\ unity 4 6 (Ns tet_me) /\ maps_ok tet_me.
Proof.
  pose proof (C51_unit_tet_example (fun _ => V (1/4) (1/4) (1/4)) (fun _ => V (1/4) (1/4) (1/4)) (fun ip j => if Nat.eqb ip 0 then 1 else 0) (fun _ => 1)) as H.
  cbv zeta in H. destruct H as (A & B & C & D & E & F & G & I1). repeat (split; [solve [assumption | reflexivity]|]). assumption.
Qed.
Theorem C84_neo_rigid_motion_refuted :
  rigid tet_me tet_x turned_tet (fun _ => 0) half_turn /\ det3 half_turn = 1 /\
  forall mu0 la0 s, mu0 <> 0 -> la0 <> 0 ->
  eB (neohookean tet_me (fun _ => mu0) (fun _ => la0) turned_tet s) 0 <> eB s 0%nat.
Proof.
  destruct tet_me_ok as (Hd & Hn & Hs & HG & HN & HM).
  assert (R1 : rigid tet_me tet_x turned_tet (fun _ => 0) half_turn).
  { split; rewrite Hd.
    - intros i j Hi Hj. unfold half_turn, delta, sumn. cbn [seq fold_left].
      destruct i as [|[|[|i]]]; [| | |lia]; (destruct j as [|[|[|j]]]; [| | |lia]); cbn [Nat.eqb]; lra.
    - rewrite Hn. intros ic i Hic Hi. unfold turned_tet.
      rewrite Nat.div_add_l, (Nat.div_small i 3), Nat.add_0_r by lia.
      rewrite Nat.add_comm, Nat.mod_add, Nat.mod_small by lia.
      rewrite (sumn_ext 3 _ (fun j => half_turn i j * tet_x ic j - kd i j * tet_x ic j)) by (intros; unfold delta, kd; ring).
      rewrite sumn_minus, (kd_row 3 i (tet_x ic)) by assumption. lra. }
  assert (D1 : det3 half_turn = 1) by (unfold det3, half_turn; cbn [Nat.eqb]; lra).
  split; [exact R1|]. split; [exact D1|]. intros mu0 la0 s Hmu Hla.
  assert (AC : forall k ip, (ip < 6)%nat -> at_scs tet_me (fun _ => k) ip = k).
  { intros k ip Hip. unfold at_scs. rewrite sumn_scal_r, Hn, HN by assumption. ring. }
  pose proof (C84_neo_rotation_force tet_me tet_x (fun _ => mu0) (fun _ => la0) turned_tet (fun _ => 0) half_turn s 0 0 Hd HG R1 D1) as T.
  cbn [Nat.mul Nat.add] in T. rewrite T; [|intros ip Hip; rewrite Hs in Hip; rewrite AC by assumption; exact Hla|lia].
  rewrite (net_out_ext _ _ (fun ip => - (3/2) * mu0 * (if Nat.eqb ip 0 then 1 else 0))).
  - unfold net_out. rewrite Hs. unfold sumn. cbn. lra.
  - intros ip Hip. rewrite Hs in Hip. rewrite AC by assumption. unfold sumn, half_turn, delta. cbn [seq fold_left Nat.eqb tet_me me_of area].
    destruct (Nat.eqb ip 0); lra.
Qed.

(** ... and in two dimensions the undeformed body is not stress free: a traction -mu/12 per unit area *)
Theorem C84_neo_translation_force_2d : forall m mu la u c s a i, ndim m = 2%nat -> grad_unity m ->
  (forall ip, (ip < nscs m)%nat -> at_scs m la ip <> 0) ->
  (forall ic i, (ic < npe m)%nat -> (i < ndim m)%nat -> u (ic*ndim m+i)%nat = c i) -> (i < 2)%nat ->
  eB (neohookean m mu la u s) (a*2+i) = eB s (a*2+i)%nat - net_out m (fun ip => at_scs m mu ip / 12 * area m ip i) a.
Proof.
  intros m mu la u c s a i Hd HU Hla Hu Hi.
  assert (G : forall ip i j, (ip < nscs m)%nat -> (i < 2)%nat -> (j < 2)%nat -> grad_disp m u ip i j = 0).
  { intros. apply (translated_grad m u c); first [assumption | rewrite Hd; assumption]. }
  pose proof (C84_neo_force_partial m mu la u s a i) as T. rewrite Hd in T. rewrite T; clear T; try auto.
  - unfold Rminus. f_equal. rewrite !net_out_dl, <- sumn_opp. apply sumn_ext. intros ip Hip. cbv zeta.
    rewrite (sumn_zero 2 (fun j => grad_disp m u ip j i * area m ip j)) by (intros; rewrite G by assumption; ring).
    match goal with |- _ * (?t + _) = - (_ * ?r) => enough (E : t = - r) by (rewrite E; ring) end.
    unfold neo_traction, frob2, det, det2. cbn [Nat.eqb]. unfold sumn. cbn [seq fold_left].
    rewrite !G by (assumption || lia). unfold delta.
    destruct i as [|[|i]]; [| |lia]; cbn [Nat.eqb]; field.
  - intros ip Hip. split; [auto|]. unfold det, det2. cbn [Nat.eqb]. rewrite !G by (assumption || lia). unfold delta. cbn [Nat.eqb]. lra.
Qed.
(** the unit right triangle with its sub-control-surface areas: node 0 feels a force at rest *)
Definition tri_x (a k : nat) : R := match a, k with 1%nat, 0%nat => 1 | 2%nat, 1%nat => 1 | _, _ => 0 end.
Definition tri_me := me_of 3 2 tri3_shape tri3_deriv tri2d_lrscv (fun _ => V (1/3) (1/3) 0) (fun _ => V (1/3) (1/3) 0) 3 (fun ip => ip) tri_x
   (fun ip j => match ip, j with 0%nat, 0%nat => 1/3 | 0%nat, _ => 1/6 | 1%nat, 0%nat => -1/6 | 1%nat, _ => 1/6 | _, 0%nat => 1/6 | _, _ => 1/3 end) (fun _ => 1/6).
Theorem C84_neo_rest_2d_refuted : forall mu0 la0 s, mu0 <> 0 -> la0 <> 0 ->
  eB (neohookean tri_me (fun _ => mu0) (fun _ => la0) (fun _ => 0) s) 0 <> eB s 0%nat.
Proof.
  intros mu0 la0 s Hmu Hla.
  assert (GD : good 3 2 tri_me tri_x).
  { apply C51_elements_meet_hypotheses; [intros; lia|]. intros ip _.
    unfold grad_op_det, jacobian, cofactor, Tensor_Model.at2, tri_x, tri3_deriv, comp. cbn. lra. }
  destruct GD as (Hn & Hd & HM & _ & HN & _ & HG & _).
  assert (Hs : nscs tri_me = 3%nat) by reflexivity.
  assert (AC : forall k ip, (ip < 3)%nat -> at_scs tri_me (fun _ => k) ip = k).
  { intros k ip Hip. unfold at_scs. rewrite sumn_scal_r, HN by (rewrite Hs; assumption). ring. }
  pose proof (C84_neo_translation_force_2d tri_me (fun _ => mu0) (fun _ => la0) (fun _ => 0) (fun _ => 0) s 0 0 Hd HG) as T.
  cbn [Nat.mul Nat.add] in T. rewrite T; [|intros ip Hip; rewrite Hs in Hip; rewrite AC by assumption; exact Hla|intros; reflexivity|lia].
  rewrite (net_out_ext _ _ (fun ip => mu0/12 * area tri_me ip 0%nat)) by (intros ip Hip; rewrite Hs in Hip; rewrite AC by assumption; reflexivity).
  unfold net_out. rewrite Hs. unfold sumn. cbn. lra.
Qed.

(* ------------------------------------------------------------------ inertia *)
Definition accel (g : gam2) (d1 d0 dm : R) : R := gm1 g*d1 + gm2 g*d0 + gm3 g*dm.
Lemma disp_mass_eff m g rho d1 d0 dm s :
  eff s (disp_mass m g rho d1 d0 dm s)
   (fun row col => sumn (nscv m) (fun ip => sumn (ndim m) (fun j => dl row (nearest m ip*ndim m+j) *
        sumn (npe m) (fun ic => dl col (ic*ndim m+j) * (at_scv m rho ip * Nv m ip ic * gm1 g * vol m ip)))))
   (fun row => sumn (nscv m) (fun ip => sumn (ndim m) (fun j => dl row (nearest m ip*ndim m+j) *
        (- (at_scv m rho ip * accel g (at_scv m (fun ic => d1 (ic*ndim m+j)%nat) ip) (at_scv m (fun ic => d0 (ic*ndim m+j)%nat) ip) (at_scv m (fun ic => dm (ic*ndim m+j)%nat) ip) * vol m ip))))).
Proof.
  unfold disp_mass. cbv zeta.
  apply (eff_loop (nscv m) _ (fun ip row col => sumn (ndim m) (fun j => dl row (nearest m ip*ndim m+j) *
        sumn (npe m) (fun ic => dl col (ic*ndim m+j) * (at_scv m rho ip * Nv m ip ic * gm1 g * vol m ip))))
     (fun ip row => sumn (ndim m) (fun j => dl row (nearest m ip*ndim m+j) *
        (- (at_scv m rho ip * accel g (at_scv m (fun ic => d1 (ic*ndim m+j)%nat) ip) (at_scv m (fun ic => d0 (ic*ndim m+j)%nat) ip) (at_scv m (fun ic => dm (ic*ndim m+j)%nat) ip) * vol m ip))))).
  clear s. intros ip s Hip. eapply eff_ext.
  - eapply eff_trans; [|apply (eff_loop (ndim m) _ (fun _ _ _ => 0) (fun j row => dl row (nearest m ip*ndim m+j) *
        (- (at_scv m rho ip * accel g (at_scv m (fun ic => d1 (ic*ndim m+j)%nat) ip) (at_scv m (fun ic => d0 (ic*ndim m+j)%nat) ip) (at_scv m (fun ic => dm (ic*ndim m+j)%nat) ip) * vol m ip))))].
    2:{ intros j s1 Hj. eapply eff_ext; [effs| |]; intros; unfold accel; cbv beta; ring. }
    apply (eff_loop (npe m) _ (fun ic row col => sumn (ndim m) (fun j => dl row (nearest m ip*ndim m+j) * (dl col (ic*ndim m+j) * (at_scv m rho ip * Nv m ip ic * gm1 g * vol m ip)))) (fun _ _ => 0)).
    intros ic s1 Hic. eapply eff_ext.
    + apply (eff_loop (ndim m) _ (fun j row col => dl row (nearest m ip*ndim m+j) * (dl col (ic*ndim m+j) * (at_scv m rho ip * Nv m ip ic * gm1 g * vol m ip))) (fun _ _ => 0)).
      intros j s2 Hj. eapply eff_ext; [effs| |]; intros; cbv beta; ring.
    + intros; reflexivity.
    + intros; cbv beta. apply sumn_zero. reflexivity.
  - intros row col; cbv beta. rewrite (sumn_zero (ndim m) (fun _ => 0)) by reflexivity. rewrite Rplus_0_r, sumn_swap. apply sumn_ext. intros j Hj. apply sumn_scal.
  - intros row; cbv beta. rewrite (sumn_zero (npe m)) by reflexivity. rewrite Rplus_0_l. reflexivity.
Qed.
Lemma near_row m ip a j (f : nat -> R) : (j < ndim m)%nat ->
  sumn (ndim m) (fun k => dl (a*ndim m+j) (nearest m ip*ndim m+k) * f k) = dl a (nearest m ip) * f j.
Proof.
  intros Hj. rewrite (sumn_ext (ndim m) _ (fun k => dl k j * (dl a (nearest m ip) * f k))).
  - apply (sumn_dl (ndim m) j (fun k => dl a (nearest m ip) * f k)). assumption.
  - intros k Hk. rewrite dl_flat by assumption. rewrite (dl_sym j k). ring.
Qed.
(** mass times acceleration over the node's sub-control volumes *)
Theorem C84_inertia_force : forall m g rho d1 d0 dm s a j, (j < ndim m)%nat ->
  eB (disp_mass m g rho d1 d0 dm s) (a*ndim m+j)
  = eB s (a*ndim m+j)%nat - sumn (nscv m) (fun ip => if Nat.eqb a (nearest m ip)
      then at_scv m rho ip * vol m ip * at_scv m (fun ic => gm1 g * d1 (ic*ndim m+j)%nat + gm2 g * d0 (ic*ndim m+j)%nat + gm3 g * dm (ic*ndim m+j)%nat) ip else 0).
Proof.
  intros m g rho d1 d0 dm s a j Hj. destruct (disp_mass_eff m g rho d1 d0 dm s) as [_ H]. rewrite H. unfold Rminus. f_equal.
  rewrite <- sumn_opp. apply sumn_ext. intros ip _. rewrite (near_row m ip a j) by assumption.
  unfold dl. destruct (Nat.eqb a (nearest m ip)); [|ring].
  unfold accel, at_scv.
  rewrite (sumn_ext (npe m) (fun ic => Nv m ip ic * (_ + _ + _)) (fun ic => gm1 g * (Nv m ip ic * d1 (ic*ndim m+j)%nat) + gm2 g * (Nv m ip ic * d0 (ic*ndim m+j)%nat) + gm3 g * (Nv m ip ic * dm (ic*ndim m+j)%nat))) by (intros; ring).
  rewrite !sumn_plus, !sumn_scal. ring.
Qed.
Theorem C84_inertia_newton : forall m g rho d0 dm, exact_newton (npe m*ndim m) (fun d1 => disp_mass m g rho d1 d0 dm).
Proof.
  intros m g rho d0 dm u e s row Hrow. destruct (row_split _ _ _ Hrow) as (a & j & -> & Ha & Hj).
  rewrite !C84_inertia_force by assumption. destruct (disp_mass_eff m g rho u d0 dm s) as [HA _].
  rewrite (sumn_ext (npe m*ndim m) _ (fun col => sumn (nscv m) (fun ip => sumn (npe m) (fun ic => dl col (ic*ndim m+j) * (dl a (nearest m ip) * (at_scv m rho ip * Nv m ip ic * gm1 g * vol m ip) * e col))))).
  2:{ intros col _. rewrite HA, (Rplus_comm (eL_ s _ _)). unfold Rminus at 1. rewrite Rplus_assoc, Rplus_opp_r, Rplus_0_r, <- sumn_scal_r.
      apply sumn_ext. intros ip _. rewrite (near_row m ip a j (fun k => sumn (npe m) (fun ic => dl col (ic*ndim m+k) * _))) by assumption.
      rewrite <- sumn_scal, <- sumn_scal_r. apply sumn_ext. intros; ring. }
  rewrite sumn_swap.
  rewrite (sumn_ext (nscv m) (fun ip => sumn (npe m*ndim m) _) (fun ip => dl a (nearest m ip) * (at_scv m rho ip * gm1 g * vol m ip * at_scv m (fun ic => e (ic*ndim m+j)%nat) ip))).
  2:{ intros ip _. rewrite sumn_swap. set (r := at_scv m rho ip). unfold at_scv. rewrite <- !sumn_scal. apply sumn_ext. intros ic Hic.
      rewrite (sumn_dl (npe m*ndim m) (ic*ndim m+j) (fun col => dl a (nearest m ip) * (r * Nv m ip ic * gm1 g * vol m ip) * e col)) by nia. ring. }
  unfold Rminus. rewrite Rplus_assoc. f_equal. rewrite <- !sumn_opp, <- sumn_plus. apply sumn_ext. intros ip _.
  unfold dl. destruct (Nat.eqb a (nearest m ip)); [|ring]. set (r := at_scv m rho ip). unfold at_scv.
  rewrite (sumn_ext (npe m) (fun ic => Nv m ip ic * (gm1 g * (u _ + e _) + _ + _)) (fun ic => Nv m ip ic * (gm1 g * u (ic*ndim m+j)%nat + gm2 g * d0 (ic*ndim m+j)%nat + gm3 g * dm (ic*ndim m+j)%nat) + gm1 g * (Nv m ip ic * e (ic*ndim m+j)%nat))) by (intros; ring).
  rewrite sumn_plus, sumn_scal. ring.
Qed.
(** a body at rest or in uniform motion has no inertia force *)
Theorem C84_uniform_motion_no_inertia : forall dt dtm x v t, 0 < dt -> 0 < dtm ->
  let g := disp_gamma dt dtm in let p := fun t => x + v*t in
  gm1 g * p t + gm2 g * p (t - dt) + gm3 g * p (t - dt - dtm) = 0.
Proof. intros. unfold g, p, disp_gamma. cbn [gm1 gm2 gm3]. field. split; [|split]; lra. Qed.
(** under constant acceleration A the assembled acceleration is A (dt+dtm)/(dt+2 dtm) ... *)
Theorem C84_acceleration_value : forall dt dtm x v A t, 0 < dt -> 0 < dtm ->
  let g := disp_gamma dt dtm in let p := fun t => x + v*t + A/2*(t*t) in
  gm1 g * p t + gm2 g * p (t - dt) + gm3 g * p (t - dt - dtm) = A * ((dt + dtm)/(dt + 2*dtm)).
Proof. intros. unfold g, p, disp_gamma. cbn [gm1 gm2 gm3]. field. repeat split; lra. Qed.
(** ... so it is never A: with equal steps two thirds of it (dt_avg lacks a pair of parentheses) *)
Theorem C84_acceleration_refuted : forall dt x v A t, 0 < dt -> A <> 0 ->
  let g := disp_gamma dt dt in let p := fun t => x + v*t + A/2*(t*t) in
  gm1 g * p t + gm2 g * p (t - dt) + gm3 g * p (t - dt - dt) = 2/3 * A /\
  gm1 g * p t + gm2 g * p (t - dt) + gm3 g * p (t - dt - dt) <> A.
Proof.
  intros dt x v A t H HA g p. unfold g, p. rewrite (C84_acceleration_value dt dt x v A t) by assumption.
  assert (E : A * ((dt + dt)/(dt + 2*dt)) = 2/3*A) by (field; lra). rewrite E. split; [reflexivity|lra].
Qed.
(** with two stored states (backward Euler) even a uniform velocity produces an inertia force *)
Theorem C84_two_state_inertia_refuted : forall dt x v t, 0 < dt -> v <> 0 ->
  let g := disp_gamma dt dt in let p := fun t => x + v*t in
  let old := disp_nm1 2 (fun _ => p (t - dt)) (fun _ => p (t - dt - dt)) 0%nat in
  gm1 g * p t + gm2 g * p (t - dt) + gm3 g * old <> 0.
Proof.
  intros dt x v t H Hv g p old. unfold old, g, p, disp_gamma, disp_nm1. cbn [gm1 gm2 gm3 Nat.eqb].
  replace (1/(dt*(1/2*dt+dt)) * (x + v*t) + (- 1/(dt*(1/2*dt+dt)) - 1/(dt*(1/2*dt+dt))) * (x + v*(t-dt)) + 1/(dt*(1/2*dt+dt)) * (x + v*(t-dt)))
    with (v * (2/3) / dt) by (field; lra).
  intros E. apply Hv. apply (Rmult_eq_reg_r (2/3/dt)).
  - rewrite Rmult_0_l. unfold Rdiv in *. lra.
  - assert (0 < 2/3/dt) by (apply Rdiv_lt_0_compat; lra). lra.
Qed.

(* ------------------------------------------------------------------ pressure load *)
Lemma pressure_eff d npf ord N A p s :
  eff s (pressure_force d npf ord N A p s) (fun _ _ => 0)
    (fun row => sumn npf (fun ip => sumn d (fun i => dl row (ord ip*d+i) * (- (sumn npf (fun ic => N ip ic * p ic) * A ip i))))).
Proof.
  unfold pressure_force. cbv zeta. eapply eff_ext.
  - apply (eff_loop npf _ (fun _ _ _ => 0) (fun ip row => sumn d (fun i => dl row (ord ip*d+i) * (- (sumn npf (fun ic => N ip ic * p ic) * A ip i))))).
    intros ip s1 Hip. eapply eff_ext.
    + apply (eff_loop d _ (fun _ _ _ => 0) (fun i row => dl row (ord ip*d+i) * (- (sumn npf (fun ic => N ip ic * p ic) * A ip i)))).
      intros i s2 Hi. eapply eff_ext; [effs| |]; intros; cbv beta; ring.
    + intros; cbv beta. apply sumn_zero; reflexivity.
    + reflexivity.
  - intros; cbv beta. apply sumn_zero; reflexivity.
  - reflexivity.
Qed.
(** the nodal loads of a face add up to minus pressure times area; nothing enters the matrix *)
Theorem C84_pressure_load_total : forall d nodes npf ord N A p s i, (i < d)%nat -> (forall ip, (ip < npf)%nat -> (ord ip < nodes)%nat) ->
  (forall r c, eL_ (pressure_force d npf ord N A p s) r c = eL_ s r c) /\
  sumn nodes (fun a => eB (pressure_force d npf ord N A p s) (a*d+i)%nat)
  = sumn nodes (fun a => eB s (a*d+i)%nat) - sumn npf (fun ip => sumn npf (fun ic => N ip ic * p ic) * A ip i).
Proof.
  intros d nodes npf ord N A p s i Hi Ho. destruct (pressure_eff d npf ord N A p s) as [H1 H2]. split.
  - intros. rewrite H1. lra.
  - rewrite (sumn_ext nodes _ _ (fun a _ => H2 (a*d+i)%nat)), sumn_plus. unfold Rminus. f_equal.
    rewrite sumn_swap, <- sumn_opp. apply sumn_ext. intros ip Hip.
    rewrite (sumn_ext nodes _ (fun a => dl a (ord ip) * (- (sumn npf (fun ic => N ip ic * p ic) * A ip i)))).
    + apply (sumn_dl nodes (ord ip) (fun _ => - (sumn npf (fun ic => N ip ic * p ic) * A ip i))). auto.
    + intros a _. rewrite (sumn_ext d _ (fun k => dl k i * (dl a (ord ip) * (- (sumn npf (fun ic => N ip ic * p ic) * A ip k))))).
      * apply (sumn_dl d i (fun k => dl a (ord ip) * (- (sumn npf (fun ic => N ip ic * p ic) * A ip k)))). assumption.
      * intros k Hk. rewrite dl_flat by assumption. rewrite (dl_sym i k). ring.
Qed.
(** a uniform pressure pushes against the outward normal: the total is -p times the face's area vector *)
Theorem C84_uniform_pressure_load : forall d nodes npf ord N A p0 p s i, (i < d)%nat -> (forall ip, (ip < npf)%nat -> (ord ip < nodes)%nat) ->
  unity npf npf N -> (forall ic, (ic < npf)%nat -> p ic = p0) ->
  sumn nodes (fun a => eB (pressure_force d npf ord N A p s) (a*d+i)%nat)
  = sumn nodes (fun a => eB s (a*d+i)%nat) - p0 * sumn npf (fun ip => A ip i).
Proof.
  intros d nodes npf ord N A p0 p s i Hi Ho HN Hp. rewrite (proj2 (C84_pressure_load_total d nodes npf ord N A p s i Hi Ho)). f_equal.
  rewrite <- sumn_scal. apply sumn_ext. intros ip Hip. f_equal.
  rewrite (sumn_ext npf _ (fun ic => N ip ic * p0)) by (intros; rewrite Hp by assumption; reflexivity). rewrite sumn_scal_r, HN by assumption. ring.
Qed.

(* ------------------------------------------------------------------ elastic constants, mesh velocity *)
(** the value given for lame_mu is stored as the first Lame constant, and the other way round *)
Theorem C84_lame_constants_swapped_refuted : forall mu0 la0 o1 o2, mu0 <> la0 ->
  let spec := fun p => match p with LAME_MU_ID => mu0 | LAME_LAMBDA_ID => la0 end in
  lame_constant spec F_lame_mu o1 = la0 /\ lame_constant spec F_lame_lambda o2 = mu0 /\ lame_constant spec F_lame_mu o1 <> mu0.
Proof. intros mu0 la0 o1 o2 H spec. unfold lame_constant, spec. cbn. repeat split; congruence. Qed.
(** so a unit shear of a body with mu = mu0 and lambda = 0 meets no shear stress *)
Theorem C84_shear_modulus_lost_refuted : forall mu0 A, mu0 <> 0 -> A 1%nat <> 0 ->
  let spec := fun p => match p with LAME_MU_ID => mu0 | LAME_LAMBDA_ID => 0 end in
  let D := fun i j => match i, j with 0%nat, 1%nat => 1 | _, _ => 0 end in
  hooke_traction 3 (lame_constant spec F_lame_mu 0) (lame_constant spec F_lame_lambda 0) D A 0 = 0 /\
  hooke_traction 3 mu0 0 D A 0 <> 0.
Proof.
  intros mu0 A Hm HA spec D. unfold hooke_traction, lame_constant, spec, D, delta, sumn. cbn. split; [ring|].
  replace (0 + _ + _ + _) with (mu0 * A 1%nat) by ring. apply Rmult_integral_contrapositive_currified; assumption.
Qed.

(** mesh velocity: exact for motions linear in time, and from the second step on for quadratic ones *)
Theorem C84_mesh_velocity_linear : forall ti x v t, 0 < dtN ti -> 0 < dtNm1 ti ->
  let p := fun t => x + v*t in
  mesh_velocity (dts_of (compute_gamma ti)) (p t) (p (t - dtN ti)) (p (t - dtN ti - dtNm1 ti)) = v.
Proof.
  intros ti x v t H1 H2 p. unfold mesh_velocity, dts_of, compute_gamma, p.
  destruct (1 <? count ti)%Z; cbn [dtN g1 g2 g3 set_gamma dt ga1 ga2 ga3]; field; repeat split; try lra.
Qed.
Theorem C84_mesh_velocity_quadratic : forall ti x v A t, 0 < dtN ti -> 0 < dtNm1 ti -> (1 < count ti)%Z ->
  let p := fun t => x + v*t + A/2*(t*t) in
  mesh_velocity (dts_of (compute_gamma ti)) (p t) (p (t - dtN ti)) (p (t - dtN ti - dtNm1 ti)) = v + A*t.
Proof.
  intros ti x v A t H1 H2 Hc p. unfold mesh_velocity, dts_of, compute_gamma, p.
  rewrite (proj2 (Z.ltb_lt 1 (count ti)) Hc). cbn [dtN g1 g2 g3 set_gamma dt ga1 ga2 ga3]; field; repeat split; try lra.
Qed.
(** the stored divergence is the trace of the stored gradient, dvdx(i,j) at nDim*i+j *)
Theorem C84_div_mesh_velocity : forall d G dvdx, (forall i j, (i < d)%nat -> (j < d)%nat -> dvdx (i*d+j)%nat = G i j) ->
  div_mesh_velocity d dvdx = sumn d (fun i => G i i).
Proof. intros d G dvdx H. unfold div_mesh_velocity. apply sumn_ext. intros j Hj. rewrite (Nat.mul_comm d j). apply H; assumption. Qed.
