(** C103: compressible flow across a non-conformal interface: what passes one way leaves the other, and a uniform stream is
    not disturbed. *)
From Coq Require Import Reals List Bool Arith Lra Lia Psatz Permutation.
From Verif Require Import Edge_Model Edge_Proofs Sum_Proofs Elem_Model NC_Model NC_Props Gas_Model Gas_Spec Gas_Props Gas_Props2 Gas_Props3 GasNC_Model.
Import ListNotations.
Open Scope R_scope.

(** ** vocabulary *)
(** both faces have the same number of nodes *)
Definition same_faces (g : dg) : Prop := s_nf (d_c g) = s_nf (d_o g).
(** a state seen through the shape functions of one face *)
Definition seen (s : side) (q : nat -> R) : R := face_value s q.
(** no viscous stress left over from earlier points *)
Definition clean (d : nat) (t : taus) : Prop := forall i j, (i < d)%nat -> (j < d)%nat -> i <> j -> fst t i j = 0 /\ snd t i j = 0.
(** neither viscosity nor conductivity at the point *)
Definition inviscid (f : gnf) (g : dg) : Prop :=
  face_value (d_c g) (n_mu f) = 0 /\ face_value (d_o g) (n_mu f) = 0 /\ face_value (d_c g) (n_k f) = 0 /\ face_value (d_o g) (n_k f) = 0.
(** the gas as an interior edge of area A would see it, with the current side as its left node 0 and the opposing side as its
    right node 1; the left node moves with the mesh *)
Definition as_edge_fields (mm : R) (f : gnf) (g : dg) : gas_fields :=
  let pick (q : nat -> R) k := match k with O => seen (d_c g) q | _ => seen (d_o g) q end in
  let pickv (q : nat -> nat -> R) k j := match k with O => seen (d_c g) (fun a => q a j) | _ => seen (d_o g) (fun a => q a j) end in
  mkGas (fun k j => INR k * d_A g j) (pick (n_rho f)) (pickv (n_mom f)) (pickv (n_vel f))
    (fun k j => match k with O => seen (d_c g) (fun a => n_vel f a j) - mm * seen (d_c g) (fun a => n_mesh f a j) | _ => seen (d_o g) (fun a => n_vel f a j) end)
    (pick (n_H f)) (pick (n_p f)) (pick (n_T f)) (pick (n_c f)) (fun _ => 0) (fun _ => 0).
Definition as_edge (g : dg) : edge := mkEdge 0 1 (d_A g).

(** ** the gather *)
Lemma inner_write n d (v : nat -> nat -> R) ni : (ni < n)%nat -> forall (st : nat -> R) i nj, (nj < n)%nat ->
  fold_left (fun a i => fun k => if Nat.eqb k (i*n + ni) then v ni i else a k) (seq 0 d) st (i*n + nj)%nat
  = if (Nat.ltb i d && Nat.eqb nj ni)%bool then v ni i else st (i*n + nj)%nat.
Proof.
  intros Hn. induction d as [|d IH]; intros st i nj Hj; [reflexivity|].
  rewrite seq_S, fold_left_app. cbn [fold_left Nat.add]. destruct (Nat.eqb_spec (i*n+nj) (d*n+ni)) as [E|E].
  - assert (i = d /\ nj = ni) as [-> ->] by (destruct (Nat.lt_trichotomy i d) as [?|[?|?]]; nia).
    rewrite Nat.eqb_refl, andb_true_r. replace (Nat.ltb d (S d)) with true by (symmetry; apply Nat.ltb_lt; lia). reflexivity.
  - rewrite IH by assumption. destruct (Nat.eqb_spec nj ni) as [->|]; rewrite ?andb_false_r, ?andb_true_r; [|reflexivity].
    destruct (Nat.ltb_spec i d), (Nat.ltb_spec i (S d)); try reflexivity; try lia. assert (i = d) by lia. subst. congruence.
Qed.
Lemma outer_write n d (v : nat -> nat -> R) i ni : (i < d)%nat -> (ni < n)%nat -> forall m (st : nat -> R), (m <= n)%nat ->
  fold_left (fun a nj => fold_left (fun a i => fun k => if Nat.eqb k (i*n + nj) then v nj i else a k) (seq 0 d) a) (seq 0 m) st (i*n + ni)%nat
  = if Nat.ltb ni m then v ni i else st (i*n + ni)%nat.
Proof.
  intros Hi Hn. induction m as [|m IH]; intros st Hm; [reflexivity|]. rewrite seq_S, fold_left_app. cbn [fold_left Nat.add].
  rewrite inner_write by lia. rewrite IH by lia. apply Nat.ltb_lt in Hi. rewrite Hi. cbn [andb].
  destruct (Nat.eqb_spec ni m) as [->|]; [replace (Nat.ltb m (S m)) with true by (symmetry; apply Nat.ltb_lt; lia); reflexivity|].
  destruct (Nat.ltb_spec ni m), (Nat.ltb_spec ni (S m)); try reflexivity; lia.
Qed.
(** With equally many face nodes the opposing vectors are what they should be; the old contents of the array do not matter. *)
Lemma o_vec_val o g st v i : same_faces g -> (i < nd o)%nat -> o_vec o g st v i = face_value (d_o g) (fun k => v k i).
Proof.
  intros E Hi. unfold o_vec, interp_vec, face_value, gather_vec. rewrite E. apply sumn_ext; intros ni Hn. f_equal.
  rewrite outer_write by (auto; lia). apply Nat.ltb_lt in Hn. now rewrite Hn.
Qed.

(** ** inviscid flow: the interior flux *)
Lemma mach_c o mm f g : same_faces g -> machC o mm f g = g_mach (nd o) (as_edge_fields mm f g) (as_edge g) 0.
Proof. intros _. unfold machC, g_mach. apply sumn_ext; intros j Hj. reflexivity. Qed.
Lemma mach_o o mm f g stU : same_faces g -> machO o f g stU = g_mach (nd o) (as_edge_fields mm f g) (as_edge g) 1.
Proof. intros E. unfold machO, g_mach. apply sumn_ext; intros j Hj. rewrite o_vec_val by assumption. reflexivity. Qed.
Lemma mco_val o mm f g stU : same_faces g -> mCO o mm f g stU = g_mLR (nd o) (as_edge_fields mm f g) (as_edge g).
Proof. intros E. unfold mCO, g_mLR. rewrite scriptMm_open_eq, mach_c, (mach_o o mm) by assumption. reflexivity. Qed.
Lemma pco_val o mm f g stU : same_faces g -> pCO o mm f g stU = g_pLR (nd o) (as_edge_fields mm f g) (as_edge g).
Proof. intros E. unfold pCO, g_pLR. rewrite mach_c, (mach_o o mm) by assumption. reflexivity. Qed.
Lemma adv_val o mm f g stU a b : same_faces g ->
  adv o mm f g stU a b = g_adv (g_amag (nd o) (as_edge g)) (g_mLR (nd o) (as_edge_fields mm f g) (as_edge g)) (a * seen (d_c g) (n_c f)) (b * seen (d_o g) (n_c f)).
Proof. intros E. unfold adv. rewrite (mco_val o mm f g stU E). reflexivity. Qed.
Lemma sumn_0 n (F : nat -> R) : (forall j, (j < n)%nat -> F j = 0) -> sumn n F = 0.
Proof. intros H. rewrite (sumn_ext n F (fun j => 0 * 0)), sumn_scal; [lra|]. intros j Hj. rewrite (H j Hj). lra. Qed.
Lemma edge_visc n g e : g_muIp g e = 0 -> (forall i, g_dfm n g e i = 0) /\ (g_kappa g (eL e) + g_kappa g (eR e) = 0 -> g_dfe n g e = 0).
Proof.
  intros M. assert (T : forall i j, g_tau n g e i j = 0) by (intros; unfold g_tau; rewrite M; destruct (Nat.eqb i j); ring). split.
  - intros i. rewrite dfm_val, M. rewrite (sumn_0 n) by (intros; rewrite T; ring). destruct (Nat.ltb i n); ring.
  - intros K. rewrite dfe_val, K. rewrite (sumn_0 n) by (intros; rewrite (sumn_0 n) by (intros; rewrite T; ring); ring). ring.
Qed.
Lemma next_clean o f g t : (gdiv o f (d_c g) = 0 \/ face_value (d_c g) (n_mu f) = 0) -> (gdiv o f (d_o g) = 0 \/ face_value (d_o g) (n_mu f) = 0) ->
  (forall i j, (i < nd o)%nat -> (j < nd o)%nat -> face_value (d_c g) (n_mu f) * (gU f (d_c g) i j + gU f (d_c g) j i) = 0) ->
  (forall i j, (i < nd o)%nat -> (j < nd o)%nat -> face_value (d_o g) (n_mu f) * (gU f (d_o g) i j + gU f (d_o g) j i) = 0) ->
  clean (nd o) t -> forall i j, (i < nd o)%nat -> (j < nd o)%nat -> fst (next_tau o f g t) i j = 0 /\ snd (next_tau o f g t) i j = 0.
Proof.
  intros D1 D2 U1 U2 C i j Hi Hj. unfold next_tau, tau_row. cbn [fst snd]. pose proof (proj2 (Nat.ltb_lt i (nd o)) Hi) as L1. pose proof (proj2 (Nat.ltb_lt j (nd o)) Hj) as L2. rewrite L1, L2. cbn [andb].
  rewrite U1, U2 by assumption. destruct (Nat.eqb_spec i j) as [->|N].
  - split; [destruct D1 as [-> | ->]|destruct D2 as [-> | ->]]; ring.
  - destruct (C i j Hi Hj N) as (-> & ->). split; ring.
Qed.
Lemma fe_without_stress o mm f g stU t : (forall i j, (i < nd o)%nat -> (j < nd o)%nat -> fst t i j = 0 /\ snd t i j = 0) ->
  nc_fe o mm f g stU t = adv o mm f g stU (face_value (d_c g) (n_H f)) (face_value (d_o g) (n_H f))
   + (1/2*(sumn (nd o) (fun i => - face_value (d_c g) (n_k f)*gT f (d_c g) i*cNx o g i) - sumn (nd o) (fun i => - face_value (d_o g) (n_k f)*gT f (d_o g) i*oNx o g i))
      + (face_value (d_c g) (n_k f)*inv_length o (d_c g) (cNx o g) + face_value (d_o g) (n_k f)*inv_length o (d_o g) (oNx o g))/2*(face_value (d_c g) (n_T f) - face_value (d_o g) (n_T f)))*c_amag o g.
Proof.
  intros Z. unfold nc_fe. cbv zeta.
  assert (E1 : forall n v F, sumn (nd o) (fun i => F i + sumn (nd o) (fun j => - v i * fst t i j * n j)) = sumn (nd o) F).
  { intros n v F. apply sumn_ext; intros i Hi. rewrite (sumn_0 (nd o)); [ring|]. intros j Hj. destruct (Z i j Hi Hj) as (-> & _). ring. }
  assert (E2 : forall n v F, sumn (nd o) (fun i => F i + sumn (nd o) (fun j => - v i * snd t i j * n j)) = sumn (nd o) F).
  { intros n v F. apply sumn_ext; intros i Hi. rewrite (sumn_0 (nd o)); [ring|]. intros j Hj. destruct (Z i j Hi Hj) as (_ & ->). ring. }
  rewrite E1, E2. reflexivity.
Qed.
(** Without viscosity and conduction the flux of every quantity is the one an interior edge of the same area would carry
    between the states of the two faces. *)
Theorem C103_inviscid_flux_is_the_interior_flux : forall o mm f g stM stU t k, same_faces g -> inviscid f g -> clean (nd o) t -> (k < nd o + 2)%nat ->
  nc_gas_flux o mm f g stM stU t k = gas_flux (nd o) (as_edge_fields mm f g) (as_edge g) k.
Proof.
  intros o mm f g stM stU t k E (I1 & I2 & I3 & I4) C Hk. unfold nc_gas_flux, gas_flux.
  destruct (edge_visc (nd o) (as_edge_fields mm f g) (as_edge g)) as (V1 & V2); [unfold g_muIp; cbn; ring|].
  destruct (Nat.ltb_spec k (nd o)) as [L|L].
  - rewrite V1. unfold nc_fm. cbv zeta. rewrite I1, I2. rewrite !(sumn_0 (nd o)) by (intros; ring). rewrite o_vec_val, adv_val, pco_val by assumption. unfold g_fm. cbn [as_edge_fields as_edge eL eR g_mom g_c eA]. unfold gA, c_vec, seen. field.
  - destruct (Nat.eqb_spec k (nd o)).
    + unfold nc_fc, g_fc. rewrite adv_val by assumption. reflexivity.
    + rewrite V2 by (cbn; ring). rewrite fe_without_stress.
      2:{ apply next_clean; auto; intros; rewrite ?I1, ?I2; ring. }
      rewrite I3, I4. rewrite !(sumn_0 (nd o)) by (intros; ring). rewrite adv_val by assumption. unfold g_fe. cbn [as_edge_fields as_edge eL eR g_H g_c]. unfold seen. field.
Qed.
(** Momentum, energy and mass then come from the side the gas flows from. *)
Theorem C103_inviscid_donor : forall o mm f g stM stU t, same_faces g -> inviscid f g -> clean (nd o) t ->
  0 < sumn (nd o) (fun j => d_A g j * d_A g j) ->
  0 < seen (d_c g) (n_c f) -> 0 < seen (d_o g) (n_c f) -> 0 < seen (d_c g) (n_rho f) -> 0 < seen (d_o g) (n_rho f) ->
  let mass := nc_gas_flux o mm f g stM stU t (nd o) in
  let donor := if Rlt_dec 0 mass then d_c g else d_o g in
  nc_gas_flux o mm f g stM stU t (S (nd o)) = mass * (seen donor (n_H f) / seen donor (n_rho f))
  /\ exists p, forall i, (i < nd o)%nat -> nc_gas_flux o mm f g stM stU t i = mass * (seen donor (fun k => n_mom f k i) / seen donor (n_rho f)) + p * d_A g i.
Proof.
  intros o mm f g stM stU t E I C HA c1 c2 r1 r2 mass donor.
  pose proof (C55_donor_cell (nd o) (as_edge_fields mm f g) (as_edge g) HA c1 c2 r1 r2) as D. cbv zeta in D.
  assert (M : mass = gas_flux (nd o) (as_edge_fields mm f g) (as_edge g) (nd o)) by (apply C103_inviscid_flux_is_the_interior_flux; auto; lia).
  destruct (edge_visc (nd o) (as_edge_fields mm f g) (as_edge g)) as (V1 & V2); [unfold g_muIp; cbn; ring|].
  rewrite <- M in D. destruct D as (D1 & D2). split.
  - rewrite (C103_inviscid_flux_is_the_interior_flux o mm f g stM stU t (S (nd o)) E I C) by lia. unfold gas_flux at 1.
    replace (Nat.ltb (S (nd o)) (nd o)) with false by (symmetry; apply Nat.ltb_ge; lia). replace (Nat.eqb (S (nd o)) (nd o)) with false by (symmetry; apply Nat.eqb_neq; lia).
    rewrite V2 by (cbn; ring). rewrite D1. unfold donor. destruct (Rlt_dec 0 mass); cbn; unfold seen; ring.
  - eexists. intros i Hi. rewrite (C103_inviscid_flux_is_the_interior_flux o mm f g stM stU t i E I C) by lia. unfold gas_flux at 1. rewrite (proj2 (Nat.ltb_lt i (nd o)) Hi), V1, D2 by assumption.
    unfold donor. destruct (Rlt_dec 0 mass); cbn; unfold seen; rewrite Rplus_0_r; reflexivity.
Qed.
