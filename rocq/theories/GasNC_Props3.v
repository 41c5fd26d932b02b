(** C103, continued: conduction, and what the code does not do. *)
From Coq Require Import Reals List Bool Arith Lra Lia Psatz Permutation.
From Verif Require Import Edge_Model Edge_Proofs Sum_Proofs Elem_Model Elem_Proofs NC_Model NC_Props NC_Props2 Gas_Model Gas_Spec Gas_Props Gas_Props2 Gas_Props3 GasNC_Model GasNC_Props GasNC_Props2.
Import ListNotations.
Open Scope R_scope.

Lemma rest_adv o f g stU a b : same_faces g -> (forall k j, n_vel f k j = 0) -> adv o 0 f g stU a b = 0.
Proof.
  intros E V. assert (M : mCO o 0 f g stU = 0).
  { unfold mCO, machC, machO. rewrite !(sumn_0 (nd o)).
    - rewrite scriptMm_open_eq. pose proof (scriptM_sum 0). lra.
    - intros j Hj. rewrite o_vec_val by assumption. unfold face_value at 1. rewrite (sumn_0 (s_nf (d_o g))) by (intros; rewrite V; ring). unfold Rdiv. ring.
    - intros j Hj. unfold c_vec, face_value at 1. rewrite (sumn_0 (s_nf (d_c g))) by (intros; rewrite V; ring). unfold Rdiv. ring. }
  unfold adv, g_adv. rewrite M, Rabs_R0. ring.
Qed.
(** Gas at rest with a linear temperature: the interface conducts exactly -k dT/dn, and passes no mass. *)
Theorem C103_linear_temperature_conducted_exactly : forall o f g X xg a b kap stM stU t, sees (nd o) X (d_c g) xg -> sees (nd o) X (d_o g) xg -> same_faces g -> opposite_normals o g ->
  c_amag o g <> 0 -> (forall k j, n_vel f k j = 0) -> (forall k, n_k f k = kap) -> (forall k, n_T f k = linear (nd o) a b (X k)) ->
  nc_gas_flux o 0 f g stM stU t (S (nd o)) = - kap * NC_Props.dot (nd o) b (d_A g) /\ nc_gas_flux o 0 f g stM stU t (nd o) = 0.
Proof.
  intros o f g X xg a b kap stM stU t S1 S2 E On HA V K T. split.
  2:{ unfold nc_gas_flux. rewrite Nat.ltb_irrefl, Nat.eqb_refl. unfold nc_fc. now apply rest_adv. }
  unfold nc_gas_flux. replace (Nat.ltb (S (nd o)) (nd o)) with false by (symmetry; apply Nat.ltb_ge; lia). replace (Nat.eqb (S (nd o)) (nd o)) with false by (symmetry; apply Nat.eqb_neq; lia).
  unfold nc_fe. cbv zeta. rewrite rest_adv by assumption.
  assert (Kc : face_value (d_c g) (n_k f) = kap) by (apply fv_const; [apply S1|assumption]). assert (Ko : face_value (d_o g) (n_k f) = kap) by (apply fv_const; [apply S2|assumption]). rewrite Kc, Ko.
  assert (Tc : face_value (d_c g) (n_T f) = linear (nd o) a b xg) by (rewrite <- (face_value_linear (nd o) X (d_c g) xg a b S1); now apply face_value_ext).
  assert (To : face_value (d_o g) (n_T f) = linear (nd o) a b xg) by (rewrite <- (face_value_linear (nd o) X (d_o g) xg a b S2); now apply face_value_ext). rewrite Tc, To.
  assert (G : forall s, sees (nd o) X s xg -> forall j, (j < nd o)%nat -> gT f s j = b j).
  { intros s Ss j Hj. rewrite <- (grad_linear (nd o) X s xg a b j Ss Hj). unfold gT, grad_at. apply sumn_ext; intros. now rewrite T. }
  assert (A1 : sumn (nd o) (fun i => - kap * gT f (d_c g) i * cNx o g i + sumn (nd o) (fun j => - c_vec g (n_vel f) i * fst (next_tau o f g t) i j * cNx o g j)) = - kap * NC_Props.dot (nd o) b (cNx o g)).
  { unfold NC_Props.dot. rewrite <- sumn_scal. apply sumn_ext; intros i Hi. rewrite (G (d_c g) S1 i Hi). rewrite (sumn_0 (nd o)); [ring|].
    intros j Hj. unfold c_vec, face_value. rewrite (sumn_0 (s_nf (d_c g))) by (intros; rewrite V; ring). ring. }
  assert (A2 : sumn (nd o) (fun i => - kap * gT f (d_o g) i * oNx o g i + sumn (nd o) (fun j => - o_vec o g stU (n_vel f) i * snd (next_tau o f g t) i j * oNx o g j)) = kap * NC_Props.dot (nd o) b (cNx o g)).
  { unfold NC_Props.dot. rewrite <- sumn_scal. apply sumn_ext; intros i Hi. rewrite (G (d_o g) S2 i Hi), (On i Hi). rewrite (sumn_0 (nd o)); [ring|].
    intros j Hj. rewrite o_vec_val by assumption. unfold face_value. rewrite (sumn_0 (s_nf (d_o g))) by (intros; rewrite V; ring). ring. }
  rewrite A1, A2. rewrite <- (cNx_A o g b HA). field.
Qed.

(** ** examples: the two triangles of NC_Props2 with a common side of length one *)
Definition fld (rho : nat -> R) (vel : nat -> nat -> R) (mu : R) (mesh : nat -> nat -> R) : gnf :=
  mkGnf rho (fun k j => rho k * vel k j) vel (fun _ => 0) (fun _ => 0) (fun _ => 0) (fun _ => 1) (fun _ => mu) (fun _ => 0) mesh.
Definition t0 : taus := (fun _ _ => 0, fun _ _ => 0).
Definition z0 : nat -> R := fun _ => 0.
Lemma ex_cN j : cNx ex_o ex_g j = ex_A j.
Proof. unfold cNx. rewrite ex_amag. cbn. field. Qed.
Lemma ex_oN j : oNx ex_o ex_g j = - ex_A j.
Proof. unfold oNx. cbn. now rewrite ex_cN. Qed.
Lemma ex_cN' j : cNx ex_o ex_g' j = - ex_A j.
Proof. unfold cNx. rewrite ex_amag'. cbn. field. Qed.
Lemma ex_oN' j : oNx ex_o ex_g' j = ex_A j.
Proof. unfold oNx. cbn. rewrite ex_cN'. ring. Qed.
Lemma sm0 : scriptMp 0 = 3/8 /\ scriptMm_open 0 = - (3/8).
Proof. unfold scriptMp, scriptMm_open, pow2. rewrite Rabs_R0. destruct (Rle_dec 1 0), (Rlt_dec 1 0); lra. Qed.
Ltac sums := repeat match goal with |- context [sumn ?n ?F] => let n' := eval compute in n in unfold sumn; cbn [seq fold_left] end.
(** a point where the interpolated velocities vanish: no advection, the pressure is the mean *)
Lemma still o f g st : same_faces g -> (forall j, (j < nd o)%nat -> face_value (d_c g) (fun k => n_vel f k j) = 0) -> (forall j, (j < nd o)%nat -> face_value (d_o g) (fun k => n_vel f k j) = 0) ->
  machC o 0 f g = 0 /\ machO o f g st = 0.
Proof.
  intros E V W. unfold machC, machO. split; apply sumn_0; intros j Hj.
  - unfold c_vec. rewrite V by assumption. unfold Rdiv. ring.
  - rewrite o_vec_val, W by assumption. unfold Rdiv. ring.
Qed.
Lemma still_adv o f g st a b : machC o 0 f g = 0 -> machO o f g st = 0 -> adv o 0 f g st a b = 0.
Proof.
  intros E1 E2. assert (M : mCO o 0 f g st = 0) by (unfold mCO; rewrite E1, E2, scriptMm_open_eq; pose proof (scriptM_sum 0); lra).
  unfold adv, g_adv. rewrite M, Rabs_R0. ring.
Qed.
(** the momentum flux when the pressure is zero and the gas is at rest at the point *)
Lemma still_fm f g stM stU i : same_faces g -> (i < 2)%nat -> (forall k, n_p f k = 0) ->
  (forall j, (j < 2)%nat -> face_value (d_c g) (fun k => n_vel f k j) = 0) -> (forall j, (j < 2)%nat -> face_value (d_o g) (fun k => n_vel f k j) = 0) ->
  face_value (d_c g) (fun k => n_mom f k i) = 0 -> face_value (d_o g) (fun k => n_mom f k i) = 0 ->
  nc_fm ex_o 0 f g stM stU i =
  (1/2)*((2/3*face_value (d_c g) (n_mu f)*gdiv ex_o f (d_c g)*cNx ex_o g i + sumn 2 (fun j => - face_value (d_c g) (n_mu f)*(gU f (d_c g) i j + gU f (d_c g) j i)*cNx ex_o g j))
       - (2/3*face_value (d_o g) (n_mu f)*gdiv ex_o f (d_o g)*cNx ex_o g i + sumn 2 (fun j => - face_value (d_o g) (n_mu f)*(gU f (d_o g) i j + gU f (d_o g) j i)*oNx ex_o g j)))*c_amag ex_o g.
Proof.
  intros E Hi P V W M1 M2. unfold nc_fm. cbv zeta. destruct (still ex_o f g stU E V W) as (A & B). rewrite (still_adv _ _ _ _ _ _ A B).
  assert (Q : pCO ex_o 0 f g stU = 0) by (unfold pCO; unfold face_value; rewrite !sumn_0 by (intros; rewrite P; ring); ring).
  rewrite Q. rewrite o_vec_val by assumption. unfold c_vec. rewrite M1, M2. change (nd ex_o) with 2%nat. ring.
Qed.
(** The viscous traction of a linear velocity field (no mesh motion, gas at rest at the point, no pressure) is not what the
    interface exchanges: the velocity gradient is accumulated with the derivative direction of the component. *)
Theorem C103_linear_velocity_exact_stress_refuted : exists o g X xg f b mu, sees (nd o) X (d_c g) xg /\ sees (nd o) X (d_o g) xg /\ mirrored o g ex_g' /\ same_faces g /\
  0 < mu /\ (forall k, n_mu f k = mu) /\ (forall k, n_rho f k = 1) /\ (forall k, n_p f k = 0) /\
  (forall k j, n_vel f k j = linear (nd o) 0 (b j) (X k)) /\ (forall k j, n_mom f k j = n_vel f k j) /\ (forall j, linear (nd o) 0 (b j) xg = 0) /\
  forall stM stU t, nc_gas_flux o 0 f g stM stU t 1%nat <>
   - mu * sumn (nd o) (fun j => (b 1%nat j + b j 1%nat - (if Nat.eqb 1 j then 2/3 * sumn (nd o) (fun i => b i i) else 0)) * d_A g j).
Proof.
  destruct C79_hypotheses_met as (H1 & H2 & H3 & H4 & H5 & _).
  set (b := fun j i : nat => if (Nat.eqb j 1 && Nat.eqb i 0)%bool then 1 else 0).
  exists ex_o, ex_g, ex_X, ex_xg, (fld (fun _ => 1) (fun k j => linear 2 0 (b j) (ex_X k)) 1 (fun _ _ => 0)), b, 1.
  do 4 (split; [assumption || reflexivity|]). split; [lra|]. do 4 (split; [reflexivity|]). split; [intros; cbn; ring|].
  split. { intros j. unfold linear, b. cbn. destruct (Nat.eqb j 1); cbn; ring. }
  intros stM stU t. unfold nc_gas_flux. cbn [nd ex_o Nat.ltb Nat.leb].
  rewrite still_fm; try reflexivity; try lia.
  2:{ intros j Hj. unfold face_value, fld, linear, b; cbn. destruct (Nat.eqb j 1); cbn; field. }
  2:{ intros j Hj. unfold face_value, fld, linear, b; cbn. destruct (Nat.eqb j 1); cbn; field. }
  2,3: unfold face_value, fld, linear, b; cbn; field.
  rewrite ex_amag. unfold sumn at 1 2; cbn [seq fold_left]. rewrite !ex_cN, !ex_oN. unfold gdiv, gU, face_value, fld, linear, b, ex_A. cbn. lra.
Qed.
(** ** what is exchanged in total *)
Lemma ex_pair_total f stM stU t k : sum_rows [2%nat; 3%nat] (fst (nc_gas_loop ex_o 0 f stM stU [ex_g; ex_g'] ((fun _ _ => 0), t))) k
  = - nc_gas_flux ex_o 0 f ex_g (stM ex_g) (stU ex_g) t k - nc_gas_flux ex_o 0 f ex_g' (stM ex_g') (stU ex_g') (next_tau ex_o f ex_g t) k.
Proof.
  unfold nc_gas_loop. cbn [fold_left]. unfold nc_gas_step at 1. cbn [fst snd]. unfold nc_gas_step at 1. cbn [fst snd]. unfold nc_gas_step. cbn [fst snd].
  unfold sum_rows, lsum, add_to. cbn. ring.
Qed.
Lemma ex_pairs : pairs ex_o [ex_g; ex_g'].
Proof. destruct C79_hypotheses_met as (_ & _ & _ & _ & M & _). cbn [pairs]. repeat split; try assumption; apply M. Qed.

Lemma ex_reg : regular ex_o ex_g.
Proof. split; [reflexivity|split; [|split]]; [split; [cbn; lra|intros [|[|j]] Hj; cbn in *; (lia || lra)]..|cbn; lra]. Qed.
Lemma ex_reg' : regular ex_o ex_g'.
Proof. split; [reflexivity|split; [|split]]; [split; [cbn; lra|intros [|[|j]] Hj; cbn in *; (lia || lra)]..|cbn; lra]. Qed.
(** Momentum is not conserved when the dilatation differs on the two sides: the isotropic part of the opposing stress is taken
    with the current normal. *)
Theorem C103_momentum_conserved_refuted : exists o f l nodes i, (i < nd o)%nat /\ pairs o l /\ NoDup nodes /\ (forall g, In g l -> In (row_of g) nodes) /\ (forall k, 0 < n_rho f k) /\ (forall k, 0 < n_mu f k) /\
  forall stM stU t, sum_rows nodes (fst (nc_gas_loop o 0 f stM stU l ((fun _ _ => 0), t))) i <> 0.
Proof.
  set (f := fld (fun _ => 1) (fun k j => if (Nat.eqb k 0 && Nat.eqb j 0)%bool then -1 else 0) 1 (fun _ _ => 0)).
  exists ex_o, f, [ex_g; ex_g'], [2%nat; 3%nat], 0%nat. split; [cbn; lia|]. split; [exact ex_pairs|].
  split; [repeat constructor; cbn; intuition lia|]. split; [intros g [<-|[<-|[]]]; cbn; auto|]. split; [intro; cbn; lra|]. split; [intro; cbn; lra|].
  intros stM stU t. rewrite ex_pair_total. unfold nc_gas_flux. cbn [nd ex_o Nat.ltb Nat.leb].
  rewrite !still_fm; try reflexivity; try lia; try (intros j Hj; unfold face_value, f, fld; cbn; field); try (unfold face_value, f, fld; cbn; field).
  rewrite ex_amag, ex_amag'. unfold sumn; cbn [seq fold_left]. rewrite !ex_cN, !ex_oN, !ex_cN', !ex_oN'. unfold gdiv, gU, face_value, f, fld, ex_A. cbn. lra.
Qed.
(** Energy is not conserved: the off-diagonal entries of the two stress arrays are never set back, so the work of the stress at
    one point is counted again at the next. *)
Theorem C103_energy_conserved_refuted : exists o f l nodes t, clean (nd o) t /\ pairs o l /\ NoDup nodes /\ (forall g, In g l -> In (row_of g) nodes) /\ (forall k, 0 < n_rho f k) /\ (forall k, 0 < n_mu f k) /\
  (forall g, In g l -> face_value (d_c g) (n_mu f) * gdiv o f (d_c g) = face_value (d_o g) (n_mu f) * gdiv o f (d_o g)) /\
  forall stM stU, sum_rows nodes (fst (nc_gas_loop o 0 f stM stU l ((fun _ _ => 0), t))) (S (nd o)) <> 0.
Proof.
  set (f := fld (fun _ => 1) (fun k j => match j with 0%nat => ex_X k 0%nat | _ => 1 end) 1 (fun _ _ => 0)).
  exists ex_o, f, [ex_g; ex_g'], [2%nat; 3%nat], t0. split; [intros a b _ _ _; split; reflexivity|]. split; [exact ex_pairs|].
  split; [repeat constructor; cbn; intuition lia|]. split; [intros g [<-|[<-|[]]]; cbn; auto|]. split; [intro; cbn; lra|]. split; [intro; cbn; lra|].
  split. { intros g [<-|[<-|[]]]; unfold face_value, gdiv, gU, f, fld; cbn; field. }
  intros stM stU. rewrite ex_pair_total. unfold nc_gas_flux. cbn [nd ex_o Nat.ltb Nat.leb Nat.eqb].
  assert (V : forall g, In g [ex_g; ex_g'] -> forall st a b, adv ex_o 0 f g st a b = 0).
  { intros g G st a b. apply still_adv.
    - destruct G as [<-|[<-|[]]]; unfold machC, sumn; cbn [seq fold_left nd ex_o]; rewrite ?ex_cN, ?ex_cN'; unfold c_vec, face_value, f, fld, ex_A; cbn; field.
    - destruct G as [<-|[<-|[]]]; unfold machO, sumn; cbn [seq fold_left nd ex_o]; rewrite ?ex_cN, ?ex_cN', !o_vec_val by (reflexivity || (cbn; lia)); unfold face_value, f, fld, ex_A; cbn; field. }
  unfold nc_fe. cbv zeta. rewrite !V by (cbn; auto). rewrite ex_amag, ex_amag'. change (nd ex_o) with 2%nat. unfold sumn; cbn [seq fold_left].
  rewrite !ex_cN, !ex_oN, !ex_cN', !ex_oN', !o_vec_val by (reflexivity || (cbn; lia)).
  unfold next_tau, tau_row, gdiv, gU, gT, c_vec, face_value, f, fld, ex_A, inv_length, sumn; cbn [seq fold_left nd ex_o].
  rewrite !ex_cN, !ex_oN, !ex_cN', !ex_oN'. unfold ex_A. cbn. lra.
Qed.
(** ** forces that should not be there *)
(** a stream of uniform velocity along the interface, with different densities on the two sides: the penalty acts on momentum
    per volume, so the viscous force is not zero *)
Theorem C103_uniform_velocity_no_viscous_force_refuted : exists o f g u i, (i < nd o)%nat /\ regular o g /\ mirrored o g ex_g' /\ sumn (nd o) (fun j => u j * d_A g j) = 0 /\
  (forall k j, n_vel f k j = u j) /\ (forall k j, n_mom f k j = n_rho f k * u j) /\ (forall k, 0 < n_rho f k) /\ (forall k, n_p f k = 0) /\ (forall k, n_c f k = 1) /\
  forall stM stU t, nc_gas_flux o 0 f g stM stU t i <> 0.
Proof.
  destruct C79_hypotheses_met as (_ & _ & _ & _ & M & _).
  set (u := fun j : nat => match j with 0%nat => 0 | _ => 1 end).
  set (f := fld (fun k => if Nat.ltb k 3 then 1 else 1/2) (fun _ j => u j) 1 (fun _ _ => 0)).
  exists ex_o, f, ex_g, u, 1%nat. split; [cbn; lia|]. split; [exact ex_reg|].
  split; [exact M|]. split; [unfold u, ex_A; cbn; lra|]. split; [reflexivity|]. split; [reflexivity|]. split; [intro k; change (0 < if Nat.ltb k 3 then 1 else 1/2); destruct (Nat.ltb k 3); lra|]. do 2 (split; [reflexivity|]).
  intros stM stU t. unfold nc_gas_flux. cbn [nd ex_o Nat.ltb Nat.leb]. unfold nc_fm. cbv zeta.
  assert (Z1 : machC ex_o 0 f ex_g = 0) by (unfold machC, sumn; cbn [seq fold_left nd ex_o]; rewrite ?ex_cN; unfold c_vec, face_value, f, fld, ex_A, u; cbn; field).
  assert (Z2 : machO ex_o f ex_g stU = 0) by (unfold machO, sumn; cbn [seq fold_left nd ex_o]; rewrite ?ex_cN, !o_vec_val by (reflexivity || (cbn; lia)); unfold face_value, f, fld, ex_A, u; cbn; field).
  rewrite (still_adv _ _ _ _ _ _ Z1 Z2), ex_amag, !o_vec_val by (reflexivity || (cbn; lia)). unfold pCO. change (nd ex_o) with 2%nat. unfold sumn; cbn [seq fold_left].
  unfold inv_length, sumn; cbn [seq fold_left nd ex_o]. rewrite !ex_cN, !ex_oN. unfold gdiv, gU, c_vec, face_value, f, fld, gA, ex_A, u. cbn. lra.
Qed.
(** a mesh that moves with the gas should meet no flow, but the opposing Mach number does not subtract the mesh velocity *)
Theorem C103_gas_at_rest_on_moving_mesh_refuted : exists o f g u, regular o g /\ mirrored o g ex_g' /\ uniform (nd o) f 1 u 0 0 0 1 /\ (forall k j, n_mesh f k j = u j) /\
  forall stM stU t, 0 < nc_gas_flux o 1 f g stM stU t (nd o).
Proof.
  destruct C79_hypotheses_met as (_ & _ & _ & _ & M & _).
  set (u := fun j : nat => match j with 0%nat => 2 | _ => 0 end).
  set (f := fld (fun k => 1) (fun _ j => u j) 1 (fun _ j => u j)).
  exists ex_o, f, ex_g, u. split; [exact ex_reg|].
  split; [exact M|]. split; [intro k; do 5 (split; [reflexivity|]); intros j Hj; cbn; split; ring|]. split; [reflexivity|].
  intros stM stU t. unfold nc_gas_flux. rewrite Nat.ltb_irrefl, Nat.eqb_refl. unfold nc_fc, adv, g_adv, mCO.
  assert (Z1 : machC ex_o 1 f ex_g = 0) by (unfold machC, sumn; cbn [seq fold_left nd ex_o]; rewrite ?ex_cN; unfold c_vec, face_value, f, fld, ex_A, u; cbn; field).
  assert (Z2 : machO ex_o f ex_g stU = 2) by (unfold machO, sumn; cbn [seq fold_left nd ex_o]; rewrite ?ex_cN, !o_vec_val by (reflexivity || (cbn; lia)); unfold face_value, f, fld, ex_A, u; cbn; field).
  rewrite Z1, Z2. destruct sm0 as (-> & _). assert (Z3 : scriptMm_open 2 = 0) by (unfold scriptMm_open; rewrite Rabs_pos_eq by lra; destruct (Rlt_dec 1 2); lra). rewrite Z3, ex_amag, Rabs_pos_eq by lra.
  unfold face_value, f, fld; cbn. lra.
Qed.
(** ** faces with different numbers of nodes *)
Definition tq_c : side := mkSide 3 (fun i => i) 3 (fun i => i) (fun _ => 1/3) (fun _ _ => 0) (fun _ => 0).
Definition tq_o : side := mkSide 4 (fun i => (i+3)%nat) 4 (fun i => i) (fun _ => 1/4) (fun _ _ => 0) (fun _ => 0).
Definition tq_A (j : nat) : R := match j with 1%nat => 1 | _ => 0 end.
Definition tq : dg := mkDg tq_c tq_o 0 tq_A.
(** a triangle facing a quadrilateral: the opposing vectors are gathered with the stride of the current face and read with the
    stride of the opposing face, so a stream along the interface is given a velocity across it *)
Theorem C103_uniform_stream_any_faces_refuted : exists o f g rho u p H T cs, unity (nd o) (d_c g) /\ unity (nd o) (d_o g) /\ 0 < sumn (nd o) (fun j => d_A g j * d_A g j) /\
  uniform (nd o) f rho u p H T cs /\ 0 < cs /\ 0 < rho /\ forall stM stU t, clean (nd o) t -> nc_gas_flux o 0 f g stM stU t (nd o) <> euler_flux (nd o) rho u p H (d_A g) (nd o).
Proof.
  set (u := fun j : nat => match j with 2%nat => 4 | _ => 0 end).
  set (f := fld (fun k => 1) (fun _ j => u j) 0 (fun _ _ => 0)).
  exists (mkNc 3 1 true), f, tq, 1, u, 0, 0, 0, 1. split; [split; [cbn; lra|intros; cbn; lra]|]. split; [split; [cbn; lra|intros; cbn; lra]|]. split; [cbn; lra|].
  split; [intro k; do 5 (split; [reflexivity|]); intros j Hj; cbn; split; ring|]. do 2 (split; [lra|]). intros stM stU t _.
  assert (Am : c_amag (mkNc 3 1 true) tq = 1) by (unfold c_amag; cbn; replace (0 + 0*0 + 1*1 + 0*0) with (1*1) by ring; apply sqrt_square; lra).
  unfold nc_gas_flux. rewrite Nat.ltb_irrefl, Nat.eqb_refl. unfold nc_fc, adv, g_adv, mCO.
  assert (Z1 : machC (mkNc 3 1 true) 0 f tq = 0) by (unfold machC, sumn; cbn [seq fold_left nd]; unfold cNx; rewrite Am; unfold c_vec, face_value, f, fld, tq_A, u; cbn; field).
  assert (Z2 : machO (mkNc 3 1 true) f tq stU = 1) by (unfold machO, sumn; cbn [seq fold_left nd]; unfold cNx; rewrite Am; unfold o_vec, interp_vec, gather_vec, face_value, f, fld, tq_A, u; cbn; field).
  rewrite Z1, Z2. destruct sm0 as (-> & _). assert (Z3 : scriptMm_open 1 = 0) by (unfold scriptMm_open, pow2; rewrite Rabs_R1; destruct (Rlt_dec 1 1); lra). rewrite Z3, Am, Rabs_pos_eq by lra.
  unfold euler_flux. cbn. unfold face_value, f, fld, u; cbn. lra.
Qed.
(** ** the hypotheses are met *)
Example C103_case : regular ex_o ex_g /\ regular ex_o ex_g' /\ pairs ex_o [ex_g; ex_g'] /\ clean 2 t0 /\ NoDup [2%nat; 3%nat] /\ (forall g, In g [ex_g; ex_g'] -> In (row_of g) [2%nat; 3%nat]) /\
  sees 2 ex_X (d_c ex_g) ex_xg /\ sees 2 ex_X (d_o ex_g) ex_xg /\ uniform 2 (fld (fun _ => 2) (fun _ _ => 3) 1 (fun _ _ => 0)) 2 (fun _ => 3) 0 0 0 1 /\ inviscid (fld (fun _ => 2) (fun _ _ => 3) 0 (fun _ _ => 0)) ex_g.
Proof.
  destruct C79_hypotheses_met as (H1 & H2 & _).
  split; [exact ex_reg|]. split; [exact ex_reg'|]. split; [exact ex_pairs|]. split; [intros a b _ _ _; split; reflexivity|].
  split; [repeat constructor; cbn; intuition lia|]. split; [intros g [<-|[<-|[]]]; cbn; auto|]. do 2 (split; [assumption|]).
  split; [intro k; repeat split|]. repeat split; unfold face_value, fld; cbn; field.
Qed.
