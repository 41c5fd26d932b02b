(** C103, continued: uniform streams, opposite fluxes and conserved totals. *)
From Coq Require Import Reals List Bool Arith Lra Lia Psatz Permutation.
From Verif Require Import Edge_Model Edge_Proofs Sum_Proofs Elem_Model Elem_Proofs NC_Model NC_Props Gas_Model Gas_Spec Gas_Props Gas_Props2 Gas_Props3 GasNC_Model GasNC_Props.
Import ListNotations.
Open Scope R_scope.

(** the gas is in one state at every node *)
Definition uniform (d : nat) (f : gnf) (rho : R) (u : nat -> R) (p H T cs : R) : Prop :=
  forall k, n_rho f k = rho /\ n_p f k = p /\ n_H f k = H /\ n_T f k = T /\ n_c f k = cs /\ forall j, (j < d)%nat -> n_vel f k j = u j /\ n_mom f k j = rho * u j.
(** shape functions sum to one on the face, their derivatives to zero in the element *)
Definition unity (d : nat) (s : side) : Prop := sumn (s_nf s) (s_r s) = 1 /\ forall j, (j < d)%nat -> sumn (s_npe s) (fun ic => s_dndx s ic j) = 0.
Definition regular (o : ncopt) (g : dg) : Prop := same_faces g /\ unity (nd o) (d_c g) /\ unity (nd o) (d_o g) /\ 0 < sumn (nd o) (fun j => d_A g j * d_A g j).
Definition row_of (g : dg) : nat := s_node (d_c g) (s_ord (d_c g) (d_nn g)).

Lemma fv_const s q v : sumn (s_nf s) (s_r s) = 1 -> (forall k, q k = v) -> face_value s q = v.
Proof. intros U E. unfold face_value. rewrite (sumn_ext _ _ (fun ic => s_r s ic * v)) by (intros; now rewrite E). rewrite sumn_scal_r, U. ring. Qed.
Lemma gU_const d f s u : unity d s -> (forall k j, (j < d)%nat -> n_vel f k j = u j) -> forall i j, (i < d)%nat -> gU f s i j = 0.
Proof. intros (_ & U) E i j Hi. unfold gU. rewrite (sumn_ext _ _ (fun ic => s_dndx s ic i * u i)) by (intros; now rewrite E). rewrite sumn_scal_r, U by assumption. ring. Qed.
Lemma gT_const d f s T : unity d s -> (forall k, n_T f k = T) -> forall i, (i < d)%nat -> gT f s i = 0.
Proof. intros (_ & U) E i Hi. unfold gT. rewrite (sumn_ext _ _ (fun ic => s_dndx s ic i * T)) by (intros; now rewrite E). rewrite sumn_scal_r, U by assumption. ring. Qed.

Section Uniform.
Variables (o : ncopt) (f : gnf) (rho : R) (u : nat -> R) (p H T cs : R).
Hypothesis U : uniform (nd o) f rho u p H T cs.
Hypothesis Hcs : 0 < cs.
Lemma u_vel k j : (j < nd o)%nat -> n_vel f k j = u j.
Proof. intros Hj. apply (U k), Hj. Qed.
Lemma uni_gU s i j : unity (nd o) s -> (i < nd o)%nat -> gU f s i j = 0.
Proof. intros; eapply gU_const; eauto. apply u_vel. Qed.
Lemma uni_div s : unity (nd o) s -> gdiv o f s = 0.
Proof. intros K. unfold gdiv. apply sumn_0. intros; now apply uni_gU. Qed.
Lemma uni_state g k : unity (nd o) (d_c g) -> unity (nd o) (d_o g) -> gas_state_is (nd o) (as_edge_fields 0 f g) k rho u p H T cs.
Proof.
  intros (K1 & _) (K2 & _). unfold gas_state_is, as_edge_fields, seen. cbn [g_rho g_p g_H g_T g_c g_vel g_vrtm g_mom].
  do 5 (split; [destruct k; apply fv_const; auto; intro k0; apply (U k0)|]).
  intros j Hj. repeat split.
  - destruct k; apply fv_const; auto; intro k0; now apply (U k0).
  - destruct k; [rewrite Rmult_0_l, Rminus_0_r|]; apply fv_const; auto; intro k0; now apply (U k0).
  - destruct k; apply fv_const; auto; intro k0; now apply (U k0).
Qed.
Lemma uni_next g t : unity (nd o) (d_c g) -> unity (nd o) (d_o g) -> clean (nd o) t -> forall i j, (i < nd o)%nat -> (j < nd o)%nat -> fst (next_tau o f g t) i j = 0 /\ snd (next_tau o f g t) i j = 0.
Proof. intros K1 K2 C. apply next_clean; auto; try (left; now apply uni_div); intros; rewrite !uni_gU by assumption; ring. Qed.
(** In a uniform stream over a mesh at rest the flux is that of the stream through the area, for any viscosity and
    conductivity. *)
Theorem C103_uniform_stream_flux : forall g stM stU t k, regular o g -> clean (nd o) t -> (k < nd o + 2)%nat ->
  nc_gas_flux o 0 f g stM stU t k = euler_flux (nd o) rho u p H (d_A g) k.
Proof.
  intros g stM stU t k (E & K1 & K2 & HA) C Hk.
  change (d_A g) with (eA (as_edge g)); rewrite <- (C55_flux_consistent (nd o) (as_edge_fields 0 f g) (as_edge g) rho u p H T cs k HA Hcs) by (now apply uni_state).
  destruct (edge_visc (nd o) (as_edge_fields 0 f g) (as_edge g)) as (V1 & V2); [unfold g_muIp; cbn; ring|].
  unfold nc_gas_flux, gas_flux. destruct (Nat.ltb_spec k (nd o)) as [L|L].
  - rewrite V1. unfold nc_fm. cbv zeta. rewrite !uni_div by assumption.
    rewrite (sumn_0 (nd o) (fun j => _ * (gU f (d_c g) k j + _) * _)) by (intros; rewrite !uni_gU by assumption; ring).
    rewrite (sumn_0 (nd o) (fun j => _ * (gU f (d_o g) k j + _) * _)) by (intros; rewrite !uni_gU by assumption; ring).
    rewrite o_vec_val, adv_val, pco_val by assumption. unfold g_fm. cbn [as_edge_fields as_edge eL eR g_mom g_c eA]. unfold gA, c_vec.
    assert (M : face_value (d_c g) (fun k0 => n_mom f k0 k) = face_value (d_o g) (fun k0 => n_mom f k0 k)).
    { rewrite (fv_const (d_c g) _ (rho * u k)), (fv_const (d_o g) _ (rho * u k)); [reflexivity|apply K2| |apply K1|]; intro; now apply U. }
    unfold seen. rewrite M. field.
  - destruct (Nat.eqb_spec k (nd o)).
    + unfold nc_fc, g_fc. rewrite adv_val by assumption. reflexivity.
    + rewrite V2 by (cbn; ring). rewrite fe_without_stress by (now apply uni_next).
      rewrite (sumn_0 (nd o) (fun i => _ * gT f (d_c g) i * _)) by (intros; rewrite (gT_const (nd o) f (d_c g) T); auto; [ring|intro; apply U]).
      rewrite (sumn_0 (nd o) (fun i => _ * gT f (d_o g) i * _)) by (intros; rewrite (gT_const (nd o) f (d_o g) T); auto; [ring|intro; apply U]).
      assert (M : face_value (d_c g) (n_T f) = face_value (d_o g) (n_T f)).
      { rewrite (fv_const (d_c g) _ T), (fv_const (d_o g) _ T); [reflexivity|apply K2| |apply K1|]; intro; now apply U. }
      rewrite M, adv_val by assumption. unfold g_fe. cbn [as_edge_fields as_edge eL eR g_H g_c]. unfold seen. field.
Qed.
(** So every row receives the flux of the stream through the interface area of that row: if its control volume is closed
    the stream is not disturbed. *)
Theorem C103_uniform_stream_undisturbed : forall l stM stU r0 t0 i k, (forall g, In g l -> regular o g) -> clean (nd o) t0 -> (k < nd o + 2)%nat ->
  fst (nc_gas_loop o 0 f stM stU l (r0, t0)) i k = r0 i k - lsum (fun g => if Nat.eqb i (row_of g) then euler_flux (nd o) rho u p H (d_A g) k else 0) l.
Proof.
  intros l stM stU r0 t0 i k Hl C Hk. revert r0 t0 C. induction l as [|g l IH]; intros r0 t0 C; [unfold lsum; cbn; ring|].
  rewrite lsum_cons. unfold nc_gas_loop. cbn [fold_left]. unfold nc_gas_step at 2. cbn [fst snd]. fold (nc_gas_loop o 0 f stM stU l).
  change (fold_left (nc_gas_step o 0 f stM stU) l) with (nc_gas_loop o 0 f stM stU l). rewrite IH.
  - unfold add_to. fold (row_of g). rewrite (C103_uniform_stream_flux g) by (auto; apply Hl; now left). destruct (Nat.eqb i (row_of g)); ring.
  - intros; apply Hl; now right.
  - intros a b Ha Hb _. destruct (Hl g (or_introl eq_refl)) as (_ & K1 & K2 & _). now apply uni_next.
Qed.
End Uniform.

(** ** the same point from the other side (mesh at rest) *)
Section Mirror.
Variables (o : ncopt) (f : gnf) (g g' : dg).
Hypothesis M : mirrored o g g'.
Hypothesis E : same_faces g.
Let E' : same_faces g'.
Proof. unfold same_faces in *. destruct M as (-> & -> & _). now symmetry. Qed.
Let m1 : d_c g' = d_o g. Proof. apply M. Qed.
Let m2 : d_o g' = d_c g. Proof. apply M. Qed.
Let opp j : (j < nd o)%nat -> oNx o g j = - cNx o g j. Proof. intros; now apply M. Qed.
Lemma mir_machC st : machC o 0 f g' = - machO o f g st.
Proof.
  unfold machC, machO. rewrite m1, m2, <- sumn_opp. apply sumn_ext; intros j Hj. rewrite o_vec_val by assumption. unfold c_vec. rewrite m1.
  rewrite (mirror_cNx o g g' M j Hj), (opp j Hj). rewrite (Rplus_comm (face_value (d_o g) (n_c f))). unfold Rdiv. ring.
Qed.
Lemma mir_machO st' : machO o f g' st' = - machC o 0 f g.
Proof.
  unfold machC, machO. rewrite m1, m2, <- sumn_opp. apply sumn_ext; intros j Hj. rewrite o_vec_val by assumption. unfold c_vec. rewrite m2.
  rewrite (mirror_cNx o g g' M j Hj), (opp j Hj). rewrite (Rplus_comm (face_value (d_o g) (n_c f))). unfold Rdiv. ring.
Qed.
Lemma mir_mCO st st' : mCO o 0 f g' st' = - mCO o 0 f g st.
Proof. unfold mCO. rewrite (mir_machC st), mir_machO, !scriptMm_open_eq, scriptMp_opp, scriptMm_opp. ring. Qed.
Lemma mir_pCO st st' : pCO o 0 f g' st' = pCO o 0 f g st.
Proof. unfold pCO. rewrite (mir_machC st), mir_machO, scriptPp_opp, scriptPm_opp, m1, m2. ring. Qed.
Lemma mir_adv st st' a b : adv o 0 f g' st' b a = - adv o 0 f g st a b.
Proof. unfold adv, g_adv. rewrite (mir_mCO st st'), (mirror_amag o g g' M), m1, m2, Rabs_Ropp. ring. Qed.
(** Mass leaves one side as it enters the other. *)
Theorem C103_mass_flux_antisymmetric : forall stM stU stM' stU' t t', nc_gas_flux o 0 f g' stM' stU' t' (nd o) = - nc_gas_flux o 0 f g stM stU t (nd o).
Proof. intros. unfold nc_gas_flux. rewrite Nat.ltb_irrefl, Nat.eqb_refl. unfold nc_fc. rewrite m1, m2. apply mir_adv. Qed.
(** So does momentum, if the dilatation part of the stress is the same on both sides. *)
Theorem C103_momentum_flux_antisymmetric : forall stM stU stM' stU' t t' i, (i < nd o)%nat ->
  face_value (d_c g) (n_mu f) * gdiv o f (d_c g) = face_value (d_o g) (n_mu f) * gdiv o f (d_o g) ->
  nc_gas_flux o 0 f g' stM' stU' t' i = - nc_gas_flux o 0 f g stM stU t i.
Proof.
  intros stM stU stM' stU' t t' i Hi D. unfold nc_gas_flux. rewrite (proj2 (Nat.ltb_lt _ _) Hi). unfold nc_fm. cbv zeta. rewrite !o_vec_val by assumption. unfold c_vec.
  rewrite (mir_pCO stU stU'), (mirror_amag o g g' M), m1, m2, (mir_adv stU stU').
  rewrite (inv_length_ext o (d_o g) _ _ (mirror_cNx o g g' M)), (inv_length_ext o (d_c g) _ _ (mirror_oNx o g g' M)).
  rewrite (sumn_ext (nd o) (fun j => _ * _ * cNx o g' j) (fun j => - face_value (d_o g) (n_mu f) * (gU f (d_o g) i j + gU f (d_o g) j i) * oNx o g j)) by (intros; now rewrite (mirror_cNx o g g' M)).
  rewrite (sumn_ext (nd o) (fun j => _ * _ * oNx o g' j) (fun j => - face_value (d_c g) (n_mu f) * (gU f (d_c g) i j + gU f (d_c g) j i) * cNx o g j)) by (intros; now rewrite (mirror_oNx o g g' M)).
  rewrite (mirror_cNx o g g' M i Hi), (opp i Hi). assert (A : gA g' i = - gA g i) by (unfold gA; now apply M). rewrite A.
  rewrite !Rmult_assoc in *. rewrite <- !(Rmult_assoc (face_value _ _) (gdiv _ _ _)), D. rewrite !Rmult_assoc. field.
Qed.
Lemma mir_tau t t' i j : clean (nd o) t -> clean (nd o) t' -> (i < nd o)%nat -> (j < nd o)%nat ->
  fst (next_tau o f g' t') i j = snd (next_tau o f g t) i j /\ snd (next_tau o f g' t') i j = fst (next_tau o f g t) i j.
Proof.
  intros C C' Hi Hj. unfold next_tau, tau_row. cbn [fst snd]. rewrite (proj2 (Nat.ltb_lt _ _) Hi), (proj2 (Nat.ltb_lt _ _) Hj), m1, m2. cbn [andb].
  destruct (Nat.eqb_spec i j) as [|N]; [split; reflexivity|]. destruct (C i j Hi Hj N) as (-> & ->), (C' i j Hi Hj N) as (-> & ->). split; reflexivity.
Qed.
(** And energy, provided no stress is left over from earlier points. *)
Theorem C103_energy_flux_antisymmetric : forall stM stU stM' stU' t t', clean (nd o) t -> clean (nd o) t' ->
  nc_gas_flux o 0 f g' stM' stU' t' (S (nd o)) = - nc_gas_flux o 0 f g stM stU t (S (nd o)).
Proof.
  intros stM stU stM' stU' t t' C C'. unfold nc_gas_flux. replace (Nat.ltb (S (nd o)) (nd o)) with false by (symmetry; apply Nat.ltb_ge; lia). replace (Nat.eqb (S (nd o)) (nd o)) with false by (symmetry; apply Nat.eqb_neq; lia).
  unfold nc_fe. cbv zeta. rewrite m1, m2, (mir_adv stU stU'), (mirror_amag o g g' M).
  rewrite (inv_length_ext o (d_o g) _ _ (mirror_cNx o g g' M)), (inv_length_ext o (d_c g) _ _ (mirror_oNx o g g' M)).
  assert (S1 : sumn (nd o) (fun i => - face_value (d_o g) (n_k f) * gT f (d_o g) i * cNx o g' i + sumn (nd o) (fun j => - c_vec g' (n_vel f) i * fst (next_tau o f g' t') i j * cNx o g' j))
             = sumn (nd o) (fun i => - face_value (d_o g) (n_k f) * gT f (d_o g) i * oNx o g i + sumn (nd o) (fun j => - o_vec o g stU (n_vel f) i * snd (next_tau o f g t) i j * oNx o g j))).
  { apply sumn_ext; intros i Hi. rewrite (mirror_cNx o g g' M i Hi). f_equal. apply sumn_ext; intros j Hj. rewrite (mirror_cNx o g g' M j Hj), (proj1 (mir_tau t t' i j C C' Hi Hj)), o_vec_val by assumption. unfold c_vec. rewrite m1. reflexivity. }
  assert (S2 : sumn (nd o) (fun i => - face_value (d_c g) (n_k f) * gT f (d_c g) i * oNx o g' i + sumn (nd o) (fun j => - o_vec o g' stU' (n_vel f) i * snd (next_tau o f g' t') i j * oNx o g' j))
             = sumn (nd o) (fun i => - face_value (d_c g) (n_k f) * gT f (d_c g) i * cNx o g i + sumn (nd o) (fun j => - c_vec g (n_vel f) i * fst (next_tau o f g t) i j * cNx o g j))).
  { apply sumn_ext; intros i Hi. rewrite (mirror_oNx o g g' M i Hi). f_equal. apply sumn_ext; intros j Hj. rewrite (mirror_oNx o g g' M j Hj), (proj2 (mir_tau t t' i j C C' Hi Hj)), o_vec_val by assumption. unfold c_vec. rewrite m2. reflexivity. }
  rewrite S1, S2. field.
Qed.
End Mirror.

(** ** totals over the interface *)
(** the points, in some order, are mirrored pairs *)
Fixpoint pairs (o : ncopt) (l : list dg) : Prop :=
  match l with
  | g :: g' :: t => mirrored o g g' /\ same_faces g /\ pairs o t
  | [] => True
  | _ => False end.
Definition sum_rows (nodes : list nat) (r : gas_rhs) (k : nat) : R := lsum (fun i => r i k) nodes.
Lemma add_to_total nodes r n dv k : NoDup nodes -> In n nodes -> sum_rows nodes (add_to r n dv) k = sum_rows nodes r k + dv k.
Proof.
  unfold sum_rows. induction nodes as [|a l IH]; intros ND I; [destruct I|]. rewrite !lsum_cons. apply NoDup_cons_iff in ND. destruct ND as (N & ND). destruct I as [->|I].
  - unfold add_to at 1. rewrite Nat.eqb_refl.
    rewrite (lsum_ext (fun i => add_to r n dv i k) (fun i => r i k)); [ring|]. intros i Hi. unfold add_to. destruct (Nat.eqb_spec i n) as [->|]; [contradiction|reflexivity].
  - rewrite IH by assumption. unfold add_to. destruct (Nat.eqb_spec a n) as [->|]; [contradiction|ring].
Qed.
(** if the flux of quantity k does not depend on the stress arrays *)
Lemma loop_total o mm f stM stU nodes k (F : dg -> R) (P : taus -> Prop) : forall l r0 t0, NoDup nodes -> (forall g, In g l -> In (row_of g) nodes) ->
  (forall g t, In g l -> P t -> nc_gas_flux o mm f g (stM g) (stU g) t k = F g /\ P (next_tau o f g t)) -> P t0 ->
  sum_rows nodes (fst (nc_gas_loop o mm f stM stU l (r0, t0))) k = sum_rows nodes r0 k - lsum F l.
Proof.
  induction l as [|g l IH]; intros r0 t0 ND In_ HF P0; [unfold lsum; cbn; ring|].
  rewrite lsum_cons. change (nc_gas_loop o mm f stM stU (g :: l) (r0, t0)) with (nc_gas_loop o mm f stM stU l (nc_gas_step o mm f stM stU (r0, t0) g)).
  destruct (HF g t0 (or_introl eq_refl) P0) as (F1 & P1). unfold nc_gas_step. cbn [fst snd]. rewrite IH; auto; [|intros; apply In_; now right|intros; apply HF; auto; now right].
  fold (row_of g). rewrite add_to_total by (auto; apply In_; now left). rewrite F1. ring.
Qed.
Lemma pairs_cancel o F : (forall g g', mirrored o g g' -> same_faces g -> F g' = - F g) -> forall l, pairs o l -> lsum F l = 0.
Proof.
  intros A. induction l as [|a|a b t IH] using pair_induction; [reflexivity|intros []|]. intros (M & E & Hp). rewrite !lsum_cons, (A a b M E), (IH Hp). ring.
Qed.
Lemma pairs_same o l : pairs o l -> forall g, In g l -> same_faces g.
Proof.
  induction l as [|a|a b t IH] using pair_induction; [intros _ g []|intros []|]. intros (M & E & Hp) g [<-|[<-|I]]; [assumption| |now apply IH].
  unfold same_faces in *. destruct M as (-> & -> & _). now symmetry.
Qed.
(** On matching points the interface neither creates nor destroys mass ... *)
Theorem C103_mass_conserved : forall o f stM stU nodes l l' r0 t0, Permutation l l' -> pairs o l' -> NoDup nodes -> (forall g, In g l -> In (row_of g) nodes) ->
  sum_rows nodes (fst (nc_gas_loop o 0 f stM stU l (r0, t0))) (nd o) = sum_rows nodes r0 (nd o).
Proof.
  intros o f stM stU nodes l l' r0 t0 Pm Hp ND I.
  rewrite (loop_total o 0 f stM stU nodes (nd o) (fun g => nc_gas_flux o 0 f g (stM g) (stU g) t0 (nd o)) (fun _ => True)); auto.
  - rewrite (lsum_perm _ _ _ Pm), (pairs_cancel o); [ring| |assumption]. intros g g' M E. now apply C103_mass_flux_antisymmetric.
  - intros g t _ _. split; [|exact Logic.I]. unfold nc_gas_flux. rewrite Nat.ltb_irrefl, Nat.eqb_refl. reflexivity.
Qed.
(** ... nor momentum when the dilatation stresses of the two sides are equal ... *)
Theorem C103_momentum_conserved_partial : forall o f stM stU nodes l l' r0 t0 i, Permutation l l' -> pairs o l' -> NoDup nodes -> (forall g, In g l -> In (row_of g) nodes) -> (i < nd o)%nat ->
  (forall g, In g l -> face_value (d_c g) (n_mu f) * gdiv o f (d_c g) = face_value (d_o g) (n_mu f) * gdiv o f (d_o g)) ->
  sum_rows nodes (fst (nc_gas_loop o 0 f stM stU l (r0, t0))) i = sum_rows nodes r0 i.
Proof.
  intros o f stM stU nodes l l' r0 t0 i Pm Hp ND I Hi D.
  rewrite (loop_total o 0 f stM stU nodes i (fun g => nc_gas_flux o 0 f g (stM g) (stU g) t0 i) (fun _ => True)); auto.
  - rewrite (lsum_perm _ _ _ Pm). assert (D' : forall g, In g l' -> face_value (d_c g) (n_mu f) * gdiv o f (d_c g) = face_value (d_o g) (n_mu f) * gdiv o f (d_o g)) by (intros; apply D; apply (Permutation_in _ (Permutation_sym Pm)); assumption).
    clear - Hp Hi D'. enough (Z : lsum (fun g => nc_gas_flux o 0 f g (stM g) (stU g) t0 i) l' = 0) by (rewrite Z; ring).
    revert Hp D'. induction l' as [|a|a b t IH] using pair_induction; [reflexivity|intros []|]. intros (M & E & Hp) D'.
    rewrite !lsum_cons, IH by (auto; intros; apply D'; right; right; assumption). rewrite (C103_momentum_flux_antisymmetric o f a b M E (stM a) (stU a) (stM b) (stU b) t0 t0 i Hi (D' a (or_introl eq_refl))). ring.
  - intros g t _ _. split; [|exact Logic.I]. unfold nc_gas_flux. now rewrite (proj2 (Nat.ltb_lt _ _) Hi).
Qed.
(** ... nor energy in a flow without viscosity, with any conductivity. *)
Theorem C103_energy_conserved_partial : forall o f stM stU nodes l l' r0 t0, Permutation l l' -> pairs o l' -> NoDup nodes -> (forall g, In g l -> In (row_of g) nodes) -> clean (nd o) t0 ->
  (forall g, In g l -> face_value (d_c g) (n_mu f) = 0 /\ face_value (d_o g) (n_mu f) = 0) ->
  sum_rows nodes (fst (nc_gas_loop o 0 f stM stU l (r0, t0))) (S (nd o)) = sum_rows nodes r0 (S (nd o)).
Proof.
  intros o f stM stU nodes l l' r0 t0 Pm Hp ND I C D.
  assert (NC : forall g t, In g l -> clean (nd o) t -> forall i j, (i < nd o)%nat -> (j < nd o)%nat -> fst (next_tau o f g t) i j = 0 /\ snd (next_tau o f g t) i j = 0).
  { intros g t Ig Ct. destruct (D g Ig) as (D1 & D2). apply next_clean; auto; intros; rewrite ?D1, ?D2; ring. }
  rewrite (loop_total o 0 f stM stU nodes (S (nd o)) (fun g => nc_gas_flux o 0 f g (stM g) (stU g) t0 (S (nd o))) (clean (nd o))); auto.
  - rewrite (lsum_perm _ _ _ Pm), (pairs_cancel o); [ring| |assumption]. intros g g' M E. now apply C103_energy_flux_antisymmetric.
  - intros g t Ig Ct. split; [|intros i j Hi Hj _; now apply NC].
    unfold nc_gas_flux. replace (Nat.ltb (S (nd o)) (nd o)) with false by (symmetry; apply Nat.ltb_ge; lia). replace (Nat.eqb (S (nd o)) (nd o)) with false by (symmetry; apply Nat.eqb_neq; lia).
    rewrite !fe_without_stress by (now apply NC). reflexivity.
Qed.
