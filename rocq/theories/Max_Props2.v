(** C75 continued: whole histories, independence of the iterate, clipping, turbulence variables, limits of the principle *)
Require Import Reals List Bool Arith Lra Lia.
From Verif Require Import Edge_Model Edge_Proofs Edge_Props Elem_Model Elem_Proofs Elem_Proofs2 Bnd_Model Bnd_Spec Bnd_Proofs Max_Model Max_Spec Max_Props Turb_Model Turb_Props Turb_Props2.
From Verif Require Sum_Proofs Geom_Props Rad_Quad_Proofs3 Tab_LU_Props Prop_Props.
Import ListNotations.
Open Scope R_scope.

(** everything one time step must satisfy *)
Definition good_step (N : nat) (T : teq) (t : dts) (V rp1 rn qn : nat -> R) : Prop :=
  mesh_fine N T /\ monotone_scheme T /\ (forall i, t_time T i = be_time t V rp1 rn (f_q (t_f T)) qn i) /\
  continuity_holds N T t V rp1 rn /\ 0 < dt t /\ (forall i, (i < N)%nat -> 0 < V i /\ 0 < rn i) /\ (forall i, t_src T i = (0, 0)).
(** Bounds hold at all times: flow, density, time step, boundary values and the iterate the step started from may change
    arbitrarily from step to step. *)
Theorem C75_bounds_for_all_times N (T : nat -> teq) (t : nat -> dts) (V rp1 rn q : nat -> nat -> R) lo hi :
  (forall k, good_step N (T k) (t k) (V k) (rp1 k) (rn k) (q k)) -> (forall k, solved N (T k) (q (S k))) ->
  (forall k, supplied_within N (T k) lo hi) -> within N (q 0%nat) lo hi -> forall k, within N (q k) lo hi.
Proof.
  intros HG HSol HB H0. induction k as [|k IH]; [exact H0|]. destruct (HG k) as (A & B & C & D & E & F & G).
  exact (C75_maximum_principle N (T k) A B (t k) (V k) (rp1 k) (rn k) (q k) C D E F (q (S k)) lo hi G (HSol k) (HB k) IH).
Qed.
(** a transported constant stays that constant *)
Corollary C75_constant_preserved N T t V rp1 rn qn q' c : good_step N T t V rp1 rn qn -> solved N T q' ->
  supplied_within N T c c -> within N qn c c -> forall i, (i < N)%nat -> q' i = c.
Proof.
  intros (A & B & C & D & E & F & G) HSol HB HQ i Hi.
  pose proof (C75_maximum_principle N T A B t V rp1 rn qn C D E F q' c c G HSol HB HQ i Hi). lra.
Qed.
(** The result of a step does not depend on the iterate it started from: two assemblies that differ only in the current iterate
    give the same new values, and a step has at most one result. *)
Theorem C75_result_independent_of_iterate N T1 T2 t V rp1 rn qn q1 q2 :
  good_step N T1 t V rp1 rn qn -> good_step N T2 t V rp1 rn qn ->
  t_o T2 = t_o T1 -> f_x (t_f T2) = f_x (t_f T1) -> f_vrtm (t_f T2) = f_vrtm (t_f T1) -> f_rho (t_f T2) = f_rho (t_f T1) -> f_diff (t_f T2) = f_diff (t_f T1) ->
  t_mdot T2 = t_mdot T1 -> t_es T2 = t_es T1 -> t_faces T2 = t_faces T1 -> t_qE T2 = t_qE T1 -> t_dir T2 = t_dir T1 -> t_bc T2 = t_bc T1 ->
  solved N T1 q1 -> solved N T2 q2 -> forall i, (i < N)%nat -> q1 i = q2 i.
Proof.
  intros (A & B & C & D & E & F & G) (A2 & B2 & C2 & D2 & E2 & F2 & G2) Eo Ex Ev Er Ed Em Ee Ef EE Edir Eb S1 S2.
  assert (OP : forall e, scalar_edge (t_o T2) (t_f T2) (t_mdot T2) e = mkSys (s00 (scalar_edge (t_o T1) (t_f T1) (t_mdot T1) e)) (s01 (scalar_edge (t_o T1) (t_f T1) (t_mdot T1) e)) (s10 (scalar_edge (t_o T1) (t_f T1) (t_mdot T1) e)) (s11 (scalar_edge (t_o T1) (t_f T1) (t_mdot T1) e)) (sr0 (scalar_edge (t_o T2) (t_f T2) (t_mdot T2) e)) (sr1 (scalar_edge (t_o T2) (t_f T2) (t_mdot T2) e))).
  { intros e. unfold scalar_edge, e_lhsfac, pecfac_of. cbv zeta. cbn [s00 s01 s10 s11 sr0 sr1]. rewrite Eo, Ex, Ev, Er, Ed, Em. reflexivity. }
  assert (M : forall i j, tmat T2 i j = tmat T1 i j).
  { intros i j. destruct (t_dir T1 i) eqn:EQ.
    - rewrite (tmat_dir T1 i j EQ), (tmat_dir T2 i j) by (rewrite Edir; exact EQ). reflexivity.
    - rewrite (tmat_free T1 t V rp1 rn qn C i j EQ), (tmat_free T2 t V rp1 rn qn C2 i j) by (rewrite Edir; exact EQ).
      rewrite Ef, !lhs_lsum, Ee. f_equal. apply lsum_ext. intros e _. unfold add_lhs. rewrite OP. reflexivity. }
  assert (EQ : forall i, (i < N)%nat -> sumn N (fun j => tmat T1 i j * (q1 j - q2 j)) = 0).
  { intros i Hi. rewrite (sumn_ext N _ (fun j => tmat T1 i j * q1 j - tmat T2 i j * q2 j)) by (intros; rewrite M; ring). rewrite sumn_minus.
    destruct (t_dir T1 i) eqn:ED.
    - rewrite (sumn_ext N (fun j => tmat T1 i j * q1 j) (fun j => dl j i * q1 j)) by (intros; rewrite tmat_dir by exact ED; reflexivity).
      rewrite (sumn_ext N (fun j => tmat T2 i j * q2 j) (fun j => dl j i * q2 j)) by (intros; rewrite tmat_dir by (rewrite Edir; exact ED); reflexivity).
      rewrite !sumn_dl by exact Hi. rewrite (solved_dir N T1 q1 i S1 Hi ED), (solved_dir N T2 q2 i S2 Hi) by (rewrite Edir; exact ED). rewrite Eb. ring.
    - pose proof (solved_free N T1 A B t V rp1 rn qn C q1 i S1 Hi ED) as R1.
      pose proof (solved_free N T2 A2 B2 t V rp1 rn qn C2 q2 i S2 Hi ltac:(rewrite Edir; exact ED)) as R2.
      rewrite G in R1. rewrite G2, Ef, EE in R2. cbn [fst snd] in *. lra. }
  pose proof (C75_transport_matrix_is_monotone N T1 A B t V rp1 rn qn C D E F) as MM.
  intros i Hi.
  pose proof (mmatrix_pos N (tmat T1) (fun _ => 0) (fun i => q1 i - q2 i) (fun _ => 0) MM ltac:(intros; lra) ltac:(intros; lra) ltac:(intros k Hk; rewrite EQ by exact Hk; ring) i Hi).
  pose proof (mmatrix_pos N (tmat T1) (fun _ => 0) (fun i => q2 i - q1 i) (fun _ => 0) MM ltac:(intros; lra) ltac:(intros; lra)
    ltac:(intros k Hk; rewrite (sumn_ext N _ (fun j => (-1) * (tmat T1 k j * (q1 j - q2 j)))) by (intros; ring); rewrite sumn_scal, EQ by exact Hk; ring) i Hi).
  lra.
Qed.

(** ** mixture fraction clipping *)
(** The stored mixture fraction always lies in [-delta, 1+delta], is the solver's value whenever that is inside, and then nothing
    is counted as clipped; the two counters are the numbers of nodes below and above. *)
Theorem C75_clip_range delta z : 0 <= delta -> - delta <= clip delta z <= 1 + delta /\ (- delta <= z <= 1 + delta -> clip delta z = z) /\
  (z < - delta -> clip delta z = - delta) /\ (1 + delta < z -> clip delta z = 1 + delta).
Proof. intros H. unfold clip. destruct (Rlt_dec z (0 - delta)); [repeat split; intros; lra|]. destruct (Rlt_dec (1 + delta) z); repeat split; intros; lra. Qed.
Theorem C75_clip_counts N delta z : 0 <= delta ->
  num_clip N delta z = (length (filter (fun i => if Rlt_dec (z i) (- delta) then true else false) (seq 0 N)),
                        length (filter (fun i => if Rlt_dec (1 + delta) (z i) then true else false) (seq 0 N))).
Proof.
  intros H. unfold num_clip.
  assert (G : forall l c, fold_left (fun c i => if Rlt_dec (z i) (0 - delta) then (S (fst c), snd c) else if Rlt_dec (1 + delta) (z i) then (fst c, S (snd c)) else c) l c
    = ((fst c + length (filter (fun i => if Rlt_dec (z i) (- delta) then true else false) l))%nat, (snd c + length (filter (fun i => if Rlt_dec (1 + delta) (z i) then true else false) l))%nat)).
  { induction l as [|i l IH]; intros c; cbn [fold_left filter]; [cbn; rewrite !Nat.add_0_r; destruct c; reflexivity|]. rewrite IH.
    destruct (Rlt_dec (z i) (0 - delta)), (Rlt_dec (z i) (- delta)), (Rlt_dec (1 + delta) (z i)); try (exfalso; lra); cbn [fst snd length]; f_equal; lia. }
  rewrite G. reflexivity.
Qed.
(** Under the maximum principle the clipping of the mixture fraction never acts. *)
Theorem C75_mixture_fraction_not_clipped N T t V rp1 rn qn q' delta : good_step N T t V rp1 rn qn -> solved N T q' ->
  supplied_within N T 0 1 -> within N qn 0 1 -> 0 <= delta ->
  num_clip N delta q' = (0%nat, 0%nat) /\ forall i, (i < N)%nat -> clip delta (q' i) = q' i.
Proof.
  intros (A & B & C & D & E & F & G) HSol HB HQ Hd.
  pose proof (C75_maximum_principle N T A B t V rp1 rn qn C D E F q' 0 1 G HSol HB HQ) as W. split.
  - rewrite C75_clip_counts by exact Hd.
    assert (Z : forall (f : nat -> bool), (forall i, In i (seq 0 N) -> f i = false) -> length (filter f (seq 0 N)) = 0%nat).
    { intros f. induction (seq 0 N) as [|i l IH]; intros H; [reflexivity|]. cbn [filter]. rewrite (H i) by now left. apply IH. intros; apply H; now right. }
    rewrite !Z; [reflexivity| |]; intros i Hi; apply in_seq in Hi; destruct (W i) as [w1 w2]; try lia; destruct (Rlt_dec _ _); try reflexivity; exfalso; lra.
  - intros i Hi. apply C75_clip_range; [exact Hd|]. destruct (W i Hi). lra.
Qed.

(** ** turbulence variables: the abstract hypothesis of C66 is met by the edge scheme *)
Theorem C75_sst_k_nonnegative_edge_scheme N T t V rp1 rn qn q' n ratio bs (rho tke sdr mut vol : nat -> R) (G : nat -> mat) :
  mesh_fine N T -> monotone_scheme T -> (forall i, t_time T i = be_time t V rp1 rn (f_q (t_f T)) qn i) ->
  continuity_holds N T t V rp1 rn -> 0 < dt t -> (forall i, (i < N)%nat -> 0 < V i /\ 0 < rn i) ->
  0 <= ratio -> 0 <= bs -> (forall i, (i < N)%nat -> 0 <= rho i /\ 0 <= tke i /\ 0 <= sdr i /\ 0 <= mut i /\ 0 <= vol i) ->
  f_q (t_f T) = tke -> (forall i, t_src T i = src_tke_sst n ratio bs (rho i) (tke i) (sdr i) (mut i) (vol i) (G i)) ->
  (forall F ip, In F (t_faces T) -> (ip < f_npf (fst F))%nat -> snd F ip <= 0 -> 0 <= t_qE T (f_ord (fst F) ip)) ->
  (forall i, (i < N)%nat -> 0 <= qn i) -> (forall i, (i < N)%nat -> t_dir T i = true -> 0 <= t_bc T i) ->
  solved N T q' -> forall i, (i < N)%nat -> 0 <= q' i.
Proof.
  intros A B C D E F Hr Hs H Eq ES Ho Hq Hd HSol.
  apply (C75_nonnegative_with_sources N T A B t V rp1 rn qn C D E F q' HSol); try assumption.
  intros i Hi. rewrite ES, Eq. destruct (H i Hi) as (h1 & h2 & h3 & h4 & h5). unfold src_tke_sst. cbv zeta. cbn [fst snd].
  split; [repeat apply Rmult_le_pos; assumption|].
  set (Dk := bs * rho i * sdr i * tke i). assert (HD : 0 <= Dk) by (unfold Dk; repeat apply Rmult_le_pos; assumption).
  assert (HP : 0 <= limited ratio (prod2 n (G i) * mut i) Dk) by (apply limited_nonneg; [assumption|apply Rmult_le_pos; [apply prod2_nonneg|assumption]|assumption]).
  set (P := limited _ _ _) in *. replace (bs * rho i * sdr i * vol i * tke i + (P - Dk) * vol i) with (P * vol i) by (unfold Dk; ring).
  apply Rmult_le_pos; assumption.
Qed.

(** ** limits *)
Definition no_edge : sc_fields := mkFields (fun a _ => INR a) (fun _ _ => 0) (fun _ _ => 0) (fun _ => 0) (fun _ => 1) (fun _ => 0).
Definition up_opts (pf : R) : sc_opts := mkOpts 1 0 0 1 0 false false (fun _ => pf).
(** With BDF2 the principle fails even for a still fluid: values 0 and 1 at the two previous times give 4/3. *)
Theorem C75_bdf2_bounded_refuted : exists N T t V rp1 rn rm1 qn qm1 q',
  mesh_fine N T /\ monotone_scheme T /\ (forall i, t_time T i = bdf2_time t V rp1 rn rm1 (f_q (t_f T)) qn qm1 i) /\
  ga1 t = 3/2 /\ ga2 t = -2 /\ ga3 t = 1/2 /\ 0 < dt t /\ (forall i, 0 < V i /\ 0 < rn i) /\ (forall i, t_src T i = (0,0)) /\
  (forall i, (i < N)%nat -> t_dir T i = false -> (ga1 t*rp1 i + ga2 t*rn i + ga3 t*rm1 i)*V i/dt t + net_outflow (t_mdot T) (t_es T) i + open_out (t_faces T) i = 0) /\
  solved N T q' /\ within N qn 0 1 /\ within N qm1 0 1 /\ ~ within N q' 0 1.
Proof.
  set (t := mkDt 1 (3/2) (-2) (1/2)).
  set (T := mkT (up_opts 1) no_edge (fun _ => 0) [] [] (fun _ => 0) (bdf2_time t (fun _ => 1) (fun _ => 1) (fun _ => 1) (fun _ => 1) (fun _ => 0) (fun _ => 1) (fun _ => 0)) (fun _ => (0,0)) (fun _ => false) (fun _ => 0)).
  exists 1%nat, T, t, (fun _ => 1), (fun _ => 1), (fun _ => 1), (fun _ => 1), (fun _ => 1), (fun _ => 0), (fun _ => 4/3).
  split; [split; [intros e []|split; [intros; cbn; lra|intros F ip []]]|].
  split; [split; [reflexivity|intros e []]|]. split; [reflexivity|]. split; [reflexivity|]. split; [reflexivity|]. split; [reflexivity|].
  split; [cbn; lra|]. split; [intros; lra|]. split; [reflexivity|].
  split; [intros i Hi _; unfold net_outflow, open_out, lsum; cbn; lra|].
  split; [|split; [|split]].
  - intros i Hi. assert (i = 0%nat) by lia. subst i. unfold sys_lhs, sys_rhs. cbn. unfold raw_lhs, raw_rhs. cbn. lra.
  - intros i Hi. lra.
  - intros i Hi. lra.
  - intros W. specialize (W 0%nat ltac:(lia)). cbv beta in W. lra.
Qed.
(** With central differencing (no upwinding) and no diffusion the new value leaves the range of everything supplied. *)
Theorem C75_central_differencing_bounded_refuted : exists N T t V rp1 rn qn q',
  mesh_fine N T /\ o_hoUpwind (t_o T) = 0 /\ (forall i, t_time T i = be_time t V rp1 rn (f_q (t_f T)) qn i) /\
  continuity_holds N T t V rp1 rn /\ 0 < dt t /\ (forall i, 0 < V i /\ 0 < rn i) /\ (forall i, t_src T i = (0, 0)) /\
  supplied_within N T 0 1 /\ within N qn 0 1 /\ solved N T q' /\ ~ within N q' 0 1.
Proof.
  set (t := mkDt 1 1 (-1) 0).
  set (T := mkT (up_opts 0) no_edge (fun _ => 2) [mkEdge 0 1 (fun _ => 1); mkEdge 1 2 (fun _ => 1)] [] (fun _ => 0)
     (be_time t (fun _ => 1) (fun _ => 1) (fun _ => 1) (fun _ => 0) (fun _ => 0)) (fun _ => (0,0)) (fun i => negb (Nat.eqb i 1)) (fun i => if Nat.eqb i 2 then 1 else 0)).
  exists 3%nat, T, t, (fun _ => 1), (fun _ => 1), (fun _ => 1), (fun _ => 0), (fun i => match i with 1%nat => -1 | 2%nat => 1 | _ => 0 end).
  split.
  { split; [|split; [intros; cbn; lra|intros F ip []]]. intros e [<-|[<-|[]]]; cbn [eL eR]; (split; [lia|]; split; [lia|]; split; [discriminate|]; split; [unfold e_axdx, sumn, dxj; cbn; lra|cbn; discriminate]). }
  split; [reflexivity|]. split; [reflexivity|].
  split. { intros i Hi E. assert (i = 1%nat) by (cbn in E; destruct (Nat.eqb_spec i 1); [assumption|discriminate]). subst i. unfold net_outflow, open_out, lsum. cbn. lra. }
  split; [cbn; lra|]. split; [intros; lra|]. split; [reflexivity|].
  split. { split; [intros F ip []|]. intros i Hi _. cbn. destruct i as [|[|[|i]]]; cbn; lra. }
  split; [intros i Hi; lra|]. split.
  - assert (A2 : Rabs 2 = 2) by (apply Rabs_right; lra).
    intros i Hi. unfold sys_lhs, sys_rhs. destruct i as [|[|[|i]]]; [| | |lia].
    + unfold sumn. cbn. lra.
    + cbn [t_dir T Nat.eqb negb]. unfold raw_lhs, raw_rhs. unfold assembled_lhs, assembled_rhs, scalar_edge, e_lhsfac, e_diffFlux, e_face, e_qIpL, e_qIpR, visc_ip, pecfac_of, e_nonorth.
      cbn -[Rabs]. rewrite A2. unfold be_time, scalar_mass_be, t. cbn. destruct (Rlt_dec 0 2); [|lra]. do 3 (unfold add_lhs, add_rhs, e_lhsfac, visc_ip, e_diffFlux, e_nonorth, e_dq, e_axdx, e_asq, sumn, dxj; cbn). field.
    + unfold sumn. cbn. lra.
  - intros W. specialize (W 1%nat ltac:(lia)). cbv beta in W. lra.
Qed.
(** Hypotheses met: an upwinded through-flow 0 -> 1 -> 2 with an open outflow at node 2 and Dirichlet value at node 0. *)
Definition out_face : fe := mkFe 1 1 3 1 (fun _ => 2%nat) (fun _ => 2%nat) (fun _ => 0%nat) (fun _ => 1%nat) (fun _ _ => 1) (fun _ _ => 1) (fun _ _ _ => 0) (fun _ _ _ => 0) (fun _ _ => 1).
Example C75_hypotheses_met : let t := mkDt 1 1 (-1) 0 in
  let T := mkT (up_opts 1) no_edge (fun _ => 2) [mkEdge 0 1 (fun _ => 1); mkEdge 1 2 (fun _ => 1)] [(out_face, fun _ => 2)] (fun _ => 0)
     (be_time t (fun _ => 1) (fun _ => 1) (fun _ => 1) (fun _ => 0) (fun _ => 0)) (fun _ => (0,0)) (fun i => Nat.eqb i 0) (fun _ => 1) in
  let q' := fun i => match i with 0%nat => 1 | 1%nat => 2/3 | _ => 4/9 end in
  good_step 3 T t (fun _ => 1) (fun _ => 1) (fun _ => 1) (fun _ => 0) /\ supplied_within 3 T 0 1 /\ within 3 (fun _ => 0) 0 1 /\ solved 3 T q'.
Proof.
  intros t T q'. split; [|split; [|split]].
  - split.
    { split; [|split; [intros; cbn; lra|]].
      - intros e [<-|[<-|[]]]; cbn [eL eR]; (split; [lia|]; split; [lia|]; split; [discriminate|]; split; [unfold e_axdx, sumn, dxj; cbn; lra|cbn; discriminate]).
      - intros F ip [<-|[]] _. cbn. lia. }
    split. { split; [reflexivity|]. intros e He. unfold upwinding, pecfac_of, conductance, visc_ip. cbn. unfold Rdiv. split; lra. }
    split; [reflexivity|]. split; [|split; [cbn; lra|split; [intros; lra|reflexivity]]].
    intros i Hi E. destruct i as [|[|[|i]]]; [discriminate| | |lia]; unfold net_outflow, open_out, out_at, lsum, sumn; cbn; lra.
  - split; [intros F ip [<-|[]] _; cbn; lra|]. intros i Hi _. cbn. lra.
  - intros i Hi. lra.
  - assert (A2 : Rabs 2 = 2) by (apply Rabs_right; lra).
    intros i Hi. unfold sys_lhs, sys_rhs. destruct i as [|[|[|i]]]; [| | |lia].
    + unfold sumn. cbn. lra.
    + cbn [t_dir T Nat.eqb negb]. unfold raw_lhs, raw_rhs. rewrite opens_rhs. unfold assembled_lhs, assembled_rhs, scalar_edge, e_lhsfac, e_diffFlux, e_face, e_qIpL, e_qIpR, visc_ip, pecfac_of, e_nonorth.
      unfold sumn at 1. cbn [seq fold_left]. rewrite !opens_diag. unfold inflow, outflow, dl, lsum. cbn -[Rabs]. unfold sumn. cbn -[Rabs].
      rewrite A2. unfold be_time, scalar_mass_be, t. cbn. destruct (Rlt_dec 0 2); [|lra]. do 3 (unfold add_lhs, add_rhs, e_lhsfac, visc_ip, e_diffFlux, e_nonorth, e_dq, e_axdx, e_asq, sumn, dxj; cbn). field.
    + cbn [t_dir T Nat.eqb negb]. unfold raw_lhs, raw_rhs. rewrite opens_rhs. unfold assembled_lhs, assembled_rhs, scalar_edge, e_lhsfac, e_diffFlux, e_face, e_qIpL, e_qIpR, visc_ip, pecfac_of, e_nonorth.
      unfold sumn at 1. cbn [seq fold_left]. rewrite !opens_diag. unfold inflow, outflow, dl, lsum. cbn -[Rabs]. unfold sumn. cbn -[Rabs].
      rewrite A2. unfold be_time, scalar_mass_be, t. cbn. destruct (Rlt_dec 0 2); [|lra]. do 3 (unfold add_lhs, add_rhs, e_lhsfac, visc_ip, e_diffFlux, e_nonorth, e_dq, e_axdx, e_asq, sumn, dxj; cbn). field.
Qed.
