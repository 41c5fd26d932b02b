(** C73: mass through open and inflow boundaries, and the reported mass closure. *)
Require Import Reals List Bool Lra Lia Arith Psatz Permutation.
From Verif Require Import RUtil Edge_Model Edge_Proofs Edge_Props Elem_Model Elem_Spec Elem_Proofs Elem_Proofs2 Bnd_Model Bnd_Spec Bnd_Proofs Bnd_Props Bnd_Props2 Bnd_Props3.
Import ListNotations.
Open Scope R_scope.

(** the same boundary data with the nodal pressure replaced *)
Definition with_p (c : ofields) (p : nat -> R) : ofields :=
  mkOf (of_x c) p (of_rho c) (of_v c) (of_Gp c) (of_pbc c) (of_dynp c).
(** all open faces assembled one after the other into one system *)
Definition open_system (fs : list fe) (tau noc : R) (c : ofields) : esys :=
  fold_left (fun s f => continuity_open_edge f tau noc c s) fs zero_sys.

Lemma mdot_open_edge_p f tau noc c p e ip : mdot_open_edge f tau noc (with_p c (fun a => p a + e a)) ip
  = mdot_open_edge f tau noc (with_p c p) ip
    + tau*((1/2)*(f_asq f ip*(1/o_axdx f (of_x c) ip)))*(e (f_op f ip) + e (f_ord f ip)).
Proof. unfold mdot_open_edge. cbv zeta. cbn [with_p of_x of_p of_rho of_v of_Gp of_pbc of_dynp]. rewrite !fold_seq_sumn. ring. Qed.
Lemma invL_axj f p e ip j : o_dp f (fun a => p a + e a) ip j = o_dp f p ip j + o_dp f e ip j.
Proof. unfold o_dp. rewrite <- sumn_plus. apply sumn_ext. intros; ring. Qed.
Lemma mdot_open_elem_p f pen tau c p e ip : mdot_open_elem f pen tau (with_p c (fun a => p a + e a)) ip
  = mdot_open_elem f pen tau (with_p c p) ip
    + tau*(pen*invL f ip*at_face f e ip*f_amag f ip - sumn (f_d f) (fun j => o_dp f e ip j * f_A f ip j)).
Proof.
  unfold mdot_open_elem. cbv zeta. cbn [with_p of_x of_p of_rho of_v of_Gp of_pbc of_dynp]. rewrite !fold_seq_sumn.
  assert (E : at_face f (fun a => p a + e a) ip = at_face f p ip + at_face f e ip).
  { unfold at_face. rewrite <- sumn_plus. apply sumn_ext. intros; ring. }
  rewrite E.
  set (B := - of_dynp c ip + _).
  rewrite (sumn_ext (f_d f) (fun j => (_ - tau*(o_dp f (fun a => p a + e a) ip j - _)) * _)
    (fun j => (sumn (f_npf f) (fun ic => f_N f ip ic * of_rho c (f_ord f ic) * of_v c (f_ord f ic * f_d f + j)%nat)
       - tau*(o_dp f p ip j - sumn (f_npf f) (fun ic => f_N f ip ic * of_Gp c (f_ord f ic * f_d f + j)%nat)))*f_A f ip j
       + (- tau)*(o_dp f e ip j * f_A f ip j))) by (intros; rewrite invL_axj; ring).
  rewrite sumn_plus, sumn_scal. ring.
Qed.

(** C73: the continuity equation at an open boundary receives exactly the mass flow rate that the separate
    mass-flow algorithm stores for the transported equations *)
Theorem C73_edge_same_mass_flow : forall f tau noc c s i,
  eB (continuity_open_edge f tau noc c s) i
  = eB s i - out_at (f_npf f) (f_ord f) (mdot_open_edge f tau noc c) i / tau.
Proof.
  intros. destruct (continuity_open_edge_eff f tau noc c s) as [_ H]. rewrite H, out_dl.
  unfold Rminus. f_equal. unfold Rdiv. rewrite Ropp_mult_distr_l, <- sumn_opp, <- sumn_scal_r. apply sumn_ext. intros; ring.
Qed.
Theorem C73_elem_same_mass_flow : forall f pen tau c s i,
  eB (continuity_open_elem f pen tau c s) i
  = eB s i - out_at (f_ip f) (f_nn f) (mdot_open_elem f pen tau c) i / tau.
Proof.
  intros. destruct (continuity_open_elem_eff f pen tau c s) as [_ H]. rewrite H, out_dl.
  unfold Rminus. f_equal. unfold Rdiv. rewrite Ropp_mult_distr_l, <- sumn_opp, <- sumn_scal_r. apply sumn_ext. intros; ring.
Qed.
Theorem C73_inflow_same_mass_flow : forall f tau rho ubc s i,
  eB (continuity_inflow f tau rho ubc s) i
  = eB s i - out_at (f_ip f) (f_nn f) (mdot_inflow f rho ubc) i / tau
  /\ (forall j, eL_ (continuity_inflow f tau rho ubc s) i j = eL_ s i j).
Proof.
  intros. destruct (continuity_inflow_eff f tau rho ubc s) as [H1 H]. split.
  - rewrite H, out_dl.
    unfold Rminus. f_equal. unfold Rdiv. rewrite Ropp_mult_distr_l, <- sumn_opp, <- sumn_scal_r. apply sumn_ext. intros; ring.
  - intros. rewrite H1. ring.
Qed.

(** C73: the matrices are the exact sensitivities to the pressure *)
Theorem C73_edge_open_matrix : forall f tau noc c, tau <> 0 ->
  (forall ip, (ip < f_npf f)%nat -> (f_ord f ip < f_npe f)%nat /\ (f_op f ip < f_npe f)%nat) ->
  exact_newton (f_npe f) (fun p => continuity_open_edge f tau noc (with_p c p)).
Proof.
  intros f tau noc c Ht Hm.
  apply (row_newton (f_npe f) _ (f_npf f) (f_ord f)
    (fun ip j => (dl j (f_ord f ip) + dl j (f_op f ip)) * ((1/2)*(f_asq f ip*(1/o_axdx f (of_x c) ip))))
    (fun p ip => mdot_open_edge f tau noc (with_p c p) ip/tau)).
  - intros p s. exact (continuity_open_edge_eff f tau noc (with_p c p) s).
  - intros p e ip Hip. destruct (Hm ip Hip). rewrite mdot_open_edge_p.
    rewrite (sumn_ext (f_npe f) _ (fun j => dl j (f_ord f ip) * (((1/2)*(f_asq f ip*(1/o_axdx f (of_x c) ip)))*e j) + dl j (f_op f ip) * (((1/2)*(f_asq f ip*(1/o_axdx f (of_x c) ip)))*e j))) by (intros; ring).
    rewrite sumn_plus.
    rewrite (sumn_dl (f_npe f) (f_ord f ip) (fun j => ((1/2)*(f_asq f ip*(1/o_axdx f (of_x c) ip)))*e j)) by assumption.
    rewrite (sumn_dl (f_npe f) (f_op f ip) (fun j => ((1/2)*(f_asq f ip*(1/o_axdx f (of_x c) ip)))*e j)) by assumption.
    set (K := (1/2)*(f_asq f ip*(1/o_axdx f (of_x c) ip))). field. assumption.
Qed.
Theorem C73_elem_open_matrix : forall f pen tau c, tau <> 0 -> face_ok f ->
  (forall ip ic j, f_dnl f ip ic j = f_dn f ip ic j) ->
  exact_newton (f_npe f) (fun p => continuity_open_elem f pen tau (with_p c p)).
Proof.
  intros f pen tau c Ht [Ho _] Hd.
  apply (row_newton (f_npe f) _ (f_ip f) (f_nn f)
    (fun ip j => pen*invL f ip*f_amag f ip*sumn (f_npf f) (fun ic => dl j (f_ord f ic) * f_N f ip ic)
       + sumn (f_npe f) (fun ic => dl j ic * sumn (f_d f) (fun k => - f_dnl f ip ic k * f_A f ip k)))
    (fun p ip => mdot_open_elem f pen tau (with_p c p) ip/tau)).
  - intros p s. exact (continuity_open_elem_eff f pen tau (with_p c p) s).
  - intros p e ip Hip. rewrite mdot_open_elem_p.
    rewrite (sumn_ext (f_npe f) _ (fun j => (pen*invL f ip*f_amag f ip)*(sumn (f_npf f) (fun ic => dl j (f_ord f ic) * f_N f ip ic) * e j)
       + sumn (f_npe f) (fun ic => dl j ic * sumn (f_d f) (fun k => - f_dnl f ip ic k * f_A f ip k)) * e j)) by (intros; ring).
    rewrite sumn_plus, sumn_scal, (pick_face (f_npe f) (f_npf f) (f_ord f)) by assumption.
    assert (E : sumn (f_npe f) (fun j => sumn (f_npe f) (fun ic => dl j ic * sumn (f_d f) (fun k => - f_dnl f ip ic k * f_A f ip k)) * e j)
       = - sumn (f_d f) (fun j => o_dp f e ip j * f_A f ip j)).
    { rewrite (sumn_ext (f_npe f) _ (fun j => sumn (f_npe f) (fun ic => dl ic j * sumn (f_d f) (fun k => - f_dnl f ip ic k * f_A f ip k)) * e j))
        by (intros; f_equal; apply sumn_ext; intros; rewrite dl_sym; reflexivity).
      rewrite (sumn_ext (f_npe f) _ (fun j => sumn (f_d f) (fun k => - (f_dn f ip j k * e j * f_A f ip k)))).
      - rewrite sumn_swap, <- sumn_opp. apply sumn_ext. intros k _. unfold o_dp. rewrite sumn_opp, sumn_scal_r. reflexivity.
      - intros j Hj. rewrite (sumn_dl (f_npe f) j (fun ic => sumn (f_d f) (fun k => - f_dnl f ip ic k * f_A f ip k))) by assumption.
        rewrite <- sumn_scal_r. apply sumn_ext. intros. rewrite Hd. ring. }
    rewrite E. unfold at_face. set (X := sumn (f_npf f) _). set (Y := sumn (f_d f) _). field. assumption.
Qed.

(** C73: no spurious mass flow from a linear pressure whose boundary value is consistent *)
Theorem C73_edge_linear_pressure : forall f tau c ip (g : nat -> R) p0, o_axdx f (of_x c) ip <> 0 ->
  (forall a, of_p c a = p0 + sumn (f_d f) (fun j => g j * of_x c (a*f_d f+j)%nat)) ->
  (forall a j, of_Gp c (a*f_d f+j)%nat = g j) ->
  of_pbc c (f_ord f ip) - of_dynp c ip = of_p c (f_ord f ip) ->
  mdot_open_edge f tau 1 c ip
  = of_rho c (f_ord f ip) * dotp (f_d f) (fun j => of_v c (f_ord f ip*f_d f+j)%nat) (f_A f ip).
Proof.
  intros f tau c ip g p0 Hx Hp HG Hb. unfold mdot_open_edge. cbv zeta. rewrite fold_seq_sumn, Hb, !Hp.
  set (asq := f_asq f ip). set (inv := 1/o_axdx f (of_x c) ip).
  set (PR := sumn (f_d f) (fun j => g j * of_x c (f_ord f ip*f_d f+j)%nat)). set (PL := sumn (f_d f) (fun j => g j * of_x c (f_op f ip*f_d f+j)%nat)).
  rewrite (sumn_ext (f_d f) _ (fun j => of_rho c (f_ord f ip)*(of_v c (f_ord f ip*f_d f+j)%nat*f_A f ip j) + (tau*asq*inv)*(g j*o_dx f (of_x c) ip j)))
    by (intros; rewrite HG; ring).
  rewrite sumn_plus, !sumn_scal. unfold dotp.
  assert (E : sumn (f_d f) (fun j => g j * o_dx f (of_x c) ip j)
     = (1/2)*(PR - PL)).
  { unfold PR, PL. rewrite <- sumn_minus, <- sumn_scal. apply sumn_ext. intros. unfold o_dx. field. }
  rewrite E. field.
Qed.
Theorem C73_elem_linear_pressure : forall f pen tau c ip (g : nat -> R),
  (forall j, (j < f_d f)%nat -> o_dp f (of_p c) ip j = g j) ->
  (forall j, (j < f_d f)%nat -> at_face f (fun a => of_Gp c (a*f_d f+j)%nat) ip = g j) ->
  at_face f (of_pbc c) ip - of_dynp c ip = at_face f (of_p c) ip ->
  mdot_open_elem f pen tau c ip
  = dotp (f_d f) (fun j => at_face f (fun a => of_rho c a * of_v c (a*f_d f+j)%nat) ip) (f_A f ip).
Proof.
  intros f pen tau c ip g Hp HG Hb. unfold mdot_open_elem. cbv zeta. rewrite !fold_seq_sumn.
  unfold at_face in Hb, HG. unfold at_face at 1.
  replace (_ - (- of_dynp c ip + _)) with 0 by (rewrite <- Hb; ring).
  rewrite Rmult_0_r, Rmult_0_l, Rplus_0_l. unfold dotp, at_face. apply sumn_ext. intros j Hj. rewrite HG, Hp by assumption.
  replace (tau*(g j - g j)) with 0 by ring. rewrite Rminus_0_r. f_equal. apply sumn_ext. intros; ring.
Qed.

(** C73: the dynamic pressure subtracted from the boundary pressure is the kinetic energy of entering flow only *)
Theorem C73_dynamic_pressure : forall f rho mdot ip, 0 < at_face f rho ip -> 0 < f_amag f ip ->
  0 <= dynamic_pressure f rho mdot ip /\
  (0 <= mdot ip -> dynamic_pressure f rho mdot ip = 0) /\
  (forall un, mdot ip = at_face f rho ip * f_amag f ip * un -> un < 0 ->
     dynamic_pressure f rho mdot ip = (1/2) * at_face f rho ip * (un*un)).
Proof.
  intros f rho mdot ip Hr HA. unfold dynamic_pressure. cbv zeta. set (r := at_face f rho ip) in *. set (A := f_amag f ip) in *.
  assert (P : 0 < r*A) by (apply Rmult_lt_0_compat; assumption).
  split; [|split].
  - destruct (Rlt_dec (mdot ip/(r*A)) 0); [|lra].
    pose proof (Rle_0_sqr (mdot ip/(r*A))) as Q. unfold Rsqr in Q.
    replace (1/2*r*(mdot ip/(r*A))*(mdot ip/(r*A))) with ((1/2*r)*(mdot ip/(r*A)*(mdot ip/(r*A)))) by ring.
    apply Rmult_le_pos; [lra|exact Q].
  - intros Hm. destruct (Rlt_dec (mdot ip/(r*A)) 0) as [L|]; [|reflexivity]. exfalso.
    assert (0 <= mdot ip/(r*A)) by (apply Rmult_le_pos; [assumption|left; apply Rinv_0_lt_compat; assumption]). lra.
  - intros un E Hu. rewrite E. replace (r*A*un/(r*A)) with un by (field; lra).
    destruct (Rlt_dec un 0); [ring|lra].
Qed.

(* ================================================================ projection with boundaries *)
Lemma open_system_eff fs tau noc c s0 :
  eff s0 (fold_left (fun s f => continuity_open_edge f tau noc c s) fs s0)
   (fun i j => lsum (fun f => sumn (f_npf f) (fun ip => dl i (f_ord f ip) * ((dl j (f_ord f ip) + dl j (f_op f ip)) * ((1/2)*(f_asq f ip*(1/o_axdx f (of_x c) ip)))))) fs)
   (fun i => lsum (fun f => sumn (f_npf f) (fun ip => - (dl i (f_ord f ip) * (mdot_open_edge f tau noc c ip/tau)))) fs).
Proof.
  revert s0. induction fs as [|f fs IH]; intros s0; cbn [fold_left].
  - eapply eff_ext; [apply eff_refl|reflexivity|reflexivity].
  - eapply eff_ext; [eapply eff_trans; [apply continuity_open_edge_eff|apply IH]| |]; intros; reflexivity.
Qed.
Lemma lsum_sumn_swap {A} n (g : nat -> A -> R) l : lsum (fun x => sumn n (fun k => g k x)) l = sumn n (fun k => lsum (g k) l).
Proof.
  induction n as [|n IH]; [rewrite sumn_0; apply lsum_zero; intros; apply sumn_0|].
  rewrite sumn_S, <- IH, <- lsum_plus. apply lsum_ext. intros. apply sumn_S.
Qed.
Lemma lsum_dl nodes k (v : nat -> R) : NoDup nodes -> In k nodes -> lsum (fun j => dl j k * v j) nodes = v k.
Proof.
  intros Hn Hk. rewrite <- (lsum_indicator nodes k (v k) Hn Hk). apply lsum_ext. intros j _. unfold dl. rewrite Nat.eqb_sym.
  destruct (Nat.eqb_spec k j); [subst; ring|ring].
Qed.
Definition open_nodes_in (nodes : list nat) (fs : list fe) : Prop :=
  forall f ip, In f fs -> (ip < f_npf f)%nat -> In (f_ord f ip) nodes /\ In (f_op f ip) nodes.

(** total mass leaving node i's control volume through the open faces *)
Definition open_outflow (fs : list fe) (mdot : fe -> nat -> R) (i : nat) : R :=
  lsum (fun f => out_at (f_npf f) (f_ord f) (mdot f) i) fs.

(** C73: pressure projection with open boundaries. [src i]: every other mass leaving node i that does not
    depend on the pressure (inflow faces, density change). If the pressure increment solves node i's
    assembled equation, mass balances exactly at node i with the recomputed mass flow rates. *)
Theorem C73_mass_balance_with_open_faces :
  forall n tau noc c o es fs nodes src dp i, covers nodes es -> open_nodes_in nodes fs -> tau <> 0 -> of_p o = c_p c ->
  lsum (fun j => (assembled_lhs (continuity_edge n tau noc c) es i j + eL_ (open_system fs tau noc o) i j) * dp j) nodes
     = assembled_rhs (continuity_edge n tau noc c) es i + eB (open_system fs tau noc o) i - src i / tau ->
  net_outflow (mdot_edge n tau noc (update_pressure c dp)) es i
  + open_outflow fs (fun f => mdot_open_edge f tau noc (with_p o (c_p (update_pressure c dp)))) i + src i = 0.
Proof.
  intros n tau noc c o es fs nodes src dp i Hc Ho Ht Hp H.
  destruct (open_system_eff fs tau noc o zero_sys) as [EL EB].
  fold (open_system fs tau noc o) in EL, EB.
  set (OUT := open_outflow fs (fun f => mdot_open_edge f tau noc (with_p o (c_p (update_pressure c dp)))) i).
  rewrite Rplus_assoc.
  pose (src' := fun k : nat => OUT + src i).
  change (OUT + src i) with (src' i).
  apply (C39_mass_balance_after_pressure_solve n tau noc c es nodes src' dp i Hc Ht). unfold src'.
  rewrite (lsum_ext (fun j => (_ + _) * dp j) (fun j => assembled_lhs (continuity_edge n tau noc c) es i j * dp j + eL_ (open_system fs tau noc o) i j * dp j)) in H by (intros; ring).
  rewrite lsum_plus in H.
  assert (K : lsum (fun j => eL_ (open_system fs tau noc o) i j * dp j) nodes - eB (open_system fs tau noc o) i = OUT/tau).
  { rewrite (lsum_ext _ (fun j => lsum (fun f => dp j * sumn (f_npf f) (fun ip => dl i (f_ord f ip) * ((dl j (f_ord f ip) + dl j (f_op f ip)) * ((1/2)*(f_asq f ip*(1/o_axdx f (of_x o) ip)))))) fs)).
    2:{ intros j _. rewrite EL. cbn [zero_sys eL_]. rewrite lsum_scal. ring. }
    rewrite lsum_comm, EB. cbn [zero_sys eB]. rewrite Rplus_0_l.
    unfold OUT, open_outflow, Rdiv.
    transitivity (lsum (fun f => out_at (f_npf f) (f_ord f) (fun ip => (1/tau) * mdot_open_edge f tau noc (with_p o (c_p (update_pressure c dp))) ip) i) fs).
    - unfold Rminus. rewrite <- (Rmult_1_l (lsum (fun f => sumn _ _) fs)), Ropp_mult_distr_l, <- lsum_scal, <- lsum_plus.
      apply lsum_ext. intros f Hf. rewrite out_dl.
      rewrite (lsum_ext _ (fun j => sumn (f_npf f) (fun ip => dp j * (dl i (f_ord f ip) * ((dl j (f_ord f ip) + dl j (f_op f ip)) * ((1/2)*(f_asq f ip*(1/o_axdx f (of_x o) ip))))))))
        by (intros; rewrite sumn_scal; reflexivity).
      rewrite lsum_sumn_swap, <- sumn_scal, <- sumn_plus. apply sumn_ext. intros ip Hip.
      destruct (Ho f ip Hf Hip) as [I1 I2].
      set (Kf := (1/2)*(f_asq f ip*(1/o_axdx f (of_x o) ip))).
      rewrite (lsum_ext _ (fun j => (dl i (f_ord f ip)*Kf)*(dl j (f_ord f ip) * dp j) + (dl i (f_ord f ip)*Kf)*(dl j (f_op f ip) * dp j))) by (intros; ring).
      rewrite lsum_plus, !lsum_scal, !lsum_dl by (try assumption; apply Hc).
      assert (M : mdot_open_edge f tau noc (with_p o (c_p (update_pressure c dp))) ip = mdot_open_edge f tau noc o ip + tau*Kf*(dp (f_op f ip) + dp (f_ord f ip))).
      { transitivity (mdot_open_edge f tau noc (with_p o (fun a => of_p o a + dp a)) ip).
        - unfold mdot_open_edge. cbv zeta. cbn [with_p of_x of_p of_rho of_v of_Gp of_pbc of_dynp update_pressure c_p]. rewrite !fold_seq_sumn, Hp. ring.
        - rewrite mdot_open_edge_p. unfold Kf. f_equal. }
      rewrite M. field. assumption.
    - rewrite Rmult_comm, <- lsum_scal. apply lsum_ext. intros f Hf. rewrite !out_dl, <- sumn_scal. apply sumn_ext. intros ip _. field. assumption. }
  replace ((OUT + src i)/tau) with (OUT/tau + src i/tau) by (field; assumption). lra.
Qed.

Lemma net_outflow_total mdot es nodes : covers nodes es -> lsum (net_outflow mdot es) nodes = 0.
Proof.
  intros [Hn Hc]. unfold net_outflow. rewrite lsum_comm. apply lsum_zero. intros e He. destruct (Hc e He) as [H1 H2].
  rewrite (lsum_ext _ (fun i => (if Nat.eqb (eL e) i then mdot e else 0) + (-1) * (if Nat.eqb (eR e) i then mdot e else 0))) by (intros; ring).
  rewrite lsum_plus, lsum_scal, !lsum_indicator by assumption. ring.
Qed.
Lemma out_at_total np nn F nodes : NoDup nodes -> (forall ip, (ip < np)%nat -> In (nn ip) nodes) ->
  lsum (out_at np nn F) nodes = sumn np F.
Proof.
  intros Hn Hi. unfold out_at. rewrite lsum_sumn_swap. apply sumn_ext. intros ip Hip.
  rewrite (lsum_ext _ (fun i => if Nat.eqb (nn ip) i then F ip else 0)) by (intros; rewrite Nat.eqb_sym; reflexivity).
  apply lsum_indicator; auto.
Qed.
(** C73: ... and globally: what leaves through the open faces is exactly what the sources supply *)
Theorem C73_global_mass_closure :
  forall n tau noc c o es fs nodes src dp, covers nodes es -> open_nodes_in nodes fs -> tau <> 0 -> of_p o = c_p c ->
  (forall i, In i nodes ->
   lsum (fun j => (assembled_lhs (continuity_edge n tau noc c) es i j + eL_ (open_system fs tau noc o) i j) * dp j) nodes
     = assembled_rhs (continuity_edge n tau noc c) es i + eB (open_system fs tau noc o) i - src i / tau) ->
  lsum (fun f => sumn (f_npf f) (mdot_open_edge f tau noc (with_p o (c_p (update_pressure c dp))))) fs + lsum src nodes = 0.
Proof.
  intros n tau noc c o es fs nodes src dp Hc Ho Ht Hp H.
  set (M := fun f => mdot_open_edge f tau noc (with_p o (c_p (update_pressure c dp)))).
  assert (T : lsum (fun i => net_outflow (mdot_edge n tau noc (update_pressure c dp)) es i + open_outflow fs M i + src i) nodes = 0).
  { apply lsum_zero. intros i Hi. apply (C73_mass_balance_with_open_faces n tau noc c o es fs nodes src dp i); auto. }
  rewrite !lsum_plus in T. change (lsum (fun x => net_outflow ?m es x) nodes) with (lsum (net_outflow m es) nodes) in T.
  rewrite (net_outflow_total _ es nodes Hc) in T.
  rewrite <- T. rewrite Rplus_0_l. f_equal.
  unfold open_outflow. rewrite lsum_comm. apply lsum_ext. intros f Hf. symmetry. apply out_at_total; [apply Hc|].
  intros ip Hip. apply (Ho f ip Hf Hip).
Qed.

(* ================================================================ the report *)
(** the accumulation reported is the density-change term of the continuity equation, summed over rows *)
Theorem C73_accumulation_is_continuity_source : forall m t rp1 rn rm1 s,
  (forall ip, (ip < nscv m)%nat -> (nearest m ip < npe m)%nat) -> dt t <> 0 -> ga1 t <> 0 ->
  accum_elem m t rp1 rn rm1
  = - (dt t/ga1 t) * sumn (npe m) (fun i => eB (continuity_mass_elem m t rp1 rn rm1 s) i - eB s i).
Proof.
  intros m t rp1 rn rm1 s Hn Hd Hg. unfold accum_elem. rewrite fold_seq_sumn, Rplus_0_l.
  assert (E : eff s (continuity_mass_elem m t rp1 rn rm1 s) (fun _ _ => 0)
    (fun i => sumn (nscv m) (fun ip => dl i (nearest m ip) * (- (ga1 t*at_scv m rp1 ip + ga2 t*at_scv m rn ip + ga3 t*at_scv m rm1 ip) * vol m ip / dt t / (dt t/ga1 t))))).
  { unfold continuity_mass_elem. cbv zeta. eapply eff_loop_ext with (A := fun _ _ _ => 0).
    - intros ip s1 Hip. apply eff_addB.
    - intros. apply sumn_zero. reflexivity.
    - reflexivity. }
  destruct E as [_ E].
  rewrite (sumn_ext (npe m) _ (fun i => sumn (nscv m) (fun ip => dl i (nearest m ip) * (- (ga1 t*at_scv m rp1 ip + ga2 t*at_scv m rn ip + ga3 t*at_scv m rm1 ip) * vol m ip / dt t / (dt t/ga1 t))))) by (intros; rewrite E; ring).
  rewrite sumn_swap, <- sumn_scal. apply sumn_ext. intros ip Hip.
  rewrite (sumn_dl (npe m) (nearest m ip) (fun _ => - (ga1 t*at_scv m rp1 ip + ga2 t*at_scv m rn ip + ga3 t*at_scv m rm1 ip) * vol m ip / dt t / (dt t/ga1 t))) by auto.
  field. auto.
Qed.

Lemma mass_closure_value ranks acc h : mass_closure ranks acc h
  = (if h then lsum acc (concat (map fst ranks)) else 0) + lsum (fun r => fst (snd r)) ranks + lsum (fun r => snd (snd r)) ranks.
Proof.
  unfold mass_closure. cbv zeta.
  assert (F : forall {A} (g : A -> R) l x, fold_left (fun a r => a + g r) l x = x + lsum g l).
  { intros A g l. induction l as [|y l IH]; intros x; cbn [fold_left]; [unfold lsum; cbn; ring|]. rewrite IH. unfold lsum. cbn. ring. }
  rewrite !F, !Rplus_0_l. f_equal. f_equal. destruct h.
  - induction ranks as [|r l IH]; [reflexivity|]. cbn [map concat].
    unfold lsum at 1. cbn [map fold_right]. change (fold_right Rplus 0 (map ?g l)) with (lsum g l). rewrite IH.
    unfold compute_accumulation. rewrite F, Rplus_0_l. clear. induction (fst r) as [|x q IHq]; [unfold lsum; cbn; ring|].
    cbn [app]. unfold lsum at 1 3. cbn [map fold_right]. change (fold_right Rplus 0 (map ?g ?z)) with (lsum g z). rewrite <- IHq. ring.
  - apply lsum_zero. reflexivity.
Qed.
(** C73: when no rank holds copies of other ranks' elements, the report does not depend on the decomposition *)
Theorem C73_report_without_copies : forall ranks els acc,
  Permutation (concat (map fst ranks)) els ->
  mass_closure ranks acc true = lsum acc els + lsum (fun r => fst (snd r)) ranks + lsum (fun r => snd (snd r)) ranks.
Proof.
  intros ranks els acc P. rewrite mass_closure_value. do 2 f_equal.
  unfold lsum. induction P; cbn [map fold_right]; lra.
Qed.
(** C73, refuted: with an aura or custom ghosting every copy of an element is counted again. One mesh of
    two elements whose density rises, in a closed box: reported closure is 0 without copies... and wrong with. *)
Theorem C73_refuted_report_with_copies :
  exists acc flows (owned present : list (list nat)),
    (forall k, In k (concat owned) -> In k (concat present)) /\ NoDup (concat owned) /\ length owned = length present /\
    mass_closure (combine owned flows) acc true = 0 /\ mass_closure (combine present flows) acc true = 2.
Proof.
  exists (fun _ => 1), [(-1,0);(-1,0)], [[0%nat];[1%nat]], [[0%nat;1%nat];[1%nat;0%nat]].
  split; [cbn; intuition|]. split; [repeat constructor; cbn; intuition lia|]. split; [reflexivity|].
  rewrite !mass_closure_value. unfold lsum. cbn. split; ring.
Qed.

Example C73_hypotheses_met :
  let f := ex_f 1 (fun _ => 1) in
  open_nodes_in [0%nat;1%nat] [f] /\ covers [0%nat;1%nat] [mkEdge 0 1 (fun _ => 1)] /\ face_ok f /\
  (let o := mkOf (fun a => if Nat.eqb a 0 then 1 else 0) (fun a => if Nat.eqb a 0 then 1 else 0) (fun _ => 1) (fun _ => 3) (fun _ => 1) (fun a => if Nat.eqb a 0 then 1 else 0) (fun _ => 0) in
   o_axdx f (of_x o) 0 <> 0 /\ mdot_open_edge f 2 1 o 0 = 3).
Proof.
  cbv zeta. split; [|split; [|split]].
  - intros f ip [<-|[]] Hip. cbn. auto.
  - split; [repeat constructor; cbn; intuition lia|]. intros e [<-|[]]. cbn. auto.
  - split; cbn; intros; lia.
  - split.
    + unfold o_axdx, o_dx. cbn [ex_f f_d f_A f_ord f_op of_x]. rewrite sumn_S, sumn_0. cbn. lra.
    + unfold mdot_open_edge, o_axdx, o_dx, f_asq. cbn [ex_f f_d f_A f_ord f_op of_x of_p of_rho of_v of_Gp of_pbc of_dynp seq fold_left]. rewrite !sumn_S, !sumn_0. cbn. field.
Qed.
