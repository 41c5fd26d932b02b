(** * C101: the volume flow rates stored by the volume-of-fluid algorithms are those of the pressure equation *)
From Coq Require Import Reals List Bool Lra Lia Arith.
From Verif Require Import RUtil Edge_Model Edge_Proofs Sum_Proofs Elem_Model Elem_Spec Elem_Proofs Elem_Props2 Turb_Model Vof_Model Vof_Spec Vof_Props Vof_Props3 Vof_Props4
  NC_Model VofFlow_Model.
Import ListNotations.
Open Scope R_scope.

(** ** interior *)
Lemma stored_is_vdot m c p ip : fst (stored_interior m c p ip) = cvof_vdot m c p ip.
Proof. reflexivity. Qed.
(** The flow rate stored for transport is the one the pressure equation of every node balances ... *)
Theorem C101_stored_flow_is_assembled : forall m c p s i,
  gain (cont_vof_adv m c p) s i = - net_out m (fun ip => fst (stored_interior m c p ip) / cv_tau c) i.
Proof. intros. rewrite C86_continuity_residual. f_equal. apply net_out_ext. intros ip _. now rewrite stored_is_vdot, cvof_vdot_flow. Qed.
(** ... and the mass flow rate is the density at the point times it. *)
Theorem C101_mass_flow_is_density_times_volume_flow : forall m c p ip,
  snd (stored_interior m c p ip) = at_scs m (cv_rho c) ip * fst (stored_interior m c p ip).
Proof. reflexivity. Qed.
(** Velocity plus the imbalance of pressure gradient, weight and surface tension, times the time scale over density: when
    they balance up to density times the stored nodal gradient, the flow is that of the interpolated velocity. *)
Theorem C101_balanced_flow_is_velocity : forall m c p ip, at_scs m (cv_rho c) ip <> 0 ->
  (forall j, (j < ndim m)%nat ->
     Vof_Spec.grad_at (npe m) (dndx m) p ip j
     = cv_bw c * at_scs m (cv_rho c) ip * cv_g c j
       + at_scs m (fun ic => cv_sigma c ic * cv_kappa c ic) ip * loc_fac c (at_scs m (cv_vof c) ip) * Vof_Spec.grad_at (npe m) (dndx m) (cv_vof c) ip j
       + at_scs m (cv_rho c) ip * vec_at (npe m) (ndim m) (Ns m) (cv_Gp c) ip j) ->
  fst (stored_interior m c p ip) = dotn (ndim m) (vec_at (npe m) (ndim m) (Ns m) (cv_v c) ip) (area m ip).
Proof.
  intros m c p ip Hr H. rewrite stored_is_vdot, cvof_vdot_flow. unfold vof_flow. cbv zeta.
  match goal with |- ?a - _ * ?b = ?a => assert (E : b = 0) end; [|rewrite E; ring].
  unfold dotn. apply sumn_zero. intros j Hj. rewrite H by assumption. field. assumption.
Qed.
(** In such a balance the time scale (hence the time step) does not matter. *)
Theorem C101_time_scale_irrelevant_when_balanced : forall m c c' p ip, at_scs m (cv_rho c) ip <> 0 ->
  cv_rho c' = cv_rho c -> cv_bw c' = cv_bw c -> cv_g c' = cv_g c -> cv_sigma c' = cv_sigma c -> cv_kappa c' = cv_kappa c -> cv_vof c' = cv_vof c ->
  cv_c c' = cv_c c -> cv_n c' = cv_n c -> cv_m c' = cv_m c -> cv_v c' = cv_v c -> cv_Gp c' = cv_Gp c ->
  (forall j, (j < ndim m)%nat ->
     Vof_Spec.grad_at (npe m) (dndx m) p ip j
     = cv_bw c * at_scs m (cv_rho c) ip * cv_g c j
       + at_scs m (fun ic => cv_sigma c ic * cv_kappa c ic) ip * loc_fac c (at_scs m (cv_vof c) ip) * Vof_Spec.grad_at (npe m) (dndx m) (cv_vof c) ip j
       + at_scs m (cv_rho c) ip * vec_at (npe m) (ndim m) (Ns m) (cv_Gp c) ip j) ->
  fst (stored_interior m c' p ip) = fst (stored_interior m c p ip).
Proof.
  intros m c c' p ip Hr E1 E2 E3 E4 E5 E6 E7 E8 E9 E10 E11 H.
  rewrite (C101_balanced_flow_is_velocity m c p ip Hr H).
  rewrite (C101_balanced_flow_is_velocity m c' p ip); [now rewrite E10|now rewrite E1|].
  intros j Hj. rewrite E1, E2, E3, E4, E5, E6, E11. unfold loc_fac. rewrite E7, E8, E9. now apply H.
Qed.

(** ** open boundary *)
(** The stored flow of an open face is the one its pressure equation balances when surface tension is not localised (the
    default exponents are zero), when the volume fraction is uniform over the element, or when the nodes of the face are
    the first of the element in order. *)
Definition same_fraction (f : vface) (c : cvof) : Prop :=
  (cv_n c = 0 /\ cv_m c = 0) \/ (forall ic, (ic < vf_npf f)%nat -> cv_vof c ic = cv_vof c (vf_ord f ic)).
Lemma stored_open_is_vdot f pen c pbc dyn p ip : same_fraction f c -> fst (stored_open f pen c pbc dyn p ip) = vopen_vdot f pen c pbc dyn p ip.
Proof.
  intros H. unfold stored_open, vopen_vdot, loc_fac, at_face, on_face. cbv zeta. cbn [fst]. f_equal. f_equal. f_equal. f_equal. f_equal. f_equal.
  destruct H as [[-> ->]|H].
  - unfold vpow. now destruct (Req_EM_T 0 0); [|contradiction].
  - rewrite (sumn_ext (vf_npf f) (fun ic => vf_N f ip ic * cv_vof c ic) (fun ic => vf_N f ip ic * cv_vof c (vf_ord f ic)));
      [reflexivity|intros ic Hic; now rewrite H].
Qed.
Theorem C101_open_stored_flow_is_assembled : forall f pen c pbc dyn p s i, same_fraction f c ->
  gain (cont_vof_open f pen c pbc dyn p) s i = - face_sum f (fun ip => fst (stored_open f pen c pbc dyn p ip) / cv_tau c) i.
Proof. intros. rewrite C86_open_residual. f_equal. apply face_sum_ext. intros ip _. now rewrite stored_open_is_vdot, vopen_flow. Qed.
Theorem C101_open_mass_flow : forall f pen c pbc dyn p ip,
  snd (stored_open f pen c pbc dyn p ip) = at_face f (on_face f (cv_rho c)) ip * fst (stored_open f pen c pbc dyn p ip).
Proof. reflexivity. Qed.

(** *** in general it is not: the volume fraction is read at the wrong nodes *)
Definition ex_open : vface := mkVF 2 1 3 2 (fun _ => 1%nat) (fun ic => match ic with 0%nat => 1%nat | _ => 2%nat end)
  (fun _ _ => 1/2) (fun _ => tri_dn) (fun _ => tri_dn) (fun _ _ => 1).
Definition ex_cvof (n : R) : cvof := mkCV 1 0 (fun _ => 0) 1 n 0 (fun _ => 1) (fun a => match a with 0%nat => 1 | _ => 0 end) (fun _ => 1) (fun _ => 1) (fun _ => 0) (fun _ => 0).
Theorem C101_open_flow_is_assembled_refuted :
  ~ (forall f pen c pbc dyn p s i, face_ok f -> face_unity f -> 0 < cv_tau c -> 0 <= cv_n c -> 0 <= cv_m c ->
       gain (cont_vof_open f pen c pbc dyn p) s i = - face_sum f (fun ip => fst (stored_open f pen c pbc dyn p ip) / cv_tau c) i).
Proof.
  intros H. specialize (H ex_open 0 (ex_cvof 1) (fun _ => 0) (fun _ => 0) (fun _ => 0) (mkE (fun _ _ => 0) (fun _ => 0)) 1%nat).
  assert (F1 : face_ok ex_open). { split; cbn; intros; [|lia]. destruct ic as [|[|]]; lia. }
  assert (F2 : face_unity ex_open). { intros ip _. unfold sumn. cbn. lra. }
  specialize (H F1 F2). cbn [cv_tau cv_n cv_m ex_cvof] in H. specialize (H ltac:(lra) ltac:(lra) ltac:(lra)).
  rewrite C86_open_residual in H.
  assert (P1 : forall x, vpow x 0 = 1) by (intros x; unfold vpow; destruct (Req_EM_T 0 0); [reflexivity|contradiction]).
  assert (P2 : vpow 0 1 = 0). { unfold vpow, cpow. destruct (Req_EM_T 1 0); [lra|]. destruct (Req_EM_T 0 0); [reflexivity|contradiction]. }
  assert (P3 : vpow (1/2) 1 = 1/2). { unfold vpow, cpow. destruct (Req_EM_T 1 0); [lra|]. destruct (Req_EM_T (1/2) 0); [lra|]. apply Rpower_1. lra. }
  assert (A : open_flow ex_open 0 (ex_cvof 1) (fun _ => 0) (fun _ => 0) (fun _ => 0) 0 = 0).
  { unfold open_flow, loc_fac. cbv zeta. cbn [cv_n cv_m cv_c ex_cvof].
    assert (Z : at_face ex_open (on_face ex_open (cv_vof (ex_cvof 1))) 0 = 0) by (unfold at_face, on_face, sumn; cbn; lra).
    rewrite Z, P1, P2. unfold dotn, Vof_Spec.grad_at, at_face, on_face, sumn. cbn. unfold Rdiv. ring. }
  assert (B : fst (stored_open ex_open 0 (ex_cvof 1) (fun _ => 0) (fun _ => 0) (fun _ => 0) 0) = -1).
  { unfold stored_open. cbv zeta. cbn [fst cv_n cv_m cv_c ex_cvof].
    assert (Z : sumn (vf_npf ex_open) (fun ic => vf_N ex_open 0 ic * cv_vof (ex_cvof 1) ic) = 1/2) by (unfold sumn; cbn; lra).
    change (cv_vof (mkCV 1 0 (fun _ => 0) 1 1 0 (fun _ => 1) (fun a => match a with 0%nat => 1 | _ => 0 end) (fun _ => 1) (fun _ => 1) (fun _ => 0) (fun _ => 0))) with (cv_vof (ex_cvof 1)) in *.
    rewrite Z, P1, P3. unfold sumn. cbn. field. }
  unfold face_sum in H. change (vf_nip ex_open) with 1%nat in H. unfold sumn in H. cbn [seq fold_left] in H.
  change (vf_near ex_open 0) with 1%nat in H. cbn [Nat.eqb] in H.
  change (cv_tau (ex_cvof 1)) with 1 in H. change (mkCV 1 0 (fun _ => 0) 1 1 0 (fun _ => 1) (fun a => match a with 0%nat => 1 | _ => 0 end) (fun _ => 1) (fun _ => 1) (fun _ => 0) (fun _ => 0)) with (ex_cvof 1) in H.
  rewrite A, B in H. lra.
Qed.

(** ** after the pressure is solved, a uniform volume fraction stays uniform *)
(** the elements and open faces that contribute to a node, each with the node's number in the element *)
Record el_part := mkEP { e_m : me; e_c : cvof; e_p : nat -> R; e_i : nat }.
Record face_part := mkFP { f_f : vface; f_pen : R; f_c : cvof; f_bc : nat -> R; f_dyn : nat -> R; f_p : nat -> R; f_i : nat }.
Definition continuity_at (els : list el_part) (fcs : list face_part) (s : esys) : R :=
  lsum (fun e => gain (cont_vof_adv (e_m e) (e_c e) (e_p e)) s (e_i e)) els
  + lsum (fun x => gain (cont_vof_open (f_f x) (f_pen x) (f_c x) (f_bc x) (f_dyn x) (f_p x)) s (f_i x)) fcs.
Definition transport_at (els : list el_part) (fcs : list face_part) (q qbc : R) (s : esys) : R :=
  lsum (fun e => gain (vof_scs_adv (e_m e) (fun ip => fst (stored_interior (e_m e) (e_c e) (e_p e) ip)) (fun _ => q)) s (e_i e)) els
  + lsum (fun x => gain (vof_open_adv (f_f x) (fun ip => fst (stored_open (f_f x) (f_pen x) (f_c x) (f_bc x) (f_dyn x) (f_p x) ip)) (fun _ => qbc) (fun _ => q)) s (f_i x)) fcs.
Lemma face_sum_scal f a F i : face_sum f (fun ip => a * F ip) i = a * face_sum f F i.
Proof. rewrite !face_sum_dl, <- sumn_scal. apply sumn_ext. intros; ring. Qed.
Theorem C101_uniform_fraction_stays : forall els fcs tau q s, tau <> 0 ->
  (forall e, In e els -> cv_tau (e_c e) = tau /\ unity (npe (e_m e)) (nscs (e_m e)) (Ns (e_m e))) ->
  (forall x, In x fcs -> cv_tau (f_c x) = tau /\ face_unity (f_f x) /\ same_fraction (f_f x) (f_c x)) ->
  transport_at els fcs q q s = q * tau * continuity_at els fcs s.
Proof.
  intros els fcs tau q s Ht He Hf. unfold transport_at, continuity_at. rewrite Rmult_plus_distr_l. f_equal.
  - induction els as [|e l IH]; [unfold lsum; cbn; ring|]. rewrite !lsum_cons, Rmult_plus_distr_l, <- IH by (intros; apply He; now right). f_equal.
    destruct (He e (or_introl eq_refl)) as [E U]. rewrite C86_advection_residual, C101_stored_flow_is_assembled, E.
    rewrite (net_out_ext (e_m e) _ (fun ip => (q * tau) * (fst (stored_interior (e_m e) (e_c e) (e_p e) ip) / tau))).
    + rewrite net_out_scal. ring.
    + intros ip Hip. rewrite (at_scs_const (e_m e) ip (fun _ => q) q U Hip) by reflexivity. field. assumption.
  - induction fcs as [|x l IH]; [unfold lsum; cbn; ring|]. rewrite !lsum_cons, Rmult_plus_distr_l, <- IH by (intros; apply Hf; now right). f_equal.
    destruct (Hf x (or_introl eq_refl)) as (E & U & S). rewrite C86_open_advection, C101_open_stored_flow_is_assembled, E by assumption.
    rewrite (face_sum_ext (f_f x) _ (fun ip => (q * tau) * (fst (stored_open (f_f x) (f_pen x) (f_c x) (f_bc x) (f_dyn x) (f_p x) ip) / tau))).
    + rewrite face_sum_scal. ring.
    + intros ip Hip. assert (A : at_face (f_f x) (on_face (f_f x) (fun _ => q)) ip = q).
      { unfold at_face, on_face. rewrite sumn_scal_r, (U ip Hip). ring. }
      rewrite A. destruct (Rlt_dec _ _); field; assumption.
Qed.
Corollary C101_pressure_solved_keeps_uniform_fraction : forall els fcs tau q s, tau <> 0 ->
  (forall e, In e els -> cv_tau (e_c e) = tau /\ unity (npe (e_m e)) (nscs (e_m e)) (Ns (e_m e))) ->
  (forall x, In x fcs -> cv_tau (f_c x) = tau /\ face_unity (f_f x) /\ same_fraction (f_f x) (f_c x)) ->
  continuity_at els fcs s = 0 -> transport_at els fcs q q s = 0.
Proof. intros els fcs tau q s Ht He Hf H. rewrite (C101_uniform_fraction_stays els fcs tau q s Ht He Hf), H. ring. Qed.

(** ** inflow *)
Theorem C101_inflow_total : forall faces, mdot_inflow faces = lsum (fun x => let '(f, rho, vbc) := x in sumn (vf_nip f) (inflow_point f rho vbc)) faces.
Proof.
  assert (G : forall f rho vbc k a, fold_left (fun s ip => s + inflow_point f rho vbc ip) (seq 0 k) a = a + sumn k (inflow_point f rho vbc)).
  { intros f rho vbc k a. unfold sumn. generalize (seq 0 k). intros l. revert a.
    assert (L : forall l a b, fold_left (fun s ip => s + inflow_point f rho vbc ip) l (a + b) = a + fold_left (fun s ip => s + inflow_point f rho vbc ip) l b).
    { clear. induction l as [|x l IH]; intros a b; cbn [fold_left]; [reflexivity|]. rewrite Rplus_assoc. apply IH. }
    intros a. rewrite <- (Rplus_0_r a) at 1. apply L. }
  assert (H : forall faces a, fold_left (fun s (x : vface * (nat -> R) * (nat -> R)) => let '(f, rho, vbc) := x in fold_left (fun s ip => s + inflow_point f rho vbc ip) (seq 0 (vf_nip f)) s) faces a
     = a + lsum (fun x => let '(f, rho, vbc) := x in sumn (vf_nip f) (inflow_point f rho vbc)) faces).
  { induction faces as [|((f & rho) & vbc) l IH]; intros a; cbn [fold_left]; [unfold lsum; cbn; ring|]. rewrite IH, G, lsum_cons. ring. }
  intros faces. unfold mdot_inflow. rewrite H. ring.
Qed.
(** the mass counted as inflow through a face is, for uniform density, the density times the volume that the pressure equation is given *)
Theorem C101_inflow_matches_pressure_equation : forall f tau r vbc n s, tau <> 0 -> face_unity f ->
  (forall ip, (ip < vf_nip f)%nat -> (vf_near f ip < n)%nat) ->
  - (tau * r) * sumn n (gain (cont_vof_inflow f tau vbc) s) = mdot_inflow [(f, (fun _ => r), vbc)].
Proof.
  intros f tau r vbc n s Ht U Hn. rewrite C101_inflow_total, lsum_cons. change (lsum _ []) with 0. rewrite Rplus_0_r.
  rewrite (sumn_ext n _ (fun i => (-1) * face_sum f (fun ip => dotn (vf_dim f) (vec_at (vf_npf f) (vf_dim f) (vf_N f) vbc ip) (vf_A f ip) / tau) i))
    by (intros; rewrite C86_inflow_residual; ring).
  rewrite sumn_scal, face_sum_total by assumption. rewrite <- sumn_scal, <- sumn_scal. apply sumn_ext. intros ip Hip.
  unfold inflow_point. cbv zeta. rewrite sumn_scal_r, (U ip Hip). unfold dotn, vec_at. field. assumption.
Qed.
Example C101_case : same_fraction ex_open (ex_cvof 0) /\ face_ok ex_open /\ face_unity ex_open
  /\ fst (stored_open ex_open 0 (ex_cvof 0) (fun _ => 0) (fun _ => 0) (fun _ => 0) 0) = -2.
Proof.
  split; [left; split; reflexivity|]. split; [split; cbn; intros; [destruct ic as [|[|]]; lia|lia]|]. split; [intros ip _; unfold sumn; cbn; lra|].
  unfold stored_open. cbv zeta. cbn [fst cv_n cv_m cv_c ex_cvof].
  assert (P1 : forall x, vpow x 0 = 1) by (intros x; unfold vpow; destruct (Req_EM_T 0 0); [reflexivity|contradiction]).
  rewrite !P1. unfold sumn. cbn. field.
Qed.
