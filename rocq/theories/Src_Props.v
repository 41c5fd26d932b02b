(** C88: body forces and heat sources. *)
Require Import Reals List Lia Lra.
From Verif Require Import Edge_Model Edge_Proofs Elem_Model Elem_Spec Elem_Proofs Elem_Proofs2 Elem_Proofs3 Elem_Props Turb_Model Turb_Props Vof_Model2 Vof_Spec Vof_Props Vof_Props3 Rad_Model Src_Model.
Open Scope R_scope.

(* ------------------------------------------------------------------ generic *)
Lemma dl_row d a n i j : (i < d)%nat -> (j < d)%nat -> dl (a*d+i) (n*d+j) = (if Nat.eqb a n then 1 else 0) * dl i j.
Proof. intros Hi Hj. rewrite dl_flat by assumption. unfold dl. reflexivity. Qed.
Lemma vsrc_gain m (w : nat -> nat -> R) s a i : (i < ndim m)%nat ->
  gain (fun s => loop (nscv m) (fun ip s => loop (ndim m) (fun j s => addB (nearest m ip*ndim m+j)%nat (w ip j) s) s) s) s (a*ndim m+i)
  = sumn (nscv m) (fun ip => if Nat.eqb a (nearest m ip) then w ip i else 0).
Proof.
  intros Hi. set (d := ndim m) in *.
  assert (E : eff s (loop (nscv m) (fun ip s => loop d (fun j s => addB (nearest m ip*d+j)%nat (w ip j) s) s) s)
    (fun _ _ => 0) (fun row => sumn (nscv m) (fun ip => sumn d (fun j => dl row (nearest m ip*d+j) * w ip j)))).
  { eapply eff_ext.
    - apply (eff_loop (nscv m) _ (fun _ _ _ => 0) (fun ip row => sumn d (fun j => dl row (nearest m ip*d+j) * w ip j))). intros ip s1 _.
      eapply eff_ext; [apply (eff_loop d _ (fun _ _ _ => 0) (fun j row => dl row (nearest m ip*d+j) * w ip j)); intros; apply eff_addB| |reflexivity].
      intros. apply sumn_zero. reflexivity.
    - intros. apply sumn_zero. reflexivity.
    - reflexivity. }
  unfold gain. rewrite (proj2 E), Rplus_comm. unfold Rminus. rewrite Rplus_assoc, Rplus_opp_r, Rplus_0_r.
  apply sumn_ext. intros ip _. rewrite (sumn_ext d _ (fun j => dl i j * ((if Nat.eqb a (nearest m ip) then 1 else 0) * w ip j))).
  - rewrite (sumn_ext d _ (fun j => dl j i * ((if Nat.eqb a (nearest m ip) then 1 else 0) * w ip j))) by (intros; rewrite dl_sym; reflexivity).
    rewrite (sumn_dl d i (fun j => (if Nat.eqb a (nearest m ip) then 1 else 0) * w ip j)) by assumption. destruct (Nat.eqb _ _); ring.
  - intros j Hj. rewrite dl_row by assumption. ring.
Qed.
Lemma ssrc_gain m (w : nat -> R) s a :
  gain (fun s => loop (nscv m) (fun ip s => addB (nearest m ip) (w ip) s) s) s a = sumn (nscv m) (fun ip => if Nat.eqb a (nearest m ip) then w ip else 0).
Proof.
  assert (E : eff s (loop (nscv m) (fun ip s => addB (nearest m ip) (w ip) s) s) (fun _ _ => 0) (fun row => sumn (nscv m) (fun ip => dl row (nearest m ip) * w ip))).
  { eapply eff_ext; [apply (eff_loop (nscv m) _ (fun _ _ _ => 0) (fun ip row => dl row (nearest m ip) * w ip)); intros; apply eff_addB| |reflexivity].
    intros. apply sumn_zero. reflexivity. }
  unfold gain. rewrite (proj2 E), Rplus_comm. unfold Rminus. rewrite Rplus_assoc, Rplus_opp_r, Rplus_0_r. apply sumn_ext. intros ip _. unfold dl. destruct (Nat.eqb _ _); ring.
Qed.
Lemma nsrc_gain d (w : nat -> R) s i : (i < d)%nat -> gain (fun s => loop d (fun i s => addB i (w i) s) s) s i = w i.
Proof.
  intros Hi. assert (E : eff s (loop d (fun i s => addB i (w i) s) s) (fun _ _ => 0) (fun row => sumn d (fun j => dl row j * w j))).
  { eapply eff_ext; [apply (eff_loop d _ (fun _ _ _ => 0) (fun j row => dl row j * w j)); intros; apply eff_addB| |reflexivity]. intros. apply sumn_zero. reflexivity. }
  unfold gain. rewrite (proj2 E). rewrite (sumn_ext d _ (fun j => dl j i * w j)) by (intros; rewrite dl_sym; reflexivity). rewrite (sumn_dl d i w) by assumption. ring.
Qed.

(* ------------------------------------------------------------------ buoyancy *)
(** the force on node a's share of the element is the integral of (rho - rhoRef) g *)
Theorem C88_buoyancy_force : forall m rhoRef g rho s a i, (i < ndim m)%nat ->
  gain (buoyancy_elem m rhoRef g rho) s (a*ndim m+i) = cv_int m (fun ip => (at_scv m rho ip - rhoRef) * g i) a.
Proof.
  intros m rhoRef g rho s a i Hi.
  etransitivity; [exact (vsrc_gain m (fun ip j => (at_scv m rho ip - rhoRef)*vol m ip*g j) s a i Hi)|].
  unfold cv_int. apply sumn_ext. intros ip _. destruct (Nat.eqb _ _); ring.
Qed.
Theorem C88_buoyancy_total_weight : forall m rhoRef g rho s i, maps_ok m -> (i < ndim m)%nat ->
  sumn (npe m) (fun a => gain (buoyancy_elem m rhoRef g rho) s (a*ndim m+i)) = (el_int m (fun ip => at_scv m rho ip) - rhoRef * el_int m (fun _ => 1)) * g i.
Proof.
  intros m rhoRef g rho s i HM Hi.
  rewrite (sumn_ext _ _ (cv_int m (fun ip => (at_scv m rho ip - rhoRef) * g i)) (fun a _ => C88_buoyancy_force m rhoRef g rho s a i Hi)), cv_int_total by assumption.
  unfold el_int. rewrite <- sumn_scal, <- sumn_minus, <- sumn_scal_r. apply sumn_ext. intros; ring.
Qed.
Theorem C88_buoyancy_reference_state : forall m rhoRef g s a i, unity (npe m) (nscv m) (Nv m) -> (i < ndim m)%nat ->
  gain (buoyancy_elem m rhoRef g (fun _ => rhoRef)) s (a*ndim m+i) = 0.
Proof.
  intros m rhoRef g s a i HU Hi. rewrite C88_buoyancy_force by assumption. unfold cv_int. apply sumn_zero. intros ip Hip.
  assert (E : at_scv m (fun _ => rhoRef) ip = rhoRef) by (unfold at_scv; rewrite sumn_scal_r, HU by assumption; ring). rewrite E. destruct (Nat.eqb _ _); ring.
Qed.
Theorem C88_buoyancy_node : forall d rhoRef g rho V s i, (i < d)%nat -> gain (buoyancy_node d rhoRef g rho V) s i = (rho - rhoRef)*V*g i.
Proof. intros. exact (nsrc_gain d (fun i => (rho - rhoRef)*V*g i) s i H). Qed.
(** with each point seeing its own node's density, the element shares add up to the nodal source on the dual volume *)
Theorem C88_buoyancy_lumped_is_nodal : forall els (V : nat -> R) d rhoRef g (rho : nat -> R) a i s sn,
  mesh_good els V -> (forall e, In e els -> ndim (ve_me e) = d) ->
  (forall e, In e els -> forall ip ic, (ip < nscv (ve_me e))%nat -> (ic < npe (ve_me e))%nat -> Nv (ve_me e) ip ic = if Nat.eqb ic (nearest (ve_me e) ip) then 1 else 0) ->
  (i < d)%nat ->
  lsum (fun e => sumn (npe (ve_me e)) (fun b => if Nat.eqb a (ve_node e b) then gain (buoyancy_elem (ve_me e) rhoRef g (fun ic => rho (ve_node e ic))) s (b*ndim (ve_me e)+i) else 0)) els
  = gain (buoyancy_node d rhoRef g (rho a) (V a)) sn i.
Proof.
  intros els V d rhoRef g rho a i s sn (HV & HM & HD) Hd HN Hi. rewrite C88_buoyancy_node by assumption. rewrite HD. unfold scv_total.
  replace ((rho a - rhoRef) * lsum (fun e => sumn (nscv (ve_me e)) (fun ip => if Nat.eqb a (ve_node e (nearest (ve_me e) ip)) then vol (ve_me e) ip * 1 else 0)) els * g i)
    with (((rho a - rhoRef) * g i) * lsum (fun e => sumn (nscv (ve_me e)) (fun ip => if Nat.eqb a (ve_node e (nearest (ve_me e) ip)) then vol (ve_me e) ip * 1 else 0)) els) by ring.
  clear HD HV. induction els as [|e els IH]; [cbn; ring|].
  assert (IH' := IH (fun e He => HM e (or_intror He)) (fun e He => Hd e (or_intror He)) (fun e He => HN e (or_intror He))). clear IH.
  change (lsum ?f (e :: els)) with (f e + lsum f els). rewrite IH', Rmult_plus_distr_l. f_equal.
  set (m := ve_me e) in *. assert (Hdm : ndim m = d) by (apply Hd; left; reflexivity). destruct (HM e (or_introl eq_refl)) as [_ HMm]. fold m in HMm.
  assert (HNe := HN e (or_introl eq_refl)). fold m in HNe.
  rewrite (sumn_ext (npe m) _ (fun b => sumn (nscv m) (fun ip => dl b (nearest m ip) * ((if Nat.eqb a (ve_node e b) then 1 else 0) * (vol m ip * ((rho (ve_node e b) - rhoRef) * g i)))))).
  - rewrite (sumn_swap (npe m) (nscv m)), <- sumn_scal. apply sumn_ext. intros ip Hip.
    rewrite (sumn_dl (npe m) (nearest m ip) (fun b => (if Nat.eqb a (ve_node e b) then 1 else 0) * (vol m ip * ((rho (ve_node e b) - rhoRef) * g i)))) by (apply HMm; assumption).
    destruct (Nat.eqb_spec a (ve_node e (nearest m ip))) as [<-|]; ring.
  - intros b Hb. rewrite C88_buoyancy_force by (rewrite Hdm; assumption). rewrite cv_int_dl.
    destruct (Nat.eqb a (ve_node e b)).
    + apply sumn_ext. intros ip Hip. unfold dl. destruct (Nat.eqb_spec b (nearest m ip)) as [->|]; [|ring].
      assert (E : at_scv m (fun ic => rho (ve_node e ic)) ip = rho (ve_node e (nearest m ip))).
      { unfold at_scv. rewrite (sumn_ext (npe m) _ (fun ic => dl ic (nearest m ip) * rho (ve_node e ic))) by (intros ic Hic; rewrite HNe by assumption; unfold dl; reflexivity).
        apply (sumn_dl (npe m) (nearest m ip) (fun ic => rho (ve_node e ic))). assumption. }
      rewrite E. ring.
    + symmetry. apply sumn_zero. intros; ring.
Qed.
(** the Boussinesq source is the buoyancy source of the linearised density *)
Theorem C88_boussinesq_is_linearised_buoyancy : forall m tRef rhoRef beta g T s row, unity (npe m) (nscv m) (Nv m) ->
  gain (boussinesq_elem m tRef rhoRef beta g T) s row = gain (buoyancy_elem m rhoRef g (fun ic => rhoRef*(1 - beta*(T ic - tRef)))) s row.
Proof.
  intros m tRef rhoRef beta g T s row HU. unfold gain. f_equal. unfold boussinesq_elem, buoyancy_elem. cbv zeta.
  assert (L : forall n (f h : nat -> esys -> esys), (forall k s, (k < n)%nat -> f k s = h k s) -> forall s, loop n f s = loop n h s).
  { clear. intros n f h H. unfold loop. assert (G : forall l, (forall k, In k l -> (k < n)%nat) -> forall s, fold_left (fun s k => f k s) l s = fold_left (fun s k => h k s) l s).
    { induction l as [|k l IH]; intros Hl s; [reflexivity|]. cbn [fold_left]. rewrite H by (apply Hl; left; reflexivity). apply IH. intros; apply Hl; right; assumption. }
    apply G. intros k Hk. apply in_seq in Hk. lia. }
  f_equal. apply L. intros ip s1 Hip. apply L. intros j s2 Hj. f_equal.
  assert (E : at_scv m (fun ic => rhoRef*(1 - beta*(T ic - tRef))) ip = rhoRef*(1 - beta*(at_scv m T ip - tRef))).
  { unfold at_scv. rewrite (sumn_ext (npe m) _ (fun ic => rhoRef*(1 + beta*tRef) * Nv m ip ic - rhoRef*beta*(Nv m ip ic * T ic))) by (intros; ring).
    rewrite sumn_minus, !sumn_scal, HU by assumption. ring. }
  rewrite E. ring.
Qed.
Theorem C88_boussinesq_node : forall d tRef rhoRef beta g T V s i, (i < d)%nat ->
  gain (boussinesq_node d tRef rhoRef beta g T V) s i = gain (buoyancy_node d rhoRef g (rhoRef*(1 - beta*(T - tRef))) V) s i.
Proof.
  intros. rewrite C88_buoyancy_node by assumption. etransitivity; [exact (nsrc_gain d (fun i => - rhoRef*beta*(T - tRef)*V*g i) s i H)|]. ring.
Qed.
(** warm fluid rises: above the reference temperature the force is against gravity *)
Theorem C88_warm_fluid_rises : forall d tRef rhoRef beta g T V s, 0 < rhoRef -> 0 < beta -> 0 < V -> tRef < T -> (exists i, (i < d)%nat /\ g i <> 0) ->
  sumn d (fun i => gain (boussinesq_node d tRef rhoRef beta g T V) s i * g i) < 0.
Proof.
  intros d tRef rhoRef beta g T V s Hr Hb HV HT (i0 & Hi0 & Hg).
  rewrite (sumn_ext d _ (fun i => (- (rhoRef*beta*(T - tRef)*V)) * (g i * g i))) by (intros i Hi; rewrite C88_boussinesq_node, C88_buoyancy_node by assumption; ring).
  rewrite sumn_scal.
  assert (P : 0 < sumn d (fun i => g i * g i)).
  { clear - Hi0 Hg. induction d as [|d IH]; [lia|]. rewrite sumn_S. destruct (Nat.eq_dec i0 d) as [->|N].
    - pose proof (sumn_nonneg d (fun i => g i * g i) (fun i _ => Rle_0_sqr (g i))). pose proof (Rsqr_pos_lt (g d) Hg). unfold Rsqr in *. lra.
    - assert (0 < sumn d (fun i => g i * g i)) by (apply IH; lia). pose proof (Rle_0_sqr (g d)). unfold Rsqr in *. lra. }
  assert (0 < rhoRef*beta*(T - tRef)*V) by (repeat apply Rmult_lt_0_compat; lra). nra.
Qed.
(* ------------------------------------------------------------------ constant forces and sources *)
Theorem C88_body_force_total : forall m bf s i, maps_ok m -> (i < ndim m)%nat ->
  sumn (npe m) (fun a => gain (body_force_elem m bf) s (a*ndim m+i)) = el_int m (fun _ => 1) * bf i.
Proof.
  intros m bf s i HM Hi. rewrite (sumn_ext (npe m) _ (cv_int m (fun _ => bf i))).
  - rewrite cv_int_total by assumption. unfold el_int. rewrite <- sumn_scal_r. apply sumn_ext. intros; ring.
  - intros a _. etransitivity; [exact (vsrc_gain m (fun ip j => vol m ip*bf j) s a i Hi)|]. reflexivity.
Qed.
Theorem C88_body_force_node : forall d bf V s i, (i < d)%nat -> gain (body_force_node d bf V) s i = V*bf i.
Proof. intros. exact (nsrc_gain d (fun i => V*bf i) s i H). Qed.
Theorem C88_volumetric_source_total : forall m src s, maps_ok m -> sumn (npe m) (gain (volumetric_elem m src) s) = el_int m (fun _ => 1) * src.
Proof.
  intros m src s HM. rewrite (sumn_ext (npe m) _ (cv_int m (fun _ => src))).
  - rewrite cv_int_total by assumption. unfold el_int. rewrite <- sumn_scal_r. apply sumn_ext. intros; ring.
  - intros a _. etransitivity; [exact (ssrc_gain m (fun ip => src*vol m ip) s a)|]. unfold cv_int. apply sumn_ext. intros. destruct (Nat.eqb _ _); ring.
Qed.
(* ------------------------------------------------------------------ turbulence sources *)
(** Rodi: node a receives the nodal source on its share of the element *)
Theorem C88_rodi_element_share_of_nodal : forall m beta Pr g dhdx cp mut s a V0 s0, V0 <> 0 ->
  gain (rodi_elem m beta Pr g dhdx cp mut) s a
  = (snd (rodi_node (ndim m) beta Pr g (fun i => dhdx (a*ndim m+i)%nat) (cp a) (mut a) V0 s0) - snd s0) / V0 * cv_int m (fun _ => 1) a.
Proof.
  intros m beta Pr g dhdx cp mut s a V0 s0 HV. etransitivity; [exact (ssrc_gain m (fun ip => beta*mut (nearest m ip)/Pr*sumn (ndim m) (fun i => g i*dhdx (nearest m ip*ndim m+i)%nat)/cp (nearest m ip)*vol m ip) s a)|].
  unfold rodi_node. cbn [snd]. replace ((snd s0 + beta*mut a/Pr*sumn (ndim m) (fun i => g i*dhdx (a*ndim m+i)%nat)/cp a*V0 - snd s0)/V0) with (beta*mut a/Pr*sumn (ndim m) (fun i => g i*dhdx (a*ndim m+i)%nat)/cp a).
  - rewrite <- cv_int_scal. unfold cv_int. apply sumn_ext. intros ip _. destruct (Nat.eqb_spec a (nearest m ip)) as [<-|]; ring.
  - unfold Rdiv. set (X := sumn _ _). replace (snd s0 + beta * mut a * / Pr * X * / cp a * V0 - snd s0) with (beta * mut a * / Pr * X * / cp a * V0) by ring. rewrite (Rmult_assoc _ V0), Rinv_r, Rmult_1_r by assumption. reflexivity.
Qed.
(** stable stratification (enthalpy grows against gravity) drains turbulence, unstable feeds it *)
Theorem C88_rodi_sign : forall d beta Pr g dhdx cp mut V s, 0 <= beta -> 0 < Pr -> 0 < cp -> 0 <= mut -> 0 <= V ->
  (sumn d (fun i => g i*dhdx i) <= 0 -> snd (rodi_node d beta Pr g dhdx cp mut V s) <= snd s) /\
  (0 <= sumn d (fun i => g i*dhdx i) -> snd s <= snd (rodi_node d beta Pr g dhdx cp mut V s)).
Proof.
  intros d beta Pr g dhdx cp mut V s Hb HP Hc Hm HV. unfold rodi_node. cbn [snd]. set (X := sumn _ _).
  assert (E : beta*mut/Pr*X/cp*V = (beta*mut*/Pr*/cp*V)*X) by (unfold Rdiv; ring). rewrite E.
  assert (K : 0 <= beta*mut*/Pr*/cp*V) by (repeat apply Rmult_le_pos; try assumption; left; apply Rinv_0_lt_compat; assumption).
  split; intros; nra.
Qed.
(** sub-grid buoyancy: |grad rho x g| and grad rho . g are the two legs of |grad rho||g| *)
Theorem C88_cross_dot : forall w g, cross_mag w g * cross_mag w g + dotn 3 w g * dotn 3 w g = dotn 3 w w * dotn 3 g g.
Proof.
  intros w g. unfold cross_mag. cbv zeta. rewrite sqrt_sqrt.
  - unfold dotn, sumn. cbn [seq fold_left]. ring.
  - repeat apply Rplus_le_le_0_compat; apply Rle_0_sqr.
Qed.
Theorem C88_ksgs_buoyancy_source : forall m dv Cb g rho tke dualVol s a,
  gain (ksgs_buoyancy_elem m dv Cb g rho tke dualVol) s a
  = cv_int m (fun ip => Cb*cbrt (at_scv m dualVol ip)*sqrt (at_scv m tke ip)*(cross_mag (grad_at (npe m) dv rho ip) g - dotn 3 (grad_at (npe m) dv rho ip) g)) a.
Proof.
  intros. etransitivity; [exact (ssrc_gain m (fun ip => Cb*cbrt (at_scv m dualVol ip)*sqrt (at_scv m tke ip)*(cross_mag (grad_at (npe m) dv rho ip) g - dotn 3 (grad_at (npe m) dv rho ip) g)*vol m ip) s a)|].
  unfold cv_int. apply sumn_ext. intros ip _. destruct (Nat.eqb _ _); ring.
Qed.
(** never a sink where the density decreases along gravity (or is horizontal); a pure sink where it increases straight along it; nothing for uniform density *)
Lemma cross_mag_nonneg w g : 0 <= cross_mag w g. Proof. apply sqrt_pos. Qed.
Theorem C88_ksgs_buoyancy_unstable_feeds : forall m dv Cb g rho tke dualVol s a, 0 <= Cb -> (forall ip, (ip < nscv m)%nat -> 0 <= vol m ip) ->
  (forall ip, (ip < nscv m)%nat -> dotn 3 (grad_at (npe m) dv rho ip) g <= 0) -> 0 <= gain (ksgs_buoyancy_elem m dv Cb g rho tke dualVol) s a.
Proof.
  intros m dv Cb g rho tke dualVol s a HC HV HD. rewrite C88_ksgs_buoyancy_source. unfold cv_int. apply sumn_nonneg. intros ip Hip.
  destruct (Nat.eqb _ _); [|lra]. apply Rmult_le_pos; [apply HV; assumption|]. pose proof (cross_mag_nonneg (grad_at (npe m) dv rho ip) g). pose proof (HD ip Hip).
  apply Rmult_le_pos; [apply Rmult_le_pos; [apply Rmult_le_pos; [assumption|apply cpow_nonneg]|apply sqrt_pos]|lra].
Qed.
Theorem C88_ksgs_buoyancy_stable_drains : forall m dv Cb g rho tke dualVol s a (k : nat -> R), 0 <= Cb -> (forall ip, (ip < nscv m)%nat -> 0 <= vol m ip) ->
  (forall ip j, (ip < nscv m)%nat -> (j < 3)%nat -> 0 <= k ip /\ grad_at (npe m) dv rho ip j = k ip * g j) ->
  gain (ksgs_buoyancy_elem m dv Cb g rho tke dualVol) s a <= 0.
Proof.
  intros m dv Cb g rho tke dualVol s a k HC HV HD. rewrite C88_ksgs_buoyancy_source.
  assert (N : 0 <= cv_int m (fun ip => Cb*cbrt (at_scv m dualVol ip)*sqrt (at_scv m tke ip)*(k ip * dotn 3 g g)) a).
  { unfold cv_int. apply sumn_nonneg. intros ip Hip. destruct (Nat.eqb _ _); [|lra]. apply Rmult_le_pos; [apply HV; assumption|].
    apply Rmult_le_pos; [apply Rmult_le_pos; [apply Rmult_le_pos; [assumption|apply cpow_nonneg]|apply sqrt_pos]|].
    apply Rmult_le_pos; [apply (HD ip 0%nat Hip); lia|]. unfold dotn. apply sumn_nonneg. intros; apply Rle_0_sqr. }
  rewrite (cv_int_ext m _ (fun ip => (-1) * (Cb*cbrt (at_scv m dualVol ip)*sqrt (at_scv m tke ip)*(k ip * dotn 3 g g)))).
  - rewrite cv_int_scal. lra.
  - intros ip Hip. assert (W : forall j, (j < 3)%nat -> grad_at (npe m) dv rho ip j = k ip * g j) by (intros; apply HD; assumption).
    set (w := grad_at (npe m) dv rho ip) in *.
    assert (E0 := W 0%nat ltac:(lia)). assert (E1 := W 1%nat ltac:(lia)). assert (E2 := W 2%nat ltac:(lia)).
    assert (C0 : cross_mag w g = 0).
    { unfold cross_mag. cbv zeta. rewrite E0, E1, E2. replace (_ + _ + _) with 0 by ring. apply sqrt_0. }
    assert (D0 : dotn 3 w g = k ip * dotn 3 g g) by (unfold dotn, sumn; cbn [seq fold_left]; rewrite E0, E1, E2; ring).
    rewrite C0, D0. ring.
Qed.
Theorem C88_ksgs_buoyancy_uniform_density : forall m dv Cb g c tke dualVol s a, dv_unity m dv -> ndim m = 3%nat ->
  gain (ksgs_buoyancy_elem m dv Cb g (fun _ => c) tke dualVol) s a = 0.
Proof.
  intros m dv Cb g c tke dualVol s a HU Hd. rewrite C88_ksgs_buoyancy_source. unfold cv_int. apply sumn_zero. intros ip Hip. destruct (Nat.eqb _ _); [|reflexivity].
  assert (Z : forall j, (j < 3)%nat -> grad_at (npe m) dv (fun _ => c) ip j = 0) by (intros j Hj; unfold grad_at; rewrite sumn_scal_r, HU by (try assumption; lia); ring).
  set (w := grad_at (npe m) dv (fun _ => c) ip) in *.
  assert (C0 : cross_mag w g = 0) by (unfold cross_mag; cbv zeta; rewrite !Z by lia; replace (_ + _ + _) with 0 by ring; apply sqrt_0).
  assert (D0 : dotn 3 w g = 0) by (unfold dotn, sumn; cbn [seq fold_left]; rewrite !Z by lia; ring). rewrite C0, D0. ring.
Qed.
(* ------------------------------------------------------------------ actuator source *)
Theorem C88_actuator_force : forall m src srcLHS s a i, (i < ndim m)%nat ->
  gain (actuator_elem m src srcLHS) s (a*ndim m+i) = cv_int m (fun ip => vec_at (npe m) (ndim m) (Nv m) src ip i) a /\
  gainL (actuator_elem m src srcLHS) s (a*ndim m+i) (a*ndim m+i) = cv_int m (fun _ => 1) a * srcLHS (a*ndim m+i)%nat.
Proof.
  intros m src srcLHS s a i Hi. set (d := ndim m) in *.
  assert (E : eff s (actuator_elem m src srcLHS s)
    (fun row col => sumn (nscv m) (fun ip => sumn d (fun j => dl row (nearest m ip*d+j) * dl col (nearest m ip*d+j) * (srcLHS (nearest m ip*d+j)%nat*vol m ip))))
    (fun row => sumn (nscv m) (fun ip => sumn d (fun j => dl row (nearest m ip*d+j) * (at_scv m (fun ic => src (ic*d+j)%nat) ip*vol m ip))))).
  { unfold actuator_elem. cbv zeta. fold d.
    apply (eff_loop (nscv m) _ (fun ip row col => sumn d (fun j => dl row (nearest m ip*d+j) * dl col (nearest m ip*d+j) * (srcLHS (nearest m ip*d+j)%nat*vol m ip)))
      (fun ip row => sumn d (fun j => dl row (nearest m ip*d+j) * (at_scv m (fun ic => src (ic*d+j)%nat) ip*vol m ip)))). intros ip s1 _.
    apply (eff_loop d _ (fun j row col => dl row (nearest m ip*d+j) * dl col (nearest m ip*d+j) * (srcLHS (nearest m ip*d+j)%nat*vol m ip))
      (fun j row => dl row (nearest m ip*d+j) * (at_scv m (fun ic => src (ic*d+j)%nat) ip*vol m ip))). intros j s2 _.
    eapply eff_ext; [eapply eff_trans; [apply eff_addB|apply eff_addL]|intros; cbv beta; ring|intros; cbv beta; ring]. }
  assert (P : forall ip (f : nat -> R), sumn d (fun j => dl (a*d+i) (nearest m ip*d+j) * f j) = (if Nat.eqb a (nearest m ip) then 1 else 0) * f i).
  { intros ip f. rewrite (sumn_ext d _ (fun j => dl j i * ((if Nat.eqb a (nearest m ip) then 1 else 0) * f j))) by (intros j Hj; rewrite dl_row by assumption; rewrite (dl_sym i j); ring).
    apply (sumn_dl d i (fun j => (if Nat.eqb a (nearest m ip) then 1 else 0) * f j)). assumption. }
  destruct E as [EL EB]. split.
  - unfold gain. rewrite EB, Rplus_comm. unfold Rminus. rewrite Rplus_assoc, Rplus_opp_r, Rplus_0_r. unfold cv_int. apply sumn_ext. intros ip _. rewrite P. unfold at_scv, vec_at. destruct (Nat.eqb _ _); ring.
  - unfold gainL. rewrite EL, Rplus_comm. unfold Rminus. rewrite Rplus_assoc, Rplus_opp_r, Rplus_0_r. unfold cv_int. rewrite <- sumn_scal_r. apply sumn_ext. intros ip _.
    rewrite (sumn_ext d _ (fun j => dl (a*d+i) (nearest m ip*d+j) * (dl (a*d+i) (nearest m ip*d+j) * (srcLHS (nearest m ip*d+j)%nat*vol m ip)))) by (intros; ring).
    rewrite P, dl_row by assumption. destruct (Nat.eqb_spec a (nearest m ip)) as [<-|]; [|ring]. unfold dl. rewrite Nat.eqb_refl. ring.
Qed.
