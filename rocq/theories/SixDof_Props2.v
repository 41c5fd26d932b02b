(** C96, continued: energy of a tether, buoyancy, motion under the loads, nodal fields, reading the tethers *)
Require Import Reals List Bool Arith Lra Lia Permutation.
From Verif Require Import Edge_Model Edge_Proofs Elem_Model Elem_Proofs Wall_Model Aux_Model Motion_Model Motion_Spec Motion_Props Motion_Props2 Bnd_Spec Force_Model Force_Spec Force_Proofs SixDof_Model SixDof_Props.
From Verif Require Sum_Proofs Rad_Quad_Proofs3 Force_Props Motion_Props3.
Import ListNotations.
Open Scope R_scope.

(** potential energy of a spring of stiffness k and rest length L between p and the anchor *)
Definition spring_energy (k L : R) (anchor p : v3) : R := k/2 * ((sqrt (dist2 p anchor) - L) * (sqrt (dist2 p anchor) - L)).
Lemma dpl_quadratic a b c : derivable_pt_lim (fun s => a + b*s + c*(s*s)) 0 b.
Proof.
  assert (Q : derivable_pt_lim (fun s => a + b*s + c*(s*s)) 0 (0 + b*1 + c*(1*0 + 0*1))).
  { apply (Motion_Props3.dpl_add (fun s => a + b*s) (fun s => c*(s*s))); [apply (Motion_Props3.dpl_add (fun _ => a) (fun s => b*s)); [apply derivable_pt_lim_const|]|].
    - apply (derivable_pt_lim_scal id b 0 1), derivable_pt_lim_id.
    - apply (derivable_pt_lim_scal (fun s => s*s) c 0). apply (Motion_Props3.dpl_mul (fun s => s) (fun s => s) 0 1 1); apply derivable_pt_lim_id. }
  replace (0 + b*1 + c*(1*0 + 0*1)) with b in Q by ring. exact Q.
Qed.
(** The force of an acting tether is minus the gradient of the spring's energy: moving the attachment point by s*e changes the
    energy at the rate -F.e *)
Theorem C96_tether_conservative g t F e : tether_force (d_body g) (d_cen g) t = Some F -> acts g t -> stretch g t <> 0 ->
  derivable_pt_lim (fun s => spring_energy (t_k t) (t_len t) (t_fix t) (vadd (hook g t) (vscale s e))) 0 (- dot F e).
Proof.
  intros E Ha H0. rewrite tether_value in E by assumption. injection E as <-.
  set (w := vsub (hook g t) (t_fix t)).
  assert (P : 0 < stretch g t) by (pose proof (sqrt_pos (dist2 (hook g t) (t_fix t))) as Q; unfold stretch in *; lra).
  assert (D0 : 0 < dot w w). { change (dot w w) with (dist2 (hook g t) (t_fix t)). rewrite <- stretch_sq. apply Rmult_lt_0_compat; exact P. }
  set (N := fun s : R => dot w w + 2 * dot w e * s + dot e e * (s*s)).
  assert (EN : forall s, dist2 (vadd (hook g t) (vscale s e)) (t_fix t) = N s).
  { intros s. unfold N, w, dist2, dot, vsub, vadd, vscale. cbn [vx vy vz]. ring. }
  assert (DN : derivable_pt_lim N 0 (2 * dot w e)) by apply dpl_quadratic.
  assert (N0 : N 0 = dot w w) by (unfold N; ring).
  assert (SN : derivable_pt_lim (fun s => sqrt (N s)) 0 (dot w e / stretch g t)).
  { replace (dot w e / stretch g t) with (/ (2 * sqrt (N 0)) * (2 * dot w e)).
    - apply (derivable_pt_lim_comp N sqrt 0); [exact DN|]. apply derivable_pt_lim_sqrt. rewrite N0. exact D0.
    - rewrite N0. change (sqrt (dot w w)) with (stretch g t). field. exact H0. }
  set (r := fun s => sqrt (N s) - t_len t).
  assert (DR : derivable_pt_lim r 0 (dot w e / stretch g t)).
  { replace (dot w e / stretch g t) with (dot w e / stretch g t - 0) by ring. apply derivable_pt_lim_minus; [exact SN|apply derivable_pt_lim_const]. }
  apply (Motion_Props2.dpl_ext _ (fun s => t_k t / 2 * (r s * r s))).
  { intros s. unfold spring_energy, r. rewrite EN. reflexivity. }
  assert (R0 : r 0 = stretch g t - t_len t) by (unfold r; rewrite N0; reflexivity).
  replace (- dot _ e) with (t_k t / 2 * (dot w e / stretch g t * r 0 + r 0 * (dot w e / stretch g t))).
  - apply (derivable_pt_lim_scal (fun s => r s * r s)). apply (derivable_pt_lim_mult r r 0); exact DR.
  - rewrite R0. replace (dot (vscale (t_k t * (stretch g t - t_len t) / stretch g t) (vsub (t_fix t) (hook g t))) e) with (- (t_k t * (stretch g t - t_len t) / stretch g t * dot w e)).
    + field. exact H0.
    + unfold w, dot, vscale, vsub. cbn [vx vy vz]. ring.
Qed.
(** Moving the body's centroid and every anchor by the same vector changes no tether force. *)
Theorem C96_tethers_translation_free b cen t s :
  tether_force b (vadd cen s) (mkT (t_slack t) (t_len t) (t_k t) (t_body t) (vadd (t_fix t) s)) = tether_force b cen t.
Proof.
  set (t' := mkT _ _ _ _ _).
  assert (P : tether_point b (vadd cen s) t' = vadd (tether_point b cen t) s).
  { unfold tether_point, t'. cbn [t_body]. unfold vadd. apply v3_ext; cbn [vx vy vz]; ring. }
  assert (D : tether_dist b (vadd cen s) t' = tether_dist b cen t).
  { unfold tether_dist. rewrite P. unfold t'. cbn [t_fix]. unfold vadd. cbn [vx vy vz]. f_equal. ring. }
  unfold tether_force. cbv zeta. rewrite D, P. unfold t'. cbn [t_fix t_k t_len t_slack]. generalize (tether_point b cen t). intros p.
  replace (vx (vadd (t_fix t) s) - vx (vadd p s)) with (vx (t_fix t) - vx p) by (unfold vadd; cbn [vx]; ring).
  replace (vy (vadd (t_fix t) s) - vy (vadd p s)) with (vy (t_fix t) - vy p) by (unfold vadd; cbn [vy]; ring).
  replace (vz (vadd (t_fix t) s) - vz (vadd p s)) with (vz (t_fix t) - vz p) by (unfold vadd; cbn [vz]; ring). reflexivity.
Qed.

(** *** buoyancy.  The points' areas point out of the fluid, that is into the body: on a closed surface they add up to zero and
    sum of position times area is minus the enclosed volume V.  A hydrostatic pressure p0 + grad.x in a fluid without strain then
    loads the body, if it has no tethers, with -V*grad: the weight of the displaced fluid, upwards. *)
Theorem C96_archimedes n nr incl f gs g X p0 grad V F M : length (d_pts g) = nr -> (n <= 3)%nat -> d_teth g = [] ->
  (forall b, In b (body_points g) -> at_pt b (q_p f) = p0 + sumn n (fun j => grad j * X b j)) ->
  (forall a i j, q_dudx f a i j = - q_dudx f a j i) ->
  (forall i, (i < n)%nat -> lsum (fun b => s_A b i) (body_points g) = 0) ->
  (forall i j, (i < n)%nat -> (j < n)%nat -> lsum (fun b => X b j * s_A b i) (body_points g) = if Nat.eqb i j then - V else 0) ->
  body_load n nr incl f gs g = Some (F, M) ->
  forall i, (i < n)%nat -> comp F i = - V * grad i.
Proof.
  intros HL Hn Ht Hp HS HA HX H i Hi. destruct (C96_body_load _ _ _ _ _ _ _ _ HL H) as (Fs & HF & HV).
  rewrite Ht in HF. inversion HF; subst. destruct (HV i ltac:(lia)) as (E & _). rewrite E. unfold lsum at 2. cbn [fold_right map].
  assert (Z : lsum (fun Ft : v3 => comp Ft i) [] = 0) by (unfold lsum; reflexivity).
  rewrite (lsum_ext _ (fun b => p0 * s_A b i + sumn n (fun j => grad j * (X b j * s_A b i)))).
  - rewrite lsum_plus, lsum_scal, HA by exact Hi.
    rewrite <- (sumn_lsum_swap n (fun j b => grad j * (X b j * s_A b i))).
    rewrite (sumn_ext n _ (fun j => dl j i * (- V * grad j))).
    + rewrite (sumn_dl n i (fun j => - V * grad j) Hi). unfold lsum. cbn. lra.
    + intros j Hj. rewrite lsum_scal, HX by assumption. unfold dl. rewrite (Nat.eqb_sym j i). destruct (Nat.eqb_spec i j); [subst|]; ring.
  - intros b Hb. unfold fluid_force. apply Nat.ltb_lt in Hi. rewrite Hi. unfold p_force. rewrite Hp by exact Hb.
    assert (Q : v_force n incl f b i = 0).
    { unfold v_force, viscous_flux. rewrite (sumn_zero n) by (intros j _; rewrite (HS (s_nn b) i j); ring).
      rewrite (sumn_zero n (fun j => q_dudx f (s_nn b) j j)) by (intros j _; pose proof (HS (s_nn b) j j); lra). ring. }
    rewrite Q. rewrite Rmult_plus_distr_r.
    replace (sumn n (fun j => grad j * X b j) * s_A b i) with (sumn n (fun j => grad j * (X b j * s_A b i))); [ring|].
    rewrite Rmult_comm. rewrite <- sumn_scal. apply sumn_ext. intros; ring.
Qed.

(** *** the body's acceleration.  Under a constant load each update halves the distance of the stored acceleration to
    (force + applied force)/mass. *)
Fixpoint updates (n : nat) (dt : R) (b : body) : body := match n with O => b | S n => update_body_vel (updates n dt b) dt end.
Definition newton_accel (b : body) (i : nat) : R := (comp (b_force b) i + comp (b_applied b) i) / b_mass b.
Lemma update_keeps b dt : b_force (update_body_vel b dt) = b_force b /\ b_applied (update_body_vel b dt) = b_applied b /\ b_mass (update_body_vel b dt) = b_mass b.
Proof. repeat split. Qed.
Lemma updates_keep n dt b : b_force (updates n dt b) = b_force b /\ b_applied (updates n dt b) = b_applied b /\ b_mass (updates n dt b) = b_mass b.
Proof. induction n as [|n (A & B & C)]; [repeat split|]. cbn [updates]. destruct (update_keeps (updates n dt b) dt) as (A' & B' & C'). rewrite A', B', C'. auto. Qed.
Lemma step_accel b dt i : 0 < b_mass b -> (i < 3)%nat ->
  comp (b_accel (update_body_vel b dt)) i = 1/2 * comp (b_accel b) i + 1/2 * newton_accel b i /\
  comp (b_vel (update_body_vel b dt)) i = comp (b_vel b) i + dt * comp (b_accel (update_body_vel b dt)) i.
Proof.
  intros Hm Hi. unfold update_body_vel. cbv zeta. cbn [b_accel b_vel]. destruct (Rlt_dec 0 (b_mass b)); [|lra]. unfold newton_accel.
  destruct i as [|[|[|i]]]; [| | |lia]; cbn [comp vadd vscale vx vy vz]; split; try reflexivity; field; lra.
Qed.
Theorem C96_constant_load_acceleration n dt b i : 0 < b_mass b -> (i < 3)%nat ->
  comp (b_accel (updates n dt b)) i - newton_accel b i = (1/2)^n * (comp (b_accel b) i - newton_accel b i).
Proof.
  intros Hm Hi. induction n as [|n IH]; [cbn; lra|]. cbn [updates pow]. destruct (updates_keep n dt b) as (A & B & C).
  destruct (step_accel (updates n dt b) dt i ltac:(rewrite C; exact Hm) Hi) as (E & _). rewrite E.
  assert (Q : newton_accel (updates n dt b) i = newton_accel b i) by (unfold newton_accel; rewrite A, B, C; reflexivity). rewrite Q.
  replace (1/2 * comp (b_accel (updates n dt b)) i + 1/2 * newton_accel b i - newton_accel b i)
     with (1/2 * (comp (b_accel (updates n dt b)) i - newton_accel b i)) by lra. rewrite IH. ring.
Qed.
(** A body whose loads balance and that does not accelerate keeps its velocity. *)
Theorem C96_balanced_body_keeps_velocity n dt b i : 0 < b_mass b -> (i < 3)%nat -> comp (b_force b) i + comp (b_applied b) i = 0 -> comp (b_accel b) i = 0 ->
  comp (b_vel (updates n dt b)) i = comp (b_vel b) i.
Proof.
  intros Hm Hi H0 Ha. assert (Z : newton_accel b i = 0) by (unfold newton_accel; rewrite H0; lra).
  induction n as [|n IH]; [reflexivity|]. cbn [updates]. destruct (updates_keep n dt b) as (A & B & C).
  destruct (step_accel (updates n dt b) dt i ltac:(rewrite C; exact Hm) Hi) as (_ & E). rewrite E, IH.
  pose proof (C96_constant_load_acceleration (S n) dt b i Hm Hi) as Q. cbn [updates] in Q. rewrite Z, Ha in Q. nra.
Qed.
(** The first step of a body starting from rest does not obey Newton's law: it accelerates with half the force. *)
Theorem C96_first_step_newton_refuted :
  ~ (forall b dt i, 0 < b_mass b -> (i < 3)%nat -> 0 < dt -> comp (b_accel b) i = 0 -> comp (b_vel b) i = 0 ->
       comp (b_vel (update_body_vel b dt)) i = dt * newton_accel b i).
Proof.
  intros H. set (o := V3 0 0 0). set (b := mkB o o o o o (V3 1 0 0) o o o 1).
  specialize (H b 1 0%nat ltac:(cbn; lra) ltac:(lia) ltac:(lra) eq_refl eq_refl).
  destruct (step_accel b 1 0%nat ltac:(cbn; lra) ltac:(lia)) as (E1 & E2). rewrite E2, E1 in H. unfold newton_accel in H. cbn in H. lra.
Qed.

(** *** nodal fields: what a rank adds during one execution, for one motion *)
Lemma sd_fields_pf n nr incl f gs r : forall hs st a i, (i < n)%nat ->
  fst (fst (fold_left (fun st g => let c := sd_rank n nr incl f gs g r (fst (fst st)) (snd (fst st)) (snd st) in (n_pf c, n_tau c, n_yp c)) hs st)) a i
  = fst (fst st) a i + lsum (fun g => lsum (fun b => if Nat.eqb (s_nn b) a then p_force f b i else 0) (nth r (d_pts g) [])) hs.
Proof.
  induction hs as [|g hs IH]; intros st a i Hi; cbn [fold_left]; [unfold lsum; cbn; lra|].
  rewrite IH, Sum_Proofs.lsum_cons by exact Hi. cbn [fst]. unfold sd_rank. rewrite visit_pf by exact Hi. cbn [n_pf].
  rewrite (lsum_ext (fun b => if Nat.eqb (s_nn b) a then k_pf (resolved n incl f b) i else 0) (fun b => if Nat.eqb (s_nn b) a then p_force f b i else 0)); [lra|].
  intros b Hb. destruct (Nat.eqb (s_nn b) a); [|reflexivity]. unfold resolved. cbn [k_pf]. unfold pad, p_force. apply Nat.ltb_lt in Hi. rewrite Hi, ipol_at. reflexivity.
Qed.
(** A rank's nodal pressure force after an execution is what it was before plus the forces of the rank's own faces. *)
Theorem C96_nodal_force_partial n nr incl f gs r st a i : (i < n)%nat ->
  fst (fst (sd_fields n nr incl f gs r st)) a i
  = fst (fst st) a i + lsum (fun g => lsum (fun b => if Nat.eqb (s_nn b) a then p_force f b i else 0) (nth r (d_pts g) [])) gs.
Proof. intros Hi. unfold sd_fields. apply sd_fields_pf, Hi. Qed.
(** Example: one face point of unit area and unit pressure at node 0 *)
Definition ex_pt : spt := mkPt 0 (fun i => match i with 0%nat => 1 | _ => 0 end) [(1, 0%nat)] 1 0 0.
Definition ex_sf : sfields := mkSF (fun a i => INR a) (fun _ => 1) (fun _ => 1) (fun _ => 1) (fun _ _ _ => 0) (fun _ _ => 0) (fun _ _ => 0).
Definition ex_b : body := let o := V3 0 0 0 in mkB o o o (V3 1 1 1) o o o o o 2.
Definition ex_body (pts : list (list spt)) : sixdof := mkSD ex_b (V3 0 0 0) [mkT 1 1 3 (V3 1 0 0) (V3 5 0 0)] pts.
(** The nodal force of the same flow grows with every step: it is never set to zero. *)
Theorem C96_nodal_force_of_present_flow_refuted :
  ~ (forall n nr incl f gs r st a i, (i < n)%nat -> (r < nr)%nat ->
       let once := sd_fields n nr incl f gs r st in fst (fst (sd_fields n nr incl f gs r once)) a i = fst (fst once) a i).
Proof.
  intros H. specialize (H 1%nat 1%nat 0 ex_sf [ex_body [[ex_pt]]] 0%nat (fun _ _ => 0, fun _ => 0, fun _ => 0) 0%nat 0%nat ltac:(lia) ltac:(lia)).
  cbv zeta in H. rewrite !C96_nodal_force_partial in H by lia. cbn [fst] in H. unfold lsum, p_force, at_pt, lsum in H. cbn in H. lra.
Qed.
(** A node on the border of two ranks shows only the faces of one of them. *)
Theorem C96_nodal_force_complete_refuted :
  ~ (forall n nr incl f g r a i, (i < n)%nat -> (r < nr)%nat -> length (d_pts g) = nr ->
       fst (fst (sd_fields n nr incl f [g] r (fun _ _ => 0, fun _ => 0, fun _ => 0))) a i
       = lsum (fun b => if Nat.eqb (s_nn b) a then p_force f b i else 0) (body_points g)).
Proof.
  intros H. specialize (H 1%nat 2%nat 0 ex_sf (ex_body [[ex_pt]; [ex_pt]]) 0%nat 0%nat 0%nat ltac:(lia) ltac:(lia) eq_refl).
  rewrite C96_nodal_force_partial in H by lia. cbn [fst] in H. unfold lsum, p_force, at_pt, lsum in H. cbn in H. lra.
Qed.

(** *** reading the tethers: nine numbers each, in order; any other count is an error *)
Definition numbers (t : tether) : list R :=
  [t_slack t; t_len t; t_k t; vx (t_body t); vy (t_body t); vz (t_body t); vx (t_fix t); vy (t_fix t); vz (t_fix t)].
Theorem C96_tethers_read ts : load_tethers (flat_map numbers ts) = Some ts.
Proof.
  assert (L : length (flat_map numbers ts) = (9 * length ts)%nat) by (induction ts as [|t ts IH]; [reflexivity|]; cbn [flat_map]; rewrite app_length, IH; cbn; lia).
  unfold load_tethers. rewrite L. rewrite Nat.mul_comm, Nat.mod_mul by lia. rewrite Nat.div_mul by lia. cbn [Nat.eqb]. f_equal.
  clear L. induction ts as [|t ts IH]; [reflexivity|]. cbn [length seq map flat_map]. f_equal.
  - destruct t as [? ? ? [? ? ?] [? ? ?]]; reflexivity.
  - rewrite <- seq_shift, map_map. rewrite <- IH at 2. apply map_ext. intros i.
    assert (N : forall j, nth (9 * S i + j) (numbers t ++ flat_map numbers ts) 0 = nth (9 * i + j) (flat_map numbers ts) 0).
    { intros j. rewrite app_nth2 by (cbn [numbers length]; lia). f_equal. cbn [numbers length]. lia. }
    unfold tether_at. cbv zeta. rewrite !N. reflexivity.
Qed.
Theorem C96_tethers_wrong_count l : load_tethers l = None <-> ~ exists m, length l = (9 * m)%nat.
Proof.
  unfold load_tethers. destruct (Nat.eqb_spec (length l mod 9) 0) as [E|E]; split; intros H.
  - discriminate.
  - exfalso. apply H. exists (length l / 9)%nat. pose proof (Nat.div_mod (length l) 9 ltac:(lia)). lia.
  - intros (m & Hm). apply E. rewrite Hm, Nat.mul_comm. apply Nat.mod_mul. lia.
  - reflexivity.
Qed.

(** *** the hypotheses are met: a body turned by nothing, hook at (1,0,0), anchor at (5,0,0), rest length 1, stiffness 3 *)
Lemma ex_hook pts : hook (ex_body pts) (mkT 1 1 3 (V3 1 0 0) (V3 5 0 0)) = V3 1 0 0.
Proof.
  destruct (C96_tether_moves_with_body (ex_body pts) (mkT 1 1 3 (V3 1 0 0) (V3 5 0 0))) as (E & _). rewrite E.
  unfold rotate_translate_point. rewrite C11_matrix_is_the_euler_rotation. cbn [ex_body d_body d_cen ex_b b_angle b_disp t_body vx vy vz].
  unfold rot_z, rot_y, rot_x, vadd, vsub. cbn [vx vy vz]. rewrite cos_0, sin_0. apply v3_ext; cbn [vx vy vz]; ring.
Qed.
Lemma ex_stretch pts : stretch (ex_body pts) (mkT 1 1 3 (V3 1 0 0) (V3 5 0 0)) = 4.
Proof. unfold stretch. rewrite ex_hook. unfold dist2, dot, vsub. cbn [vx vy vz t_fix]. replace (_ + _ + _) with (4*4) by ring. apply sqrt_square. lra. Qed.
Theorem C96_hypotheses_met : exists F M, let g := ex_body [[ex_pt]] in
  length (d_pts g) = 1%nat /\ body_load 3 1 0 ex_sf [g] g = Some (F, M) /\ vx F = 10 /\
  acts g (mkT 1 1 3 (V3 1 0 0) (V3 5 0 0)) /\ stretch g (mkT 1 1 3 (V3 1 0 0) (V3 5 0 0)) <> 0.
Proof.
  set (t := mkT 1 1 3 (V3 1 0 0) (V3 5 0 0)). set (g := ex_body [[ex_pt]]).
  assert (S0 : stretch g t <> 0) by (unfold g, t; rewrite ex_stretch; lra).
  assert (A : acts g t) by (right; unfold g, t; rewrite ex_stretch; cbn; lra).
  pose proof (tether_value g t S0 A) as TF.
  assert (TV : vscale (t_k t * (stretch g t - t_len t) / stretch g t) (vsub (t_fix t) (hook g t)) = V3 9 0 0).
  { unfold g, t. rewrite ex_stretch, ex_hook. unfold vscale, vsub. cbn [t_k t_len t_fix vx vy vz]. apply v3_ext; cbn [vx vy vz]; field. }
  rewrite TV in TF.
  destruct (body_load 3 1 0 ex_sf [g] g) as [[F M]|] eqn:E.
  - exists F, M. cbv zeta. split; [reflexivity|]. split; [exact E|]. split; [|split; assumption].
    destruct (C96_body_load _ _ _ _ _ _ _ _ (eq_refl : length (d_pts g) = 1%nat) E) as (Fs & HF & HV). destruct (HV 0%nat ltac:(lia)) as (V & _).
    cbn [comp] in V. rewrite V. inversion HF as [|? Ft ? ? H1 H2]; subst. inversion H2; subst. change (tether_force (d_body g) (d_cen g) t = Some Ft) in H1.
    rewrite TF in H1. injection H1 as <-. unfold lsum, body_points, g, ex_body. cbn [d_pts concat app map fold_right].
    unfold fluid_force, p_force, v_force, viscous_flux, at_pt, lsum, ex_pt, ex_sf. cbn. unfold sumn. cbn. lra.
  - exfalso. unfold body_load in E. change (d_teth g) with [t] in E. cbn [add_tethers] in E. rewrite TF in E. discriminate.
Qed.
