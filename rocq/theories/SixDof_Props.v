(** C96: loads on a floating body: wall forces, tethers, and what they do to the body *)
Require Import Reals List Bool Arith Lra Lia Permutation.
From Verif Require Import Edge_Model Edge_Proofs Elem_Model Elem_Proofs Wall_Model Aux_Model Motion_Model Motion_Spec Motion_Props Motion_Props2 Bnd_Spec Force_Model Force_Spec Force_Proofs SixDof_Model.
From Verif Require Sum_Proofs Rad_Quad_Proofs3 Force_Props.
Import ListNotations.
Open Scope R_scope.

(** all boundary points of the body, whichever rank owns their faces *)
Definition body_points (g : sixdof) : list spt := concat (d_pts g).
(** force of the fluid on the body at a point: pressure and viscous traction (C74) *)
Definition fluid_force (n : nat) (incl : R) (f : sfields) (b : spt) (i : nat) : R :=
  if (i <? n)%nat then p_force f b i + v_force n incl f b i else 0.
(** position of a point's node relative to the body's centre now *)
Definition lever (n : nat) (f : sfields) (g : sixdof) (b : spt) (i : nat) : R :=
  if (i <? n)%nat then q_x f (s_nn b) i - (comp (d_cen g) i + comp (b_disp (d_body g)) i) else 0.
(** where a tether is attached, and its length *)
Definition hook (g : sixdof) (t : tether) : v3 := tether_point (d_body g) (d_cen g) t.
Definition midpt (g : sixdof) : v3 := vadd (d_cen g) (b_disp (d_body g)).

Lemma sd_value n nr incl f gs g k : length (d_pts g) = nr -> sd_sums n nr incl f gs g k =
  lsum (fun b => let c := resolved n incl f b in if (k <? 3)%nat then k_pf c k else if (k <? 6)%nat then k_vf c (k - 3)%nat
        else cross_product (pad n (fun i => k_pf c i + k_vf c i)) (pad n (fun i => q_x f (s_nn b) i - centre g i)) (k - 6)%nat) (body_points g).
Proof.
  intros HL. unfold sd_sums. set (F := fun b : spt => _).
  rewrite (sumn_ext nr _ (fun r => lsum F (nth r (d_pts g) []))).
  - exact (ranks_sum F (mkAlg false (centre g) (d_pts g)) nr HL).
  - intros r Hr. unfold sd_rank. rewrite visit_sums. cbn [l_fm]. unfold F. lra.
Qed.
Lemma sd_force n nr incl f gs g i : length (d_pts g) = nr -> (i < 3)%nat ->
  sd_sums n nr incl f gs g i + sd_sums n nr incl f gs g (3 + i) = lsum (fun b => fluid_force n incl f b i) (body_points g).
Proof.
  intros HL Hi. rewrite !sd_value by exact HL. rewrite <- lsum_plus. apply lsum_ext. intros b Hb. cbv zeta.
  replace (i <? 3)%nat with true by (symmetry; apply Nat.ltb_lt; lia).
  replace (3 + i <? 3)%nat with false by (symmetry; apply Nat.ltb_ge; lia).
  replace (3 + i <? 6)%nat with true by (symmetry; apply Nat.ltb_lt; lia). replace (3 + i - 3)%nat with i by lia.
  unfold fluid_force. destruct (Nat.ltb_spec i n) as [Hn|Hn].
  - rewrite resolved_vf by exact Hn. unfold resolved. cbn [k_pf]. unfold pad. apply Nat.ltb_lt in Hn. rewrite Hn. rewrite ipol_at. unfold p_force. lra.
  - unfold resolved. cbn [k_pf k_vf]. unfold pad. apply Nat.ltb_ge in Hn. rewrite Hn. lra.
Qed.
Lemma sd_moment n nr incl f gs g k : length (d_pts g) = nr -> (k < 3)%nat ->
  sd_sums n nr incl f gs g (6 + k) = lsum (fun b => vcross (lever n f g b) (fluid_force n incl f b) k) (body_points g).
Proof.
  intros HL Hk. rewrite sd_value by exact HL. apply lsum_ext. intros b Hb. cbv zeta.
  replace (6 + k <? 3)%nat with false by (symmetry; apply Nat.ltb_ge; lia).
  replace (6 + k <? 6)%nat with false by (symmetry; apply Nat.ltb_ge; lia). replace (6 + k - 6)%nat with k by lia.
  assert (P : forall i, pad n (fun i => k_pf (resolved n incl f b) i + k_vf (resolved n incl f b) i) i = fluid_force n incl f b i).
  { intros i. unfold pad, fluid_force. destruct (Nat.ltb_spec i n) as [Hn|Hn]; [|reflexivity].
    rewrite resolved_vf by exact Hn. unfold resolved. cbn [k_pf]. unfold pad. apply Nat.ltb_lt in Hn. rewrite Hn, ipol_at. unfold p_force. lra. }
  unfold cross_product, vcross. rewrite !P. unfold pad, lever, centre. destruct k as [|[|k]]; ring.
Qed.
Lemma cross3_cross f r : cross3 f r = cross r f.
Proof. unfold cross3, cross. f_equal. ring. Qed.

Lemma add_tethers_value b cen ts : forall g s, add_tethers b cen ts g = Some s ->
  exists Fs, Forall2 (fun t F => tether_force b cen t = Some F) ts Fs /\
   (forall i, (i < 3)%nat -> s i = g i + lsum (fun F => comp F i) Fs) /\ (forall i, (i < 3)%nat -> s (3 + i)%nat = g (3 + i)%nat) /\
   (forall i, (i < 3)%nat -> s (6 + i)%nat = g (6 + i)%nat + lsum (fun tF => comp (cross (vsub (tether_point b cen (fst tF)) (vadd cen (b_disp b))) (snd tF)) i) (combine ts Fs)).
Proof.
  induction ts as [|t ts IH]; intros g s H; cbn [add_tethers] in H.
  - injection H as <-. exists []. split; [constructor|]. cbn [combine]. unfold lsum; cbn. repeat split; intros; lra.
  - destruct (tether_force b cen t) as [F|] eqn:E; [|discriminate]. cbv zeta in H. destruct (IH _ _ H) as (Fs & HF & H1 & H2 & H3).
    exists (F :: Fs). split; [constructor; assumption|]. cbn [combine]. split; [|split]; intros i Hi; rewrite ?Sum_Proofs.lsum_cons.
    + rewrite H1 by exact Hi. replace (i <? 3)%nat with true by (symmetry; apply Nat.ltb_lt; lia). lra.
    + rewrite H2 by exact Hi. replace (3 + i <? 3)%nat with false by (symmetry; apply Nat.ltb_ge; lia).
      replace (3 + i <? 6)%nat with true by (symmetry; apply Nat.ltb_lt; lia). reflexivity.
    + rewrite H3 by exact Hi. replace (6 + i <? 3)%nat with false by (symmetry; apply Nat.ltb_ge; lia).
      replace (6 + i <? 6)%nat with false by (symmetry; apply Nat.ltb_ge; lia).
      replace (6 + i <? 9)%nat with true by (symmetry; apply Nat.ltb_lt; lia). replace (6 + i - 6)%nat with i by lia.
      cbn [fst snd]. unfold tether_moment. rewrite cross3_cross. lra.
Qed.

(** The force and moment handed to the body are the sums, over all its wall points on all ranks and over all its tethers, of
    the single forces and of their moments about the body's present centre. *)
Theorem C96_body_load n nr incl f gs g F M : length (d_pts g) = nr -> body_load n nr incl f gs g = Some (F, M) ->
  exists Fs, Forall2 (fun t Ft => tether_force (d_body g) (d_cen g) t = Some Ft) (d_teth g) Fs /\ forall i, (i < 3)%nat ->
    comp F i = lsum (fun b => fluid_force n incl f b i) (body_points g) + lsum (fun Ft => comp Ft i) Fs /\
    comp M i = lsum (fun b => vcross (lever n f g b) (fluid_force n incl f b) i) (body_points g)
             + lsum (fun tF => comp (cross (vsub (hook g (fst tF)) (midpt g)) (snd tF)) i) (combine (d_teth g) Fs).
Proof.
  intros HL. unfold body_load. destruct (add_tethers _ _ _ _) as [s|] eqn:E; [|discriminate]. intros H.
  assert (EF : F = V3 (s 0%nat + s 3%nat) (s 1%nat + s 4%nat) (s 2%nat + s 5%nat)) by congruence.
  assert (EM : M = V3 (s 6%nat) (s 7%nat) (s 8%nat)) by congruence. clear H.
  destruct (add_tethers_value _ _ _ _ _ E) as (Fs & HF & H1 & H2 & H3). exists Fs. split; [exact HF|]. intros i Hi.
  assert (A : comp F i = s i + s (3 + i)%nat) by (subst F; destruct i as [|[|[|i]]]; try lia; reflexivity).
  assert (B : comp M i = s (6 + i)%nat) by (subst M; destruct i as [|[|[|i]]]; try lia; reflexivity).
  split.
  - rewrite A, H1, H2 by exact Hi. rewrite <- (sd_force n nr incl f gs g i HL Hi). lra.
  - rewrite B, H3 by exact Hi. rewrite (sd_moment n nr incl f gs g i HL Hi). reflexivity.
Qed.
(** The load does not depend on how the faces are distributed over the ranks, in which order they are visited, or on the
    other bodies. *)
Theorem C96_load_decomposition_free n nr nr' incl f gs gs' g g' : length (d_pts g) = nr -> length (d_pts g') = nr' ->
  d_body g = d_body g' -> d_cen g = d_cen g' -> d_teth g = d_teth g' -> Permutation (body_points g) (body_points g') ->
  body_load n nr incl f gs g = body_load n nr' incl f gs' g'.
Proof.
  intros HL HL' Eb Ec Et Pm.
  assert (S : forall k, sd_sums n nr incl f gs g k = sd_sums n nr' incl f gs' g' k).
  { intros k. rewrite !sd_value by assumption. rewrite (Sum_Proofs.lsum_perm _ _ _ Pm). apply lsum_ext. intros b Hb. cbv zeta.
    unfold centre. rewrite Eb, Ec. reflexivity. }
  unfold body_load. rewrite Eb, Ec, Et.
  assert (T : forall ts p q, (forall k, p k = q k) -> match add_tethers (d_body g') (d_cen g') ts p, add_tethers (d_body g') (d_cen g') ts q with
     | Some s, Some s' => forall k, s k = s' k | None, None => True | _, _ => False end).
  { induction ts as [|t ts IH]; intros p q H; cbn [add_tethers]; [exact H|]. destruct (tether_force _ _ t) as [Ft|]; [|exact I].
    apply IH. intros k. rewrite !H. reflexivity. }
  specialize (T (d_teth g') _ _ S). destruct (add_tethers _ _ _ (sd_sums n nr incl f gs g)) as [s|], (add_tethers _ _ _ (sd_sums n nr' incl f gs' g')) as [s'|]; try easy.
  rewrite !T. reflexivity.
Qed.

(** *** tethers *)
Lemma hook_rot g t : hook g t = rotate_translate_point (vadd (d_cen g) (t_body t)) (d_cen g) (b_disp (d_body g)) (b_angle (d_body g)).
Proof.
  unfold hook, tether_point, rotate_translate_point, convert_vect_to_orig_frame.
  replace (vsub (vadd (d_cen g) (t_body t)) (d_cen g)) with (t_body t) by (unfold vsub, vadd; apply v3_ext; cbn [vx vy vz]; ring).
  unfold vadd. apply v3_ext; cbn [vx vy vz]; ring.
Qed.
(** The attachment point moves with the body exactly as a mesh point of the body would, and keeps its distance from the centre. *)
Theorem C96_tether_moves_with_body g t :
  hook g t = rotate_translate_point (vadd (d_cen g) (t_body t)) (d_cen g) (b_disp (d_body g)) (b_angle (d_body g)) /\
  dist2 (hook g t) (midpt g) = dot (t_body t) (t_body t).
Proof.
  split; [apply hook_rot|]. rewrite hook_rot.
  destruct (C11_six_dof_points_move_rigidly (vadd (d_cen g) (t_body t)) (d_cen g) (d_cen g) (b_disp (d_body g)) (b_angle (d_body g))) as (H1 & H2 & _).
  unfold midpt. rewrite <- H2, H1. unfold dist2, dot, vsub, vadd. cbn [vx vy vz]. ring.
Qed.
(** length of the tether *)
Definition stretch (g : sixdof) (t : tether) : R := sqrt (dist2 (hook g t) (t_fix t)).
Lemma dist_stretch g t : tether_dist (d_body g) (d_cen g) t = stretch g t.
Proof. unfold tether_dist, stretch, hook, dist2, dot, vsub. cbn [vx vy vz]. f_equal. ring. Qed.
Lemma dist2_nonneg a b : 0 <= dist2 a b.
Proof. unfold dist2, dot. pose proof (Rle_0_sqr (vx (vsub a b))). pose proof (Rle_0_sqr (vy (vsub a b))). pose proof (Rle_0_sqr (vz (vsub a b))). unfold Rsqr in *. lra. Qed.
Lemma stretch_sq g t : stretch g t * stretch g t = dist2 (hook g t) (t_fix t).
Proof. apply sqrt_sqrt, dist2_nonneg. Qed.
(** does the tether act? *)
Definition acts (g : sixdof) (t : tether) : Prop := t_slack t <= 1/2 \/ t_len t < stretch g t.
Lemma tether_value g t : stretch g t <> 0 -> acts g t ->
  tether_force (d_body g) (d_cen g) t = Some (vscale (t_k t * (stretch g t - t_len t) / stretch g t) (vsub (t_fix t) (hook g t))).
Proof.
  intros H0 Ha. unfold tether_force. cbv zeta. rewrite dist_stretch. unfold divo. destruct (Req_EM_T (stretch g t) 0) as [|_]; [contradiction|].
  assert (V : forall x y z : R, V3 (t_k t * (stretch g t - t_len t) * (vx (t_fix t) - vx (tether_point (d_body g) (d_cen g) t)) / stretch g t)
      (t_k t * (stretch g t - t_len t) * (vy (t_fix t) - vy (tether_point (d_body g) (d_cen g) t)) / stretch g t)
      (t_k t * (stretch g t - t_len t) * (vz (t_fix t) - vz (tether_point (d_body g) (d_cen g) t)) / stretch g t)
      = vscale (t_k t * (stretch g t - t_len t) / stretch g t) (vsub (t_fix t) (hook g t))).
  { intros _ _ _. unfold vscale, vsub, hook. apply v3_ext; cbn [vx vy vz]; field; exact H0. }
  rewrite (V 0 0 0). destruct (Rlt_dec (1/2) (t_slack t)); [|reflexivity].
  destruct (Rlt_dec 0 (stretch g t - t_len t)) as [|N]; [reflexivity|]. destruct Ha; lra.
Qed.
(** A tether that acts pulls its attachment point along the line to the anchor with the spring force k*(length - rest length). *)
Theorem C96_tether_is_a_spring g t F : tether_force (d_body g) (d_cen g) t = Some F -> acts g t -> stretch g t <> 0 ->
  dot F F = (t_k t * (stretch g t - t_len t)) * (t_k t * (stretch g t - t_len t)) /\
  dot F (vsub (t_fix t) (hook g t)) = t_k t * (stretch g t - t_len t) * stretch g t /\
  cross F (vsub (t_fix t) (hook g t)) = V3 0 0 0.
Proof.
  intros E Ha H0. rewrite tether_value in E by assumption. injection E as <-.
  assert (D : dot (vsub (t_fix t) (hook g t)) (vsub (t_fix t) (hook g t)) = stretch g t * stretch g t).
  { rewrite stretch_sq. unfold dist2, dot, vsub. cbn [vx vy vz]. ring. }
  set (w := vsub (t_fix t) (hook g t)) in *. set (c := t_k t * (stretch g t - t_len t) / stretch g t).
  assert (C : c * stretch g t = t_k t * (stretch g t - t_len t)) by (unfold c; field; exact H0).
  assert (S1 : dot (vscale c w) (vscale c w) = c * c * dot w w) by (unfold dot, vscale; cbn [vx vy vz]; ring).
  assert (S2 : dot (vscale c w) w = c * dot w w) by (unfold dot, vscale; cbn [vx vy vz]; ring).
  split; [|split].
  - rewrite S1, D, <- C. ring.
  - rewrite S2, D, <- C. ring.
  - unfold cross, vscale. apply v3_ext; cbn [vx vy vz]; ring.
Qed.
(** A tether that may go slack never pushes, and exerts nothing unless it is longer than its rest length. *)
Theorem C96_slack_tether g t : 1/2 < t_slack t ->
  (stretch g t <= t_len t -> tether_force (d_body g) (d_cen g) t = Some (V3 0 0 0)) /\
  (0 <= t_k t -> forall F, tether_force (d_body g) (d_cen g) t = Some F -> 0 <= dot F (vsub (t_fix t) (hook g t))).
Proof.
  intros Hs.
  assert (Z : stretch g t <= t_len t -> tether_force (d_body g) (d_cen g) t = Some (V3 0 0 0)).
  { intros Hl. unfold tether_force. cbv zeta. rewrite dist_stretch. destruct (Rlt_dec (1/2) (t_slack t)); [|lra]. destruct (Rlt_dec 0 (stretch g t - t_len t)); [lra|reflexivity]. }
  split; [exact Z|]. intros Hk F E. destruct (Rle_dec (stretch g t) (t_len t)) as [Hl|Hl].
  - rewrite Z in E by exact Hl. injection E as <-. unfold dot. cbn [vx vy vz]. lra.
  - assert (P : 0 <= stretch g t) by apply sqrt_pos. destruct (Req_EM_T (stretch g t) 0) as [H0|H0].
    + (* dist 0 : the pull is undefined *)
      unfold tether_force in E. cbv zeta in E. rewrite dist_stretch in E. unfold divo in E. destruct (Req_EM_T (stretch g t) 0); [|contradiction].
      destruct (Rlt_dec (1/2) (t_slack t)); [|discriminate]. destruct (Rlt_dec 0 (stretch g t - t_len t)); [discriminate|lra].
    + assert (L : t_len t < stretch g t) by lra. destruct (C96_tether_is_a_spring g t F E (or_intror L) H0) as (_ & D & _). rewrite D.
      apply Rmult_le_pos; [apply Rmult_le_pos; lra|exact P].
Qed.
(** A tether's force and moment are defined whenever its ends are apart. *)
Theorem C96_tether_defined g t : stretch g t <> 0 -> exists F, tether_force (d_body g) (d_cen g) t = Some F.
Proof.
  intros H0. destruct (Rle_dec (t_slack t) (1/2)) as [Hs|Hs]; [eexists; apply tether_value; [exact H0|left; exact Hs]|].
  destruct (Rlt_dec (t_len t) (stretch g t)) as [Hl|Hl]; [eexists; apply tether_value; [exact H0|right; exact Hl]|].
  eexists. apply (proj1 (C96_slack_tether g t ltac:(lra))). lra.
Qed.
(** Force and moment of a tether are those of one force acting along its line: the moment about the anchor vanishes. *)
Theorem C96_tether_load_acts_at_anchor g t F : tether_force (d_body g) (d_cen g) t = Some F -> stretch g t <> 0 ->
  vadd (tether_moment (d_body g) (d_cen g) t F) (cross (vsub (midpt g) (t_fix t)) F) = V3 0 0 0.
Proof.
  intros E H0.
  assert (Z : cross F (vsub (t_fix t) (hook g t)) = V3 0 0 0).
  { destruct (Rle_dec (t_slack t) (1/2)) as [Hs|Hs]; [apply (C96_tether_is_a_spring g t F E (or_introl Hs) H0)|].
    destruct (Rlt_dec (t_len t) (stretch g t)) as [Hl|Hl]; [apply (C96_tether_is_a_spring g t F E (or_intror Hl) H0)|].
    rewrite (proj1 (C96_slack_tether g t ltac:(lra)) ltac:(lra)) in E. injection E as <-. unfold cross. apply v3_ext; cbn [vx vy vz]; ring. }
  unfold tether_moment. rewrite cross3_cross. fold (hook g t). unfold midpt. revert Z. generalize (hook g t). intros h Z.
  pose proof (f_equal vx Z) as Z1. pose proof (f_equal vy Z) as Z2. pose proof (f_equal vz Z) as Z3.
  unfold cross, vsub, vadd in *. cbn [vx vy vz] in *. apply v3_ext; cbn [vx vy vz]; lra.
Qed.
