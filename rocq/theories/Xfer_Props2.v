(** C81, part 2: the values the to-points receive *)
Require Import String Reals List Bool Arith Lra Lia.
From Verif Require Import ME_Model ME_Shape_Model ME_Shape_Spec ME_Shape_Props ME_Shape_Props2 ME_Point_Model ME_Point_Spec ME_Point_Props ME_Point_Props3 ME_Point_Props4 Opt_Model Xfer_Model Xfer_Props.
Import ListNotations.
Open Scope list_scope.
Open Scope R_scope.

(** shape functions of the two topologies *)
Definition shape (t : topo) : vec -> nat -> R := match t with TET4 => tet4_shape | HEX8 => hex8g_shape end.
Lemma interpolate_shape t s f : interpolate t s f = interp (npe t) (shape t) s f.
Proof. destruct t; apply C30_interpolate_point. Qed.
Lemma shape_unity t s : rsum (map (shape t s) (seq 0 (npe t))) = 1.
Proof. destruct t; [apply (nb_unity _ _ _ _ _ C30_tet4_basis)|apply (nb_unity _ _ _ _ _ C30_hex8_general_basis)]; exact I. Qed.

(** ** what one pair does *)
Lemma gather_spec f conn j n : (j < fl_size f)%nat -> exists l, gather f conn j n = Some l /\ List.length l = n /\ forall i, (i < n)%nat -> nth i l 0 = fl_val f (conn i) j.
Proof.
  intros H. induction n as [|n (l & A & B & C)]; cbn; [exists []; repeat split; intros; lia|].
  rewrite A. unfold fread. apply Nat.ltb_lt in H. rewrite H. exists (l ++ [fl_val f (conn n) j]). split; [reflexivity|]. rewrite app_length. cbn. split; [lia|].
  intros i Hi. destruct (Nat.eq_dec i n) as [->|Q]; [rewrite app_nth2, B, Nat.sub_diag by lia; reflexivity|]. rewrite app_nth1 by lia. apply C. lia.
Qed.
Lemma gather_none f conn j n : (fl_size f <= j)%nat -> (0 < n)%nat -> gather f conn j n = None.
Proof.
  intros H. induction n as [|n IH]; intros Hn; [lia|]. cbn. unfold fread. apply Nat.ltb_ge in H. rewrite H. destruct (gather f conn j n); reflexivity.
Qed.
(** the value given to component [j] of a point in element [b] at [s] *)
Definition sent (m : fmesh) (clips : smap (R * R)) (from : field) (name : string) (b : nat) (s : vec) (j : nat) : R :=
  clip (clip_of clips name) (interp (npe (f_topo m b)) (shape (f_topo m b)) s (fun ni => fl_val from (f_conn m b ni) j)).

Lemma apply_comps_spec m clips from name pt b s comps : (forall j, In j comps -> (j < fl_size from)%nat) -> forall to,
  exists to', apply_comps m clips from name pt b s comps to = Some to' /\ fl_size to' = fl_size to /\
    forall k j, fl_val to' k j = if (Nat.eqb k pt && existsb (Nat.eqb j) comps)%bool then sent m clips from name b s j else fl_val to k j.
Proof.
  induction comps as [|j0 comps IH]; intros H to; cbn [apply_comps].
  - exists to. repeat split. intros k j. cbn. now rewrite andb_false_r.
  - destruct (gather_spec from (f_conn m b) j0 (npe (f_topo m b)) (H j0 (or_introl eq_refl))) as (q & -> & Lq & Q).
    destruct (IH (fun j Hj => H j (or_intror Hj)) (fwrite to pt j0 (clip (clip_of clips name) (interpolate (f_topo m b) s (fun ni => nth ni q 0))))) as (to' & E & Sz & V).
    exists to'. split; [exact E|]. split; [exact Sz|]. intros k j. rewrite V. cbn [existsb fwrite fl_val].
    destruct (Nat.eqb k pt); cbn [andb]; [|reflexivity]. destruct (existsb (Nat.eqb j) comps); [now rewrite orb_true_r|]. rewrite orb_false_r.
    destruct (Nat.eqb j j0) eqn:Ej; [|reflexivity]. apply Nat.eqb_eq in Ej. subst j. unfold sent. f_equal. rewrite interpolate_shape. apply interp_ext. intros i Hi. apply Q, Hi.
Qed.
Lemma existsb_seq j n : existsb (Nat.eqb j) (seq 0 n) = (j <? n)%nat.
Proof.
  destruct (j <? n)%nat eqn:E.
  - apply Nat.ltb_lt in E. apply existsb_exists. exists j. split; [apply in_seq; lia|apply Nat.eqb_refl].
  - apply Nat.ltb_ge in E. destruct (existsb _ _) eqn:X; [|reflexivity]. apply existsb_exists in X. destruct X as (i & Hi & Q). apply in_seq in Hi. apply Nat.eqb_eq in Q. lia.
Qed.

(** every to-field has at most as many components as its from-field *)
Definition sizes_ok (vs : list var) : Prop := forall v, In v vs -> (fl_size (v_to v) <= fl_size (v_from v))%nat.
(** the transferred variable after the pairs [km] have been processed *)
Definition var_after (m : fmesh) (clips : smap (R * R)) (km : keymap) (info : tinfo) (v v' : var) : Prop :=
  v_from v' = v_from v /\ v_name v' = v_name v /\ fl_size (v_to v') = fl_size (v_to v) /\
  (forall k b s j, In (k, b) km -> info k = Some s -> (j < fl_size (v_to v))%nat -> fl_val (v_to v') k j = sent m clips (v_from v) (v_name v) b s j) /\
  (forall k j, (forall b, ~ In (k, b) km) \/ (fl_size (v_to v) <= j)%nat -> fl_val (v_to v') k j = fl_val (v_to v) k j).

Lemma apply_vars_spec m clips pt b s vs : sizes_ok vs -> exists vs', apply_vars m clips pt b s vs = Some vs' /\
  Forall2 (fun v v' => v_from v' = v_from v /\ v_name v' = v_name v /\ fl_size (v_to v') = fl_size (v_to v) /\
    forall k j, fl_val (v_to v') k j = if (Nat.eqb k pt && (j <? fl_size (v_to v))%nat)%bool then sent m clips (v_from v) (v_name v) b s j else fl_val (v_to v) k j) vs vs'.
Proof.
  induction vs as [|v vs IH]; intros H; cbn [apply_vars]; [eexists; split; [reflexivity|constructor]|].
  destruct IH as (r & -> & F); [intros w Hw; apply H; right; exact Hw|]. unfold apply_var.
  destruct (apply_comps_spec m clips (v_from v) (v_name v) pt b s (seq 0 (fl_size (v_to v)))) with (to := v_to v) as (to' & -> & Sz & V).
  { intros j Hj. apply in_seq in Hj. specialize (H v (or_introl eq_refl)). lia. }
  cbn. eexists. split; [reflexivity|]. constructor; [|exact F]. cbn. repeat split; [exact Sz|]. intros k j. rewrite V, existsb_seq. reflexivity.
Qed.

Lemma apply_spec m clips info km : NoDup (map fst km) -> (forall k b, In (k, b) km -> info k <> None) -> forall vs, sizes_ok vs ->
  exists vs', apply m clips km info vs = Some vs' /\ Forall2 (var_after m clips km info) vs vs'.
Proof.
  induction km as [|[pt b] km IH]; intros ND HI vs HS; cbn [apply].
  - exists vs. split; [reflexivity|]. clear HS. induction vs; constructor; auto. repeat split; intros; contradiction.
  - cbn [map fst] in ND. inversion ND as [|? ? NI ND']; subst. destruct (info pt) as [s|] eqn:Es; [|exfalso; apply (HI pt b (or_introl eq_refl) Es)].
    destruct (apply_vars_spec m clips pt b s vs HS) as (v1 & -> & F1).
    assert (HS1 : sizes_ok v1).
    { clear -F1 HS. induction F1 as [|v v' l l' (A & B & C & _) F1 IH]; intros w Hw; [destruct Hw|]. destruct Hw as [<-|Hw].
      - rewrite A, C. apply HS. left; reflexivity.
      - apply IH; [|exact Hw]. intros u Hu. apply HS. right; exact Hu. }
    destruct (IH ND' (fun k b' H => HI k b' (or_intror H)) v1 HS1) as (v2 & -> & F2). exists v2. split; [reflexivity|].
    clear HS HS1 ND IH HI. revert v2 F2. induction F1 as [|v v' l l' (A & B & C & D) F1 IH]; intros v2 F2; inversion F2 as [|? w ? l2 (A2 & B2 & C2 & D2 & E2) F2']; subst; constructor; auto.
    repeat split; try congruence.
    + intros k b' s' j [H|H] Hs Hj.
      * injection H as -> ->. rewrite E2 by (left; intros b2 H2; apply NI; apply in_map_iff; exists (k, b2); auto).
        rewrite D, Nat.eqb_refl. apply Nat.ltb_lt in Hj. rewrite Hj. cbn. congruence.
      * rewrite (D2 k b' s' j H Hs ltac:(lia)). rewrite A, B. reflexivity.
    + intros k j H. destruct H as [H|H].
      * rewrite E2 by (left; intros b' Hb; apply (H b'); right; exact Hb). rewrite D. destruct (Nat.eqb k pt) eqn:Q; [|reflexivity].
        apply Nat.eqb_eq in Q. subst k. exfalso. apply (H b). left; reflexivity.
      * rewrite E2 by (right; lia). rewrite D. apply Nat.ltb_ge in H. rewrite H. now rewrite andb_false_r.
Qed.

(** ** Theorems *)

(** Search followed by transfer.  Every to-point for which an element could be located receives, in every component of every transferred
    field, the clipped interpolation inside the element chosen; every other point keeps its values; from-fields are not touched and
    nothing fails. *)
Theorem C81_transfer : forall m x km km' info' d' clips vs, by_key km -> filter_to_nearest m x km (fun _ => None) = (km', info', d') -> sizes_ok vs ->
  exists vs', apply m clips km' info' vs = Some vs' /\ Forall2 (fun v v' =>
    v_from v' = v_from v /\ v_name v' = v_name v /\ fl_size (v_to v') = fl_size (v_to v) /\
    forall pt j,
      (exists b r, nearest m (x pt) (candidates pt km) b r /\ (j < fl_size (v_to v))%nat /\ fl_val (v_to v') pt j = sent m clips (v_from v) (v_name v) b (f_par r) j) \/
      (((forall b r, In b (candidates pt km) -> ~ locatable m (x pt) b r) \/ (fl_size (v_to v) <= j)%nat) /\ fl_val (v_to v') pt j = fl_val (v_to v) pt j)) vs vs'.
Proof.
  intros m x km km' info' d' clips vs HB E HS.
  destruct (C81_nearest_candidate_kept _ _ _ _ _ _ _ HB E) as (A & B & C & ND).
  assert (HI : forall k b, In (k, b) km' -> info' k <> None).
  { intros k b H. destruct (A k) as [(b' & r & _ & _ & I)|(_ & C0 & _)]; [congruence|]. apply cand_in in H. rewrite C0 in H. destruct H. }
  destruct (apply_spec m clips info' km' ND HI vs HS) as (vs' & Ea & F). exists vs'. split; [exact Ea|].
  clear -F A. induction F as [|v v' l l' (F1 & F2 & F3 & F4 & F5) F IH]; constructor; auto. repeat split; auto.
  intros pt j. destruct (A pt) as [(b & r & N & Cd & I)|(N & Cd & I)].
  - destruct (Nat.lt_ge_cases j (fl_size (v_to v))) as [Hj|Hj].
    + left. exists b, r. repeat split; auto. apply (F4 pt b (f_par r) j); auto. apply cand_in. rewrite Cd. left; reflexivity.
    + right. split; [right; exact Hj|]. apply F5. right; exact Hj.
  - right. split; [left; exact N|]. apply F5. left. intros b H. apply cand_in in H. rewrite Cd in H. destruct H.
Qed.

(** the order in which the pairs are processed does not matter *)
Theorem C81_order_irrelevant : forall m clips km1 km2 info vs vs1 vs2, NoDup (map fst km1) -> NoDup (map fst km2) -> (forall e, In e km1 <-> In e km2) -> sizes_ok vs ->
  (forall k b, In (k, b) km1 -> info k <> None) ->
  apply m clips km1 info vs = Some vs1 -> apply m clips km2 info vs = Some vs2 ->
  Forall2 (fun v1 v2 => v_from v1 = v_from v2 /\ v_name v1 = v_name v2 /\ forall pt j, fl_val (v_to v1) pt j = fl_val (v_to v2) pt j) vs1 vs2.
Proof.
  intros m clips km1 km2 info vs vs1 vs2 N1 N2 EQ HS HI E1 E2.
  destruct (apply_spec m clips info km1 N1 HI vs HS) as (w1 & W1 & F1). rewrite W1 in E1. injection E1 as <-.
  destruct (apply_spec m clips info km2 N2 (fun k b H => HI k b (proj2 (EQ _) H)) vs HS) as (w2 & W2 & F2). rewrite W2 in E2. injection E2 as <-.
  clear W1 W2 HS. revert w2 F2. induction F1 as [|v v1 l l1 (A & B & C & D & E) F1 IH]; intros w2 F2; inversion F2 as [|? v2 ? l2 (A2 & B2 & C2 & D2 & E2) F2']; subst; constructor; auto.
  split; [congruence|]. split; [congruence|]. intros pt j.
  destruct (in_dec Nat.eq_dec pt (map fst km1)) as [Hin|Hn].
  - apply in_map_iff in Hin. destruct Hin as ([k b] & <- & H). cbn [fst]. destruct (info k) as [s|] eqn:Es; [|exfalso; apply (HI k b H Es)].
    destruct (Nat.lt_ge_cases j (fl_size (v_to v))) as [Hj|Hj].
    + rewrite (D k b s j H Es Hj), (D2 k b s j (proj1 (EQ _) H) Es Hj). reflexivity.
    + rewrite E, E2 by (right; exact Hj). reflexivity.
  - assert (Hn2 : forall b, ~ In (pt, b) km1) by (intros b H; apply Hn, in_map_iff; exists (pt, b); auto).
    rewrite E by (left; exact Hn2). rewrite E2 by (left; intros b H; apply (Hn2 b), EQ, H). reflexivity.
Qed.

(** clipping: the value lies between the limits; without an entry for the field nothing representable is altered; limits given the
    wrong way round send every point to the upper one *)
Theorem C81_clip : forall lo hi v,
  (lo <= hi -> lo <= clip (lo, hi) v <= hi) /\ (lo <= v <= hi -> clip (lo, hi) v = v) /\ (hi < lo -> clip (lo, hi) v = hi) /\
  (forall clips name, clips name = None -> Rabs v <= dbl_max -> clip (clip_of clips name) v = v) /\
  (forall clips name, clips name = Some (lo, hi) -> clip_of clips name = (lo, hi)).
Proof.
  intros lo hi v. assert (G : forall a b, a <= v <= b -> clip (a, b) v = v).
  { intros a b H. unfold clip. cbn. rewrite Rmax_left by lra. apply Rmin_right. lra. }
  split; [|split; [apply G|split; [|split]]].
  - intros H. unfold clip. cbn. pose proof (Rmax_r v lo). unfold Rmin. destruct (Rle_dec hi (Rmax v lo)); lra.
  - intros H. unfold clip. cbn. pose proof (Rmax_r v lo). apply Rmin_left. lra.
  - intros clips name E H. unfold clip_of. rewrite E. apply G. pose proof (Rle_abs v). pose proof (Rle_abs (- v)). rewrite Rabs_Ropp in *. lra.
  - intros clips name E. unfold clip_of. now rewrite E.
Qed.

(** inside the element the interpolated value lies between the nodal values *)
Lemma par_inside m p b r : locate m p b = Some r -> f_dist r <= 1 -> forall i, 0 <= shape (f_topo m b) (f_par r) i.
Proof.
  unfold locate, is_in. destruct (f_topo m b); intros L D i; cbn [shape].
  - unfold tet_is_in_element in L. cbv zeta in L. destruct (Req_EM_T _ 0) in L; [discriminate|]. injection L as <-. cbn [f_dist f_par] in *.
    apply (C30_linear_elements_nonnegative _ i). apply (C33_distance_is_membership _). exact D.
  - injection L as <-. apply (C30_linear_elements_nonnegative _ i).
    assert (BIG : 1 < dbl_max). { destruct (C33_failure_is_outside hex_dist (fun _ => None) 1 vzero eq_refl) as [_ h]. exact h. }
    unfold hex8_is_in_element in *.
    assert (H : f_dist (report dbl_max hex_dist (newton (hex8_step (elem_coords m b) p) 20 (V (1/2) (1/2) (1/2)))) < dbl_max) by lra.
    apply report_found in H. destruct H as [a [_ [_ Dd]]]. rewrite Dd in D. apply (C33_distance_is_membership _). exact D.
Qed.
Theorem C81_no_overshoot : forall m p b r clips from name j lo hi, locate m p b = Some r -> f_dist r <= 1 -> clips name = None ->
  (forall i, (i < npe (f_topo m b))%nat -> lo <= fl_val from (f_conn m b i) j <= hi) -> - dbl_max <= lo -> hi <= dbl_max ->
  lo <= sent m clips from name b (f_par r) j <= hi.
Proof.
  intros m p b r clips from name j lo hi L D C H B1 B2. unfold sent.
  pose proof (C30_no_overshoot (npe (f_topo m b)) (shape (f_topo m b)) (f_par r) (fun ni => fl_val from (f_conn m b ni) j) lo hi (fun i _ => par_inside m p b r L D i) (shape_unity _ _) H) as Q.
  destruct (C81_clip lo hi (interp (npe (f_topo m b)) (shape (f_topo m b)) (f_par r) (fun ni => fl_val from (f_conn m b ni) j))) as (_ & _ & _ & K & _).
  rewrite K; [exact Q|exact C|]. apply Rabs_le. lra.
Qed.

(** fields that are linear in space *)
Definition lin (a : R) (g p : vec) : R := a + vx g * vx p + vy g * vy p + vz g * vz p.
Lemma interp_lin_field t s e a g : interp (npe t) (shape t) s (fun i => lin a g (e i)) = lin a g (place (npe t) (shape t) e s).
Proof.
  unfold lin, place. cbn [vx vy vz].
  rewrite (interp_ext _ _ _ _ (fun i => 1 * (1 * (1 * a + vx g * vx (e i)) + vy g * vy (e i)) + vz g * vz (e i))) by (intros; ring).
  rewrite (interp_lin _ _ _ (fun i => 1 * (1 * a + vx g * vx (e i)) + vy g * vy (e i)) (fun i => vz (e i))).
  rewrite (interp_lin _ _ _ (fun i => 1 * a + vx g * vx (e i)) (fun i => vy (e i))). rewrite (interp_lin _ _ _ (fun _ => a) (fun i => vx (e i))). rewrite interp_const, shape_unity. ring.
Qed.
Theorem C81_linear_fields : forall m p b r clips from name j a g,
  locate m p b = Some r -> clips name = None ->
  (forall i, (i < npe (f_topo m b))%nat -> fl_val from (f_conn m b i) j = lin a g (elem_coords m b i)) ->
  Rabs (lin a g (place (npe (f_topo m b)) (shape (f_topo m b)) (elem_coords m b) (f_par r))) <= dbl_max ->
  (f_topo m b = TET4 -> tet_volume6 (elem_coords m b) <> 0 -> sent m clips from name b (f_par r) j = lin a g p) /\
  (f_topo m b = HEX8 -> forall o u v w t, affine_element 8 (hex8_nodes 1) (elem_coords m b) o u v w -> triple u v w <> 0 -> p = affine_map o u v w t ->
     sent m clips from name b (f_par r) j = lin a g p) /\
  (f_topo m b = HEX8 -> f_dist r <= 1 -> forall c D, coords_within 8 D (elem_coords m b) c ->
     Rabs (sent m clips from name b (f_par r) j - lin a g p) <= (Rabs (vx g) + Rabs (vy g) + Rabs (vz g)) * (4/10^16*D)).
Proof.
  intros m p b r clips from name j a g L C HF HR.
  assert (SV : sent m clips from name b (f_par r) j = lin a g (place (npe (f_topo m b)) (shape (f_topo m b)) (elem_coords m b) (f_par r))).
  { unfold sent. rewrite (interp_ext _ _ _ _ (fun i => lin a g (elem_coords m b i))) by exact HF. rewrite interp_lin_field.
    apply (C81_clip 0 0 _); assumption. }
  rewrite SV. clear SV HF. unfold locate, is_in in L. repeat split.
  - intros ET HV. rewrite ET in *. cbn [npe shape]. destruct (C33_tet_search (elem_coords m b) p HV) as (r' & E & Pl & _). rewrite L in E. injection E as <-. rewrite Pl. reflexivity.
  - intros EH o u v w t HA HT ->. rewrite EH in *. injection L as <-. cbn [npe shape]. rewrite (C33_hex_parallelepiped _ o u v w t HA HT). cbn [f_par].
    f_equal. unfold place.
    assert (Q : forall q qo qu qv qw, (forall i, (i < 8)%nat -> q (elem_coords m b i) = qo + (qu * vx (hex8_nodes 1 i) + (qv * vy (hex8_nodes 1 i) + qw * vz (hex8_nodes 1 i)))) ->
       interp 8 hex8g_shape t (fun i => q (elem_coords m b i)) = qo + (qu * vx t + (qv * vy t + qw * vz t))).
    { intros q qo qu qv qw H.
      rewrite (C30_affine_fields_exact 8 3 everywhere (hex8_nodes 1) hex8g_shape t qo (fun c => match c with 0%nat => qu | 1%nat => qv | _ => qw end)).
      - cbn. ring. - apply C30_hex8_general_basis. - exact I. - lia. - intros i Hi. rewrite (H i Hi). cbn. ring. }
    rewrite (Q vx (vx o) (vx u) (vx v) (vx w)) by (intros i Hi; rewrite (HA i Hi); unfold affine_map, vadd, vscale; cbn [vx vy vz]; ring).
    rewrite (Q vy (vy o) (vy u) (vy v) (vy w)) by (intros i Hi; rewrite (HA i Hi); unfold affine_map, vadd, vscale; cbn [vx vy vz]; ring).
    rewrite (Q vz (vz o) (vz u) (vz v) (vz w)) by (intros i Hi; rewrite (HA i Hi); unfold affine_map, vadd, vscale; cbn [vx vy vz]; ring).
    unfold affine_map, vadd, vscale; cbn [vx vy vz]. f_equal; ring.
  - intros EH HD c D HC. rewrite EH in *. injection L as <-. cbn [npe shape].
    destruct (C33_hex_residual (elem_coords m b) p c D HC HD) as [(N1 & N2 & N3) _].
    set (P := place 8 hex8g_shape (elem_coords m b) (f_par (hex8_is_in_element (elem_coords m b) p))) in *.
    replace (lin a g P - lin a g p) with (vx g * (vx P - vx p) + vy g * (vy P - vy p) + vz g * (vz P - vz p)) by (unfold lin; ring).
    set (E := 4/10^16*D) in *. eapply Rle_trans; [apply Rabs_triang|]. eapply Rle_trans; [apply Rplus_le_compat_r, Rabs_triang|]. rewrite !Rabs_mult.
    pose proof (Rmult_le_compat_l _ _ _ (Rabs_pos (vx g)) N1). pose proof (Rmult_le_compat_l _ _ _ (Rabs_pos (vy g)) N2). pose proof (Rmult_le_compat_l _ _ _ (Rabs_pos (vz g)) N3). lra.
Qed.
