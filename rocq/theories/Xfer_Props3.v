(** C81, part 3: bounding boxes, input deck, limits of the search *)
Require Import String Reals List Bool Arith Lra Lia.
From Verif Require Import ME_Model ME_Shape_Model ME_Shape_Spec ME_Shape_Props ME_Shape_Props2 ME_Point_Model ME_Point_Spec ME_Point_Props ME_Point_Props3 ME_Point_Props4 Opt_Model Opt_Spec Opt_Props Motion_Props2 Motion_Props3 Xfer_Model Xfer_Props Xfer_Props2.
Import ListNotations.
Open Scope list_scope.
Open Scope R_scope.

(** ** bounding boxes *)
Definition inside_box (bx : vec * vec) (p : vec) : Prop :=
  vx (fst bx) <= vx p <= vx (snd bx) /\ vy (fst bx) <= vy p <= vy (snd bx) /\ vz (fst bx) <= vz p <= vz (snd bx).
Lemma fold_box (f : vec -> R) l a b p : In p l -> fold_left (fun a p => Rmin a (f p)) l a <= f p <= fold_left (fun a p => Rmax a (f p)) l b.
Proof.
  assert (D : forall l a, fold_left (fun a p => Rmin a (f p)) l a <= a).
  { intros l0. induction l0 as [|q l0 IH]; intros a0; cbn; [lra|]. eapply Rle_trans; [apply IH|apply Rmin_l]. }
  assert (U : forall l a, a <= fold_left (fun a p => Rmax a (f p)) l a).
  { intros l0. induction l0 as [|q l0 IH]; intros a0; cbn; [lra|]. eapply Rle_trans; [|apply IH]. apply Rmax_l. }
  revert a b. induction l as [|q l IH]; intros a b H; [destruct H|]. cbn. destruct H as [<-|H]; [|apply IH, H]. split.
  - eapply Rle_trans; [apply D|apply Rmin_r].
  - eapply Rle_trans; [|apply U]. apply Rmax_r.
Qed.
(** An element's box contains every point that the element's shape functions place with non-negative weights: with any search radius such
    a point meets the box, so the element is offered as a candidate. *)
Theorem C81_box_contains_element : forall m b s, (forall i, 0 <= shape (f_topo m b) s i) ->
  inside_box (from_box m b) (place (npe (f_topo m b)) (shape (f_topo m b)) (elem_coords m b) s).
Proof.
  intros m b s P.
  assert (G : forall f : vec -> R, let l := map (elem_coords m b) (seq 0 (npe (f_topo m b))) in
    fold_left (fun a p => Rmin a (f p)) l (10^16) <= interp (npe (f_topo m b)) (shape (f_topo m b)) s (fun i => f (elem_coords m b i)) <= fold_left (fun a p => Rmax a (f p)) l (-(10^16))).
  { intros f l. apply (C30_no_overshoot _ _ _ _ _ _ (fun i _ => P i) (shape_unity _ _)). intros i Hi. apply fold_box.
    apply (in_map (elem_coords m b)). apply in_seq. lia. }
  unfold inside_box, from_box, place. cbn [fst snd vx vy vz]. repeat split; apply G.
Qed.

(** A to-point inside a non-degenerate tetrahedron, all of whose candidates include the elements whose boxes it meets: it receives
    the value interpolated in an element that contains it, for a linear field the exact value. *)
Theorem C81_covered_point_tet : forall m x km km' info' d' pt b s, by_key km -> filter_to_nearest m x km (fun _ => None) = (km', info', d') ->
  (forall b, f_topo m b = TET4 /\ tet_volume6 (elem_coords m b) <> 0) ->
  (forall b, inside_box (from_box m b) (x pt) -> In (pt, b) km) ->
  in_simplex3 s -> x pt = place 4 tet4_shape (elem_coords m b) s ->
  exists b' r', candidates pt km' = [b'] /\ info' pt = Some (f_par r') /\ f_dist r' <= 1 /\ in_simplex3 (f_par r') /\ place 4 tet4_shape (elem_coords m b') (f_par r') = x pt.
Proof.
  intros m x km km' info' d' pt b s HB E HT HS IS XP.
  assert (NN : forall i, 0 <= shape (f_topo m b) s i) by (intros i; rewrite (proj1 (HT b)); apply (C30_linear_elements_nonnegative s i), IS).
  pose proof (C81_box_contains_element m b s NN) as BX. rewrite (proj1 (HT b)) in BX. cbn [npe shape] in BX. rewrite <- XP in BX. specialize (HS b BX).
  destruct (C33_tet_search (elem_coords m b) (x pt) (proj2 (HT b))) as (r & L & Pl & _ & M).
  assert (D : f_dist r <= 1) by (apply M; exists s; auto).
  assert (LL : locate m (x pt) b = Some r) by (unfold locate, is_in; rewrite (proj1 (HT b)); exact L).
  destruct (C81_containing_element_chosen _ _ _ _ _ _ _ _ _ _ HB E HS LL D) as (b' & r' & A & _ & L' & D' & I). exists b', r'.
  unfold locate, is_in in L'. rewrite (proj1 (HT b')) in L'.
  destruct (C33_tet_search (elem_coords m b') (x pt) (proj2 (HT b'))) as (r2 & L2 & Pl2 & U & M2). rewrite L' in L2. injection L2 as <-.
  repeat split; auto; try lra. apply M2 in D' || idtac. 
  assert (D1 : f_dist r' <= 1) by lra. apply M2 in D1. destruct D1 as (s' & S1 & S2). apply U in S2. subst s'. apply S1.
  all: assert (D1 : f_dist r' <= 1) by lra; apply M2 in D1; destruct D1 as (s' & S1 & S2); apply U in S2; subst s'; apply S1.
Qed.

(** ** Input deck *)
Section Deck.
Variables (as_d : yaml -> option R) (as_s : yaml -> option string).
Open Scope string_scope.
Notation load_transfer := (load_transfer as_d as_s).
Ltac ldt H := unfold Xfer_Model.load_transfer in H;
  repeat match type of H with
  | match ?x with _ => _ end = Some _ => let E := fresh "E" in destruct x eqn:E; try discriminate H
  end.
(** Accepted decks name the physics or the variables but not both, and the parts in exactly one of the two ways. *)
Theorem C81_deck_exclusive : forall node x, load_transfer node = Some x ->
  ((yget "coupling_physics" node <> None) <-> (yget "transfer_variables" node = None)) /\
  ((yget "mesh_part_pair" node <> None) <-> (yget "from_target_name" node = None)) /\
  ((yget "mesh_part_pair" node <> None) <-> (yget "to_target_name" node = None)).
Proof.
  intros node x H. unfold Xfer_Model.load_transfer in H.
  destruct (yget "name" node); [|discriminate H]. destruct (yget "type" node); [|discriminate H].
  destruct (get_if_present as_s node "objective" "multi_physics"); [|discriminate H].
  assert (Q : forall q f t, yget "mesh_part_pair" node = q -> yget "from_target_name" node = f -> yget "to_target_name" node = t ->
    match q, f, t with Some _, None, None => True | None, Some _, Some _ => True | _, _, _ => False end ->
    ((yget "mesh_part_pair" node <> None) <-> (yget "from_target_name" node = None)) /\ ((yget "mesh_part_pair" node <> None) <-> (yget "to_target_name" node = None))).
  { intros q f t -> -> ->. destruct q, f, t; intros []; repeat split; congruence. }
  destruct (match yget "coupling_physics" node with None => Some None | Some y => option_map Some (as_s y) end) as [phys|] eqn:EP; [|discriminate H].
  destruct (match yget "realm_pair" node with Some y => pair_of as_s y | None => None end) as [rp|] eqn:ER; [|discriminate H].
  match type of H with match ?q with _ => _ end = _ => destruct q as [ps|] eqn:EM; [|discriminate H] end.
  match type of H with match ?q with _ => _ end = _ => destruct q as [tol|]; [|discriminate H] end.
  match type of H with match ?q with _ => _ end = _ => destruct q as [ex|]; [|discriminate H] end.
  match type of H with match ?q with _ => _ end = _ => destruct q as [cl|]; [|discriminate H] end.
  match type of H with match ?q with _ => _ end = _ => destruct q as [vars|] eqn:EV; [|discriminate H] end.
  split.
  - destruct (yget "coupling_physics" node) as [yp|], (yget "transfer_variables" node) as [yv|]; try (split; congruence).
    + exfalso. destruct (as_s yp); [|discriminate EP]. injection EP as <-. destruct (read_pairs as_s (seq_of yv)); [|discriminate EV]. injection EV as <-. discriminate H.
    + exfalso. injection EP as <-. injection EV as <-. discriminate H.
  - apply (Q _ _ _ eq_refl eq_refl eq_refl).
    destruct (yget "mesh_part_pair" node) as [ym|], (yget "from_target_name" node) as [yf|], (yget "to_target_name" node) as [yt|]; try discriminate EM; exact I.
Qed.
(** the variables transferred are the pairs listed, or the documented ones of the named physics; tolerance and expansion factor
    default to 1e-4 and 1.5; the objective defaults to multi_physics *)
Theorem C81_deck_contents : forall node x, load_transfer node = Some x ->
  match yget "transfer_variables" node with
  | Some y => read_pairs as_s (seq_of y) = Some (x_vars x)
  | None => exists y p, yget "coupling_physics" node = Some y /\ as_s y = Some p /\
      ((p = "fluids_cht" /\ x_vars x = [("heat_transfer_coefficient", "heat_transfer_coefficient"); ("reference_temperature", "reference_temperature")]) \/
       (p = "fluids_robin" /\ x_vars x = [("normal_heat_flux", "normal_heat_flux"); ("temperature", "reference_temperature"); ("robin_coupling_parameter", "robin_coupling_parameter")]) \/
       ((p = "thermal_cht" \/ p = "thermal_robin") /\ x_vars x = [("temperature", "temperature"); ("temperature", "temperature_bc")]))
  end /\
  (match yget "search_tolerance" node with Some y => as_d y = Some (x_tol x) | None => x_tol x = (1/10^4)%R end) /\
  (match yget "search_expansion_factor" node with Some y => as_d y = Some (x_expand x) | None => x_expand x = (3/2)%R end) /\
  (match yget "objective" node with Some y => as_s y = Some (x_obj x) | None => x_obj x = "multi_physics" end) /\
  (match yget "realm_pair" node with Some y => pair_of as_s y = Some (x_realms x) | None => False end) /\
  match yget "mesh_part_pair" node with
  | Some y => exists p, pair_of as_s y = Some p /\ x_from x = [fst p] /\ x_to x = [snd p]
  | None => exists f t, yget "from_target_name" node = Some f /\ yget "to_target_name" node = Some t /\ parts as_s f = Some (x_from x) /\ parts as_s t = Some (x_to x)
  end.
Proof.
  intros node x H. unfold Xfer_Model.load_transfer in H.
  destruct (yget "name" node); [|discriminate H]. destruct (yget "type" node); [|discriminate H].
  destruct (get_if_present as_s node "objective" "multi_physics") as [ob|] eqn:EO; [|discriminate H]. apply gip_ok in EO. unfold scalar_ok in EO.
  destruct (match yget "coupling_physics" node with None => Some None | Some y => option_map Some (as_s y) end) as [phys|] eqn:EP; [|discriminate H].
  destruct (match yget "realm_pair" node with Some y => pair_of as_s y | None => None end) as [rp|] eqn:ER; [|discriminate H].
  match type of H with match ?q with _ => _ end = _ => destruct q as [ps|] eqn:EM; [|discriminate H] end.
  destruct (get_if_present as_d node "search_tolerance" _) as [tol|] eqn:ET; [|discriminate H]. apply gip_ok in ET. unfold scalar_ok in ET.
  destruct (get_if_present as_d node "search_expansion_factor" _) as [ex|] eqn:EX; [|discriminate H]. apply gip_ok in EX. unfold scalar_ok in EX.
  match type of H with match ?q with _ => _ end = _ => destruct q as [cl|]; [|discriminate H] end.
  match type of H with match ?q with _ => _ end = _ => destruct q as [vars|] eqn:EV; [|discriminate] end.
  assert (Q : exists v, x = mkX rp (fst ps) (snd ps) ob v cl tol ex /\ match phys, vars with None, Some v' => v = v' | Some p, None => physics_vars p = Some v | _, _ => False end).
  { destruct phys as [p|], vars as [v|]; try discriminate H; [destruct (physics_vars p) as [v|] eqn:EQ; [|discriminate]|]; cbn in H; injection H as <-; exists v; auto. }
  clear H. destruct Q as (v & -> & Q). cbn [x_vars x_tol x_expand x_obj x_realms x_from x_to].
  split; [|split; [destruct (yget "search_tolerance" node); [exact ET|rewrite ET; lra]|split; [exact EX|split; [exact EO|split; [destruct (yget "realm_pair" node); [exact ER|discriminate]|]]]]].
  - destruct (yget "transfer_variables" node) as [yv|].
    + destruct (read_pairs as_s (seq_of yv)) as [l|]; [|discriminate]. injection EV as <-. destruct phys; [contradiction|congruence].
    + injection EV as <-. destruct phys as [p|]; [|contradiction]. destruct (yget "coupling_physics" node) as [yc|]; [|discriminate].
      destruct (as_s yc) as [p'|] eqn:ES; [|discriminate]. injection EP as <-. exists yc, p'. split; [reflexivity|]. split; [exact ES|].
      unfold physics_vars in Q.
      destruct (String.eqb p' "fluids_cht") eqn:E1; [apply String.eqb_eq in E1; injection Q as <-; auto|].
      destruct (String.eqb p' "fluids_robin") eqn:E2; [apply String.eqb_eq in E2; injection Q as <-; auto|].
      destruct (String.eqb p' "thermal_cht") eqn:E3; [apply String.eqb_eq in E3; injection Q as <-; auto 6|].
      destruct (String.eqb p' "thermal_robin") eqn:E4; [apply String.eqb_eq in E4; injection Q as <-; auto 6|discriminate].
  - destruct (yget "mesh_part_pair" node) as [ym|], (yget "from_target_name" node) as [yf|], (yget "to_target_name" node) as [yt|]; try discriminate EM.
    + destruct (pair_of as_s ym) as [p|]; [|discriminate]. cbn in EM. injection EM as <-. exists p. auto.
    + destruct (parts as_s yf) as [lf|] eqn:E1; [|discriminate EM]. destruct (parts as_s yt) as [lt|] eqn:E2; [|discriminate EM]. injection EM as <-. exists yf, yt. auto.
Qed.
(** clipping limits: the last entry for a field counts, and only that field is affected *)
Theorem C81_deck_clips : forall l c c' f, read_clips as_d as_s l c = Some c' ->
  match last_of (filter (fun y => match y with YSeq [n; _; _] => match as_s n with Some s => String.eqb s f | None => false end | _ => false end) l) with
  | Some y => exists n lo hi a b, y = YSeq [n; lo; hi] /\ as_d lo = Some a /\ as_d hi = Some b /\ c' f = Some (a, b)
  | None => c' f = c f
  end.
Proof.
  induction l as [|y l IH]; intros c c' f H; [injection H as <-; reflexivity|].
  cbn [read_clips] in H. destruct y as [| |q|]; try discriminate H. destruct q as [|n [|lo [|hi [|]]]]; try discriminate H.
  destruct (as_s n) as [nm|] eqn:EN; [|discriminate H]. destruct (as_d lo) as [a|] eqn:EA; [|discriminate H]. destruct (as_d hi) as [b|] eqn:EB; [|discriminate H].
  specialize (IH _ _ f H). cbn [filter]. rewrite EN. destruct (String.eqb nm f) eqn:E.
  - match goal with |- context[last_of (?z :: ?r)] => change (z :: r) with ([z] ++ r)%list; rewrite last_of_app end.
    match type of IH with context[last_of ?z] => destruct (last_of z) as [y|]; [exact IH|] end. cbn [last_of].
    exists n, lo, hi, a, b. repeat split; auto. rewrite IH. unfold upd. rewrite String.eqb_sym, E. reflexivity.
  - match type of IH with context[last_of ?z] => destruct (last_of z) as [y|]; [exact IH|] end. rewrite IH. unfold upd. rewrite String.eqb_sym, E. reflexivity.
Qed.
End Deck.

(** four objectives; the two data-delivery ones are run by the receiving realm, the others by the sending realm; others are refused *)
Theorem C81_objectives : forall s,
  (exists o by_to, objective_of s = Some (o, by_to) /\ (by_to = true <-> o = InputOutput \/ o = ExternalData)) <->
  In s ["multi_physics"; "initialization"; "input_output"; "external_data"]%string.
Proof.
  intros s. unfold objective_of. split.
  - intros (o & t & H & _).
    destruct (String.eqb s "multi_physics") eqn:E1; [apply String.eqb_eq in E1; subst; cbn; auto|].
    destruct (String.eqb s "initialization") eqn:E2; [apply String.eqb_eq in E2; subst; cbn; auto|].
    destruct (String.eqb s "input_output") eqn:E3; [apply String.eqb_eq in E3; subst; cbn; auto|].
    destruct (String.eqb s "external_data") eqn:E4; [apply String.eqb_eq in E4; subst; cbn; auto|discriminate].
  - cbn. intros [<-|[<-|[<-|[<-|[]]]]]; cbn; do 2 eexists; (split; [reflexivity|]); intuition discriminate.
Qed.

(** ** Limits *)
(** "the number of components is that of the receiving field": with a smaller sending field the copy reads past its end *)
Theorem C81_component_mismatch_refuted : forall m clips pt b s v, (fl_size (v_from v) < fl_size (v_to v))%nat -> apply_var m clips pt b s v = None.
Proof.
  intros m clips pt b s v H. unfold apply_var. 
  assert (G : forall comps to, In (fl_size (v_from v)) comps -> apply_comps m clips (v_from v) (v_name v) pt b s comps to = None).
  { induction comps as [|j comps IH]; intros to Hin; [destruct Hin|]. cbn [apply_comps].
    destruct (le_lt_dec (fl_size (v_from v)) j) as [Hj|Hj].
    - rewrite gather_none; [reflexivity|exact Hj|destruct (f_topo m b); cbn; lia].
    - destruct (gather _ _ _ _); [|reflexivity]. apply IH. destruct Hin as [->|Hin]; [lia|exact Hin]. }
  rewrite G; [reflexivity|]. apply in_seq. lia.
Qed.

(** Example: two tetrahedra, the reference one (0) and the one reflected in x = 0 (1); a point of the first. *)
Definition ex_m : fmesh := mkF (fun _ => TET4) (fun b ni => (10*b + ni)%nat)
  (fun n => match n with 0%nat => V 0 0 0 | 1%nat => V 1 0 0 | 2%nat => V 0 1 0 | 3%nat => V 0 0 1
            | 10%nat => V 0 0 0 | 11%nat => V (-1) 0 0 | 12%nat => V 0 1 0 | 13%nat => V 0 0 1 | _ => V 0 0 0 end).
Definition ex_x : nat -> vec := fun _ => V (1/4) (1/4) (1/4).
Lemma ex_loc0 : locate ex_m (ex_x 7) 0 = Some {| f_dist := tet_dist (V (1/4) (1/4) (1/4)); f_par := V (1/4) (1/4) (1/4) |}.
Proof.
  unfold locate, is_in, ex_m, elem_coords, tet_is_in_element, ex_x. cbn [f_topo f_coord f_conn vx vy vz Nat.add Nat.mul]. cbv zeta. cbn [vx vy vz].
  destruct (Req_EM_T _ 0) as [h|h]; [lra|]. f_equal. match goal with |- {| f_dist := tet_dist ?q; f_par := _ |} = _ => replace q with (V (1/4) (1/4) (1/4)) by (f_equal; field) end. reflexivity.
Qed.
Lemma ex_loc1 : locate ex_m (ex_x 7) 1 = Some {| f_dist := tet_dist (V (-1/4) (1/4) (1/4)); f_par := V (-1/4) (1/4) (1/4) |}.
Proof.
  unfold locate, is_in, ex_m, elem_coords, tet_is_in_element, ex_x. cbn [f_topo f_coord f_conn vx vy vz Nat.add Nat.mul]. cbv zeta. cbn [vx vy vz].
  destruct (Req_EM_T _ 0) as [h|h]; [lra|]. f_equal. match goal with |- {| f_dist := tet_dist ?q; f_par := _ |} = _ => replace q with (V (-1/4) (1/4) (1/4)) by (f_equal; field) end. reflexivity.
Qed.
Lemma ex_d0 : tet_dist (V (1/4) (1/4) (1/4)) <= 1.
Proof. apply (C33_distance_is_membership _). unfold in_simplex3. cbn. lra. Qed.
Lemma ex_d1 : 1 < tet_dist (V (-1/4) (1/4) (1/4)) < dbl_max.
Proof.
  split.
  - apply Rnot_le_lt. intros H. apply (C33_distance_is_membership _) in H. unfold in_simplex3 in H. cbn in H. lra.
  - assert (B : 4 < dbl_max) by (unfold dbl_max; assert (1 <= 2^971) by (apply pow_R1_Rle; lra); assert (2^1024 = 2^53 * 2^971) by (rewrite <- pow_add; reflexivity); assert (8 <= 2^53) by (cbn; lra); nra).
    eapply Rle_lt_trans; [|exact B]. unfold tet_dist. cbv zeta. cbn [vx vy vz]. repeat apply Rmax_lub || idtac; unfold Rmax; repeat destruct (Rle_dec _ _); repeat destruct (Rlt_dec _ _); try lra;
    unfold Rabs; repeat destruct (Rcase_abs _); lra.
Qed.
Lemma big1 : 1 < dbl_max.
Proof. destruct (C33_failure_is_outside hex_dist (fun _ => None) 1 vzero eq_refl) as [_ h]. exact h. Qed.
Lemma ex_filter : filter_to_nearest ex_m ex_x [(7, 1); (7, 0)]%nat (fun _ => None) =
  ([(7, 0)]%nat, fun k => if Nat.eqb k 7 then Some (V (1/4) (1/4) (1/4)) else if Nat.eqb k 7 then Some (V (-1/4) (1/4) (1/4)) else None,
   mkD (Rmax (Rmax (- dbl_max) (tet_dist (V (-1/4) (1/4) (1/4)))) (tet_dist (V (1/4) (1/4) (1/4)))) 2).
Proof.
  unfold filter_to_nearest. cbn [List.length filter_loop run Nat.eqb fold_left d_max d_count].
  assert (D0 := ex_d0). assert (D1 := ex_d1).
  assert (S1 : cand_step ex_m ex_x 7 (mkC dbl_max None (fun _ => None) (- dbl_max) 0) 1 =
    mkC (tet_dist (V (-1/4) (1/4) (1/4))) (Some 1%nat) (fun k => if Nat.eqb k 7 then Some (V (-1/4) (1/4) (1/4)) else None) (Rmax (- dbl_max) (tet_dist (V (-1/4) (1/4) (1/4)))) 1).
  { unfold cand_step. rewrite ex_loc1. cbn [c_count c_best c_near c_info c_max f_dist f_par]. destruct (Rlt_dec _ dbl_max) as [h|h]; [reflexivity|lra]. }
  rewrite S1. unfold cand_step. rewrite ex_loc0. cbn [c_count c_best c_near c_info c_max f_dist f_par].
  destruct (Rlt_dec (tet_dist (V (1/4) (1/4) (1/4))) (tet_dist (V (-1/4) (1/4) (1/4)))) as [h'|h']; [|lra]. reflexivity.
Qed.
(** the containing element wins although it comes second *)
Theorem C81_example : exists km' info' d' s, filter_to_nearest ex_m ex_x [(7, 1); (7, 0)]%nat (fun _ => None) = (km', info', d') /\ by_key [(7, 1); (7, 0)]%nat /\
  km' = [(7, 0)]%nat /\ info' 7%nat = Some s /\ s = V (1/4) (1/4) (1/4).
Proof. do 4 eexists. split; [exact ex_filter|]. cbn. split; [|repeat split; reflexivity]. split; [|split; [intros ? ? []|exact I]].
  intros k b [H|[]]. injection H as <- <-. auto. Qed.
(** "Maximum normalized distance found (should be unity or less)": the number printed is the largest of all distances that were
    best for a while, so a perfectly located point can make it exceed one *)
Theorem C81_reported_distance_refuted : exists km' info' d', filter_to_nearest ex_m ex_x [(7, 1); (7, 0)]%nat (fun _ => None) = (km', info', d') /\
  (forall pt b r, In (pt, b) km' -> locate ex_m (ex_x pt) b = Some r -> f_dist r <= 1) /\ 1 < d_max d'.
Proof.
  do 3 eexists. split; [exact ex_filter|]. split.
  - intros pt b r [H|[]] L. injection H as <- <-. rewrite ex_loc0 in L. injection L as <-. exact ex_d0.
  - cbn [d_max]. eapply Rlt_le_trans; [exact (proj1 ex_d1)|]. eapply Rle_trans; [|apply Rmax_l]. apply Rmax_r.
Qed.
