(** * C46, C47: face data and opposing tables of the master elements *)
From Coq Require Import Reals List Arith Lra Lia Psatz.
From Verif Require Import ME_Model ME_Shape_Model ME_Shape_Spec ME_Shape_Props ME_Shape_Props2 ME_Face_Model ME_Face_Spec.
Import ListNotations.
Local Open Scope R_scope.

Ltac low k := first [ exfalso; cbn in *; lia | destruct k as [|k] ].
Ltac enum k := cbn [length] in *; repeat (destruct k as [|k]; [|try (exfalso; cbn [length] in *; lia)]).
Ltac notin H := exfalso; apply H; cbn [In]; tauto.

(** ** C46: the side maps are the traces of the element *)
Ltac trace shp fshp :=
  let j := fresh "j" in let i := fresh "i" in let Hj := fresh in let Hi := fresh in let Hn := fresh in
  eexists; split; [reflexivity|]; split;
  [ intros j Hj; cbn [length nth] in *; enum j; cbn [nth]; unfold shp, fshp; cbn [vx vy vz]; try field
  | intros i Hi Hn; enum i; try notin Hn; unfold shp; cbn [vx vy vz]; try field ].

Theorem C46_hex_side_maps : forall k, (k < 6)%nat ->
  trace_agrees 8 hex8_shape quad4g_shape (nth k hex_side_nodes []) (fun _ => True) (hex_side_map k).
Proof.
  intros k Hk x y _. enum k; cbn [hex_side_map hex_side_nodes nth]; trace hex8_shape quad4g_shape.
Qed.
Theorem C46_tet_side_maps : forall k, (k < 4)%nat ->
  trace_agrees 4 tet4_shape tri3_shape (nth k tet_side_nodes []) (fun _ => True) (tet_side_map k).
Proof.
  intros k Hk x y _. enum k; cbn [tet_side_map tet_side_nodes nth]; trace tet4_shape tri3_shape.
Qed.
Definition wed_face_shape (k : nat) : vec -> nat -> R := if Nat.ltb k 3 then quad4g_shape else tri3_shape.
Theorem C46_wedge_side_maps : forall k, (k < 5)%nat ->
  trace_agrees 6 wed6_shape (wed_face_shape k) (nth k wed_side_nodes []) (fun _ => True) (wed_side_map k).
Proof.
  intros k Hk x y _. enum k; cbn [wed_side_map wed_side_nodes nth wed_face_shape Nat.ltb Nat.leb]; unfold wed_face_shape; cbn [Nat.ltb Nat.leb];
  [trace wed6_shape quad4g_shape|trace wed6_shape quad4g_shape|trace wed6_shape quad4g_shape
  |trace wed6_shape tri3_shape|trace wed6_shape tri3_shape].
Qed.
Theorem C46_tri2d_side_maps : forall k, (k < 3)%nat ->
  trace_agrees 3 tri3_shape edge2_shape (nth k tri2d_side_nodes []) (fun _ => True) (fun x _ => tri2d_side_map k x).
Proof.
  intros k Hk x y _. enum k; cbn [tri2d_side_map tri2d_side_nodes nth]; trace tri3_shape edge2_shape.
Qed.
Theorem C46_quad2d_side_maps : forall k, (k < 4)%nat ->
  trace_agrees 4 quad4_shape edge2_shape (nth k quad2d_side_nodes []) (fun _ => True) (fun x _ => quad2d_side_map k x).
Proof.
  intros k Hk x y _. enum k; cbn [quad2d_side_map quad2d_side_nodes nth]; trace quad4_shape edge2_shape.
Qed.
(** Pyramid: away from the clipped neighbourhood of the apex. *)
Definition pyr_face_shape (k : nat) : vec -> nat -> R := if Nat.ltb k 4 then tri3_shape else quad4g_shape.
Definition pyr_height (k : nat) (s : vec) : R := match k with 3%nat => vx s | 4%nat => 0 | _ => vy s end.
Theorem C46_pyramid_side_maps : forall k, (k < 5)%nat ->
  trace_agrees 5 pyr5_shape (pyr_face_shape k) (nth k pyr_side_nodes [])
    (fun s => dbl_epsilon < Rabs (1 - pyr_height k s)) (pyr_side_map k).
Proof.
  intros k Hk x y Ho. 
  assert (E : pyr_t (pyr_height k (V x y 0)) = pyr_height k (V x y 0)) by (apply pyr_t_off; exact Ho).
  assert (Z : 1 - pyr_height k (V x y 0) <> 0).
  { intros Z. rewrite Z, Rabs_R0 in Ho. unfold dbl_epsilon in Ho. pose proof (Rinv_0_lt_compat 4503599627370496 ltac:(lra)). lra. }
  clear Ho.
  enum k; cbn [pyr_side_map pyr_side_nodes nth pyr_height vx vy vz] in *; unfold pyr_face_shape; cbn [Nat.ltb Nat.leb];
  [trace pyr5_shape tri3_shape|trace pyr5_shape tri3_shape|trace pyr5_shape tri3_shape|trace pyr5_shape tri3_shape|trace pyr5_shape quad4g_shape];
  cbv zeta; rewrite ?E; try field; try exact Z; reflexivity.
Qed.
(** On a side the vertex values are those of the side's nodes only: with the trace property two
    elements sharing a side interpolate the same values there. *)
Lemma rsum_zero l : (forall z, In z l -> z = 0) -> rsum l = 0.
Proof. unfold rsum. induction l as [|a l IH]; intros H; cbn; [reflexivity|]. rewrite (H a) by (left; reflexivity). rewrite IH by (intros; apply H; right; assumption). ring. Qed.
Lemma rsum_split n (g : nat -> R) nodes : NoDup nodes -> (forall j, In j nodes -> (j < n)%nat) ->
  (forall i, (i < n)%nat -> ~ In i nodes -> g i = 0) ->
  rsum (map g (seq 0 n)) = rsum (map g nodes).
Proof.
  revert g. induction nodes as [|a l IH]; intros g ND HB HZ.
  - cbn. apply rsum_zero. intros z Hz. apply in_map_iff in Hz. destruct Hz as [i [<- Hi]]. apply in_seq in Hi. apply HZ; [lia|auto].
  - inversion ND as [|? ? Ha ND']; subst.
    assert (Q : rsum (map g (seq 0 n)) = g a + rsum (map (fun i => if Nat.eqb i a then 0 else g i) (seq 0 n))).
    { assert (La : (a < n)%nat) by (apply HB; left; reflexivity).
      clear - La. replace n with (a + (S (n - S a)))%nat by lia. rewrite seq_app, !map_app. cbn [seq map]. unfold rsum.
      assert (A : forall l1 l2, fold_right Rplus 0 (l1 ++ l2) = fold_right Rplus 0 l1 + fold_right Rplus 0 l2).
      { induction l1; intros; cbn; [ring|rewrite IHl1; ring]. }
      rewrite !A. cbn [fold_right]. replace (0 + a)%nat with a by lia. rewrite Nat.eqb_refl.
      assert (M1 : map g (seq 0 a) = map (fun i => if Nat.eqb i a then 0 else g i) (seq 0 a)).
      { apply map_ext_in. intros i Hi. apply in_seq in Hi. destruct (Nat.eqb_spec i a); [lia|reflexivity]. }
      assert (M2 : map g (seq (S a) (n - S a)) = map (fun i => if Nat.eqb i a then 0 else g i) (seq (S a) (n - S a))).
      { apply map_ext_in. intros i Hi. apply in_seq in Hi. destruct (Nat.eqb_spec i a); [lia|reflexivity]. }
      rewrite M1, M2. ring. }
    rewrite Q, IH; auto with datatypes.
    + cbn [map rsum fold_right]. f_equal. unfold rsum. f_equal. apply map_ext_in. intros i Hi.
      destruct (Nat.eqb_spec i a); [subst; contradiction|reflexivity].
    + intros i Hi Hn. destruct (Nat.eqb_spec i a); [reflexivity|]. apply HZ; [exact Hi|]. intros [->|]; auto.
Qed.
Lemma map_nth_seq {A} (l : list A) d : map (fun j => nth j l d) (seq 0 (length l)) = l.
Proof.
  induction l as [|a l IH]; [reflexivity|]. cbn [length seq map nth]. f_equal. rewrite <- seq_shift, map_map. exact IH.
Qed.
Theorem C46_trace_interpolates : forall n N Nf nodes dom m x y s f, trace_agrees n N Nf nodes dom m ->
  NoDup nodes -> (forall j, In j nodes -> (j < n)%nat) -> dom (V x y 0) -> m x y = Some s ->
  interp n N s f = interp (length nodes) Nf (V x y 0) (fun j => f (nth j nodes 0%nat)).
Proof.
  intros n N Nf nodes dom m x y s f H ND HB Hd Hm. destruct (H x y Hd) as [s' [Hs [A B]]].
  rewrite Hm in Hs. injection Hs as <-. unfold interp.
  rewrite (rsum_split n (fun i => N s i * f i) nodes ND HB).
  2: { intros i Hi Hn. rewrite B by assumption. ring. }
  rewrite <- (map_nth_seq nodes 0%nat) at 1. rewrite map_map. f_equal. apply map_ext_in.
  intros j Hj. apply in_seq in Hj. rewrite A by lia. reflexivity.
Qed.
(** Two elements sharing a side (same global nodes in the reversed or rotated order would need the
    face map; here: same side node order) see the same value at the same side point. *)
Theorem C46_shared_side_continuous : forall n N nodes m n' N' nodes' m' Nf dom x y s s' f f',
  trace_agrees n N Nf nodes dom m -> trace_agrees n' N' Nf nodes' dom m' ->
  NoDup nodes -> NoDup nodes' -> (forall j, In j nodes -> (j < n)%nat) -> (forall j, In j nodes' -> (j < n')%nat) ->
  length nodes = length nodes' ->
  (forall j, (j < length nodes)%nat -> f (nth j nodes 0%nat) = f' (nth j nodes' 0%nat)) ->
  dom (V x y 0) -> m x y = Some s -> m' x y = Some s' ->
  interp n N s f = interp n' N' s' f'.
Proof.
  intros. erewrite C46_trace_interpolates by eassumption. symmetry. erewrite C46_trace_interpolates by eassumption.
  symmetry. rewrite <- H5. apply interp_ext. assumption.
Qed.
Example C46_hex_wedge_share_a_side : forall f f' x y s s',
  (forall j, (j < 4)%nat -> f (nth j [1;2;6;5]%nat 0%nat) = f' (nth j [0;1;4;3]%nat 0%nat)) ->
  hex_side_map 1 x y = Some s -> wed_side_map 0 x y = Some s' ->
  interp 8 hex8_shape s f = interp 6 wed6_shape s' f'.
Proof.
  intros f f' x y s s' H A B.
  assert (ND : NoDup [1;2;6;5]%nat /\ NoDup [0;1;4;3]%nat).
  { split; repeat constructor; cbn [In]; intuition lia. }
  assert (T1 : trace_agrees 8 hex8_shape quad4g_shape [1;2;6;5]%nat (fun _ => True) (hex_side_map 1)) by (apply (C46_hex_side_maps 1); lia).
  assert (T2 : trace_agrees 6 wed6_shape quad4g_shape [0;1;4;3]%nat (fun _ => True) (wed_side_map 0)) by (apply (C46_wedge_side_maps 0); lia).
  eapply (C46_shared_side_continuous _ _ _ _ _ _ _ _ quad4g_shape (fun _ => True)); try exact A; try exact B; try exact T1; try exact T2; try tauto; try reflexivity; try exact H;
  intros j Hj; cbn [In] in Hj; lia.
Qed.

(** ** Exposed-face integration points *)
Ltac sv shp fshp := intros f; unfold interp; cbn [length seq map rsum fold_right nth]; unfold shp, fshp; cbn [vx vy vz]; field.
Theorem C46_hex_exposed_points : forall k j, (k < 6)%nat -> (j < 4)%nat ->
  same_value 8 hex8_shape (entry hex_exp_face k j vzero) (nth k hex_side_nodes []) quad4_shape (nth j quad3d_loc vzero).
Proof.
  intros k j Hk Hj. unfold entry. enum k; enum j; cbn [hex_exp_face hex_side_nodes quad3d_loc nth]; sv hex8_shape quad4_shape.
Qed.
Theorem C46_tet_exposed_points_partial : forall k j, (k < 3)%nat -> (j < 3)%nat ->
  same_value 4 tet4_shape (entry tet_exp_face k j vzero) (nth k tet_side_nodes []) tri3_shape (nth j tri3d_loc vzero).
Proof.
  intros k j Hk Hj. unfold entry. enum k; enum j; cbn [tet_exp_face tet_side_nodes tri3d_loc nth]; sv tet4_shape tri3_shape.
Qed.
(** Side 3 of the tetrahedron: the second and third points are interchanged. *)
Theorem C46_tet_side3_refuted :
  ~ same_value 4 tet4_shape (entry tet_exp_face 3 1 vzero) (nth 3 tet_side_nodes []) tri3_shape (nth 1 tri3d_loc vzero) /\
  ~ dominant 4 tet4_shape (entry tet_exp_face 3 1 vzero) (entry tet_ip_node 3 1 0%nat) /\
  same_value 4 tet4_shape (entry tet_exp_face 3 1 vzero) (nth 3 tet_side_nodes []) tri3_shape (nth 2 tri3d_loc vzero) /\
  same_value 4 tet4_shape (entry tet_exp_face 3 2 vzero) (nth 3 tet_side_nodes []) tri3_shape (nth 1 tri3d_loc vzero).
Proof.
  unfold entry; cbn [tet_exp_face tet_side_nodes tri3d_loc tet_ip_node nth]. repeat split.
  - intros H. specialize (H (fun i => match i with 1%nat => 1 | _ => 0 end)). revert H.
    unfold interp; cbn [length seq map rsum fold_right nth]; unfold tet4_shape, tri3_shape; cbn [vx vy vz]. lra.
  - intros [_ H]. specialize (H 1%nat ltac:(lia) ltac:(lia)). unfold tet4_shape in H. cbn [vx vy vz] in H. lra.
  - sv tet4_shape tri3_shape.
  - sv tet4_shape tri3_shape.
Qed.
Definition wed_face_ip (k j : nat) : vec := if Nat.ltb k 3 then nth j quad3d_loc vzero else nth j tri3d_loc vzero.
Definition wed_face_ip_shape (k : nat) : vec -> nat -> R := if Nat.ltb k 3 then quad4_shape else tri3_shape.
Theorem C46_wedge_exposed_points : forall k j, (k < 5)%nat -> (j < length (nth k wed_side_nodes []))%nat ->
  same_value 6 wed6_shape (entry wed_exp_face k j vzero) (nth k wed_side_nodes []) (wed_face_ip_shape k) (wed_face_ip k j).
Proof.
  intros k j Hk Hj. unfold entry, wed_face_ip, wed_face_ip_shape.
  enum k; cbn [wed_exp_face wed_side_nodes quad3d_loc tri3d_loc nth Nat.ltb Nat.leb] in *; enum j; cbn [nth];
  first [sv wed6_shape quad4_shape | sv wed6_shape tri3_shape].
Qed.
Definition pyr_face_ip (k j : nat) : vec := if Nat.ltb k 4 then nth j tri3d_loc vzero else nth j quad3d_loc vzero.
Definition pyr_face_ip_shape (k : nat) : vec -> nat -> R := if Nat.ltb k 4 then tri3_shape else quad4_shape.
Lemma pyr_t_low t : t <= 1/2 + 1/4 -> pyr_t t = t.
Proof.
  intros H. apply pyr_t_off. unfold dbl_epsilon. rewrite Rabs_right by lra. apply Rlt_le_trans with (/ 4); [|lra].
  apply Rinv_lt_contravar; lra.
Qed.
Ltac svp fshp := intros f; unfold interp; cbn [length seq map rsum fold_right nth]; unfold pyr5_shape, fshp; cbn [vx vy vz];
  rewrite ?pyr_t_low by lra; field.
Theorem C46_pyramid_exposed_points : forall k j, (k < 5)%nat -> (j < length (nth k pyr_side_nodes []))%nat ->
  same_value 5 pyr5_shape (entry pyr_exp_face k j vzero) (nth k pyr_side_nodes []) (pyr_face_ip_shape k) (pyr_face_ip k j).
Proof.
  intros k j Hk Hj. unfold entry, pyr_face_ip, pyr_face_ip_shape.
  enum k; cbn [pyr_exp_face pyr_side_nodes quad3d_loc tri3d_loc nth Nat.ltb Nat.leb] in *; enum j; cbn [nth];
  first [svp tri3_shape | svp quad4_shape].
Qed.
Theorem C46_tri2d_exposed_points : forall k j, (k < 3)%nat -> (j < 2)%nat ->
  same_value 3 tri3_shape (entry tri2d_exp_face k j vzero) (nth k tri2d_side_nodes []) edge2d_ip_shape (nth j edge2d_loc vzero).
Proof.
  intros k j Hk Hj. unfold entry. enum k; enum j; cbn [tri2d_exp_face tri2d_side_nodes edge2d_loc nth]; sv tri3_shape edge2d_ip_shape.
Qed.
Theorem C46_quad2d_exposed_points : forall k j, (k < 4)%nat -> (j < 2)%nat ->
  same_value 4 quad4_shape (entry quad2d_exp_face k j vzero) (nth k quad2d_side_nodes []) edge2d_ip_shape (nth j edge2d_loc vzero).
Proof.
  intros k j Hk Hj. unfold entry. enum k; enum j; cbn [quad2d_exp_face quad2d_side_nodes edge2d_loc nth]; sv quad4_shape edge2d_ip_shape.
Qed.
(** Each exposed point belongs to the control volume of the node it is mapped to. *)
Ltac dom shp := split; [lia|]; intros i Hi Hn; enum i; try (exfalso; apply Hn; reflexivity); unfold shp; cbn [vx vy vz]; lra.
Ltac domp := split; [lia|]; intros i Hi Hn; enum i; try (exfalso; apply Hn; reflexivity); unfold pyr5_shape; cbn [vx vy vz];
  rewrite !pyr_t_low by lra; lra.
Theorem C46_exposed_points_near_their_node :
  (forall k j, (k < 6)%nat -> (j < 4)%nat -> dominant 8 hex8_shape (entry hex_exp_face k j vzero) (entry hex_ip_node k j 0%nat)) /\
  (forall k j, (k < 3)%nat -> (j < 3)%nat -> dominant 4 tet4_shape (entry tet_exp_face k j vzero) (entry tet_ip_node k j 0%nat)) /\
  (forall k j, (k < 5)%nat -> (j < length (nth k wed_ip_node []))%nat -> dominant 6 wed6_shape (entry wed_exp_face k j vzero) (entry wed_ip_node k j 0%nat)) /\
  (forall k j, (k < 5)%nat -> (j < length (nth k pyr_ip_node []))%nat -> dominant 5 pyr5_shape (entry pyr_exp_face k j vzero) (entry pyr_ip_node k j 0%nat)) /\
  (forall k j, (k < 3)%nat -> (j < 2)%nat -> dominant 3 tri3_shape (entry tri2d_exp_face k j vzero) (entry tri2d_ip_node k j 0%nat)) /\
  (forall k j, (k < 4)%nat -> (j < 2)%nat -> dominant 4 quad4_shape (entry quad2d_exp_face k j vzero) (entry quad2d_ip_node k j 0%nat)).
Proof.
  unfold entry. split; [|split; [|split; [|split; [|split]]]]; intros k j Hk Hj.
  - enum k; enum j; cbn [hex_exp_face hex_ip_node nth]; dom hex8_shape.
  - enum k; enum j; cbn [tet_exp_face tet_ip_node nth]; dom tet4_shape.
  - enum k; cbn [wed_exp_face wed_ip_node nth length] in *; enum j; cbn [nth]; dom wed6_shape.
  - enum k; cbn [pyr_exp_face pyr_ip_node nth length] in *; enum j; cbn [nth]; domp.
  - enum k; enum j; cbn [tri2d_exp_face tri2d_ip_node nth]; dom tri3_shape.
  - enum k; enum j; cbn [quad2d_exp_face quad2d_ip_node nth]; dom quad4_shape.
Qed.

(** ** C47: opposing nodes and sub-control surfaces *)
Ltac solve_in2 := solve [cbv; repeat first [left; reflexivity | right]].
Ltac oppn := intros k j Hk Hj; cbn [length hex_side_nodes tet_side_nodes wed_side_nodes pyr_side_nodes tri2d_side_nodes quad2d_side_nodes] in Hk; cbv zeta; unfold entry; enum k; cbn in Hj; enum j;
  (split; [cbv; intros H; repeat (destruct H as [H|H]; [discriminate H|]); exact H | first [left; solve_in2 | right; solve_in2]]).
Ltac oppf := intros k j Hk Hj; cbn [length hex_side_nodes tet_side_nodes wed_side_nodes pyr_side_nodes tri2d_side_nodes quad2d_side_nodes] in Hk; cbv zeta; unfold entry; enum k; cbn in Hj; enum j;
  (split; [cbn; lia| first [left; reflexivity | right; reflexivity]]).
Theorem C47_hex_opposing : opposing_node_ok hex_lrscv hex_side_nodes hex_opp_node /\
  opposing_face_ok hex_lrscv hex_side_nodes hex_opp_node hex_opp_face.
Proof. split; [oppn|oppf]. Qed.
Theorem C47_tet_opposing : opposing_node_ok tet_lrscv tet_side_nodes tet_opp_node /\
  opposing_face_ok tet_lrscv tet_side_nodes tet_opp_node tet_opp_face.
Proof. split; [oppn|oppf]. Qed.
Theorem C47_wedge_opposing : opposing_node_ok wed_lrscv wed_side_nodes wed_opp_node /\
  opposing_face_ok wed_lrscv wed_side_nodes wed_opp_node wed_opp_face.
Proof. split; [oppn|oppf]. Qed.
Theorem C47_tri2d_opposing : opposing_node_ok tri2d_lrscv tri2d_side_nodes tri2d_opp_node /\
  opposing_face_ok tri2d_lrscv tri2d_side_nodes tri2d_opp_node tri2d_opp_face.
Proof. split; [oppn|oppf]. Qed.
Theorem C47_quad2d_opposing : opposing_node_ok quad2d_lrscv quad2d_side_nodes quad2d_opp_node /\
  opposing_face_ok quad2d_lrscv quad2d_side_nodes quad2d_opp_node quad2d_opp_face.
Proof. split; [oppn|oppf]. Qed.
Theorem C47_pyramid_opposing_nodes : opposing_node_ok pyr_lrscv pyr_side_nodes pyr_opp_node.
Proof. oppn. Qed.
(** The pyramid's opposingFace hands out nodes; the stored table would have been right. *)
Theorem C47_pyramid_opposing_face_refuted :
  ~ opposing_face_ok pyr_lrscv pyr_side_nodes pyr_opp_node pyr_opp_face /\
  opposing_face_ok pyr_lrscv pyr_side_nodes pyr_opp_node pyr_opp_face_table.
Proof.
  split; [|oppf]. intros H. specialize (H 0 1 ltac:(cbn; lia) ltac:(cbn; lia))%nat. cbv in H. destruct H as [_ [H|H]]; discriminate.
Qed.
