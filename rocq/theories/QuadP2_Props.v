(** C111: control volumes and faces of the quadratic quadrilateral. *)
Require Import Reals List Arith Lra Lia.
From Coquelicot Require Import Coquelicot.
From Verif Require Import RUtil Edge_Model Edge_Proofs ME_Model ME_Shape_Model QuadP2_Model.
Import ListNotations.
Open Scope R_scope.

(** * Specification *)
(** the map from the unit square to the element with nodal coordinates x, y (component), and its Jacobian determinant, by derivatives *)
Definition pos (q : nat -> R) (s t : R) : R := sumn 9 (fun n => quad9_shape (V s t 0) n * q n).
Definition jac (x y : nat -> R) (s t : R) : R :=
  Derive (fun s => pos x s t) s * Derive (fun t => pos y s t) t - Derive (fun s => pos y s t) s * Derive (fun t => pos x s t) t.
(** the sub-boxes: three by three, cut at -1/sqrt 3 and 1/sqrt 3; the cut points *)
Definition cut (k : nat) : R := match k with 0%nat => -1 | 1%nat => -1 / sqrt 3 | 2%nat => 1 / sqrt 3 | _ => 1 end.
(** the area, with sign, of the image of sub-box (k, l) *)
Definition box_area (x y : nat -> R) (k l : nat) : R := RInt (fun t => RInt (fun s => jac x y s t) (cut k) (cut (k+1))) (cut l) (cut (l+1)).

Notation g := (sqrt 3 / 3).
Lemma gg : g * g = 1/3.
Proof. unfold Rdiv. replace (sqrt 3 * / 3 * (sqrt 3 * / 3)) with ((sqrt 3 * sqrt 3) * / 9) by lra. rewrite sqrt_sqrt by lra. lra. Qed.
Lemma g_inv : 1 / sqrt 3 = g.
Proof. assert (H : sqrt 3 <> 0) by (apply Rgt_not_eq, sqrt_lt_R0; lra). apply (Rmult_eq_reg_r (sqrt 3)); [|exact H]. unfold Rdiv. rewrite Rmult_1_l, Rinv_l by exact H.
  replace (sqrt 3 * / 3 * sqrt 3) with ((sqrt 3 * sqrt 3) * / 3) by ring. rewrite sqrt_sqrt by lra. lra. Qed.
Lemma cut_is k : cut k = scs_end k.
Proof. destruct k as [|[|[|k]]]; cbn [cut scs_end]; try reflexivity; unfold scs_dist; [|apply g_inv]. rewrite <- g_inv. unfold Rdiv. ring. Qed.

(** ** Two-point Gauss quadrature is exact for cubics *)
Definition cubic (f : R -> R) : Prop := exists c0 c1 c2 c3, forall s, f s = c0 + c1 * s + c2 * (s*s) + c3 * (s*s*s).
Lemma gauss_exact f a b : cubic f -> is_RInt f a b ((b - a) * (1/2) * f (iso b a (- g)) + (b - a) * (1/2) * f (iso b a g)).
Proof.
  intros (c0 & c1 & c2 & c3 & H).
  apply (is_RInt_ext (fun s => c0 + c1 * s + c2 * (s*s) + c3 * (s*s*s))); [intros; symmetry; apply H|].
  set (F := fun s => c0 * s + c1 * (s*s) / 2 + c2 * (s*s*s) / 3 + c3 * (s*s*s*s) / 4).
  replace ((b - a) * (1/2) * f (iso b a (- g)) + (b - a) * (1/2) * f (iso b a g)) with (minus (F b) (F a)).
  - apply (is_RInt_derive F).
    + intros s _. unfold F. auto_derive; [exact I|field].
    + intros s _. apply (@ex_derive_continuous R_AbsRing R_NormedModule (fun s => c0 + c1 * s + c2 * (s*s) + c3 * (s*s*s))). auto_derive. exact I.
  - unfold minus, plus, opp; simpl. rewrite !H. unfold F, iso. pose proof gg as G. set (q := g) in *. clearbody q.
    assert (G3 : q * q * q = q / 3) by (rewrite G; field).
    transitivity ((b-a) * (c0 + c1 * ((a+b)/2) + c2 * ((a+b)*(a+b)/4 + (1/3) * (b-a)*(b-a)/4) + c3 * ((a+b)*(a+b)*(a+b)/8 + 3 * ((a+b)/2) * (1/3) * (b-a)*(b-a)/4))); [field|].
    rewrite <- G. field.
Qed.

(** ** The tabulated derivatives are the derivatives *)
Ltac s9 := unfold sumn; cbn [seq fold_left].
Lemma pos_ds q s t : is_derive (fun s => pos q s t) s (sumn 9 (fun n => quad9_deriv (V s t 0) n 0 * q n)).
Proof. unfold pos. s9. unfold quad9_shape, quad9_deriv. cbn [vx vy]. auto_derive; [exact I|field]. Qed.
Lemma pos_dt q s t : is_derive (fun t => pos q s t) t (sumn 9 (fun n => quad9_deriv (V s t 0) n 1 * q n)).
Proof. unfold pos. s9. unfold quad9_shape, quad9_deriv. cbn [vx vy]. auto_derive; [exact I|field]. Qed.
Lemma jac_is x y s t : jac x y s t = jac_det x y s t.
Proof. unfold jac, jac_det. rewrite !(is_derive_unique _ _ _ (pos_ds _ s t)), !(is_derive_unique _ _ _ (pos_dt _ s t)). reflexivity. Qed.

Definition Ds (q : nat -> R) s t := sumn 9 (fun n => quad9_deriv (V s t 0) n 0 * q n).
Definition Dt (q : nat -> R) s t := sumn 9 (fun n => quad9_deriv (V s t 0) n 1 * q n).
Lemma Ds_s q s t : Ds q s t = Ds q 0 t + s * (Ds q 1 t - Ds q 0 t).
Proof. unfold Ds. s9. unfold quad9_deriv; cbn [vx vy]. field. Qed.
Lemma Ds_t q s t : Ds q s t = Ds q s 0 + t * ((Ds q s 1 - Ds q s (-1)) / 2) + t * t * ((Ds q s 1 + Ds q s (-1)) / 2 - Ds q s 0).
Proof. unfold Ds. s9. unfold quad9_deriv; cbn [vx vy]. field. Qed.
Lemma Dt_t q s t : Dt q s t = Dt q s 0 + t * (Dt q s 1 - Dt q s 0).
Proof. unfold Dt. s9. unfold quad9_deriv; cbn [vx vy]. field. Qed.
Lemma Dt_s q s t : Dt q s t = Dt q 0 t + s * ((Dt q 1 t - Dt q (-1) t) / 2) + s * s * ((Dt q 1 t + Dt q (-1) t) / 2 - Dt q 0 t).
Proof. unfold Dt. s9. unfold quad9_deriv; cbn [vx vy]. field. Qed.
Lemma prod_cubic a0 a1 b0 b1 b2 c0 c1 d0 d1 d2 : cubic (fun s => (a0 + s * a1) * (b0 + s * b1 + s * s * b2) - (c0 + s * c1) * (d0 + s * d1 + s * s * d2)).
Proof. exists (a0*b0 - c0*d0), (a0*b1+a1*b0 - c0*d1-c1*d0), (a0*b2+a1*b1 - c0*d2-c1*d1), (a1*b2-c1*d2). intros. ring. Qed.
Lemma cubic_ext f h : (forall s, f s = h s) -> cubic h -> cubic f.
Proof. intros E (c0&c1&c2&c3&H). exists c0,c1,c2,c3. intros. rewrite E. apply H. Qed.
Lemma det_s x y t : cubic (fun s => jac_det x y s t).
Proof.
  apply (cubic_ext _ (fun s => (Ds x 0 t + s * (Ds x 1 t - Ds x 0 t)) * (Dt y 0 t + s * ((Dt y 1 t - Dt y (-1) t) / 2) + s * s * ((Dt y 1 t + Dt y (-1) t) / 2 - Dt y 0 t))
    - (Ds y 0 t + s * (Ds y 1 t - Ds y 0 t)) * (Dt x 0 t + s * ((Dt x 1 t - Dt x (-1) t) / 2) + s * s * ((Dt x 1 t + Dt x (-1) t) / 2 - Dt x 0 t)))); [|apply prod_cubic].
  intros s. unfold jac_det. cbv zeta. fold (Ds x s t) (Ds y s t) (Dt x s t) (Dt y s t). rewrite <- (Ds_s x), <- (Ds_s y), <- (Dt_s x), <- (Dt_s y). reflexivity. Qed.
Lemma det_t x y s : cubic (fun t => jac_det x y s t).
Proof.
  apply (cubic_ext _ (fun t => (Dt y s 0 + t * (Dt y s 1 - Dt y s 0)) * (Ds x s 0 + t * ((Ds x s 1 - Ds x s (-1)) / 2) + t * t * ((Ds x s 1 + Ds x s (-1)) / 2 - Ds x s 0))
    - (Dt x s 0 + t * (Dt x s 1 - Dt x s 0)) * (Ds y s 0 + t * ((Ds y s 1 - Ds y s (-1)) / 2) + t * t * ((Ds y s 1 + Ds y s (-1)) / 2 - Ds y s 0)))); [|apply prod_cubic].
  intros t. unfold jac_det. cbv zeta. fold (Ds x s t) (Ds y s t) (Dt x s t) (Dt y s t). rewrite <- (Ds_t x), <- (Ds_t y), <- (Dt_t x), <- (Dt_t y). ring. Qed.
Lemma cubic_lin a b f h : cubic f -> cubic h -> cubic (fun t => a * f t + b * h t).
Proof. intros (c0&c1&c2&c3&H) (d0&d1&d2&d3&K). exists (a*c0+b*d0), (a*c1+b*d1), (a*c2+b*d2), (a*c3+b*d3). intros. rewrite H, K. ring. Qed.

(** the double integral over any box is the four-point rule *)
Lemma box_rule x y a b c d : RInt (fun t => RInt (fun s => jac x y s t) a b) c d =
  (d - c) * (1/2) * ((b - a) * (1/2) * jac_det x y (iso b a (- g)) (iso d c (- g)) + (b - a) * (1/2) * jac_det x y (iso b a g) (iso d c (- g))) +
  (d - c) * (1/2) * ((b - a) * (1/2) * jac_det x y (iso b a (- g)) (iso d c g) + (b - a) * (1/2) * jac_det x y (iso b a g) (iso d c g)).
Proof.
  rewrite (RInt_ext _ (fun t => (b - a) * (1/2) * jac_det x y (iso b a (- g)) t + (b - a) * (1/2) * jac_det x y (iso b a g) t)).
  - apply is_RInt_unique. apply (gauss_exact (fun t => (b - a) * (1/2) * jac_det x y (iso b a (- g)) t + (b - a) * (1/2) * jac_det x y (iso b a g) t)). apply cubic_lin; apply det_t.
  - intros t _. rewrite (RInt_ext _ (fun s => jac_det x y s t)) by (intros; apply jac_is). apply is_RInt_unique. apply (gauss_exact (fun s => jac_det x y s t)). apply det_s.
Qed.

(** * The volume of each node is the exact area of its sub-box's image, for any, also curved or inverted, element *)
Theorem C111_volume_exact : forall x y k l, (k < 3)%nat -> (l < 3)%nat -> node_volume x y (node_at k l) = box_area x y k l.
Proof.
  intros x y k l Hk Hl. unfold box_area. rewrite box_rule, !cut_is.
  set (vol := fun p => scv_volume x y p).
  transitivity (vol (k,l,0,0)%nat + (vol (k,l,1,0)%nat + (vol (k,l,0,1)%nat + vol (k,l,1,1)%nat))).
  - unfold node_volume. change (fold_right (fun p a => (if (scv_node p =? node_at k l)%nat then vol p else 0) + a) 0 scv_points = vol (k,l,0,0)%nat + (vol (k,l,1,0)%nat + (vol (k,l,0,1)%nat + vol (k,l,1,1)%nat))).
    clearbody vol. destruct k as [|[|[|k]]]; try lia; destruct l as [|[|[|l]]]; try lia; cbn; ring.
  - unfold vol, scv_volume, gauss_loc, weight2, gauss_abscissa, gauss_weight. ring.
Qed.

(** ** Adding up the boxes *)
Lemma ex_s x y a b t : ex_RInt (fun s => jac x y s t) a b.
Proof. eapply ex_RInt_ext; [intros; symmetry; apply jac_is|]. eexists. apply gauss_exact. apply det_s. Qed.
Lemma ex_t x y a b c d : ex_RInt (fun t => RInt (fun s => jac x y s t) a b) c d.
Proof.
  eapply ex_RInt_ext; [|eexists; apply (gauss_exact (fun t => (b - a) * (1/2) * jac_det x y (iso b a (- g)) t + (b - a) * (1/2) * jac_det x y (iso b a g) t)); apply cubic_lin; apply det_t].
  intros t _. symmetry. rewrite (RInt_ext _ (fun s => jac_det x y s t)) by (intros; apply jac_is). apply is_RInt_unique. apply (gauss_exact (fun s => jac_det x y s t)). apply det_s.
Qed.
Definition box (x y : nat -> R) a b c d := RInt (fun t => RInt (fun s => jac x y s t) a b) c d.
Lemma box_t x y a b c d e : box x y a b c d + box x y a b d e = box x y a b c e.
Proof. unfold box. apply (RInt_Chasles (fun t => RInt (fun s => jac x y s t) a b) c d e); apply ex_t. Qed.
Lemma box_s x y a b e c d : box x y a b c d + box x y b e c d = box x y a e c d.
Proof.
  unfold box. rewrite <- (RInt_plus (V := R_CompleteNormedModule)) by apply ex_t. apply RInt_ext. intros t _.
  apply (RInt_Chasles (fun s => jac x y s t) a b e); apply ex_s.
Qed.
(** the volumes of all points add up to the area of the element *)
Theorem C111_total_area : forall x y, fold_right (fun p a => scv_volume x y p + a) 0 scv_points = RInt (fun t => RInt (fun s => jac x y s t) (-1) 1) (-1) 1.
Proof.
  intros x y. change (RInt _ (-1) 1) with (box x y (-1) 1 (-1) 1).
  transitivity (sumn 3 (fun l => sumn 3 (fun k => box_area x y k l))).
  - assert (E : forall k l, (k < 3)%nat -> (l < 3)%nat -> box_area x y k l = scv_volume x y (k,l,0,0)%nat + (scv_volume x y (k,l,1,0)%nat + (scv_volume x y (k,l,0,1)%nat + scv_volume x y (k,l,1,1)%nat))).
    { intros k l Hk Hl. unfold box_area. rewrite box_rule, !cut_is. unfold scv_volume, gauss_loc, weight2, gauss_abscissa, gauss_weight. ring. }
    rewrite (sumn_ext 3 _ (fun l => sumn 3 (fun k => scv_volume x y (k,l,0,0)%nat + (scv_volume x y (k,l,1,0)%nat + (scv_volume x y (k,l,0,1)%nat + scv_volume x y (k,l,1,1)%nat))))).
    + generalize (scv_volume x y). intros vol. s9. cbn. ring.
    + intros l Hl. apply sumn_ext. intros k Hk. apply E; assumption.
  - s9. unfold box_area. fold (box x y). cbn [Nat.add].
    repeat match goal with |- context [RInt (fun t => RInt (fun s => jac x y s t) ?a ?b) ?c ?d] => change (RInt (fun t => RInt (fun s => jac x y s t) a b) c d) with (box x y a b c d) end.
    rewrite <- (box_t x y (-1) 1 (-1) (cut 1) 1), <- (box_t x y (-1) 1 (cut 1) (cut 2) 1).
    rewrite <- !(box_s x y (-1) (cut 1) 1), <- !(box_s x y (cut 1) (cut 2) 1). change (cut 0) with (-1). change (cut 3) with 1. ring.
Qed.

(** ** Faces *)
Lemma edge_s q a b t : Ds q (iso b a (- g)) t * ((b - a) * (1/2)) + Ds q (iso b a g) t * ((b - a) * (1/2)) = pos q b t - pos q a t.
Proof. unfold Ds, pos, iso. s9. unfold quad9_shape, quad9_deriv; cbn [vx vy]. set (q0 := g). clearbody q0. field. Qed.
Lemma edge_t q s a b : Dt q s (iso b a (- g)) * ((b - a) * (1/2)) + Dt q s (iso b a g) * ((b - a) * (1/2)) = pos q s b - pos q s a.
Proof. unfold Dt, pos, iso. s9. unfold quad9_shape, quad9_deriv; cbn [vx vy]. set (q0 := g). clearbody q0. field. Qed.
(** net area vector through which a flux from node L's volume into node Rn's passes (an assembly adds at the left node, subtracts at the right) *)
Definition net_area (x y : nat -> R) (L Rn : nat) : R * R :=
  (fst (area_between x y L Rn) - fst (area_between x y Rn L), snd (area_between x y L Rn) - snd (area_between x y Rn L)).
(** the right-hand normal of the segment joining the images of two points of the unit square *)
Definition normal_of (x y : nat -> R) (a b : R * R) : R * R :=
  (pos y (fst b) (snd b) - pos y (fst a) (snd a), - (pos x (fst b) (snd b) - pos x (fst a) (snd a))).
(** between two neighbouring boxes the net area vector is exactly that of their common edge's image, gone along with the first box on the left,
    so that it points out of the first; curved edges included *)
Lemma net_up x y k l : (k < 3)%nat -> (l < 2)%nat -> net_area x y (node_at k l) (node_at k (l+1)) =
  let a j := scs_area x y (true, l, k, j) in
  (match l with O => 1 | _ => -1 end * (fst (a 0%nat) + fst (a 1%nat)), match l with O => 1 | _ => -1 end * (snd (a 0%nat) + snd (a 1%nat))).
Proof.
  intros Hk Hl. cbv zeta. unfold net_area, area_between. generalize (scs_area x y). intros ar.
  destruct k as [|[|[|k]]]; try lia; destruct l as [|[|l]]; try lia; cbn; f_equal; ring.
Qed.
Lemma net_right x y k l : (k < 2)%nat -> (l < 3)%nat -> net_area x y (node_at k l) (node_at (k+1) l) =
  let a j := scs_area x y (false, k, l, j) in
  (match k with O => 1 | _ => -1 end * (fst (a 0%nat) + fst (a 1%nat)), match k with O => 1 | _ => -1 end * (snd (a 0%nat) + snd (a 1%nat))).
Proof.
  intros Hk Hl. cbv zeta. unfold net_area, area_between. generalize (scs_area x y). intros ar.
  destruct k as [|[|k]]; try lia; destruct l as [|[|[|l]]]; try lia; cbn; f_equal; ring.
Qed.
Lemma scs_loc_is m : (m < 2)%nat -> scs_loc m = scs_end (m + 1). Proof. destruct m as [|[|m]]; intros; try reflexivity; lia. Qed.
Theorem C111_face_above : forall x y k l, (k < 3)%nat -> (l < 2)%nat ->
  net_area x y (node_at k l) (node_at k (l+1)) = normal_of x y (cut (k+1), cut (l+1)) (cut k, cut (l+1)).
Proof.
  intros x y k l Hk Hl. rewrite net_up by assumption. cbv zeta. unfold normal_of. cbn [fst snd]. rewrite !cut_is, <- (scs_loc_is l Hl).
  pose proof (edge_s y (scs_end k) (scs_end (k+1)) (scs_loc l)) as Ey. pose proof (edge_s x (scs_end k) (scs_end (k+1)) (scs_loc l)) as Ex.
  unfold scs_area, area_vector, scs_st, scs_weight, weight1, gauss_loc, gauss_abscissa, gauss_weight. cbv zeta. cbn [fst snd]. fold (Ds x) (Ds y).
  repeat match goal with |- context [sumn 9 (fun n => quad9_deriv (V ?s ?t 0) n 0 * ?q n)] => change (sumn 9 (fun n => quad9_deriv (V s t 0) n 0 * q n)) with (Ds q s t) end.
  destruct l as [|[|l]]; try lia; unfold orientation; f_equal; lra.
Qed.
Theorem C111_face_right : forall x y k l, (k < 2)%nat -> (l < 3)%nat ->
  net_area x y (node_at k l) (node_at (k+1) l) = normal_of x y (cut (k+1), cut l) (cut (k+1), cut (l+1)).
Proof.
  intros x y k l Hk Hl. rewrite net_right by assumption. cbv zeta. unfold normal_of. cbn [fst snd]. rewrite !cut_is, <- (scs_loc_is k Hk).
  pose proof (edge_t y (scs_loc k) (scs_end l) (scs_end (l+1))) as Ey. pose proof (edge_t x (scs_loc k) (scs_end l) (scs_end (l+1))) as Ex.
  unfold scs_area, area_vector, scs_st, scs_weight, weight1, gauss_loc, gauss_abscissa, gauss_weight. cbv zeta. cbn [fst snd].
  repeat match goal with |- context [sumn 9 (fun n => quad9_deriv (V ?s ?t 0) n 1 * ?q n)] => change (sumn 9 (fun n => quad9_deriv (V s t 0) n 1 * q n)) with (Dt q s t) end.
  destruct k as [|[|k]]; try lia; unfold orientation; f_equal; lra.
Qed.
(** every face point lies between two neighbouring boxes, on their common edge, within it *)
Definition neighbours (a b : nat) : Prop := exists k l, (k < 3)%nat /\ (l < 3)%nat /\
  ((a = node_at k l /\ b = node_at (k+1) l /\ (k < 2)%nat) \/ (a = node_at k l /\ b = node_at k (l+1) /\ (l < 2)%nat)).
Theorem C111_faces_join_neighbours : forall p, In p scs_points -> neighbours (scs_left p) (scs_right p) \/ neighbours (scs_right p) (scs_left p).
Proof.
  intros p H. unfold scs_points in H. apply in_flat_map in H. destruct H as (dir & Hd & H). apply in_flat_map in H. destruct H as (m & Hm & H).
  apply in_flat_map in H. destruct H as (l & Hl & H). apply in_map_iff in H. destruct H as (j & <- & Hj).
  assert (m < 2)%nat by (cbn in Hm; lia). assert (l < 3)%nat by (cbn in Hl; lia). unfold scs_left, scs_right.
  destruct dir; destruct (Nat.eqb m 0) eqn:M; try (apply Nat.eqb_eq in M; subst m).
  - left. exists l, 0%nat. repeat split; try lia; right; repeat split; lia.
  - right. exists l, m. repeat split; try lia; right; repeat split; lia.
  - left. exists 0%nat, l. repeat split; try lia; left; repeat split; lia.
  - right. exists m, l. repeat split; try lia; left; repeat split; lia.
Qed.
(** the middle node's volume, which touches no side of the element, is closed: the outward area vectors of its faces cancel *)
Theorem C111_centre_closed : forall x y, outward_total x y 8 = (0, 0).
Proof.
  intros x y.
  pose proof (C111_face_above x y 1 1 ltac:(lia) ltac:(lia)) as U. pose proof (C111_face_above x y 1 0 ltac:(lia) ltac:(lia)) as D.
  pose proof (C111_face_right x y 1 1 ltac:(lia) ltac:(lia)) as Rr. pose proof (C111_face_right x y 0 1 ltac:(lia) ltac:(lia)) as L.
  assert (E : outward_total x y 8 = (fst (net_area x y 8 6) - fst (net_area x y 4 8) + fst (net_area x y 8 5) - fst (net_area x y 7 8),
                                     snd (net_area x y 8 6) - snd (net_area x y 4 8) + snd (net_area x y 8 5) - snd (net_area x y 7 8))).
  { unfold outward_total, net_area, area_between. generalize (scs_area x y). intros ar. cbn. f_equal; ring. }
  cbn in U, D, Rr, L. rewrite E, U, D, Rr, L. unfold normal_of. cbn [fst snd]. f_equal; ring.
Qed.

(** * Gradients *)
Lemma unity_d s t c : sumn 9 (fun n => quad9_deriv (V s t 0) n c) = 0.
Proof. s9. unfold quad9_deriv; cbn [vx vy]. destruct c as [|[|c]]; field. Qed.
(** the gradient operator built at a point gives any linear field its gradient, wherever the element is not degenerate there *)
Lemma gradient_linear small x y s t a b c0 : 0 <= small -> small < jac x y s t ->
  let G c := sumn 9 (fun n => gradient_operator small x y (fun n d => quad9_deriv (V s t 0) n d) n c * (a * x n + b * y n + c0)) in G 0%nat = a /\ G 1%nat = b.
Proof.
  intros S0 J. rewrite jac_is in J. unfold jac_det in J. cbv zeta in J.
  pose proof (unity_d s t 0) as U0. pose proof (unity_d s t 1) as U1. unfold gradient_operator. cbv zeta.
  set (X0 := sumn 9 (fun n => quad9_deriv (V s t 0) n 0 * x n)) in *. set (X1 := sumn 9 (fun n => quad9_deriv (V s t 0) n 1 * x n)) in *.
  set (Y0 := sumn 9 (fun n => quad9_deriv (V s t 0) n 0 * y n)) in *. set (Y1 := sumn 9 (fun n => quad9_deriv (V s t 0) n 1 * y n)) in *.
  destruct (Rlt_dec small (X0 * Y1 - Y0 * X1)) as [_|N]; [|contradiction].
  assert (NZ : X0 * Y1 - Y0 * X1 <> 0) by lra.
  assert (E : forall A B, sumn 9 (fun n => (quad9_deriv (V s t 0) n 0 * A + quad9_deriv (V s t 0) n 1 * B) * (a * x n + b * y n + c0)) = A * (a * X0 + b * Y0) + B * (a * X1 + b * Y1)).
  { intros A B. transitivity (A * (a * X0 + b * Y0 + c0 * sumn 9 (fun n => quad9_deriv (V s t 0) n 0)) + B * (a * X1 + b * Y1 + c0 * sumn 9 (fun n => quad9_deriv (V s t 0) n 1))).
    - unfold X0, X1, Y0, Y1. generalize (quad9_deriv (V s t 0)). intros q. s9. ring.
    - rewrite U0, U1. ring. }
  split.
  - rewrite E. field. exact NZ.
  - rewrite E. field. exact NZ.
Qed.
(** at the face points, all 24 of them *)
Theorem C111_face_gradients : forall small x y old ki a b c0, (ki < 24)%nat -> 0 <= small ->
  (let st := scs_st (nth ki scs_points (true,0,0,0)%nat) in small < jac x y (fst st) (snd st)) ->
  let G c := sumn 9 (fun n => scs_grad_op small x y old ki n c * (a * x n + b * y n + c0)) in G 0%nat = a /\ G 1%nat = b.
Proof. intros small x y old ki a b c0 H S J. unfold scs_grad_op. apply Nat.ltb_lt in H. rewrite H. apply gradient_linear; assumption. Qed.
(** in the sub-volumes, at the first 24 of the 36 points: the bottom and middle rows. Missing: the top row, see below *)
Theorem C111_volume_gradients_partial : forall small x y old ki a b c0, (ki < 24)%nat -> 0 <= small -> small < jac x y (fst (scv_st ki)) (snd (scv_st ki)) ->
  let G c := sumn 9 (fun n => scv_grad_op small x y old ki n c * (a * x n + b * y n + c0)) in G 0%nat = a /\ G 1%nat = b.
Proof. intros small x y old ki a b c0 H S J. unfold scv_grad_op. apply Nat.ltb_lt in H. rewrite H. apply gradient_linear; assumption. Qed.
(** the points left out are exactly those of the three nodes of the top side, in every element: their gradients are whatever the buffer held *)
Theorem C111_volume_gradients_refuted :
  (forall small x y old ki n c, (24 <= ki)%nat -> scv_grad_op small x y old ki n c = old ki n c) /\
  (forall ki, (ki < 36)%nat -> (24 <= ki)%nat <-> In (scv_node (nth ki scv_points (0,0,0,0)%nat)) [3;6;2]%nat) /\ length scv_points = 36%nat.
Proof.
  split; [|split; [|reflexivity]].
  - intros. unfold scv_grad_op. destruct (Nat.ltb_spec ki 24); [lia|reflexivity].
  - intros ki H. do 36 (destruct ki as [|ki]; [cbn; lia|]). lia.
Qed.

(** * The reference element itself: the map is the identity, the area 4, and the middle node's share 4/3 *)
Definition ref_x (n : nat) : R := match n with 0%nat | 3%nat | 7%nat => -1 | 1%nat | 2%nat | 5%nat => 1 | _ => 0 end.
Definition ref_y (n : nat) : R := match n with 0%nat | 1%nat | 4%nat => -1 | 2%nat | 3%nat | 6%nat => 1 | _ => 0 end.
Theorem C111_nonvacuous : (forall s t, pos ref_x s t = s /\ pos ref_y s t = t) /\ (forall s t, jac ref_x ref_y s t = 1) /\ node_volume ref_x ref_y 8 = 4/3 /\
  fold_right (fun p a => scv_volume ref_x ref_y p + a) 0 scv_points = 4 /\ net_area ref_x ref_y 8 6 = (0, 2 / sqrt 3).
Proof.
  assert (P : forall s t, pos ref_x s t = s /\ pos ref_y s t = t) by (intros; split; unfold pos; s9; unfold quad9_shape, ref_x, ref_y; cbn [vx vy]; field).
  assert (J : forall s t, jac_det ref_x ref_y s t = 1) by (intros; unfold jac_det; cbv zeta; s9; unfold quad9_deriv, ref_x, ref_y; cbn [vx vy]; field).
  split; [exact P|]. split; [intros; rewrite jac_is; apply J|]. split; [|split].
  - change 8%nat with (node_at 1 1). rewrite C111_volume_exact by lia. unfold box_area. rewrite box_rule, !J, !cut_is. cbn. unfold scs_dist. pose proof gg. nra.
  - rewrite C111_total_area. rewrite box_rule, !J. lra.
  - change 8%nat with (node_at 1 1). change 6%nat with (node_at 1 (1+1)). rewrite C111_face_above by lia. unfold normal_of. cbn [fst snd].
    rewrite !(proj1 (P _ _)), !(proj2 (P _ _)). cbn. f_equal; unfold Rdiv; lra.
Qed.
