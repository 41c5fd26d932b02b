(** C111, faces against volumes: the Green-Gauss gradient of a linear field over the middle node's volume is exact on any element. *)
Require Import Reals List Arith Lra Lia.
From Verif Require Import RUtil Edge_Model Edge_Proofs ME_Model ME_Shape_Model QuadP2_Model QuadP2_Props.
Import ListNotations.
Open Scope R_scope.

(** Specification: the sum over the faces of a node, outwards, of a field's value at the face point times the area vector *)
Definition face_sum (x y : nat -> R) (n : nat) (f : R -> R -> R) (c : R * R -> R) : R :=
  fold_right (fun p a => ((if Nat.eqb (scs_left p) n then 1 else 0) - (if Nat.eqb (scs_right p) n then 1 else 0)) *
    f (fst (scs_st p)) (snd (scs_st p)) * c (scs_area x y p) + a) 0 scs_points.

Lemma product_rule p0 p1 p2 q0 q1 q2 a b : let p s := p0 + s * p1 + s * s * p2 in let q s := q0 + s * q1 + s * s * q2 in
  let D s := (p1 + 2 * s * p2) * q s + p s * (q1 + 2 * s * q2) in
  (b - a) * (1/2) * D (iso b a (- g)) + (b - a) * (1/2) * D (iso b a g) = p b * q b - p a * q a.
Proof.
  cbv zeta. unfold iso. pose proof gg as G. set (k := g) in *. clearbody k.
  set (m := (a + b) / 2). set (h := (b - a) / 2). replace b with (m + h) by (unfold m, h; field). replace a with (m - h) by (unfold m, h; field).
  replace (- k * (m + h - (m - h)) / 2 + m) with (m - k * h) by field. replace (k * (m + h - (m - h)) / 2 + m) with (m + k * h) by field.
  clearbody m h.
  transitivity (h * (2 * (p1*q0 + p0*q1) + 2 * m * (2 * (p2*q0+p1*q1+p0*q2)) + 2 * (m*m + (k*k)*h*h) * (3 * (p2*q1+p1*q2)) + 2 * (m*m*m + 3*m*(k*k)*h*h) * (4 * (p2*q2)))); [field|].
  rewrite G. field.
Qed.
Definition mixed (q : nat -> R) s t := (Dt q 1 t - Dt q (-1) t) / 2 + 2 * s * ((Dt q 1 t + Dt q (-1) t) / 2 - Dt q 0 t).
Lemma mixed_t q s t : mixed q s t = (Ds q s 1 - Ds q s (-1)) / 2 + 2 * t * ((Ds q s 1 + Ds q s (-1)) / 2 - Ds q s 0).
Proof. unfold mixed, Ds, Dt. s9. unfold quad9_deriv; cbn [vx vy]. field. Qed.
Lemma pos_s q s t : pos q s t = pos q 0 t + s * ((pos q 1 t - pos q (-1) t) / 2) + s * s * ((pos q 1 t + pos q (-1) t) / 2 - pos q 0 t).
Proof. unfold pos. s9. unfold quad9_shape; cbn [vx vy]. field. Qed.
Lemma pos_t q s t : pos q s t = pos q s 0 + t * ((pos q s 1 - pos q s (-1)) / 2) + t * t * ((pos q s 1 + pos q s (-1)) / 2 - pos q s 0).
Proof. unfold pos. s9. unfold quad9_shape; cbn [vx vy]. field. Qed.
Lemma Ds_pos q s t : Ds q s t = (pos q 1 t - pos q (-1) t) / 2 + 2 * s * ((pos q 1 t + pos q (-1) t) / 2 - pos q 0 t).
Proof. unfold pos, Ds. s9. unfold quad9_shape, quad9_deriv; cbn [vx vy]. field. Qed.
Lemma Dt_pos q s t : Dt q s t = (pos q s 1 - pos q s (-1)) / 2 + 2 * t * ((pos q s 1 + pos q s (-1)) / 2 - pos q s 0).
Proof. unfold pos, Dt. s9. unfold quad9_shape, quad9_deriv; cbn [vx vy]. field. Qed.
(** along s: of X dY/dt; along t: of X dY/ds *)
Lemma rule_s X Y a b t : let D s := Ds X s t * Dt Y s t + pos X s t * mixed Y s t in
  (b - a) * (1/2) * D (iso b a (- g)) + (b - a) * (1/2) * D (iso b a g) = pos X b t * Dt Y b t - pos X a t * Dt Y a t.
Proof.
  cbv beta zeta. rewrite !(pos_s X (iso _ _ _)), !(Ds_pos X), !(Dt_s Y (iso _ _ _)). rewrite (pos_s X b), (pos_s X a), (Dt_s Y b), (Dt_s Y a). unfold mixed.
  apply (product_rule (pos X 0 t) ((pos X 1 t - pos X (-1) t) / 2) ((pos X 1 t + pos X (-1) t) / 2 - pos X 0 t)
     (Dt Y 0 t) ((Dt Y 1 t - Dt Y (-1) t) / 2) ((Dt Y 1 t + Dt Y (-1) t) / 2 - Dt Y 0 t) a b).
Qed.
Lemma rule_t X Y c d s : let D t := Dt X s t * Ds Y s t + pos X s t * mixed Y s t in
  (d - c) * (1/2) * D (iso d c (- g)) + (d - c) * (1/2) * D (iso d c g) = pos X s d * Ds Y s d - pos X s c * Ds Y s c.
Proof.
  cbv beta zeta. rewrite !(pos_t X s (iso _ _ _)), !(Dt_pos X), !(Ds_t Y s (iso _ _ _)), !mixed_t. rewrite (pos_t X s d), (pos_t X s c), (Ds_t Y s d), (Ds_t Y s c).
  apply (product_rule (pos X s 0) ((pos X s 1 - pos X s (-1)) / 2) ((pos X s 1 + pos X s (-1)) / 2 - pos X s 0)
     (Ds Y s 0) ((Ds Y s 1 - Ds Y s (-1)) / 2) ((Ds Y s 1 + Ds Y s (-1)) / 2 - Ds Y s 0) c d).
Qed.
(** Green's theorem, discretely, on any box *)
Lemma green X Y a b c d : let s1 := iso b a (- g) in let s2 := iso b a g in let t1 := iso d c (- g) in let t2 := iso d c g in let w := (b - a) * (1/2) in let v := (d - c) * (1/2) in
  v * (w * jac_det X Y s1 t1 + w * jac_det X Y s2 t1) + v * (w * jac_det X Y s1 t2 + w * jac_det X Y s2 t2) =
  v * (pos X b t1 * Dt Y b t1 - pos X a t1 * Dt Y a t1) + v * (pos X b t2 * Dt Y b t2 - pos X a t2 * Dt Y a t2)
  - w * (pos X s1 d * Ds Y s1 d - pos X s1 c * Ds Y s1 c) - w * (pos X s2 d * Ds Y s2 d - pos X s2 c * Ds Y s2 c).
Proof.
  cbv zeta. rewrite <- !rule_s, <- !rule_t. cbv beta zeta.
  assert (J : forall s t, jac_det X Y s t = (Ds X s t * Dt Y s t + pos X s t * mixed Y s t) - (Dt X s t * Ds Y s t + pos X s t * mixed Y s t)) by (intros; unfold jac_det; cbv zeta; fold (Ds X s t) (Ds Y s t) (Dt X s t) (Dt Y s t); ring).
  rewrite !J. ring.
Qed.
Definition box_det (X Y : nat -> R) (k l : nat) : R := let pt i j := jac_det X Y (gauss_loc k i) (gauss_loc l j) in
  weight1 l 0 * (weight1 k 0 * pt 0%nat 0%nat + weight1 k 1 * pt 1%nat 0%nat) + weight1 l 1 * (weight1 k 0 * pt 0%nat 1%nat + weight1 k 1 * pt 1%nat 1%nat).
Lemma centre_points (T : bool*nat*nat*nat -> R) :
  fold_right (fun p a => ((if Nat.eqb (scs_left p) 8 then 1 else 0) - (if Nat.eqb (scs_right p) 8 then 1 else 0)) * T p + a) 0 scs_points =
  - (T (true,0,1,0)%nat + T (true,0,1,1)%nat + T (true,1,1,0)%nat + T (true,1,1,1)%nat + T (false,0,1,0)%nat + T (false,0,1,1)%nat + T (false,1,1,0)%nat + T (false,1,1,1)%nat).
Proof. cbn. ring. Qed.
Lemma face_sum_T x y n f c : face_sum x y n f c =
  fold_right (fun p a => ((if Nat.eqb (scs_left p) n then 1 else 0) - (if Nat.eqb (scs_right p) n then 1 else 0)) * (f (fst (scs_st p)) (snd (scs_st p)) * c (scs_area x y p)) + a) 0 scs_points.
Proof. unfold face_sum. induction scs_points as [|p r IH]; [reflexivity|]. cbn [fold_right]. rewrite IH. ring. Qed.
Lemma area_fst x y dir m l j : fst (scs_area x y (dir,m,l,j)) = (if dir then Ds y (gauss_loc l j) (scs_loc m) * orientation m else - Dt y (scs_loc m) (gauss_loc l j) * orientation m) * weight1 l j.
Proof. unfold scs_area, area_vector, scs_st, scs_weight. cbv zeta. cbn [fst snd]. destruct dir; unfold Ds, Dt; cbn [fst snd]; ring. Qed.
Lemma area_snd x y dir m l j : snd (scs_area x y (dir,m,l,j)) = - ((if dir then Ds x (gauss_loc l j) (scs_loc m) * orientation m else - Dt x (scs_loc m) (gauss_loc l j) * orientation m) * weight1 l j).
Proof. unfold scs_area, area_vector, scs_st, scs_weight. cbv zeta. cbn [fst snd]. destruct dir; unfold Ds, Dt; cbn [fst snd]; ring. Qed.
Lemma centre_green X Y : box_det X Y 1 1 =
  let e (dir : bool) m j := (if dir then pos X (gauss_loc 1 j) (scs_loc m) * (Ds Y (gauss_loc 1 j) (scs_loc m) * orientation m) else pos X (scs_loc m) (gauss_loc 1 j) * (- Dt Y (scs_loc m) (gauss_loc 1 j) * orientation m)) * weight1 1 j in
  - (e true 0%nat 0%nat + e true 0%nat 1%nat + e true 1%nat 0%nat + e true 1%nat 1%nat + e false 0%nat 0%nat + e false 0%nat 1%nat + e false 1%nat 0%nat + e false 1%nat 1%nat).
Proof.
  pose proof (green X Y (scs_end 1) (scs_end 2) (scs_end 1) (scs_end 2)) as H. cbv zeta in H.
  cbv beta zeta. unfold box_det. cbv beta zeta. unfold weight1, gauss_weight, gauss_loc, gauss_abscissa. cbn [Nat.add]. rewrite H. cbn [scs_loc orientation scs_end]. ring.
Qed.
Lemma volume_det x y k l : (k < 3)%nat -> (l < 3)%nat -> node_volume x y (node_at k l) = box_det x y k l.
Proof. intros Hk Hl. rewrite C111_volume_exact by assumption. unfold box_area. rewrite box_rule, !cut_is. unfold box_det, weight1, gauss_weight, gauss_loc, gauss_abscissa. cbv zeta. ring. Qed.
(** summed over the middle node's faces, the values of an interpolated field times the area vector give the field's gradient times the volume,
    exactly, for every linear field: with unit field the faces close, with the coordinates they give the volume *)
Theorem C111_green_gauss : forall x y a b c, let q n := a * x n + b * y n + c in
  face_sum x y 8 (pos q) fst = a * node_volume x y 8 /\ face_sum x y 8 (pos q) snd = b * node_volume x y 8.
Proof.
  intros x y a b c q. change 8%nat with (node_at 1 1) at 2 4. rewrite volume_det by lia.
  assert (L : forall Y s t, jac_det q Y s t = a * jac_det x Y s t + b * jac_det y Y s t).
  { intros Y s t. unfold jac_det. cbv zeta. pose proof (unity_d s t 0) as U0. pose proof (unity_d s t 1) as U1.
    assert (E : forall d, sumn 9 (fun n => quad9_deriv (V s t 0) n d * q n) = a * sumn 9 (fun n => quad9_deriv (V s t 0) n d * x n) + b * sumn 9 (fun n => quad9_deriv (V s t 0) n d * y n) + c * sumn 9 (fun n => quad9_deriv (V s t 0) n d)).
    { intros d. unfold q. generalize (quad9_deriv (V s t 0)). intros w. s9. ring. }
    rewrite !E, U0, U1. ring. }
  split.
  - rewrite face_sum_T, centre_points, !area_fst. cbv iota.
    transitivity (box_det q y 1 1).
    + rewrite centre_green. cbv beta zeta iota. unfold scs_st. cbn [fst snd]. ring.
    + unfold box_det. cbv beta zeta. rewrite !L. unfold jac_det. cbv zeta. ring.
  - rewrite face_sum_T, centre_points, !area_snd. cbv iota.
    transitivity (- box_det q x 1 1).
    + rewrite centre_green. cbv beta zeta iota. unfold scs_st. cbn [fst snd]. ring.
    + unfold box_det. cbv beta zeta. rewrite !L. unfold jac_det. cbv zeta. ring.
Qed.
(** on the reference element the sum for the field x is the 4/3 of its middle volume *)
Theorem C111_green_gauss_nonvacuous : face_sum ref_x ref_y 8 (pos (fun n => 1 * ref_x n + 0 * ref_y n + 0)) fst = 4/3.
Proof. rewrite (proj1 (C111_green_gauss ref_x ref_y 1 0 0)). rewrite (proj1 (proj2 (proj2 C111_nonvacuous))). ring. Qed.
