(** C111, the whole element: with the side element's area vectors every node's volume is closed and Green-Gauss is exact. *)
Require Import Reals List Arith Lra Lia.
From Verif Require Import RUtil Edge_Model Edge_Proofs ME_Model ME_Shape_Model QuadP2_Model QuadP2_Props QuadP2_Props2 QuadP2_Props3.
Import ListNotations.
Open Scope R_scope.

(** Specification: what the four sides contribute to a node: value at the side point times the area vector (which points outwards) *)
Definition at_side (q : nat -> R) (f m : nat) : R := q (side_ordinal f m).
Definition side_points : list (nat * nat * nat) := flat_map (fun f => flat_map (fun r => map (fun j => (f, r, j)) [0;1]%nat) [0;1;2]%nat) [0;1;2;3]%nat.
Definition side_sum (x y : nat -> R) (n : nat) (q : nat -> R) (c : R * R -> R) : R :=
  fold_right (fun (p : nat * nat * nat) a => let '(f, r, j) := p in
    (if Nat.eqb (side_ordinal f (edge3_node r)) n then edge3_value (at_side q f) (gauss_loc r j) * c (edge3_area (at_side x f) (at_side y f) r j) else 0) + a) 0 side_points.

(** the side element follows the quadrilateral's side *)
Theorem C111_side_element : forall q f s, (f < 4)%nat -> edge3_value (at_side q f) s = pos q (fst (along f s)) (snd (along f s)).
Proof. intros q f s H. unfold edge3_value, at_side, pos. s9. unfold quad9_shape; cbn [vx vy]. destruct f as [|[|[|[|f]]]]; try lia; cbn; field. Qed.
Lemma gl_neg r j : (r < 3)%nat -> (j < 2)%nat -> - gauss_loc r j = gauss_loc (2 - r) (1 - j).
Proof. intros Hr Hj. unfold gauss_loc, iso. destruct r as [|[|[|r]]]; try lia; destruct j as [|[|j]]; try lia; cbn; unfold scs_dist; field. Qed.
Definition slope (Y : nat -> R) (f : nat) (s : R) : R :=
  match f with 0%nat => Ds Y s (-1) | 1%nat => Dt Y 1 s | 2%nat => - Ds Y (- s) 1 | _ => - Dt Y (-1) (- s) end.
Lemma slope_is Y f s : (f < 4)%nat -> 1/2 * (at_side Y f 1 - at_side Y f 0) + (at_side Y f 1 - 2 * at_side Y f 2 + at_side Y f 0) * s = slope Y f s.
Proof. intros H. unfold slope, at_side, Ds, Dt. s9. unfold quad9_deriv; cbn [vx vy]. destruct f as [|[|[|[|f]]]]; try lia; cbn; field. Qed.
Definition eI (Y : nat -> R) (p : bool*nat*nat*nat) : R := let '(dir,m,l,j) := p in (if dir then Ds Y (gauss_loc l j) (scs_loc m) * orientation m else - Dt Y (scs_loc m) (gauss_loc l j) * orientation m) * weight1 l j.
Definition tI (X Y : nat -> R) (p : bool*nat*nat*nat) : R := pos X (fst (scs_st p)) (snd (scs_st p)) * eI Y p.
Definition tS (X Y : nat -> R) (p : nat*nat*nat) : R := let '(f,r,j) := p in pos X (fst (along f (gauss_loc r j))) (snd (along f (gauss_loc r j))) * (weight1 r j * slope Y f (gauss_loc r j)).
Definition sumI (T : bool*nat*nat*nat -> R) (n : nat) := fold_right (fun p a => ((if Nat.eqb (scs_left p) n then 1 else 0) - (if Nat.eqb (scs_right p) n then 1 else 0)) * T p + a) 0 scs_points.
Definition sumS (T : nat*nat*nat -> R) (n : nat) := fold_right (fun (p : nat * nat * nat) a => (let '(f, r, j) := p in if Nat.eqb (side_ordinal f (edge3_node r)) n then T p else 0) + a) 0 side_points.
Lemma box_green X Y k l : box_det X Y k l =
  let a := scs_end k in let b := scs_end (k+1) in let c := scs_end l in let d := scs_end (l+1) in
  let R_ s j := weight1 l j * (pos X s (gauss_loc l j) * Dt Y s (gauss_loc l j)) in let U t j := weight1 k j * (pos X (gauss_loc k j) t * Ds Y (gauss_loc k j) t) in
  (R_ b 0%nat + R_ b 1%nat) - (R_ a 0%nat + R_ a 1%nat) - (U d 0%nat + U d 1%nat) + (U c 0%nat + U c 1%nat).
Proof.
  pose proof (green X Y (scs_end k) (scs_end (k+1)) (scs_end l) (scs_end (l+1))) as H. cbv zeta in H. cbv beta zeta. unfold box_det. cbv beta zeta.
  unfold weight1, gauss_weight, gauss_loc, gauss_abscissa. rewrite H. ring.
Qed.
Lemma w_sym r j j' : (r < 3)%nat -> weight1 (2 - r) j = weight1 r j'.
Proof. intros H. unfold weight1, gauss_weight. destruct r as [|[|[|r]]]; try lia; cbn; unfold scs_dist; field. Qed.
Lemma box_total X Y k l : (k < 3)%nat -> (l < 3)%nat -> sumI (tI X Y) (node_at k l) + sumS (tS X Y) (node_at k l) = box_det X Y k l.
Proof.
  intros Hk Hl. rewrite box_green. cbv beta zeta.
  assert (N : forall r j, (r < 3)%nat -> (j < 2)%nat -> - gauss_loc r j = gauss_loc (2 - r) (1 - j)) by (intros; apply gl_neg; assumption).
  assert (W1 : forall r, weight1 r 1 = weight1 r 0) by reflexivity.
  assert (W2 : weight1 2 0 = weight1 0 0) by (apply (w_sym 0 0 0); lia).
  assert (GI : forall T n, (forall p, T p = tI X Y p) -> sumI (tI X Y) n = sumI T n) by (intros T n H; unfold sumI; induction scs_points as [|p r IH]; [reflexivity|]; cbn [fold_right]; rewrite IH, H; reflexivity).
  assert (GS : forall T n, (forall p, T p = tS X Y p) -> sumS (tS X Y) n = sumS T n) by (intros T n H; unfold sumS; induction side_points as [|[[f r] j] rr IH]; [reflexivity|]; cbn [fold_right]; rewrite IH, H; reflexivity).
  assert (EI : exists T, forall p, T p = tI X Y p) by (exists (tI X Y); reflexivity). destruct EI as (TI & EI).
  assert (ES : exists T, forall p, T p = tS X Y p) by (exists (tS X Y); reflexivity). destruct ES as (TS & ES).
  rewrite (GI TI) by exact EI. rewrite (GS TS) by exact ES. clear GI GS. unfold sumI, sumS.
  destruct k as [|[|[|k]]]; try lia; destruct l as [|[|[|l]]]; try lia.
  all: cbn -[Rplus Rmult Rminus Ropp gauss_loc weight1 scs_dist pos Ds Dt]; rewrite ?EI, ?ES; unfold tI, tS, eI, slope; cbn [fst snd along scs_st scs_loc orientation]; rewrite ?N by lia; cbn [Nat.sub]; rewrite ?W1, ?W2; try ring.
Qed.
Lemma edge3_fst x y f r j : (f < 4)%nat -> fst (edge3_area (at_side x f) (at_side y f) r j) = weight1 r j * slope y f (gauss_loc r j).
Proof. intros H. unfold edge3_area, edge3_area_vector. cbn [fst snd]. rewrite (slope_is y f _ H). reflexivity. Qed.
Lemma edge3_snd x y f r j : (f < 4)%nat -> snd (edge3_area (at_side x f) (at_side y f) r j) = - (weight1 r j * slope x f (gauss_loc r j)).
Proof. intros H. unfold edge3_area, edge3_area_vector. cbn [fst snd]. rewrite (slope_is x f _ H). ring. Qed.
Lemma face_fst x y q n : face_sum x y n (pos q) fst = sumI (tI q y) n.
Proof.
  rewrite face_sum_T. unfold sumI. induction scs_points as [|[[[dir m] l] j] rr IH]; [reflexivity|]. cbn [fold_right]. rewrite IH, area_fst. unfold tI, eI. reflexivity.
Qed.
Lemma sumI_opp T n : sumI (fun p => - T p) n = - sumI T n.
Proof. unfold sumI. induction scs_points as [|p rr IH]; cbn [fold_right]; [ring|]. rewrite IH. ring. Qed.
Lemma sumS_opp T n : sumS (fun p => - T p) n = - sumS T n.
Proof. unfold sumS. induction side_points as [|[[f r] j] rr IH]; cbn [fold_right]; [ring|]. rewrite IH. destruct (Nat.eqb _ _); ring. Qed.
Lemma face_snd x y q n : face_sum x y n (pos q) snd = - sumI (tI q x) n.
Proof.
  rewrite face_sum_T, <- sumI_opp. unfold sumI. induction scs_points as [|[[[dir m] l] j] rr IH]; [reflexivity|]. cbn [fold_right]. rewrite IH, area_snd. unfold tI, eI. ring.
Qed.
Lemma sides_lt : Forall (fun p : nat*nat*nat => (fst (fst p) < 4)%nat) side_points.
Proof. apply Forall_forall. intros [[f r] j] H. unfold side_points in H. apply in_flat_map in H. destruct H as (f' & Hf & H). apply in_flat_map in H. destruct H as (r' & Hr & H). apply in_map_iff in H. destruct H as (j' & E & Hj). injection E as <- <- <-. cbn in Hf |- *. lia. Qed.
Lemma side_fst x y q n : side_sum x y n q fst = sumS (tS q y) n.
Proof.
  unfold side_sum, sumS. pose proof sides_lt as S. induction S as [|[[f r] j] rr H S IH]; [reflexivity|]. cbn [fold_right]. rewrite IH. cbn [fst] in H. rewrite edge3_fst, C111_side_element by exact H. reflexivity.
Qed.
Lemma side_snd x y q n : side_sum x y n q snd = - sumS (tS q x) n.
Proof.
  rewrite <- sumS_opp. unfold side_sum, sumS. pose proof sides_lt as S. induction S as [|[[f r] j] rr H S IH]; [reflexivity|]. cbn [fold_right]. rewrite IH. cbn [fst] in H. rewrite edge3_snd, C111_side_element by exact H.
  unfold tS. destruct (Nat.eqb _ _); ring.
Qed.
(** for every node of any element, curved or not: the interior faces and the sides together give a linear field's gradient times the node's volume *)
Theorem C111_green_gauss_every_node : forall x y a b c k l, (k < 3)%nat -> (l < 3)%nat -> let n := node_at k l in let q m := a * x m + b * y m + c in
  face_sum x y n (pos q) fst + side_sum x y n q fst = a * node_volume x y n /\ face_sum x y n (pos q) snd + side_sum x y n q snd = b * node_volume x y n.
Proof.
  intros x y a b c k l Hk Hl n q.
  assert (L : forall Y s t, jac_det q Y s t = a * jac_det x Y s t + b * jac_det y Y s t).
  { intros Y s t. unfold jac_det. cbv zeta. pose proof (unity_d s t 0) as U0. pose proof (unity_d s t 1) as U1.
    assert (E : forall d, sumn 9 (fun n => quad9_deriv (V s t 0) n d * q n) = a * sumn 9 (fun n => quad9_deriv (V s t 0) n d * x n) + b * sumn 9 (fun n => quad9_deriv (V s t 0) n d * y n) + c * sumn 9 (fun n => quad9_deriv (V s t 0) n d)).
    { intros d. unfold q. generalize (quad9_deriv (V s t 0)). intros w. s9. ring. }
    rewrite !E, U0, U1. ring. }
  unfold n. rewrite volume_det by assumption. split.
  - rewrite face_fst, side_fst, box_total by assumption. unfold box_det. cbv beta zeta. rewrite !L. unfold jac_det. cbv zeta. ring.
  - rewrite face_snd, side_snd. transitivity (- (sumI (tI q x) (node_at k l) + sumS (tS q x) (node_at k l))); [ring|]. rewrite box_total by assumption. unfold box_det. cbv beta zeta. rewrite !L. unfold jac_det. cbv zeta. ring.
Qed.
(** with the unit field: every node's volume is closed by its faces and its part of the sides *)
Theorem C111_every_node_closed : forall x y k l, (k < 3)%nat -> (l < 3)%nat -> let n := node_at k l in
  face_sum x y n (fun _ _ => 1) fst + side_sum x y n (fun _ => 1) fst = 0 /\ face_sum x y n (fun _ _ => 1) snd + side_sum x y n (fun _ => 1) snd = 0.
Proof.
  intros x y k l Hk Hl n. destruct (C111_green_gauss_every_node x y 0 0 1 k l Hk Hl) as [A B]. fold n in A, B.
  assert (P : forall s t, pos (fun m => 0 * x m + 0 * y m + 1) s t = 1) by (intros; unfold pos; s9; unfold quad9_shape; cbn [vx vy]; field).
  assert (F : forall c, face_sum x y n (pos (fun m => 0 * x m + 0 * y m + 1)) c = face_sum x y n (fun _ _ => 1) c) by (intros; unfold face_sum; induction scs_points as [|p r IH]; [reflexivity|]; cbn [fold_right]; rewrite IH, P; reflexivity).
  assert (E : forall f s, edge3_value (at_side (fun m => 0 * x m + 0 * y m + 1) f) s = edge3_value (at_side (fun _ => 1) f) s) by (intros; unfold edge3_value, at_side; ring).
  assert (S : forall c, side_sum x y n (fun m => 0 * x m + 0 * y m + 1) c = side_sum x y n (fun _ => 1) c) by (intros; unfold side_sum; induction side_points as [|[[f r] j] rr IH]; [reflexivity|]; cbn [fold_right]; rewrite IH, E; reflexivity).
  rewrite !F, !S in A, B. split; lra.
Qed.
(** handed more than one side at a time, the side element writes the second one's area vectors over the first one's: it strides by the number of
    nodes instead of the number of points (the callers in the code pass one at a time) *)
Theorem C111_several_sides_refuted : edge3_offset 0 3 = edge3_offset 1 0 /\ (forall ip ip', edge3_offset 0 ip = edge3_offset 0 ip' -> ip = ip').
Proof. split; [reflexivity|]. unfold edge3_offset. intros. lia. Qed.
Theorem C111_every_node_nonvacuous : side_sum ref_x ref_y 4 (fun _ => 1) snd = - (2 / sqrt 3) /\ face_sum ref_x ref_y 4 (fun _ _ => 1) snd = 2 / sqrt 3.
Proof.
  pose proof (proj2 (C111_every_node_closed ref_x ref_y 1 0 ltac:(lia) ltac:(lia))) as H. change (node_at 1 0) with 4%nat in H.
  assert (S : side_sum ref_x ref_y 4 (fun _ => 1) snd = - (2 / sqrt 3)).
  { unfold Rdiv. replace (2 * / sqrt 3) with (2 * (1 / sqrt 3)) by (unfold Rdiv; ring). rewrite g_inv. unfold side_sum. cbn -[gauss_loc sqrt]. unfold edge3_value, at_side. cbn -[gauss_loc sqrt]. unfold weight1, gauss_weight. cbn -[gauss_loc sqrt]. unfold scs_dist. field. }
  split; [exact S|]. rewrite S in H. lra.
Qed.
(** any nodal field, not only linear ones: faces and sides together give the volume-weighted sum of the gradients of the interpolated field at the
    node's four volume points, as the gradient operator computes them *)
Theorem C111_green_gauss_any_field : forall small x y q k l, (k < 3)%nat -> (l < 3)%nat -> 0 <= small ->
  (forall i j, (i < 2)%nat -> (j < 2)%nat -> small < jac x y (gauss_loc k i) (gauss_loc l j)) -> let n := node_at k l in
  let grad c i j := sumn 9 (fun m => gradient_operator small x y (fun n d => quad9_deriv (V (gauss_loc k i) (gauss_loc l j) 0) n d) m c * q m) in
  let avg c := sumn 2 (fun j => sumn 2 (fun i => scv_volume x y (k, l, i, j) * grad c i j)) in
  face_sum x y n (pos q) fst + side_sum x y n q fst = avg 0%nat /\ face_sum x y n (pos q) snd + side_sum x y n q snd = avg 1%nat.
Proof.
  intros small x y q k l Hk Hl S J n grad avg.
  assert (G : forall i j, (i < 2)%nat -> (j < 2)%nat -> jac_det x y (gauss_loc k i) (gauss_loc l j) * grad 0%nat i j = jac_det q y (gauss_loc k i) (gauss_loc l j) /\
    jac_det x y (gauss_loc k i) (gauss_loc l j) * grad 1%nat i j = - jac_det q x (gauss_loc k i) (gauss_loc l j)).
  { intros i j Hi Hj. specialize (J i j Hi Hj). rewrite jac_is in J. unfold grad, gradient_operator, jac_det in *. cbv zeta in *.
    set (s := gauss_loc k i) in *. set (t := gauss_loc l j) in *.
    set (X0 := sumn 9 (fun n => quad9_deriv (V s t 0) n 0 * x n)) in *. set (X1 := sumn 9 (fun n => quad9_deriv (V s t 0) n 1 * x n)) in *.
    set (Y0 := sumn 9 (fun n => quad9_deriv (V s t 0) n 0 * y n)) in *. set (Y1 := sumn 9 (fun n => quad9_deriv (V s t 0) n 1 * y n)) in *.
    destruct (Rlt_dec small (X0 * Y1 - Y0 * X1)) as [_|N]; [|contradiction]. assert (NZ : X0 * Y1 - Y0 * X1 <> 0) by lra.
    assert (E : forall A B, sumn 9 (fun n => (quad9_deriv (V s t 0) n 0 * A + quad9_deriv (V s t 0) n 1 * B) * q n) = A * sumn 9 (fun n => quad9_deriv (V s t 0) n 0 * q n) + B * sumn 9 (fun n => quad9_deriv (V s t 0) n 1 * q n)).
    { intros A B. generalize (quad9_deriv (V s t 0)). intros w. s9. ring. }
    rewrite !E. split; field; exact NZ. }
  split.
  - unfold n. rewrite face_fst, side_fst, box_total by assumption. unfold avg. s9. unfold box_det, scv_volume, weight2, weight1. cbv beta zeta.
    rewrite <- !(fun i j Hi Hj => proj1 (G i j Hi Hj)) by lia. ring.
  - unfold n. rewrite face_snd, side_snd. transitivity (- (sumI (tI q x) (node_at k l) + sumS (tS q x) (node_at k l))); [ring|]. rewrite box_total by assumption.
    unfold avg. s9. unfold box_det, scv_volume, weight2, weight1. cbv beta zeta.
    assert (G1 : forall i j, (i < 2)%nat -> (j < 2)%nat -> jac_det q x (gauss_loc k i) (gauss_loc l j) = - (jac_det x y (gauss_loc k i) (gauss_loc l j) * grad 1%nat i j)) by (intros i j Hi Hj; rewrite (proj2 (G i j Hi Hj)); ring).
    rewrite !G1 by lia. ring.
Qed.
