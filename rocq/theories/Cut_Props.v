(** C78: overset hole cutting and donor search *)
Require Import Reals List Bool Arith Lra Lia Permutation Sorted.
From Verif Require Import Edge_Model Edge_Proofs Motion_Model Motion_Props Motion_Props2 Motion_Props3 Cut_Model.
From Verif Require Sum_Proofs.
Import ListNotations.
Open Scope R_scope.

(** ** specification *)
Definition in_box (b : box) (p : v3) : Prop :=
  vx (fst b) <= vx p <= vx (snd b) /\ vy (fst b) <= vy p <= vy (snd b) /\ vz (fst b) <= vz p <= vz (snd b).
Definition strictly_in_box (b : box) (p : v3) : Prop :=
  vx (fst b) < vx p < vx (snd b) /\ vy (fst b) < vy p < vy (snd b) /\ vz (fst b) < vz p < vz (snd b).
(** right circular cylinder of radius r around the axis of the box through its centre, capped by the box *)
Definition in_cylinder (axial : nat) (b : box) (r : R) (p : v3) : Prop :=
  let c := V3 ((vx (fst b) + vx (snd b))/2) ((vy (fst b) + vy (snd b))/2) ((vz (fst b) + vz (snd b))/2) in
  match axial with
  | 0%nat => (vy p - vy c)^2 + (vz p - vz c)^2 < r^2 /\ vx (fst b) < vx p < vx (snd b)
  | 1%nat => (vx p - vx c)^2 + (vz p - vz c)^2 < r^2 /\ vy (fst b) < vy p < vy (snd b)
  | _ => (vx p - vx c)^2 + (vy p - vy c)^2 < r^2 /\ vz (fst b) < vz p < vz (snd b) end.
Definition origin := V3 0 0 0.

(** ** the reduced box *)
Theorem C78_reduced_box p lo hi : 0 <= p <= 50 -> lo <= hi ->
  let r := reduce1 p lo hi in lo <= fst r /\ fst r <= snd r /\ snd r <= hi /\ fst r - lo = (hi - lo)*(p/100) /\ hi - snd r = (hi - lo)*(p/100).
Proof.
  intros Hp Hl. unfold reduce1. cbv zeta. cbn [fst snd].
  assert (0 <= (hi - lo)*p <= (hi-lo)*50) by (split; [apply Rmult_le_pos; lra|apply Rmult_le_compat_l; lra]).
  replace ((hi + - lo - (lo + - lo)) * p / 100) with (((hi - lo)*p)/100) by (unfold Rdiv; ring).
  replace ((hi - lo)*(p/100)) with (((hi-lo)*p)/100) by (unfold Rdiv; ring). set (d := (hi-lo)*p) in *. repeat split; lra.
Qed.
Lemma min_of_le f l p : In p l -> min_of f l <= f p.
Proof. intros H. unfold min_of. destruct (fold_min_spec (map f l) (10^16)) as (_ & B & _). apply B, in_map, H. Qed.
Lemma max_of_ge f l p : In p l -> f p <= max_of f l.
Proof. intros H. unfold max_of. destruct (fold_max_spec (map f l) (-(10^16))) as (_ & B & _). apply B, in_map, H. Qed.
Lemma elem_box_contains pts p : In p pts -> in_box (elem_box pts) p.
Proof. intros H. unfold in_box, elem_box. cbn [fst snd vx vy vz]. repeat split; auto using min_of_le, max_of_ge. Qed.
(** The overset box contains the nodes of all ranks ... *)
Theorem C78_overset_box_contains ranks l p : In l ranks -> In p l -> in_box (overset_box ranks) p.
Proof.
  intros Hl Hp.
  assert (MN : forall f : v3 -> R, all_reduce Rmin (map (fun l => min_of f l) ranks) <= f p).
  { intros f. destruct (all_reduce_min (map (fun l => min_of f l) ranks)) as [_ B]; [destruct ranks; [destruct Hl|discriminate]|]. cbv zeta in B.
    eapply Rle_trans; [apply B; apply (in_map (fun l => min_of f l)), Hl|apply min_of_le, Hp]. }
  assert (MX : forall f : v3 -> R, f p <= all_reduce Rmax (map (fun l => max_of f l) ranks)).
  { intros f. destruct (all_reduce_max (map (fun l => max_of f l) ranks)) as [_ B]; [destruct ranks; [destruct Hl|discriminate]|]. cbv zeta in B.
    eapply Rle_trans; [apply max_of_ge, Hp|apply B; apply (in_map (fun l => max_of f l)), Hl]. }
  unfold in_box, overset_box. cbn [fst snd vx vy vz]. repeat split; auto.
Qed.
(** ... and a face of it touches one, so it does not depend on the decomposition. *)
Theorem C78_overset_box_tight ranks b : concat ranks <> [] -> (forall p, In p (concat ranks) -> in_box b p) ->
  (forall p, In p (concat ranks) -> Rabs (vx p) <= 10^16 /\ Rabs (vy p) <= 10^16 /\ Rabs (vz p) <= 10^16) ->
  let o := overset_box ranks in
  vx (fst b) <= vx (fst o) /\ vy (fst b) <= vy (fst o) /\ vz (fst b) <= vz (fst o) /\ vx (snd o) <= vx (snd b) /\ vy (snd o) <= vy (snd b) /\ vz (snd o) <= vz (snd b).
Proof.
  intros NE HB HR. cbv zeta. unfold overset_box. cbn [fst snd vx vy vz].
  assert (NR : ranks <> []) by (intros ->; apply NE; reflexivity).
  destruct (concat ranks) as [|p0 tl] eqn:EC; [congruence|]. assert (P0 : In p0 (concat ranks)) by (rewrite EC; now left). rewrite <- EC in *. clear EC tl NE.
  assert (MN : forall (f : v3 -> R) lo, (forall p, In p (concat ranks) -> lo <= f p /\ f p <= 10^16) -> lo <= all_reduce Rmin (map (fun l => min_of f l) ranks)).
  { intros f lo H. destruct (all_reduce_min (map (fun l => min_of f l) ranks)) as [A _]; [destruct ranks; [congruence|discriminate]|]. cbv zeta in A.
    apply in_map_iff in A. destruct A as (l & E & Hl). rewrite <- E. unfold min_of. destruct (fold_min_spec (map f l) (10^16)) as (_ & _ & [C|C]); cbv zeta in C.
    - rewrite C. destruct (H p0 P0). lra.
    - apply in_map_iff in C. destruct C as (p & C & Hp). rewrite <- C. apply H. apply in_concat. eauto. }
  assert (MX : forall (f : v3 -> R) hi, (forall p, In p (concat ranks) -> f p <= hi /\ -(10^16) <= f p) -> all_reduce Rmax (map (fun l => max_of f l) ranks) <= hi).
  { intros f hi H. destruct (all_reduce_max (map (fun l => max_of f l) ranks)) as [A _]; [destruct ranks; [congruence|discriminate]|]. cbv zeta in A.
    apply in_map_iff in A. destruct A as (l & E & Hl). rewrite <- E. unfold max_of. destruct (fold_max_spec (map f l) (-(10^16))) as (_ & _ & [C|C]); cbv zeta in C.
    - rewrite C. destruct (H p0 P0). lra.
    - apply in_map_iff in C. destruct C as (p & C & Hp). rewrite <- C. apply H. apply in_concat. eauto. }
  assert (AB : forall x, Rabs x <= 10^16 -> -(10^16) <= x <= 10^16) by (intros x Hx; pose proof (Rle_abs x); pose proof (Rle_abs (-x)); rewrite Rabs_Ropp in *; lra).
  repeat split; try (apply MN; intros p Hp; destruct (HB p Hp) as (B1 & B2 & B3); destruct (HR p Hp) as (R1 & R2 & R3); apply AB in R1, R2, R3; lra);
    apply MX; intros p Hp; destruct (HB p Hp) as (B1 & B2 & B3); destruct (HR p Hp) as (R1 & R2 & R3); apply AB in R1, R2, R3; lra.
Qed.

(** ** axis-aligned cutting *)
Lemma boxes_meet_spec a b : boxes_meet a b = true <->
  (vx (fst a) <= vx (snd b) /\ vx (fst b) <= vx (snd a)) /\ (vy (fst a) <= vy (snd b) /\ vy (fst b) <= vy (snd a)) /\ (vz (fst a) <= vz (snd b) /\ vz (fst b) <= vz (snd a)).
Proof.
  unfold boxes_meet. repeat match goal with |- context [Rle_dec ?x ?y] => destruct (Rle_dec x y) end; cbn [andb]; intuition (try discriminate; try lra).
Qed.
Lemma common_point_meet a b p : in_box a p -> in_box b p -> boxes_meet a b = true.
Proof. intros (A1 & A2 & A3) (B1 & B2 & B3). apply boxes_meet_spec. lra. Qed.
(** With the axis-aligned shape every element that reaches into the reduced box is cut. *)
Theorem C78_aabb_cuts_everything_inside coarse model cen disp ang pts p : In p pts -> in_box coarse p -> cut_element Aabb coarse model cen disp ang pts = true.
Proof. intros H B. unfold cut_element. rewrite andb_true_r. apply (common_point_meet _ _ p B). apply elem_box_contains, H. Qed.
(** All nodes of a cut element - in particular those of the exposed surface, which need donors - lie within the overset box as
    long as no background element is larger than the overlap left around the reduced box. *)
Theorem C78_cut_nodes_stay_inside b percent cen disp ang pts p : 0 <= percent <= 50 ->
  vx (fst b) <= vx (snd b) -> vy (fst b) <= vy (snd b) -> vz (fst b) <= vz (snd b) ->
  (forall p' q', In p' pts -> In q' pts -> vx p' - vx q' <= (vx (snd b) - vx (fst b))*(percent/100) /\ vy p' - vy q' <= (vy (snd b) - vy (fst b))*(percent/100) /\ vz p' - vz q' <= (vz (snd b) - vz (fst b))*(percent/100)) ->
  (forall p', In p' pts -> Rabs (vx p') <= 10^16 /\ Rabs (vy p') <= 10^16 /\ Rabs (vz p') <= 10^16) ->
  In p pts -> cut_element Aabb (reduce_box percent b) (reduce_box percent b) cen disp ang pts = true -> in_box b p.
Proof.
  intros Hp Lx Ly Lz SZ RG Hin C. unfold cut_element in C. rewrite andb_true_r in C. apply boxes_meet_spec in C.
  destruct b as [lo hi]. cbn [fst snd] in *. unfold reduce_box in C. cbn [fst snd vx vy vz] in C.
  destruct (C78_reduced_box percent (vx lo) (vx hi) Hp Lx) as (X1 & X2 & X3 & X4 & X5). destruct (C78_reduced_box percent (vy lo) (vy hi) Hp Ly) as (Y1 & Y2 & Y3 & Y4 & Y5).
  destruct (C78_reduced_box percent (vz lo) (vz hi) Hp Lz) as (Z1 & Z2 & Z3 & Z4 & Z5).
  set (rx := reduce1 percent (vx lo) (vx hi)) in *. set (ry := reduce1 percent (vy lo) (vy hi)) in *. set (rz := reduce1 percent (vz lo) (vz hi)) in *.
  assert (AB : forall x, Rabs x <= 10^16 -> -(10^16) <= x <= 10^16) by (intros x Hx; pose proof (Rle_abs x); pose proof (Rle_abs (-x)); rewrite Rabs_Ropp in *; lra).
  assert (ATT : forall f : v3 -> R, (forall p', In p' pts -> -(10^16) <= f p' <= 10^16) -> (exists a, In a pts /\ min_of f pts = f a) /\ (exists a, In a pts /\ max_of f pts = f a)).
  { intros f H. split.
    - unfold min_of. destruct (fold_min_spec (map f pts) (10^16)) as (_ & B & [E|E]); cbv zeta in *.
      + exists p. split; [exact Hin|]. rewrite E in B |- *. pose proof (B (f p) (in_map f _ _ Hin)). specialize (H p Hin). lra.
      + apply in_map_iff in E. destruct E as (a & E & Ha). exists a. split; [exact Ha|]. symmetry. exact E.
    - unfold max_of. destruct (fold_max_spec (map f pts) (-(10^16))) as (_ & B & [E|E]); cbv zeta in *.
      + exists p. split; [exact Hin|]. rewrite E in B |- *. pose proof (B (f p) (in_map f _ _ Hin)). specialize (H p Hin). lra.
      + apply in_map_iff in E. destruct E as (a & E & Ha). exists a. split; [exact Ha|]. symmetry. exact E. }
  destruct (ATT vx) as [(ax & Ax & Ex) (bx & Bx & Fx)]; [intros p' H'; apply AB; apply RG; exact H'|].
  destruct (ATT vy) as [(ay & Ay & Ey) (by_ & By & Fy)]; [intros p' H'; apply AB; apply RG; exact H'|].
  destruct (ATT vz) as [(az & Az & Ez) (bz & Bz & Fz)]; [intros p' H'; apply AB; apply RG; exact H'|].
  unfold elem_box in C. cbn [fst snd vx vy vz] in C. rewrite Ex, Fx, Ey, Fy, Ez, Fz in C.
  destruct (SZ p ax Hin Ax) as (S1 & _ & _). destruct (SZ bx p Bx Hin) as (S2 & _ & _). destruct (SZ p ay Hin Ay) as (_ & S3 & _). destruct (SZ by_ p By Hin) as (_ & S4 & _).
  destruct (SZ p az Hin Az) as (_ & _ & S5). destruct (SZ bz p Bz Hin) as (_ & _ & S6).
  unfold in_box. cbn [fst snd]. repeat split; lra.
Qed.

(** ** moving shapes *)
Lemma affine_corner a b c d B p : in_box B p ->
  (exists q, In q (get_bbox_points B) /\ a*vx q + b*vy q + c*vz q + d <= a*vx p + b*vy p + c*vz p + d) /\
  (exists q, In q (get_bbox_points B) /\ a*vx p + b*vy p + c*vz p + d <= a*vx q + b*vy q + c*vz q + d).
Proof.
  destruct B as [lo hi]. intros (X & Y & Z). cbn [fst snd] in *.
  assert (MIN : forall k l h x, l <= x <= h -> exists e, (e = l \/ e = h) /\ k*e <= k*x) by (intros k l h x H; destruct (Rle_dec 0 k); [exists l; split; [now left|apply Rmult_le_compat_l; lra]|exists h; split; [now right|apply Rmult_le_compat_neg_l; lra]]).
  assert (MAX : forall k l h x, l <= x <= h -> exists e, (e = l \/ e = h) /\ k*x <= k*e) by (intros k l h x H; destruct (Rle_dec 0 k); [exists h; split; [now right|apply Rmult_le_compat_l; lra]|exists l; split; [now left|apply Rmult_le_compat_neg_l; lra]]).
  assert (CO : forall e1 e2 e3, e1 = vx lo \/ e1 = vx hi -> e2 = vy lo \/ e2 = vy hi -> e3 = vz lo \/ e3 = vz hi -> In (V3 e1 e2 e3) (get_bbox_points (lo, hi))).
  { intros e1 e2 e3 [-> | ->] [-> | ->] [-> | ->]; cbn; tauto. }
  split.
  - destruct (MIN a _ _ _ X) as (e1 & H1 & K1). destruct (MIN b _ _ _ Y) as (e2 & H2 & K2). destruct (MIN c _ _ _ Z) as (e3 & H3 & K3).
    exists (V3 e1 e2 e3). split; [apply CO; assumption|]. cbn [vx vy vz]. lra.
  - destruct (MAX a _ _ _ X) as (e1 & H1 & K1). destruct (MAX b _ _ _ Y) as (e2 & H2 & K2). destruct (MAX c _ _ _ Z) as (e3 & H3 & K3).
    exists (V3 e1 e2 e3). split; [apply CO; assumption|]. cbn [vx vy vz]. lra.
Qed.
Lemma fold_if_min (f : v3 -> R) l : forall a, (forall p, In p l -> fold_left (fun a p => if Rlt_dec (f p) a then f p else a) l a <= f p) /\ fold_left (fun a p => if Rlt_dec (f p) a then f p else a) l a <= a.
Proof.
  induction l as [|x l IH]; intros a; cbn [fold_left]; [split; [intros p []|lra]|]. destruct (Rlt_dec (f x) a) as [L|L]; [destruct (IH (f x)) as [A B]|destruct (IH a) as [A B]]; (split; [intros p [<-|Hp]; [lra|auto]|lra]).
Qed.
Lemma fold_if_max (f : v3 -> R) l : forall a, (forall p, In p l -> f p <= fold_left (fun a p => if Rlt_dec a (f p) then f p else a) l a) /\ a <= fold_left (fun a p => if Rlt_dec a (f p) then f p else a) l a.
Proof.
  induction l as [|x l IH]; intros a; cbn [fold_left]; [split; [intros p []|lra]|]. destruct (Rlt_dec a (f x)) as [L|L]; [destruct (IH (f x)) as [A B]|destruct (IH a) as [A B]]; (split; [intros p [<-|Hp]; [lra|auto]|lra]).
Qed.
(** The searched box contains the moved model box. *)
Theorem C78_moved_box_contains B cen disp ang m : in_box B m -> in_box (moved_box B cen disp ang) (rotate_translate_point m cen disp ang).
Proof.
  intros H. unfold moved_box. cbv zeta. set (pts := map _ _).
  assert (PT : forall q, In q (get_bbox_points B) -> In (rotate_translate_point q cen disp ang) pts) by (intros q Hq; unfold pts; apply (in_map (fun p => rotate_translate_point p cen disp ang)), Hq).
  set (M := get_rotmat_from_quat (get_quat_from_eulerxyz ang) true).
  assert (EX : forall q, vx (rotate_translate_point q cen disp ang) = r0 M*vx q + r1 M*vy q + r2 M*vz q + (vx cen + vx disp - r0 M*vx cen - r1 M*vy cen - r2 M*vz cen)) by (intros q; unfold rotate_translate_point; fold M; unfold vadd, vsub, mv; cbn [vx vy vz]; ring).
  assert (EY : forall q, vy (rotate_translate_point q cen disp ang) = r3 M*vx q + r4 M*vy q + r5 M*vz q + (vy cen + vy disp - r3 M*vx cen - r4 M*vy cen - r5 M*vz cen)) by (intros q; unfold rotate_translate_point; fold M; unfold vadd, vsub, mv; cbn [vx vy vz]; ring).
  assert (EZ : forall q, vz (rotate_translate_point q cen disp ang) = r6 M*vx q + r7 M*vy q + r8 M*vz q + (vz cen + vz disp - r6 M*vx cen - r7 M*vy cen - r8 M*vz cen)) by (intros q; unfold rotate_translate_point; fold M; unfold vadd, vsub, mv; cbn [vx vy vz]; ring).
  destruct (affine_corner (r0 M) (r1 M) (r2 M) (vx cen + vx disp - r0 M*vx cen - r1 M*vy cen - r2 M*vz cen) B m H) as [(q1 & Q1 & L1) (q2 & Q2 & L2)]. rewrite <- !EX in L1, L2.
  destruct (affine_corner (r3 M) (r4 M) (r5 M) (vy cen + vy disp - r3 M*vx cen - r4 M*vy cen - r5 M*vz cen) B m H) as [(q3 & Q3 & L3) (q4 & Q4 & L4)]. rewrite <- !EY in L3, L4.
  destruct (affine_corner (r6 M) (r7 M) (r8 M) (vz cen + vz disp - r6 M*vx cen - r7 M*vy cen - r8 M*vz cen) B m H) as [(q5 & Q5 & L5) (q6 & Q6 & L6)]. rewrite <- !EZ in L5, L6.
  unfold in_box. cbn [fst snd vx vy vz].
  repeat split; (eapply Rle_trans; [|eassumption]) || (eapply Rle_trans; [eassumption|]); first [apply fold_if_min, PT; assumption|apply fold_if_max, PT; assumption].
Qed.
Lemma pulled_spec cen disp ang p m : rotate_translate_point m cen disp ang = p <-> vsub m cen = pulled cen disp ang p.
Proof.
  unfold pulled, rotate_translate_point. set (q := get_quat_from_eulerxyz ang). pose proof (C11_quaternion_has_unit_norm ang) as U. fold q in U. split.
  - intros <-. destruct (inverse_matrix q (vsub m cen) U) as [A _]. rewrite <- A at 1. f_equal. unfold get_rotmat_from_quat. apply v3_ext; unfold vsub, vadd; cbn [vx vy vz]; ring.
  - intros E. rewrite E. destruct (inverse_matrix q (vsub p (vadd cen disp)) U) as [_ B]. change (get_rotmat_from_quat q true) with (rotmat q). rewrite B.
    apply v3_ext; unfold vsub, vadd; cbn [vx vy vz]; ring.
Qed.
Lemma abs_half x c h : Rabs (x - c) < h <-> c - h < x < c + h.
Proof. split; [intros H; apply Rabs_def2 in H; lra|intros H; apply Rabs_def1; lra]. Qed.
(** The oriented box test, for any rotation centre: it accepts the image of the model box DISPLACED BY the rotation centre. *)
Lemma obb_general b cen disp ang p : FLT_MIN <= vz (half_dist b) ->
  obb_inside b cen disp ang p = true <-> exists m, rotate_translate_point m cen disp ang = p /\ strictly_in_box b (vsub m cen).
Proof.
  intros HZ. destruct b as [lo hi]. unfold obb_inside. cbv zeta. set (r := pulled cen disp ang p).
  assert (K : (exists m, rotate_translate_point m cen disp ang = p /\ strictly_in_box (lo, hi) (vsub m cen)) <-> strictly_in_box (lo, hi) r).
  { split; [intros (m & E & S); apply pulled_spec in E; fold r in E; rewrite <- E; exact S|]. intros S. exists (vadd r cen).
    assert (E : vsub (vadd r cen) cen = r) by (apply v3_ext; unfold vsub, vadd; cbn [vx vy vz]; ring). split; [apply pulled_spec; exact E|rewrite E; exact S]. }
  rewrite K. unfold strictly_in_box, half_dist, box_cent, vsub in *. cbn [fst snd vx vy vz] in *.
  repeat match goal with |- context [Rlt_dec (Rabs (?x - ?c)) ?h] => destruct (Rlt_dec (Rabs (x - c)) h) as [?H|?H]; rewrite abs_half in * end;
  try (destruct (Rlt_dec _ FLT_MIN)); split; intros; try discriminate; try reflexivity; try lra.
Qed.
(** So a body that rotates about the origin of its model coordinates has exactly its moved, reduced box cut out (element
    centroid inside it), nothing being lost in the coarse search, *)
Lemma cent_comp (f : v3 -> R) pts : (forall a b, f (vadd a b) = f a + f b) -> (forall k a, f (vscale k a) = k * f a) -> f (V3 0 0 0) = 0 ->
  f (elem_cent pts) = lsum (fun p => 1/INR (length pts) * f p) pts.
Proof.
  intros A S Z. unfold elem_cent. cbv zeta. generalize (1/INR (length pts)) as d. intros d.
  assert (G : forall l a, f (fold_left (fun a p => vadd a (vscale d p)) l a) = f a + lsum (fun p => d * f p) l).
  { induction l as [|x l IH]; intros a; cbn [fold_left]; [unfold lsum; cbn; ring|]. rewrite IH, A, S, Sum_Proofs.lsum_cons. ring. }
  rewrite G, Z. ring.
Qed.
Lemma mean_bounds (f : v3 -> R) pts lo hi : pts <> [] -> (forall p, In p pts -> lo <= f p <= hi) -> lo <= lsum (fun p => 1/INR (length pts) * f p) pts <= hi.
Proof.
  intros NE H. assert (P : 0 < INR (length pts)) by (apply lt_0_INR; destruct pts; [congruence|cbn; lia]).
  rewrite lsum_scal. assert (B : forall l, (forall p, In p l -> lo <= f p <= hi) -> INR (length l) * lo <= lsum f l <= INR (length l) * hi).
  { induction l as [|x l IH]; intros Hl; [unfold lsum; cbn; lra|]. rewrite Sum_Proofs.lsum_cons. cbn [length]. rewrite S_INR. destruct (Hl x (or_introl eq_refl)). destruct IH; [intros; apply Hl; now right|]. lra. }
  destruct (B pts H) as [B1 B2]. set (N := INR (length pts)) in *. set (S := lsum f pts) in *.
  assert (I : 0 < / N) by (apply Rinv_0_lt_compat, P). unfold Rdiv. rewrite Rmult_1_l. split.
  - replace lo with (/ N * (N * lo)) by (field; lra). apply Rmult_le_compat_l; lra.
  - replace hi with (/ N * (N * hi)) by (field; lra). apply Rmult_le_compat_l; lra.
Qed.
Lemma cent_in_box pts : pts <> [] -> in_box (elem_box pts) (elem_cent pts).
Proof.
  intros NE. unfold in_box, elem_box. cbn [fst snd vx vy vz].
  rewrite (cent_comp vx), (cent_comp vy), (cent_comp vz) by (intros; unfold vadd, vscale; cbn; reflexivity).
  split; [|split]; apply mean_bounds; auto using min_of_le, max_of_ge.
Qed.
Theorem C78_oriented_box_cut b disp ang pts : FLT_MIN <= vz (half_dist b) -> pts <> [] ->
  cut_element Obb (moved_box b origin disp ang) b origin disp ang pts = true <->
  exists m, strictly_in_box b m /\ rotate_translate_point m origin disp ang = elem_cent pts.
Proof.
  intros HZ NE. unfold cut_element. rewrite andb_true_iff, (obb_general b origin disp ang (elem_cent pts) HZ).
  assert (V0 : forall m, vsub m origin = m) by (intros [x y z]; unfold vsub, origin; cbn; f_equal; ring).
  split.
  - intros [_ (m & E & S)]. rewrite V0 in S. exists m. auto.
  - intros (m & S & E). split; [|exists m; rewrite V0; auto]. apply (common_point_meet _ _ (elem_cent pts)); [|apply cent_in_box, NE].
    rewrite <- E. apply C78_moved_box_contains. unfold strictly_in_box in S. unfold in_box. lra.
Qed.
(** but one with another rotation centre has its hole cut in the wrong place: here nothing moves at all, and the centre of the
    box is left uncut. *)
Theorem C78_oriented_box_centre_refuted : exists b cen p, strictly_in_box b p /\ in_box b cen /\
  rotate_translate_point p cen origin origin = p /\ obb_inside b cen origin origin p = false.
Proof.
  exists (V3 4 (-1) (-1), V3 6 1 1), (V3 5 0 0), (V3 5 0 0).
  assert (FIX : rotate_translate_point (V3 5 0 0) (V3 5 0 0) origin origin = V3 5 0 0).
  { destruct (C11_six_dof_points_move_rigidly (V3 5 0 0) (V3 5 0 0) (V3 5 0 0) origin origin) as (_ & E & _). rewrite E. unfold vadd, origin. cbn. f_equal; ring. }
  split; [unfold strictly_in_box; cbn; lra|]. split; [unfold in_box; cbn; lra|]. split; [exact FIX|].
  apply pulled_spec in FIX. unfold obb_inside. cbv zeta. rewrite <- FIX. unfold half_dist, box_cent, vsub. cbn [fst snd vx vy vz].
  destruct (Rlt_dec _ _) as [L|_]; [|reflexivity]. exfalso. rewrite abs_half in L. lra.
Qed.
(** ** cylinder *)
Lemma cyl_general b k cen disp ang p : (k < 3)%nat -> FLT_MIN <= vx (half_dist b) -> FLT_MIN <= vy (half_dist b) -> FLT_MIN <= vz (half_dist b) ->
  let h := half_dist b in let r := pulled cen disp ang p in
  cyl_inside b k cen disp ang p = true <->
  match k with
  | 0%nat => vy r*vy r + vz r*vz r < ((1/2)*(vy h + vz h))^2 /\ Rabs (vx r - vx cen) < vx h
  | 1%nat => vx r*vx r + vz r*vz r < ((1/2)*(vx h + vz h))^2 /\ Rabs (vy r - vy cen) < vy h
  | _ => vx r*vx r + vy r*vy r < ((1/2)*(vx h + vy h))^2 /\ Rabs (vz r - vz cen) < vz h end.
Proof.
  intros Hk HX HY HZ. cbv zeta. unfold cyl_inside. cbv zeta. destruct k as [|[|[|k]]]; [| | |lia];
  (destruct (Rlt_dec (_ + _) _) as [A|A]; [destruct (Rlt_dec (Rabs _) _) as [B|B]; [tauto|destruct (Rlt_dec _ FLT_MIN); [lra|]]|]; split; intros; try discriminate; tauto).
Qed.
(** For a mesh whose model box is centred at the origin, with the rotation centre there, the accepted points are the moved
    cylinder whose radius is the mean of the two half widths. *)
Theorem C78_cylinder_cut lo hi k disp ang p : (k < 3)%nat -> FLT_MIN <= vx hi -> FLT_MIN <= vy hi -> FLT_MIN <= vz hi ->
  lo = V3 (- vx hi) (- vy hi) (- vz hi) ->
  let r := match k with 0%nat => (vy hi + vz hi)/2 | 1%nat => (vx hi + vz hi)/2 | _ => (vx hi + vy hi)/2 end in
  cyl_inside (lo, hi) k origin disp ang p = true <-> exists m, in_cylinder k (lo, hi) r m /\ rotate_translate_point m origin disp ang = p.
Proof.
  intros Hk HX HY HZ ->. cbv zeta.
  assert (HD : half_dist (V3 (- vx hi) (- vy hi) (- vz hi), hi) = hi) by (unfold half_dist, box_cent, vsub; apply v3_ext; cbn [fst snd vx vy vz]; field).
  pose proof (cyl_general (V3 (- vx hi) (- vy hi) (- vz hi), hi) k origin disp ang p Hk) as G. cbv zeta in G. rewrite HD in G. rewrite (G HX HY HZ). clear G.
  assert (K : forall P : v3 -> Prop, (exists m, P m /\ rotate_translate_point m origin disp ang = p) <-> P (pulled origin disp ang p)).
  { intros P. assert (V0 : forall m, vsub m origin = m) by (intros [x y z]; unfold vsub, origin; cbn; f_equal; ring). split.
    - intros (m & Hm & E). apply pulled_spec in E. rewrite V0 in E. rewrite <- E. exact Hm.
    - intros H. exists (pulled origin disp ang p). split; [exact H|apply pulled_spec, V0]. }
  rewrite (K (in_cylinder k _ _)). set (r := pulled origin disp ang p). unfold in_cylinder. cbv zeta. cbn [fst snd vx vy vz].
  assert (C0 : forall a, a - (- a + a)/2 = a) by (intros; field). assert (C1 : forall x a, x - (- a + a)/2 = x) by (intros; field).
  assert (SQ : forall a b, ((1/2)*(a+b))^2 = ((a+b)/2)^2) by (intros; field).
  destruct k as [|[|[|k]]]; [| | |lia]; rewrite abs_half, !C1, SQ; unfold origin; cbn [vx vy vz]; split; intros [A B]; (split; [|lra]); [..]; revert A; cbn [pow]; rewrite ?Rmult_1_r; auto.
Qed.
(** The cylinder's own centre is never used: a mesh that is not centred at the origin has its hole cut around the origin. *)
Theorem C78_cylinder_centre_refuted : exists b p p', FLT_MIN <= vx (half_dist b) /\ in_cylinder 2 b 1 p /\ cyl_inside b 2 origin origin origin p = false /\
  ~ in_box b p' /\ cyl_inside b 2 origin origin origin p' = true.
Proof.
  exists (V3 4 (-1) (-1), V3 6 1 1), (V3 5 0 0), (V3 0 0 0). pose proof FLT_MIN_lt_1 as F1.
  assert (HD : half_dist (V3 4 (-1) (-1), V3 6 1 1) = V3 1 1 1) by (unfold half_dist, box_cent, vsub; apply v3_ext; cbn [fst snd vx vy vz]; field).
  assert (PU : forall m, pulled origin origin origin m = m).
  { intros m. symmetry. assert (V0 : forall m, vsub m origin = m) by (intros [x y z]; unfold vsub, origin; cbn; f_equal; ring). rewrite <- (V0 m) at 1. apply pulled_spec.
    unfold rotate_translate_point. assert (Q : get_quat_from_eulerxyz origin = Q4 1 0 0 0).
    { rewrite quat_is_raw. unfold euler_quat_raw, origin. cbn [vx vy vz]. rewrite Rmult_0_l, cos_0, sin_0. f_equal; ring. }
    rewrite Q. unfold get_rotmat_from_quat, rotmat, mv, vadd, vsub, origin. cbn. destruct m as [x y z]. cbn. f_equal; field. }
  pose proof (cyl_general (V3 4 (-1) (-1), V3 6 1 1) 2 origin origin origin) as G. cbv zeta in G. rewrite HD in G. cbn [vx vy vz] in G.
  split; [rewrite HD; cbn; lra|]. split; [unfold in_cylinder; cbn; lra|]. split.
  - destruct (cyl_inside _ 2 origin origin origin (V3 5 0 0)) eqn:E; [|reflexivity]. exfalso. apply G in E; [|lia|lra|lra|lra]. rewrite PU in E. cbn in E. lra.
  - split; [unfold in_box; cbn; lra|]. apply G; [lia|lra|lra|lra|]. rewrite PU. unfold origin. cbn. split; [lra|]. rewrite Rminus_0_r, Rabs_R0. lra.
Qed.
