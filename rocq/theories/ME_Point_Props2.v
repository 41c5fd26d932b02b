(** * C33 (continued): triangles and edges *)
From Coq Require Import Reals List Arith Lra Lia Psatz.
From Verif Require Import ME_Model ME_Shape_Model ME_Shape_Spec ME_Shape_Props ME_Shape_Props2 ME_Point_Model ME_Point_Spec ME_Point_Props.
Import ListNotations.
Local Open Scope R_scope.

Lemma tri_dist_iff w0 w1 : tri_dist (V w0 w1 0) <= 1 <-> 0 <= w0 /\ 0 <= w1 /\ w0 + w1 <= 1.
Proof. unfold tri_dist. cbn [vx vy vz]. rewrite !Rmax_le_iff. lra. Qed.
Lemma tri_place2 e s :
  vx (place 3 tri3_shape e s) = vx (e 0%nat) + vx s * (vx (e 1%nat) - vx (e 0%nat)) + vy s * (vx (e 2%nat) - vx (e 0%nat)) /\
  vy (place 3 tri3_shape e s) = vy (e 0%nat) + vx s * (vy (e 1%nat) - vy (e 0%nat)) + vy s * (vy (e 2%nat) - vy (e 0%nat)) /\
  vz (place 3 tri3_shape e s) = vz (e 0%nat) + vx s * (vz (e 1%nat) - vz (e 0%nat)) + vy s * (vz (e 2%nat) - vz (e 0%nat)).
Proof. unfold place, interp, tri3_shape. red_shape. repeat split; ring. Qed.
(** twice the signed area *)
Definition tri_area2 (e : nat -> vec) : R := cross2 (vsub (e 1%nat) (e 0%nat)) (vsub (e 2%nat) (e 0%nat)).

Lemma sumsq_pos a b : ~ (a = 0 /\ b = 0) -> 0 < a*a + b*b.
Proof.
  intros H. destruct (Req_EM_T a 0) as [Ea|Ea].
  - destruct (Req_EM_T b 0) as [Eb|Eb]; [tauto|]. assert (0 < b*b) by (apply Rsqr_pos_lt; exact Eb). nra.
  - assert (0 < a*a) by (apply Rsqr_pos_lt; exact Ea). nra.
Qed.
Lemma sqrt_pos_ne a : 0 < a -> 0 < sqrt a. Proof. apply sqrt_lt_R0. Qed.

(** What the planar triangle search computes: its own weights, valid for the positive orientation. *)
Lemma tri2d_result e p : 0 < tri_area2 e ->
  let xa := vx (e 1%nat) - vx (e 0%nat) in let xb := vx (e 2%nat) - vx (e 0%nat) in
  let ya := vy (e 1%nat) - vy (e 0%nat) in let yb := vy (e 2%nat) - vy (e 0%nat) in
  let xp := vx p - vx (e 0%nat) in let yp := vy p - vy (e 0%nat) in
  let c := xa*yb - xb*ya in let xi := (xp*yb - yp*xb)/c in let eta := (xa*yp - ya*xp)/c in
  tri2d_is_in_element e p = Some {| f_dist := tri_dist (V (1 - xi - eta) xi 0); f_par := V xi eta 0 |}.
Proof.
  intros HA. cbv zeta. unfold tri2d_is_in_element. cbv zeta.
  unfold tri_area2, cross2, vsub in HA. cbn [vx vy vz] in HA.
  set (xa := vx (e 1%nat) - vx (e 0%nat)) in *. set (xb := vx (e 2%nat) - vx (e 0%nat)) in *.
  set (ya := vy (e 1%nat) - vy (e 0%nat)) in *. set (yb := vy (e 2%nat) - vy (e 0%nat)) in *.
  set (xp := vx p - vx (e 0%nat)). set (yp := vy p - vy (e 0%nat)).
  clearbody xa xb ya yb xp yp.
  assert (HA' : 0 < xa*yb - xb*ya) by lra. clear HA.
  rewrite (sqrt_square (xa*yb - xb*ya)) by lra.
  set (c := xa*yb - xb*ya) in *.
  destruct (Req_EM_T c 0) as [h|_]; [lra|].
  assert (La : 0 < xa*xa + ya*ya). { apply sumsq_pos. intros [-> ->]. unfold c in HA'. lra. }
  assert (Lb : 0 < xb*xb + yb*yb). { apply sumsq_pos. intros [-> ->]. unfold c in HA'. lra. }
  assert (S1 := sqrt_pos_ne _ La). assert (S2 := sqrt_pos_ne _ Lb).
  assert (Q1 : sqrt (xa*xa + ya*ya) * sqrt (xa*xa + ya*ya) = xa*xa + ya*ya) by (apply sqrt_sqrt; lra).
  set (L := sqrt (xa*xa + ya*ya)) in *. set (M := sqrt (xb*xb + yb*yb)) in *. clearbody L M.
  match goal with |- context [tri_dist (V ?a ?b 0)] => set (w0 := a); set (w1 := b) end.
  assert (W1 : w1 = (xp*yb - yp*xb)/c).
  { unfold w1. transitivity (((xa*xp+ya*yp)*c - (-ya*xp+xa*yp)*(xa*xb+ya*yb))/(L*L*c)).
    - field. repeat split; lra.
    - rewrite Q1. unfold c. field. split; [|lra]. fold c; lra. }
  assert (W0 : w0 = 1 - (xp*yb - yp*xb)/c - (xa*yp - ya*xp)/c).
  { unfold w0. transitivity (1 - (xa*xp+ya*yp)/(L*L) + (-ya*xp+xa*yp)*((xa*xb+ya*yb) - L*L)/(L*L*c)).
    - field. repeat split; lra.
    - rewrite Q1. unfold c. field. split; [|lra]. fold c; lra. }
  rewrite W0, W1. f_equal. f_equal. f_equal. ring.
Qed.
(** Counter-clockwise triangles: the search inverts the element map. *)
Theorem C33_tri2d_search : forall e p, 0 < tri_area2 e ->
  exists r, tri2d_is_in_element e p = Some r /\
    same2 (place 3 tri3_shape e (f_par r)) p /\
    (forall s, same2 (place 3 tri3_shape e s) p -> vx s = vx (f_par r) /\ vy s = vy (f_par r)) /\
    (f_dist r <= 1 <-> exists s, in_simplex2 s /\ same2 (place 3 tri3_shape e s) p).
Proof.
  intros e p HA. eexists. split; [apply tri2d_result; exact HA|]. cbn [f_par f_dist].
  unfold tri_area2, cross2, vsub in HA. cbn [vx vy vz] in HA.
  unfold same2.
  destruct (tri_place2 e (V (((vx p - vx (e 0%nat)) * (vy (e 2%nat) - vy (e 0%nat)) - (vy p - vy (e 0%nat)) * (vx (e 2%nat) - vx (e 0%nat)))/((vx (e 1%nat) - vx (e 0%nat)) * (vy (e 2%nat) - vy (e 0%nat)) - (vx (e 2%nat) - vx (e 0%nat)) * (vy (e 1%nat) - vy (e 0%nat)))) (((vx (e 1%nat) - vx (e 0%nat)) * (vy p - vy (e 0%nat)) - (vy (e 1%nat) - vy (e 0%nat)) * (vx p - vx (e 0%nat)))/((vx (e 1%nat) - vx (e 0%nat)) * (vy (e 2%nat) - vy (e 0%nat)) - (vx (e 2%nat) - vx (e 0%nat)) * (vy (e 1%nat) - vy (e 0%nat)))) 0)) as [X [Y _]].
  rewrite X, Y. cbn [vx vy vz]. clear X Y.
  assert (U : forall s, vx (place 3 tri3_shape e s) = vx p /\ vy (place 3 tri3_shape e s) = vy p ->
     vx s = ((vx p - vx (e 0%nat)) * (vy (e 2%nat) - vy (e 0%nat)) - (vy p - vy (e 0%nat)) * (vx (e 2%nat) - vx (e 0%nat)))/((vx (e 1%nat) - vx (e 0%nat)) * (vy (e 2%nat) - vy (e 0%nat)) - (vx (e 2%nat) - vx (e 0%nat)) * (vy (e 1%nat) - vy (e 0%nat))) /\
     vy s = ((vx (e 1%nat) - vx (e 0%nat)) * (vy p - vy (e 0%nat)) - (vy (e 1%nat) - vy (e 0%nat)) * (vx p - vx (e 0%nat)))/((vx (e 1%nat) - vx (e 0%nat)) * (vy (e 2%nat) - vy (e 0%nat)) - (vx (e 2%nat) - vx (e 0%nat)) * (vy (e 1%nat) - vy (e 0%nat)))).
  { intros s [E1 E2]. destruct (tri_place2 e s) as [X [Y _]]. rewrite <- E1, <- E2, X, Y. split; field; lra. }
  set (xa := vx (e 1%nat) - vx (e 0%nat)) in *. set (xb := vx (e 2%nat) - vx (e 0%nat)) in *.
  set (ya := vy (e 1%nat) - vy (e 0%nat)) in *. set (yb := vy (e 2%nat) - vy (e 0%nat)) in *.
  set (xi := ((vx p - vx (e 0%nat)) * yb - (vy p - vy (e 0%nat)) * xb) / (xa * yb - xb * ya)) in *.
  set (eta := (xa * (vy p - vy (e 0%nat)) - ya * (vx p - vx (e 0%nat))) / (xa * yb - xb * ya)) in *.
  assert (P : vx (e 0%nat) + xi * xa + eta * xb = vx p /\ vy (e 0%nat) + xi * ya + eta * yb = vy p).
  { unfold xi, eta. split; field; lra. }
  split; [exact P|]. split; [exact U|]. rewrite tri_dist_iff. split.
  - intros H. exists (V xi eta 0). unfold in_simplex2. cbn [vx vy vz]. split; [lra|].
    destruct (tri_place2 e (V xi eta 0)) as [X [Y _]]. rewrite X, Y. cbn [vx vy]. exact P.
  - intros [s [Hs Hp]]. apply U in Hp. destruct Hp as [Ex Ey]. unfold in_simplex2 in Hs. rewrite Ex, Ey in Hs. lra.
Qed.
(** Clockwise triangles: the point (1/4,1/2) of the triangle (0,0), (0,1), (1,0) is reported outside
    and its parametric coordinates are wrong, because the new y axis is the fixed rotation of the new
    x axis while the area is taken positive. *)
Definition clockwise : nat -> vec := of_list [V 0 0 0; V 0 1 0; V 1 0 0].
Theorem C33_tri2d_clockwise_refuted :
  (exists s, in_simplex2 s /\ same2 (place 3 tri3_shape clockwise s) (V (1/4) (1/2) 0)) /\
  exists r, tri2d_is_in_element clockwise (V (1/4) (1/2) 0) = Some r /\ 1 < f_dist r /\
    ~ same2 (place 3 tri3_shape clockwise (f_par r)) (V (1/4) (1/2) 0).
Proof.
  split.
  - exists (V (1/2) (1/4) 0). unfold in_simplex2, same2, place, interp, clockwise, of_list, tri3_shape. red_shape. repeat split; lra.
  - unfold tri2d_is_in_element, clockwise, of_list. cbv zeta. cbn [vx vy vz nth].
    replace ((0 - 0) * (0 - 0) + (1 - 0) * (1 - 0)) with 1 by ring.
    replace ((1 - 0) * (1 - 0) + (0 - 0) * (0 - 0)) with 1 by ring.
    replace (((0 - 0) * (0 - 0) - (1 - 0) * (1 - 0)) * ((0 - 0) * (0 - 0) - (1 - 0) * (1 - 0))) with 1 by ring.
    rewrite !sqrt_1. destruct (Req_EM_T 1 0) as [h|_]; [lra|].
    eexists. split; [reflexivity|]. cbn [f_dist f_par]. split.
    + unfold tri_dist. cbn [vx vy vz]. eapply Rlt_le_trans; [|apply Rmax_r]. lra.
    + unfold same2, place, interp, tri3_shape. red_shape. lra.
Qed.

(** ** Triangle in space *)
Definition tri_normal (e : nat -> vec) : vec := cross (vsub (e 1%nat) (e 0%nat)) (vsub (e 2%nat) (e 0%nat)).
Definition len (v : vec) : R := sqrt (dot v v).
Lemma frame_coords xa ya za xb yb zb xp yp zp :
  let n0 := ya*zb - yb*za in let n1 := xb*za - xa*zb in let n2 := xa*yb - xb*ya in
  0 < n0*n0 + n1*n1 + n2*n2 ->
  exists a b c, xp = a*xa + b*xb + c*n0 /\ yp = a*ya + b*yb + c*n1 /\ zp = a*za + b*zb + c*n2.
Proof.
  cbv zeta. intros H.
  set (n0 := ya*zb - yb*za) in *. set (n1 := xb*za - xa*zb) in *. set (n2 := xa*yb - xb*ya) in *.
  exists ((n0*(yp*zb - yb*zp) + n1*(xb*zp - xp*zb) + n2*(xp*yb - xb*yp))/(n0*n0 + n1*n1 + n2*n2)).
  exists ((n0*(ya*zp - yp*za) + n1*(xp*za - xa*zp) + n2*(xa*yp - xp*ya))/(n0*n0 + n1*n1 + n2*n2)).
  exists ((n0*xp + n1*yp + n2*zp)/(n0*n0 + n1*n1 + n2*n2)).
  repeat split; apply (Rmult_eq_reg_r (n0*n0 + n1*n1 + n2*n2)); try lra;
  match goal with |- _ * ?d = (?A/?d*_ + ?B/?d*_ + ?C/?d*_) * ?d => set (D := d) in *; set (a := A); set (b := B); set (c := C) end.
  - transitivity (a*xa + b*xb + c*n0); [unfold a, b, c, D, n0, n1, n2; ring|field; lra].
  - transitivity (a*ya + b*yb + c*n1); [unfold a, b, c, D, n0, n1, n2; ring|field; lra].
  - transitivity (a*za + b*zb + c*n2); [unfold a, b, c, D, n0, n1, n2; ring|field; lra].
Qed.
Lemma tri3d_result e p : 0 < dot (tri_normal e) (tri_normal e) ->
  exists a b c, vsub p (e 0%nat) = vadd (vadd (vscale a (vsub (e 1%nat) (e 0%nat))) (vscale b (vsub (e 2%nat) (e 0%nat)))) (vscale c (tri_normal e)) /\
    tri3d_is_in_element e p = Some {| f_dist := tri3d_dist (V (1 - a - b) a (c * sqrt (len (tri_normal e))));
                                      f_par := V a b (c * sqrt (len (tri_normal e))) |}.
Proof.
  unfold len. intros HA. unfold tri3d_is_in_element. cbv zeta.
  unfold tri_normal, cross, dot, vsub, vadd, vscale in *. cbn [vx vy vz] in *.
  set (xa := vx (e 1%nat) - vx (e 0%nat)) in *. set (xb := vx (e 2%nat) - vx (e 0%nat)) in *.
  set (ya := vy (e 1%nat) - vy (e 0%nat)) in *. set (yb := vy (e 2%nat) - vy (e 0%nat)) in *.
  set (za := vz (e 1%nat) - vz (e 0%nat)) in *. set (zb := vz (e 2%nat) - vz (e 0%nat)) in *.
  set (xp := vx p - vx (e 0%nat)). set (yp := vy p - vy (e 0%nat)). set (zp := vz p - vz (e 0%nat)).
  clearbody xa xb ya yb za zb xp yp zp.
  assert (N0 : exists n, n = ya*zb - yb*za) by eauto. destruct N0 as [n0 N0].
  assert (N1 : exists n, n = xb*za - xa*zb) by eauto. destruct N1 as [n1 N1].
  assert (N2 : exists n, n = xa*yb - xb*ya) by eauto. destruct N2 as [n2 N2].
  assert (HA' : 0 < n0*n0 + n1*n1 + n2*n2).
  { eapply Rlt_le_trans; [exact HA|]. right. rewrite N0, N1, N2. ring. }
  destruct (frame_coords xa ya za xb yb zb xp yp zp) as [a [b [c [Ex [Ey Ez]]]]].
  { rewrite <- N0, <- N1, <- N2. exact HA'. }
  rewrite <- N0 in Ex. rewrite <- N1 in Ey. rewrite <- N2 in Ez.
  exists a, b, c. split.
  { rewrite Ex, Ey, Ez, N0, N1, N2. f_equal; ring. }
  rewrite <- N0, <- N1, <- N2.
  replace ((za * xb - zb * xa) * (za * xb - zb * xa)) with (n1*n1) by (rewrite N1; ring).
  assert (QA : sqrt (n0*n0 + n1*n1 + n2*n2) * sqrt (n0*n0 + n1*n1 + n2*n2) = n0*n0 + n1*n1 + n2*n2) by (apply sqrt_sqrt; lra).
  assert (PA := sqrt_lt_R0 _ HA'). set (A := sqrt (n0*n0 + n1*n1 + n2*n2)) in *. clearbody A.
  destruct (Req_EM_T A 0) as [h|_]; [lra|].
  assert (LG : (xa*xa + ya*ya + za*za) * (xb*xb + yb*yb + zb*zb)
     = (n0*n0 + n1*n1 + n2*n2) + (xa*xb + ya*yb + za*zb)*(xa*xb + ya*yb + za*zb)) by (rewrite N0, N1, N2; ring).
  assert (La : 0 < xa*xa + ya*ya + za*za).
  { assert (0 <= xa*xa + ya*ya + za*za) by nra.
    destruct (Req_EM_T (xa*xa + ya*ya + za*za) 0) as [E|E]; [|lra]. rewrite E, Rmult_0_l in LG.
    pose proof (Rle_0_sqr (xa*xb + ya*yb + za*zb)) as Q. unfold Rsqr in Q. lra. }
  assert (Lb : 0 < xb*xb + yb*yb + zb*zb).
  { assert (0 <= xb*xb + yb*yb + zb*zb) by nra.
    destruct (Req_EM_T (xb*xb + yb*yb + zb*zb) 0) as [E|E]; [|lra]. rewrite E, Rmult_0_r in LG.
    pose proof (Rle_0_sqr (xa*xb + ya*yb + za*zb)) as Q. unfold Rsqr in Q. lra. }
  assert (S1 := sqrt_lt_R0 _ La). assert (S2 := sqrt_lt_R0 _ Lb).
  assert (Q1 : sqrt (xa*xa + ya*ya + za*za) * sqrt (xa*xa + ya*ya + za*za) = xa*xa + ya*ya + za*za) by (apply sqrt_sqrt; lra).
  set (L := sqrt (xa*xa + ya*ya + za*za)) in *. set (M := sqrt (xb*xb + yb*yb + zb*zb)) in *. clearbody L M.
  assert (XP : xa/L*xp + ya/L*yp + za/L*zp = (a*(L*L) + b*(xa*xb + ya*yb + za*zb))/L).
  { rewrite Q1, Ex, Ey, Ez. rewrite N0, N1, N2. field. lra. }
  assert (ZP : n0/A*xp + n1/A*yp + n2/A*zp = c*A).
  { transitivity (c*(n0*n0 + n1*n1 + n2*n2)/A); [|rewrite <- QA; field; lra].
    rewrite Ex, Ey, Ez.
    transitivity ((a*(n0*xa + n1*ya + n2*za) + b*(n0*xb + n1*yb + n2*zb) + c*(n0*n0+n1*n1+n2*n2))/A); [field; lra|].
    replace (n0*xa + n1*ya + n2*za) with 0 by (rewrite N0, N1, N2; ring).
    replace (n0*xb + n1*yb + n2*zb) with 0 by (rewrite N0, N1, N2; ring). field. lra. }
  assert (YP : (n1/A*(za/L) - ya/L*(n2/A))*xp + (xa/L*(n2/A) - n0/A*(za/L))*yp + (n0/A*(ya/L) - xa/L*(n1/A))*zp = b*A/L).
  { transitivity (b*(A*A)/(A*L)); [|field; lra]. rewrite QA.
    transitivity (((n1*za - ya*n2)*xp + (xa*n2 - n0*za)*yp + (n0*ya - xa*n1)*zp)/(A*L)); [field; lra|].
    f_equal. rewrite Ex, Ey, Ez. rewrite N0, N1, N2. ring. }
  rewrite XP, YP, ZP.
  match goal with |- context [tri3d_dist (V ?x ?y ?z)] => set (w0 := x); set (w1 := y); set (w2 := z) end.
  assert (W1 : w1 = a) by (unfold w1; field; lra).
  assert (W0 : w0 = 1 - a - b) by (unfold w0; field; lra).
  assert (W2 : w2 = c * sqrt A).
  { unfold w2. assert (PS := sqrt_lt_R0 _ PA). assert (E : sqrt A * sqrt A = A) by (apply sqrt_sqrt; lra).
    apply (Rmult_eq_reg_r (sqrt A)); [|lra]. rewrite Rmult_assoc, E. field. lra. }
  rewrite W0, W1, W2. f_equal. f_equal. f_equal. ring.
Qed.
(** The search decomposes the point into its foot in the plane of the triangle (the first two
    coordinates) and its signed distance along the unit normal, divided by the square root of twice
    the area (the third); it is reported inside exactly when the foot is in the triangle and that
    third number is at most 0.01. *)
Theorem C33_tri3d_search : forall e p, tri_normal e <> V 0 0 0 ->
  exists r, tri3d_is_in_element e p = Some r /\
    let height := vz (f_par r) * sqrt (len (tri_normal e)) in
    p = vadd (place 3 tri3_shape e (f_par r)) (vscale (height / len (tri_normal e)) (tri_normal e)) /\
    (f_dist r <= 1 <-> in_simplex2 (f_par r) /\ Rabs (vz (f_par r)) <= 1/100).
Proof.
  intros e p HN.
  assert (HA : 0 < dot (tri_normal e) (tri_normal e)).
  { unfold dot. destruct (tri_normal e) as [a b c]. cbn [vx vy vz].
    destruct (Req_EM_T a 0) as [Ea|Ea], (Req_EM_T b 0) as [Eb|Eb], (Req_EM_T c 0) as [Ec|Ec]; try nra.
    exfalso. apply HN. rewrite Ea, Eb, Ec. reflexivity. }
  destruct (tri3d_result e p HA) as [a [b [c [EP ER]]]].
  eexists. split; [exact ER|]. cbv zeta. cbn [f_par f_dist vx vy vz].
  assert (PL : 0 < len (tri_normal e)) by (apply sqrt_lt_R0; exact HA).
  set (N := tri_normal e) in *. set (A := len N) in *.
  assert (SS : sqrt A * sqrt A = A) by (apply sqrt_sqrt; lra).
  split.
  - replace (c * sqrt A * sqrt A / A) with c by (rewrite Rmult_assoc, SS; field; lra).
    destruct (tri_place2 e (V a b (c * sqrt A))) as [X [Y Z]].
    unfold vsub, vadd, vscale in EP. cbn [vx vy vz] in *.
    assert (Hx := f_equal vx EP). assert (Hy := f_equal vy EP). assert (Hz := f_equal vz EP). cbn [vx vy vz] in Hx, Hy, Hz.
    destruct p as [p1 p2 p3]. unfold vadd, vscale. rewrite X, Y, Z. cbn [vx vy vz] in *. f_equal; lra.
  - unfold tri3d_dist, in_simplex2, tri_dist. cbn [vx vy vz]. cbv zeta.
    pose proof (Rabs_pos (c * sqrt A)).
    set (m := Rmax (Rmax (-3 * (1 - a - b - 1 / 3)) (-3 * (a - 1 / 3))) (3 * (1 - a - b - 1 / 3 + (a - 1 / 3)))).
    assert (M : m <= 1 <-> 0 <= a /\ 0 <= b /\ a + b <= 1) by (unfold m; rewrite !Rmax_le_iff; lra).
    destruct (Rlt_dec (1/100) (Rabs (c * sqrt A))) as [h|h].
    + destruct (Rlt_dec m (1 + Rabs (c * sqrt A))); split; intros; lra.
    + rewrite <- M. split; intros; lra.
Qed.

(** ** Edge in the plane: the search projects on the line of the edge *)
Theorem C33_edge2d_search : forall e p, ~ same2 (e 0%nat) (e 1%nat) ->
  exists r, edge2d_is_in_element e p = Some r /\
    let foot := place 2 edge2_shape e (f_par r) in
    let dx := vx p - vx foot in let dy := vy p - vy foot in
    let tx := vx (e 1%nat) - vx (e 0%nat) in let ty := vy (e 1%nat) - vy (e 0%nat) in
    dx * tx + dy * ty = 0 /\
    vy (f_par r) = sqrt (dx*dx + dy*dy) / sqrt (tx*tx + ty*ty) /\
    (f_dist r <= 1 <-> -1 <= vx (f_par r) <= 1 /\ sqrt (dx*dx + dy*dy) <= 1/100 * sqrt (tx*tx + ty*ty)).
Proof.
  intros e p HN. unfold edge2d_is_in_element. cbv zeta. unfold same2 in HN.
  set (tx := vx (e 1%nat) - vx (e 0%nat)). set (ty := vy (e 1%nat) - vy (e 0%nat)).
  assert (HT : 0 < tx*tx + ty*ty).
  { assert (tx <> 0 \/ ty <> 0) as [h|h].
    { destruct (Req_EM_T tx 0) as [E|]; [|auto]. destruct (Req_EM_T ty 0) as [E'|]; [|auto].
      exfalso. apply HN. unfold tx, ty in *. lra. }
    all: nra. }
  destruct (Req_EM_T (tx*tx + ty*ty) 0) as [h|_]; [lra|].
  eexists. split; [reflexivity|]. cbn [f_par f_dist].
  set (P1 := vx p - vx (e 0%nat)). set (P2 := vy p - vy (e 0%nat)).
  set (q := (P1*tx + P2*ty)/(tx*tx + ty*ty)).
  assert (FX : vx p - vx (place 2 edge2_shape e (V (2*q - 1) (Rabs (P1*ty - P2*tx)/(tx*tx + ty*ty)) 0)) = P1 - q*tx).
  { unfold place, interp, edge2_shape. red_shape. unfold P1, tx. field. }
  assert (FY : vy p - vy (place 2 edge2_shape e (V (2*q - 1) (Rabs (P1*ty - P2*tx)/(tx*tx + ty*ty)) 0)) = P2 - q*ty).
  { unfold place, interp, edge2_shape. red_shape. unfold P2, ty. field. }
  rewrite FX, FY. cbn [vx vy vz]. clear FX FY.
  assert (HD : (P1 - q*tx)*(P1 - q*tx) + (P2 - q*ty)*(P2 - q*ty) = (P1*ty - P2*tx)*(P1*ty - P2*tx)/(tx*tx + ty*ty)).
  { unfold q. field. lra. }
  assert (ST := sqrt_lt_R0 _ HT).
  assert (SS : sqrt (tx*tx + ty*ty) * sqrt (tx*tx + ty*ty) = tx*tx + ty*ty) by (apply sqrt_sqrt; lra).
  assert (AL : Rabs (P1*ty - P2*tx)/(tx*tx + ty*ty) = sqrt ((P1 - q*tx)*(P1 - q*tx) + (P2 - q*ty)*(P2 - q*ty)) / sqrt (tx*tx + ty*ty)).
  { rewrite HD. rewrite sqrt_div_alt by lra. change ((P1*ty - P2*tx)*(P1*ty - P2*tx)) with (Rsqr (P1*ty - P2*tx)). rewrite sqrt_Rsqr_abs.
    rewrite <- SS at 1. field. lra. }
  split; [unfold q; field; lra|]. split; [exact AL|].
  rewrite AL. set (h := sqrt ((P1 - q*tx)*(P1 - q*tx) + (P2 - q*ty)*(P2 - q*ty))) in *.
  set (l := sqrt (tx*tx + ty*ty)) in *.
  assert (Hh : 0 <= h) by apply sqrt_pos.
  assert (E : h <= 1/100*l <-> h/l <= 1/100).
  { split; intros H.
    - apply (Rmult_le_reg_r l); [lra|]. replace (h/l*l) with h by (field; lra). lra.
    - apply (Rmult_le_compat_r l) in H; [|lra]. replace (h/l*l) with h in H by (field; lra). lra. }
  assert (Hq : 0 <= h/l) by (apply Rmult_le_pos; [lra|left; apply Rinv_0_lt_compat; lra]).
  rewrite E. unfold edge_dist. cbv zeta.
  destruct (Rlt_dec (1/100) (h/l)) as [a|a].
  - destruct (Rlt_dec (Rabs (2*q - 1)) (1 + h/l)); split; intros; lra.
  - rewrite <- (Rabs_le_iff (2*q-1) 1). split; intros; lra.
Qed.
