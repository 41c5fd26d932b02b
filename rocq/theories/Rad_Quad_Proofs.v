(** Spherical geometry behind the quadrature set. *)
From Coq Require Import Reals List Arith Lia Lra Psatz.
From Verif Require Import RUtil ME_Model Rad_Quad_Model.
Import ListNotations.
Local Open Scope R_scope.

Lemma acos_m1 : acos (-1) = PI.
Proof. replace (-1) with (cos PI) by apply cos_PI. apply acos_cos. generalize PI_RGT_0; lra. Qed.

Lemma sqrt_pos x : 0 < x -> 0 < sqrt x. Proof. apply sqrt_lt_R0. Qed.

Lemma sq_sqrt x : 0 < x -> sqrt x * sqrt x = x. Proof. intros; apply sqrt_sqrt; lra. Qed.

Lemma ratio_bound a s : 0 < s -> a * a <= s * s -> -1 <= a / s <= 1.
Proof. intros Hs H. split; [apply Rle_div_r | apply Rle_div_l]; try assumption; nra. Qed.
Lemma ratio_bound_lt a s : 0 < s -> a * a < s * s -> -1 < a / s < 1.
Proof. intros Hs H. split; [apply Rlt_div_r | apply Rlt_div_l]; try assumption; nra. Qed.

Lemma sin_acos_ratio a s k : 0 < s -> 0 <= k -> a * a + k * k = s * s -> sin (acos (a / s)) = k / s.
Proof.
  intros Hs Hk E. rewrite sin_acos by (apply ratio_bound; [assumption | nra]).
  replace (1 - Rsqr (a / s)) with (Rsqr (k / s)).
  - apply sqrt_Rsqr. apply Rle_div_r; lra.
  - unfold Rsqr. apply (Rmult_eq_reg_r (s*s)); [|nra]. field_simplify; [|lra|lra]. nra.
Qed.

(** angle of two vectors from their Gram matrix *)
Definition gang (A C H : R) : R := acos (H / (sqrt A * sqrt C)).

Lemma gang_split A C H : 0 < A -> 0 < C -> 0 < A * C - H * H ->
  gang A (A + 2*H + C) (A + H) + gang (A + 2*H + C) C (H + C) = gang A C H.
Proof.
  intros HA HC HD. unfold gang.
  assert (HDp : 0 < A + 2*H + C).
  { destruct (Rlt_or_le 0 (A+2*H+C)) as [|Hn]; [assumption|exfalso].
    assert (0 <= (A-C)*(A-C)) by apply Rle_0_sqr.
    assert ((A+C)*(A+C) <= (-2*H)*(-2*H)) by (apply Rmult_le_compat; lra). nra. }
  set (D := A + 2*H + C) in *.
  pose proof (sqrt_pos A HA) as pA. pose proof (sqrt_pos C HC) as pC. pose proof (sqrt_pos D HDp) as pD.
  pose proof (sqrt_pos _ HD) as pK.
  pose proof (sq_sqrt A HA) as qA. pose proof (sq_sqrt C HC) as qC. pose proof (sq_sqrt D HDp) as qD.
  pose proof (sq_sqrt _ HD) as qK.
  set (sA := sqrt A) in *; set (sC := sqrt C) in *; set (sD := sqrt D) in *; set (K := sqrt (A*C-H*H)) in *.
  assert (pAD : 0 < sA * sD) by nra. assert (pDC : 0 < sD * sC) by nra. assert (pAC : 0 < sA * sC) by nra.
  assert (E1 : (A+H)*(A+H) + K*K = (sA*sD)*(sA*sD)).
  { rewrite qK. replace (sA*sD*(sA*sD)) with ((sA*sA)*(sD*sD)) by ring. rewrite qA, qD. unfold D. ring. }
  assert (E2 : (H+C)*(H+C) + K*K = (sD*sC)*(sD*sC)).
  { rewrite qK. replace (sD*sC*(sD*sC)) with ((sD*sD)*(sC*sC)) by ring. rewrite qC, qD. unfold D. ring. }
  assert (E3 : H*H + K*K = (sA*sC)*(sA*sC)).
  { rewrite qK. replace (sA*sC*(sA*sC)) with ((sA*sA)*(sC*sC)) by ring. rewrite qA, qC. ring. }
  pose proof (sin_acos_ratio _ _ K pAD (Rlt_le _ _ pK) E1) as S1.
  pose proof (sin_acos_ratio _ _ K pDC (Rlt_le _ _ pK) E2) as S2.
  assert (B1 : -1 <= (A+H)/(sA*sD) <= 1) by (apply ratio_bound; nra).
  assert (B2 : -1 <= (H+C)/(sD*sC) <= 1) by (apply ratio_bound; nra).
  set (al := acos ((A+H)/(sA*sD))) in *. set (be := acos ((H+C)/(sD*sC))) in *.
  assert (C1 : cos al = (A+H)/(sA*sD)) by (apply cos_acos; assumption).
  assert (C2 : cos be = (H+C)/(sD*sC)) by (apply cos_acos; assumption).
  destruct (acos_bound ((A+H)/(sA*sD))) as [l1 u1]. destruct (acos_bound ((H+C)/(sD*sC))) as [l2 u2].
  fold al in l1, u1. fold be in l2, u2.
  assert (BH : - (sA*sC) <= H) by nra.
  assert (Hle : al <= PI - be).
  { destruct (Rle_or_lt al (PI - be)) as [|Hc]; [assumption|exfalso].
    apply cos_decreasing_1 in Hc; try lra.
    rewrite Rtrigo_facts.cos_pi_minus in Hc. rewrite C1, C2 in Hc.
    assert (0 <= (A+H)/(sA*sD) + (H+C)/(sD*sC)).
    { replace ((A+H)/(sA*sD) + (H+C)/(sD*sC)) with ((sA+sC)*(sA*sC+H)/(sD*(sA*sC))).
      - apply Rle_div_r; [nra|]. assert (0 <= (sA+sC)*(sA*sC+H)) by (apply Rmult_le_pos; lra). lra.
      - rewrite <- qA, <- qC. field. lra. }
    lra. }
  rewrite <- (acos_cos (al + be)) by lra.
  f_equal. rewrite cos_plus, C1, C2, S1, S2.
  replace ((A+H)/(sA*sD)*((H+C)/(sD*sC)) - K/(sA*sD)*(K/(sD*sC)))
    with (((A+H)*(H+C) - K*K)/(sA*sC*(sD*sD))) by (field; lra).
  rewrite qK, qD. replace ((A+H)*(H+C) - (A*C-H*H)) with (H*D) by (unfold D; ring).
  field. repeat split; lra.
Qed.

Lemma gang_neg A C H : gang A C (-H) = PI - gang A C H.
Proof. unfold gang. rewrite <- acos_opp. f_equal. unfold Rdiv. ring. Qed.
Lemma gang_sym A C H : gang A C H = gang C A H.
Proof. unfold gang. rewrite (Rmult_comm (sqrt A)). reflexivity. Qed.
Lemma gang_zero A C : gang A C 0 = PI/2.
Proof. unfold gang. unfold Rdiv at 1. rewrite Rmult_0_l. apply acos_0. Qed.

(** the form whose Gram matrix gives the angle at the vertex [P] *)
Definition Bf (P a b : vec) : R := dot a b * dot P P - dot P a * dot P b.
Definition vang (P a b : vec) : R := gang (Bf P a a) (Bf P b b) (Bf P a b).

Ltac vec_ring := unfold Bf, dot, vadd, vsub, vneg, vscale; cbn [vx vy vz]; ring.

Lemma dot_pos P : 0 < vx P + vy P + vz P -> 0 < dot P P.
Proof.
  intros. unfold dot. set (a := vx P) in *. set (b := vy P) in *. set (c := vz P) in *.
  assert (0 < (a+b+c)*(a+b+c)) by (apply Rmult_lt_0_compat; assumption).
  pose proof (Rle_0_sqr (a-b)). pose proof (Rle_0_sqr (b-c)). pose proof (Rle_0_sqr (c-a)). unfold Rsqr in *. nra.
Qed.

Lemma Bf_lagrange P a : Bf P a a =
  Rsqr (vx P * vy a - vy P * vx a) + Rsqr (vy P * vz a - vz P * vy a) + Rsqr (vz P * vx a - vx P * vz a).
Proof. unfold Rsqr. vec_ring. Qed.

Lemma Bf_nonneg P a : 0 <= Bf P a a.
Proof. rewrite Bf_lagrange. repeat apply Rplus_le_le_0_compat; apply Rle_0_sqr. Qed.

(** the arc/angle computation of the code at unit vectors *)
Lemma cos_arc p q : dot p p = 1 -> dot q q = 1 -> -1 <= dot p q <= 1.
Proof.
  intros Hp Hq. pose proof (Bf_nonneg p q) as H. unfold Bf in H. rewrite Hp, Hq in H. nra.
Qed.

Lemma arc_angle p q r : dot p p = 1 -> dot q q = 1 -> dot r r = 1 ->
  interior_angle (acos (dot q r)) (acos (dot p q)) (acos (dot p r))
  = acos ((dot q r - dot p q * dot p r) / (sqrt (Bf p q q) * sqrt (Bf p r r))).
Proof.
  intros Hp Hq Hr. unfold interior_angle.
  rewrite !cos_acos, !sin_acos by (apply cos_arc; assumption).
  do 5 f_equal; unfold Bf, Rsqr; rewrite ?Hp, ?Hq, ?Hr; ring.
Qed.

Lemma dot_sym a b : dot a b = dot b a. Proof. unfold dot; ring. Qed.

Definition len (P : vec) := sqrt (dot P P).
Lemma to_sphere_eq P : 0 < dot P P -> to_sphere P = vscale (/ len P) P.
Proof. intros. unfold to_sphere, len, dot, vscale. f_equal; unfold Rdiv; ring. Qed.

Lemma dot_scale a P b Q : dot (vscale a P) (vscale b Q) = a * b * dot P Q.
Proof. vec_ring. Qed.

Lemma to_sphere_unit P : 0 < dot P P -> dot (to_sphere P) (to_sphere P) = 1.
Proof.
  intros H. rewrite to_sphere_eq by assumption. rewrite dot_scale. unfold len.
  pose proof (sqrt_pos _ H). pose proof (sq_sqrt _ H) as E. rewrite <- E at 3. field. lra.
Qed.

Lemma Bf_scale a P b Q c R0 : Bf (vscale a P) (vscale b Q) (vscale c R0) = a*a*b*c * Bf P Q R0.
Proof. vec_ring. Qed.

(** the angle at [P] of the spherical triangle of [P], [Q], [R0] *)
Lemma sphere_angle P Q R0 : 0 < dot P P -> 0 < dot Q Q -> 0 < dot R0 R0 -> 0 < Bf P Q Q -> 0 < Bf P R0 R0 ->
  interior_angle (acos (dot (to_sphere Q) (to_sphere R0))) (acos (dot (to_sphere P) (to_sphere Q)))
    (acos (dot (to_sphere P) (to_sphere R0)))
  = vang P Q R0.
Proof.
  intros HP HQ HR BQ BR.
  rewrite arc_angle by (apply to_sphere_unit; assumption).
  rewrite !to_sphere_eq by assumption. unfold vang, gang. f_equal.
  rewrite !Bf_scale, !dot_scale.
  pose proof (sqrt_pos _ HP) as p1. pose proof (sqrt_pos _ HQ) as p2. pose proof (sqrt_pos _ HR) as p3.
  pose proof (sq_sqrt _ HP) as q1. pose proof (sq_sqrt _ HQ) as q2. pose proof (sq_sqrt _ HR) as q3.
  unfold len. set (lP := sqrt (dot P P)) in *. set (lQ := sqrt (dot Q Q)) in *. set (lR := sqrt (dot R0 R0)) in *.
  replace (/lP*/lP*/lQ*/lQ*Bf P Q Q) with (Rsqr (/lP*/lQ) * Bf P Q Q) by (unfold Rsqr; ring).
  replace (/lP*/lP*/lR*/lR*Bf P R0 R0) with (Rsqr (/lP*/lR) * Bf P R0 R0) by (unfold Rsqr; ring).
  rewrite !sqrt_mult by (try apply Rle_0_sqr; lra).
  assert (0 < /lP) by (apply Rinv_0_lt_compat; assumption).
  assert (0 < /lQ) by (apply Rinv_0_lt_compat; assumption).
  assert (0 < /lR) by (apply Rinv_0_lt_compat; assumption).
  rewrite !sqrt_Rsqr by nra.
  pose proof (sqrt_pos _ BQ). pose proof (sqrt_pos _ BR).
  set (sQ := sqrt (Bf P Q Q)) in *. set (sR := sqrt (Bf P R0 R0)) in *.
  unfold Bf. rewrite <- q1. field. repeat split; lra.
Qed.

(** the spherical excess of a proper spherical triangle is positive *)
Lemma excess_pos x y z : -1 < x < 1 -> -1 < y < 1 -> -1 < z < 1 ->
  0 < 1 + 2*x*y*z - x*x - y*y - z*z ->
  PI < acos ((x - y*z)/(sqrt (1-y*y) * sqrt (1-z*z))) + acos ((y - z*x)/(sqrt (1-z*z) * sqrt (1-x*x)))
       + acos ((z - x*y)/(sqrt (1-x*x) * sqrt (1-y*y))).
Proof.
  intros Hx Hy Hz HD.
  assert (px : 0 < 1 - x*x) by nra. assert (py : 0 < 1 - y*y) by nra. assert (pz : 0 < 1 - z*z) by nra.
  pose proof (sqrt_pos _ px) as sx0. pose proof (sqrt_pos _ py) as sy0. pose proof (sqrt_pos _ pz) as sz0.
  pose proof (sq_sqrt _ px) as qx. pose proof (sq_sqrt _ py) as qy. pose proof (sq_sqrt _ pz) as qz.
  pose proof (sqrt_pos _ HD) as pK. pose proof (sq_sqrt _ HD) as qK.
  set (sx := sqrt (1-x*x)) in *. set (sy := sqrt (1-y*y)) in *. set (sz := sqrt (1-z*z)) in *.
  set (K := sqrt (1 + 2*x*y*z - x*x - y*y - z*z)) in *.
  assert (pyz : 0 < sy*sz) by nra. assert (pzx : 0 < sz*sx) by nra. assert (pxy : 0 < sx*sy) by nra.
  assert (E1 : (x-y*z)*(x-y*z) + K*K = (sy*sz)*(sy*sz)).
  { rewrite qK. replace (sy*sz*(sy*sz)) with ((sy*sy)*(sz*sz)) by ring. rewrite qy, qz. ring. }
  assert (E2 : (y-z*x)*(y-z*x) + K*K = (sz*sx)*(sz*sx)).
  { rewrite qK. replace (sz*sx*(sz*sx)) with ((sx*sx)*(sz*sz)) by ring. rewrite qx, qz. ring. }
  assert (E3 : (z-x*y)*(z-x*y) + K*K = (sx*sy)*(sx*sy)).
  { rewrite qK. replace (sx*sy*(sx*sy)) with ((sx*sx)*(sy*sy)) by ring. rewrite qx, qy. ring. }
  pose proof (sin_acos_ratio _ _ K pzx (Rlt_le _ _ pK) E2) as S2.
  pose proof (sin_acos_ratio _ _ K pxy (Rlt_le _ _ pK) E3) as S3.
  assert (B1 : -1 <= (x-y*z)/(sy*sz) <= 1) by (apply ratio_bound; nra).
  assert (B2 : -1 <= (y-z*x)/(sz*sx) <= 1) by (apply ratio_bound; nra).
  assert (B3 : -1 <= (z-x*y)/(sx*sy) <= 1) by (apply ratio_bound; nra).
  set (al := acos ((x-y*z)/(sy*sz))) in *. set (be := acos ((y-z*x)/(sz*sx))) in *.
  set (ga := acos ((z-x*y)/(sx*sy))) in *.
  assert (C1 : cos al = (x-y*z)/(sy*sz)) by (apply cos_acos; assumption).
  assert (C2 : cos be = (y-z*x)/(sz*sx)) by (apply cos_acos; assumption).
  assert (C3 : cos ga = (z-x*y)/(sx*sy)) by (apply cos_acos; assumption).
  destruct (acos_bound ((x-y*z)/(sy*sz))) as [l1 u1]. destruct (acos_bound ((y-z*x)/(sz*sx))) as [l2 u2].
  destruct (acos_bound ((z-x*y)/(sx*sy))) as [l3 u3].
  fold al in l1, u1. fold be in l2, u2. fold ga in l3, u3.
  (* alpha > 0 strictly *)
  assert (al0 : 0 < al).
  { destruct l1 as [|l1]; [assumption|]. exfalso. rewrite <- l1, cos_0 in C1.
    assert ((x-y*z)/(sy*sz) < 1) by (apply ratio_bound_lt; nra). lra. }
  destruct (Rle_or_lt (be + ga) PI) as [Hle|Hgt]; [|lra].
  assert (Hc : cos al < cos (PI - (be + ga))).
  { rewrite Rtrigo_facts.cos_pi_minus, cos_plus, C1, C2, C3, S2, S3.
    apply Rminus_gt_0_lt.
    replace (- ((y-z*x)/(sz*sx)*((z-x*y)/(sx*sy)) - K/(sz*sx)*(K/(sx*sy))) - (x-y*z)/(sy*sz))
      with ((K*K - (y-z*x)*(z-x*y) - (x-y*z)*(sx*sx))/(sx*sx*(sy*sz))) by (field; lra).
    rewrite qK, qx. apply Rlt_div_r; [nra|].
    replace (1 + 2*x*y*z - x*x - y*y - z*z - (y-z*x)*(z-x*y) - (x-y*z)*(1-x*x))
      with ((1 + 2*x*y*z - x*x - y*y - z*z)*(1-x)) by ring.
    rewrite Rmult_0_l. apply Rmult_lt_0_compat; lra. }
  assert (PI - (be + ga) < al); [|lra].
  apply cos_decreasing_0; lra.
Qed.

Lemma gram_pos p q r : dot p p = 1 -> dot q q = 1 -> dot r r = 1 ->
  1 + 2*dot p q*dot q r*dot r p - dot p q*dot p q - dot q r*dot q r - dot r p*dot r p
  = Rsqr (dot p (cross q r)).
Proof.
  intros Hp Hq Hr.
  assert (E : dot p p * dot q q * dot r r + 2*dot p q*dot q r*dot r p - dot r r*(dot p q*dot p q)
     - dot p p*(dot q r*dot q r) - dot q q*(dot r p*dot r p) = Rsqr (dot p (cross q r))).
  { unfold Rsqr, dot, cross; cbn [vx vy vz]; ring. }
  rewrite <- E, Hp, Hq, Hr. ring.
Qed.
