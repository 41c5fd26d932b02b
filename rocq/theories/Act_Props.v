(** C90: actuator lines. *)
Require Import Reals List Bool Lra Lia Arith.
From Coquelicot Require Import Coquelicot.
From Verif Require Import RUtil Edge_Model Edge_Proofs Elem_Proofs Rad_Quad_Proofs3 Turb_Model Turb_Props Src_Model Act_Model.
Import ListNotations.
Open Scope R_scope.

Theorem C90_machine_on_existing_rank : forall np nt i, (0 < np)%nat -> (0 < nt)%nat -> (act_proc np nt i < np)%nat /\ act_proc np nt i = Nat.modulo i np.
Proof.
  intros np nt i Hp Ht. unfold act_proc. cbv zeta. assert (E : Nat.max (np/nt) np = np).
  { apply Nat.max_r. apply Nat.div_le_upper_bound; nia. }
  rewrite E. destruct (Nat.ltb_spec 0 np); [|lia]. split; [apply Nat.mod_upper_bound; lia|reflexivity].
Qed.

(* ------------------------------------------------------------------ points *)
Theorem C90_points_divide_line : forall n tip tail j, (2 <= n)%nat ->
  model_point n tip tail 0 j = tail j /\ model_point n tip tail (n-1) j = tip j /\
  forall k, (S k < n)%nat -> model_point n tip tail (S k) j - model_point n tip tail k j = (tip j - tail j)/(INR n - 1).
Proof.
  intros n tip tail j Hn. unfold model_point, line_dx. rewrite Nat.max_l by lia. rewrite minus_INR by lia. change (INR 1) with 1.
  assert (P : 2 <= INR n) by (change 2 with (INR 2); apply le_INR; assumption).
  split; [change (INR 0) with 0; ring|]. split; [field; lra|]. intros k Hk. rewrite S_INR. field. lra.
Qed.
Theorem C90_single_point_at_tail : forall tip tail j, model_point 1 tip tail 0 j = tail j.
Proof. intros. unfold model_point. change (INR 0) with 0. ring. Qed.
(** squared distance in three dimensions *)
Definition dist2 (a b : nat -> R) : R := (a 0%nat - b 0%nat)^2 + (a 1%nat - b 1%nat)^2 + (a 2%nat - b 2%nat)^2.
Lemma sc t : sin t * sin t + cos t * cos t = 1. Proof. pose proof (sin2_cos2 t). unfold Rsqr in *. lra. Qed.
Theorem C90_rotation_is_rigid : forall c x y omega t, dist2 (current_point c x omega t) (current_point c y omega t) = dist2 x y /\
  current_point c x omega t 0%nat = x 0%nat /\ dist2 (current_point c x omega t) c = dist2 x c.
Proof.
  intros c x y omega t. unfold dist2, current_point. set (s := sin (omega*t)). set (k := cos (omega*t)).
  assert (E : s*s + k*k = 1) by apply sc. assert (E2 : k*k = 1 - s*s) by lra. split; [|split; [reflexivity|]]; ring_simplify; ring [E2].
Qed.
Theorem C90_rotation_starts_and_returns : forall c x omega j, current_point c x omega 0 j = x j /\
  (omega <> 0 -> current_point c x omega (2*PI/omega) j = x j).
Proof.
  intros c x omega j. unfold current_point. split.
  - rewrite Rmult_0_r, sin_0, cos_0. destruct j as [|[|[|j]]]; ring.
  - intros H. replace (omega*(2*PI/omega)) with (2*PI) by (field; assumption). rewrite sin_2PI, cos_2PI. destruct j as [|[|[|j]]]; ring.
Qed.
Theorem C90_points_stay_centred : forall n tip tail omega t j, (2 <= n)%nat ->
  line_point n tip tail omega t 0 j + line_point n tip tail omega t (n-1) j = 2 * line_mid tip tail j.
Proof.
  intros n tip tail omega t j Hn. unfold line_point, current_point, line_mid.
  destruct (C90_points_divide_line n tip tail 1 Hn) as (A0 & A1 & _). destruct (C90_points_divide_line n tip tail 2 Hn) as (B0 & B1 & _). destruct (C90_points_divide_line n tip tail j Hn) as (D0 & D1 & _).
  destruct j as [|[|[|j]]]; rewrite ?A0, ?A1, ?B0, ?B1, ?D0, ?D1; field.
Qed.
(** in two dimensions the rotation is still in the y-z plane: a line along y shrinks *)
Theorem C90_planar_line_keeps_length_refuted : exists tip tail omega t, tip 2%nat = 0 /\ tail 2%nat = 0 /\
  let p := line_point 2 tip tail omega t in
  (p 1%nat 0%nat - p 0%nat 0%nat)^2 + (p 1%nat 1%nat - p 0%nat 1%nat)^2 <> (tip 0%nat - tail 0%nat)^2 + (tip 1%nat - tail 1%nat)^2.
Proof.
  exists (fun j => match j with 1%nat => 1 | _ => 0 end), (fun _ => 0), 1, (PI/2). split; [reflexivity|]. split; [reflexivity|].
  cbv zeta. unfold line_point, current_point, model_point, line_dx, line_mid. replace (1*(PI/2)) with (PI/2) by ring. rewrite sin_PI2, cos_PI2. change (Nat.max (2-1) 1) with 1%nat. cbn [INR]. lra.
Qed.
(** the velocity handed to the drag law has the speed of the motion and is tangent to the circle ... *)
Theorem C90_velocity_tangent_with_right_speed : forall c x omega,
  let v := current_velocity c x omega in
  v 0%nat * (x 0%nat - c 0%nat) + v 1%nat * (x 1%nat - c 1%nat) + v 2%nat * (x 2%nat - c 2%nat) = 0 /\
  v 0%nat^2 + v 1%nat^2 + v 2%nat^2 = omega^2 * ((x 1%nat - c 1%nat)^2 + (x 2%nat - c 2%nat)^2).
Proof. intros c x omega v. unfold v, current_velocity. split; ring. Qed.
(** ... but it is the opposite of the point's motion *)
Theorem C90_velocity_is_minus_motion : forall n tip tail omega t k j,
  is_derive (fun t => line_point n tip tail omega t k j) t (- line_velocity n tip tail omega t k j) \/ (2 < j)%nat.
Proof.
  intros n tip tail omega t k j. destruct j as [|[|[|j]]]; [left|left|left|right; lia].
  - unfold line_velocity, current_velocity, line_point, current_point. rewrite Ropp_0. apply (@is_derive_const R_AbsRing R_NormedModule).
  - unfold line_velocity, current_velocity, line_point, current_point. auto_derive; [trivial|]. ring.
  - unfold line_velocity, current_velocity, line_point, current_point. auto_derive; [trivial|]. ring.
Qed.
Theorem C90_velocity_is_motion_refuted : exists n tip tail omega t k j, (j < 3)%nat /\ ~ is_derive (fun t => line_point n tip tail omega t k j) t (line_velocity n tip tail omega t k j).
Proof.
  exists 2%nat, (fun j => match j with 1%nat => 1 | _ => 0 end), (fun _ => 0), 1, 0, 1%nat, 2%nat. split; [lia|]. intros H.
  destruct (C90_velocity_is_minus_motion 2 (fun j => match j with 1%nat => 1 | _ => 0 end) (fun _ => 0) 1 0 1 2) as [G|G]; [|lia].
  assert (E := is_derive_unique _ _ _ H). rewrite (is_derive_unique _ _ _ G) in E. unfold line_velocity, current_velocity, line_point, current_point, model_point, line_dx, line_mid in E.
  rewrite Rmult_0_r, sin_0, cos_0 in E. change (Nat.max (2-1) 1) with 1%nat in E. cbn [INR] in E. lra.
Qed.

(* ------------------------------------------------------------------ drag law *)
Lemma cbrt_mono a b : 0 <= a <= b -> cbrt a <= cbrt b.
Proof.
  intros [H0 H1]. unfold cbrt, cpow. destruct (Req_EM_T a 0) as [->|Na].
  - destruct (Req_EM_T b 0); [lra|]. left. apply exp_pos.
  - destruct (Req_EM_T b 0); [lra|]. destruct H1 as [H1| ->]; [|lra]. left. apply Rlt_Rpower_l; lra.
Qed.
Lemma cbrt_1000 : cbrt 1000 = 10.
Proof.
  unfold cbrt, cpow. destruct (Req_EM_T 1000 0); [lra|]. replace 1000 with (10^3) by ring. rewrite <- Rpower_pow by lra. rewrite Rpower_mult.
  replace (INR 3 * (1/3)) with 1 by (cbn; field). apply Rpower_1. lra.
Qed.
Lemma cbrt_cube x : 0 <= x -> cbrt x * cbrt x * cbrt x = x.
Proof.
  intros H. unfold cbrt, cpow. destruct (Req_EM_T x 0) as [->|N]; [ring|]. rewrite <- !Rpower_plus. replace (1/3 + 1/3 + 1/3) with 1 by field. apply Rpower_1. lra.
Qed.
(** never below Stokes drag, never decreasing in the Reynolds number, the two branches meet at 1000 *)
Theorem C90_drag_factor_bounds : forall Re Re', 0 <= Re <= Re' -> 1 <= drag_factor Re <= drag_factor Re'.
Proof.
  intros Re Re' [H0 H1]. unfold drag_factor. cbv zeta.
  assert (N : forall x, 0 <= cbrt x) by (intros; apply cpow_nonneg).
  assert (A : forall x, 1 <= 1 + cbrt x * cbrt x / 6) by (intros x; pose proof (N x); nra).
  destruct (Rlt_dec Re 1000) as [L|G]; destruct (Rlt_dec Re' 1000) as [L'|G'].
  - split; [apply A|]. pose proof (cbrt_mono Re Re' (conj H0 H1)). pose proof (N Re). nra.
  - split; [apply A|]. pose proof (cbrt_mono Re 1000 ltac:(lra)) as M. rewrite cbrt_1000 in M. pose proof (N Re). nra.
  - lra.
  - lra.
Qed.
Theorem C90_drag_factor_limits : drag_factor 0 = 1 /\ drag_factor 1000 = 1 + cbrt 1000 * cbrt 1000 / 6.
Proof.
  unfold drag_factor. cbv zeta. destruct (Rlt_dec 0 1000); [|lra]. destruct (Rlt_dec 1000 1000); [lra|]. rewrite cbrt_1000. split; [|lra].
  unfold cbrt, cpow. destruct (Req_EM_T 0 0); [lra|contradiction].
Qed.
(** Schiller-Naumann below 1000 with the cube root of the Reynolds number *)
Theorem C90_drag_factor_low : forall Re, 0 <= Re < 1000 -> exists c, 0 <= c /\ c*c*c = Re /\ drag_factor Re = 1 + c*c/6.
Proof. intros Re [H0 H]. exists (cbrt Re). split; [apply cpow_nonneg|]. split; [apply cbrt_cube; assumption|]. unfold drag_factor. cbv zeta. destruct (Rlt_dec Re 1000); [reflexivity|lra]. Qed.
Lemma rel_mag_nonneg d v u : 0 <= rel_mag d v u. Proof. apply sqrt_pos. Qed.
Lemma drag_re_nonneg d r v u mu rho : 0 <= r -> 0 < mu -> 0 <= rho -> 0 <= drag_re d r v u mu rho.
Proof. intros. unfold drag_re, Rdiv. pose proof (rel_mag_nonneg d v u). apply Rmult_le_pos; [|left; apply Rinv_0_lt_compat; assumption]. apply Rmult_le_pos; [|assumption]. apply Rmult_le_pos; lra. Qed.
Lemma stokes_nonneg mu r : 0 < mu -> 0 <= r -> 0 <= 6*PI*mu*r.
Proof. intros. pose proof PI_RGT_0. apply Rmult_le_pos; [|assumption]. apply Rmult_le_pos; [|lra]. apply Rmult_le_pos; lra. Qed.
(** the force on the gas is along the slip velocity with the positive matrix coefficient, so it always opposes the slip *)
Theorem C90_drag_opposes_slip : forall d r v u mu rho, 0 <= r -> 0 < mu -> 0 <= rho ->
  (forall j, point_force d r v u mu rho j = point_lhs d r v u mu rho * (v j - u j)) /\
  6*PI*mu*r <= point_lhs d r v u mu rho /\ 0 <= sumn d (fun j => point_force d r v u mu rho j * (v j - u j)).
Proof.
  intros d r v u mu rho Hr Hm Hrho. split; [reflexivity|].
  assert (K : 6*PI*mu*r <= point_lhs d r v u mu rho).
  { unfold point_lhs. pose proof (C90_drag_factor_bounds _ _ (conj (drag_re_nonneg d r v u mu rho Hr Hm Hrho) (Rle_refl _))) as [B _].
    assert (0 <= 6*PI*mu*r) by (apply stokes_nonneg; assumption). rewrite <- (Rmult_1_r (6*PI*mu*r)) at 1. apply Rmult_le_compat_l; assumption. }
  split; [assumption|]. apply sumn_nonneg. intros j _. change (point_force d r v u mu rho j) with (point_lhs d r v u mu rho * (v j - u j)).
  assert (0 <= 6*PI*mu*r) by (apply stokes_nonneg; assumption). pose proof (Rle_0_sqr (v j - u j)). unfold Rsqr in *. rewrite Rmult_assoc. apply Rmult_le_pos; lra.
Qed.
Theorem C90_no_slip_no_force : forall d r v mu rho j, point_force d r v v mu rho j = 0.
Proof. intros. unfold point_force. ring. Qed.
(** fast flow: quadratic drag with coefficient 0.424 on the disc pi r^2, independent of viscosity *)
Theorem C90_fast_flow_drag : forall d r v u mu rho j, 0 < mu -> 1000 <= drag_re d r v u mu rho ->
  point_force d r v u mu rho j = 1/2*rho*(424/1000)*(PI*r^2)*rel_mag d v u*(v j - u j).
Proof.
  intros d r v u mu rho j Hm H. unfold point_force, drag_factor. cbv zeta. destruct (Rlt_dec (drag_re d r v u mu rho) 1000); [lra|]. unfold drag_re. field. lra.
Qed.

(* ------------------------------------------------------------------ spreading *)
Theorem C90_weight_value : forall d r eps, eps <> 0 -> (d = 2 \/ d = 3)%nat ->
  node_weight d r eps = exp (- r^2) / (eps^d * Rpower PI (INR d/2)).
Proof.
  intros d r eps H Hd. unfold node_weight. pose proof PI_RGT_0. replace (- r*r/eps*eps) with (- r^2) by (field; assumption).
  destruct Hd as [-> | ->]; cbn [Nat.eqb].
  - replace (INR 2/2) with 1 by (cbn; field). rewrite Rpower_1 by lra. field. repeat split; first [assumption | lra].
  - replace (INR 3/2) with (3/2) by (cbn; field). field. repeat split; first [assumption | apply Rgt_not_eq, exp_pos].
Qed.
Theorem C90_weight_decays : forall d r r' eps, 0 < eps -> (d = 2 \/ d = 3)%nat -> 0 <= r <= r' -> 0 < node_weight d r' eps <= node_weight d r eps.
Proof.
  intros d r r' eps He Hd [H0 H1]. rewrite !C90_weight_value by (assumption || lra).
  assert (D : 0 < eps^d * Rpower PI (INR d/2)) by (apply Rmult_lt_0_compat; [apply pow_lt; assumption|apply exp_pos]).
  split; [apply Rmult_lt_0_compat; [apply exp_pos|apply Rinv_0_lt_compat; assumption]|].
  apply Rmult_le_compat_r; [left; apply Rinv_0_lt_compat; assumption|]. assert (L : - r'^2 <= - r^2) by nra. destruct L as [L|L]; [left; apply exp_increasing; assumption|rewrite L; lra].
Qed.
(** the specified decay radius does not set the width: the exponent has -r^2/eps*eps where -(r/eps)^2 is meant *)
Theorem C90_decay_radius_sets_width_refuted : exists r eps, 0 < eps /\ node_weight 3 r eps <> exp (- (r/eps)^2) / (eps^3 * Rpower PI (3/2)).
Proof.
  exists 1, 2. split; [lra|]. rewrite C90_weight_value by (lra || (right; reflexivity)). replace (INR 3/2) with (3/2) by (cbn; field).
  assert (D : 0 < 2^3 * Rpower PI (3/2)) by (apply Rmult_lt_0_compat; [lra|apply exp_pos]). intros E.
  apply (f_equal (fun z => z * (2^3 * Rpower PI (3/2)))) in E. unfold Rdiv in E. rewrite !Rmult_assoc, !Rinv_l, !Rmult_1_r in E by lra.
  apply exp_inv in E. lra.
Qed.

(* ------------------------------------------------------------------ assembly of the source *)
Definition pforce (d : nat) (p : apoint) (j : nat) : R := point_force d (a_r p) (a_v p) (a_u p) (a_mu p) (a_rho p) j.
(** force density a point means to put on node n *)
Definition pshare (d : nat) (x : nat -> nat -> R) (p : apoint) (n j : nat) : R := pforce d p j * node_weight d (act_radius d (x n) (a_c p)) (a_eps p).
Definition reaches (p : apoint) (n : nat) : bool := existsb (Nat.eqb n) (a_nodes p).
Lemma spread_at d x p S n j : spread d x p S n j = if reaches p n && Nat.ltb j d then pshare d x p n j else S n j.
Proof.
  unfold spread, reaches. generalize (a_nodes p). intros l. revert S. induction l as [|k l IH]; intros S; [reflexivity|]. cbn [fold_left existsb]. rewrite IH.
  destruct (Nat.eqb_spec n k) as [->|]; cbn [orb andb].
  - destruct (Nat.ltb j d); rewrite ?andb_false_r; [|reflexivity]. destruct (existsb (Nat.eqb k) l); reflexivity.
  - reflexivity.
Qed.
Lemma act_rank_split d x pts : fst (act_rank d x pts) = fold_left (fun S p => spread d x p S) pts (fun _ _ => 0) /\ snd (act_rank d x pts) = fold_left (fun L p => best_lhs d p L) pts (fun _ _ => 0).
Proof.
  assert (G : forall l (a b : nat -> nat -> R), let r := fold_left (fun st p => (spread d x p (fst st), best_lhs d p (snd st))) l (a, b) in
    fst r = fold_left (fun S p => spread d x p S) l a /\ snd r = fold_left (fun L p => best_lhs d p L) l b).
  { clear. induction l as [|p l IH]; intros a b; [split; reflexivity|]. cbn [fold_left]. apply IH. }
  apply G.
Qed.
(** on one rank the last point (in order) that reaches a node determines its source *)
Theorem C90_last_point_wins : forall d x pts1 p pts2 n j, (j < d)%nat -> reaches p n = true -> (forall q, In q pts2 -> reaches q n = false) ->
  fst (act_rank d x (pts1 ++ p :: pts2)) n j = pshare d x p n j.
Proof.
  intros d x pts1 p pts2 n j Hj Hp H2. rewrite (proj1 (act_rank_split d x _)), fold_left_app. cbn [fold_left]. generalize (fold_left (fun S p => spread d x p S) pts1 (fun _ _ => 0)). intros S0.
  assert (G : forall l S, (forall q, In q l -> reaches q n = false) -> fold_left (fun S p => spread d x p S) l S n j = S n j).
  { clear. induction l as [|q l IH]; intros S H; [reflexivity|]. cbn [fold_left]. rewrite IH by (intros; apply H; right; assumption). rewrite spread_at, H by (left; reflexivity). reflexivity. }
  rewrite G by assumption. rewrite spread_at, Hp. destruct (Nat.ltb_spec j d); [reflexivity|lia].
Qed.
Theorem C90_unreached_node : forall d x pts n j, (forall q, In q pts -> reaches q n = false) -> fst (act_rank d x pts) n j = 0.
Proof.
  intros d x pts n j H. rewrite (proj1 (act_rank_split d x pts)).
  assert (G : forall l S, (forall q, In q l -> reaches q n = false) -> fold_left (fun S p => spread d x p S) l S n j = S n j).
  { clear. induction l as [|q l IH]; intros S H; [reflexivity|]. cbn [fold_left]. rewrite IH by (intros; apply H; right; assumption). rewrite spread_at, H by (left; reflexivity). reflexivity. }
  rewrite G by assumption. reflexivity.
Qed.
