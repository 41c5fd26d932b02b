(** * C65: eddy viscosities (TurbVisc*Algorithm.C) *)
From Coq Require Import Reals List Bool Arith Lia Lra Psatz.
From Verif Require Import Edge_Model Edge_Proofs Elem_Model Elem_Proofs Tensor_Props Prop_Props Turb_Model.
Import ListNotations.
Local Open Scope R_scope.

(* ------------------------------------------------------------ specification *)
(** [Q] is a rotation or reflection of the coordinate axes *)
Definition orth (n : nat) (Q : mat) : Prop :=
  (forall i j, (i < n)%nat -> (j < n)%nat -> sumn n (fun k => Q k i * Q k j) = kd i j) /\
  (forall i j, (i < n)%nat -> (j < n)%nat -> sumn n (fun k => Q i k * Q j k) = kd i j).
(** the velocity gradient seen in the turned axes: x' = Q x, u' = Q u, so g' = Q g Q^T *)
Definition turned (n : nat) (Q g : mat) : mat := fun i j => sumn n (fun k => sumn n (fun l => Q i k * Q j l * g k l)).
Definition antisym (g : mat) : Prop := forall i j, g j i = - g i j.

(* ------------------------------------------------------------ algebra *)
Lemma sumn_kd n k f : (k < n)%nat -> sumn n (fun i => kd i k * f i) = f k.
Proof.
  induction n as [|n IH]; [lia|]. intros H. rewrite sumn_S. destruct (Nat.eq_dec k n) as [->|E].
  - rewrite (sumn_ext n _ (fun _ => 0)).
    + rewrite sumn_zero by reflexivity. unfold kd. rewrite Nat.eqb_refl. ring.
    + intros i Hi. unfold kd. destruct (Nat.eqb_spec i n); [lia|ring].
  - rewrite IH by lia. unfold kd. destruct (Nat.eqb_spec n k); [lia|ring].
Qed.
Lemma iso n Q v w : (forall i j, (i < n)%nat -> (j < n)%nat -> sumn n (fun k => Q k i * Q k j) = kd i j) ->
  sumn n (fun i => sumn n (fun k => Q i k * v k) * sumn n (fun k => Q i k * w k)) = sumn n (fun k => v k * w k).
Proof.
  intros HQ.
  rewrite (sumn_ext n _ (fun i => sumn n (fun k => sumn n (fun l => v k * w l * (Q i k * Q i l))))).
  2:{ intros i _. rewrite <- sumn_scal_r. apply sumn_ext. intros k _. rewrite <- sumn_scal. apply sumn_ext. intros l _. ring. }
  rewrite sumn_swap. apply sumn_ext. intros k Hk. rewrite sumn_swap.
  rewrite (sumn_ext n _ (fun l => kd l k * (v k * w l))).
  - rewrite sumn_kd by exact Hk. reflexivity.
  - intros l Hl. rewrite sumn_scal, (HQ k l Hk Hl). unfold kd. rewrite Nat.eqb_sym. ring.
Qed.
Lemma turned_in n Q g i j : turned n Q g i j = sumn n (fun k => Q i k * sumn n (fun l => Q j l * g k l)).
Proof. unfold turned. apply sumn_ext. intros k _. rewrite <- sumn_scal. apply sumn_ext. intros; ring. Qed.
Lemma turned_out n Q g i j : turned n Q g i j = sumn n (fun l => Q j l * sumn n (fun k => Q i k * g k l)).
Proof. unfold turned. rewrite sumn_swap. apply sumn_ext. intros l _. rewrite <- sumn_scal. apply sumn_ext. intros; ring. Qed.
Lemma turned_T n Q g i j : turned n Q g j i = turned n Q (fun k l => g l k) i j.
Proof. rewrite turned_out, turned_in. reflexivity. Qed.
Lemma turned_lin n Q a b g h i j : a * turned n Q g i j + b * turned n Q h i j = turned n Q (fun k l => a * g k l + b * h k l) i j.
Proof.
  unfold turned. rewrite <- !sumn_scal, <- sumn_plus. apply sumn_ext. intros k _.
  rewrite <- !sumn_scal, <- sumn_plus. apply sumn_ext. intros l _. ring.
Qed.
Lemma turned_ext n Q g h i j : (forall k l, (k < n)%nat -> (l < n)%nat -> g k l = h k l) -> turned n Q g i j = turned n Q h i j.
Proof. intros H. unfold turned. apply sumn_ext. intros k Hk. apply sumn_ext. intros l Hl. rewrite H by assumption. reflexivity. Qed.
Lemma turned_kd n Q i j : orth n Q -> (i < n)%nat -> (j < n)%nat -> turned n Q kd i j = kd i j.
Proof.
  intros [_ H] Hi Hj. rewrite turned_in, <- (H i j Hi Hj). apply sumn_ext. intros k Hk. f_equal.
  rewrite (sumn_ext n _ (fun l => kd l k * Q j l)) by (intros l _; unfold kd; rewrite Nat.eqb_sym; ring).
  apply sumn_kd. exact Hk.
Qed.
Lemma inner_turned n Q g h : orth n Q ->
  sumn n (fun i => sumn n (fun j => turned n Q g i j * turned n Q h i j)) = sumn n (fun i => sumn n (fun j => g i j * h i j)).
Proof.
  intros [HQ _].
  rewrite (sumn_ext n _ (fun i => sumn n (fun l => sumn n (fun k => Q i k * g k l) * sumn n (fun k => Q i k * h k l)))).
  2:{ intros i _. rewrite <- (iso n Q (fun l => sumn n (fun k => Q i k * g k l)) (fun l => sumn n (fun k => Q i k * h k l)) HQ). apply sumn_ext. intros j _. rewrite !turned_out. reflexivity. }
  rewrite sumn_swap. rewrite (sumn_ext n _ (fun l => sumn n (fun k => g k l * h k l))).
  - apply sumn_swap.
  - intros l _. apply (iso n Q (fun k => g k l) (fun k => h k l) HQ).
Qed.
Lemma frob2_turned n Q g : orth n Q -> frob2 n (turned n Q g) = frob2 n g.
Proof. intros. unfold frob2. apply inner_turned. assumption. Qed.
Lemma frob2_ext n g h : (forall i j, (i < n)%nat -> (j < n)%nat -> g i j = h i j) -> frob2 n g = frob2 n h.
Proof. intros H. unfold frob2. apply sumn_ext. intros i Hi. apply sumn_ext. intros j Hj. rewrite !H by assumption. reflexivity. Qed.
Lemma sij_turned n Q g i j : sij (turned n Q g) i j = turned n Q (sij g) i j.
Proof.
  unfold sij. rewrite (turned_T n Q g i j).
  replace (1 / 2 * (turned n Q g i j + turned n Q (fun k l => g l k) i j))
    with (1/2 * turned n Q g i j + 1/2 * turned n Q (fun k l => g l k) i j) by ring.
  rewrite turned_lin. apply turned_ext. intros; ring.
Qed.
Lemma gsq_turned n Q g i j : orth n Q -> gsq n (turned n Q g) i j = turned n Q (gsq n g) i j.
Proof.
  intros [HQ _]. unfold gsq.
  rewrite (sumn_ext n _ (fun m => sumn n (fun l => Q m l * sumn n (fun k => Q i k * g k l)) * sumn n (fun p => Q m p * sumn n (fun q => Q j q * g p q)))).
  2:{ intros m _. rewrite turned_out, turned_in. reflexivity. }
  rewrite (iso n Q _ _ HQ). rewrite turned_in.
  rewrite (sumn_ext n _ (fun l => sumn n (fun k => Q i k * (g k l * sumn n (fun q => Q j q * g l q))))).
  2:{ intros l _. rewrite <- sumn_scal_r. apply sumn_ext. intros; ring. }
  rewrite sumn_swap. apply sumn_ext. intros k _. rewrite sumn_scal. f_equal.
  rewrite (sumn_ext n (fun l => Q j l * sumn n (fun l0 => g k l0 * g l0 l)) (fun q => sumn n (fun l => g k l * (Q j q * g l q)))).
  2:{ intros q _. rewrite <- sumn_scal. apply sumn_ext. intros; ring. }
  rewrite sumn_swap. apply sumn_ext. intros l _. rewrite <- sumn_scal. reflexivity.
Qed.
Lemma gkkSq_turned n Q g : orth n Q -> gkkSq n (turned n Q g) = gkkSq n g.
Proof.
  intros H. unfold gkkSq. rewrite <- (inner_turned n Q g (fun k l => g l k) H).
  apply sumn_ext. intros i _. apply sumn_ext. intros j _. rewrite (turned_T n Q g i j). reflexivity.
Qed.
Lemma sijd_turned n Q g i j : orth n Q -> (i < n)%nat -> (j < n)%nat -> sijd n (turned n Q g) i j = turned n Q (sijd n g) i j.
Proof.
  intros H Hi Hj. unfold sijd. rewrite gkkSq_turned by exact H. rewrite !gsq_turned by exact H.
  rewrite (turned_T n Q (gsq n g) i j).
  replace (1 / 2 * (turned n Q (gsq n g) i j + turned n Q (fun k l => gsq n g l k) i j) - kd i j / 3 * gkkSq n g)
    with (1 * (1/2 * turned n Q (gsq n g) i j + 1/2 * turned n Q (fun k l => gsq n g l k) i j) + (- gkkSq n g / 3) * kd i j) by field.
  rewrite <- (turned_kd n Q i j H Hi Hj), !turned_lin. apply turned_ext. intros; field.
Qed.
Lemma sijMag_frob n g : sijMag n g = sqrt (2 * frob2 n (sij g)). Proof. reflexivity. Qed.
Lemma sijMag_turned n Q g : orth n Q -> sijMag n (turned n Q g) = sijMag n g.
Proof.
  intros H. rewrite !sijMag_frob. do 2 f_equal. rewrite <- (frob2_turned n Q (sij g) H).
  apply frob2_ext. intros; apply sij_turned.
Qed.
Lemma frob2_nonneg n g : 0 <= frob2 n g.
Proof. unfold frob2. apply Edge_Proofs.sumn_nonneg. intros i _. apply Edge_Proofs.sumn_nonneg. intros j _. apply Rle_0_sqr. Qed.
Lemma sijMag_nonneg n g : 0 <= sijMag n g. Proof. apply sqrt_pos. Qed.
Lemma cpow_nonneg x y : 0 <= cpow x y.
Proof. unfold cpow. destruct Req_EM_T; [lra|]. left. apply exp_pos. Qed.
Lemma cpow_pos x y : 0 < x -> 0 < cpow x y.
Proof. unfold cpow. destruct Req_EM_T; [lra|]. intros. apply exp_pos. Qed.

(* ------------------------------------------------------------ frame indifference *)
(** Turning (or reflecting) the coordinate axes changes none of the three gradient-based eddy viscosities. *)
Theorem C65_eddy_viscosity_axes_independent n Q g : orth n Q ->
  (forall aOne bs s, tvisc_sst n aOne bs s (turned n Q g) = tvisc_sst n aOne bs s g) /\
  (forall cs rho vol, tvisc_smag n cs rho vol (turned n Q g) = tvisc_smag n cs rho vol g) /\
  (forall cw rho vol, tvisc_wale n cw rho vol (turned n Q g) = tvisc_wale n cw rho vol g).
Proof.
  intros H. repeat split; intros.
  - unfold tvisc_sst. rewrite sijMag_turned by exact H. reflexivity.
  - unfold tvisc_smag. rewrite sijMag_turned by exact H. reflexivity.
  - unfold tvisc_wale.
    replace (frob2 n (sij (turned n Q g))) with (frob2 n (sij g))
      by (rewrite <- (frob2_turned n Q (sij g) H); apply frob2_ext; intros; symmetry; apply sij_turned).
    replace (frob2 n (sijd n (turned n Q g))) with (frob2 n (sijd n g))
      by (rewrite <- (frob2_turned n Q (sijd n g) H); apply frob2_ext; intros; symmetry; apply sijd_turned; assumption).
    reflexivity.
Qed.
Lemma sij_plus_antisym g w i j : antisym w -> sij (fun i j => g i j + w i j) i j = sij g i j.
Proof. intros H. unfold sij. rewrite (H i j). ring. Qed.
(** Superposing a rigid rotation (antisymmetric gradient) leaves the SST and Smagorinsky viscosities unchanged. *)
Theorem C65_rigid_rotation_invisible n g w : antisym w ->
  (forall aOne bs s, tvisc_sst n aOne bs s (fun i j => g i j + w i j) = tvisc_sst n aOne bs s g) /\
  (forall cs rho vol, tvisc_smag n cs rho vol (fun i j => g i j + w i j) = tvisc_smag n cs rho vol g).
Proof.
  intros H. assert (E : sijMag n (fun i j => g i j + w i j) = sijMag n g).
  { rewrite !sijMag_frob. do 2 f_equal. apply frob2_ext. intros. apply sij_plus_antisym. exact H. }
  split; intros; unfold tvisc_sst, tvisc_smag; rewrite E; reflexivity.
Qed.
(** In a rigid rotation the Smagorinsky viscosity vanishes and the SST one is rho k / omega. *)
Theorem C65_rigid_rotation_value n w : antisym w ->
  (forall cs rho vol, tvisc_smag n cs rho vol w = 0) /\
  (forall aOne bs s, 0 < aOne -> 0 < s_sdr s -> tvisc_sst n aOne bs s w = s_rho s * s_tke s / s_sdr s).
Proof.
  intros H. assert (E : sijMag n w = 0).
  { rewrite sijMag_frob. rewrite (frob2_ext n _ (fun _ _ => 0)).
    - unfold frob2. rewrite sumn_zero; [|intros; apply sumn_zero; intros; ring]. rewrite Rmult_0_r. apply sqrt_0.
    - intros i j _ _. unfold sij. rewrite (H i j). field. }
  split; intros.
  - unfold tvisc_smag. rewrite E. ring.
  - unfold tvisc_sst. rewrite E, Rmult_0_l. rewrite Rmax_left by nra. field. lra.
Qed.

(* ------------------------------------------------------------ sign *)
Lemma tanh_pos x : 0 <= x -> 0 <= tanh x < 1.
Proof.
  intros H. unfold tanh, sinh, cosh. pose proof (exp_pos x). pose proof (exp_pos (-x)).
  assert (exp (-x) <= exp x) by (destruct H as [H|<-]; [left; apply exp_increasing; lra|rewrite Ropp_0; lra]).
  split; [apply Rmult_le_pos; [lra|left; apply Rinv_0_lt_compat; lra]|].
  apply (Rmult_lt_reg_r ((exp x + exp (-x)) / 2)); [lra|]. unfold Rdiv at 1. rewrite Rmult_assoc, Rinv_l by lra. lra.
Qed.
Theorem C65_blending_functions_in_unit_interval bs sw2 n s dk dw :
  (0 <= fTwo bs s < 1) /\ (0 <= fOne bs sw2 n s dk dw < 1).
Proof.
  split.
  - unfold fTwo. apply tanh_pos. apply Rle_0_sqr.
  - unfold fOne. apply tanh_pos. set (a := Rmin _ _).
    replace (a * a * a * a) with ((a * a) * (a * a)) by ring. apply Rle_0_sqr.
Qed.
Lemma div_nonneg a b : 0 <= a -> 0 < b -> 0 <= a / b.
Proof. intros. apply Rmult_le_pos; [assumption|left; apply Rinv_0_lt_compat; assumption]. Qed.
Theorem C65_sst_viscosity_bounds n aOne bs s g : 0 < aOne -> 0 <= s_rho s -> 0 <= s_tke s -> 0 < s_sdr s ->
  0 <= tvisc_sst n aOne bs s g <= s_rho s * s_tke s / s_sdr s /\
  tvisc_sst n aOne bs s g * (sijMag n g * fTwo bs s) <= aOne * s_rho s * s_tke s.
Proof.
  intros Ha Hr Hk Hw. unfold tvisc_sst. set (S := sijMag n g * fTwo bs s).
  assert (M1 : aOne * s_sdr s <= Rmax (aOne * s_sdr s) S) by apply Rmax_l.
  assert (M2 : S <= Rmax (aOne * s_sdr s) S) by apply Rmax_r.
  assert (P : 0 < aOne * s_sdr s) by (apply Rmult_lt_0_compat; assumption).
  set (M := Rmax (aOne * s_sdr s) S) in *.
  assert (N : 0 <= aOne * s_rho s * s_tke s) by (repeat apply Rmult_le_pos; lra).
  assert (I1 : / M <= / (aOne * s_sdr s)) by (apply Rinv_le_contravar; assumption).
  assert (I0 : 0 < / M) by (apply Rinv_0_lt_compat; lra).
  split; [split|].
  - apply div_nonneg; lra.
  - replace (s_rho s * s_tke s / s_sdr s) with (aOne * s_rho s * s_tke s * / (aOne * s_sdr s)) by (field; lra).
    apply Rmult_le_compat_l; assumption.
  - unfold Rdiv. replace (aOne * s_rho s * s_tke s * / M * S) with (aOne * s_rho s * s_tke s * (S * / M)) by ring.
    rewrite <- (Rmult_1_r (aOne * s_rho s * s_tke s)) at 2. apply Rmult_le_compat_l; [exact N|].
    apply (Rmult_le_reg_r M); [lra|]. rewrite Rmult_assoc, Rinv_l by lra. lra.
Qed.
(** and one of the two bounds is attained: mu_t is the smaller of rho k/omega and a1 rho k/(S F2) *)
Theorem C65_sst_viscosity_is_the_minimum n aOne bs s g : 0 < aOne -> 0 < s_sdr s -> 
  tvisc_sst n aOne bs s g = s_rho s * s_tke s / s_sdr s \/
  (aOne * s_sdr s < sijMag n g * fTwo bs s /\ tvisc_sst n aOne bs s g = aOne * s_rho s * s_tke s / (sijMag n g * fTwo bs s)).
Proof.
  intros Ha Hw. unfold tvisc_sst. destruct (Rle_lt_dec (sijMag n g * fTwo bs s) (aOne * s_sdr s)) as [H|H].
  - left. rewrite Rmax_left by exact H. field. split; lra.
  - right. split; [exact H|]. rewrite Rmax_right by lra. reflexivity.
Qed.
Theorem C65_blended_between f s1 s2 : 0 <= f <= 1 -> Rmin s1 s2 <= f * s1 + (1 - f) * s2 <= Rmax s1 s2.
Proof. intros. unfold Rmin, Rmax. destruct (Rle_dec s1 s2); nra. Qed.
Theorem C65_effective_viscosity_at_least_molecular :
  (forall s1 s2 f mu mut, 0 <= f <= 1 -> 0 <= s1 -> 0 <= s2 -> 0 <= mut ->
    mu + mut * Rmin s1 s2 <= evisc_sst s1 s2 f mu mut <= mu + mut * Rmax s1 s2 /\ mu <= evisc_sst s1 s2 f mu mut) /\
  (forall sl st mu mut, 0 < st -> 0 <= mut -> mu / sl <= evisc sl st mu mut).
Proof.
  split; intros.
  - destruct (C65_blended_between f s1 s2 H) as [A B]. unfold evisc_sst.
    assert (0 <= Rmin s1 s2) by (apply Rmin_glb; assumption). nra.
  - unfold evisc. replace (mu * (1 / sl)) with (mu / sl) by (unfold Rdiv; ring).
    assert (0 <= mut * (1 / st)) by (apply Rmult_le_pos; [assumption|apply div_nonneg; lra]). lra.
Qed.
Theorem C65_other_viscosities_nonnegative n g rho vol : 0 <= rho ->
  (forall cs, 0 <= tvisc_smag n cs rho vol g) /\ (forall cw, 0 <= tvisc_wale n cw rho vol g) /\
  (forall cmu k e, 0 <= cmu -> 0 <= e -> 0 <= tvisc_keps cmu rho k e).
Proof.
  intros Hr. repeat split; intros.
  - unfold tvisc_smag. pose proof (sijMag_nonneg n g). set (F := filter_of n vol).
    replace (cs * cs * rho * F * F * sijMag n g) with ((cs * F) * (cs * F) * (rho * sijMag n g)) by ring.
    apply Rmult_le_pos; [apply Rle_0_sqr|apply Rmult_le_pos; assumption].
  - unfold tvisc_wale. cbv zeta. set (L := cw * filter_of n vol).
    set (Sd := frob2 n (sijd n g)). set (S := frob2 n (sij g)).
    pose proof (cpow_nonneg Sd (3/2)). pose proof (cpow_nonneg Sd (5/4)). pose proof (cpow_nonneg S (5/2)).
    apply div_nonneg; [|lra].
    replace (rho * L * L * (cpow Sd (3/2) + 1 / 10 ^ 8 * (1 / 10 ^ 8))) with ((L * L) * (rho * (cpow Sd (3/2) + 1 / 10 ^ 8 * (1 / 10 ^ 8)))) by ring.
    apply Rmult_le_pos; [apply Rle_0_sqr|]. apply Rmult_le_pos; lra.
  - unfold tvisc_keps. apply div_nonneg; [|lra]. replace (cmu * rho * k * k) with (cmu * rho * (k * k)) by ring.
    apply Rmult_le_pos; [apply Rmult_le_pos; assumption|apply Rle_0_sqr].
Qed.
(** simple shear (any gradient whose square vanishes): WALE's viscosity is at the round-off floor *)
Theorem C65_wale_vanishes_in_pure_shear n cw rho vol g : 0 <= rho ->
  (forall i j, (i < n)%nat -> (j < n)%nat -> gsq n g i j = 0) ->
  tvisc_wale n cw rho vol g <= 1/10^8 * (rho * (cw * filter_of n vol) * (cw * filter_of n vol)).
Proof.
  intros Hr H. assert (Z : frob2 n (sijd n g) = 0).
  { rewrite (frob2_ext n _ (fun _ _ => 0)).
    - unfold frob2. apply sumn_zero. intros; apply sumn_zero; intros; ring.
    - intros i j Hi Hj. unfold sijd. rewrite !H by assumption.
      replace (gkkSq n g) with 0; [field|]. unfold gkkSq. symmetry. apply sumn_zero. intros m Hm. apply (H m m Hm Hm). }
  unfold tvisc_wale. rewrite Z. cbv zeta. set (L := cw * filter_of n vol). set (S := frob2 n (sij g)).
  replace (cpow 0 (3/2)) with 0 by (unfold cpow; destruct Req_EM_T; lra).
  replace (cpow 0 (5/4)) with 0 by (unfold cpow; destruct Req_EM_T; lra).
  pose proof (cpow_nonneg S (5/2)) as P. set (p := cpow S (5/2)) in *.
  assert (Q : 0 <= rho * L * L) by (rewrite Rmult_assoc; apply Rmult_le_pos; [assumption|apply Rle_0_sqr]).
  set (q := rho * L * L) in *. set (e := 1 / 10^8) in *. assert (0 < e) by (unfold e; lra).
  clearbody e q p. apply (Rmult_le_reg_r (p + 0 + e)); [lra|]. unfold Rdiv. rewrite Rmult_assoc, Rinv_l by lra.
  assert (0 <= e * q * p) by (repeat apply Rmult_le_pos; lra).
  replace (e * q * (p + 0 + e)) with (e * q * p + q * (0 + e * e) * 1) by ring. lra.
Qed.
Lemma fmu_unit_aux x : 0 <= x -> 0 <= 1 - exp (- x) <= 1.
Proof. intros. pose proof (exp_pos (-x)). assert (exp (-x) <= exp 0) by (destruct H as [H| <-]; [left; apply exp_increasing; lra|rewrite Ropp_0; lra]). rewrite exp_0 in *. lra. Qed.
(** one-equation SGS model: the damping lies in [0,1], is absent in the high-Reynolds form, and the viscosity is
    non-negative and at most the undamped one *)
Theorem C65_ksgs_damping n lr cmuEps cEps mu rho tke vol dist dsq : (lr = 0 \/ lr = 1) -> 0 <= cmuEps -> 0 <= rho ->
  0 <= tvisc_ksgs n lr cmuEps cEps mu rho tke vol dist dsq <= cmuEps * rho * sqrt tke * filter_of n vol /\
  (lr = 0 -> tvisc_ksgs n lr cmuEps cEps mu rho tke vol dist dsq = cmuEps * rho * sqrt tke * filter_of n vol).
Proof.
  intros Hl Hc Hr. unfold tvisc_ksgs. cbv zeta. set (F := filter_of n vol).
  assert (PF : 0 <= F) by apply cpow_nonneg.
  assert (Q : 0 <= cmuEps * rho * sqrt tke * F) by (repeat apply Rmult_le_pos; try assumption; apply sqrt_pos).
  assert (f01 : 0 <= fmu_ksgs lr cEps mu rho tke F dist dsq <= 1).
  { unfold fmu_ksgs. cbv zeta. match goal with |- context [exp (- ?e)] => assert (P : 0 <= e) by apply cpow_nonneg; apply fmu_unit_aux in P; set (E := 1 - exp (- e)) in * end.
    destruct Hl as [-> | ->]; lra. }
  set (fm := fmu_ksgs lr cEps mu rho tke F dist dsq) in *.
  replace (fm * cmuEps * rho * sqrt tke * F) with (fm * (cmuEps * rho * sqrt tke * F)) by ring.
  split; [nra|]. intros ->. replace fm with 1; [ring|]. unfold fm, fmu_ksgs. ring.
Qed.
(** the viscosity grows with the strain (Smagorinsky), scales linearly: mu_t(a g) = |a| mu_t(g) *)
Lemma sijMag_scale n a g : sijMag n (fun i j => a * g i j) = Rabs a * sijMag n g.
Proof.
  rewrite !sijMag_frob. rewrite (frob2_ext n _ (fun i j => a * sij g i j)) by (intros; unfold sij; ring).
  replace (2 * frob2 n (fun i j => a * sij g i j)) with (a * a * (2 * frob2 n (sij g))).
  - rewrite sqrt_mult by (first [apply Rle_0_sqr | pose proof (frob2_nonneg n (sij g)); lra]).
    f_equal. apply sqrt_Rsqr_abs.
  - unfold frob2. rewrite <- !sumn_scal. apply sumn_ext. intros i _. rewrite <- !sumn_scal. apply sumn_ext. intros; ring.
Qed.
Theorem C65_smagorinsky_linear_in_strain n cs rho vol a g :
  tvisc_smag n cs rho vol (fun i j => a * g i j) = Rabs a * tvisc_smag n cs rho vol g.
Proof. unfold tvisc_smag. rewrite sijMag_scale. ring. Qed.

(** Non-vacuity: a quarter turn of the axes, a shear flow, a node with k, omega > 0 *)
Definition exQ : mat := fun i j => match i, j with O, S O => -1 | S O, O => 1 | _, _ => 0 end.
Definition exG : mat := fun i j => match i, j with O, S O => 3 | _, _ => 0 end.
Definition exS : sst_in := mkSst 1 (1/100) 2 5 (1/10).
Example C65_nonvacuous : orth 2 exQ /\ antisym exQ /\ (exists i j, turned 2 exQ exG i j <> exG i j) /\
  (forall i j, (i < 2)%nat -> (j < 2)%nat -> gsq 2 exG i j = 0) /\
  sijMag 2 exG = 3 /\ 0 < s_rho exS /\ 0 < s_tke exS /\ 0 < s_sdr exS.
Proof.
  repeat split; try (cbn; lra).
  - intros [|[|]] [|[|]] ? ?; try lia; cbn; lra.
  - intros [|[|]] [|[|]] ? ?; try lia; cbn; lra.
  - intros [|[|i]] [|[|j]]; cbn; lra.
  - exists 0%nat, 1%nat. cbn. lra.
  - intros [|[|]] [|[|]] ? ?; try lia; cbn; lra.
  - transitivity (sqrt (3 * 3)); [|apply sqrt_square; lra]. unfold sijMag. apply f_equal. unfold sij. cbn. lra.
Qed.
