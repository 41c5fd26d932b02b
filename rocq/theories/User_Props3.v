(** C107, continued: profiles and the equations they satisfy. *)
From Coq Require Import Reals List Lra Lia.
From Coquelicot Require Import Coquelicot.
From Verif Require Import User_Model.
Import ListNotations.
Open Scope R_scope.
Definition comp (k : nat) (l : list R) : R := nth k l 0.
Definition at3 (x y z : R) : nat -> R := fun k => match k with 0%nat => x | 1%nat => y | _ => z end.

(** the boundary-layer disturbance carries no volume: its divergence vanishes *)
Theorem C107_boundary_layer_divergence_free : forall p x y z, bl_ky p <> 0 -> exists dx dy,
  is_derive (fun s => comp 0 (bl_vel p (at3 s y z))) x dx /\ is_derive (fun s => comp 1 (bl_vel p (at3 x s z))) y dy /\
  is_derive (fun s => comp 2 (bl_vel p (at3 x y s))) z 0 /\ dx + dy + 0 = 0.
Proof.
  intros p x y z K. exists (- bl_amp p * bl_kx p * sin (bl_kx p * x) * cos (bl_ky p * y) * bl_damp p z), (bl_amp p * bl_kx p * sin (bl_kx p * x) * cos (bl_ky p * y) * bl_damp p z).
  unfold comp, bl_vel, at3. cbn [nth]. split; [|split; [|split]].
  - auto_derive; [trivial|ring].
  - auto_derive; [trivial|field; assumption].
  - auto_derive; trivial.
  - ring.
Qed.
(** the swirl of the vortex carries no volume in horizontal planes *)
Theorem C107_vortex_divergence_free : forall x y z, is_derive (fun s => comp 0 (tornado (at3 s y z))) x 0 /\ is_derive (fun s => comp 1 (tornado (at3 x s z))) y 0.
Proof. intros x y z. unfold comp, tornado, at3. cbn [nth]. split; auto_derive; trivial; ring. Qed.
(** the travelling puff is carried unchanged by the velocity (u, v) *)
Theorem C107_puff_advected : forall u v s t x y tau, workshop u v s (t + tau) (x + u * tau) (y + v * tau) = workshop u v s t x y.
Proof. intros. unfold workshop. f_equal. unfold Rdiv. ring. Qed.
Theorem C107_puff_equation : forall u v s t x y, s <> 0 -> exists dt dx dy,
  is_derive (fun q => workshop u v s q x y) t dt /\ is_derive (fun q => workshop u v s t q y) x dx /\ is_derive (fun q => workshop u v s t x q) y dy /\ dt + u * dx + v * dy = 0.
Proof.
  intros u v s t x y S. set (e := workshop u v s t x y).
  exists (e * (2 * (x - t*u) * u + 2 * (y - t*v) * v) / s / s), (e * - (2 * (x - t*u)) / s / s), (e * - (2 * (y - t*v)) / s / s).
  unfold e. split; [|split; [|split]].
  - unfold workshop. auto_derive; [trivial|]. unfold Rdiv, Rminus. ring.
  - unfold workshop. auto_derive; [trivial|]. unfold Rdiv, Rminus. ring.
  - unfold workshop. auto_derive; [trivial|]. unfold Rdiv, Rminus. ring.
  - unfold Rdiv. ring.
Qed.
Lemma exp_nonpos a : a <= 0 -> 0 < exp a <= 1.
Proof. intros H. split; [apply exp_pos|]. destruct H as [H|H]; [left; rewrite <- exp_0; now apply exp_increasing|rewrite H, exp_0; lra]. Qed.
Theorem C107_puff_range : forall u v s t x y, s <> 0 -> 0 < workshop u v s t x y <= 1 /\ workshop u v s t (t * u) (t * v) = 1.
Proof.
  intros u v s t x y S. split.
  - unfold workshop. apply exp_nonpos. replace (- ((x - t*u)*(x - t*u) + (y - t*v)*(y - t*v)) / s / s) with (- (Rsqr ((x - t*u) / s) + Rsqr ((y - t*v) / s))) by (unfold Rsqr; field; assumption).
    pose proof (Rle_0_sqr ((x - t*u)/s)). pose proof (Rle_0_sqr ((y - t*v)/s)). lra.
  - unfold workshop. replace (- ((t * u - t * u) * (t * u - t * u) + (t * v - t * v) * (t * v - t * v)) / s / s) with 0 by (field; assumption). apply exp_0.
Qed.
(** the Gaussian: peak value at its centre, symmetric, between 0 and the peak *)
Theorem C107_gaussian : forall a b s x, s <> 0 -> gaussian a b s b = a /\ gaussian a b s (b + x) = gaussian a b s (b - x) /\ (0 <= a -> 0 <= gaussian a b s x <= a)
  /\ gaussian a b s (b + s) = a * exp (- (1/2)).
Proof.
  intros a b s x S. unfold gaussian. repeat split.
  - replace (- (1/2) * (b - b) * (b - b) / (s * s)) with 0 by (field; assumption). rewrite exp_0. ring.
  - f_equal. f_equal. field. assumption.
  - apply Rmult_le_pos; [assumption|left; apply exp_pos].
  - assert (E : 0 < exp (- (1/2) * (x - b) * (x - b) / (s * s)) <= 1).
    { apply exp_nonpos. replace (- (1/2) * (x - b) * (x - b) / (s*s)) with (- (1/2) * Rsqr ((x - b)/s)) by (unfold Rsqr; field; assumption). pose proof (Rle_0_sqr ((x - b)/s)). lra. }
    nra.
  - f_equal. f_equal. field. assumption.
Qed.

(** * Conduction between two spheres *)
Theorem C107_spheres_boundary : forall x y z,
  (x*x + y*y + z*z = (3/100)*(3/100) -> concentric x y z = con_ti) /\ (x*x + y*y + z*z = (5/100)*(5/100) -> concentric x y z = con_t1).
Proof.
  intros x y z. unfold concentric. cbv zeta. split; intros ->; rewrite sqrt_square by lra.
  - replace (1 / (3/100) - 1 / (3/100)) with 0 by ring. unfold Rdiv. ring.
  - field. 
Qed.
Definition inv_r (x y z : R) : R := / sqrt (x*x + y*y + z*z).
Lemma inv_r_dd : forall x y z, 0 < x*x + y*y + z*z ->
  is_derive (fun s => inv_r s y z) x (- x * (inv_r x y z) ^ 3) /\ is_derive (fun s => - s * (inv_r s y z) ^ 3) x (3 * x * x * inv_r x y z ^ 5 - inv_r x y z ^ 3).
Proof.
  intros x y z H. assert (S : 0 < sqrt (x*x + y*y + z*z)) by (now apply sqrt_lt_R0). unfold inv_r. split.
  - auto_derive; [repeat split; try assumption; lra|]. field. lra.
  - auto_derive; [repeat split; try assumption; lra|]. field. lra.
Qed.
(** the temperature between the spheres is harmonic: it is the steady conduction solution *)
Theorem C107_spheres_conduction : forall x y z, 0 < x*x + y*y + z*z -> exists fx fy fz : R -> R -> R -> R, exists dxx dyy dzz,
  (forall a b c, 0 < a*a + b*b + c*c -> is_derive (fun s => concentric s b c) a (fx a b c) /\ is_derive (fun s => concentric a s c) b (fy a b c) /\ is_derive (fun s => concentric a b s) c (fz a b c)) /\
  is_derive (fun s => fx s y z) x dxx /\ is_derive (fun s => fy x s z) y dyy /\ is_derive (fun s => fz x y s) z dzz /\ dxx + dyy + dzz = 0.
Proof.
  intros x y z H. set (A := - ((con_t1 - con_ti) / (1 / (3/100) - 1 / (5/100)))).
  assert (C : forall a b c, concentric a b c = con_ti - A * (1 / (3/100)) + A * inv_r a b c) by (intros; unfold concentric, A, inv_r; cbv zeta; unfold Rdiv; ring).
  assert (Sx : forall a b c, inv_r a b c = inv_r b a c) by (intros; unfold inv_r; do 2 f_equal; ring). assert (Sz : forall a b c, inv_r a b c = inv_r c b a) by (intros; unfold inv_r; do 2 f_equal; ring).
  exists (fun a b c => A * (- a * inv_r a b c ^ 3)), (fun a b c => A * (- b * inv_r a b c ^ 3)), (fun a b c => A * (- c * inv_r a b c ^ 3)).
  exists (A * (3 * x * x * inv_r x y z ^ 5 - inv_r x y z ^ 3)), (A * (3 * y * y * inv_r x y z ^ 5 - inv_r x y z ^ 3)), (A * (3 * z * z * inv_r x y z ^ 5 - inv_r x y z ^ 3)).
  assert (Aff : forall f a d, is_derive f a d -> is_derive (fun s => con_ti - A * (1 / (3/100)) + A * f s) a (A * d)).
  { intros f a d D. replace (A * d) with (0 + A * d) by ring. apply (is_derive_plus (fun _ => con_ti - A * (1 / (3/100))) (fun s => A * f s)); [auto_derive; trivial|]. now apply is_derive_scal. }
  split; [|split; [|split; [|split]]].
  - intros a b c P. split; [|split].
    + apply is_derive_ext with (f := fun s => con_ti - A * (1 / (3/100)) + A * inv_r s b c). { intros s. symmetry. apply C. } apply Aff. now apply inv_r_dd.
    + apply is_derive_ext with (f := fun s => con_ti - A * (1 / (3/100)) + A * inv_r s a c). { intros s. rewrite C. f_equal. f_equal. apply Sx. } apply Aff. rewrite (Sx a b c). apply inv_r_dd. lra.
    + apply is_derive_ext with (f := fun s => con_ti - A * (1 / (3/100)) + A * inv_r s b a). { intros s. rewrite C. f_equal. f_equal. apply Sz. } apply Aff. rewrite (Sz a b c). apply inv_r_dd. lra.
  - apply is_derive_scal. now apply inv_r_dd.
  - apply is_derive_scal. apply is_derive_ext with (f := fun s => - s * inv_r s x z ^ 3). { intros s. now rewrite (Sx x s z). } rewrite (Sx x y z). apply inv_r_dd. lra.
  - apply is_derive_scal. apply is_derive_ext with (f := fun s => - s * inv_r s y x ^ 3). { intros s. now rewrite (Sz x y s). } rewrite (Sz x y z). apply inv_r_dd. lra.
  - assert (S : 0 < sqrt (x*x + y*y + z*z)) by (now apply sqrt_lt_R0). assert (Q : (x*x + y*y + z*z) * inv_r x y z ^ 2 = 1).
    { unfold inv_r. rewrite <- (sqrt_sqrt (x*x+y*y+z*z)) at 1 by lra. field. lra. }
    replace (A * (3 * x * x * inv_r x y z ^ 5 - inv_r x y z ^ 3) + A * (3 * y * y * inv_r x y z ^ 5 - inv_r x y z ^ 3) + A * (3 * z * z * inv_r x y z ^ 5 - inv_r x y z ^ 3))
      with (3 * A * inv_r x y z ^ 3 * ((x*x + y*y + z*z) * inv_r x y z ^ 2 - 1)) by ring. rewrite Q. ring.
Qed.

(** * Fully developed flow in a 1:2 duct *)
Lemma ott_m_pos n : 0 < ott_m n.
Proof. unfold ott_m, ott_b. pose proof (pos_INR n). pose proof PI_RGT_0. replace ((2 * INR n + 1) * PI / 2 / 1) with ((2 * INR n + 1) * PI / 2) by field. apply Rdiv_lt_0_compat; [apply Rmult_lt_0_compat|]; lra. Qed.
Definition ott_c (n : nat) : R := let m := ott_m n in (-1) ^ n * 1 / m / m / m / cosh (m * ott_a).
Lemma cosh_pos x : 0 < cosh x. Proof. unfold cosh. pose proof (exp_pos x). pose proof (exp_pos (-x)). lra. Qed.
Lemma ott_term_eq n x y : ott_term n x y = ott_c n * (cos (ott_m n * y) * ((exp (ott_m n * x) + exp (- (ott_m n * x))) / 2)).
Proof. unfold ott_term, ott_c. cbv zeta. unfold cosh at 1. pose proof (ott_m_pos n). pose proof (cosh_pos (ott_m n * ott_a)). field. split; lra. Qed.
Fixpoint Sm (f : nat -> R) (n : nat) : R := match n with O => 0 | S k => Sm f k + f k end.
Lemma ott_sum_Sm n x y : ott_sum n x y = Sm (fun k => ott_term k x y) n.
Proof. induction n as [|n IH]; cbn; [reflexivity|now rewrite IH]. Qed.
Lemma Sm_derive (f : nat -> R -> R) (d : nat -> R) x n : (forall k, is_derive (f k) x (d k)) -> is_derive (fun s => Sm (fun k => f k s) n) x (Sm d n).
Proof. intros H. induction n as [|n IH]; cbn; [auto_derive; trivial|]. apply (is_derive_plus (fun s => Sm (fun k => f k s) n) (f n)); auto. Qed.
Lemma Sm_plus f g n : Sm f n + Sm g n = Sm (fun k => f k + g k) n.
Proof. induction n as [|n IH]; cbn; [ring|]. rewrite <- IH. ring. Qed.
Lemma Sm_zero f n : (forall k, f k = 0) -> Sm f n = 0.
Proof. intros H. induction n as [|n IH]; cbn; [reflexivity|]. rewrite IH, H. ring. Qed.
Definition tx n x y := ott_c n * (cos (ott_m n * y) * ott_m n * ((exp (ott_m n * x) - exp (- (ott_m n * x))) / 2)).
Definition txx n x y := ott_c n * (cos (ott_m n * y) * ott_m n * ott_m n * ((exp (ott_m n * x) + exp (- (ott_m n * x))) / 2)).
Definition ty n x y := - (ott_c n * (sin (ott_m n * y) * ott_m n * ((exp (ott_m n * x) + exp (- (ott_m n * x))) / 2))).
Lemma dtx n x y : is_derive (fun s => ott_term n s y) x (tx n x y).
Proof. eapply is_derive_ext; [intros s; symmetry; apply ott_term_eq|]. unfold tx. generalize (ott_m n) (ott_c n). intros m c. auto_derive; [trivial|]. field. Qed.
Lemma dtxx n x y : is_derive (fun s => tx n s y) x (txx n x y).
Proof. unfold tx, txx. generalize (ott_m n) (ott_c n). intros m c. auto_derive; [trivial|]. field. Qed.
Lemma dty n x y : is_derive (fun s => ott_term n x s) y (ty n x y).
Proof. eapply is_derive_ext; [intros s; symmetry; apply ott_term_eq|]. unfold ty. generalize (ott_m n) (ott_c n). intros m c. auto_derive; [trivial|]. field. Qed.
Lemma dtyy n x y : is_derive (fun s => ty n x s) y (- txx n x y).
Proof. unfold ty, txx. generalize (ott_m n) (ott_c n). intros m c. auto_derive; [trivial|]. field. Qed.
(** With any number of terms the axial velocity balances the pressure gradient: mu (w_xx + w_yy) = dp/dz everywhere. *)
Theorem C107_duct_momentum : forall N x y, exists wx wy : R -> R -> R, exists wxx wyy,
  (forall a b, is_derive (fun s => ott_w N s b) a (wx a b) /\ is_derive (fun s => ott_w N a s) b (wy a b)) /\
  is_derive (fun s => wx s y) x wxx /\ is_derive (fun s => wy x s) y wyy /\ ott_mu * (wxx + wyy) = ott_dpdz.
Proof.
  intros N x y. set (K := - (1) / 2 / ott_mu * ott_dpdz).
  assert (E : forall a b, ott_w N a b = K * (ott_b*ott_b - b*b - 4 / ott_b * Sm (fun k => ott_term k a b) N)) by (intros; unfold ott_w; now rewrite ott_sum_Sm).
  exists (fun a b => - K * (4 / ott_b) * Sm (fun k => tx k a b) N), (fun a b => - K * (2 * b) + - K * (4 / ott_b) * Sm (fun k => ty k a b) N).
  exists (- K * (4 / ott_b) * Sm (fun k => txx k x y) N), (- K * 2 + - K * (4 / ott_b) * Sm (fun k => - txx k x y) N).
  split; [|split; [|split]].
  - intros a b. split.
    + eapply is_derive_ext with (f := fun s => (K * (ott_b*ott_b - b*b)) + (- K * (4 / ott_b)) * Sm (fun k => ott_term k s b) N). { intros s. rewrite E. match goal with |- ?p = ?q => change (@eq R p q) end. ring. }
      replace (- K * (4 / ott_b) * Sm (fun k => tx k a b) N) with (0 + - K * (4 / ott_b) * Sm (fun k => tx k a b) N) by ring.
      apply (is_derive_plus (fun _ => K * (ott_b*ott_b - b*b)) (fun s => (- K * (4 / ott_b)) * Sm (fun k => ott_term k s b) N)); [auto_derive; trivial|].
      apply is_derive_scal. apply (Sm_derive (fun k s => ott_term k s b)). intros k. apply dtx.
    + eapply is_derive_ext with (f := fun s => K * (ott_b*ott_b - s*s) + (- K * (4 / ott_b)) * Sm (fun k => ott_term k a s) N). { intros s. rewrite E. match goal with |- ?p = ?q => change (@eq R p q) end. ring. }
      apply (is_derive_plus (fun s => K * (ott_b*ott_b - s*s)) (fun s => (- K * (4 / ott_b)) * Sm (fun k => ott_term k a s) N)); [auto_derive; [trivial|ring]|].
      apply is_derive_scal. apply (Sm_derive (fun k s => ott_term k a s)). intros k. apply dty.
  - apply is_derive_scal. apply (Sm_derive (fun k s => tx k s y)). intros k. apply dtxx.
  - apply (is_derive_plus (fun s => - K * (2 * s)) (fun s => (- K * (4 / ott_b)) * Sm (fun k => ty k x s) N)); [auto_derive; [trivial|ring]|].
    apply is_derive_scal. apply (Sm_derive (fun k s => ty k x s)). intros k. apply dtyy.
  - assert (Z : Sm (fun k => txx k x y) N + Sm (fun k => - txx k x y) N = 0) by (rewrite Sm_plus; apply Sm_zero; intros; ring).
    replace (Sm (fun k => - txx k x y) N) with (- Sm (fun k => txx k x y) N) by lra. unfold K, ott_mu, ott_dpdz. lra.
Qed.
(** the fluid sticks to the walls y = -1 and y = 1, for any number of terms; the flow is symmetric *)
Lemma cos_odd_half n : cos (ott_m n * 1) = 0.
Proof.
  unfold ott_m, ott_b. replace ((2 * INR n + 1) * PI / 2 / 1 * 1) with (PI/2 + INR n * PI) by field. induction n as [|n IH]; [cbn [INR]; rewrite Rmult_0_l, Rplus_0_r; apply cos_PI2|].
  rewrite S_INR. replace (PI/2 + (INR n + 1) * PI) with (PI/2 + INR n * PI + PI) by ring. rewrite neg_cos, IH. ring.
Qed.
Theorem C107_duct_no_slip : forall N x, ott_w N x 1 = 0 /\ ott_w N x (- 1) = 0.
Proof.
  intros N x. assert (Z : forall y, y = 1 \/ y = - 1 -> ott_sum N x y = 0).
  { intros y H. rewrite ott_sum_Sm. apply Sm_zero. intros k. rewrite ott_term_eq. replace (cos (ott_m k * y)) with 0; [ring|]. destruct H as [-> | ->]; [now rewrite cos_odd_half|]. replace (ott_m k * -1) with (- (ott_m k * 1)) by ring. now rewrite cos_neg, cos_odd_half. }
  unfold ott_w. rewrite !Z by auto. unfold ott_b. split; unfold Rdiv; ring.
Qed.
Theorem C107_duct_symmetric : forall N x y, ott_w N (- x) y = ott_w N x y /\ ott_w N x (- y) = ott_w N x y.
Proof.
  intros N x y. assert (S : ott_sum N (- x) y = ott_sum N x y /\ ott_sum N x (- y) = ott_sum N x y).
  { induction N as [|n IH]; cbn; [split; reflexivity|]. destruct IH as (-> & ->). rewrite !ott_term_eq. split; f_equal.
    - replace (ott_m n * - x) with (- (ott_m n * x)) by ring. rewrite Ropp_involutive. f_equal. f_equal. lra.
    - replace (ott_m n * - y) with (- (ott_m n * y)) by ring. now rewrite cos_neg. }
  unfold ott_w. destruct S as (-> & ->). split; [reflexivity|]. f_equal. ring.
Qed.
(** on the other two walls every term of the series equals the Fourier term of the parabola it has to cancel: what remains is the tail of that series alone *)
Theorem C107_duct_side_walls_partial : forall N y, ott_w N ott_a y = - (1) / 2 / ott_mu * ott_dpdz * (1 - y*y - 4 * Sm (fun n => (-1) ^ n / (ott_m n ^ 3) * cos (ott_m n * y)) N)
  /\ ott_w N (- ott_a) y = ott_w N ott_a y.
Proof.
  intros N y. split; [|apply C107_duct_symmetric]. unfold ott_w. f_equal. rewrite ott_sum_Sm. unfold ott_b. replace (Sm (fun k => ott_term k ott_a y) N) with (Sm (fun n => (-1) ^ n / (ott_m n ^ 3) * cos (ott_m n * y)) N); [field|].
  induction N as [|n IH]; cbn [Sm]; [reflexivity|]. rewrite IH. f_equal. unfold ott_term. cbv zeta. pose proof (ott_m_pos n). pose proof (cosh_pos (ott_m n * ott_a)). field. split; lra.
Qed.
Example C107_spheres_nonvacuous : 0 < 1*1 + 0*0 + 0*0 /\ (4/100)*(4/100) + 0*0 + 0*0 > 0. Proof. lra. Qed.
Print Assumptions C107_duct_momentum.
Print Assumptions C107_spheres_conduction.
