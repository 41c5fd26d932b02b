(** C68, continued: shipped Kovasznay constants, Taylor-Green start-up fields, heat conduction and the
    wind-energy vortex. *)
From Coq Require Import Reals Lra Lia List.
From Coquelicot Require Import Coquelicot.
From Verif Require Import MMS_Model MMS_Spec MMS_Vortex_Model MMS_Props MMS_Props3 MMS_Props4.
Import ListNotations.
Open Scope R_scope.

Theorem C68_shipped_kovasznay : forall c,
  divergence_free (kv_velocity kv_velocity_par) /\
  (forall i t x y z, (i < 3)%nat -> momentum_balance (rho_const 1) (kv_velocity kv_velocity_par) (kv_pressure kv_pressure_par) (/ 40) c 0 0 i t x y z) /\
  is_gradient (kv_pressure kv_pressure_par) (kv_gradp kv_gradp_par) 2.
Proof. intros c. apply (C68_kovasznay kv_velocity_par c); cbn; try reflexivity. lra. Qed.

(* ------------------------------------------------------------------ Taylor-Green *)
Definition tg_grad (q : par) (i j : nat) : field := fun t x y z =>
  let k := uNot_ q / L_ q in
  let cx := cos (x / L_ q) in let sx := sin (x / L_ q) in let cy := cos (y / L_ q) in let sy := sin (y / L_ q) in
  let cz := cos (z / L_ q) in let sz := sin (z / L_ q) in
  match i, j with
  | 0%nat, 0%nat => k * cx * cy * cz | 0%nat, 1%nat => - k * sx * sy * cz | 0%nat, 2%nat => - k * sx * cy * sz
  | 1%nat, 0%nat => k * sx * sy * cz | 1%nat, 1%nat => - k * cx * cy * cz | 1%nat, 2%nat => k * cx * sy * sz
  | _, _ => 0 end.
Lemma tg_grad_ok : forall q a j t x y z, (a < 3)%nat -> (j < 3)%nat -> pd j (tg_velocity q a) t x y z (tg_grad q a j t x y z).
Proof. intros q a j t x y z Ha Hj. idx3 a Ha; idx3 j Hj; pdu; unfold tg_velocity, tg_grad; cbv zeta; unfold Rdiv; auto_derive; trivial; unfold Rdiv; ring. Qed.
Definition tg_dp (q : par) (i : nat) : field := fun t x y z =>
  let k := rhoNot_ q * uNot_ q * uNot_ q / 8 / L_ q in
  match i with
  | 0%nat => - k * sin (2 * x / L_ q) * (cos (2 * z / L_ q) + 2)
  | 1%nat => - k * sin (2 * y / L_ q) * (cos (2 * z / L_ q) + 2)
  | 2%nat => - k * (cos (2 * x / L_ q) + cos (2 * y / L_ q)) * sin (2 * z / L_ q)
  | _ => 0 end.
Definition tg_d2p (q : par) (i : nat) (x y z : R) : R :=
  let k := rhoNot_ q * uNot_ q * uNot_ q / 4 / (L_ q) / L_ q in
  match i with
  | 0%nat => - k * cos (2 * x / L_ q) * (cos (2 * z / L_ q) + 2)
  | 1%nat => - k * cos (2 * y / L_ q) * (cos (2 * z / L_ q) + 2)
  | 2%nat => - k * (cos (2 * x / L_ q) + cos (2 * y / L_ q)) * cos (2 * z / L_ q)
  | _ => 0 end.
Lemma tg_dp_ok : forall q i t x y z, L_ q <> 0 -> (i < 3)%nat -> pd i (tg_pressure q) t x y z (tg_dp q i t x y z).
Proof. intros q i t x y z HL Hi. idx3 i Hi; pdu; unfold tg_pressure, tg_dp; cbv zeta; auto_derive; trivial; unfold Rdiv; field; auto. Qed.
Lemma tg_d2p_ok : forall q i t x y z, L_ q <> 0 -> (i < 3)%nat -> pd i (tg_dp q i) t x y z (tg_d2p q i x y z).
Proof. intros q i t x y z HL Hi. idx3 i Hi; pdu; unfold tg_dp, tg_d2p; cbv zeta; auto_derive; trivial; unfold Rdiv; field; auto. Qed.

(** The Taylor-Green start: solenoidal velocity, and the pressure that goes with it for density rhoNot:
    div grad p = - rho sum_ij (du_i/dx_j)(du_j/dx_i). *)
Definition pressure_poisson (rho : R) (u : nat -> field) (p : field) (t x y z : R) : Prop :=
  exists (G : nat -> nat -> R) (dp : nat -> field) (d2p : nat -> R),
    (forall i j, (i < 3)%nat -> (j < 3)%nat -> pd j (u i) t x y z (G i j)) /\
    (forall i t x y z, (i < 3)%nat -> pd i p t x y z (dp i t x y z)) /\
    (forall i, (i < 3)%nat -> pd i (dp i) t x y z (d2p i)) /\
    sum3 d2p = - rho * sum3 (fun i => sum3 (fun j => G i j * G j i)).
Theorem C68_taylor_green : forall q, L_ q <> 0 ->
  divergence_free (tg_velocity q) /\ forall t x y z, pressure_poisson (rhoNot_ q) (tg_velocity q) (tg_pressure q) t x y z.
Proof.
  intros q HL. split.
  - apply (const_continuity _ (tg_grad q)). + intros; apply tg_grad_ok; auto. + intros. unfold sum3, tg_grad. cbv zeta. ring.
  - intros t x y z. exists (fun i j => tg_grad q i j t x y z), (tg_dp q), (fun i => tg_d2p q i x y z).
    split; [intros; apply tg_grad_ok; auto|]. split; [intros; apply tg_dp_ok; auto|]. split; [intros; apply tg_d2p_ok; auto|].
    unfold sum3, tg_d2p, tg_grad. cbv zeta.
    replace (2 * x / L_ q) with (2 * (x / L_ q)) by (field; auto). replace (2 * y / L_ q) with (2 * (y / L_ q)) by (field; auto).
    replace (2 * z / L_ q) with (2 * (z / L_ q)) by (field; auto). rewrite !cos_2a.
    pose proof (pyth (x / L_ q)) as Px. pose proof (pyth (y / L_ q)) as Py. pose proof (pyth (z / L_ q)) as Pz.
    revert Px Py Pz. generalize (cos (x / L_ q)) (sin (x / L_ q)) (cos (y / L_ q)) (sin (y / L_ q)) (cos (z / L_ q)) (sin (z / L_ q)).
    intros cx sx cy sy cz sz Px Py Pz. field_simplify_eq; auto. ring [Px Py Pz].
Qed.
Theorem C68_shipped_taylor_green :
  divergence_free (tg_velocity tg_velocity_par) /\
  forall t x y z, pressure_poisson 1 (tg_velocity tg_velocity_par) (tg_pressure tg_pressure_par) t x y z.
Proof. destruct (C68_taylor_green tg_pressure_par) as [A B]. - cbn. lra. - split; [exact A|exact B]. Qed.

(* ------------------------------------------------------------------ heat conduction *)
Definition sc_grad (q : par) (i : nat) : field := fun t x y z =>
  match i with 0%nat => - (2 * a_ q * pi_ q * k_ q / 4) * sin (2 * a_ q * pi_ q * x) | 1%nat => - (2 * a_ q * pi_ q * k_ q / 4) * sin (2 * a_ q * pi_ q * y) | _ => 0 end.
(** Steady conduction with unit conductivity: the nodal and element sources are the residual of the analytic
    temperature, in two and three dimensions; the gradient function is the temperature's gradient. *)
Theorem C68_heat_conduction : forall q t x y z,
  conduction_balance (sc_temperature q) (sc_node_src q t x y z) t x y z /\
  conduction_balance (sc_temperature q) (sc_elem_src q t x y z) t x y z /\
  conduction_balance (s3_temperature q) (s3_node_src q t x y z) t x y z /\
  conduction_balance (s3_temperature q) (s3_elem_src q t x y z) t x y z /\
  is_gradient (s3_temperature q) (s3_gradient q) 3.
Proof.
  intros q t x y z.
  assert (G3 : is_gradient (s3_temperature q) (s3_gradient q) 3).
  { intros j t' x' y' z' Hj. idx3 j Hj; pdu; unfold s3_temperature, s3_gradient; cbv zeta; auto_derive; trivial; field. }
  assert (G2 : forall j t x y z, (j < 3)%nat -> pd j (sc_temperature q) t x y z (sc_grad q j t x y z)).
  { intros j t' x' y' z' Hj. idx3 j Hj; pdu; unfold sc_temperature, sc_grad; cbv zeta; auto_derive; trivial; field. }
  assert (H2 : conduction_balance (sc_temperature q) (sc_node_src q t x y z) t x y z).
  { exists (sc_grad q), (fun j => match j with 0%nat => - (2 * a_ q * pi_ q * k_ q / 4) * (2 * a_ q * pi_ q) * cos (2 * a_ q * pi_ q * x)
        | 1%nat => - (2 * a_ q * pi_ q * k_ q / 4) * (2 * a_ q * pi_ q) * cos (2 * a_ q * pi_ q * y) | _ => 0 end).
    split; [exact G2|]. split.
    - intros j Hj. idx3 j Hj; pdu; unfold sc_grad; auto_derive; trivial; field.
    - unfold sum3, sc_node_src. field. }
  assert (H3 : conduction_balance (s3_temperature q) (s3_node_src q t x y z) t x y z).
  { exists (s3_gradient q), (fun j => match j with 0%nat => - (2 * a_ q * pi_ q * k_ q / 4) * (2 * a_ q * pi_ q) * cos (2 * a_ q * pi_ q * x)
        | 1%nat => - (2 * a_ q * pi_ q * k_ q / 4) * (2 * a_ q * pi_ q) * cos (2 * a_ q * pi_ q * y)
        | 2%nat => - (2 * a_ q * pi_ q * k_ q / 4) * (2 * a_ q * pi_ q) * cos (2 * a_ q * pi_ q * z) | _ => 0 end).
    split; [exact G3|]. split.
    - intros j Hj. idx3 j Hj; pdu; unfold s3_gradient; cbv zeta; auto_derive; trivial; field.
    - unfold sum3, s3_node_src. field. }
  split; [exact H2|]. split; [exact H2|]. split; [exact H3|]. split; [exact H3|exact G3].
Qed.
Theorem C68_shipped_heat_conduction : forall t x y z,
  conduction_balance (sc_temperature sc_temperature_par) (sc_node_src sc_node_par t x y z) t x y z /\
  conduction_balance (sc_temperature sc_temperature_par) (sc_elem_src sc_elem_par t x y z) t x y z /\
  conduction_balance (s3_temperature s3_temperature_par) (s3_node_src s3_node_par t x y z) t x y z /\
  conduction_balance (s3_temperature s3_temperature_par) (s3_elem_src s3_elem_par t x y z) t x y z /\
  is_gradient (s3_temperature s3_temperature_par) (s3_gradient s3_gradient_par) 3.
Proof. exact (C68_heat_conduction sc_temperature_par). Qed.

(* ------------------------------------------------------------------ wind-energy vortex *)
Lemma sqrt_sum_sqr : forall a b r, sqrt (a*a+b*b) / r * (sqrt (a*a+b*b) / r) = (a*a+b*b) * (/ r * / r).
Proof. intros. unfold Rdiv. replace (sqrt (a*a+b*b) * / r * (sqrt (a*a+b*b) * / r)) with (sqrt (a*a+b*b) * sqrt (a*a+b*b) * (/ r * / r)) by ring. rewrite sqrt_sqrt; nra. Qed.
Lemma cos_atan_sq : forall q, cos (atan q) = / sqrt (1 + q * q) .
Proof. intros q. rewrite cos_atan. unfold Rdiv. rewrite Rmult_1_l. unfold Rsqr. reflexivity. Qed.
Lemma sin_atan_sq : forall q, sin (atan q) = q * / sqrt (1 + q * q) .
Proof. intros q. rewrite sin_atan. unfold Rdiv, Rsqr. reflexivity. Qed.
Lemma sqrt_quot : forall a b, a <> 0 -> sqrt (1 + b / a * (b / a)) = sqrt (a*a+b*b) / Rabs a.
Proof.
  intros a b Ha. replace (1 + b / a * (b / a)) with ((a*a+b*b) / (a*a)) by (field; auto).
  rewrite sqrt_div_alt by nra. f_equal. replace (a*a) with (Rsqr a) by reflexivity. apply sqrt_Rsqr_abs.
Qed.
Lemma polar : forall x y, sqrt (x*x+y*y) * cos (atan2 y x) = x /\ sqrt (x*x+y*y) * sin (atan2 y x) = y.
Proof.
  intros x y. unfold atan2. destruct (Rlt_dec 0 x) as [P|P].
  - assert (0 < sqrt (x*x+y*y)) by (apply sqrt_lt_R0; nra).
    rewrite cos_atan_sq, sin_atan_sq, !sqrt_quot by lra. rewrite Rabs_right by lra. split; field; lra.
  - destruct (Rlt_dec x 0) as [N|N].
    + assert (0 < sqrt (x*x+y*y)) by (apply sqrt_lt_R0; nra).
      assert (C : forall a, cos (a - PI) = - cos a) by (intros; rewrite cos_minus, cos_PI, sin_PI; ring).
      assert (Q : forall a, sin (a - PI) = - sin a) by (intros; rewrite sin_minus, cos_PI, sin_PI; ring).
      destruct (Rle_dec 0 y); rewrite ?neg_cos, ?neg_sin, ?C, ?Q, cos_atan_sq, sin_atan_sq, !sqrt_quot by lra;
        rewrite Rabs_left by lra; split; field; lra.
    + assert (x = 0) by lra. subst x. replace (0*0+y*y) with (Rsqr y) by (unfold Rsqr; ring). rewrite sqrt_Rsqr_abs.
      destruct (Rlt_dec 0 y); [|destruct (Rlt_dec y 0)].
      * rewrite cos_PI2, sin_PI2, Rabs_right by lra. split; ring.
      * rewrite cos_neg, sin_neg, cos_PI2, sin_PI2, Rabs_left by lra. split; ring.
      * assert (y = 0) by lra. subst. rewrite Rabs_R0. split; ring.
Qed.
