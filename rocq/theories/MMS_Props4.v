(** C68, continued: two-dimensional exact solutions, heat conduction. *)
From Coq Require Import Reals Lra Lia.
From Coquelicot Require Import Coquelicot.
From Verif Require Import MMS_Model MMS_Spec MMS_Props MMS_Props3.
Open Scope R_scope.

Ltac idx2 j H := destruct j as [|[|j]]; [| |exfalso; lia].

(* ------------------------------------------------------------------ steady Taylor vortex *)
Definition tv_grad (q : par) (i j : nat) : field := fun t x y z =>
  let k := a_ q * pi_ q in
  let cx := cos (a_ q * pi_ q * x) in let sx := sin (a_ q * pi_ q * x) in
  let cy := cos (a_ q * pi_ q * y) in let sy := sin (a_ q * pi_ q * y) in
  match i, j with
  | 0%nat, 0%nat => unot_ q * k * sx * sy | 0%nat, 1%nat => - unot_ q * k * cx * cy
  | 1%nat, 0%nat => vnot_ q * k * cx * cy | 1%nat, 1%nat => - vnot_ q * k * sx * sy
  | _, _ => 0 end.
Lemma tv_grad_ok : forall q a j t x y z, (a < 3)%nat -> (j < 3)%nat -> pd j (tv_velocity q a) t x y z (tv_grad q a j t x y z).
Proof. intros q a j t x y z Ha Hj. idx3 a Ha; idx3 j Hj; pdu; unfold tv_velocity, tv_grad; cbv zeta; auto_derive; trivial; ring. Qed.
Definition tv_hess (q : par) (i j k : nat) (x y z : R) : R :=
  let w := (a_ q * pi_ q) * (a_ q * pi_ q) in
  let cx := cos (a_ q * pi_ q * x) in let sx := sin (a_ q * pi_ q * x) in
  let cy := cos (a_ q * pi_ q * y) in let sy := sin (a_ q * pi_ q * y) in
  match i, j, k with
  | 0%nat, 0%nat, 0%nat => unot_ q * w * cx * sy | 0%nat, 0%nat, 1%nat => unot_ q * w * sx * cy
  | 0%nat, 1%nat, 0%nat => unot_ q * w * sx * cy | 0%nat, 1%nat, 1%nat => unot_ q * w * cx * sy
  | 1%nat, 0%nat, 0%nat => - vnot_ q * w * sx * cy | 1%nat, 0%nat, 1%nat => - vnot_ q * w * cx * sy
  | 1%nat, 1%nat, 0%nat => - vnot_ q * w * cx * sy | 1%nat, 1%nat, 1%nat => - vnot_ q * w * sx * cy
  | _, _, _ => 0 end.
Lemma tv_hess_ok : forall q i j k t x y z, (i < 3)%nat -> (j < 3)%nat -> (k < 3)%nat -> pd k (tv_grad q i j) t x y z (tv_hess q i j k x y z).
Proof. intros q i j k t x y z Hi Hj Hk. idx3 i Hi; idx3 j Hj; idx3 k Hk; pdu; unfold tv_grad, tv_hess; cbv zeta; auto_derive; trivial; ring. Qed.
Definition tv_dp (q : par) (i : nat) (x y : R) : R :=
  match i with 0%nat => pnot_ q / 4 * (2 * a_ q * pi_ q) * sin (2 * a_ q * pi_ q * x) | 1%nat => pnot_ q / 4 * (2 * a_ q * pi_ q) * sin (2 * a_ q * pi_ q * y) | _ => 0 end.
Lemma tv_dp_ok : forall q i t x y z, (i < 3)%nat -> pd i (tv_pressure q) t x y z (tv_dp q i x y).
Proof. intros q i t x y z Hi. idx3 i Hi; pdu; unfold tv_pressure, tv_dp; auto_derive; trivial; field. Qed.

(** Steady Taylor vortex with unit density: solenoidal (continuity source zero for equal densities),
    momentum source = residual, gradient function = gradient of the pressure function. *)
Theorem C68_steady_taylor_vortex : forall q c, vnot_ q = unot_ q -> pnot_ q = unot_ q * unot_ q ->
  divergence_free (tv_velocity q) /\
  (forall t x y z, rhoP_ q = rhoS_ q -> tv_continuity_src q t x y z = 0) /\
  (forall i t x y z, (i < 3)%nat ->
    momentum_balance (rho_const 1) (tv_velocity q) (tv_pressure q) (visc_ q) c 0 (tv_momentum_src q i t x y z) i t x y z) /\
  (pnot_ q = 1 -> is_gradient (tv_pressure q) (tv_gradp q) 2).
Proof.
  intros q c Hv Hp. split; [|split; [|split]].
  - apply (const_continuity _ (tv_grad q)). + intros; apply tv_grad_ok; auto. + intros. unfold sum3, tv_grad. cbv zeta. rewrite Hv. ring.
  - intros t x y z E. unfold tv_continuity_src. rewrite E, Hv. unfold Rdiv.
    set (D := inv2 _). set (D2 := / (_ + _)). ring.
  - intros i t x y z Hi. apply (const_momentum 1 _ _ _ _ _ _ i t x y z (tv_grad q) (fun a b d => tv_hess q a b d x y z) 0 (tv_dp q i x y)); auto.
    + intros; apply tv_grad_ok; auto.
    + intros; apply tv_hess_ok; auto.
    + steady.
    + apply tv_dp_ok; auto.
    + unfold tv_momentum_src, tv_dp. rewrite Hp.
      replace (2 * a_ q * pi_ q * x) with (2 * (a_ q * pi_ q * x)) by ring. replace (2 * a_ q * pi_ q * y) with (2 * (a_ q * pi_ q * y)) by ring.
      rewrite !sin_2a.
      pose proof (pyth (a_ q * pi_ q * x)) as Px. pose proof (pyth (a_ q * pi_ q * y)) as Py.
      idx3 i Hi; unfold sum3, stress_pd, sum3; cbn [Nat.eqb]; unfold tv_velocity, tv_grad, tv_hess; cbv zeta; rewrite ?Hv;
        revert Px Py; generalize (cos (a_ q * pi_ q * x)) (sin (a_ q * pi_ q * x)) (cos (a_ q * pi_ q * y)) (sin (a_ q * pi_ q * y));
        intros cx sx cy sy Px Py; try ring; field_simplify_eq; ring [Px Py].
  - intros E j t x y z Hj. eapply pd_val; [|apply tv_dp_ok; lia]. idx2 j Hj; unfold tv_dp, tv_gradp; rewrite E; field.
Qed.
Theorem C68_shipped_steady_taylor_vortex : forall c i t x y z, (i < 3)%nat ->
  tv_continuity_src tv_continuity_par t x y z = 0 /\
  momentum_balance (rho_const 1) (tv_velocity tv_velocity_par) (tv_pressure tv_pressure_par) (1/1000) c 0 (tv_momentum_src tv_momentum_par i t x y z) i t x y z /\
  is_gradient (tv_pressure tv_pressure_par) (tv_gradp tv_gradp_par) 2.
Proof.
  intros c i t x y z Hi.
  set (q := mkPar 1 1 0 1 0 0 20 0 0 0 (1 / 1000) 0 0 0 0 0 0 0 0 0 PI 0 0 0 0 0 0 0 0 0 0 0 0 0).
  assert (K1 : vnot_ q = unot_ q) by reflexivity. assert (K2 : pnot_ q = unot_ q * unot_ q) by (cbn; ring).
  assert (K3 : pnot_ tv_continuity_par = unot_ tv_continuity_par * unot_ tv_continuity_par) by (cbn; ring).
  split; [|split].
  - apply (proj1 (proj2 (C68_steady_taylor_vortex tv_continuity_par c eq_refl K3))). reflexivity.
  - exact (proj1 (proj2 (proj2 (C68_steady_taylor_vortex q c K1 K2))) i t x y z Hi).
  - exact (proj2 (proj2 (proj2 (C68_steady_taylor_vortex q c K1 K2))) eq_refl).
Qed.

(* ------------------------------------------------------------------ convecting Taylor vortex *)
Definition cv_grad (q : par) (i j : nat) : field := fun t x y z =>
  let k := pi_ q in let e := exp (- 2 * (pi_ q * pi_ q * visc_ q) * t) in
  let X := pi_ q * (x - uNot_ q * t) in let Y := pi_ q * (y - vNot_ q * t) in
  let cx := cos X in let sx := sin X in let cy := cos Y in let sy := sin Y in
  match i, j with
  | 0%nat, 0%nat => k * sx * sy * e | 0%nat, 1%nat => - k * cx * cy * e
  | 1%nat, 0%nat => k * cx * cy * e | 1%nat, 1%nat => - k * sx * sy * e
  | _, _ => 0 end.
Lemma cv_grad_ok : forall q a j t x y z, (a < 3)%nat -> (j < 3)%nat -> pd j (cv_velocity q a) t x y z (cv_grad q a j t x y z).
Proof. intros q a j t x y z Ha Hj. idx3 a Ha; idx3 j Hj; pdu; unfold cv_velocity, cv_grad; cbv zeta; auto_derive; trivial; unfold Rminus; ring. Qed.
Definition cv_hess (q : par) (i j k : nat) (t x y : R) : R :=
  let w := pi_ q * pi_ q in let e := exp (- 2 * (pi_ q * pi_ q * visc_ q) * t) in
  let X := pi_ q * (x - uNot_ q * t) in let Y := pi_ q * (y - vNot_ q * t) in
  let cx := cos X in let sx := sin X in let cy := cos Y in let sy := sin Y in
  match i, j, k with
  | 0%nat, 0%nat, 0%nat => w * cx * sy * e | 0%nat, 0%nat, 1%nat => w * sx * cy * e
  | 0%nat, 1%nat, 0%nat => w * sx * cy * e | 0%nat, 1%nat, 1%nat => w * cx * sy * e
  | 1%nat, 0%nat, 0%nat => - w * sx * cy * e | 1%nat, 0%nat, 1%nat => - w * cx * sy * e
  | 1%nat, 1%nat, 0%nat => - w * cx * sy * e | 1%nat, 1%nat, 1%nat => - w * sx * cy * e
  | _, _, _ => 0 end.
Lemma cv_hess_ok : forall q i j k t x y z, (i < 3)%nat -> (j < 3)%nat -> (k < 3)%nat -> pd k (cv_grad q i j) t x y z (cv_hess q i j k t x y).
Proof. intros q i j k t x y z Hi Hj Hk. idx3 i Hi; idx3 j Hj; idx3 k Hk; pdu; unfold cv_grad, cv_hess; cbv zeta; auto_derive; trivial; unfold Rminus; ring. Qed.
Definition cv_dt (q : par) (i : nat) (t x y : R) : R :=
  let k := pi_ q in let om := pi_ q * pi_ q * visc_ q in let e := exp (- 2 * (pi_ q * pi_ q * visc_ q) * t) in
  let X := pi_ q * (x - uNot_ q * t) in let Y := pi_ q * (y - vNot_ q * t) in
  let cx := cos X in let sx := sin X in let cy := cos Y in let sy := sin Y in
  match i with
  | 0%nat => - (k * uNot_ q * sx * sy * e) + k * vNot_ q * cx * cy * e + 2 * om * (cx * sy * e)
  | 1%nat => - (k * uNot_ q * cx * cy * e) + k * vNot_ q * sx * sy * e - 2 * om * (sx * cy * e)
  | _ => 0 end.
Lemma cv_dt_ok : forall q i t x y z, (i < 3)%nat -> pd 3 (cv_velocity q i) t x y z (cv_dt q i t x y).
Proof. intros q i t x y z Hi. idx3 i Hi; pdu; unfold cv_velocity, cv_dt; cbv zeta; auto_derive; trivial; unfold Rminus; ring. Qed.
Lemma cv_gradp_ok : forall q j t x y z, (j < 2)%nat -> pd j (cv_pressure q) t x y z (cv_gradp q j t x y z).
Proof. intros q j t x y z Hj. idx2 j Hj; pdu; unfold cv_pressure, cv_gradp; cbv zeta; auto_derive; trivial; unfold Rminus, Rdiv; ring. Qed.

(** The decaying vortex carried by a uniform stream solves the unsteady Navier-Stokes equations with
    unit density and the built-in viscosity, without sources, for every convection velocity. *)
Theorem C68_convecting_taylor_vortex : forall q c, pNot_ q = 1 ->
  divergence_free (cv_velocity q) /\
  (forall i t x y z, (i < 3)%nat -> momentum_balance (rho_const 1) (cv_velocity q) (cv_pressure q) (visc_ q) c 0 0 i t x y z) /\
  is_gradient (cv_pressure q) (cv_gradp q) 2.
Proof.
  intros q c Hp. split; [|split].
  - apply (const_continuity _ (cv_grad q)). + intros; apply cv_grad_ok; auto. + intros. unfold sum3, cv_grad. cbv zeta. ring.
  - intros i t x y z Hi.
    apply (const_momentum 1 _ _ _ _ _ _ i t x y z (cv_grad q) (fun a b d => cv_hess q a b d t x y) (cv_dt q i t x y) (match i with 2%nat => 0 | _ => cv_gradp q i t x y z end)); auto.
    + intros; apply cv_grad_ok; auto.
    + intros; apply cv_hess_ok; auto.
    + apply cv_dt_ok; auto.
    + destruct i as [|[|[|i]]]; [apply cv_gradp_ok; lia|apply cv_gradp_ok; lia| |exfalso; lia]. pdu. unfold cv_pressure. cbv zeta. auto_derive; trivial.
    + unfold cv_gradp. cbv zeta. rewrite Hp.
      replace (2 * pi_ q * (x - uNot_ q * t)) with (2 * (pi_ q * (x - uNot_ q * t))) by ring.
      replace (2 * pi_ q * (y - vNot_ q * t)) with (2 * (pi_ q * (y - vNot_ q * t))) by ring.
      replace (exp (- 4 * (pi_ q * pi_ q * visc_ q) * t)) with (exp (- 2 * (pi_ q * pi_ q * visc_ q) * t) * exp (- 2 * (pi_ q * pi_ q * visc_ q) * t))
        by (rewrite <- exp_plus; f_equal; ring).
      rewrite !sin_2a.
      pose proof (pyth (pi_ q * (x - uNot_ q * t))) as Px. pose proof (pyth (pi_ q * (y - vNot_ q * t))) as Py.
      idx3 i Hi; unfold sum3, stress_pd, sum3; cbn [Nat.eqb]; unfold cv_velocity, cv_grad, cv_hess, cv_dt; cbv zeta;
        revert Px Py; generalize (cos (pi_ q * (x - uNot_ q * t))) (sin (pi_ q * (x - uNot_ q * t))) (cos (pi_ q * (y - vNot_ q * t))) (sin (pi_ q * (y - vNot_ q * t)));
        generalize (exp (- 2 * (pi_ q * pi_ q * visc_ q) * t)); intros e cx sx cy sy Px Py; try ring; field_simplify_eq; ring [Px Py].
  - intros j t x y z Hj. apply cv_gradp_ok; auto.
Qed.
Theorem C68_shipped_convecting_taylor_vortex : forall c i t x y z, (i < 3)%nat ->
  momentum_balance (rho_const 1) (cv_velocity cv_velocity_par) (cv_pressure cv_pressure_par) (1/1000) c 0 0 i t x y z /\
  is_gradient (cv_pressure cv_pressure_par) (cv_gradp cv_gradp_par) 2.
Proof.
  intros c i t x y z Hi. split.
  - exact (proj1 (proj2 (C68_convecting_taylor_vortex cv_pressure_par c eq_refl)) i t x y z Hi).
  - exact (proj2 (proj2 (C68_convecting_taylor_vortex cv_pressure_par c eq_refl))).
Qed.

(* ------------------------------------------------------------------ Kovasznay flow *)
Definition kv_lam (Re : R) : R := 1 / 2 * Re - sqrt (1 / 4 * Re * Re + 4 * PI * PI).
Lemma kv_lam_eq : forall Re, kv_lam Re * kv_lam Re = Re * kv_lam Re + 4 * PI * PI.
Proof.
  intros Re. unfold kv_lam. assert (H : 0 <= 1 / 4 * Re * Re + 4 * PI * PI) by nra. pose proof (sqrt_sqrt _ H) as Q.
  set (s := sqrt (1 / 4 * Re * Re + 4 * PI * PI)) in *. assert (s * s = 1/4*Re*Re + 4 * PI * PI) by exact Q. nra.
Qed.
Definition kv_grad (q : par) (i j : nat) : field := fun t x y z =>
  let l := kv_lam (Re_ q) in let e := exp (l * x) in let c := cos (2 * PI * y) in let s := sin (2 * PI * y) in
  match i, j with
  | 0%nat, 0%nat => - l * e * c | 0%nat, 1%nat => 2 * PI * e * s
  | 1%nat, 0%nat => l * l / (2 * PI) * e * s | 1%nat, 1%nat => l * e * c
  | _, _ => 0 end.
Definition kv_hess (q : par) (i j k : nat) (x y : R) : R :=
  let l := kv_lam (Re_ q) in let e := exp (l * x) in let c := cos (2 * PI * y) in let s := sin (2 * PI * y) in
  match i, j, k with
  | 0%nat, 0%nat, 0%nat => - (l * l) * e * c | 0%nat, 0%nat, 1%nat => 2 * PI * l * e * s
  | 0%nat, 1%nat, 0%nat => 2 * PI * l * e * s | 0%nat, 1%nat, 1%nat => 4 * PI * PI * e * c
  | 1%nat, 0%nat, 0%nat => l * l * l / (2 * PI) * e * s | 1%nat, 0%nat, 1%nat => l * l * e * c
  | 1%nat, 1%nat, 0%nat => l * l * e * c | 1%nat, 1%nat, 1%nat => - (2 * PI) * l * e * s
  | _, _, _ => 0 end.
Lemma kv_grad_ok : forall q a j t x y z, kx_ q = 2 * PI -> ky_ q = 2 * PI -> (a < 3)%nat -> (j < 3)%nat -> pd j (kv_velocity q a) t x y z (kv_grad q a j t x y z).
Proof.
  intros q a j t x y z Kx Ky Ha Hj. pose proof PI_neq0. unfold kv_velocity. rewrite Kx, Ky. fold (kv_lam (Re_ q)). cbv zeta. unfold kv_grad. cbv zeta. generalize (kv_lam (Re_ q)). intros l.
  idx3 a Ha; idx3 j Hj; pdu; auto_derive; trivial; try field; auto.
Qed.
Lemma kv_hess_ok : forall q i j k t x y z, (i < 3)%nat -> (j < 3)%nat -> (k < 3)%nat -> pd k (kv_grad q i j) t x y z (kv_hess q i j k x y).
Proof.
  intros q i j k t x y z Hi Hj Hk. pose proof PI_neq0. unfold kv_grad, kv_hess. cbv zeta. generalize (kv_lam (Re_ q)). intros l.
  idx3 i Hi; idx3 j Hj; idx3 k Hk; pdu; auto_derive; trivial; try field; auto.
Qed.
Lemma kv_gradp_ok : forall q j t x y z, (j < 2)%nat -> pd j (kv_pressure q) t x y z (kv_gradp q j t x y z).
Proof.
  intros q j t x y z Hj. unfold kv_pressure, kv_gradp. cbv zeta. generalize (1 / 2 * Re_ q - sqrt (1 / 4 * Re_ q * Re_ q + 4 * PI * PI)). intros l.
  idx2 j Hj; pdu; auto_derive; trivial; field.
Qed.
(** Kovasznay flow behind a grid: an exact steady solution with viscosity 1/Re, without sources. *)
Theorem C68_kovasznay : forall q c, Re_ q <> 0 -> kx_ q = 2 * PI -> ky_ q = 2 * PI ->
  divergence_free (kv_velocity q) /\
  (forall i t x y z, (i < 3)%nat -> momentum_balance (rho_const 1) (kv_velocity q) (kv_pressure q) (/ Re_ q) c 0 0 i t x y z) /\
  is_gradient (kv_pressure q) (kv_gradp q) 2.
Proof.
  intros q c HR Kx Ky. pose proof PI_neq0. split; [|split].
  - apply (const_continuity _ (kv_grad q)). + intros; apply kv_grad_ok; auto. + intros. unfold sum3, kv_grad. cbv zeta. ring.
  - intros i t x y z Hi.
    apply (const_momentum 1 _ _ _ _ _ _ i t x y z (kv_grad q) (fun a b d => kv_hess q a b d x y) 0 (match i with 2%nat => 0 | _ => kv_gradp q i t x y z end)); auto.
    + intros; apply kv_grad_ok; auto.
    + intros; apply kv_hess_ok; auto.
    + steady.
    + destruct i as [|[|[|i]]]; [apply kv_gradp_ok; lia|apply kv_gradp_ok; lia| |exfalso; lia]. pdu. unfold kv_pressure. cbv zeta. auto_derive; trivial.
    + pose proof (kv_lam_eq (Re_ q)) as L. unfold kv_velocity, kv_gradp. rewrite Kx, Ky. cbv zeta. fold (kv_lam (Re_ q)).
      replace (exp (2 * kv_lam (Re_ q) * x)) with (exp (kv_lam (Re_ q) * x) * exp (kv_lam (Re_ q) * x)) by (rewrite <- exp_plus; f_equal; ring).
      pose proof (pyth (2 * PI * y)) as Py.
      idx3 i Hi; unfold sum3, stress_pd, sum3; cbn [Nat.eqb]; unfold kv_grad, kv_hess; cbv zeta;
        revert Py; generalize (cos (2 * PI * y)) (sin (2 * PI * y)); generalize (exp (kv_lam (Re_ q) * x)); 
        revert L; generalize (kv_lam (Re_ q)); intros l L e cy sy Py; try ring.
      * field_simplify_eq; auto. ring [L Py].
      * field_simplify_eq; auto. ring [L Py].
  - intros j t x y z Hj. apply kv_gradp_ok; auto.
Qed.
