(** C68: manufactured solutions: sources are exactly the residuals. Variable-density flow. *)
From Coq Require Import Reals Lra Lia.
From Coquelicot Require Import Coquelicot.
From Verif Require Import MMS_Model MMS_Spec.
Open Scope R_scope.

Ltac idx3 j H := destruct j as [|[|[|j]]]; [| | |exfalso; lia].
Ltac pdu := unfold pd, along, coord; cbn [along coord].

(** velocity gradient of the variable-density field *)
Definition vd_grad (q : par) (i j : nat) : field := fun t x y z =>
  let k := a_ q * pi_ q in
  let cx := cos (a_ q * pi_ q * x) in let sx := sin (a_ q * pi_ q * x) in
  let cy := cos (a_ q * pi_ q * y) in let sy := sin (a_ q * pi_ q * y) in
  let cz := cos (a_ q * pi_ q * z) in let sz := sin (a_ q * pi_ q * z) in
  match i, j with
  | 0%nat, 0%nat => unot_ q * k * sx * sy * sz | 0%nat, 1%nat => - unot_ q * k * cx * cy * sz | 0%nat, 2%nat => - unot_ q * k * cx * sy * cz
  | 1%nat, 0%nat => vnot_ q * k * cx * cy * sz | 1%nat, 1%nat => - vnot_ q * k * sx * sy * sz | 1%nat, 2%nat => vnot_ q * k * sx * cy * cz
  | 2%nat, 0%nat => - wnot_ q * k * cx * sy * cz | 2%nat, 1%nat => - wnot_ q * k * sx * cy * cz | 2%nat, 2%nat => wnot_ q * k * sx * sy * sz
  | _, _ => 0 end.
Lemma vd_grad_ok : forall q a j t x y z, (a < 3)%nat -> (j < 3)%nat -> pd j (vd_velocity q a) t x y z (vd_grad q a j t x y z).
Proof.
  intros q a j t x y z Ha Hj. idx3 a Ha; idx3 j Hj; pdu; unfold vd_velocity, vd_grad; cbv zeta; auto_derive; trivial; ring.
Qed.
Lemma vd_velocity_steady : forall q a t x y z, pd 3 (vd_velocity q a) t x y z 0.
Proof. intros. pdu. apply is_derive_ext with (f := fun _ => vd_velocity q a 0 x y z); [reflexivity|]. auto_derive; trivial. Qed.

(** gradient of the mixture fraction *)
Definition vd_zgrad (q : par) (j : nat) : field := fun t x y z =>
  let k := amf_ q * pi_ q in
  let cx := cos (amf_ q * pi_ q * x) in let sx := sin (amf_ q * pi_ q * x) in
  let cy := cos (amf_ q * pi_ q * y) in let sy := sin (amf_ q * pi_ q * y) in
  let cz := cos (amf_ q * pi_ q * z) in let sz := sin (amf_ q * pi_ q * z) in
  match j with 0%nat => - znot_ q * k * sx * cy * cz | 1%nat => - znot_ q * k * cx * sy * cz | 2%nat => - znot_ q * k * cx * cy * sz | _ => 0 end.
Lemma vd_zgrad_ok : forall q j t x y z, (j < 3)%nat -> pd j (vd_mixfrac q) t x y z (vd_zgrad q j t x y z).
Proof. intros q j t x y z Hj. idx3 j Hj; pdu; unfold vd_mixfrac, vd_zgrad; cbv zeta; auto_derive; trivial; ring. Qed.

Lemma pd_prod : forall i f g t x y z a b, pd i f t x y z a -> pd i g t x y z b ->
  pd i (fun t x y z => f t x y z * g t x y z) t x y z (a * g t x y z + f t x y z * b).
Proof.
  intros i f g t x y z a b Hf Hg. unfold pd in *.
  assert (E : a * g t x y z + f t x y z * b = plus (mult a (along i g t x y z (coord i t x y z))) (mult (along i f t x y z (coord i t x y z)) b)).
  { destruct i as [|[|[|i]]]; reflexivity. }
  rewrite E. destruct i as [|[|[|i]]]; cbn [along coord] in *; apply (is_derive_mult _ _ _ _ _ Hf Hg); intros; apply Rmult_comm.
Qed.
Lemma pd_scal : forall i f t x y z a c, pd i f t x y z a -> pd i (fun t x y z => c * f t x y z) t x y z (c * a).
Proof. intros i f t x y z a c H. unfold pd in *. destruct i as [|[|[|i]]]; cbn [along coord] in *; apply (is_derive_scal _ _ _ _ H). Qed.
Lemma pd_inv : forall i f t x y z a, pd i f t x y z a -> f t x y z <> 0 ->
  pd i (fun t x y z => / f t x y z) t x y z (- a / (f t x y z ^ 2)).
Proof.
  intros i f t x y z a H Hn. unfold pd in *.
  destruct i as [|[|[|i]]]; cbn [along coord] in *; apply (is_derive_inv _ _ _ H Hn).
Qed.
Lemma pd_ext : forall i f g t x y z a, (forall t x y z, f t x y z = g t x y z) -> pd i f t x y z a -> pd i g t x y z a.
Proof.
  intros i f g t x y z a E H. unfold pd in *.
  destruct i as [|[|[|i]]]; cbn [along coord] in *; (eapply is_derive_ext; [|exact H]); intros; apply E.
Qed.
Lemma pd_const : forall i c t x y z, pd i (fun _ _ _ _ => c) t x y z 0.
Proof. intros. unfold pd. destruct i as [|[|[|i]]]; cbn [along coord]; auto_derive; trivial. Qed.
Lemma pd_val : forall i f t x y z a b, a = b -> pd i f t x y z a -> pd i f t x y z b.
Proof. intros; subst; auto. Qed.

Lemma pd_plus : forall i f g t x y z a b, pd i f t x y z a -> pd i g t x y z b ->
  pd i (fun t x y z => f t x y z + g t x y z) t x y z (a + b).
Proof.
  intros i f g t x y z a b Hf Hg. unfold pd in *. change (a + b) with (plus a b).
  destruct i as [|[|[|i]]]; cbn [along coord] in *; apply (is_derive_plus _ _ _ _ _ Hf Hg).
Qed.

(** gradient of 1/density and of density *)
Definition den (q : par) : field := fun t x y z => vd_mixfrac q t x y z / rhoP_ q + (1 - vd_mixfrac q t x y z) / rhoS_ q.
Lemma den_pd : forall q j t x y z v, pd j (vd_mixfrac q) t x y z v -> pd j (den q) t x y z (v * (/ rhoP_ q - / rhoS_ q)).
Proof.
  intros q j t x y z v H.
  apply pd_ext with (f := fun t x y z => (/ rhoP_ q - / rhoS_ q) * vd_mixfrac q t x y z + / rhoS_ q).
  { intros. unfold den. unfold Rdiv. ring. }
  eapply pd_val; [|apply pd_plus; [apply pd_scal; exact H|apply pd_const]]. ring.
Qed.
Lemma mixfrac_steady : forall q t x y z, pd 3 (vd_mixfrac q) t x y z 0.
Proof. intros. pdu. apply is_derive_ext with (f := fun _ => vd_mixfrac q 0 x y z); [reflexivity|]. auto_derive; trivial. Qed.

(** density of the variable-density case and its derivatives, wherever it is finite *)
Lemma rho_pd : forall q j t x y z v, pd j (vd_mixfrac q) t x y z v -> den q t x y z <> 0 ->
  pd j (rho_mix (rhoP_ q) (rhoS_ q) (vd_mixfrac q)) t x y z (- (v * (/ rhoP_ q - / rhoS_ q)) * / den q t x y z * / den q t x y z).
Proof.
  intros q j t x y z v H Hn. apply den_pd in H.
  eapply pd_val; [|eapply pd_ext; [|apply pd_inv; [exact H|exact Hn]]].
  - unfold Rdiv. cbn [pow]. rewrite Rmult_1_r, Rinv_mult. ring.
  - intros. reflexivity.
Qed.

Ltac atoms q x y z :=
  generalize (cos (a_ q * pi_ q * x)) (sin (a_ q * pi_ q * x)) (cos (a_ q * pi_ q * y)) (sin (a_ q * pi_ q * y)) (cos (a_ q * pi_ q * z)) (sin (a_ q * pi_ q * z));
  generalize (cos (amf_ q * pi_ q * x)) (sin (amf_ q * pi_ q * x)) (cos (amf_ q * pi_ q * y)) (sin (amf_ q * pi_ q * y)) (cos (amf_ q * pi_ q * z)) (sin (amf_ q * pi_ q * z)).

(** The nodal continuity source is the divergence of the mass flux of the named fields. *)
Theorem C68_variable_density_continuity : forall q t x y z, den q t x y z <> 0 ->
  continuity_balance (rho_mix (rhoP_ q) (rhoS_ q) (vd_mixfrac q)) (vd_velocity q) (vd_continuity_node_src q t x y z) t x y z.
Proof.
  intros q t x y z Hn.
  exists 0, (fun j => - (vd_zgrad q j t x y z * (/ rhoP_ q - / rhoS_ q)) * / den q t x y z * / den q t x y z * vd_velocity q j t x y z
               + / den q t x y z * vd_grad q j j t x y z).
  split; [|split].
  - eapply pd_val; [|apply rho_pd; [apply mixfrac_steady|exact Hn]]. ring.
  - intros j Hj. apply pd_prod; [apply rho_pd; [apply vd_zgrad_ok; auto|exact Hn]|apply vd_grad_ok; auto].
  - unfold sum3, vd_continuity_node_src, inv2.
    change (znot_ q * cos (amf_ q * pi_ q * x) * cos (amf_ q * pi_ q * y) * cos (amf_ q * pi_ q * z) / rhoP_ q + (1 - znot_ q * cos (amf_ q * pi_ q * x) * cos (amf_ q * pi_ q * y) * cos (amf_ q * pi_ q * z)) / rhoS_ q)
      with (den q t x y z). rewrite Rinv_mult.
    unfold vd_velocity, vd_grad, vd_zgrad. cbv zeta. unfold Rdiv. generalize (/ den q t x y z) as D. intros D. generalize (/ rhoP_ q) (/ rhoS_ q). intros. ring.
Qed.

(** The mixture-fraction source is the residual of its transport equation, with gamma = visc/Sc. *)
Theorem C68_variable_density_mixture_fraction : forall q t x y z, den q t x y z <> 0 ->
  scalar_balance (rho_mix (rhoP_ q) (rhoS_ q) (vd_mixfrac q)) (vd_velocity q) (vd_mixfrac q) (visc_ q / Sc_ q) (vd_mixfrac_node_src q t x y z) t x y z.
Proof.
  intros q t x y z Hn.
  set (rx := fun j => - (vd_zgrad q j t x y z * (/ rhoP_ q - / rhoS_ q)) * / den q t x y z * / den q t x y z).
  exists (vd_zgrad q), 0,
    (fun j => (rx j * vd_velocity q j t x y z + / den q t x y z * vd_grad q j j t x y z) * vd_mixfrac q t x y z
              + / den q t x y z * vd_velocity q j t x y z * vd_zgrad q j t x y z),
    (fun j => visc_ q / Sc_ q * (- ((amf_ q * pi_ q) * (amf_ q * pi_ q)) * vd_mixfrac q t x y z)).
  split; [|split; [|split; [|split]]].
  - intros. apply vd_zgrad_ok; auto.
  - eapply pd_val; [|apply pd_prod; [apply rho_pd; [apply mixfrac_steady|exact Hn]|apply mixfrac_steady]]. ring.
  - intros j Hj. apply (pd_prod j (fun t x y z => rho_mix (rhoP_ q) (rhoS_ q) (vd_mixfrac q) t x y z * vd_velocity q j t x y z)).
    + apply pd_prod; [apply rho_pd; [apply vd_zgrad_ok; auto|exact Hn]|apply vd_grad_ok; auto].
    + apply vd_zgrad_ok; auto.
  - intros j Hj. apply pd_scal. idx3 j Hj; pdu; unfold vd_zgrad, vd_mixfrac; cbv zeta; auto_derive; trivial; ring.
  - unfold sum3, rx, vd_mixfrac_node_src, inv2.
    change (znot_ q * cos (amf_ q * pi_ q * x) * cos (amf_ q * pi_ q * y) * cos (amf_ q * pi_ q * z) / rhoP_ q + (1 - znot_ q * cos (amf_ q * pi_ q * x) * cos (amf_ q * pi_ q * y) * cos (amf_ q * pi_ q * z)) / rhoS_ q)
      with (den q t x y z). rewrite Rinv_mult.
    unfold vd_velocity, vd_grad, vd_zgrad, vd_mixfrac. cbv zeta. unfold Rdiv. generalize (/ den q t x y z) as D. intros D. generalize (/ rhoP_ q) (/ rhoS_ q). intros. ring.
Qed.

Definition gcomp (q : par) (i : nat) : R := match i with 0%nat => gx_ q | 1%nat => gy_ q | _ => gz_ q end.

(** second derivatives of the velocity: d_k (G i j) *)
Definition vd_hess (q : par) (i j k : nat) (x y z : R) : R :=
  let w := (a_ q * pi_ q) * (a_ q * pi_ q) in
  let cx := cos (a_ q * pi_ q * x) in let sx := sin (a_ q * pi_ q * x) in
  let cy := cos (a_ q * pi_ q * y) in let sy := sin (a_ q * pi_ q * y) in
  let cz := cos (a_ q * pi_ q * z) in let sz := sin (a_ q * pi_ q * z) in
  match i, j, k with
  | 0%nat, 0%nat, 0%nat => unot_ q * w * cx * sy * sz | 0%nat, 0%nat, 1%nat => unot_ q * w * sx * cy * sz | 0%nat, 0%nat, 2%nat => unot_ q * w * sx * sy * cz
  | 0%nat, 1%nat, 0%nat => unot_ q * w * sx * cy * sz | 0%nat, 1%nat, 1%nat => unot_ q * w * cx * sy * sz | 0%nat, 1%nat, 2%nat => - unot_ q * w * cx * cy * cz
  | 0%nat, 2%nat, 0%nat => unot_ q * w * sx * sy * cz | 0%nat, 2%nat, 1%nat => - unot_ q * w * cx * cy * cz | 0%nat, 2%nat, 2%nat => unot_ q * w * cx * sy * sz
  | 1%nat, 0%nat, 0%nat => - vnot_ q * w * sx * cy * sz | 1%nat, 0%nat, 1%nat => - vnot_ q * w * cx * sy * sz | 1%nat, 0%nat, 2%nat => vnot_ q * w * cx * cy * cz
  | 1%nat, 1%nat, 0%nat => - vnot_ q * w * cx * sy * sz | 1%nat, 1%nat, 1%nat => - vnot_ q * w * sx * cy * sz | 1%nat, 1%nat, 2%nat => - vnot_ q * w * sx * sy * cz
  | 1%nat, 2%nat, 0%nat => vnot_ q * w * cx * cy * cz | 1%nat, 2%nat, 1%nat => - vnot_ q * w * sx * sy * cz | 1%nat, 2%nat, 2%nat => - vnot_ q * w * sx * cy * sz
  | 2%nat, 0%nat, 0%nat => wnot_ q * w * sx * sy * cz | 2%nat, 0%nat, 1%nat => - wnot_ q * w * cx * cy * cz | 2%nat, 0%nat, 2%nat => wnot_ q * w * cx * sy * sz
  | 2%nat, 1%nat, 0%nat => - wnot_ q * w * cx * cy * cz | 2%nat, 1%nat, 1%nat => wnot_ q * w * sx * sy * cz | 2%nat, 1%nat, 2%nat => wnot_ q * w * sx * cy * sz
  | 2%nat, 2%nat, 0%nat => wnot_ q * w * cx * sy * sz | 2%nat, 2%nat, 1%nat => wnot_ q * w * sx * cy * sz | 2%nat, 2%nat, 2%nat => wnot_ q * w * sx * sy * cz
  | _, _, _ => 0 end.
Lemma vd_hess_ok : forall q i j k t x y z, (i < 3)%nat -> (j < 3)%nat -> (k < 3)%nat -> pd k (vd_grad q i j) t x y z (vd_hess q i j k x y z).
Proof.
  intros q i j k t x y z Hi Hj Hk. idx3 i Hi; idx3 j Hj; idx3 k Hk; pdu; unfold vd_grad, vd_hess; cbv zeta; auto_derive; trivial; ring.
Qed.
(** derivative of a stress component from the second derivatives *)
Definition stress_pd (mu c : R) (H : nat -> nat -> nat -> R) (i j : nat) : R :=
  mu * (H i j j + H j i j) - (if Nat.eqb i j then c * mu * sum3 (fun k => H k k j) else 0).
Lemma stress_ok : forall mu c G H i j t x y z, (i < 3)%nat -> (j < 3)%nat ->
  (forall a b, (a < 3)%nat -> (b < 3)%nat -> pd j (G a b) t x y z (H a b j)) -> pd j (stress mu c G i j) t x y z (stress_pd mu c H i j).
Proof.
  intros mu c G H i j t x y z Hi Hj K. unfold stress_pd.
  apply pd_ext with (f := fun t x y z => mu * (G i j t x y z + G j i t x y z) + (if Nat.eqb i j then - (c * mu) * (G 0%nat 0%nat t x y z + G 1%nat 1%nat t x y z + G 2%nat 2%nat t x y z) else 0)).
  { intros. unfold stress, sum3. destruct (Nat.eqb i j); ring. }
  eapply pd_val; [|apply pd_plus; [apply pd_scal; apply pd_plus; apply K; auto|]].
  2:{ instantiate (1 := if Nat.eqb i j then - (c * mu) * (H 0%nat 0%nat j + H 1%nat 1%nat j + H 2%nat 2%nat j) else 0). destruct (Nat.eqb i j).
      - apply pd_scal. apply (pd_plus j (fun t x y z => G 0%nat 0%nat t x y z + G 1%nat 1%nat t x y z)); [apply pd_plus|]; apply K; lia.
      - apply pd_const. }
  unfold sum3. destruct (Nat.eqb i j); ring.
Qed.
Lemma vd_pressure_pd : forall q i t x y z, (i < 3)%nat ->
  pd i (vd_pressure q) t x y z (/ 2 * pnot_ q * sin (2 * a_ q * pi_ q * coord i t x y z) * a_ q * pi_ q).
Proof. intros q i t x y z Hi. idx3 i Hi; pdu; unfold vd_pressure; auto_derive; trivial; field. Qed.

(** The momentum sources are the residuals of the momentum equations: variable density, full stress
    with the include_divu switch (twoThirds = 2/3 divU), buoyancy relative to the reference density. *)
Theorem C68_variable_density_momentum : forall q i t x y z, (i < 3)%nat -> den q t x y z <> 0 ->
  momentum_balance (rho_mix (rhoP_ q) (rhoS_ q) (vd_mixfrac q)) (vd_velocity q) (vd_pressure q) (visc_ q) (twoThirds_ q)
    ((rho_mix (rhoP_ q) (rhoS_ q) (vd_mixfrac q) t x y z - rhoRef_ q) * gcomp q i)
    (vd_momentum_node_src q i t x y z) i t x y z.
Proof.
  intros q i t x y z Hi Hn.
  set (rx := fun j => - (vd_zgrad q j t x y z * (/ rhoP_ q - / rhoS_ q)) * / den q t x y z * / den q t x y z).
  exists (vd_grad q), 0, (/ 2 * pnot_ q * sin (2 * a_ q * pi_ q * coord i t x y z) * a_ q * pi_ q),
    (fun j => (rx j * vd_velocity q j t x y z + / den q t x y z * vd_grad q j j t x y z) * vd_velocity q i t x y z
              + / den q t x y z * vd_velocity q j t x y z * vd_grad q i j t x y z),
    (fun j => stress_pd (visc_ q) (twoThirds_ q) (fun a b c => vd_hess q a b c x y z) i j).
  split; [|split; [|split; [|split; [|split]]]].
  - intros. apply vd_grad_ok; auto.
  - eapply pd_val; [|apply pd_prod; [apply rho_pd; [apply mixfrac_steady|exact Hn]|apply vd_velocity_steady]]. ring.
  - intros j Hj. apply (pd_prod j (fun t x y z => rho_mix (rhoP_ q) (rhoS_ q) (vd_mixfrac q) t x y z * vd_velocity q j t x y z)).
    + apply pd_prod; [apply rho_pd; [apply vd_zgrad_ok; auto|exact Hn]|apply vd_grad_ok; auto].
    + apply vd_grad_ok; auto.
  - intros j Hj. apply stress_ok; auto. intros. apply vd_hess_ok; auto.
  - apply vd_pressure_pd; auto.
  - change (rho_mix (rhoP_ q) (rhoS_ q) (vd_mixfrac q) t x y z) with (/ den q t x y z).
    unfold sum3, rx, vd_momentum_node_src, inv2, stress_pd.
    change (znot_ q * cos (amf_ q * pi_ q * x) * cos (amf_ q * pi_ q * y) * cos (amf_ q * pi_ q * z) / rhoP_ q + (1 - znot_ q * cos (amf_ q * pi_ q * x) * cos (amf_ q * pi_ q * y) * cos (amf_ q * pi_ q * z)) / rhoS_ q)
      with (den q t x y z). rewrite Rinv_mult.
    unfold Rdiv. generalize (/ den q t x y z) as D. intros D.
    idx3 i Hi; cbn [Nat.eqb coord gcomp]; unfold sum3, vd_velocity, vd_grad, vd_zgrad, vd_hess; cbv zeta; generalize (/ rhoP_ q) (/ rhoS_ q); intros; rewrite ?Rmult_1_l; ring.
Qed.
