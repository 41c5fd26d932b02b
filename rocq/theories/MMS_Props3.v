(** C68, continued: constant-density solutions. *)
From Coq Require Import Reals Lra Lia.
From Coquelicot Require Import Coquelicot.
From Verif Require Import MMS_Model MMS_Spec MMS_Props.
Open Scope R_scope.

Lemma const_momentum : forall r u p mu c b S0 i t x y z (G : nat -> nat -> field) (H : nat -> nat -> nat -> R) dt dp,
  (i < 3)%nat ->
  (forall a j t x y z, (a < 3)%nat -> (j < 3)%nat -> pd j (u a) t x y z (G a j t x y z)) ->
  (forall a j k, (a < 3)%nat -> (j < 3)%nat -> (k < 3)%nat -> pd k (G a j) t x y z (H a j k)) ->
  pd 3 (u i) t x y z dt -> pd i p t x y z dp ->
  S0 = r * dt + sum3 (fun j => r * (G j j t x y z * u i t x y z + u j t x y z * G i j t x y z)) + dp - sum3 (stress_pd mu c H i) - b ->
  momentum_balance (rho_const r) u p mu c b S0 i t x y z.
Proof.
  intros r u p mu c b S0 i t x y z G H dt dp Hi HG HH Ht Hp E.
  exists G, (r * dt), dp, (fun j => r * (G j j t x y z * u i t x y z + u j t x y z * G i j t x y z)), (stress_pd mu c H i).
  split; [exact HG|split; [|split; [|split; [|split]]]]; auto.
  - apply (pd_scal 3 (u i) t x y z dt r Ht).
  - intros j Hj.
    eapply pd_ext; [|apply (pd_scal j (fun t x y z => u j t x y z * u i t x y z) _ _ _ _ _ r); apply pd_prod; apply HG; auto].
    intros. unfold rho_const. ring.
  - intros j Hj. apply stress_ok; auto.
Qed.
Definition divergence_free (u : nat -> field) : Prop := forall t x y z, continuity_balance (rho_const 1) u 0 t x y z.
Lemma const_continuity : forall u (G : nat -> nat -> field),
  (forall a j t x y z, (a < 3)%nat -> (j < 3)%nat -> pd j (u a) t x y z (G a j t x y z)) ->
  (forall t x y z, sum3 (fun j => G j j t x y z) = 0) -> divergence_free u.
Proof.
  intros u G HG E t x y z. exists 0, (fun j => 1 * G j j t x y z). split; [exact (pd_const 3 1 t x y z)|split].
  - intros j Hj. apply (pd_scal j (u j) t x y z _ 1). apply HG; auto.
  - specialize (E t x y z). unfold sum3 in *. lra.
Qed.
Ltac steady := pdu; match goal with |- is_derive ?g _ 0 => apply (is_derive_ext (fun _ : R => g 0) g); [reflexivity|apply (@is_derive_const R_AbsRing R_NormedModule)] end.

(* ------------------------------------------------------------------ Boussinesq *)
Definition bq_grad (i j : nat) : field := fun t x y z =>
  let cx := cos (2 * PI * x) in let sx := sin (2 * PI * x) in
  let cy := cos (2 * PI * y) in let sy := sin (2 * PI * y) in
  let cz := cos (2 * PI * z) in let sz := sin (2 * PI * z) in
  match i, j with
  | 0%nat, 0%nat => - PI * sx * sy * sz | 0%nat, 1%nat => PI * cx * cy * sz | 0%nat, 2%nat => PI * cx * sy * cz
  | 1%nat, 0%nat => - 2 * PI * cx * cy * sz | 1%nat, 1%nat => 2 * PI * sx * sy * sz | 1%nat, 2%nat => - 2 * PI * sx * cy * cz
  | 2%nat, 0%nat => PI * cx * sy * cz | 2%nat, 1%nat => PI * sx * cy * cz | 2%nat, 2%nat => - PI * sx * sy * sz
  | _, _ => 0 end.
Lemma bq_grad_ok : forall q a j t x y z, (a < 3)%nat -> (j < 3)%nat -> pd j (bq_velocity q a) t x y z (bq_grad a j t x y z).
Proof. intros q a j t x y z Ha Hj. idx3 a Ha; idx3 j Hj; pdu; unfold bq_velocity, bq_grad; cbv zeta; auto_derive; trivial; field. Qed.
Definition bq_hess (i j k : nat) (x y z : R) : R :=
  let w := 2 * PI * PI in
  let cx := cos (2 * PI * x) in let sx := sin (2 * PI * x) in
  let cy := cos (2 * PI * y) in let sy := sin (2 * PI * y) in
  let cz := cos (2 * PI * z) in let sz := sin (2 * PI * z) in
  match i, j, k with
  | 0%nat, 0%nat, 0%nat => - w * cx * sy * sz | 0%nat, 0%nat, 1%nat => - w * sx * cy * sz | 0%nat, 0%nat, 2%nat => - w * sx * sy * cz
  | 0%nat, 1%nat, 0%nat => - w * sx * cy * sz | 0%nat, 1%nat, 1%nat => - w * cx * sy * sz | 0%nat, 1%nat, 2%nat => w * cx * cy * cz
  | 0%nat, 2%nat, 0%nat => - w * sx * sy * cz | 0%nat, 2%nat, 1%nat => w * cx * cy * cz | 0%nat, 2%nat, 2%nat => - w * cx * sy * sz
  | 1%nat, 0%nat, 0%nat => 2 * w * sx * cy * sz | 1%nat, 0%nat, 1%nat => 2 * w * cx * sy * sz | 1%nat, 0%nat, 2%nat => - (2 * w) * cx * cy * cz
  | 1%nat, 1%nat, 0%nat => 2 * w * cx * sy * sz | 1%nat, 1%nat, 1%nat => 2 * w * sx * cy * sz | 1%nat, 1%nat, 2%nat => 2 * w * sx * sy * cz
  | 1%nat, 2%nat, 0%nat => - (2 * w) * cx * cy * cz | 1%nat, 2%nat, 1%nat => 2 * w * sx * sy * cz | 1%nat, 2%nat, 2%nat => 2 * w * sx * cy * sz
  | 2%nat, 0%nat, 0%nat => - w * sx * sy * cz | 2%nat, 0%nat, 1%nat => w * cx * cy * cz | 2%nat, 0%nat, 2%nat => - w * cx * sy * sz
  | 2%nat, 1%nat, 0%nat => w * cx * cy * cz | 2%nat, 1%nat, 1%nat => - w * sx * sy * cz | 2%nat, 1%nat, 2%nat => - w * sx * cy * sz
  | 2%nat, 2%nat, 0%nat => - w * cx * sy * sz | 2%nat, 2%nat, 1%nat => - w * sx * cy * sz | 2%nat, 2%nat, 2%nat => - w * sx * sy * cz
  | _, _, _ => 0 end.
Lemma bq_hess_ok : forall i j k t x y z, (i < 3)%nat -> (j < 3)%nat -> (k < 3)%nat -> pd k (bq_grad i j) t x y z (bq_hess i j k x y z).
Proof.
  intros i j k t x y z Hi Hj Hk. idx3 i Hi; idx3 j Hj; idx3 k Hk; pdu; unfold bq_grad, bq_hess; cbv zeta; auto_derive; trivial; ring.
Qed.
Lemma pyth : forall e, sin e * sin e = 1 - cos e * cos e.
Proof. intros e. pose proof (sin2_cos2 e) as H. unfold Rsqr in H. lra. Qed.

(** The velocity is solenoidal, and with zero (or constant) pressure and unit density the momentum
    source, taken together with the buoyancy source, balances the momentum equation with the Boussinesq
    force -rhoRef*beta*(T-Tref)*g (MomentumBoussinesqSrcNodeSuppAlg) on the other side; the enthalpy source
    balances advection of h = z, whose diffusion vanishes. *)
Theorem C68_boussinesq : forall q gamma c p0 Cp rhoRef TRef beta g t x y z, Cp <> 0 ->
  divergence_free (bq_velocity q) /\
  (forall i, (i < 3)%nat ->
    momentum_balance (rho_const 1) (bq_velocity q) (fun _ _ _ _ => p0) (visc_ q) c
      (- (rhoRef * beta * ((z / Cp + TRef) - TRef)) * g i)
      (bq_momentum_src q i t x y z + bq_buoyancy_src Cp rhoRef TRef beta g i t x y z) i t x y z) /\
  scalar_balance (rho_const 1) (bq_velocity q) (bq_enthalpy q) gamma (bq_enthalpy_src q t x y z) t x y z.
Proof.
  intros q gamma c p0 Cp rhoRef TRef beta g t x y z HC.
  split; [|split].
  - apply (const_continuity _ bq_grad). + intros; apply bq_grad_ok; auto. + intros. unfold sum3, bq_grad. cbv zeta. ring.
  - intros i Hi. apply (const_momentum 1 _ _ _ _ _ _ i t x y z bq_grad (fun a b d => bq_hess a b d x y z) 0 0); auto.
    + intros; apply bq_grad_ok; auto.
    + intros; apply bq_hess_ok; auto.
    + steady.
    + exact (pd_const i p0 t x y z).
    + unfold bq_buoyancy_src. cbv zeta. unfold bq_momentum_src. cbv zeta.
      replace (4 * PI * x) with (2 * (2 * PI * x)) by ring. replace (4 * PI * y) with (2 * (2 * PI * y)) by ring. replace (4 * PI * z) with (2 * (2 * PI * z)) by ring.
      rewrite !sin_2a, !cos_2a.
      pose proof (pyth (2 * PI * x)) as Px. pose proof (pyth (2 * PI * y)) as Py. pose proof (pyth (2 * PI * z)) as Pz.
      idx3 i Hi; unfold sum3, stress_pd, sum3; cbn [Nat.eqb]; unfold bq_velocity, bq_grad, bq_hess; cbv zeta;
        revert Px Py Pz; generalize (cos (2 * PI * x)) (sin (2 * PI * x)) (cos (2 * PI * y)) (sin (2 * PI * y)) (cos (2 * PI * z)) (sin (2 * PI * z));
        intros cx sx cy sy cz sz Px Py Pz; unfold Rdiv; generalize (/ Cp); intros iC;
        field_simplify_eq; ring [Px Py Pz].
  - exists (fun j _ _ _ _ => match j with 2%nat => 1 | _ => 0 end), 0,
      (fun j => 1 * (bq_grad j j t x y z * z + bq_velocity q j t x y z * match j with 2%nat => 1 | _ => 0 end)), (fun _ => 0).
    assert (Hz : forall j t x y z, (j < 3)%nat -> pd j (bq_enthalpy q) t x y z match j with 2%nat => 1 | _ => 0 end).
    { intros j t' x' y' z' Hj. idx3 j Hj; pdu; unfold bq_enthalpy; auto_derive; trivial. }
    split; [exact Hz|split; [|split; [|split]]].
    + apply (pd_val 3 _ t x y z (1 * 0)); [ring|]. apply (pd_scal 3 (bq_enthalpy q) t x y z 0 1). pdu. unfold bq_enthalpy. auto_derive; trivial.
    + intros j Hj. eapply pd_ext; [|apply (pd_scal j (fun t x y z => bq_velocity q j t x y z * bq_enthalpy q t x y z) _ _ _ _ _ 1); apply pd_prod; [apply bq_grad_ok|apply Hz]; auto].
      intros. unfold rho_const. ring.
    + intros j Hj. exact (pd_const j (gamma * match j with 2%nat => 1 | _ => 0 end) t x y z).
    + unfold bq_enthalpy_src, sum3, bq_grad, bq_velocity. cbv zeta. field.
Qed.
