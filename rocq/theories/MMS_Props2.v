(** C68, continued: non-isothermal variable density; element forms; the shipped constants. *)
From Coq Require Import Reals Lra Lia.
From Coquelicot Require Import Coquelicot.
From Verif Require Import MMS_Model MMS_Spec MMS_Props.
Open Scope R_scope.

Definition vn_hgrad (q : par) (j : nat) : field := fun t x y z =>
  let k := ah_ q * pi_ q in
  let cx := cos (ah_ q * pi_ q * x) in let sx := sin (ah_ q * pi_ q * x) in
  let cy := cos (ah_ q * pi_ q * y) in let sy := sin (ah_ q * pi_ q * y) in
  let cz := cos (ah_ q * pi_ q * z) in let sz := sin (ah_ q * pi_ q * z) in
  match j with 0%nat => - k * sx * cy * cz | 1%nat => - k * cx * sy * cz | 2%nat => - k * cx * cy * sz | _ => 0 end.
Lemma vn_hgrad_ok : forall q j t x y z, (j < 3)%nat -> pd j (vn_enthalpy q) t x y z (vn_hgrad q j t x y z).
Proof. intros q j t x y z Hj. idx3 j Hj; pdu; unfold vn_enthalpy, vn_hgrad; cbv zeta; auto_derive; trivial; ring. Qed.
Lemma vn_enthalpy_steady : forall q t x y z, pd 3 (vn_enthalpy q) t x y z 0.
Proof. intros. pdu. apply is_derive_ext with (f := fun _ => vn_enthalpy q 0 x y z); [reflexivity|]. auto_derive; trivial. Qed.
Lemma gas_pd : forall q j t x y z v, pd j (vn_enthalpy q) t x y z v -> vn_temperature q t x y z <> 0 ->
  pd j (rho_gas (Pref_ q) (MW_ q) (R_ q) (vn_temperature q)) t x y z
    (- (Pref_ q * MW_ q * / R_ q * (v * / Cp_ q)) * / vn_temperature q t x y z * / vn_temperature q t x y z).
Proof.
  intros q j t x y z v H Hn.
  assert (HT : pd j (vn_temperature q) t x y z (v * / Cp_ q)).
  { eapply pd_val; [|eapply pd_ext; [|apply pd_plus; [eapply (pd_scal _ _ _ _ _ _ _ (/ Cp_ q)); exact H|apply (pd_const j (Tref_ q))]]]; [ring|].
    intros. unfold vn_temperature, Rdiv. ring. }
  eapply pd_val; [|eapply pd_ext; [|eapply (pd_scal _ _ _ _ _ _ _ (Pref_ q * MW_ q / R_ q)); apply pd_inv; [exact HT|exact Hn]]].
  - unfold Rdiv. cbn [pow]. rewrite Rmult_1_r, Rinv_mult. ring.
  - intros. reflexivity.
Qed.

Theorem C68_nonisothermal_continuity : forall q t x y z, hnot_ q = 1 -> vn_temperature q t x y z <> 0 ->
  continuity_balance (rho_gas (Pref_ q) (MW_ q) (R_ q) (vn_temperature q)) (vd_velocity q) (vn_continuity_src q t x y z) t x y z.
Proof.
  intros q t x y z Hh Hn.
  set (rx := fun j => - (Pref_ q * MW_ q * / R_ q * (vn_hgrad q j t x y z * / Cp_ q)) * / vn_temperature q t x y z * / vn_temperature q t x y z).
  exists 0, (fun j => rx j * vd_velocity q j t x y z + Pref_ q * MW_ q * / R_ q * / vn_temperature q t x y z * vd_grad q j j t x y z).
  split; [|split].
  - eapply pd_val; [|apply gas_pd; [apply vn_enthalpy_steady|exact Hn]]. ring.
  - intros j Hj. apply pd_prod; [apply gas_pd; [apply vn_hgrad_ok; auto|exact Hn]|apply vd_grad_ok; auto].
  - unfold sum3, rx, vn_continuity_src, inv2. rewrite Hh, !Rmult_1_l.
    change (cos (ah_ q * pi_ q * x) * cos (ah_ q * pi_ q * y) * cos (ah_ q * pi_ q * z) / Cp_ q + Tref_ q) with (vn_temperature q t x y z).
    rewrite Rinv_mult. unfold Rdiv. generalize (/ vn_temperature q t x y z) as D. intros D.
    unfold vd_velocity, vd_grad, vn_hgrad. cbv zeta. generalize (/ R_ q) (/ Cp_ q). intros. ring.
Qed.

Theorem C68_nonisothermal_enthalpy : forall q t x y z, hnot_ q = 1 -> vn_temperature q t x y z <> 0 ->
  scalar_balance (rho_gas (Pref_ q) (MW_ q) (R_ q) (vn_temperature q)) (vd_velocity q) (vn_enthalpy q) (visc_ q / Pr_ q) (vn_enthalpy_src q t x y z) t x y z.
Proof.
  intros q t x y z Hh Hn.
  set (rx := fun j => - (Pref_ q * MW_ q * / R_ q * (vn_hgrad q j t x y z * / Cp_ q)) * / vn_temperature q t x y z * / vn_temperature q t x y z).
  exists (vn_hgrad q), 0,
    (fun j => (rx j * vd_velocity q j t x y z + Pref_ q * MW_ q * / R_ q * / vn_temperature q t x y z * vd_grad q j j t x y z) * vn_enthalpy q t x y z
       + Pref_ q * MW_ q * / R_ q * / vn_temperature q t x y z * vd_velocity q j t x y z * vn_hgrad q j t x y z),
    (fun j => visc_ q / Pr_ q * (- ((ah_ q * pi_ q) * (ah_ q * pi_ q)) * vn_enthalpy q t x y z)).
  split; [|split; [|split; [|split]]].
  - intros. apply vn_hgrad_ok; auto.
  - eapply pd_val; [|apply pd_prod; [apply gas_pd; [apply vn_enthalpy_steady|exact Hn]|apply vn_enthalpy_steady]]. ring.
  - intros j Hj. apply (pd_prod j (fun t x y z => rho_gas (Pref_ q) (MW_ q) (R_ q) (vn_temperature q) t x y z * vd_velocity q j t x y z)).
    + apply pd_prod; [apply gas_pd; [apply vn_hgrad_ok; auto|exact Hn]|apply vd_grad_ok; auto].
    + apply vn_hgrad_ok; auto.
  - intros j Hj. apply pd_scal. idx3 j Hj; pdu; unfold vn_hgrad, vn_enthalpy; cbv zeta; auto_derive; trivial; ring.
  - unfold sum3, rx, vn_enthalpy_src, inv2. rewrite Hh, !Rmult_1_l.
    change (cos (ah_ q * pi_ q * x) * cos (ah_ q * pi_ q * y) * cos (ah_ q * pi_ q * z) / Cp_ q + Tref_ q) with (vn_temperature q t x y z).
    rewrite Rinv_mult. unfold Rdiv. generalize (/ vn_temperature q t x y z) as D. intros D.
    unfold vd_velocity, vd_grad, vn_hgrad, vn_enthalpy. cbv zeta. generalize (/ R_ q) (/ Cp_ q). intros. ring.
Qed.

Theorem C68_nonisothermal_momentum : forall q i t x y z, (i < 3)%nat -> hnot_ q = 1 -> vn_temperature q t x y z <> 0 ->
  momentum_balance (rho_gas (Pref_ q) (MW_ q) (R_ q) (vn_temperature q)) (vd_velocity q) (vd_pressure q) (visc_ q) (twoThirds_ q)
    ((rho_gas (Pref_ q) (MW_ q) (R_ q) (vn_temperature q) t x y z - rhoRef_ q) * gcomp q i)
    (vn_momentum_src q i t x y z) i t x y z.
Proof.
  intros q i t x y z Hi Hh Hn.
  set (rx := fun j => - (Pref_ q * MW_ q * / R_ q * (vn_hgrad q j t x y z * / Cp_ q)) * / vn_temperature q t x y z * / vn_temperature q t x y z).
  exists (vd_grad q), 0, (/ 2 * pnot_ q * sin (2 * a_ q * pi_ q * coord i t x y z) * a_ q * pi_ q),
    (fun j => (rx j * vd_velocity q j t x y z + Pref_ q * MW_ q * / R_ q * / vn_temperature q t x y z * vd_grad q j j t x y z) * vd_velocity q i t x y z
       + Pref_ q * MW_ q * / R_ q * / vn_temperature q t x y z * vd_velocity q j t x y z * vd_grad q i j t x y z),
    (fun j => stress_pd (visc_ q) (twoThirds_ q) (fun a b c => vd_hess q a b c x y z) i j).
  split; [|split; [|split; [|split; [|split]]]].
  - intros. apply vd_grad_ok; auto.
  - eapply pd_val; [|apply pd_prod; [apply gas_pd; [apply vn_enthalpy_steady|exact Hn]|apply vd_velocity_steady]]. ring.
  - intros j Hj. apply (pd_prod j (fun t x y z => rho_gas (Pref_ q) (MW_ q) (R_ q) (vn_temperature q) t x y z * vd_velocity q j t x y z)).
    + apply pd_prod; [apply gas_pd; [apply vn_hgrad_ok; auto|exact Hn]|apply vd_grad_ok; auto].
    + apply vd_grad_ok; auto.
  - intros j Hj. apply stress_ok; auto. intros. apply vd_hess_ok; auto.
  - apply vd_pressure_pd; auto.
  - unfold rho_gas. unfold sum3, rx, vn_momentum_src, inv2, stress_pd. rewrite Hh, !Rmult_1_l.
    change (cos (ah_ q * pi_ q * x) * cos (ah_ q * pi_ q * y) * cos (ah_ q * pi_ q * z) / Cp_ q + Tref_ q) with (vn_temperature q t x y z).
    rewrite Rinv_mult. unfold Rdiv. generalize (/ vn_temperature q t x y z) as D. intros D.
    idx3 i Hi; cbn [Nat.eqb coord gcomp]; unfold sum3, vd_velocity, vd_grad, vn_hgrad, vd_hess; cbv zeta; generalize (/ R_ q) (/ Cp_ q); intros; rewrite ?Rmult_1_l; ring.
Qed.

(** The element forms evaluate the same sources. *)
Theorem C68_element_sources_equal_nodal : forall q t x y z,
  vd_continuity_elem_src q t x y z = vd_continuity_node_src q t x y z /\
  vd_mixfrac_elem_src q t x y z = vd_mixfrac_node_src q t x y z /\
  (forall i, vd_momentum_elem_src q i t x y z = vd_momentum_node_src q i t x y z) /\
  s3_elem_src q t x y z = s3_node_src q t x y z /\ sc_elem_src q t x y z = sc_node_src q t x y z.
Proof. intros. repeat split. Qed.

(** The constants built into the source terms are those built into the solution fields, so the shipped
    combinations are exact: the user has to supply viscosity 1e-3, Sc 0.8 and densities 0.1 and 1
    (isothermal), and 1.25e-3, Pr 0.8 and the gas constants (non-isothermal). *)
Theorem C68_shipped_variable_density : forall divU rhoRef gx gy gz t x y z,
  let Z := vd_mixfrac vd_mixfrac_par in let u := vd_velocity vd_velocity_par in
  let rho := rho_mix (1 / 10) 1 Z in
  Z t x y z / (1 / 10) + (1 - Z t x y z) / 1 <> 0 ->
  continuity_balance rho u (vd_continuity_node_src vd_continuity_node_par t x y z) t x y z /\
  continuity_balance rho u (vd_continuity_elem_src vd_continuity_elem_par t x y z) t x y z /\
  scalar_balance rho u Z (1 / 1000 / (4 / 5)) (vd_mixfrac_node_src vd_mixfrac_node_par t x y z) t x y z /\
  scalar_balance rho u Z (1 / 1000 / (4 / 5)) (vd_mixfrac_elem_src vd_mixfrac_elem_par t x y z) t x y z /\
  (forall i, (i < 3)%nat ->
     let b := (rho t x y z - rhoRef) * match i with 0%nat => gx | 1%nat => gy | _ => gz end in
     momentum_balance rho u (vd_pressure vd_pressure_par) (1 / 1000) (2 / 3 * divU) b
       (vd_momentum_node_src (vd_momentum_node_par divU rhoRef gx gy gz) i t x y z) i t x y z /\
     momentum_balance rho u (vd_pressure vd_pressure_par) (1 / 1000) (2 / 3 * divU) b
       (vd_momentum_elem_src (vd_momentum_elem_par divU rhoRef gx gy gz) i t x y z) i t x y z).
Proof.
  intros divU rhoRef gx gy gz t x y z Z u rho Hn.
  split; [exact (C68_variable_density_continuity vd_continuity_node_par t x y z Hn)|].
  split; [exact (C68_variable_density_continuity vd_continuity_elem_par t x y z Hn)|].
  split; [exact (C68_variable_density_mixture_fraction vd_mixfrac_node_par t x y z Hn)|].
  split; [exact (C68_variable_density_mixture_fraction vd_mixfrac_elem_par t x y z Hn)|].
  intros i Hi b. split.
  - exact (C68_variable_density_momentum (vd_momentum_node_par divU rhoRef gx gy gz) i t x y z Hi Hn).
  - exact (C68_variable_density_momentum (vd_momentum_elem_par divU rhoRef gx gy gz) i t x y z Hi Hn).
Qed.

Theorem C68_shipped_nonisothermal : forall divU rhoRef gx gy gz t x y z,
  let T := vn_temperature vn_temperature_par in let u := vd_velocity vd_velocity_par in
  let rho := rho_gas 100 30 10 T in
  continuity_balance rho u (vn_continuity_src vn_continuity_par t x y z) t x y z /\
  scalar_balance rho u (vn_enthalpy vn_temperature_par) (1 / 800 / (4 / 5)) (vn_enthalpy_src vn_enthalpy_par t x y z) t x y z /\
  (forall i, (i < 3)%nat ->
     momentum_balance rho u (vd_pressure vd_pressure_par) (1 / 800) (2 / 3 * divU)
       ((rho t x y z - rhoRef) * match i with 0%nat => gx | 1%nat => gy | _ => gz end)
       (vn_momentum_src (vn_momentum_par divU rhoRef gx gy gz) i t x y z) i t x y z).
Proof.
  intros divU rhoRef gx gy gz t x y z T u rho.
  assert (Hn : T t x y z <> 0).
  { unfold T, vn_temperature, vn_enthalpy. cbn [ah_ pi_ Cp_ Tref_ vn_temperature_par].
    assert (B : forall e, -1 <= cos e <= 1) by (intros; apply COS_bound).
    pose proof (B (10 * PI * x)) as Bx. pose proof (B (10 * PI * y)) as By. pose proof (B (10 * PI * z)) as Bz.
    assert (P : -1 <= cos (10 * PI * x) * cos (10 * PI * y) <= 1) by nra.
    assert (P2 : -1 <= cos (10 * PI * x) * cos (10 * PI * y) * cos (10 * PI * z) <= 1) by nra.
    intros E. unfold Rdiv in E. replace (/ (1 * / 100)) with 100 in E by field. lra. }
  split; [exact (C68_nonisothermal_continuity vn_continuity_par t x y z eq_refl Hn)|].
  split; [exact (C68_nonisothermal_enthalpy vn_enthalpy_par t x y z eq_refl Hn)|].
  intros i Hi. exact (C68_nonisothermal_momentum (vn_momentum_par divU rhoRef gx gy gz) i t x y z Hi eq_refl Hn).
Qed.

(** Witness: the hypothesis of the isothermal case holds at the origin (density 0.1) ... *)
Example C68_density_finite_at_origin :
  vd_mixfrac vd_mixfrac_par 0 0 0 0 / (1 / 10) + (1 - vd_mixfrac vd_mixfrac_par 0 0 0 0) / 1 <> 0.
Proof. unfold vd_mixfrac. cbn [znot_ amf_ pi_ vd_mixfrac_par]. rewrite !Rmult_0_r, cos_0. unfold Rdiv. replace (/ (1 * / 10)) with 10 by field. lra. Qed.
(** ... but the shipped mixture fraction leaves [0,1] and there is a surface on which the density is
    infinite, arbitrarily close to points of negative density: the solution exists only on a domain
    around the origin. *)
Theorem C68_mixture_fraction_realizable_everywhere_refuted :
  vd_mixfrac vd_mixfrac_par 0 (1/10) 0 0 = -1 /\
  rho_mix (1 / 10) 1 (vd_mixfrac vd_mixfrac_par) 0 (1/10) 0 0 < 0.
Proof.
  assert (E : vd_mixfrac vd_mixfrac_par 0 (1/10) 0 0 = -1).
  { unfold vd_mixfrac. cbn [znot_ amf_ pi_ vd_mixfrac_par]. rewrite !Rmult_0_r, cos_0. replace (10 * PI * (1/10)) with PI by field. rewrite cos_PI. ring. }
  split; [exact E|]. unfold rho_mix. rewrite E. unfold Rdiv. replace (/ (1 * / 10)) with 10 by field. rewrite Rinv_1.
  apply Rinv_lt_0_compat. lra.
Qed.
