(** C53: property evaluators *)
Require Import Reals List Bool Lra Lia Arith.
From Coquelicot Require Import Coquelicot.
From Verif Require Import RUtil Edge_Model Edge_Proofs Prop_Model.
Open Scope R_scope.

Lemma sumn_nonneg n f : (forall k, (k < n)%nat -> 0 <= f k) -> 0 <= sumn n f.
Proof. intros H. induction n; [unfold sumn; cbn; lra|]. rewrite sumn_S. specialize (IHn (fun k Hk => H k (Nat.lt_lt_succ_r _ _ Hk))). pose proof (H n (Nat.lt_succ_diag_r n)). lra. Qed.
Lemma sumn_pos n f : (forall k, (k < n)%nat -> 0 <= f k) -> (exists k, (k < n)%nat /\ 0 < f k) -> 0 < sumn n f.
Proof.
  intros H (k & Hk & P). induction n; [lia|]. rewrite sumn_S. pose proof (H n (Nat.lt_succ_diag_r n)).
  destruct (Nat.eq_dec k n) as [->|N].
  - pose proof (sumn_nonneg n f (fun k Hk => H k (Nat.lt_lt_succ_r _ _ Hk))). lra.
  - assert (0 < sumn n f) by (apply IHn; [intros; apply H; lia|lia]). lra.
Qed.
Lemma sumn_le n f g : (forall k, (k < n)%nat -> f k <= g k) -> sumn n f <= sumn n g.
Proof. intros H. induction n; [unfold sumn; cbn; lra|]. rewrite !sumn_S. pose proof (H n (Nat.lt_succ_diag_r n)). specialize (IHn (fun k Hk => H k (Nat.lt_lt_succ_r _ _ Hk))). lra. Qed.

(** a physical composition: positive molecular weights, non-negative mass fractions, not all zero *)
Definition composition (n : nat) (mw Y : nat -> R) : Prop :=
  (forall k, (k < n)%nat -> 0 < mw k) /\ (forall k, (k < n)%nat -> 0 <= Y k) /\ (exists k, (k < n)%nat /\ 0 < Y k).
Lemma moles_pos n mw Y : composition n mw Y -> 0 < sumn n (fun k => Y k / mw k).
Proof.
  intros (M & P & (k & Hk & Q)). apply sumn_pos.
  - intros j Hj. apply Rmult_le_pos; [auto|]. left. apply Rinv_0_lt_compat. auto.
  - exists k. split; [exact Hk|]. apply Rdiv_lt_0_compat; auto.
Qed.

(** the equation of state p = rho R T sum(Yk/Wk), for every evaluator; the density is positive *)
Theorem C53_ideal_gas_law : forall n mw Y Ru p T, composition n mw Y -> 0 < Ru -> 0 < T ->
  let N := sumn n (fun k => Y k / mw k) in
  ideal_PrefTYkref p Ru n Y mw T * Ru * T * N = p /\ ideal_PrefTYk p Ru n mw Y T * Ru * T * N = p /\
  ideal_PTYkref Ru n Y mw p T * Ru * T * N = p /\ ideal_PrefTrefYk p T Ru n mw Y * Ru * T * N = p /\
  ideal_PrefTrefYkref p T Ru n Y mw * Ru * T * N = p /\ (0 < p -> 0 < ideal_PrefTYk p Ru n mw Y T).
Proof.
  intros n mw Y Ru p T C HR HT N. pose proof (moles_pos n mw Y C) as HN. fold N in HN.
  unfold ideal_PrefTYkref, ideal_PrefTYk, ideal_PTYkref, ideal_PrefTrefYk, ideal_PrefTrefYkref, mixture_mw. fold N.
  repeat split; try (field; lra). intros Hp.
  assert (0 < 1 / N) by (apply Rdiv_lt_0_compat; lra).
  apply Rdiv_lt_0_compat; [|lra]. apply Rdiv_lt_0_compat; [|lra]. nra.
Qed.
(** a mixture of one species has that species' molecular weight; mass fractions need only their ratios... scaling all mass fractions
    by c divides the molecular weight by c *)
Theorem C53_mixture_weight : forall n mw Y j c, (j < n)%nat -> mw j <> 0 -> c <> 0 -> sumn n (fun k => Y k / mw k) <> 0 ->
  mixture_mw n (fun k => if Nat.eqb k j then 1 else 0) mw = mw j /\ mixture_mw n (fun k => c * Y k) mw = mixture_mw n Y mw / c.
Proof.
  intros n mw Y j c Hj Hm Hc HN. split; unfold mixture_mw.
  - assert (E : sumn n (fun k => (if Nat.eqb k j then 1 else 0) / mw k) = 1 / mw j).
    { clear HN. induction n; [lia|]. rewrite sumn_S. destruct (Nat.eq_dec j n) as [->|N].
      - rewrite Nat.eqb_refl. assert (sumn n (fun k => (if Nat.eqb k n then 1 else 0) / mw k) = 0).
        { rewrite (sumn_ext n _ (fun _ => 0)); [clear; induction n; [reflexivity|rewrite sumn_S, IHn; lra]|].
          intros k Hk. destruct (Nat.eqb_spec k n); [lia|]. unfold Rdiv. ring. }
        lra.
      - rewrite IHn by lia. destruct (Nat.eqb_spec n j); [lia|]. unfold Rdiv. ring. }
    rewrite E. field. exact Hm.
  - rewrite (sumn_ext n _ (fun k => c * (Y k / mw k))) by (intros; unfold Rdiv; ring). rewrite sumn_scal. field. auto.
Qed.

(** derivative of a finite sum *)
Lemma is_derive_sumn n (f : nat -> R -> R) (f' : nat -> R) (x : R) : (forall k, (k < n)%nat -> is_derive (f k) x (f' k)) ->
  is_derive (fun t => sumn n (fun k => f k t)) x (sumn n f').
Proof.
  intros H. induction n.
  - apply (is_derive_ext (fun _ => 0)); [intros; reflexivity|]. unfold sumn; cbn. apply @is_derive_const.
  - apply (is_derive_ext (fun t => sumn n (fun k => f k t) + f n t)); [intros; rewrite sumn_S; reflexivity|].
    rewrite sumn_S. apply @is_derive_plus; [apply IHn; intros; apply H; lia|apply H; lia].
Qed.

Lemma h_branch n Y mw (c : nat -> nat -> R) Ru T : T <> 0 ->
  is_derive (fun t => sumn n (fun k => Y k * h_rt t (c k) / mw k) * Ru * t) T (sumn n (fun k => Y k * cp_r T (c k) / mw k) * Ru).
Proof.
  intros HT.
  apply (is_derive_ext_loc (fun t => sumn n (fun k => Y k * (h_rt t (c k) * t) / mw k) * Ru)).
  { apply filter_forall. intros t. rewrite (sumn_ext n _ (fun k => t * (Y k * h_rt t (c k) / mw k))) by (intros; unfold Rdiv; ring).
    rewrite sumn_scal. match goal with |- ?a = ?b => change (@eq R a b) end. ring. }
  assert (D : is_derive (fun t => sumn n (fun k => Y k * (h_rt t (c k) * t) / mw k)) T (sumn n (fun k => Y k * cp_r T (c k) / mw k))).
  { apply is_derive_sumn. intros k _. unfold h_rt, cp_r. unfold Rdiv. generalize (/ mw k). intros im. auto_derive; [exact HT|]. field. exact HT. }
  pose proof (is_derive_scal_l (fun t => sumn n (fun k => Y k * (h_rt t (c k) * t) / mw k)) T _ Ru D) as E. exact E.
Qed.

(** the specific heat is the temperature derivative of the enthalpy, for every composition and coefficient set, away from the
    switch temperature *)
Theorem C53_specific_heat_is_enthalpy_derivative : forall n Y mw lo hi Ru T, T <> 0 -> T <> 1000 ->
  is_derive (fun t => enthalpy n Y mw lo hi Ru t) T (specific_heat n Y mw lo hi Ru T).
Proof.
  intros n Y mw lo hi Ru T H0 H1. unfold specific_heat. destruct (Rlt_dec T TlowHigh) as [L|L]; unfold TlowHigh in L.
  - apply (is_derive_ext_loc (fun t => sumn n (fun k => Y k * h_rt t (lo k) / mw k) * Ru * t)); [|apply h_branch; exact H0].
    assert (P : 0 < 1000 - T) by lra. exists (mkposreal _ P). intros t Ht. unfold enthalpy. destruct (Rlt_dec t TlowHigh) as [K|K]; [reflexivity|].
    exfalso. apply K. unfold ball in Ht. cbn in Ht. unfold AbsRing_ball, abs, minus, plus, opp in Ht. cbn in Ht. unfold TlowHigh. apply Rabs_lt_between in Ht. lra.
  - assert (P : 0 < T - 1000) by lra.
    apply (is_derive_ext_loc (fun t => sumn n (fun k => Y k * h_rt t (hi k) / mw k) * Ru * t)); [|apply h_branch; exact H0].
    exists (mkposreal _ P). intros t Ht. unfold enthalpy. destruct (Rlt_dec t TlowHigh) as [K|K]; [|reflexivity].
    exfalso. unfold ball in Ht. cbn in Ht. unfold AbsRing_ball, abs, minus, plus, opp in Ht. cbn in Ht. unfold TlowHigh in K. apply Rabs_lt_between in Ht. lra.
Qed.
(** constant specific heats and water *)
Theorem C53_constant_cp_derivative : forall n Y cp hf c Tref T,
  is_derive (enthalpy_const n Y cp hf Tref) T (specific_heat_const n Y cp) /\ is_derive (enthalpy_const_spec_heat c Tref) T c /\
  enthalpy_const n Y cp hf Tref Tref = sumn n (fun k => Y k * hf k) /\ enthalpy_const_spec_heat c Tref Tref = 0.
Proof.
  intros. split; [|split; [|split]].
  - unfold enthalpy_const, specific_heat_const. apply (is_derive_sumn n (fun k t => Y k * (cp k * (t - Tref) + hf k))). intros. auto_derive; [exact I|]. ring.
  - unfold enthalpy_const_spec_heat. auto_derive; [exact I|ring].
  - unfold enthalpy_const. apply sumn_ext. intros. ring.
  - unfold enthalpy_const_spec_heat. ring.
Qed.
Theorem C53_water_enthalpy : forall T, is_derive water_h T (water_cp T) /\ water_h 300 = water_cp 300 * 300.
Proof.
  intros T. split.
  - unfold water_h, water_h0, water_cp. auto_derive; [exact I|]. field.
  - unfold water_h, water_hRef, water_cp, water_Tref. ring.
Qed.
(** liquid-water properties are positive over the liquid range *)
Theorem C53_water_positive : forall T, 273 <= T <= 373 ->
  0 < water_rho T /\ 0 < water_mu T /\ 0 < water_cp T /\ 0 < water_k T.
Proof.
  intros T HT. replace T with (323 + (T - 323)) by ring. set (u := T - 323). assert (Hu : -50 <= u <= 50) by (unfold u; lra). clearbody u. clear T HT.
  assert (U2 : 0 <= u*u <= 2500) by nra.
  assert (U3 : -125000 <= u*u*u <= 125000) by nra.
  unfold water_rho, water_mu, water_cp, water_k. repeat split; nra.
Qed.

(** linearity in the composition: the mixture value is the mass-weighted sum of the species values *)
Theorem C53_mixture_is_mass_weighted_sum : forall n Y mw lo hi Ru cp hf Tref T,
  let e j := fun k => if Nat.eqb k j then 1 else 0 in
  enthalpy n Y mw lo hi Ru T = sumn n (fun j => Y j * enthalpy n (e j) mw lo hi Ru T) /\
  specific_heat n Y mw lo hi Ru T = sumn n (fun j => Y j * specific_heat n (e j) mw lo hi Ru T) /\
  enthalpy_const n Y cp hf Tref T = sumn n (fun j => Y j * enthalpy_const n (e j) cp hf Tref T) /\
  specific_heat_const n Y cp = sumn n (fun j => Y j * specific_heat_const n (e j) cp).
Proof.
  intros n Y mw lo hi Ru cp hf Tref T e.
  assert (S : forall g j, (j < n)%nat -> sumn n (fun k => e j k * g k) = g j).
  { intros g j Hj. unfold e. clear -Hj. induction n; [lia|]. rewrite sumn_S. destruct (Nat.eq_dec j n) as [->|N].
    - rewrite Nat.eqb_refl. assert (sumn n (fun k => (if Nat.eqb k n then 1 else 0) * g k) = 0).
      { rewrite (sumn_ext n _ (fun _ => 0)); [clear; induction n; [reflexivity|rewrite sumn_S, IHn; lra]|].
        intros k Hk. destruct (Nat.eqb_spec k n); [lia|]. ring. }
      lra.
    - rewrite IHn by lia. destruct (Nat.eqb_spec n j); [lia|]. ring. }
  assert (S' : forall g c, sumn n (fun k => Y k * g k / mw k) * c = sumn n (fun j => Y j * (sumn n (fun k => e j k * g k / mw k) * c))).
  { intros g c. rewrite Rmult_comm, <- sumn_scal. apply sumn_ext. intros j Hj.
    rewrite (sumn_ext n (fun k => e j k * g k / mw k) (fun k => e j k * (g k / mw k))) by (intros; unfold Rdiv; ring). rewrite (S (fun k => g k / mw k) j Hj). unfold Rdiv; ring. }
  repeat split.
  - unfold enthalpy. destruct (Rlt_dec T TlowHigh); rewrite Rmult_assoc; rewrite S'; apply sumn_ext; intros; ring.
  - unfold specific_heat. destruct (Rlt_dec T TlowHigh); apply S'.
  - unfold enthalpy_const. apply sumn_ext. intros j Hj. rewrite (S (fun k => cp k * (T - Tref) + hf k) j Hj). reflexivity.
  - unfold specific_heat_const. apply sumn_ext. intros j Hj. rewrite (S cp j Hj). reflexivity.
Qed.

(** Sutherland *)
Theorem C53_mole_fractions : forall n mw Y, composition n mw Y ->
  (forall k, (k < n)%nat -> 0 <= mole_fraction n mw Y k) /\ sumn n (mole_fraction n mw Y) = 1 /\
  (forall c, 0 < c -> forall k, mole_fraction n mw (fun j => c * Y j) k = mole_fraction n mw Y k).
Proof.
  intros n mw Y C. pose proof (moles_pos n mw Y C) as HN. destruct C as (M & P & _). repeat split.
  - intros k Hk. unfold mole_fraction. pose proof (M k Hk). pose proof (P k Hk).
    apply Rmult_le_pos; [apply Rmult_le_pos; [auto|left; apply Rinv_0_lt_compat; auto]|left; apply Rinv_0_lt_compat; auto].
  - unfold mole_fraction. rewrite (sumn_ext n _ (fun k => (1 / sumn n (fun k => Y k / mw k)) * (Y k / mw k))) by (intros; unfold Rdiv; ring).
    rewrite sumn_scal. field. lra.
  - intros c Hc k. unfold mole_fraction. rewrite (sumn_ext n (fun k => c * Y k / mw k) (fun k => c * (Y k / mw k))) by (intros; unfold Rdiv; ring).
    rewrite sumn_scal. unfold Rdiv. rewrite Rinv_mult. set (a := / mw k). set (b := / sumn n _). replace (c * Y k * a * (/ c * b)) with (Y k * a * b * (c * / c)) by ring.
    rewrite Rinv_r by lra. ring.
Qed.
(** Sutherland's law holds at its reference point, is positive, and the mixture viscosity lies between those of its species; one
    species gives Sutherland's law itself *)
Definition sutherland_ok (p : nat -> R) : Prop := 0 < p 0%nat /\ 0 < p 1%nat /\ 0 <= p 2%nat.
Theorem C53_sutherland : forall n mw Y p T lo hi, composition n mw Y -> 0 < T -> (forall k, (k < n)%nat -> sutherland_ok (p k)) ->
  (forall k, (k < n)%nat -> lo <= species_viscosity T (p k) <= hi) ->
  lo <= sutherland_mu n mw Y p T <= hi /\ 0 < sutherland_mu n mw Y p T /\
  (forall k, (k < n)%nat -> species_viscosity (p k 1%nat) (p k) = p k 0%nat).
Proof.
  intros n mw Y p T lo hi C HT OK B. destruct (C53_mole_fractions n mw Y C) as (X & _ & _).
  pose proof (moles_pos n mw Y C) as HN. destruct C as (M & P & (j & Hj & Q)).
  assert (W : forall k, (k < n)%nat -> 0 <= mole_fraction n mw Y k * sqrt (mw k)) by (intros k Hk; apply Rmult_le_pos; [auto|apply sqrt_pos]).
  assert (D : 0 < sumn n (fun k => mole_fraction n mw Y k * sqrt (mw k))).
  { apply sumn_pos; [exact W|]. exists j. split; [exact Hj|]. apply Rmult_lt_0_compat; [|apply sqrt_lt_R0; auto].
    unfold mole_fraction. apply Rdiv_lt_0_compat; [apply Rdiv_lt_0_compat; auto|exact HN]. }
  assert (V : forall k, (k < n)%nat -> 0 < species_viscosity T (p k)).
  { intros k Hk. destruct (OK k Hk) as (A & E & F). unfold species_viscosity. apply Rdiv_lt_0_compat; [|lra].
    apply Rmult_lt_0_compat; [|lra]. apply Rmult_lt_0_compat; [exact A|]. apply exp_pos. }
  unfold sutherland_mu. split; [split|split].
  - apply Rle_div_r; [exact D|]. rewrite <- sumn_scal. apply sumn_le. intros k Hk. pose proof (W k Hk). destruct (B k Hk). rewrite Rmult_assoc. nra.
  - apply Rle_div_l; [exact D|]. rewrite <- sumn_scal. apply sumn_le. intros k Hk. pose proof (W k Hk). destruct (B k Hk). rewrite Rmult_assoc. nra.
  - apply Rdiv_lt_0_compat; [|exact D]. apply sumn_pos.
    + intros k Hk. rewrite Rmult_assoc. apply Rmult_le_pos; [left; auto|apply W; exact Hk].
    + exists j. split; [exact Hj|]. rewrite Rmult_assoc. apply Rmult_lt_0_compat; [apply V, Hj|]. apply Rmult_lt_0_compat; [|apply sqrt_lt_R0; auto].
      unfold mole_fraction. apply Rdiv_lt_0_compat; [apply Rdiv_lt_0_compat; auto|exact HN].
  - intros k Hk. destruct (OK k Hk) as (A & E & F). unfold species_viscosity. replace (p k 1%nat / p k 1%nat) with 1 by (field; lra).
    unfold Rpower. rewrite ln_1, Rmult_0_r, exp_0. field. lra.
Qed.
Theorem C53_sutherland_pure : forall mw p T Y, 0 < mw 0%nat -> Y 0%nat <> 0 -> sutherland_mu 1 mw Y p T = species_viscosity T (p 0%nat).
Proof.
  intros mw p T Y Hm HY. pose proof (sqrt_lt_R0 _ Hm) as Hs. unfold sutherland_mu, mole_fraction, sumn. cbn. field. repeat split; lra || assumption.
Qed.

(** blended properties: end values, bounds; the inverse blend mixes specific volumes *)
Theorem C53_blended_properties : forall a b z, 
  linear_prop a b 1 = a /\ linear_prop a b 0 = b /\ (0 <= z <= 1 -> Rmin a b <= linear_prop a b z <= Rmax a b) /\
  (0 < a -> 0 < b -> inverse_prop a b 1 = a /\ inverse_prop a b 0 = b /\
     (0 <= z <= 1 -> Rmin a b <= inverse_prop a b z <= Rmax a b /\ 1 / inverse_prop a b z = z * (1/a) + (1 - z) * (1/b))).
Proof.
  intros a b z. unfold linear_prop, inverse_prop. split; [ring|]. split; [ring|]. split.
  { intros Hz. unfold Rmin, Rmax. destruct (Rle_dec a b); nra. }
  intros Ha Hb. split; [field; lra|]. split; [field; lra|]. intros Hz.
  assert (D : 0 < z/a + (1-z)/b).
  { replace (z/a + (1-z)/b) with ((z*b + (1-z)*a)/(a*b)) by (field; lra). apply Rdiv_lt_0_compat; nra. }
  split; [|field; repeat split; try lra; nra].
  replace (1 / (z/a + (1-z)/b)) with (a*b/(z*b + (1-z)*a)) by (field; repeat split; try lra; nra).
  assert (E : 0 < z*b + (1-z)*a) by nra.
  set (e := z*b + (1-z)*a) in *.
  assert (F : (a <= b -> a <= e <= b) /\ (b <= a -> b <= e <= a)) by (unfold e; split; intros; split; nra). clearbody e.
  unfold Rmin, Rmax. destruct (Rle_dec a b) as [L|L]; [destruct F as [F _]|destruct F as [_ F]]; (destruct F as [F1 F2]; [lra|]);
    (split; [apply Rle_div_r|apply Rle_div_l]; [exact E|nra|exact E|nra]).
Qed.
Theorem C53_prandtl_conductivity : forall cp mu Pr, Pr <> 0 -> conductivity_from_prandtl cp mu Pr <> 0 -> cp * mu / conductivity_from_prandtl cp mu Pr = Pr.
Proof. intros cp mu Pr H. unfold conductivity_from_prandtl. intros H2. field. repeat split; try assumption; intros E; apply H2; rewrite E; unfold Rdiv; ring. Qed.

(** air: a composition that meets the hypotheses, with its density *)
Theorem C53_example : let mw := fun k => match k with O => 28 | _ => 32 end in let Y := fun k => match k with O => 3/4 | _ => 1/4 end in
  composition 2 mw Y /\ ideal_PrefTYk 101325 8314 2 mw Y 300 = 101325 / (8314 * 300 * (3/4/28 + 1/4/32)) /\ sutherland_ok (fun k => match k with O => 18/1000000 | S O => 288 | _ => 110 end).
Proof.
  intros mw Y. repeat split; try (cbn; lra).
  - intros k Hk. destruct k; cbn; lra.
  - intros k Hk. destruct k; cbn; lra.
  - exists 0%nat. cbn. split; [lia|lra].
  - unfold ideal_PrefTYk, mixture_mw, sumn. cbn. field.
Qed.
