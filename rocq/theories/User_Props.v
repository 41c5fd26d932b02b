(** C107: built-in profiles: laid over the field point by point; plug, boundary layer, pulses, interfaces. *)
From Coq Require Import Reals ZArith List Bool Lra Lia.
From Verif Require Import User_Model.
Import ListNotations.
Open Scope R_scope.

Ltac leq := repeat (match goal with |- ?a :: ?l = ?b :: ?m => apply (f_equal2 (@cons R)); [try ring|] end); try reflexivity.
(** * Every point of the field gets the function of its own coordinates, nothing else is written *)
Lemma write_point_spec vs : forall f base a, write_point f base vs a = if (Nat.leb base a && Nat.ltb a (base + length vs))%bool then nth (a - base) vs 0 else f a.
Proof.
  induction vs as [|v r IH]; intros f base a; cbn [write_point length].
  - rewrite Nat.add_0_r. destruct (Nat.leb_spec base a), (Nat.ltb_spec a base); cbn; try reflexivity; lia.
  - rewrite IH. destruct (Nat.leb_spec (S base) a); cbn [andb].
    + replace (base + S (length r))%nat with (S base + length r)%nat by lia. destruct (Nat.leb_spec base a); [|lia]. cbn [andb].
      destruct (Nat.ltb_spec a (S base + length r)).
      * replace (a - base)%nat with (S (a - S base)) by lia. reflexivity.
      * destruct (Nat.eqb_spec a base); [lia|reflexivity].
    + destruct (Nat.eqb_spec a base) as [->|].
      * rewrite Nat.leb_refl. destruct (Nat.ltb_spec base (base + S (length r))); [|lia]. cbn. now rewrite Nat.sub_diag.
      * destruct (Nat.leb_spec base a); [lia|reflexivity].
Qed.
Lemma eval_below g fs step coords n : forall fb cb f a, (forall c, (length (g c) <= fs)%nat) -> (a < fb)%nat -> eval_loop g fs step coords n fb cb f a = f a.
Proof.
  induction n as [|n IH]; intros fb cb f a L A; cbn; [reflexivity|]. rewrite IH by (auto; lia). rewrite write_point_spec.
  destruct (Nat.leb_spec fb a); [lia|reflexivity].
Qed.
Lemma eval_spec g fs step coords n : (forall c, (length (g c) <= fs)%nat) -> forall fb cb f p k, (p < n)%nat -> (k < fs)%nat ->
  eval_loop g fs step coords n fb cb f (fb + p * fs + k)%nat =
  (let vs := g (fun i => coords (cb + p * step + i)%nat) in if Nat.ltb k (length vs) then nth k vs 0 else f (fb + p * fs + k)%nat).
Proof.
  intros L. induction n as [|n IH]; intros fb cb f p k Hp Hk; [lia|]. destruct p as [|p]; cbn [eval_loop].
  - cbn [Nat.mul]. rewrite !Nat.add_0_r. rewrite eval_below by (auto; lia). rewrite write_point_spec. cbv zeta. pose proof (L (fun i => coords (cb + i)%nat)) as L1.
    destruct (Nat.leb_spec fb (fb + k)); [|lia]. cbn [andb].
    destruct (Nat.ltb_spec k (length (g (fun i => coords (cb + i)%nat)))), (Nat.ltb_spec (fb + k) (fb + length (g (fun i => coords (cb + i)%nat)))); try lia.
    + f_equal. lia.
    + reflexivity.
  - replace (fb + S p * fs + k)%nat with ((fb + fs) + p * fs + k)%nat by lia. rewrite IH by lia. replace (cb + S p * step)%nat with (cb + step + p * step)%nat by lia. cbv zeta.
    destruct (Nat.ltb k (length (g (fun i => coords (cb + step + p * step + i)%nat)))); [reflexivity|]. rewrite write_point_spec.
    pose proof (L (fun i => coords (cb + i)%nat)). destruct (Nat.ltb_spec (fb + fs + p * fs + k) (fb + length (g (fun i => coords (cb + i)%nat)))); [lia|]. now rewrite andb_false_r.
Qed.
Lemma eval_above g fs step coords n : (forall c, (length (g c) <= fs)%nat) -> forall fb cb f a, (fb + n * fs <= a)%nat -> eval_loop g fs step coords n fb cb f a = f a.
Proof.
  intros L. induction n as [|n IH]; intros fb cb f a A; cbn [eval_loop]; [reflexivity|]. rewrite IH by (cbn in A; lia). rewrite write_point_spec.
  pose proof (L (fun i => coords (cb + i)%nat)). cbn in A. destruct (Nat.ltb_spec a (fb + length (g (fun i => coords (cb + i)%nat)))); [lia|]. now rewrite andb_false_r.
Qed.
(** The field of every point holds the profile at that point's coordinates; components the profile does not have keep their value; no other memory changes. *)
Theorem C107_every_point : forall g fs dim coords n f, (forall c, (length (g c) <= fs)%nat) ->
  (forall p k, (p < n)%nat -> (k < fs)%nat -> eval_loop g fs dim coords n 0 0 f (p * fs + k)%nat =
     (let vs := g (fun i => coords (p * dim + i)%nat) in if Nat.ltb k (length vs) then nth k vs 0 else f (p * fs + k)%nat))
  /\ (forall a, (n * fs <= a)%nat -> eval_loop g fs dim coords n 0 0 f a = f a).
Proof. intros g fs dim coords n f L. split; [intros p k Hp Hk; exact (eval_spec g fs dim coords n L 0 0 f p k Hp Hk)|intros a A; now apply eval_above]. Qed.
(** A profile of three components laid over a two-component velocity writes beyond the field's storage. *)
Theorem C107_two_dimensional_storage_refuted :
  ~ (forall ux uy uz tp t coords n f a, (n * 2 <= a)%nat -> eval_loop (pulse ux uy uz tp t) 2 2 coords n 0 0 f a = f a).
Proof.
  intros H. specialize (H 0 0 1 1 0 (fun _ => 0) 1%nat (fun _ => 0) 2%nat ltac:(lia)). unfold pulse in H. cbn in H. destruct (Rlt_dec 1 0); lra.
Qed.
Example C107_every_point_nonvacuous : forall c, (length (bl_vel (mkBlp 1 1 1 1 1) c) <= 3)%nat /\ (length (tornado c) <= 3)%nat /\ (length (plug [] c) <= 3)%nat.
Proof. intros c. cbn. lia. Qed.

(** constant values: exactly the named components, at every point *)
Lemma const_point_spec vals base cnt : forall i f a, const_point vals base i cnt f a = if (Nat.leb (base + i) a && Nat.ltb a (base + i + cnt))%bool then vals (a - base)%nat else f a.
Proof.
  induction cnt as [|c IH]; intros i f a; cbn [const_point].
  - rewrite Nat.add_0_r. destruct (Nat.leb_spec (base + i) a), (Nat.ltb_spec a (base + i)); cbn; try reflexivity; lia.
  - rewrite IH. destruct (Nat.leb_spec (base + S i) a).
    + replace (base + S i + c)%nat with (base + i + S c)%nat by lia. destruct (Nat.leb_spec (base + i) a); [|lia]. cbn [andb].
      destruct (Nat.ltb_spec a (base + i + S c)); [reflexivity|]. destruct (Nat.eqb_spec a (base + i)); [lia|reflexivity].
    + cbn [andb]. destruct (Nat.eqb_spec a (base + i)) as [->|].
      * rewrite Nat.leb_refl. destruct (Nat.ltb_spec (base + i) (base + i + S c)); [|lia]. cbn. f_equal. lia.
      * destruct (Nat.leb_spec (base + i) a); [lia|reflexivity].
Qed.
Lemma const_above vals fs b e n : (b <= e)%nat -> (e <= fs)%nat -> forall fb f a, (a < fb)%nat -> const_loop vals fs b e n fb f a = f a.
Proof.
  intros BE EF. induction n as [|n IH]; intros fb f a A; cbn; [reflexivity|]. rewrite IH by lia. rewrite const_point_spec. destruct (Nat.leb_spec (fb + b) a); [lia|reflexivity].
Qed.
Lemma const_loop_spec vals fs b e n : (b <= e)%nat -> (e <= fs)%nat -> forall fb f p k, (p < n)%nat -> (k < fs)%nat ->
  const_loop vals fs b e n fb f (fb + p * fs + k)%nat = if (Nat.leb b k && Nat.ltb k e)%bool then vals k else f (fb + p * fs + k)%nat.
Proof.
  intros BE EF. induction n as [|n IH]; intros fb f p k Hp Hk; [lia|]. destruct p as [|p]; cbn [const_loop].
  - cbn [Nat.mul]. rewrite !Nat.add_0_r. rewrite const_above by lia. rewrite const_point_spec.
    destruct (Nat.leb_spec (fb + b) (fb + k)), (Nat.leb_spec b k); try lia; cbn [andb]; [|reflexivity].
    destruct (Nat.ltb_spec (fb + k) (fb + b + (e - b))), (Nat.ltb_spec k e); try lia; [|reflexivity]. f_equal. lia.
  - replace (fb + S p * fs + k)%nat with ((fb + fs) + p * fs + k)%nat by lia. rewrite IH by lia. destruct (_ && _)%bool; [reflexivity|]. rewrite const_point_spec.
    destruct (Nat.ltb_spec (fb + fs + p * fs + k) (fb + b + (e - b))); [lia|]. now rewrite andb_false_r.
Qed.
Theorem C107_constant : forall vals fs b e n f p k, (b <= e)%nat -> (e <= fs)%nat -> (p < n)%nat -> (k < fs)%nat ->
  ((b <= k < e)%nat -> const_loop vals fs b e n 0 f (p * fs + k)%nat = vals k) /\
  (~ (b <= k < e)%nat -> const_loop vals fs b e n 0 f (p * fs + k)%nat = f (p * fs + k)%nat).
Proof.
  intros vals fs b e n f p k BE EF Hp Hk. pose proof (const_loop_spec vals fs b e n BE EF 0 f p k Hp Hk) as E. cbn [Nat.add] in E. rewrite E.
  destruct (Nat.leb_spec b k), (Nat.ltb_spec k e); cbn [andb]; split; intros; try reflexivity; lia.
Qed.
Theorem C107_constant_enough_values : forall e nvals, const_ok e nvals = true <-> (forall k, (k < e)%nat -> (k < nvals)%nat).
Proof.
  intros e v. unfold const_ok. rewrite Nat.leb_le. split; [intros; lia|]. intros H. destruct (le_lt_dec e v) as [|L]; [assumption|]. specialize (H v L). lia.
Qed.

(** * Channel: perturbed plug flow *)
Lemma exp2_pos x : 0 < exp x + exp (- x). Proof. pose proof (exp_pos x). pose proof (exp_pos (-x)). lra. Qed.
Lemma tanh_0 : tanh 0 = 0. Proof. unfold tanh. rewrite sinh_0. unfold Rdiv. ring. Qed.
Lemma tanh_range x : 0 <= x -> 0 <= tanh x < 1.
Proof.
  intros H. unfold tanh, sinh, cosh. pose proof (exp2_pos x) as P. pose proof (exp_pos (-x)) as N.
  replace ((exp x - exp (- x)) / 2 / ((exp x + exp (- x)) / 2)) with ((exp x - exp (- x)) / (exp x + exp (- x))) by (field; lra).
  assert (exp (- x) <= exp x). { destruct H as [H|<-]; [left; apply exp_increasing; lra|right; f_equal; lra]. }
  split. { apply Rmult_le_pos; [lra|]. left. now apply Rinv_0_lt_compat. }
  apply Rmult_lt_reg_r with (exp x + exp (- x)); [assumption|]. unfold Rdiv. rewrite Rmult_assoc, Rinv_l by lra. lra.
Qed.
Lemma pos_param_pos ps k d : 0 < d -> 0 < pos_param ps k d.
Proof. intros D. unfold pos_param. destruct (nth_error ps k) as [v|]; [|assumption]. now destruct (Rlt_dec 0 v). Qed.
(** at both walls the fluid is at rest *)
Theorem C107_plug_no_slip : forall ps c, c 1%nat = 0 \/ c 1%nat = plug_Ly ps -> plug ps c = [0; 0; 0].
Proof.
  intros ps c H. assert (E : plug_base ps (c 1%nat) = 0).
  { unfold plug_base. destruct H as [-> | ->]; [rewrite Rmult_0_r, tanh_0; ring|]. rewrite Rminus_diag_eq by reflexivity. rewrite Rmult_0_r, tanh_0. ring. }
  unfold plug. rewrite E. rewrite !Rmult_0_r, !Rmult_0_l, Rplus_0_r. reflexivity.
Qed.
Lemma unit_prod a b : -1 <= a <= 1 -> -1 <= b <= 1 -> -1 <= a * b <= 1. Proof. intros. split; nra. Qed.
(** between the walls the undisturbed profile lies between rest and the given speed, and no component of the disturbance exceeds a twentieth of it *)
Theorem C107_plug_bounds : forall ps c, 0 <= c 1%nat <= plug_Ly ps ->
  0 <= plug_base ps (c 1%nat) <= plug_um ps /\
  (exists d0 d1 d2, plug ps c = [plug_base ps (c 1%nat) + d0; d1; d2] /\ Rabs d0 <= plug_base ps (c 1%nat) / 20 /\ Rabs d1 <= plug_base ps (c 1%nat) / 20 /\ Rabs d2 <= plug_base ps (c 1%nat) / 20).
Proof.
  intros ps c H. assert (P : 0 < plug_um ps) by (apply pos_param_pos; lra).
  assert (B : 0 <= plug_base ps (c 1%nat) <= plug_um ps).
  { unfold plug_base. pose proof (tanh_range (8 * c 1%nat) ltac:(lra)). pose proof (tanh_range (8 * (plug_Ly ps - c 1%nat)) ltac:(lra)).
    set (a := tanh _) in *. set (b := tanh (8 * (plug_Ly ps - c 1%nat))) in *. assert (0 <= a * b <= 1) by nra. rewrite Rmult_assoc. nra. }
  split; [assumption|]. set (ub := plug_base ps (c 1%nat)) in *.
  assert (K : forall s, -1 <= s <= 1 -> Rabs (5/100 * ub * s) <= ub / 20). { intros s S. apply Rabs_le. nra. }
  exists (5/100 * ub * (sin (8 * PI / plug_Lx ps * c 0%nat) * cos (4 * PI / plug_Lz ps * c 2%nat))), (5/100 * ub * (cos (8 * PI / plug_Lx ps * c 0%nat) * sin (4 * PI / plug_Lz ps * c 2%nat))),
    (5/100 * ub * (sin (4 * PI / plug_Lx ps * c 0%nat) * cos (2 * PI / plug_Lz ps * c 2%nat))).
  split. { unfold plug. fold ub. leq. }
  repeat split; apply K; apply unit_prod; (apply SIN_bound || apply COS_bound).
Qed.
Lemma sin_shift x k : sin (x + 2 * INR k * PI) = sin x. Proof. apply sin_period. Qed.
Lemma cos_shift x k : cos (x + 2 * INR k * PI) = cos x. Proof. apply cos_period. Qed.
(** one domain length further downstream, or across, the velocity is the same: it can start a periodic channel *)
Theorem C107_plug_periodic : forall ps c x' z', (x' = c 0%nat \/ x' = c 0%nat + plug_Lx ps) -> (z' = c 2%nat \/ z' = c 2%nat + plug_Lz ps) ->
  plug ps (fun k => match k with 0%nat => x' | 1%nat => c 1%nat | _ => z' end) = plug ps c.
Proof.
  intros ps c x' z' Hx Hz. assert (X : 0 < plug_Lx ps) by (apply pos_param_pos; pose proof PI_RGT_0; lra). assert (Z : 0 < plug_Lz ps) by (apply pos_param_pos; pose proof PI_RGT_0; lra).
  assert (S1 : forall q k L, 0 < L -> sin (2 * INR k * PI / L * (q + L)) = sin (2 * INR k * PI / L * q) /\ cos (2 * INR k * PI / L * (q + L)) = cos (2 * INR k * PI / L * q)).
  { intros q k L HL. replace (2 * INR k * PI / L * (q + L)) with (2 * INR k * PI / L * q + 2 * INR k * PI) by (field; lra). split; [apply sin_shift|apply cos_shift]. }
  assert (X4 := fun q => S1 q 4%nat (plug_Lx ps) X). assert (X2 := fun q => S1 q 2%nat (plug_Lx ps) X). assert (Z2 := fun q => S1 q 2%nat (plug_Lz ps) Z). assert (Z1 := fun q => S1 q 1%nat (plug_Lz ps) Z).
  cbn [INR] in X4, X2, Z2, Z1. replace (2 * (1 + 1 + 1 + 1) * PI) with (8 * PI) in X4 by ring. replace (2 * (1 + 1) * PI) with (4 * PI) in X2, Z2 by ring. replace (2 * 1 * PI) with (2 * PI) in Z1 by ring.
  unfold plug. cbv zeta. destruct Hx as [-> | ->], Hz as [-> | ->];
  rewrite ?(proj1 (X4 _)), ?(proj2 (X4 _)), ?(proj1 (X2 _)), ?(proj2 (X2 _)), ?(proj1 (Z2 _)), ?(proj2 (Z2 _)), ?(proj1 (Z1 _)), ?(proj2 (Z1 _)); reflexivity.
Qed.

(** * Pulse *)
Theorem C107_pulse : forall ux uy uz tp t c, (t <= tp -> pulse ux uy uz tp t c = [ux; uy; uz]) /\ (tp < t -> pulse ux uy uz tp t c = [0; 0; 0]).
Proof. intros. unfold pulse. destruct (Rlt_dec tp t); split; intros; try lra; leq. Qed.

(** * Interfaces: volume and mixture fractions *)
Theorem C107_fraction_ranges : forall x y z erf h d amp freq, (forall s, -1 <= erf s <= 1) ->
  0 <= sin_vof x y <= 1 /\ 0 <= rec_mixfrac x z <= 1 /\ 0 <= fh_value erf h d amp freq x y <= 1.
Proof.
  intros x y z erf h d amp freq E. unfold sin_vof, rec_mixfrac, fh_value. cbv zeta. repeat destruct (Rle_dec _ _); repeat destruct (Rlt_dec _ _);
  match goal with |- context [erf ?a] => pose proof (E a) end; lra.
Qed.
(** a rectangular block *)
Theorem C107_block : forall x z, rec_mixfrac x z = 1 <-> x < 1228/1000 /\ z < 55/100.
Proof. intros x z. unfold rec_mixfrac. destruct (Rlt_dec x (1228/1000)); [destruct (Rlt_dec z (55/100))|]; split; intros; try lra; split; lra. Qed.
(** liquid below the wave, gas above *)
Theorem C107_wave : forall x y, (sin_vof x y = 1 <-> y < 1/10 * sv_lambda * cos (2 * PI * x / sv_lambda)) /\ sin_vof (x + sv_lambda) y = sin_vof x y.
Proof.
  intros x y. split.
  - unfold sin_vof. destruct (Rle_dec _ _); split; intros; lra.
  - unfold sin_vof. assert (L : sv_lambda <> 0) by (unfold sv_lambda; lra). replace (2 * PI * (x + sv_lambda) / sv_lambda) with (2 * PI * x / sv_lambda + 2 * INR 1 * PI) by (cbn [INR]; field; assumption).
    now rewrite cos_shift.
Qed.
(** a flat interface of given height and thickness: half at the height, increasing upwards *)
Theorem C107_flat_interface : forall erf h d freq x y y', erf 0 = 0 -> (forall a b, a <= b -> erf a <= erf b) -> 0 < d ->
  fh_value erf h d 0 freq x h = 1/2 /\ (y <= y' -> fh_value erf h d 0 freq x y <= fh_value erf h d 0 freq x y').
Proof.
  intros erf h d freq x y y' E0 M D. unfold fh_value. cbv zeta. rewrite Rabs_R0. destruct (Rlt_dec _ 0); [lra|]. split.
  - rewrite Rminus_diag_eq by reflexivity. unfold Rdiv at 2. rewrite Rmult_0_l, E0. lra.
  - intros H. assert ((y - h) / d <= (y' - h) / d). { apply Rmult_le_compat_r; [left; now apply Rinv_0_lt_compat|lra]. } pose proof (M _ _ H0). lra.
Qed.
(** with a wave on it the given height is forgotten: the interface stands at the wave around zero *)
Theorem C107_wavy_interface_height_refuted :
  ~ (forall erf h d amp freq x, erf 0 = 0 -> (forall a b, a < b -> erf a < erf b) -> 0 < d -> fh_value erf h d amp freq x (h + amp * sin (freq * x)) = 1/2).
Proof.
  intros H. specialize (H (fun s => s) 1 1 1 0 0 eq_refl (fun a b L => L) ltac:(lra)). unfold fh_value in H. cbv zeta in H. rewrite Rmult_0_l, sin_0, Rabs_R1 in H. destruct (Rlt_dec _ 1); lra.
Qed.
(** Rayleigh-Taylor: light above, heavy below; the fraction stays in [0,1] *)
Theorem C107_rayleigh_taylor_range : forall p x y, 0 <= rt_s p <= 1 -> 0 <= rt_value p x y <= 1.
Proof.
  intros p x y H. unfold rt_value. cbv zeta. destruct (Rlt_dec _ _); [lra|]. destruct (Rlt_dec _ _); [lra|].
  match goal with |- context [sin ?a] => pose proof (SIN_bound a); set (s := sin a) in * end. split; nra.
Qed.
(** with the middle of the layer at an odd multiple of its thickness (as by default) the fraction grows from 0 below to 1 above, without a jump *)
Lemma rt_layer p x y : rt_s p = 1 -> 0 < rt_d p -> (exists k : nat, rt_y p = (2 * INR k + 1) * rt_d p) ->
  let s := y + - rt_a p * cos (2 * rt_t p * PI * x) - rt_y p in
  rt_value p x y = if Rlt_dec s (- (rt_d p / 2)) then 0 else if Rlt_dec (rt_d p / 2) s then 1 else (1 + sin (PI * (s / rt_d p))) / 2.
Proof.
  intros S D (k & K). unfold rt_value. cbv zeta. set (yy := y + _). 
  destruct (Rlt_dec yy _), (Rlt_dec (yy - rt_y p) _); try lra; [].
  destruct (Rlt_dec _ yy), (Rlt_dec _ (yy - rt_y p)); try lra; [].
  rewrite S. replace (PI * yy / rt_d p) with (PI * ((yy - rt_y p) / rt_d p) + PI + 2 * INR k * PI). 2:{ rewrite K. field. lra. }
  rewrite sin_shift, neg_sin. lra.
Qed.
Theorem C107_rayleigh_taylor_monotone : forall p x y y', rt_s p = 1 -> 0 < rt_d p -> (exists k : nat, rt_y p = (2 * INR k + 1) * rt_d p) ->
  y <= y' -> rt_value p x y <= rt_value p x y'.
Proof.
  intros p x y y' S D K H. rewrite (rt_layer p x y S D K), (rt_layer p x y' S D K). cbv zeta. set (a := y + _ - _). set (b := y' + _ - _). assert (AB : a <= b) by (unfold a, b; lra).
  assert (B : forall t, 0 <= (1 + sin t) / 2 <= 1) by (intros t; pose proof (SIN_bound t); lra).
  pose proof (B (PI * (a / rt_d p))). pose proof (B (PI * (b / rt_d p))).
  destruct (Rlt_dec a _), (Rlt_dec b _); try lra; [destruct (Rlt_dec _ b); lra|].
  destruct (Rlt_dec _ a), (Rlt_dec _ b); try lra; [].
  pose proof PI_RGT_0. assert (Q : forall t, - (rt_d p / 2) <= t <= rt_d p / 2 -> - (1/2) <= t / rt_d p <= 1/2).
  { intros t T. assert (E : t = t / rt_d p * rt_d p) by (field; lra). set (q := t / rt_d p) in *. split; nra. }
  pose proof (Q a ltac:(lra)). pose proof (Q b ltac:(lra)).
  assert (a / rt_d p <= b / rt_d p) by (apply Rmult_le_compat_r; [left; now apply Rinv_0_lt_compat|assumption]).
  assert (sin (PI * (a / rt_d p)) <= sin (PI * (b / rt_d p))) by (apply sin_incr_1; nra). lra.
Qed.
Theorem C107_rayleigh_taylor_no_jump : forall p x y, rt_s p = 1 -> 0 < rt_d p -> (exists k : nat, rt_y p = (2 * INR k + 1) * rt_d p) ->
  let s := y - rt_a p * cos (2 * rt_t p * PI * x) in
  (s = rt_y p - rt_d p / 2 -> rt_value p x y = 0) /\ (s = rt_y p -> rt_value p x y = 1/2) /\ (s = rt_y p + rt_d p / 2 -> rt_value p x y = 1).
Proof.
  intros p x y S D K. cbv zeta. rewrite (rt_layer p x y S D K). cbv zeta. pose proof PI_RGT_0.
  replace (y + - rt_a p * cos (2 * rt_t p * PI * x) - rt_y p) with (y - rt_a p * cos (2 * rt_t p * PI * x) - rt_y p) by ring. set (s := y - _).
  split; [|split]; intros ->; destruct (Rlt_dec _ _); try lra; destruct (Rlt_dec _ _); try lra.
  - replace (PI * _) with (- (PI / 2)) by (field; lra). rewrite sin_neg, sin_PI2. lra.
  - replace (PI * _) with 0 by (field; lra). rewrite sin_0. lra.
  - replace (PI * _) with (PI / 2) by (field; lra). rewrite sin_PI2. lra.
Qed.
Example C107_rayleigh_taylor_default : rt_s rt_default = 1 /\ 0 < rt_d rt_default /\ exists k : nat, rt_y rt_default = (2 * INR k + 1) * rt_d rt_default.
Proof. cbn [rt_s rt_d rt_y rt_default]. repeat split; try lra. exists 2%nat. cbn [INR]. lra. Qed.
(** for another height of the layer it does not: with the layer around zero the profile inside is upside down *)
Theorem C107_rayleigh_taylor_height_refuted :
  ~ (forall p x y y', rt_s p = 1 -> 0 < rt_d p -> y <= y' -> rt_value p x y <= rt_value p x y').
Proof.
  intros H. specialize (H (mkRt 0 1 0 1 1) 0 (- (1/2)) (1/2) eq_refl ltac:(cbn; lra) ltac:(lra)). unfold rt_value in H. cbn [rt_a rt_t rt_y rt_d rt_s] in H. cbv zeta in H.
  repeat destruct (Rlt_dec _ _); try lra.
  replace (PI * (- (1 / 2) + - 0 * cos (2 * 1 * PI * 0)) / 1) with (- (PI / 2)) in H by field. replace (PI * (1 / 2 + - 0 * cos (2 * 1 * PI * 0)) / 1) with (PI / 2) in H by field.
  rewrite sin_neg, sin_PI2 in H. lra.
Qed.
(** linear ramp: constant mesh velocity; too few parameters read beyond their list *)
Theorem C107_ramp : forall ps fs, (fs <= length ps)%nat -> forall t, exists l, ramp ps t fs = Some l /\ length l = fs /\ forall k, (k < fs)%nat -> nth k l 0 = nth k ps 0 * t.
Proof.
  intros ps fs. revert ps. induction fs as [|m IH]; intros ps H t.
  - exists []. destruct ps; repeat split; intros; lia.
  - destruct ps as [|r q]; cbn in H; [lia|]. destruct (IH q ltac:(lia) t) as (l & E & L & N). exists (r * t :: l). cbn. rewrite E. repeat split; [cbn; lia|].
    intros [|k] K; cbn; [reflexivity|apply N; lia].
Qed.
Theorem C107_ramp_too_few_refuted : ~ (forall ps t fs, ramp ps t fs <> None).
Proof. intros H. now apply (H [1; 2] 0 3%nat). Qed.
Print Assumptions C107_every_point.
Print Assumptions C107_plug_periodic.
Print Assumptions C107_rayleigh_taylor_monotone.
Print Assumptions C107_wavy_interface_height_refuted.
