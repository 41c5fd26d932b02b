(** C107, continued: temperature measured around a cylinder; vortex; symmetric profiles. *)
From Coq Require Import Reals ZArith List Bool Lra Lia.
From Verif Require Import User_Model.
Import ListNotations.
Open Scope R_scope.

(** * The angle is measured from the upstream side of the cylinder, over its top *)
Lemma asin_front s : -1 <= s <= 1 -> sin (asin s) = s /\ cos (asin s) = sqrt (1 - s * s) /\ - (PI/2) <= asin s <= PI/2.
Proof.
  intros H. split; [now apply sin_asin|]. split; [|apply asin_bound]. rewrite cos_asin by assumption. unfold Rsqr. reflexivity.
Qed.
Theorem C107_cylinder_angle : forall x y, (x <> cyl_h \/ y <> cyl_k) ->
  let r := sqrt ((x-cyl_h)*(x-cyl_h) + (y-cyl_k)*(y-cyl_k)) in let th := cyl_theta x y in
  0 <= th <= 360 /\ x - cyl_h = - r * cos (PI/180 * th) /\ y - cyl_k = r * sin (PI/180 * th).
Proof.
  intros x y NE r th. set (u := x - cyl_h) in *. set (v := y - cyl_k) in *.
  assert (P : 0 < u*u + v*v). { assert (u <> 0 \/ v <> 0) by (unfold u, v; destruct NE; [left|right]; lra). destruct H; nra. }
  assert (Rp : 0 < r) by (now apply sqrt_lt_R0). assert (RR : r * r = u*u + v*v) by (apply sqrt_sqrt; lra).
  assert (S : -1 <= v / r <= 1).
  { assert (V : v = v / r * r) by (field; lra). set (q := v / r) in *. assert (QQ : q * q * (r * r) = v * v) by (rewrite V; ring).
    assert (q * q <= 1). { destruct (Rle_lt_dec (q * q) 1) as [|L]; [assumption|]. assert (r * r < q * q * (r * r)) by nra. nra. } split; nra. }
  destruct (asin_front _ S) as (S1 & C1 & B). pose proof PI_RGT_0 as PP.
  assert (CV : sqrt (1 - v / r * (v / r)) = Rabs u / r).
  { replace (1 - v / r * (v / r)) with (Rsqr (u / r)). 2:{ unfold Rsqr. replace (u / r * (u / r)) with (u*u / (r*r)) by (field; lra). replace (v / r * (v / r)) with (v*v/(r*r)) by (field; lra). rewrite RR. field. lra. }
    rewrite sqrt_Rsqr_abs. unfold Rdiv. rewrite Rabs_mult, (Rabs_right (/ r)); [reflexivity|]. left. now apply Rinv_0_lt_compat. }
  rewrite CV in C1.
  assert (T : th = (let raw := 180/PI * asin (v / r) in if Rlt_dec x cyl_h then (if Rlt_dec cyl_k y then raw else 360 + raw) else 180 - raw)).
  { unfold th, cyl_theta. fold u v. fold r. cbv zeta. destruct (Rlt_dec x cyl_h), (Rlt_dec cyl_k y); reflexivity. }
  cbv zeta in T. rewrite T. clear T th. set (al := asin (v / r)) in *.
  assert (Q : 180/PI * al = 180/PI * al) by reflexivity.
  assert (D : forall t, PI/180 * (180/PI * t) = t) by (intros; field; lra).
  assert (Deg : -90 <= 180/PI * al <= 90).
  { assert (E := D al). set (w := 180/PI*al) in *. split; nra. }
  assert (VR : v / r * r = v) by (field; lra). assert (UR : Rabs u / r * r = Rabs u) by (field; lra).
  destruct (Rlt_dec x cyl_h) as [X|X].
  - assert (U : Rabs u = - u) by (apply Rabs_left; unfold u; lra). destruct (Rlt_dec cyl_k y) as [Y|Y].
    + assert (0 < v / r) by (apply Rdiv_lt_0_compat; unfold v; lra). assert (0 <= al). { destruct (Rle_lt_dec 0 al); [assumption|]. assert (sin al < 0) by (apply sin_lt_0_var; lra). lra. }
      assert (0 <= 180/PI * al). { apply Rmult_le_pos; [|assumption]. unfold Rdiv. apply Rmult_le_pos; [lra|]. left. now apply Rinv_0_lt_compat. }
      rewrite D. split; [lra|]. rewrite S1, C1. split; [rewrite U in *; nra|nra].
    + assert (V0 : v / r <= 0). { unfold v, Rdiv. assert (0 < / r) by (now apply Rinv_0_lt_compat). nra. } assert (al <= 0). { destruct (Rle_lt_dec al 0); [assumption|]. assert (0 < sin al) by (apply sin_gt_0; lra). lra. }
      assert (180/PI * al <= 0). { assert (0 < 180/PI) by (apply Rdiv_lt_0_compat; lra). nra. }
      replace (PI/180 * (360 + 180/PI * al)) with (al + 2 * INR 1 * PI) by (cbn [INR]; field; lra). rewrite sin_period, cos_period. split; [lra|]. rewrite S1, C1. split; [rewrite U in *; nra|nra].
  - assert (U : Rabs u = u) by (apply Rabs_right; unfold u; lra).
    replace (PI/180 * (180 - 180/PI * al)) with (PI - al) by (field; lra). rewrite sin_PI_x. replace (cos (PI - al)) with (- cos al). 2:{ rewrite cos_minus, cos_PI, sin_PI. ring. }
    split; [lra|]. rewrite S1, C1. split; [rewrite U in *; nra|nra].
Qed.

(** * Interpolation in a table of increasing abscissas *)
Definition abs_ (d : list (R * R)) (i : nat) : R := fst (nth i d (0, 0)).
Definition ord_ (d : list (R * R)) (i : nat) : R := snd (nth i d (0, 0)).
Definition increasing (d : list (R * R)) : Prop := (2 <= length d)%nat /\ forall i, (S i < length d)%nat -> abs_ d i < abs_ d (S i).
(** the straight line through rows i and i+1 *)
Definition line (d : list (R * R)) (i : nat) (z : R) : R := ord_ d i + (ord_ d (S i) - ord_ d i) * (z - abs_ d i) / (abs_ d (S i) - abs_ d i).
Lemma row_nth d i : (i < length d)%nat -> row d (Z.of_nat i) = Some (abs_ d i, ord_ d i).
Proof.
  intros H. unfold row. destruct (Z.leb_spec 0 (Z.of_nat i)); [|lia]. rewrite Nat2Z.id. rewrite (nth_error_nth' d (0,0) H). unfold abs_, ord_. now destruct (nth i d (0,0)).
Qed.
Lemma inc_lt d i j : increasing d -> (i < j)%nat -> (j < length d)%nat -> abs_ d i < abs_ d j.
Proof.
  intros (_ & H) I J. induction j as [|j IH]; [lia|]. destruct (Nat.eq_dec i j) as [->|]; [now apply H|]. eapply Rlt_trans; [apply IH; lia|now apply H].
Qed.
Lemma find_index_spec d z : increasing d -> abs_ d 0 <= z -> forall fuel lo hi,
  (0 <= lo)%Z -> (hi < Z.of_nat (length d))%Z -> (lo <= hi + 1)%Z -> (hi - lo + 2 <= Z.of_nat fuel)%Z ->
  (forall i, (Z.of_nat i < lo)%Z -> (i < length d)%nat -> abs_ d i <= z) -> (forall i, (hi < Z.of_nat i)%Z -> (i < length d)%nat -> z < abs_ d i) ->
  exists j, find_index d z lo hi fuel = Some (Z.of_nat j) /\ (j < length d)%nat /\ abs_ d j <= z /\ (forall i, (j < i)%nat -> (i < length d)%nat -> z < abs_ d i).
Proof.
  intros I Z0 fuel. induction fuel as [|m IH]; intros lo hi L H LH F A B; [lia|]. cbn [find_index]. pose proof (proj1 I) as L2.
  rewrite Z.quot_div_nonneg. 2:{ destruct (Z.eq_dec hi (-1)) as [->|]; [|lia]. destruct (Z.eq_dec lo 0) as [->|]; [|lia]. specialize (B 0%nat ltac:(lia) ltac:(lia)). lra. } 2: lia.
  set (mid := ((lo + hi) / 2)%Z). assert (M : (2 * mid <= lo + hi < 2 * mid + 2)%Z). { pose proof (Z.div_mod (lo + hi) 2 ltac:(lia)). pose proof (Z.mod_pos_bound (lo + hi) 2 ltac:(lia)). unfold mid. lia. }
  assert (M0 : (0 <= mid)%Z). { destruct (Z.eq_dec hi (-1)) as [->|]; [|lia]. assert (lo = 0)%Z by lia. subst lo. specialize (B 0%nat ltac:(lia) ltac:(lia)). lra. }
  assert (M1 : (mid < Z.of_nat (length d))%Z) by lia.
  pose proof (row_nth d (Z.to_nat mid) ltac:(lia)) as Rw. rewrite Z2Nat.id in Rw by lia. rewrite Rw. destruct (Z.ltb_spec mid lo).
  - exists (Z.to_nat mid). rewrite Z2Nat.id by lia. split; [reflexivity|]. split; [lia|]. split; [apply A; lia|]. intros i Hi Hl. apply B; lia.
  - destruct (Rlt_dec z (abs_ d (Z.to_nat mid))) as [C|C].
    + apply IH; try lia; [assumption|]. intros i Hi Hl. destruct (Nat.eq_dec i (Z.to_nat mid)) as [->|]; [assumption|]. apply Rlt_trans with (1 := C). apply inc_lt; auto; lia.
    + apply IH; try lia; [|assumption]. intros i Hi Hl. destruct (Nat.eq_dec i (Z.to_nat mid)) as [->|]; [lra|]. left. apply Rlt_le_trans with (abs_ d (Z.to_nat mid)); [|lra]. apply inc_lt; auto; lia.
Qed.
Lemma local_line d i z : (S i < length d)%nat -> local_interp d z (Z.of_nat i) (Z.of_nat i + 1) = Some (line d i z).
Proof.
  intros H. unfold local_interp. rewrite row_nth by lia. replace (Z.of_nat i + 1)%Z with (Z.of_nat (S i)) by lia. now rewrite row_nth by lia.
Qed.
Lemma line_knot d i : increasing d -> (S i < length d)%nat -> line d i (abs_ d i) = ord_ d i /\ line d i (abs_ d (S i)) = ord_ d (S i).
Proof. intros (_ & H) L. specialize (H i L). unfold line. split; field; lra. Qed.
(** Inside the table the value is that of the straight line between the neighbouring rows; beyond its ends the end value. *)
Theorem C107_table_inside : forall d z i, increasing d -> (S i < length d)%nat -> abs_ d i <= z <= abs_ d (S i) -> interpolate d z = Some (line d i z).
Proof.
  intros d z i I L H. pose proof (proj1 I) as L2. unfold interpolate. cbv zeta.
  change 0%Z with (Z.of_nat 0). rewrite row_nth by lia. replace (Z.of_nat (length d) - 1)%Z with (Z.of_nat (length d - 1)) by lia. rewrite row_nth by lia.
  assert (Z0 : abs_ d 0 <= z). { destruct (Nat.eq_dec i 0) as [->|]; [lra|]. left. apply Rlt_le_trans with (abs_ d i); [apply inc_lt; auto; lia|lra]. }
  assert (Z1 : z <= abs_ d (length d - 1)). { destruct (Nat.eq_dec (S i) (length d - 1)) as [<-|]; [lra|]. left. apply Rle_lt_trans with (abs_ d (S i)); [lra|apply inc_lt; auto; lia]. }
  destruct (Rlt_dec z _); [lra|]. destruct (Rlt_dec _ z); [lra|].
  destruct (find_index_spec d z I Z0 (S (S (length d))) (Z.of_nat 0) (Z.of_nat (length d - 1))) as (j & E & J & A & B); try lia.
  rewrite E.
  (* j is i, or i+1 when z is the upper knot *)
  assert (JI : j = i \/ (j = S i /\ z = abs_ d (S i))).
  { destruct (lt_eq_lt_dec j i) as [[K|K]|K]; [|now left|].
    - specialize (B i K ltac:(lia)). lra.
    - right. destruct (Nat.eq_dec j (S i)) as [->|]; [split; [reflexivity|lra]|]. pose proof (inc_lt d (S i) j I ltac:(lia) J). lra. }
  destruct (Z.eqb_spec (Z.of_nat j) (Z.of_nat 0)) as [J0|J0].
  - destruct JI as [->|[-> _]]; [|lia]. now apply local_line.
  - destruct (Z.eqb_spec (Z.of_nat j) (Z.of_nat (length d - 1))) as [J1|J1].
    + destruct JI as [->|[-> _]]; [lia|]. replace (Z.of_nat (S i) - 1)%Z with (Z.of_nat i) by lia. replace (Z.of_nat (S i)) with (Z.of_nat i + 1)%Z by lia. now apply local_line.
    + rewrite row_nth by lia. destruct (Rlt_dec z (abs_ d j)); [lra|]. destruct JI as [->|[-> ->]]; [now apply local_line|].
      rewrite local_line by lia. f_equal. rewrite (proj2 (line_knot d i I L)). apply (line_knot d (S i) I). lia.
Qed.
Theorem C107_table_outside : forall d z, increasing d ->
  (z < abs_ d 0 -> interpolate d z = Some (ord_ d 0)) /\ (abs_ d (length d - 1) < z -> interpolate d z = Some (ord_ d (length d - 1))).
Proof.
  intros d z I. pose proof (proj1 I) as L2. unfold interpolate. cbv zeta.
  change 0%Z with (Z.of_nat 0). rewrite row_nth by lia. replace (Z.of_nat (length d) - 1)%Z with (Z.of_nat (length d - 1)) by lia. rewrite row_nth by lia.
  pose proof (inc_lt d 0 (length d - 1) I ltac:(lia) ltac:(lia)). split; intros; destruct (Rlt_dec z (abs_ d 0)); try lra; [reflexivity|]. destruct (Rlt_dec _ z); [reflexivity|lra].
Qed.
Lemma segment d z : increasing d -> abs_ d 0 <= z <= abs_ d (length d - 1) -> exists i, (S i < length d)%nat /\ abs_ d i <= z <= abs_ d (S i).
Proof.
  intros I. pose proof (proj1 I) as L2. assert (K : forall n, (n < length d)%nat -> (1 <= n)%nat -> abs_ d 0 <= z <= abs_ d n -> exists i, (S i < length d)%nat /\ abs_ d i <= z <= abs_ d (S i)).
  { induction n as [|n IH]; intros H1 H2 Z; [lia|]. destruct (Rle_lt_dec z (abs_ d n)).
    - destruct n as [|n]; [exists 0%nat; split; [lia|lra]|]. apply IH; [lia|lia|lra].
    - exists n. split; [lia|lra]. }
  intros Z. apply (K (length d - 1)%nat); [lia|lia|assumption].
Qed.
(** the value never leaves the range of the data, and the search never reads outside the table *)
Theorem C107_table_range : forall d z lo hi, increasing d -> (forall i, (i < length d)%nat -> lo <= ord_ d i <= hi) -> exists v, interpolate d z = Some v /\ lo <= v <= hi.
Proof.
  intros d z lo hi I H. pose proof (proj1 I) as L2. destruct (C107_table_outside d z I) as (O1 & O2).
  destruct (Rlt_dec z (abs_ d 0)) as [A|A]. { rewrite O1 by assumption. eexists; split; [reflexivity|apply H; lia]. }
  destruct (Rlt_dec (abs_ d (length d - 1)) z) as [B|B]. { rewrite O2 by assumption. eexists; split; [reflexivity|apply H; lia]. }
  destruct (segment d z I ltac:(lra)) as (i & Li & Zi). rewrite (C107_table_inside d z i I Li Zi). eexists; split; [reflexivity|].
  unfold line. pose proof (H i ltac:(lia)). pose proof (H (S i) ltac:(lia)). pose proof (proj2 I i Li).
  assert (E : (ord_ d (S i) - ord_ d i) * (z - abs_ d i) / (abs_ d (S i) - abs_ d i) = (ord_ d (S i) - ord_ d i) * ((z - abs_ d i) / (abs_ d (S i) - abs_ d i))) by (field; lra). rewrite E.
  assert (T : 0 <= (z - abs_ d i) / (abs_ d (S i) - abs_ d i) <= 1).
  { assert (Q : (z - abs_ d i) / (abs_ d (S i) - abs_ d i) * (abs_ d (S i) - abs_ d i) = z - abs_ d i) by (field; lra). set (q := (z - abs_ d i) / (abs_ d (S i) - abs_ d i)) in *. split; nra. }
  set (q := (z - abs_ d i) / _) in *. split; nra.
Qed.
Lemma cyl_increasing : increasing cyl_data.
Proof.
  split; [cbn; lia|]. intros i H. cbn [length cyl_data] in H. unfold abs_. do 24 (destruct i as [|i]; [cbn; lra|]). lia.
Qed.
(** Everywhere around the cylinder the temperature is one of those measured or between them, in kelvin; it does not jump where the angle starts again. *)
Theorem C107_cylinder_temperature : forall x y, exists t, cyl_temp x y = Some t /\ 34.2773284912 + 273.15 <= t <= 42.0815200806 + 273.15.
Proof.
  intros x y. destruct (C107_table_range cyl_data (cyl_theta x y) 34.2773284912 42.0815200806 cyl_increasing) as (v & E & B).
  { intros i H. cbn [length cyl_data] in H. unfold ord_. do 25 (destruct i as [|i]; [cbn; lra|]). lia. }
  unfold cyl_temp. rewrite E. exists (v + 273.15). split; [reflexivity|lra].
Qed.
Theorem C107_cylinder_measured : forall i z, (i < 25)%nat -> z = INR i * 15 -> interpolate cyl_data z = Some (ord_ cyl_data i).
Proof.
  intros i z H ->. assert (A : abs_ cyl_data i = INR i * 15). { unfold abs_. do 25 (destruct i as [|i]; [cbn; lra|]). lia. }
  rewrite <- A. destruct (Nat.eq_dec i 24) as [->|].
  - rewrite (C107_table_inside cyl_data _ 23 cyl_increasing). 2: cbn; lia. 2:{ unfold abs_; cbn; lra. } f_equal. apply (line_knot cyl_data 23 cyl_increasing). cbn; lia.
  - rewrite (C107_table_inside cyl_data _ i cyl_increasing). 2: cbn; lia. 2:{ pose proof (proj2 cyl_increasing i ltac:(cbn; lia)). lra. } f_equal. apply (line_knot cyl_data i cyl_increasing). cbn; lia.
Qed.
Theorem C107_cylinder_closes : interpolate cyl_data 0 = interpolate cyl_data 360.
Proof. rewrite (C107_cylinder_measured 0 0), (C107_cylinder_measured 24 360); [reflexivity|lia| |lia|]; cbn; lra. Qed.

(** * Vortex: pure swirl in every horizontal plane, stronger with height, with the given speed at reference height and radius *)
Lemma root7_mono a b : 0 <= a -> a <= b -> root7 a <= root7 b.
Proof.
  intros A H. unfold root7. destruct (Rlt_dec 0 a), (Rlt_dec 0 b); try lra. - apply Rle_Rpower_l; lra. - unfold Rpower. left. apply exp_pos.
Qed.
Lemma root7_1 : root7 1 = 1. Proof. unfold root7. destruct (Rlt_dec 0 1); [|lra]. unfold Rpower. rewrite ln_1, Rmult_0_r. apply exp_0. Qed.
Lemma root7_0 : root7 0 = 0. Proof. unfold root7. destruct (Rlt_dec 0 0); lra. Qed.
Theorem C107_vortex : forall c, exists w uz, tornado c = [- w * c 1%nat; w * c 0%nat; uz] /\ (- w * c 1%nat) * c 0%nat + (w * c 0%nat) * c 1%nat = 0 /\
  uz = 4.1 * (w * (4/10)) /\ (c 2%nat = 0 -> w = 0) /\ (c 2%nat = 25/1000 -> w * (4/10) = 3/10).
Proof.
  intros c. exists (3/10 * root7 (c 2%nat / (25/1000)) / (4/10)), (2 * (41/100) / (4/10) * 2 * (3/10 * root7 (c 2%nat / (25/1000)))). unfold tornado. cbv zeta.
  split; [reflexivity|]. split; [ring|]. split; [lra|]. split; intros ->.
  - replace (0/(25/1000)) with 0 by lra. rewrite root7_0. lra.
  - replace (25/1000/(25/1000)) with 1 by lra. rewrite root7_1. lra.
Qed.
Theorem C107_vortex_height : forall c c' w w', c 0%nat = 1 -> c' 0%nat = 1 -> 0 <= c 2%nat <= c' 2%nat -> nth 1 (tornado c) 0 = w -> nth 1 (tornado c') 0 = w' -> w <= w'.
Proof.
  intros c c' w w' E E' H <- <-. unfold tornado. cbn [nth]. rewrite E, E'. assert (root7 (c 2%nat / (25/1000)) <= root7 (c' 2%nat / (25/1000))) by (apply root7_mono; lra). lra.
Qed.

(** * Boundary layer: at rest at the wall, never above the outer speed but for the disturbance, which peaks at the given height *)
Lemma exp_bound t : t * exp (- t) <= exp (- (1)).
Proof.
  assert (1 + (t - 1) <= exp (t - 1)). { destruct (Req_dec (t - 1) 0) as [E|E]; [rewrite E, exp_0; lra|]. left. now apply exp_ineq1. }
  replace (exp (- (1))) with (exp (t - 1) * exp (- t)) by (rewrite <- exp_plus; f_equal; ring). pose proof (exp_pos (- t)). nra.
Qed.
Theorem C107_boundary_layer_wall : forall p c, 0 < bl_th p -> c 2%nat = 0 -> bl_vel p c = [0; 0; 0].
Proof.
  intros p c T E. unfold bl_vel, bl_mean, bl_damp. cbv zeta. rewrite E. replace (0 / (5 * bl_th p)) with 0 by (field; lra). rewrite root7_0. rewrite Rmin_left by lra.
  replace (exp (- 0 / bl_th p) * 0 / bl_th p / exp (- (1))) with 0. 2:{ field. split; [lra|]. pose proof (exp_pos (-(1))). lra. }
  rewrite !Rmult_0_r, Rmult_0_l, Rplus_0_r. reflexivity.
Qed.
Theorem C107_boundary_layer_bounds : forall p z, 0 < bl_th p -> 0 <= bl_uinf p -> 0 <= z ->
  0 <= bl_mean p z <= bl_uinf p /\ (5 * bl_th p <= z -> bl_mean p z = bl_uinf p) /\ 0 <= bl_damp p z <= 1 /\ bl_damp p (bl_th p) = 1.
Proof.
  intros p z T U Z. assert (E1 := exp_pos (- (1))). assert (TI : 0 < / bl_th p) by (now apply Rinv_0_lt_compat).
  assert (D0 : 0 <= z / bl_th p) by (apply Rmult_le_pos; lra).
  assert (M : 0 <= root7 (z / (5 * bl_th p))). { unfold root7. destruct (Rlt_dec 0 _); [left; apply exp_pos|lra]. }
  repeat split.
  - unfold bl_mean. apply Rmult_le_pos; [|assumption]. apply Rmin_glb; lra.
  - unfold bl_mean. pose proof (Rmin_r (root7 (z / (5 * bl_th p))) 1). nra.
  - intros H. unfold bl_mean. rewrite Rmin_right; [ring|]. rewrite <- root7_1. apply root7_mono; [lra|]. apply Rmult_le_reg_r with (5 * bl_th p); [lra|]. unfold Rdiv. rewrite Rmult_assoc, Rinv_l by lra. lra.
  - unfold bl_damp. unfold Rdiv at 1. apply Rmult_le_pos; [|left; now apply Rinv_0_lt_compat]. unfold Rdiv. rewrite Rmult_assoc. apply Rmult_le_pos; [left; apply exp_pos|assumption].
  - unfold bl_damp. replace (- z / bl_th p) with (- (z / bl_th p)) by (field; lra). set (t := z / bl_th p) in *.
    replace (exp (- t) * z / bl_th p) with (t * exp (- t)) by (unfold t; field; lra). apply Rmult_le_reg_r with (exp (- (1))); [assumption|]. unfold Rdiv. rewrite Rmult_assoc, Rinv_l by lra. pose proof (exp_bound t). lra.
  - unfold bl_damp. replace (- bl_th p / bl_th p) with (- (1)) by (field; lra). field. split; lra.
Qed.
Print Assumptions C107_cylinder_angle.
Print Assumptions C107_table_range.
Print Assumptions C107_boundary_layer_bounds.
(** * Sine profiles: disturbances of bounded size, still at the nodes, of fixed direction; opposite streams in the two halves of the channel *)
Theorem C107_sine_pipe : forall um a px py pz c, exists s, sin_pipe um a px py pz c = [s * px; s * py; s * pz] /\ Rabs s <= Rabs um /\
  (forall n : nat, a * c 2%nat = INR n -> s = 0) /\ (a * c 2%nat = 1/2 -> s = um).
Proof.
  intros. exists (um * sin (PI * a * c 2%nat)). split; [reflexivity|]. split; [|split].
  - rewrite Rabs_mult. assert (Rabs (sin (PI * a * c 2%nat)) <= 1) by (apply Rabs_le; destruct (SIN_bound (PI * a * c 2%nat)); lra). pose proof (Rabs_pos um). nra.
  - intros n H. rewrite Rmult_assoc, H. replace (PI * INR n) with (0 + INR n * PI) by ring. assert (E : sin (0 + INR n * PI) = 0); [|rewrite E; ring].
    induction n as [|n IH] in |- *; [cbn [INR]; rewrite Rmult_0_l, Rplus_0_r; apply sin_0|]. rewrite S_INR. replace (0 + (INR n + 1) * PI) with (0 + INR n * PI + PI) by ring. rewrite neg_sin, IH. ring.
  - intros H. rewrite Rmult_assoc, H. replace (PI * (1/2)) with (PI/2) by field. rewrite sin_PI2. ring.
Qed.
Theorem C107_sine_channel : forall c c', c' 0%nat = c 0%nat -> c 1%nat <= 1 < c' 1%nat ->
  Rabs (nth 0 (sin_channel c) 0) <= 10 /\ Rabs (nth 1 (sin_channel c) 0) <= 1 /\ Rabs (nth 2 (sin_channel c) 0) <= 1 /\
  nth 0 (sin_channel c') 0 = - nth 0 (sin_channel c) 0 /\ nth 0 (sin_channel c') 0 = 10 * sin (c' 0%nat).
Proof.
  intros c c' E H. unfold sin_channel. cbn [nth]. rewrite E. destruct (Rlt_dec 1 (c 1%nat)); [lra|]. destruct (Rlt_dec 1 (c' 1%nat)); [|lra].
  pose proof (SIN_bound (c 0%nat)). pose proof (SIN_bound (c 1%nat)). pose proof (SIN_bound (c 2%nat)).
  repeat split; try (apply Rabs_le; lra); lra.
Qed.
