(** Built-in profiles of src/user_functions and how they are laid over a field (include/AuxFunction.h, src/ConstantAuxFunction.C).
    double is R; a point's coordinates are c 0, c 1, c 2; fields and coordinates are memory indexed from the bucket's first value. *)
From Coq Require Import Reals ZArith List Bool.
Import ListNotations.
Open Scope R_scope.

Definition mem := nat -> R.
(** the assignments fieldPtr[0] = ..; fieldPtr[1] = ..; of one point, fieldPtr standing at [base] *)
Fixpoint write_point (f : mem) (base : nat) (vs : list R) : mem :=
  match vs with [] => f | v :: r => write_point (fun a => if Nat.eqb a base then v else f a) (S base) r end.
(** the loop common to the do_evaluate functions, e.g. ScalarGaussianAuxFunction.C 51-59: fieldPtr += fieldSize; coords += step.
    step is spatialDimension, except in BoundaryLayerPerturbationAuxFunction.C 72 and TornadoAuxFunction.C 60, where it is fieldSize *)
Fixpoint eval_loop (g : (nat -> R) -> list R) (fieldSize step : nat) (coords : mem) (n fb cb : nat) (f : mem) : mem :=
  match n with O => f | S m => eval_loop g fieldSize step coords m (fb + fieldSize) (cb + step) (write_point f fb (g (fun k => coords (cb + k)%nat))) end.
(** ConstantAuxFunction.C 28-46: for i = beginPos .. endPos-1, fieldPtr[i] = vals[i] *)
Fixpoint const_point (vals : nat -> R) (base i cnt : nat) (f : mem) : mem :=
  match cnt with O => f | S m => const_point vals base (S i) m (fun a => if Nat.eqb a (base + i) then vals i else f a) end.
Fixpoint const_loop (vals : nat -> R) (fieldSize b e n fb : nat) (f : mem) : mem :=
  match n with O => f | S m => const_loop vals fieldSize b e m (fb + fieldSize) (const_point vals fb b (e - b) f) end.
(** the constructor's check, ConstantAuxFunction.C 24 *)
Definition const_ok (e nvals : nat) : bool := Nat.leb e nvals.

(** pow(x, 1/7) for x >= 0 (a negative base gives NaN: not modelled) *)
Definition root7 (x : R) : R := if Rlt_dec 0 x then Rpower x (1/7) else 0.

(** ChannelFlowPerturbedPlugVelocityAuxFunction.C 34-41: a parameter counts only when positive *)
Definition pos_param (ps : list R) (k : nat) (d : R) : R := match nth_error ps k with Some v => if Rlt_dec 0 v then v else d | None => d end.
Definition plug_um ps := pos_param ps 0 1.
Definition plug_Lx ps := pos_param ps 1 (2 * PI).
Definition plug_Ly ps := pos_param ps 2 2.
Definition plug_Lz ps := pos_param ps 3 (2 / 3 * PI).
(** 63-70, streamwise, spanwise and normal directions 0, 1, 2 (the defaults of 29-31; the parameters 4-6 only permute them) *)
Definition plug_base ps (y : R) : R := plug_um ps * tanh (8 * y) * tanh (8 * (plug_Ly ps - y)).
Definition plug ps (c : nat -> R) : list R :=
  let x := c 0%nat in let y := c 1%nat in let z := c 2%nat in
  let ub := plug_base ps y in
  [ub + 5/100 * ub * sin (8 * PI / plug_Lx ps * x) * cos (4 * PI / plug_Lz ps * z);
   5/100 * ub * cos (8 * PI / plug_Lx ps * x) * sin (4 * PI / plug_Lz ps * z);
   5/100 * ub * sin (4 * PI / plug_Lx ps * x) * cos (2 * PI / plug_Lz ps * z)].

(** BoundaryLayerPerturbationAuxFunction.C 55-69 *)
Record blp := mkBlp { bl_amp : R; bl_kx : R; bl_ky : R; bl_th : R; bl_uinf : R }.
Definition bl_damp (p : blp) (z : R) : R := exp (- z / bl_th p) * z / bl_th p / exp (- (1)).
Definition bl_mean (p : blp) (z : R) : R := Rmin (root7 (z / (5 * bl_th p))) 1 * bl_uinf p.
Definition bl_vel (p : blp) (c : nat -> R) : list R :=
  let x := c 0%nat in let y := c 1%nat in let z := c 2%nat in
  [bl_mean p z + bl_amp p * cos (bl_kx p * x) * cos (bl_ky p * y) * bl_damp p z;
   bl_amp p * bl_kx p / bl_ky p * sin (bl_kx p * x) * sin (bl_ky p * y) * bl_damp p z; 0].

(** RayleighTaylorMixFracAuxFunction.C 54-76; defaults aX 0.1, tX 1, yTr 1, dTr 0.2, surf 1 (23-27) *)
Record rt := mkRt { rt_a : R; rt_t : R; rt_y : R; rt_d : R; rt_s : R }.
Definition rt_default := mkRt (1/10) 1 1 (2/10) 1.
Definition rt_value (p : rt) (x y : R) : R :=
  let yy := y + - rt_a p * cos (2 * rt_t p * PI * x) in
  if Rlt_dec yy (rt_y p - rt_d p / 2) then 0 else if Rlt_dec (rt_y p + rt_d p / 2) yy then 1 else rt_s p * 1 / 2 * (1 - sin (PI * yy / rt_d p)).

(** FixedHeightMixFracAuxFunction.C 54-63; std::erf is a parameter *)
Section FixedHeight.
Variable erf : R -> R.
Definition fh_value (h d amp freq x y : R) : R :=
  let dy := if Rlt_dec (1/10000000) (Rabs amp) then y - amp * sin (freq * x) else y - h in
  1/2 * (erf (dy / d) + 1).
End FixedHeight.

(** ScalarGaussianAuxFunction.C 54-56 *)
Definition gaussian (a b s x : R) : R := a * exp (- (1/2) * (x - b) * (x - b) / (s * s)).
(** SinProfilePipeFlowVelocityAuxFunction.C 56-61 *)
Definition sin_pipe (umag a px py pz : R) (c : nat -> R) : list R :=
  let uz := umag * sin (PI * a * c 2%nat) in [uz * px; uz * py; uz * pz].
(** SinProfileChannelFlowVelocityAuxFunction.C 43-51, u_m = 10 *)
Definition sin_channel (c : nat -> R) : list R :=
  let ax := if Rlt_dec 1 (c 1%nat) then 1 else -1 in
  [10 * sin (c 0%nat) * ax; 1/10 * 10 * sin (c 1%nat); 1/10 * 10 * sin (c 2%nat)].
(** PulseVelocityAuxFunction.C 51-56 *)
Definition pulse (ux uy uz tp time : R) (c : nat -> R) : list R :=
  let fac := if Rlt_dec tp time then 0 else 1 in [ux * fac; uy * fac; uz * fac].
(** TornadoAuxFunction.C 45-57, constants of 22-26 *)
Definition tornado (c : nat -> R) : list R :=
  let fac := root7 (c 2%nat / (25/1000)) in
  let umag := 3/10 * fac in let omega := umag / (4/10) in
  [- omega * c 1%nat; omega * c 0%nat; 2 * (41/100) / (4/10) * 2 * umag].
(** ConcentricAuxFunction.C 49-51 *)
Definition con_ti : R := 300.
Definition con_t1 : R := 30283443018241820254843332804739 / 100000000000000000000000000000.
Definition concentric (x y z : R) : R :=
  let r := sqrt (x*x + y*y + z*z) in con_ti + (con_t1 - con_ti) * (1 / (3/100) - 1 / r) / (1 / (3/100) - 1 / (5/100)).
(** LinearRampMeshDisplacementAuxFunction.C 46-47; ramp_ has as many entries as parameters were given, reading further is out of range *)
Fixpoint ramp (ps : list R) (time : R) (fieldSize : nat) : option (list R) :=
  match fieldSize, ps with O, _ => Some [] | S _, [] => None
  | S m, r :: q => match ramp q time m with Some l => Some (r * time :: l) | None => None end end.
(** WorkshopMMSMixFracAuxFunction.C 41-45, u = 1, v = 0, sigma = 0.5 (22-24) *)
Definition workshop (u v s t x y : R) : R := exp (- ((x - t*u)*(x - t*u) + (y - t*v)*(y - t*v)) / s / s).
(** RecMixFracAuxFunction.C 39-45 *)
Definition rec_mixfrac (x z : R) : R := if Rlt_dec x (1228/1000) then if Rlt_dec z (55/100) then 1 else 0 else 0.
(** SinVofAuxFunction.C 54-57, lambda = 1e-4, a0 = 0.1 lambda (25-26) *)
Definition sv_lambda : R := 1/10000.
Definition sin_vof (x y : R) : R := if Rle_dec (1/10 * sv_lambda * cos (2 * PI * x / sv_lambda)) y then 0 else 1.

(** OneTwoTenVelocityAuxFunction.C 24-29 and 50-55: [nmax] terms, 100 in the code *)
Definition ott_dpdz : R := - (16/10000).
Definition ott_mu : R := 1/10000.
Definition ott_a : R := 1/2.
Definition ott_b : R := 1.
Definition ott_m (n : nat) : R := (2 * INR n + 1) * PI / 2 / ott_b.
Definition ott_term (n : nat) (x y : R) : R :=
  let m := ott_m n in (-1) ^ n * 1 / m / m / m * (cos (m * y) * cosh (m * x)) / cosh (m * ott_a).
Fixpoint ott_sum (n : nat) (x y : R) : R := match n with O => 0 | S k => ott_sum k x y + ott_term k x y end.
Definition ott_w (nmax : nat) (x y : R) : R := - (1) / 2 / ott_mu * ott_dpdz * (ott_b*ott_b - y*y - 4 / ott_b * ott_sum nmax x y).

(** FlowPastCylinderTempAuxFunction.C 29-53: angle in degrees, temperature in Celsius *)
Definition cyl_data : list (R * R) :=
  [(0, 34.8567771912); (15, 34.9078674316); (30, 35.6716117859); (45, 36.5256385803); (60, 37.9703292847); (75, 38.8416900635);
   (90, 40.3171539307); (105, 42.0815200806); (120, 41.2935409546); (135, 40.9183769226); (150, 40.2051162720); (165, 40.3736419678);
   (180, 40.3435249329); (195, 40.5962333679); (210, 40.7046546936); (225, 40.5719375610); (240, 39.5904731750); (255, 38.0906562805);
   (270, 36.7716522217); (285, 35.9330558777); (300, 35.2598419189); (315, 34.9156837463); (330, 34.4239540100); (345, 34.2773284912);
   (360, 34.8567771912)].
Definition cyl_h : R := 420/1000.
Definition cyl_k : R := 14269/1000000.
(** 73-87 *)
Definition cyl_theta (x y : R) : R :=
  let radius := sqrt ((x-cyl_h)*(x-cyl_h) + (y-cyl_k)*(y-cyl_k)) in
  let raw := 180/PI * asin ((y-cyl_k)/radius) in
  if Rlt_dec x cyl_h then (if Rlt_dec cyl_k y then raw else 360 + raw) else (if Rlt_dec cyl_k y then 180 - raw else 180 - raw).
(** reading the table outside its rows is undefined *)
Definition row (d : list (R * R)) (i : Z) : option (R * R) := if Z.leb 0 i then nth_error d (Z.to_nat i) else None.
(** find_index, 99-123; (iMin+iMax)/2 truncates towards zero *)
Fixpoint find_index (d : list (R * R)) (z : R) (iMin iMax : Z) (fuel : nat) : option Z :=
  match fuel with O => None | S m =>
    let mid := Z.quot (iMin + iMax) 2 in
    match row d mid with None => None | Some (cand, _) =>
      if Z.ltb mid iMin then Some mid
      else if Rlt_dec z cand then find_index d z iMin (mid - 1) m else find_index d z (mid + 1) iMax m end end.
(** local_interpolation, 157-170 *)
Definition local_interp (d : list (R * R)) (z : R) (i0 i1 : Z) : option R :=
  match row d i0, row d i1 with Some (x0, y0), Some (x1, y1) => Some (y0 + (y1 - y0) * (z - x0) / (x1 - x0)) | _, _ => None end.
(** interpolate_data, 125-155; iMin_ = 0, iMax_ = number of rows - 1 *)
Definition interpolate (d : list (R * R)) (z : R) : option R :=
  let iMax := (Z.of_nat (length d) - 1)%Z in
  match row d 0, row d iMax with
  | Some (xl, yl), Some (xh, yh) =>
    if Rlt_dec z xl then Some yl else if Rlt_dec xh z then Some yh else
    match find_index d z 0 iMax (S (S (length d))) with None => None | Some f =>
      if Z.eqb f 0 then local_interp d z f (f+1) else if Z.eqb f iMax then local_interp d z (f-1) f else
      match row d f with None => None | Some (xf, _) => if Rlt_dec z xf then local_interp d z (f-1) f else local_interp d z f (f+1) end end
  | _, _ => None end.
(** 90-93 *)
Definition cyl_temp (x y : R) : option R := option_map (fun v => v + 273.15) (interpolate cyl_data (cyl_theta x y)).
