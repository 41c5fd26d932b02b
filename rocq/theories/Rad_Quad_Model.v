(** * Discrete ordinates: the quadrature set

    Models [RadiativeTransportEquationSystem::create_quadrature_set],
    src/pmr/RadiativeTransportEquationSystem.C 163-366, for a three-dimensional mesh (the code
    carries a FIXME for two dimensions).  Doubles are reals; [std::acos/sqrt/sin/cos] are the real
    functions.  The scratch arrays [xs, ys, zs], in which triangle [k] occupies entries
    [3k, 3k+1, 3k+2], are a list of triangles; [Sn_] and [weights_] are a list of ordinates. *)
From Coq Require Import Reals List Arith.
From Verif Require Import ME_Model.
Import ListNotations.
Local Open Scope R_scope.

Definition dot (a b : vec) : R := vx a * vx b + vy a * vy b + vz a * vz b.

Record tri := Tri { t0 : vec; t1 : vec; t2 : vec }.
Record ordinate := Ord { o_dir : vec; o_wt : R }.

(** 189: [ds = 1.0/double(quadratureOrder_)] *)
Definition ds (n : nat) : R := 1 / INR n.

(** 192-222: basal triangles pointing up.  [j] is the row, [k] the position in the row. *)
Definition up_tri (n j k : nat) : tri :=
  let d := ds n in
  let xx := 1 - INR j * d in let yy := 0 in let zz := 0 + INR j * d in
  Tri (V (xx - INR k * d) (yy + INR k * d) zz)
      (V (xx - (INR k + 1) * d) (yy + (INR k + 1) * d) zz)
      (V (xx - (INR k + 1) * d) (yy + INR k * d) (zz + d)).

(** 224-253: basal triangles pointing down. *)
Definition down_tri (n j k : nat) : tri :=
  let d := ds n in
  let xx := 1 - (INR j + 1) * d in let yy := d in let zz := 0 + INR j * d in
  Tri (V (xx - INR k * d) (yy + INR k * d) zz)
      (V (xx - (INR k + 1) * d) (yy + INR k * d) (zz + d))
      (V (xx - INR k * d) (yy + (INR k - 1) * d) (zz + d)).

(** 192-253: both loops, in the order in which they fill the arrays. *)
Definition triangles (n : nat) : list tri :=
  flat_map (fun j => map (up_tri n j) (seq 0 (n - j))) (seq 0 n)
  ++ flat_map (fun j => map (down_tri n j) (seq 0 (n - j - 1))) (seq 0 (n - 1)).

(** 262-270: the direction through the centroid of the basal triangle. *)
Definition direction (t : tri) : vec :=
  let xx := (vx (t0 t) + vx (t1 t) + vx (t2 t)) / 3 in
  let yy := (vy (t0 t) + vy (t1 t) + vy (t2 t)) / 3 in
  let zz := (vz (t0 t) + vz (t1 t) + vz (t2 t)) / 3 in
  let ss := sqrt (xx * xx + yy * yy + zz * zz) in
  V (xx / ss) (yy / ss) (zz / ss).

(** 274-287: projection of a vertex to the sphere. *)
Definition to_sphere (p : vec) : vec :=
  let ss := sqrt (vx p * vx p + vy p * vy p + vz p * vz p) in
  V (vx p / ss) (vy p / ss) (vz p / ss).

(** 311-315: an interior angle from the three arcs (the arc opposite to it first). *)
Definition interior_angle (a b c : R) : R := acos ((cos a - cos b * cos c) / (sin b * sin c)).

(** 294-319: arcs, interior angles, spherical excess. *)
Definition weight (t : tri) : R :=
  let p := to_sphere (t0 t) in let q := to_sphere (t1 t) in let r := to_sphere (t2 t) in
  let arc1 := acos (dot p q) in
  let arc2 := acos (dot q r) in
  let arc3 := acos (dot r p) in
  let ang1 := interior_angle arc1 arc2 arc3 in
  let ang2 := interior_angle arc2 arc3 arc1 in
  let ang3 := interior_angle arc3 arc1 arc2 in
  ang1 + ang2 + ang3 - acos (-1).

(** 257-321 *)
Definition first_octant (n : nat) : list ordinate :=
  map (fun t => Ord (direction t) (weight t)) (triangles n).

(** 177-180, rows 1..7 of [qsgn] *)
Definition qsgn : list vec :=
  [ V 1 1 (-1); V 1 (-1) 1; V 1 (-1) (-1); V (-1) 1 1; V (-1) 1 (-1); V (-1) (-1) 1; V (-1) (-1) (-1) ].

(** 330-337 *)
Definition mirror (s : vec) (o : ordinate) : ordinate :=
  Ord (V (vx (o_dir o) * vx s) (vy (o_dir o) * vy s) (vz (o_dir o) * vz s)) (o_wt o).

(** 323-341: [Sn_[nDim*j+..]], [weights_[j]] for [j = k + n*noct]. *)
Definition quadrature_set (n : nat) : list ordinate :=
  first_octant n ++ flat_map (fun s => map (mirror s) (first_octant n)) qsgn.
