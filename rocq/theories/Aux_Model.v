(** User-supplied tables and simple profiles: src/user_functions/TableAuxFunction.C,
    Table2dAuxFunction.C, LinearAuxFunction.C, PowerlawVelocityAuxFunction.C,
    PowerlawPipeVelocityAuxFunction.C, MeshMotionAuxFunction.C, WindEnergyAuxFunction.C.
    Doubles are reals; a double parameter that is stored in an integer member (component numbers, table
    sizes) is a nat here.  NaN (0/0), an exception and an access outside a vector are all [None]. *)
From Coq Require Import Reals List Arith Bool.
From Verif Require Import Edge_Model Motion_Model.
Import ListNotations.
Open Scope R_scope.

Definition ltb (a b : R) : bool := if Rlt_dec a b then true else false.
(** operator< of std::pair<double,double> *)
Definition pair_lt (a b : R * R) : bool := ltb (fst a) (fst b) || (negb (ltb (fst b) (fst a)) && ltb (snd a) (snd b)).
(** std::sort: the ascending rearrangement (insertion sort; the result of sorting is unique) *)
Fixpoint insert (p : R * R) (l : list (R * R)) : list (R * R) :=
  match l with [] => [p] | h :: t => if pair_lt h p then h :: insert p t else p :: l end.
Definition sort (l : list (R * R)) : list (R * R) := fold_right insert [] l.
(** std::lower_bound: the position of the first element that is not less *)
Fixpoint lower_bound {A} (lt : A -> A -> bool) (l : list A) (x : A) : nat :=
  match l with [] => 0 | h :: t => if lt h x then S (lower_bound lt t x) else 0 end%nat.

(** TableAuxFunction.C 39-41: the pairs after the first two parameters; an odd number reads past the end *)
Fixpoint pairs (l : list R) : option (list (R * R)) :=
  match l with
  | [] => Some []
  | [_] => None
  | a :: b :: t => match pairs t with Some r => Some ((a, b) :: r) | None => None end end.
(** TableAuxFunction.C 24-49, after the two component numbers *)
Definition table_ctor (data : list R) : option (list (R * R)) :=
  match pairs data with
  | Some l => if (length l <? 2)%nat then None else Some (sort l)
  | None => None end.
(** quotient of doubles: 0 in the denominator gives an infinity or NaN, here None *)
Definition divo (a b : R) : option R := if Req_EM_T b 0 then None else Some (a / b).
(** TableAuxFunction::interp, 91-116; x is the first member of the pair, the second is 0.0 (72-74) *)
Definition interp (T : list (R * R)) (x : R) : option R :=
  match T with
  | [] => None
  | t0 :: _ =>
    if Rle_dec x (fst t0) then Some (snd t0)
    else let tl := last T t0 in
    if Rle_dec (fst tl) x then Some (snd tl)
    else let it := lower_bound pair_lt T (x, 0) in
      match nth_error T it, nth_error T (it - 1) with
      | Some b, Some a =>
          let dx := fst b - fst a in
          let dy := snd b - snd a in
          match divo ((x - fst a) * dy) dx with Some q => Some (snd a + q) | None => None end
      | _, _ => None end
  end.

(** memory: the doubles from fieldPtr on *)
Definition mem := nat -> R.
Definition write (m : mem) (a : nat) (v : R) : mem := fun b => if (b =? a)%nat then v else m b.
(** "for i < fieldSize: fieldPtr[i] = 0.0" at offset o *)
Definition zero_out (o fs : nat) (m : mem) : mem := fold_left (fun m i => write m (o + i) 0) (seq 0 fs) m.
(** TableAuxFunction::do_evaluate 53-88: g p is the interpolated value of point p (None poisons the result);
    fieldPtr advances by fieldSize, coords by spatialDimension *)
Fixpoint point_loop (ps : list nat) (fs fc : nat) (g : nat -> option R) (m : mem) : option mem :=
  match ps with
  | [] => Some m
  | p :: ps' => match g p with
      | Some v => point_loop ps' fs fc g (write (zero_out (p * fs) fs m) (p * fs + fc) v)
      | None => None end end.
Definition table_evaluate (T : list (R * R)) (fieldComp interpComp : nat) (coords : mem) (time : R)
    (dim n : nat) (fs : nat) (m : mem) : option mem :=
  point_loop (seq 0 n) fs fieldComp
    (fun p => interp T (if (interpComp <? 3)%nat then coords (p * dim + interpComp)%nat else time)) m.

(* ------------------------------------------------------------------ two-dimensional table *)
Record row := mkRow { r_x : R; r_y : R; r_h : R }.
(** Table2dAuxFunction.C 106-114: "while ( !inFile.eof() ) inFile >> x >> y >> h; push_back".  When the text
    ends right after the last number, eof is set by reading it; when white space follows (a final newline)
    one more round is made in which the extractions fail and leave x, y, h as they were. *)
Definition read_rows (rows : list row) (trailing_space : bool) : list row :=
  match rows with
  | [] => []
  | r0 :: _ => if trailing_space then rows ++ [last rows r0] else rows end.
Record table2 := mkT2 { t_X : list R; t_Y : list R; t_A : nat -> nat -> R; t_sx : nat; t_sy : nat }.
(** 118-122: the rows k = 0, sizeY, 2*sizeY, ... below data.size(); k is the position of the list's head *)
Fixpoint column_x (data : list row) (k sy : nat) : list R :=
  match data with
  | [] => []
  | r :: rest => if Nat.eqb (k mod sy) 0 then r_x r :: column_x rest (S k) sy else column_x rest (S k) sy end.
(** 125-129; reading past data.size() is None *)
Definition first_y (data : list row) (sy : nat) : option (list R) :=
  if (length data <? sy)%nat then None else Some (map r_y (firstn sy data)).
(** 131-145: the loop that fills A_; writing outside the sized array is None *)
Fixpoint load_A (data : list row) (k countX sx sy : nat) (A : nat -> nat -> R) : option (nat -> nat -> R) :=
  match data with
  | [] => Some A
  | r :: rest =>
      let ySlot := (k mod sy)%nat in
      let xSlot := countX in
      let countX' := if Nat.eqb ySlot (sy - 1) then S countX else countX in
      if (sx <=? xSlot)%nat then None
      else load_A rest (S k) countX' sx sy (fun i j => if Nat.eqb i ySlot && Nat.eqb j xSlot then r_h r else A i j)
  end.
(** 100-146.  A sizeOfY_ of zero makes the loop at 118 endless: None. *)
Definition table2_ctor (rows : list row) (trailing_space : bool) (sx sy : nat) : option table2 :=
  let data := read_rows rows trailing_space in
  if Nat.eqb sy 0 then None else
  match first_y data sy, load_A data 0 0 sx sy (fun _ _ => 0) with
  | Some Y, Some A => Some (mkT2 (column_x data 0 sy) Y A sx sy)
  | _, _ => None end.
(** Table2dAuxFunction::find_entry 204-230: the clamped coordinate and the two positions.  table[0] of an
    empty vector is None. *)
Definition find_entry (x : R) (T : list R) : option (R * nat * nat) :=
  match T with
  | [] => None
  | t0 :: _ =>
    if Rle_dec x t0 then Some (t0, 0%nat, 1%nat)
    else let tl := last T t0 in
    if Rle_dec tl x then Some (tl, (length T - 1 - 1)%nat, (length T - 1)%nat)
    else let it := lower_bound ltb T x in Some (x, (it - 1)%nat, it)
  end.
Definition at_A (t : table2) (i j : nat) : option R :=
  if (i <? t_sy t)%nat && (j <? t_sx t)%nat then Some (t_A t i j) else None.
(** 167-196: the value before the time factor *)
Definition interp2 (t : table2) (xp yp : R) : option R :=
  match find_entry xp (t_X t), find_entry yp (t_Y t) with
  | Some (xp, x1p, x2p), Some (yp, y1p, y2p) =>
    match nth_error (t_X t) x1p, nth_error (t_X t) x2p, nth_error (t_Y t) y1p, nth_error (t_Y t) y2p with
    | Some x1, Some x2, Some y1, Some y2 =>
      match at_A t y2p x1p, at_A t y1p x1p, at_A t y2p x2p, at_A t y1p x2p with
      | Some Q11, Some Q12, Some Q21, Some Q22 =>
        match divo (x2 - xp) (x2 - x1), divo (xp - x1) (x2 - x1), divo (yp - y1) (y2 - y1), divo (y2 - yp) (y2 - y1) with
        | Some a, Some b, Some c, Some d =>
            let R1 := Q11 * a + Q21 * b in
            let R2 := Q12 * a + Q22 * b in
            Some (R1 * c + R2 * d)
        | _, _, _, _ => None end
      | _, _, _, _ => None end
    | _, _, _, _ => None end
  | _, _ => None end.
(** 164: std::min(time/timeBlending_, 1.0) *)
Definition time_fac (time blend : R) : option R := match divo time blend with Some q => Some (Rmin q 1) | None => None end.
(** Table2dAuxFunction::do_evaluate 153-202 *)
Definition table2_evaluate (t : table2) (fieldComp ix iy : nat) (blend : R) (coords : mem) (time : R)
    (dim n fs : nat) (m : mem) : option mem :=
  match time_fac time blend with
  | Some f => point_loop (seq 0 n) fs fieldComp
      (fun p => match interp2 t (coords (p * dim + ix)%nat) (coords (p * dim + iy)%nat) with Some v => Some (v * f) | None => None end) m
  | None => None end.

(* ------------------------------------------------------------------ profiles *)
(** LinearAuxFunction.C 24-49: slope and intercept; equal abscissas divide by zero *)
Definition linear_ctor (qL qR xL xR : R) : option (R * R) :=
  match divo (qR - qL) (xR - xL) with Some m => Some (m, qL - m * xL) | None => None end.
(** LinearAuxFunction.C 68: the value written to the principal component *)
Definition linear_value (mb : R * R) (x : R) : R := fst mb * x + snd mb.
(** std::pow for a non-negative base and positive exponent *)
Definition powr (b e : R) : R := if Req_EM_T b 0 then 0 else Rpower b e.
(** PowerlawVelocityAuxFunction.C 51-59: third component, alpha_ = 1/params[2] *)
Definition powerlaw (uKnown yKnown alpha y : R) : R :=
  let cY := Rmax (/ 10 ^ 16) y in uKnown * powr (cY / yKnown) alpha.
(** PowerlawPipeVelocityAuxFunction.C 55-63: third component, powerExponent_ = 1/params[4] *)
Definition powerlaw_pipe (uc xc yc Rr e x y : R) : R :=
  let dx := x - xc in let dy := y - yc in
  let r := sqrt (dx * dx + dy * dy) in
  let powArg := Rmax 0 (1 - r / Rr) in
  uc * powr powArg e.

(* ------------------------------------------------------------------ moving walls *)
(** MeshMotionAuxFunction::cross_product 102-108, WindEnergyAuxFunction::cross_product 111-116 *)
Definition aux_cross (o c : v3) : v3 :=
  V3 (vy o * vz c - vz o * vy c) (vz o * vx c - vx o * vz c) (vx o * vy c - vy o * vx c).
(** MeshMotionAuxFunction::do_evaluate 68-99 for one point: fieldSize = nDim; c beyond nDim keeps 0 *)
Definition mesh_motion_velocity (nDim : nat) (omega cen disp vel : v3) (x : vec) : vec :=
  let c := load nDim (fun i => x i - (comp cen i + comp disp i)) in
  let u := aux_cross omega c in
  fun i => if (i <? nDim)%nat then comp u i + comp vel i else 0.
(** WindEnergyAuxFunction.C 60-68 (constructor), 78-84 (setup) and 86-108 for one point *)
Definition wind_energy_velocity (nDim : nat) (form : option (R * R)) (t : R) (omega : R) (unitVec cen : v3) (x : vec) : vec :=
  let om := vscale omega unitVec in
  let c := load nDim (fun i => x i - comp cen i) in
  let u := aux_cross om c in
  fun i => if (i <? nDim)%nat then comp u i * get_tanh_blending form t else 0.
