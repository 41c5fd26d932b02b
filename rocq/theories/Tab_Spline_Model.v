(** B-splines of the tabulated-property package.  File: tabular_props/BSpline.C.
    Simplifications: real arithmetic; indices are natural numbers (reads outside an array give 0 in the
    model and are excluded by the theorems' hypotheses); the fixed work arrays left[10], right[10] of
    basis_funs are functions, so orders of ten and more, which overrun them in the code, behave like the
    others here; std::sort is insertion sort; HDF5 input and output are left out. *)
Require Import Reals List PeanoNat Bool.
From Verif Require Import Edge_Model Tab_LU_Model.
Import ListNotations.
Open Scope R_scope.

Definition at_ (l : list R) (k : nat) : R := nth k l 0.

(** BSpline.C:33-34: left[j] = u-U[i+1-j]; right[j] = U[i+j]-u; every entry is written before it is read *)
Definition left_ (U : list R) (u : R) (i j : nat) : R := u - at_ U (i + 1 - j).
Definition right_ (U : list R) (u : R) (i j : nat) : R := at_ U (i + j) - u.
(** BSpline.C:35-41: one pass of the outer loop *)
Definition basis_pass (U : list R) (u : R) (i : nat) (N : nat -> R) (j : nat) : nat -> R :=
  let st := fold_left (fun st r =>
      let tmp := fst st r / (right_ U u i (r + 1) + left_ U u i (j - r)) in
      (upd1 (fst st) r (snd st + right_ U u i (r + 1) * tmp), left_ U u i (j - r) * tmp))
      (seq 0 j) (N, 0) in
  upd1 (fst st) j (snd st).
(** BSpline.C:20-43: basis_funs; N0 is what the work array held before *)
Definition basis_funs (i p : nat) (u : R) (U : list R) (N0 : nat -> R) : nat -> R :=
  fold_left (basis_pass U u i) (seq 1 p) (upd1 N0 0 1).

(** BSpline.C:59-69: the binary search; None if it does not end within the fuel *)
Fixpoint search (fuel : nat) (u : R) (U : list R) (low high : nat) : option nat :=
  let mid := Nat.div (low + high) 2 in
  match fuel with
  | O => None
  | S f => if Rlt_dec u (at_ U mid) then search f u U low mid
           else if Rle_dec (at_ U (mid + 1)) u then search f u U mid high
           else Some mid
  end.
(** BSpline.C:45-71: find_indx *)
Definition find_indx (n p : nat) (u : R) (U : list R) : option nat :=
  if Rle_dec u (at_ U 0) then Some p
  else if Rle_dec (at_ U (n + 1)) u then Some (n - 1)%nat
  else search (n + 2) u U p (n + 1).

(** BSpline.C:73-83: get_uk *)
Definition get_uk (x mx mn : R) (clip : bool) : R :=
  let value := if clip then Rmin (Rmax x mn) mx else x in (value - mn) / (mx - mn).
(** BSpline.C:85-99: set_uk *)
Definition set_uk (xs : list R) (mx mn : R) : list R := map (fun x => get_uk x mx mn false) xs.

(** std::sort, std::unique, std::find *)
Fixpoint insert (a : R) (l : list R) : list R :=
  match l with [] => [a] | b :: m => if Rle_dec a b then a :: l else b :: insert a m end.
Definition sort (l : list R) : list R := fold_right insert [] l.
Fixpoint unique (l : list R) : list R :=
  match l with
  | [] => []
  | a :: m => match m with b :: _ => if Req_EM_T a b then unique m else a :: unique m | [] => [a] end
  end.
Definition found (a : R) (l : list R) : bool := if in_dec Req_EM_T a l then true else false.
(** BSpline.C:101-138: set_knot_vector *)
Definition set_knot_vector (uk : list R) (order : nat) : list R :=
  let uksrt := unique (sort uk) in
  let nn := length uksrt in
  let knots := repeat 0 (order + 1) in
  let knots := fold_left (fun ks j =>
      let tmp := fold_left (fun t i => t + at_ uksrt i) (seq j order) 0 / INR order in
      if found tmp ks then ks else ks ++ [tmp]) (seq 1 (nn - order - 1)) knots in
  knots ++ repeat 1 (order + 1).

(** BSpline.C:315-372: sort_inputs; None is the exception *)
Definition req_list (l m : list R) : bool := if list_eq_dec Req_EM_T l m then true else false.
Definition sort_inputs (xs ys : list R) : option (list R * list R) :=
  let sx := unique (sort xs) in
  if Nat.eqb (length xs) (length sx) then
    if req_list xs sx then Some (sx, ys)
    else if req_list (rev xs) sx then Some (sx, rev ys) else None
  else None.
(** std::max_element, std::min_element *)
Definition max_of (l : list R) : R := match l with [] => 0 | a :: m => fold_left Rmax m a end.
Definition min_of (l : list R) : R := match l with [] => 0 | a :: m => fold_left Rmin m a end.

(** class BSpline1D *)
Record spline := mkSpline { sp_order : nat; sp_clip : bool; sp_npts : nat; sp_max : R; sp_min : R; sp_knots : list R; sp_ctrl : list R }.

(** BSpline.C:290-297: the rows of the linear system; columns outside the row's band stay zero *)
Definition spline_row (n p : nat) (u : R) (U : list R) (c : nat) : R :=
  match find_indx n p u U with
  | Some ix => let shift := (ix - p)%nat in
               if Nat.leb shift c && Nat.leb c (shift + p) then basis_funs ix p u U (fun _ => 0) (c - shift) else 0
  | None => 0
  end.
Definition spline_matrix (n p : nat) (uk U : list R) : mat := fun i c => spline_row n p (at_ uk i) U c.
(** BSpline.C:208-219 and 275-312: constructor and compute_control_pts *)
Definition spline_fit (order : nat) (xs ys : list R) (clip : bool) : option spline :=
  let mx := max_of xs in let mn := min_of xs in
  let n := length xs in
  match sort_inputs xs ys with
  | None => None
  | Some (sx, sy) =>
    let uk := set_uk sx mx mn in
    let knots := set_knot_vector uk order in
    let P := lu_solve n (spline_matrix n order uk knots) (at_ sy) in
    Some (mkSpline order clip n mx mn knots (map P (seq 0 n)))
  end.
(** BSpline.C:376-399: BSpline1D::value (basis array contents before the call do not matter, see the
    theorems); the result is None only if find_indx does not end *)
Definition spline_value (s : spline) (N0 : nat -> R) (x : R) : option R :=
  let uk := get_uk x (sp_max s) (sp_min s) (sp_clip s) in
  match find_indx (sp_npts s) (sp_order s) uk (sp_knots s) with
  | None => None
  | Some ix =>
    let N := basis_funs ix (sp_order s) uk (sp_knots s) N0 in
    let shift := (ix - sp_order s)%nat in
    Some (fold_left (fun r k => r + N k * at_ (sp_ctrl s) (shift + k)) (seq 0 (sp_order s + 1)) 0)
  end.
