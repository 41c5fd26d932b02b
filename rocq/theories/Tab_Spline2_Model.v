(** Two-dimensional tables.  File: tabular_props/BSpline.C, class BSpline2D.
    Simplifications: those of Tab_Spline_Model; pointers are values (a copy is a copy). *)
Require Import Reals List PeanoNat Bool.
From Verif Require Import Edge_Model Tab_LU_Model Tab_Spline_Model.
Import ListNotations.
Open Scope R_scope.

(** sp1_ is the spline of the first direction; its control points are scratch space, rewritten by every
    call of value.  dim2Splines_ are the splines of the second direction *)
Record spline2 := mkSpline2 { s2_first : spline; s2_second : list spline }.

(** BSpline.C:482-483: the dependent variables of line j, first index fastest *)
Definition grid_line (d : list R) (n j : nat) : list R := map (fun i => at_ d (i + j * n)) (seq 0 n).
(** the value the constructor leaves behind, or the exception of the first spline that throws *)
Fixpoint all_some {A} (l : list (option A)) : option (list A) :=
  match l with
  | [] => Some []
  | Some a :: m => match all_some m with Some r => Some (a :: r) | None => None end
  | None :: _ => None
  end.
Definition no_spline : spline := mkSpline 0 false 0 0 0 [] [].
(** BSpline.C:421-439 and 467-512: constructor and compute_control_pts *)
Definition spline2_fit (order : nat) (xs1 xs2 d : list R) (clip : bool) : option spline2 :=
  let n := length xs1 in let m := length xs2 in
  if Nat.eqb (length d) (n * m) then
    match all_some (map (fun j => spline_fit order xs1 (grid_line d n j) clip) (seq 0 m)) with
    | None => None
    | Some lines =>
      match all_some (map (fun i => spline_fit order xs2 (map (fun l => at_ (sp_ctrl l) i) lines) clip) (seq 0 n)) with
      | None => None
      | Some seconds => Some (mkSpline2 (hd no_spline lines) seconds)
      end
    end
  else None.

(** writing one entry of an array *)
Definition set_at (l : list R) (k : nat) (v : R) : list R := map (fun i => if Nat.eqb i k then v else at_ l i) (seq 0 (length l)).
Definition with_ctrl (s : spline) (c : list R) : spline :=
  mkSpline (sp_order s) (sp_clip s) (sp_npts s) (sp_max s) (sp_min s) (sp_knots s) c.
(** BSpline.C:515-541: value; returns the number and the table as it is after the call *)
Definition spline2_value (s : spline2) (N0 : nat -> R) (x y : R) : option (R * spline2) :=
  let sp1 := s2_first s in
  let p := sp_order sp1 in
  match find_indx (sp_npts sp1) p (get_uk x (sp_max sp1) (sp_min sp1) (sp_clip sp1)) (sp_knots sp1) with
  | None => None
  | Some ix =>
    let shift := (ix - p)%nat in
    let R' := fold_left (fun c k => match c with
        | None => None
        | Some l => match spline_value (nth (shift + k) (s2_second s) no_spline) N0 y with
                    | Some v => Some (set_at l (shift + k) v) | None => None end
        end) (seq 0 (p + 1)) (Some (sp_ctrl sp1)) in
    match R' with
    | None => None
    | Some c => match spline_value (with_ctrl sp1 c) N0 x with
                | Some v => Some (v, mkSpline2 (with_ctrl sp1 c) (s2_second s))
                | None => None end
    end
  end.
(** a sequence of lookups, oldest first *)
Fixpoint spline2_after (s : spline2) (N0 : nat -> R) (qs : list (R * R)) : option spline2 :=
  match qs with
  | [] => Some s
  | q :: m => match spline2_value s N0 (fst q) (snd q) with Some (_, s') => spline2_after s' N0 m | None => None end
  end.
