(** Overset hole cutting and donor search: src/overset/OversetManagerSTK.C, include/overset/OversetManagerSTK.h.
    Simplifications: real arithmetic, three dimensions; stk::search::coarse_search is taken at its specification (all pairs whose
    boxes / points intersect, closed comparisons, in arbitrary order); part modification and skinning (STK) are not modelled;
    isInElement enters as the function it computes (parametric distance and iso-parametric coordinates; C33). *)
Require Import Reals List Bool Arith.
From Verif Require Import Motion_Model.
Import ListNotations.
Open Scope R_scope.

Definition box := (v3 * v3)%type.
Definition min_of (f : v3 -> R) (l : list v3) : R := fold_left (fun a x => Rmin a x) (map f l) (10^16).
Definition max_of (f : v3 -> R) (l : list v3) : R := fold_left (fun a x => Rmax a x) (map f l) (-(10^16)).
(** define_overset_bounding_boxes / define_background_bounding_boxes, .C 548-683: box of one element's nodes *)
Definition elem_box (pts : list v3) : box := (V3 (min_of vx pts) (min_of vy pts) (min_of vz pts), V3 (max_of vx pts) (max_of vy pts) (max_of vz pts)).
(** define_inactive_bounding_box, .C 285-369: box of all overset nodes over all ranks *)
Definition overset_box (ranks : list (list v3)) : box :=
  let mn f := all_reduce Rmin (map (fun l => min_of f l) ranks) in
  let mx f := all_reduce Rmax (map (fun l => max_of f l) ranks) in
  (V3 (mn vx) (mn vy) (mn vz), V3 (mx vx) (mx vy) (mx vz)).
(** .C 371-403: translate, shrink by percentOverlap, translate back; one component *)
Definition reduce1 (percent lo hi : R) : R * R :=
  let t := - lo in
  let a := lo + t in let b := hi + t in
  let distance := (b - a)*percent/100 in
  (a + distance - t, b - distance - t).
Definition reduce_box (percent : R) (b : box) : box :=
  let (lo, hi) := b in
  let rx := reduce1 percent (vx lo) (vx hi) in let ry := reduce1 percent (vy lo) (vy hi) in let rz := reduce1 percent (vz lo) (vz hi) in
  (V3 (fst rx) (fst ry) (fst rz), V3 (snd rx) (snd ry) (snd rz)).
(** .C 47-92 get_bbox_points *)
Definition get_bbox_points (b : box) : list v3 :=
  let (mn, mx) := b in
  [V3 (vx mn) (vy mx) (vz mn); V3 (vx mn) (vy mx) (vz mx); V3 (vx mn) (vy mn) (vz mx); V3 (vx mn) (vy mn) (vz mn);
   V3 (vx mx) (vy mx) (vz mn); V3 (vx mx) (vy mx) (vz mx); V3 (vx mx) (vy mn) (vz mx); V3 (vx mx) (vy mn) (vz mn)].
(** .C 458-502: axis-aligned box of the moved corners (strict comparisons, same minima) *)
Definition moved_box (b : box) (cen disp ang : v3) : box :=
  let pts := map (fun p => rotate_translate_point p cen disp ang) (get_bbox_points b) in
  let mn f := fold_left (fun a p => if Rlt_dec (f p) a then f p else a) pts (10^16) in
  let mx f := fold_left (fun a p => if Rlt_dec a (f p) then f p else a) pts (-(10^16)) in
  (V3 (mn vx) (mn vy) (mn vz), V3 (mx vx) (mx vy) (mx vz)).

(** .h 246-259 / 326-340: centre and half widths of the model box *)
Definition box_cent (b : box) : v3 := let (mn, mx) := b in V3 ((1/2)*(vx mx + vx mn)) ((1/2)*(vy mx + vy mn)) ((1/2)*(vz mx + vz mn)).
Definition half_dist (b : box) : v3 := vsub (snd b) (box_cent b).
(** .h 268-277 / 349-358: the point pulled into the body frame; rotMat = get_rotmat_from_quat(q, false) *)
Definition pulled (cen disp ang p : v3) : v3 :=
  mv (get_rotmat_from_quat (get_quat_from_eulerxyz ang) false) (vsub p (vadd cen disp)).
(** .h 343-367 OrientedBox::is_point_inside *)
Definition obb_inside (b : box) (cen disp ang p : v3) : bool :=
  let r := pulled cen disp ang p in let c := box_cent b in let h := half_dist b in
  if Rlt_dec (Rabs (vx r - vx c)) (vx h) then
    if Rlt_dec (Rabs (vy r - vy c)) (vy h) then
      if Rlt_dec (Rabs (vz r - vz c)) (vz h) then true else if Rlt_dec (vz h) FLT_MIN then true else false
    else false
  else false.
(** .h 262-302 OrientedCylinder::is_point_inside *)
Definition cyl_inside (b : box) (axial : nat) (cen disp ang p : v3) : bool :=
  let r := pulled cen disp ang p in let h := half_dist b in
  let test r1 r2 h1 h2 ra ca ha :=
    if Rlt_dec (r1*r1 + r2*r2) (((1/2)*(h1+h2))^2) then
      if Rlt_dec (Rabs (ra - ca)) ha then true else if Rlt_dec ha FLT_MIN then true else false
    else false in
  match axial with
  | 0%nat => test (vy r) (vz r) (vy h) (vz h) (vx r) (vx cen) (vx h)
  | 1%nat => test (vx r) (vz r) (vx h) (vz h) (vy r) (vy cen) (vy h)
  | 2%nat => test (vx r) (vy r) (vx h) (vy h) (vz r) (vz cen) (vz h)
  | _ => false end.

Inductive cutting_shape := Aabb | Obb | Cylinder (axis : nat).
Definition boxes_meet (a b : box) : bool :=
  let ok lo1 hi1 lo2 hi2 := if Rle_dec lo1 hi2 then if Rle_dec lo2 hi1 then true else false else false in
  (ok (vx (fst a)) (vx (snd a)) (vx (fst b)) (vx (snd b)) && ok (vy (fst a)) (vy (snd a)) (vy (fst b)) (vy (snd b))
   && ok (vz (fst a)) (vz (snd a)) (vz (fst b)) (vz (snd b)))%bool.
(** .C 737-752 the element centroid *)
Definition elem_cent (pts : list v3) : v3 :=
  let denom := 1/INR (length pts) in
  fold_left (fun a p => vadd a (vscale denom p)) pts (V3 0 0 0).
(** .C 685-769 determine_intersected_elements: [coarse] is the searched box, [model] the box in model coordinates *)
Definition cut_element (sh : cutting_shape) (coarse model : box) (cen disp ang : v3) (pts : list v3) : bool :=
  (boxes_meet coarse (elem_box pts) &&
   match sh with Aabb => true | Obb => obb_inside model cen disp ang (elem_cent pts) | Cylinder k => cyl_inside model k cen disp ang (elem_cent pts) end)%bool.

(** ** donor search *)
(** a (point, box) pair of identifiers with their ranks, as returned by the coarse search *)
Record skey := mkK { k_pt : nat; k_ptproc : nat; k_el : nat; k_elproc : nat }.
(** std::pair / IdentProc ordering: id then proc, point first *)
Definition skey_lt (a b : skey) : bool :=
  ((k_pt a <? k_pt b) || (Nat.eqb (k_pt a) (k_pt b) &&
    ((k_ptproc a <? k_ptproc b) || (Nat.eqb (k_ptproc a) (k_ptproc b) &&
      ((k_el a <? k_el b) || (Nat.eqb (k_el a) (k_el b) && (k_elproc a <? k_elproc b)))))))%nat%bool.
(** .C 1226 std::sort *)
Fixpoint insert_key (k : skey) (l : list skey) : list skey :=
  match l with [] => [k] | h :: t => if skey_lt k h then k :: l else h :: insert_key k t end.
Definition sort_keys (l : list skey) : list skey := fold_right insert_key [] l.
(** OversetInfo search data: bestX_, owning element, isoParCoords_ *)
Record sinfo := mkSI { si_best : R; si_el : option nat; si_iso : v3 }.
(** .C 1282-1356 complete_search for one point of this rank; [dist el] = isInElement (distance, isoParCoords) for that point *)
Definition complete_search (rank pt : nat) (dist : nat -> R * v3) (keys : list skey) : sinfo :=
  fold_left (fun si k =>
    if Nat.eqb rank (k_ptproc k) then
      if Nat.eqb (k_pt k) pt then
        let d := dist (k_el k) in
        if Rlt_dec (fst d) (si_best si) then mkSI (fst d) (Some (k_el k)) (snd d) else si
      else si
    else si) keys (mkSI (10^16) None (V3 0 0 0)).
(** .C 1360-1397: only with detailed output; clipping of the iso-parametric coordinates *)
Definition clip1 (tol x : R) : R := let x := if Rlt_dec (1 + tol) x then 1 + tol else x in if Rlt_dec x (-1 - tol) then -1 - tol else x.
Definition finish_search (detailed clip : bool) (si : sinfo) : sinfo :=
  let tol := / 10^6 in
  if detailed then
    if Rlt_dec (1 + tol) (si_best si) then
      if clip then mkSI (si_best si) (si_el si) (V3 (clip1 tol (vx (si_iso si))) (clip1 tol (vy (si_iso si))) (clip1 tol (vz (si_iso si)))) else si
    else si
  else si.
