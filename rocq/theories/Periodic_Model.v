(** Model of /repo/src/PeriodicManager.C.
    Simplifications: a stk selector is a predicate on nodes; coordinates, fields are reals; the field has one
    component (components are treated independently by the code, index j); stk::search::coarse_search returns
    exactly the pairs of intersecting spheres, in unspecified order; shared copies of a node (not periodic
    ghosts) are refreshed from the owner (parallel_communicate_field) and are not separate state. *)
Require Import Reals List Arith Bool.
Import ListNotations.
Open Scope R_scope.

Definition selector := nat -> bool.
Definition sand (a b : selector) : selector := fun n => a n && b n.
Definition sor (a b : selector) : selector := fun n => a n || b n.
Definition sminus (a b : selector) : selector := fun n => a n && negb (b n).
(** (monarch, subject) *)
Definition spair := (selector * selector)%type.
Definition both (p q : spair) : spair := (sand (fst p) (fst q), sand (snd p) (snd q)).

(** augment_periodic_selector_pairs, 151-208 *)
Definition augment (ps : list spair) : list spair :=
  match ps with
  | [a; b] => [a; b; both a b]
  | [a; b; c] => [a; b; c; both a b; both b c; both a c; (sand (sand (fst a) (fst b)) (fst c), sand (sand (snd a) (snd b)) (snd c))]
  | _ => ps
  end.
Definition with_subject (p : spair) (s : selector) : spair := (fst p, s).
(** remove_redundant_subject_nodes, 313-367 *)
Definition remove_redundant (ps : list spair) : list spair :=
  match ps with
  | [pa; pb; pc] =>
      let A := snd pa in let B := snd pb in
      let I := sand A B in
      [with_subject pa (sminus A I); with_subject pb (sminus B I); pc]
  | [pa; pb; pc; pd; pe; pf; pg] =>
      let A := snd pa in let B := snd pb in let C := snd pc in
      let ABC := sand (sand A B) C in
      let AB := sand A B in let AC := sand A C in let BC := sand B C in
      [with_subject pa (sminus A (sor AB AC)); with_subject pb (sminus B (sor AB BC)); with_subject pc (sminus C (sor AC BC));
       with_subject pd (sminus AB ABC); with_subject pe (sminus BC ABC); with_subject pf (sminus AC ABC); pg]
  | _ => ps
  end.
(** the search sets used by build_constraints, 118-145 *)
Definition search_pairs (ps : list spair) : list spair := remove_redundant (augment ps).

(* ------------------------------------------------------------------ translation *)
Definition rsum (l : list R) : R := fold_left Rplus l 0.
(** determine_translation, 232-308, component j: coordinates of the (locally owned) monarch and subject nodes, per rank *)
Definition translation (monarch subject : list (list R)) : R :=
  let g_monarch := rsum (map rsum monarch) in
  let g_subject := rsum (map rsum subject) in
  let g_number := INR (length (concat monarch)) in
  (g_monarch - g_subject) / g_number.

(** populate_search_key_vec, 396-479: all (subject, monarch) pairs whose spheres of radius [tol] around the
    translated subject and around the monarch intersect *)
Definition pt := nat -> R.                                    (* point: component j < nDim *)
Fixpoint d2 (n : nat) (a b : pt) : R := match n with O => 0 | S k => d2 k a b + (a k - b k)*(a k - b k) end.
Definition hits (nDim : nat) (tol : R) (shift x y : pt) : bool :=
  if Rle_dec (d2 nDim (fun j => x j + shift j) y) ((2*tol)*(2*tol)) then true else false.
Definition search (nDim : nat) (tol : R) (X : nat -> pt) (shift : pt) (subjects monarchs : list nat) : list (nat * nat) :=
  flat_map (fun s => map (fun m => (s, m)) (filter (fun m => hits nDim tol shift (X s) (X m)) monarchs)) subjects.

(** error_check / finalize_search, 373-392 and 485-549: [found tol] = number of search results with tolerance tol.
    Result: Some (number of results, tolerance) on success, None for the runtime_error.
    errorCount is the value on entry; fuel >= maxErrorCount - errorCount *)
Fixpoint finalize_search (found : R -> nat) (nSubject : nat) (maxErr : nat) (fuel errorCount : nat) (tol : R) : option (nat * R) :=
  if Nat.eqb nSubject (found tol) then Some (found tol, tol)
  else if Nat.eqb (S errorCount) maxErr then None
  else match fuel with
       | O => None
       | S f => finalize_search found nSubject maxErr f (S errorCount)
                  (if Nat.ltb (found tol) nSubject then tol*5 else tol/5)
       end.

(* ------------------------------------------------------------------ field updates *)
(** value of the field on rank p at node n (p's copy) *)
Definition field := nat -> nat -> R.
Record par := mkPar { owner : nat -> nat; ghosted : nat -> nat -> bool;    (* rank, node *)
                      comm : nat -> list (nat * nat) }.                   (* rank -> (monarch, subject) pairs *)
(** periodic_parallel_communicate_field, 669-677: ghost copies receive the owner's value *)
Definition communicate (w : par) (f : field) : field :=
  fun p n => if ghosted w p n then f (owner w n) n else f p n.
Definition upd (v : nat -> R) (n : nat) (x : R) : nat -> R := fun i => if Nat.eqb i n then x else v i.
(** loop bodies of add_subject_to_monarch, set_subject_to_monarch, apply_max_field *)
Definition add1 (v : nat -> R) (pr : nat * nat) : nat -> R := upd v (fst pr) (v (fst pr) + v (snd pr)).
Definition set1 (v : nat -> R) (pr : nat * nat) : nat -> R := upd v (snd pr) (v (fst pr)).
Definition max1 (v : nat -> R) (pr : nat * nat) : nat -> R :=
  let m := Rmax (v (fst pr)) (v (snd pr)) in upd (upd v (fst pr) m) (snd pr) m.
(** add_subject_to_monarch, 785-832 *)
Definition add_subject_to_monarch (w : par) (f : field) : field :=
  let g := communicate w f in communicate w (fun p => fold_left add1 (comm w p) (g p)).
(** set_subject_to_monarch, 837-884 *)
Definition set_subject_to_monarch (w : par) (f : field) : field :=
  let g := communicate w f in communicate w (fun p => fold_left set1 (comm w p) (g p)).
(** apply_constraints, 731-749 *)
Definition apply_constraints (w : par) (addSubjects setSubjects : bool) (f : field) : field :=
  let f1 := if addSubjects then add_subject_to_monarch w f else f in
  if setSubjects then set_subject_to_monarch w f1 else f1.
(** apply_max_field, 754-780 (no periodic communication at the end) *)
Definition apply_max_field (w : par) (f : field) : field :=
  let g := communicate w f in fun p => fold_left max1 (comm w p) (g p).
(** update_global_id_field, 698-724, on one rank: ids of subject nodes become the monarch's identifier *)
Definition update_global_id (ident : nat -> nat) (pairs : list (nat * nat)) (gid : nat -> nat) : nat -> nat :=
  fold_left (fun g pr => fun n => if Nat.eqb n (snd pr) then ident (fst pr) else g n) pairs gid.
