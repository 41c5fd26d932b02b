(** Non-conformal interface: search for the opposing face of every Gauss point, and ghosting of the opposing elements.
    src/NonConformalInfo.C, src/NonConformalManager.C.
    Simplifications: real arithmetic; stk::search::coarse_search enters at its specification (all pairs sphere/box that intersect, reported to the
    owner of the sphere and to the owner of the box); ghosting of elements only (the non-shared downward entities that come along are not tracked);
    std::sort, std::unique, std::set_difference, std::set_intersection, std::binary_search and std::equal_range as their reference algorithms. *)
Require Import Reals List Bool Arith.
Import ListNotations.
Open Scope R_scope.

(** stk::search::IdentProc<uint64_t,int>: identifier and owning rank; operator< compares identifiers, then ranks *)
Definition key := (nat * nat)%type.
Definition key_lt (a b : key) : bool := (fst a <? fst b)%nat || ((fst a =? fst b)%nat && (snd a <? snd b)%nat).
Definition key_eq (a b : key) : bool := (fst a =? fst b)%nat && (snd a =? snd b)%nat.

Section Algo.
Variable A : Type.
Variable lt : A -> A -> bool.
Fixpoint insert (x : A) (l : list A) : list A := match l with [] => [x] | h :: t => if lt x h then x :: h :: t else h :: insert x t end.
Definition sort (l : list A) : list A := fold_right insert [] l.
(** std::unique on a sorted range: drop elements equal to their predecessor *)
Fixpoint unique (eqb : A -> A -> bool) (l : list A) : list A :=
  match l with [] => [] | h :: t => match t with [] => [h] | h' :: _ => if eqb h h' then unique eqb t else h :: unique eqb t end end.
Fixpoint is_sorted (l : list A) : bool := match l with [] => true | h :: t => match t with [] => true | h' :: _ => negb (lt h' h) && is_sorted t end end.
End Algo.
Arguments insert {A}. Arguments sort {A}. Arguments unique {A}. Arguments is_sorted {A}.
(** std::set_difference with a heterogeneous comparator: keep the elements of a not matched in b *)
Fixpoint set_difference {A B} (ab : A -> B -> bool) (ba : B -> A -> bool) (a : list A) : list B -> list A :=
  fix inner (b : list B) : list A :=
  match a with
  | [] => []
  | x :: a' => match b with
      | [] => x :: a'
      | y :: b' => if ab x y then x :: set_difference ab ba a' b else if ba y x then inner b' else set_difference ab ba a' b'
      end
  end.
Fixpoint set_intersection {A} (lt : A -> A -> bool) (a : list A) : list A -> list A :=
  fix inner (b : list A) : list A :=
  match a with
  | [] => []
  | x :: a' => match b with
      | [] => []
      | y :: b' => if lt x y then set_intersection lt a' b else if lt y x then inner b' else x :: set_intersection lt a' b'
      end
  end.

(** a search sphere around a Gauss point: key (local Gauss point id, rank) and radius; a search result: point key and box key (face id, rank) *)
Definition sphere := (R * key)%type.
Definition found := (key * key)%type.

(** NonConformalInfo.C 338-371 delete_range_points_found *)
Definition sphere_id_lt (a b : sphere) : bool := (fst (snd a) <? fst (snd b))%nat.
Definition delete_found (spheres : list sphere) (pairs : list found) : list sphere :=
  let spheres := if is_sorted sphere_id_lt spheres then spheres else sort sphere_id_lt spheres in
  let keys_found := unique key_eq (sort key_lt (map fst pairs)) in
  set_difference (fun (a : sphere) (b : key) => key_lt (snd a) b) (fun (a : key) (b : sphere) => key_lt a (snd b)) spheres keys_found.

(** 373-407 repeat_search_if_needed, on all ranks 0..P-1 together (the loop condition is an all_reduce): [coarse s r] is what the search gives
    to rank r for the spheres s of all ranks; None: the run stops with an exception *)
Section Repeat.
Variable P : nat.
Variable coarse : (nat -> list sphere) -> nat -> list found.
Definition any_not_empty (s : nat -> list sphere) : bool := existsb (fun r => match s r with [] => false | _ => true end) (seq 0 P).
Fixpoint repeat_loop (fuel iterations : nat) (s : nat -> list sphere) (pairs : nat -> list found) : option (nat -> list found) :=
  match fuel with
  | O => None
  | S fuel =>
    if any_not_empty s then
      let s2 := fun r => map (fun x : sphere => (2 * fst x, snd x)) (s r) in
      let pairs := fun r => pairs r ++ coarse s2 r in
      let s3 := fun r => delete_found (s2 r) (pairs r) in
      let iterations := S iterations in
      if (10 <? iterations)%nat then None else repeat_loop fuel iterations s3 pairs
    else Some pairs
  end.
Definition repeat_search (spheres : nat -> list sphere) (pairs : nat -> list found) : option (nat -> list found) :=
  repeat_loop 12 0 (fun r => delete_found (spheres r) (pairs r)) pairs.
(** 409-420: first search, then, with the dynamic tolerance, the repeated one *)
Definition all_search (dynamic : bool) (spheres : nat -> list sphere) : option (nat -> list found) :=
  let pairs := coarse spheres in
  if dynamic then repeat_search spheres pairs else Some pairs.
End Repeat.

(** 456-610 complete_search for the Gauss point with local id [pt] of rank [rank]; [dist f] = isInElement and (projected) distance of the point for
    face f; dgInfo's opposing face, parametric distance and search distance *)
Record dinfo := mkD { opposing : option nat; bestX : R; nearest : R }.
Definition bestXRef : R := 10^16.
Definition found_id_lt (a b : found) : bool := (fst (fst a) <? fst (fst b))%nat.
Definition range (pt : nat) (pairs : list found) : list found := filter (fun p => (fst (fst p) =? pt)%nat) pairs.
Definition search_step (dynamic : bool) (rank : nat) (dist : nat -> R * R) (saved : R) (st : R * dinfo) (p : found) : R * dinfo :=
  let (nd, d) := st in
  if (snd (fst p) =? rank)%nat then
    let f := fst (snd p) in
    if Rlt_dec (fst (dist f)) (bestX d) then
      let nd' := if dynamic then Rmin nd (snd (dist f)) else nd in
      let near := if dynamic then (if Rlt_dec nd' (nearest d) then 0.8*saved + (1 - 0.8)*nd' else nd') else nearest d in
      (nd', mkD (Some f) (fst (dist f)) near)
    else st
  else st.
(** [big] is std::numeric_limits<double>::max().  None: the point is reported as a problem, the run stops *)
Definition complete_point (dynamic : bool) (big : R) (rank pt : nat) (dist : nat -> R * R) (pairs : list found) (d : dinfo) : option dinfo :=
  let d := mkD (opposing d) bestXRef (nearest d) in
  match range pt (sort found_id_lt pairs) with
  | [] => None
  | l => Some (snd (fold_left (search_step dynamic rank dist (nearest d)) l (big, d)))
  end.

(** *** ghosting, NonConformalManager.C 91-206.  EntityProc: element and destination rank *)
Definition ep := (nat * nat)%type.
(** std::binary_search, at its specification on sorted ranges: membership *)
Definition bsearch (l : list ep) (x : ep) : bool := existsb (key_eq x) l.
Definition sort_and_unique (l : list ep) : list ep := unique key_eq (sort key_lt l).
Definition keep_not_ghosted (already want : list ep) : list ep :=
  match already with [] => want | _ => filter (fun x => negb (bsearch already x)) want end.
Definition sends_to_remove (cur inter : list ep) : list ep := filter (fun x => negb (bsearch inter x)) cur.
(** lists of one rank: what to add, what to take back *)
Definition precise_lists (want cur : list ep) : list ep * list ep :=
  let cur := sort_and_unique cur in
  let want := sort_and_unique want in
  let inter := set_intersection key_lt cur want in
  (keep_not_ghosted inter want, sends_to_remove cur inter).
(** communicate_to_fill_recv_ghosts_to_remove 139-166: rank q is told by every other rank p which elements to drop *)
Definition recv_to_remove (P : nat) (remove : nat -> list ep) (q : nat) : list nat :=
  flat_map (fun p => if Nat.eqb p q then [] else map fst (filter (fun x => Nat.eqb (snd x) q) (remove p))) (seq 0 P).
(** change_ghosting at its specification: rank q holds element e of rank p iff it is newly sent, or it was held and not dropped *)
Definition held_after (P : nat) (add cur : nat -> list ep) (remove : nat -> list nat) (p e q : nat) : Prop :=
  In (e, q) (add p) \/ (In (e, q) (cur p) /\ ~ In e (remove q)).
