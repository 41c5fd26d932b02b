(** What the face data of a master element should satisfy, independent of the tables. *)
From Coq Require Import Reals List Lia Lra.
Import ListNotations.
From Verif Require Import ME_Model ME_Shape_Spec.
Open Scope R_scope.

(** Entry of a table of tables. *)
Definition entry {A} (t : list (list A)) (k j : nat) (d : A) : A := nth j (nth k t []) d.

(** [m] maps the reference face onto one side of the element: at every point [x,y] of [dom] the
    element's shape functions of the side's nodes are the face's shape functions, in the side's
    node order, and those of all other nodes vanish. *)
Definition trace_agrees (n : nat) (N : vec -> nat -> R) (Nf : vec -> nat -> R) (nodes : list nat)
    (dom : vec -> Prop) (m : R -> R -> option vec) : Prop :=
  forall x y, dom (V x y 0) ->
  exists s, m x y = Some s /\
    (forall j, (j < length nodes)%nat -> N s (nth j nodes 0%nat) = Nf (V x y 0) j) /\
    (forall i, (i < n)%nat -> ~ In i nodes -> N s i = 0).

(** Evaluating any nodal field at the element's exposed-face point [p] gives what the face element
    gives at its own integration point [q] from the nodal values on that side. *)
Definition same_value (n : nat) (N : vec -> nat -> R) (p : vec)
    (nodes : list nat) (Nf : vec -> nat -> R) (q : vec) : Prop :=
  forall f : nat -> R, interp n N p f = interp (length nodes) Nf q (fun j => f (nth j nodes 0%nat)).

(** [node] carries the largest shape function at [p]. *)
Definition dominant (n : nat) (N : vec -> nat -> R) (p : vec) (node : nat) : Prop :=
  (node < n)%nat /\ forall i, (i < n)%nat -> i <> node -> N p i < N p node.

(** The opposing node of the [j]-th node of side [k] is off the side, and the opposing
    sub-control surface separates exactly the two. *)
Definition opposing_node_ok (lr : list (nat * nat)) (sides opp : list (list nat)) : Prop :=
  forall k j, (k < length sides)%nat -> (j < length (nth k sides []))%nat ->
  let s := entry sides k j 0%nat in let o := entry opp k j 0%nat in
  ~ In o (nth k sides []) /\ (In (s, o) lr \/ In (o, s) lr).
Definition opposing_face_ok (lr : list (nat * nat)) (sides oppn oppf : list (list nat)) : Prop :=
  forall k j, (k < length sides)%nat -> (j < length (nth k sides []))%nat ->
  let s := entry sides k j 0%nat in let o := entry oppn k j 0%nat in let f := entry oppf k j 0%nat in
  (f < length lr)%nat /\ (nth f lr (0,0)%nat = (s, o) \/ nth f lr (0,0)%nat = (o, s)).

(** Centroid of a plane quadrilateral cut into the triangles abc and acd: the two parts have
    area vectors w1 A and w2 A with w1 + w2 = 1, w1, w2 >= 0, and the centroid weighs the
    triangles' centroids accordingly. *)
Definition quad_centroid (a b c d g : vec) : Prop :=
  exists w1 w2 A, 0 <= w1 /\ 0 <= w2 /\ w1 + w2 = 1 /\
    cross (vsub b a) (vsub c a) = vscale w1 A /\ cross (vsub c a) (vsub d a) = vscale w2 A /\
    g = vadd (vscale w1 (vscale (1/3) (vadd (vadd a b) c))) (vscale w2 (vscale (1/3) (vadd (vadd a c) d))).

(** Volume and first moment of a polyhedron cut into the tetrahedra (o,a,b,c). *)
Definition tet_vol (o a b c : vec) : R :=
  let u := vsub a o in let w := cross (vsub b o) (vsub c o) in
  1/6 * (vx u * vx w + vy u * vy w + vz u * vz w).
Definition cone_volume (o : vec) (tris : list (vec * vec * vec)) : R :=
  rsum (map (fun t => let '(a, b, c) := t in tet_vol o a b c) tris).
Definition cone_moment (o : vec) (tris : list (vec * vec * vec)) : vec :=
  vsum (map (fun t => let '(a, b, c) := t in
    vscale (tet_vol o a b c) (vscale (1/4) (vadd (vadd (vadd o a) b) c))) tris).
Definition cone_centroid (o : vec) (tris : list (vec * vec * vec)) (g : vec) : Prop :=
  vscale (cone_volume o tris) g = cone_moment o tris.
(** The control volume of node [i] inside an element whose sub-control surfaces are the
    quadrilaterals [tab] (indices into [pts]) with left and right nodes [lr]: the cone from the node
    over its sub-control surfaces, each cut into two triangles, turned so that left nodes see them
    from behind.  (The exposed faces of the element that meet the node pass through it and add
    nothing.) *)
Definition cell_of (pts : nat -> vec) (tab : list (list nat)) (lr : list (nat * nat)) (i : nat) : list (vec * vec * vec) :=
  flat_map (fun ip =>
    let q := nth ip tab [] in
    let a := pts (nth 0 q 0%nat) in let b := pts (nth 1 q 0%nat) in
    let c := pts (nth 2 q 0%nat) in let d := pts (nth 3 q 0%nat) in
    if Nat.eqb (fst (nth ip lr (0,0)%nat)) i then [(a, b, c); (a, c, d)]
    else if Nat.eqb (snd (nth ip lr (0,0)%nat)) i then [(a, c, b); (a, d, c)] else [])
  (seq 0 (length lr)).
