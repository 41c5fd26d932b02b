(** What a mesh must satisfy and what its dual geometry should be, independent of the assembly. *)
Require Import Reals List PeanoNat Permutation.
From Verif Require Import ME_Model ME_Spec Geom_Model.
Import ListNotations.
Open Scope R_scope.

Definition supported (t : etype) : Prop := t = hex_t \/ t = tet_t \/ t = wed_t \/ t = pyr_t \/ t = tri_t \/ t = quad_t.

(** an element of a mesh whose edges have been created: distinct nodes, and each global edge joins
    the two nodes the topology says, in either order *)
Definition elem_ok (en : nat -> nat * nat) (el : elem) : Prop :=
  supported (el_type el) /\ length (el_nodes el) = t_npe (el_type el) /\ NoDup (el_nodes el)
  /\ forall k, (k < length (t_edges (el_type el)))%nat ->
     let (a, b) := nth k (t_edges (el_type el)) (0,0)%nat in
     let na := nth a (el_nodes el) 0%nat in let nb := nth b (el_nodes el) 0%nat in
     en (nth k (el_edges el) 0%nat) = (na, nb) \/ en (nth k (el_edges el) 0%nat) = (nb, na).

(** the faces of an element, as lists of mesh nodes, outward *)
Definition elem_faces (el : elem) : list (list nat) :=
  map (map (fun k => nth k (el_nodes el) 0%nat)) (t_sides (el_type el)).

(** the same face seen from the other side: opposite sense, starting at any node (a 2-node face, i.e.
    an edge of a planar mesh, has no freedom: rotating it would turn it round) *)
Definition rotate (f : list nat) : list nat := match f with [] => [] | a :: l => l ++ [a] end.
Inductive same_face : list nat -> list nat -> Prop :=
| sf_rev f : same_face f (rev f)
| sf_rot f g : same_face f g -> (2 < length g)%nat -> same_face f (rotate g).

(** conforming mesh: every element face is either shared with exactly one other element face (same
    nodes, opposite sense) or is a boundary face *)
Definition conforming (els : list elem) (boundary : list (list nat)) : Prop :=
  exists pairs : list (list nat * list nat),
    (forall f g, In (f, g) pairs -> same_face f g)
    /\ Permutation (flat_map elem_faces els) (map fst pairs ++ map snd pairs ++ boundary).

(** outward area of the part of a face that belongs to node i *)
Definition face_part (x : nat -> vec) (i : nat) (f : list nat) : vec :=
  vsum (map (fun k => if Nat.eqb (nth k f 0%nat) i then face_area x f k else vzero) (seq 0 (length f))).
(** outward area seen by node i of the dual faces of the listed edges *)
Definition dual_faces_at (edges : list nat) (en : nat -> nat * nat) (av : nat -> vec) (i : nat) : vec :=
  vsum (map (fun e => vsub (if Nat.eqb (fst (en e)) i then av e else vzero)
                           (if Nat.eqb (snd (en e)) i then av e else vzero)) edges).

(** the volume of an element: divergence theorem in 3-d, polygon area in 2-d *)
Definition elem_volume (x : nat -> vec) (el : elem) : R :=
  let X := fun k => x (nth k (el_nodes el) 0%nat) in
  match t_sides (el_type el) with
  | [_;_] :: _ => shoelace (t_npe (el_type el)) (fun k => vx (X k)) (fun k => vy (X k))
  | sides => enclosed_volume sides X
  end.
