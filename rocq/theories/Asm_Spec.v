(** * What assembling a system means, independently of how the mesh is traversed *)
From Coq Require Import Reals List Permutation.
From Verif Require Import Edge_Model Edge_Proofs Asm_Model.
Import ListNotations.
Open Scope R_scope.

(** the same matrix and right-hand side *)
Definition same (a b : gsys) : Prop := (forall r c, g_A a r c = g_A b r c) /\ (forall r, g_b a r = g_b b r).
(** a kernel whose effect on a lane is to add what [f] says of that lane's data *)
Definition adds {D} (k : kernel D) (f : D -> loc) : Prop :=
  forall data acc l, (forall i, l_L (k data acc l) i = l_L (acc l) i + l_L (f (data l)) i)
                     /\ (forall i, l_B (k data acc l) i = l_B (acc l) i + l_B (f (data l)) i).
(** contributions of local matrix and vector entries of one entity with degrees of freedom [ids] *)
Definition entry (ids : list nat) (l : loc) (r c : nat) : R :=
  lsum (fun i => lsum (fun j => if Nat.eqb (nth i ids 0%nat) r then if Nat.eqb (nth j ids 0%nat) c then l_L l (i * length ids + j)%nat else 0 else 0)
    (seq 0 (length ids))) (seq 0 (length ids)).
Definition entryb (ids : list nat) (l : loc) (r : nat) : R :=
  lsum (fun i => if Nat.eqb (nth i ids 0%nat) r then l_B l i else 0) (seq 0 (length ids)).
(** sum over entities and terms *)
Definition assembled {D E} (gather : E -> D) (dofs : E -> list nat) (terms : E -> list (D -> loc)) (ents : list E) : gsys :=
  mkG (fun r c => lsum (fun e => lsum (fun f => entry (dofs e) (f (gather e)) r c) (terms e)) ents)
      (fun r => lsum (fun e => lsum (fun f => entryb (dofs e) (f (gather e)) r) (terms e)) ents).
