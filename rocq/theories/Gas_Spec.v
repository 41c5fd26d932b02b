(** Specification vocabulary for the compressible solver, independent of Gas_Model's helpers. *)
Require Import Reals List.
From Verif Require Import Edge_Model Edge_Proofs.
Open Scope R_scope.

(** u.A *)
Definition dot (n : nat) (u A : vec) : R := sumn n (fun j => u j * A j).
Definition norm2 (n : nat) (u : vec) : R := sumn n (fun j => u j * u j).

(** Euler flux of the state (rho, rho u, p, rho H) through the area vector A; components 0..n-1 are
    momentum, n mass and n+1 energy *)
Definition euler_flux (n : nat) (rho : R) (u : vec) (p H : R) (A : vec) (c : nat) : R :=
  if Nat.ltb c n then rho * u c * dot n u A + p * A c
  else if Nat.eqb c n then rho * dot n u A
  else H * dot n u A.

(** the edge seen from the other end *)
Definition reverse_edge (e : edge) : edge := mkEdge (eR e) (eL e) (fun j => - eA e j).

(** outward area seen by node i of the dual faces in a list of edges *)
Definition edge_area_at (es : list edge) (i j : nat) : R :=
  lsum (fun e => (if Nat.eqb i (eL e) then eA e j else 0) - (if Nat.eqb i (eR e) then eA e j else 0)) es.
(** total of a nodal quantity weighted by the dual volume *)
Definition total (nodes : list nat) (vol q : nat -> R) : R := lsum (fun i => vol i * q i) nodes.
