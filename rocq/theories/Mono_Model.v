(** The coupled velocity-pressure system: LowMachMonolithicEquationSystem.C 151-172 (initial_work), 480-493 (pre_timestep_work),
    505-557 (solve_and_update), 561-573 (predict_state), 582-645 (the two copies), with Realm.C 3849-3864 (swap_states, predict_state) and the
    order of TimeIntegrator.C 265-305. The linear solve and the gradients, whose results do not enter these fields otherwise, are left out:
    an iteration's increment is any memory. One bucket of n nodes in d dimensions; buckets are independent. Doubles are reals. *)
From Coq Require Import Reals List Arith.
Import ListNotations.
Open Scope R_scope.

Definition mem := nat -> R.
Definition upd (m : mem) (i : nat) (v : R) : mem := fun x => if Nat.eqb x i then v else m x.
(** for each i of the list in order: dst[f i] = src[g i] *)
Definition copies {A} (f g : A -> nat) (l : list A) (src dst : mem) : mem := fold_left (fun m i => upd m (f i) (src (g i))) l dst.
Section Mono.
Variables (n d K : nat).
(** 603-611: the loops over nodes and components, in that order *)
Definition slots : list (nat * nat) := list_prod (seq 0 n) (seq 0 d).
Definition vpos (kj : nat * nat) : nat := (fst kj * d + snd kj)%nat.
Definition upos (kj : nat * nat) : nat := (fst kj * (d + 1) + snd kj)%nat.
Definition ppos (k : nat) : nat := (k * (d + 1) + d)%nat.
(** the K states of uvwp and velocity (K = 2 or 3), new, old, older, and the pressure *)
Record bst := mkB { Un : mem; Uo : mem; Uoo : mem; Vn : mem; Vo : mem; Voo : mem; Pr : mem }.
(** 582-613 copy_uvwp_to_uvw_p *)
Definition copy_down (s : bst) : bst :=
  mkB (Un s) (Uo s) (Uoo s) (copies vpos upos slots (Un s) (Vn s)) (Vo s) (Voo s) (copies (fun k => k) ppos (seq 0 n) (Un s) (Pr s)).
(** 615-645 copy_uvw_p_to_uvwp; the pressure slot of a node is written after its velocity slots, which are others *)
Definition copy_up (s : bst) : bst :=
  mkB (copies ppos (fun k => k) (seq 0 n) (Pr s) (copies upos vpos slots (Vn s) (Un s))) (Uo s) (Uoo s) (Vn s) (Vo s) (Voo s) (Pr s).
(** 151-163; restarted: populate_restart has read uvwp, the only of these in the restart list (line 197) *)
Definition initial_work (restarted : bool) (s : bst) : bst := if restarted then s else copy_up s.
(** stk's rotation of field states *)
Definition swap_states (s : bst) : bst :=
  if Nat.eqb K 2 then mkB (Uo s) (Un s) (Uoo s) (Vo s) (Vn s) (Voo s) (Pr s) else mkB (Uoo s) (Un s) (Uo s) (Voo s) (Vn s) (Vo s) (Pr s).
(** 561-573 *)
Definition set_Un (u : mem) (s : bst) : bst := mkB u (Uo s) (Uoo s) (Vn s) (Vo s) (Voo s) (Pr s).
Definition predict (s : bst) : bst := copy_down (set_Un (copies (fun i => i) (fun i => i) (seq 0 (n * (d + 1))) (Uo s) (Un s)) s).
(** 480-493 *)
Definition pre_timestep (s : bst) : bst := copy_down s.
(** TimeIntegrator.C 285-296: boundary data, transfers: any values in velocity and pressure *)
Definition external (v p : mem) (s : bst) : bst := mkB (Un s) (Uo s) (Uoo s) v (Vo s) (Voo s) p.
(** 521-535: one iteration with the solver's increment *)
Definition axpby (inc u : mem) : mem := fold_left (fun m i => upd m i (1 * inc i + 1 * m i)) (seq 0 (n * (d + 1))) u.
Definition iteration (s : bst) (inc : mem) : bst := copy_down (set_Un (axpby inc (Un s)) s).
Definition solve (incs : list mem) (s : bst) : bst := fold_left iteration incs s.
(** one time step: TimeIntegrator.C 265-305 *)
Record stepin := mkIn { ext_v : mem; ext_p : mem; increments : list mem }.
Definition time_step (s : bst) (i : stepin) : bst := solve (increments i) (external (ext_v i) (ext_p i) (pre_timestep (predict (swap_states s)))).
Definition run (restarted : bool) (ins : list stepin) (s : bst) : bst := fold_left time_step ins (initial_work restarted s).
End Mono.
