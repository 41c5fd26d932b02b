(** * Segregated mass-fraction and k-epsilon updates

    Files: src/MassFractionEquationSystem.C 646-825, src/FieldFunctions.C 23-70 and 148-181 (field_axpby,
    field_index_copy), src/KEpsilonEquationSystem.C 108-314, src/TurbDissipationEquationSystem.C (wall model parameters),
    src/ComputeWallModelTurbDissipationWallAlgorithm.C, src/ComputeSSTMaxLengthScaleElemAlgorithm.C,
    src/EnthalpyEffectiveDiffFluxCoeffAlgorithm.C.
    Simplifications: real arithmetic, decimal literals exact; one rank and no periodic images (their sums are C14, C20);
    the assembly and linear solve is a parameter: any function of the fields the equation reads. *)
From Coq Require Import Reals List Bool Arith.
From Verif Require Import Edge_Model Elem_Model Wall_Model Aux_Model.
Import ListNotations.
Open Scope R_scope.

Definition node := nat.
(** species fields: node, species *)
Definition yfield := nat -> nat -> R.
(** field_index_copy and field_axpby visit every node when the aura is active, else owned and shared nodes *)
Record mesh_nodes := mkN { n_mine : nat -> bool; n_aura : bool }.
Definition visits (M : mesh_nodes) (n : nat) : bool := n_aura M || n_mine M n.
(** what the scalar equation reads: current mass fraction at the three states and the boundary value *)
Record cur := mkCur { c_np1 : nat -> R; c_n : nat -> R; c_nm1 : nat -> R; c_bc : nat -> R }.
(** field_index_copy from component k *)
Definition take (M : mesh_nodes) (y : yfield) (k : nat) (old : nat -> R) : nat -> R := fun n => if visits M n then y n k else old n.
Definition put (M : mesh_nodes) (c : nat -> R) (k : nat) (y : yfield) : yfield :=
  fun n i => if Nat.eqb i k && visits M n then c n else y n i.
Section Species.
Variable M : mesh_nodes.
Variable three : bool.                       (* number_of_states > 2 *)
Variable yN yNm1 ybc : yfield.
(** assemble_and_solve: the increment computed in outer pass i for species k; it may depend on every field *)
Variable solve : nat -> nat -> yfield -> cur -> nat -> R.
(** set_current_mass_fraction, 660-686 *)
Definition set_current (k : nat) (y : yfield) (c : cur) : cur :=
  mkCur (take M y k (c_np1 c)) (take M yN k (c_n c)) (if three then take M yNm1 k (c_nm1 c) else c_nm1 c) (take M ybc k (c_bc c)).
(** the body of the species loop, 728-760 *)
Definition one_species (i : nat) (st : yfield * cur) (k : nat) : yfield * cur :=
  let c := set_current k (fst st) (snd st) in
  let tmp := solve i k (fst st) c in
  let np1 := fun n => if visits M n then 1 * tmp n + 1 * c_np1 c n else c_np1 c n in
  (put M np1 k (fst st), mkCur np1 (c_n c) (c_nm1 c) (c_bc c)).
(** compute_nth_mass_fraction, 790-823: owned and shared nodes only *)
Definition lowerBound : R := 1 / 10^16.
Definition upperBound : R := 1 + lowerBound.
Definition clipped (v : R) : R := Rmin upperBound (Rmax lowerBound v).
Definition nth_mass_fraction (nspec : nat) (y : yfield) : yfield := fun n =>
  if n_mine M n then
    let s := fold_left (fun s i => s + clipped (y n i)) (seq 0 (nspec - 1)) 0 in
    fun i => if Nat.eqb i (nspec - 1) then 1 - s else if Nat.ltb i (nspec - 1) then clipped (y n i) else y n i
  else y n.
Definition one_pass (nspec : nat) (st : yfield * cur) (i : nat) : yfield * cur :=
  let st := fold_left (one_species i) (seq 0 (nspec - 1)) st in (nth_mass_fraction nspec (fst st), snd st).
(** solve_and_update, 706-783 *)
Definition species_update (nspec maxIt : nat) (y : yfield) (c : cur) : yfield * cur :=
  fold_left (one_pass nspec) (seq 0 maxIt) (y, c).
End Species.
(** residual reported and its scaling, 766-770, 843-847: [None] is a division by zero *)
Definition averaged_residual (nspec : nat) (sum : R) : option R := divo sum (INR (nspec - 1)).

(** ** k-epsilon *)
Definition small : R := 1 / 10^16.
Definition clipTke : R := 1 / 10^8.
(** update_and_clip at a node, 249-292: k, epsilon, eddy viscosity *)
Definition keps_update (cmu rho visc tke eps dk de tv : R) : R * R * R :=
  let k := tke + dk in let e := eps + de in let viscM := visc * 1 in
  if Rlt_dec small k then
    if Rlt_dec small e then (k, e, tv) else (k, cmu*rho*k*k/viscM, viscM)
  else if Rlt_dec k small then
    if Rlt_dec e small then (clipTke, cmu*rho*clipTke*clipTke/viscM, viscM)
    else (sqrt (viscM*e/(rho*cmu)), e, visc)
  else (k, cmu*rho*k*k/viscM, viscM).
(** initial_work, 181-205 *)
Definition keps_initial (cmu rho visc tke eps : R) : R * R :=
  if Rle_dec 0 tke then
    if Rlt_dec 0 eps then (tke, eps) else (tke, cmu*rho*tke*tke/(visc*1))
  else if Rlt_dec eps 0 then (clipTke, cmu*rho*clipTke*clipTke/(visc*1))
  else (sqrt (visc*1*eps/(rho*cmu)), eps).

(** ** wall dissipation *)
(** a wall integration point: area vector, normal distance, friction velocity, nearest node *)
Record wpt := mkWP { w_A : vec; w_yp : R; w_ut : R; w_node : nat }.
(** ComputeWallModelTurbDissipationWallAlgorithm.C 107-140: (assembled dissipation, assembled area) *)
Definition wall_eps_pt (n : nat) (kappa : R) (st : (nat -> R) * (nat -> R)) (p : wpt) : (nat -> R) * (nat -> R) :=
  let aMag := amag n (w_A p) in
  let e := w_ut p * w_ut p * w_ut p / kappa / w_yp p in
  (fun a => if Nat.eqb a (w_node p) then fst st a + e * aMag else fst st a,
   fun a => if Nat.eqb a (w_node p) then snd st a + aMag else snd st a).
(** compute_wall_model_parameters: zero, assemble, normalise. [None]: division by zero *)
Definition wall_eps (n : nat) (kappa : R) (pts : list wpt) (a : nat) : option R :=
  let st := fold_left (wall_eps_pt n kappa) pts (fun _ => 0, fun _ => 0) in divo (fst st a) (snd st a).

(** ** maximum edge length *)
Definition largelyNegative : R := - 10^16.
Definition edge_len (n : nat) (x : nat -> vec) (l r : nat) : R := sqrt (sumn n (fun j => (x r j - x l j) * (x r j - x l j))).
(** ComputeSSTMaxLengthScaleElemAlgorithm.C 108-146; edges of all owned elements in order *)
Definition max_edge (n : nat) (x : nat -> vec) (m : nat -> R) (e : nat * nat) : nat -> R :=
  let dx := edge_len n x (fst e) (snd e) in
  let m := fun a => if Nat.eqb a (fst e) then Rmax (m a) dx else m a in
  fun a => if Nat.eqb a (snd e) then Rmax (m a) dx else m a.
Definition max_length (n : nat) (x : nat -> vec) (edges : list (nat * nat)) : nat -> R :=
  fold_left (max_edge n x) edges (fun _ => largelyNegative).

(** EnthalpyEffectiveDiffFluxCoeffAlgorithm.C 60-98; [None]: division by zero *)
Definition enthalpy_diff_coeff (turbulent : bool) (k cp mut sigma : R) : option R :=
  if turbulent then match divo 1 sigma, divo k cp with Some i, Some a => Some (a + mut * i) | _, _ => None end else divo k cp.
