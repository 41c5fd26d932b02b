(** The fractional step of the finite-element low-Mach equations: LowMachFemEquationSystem.C 297-364 (solve_and_update), 369-377
    (copy_lagged), 382-464 (project_nodal_velocity), Realm.C 3150-3182 (compute_vrtm), with the kernels of Fem_Model.
    Linear solves are left out: a momentum iteration adds any increment; the pressure increment is any, or one that solves the assembled
    system; the projected nodal gradient (ProjectedNodalGradientEquationSystem.C, solve_and_update_external) is any function of the pressure.
    The manager throws unless that gradient system exists (1054-1061). Density is that of one solve_and_update. Fields are flat: node*d+j. *)
Require Import Reals List Arith.
From Verif Require Import Edge_Model Elem_Model Fem_Model.
Import ListNotations.
Open Scope R_scope.

Definition fld := nat -> R.
(** velocity n+1, pressure, its projected gradient, and the lagged gradient and relative velocity *)
Record lm := mkLM { lm_u : fld; lm_p : fld; lm_G : fld; lm_GL : fld; lm_vL : fld }.
Section Step.
Variables (d : nat) (moving : bool) (vmesh : fld) (tau : R) (rho : fld) (projected : nat -> bool) (PNG : fld -> fld).
(** Realm.C 3150-3182 and the choice of field, 371-373: velocity relative to the mesh *)
Definition vrtm (u : fld) : fld := if moving then fun x => u x - vmesh x else u.
(** 369-377 *)
Definition copy_lagged (s : lm) : lm := mkLM (lm_u s) (lm_p s) (lm_G s) (lm_G s) (vrtm (lm_u s)).
(** 301-308, on the first call *)
Definition init (s : lm) : lm := copy_lagged (mkLM (lm_u s) (lm_p s) (PNG (lm_p s)) (lm_GL s) (lm_vL s)).
(** 318-328: after the momentum solve *)
Definition momentum (du : fld) (s : lm) : lm := mkLM (fun x => 1 * du x + 1 * lm_u s x) (lm_p s) (lm_G s) (lm_GL s) (lm_vL s).
(** 334-345: after the continuity solve *)
Definition continuity (dp : fld) (s : lm) : lm := mkLM (lm_u s) (fun x => 1 * dp x + 1 * lm_p s x) (lm_G s) (lm_GL s) (lm_vL s).
(** 382-464: the old gradient is saved in uTmp, the gradient renewed, projected nodes corrected *)
Definition project (s : lm) : lm :=
  let ut := lm_G s in let G := PNG (lm_p s) in
  mkLM (fun x => if projected (x / d)%nat then lm_u s x - tau / rho (x / d)%nat * (G x - ut x) else lm_u s x) (lm_p s) G (lm_GL s) (lm_vL s).
(** 311-359: one iteration *)
Definition iteration (s : lm) (i : fld * fld) : lm := project (copy_lagged (continuity (snd i) (momentum (fst i) s))).
(** 297-364: all iterations; first: isInit_ *)
Definition solve_and_update (first : bool) (its : list (fld * fld)) (s : lm) : lm := fold_left iteration its (if first then init s else s).
End Step.

(** an element of the mesh: its geometry and the nodes of its corners; a kernel reads the fields through them *)
Record elem := mkElem { el : fem; conn : nat -> nat }.
Definition gather (e : elem) (q : fld) : fld := fun a => q (conn e a).
Definition gather_vec (e : elem) (v : fld) : fld := fun x => v (conn e (x / f_dim (el e)) * f_dim (el e) + x mod f_dim (el e))%nat.
(** what the corners of the elements at node n add up to: the assembly of a row (sum into) *)
Definition at_node (es : list elem) (n : nat) (f : elem -> nat -> R) : R :=
  fold_right (fun e r => sumn (f_npe (el e)) (fun a => if Nat.eqb (conn e a) n then f e a else 0) + r) 0 es.
(** the local systems start from zero *)
Definition zero_sys : esys := mkE (fun _ _ => 0) (fun _ => 0).
(** the continuity kernel of an element, and the momentum advection kernel of the next iteration, on the fields they register:
    ContinuityAdvFemKernel.C 40-60 (velocity_rtm or velocity, pressure, dpdx, density), MomentumAdvFemKernel.C 70-77 (vrtm_lagged, pressure,
    dpdx_lagged, density) *)
Definition continuity_kernel (tau : R) (rho p v G : fld) (e : elem) : esys :=
  fem_continuity (el e) tau (gather e rho) (gather e p) (gather_vec e v) (gather_vec e G) zero_sys.
Definition momentum_kernel (tau : R) (rho : fld) (s : lm) (q : fld) (e : elem) : esys :=
  fem_mom_adv_shipped (el e) tau (gather e rho) (gather e (lm_p s)) (gather_vec e (lm_vL s)) (gather_vec e (lm_GL s)) q zero_sys.
(** the assembled pressure system is solved at node n; b: what boundaries with a given flux add to the right-hand side there *)
Definition solved_at (es : list elem) (n : nat) (b tau : R) (rho p v G dp : fld) : Prop :=
  at_node es n (fun e a => sumn (f_npe (el e)) (fun c => eL_ (continuity_kernel tau rho p v G e) a c * dp (conn e c)))
  = at_node es n (fun e a => eB (continuity_kernel tau rho p v G e) a) + b.
