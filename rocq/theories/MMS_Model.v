(** Manufactured and exact solutions: the analytic fields and source terms of src/user_functions.
    GENERATED by tools/mms.py, which transcribes the C++ expressions token by token (every definition
    cites its file and line); only the record of constants and the names are added.

    Simplifications: doubles are reals, acos(-1) and M_PI are PI, pow(e,-2) is 1/(e*e) and pow(e,2) is
    e^2; each function is the value at one point (the C++ loops over points and advances the pointers). *)
From Coq Require Import Reals.
Open Scope R_scope.

(** value at time t and point (x,y,z) *)
Definition field := R -> R -> R -> R -> R.
Definition inv2 (e : R) : R := / (e * e).
(** the constants the classes hold as members (one record for all of them) *)
Record par := mkPar { unot_ : R; vnot_ : R; wnot_ : R; pnot_ : R; znot_ : R; hnot_ : R; a_ : R; amf_ : R; ah_ : R; k_ : R; visc_ : R; rhoP_ : R; rhoS_
   : R; Sc_ : R; Pr_ : R; Pref_ : R; MW_ : R; R_ : R; Tref_ : R; Cp_ : R; pi_ : R; twoThirds_ : R; rhoRef_ : R; gx_ : R; gy_ : R; gz_ : R; uNot_ : R;
   vNot_ : R; pNot_ : R; rhoNot_ : R; L_ : R; Re_ : R; kx_ : R; ky_ : R }.

(* ---------------------------------------------------------------- variable density, isothermal *)
(** VariableDensityVelocityAuxFunction.C line 50: fieldPtr[0..2]. *)
Definition vd_velocity (q : par) (i : nat) : field := fun t x y z => match i with
| 0%nat => (- (unot_ q)) * (cos ((a_ q) * (pi_ q) * x)) * (sin ((a_ q) * (pi_ q) * y)) * (sin ((a_ q) * (pi_ q) * z))
| 1%nat => (vnot_ q) * (sin ((a_ q) * (pi_ q) * x)) * (cos ((a_ q) * (pi_ q) * y)) * (sin ((a_ q) * (pi_ q) * z))
| 2%nat => (- (wnot_ q)) * (sin ((a_ q) * (pi_ q) * x)) * (sin ((a_ q) * (pi_ q) * y)) * (cos ((a_ q) * (pi_ q) * z))
  | _ => 0 end.
(** constructor constants of VariableDensityVelocityAuxFunction.C; fields it does not have are 0 *)
Definition vd_velocity_par : par := mkPar 1 1 1 0 0 0 20 0 0 0 0 0 0 0 0 0 0 0 0 0 PI 0 0 0 0 0 0 0 0 0 0 0 0 0.
(** VariableDensityPressureAuxFunction.C line 46: fieldPtr[0]. *)
Definition vd_pressure (q : par) : field := fun t x y z => (- (pnot_ q)) / 4 * ((cos (2 * (a_ q) * (pi_ q) * x)) + (cos (2 * (a_ q) * (pi_ q) * y)) + (cos (2 * (a_ q) *
   (pi_ q) * z))).
(** constructor constants of VariableDensityPressureAuxFunction.C; fields it does not have are 0 *)
Definition vd_pressure_par : par := mkPar 0 0 0 1 0 0 20 0 0 0 0 0 0 0 0 0 0 0 0 0 PI 0 0 0 0 0 0 0 0 0 0 0 0 0.
(** VariableDensityMixFracAuxFunction.C line 46: fieldPtr[0]. *)
Definition vd_mixfrac (q : par) : field := fun t x y z => (znot_ q) * (cos ((amf_ q) * (pi_ q) * x)) * (cos ((amf_ q) * (pi_ q) * y)) * (cos ((amf_ q) * (pi_ q) * z)).
(** constructor constants of VariableDensityMixFracAuxFunction.C; fields it does not have are 0 *)
Definition vd_mixfrac_par : par := mkPar 0 0 0 0 1 0 0 10 0 0 0 0 0 0 0 0 0 0 0 0 PI 0 0 0 0 0 0 0 0 0 0 0 0 0.
(** VariableDensityContinuitySrcNodeSuppAlg.C line 79: src. *)
Definition vd_continuity_node_src (q : par) : field := fun t x y z => 1 * (inv2 ((znot_ q) * (cos ((amf_ q) * (pi_ q) * x)) * (cos ((amf_ q) * (pi_ q) * y)) * (cos ((amf_
   q) * (pi_ q) * z)) / (rhoP_ q) + (1 - (znot_ q) * (cos ((amf_ q) * (pi_ q) * x)) * (cos ((amf_ q) * (pi_ q) * y)) * (cos ((amf_ q) * (pi_ q) * z))) / (rhoS_ q))) *
   (unot_ q) * (cos ((a_ q) * (pi_ q) * x)) * (sin ((a_ q) * (pi_ q) * y)) * (sin ((a_ q) * (pi_ q) * z)) * ((- (znot_ q)) * (sin ((amf_ q) * (pi_ q) * x)) * (amf_ q) *
   (pi_ q) * (cos ((amf_ q) * (pi_ q) * y)) * (cos ((amf_ q) * (pi_ q) * z)) / (rhoP_ q) + (znot_ q) * (sin ((amf_ q) * (pi_ q) * x)) * (amf_ q) * (pi_ q) * (cos ((amf_ q)
   * (pi_ q) * y)) * (cos ((amf_ q) * (pi_ q) * z)) / (rhoS_ q)) + 1 / ((znot_ q) * (cos ((amf_ q) * (pi_ q) * x)) * (cos ((amf_ q) * (pi_ q) * y)) * (cos ((amf_ q) * (pi_
   q) * z)) / (rhoP_ q) + (1 - (znot_ q) * (cos ((amf_ q) * (pi_ q) * x)) * (cos ((amf_ q) * (pi_ q) * y)) * (cos ((amf_ q) * (pi_ q) * z))) / (rhoS_ q)) * (unot_ q) *
   (sin ((a_ q) * (pi_ q) * x)) * (a_ q) * (pi_ q) * (sin ((a_ q) * (pi_ q) * y)) * (sin ((a_ q) * (pi_ q) * z)) - 1 * (inv2 ((znot_ q) * (cos ((amf_ q) * (pi_ q) * x)) *
   (cos ((amf_ q) * (pi_ q) * y)) * (cos ((amf_ q) * (pi_ q) * z)) / (rhoP_ q) + (1 - (znot_ q) * (cos ((amf_ q) * (pi_ q) * x)) * (cos ((amf_ q) * (pi_ q) * y)) * (cos
   ((amf_ q) * (pi_ q) * z))) / (rhoS_ q))) * (vnot_ q) * (sin ((a_ q) * (pi_ q) * x)) * (cos ((a_ q) * (pi_ q) * y)) * (sin ((a_ q) * (pi_ q) * z)) * ((- (znot_ q)) *
   (cos ((amf_ q) * (pi_ q) * x)) * (sin ((amf_ q) * (pi_ q) * y)) * (amf_ q) * (pi_ q) * (cos ((amf_ q) * (pi_ q) * z)) / (rhoP_ q) + (znot_ q) * (cos ((amf_ q) * (pi_ q)
   * x)) * (sin ((amf_ q) * (pi_ q) * y)) * (amf_ q) * (pi_ q) * (cos ((amf_ q) * (pi_ q) * z)) / (rhoS_ q)) - 1 / ((znot_ q) * (cos ((amf_ q) * (pi_ q) * x)) * (cos
   ((amf_ q) * (pi_ q) * y)) * (cos ((amf_ q) * (pi_ q) * z)) / (rhoP_ q) + (1 - (znot_ q) * (cos ((amf_ q) * (pi_ q) * x)) * (cos ((amf_ q) * (pi_ q) * y)) * (cos ((amf_
   q) * (pi_ q) * z))) / (rhoS_ q)) * (vnot_ q) * (sin ((a_ q) * (pi_ q) * x)) * (sin ((a_ q) * (pi_ q) * y)) * (a_ q) * (pi_ q) * (sin ((a_ q) * (pi_ q) * z)) + 1 * (inv2
   ((znot_ q) * (cos ((amf_ q) * (pi_ q) * x)) * (cos ((amf_ q) * (pi_ q) * y)) * (cos ((amf_ q) * (pi_ q) * z)) / (rhoP_ q) + (1 - (znot_ q) * (cos ((amf_ q) * (pi_ q) *
   x)) * (cos ((amf_ q) * (pi_ q) * y)) * (cos ((amf_ q) * (pi_ q) * z))) / (rhoS_ q))) * (wnot_ q) * (sin ((a_ q) * (pi_ q) * x)) * (sin ((a_ q) * (pi_ q) * y)) * (cos
   ((a_ q) * (pi_ q) * z)) * ((- (znot_ q)) * (cos ((amf_ q) * (pi_ q) * x)) * (cos ((amf_ q) * (pi_ q) * y)) * (sin ((amf_ q) * (pi_ q) * z)) * (amf_ q) * (pi_ q) /
   (rhoP_ q) + (znot_ q) * (cos ((amf_ q) * (pi_ q) * x)) * (cos ((amf_ q) * (pi_ q) * y)) * (sin ((amf_ q) * (pi_ q) * z)) * (amf_ q) * (pi_ q) / (rhoS_ q)) + 1 / ((znot_
   q) * (cos ((amf_ q) * (pi_ q) * x)) * (cos ((amf_ q) * (pi_ q) * y)) * (cos ((amf_ q) * (pi_ q) * z)) / (rhoP_ q) + (1 - (znot_ q) * (cos ((amf_ q) * (pi_ q) * x)) *
   (cos ((amf_ q) * (pi_ q) * y)) * (cos ((amf_ q) * (pi_ q) * z))) / (rhoS_ q)) * (wnot_ q) * (sin ((a_ q) * (pi_ q) * x)) * (sin ((a_ q) * (pi_ q) * y)) * (sin ((a_ q) *
   (pi_ q) * z)) * (a_ q) * (pi_ q).
(** constructor constants of VariableDensityContinuitySrcNodeSuppAlg.C; fields it does not have are 0 *)
Definition vd_continuity_node_par : par := mkPar 1 1 1 0 1 0 20 10 0 0 0 (1 / 10) 1 0 0 0 0 0 0 0 PI 0 0 0 0 0 0 0 0 0 0 0 0 0.
(** VariableDensityContinuitySrcElemSuppAlg.C line 145: src. *)
Definition vd_continuity_elem_src (q : par) : field := fun t x y z => 1 * (inv2 ((znot_ q) * (cos ((amf_ q) * (pi_ q) * x)) * (cos ((amf_ q) * (pi_ q) * y)) * (cos ((amf_
   q) * (pi_ q) * z)) / (rhoP_ q) + (1 - (znot_ q) * (cos ((amf_ q) * (pi_ q) * x)) * (cos ((amf_ q) * (pi_ q) * y)) * (cos ((amf_ q) * (pi_ q) * z))) / (rhoS_ q))) *
   (unot_ q) * (cos ((a_ q) * (pi_ q) * x)) * (sin ((a_ q) * (pi_ q) * y)) * (sin ((a_ q) * (pi_ q) * z)) * ((- (znot_ q)) * (sin ((amf_ q) * (pi_ q) * x)) * (amf_ q) *
   (pi_ q) * (cos ((amf_ q) * (pi_ q) * y)) * (cos ((amf_ q) * (pi_ q) * z)) / (rhoP_ q) + (znot_ q) * (sin ((amf_ q) * (pi_ q) * x)) * (amf_ q) * (pi_ q) * (cos ((amf_ q)
   * (pi_ q) * y)) * (cos ((amf_ q) * (pi_ q) * z)) / (rhoS_ q)) + 1 / ((znot_ q) * (cos ((amf_ q) * (pi_ q) * x)) * (cos ((amf_ q) * (pi_ q) * y)) * (cos ((amf_ q) * (pi_
   q) * z)) / (rhoP_ q) + (1 - (znot_ q) * (cos ((amf_ q) * (pi_ q) * x)) * (cos ((amf_ q) * (pi_ q) * y)) * (cos ((amf_ q) * (pi_ q) * z))) / (rhoS_ q)) * (unot_ q) *
   (sin ((a_ q) * (pi_ q) * x)) * (a_ q) * (pi_ q) * (sin ((a_ q) * (pi_ q) * y)) * (sin ((a_ q) * (pi_ q) * z)) - 1 * (inv2 ((znot_ q) * (cos ((amf_ q) * (pi_ q) * x)) *
   (cos ((amf_ q) * (pi_ q) * y)) * (cos ((amf_ q) * (pi_ q) * z)) / (rhoP_ q) + (1 - (znot_ q) * (cos ((amf_ q) * (pi_ q) * x)) * (cos ((amf_ q) * (pi_ q) * y)) * (cos
   ((amf_ q) * (pi_ q) * z))) / (rhoS_ q))) * (vnot_ q) * (sin ((a_ q) * (pi_ q) * x)) * (cos ((a_ q) * (pi_ q) * y)) * (sin ((a_ q) * (pi_ q) * z)) * ((- (znot_ q)) *
   (cos ((amf_ q) * (pi_ q) * x)) * (sin ((amf_ q) * (pi_ q) * y)) * (amf_ q) * (pi_ q) * (cos ((amf_ q) * (pi_ q) * z)) / (rhoP_ q) + (znot_ q) * (cos ((amf_ q) * (pi_ q)
   * x)) * (sin ((amf_ q) * (pi_ q) * y)) * (amf_ q) * (pi_ q) * (cos ((amf_ q) * (pi_ q) * z)) / (rhoS_ q)) - 1 / ((znot_ q) * (cos ((amf_ q) * (pi_ q) * x)) * (cos
   ((amf_ q) * (pi_ q) * y)) * (cos ((amf_ q) * (pi_ q) * z)) / (rhoP_ q) + (1 - (znot_ q) * (cos ((amf_ q) * (pi_ q) * x)) * (cos ((amf_ q) * (pi_ q) * y)) * (cos ((amf_
   q) * (pi_ q) * z))) / (rhoS_ q)) * (vnot_ q) * (sin ((a_ q) * (pi_ q) * x)) * (sin ((a_ q) * (pi_ q) * y)) * (a_ q) * (pi_ q) * (sin ((a_ q) * (pi_ q) * z)) + 1 * (inv2
   ((znot_ q) * (cos ((amf_ q) * (pi_ q) * x)) * (cos ((amf_ q) * (pi_ q) * y)) * (cos ((amf_ q) * (pi_ q) * z)) / (rhoP_ q) + (1 - (znot_ q) * (cos ((amf_ q) * (pi_ q) *
   x)) * (cos ((amf_ q) * (pi_ q) * y)) * (cos ((amf_ q) * (pi_ q) * z))) / (rhoS_ q))) * (wnot_ q) * (sin ((a_ q) * (pi_ q) * x)) * (sin ((a_ q) * (pi_ q) * y)) * (cos
   ((a_ q) * (pi_ q) * z)) * ((- (znot_ q)) * (cos ((amf_ q) * (pi_ q) * x)) * (cos ((amf_ q) * (pi_ q) * y)) * (sin ((amf_ q) * (pi_ q) * z)) * (amf_ q) * (pi_ q) /
   (rhoP_ q) + (znot_ q) * (cos ((amf_ q) * (pi_ q) * x)) * (cos ((amf_ q) * (pi_ q) * y)) * (sin ((amf_ q) * (pi_ q) * z)) * (amf_ q) * (pi_ q) / (rhoS_ q)) + 1 / ((znot_
   q) * (cos ((amf_ q) * (pi_ q) * x)) * (cos ((amf_ q) * (pi_ q) * y)) * (cos ((amf_ q) * (pi_ q) * z)) / (rhoP_ q) + (1 - (znot_ q) * (cos ((amf_ q) * (pi_ q) * x)) *
   (cos ((amf_ q) * (pi_ q) * y)) * (cos ((amf_ q) * (pi_ q) * z))) / (rhoS_ q)) * (wnot_ q) * (sin ((a_ q) * (pi_ q) * x)) * (sin ((a_ q) * (pi_ q) * y)) * (sin ((a_ q) *
   (pi_ q) * z)) * (a_ q) * (pi_ q).
(** constructor constants of VariableDensityContinuitySrcElemSuppAlg.C; fields it does not have are 0 *)
Definition vd_continuity_elem_par : par := mkPar 1 1 1 0 1 0 20 10 0 0 0 (1 / 10) 1 0 0 0 0 0 0 0 PI 0 0 0 0 0 0 0 0 0 0 0 0 0.
(** VariableDensityMixFracSrcNodeSuppAlg.C line 81: src. *)
Definition vd_mixfrac_node_src (q : par) : field := fun t x y z => 1 * (inv2 ((znot_ q) * (cos ((amf_ q) * (pi_ q) * x)) * (cos ((amf_ q) * (pi_ q) * y)) * (cos ((amf_ q)
   * (pi_ q) * z)) / (rhoP_ q) + (1 - (znot_ q) * (cos ((amf_ q) * (pi_ q) * x)) * (cos ((amf_ q) * (pi_ q) * y)) * (cos ((amf_ q) * (pi_ q) * z))) / (rhoS_ q))) * (unot_
   q) * (cos ((a_ q) * (pi_ q) * x)) * (sin ((a_ q) * (pi_ q) * y)) * (sin ((a_ q) * (pi_ q) * z)) * (znot_ q) * (cos ((amf_ q) * (pi_ q) * x)) * (cos ((amf_ q) * (pi_ q)
   * y)) * (cos ((amf_ q) * (pi_ q) * z)) * ((- (znot_ q)) * (sin ((amf_ q) * (pi_ q) * x)) * (amf_ q) * (pi_ q) * (cos ((amf_ q) * (pi_ q) * y)) * (cos ((amf_ q) * (pi_
   q) * z)) / (rhoP_ q) + (znot_ q) * (sin ((amf_ q) * (pi_ q) * x)) * (amf_ q) * (pi_ q) * (cos ((amf_ q) * (pi_ q) * y)) * (cos ((amf_ q) * (pi_ q) * z)) / (rhoS_ q)) +
   1 / ((znot_ q) * (cos ((amf_ q) * (pi_ q) * x)) * (cos ((amf_ q) * (pi_ q) * y)) * (cos ((amf_ q) * (pi_ q) * z)) / (rhoP_ q) + (1 - (znot_ q) * (cos ((amf_ q) * (pi_
   q) * x)) * (cos ((amf_ q) * (pi_ q) * y)) * (cos ((amf_ q) * (pi_ q) * z))) / (rhoS_ q)) * (unot_ q) * (sin ((a_ q) * (pi_ q) * x)) * (a_ q) * (pi_ q) * (sin ((a_ q) *
   (pi_ q) * y)) * (sin ((a_ q) * (pi_ q) * z)) * (znot_ q) * (cos ((amf_ q) * (pi_ q) * x)) * (cos ((amf_ q) * (pi_ q) * y)) * (cos ((amf_ q) * (pi_ q) * z)) + 1 /
   ((znot_ q) * (cos ((amf_ q) * (pi_ q) * x)) * (cos ((amf_ q) * (pi_ q) * y)) * (cos ((amf_ q) * (pi_ q) * z)) / (rhoP_ q) + (1 - (znot_ q) * (cos ((amf_ q) * (pi_ q) *
   x)) * (cos ((amf_ q) * (pi_ q) * y)) * (cos ((amf_ q) * (pi_ q) * z))) / (rhoS_ q)) * (unot_ q) * (cos ((a_ q) * (pi_ q) * x)) * (sin ((a_ q) * (pi_ q) * y)) * (sin
   ((a_ q) * (pi_ q) * z)) * (znot_ q) * (sin ((amf_ q) * (pi_ q) * x)) * (amf_ q) * (pi_ q) * (cos ((amf_ q) * (pi_ q) * y)) * (cos ((amf_ q) * (pi_ q) * z)) - 1 * (inv2
   ((znot_ q) * (cos ((amf_ q) * (pi_ q) * x)) * (cos ((amf_ q) * (pi_ q) * y)) * (cos ((amf_ q) * (pi_ q) * z)) / (rhoP_ q) + (1 - (znot_ q) * (cos ((amf_ q) * (pi_ q) *
   x)) * (cos ((amf_ q) * (pi_ q) * y)) * (cos ((amf_ q) * (pi_ q) * z))) / (rhoS_ q))) * (vnot_ q) * (sin ((a_ q) * (pi_ q) * x)) * (cos ((a_ q) * (pi_ q) * y)) * (sin
   ((a_ q) * (pi_ q) * z)) * (znot_ q) * (cos ((amf_ q) * (pi_ q) * x)) * (cos ((amf_ q) * (pi_ q) * y)) * (cos ((amf_ q) * (pi_ q) * z)) * ((- (znot_ q)) * (cos ((amf_ q)
   * (pi_ q) * x)) * (sin ((amf_ q) * (pi_ q) * y)) * (amf_ q) * (pi_ q) * (cos ((amf_ q) * (pi_ q) * z)) / (rhoP_ q) + (znot_ q) * (cos ((amf_ q) * (pi_ q) * x)) * (sin
   ((amf_ q) * (pi_ q) * y)) * (amf_ q) * (pi_ q) * (cos ((amf_ q) * (pi_ q) * z)) / (rhoS_ q)) - 1 / ((znot_ q) * (cos ((amf_ q) * (pi_ q) * x)) * (cos ((amf_ q) * (pi_
   q) * y)) * (cos ((amf_ q) * (pi_ q) * z)) / (rhoP_ q) + (1 - (znot_ q) * (cos ((amf_ q) * (pi_ q) * x)) * (cos ((amf_ q) * (pi_ q) * y)) * (cos ((amf_ q) * (pi_ q) *
   z))) / (rhoS_ q)) * (vnot_ q) * (sin ((a_ q) * (pi_ q) * x)) * (sin ((a_ q) * (pi_ q) * y)) * (a_ q) * (pi_ q) * (sin ((a_ q) * (pi_ q) * z)) * (znot_ q) * (cos ((amf_
   q) * (pi_ q) * x)) * (cos ((amf_ q) * (pi_ q) * y)) * (cos ((amf_ q) * (pi_ q) * z)) - 1 / ((znot_ q) * (cos ((amf_ q) * (pi_ q) * x)) * (cos ((amf_ q) * (pi_ q) * y))
   * (cos ((amf_ q) * (pi_ q) * z)) / (rhoP_ q) + (1 - (znot_ q) * (cos ((amf_ q) * (pi_ q) * x)) * (cos ((amf_ q) * (pi_ q) * y)) * (cos ((amf_ q) * (pi_ q) * z))) /
   (rhoS_ q)) * (vnot_ q) * (sin ((a_ q) * (pi_ q) * x)) * (cos ((a_ q) * (pi_ q) * y)) * (sin ((a_ q) * (pi_ q) * z)) * (znot_ q) * (cos ((amf_ q) * (pi_ q) * x)) * (sin
   ((amf_ q) * (pi_ q) * y)) * (amf_ q) * (pi_ q) * (cos ((amf_ q) * (pi_ q) * z)) + 1 * (inv2 ((znot_ q) * (cos ((amf_ q) * (pi_ q) * x)) * (cos ((amf_ q) * (pi_ q) * y))
   * (cos ((amf_ q) * (pi_ q) * z)) / (rhoP_ q) + (1 - (znot_ q) * (cos ((amf_ q) * (pi_ q) * x)) * (cos ((amf_ q) * (pi_ q) * y)) * (cos ((amf_ q) * (pi_ q) * z))) /
   (rhoS_ q))) * (wnot_ q) * (sin ((a_ q) * (pi_ q) * x)) * (sin ((a_ q) * (pi_ q) * y)) * (cos ((a_ q) * (pi_ q) * z)) * (znot_ q) * (cos ((amf_ q) * (pi_ q) * x)) * (cos
   ((amf_ q) * (pi_ q) * y)) * (cos ((amf_ q) * (pi_ q) * z)) * ((- (znot_ q)) * (cos ((amf_ q) * (pi_ q) * x)) * (cos ((amf_ q) * (pi_ q) * y)) * (sin ((amf_ q) * (pi_ q)
   * z)) * (amf_ q) * (pi_ q) / (rhoP_ q) + (znot_ q) * (cos ((amf_ q) * (pi_ q) * x)) * (cos ((amf_ q) * (pi_ q) * y)) * (sin ((amf_ q) * (pi_ q) * z)) * (amf_ q) * (pi_
   q) / (rhoS_ q)) + 1 / ((znot_ q) * (cos ((amf_ q) * (pi_ q) * x)) * (cos ((amf_ q) * (pi_ q) * y)) * (cos ((amf_ q) * (pi_ q) * z)) / (rhoP_ q) + (1 - (znot_ q) * (cos
   ((amf_ q) * (pi_ q) * x)) * (cos ((amf_ q) * (pi_ q) * y)) * (cos ((amf_ q) * (pi_ q) * z))) / (rhoS_ q)) * (wnot_ q) * (sin ((a_ q) * (pi_ q) * x)) * (sin ((a_ q) *
   (pi_ q) * y)) * (sin ((a_ q) * (pi_ q) * z)) * (a_ q) * (pi_ q) * (znot_ q) * (cos ((amf_ q) * (pi_ q) * x)) * (cos ((amf_ q) * (pi_ q) * y)) * (cos ((amf_ q) * (pi_ q)
   * z)) + 1 / ((znot_ q) * (cos ((amf_ q) * (pi_ q) * x)) * (cos ((amf_ q) * (pi_ q) * y)) * (cos ((amf_ q) * (pi_ q) * z)) / (rhoP_ q) + (1 - (znot_ q) * (cos ((amf_ q)
   * (pi_ q) * x)) * (cos ((amf_ q) * (pi_ q) * y)) * (cos ((amf_ q) * (pi_ q) * z))) / (rhoS_ q)) * (wnot_ q) * (sin ((a_ q) * (pi_ q) * x)) * (sin ((a_ q) * (pi_ q) *
   y)) * (cos ((a_ q) * (pi_ q) * z)) * (znot_ q) * (cos ((amf_ q) * (pi_ q) * x)) * (cos ((amf_ q) * (pi_ q) * y)) * (sin ((amf_ q) * (pi_ q) * z)) * (amf_ q) * (pi_ q) +
   3 * (visc_ q) / (Sc_ q) * (znot_ q) * (cos ((amf_ q) * (pi_ q) * x)) * (amf_ q) * (amf_ q) * (pi_ q) * (pi_ q) * (cos ((amf_ q) * (pi_ q) * y)) * (cos ((amf_ q) * (pi_
   q) * z)).
(** constructor constants of VariableDensityMixFracSrcNodeSuppAlg.C; fields it does not have are 0 *)
Definition vd_mixfrac_node_par : par := mkPar 1 1 1 1 1 0 20 10 0 0 (1 / 1000) (1 / 10) 1 (4 / 5) 0 0 0 0 0 0 PI 0 0 0 0 0 0 0 0 0 0 0 0 0.
(** VariableDensityMixFracSrcElemSuppAlg.C line 148: src. *)
Definition vd_mixfrac_elem_src (q : par) : field := fun t x y z => 1 * (inv2 ((znot_ q) * (cos ((amf_ q) * (pi_ q) * x)) * (cos ((amf_ q) * (pi_ q) * y)) * (cos ((amf_ q)
   * (pi_ q) * z)) / (rhoP_ q) + (1 - (znot_ q) * (cos ((amf_ q) * (pi_ q) * x)) * (cos ((amf_ q) * (pi_ q) * y)) * (cos ((amf_ q) * (pi_ q) * z))) / (rhoS_ q))) * (unot_
   q) * (cos ((a_ q) * (pi_ q) * x)) * (sin ((a_ q) * (pi_ q) * y)) * (sin ((a_ q) * (pi_ q) * z)) * (znot_ q) * (cos ((amf_ q) * (pi_ q) * x)) * (cos ((amf_ q) * (pi_ q)
   * y)) * (cos ((amf_ q) * (pi_ q) * z)) * ((- (znot_ q)) * (sin ((amf_ q) * (pi_ q) * x)) * (amf_ q) * (pi_ q) * (cos ((amf_ q) * (pi_ q) * y)) * (cos ((amf_ q) * (pi_
   q) * z)) / (rhoP_ q) + (znot_ q) * (sin ((amf_ q) * (pi_ q) * x)) * (amf_ q) * (pi_ q) * (cos ((amf_ q) * (pi_ q) * y)) * (cos ((amf_ q) * (pi_ q) * z)) / (rhoS_ q)) +
   1 / ((znot_ q) * (cos ((amf_ q) * (pi_ q) * x)) * (cos ((amf_ q) * (pi_ q) * y)) * (cos ((amf_ q) * (pi_ q) * z)) / (rhoP_ q) + (1 - (znot_ q) * (cos ((amf_ q) * (pi_
   q) * x)) * (cos ((amf_ q) * (pi_ q) * y)) * (cos ((amf_ q) * (pi_ q) * z))) / (rhoS_ q)) * (unot_ q) * (sin ((a_ q) * (pi_ q) * x)) * (a_ q) * (pi_ q) * (sin ((a_ q) *
   (pi_ q) * y)) * (sin ((a_ q) * (pi_ q) * z)) * (znot_ q) * (cos ((amf_ q) * (pi_ q) * x)) * (cos ((amf_ q) * (pi_ q) * y)) * (cos ((amf_ q) * (pi_ q) * z)) + 1 /
   ((znot_ q) * (cos ((amf_ q) * (pi_ q) * x)) * (cos ((amf_ q) * (pi_ q) * y)) * (cos ((amf_ q) * (pi_ q) * z)) / (rhoP_ q) + (1 - (znot_ q) * (cos ((amf_ q) * (pi_ q) *
   x)) * (cos ((amf_ q) * (pi_ q) * y)) * (cos ((amf_ q) * (pi_ q) * z))) / (rhoS_ q)) * (unot_ q) * (cos ((a_ q) * (pi_ q) * x)) * (sin ((a_ q) * (pi_ q) * y)) * (sin
   ((a_ q) * (pi_ q) * z)) * (znot_ q) * (sin ((amf_ q) * (pi_ q) * x)) * (amf_ q) * (pi_ q) * (cos ((amf_ q) * (pi_ q) * y)) * (cos ((amf_ q) * (pi_ q) * z)) - 1 * (inv2
   ((znot_ q) * (cos ((amf_ q) * (pi_ q) * x)) * (cos ((amf_ q) * (pi_ q) * y)) * (cos ((amf_ q) * (pi_ q) * z)) / (rhoP_ q) + (1 - (znot_ q) * (cos ((amf_ q) * (pi_ q) *
   x)) * (cos ((amf_ q) * (pi_ q) * y)) * (cos ((amf_ q) * (pi_ q) * z))) / (rhoS_ q))) * (vnot_ q) * (sin ((a_ q) * (pi_ q) * x)) * (cos ((a_ q) * (pi_ q) * y)) * (sin
   ((a_ q) * (pi_ q) * z)) * (znot_ q) * (cos ((amf_ q) * (pi_ q) * x)) * (cos ((amf_ q) * (pi_ q) * y)) * (cos ((amf_ q) * (pi_ q) * z)) * ((- (znot_ q)) * (cos ((amf_ q)
   * (pi_ q) * x)) * (sin ((amf_ q) * (pi_ q) * y)) * (amf_ q) * (pi_ q) * (cos ((amf_ q) * (pi_ q) * z)) / (rhoP_ q) + (znot_ q) * (cos ((amf_ q) * (pi_ q) * x)) * (sin
   ((amf_ q) * (pi_ q) * y)) * (amf_ q) * (pi_ q) * (cos ((amf_ q) * (pi_ q) * z)) / (rhoS_ q)) - 1 / ((znot_ q) * (cos ((amf_ q) * (pi_ q) * x)) * (cos ((amf_ q) * (pi_
   q) * y)) * (cos ((amf_ q) * (pi_ q) * z)) / (rhoP_ q) + (1 - (znot_ q) * (cos ((amf_ q) * (pi_ q) * x)) * (cos ((amf_ q) * (pi_ q) * y)) * (cos ((amf_ q) * (pi_ q) *
   z))) / (rhoS_ q)) * (vnot_ q) * (sin ((a_ q) * (pi_ q) * x)) * (sin ((a_ q) * (pi_ q) * y)) * (a_ q) * (pi_ q) * (sin ((a_ q) * (pi_ q) * z)) * (znot_ q) * (cos ((amf_
   q) * (pi_ q) * x)) * (cos ((amf_ q) * (pi_ q) * y)) * (cos ((amf_ q) * (pi_ q) * z)) - 1 / ((znot_ q) * (cos ((amf_ q) * (pi_ q) * x)) * (cos ((amf_ q) * (pi_ q) * y))
   * (cos ((amf_ q) * (pi_ q) * z)) / (rhoP_ q) + (1 - (znot_ q) * (cos ((amf_ q) * (pi_ q) * x)) * (cos ((amf_ q) * (pi_ q) * y)) * (cos ((amf_ q) * (pi_ q) * z))) /
   (rhoS_ q)) * (vnot_ q) * (sin ((a_ q) * (pi_ q) * x)) * (cos ((a_ q) * (pi_ q) * y)) * (sin ((a_ q) * (pi_ q) * z)) * (znot_ q) * (cos ((amf_ q) * (pi_ q) * x)) * (sin
   ((amf_ q) * (pi_ q) * y)) * (amf_ q) * (pi_ q) * (cos ((amf_ q) * (pi_ q) * z)) + 1 * (inv2 ((znot_ q) * (cos ((amf_ q) * (pi_ q) * x)) * (cos ((amf_ q) * (pi_ q) * y))
   * (cos ((amf_ q) * (pi_ q) * z)) / (rhoP_ q) + (1 - (znot_ q) * (cos ((amf_ q) * (pi_ q) * x)) * (cos ((amf_ q) * (pi_ q) * y)) * (cos ((amf_ q) * (pi_ q) * z))) /
   (rhoS_ q))) * (wnot_ q) * (sin ((a_ q) * (pi_ q) * x)) * (sin ((a_ q) * (pi_ q) * y)) * (cos ((a_ q) * (pi_ q) * z)) * (znot_ q) * (cos ((amf_ q) * (pi_ q) * x)) * (cos
   ((amf_ q) * (pi_ q) * y)) * (cos ((amf_ q) * (pi_ q) * z)) * ((- (znot_ q)) * (cos ((amf_ q) * (pi_ q) * x)) * (cos ((amf_ q) * (pi_ q) * y)) * (sin ((amf_ q) * (pi_ q)
   * z)) * (amf_ q) * (pi_ q) / (rhoP_ q) + (znot_ q) * (cos ((amf_ q) * (pi_ q) * x)) * (cos ((amf_ q) * (pi_ q) * y)) * (sin ((amf_ q) * (pi_ q) * z)) * (amf_ q) * (pi_
   q) / (rhoS_ q)) + 1 / ((znot_ q) * (cos ((amf_ q) * (pi_ q) * x)) * (cos ((amf_ q) * (pi_ q) * y)) * (cos ((amf_ q) * (pi_ q) * z)) / (rhoP_ q) + (1 - (znot_ q) * (cos
   ((amf_ q) * (pi_ q) * x)) * (cos ((amf_ q) * (pi_ q) * y)) * (cos ((amf_ q) * (pi_ q) * z))) / (rhoS_ q)) * (wnot_ q) * (sin ((a_ q) * (pi_ q) * x)) * (sin ((a_ q) *
   (pi_ q) * y)) * (sin ((a_ q) * (pi_ q) * z)) * (a_ q) * (pi_ q) * (znot_ q) * (cos ((amf_ q) * (pi_ q) * x)) * (cos ((amf_ q) * (pi_ q) * y)) * (cos ((amf_ q) * (pi_ q)
   * z)) + 1 / ((znot_ q) * (cos ((amf_ q) * (pi_ q) * x)) * (cos ((amf_ q) * (pi_ q) * y)) * (cos ((amf_ q) * (pi_ q) * z)) / (rhoP_ q) + (1 - (znot_ q) * (cos ((amf_ q)
   * (pi_ q) * x)) * (cos ((amf_ q) * (pi_ q) * y)) * (cos ((amf_ q) * (pi_ q) * z))) / (rhoS_ q)) * (wnot_ q) * (sin ((a_ q) * (pi_ q) * x)) * (sin ((a_ q) * (pi_ q) *
   y)) * (cos ((a_ q) * (pi_ q) * z)) * (znot_ q) * (cos ((amf_ q) * (pi_ q) * x)) * (cos ((amf_ q) * (pi_ q) * y)) * (sin ((amf_ q) * (pi_ q) * z)) * (amf_ q) * (pi_ q) +
   3 * (visc_ q) / (Sc_ q) * (znot_ q) * (cos ((amf_ q) * (pi_ q) * x)) * (amf_ q) * (amf_ q) * (pi_ q) * (pi_ q) * (cos ((amf_ q) * (pi_ q) * y)) * (cos ((amf_ q) * (pi_
   q) * z)).
(** constructor constants of VariableDensityMixFracSrcElemSuppAlg.C; fields it does not have are 0 *)
Definition vd_mixfrac_elem_par : par := mkPar 1 1 1 1 1 0 20 10 0 0 (1 / 1000) (1 / 10) 1 (4 / 5) 0 0 0 0 0 0 PI 0 0 0 0 0 0 0 0 0 0 0 0 0.
(** VariableDensityMomentumSrcNodeSuppAlg.C line 96: srcXi_[0..2]. *)
Definition vd_momentum_node_src (q : par) (i : nat) : field := fun t x y z => match i with
| 0%nat => (- 1) * (inv2 ((znot_ q) * (cos ((amf_ q) * (pi_ q) * x)) * (cos ((amf_ q) * (pi_ q) * y)) * (cos ((amf_ q) * (pi_ q) * z)) / (rhoP_ q) + (1 - (znot_ q) * (cos
   ((amf_ q) * (pi_ q) * x)) * (cos ((amf_ q) * (pi_ q) * y)) * (cos ((amf_ q) * (pi_ q) * z))) / (rhoS_ q))) * (unot_ q) * (unot_ q) * (((cos ((a_ q) * (pi_ q) * x))) ^
   2) * (((sin ((a_ q) * (pi_ q) * y))) ^ 2) * (((sin ((a_ q) * (pi_ q) * z))) ^ 2) * ((- (znot_ q)) * (sin ((amf_ q) * (pi_ q) * x)) * (amf_ q) * (pi_ q) * (cos ((amf_ q)
   * (pi_ q) * y)) * (cos ((amf_ q) * (pi_ q) * z)) / (rhoP_ q) + (znot_ q) * (sin ((amf_ q) * (pi_ q) * x)) * (amf_ q) * (pi_ q) * (cos ((amf_ q) * (pi_ q) * y)) * (cos
   ((amf_ q) * (pi_ q) * z)) / (rhoS_ q)) - 2 / ((znot_ q) * (cos ((amf_ q) * (pi_ q) * x)) * (cos ((amf_ q) * (pi_ q) * y)) * (cos ((amf_ q) * (pi_ q) * z)) / (rhoP_ q) +
   (1 - (znot_ q) * (cos ((amf_ q) * (pi_ q) * x)) * (cos ((amf_ q) * (pi_ q) * y)) * (cos ((amf_ q) * (pi_ q) * z))) / (rhoS_ q)) * (unot_ q) * (unot_ q) * (cos ((a_ q) *
   (pi_ q) * x)) * (((sin ((a_ q) * (pi_ q) * y))) ^ 2) * (((sin ((a_ q) * (pi_ q) * z))) ^ 2) * (sin ((a_ q) * (pi_ q) * x)) * (a_ q) * (pi_ q) + 1 * (inv2 ((znot_ q) *
   (cos ((amf_ q) * (pi_ q) * x)) * (cos ((amf_ q) * (pi_ q) * y)) * (cos ((amf_ q) * (pi_ q) * z)) / (rhoP_ q) + (1 - (znot_ q) * (cos ((amf_ q) * (pi_ q) * x)) * (cos
   ((amf_ q) * (pi_ q) * y)) * (cos ((amf_ q) * (pi_ q) * z))) / (rhoS_ q))) * (vnot_ q) * (sin ((a_ q) * (pi_ q) * x)) * (cos ((a_ q) * (pi_ q) * y)) * (((sin ((a_ q) *
   (pi_ q) * z))) ^ 2) * (unot_ q) * (cos ((a_ q) * (pi_ q) * x)) * (sin ((a_ q) * (pi_ q) * y)) * ((- (znot_ q)) * (cos ((amf_ q) * (pi_ q) * x)) * (sin ((amf_ q) * (pi_
   q) * y)) * (amf_ q) * (pi_ q) * (cos ((amf_ q) * (pi_ q) * z)) / (rhoP_ q) + (znot_ q) * (cos ((amf_ q) * (pi_ q) * x)) * (sin ((amf_ q) * (pi_ q) * y)) * (amf_ q) *
   (pi_ q) * (cos ((amf_ q) * (pi_ q) * z)) / (rhoS_ q)) + 1 / ((znot_ q) * (cos ((amf_ q) * (pi_ q) * x)) * (cos ((amf_ q) * (pi_ q) * y)) * (cos ((amf_ q) * (pi_ q) *
   z)) / (rhoP_ q) + (1 - (znot_ q) * (cos ((amf_ q) * (pi_ q) * x)) * (cos ((amf_ q) * (pi_ q) * y)) * (cos ((amf_ q) * (pi_ q) * z))) / (rhoS_ q)) * (vnot_ q) * (sin
   ((a_ q) * (pi_ q) * x)) * (((sin ((a_ q) * (pi_ q) * y))) ^ 2) * (a_ q) * (pi_ q) * (((sin ((a_ q) * (pi_ q) * z))) ^ 2) * (unot_ q) * (cos ((a_ q) * (pi_ q) * x)) - 1
   / ((znot_ q) * (cos ((amf_ q) * (pi_ q) * x)) * (cos ((amf_ q) * (pi_ q) * y)) * (cos ((amf_ q) * (pi_ q) * z)) / (rhoP_ q) + (1 - (znot_ q) * (cos ((amf_ q) * (pi_ q)
   * x)) * (cos ((amf_ q) * (pi_ q) * y)) * (cos ((amf_ q) * (pi_ q) * z))) / (rhoS_ q)) * (vnot_ q) * (sin ((a_ q) * (pi_ q) * x)) * (((cos ((a_ q) * (pi_ q) * y))) ^ 2)
   * (((sin ((a_ q) * (pi_ q) * z))) ^ 2) * (unot_ q) * (cos ((a_ q) * (pi_ q) * x)) * (a_ q) * (pi_ q) - 1 * (inv2 ((znot_ q) * (cos ((amf_ q) * (pi_ q) * x)) * (cos
   ((amf_ q) * (pi_ q) * y)) * (cos ((amf_ q) * (pi_ q) * z)) / (rhoP_ q) + (1 - (znot_ q) * (cos ((amf_ q) * (pi_ q) * x)) * (cos ((amf_ q) * (pi_ q) * y)) * (cos ((amf_
   q) * (pi_ q) * z))) / (rhoS_ q))) * (wnot_ q) * (sin ((a_ q) * (pi_ q) * x)) * (((sin ((a_ q) * (pi_ q) * y))) ^ 2) * (cos ((a_ q) * (pi_ q) * z)) * (unot_ q) * (cos
   ((a_ q) * (pi_ q) * x)) * (sin ((a_ q) * (pi_ q) * z)) * ((- (znot_ q)) * (cos ((amf_ q) * (pi_ q) * x)) * (cos ((amf_ q) * (pi_ q) * y)) * (sin ((amf_ q) * (pi_ q) *
   z)) * (amf_ q) * (pi_ q) / (rhoP_ q) + (znot_ q) * (cos ((amf_ q) * (pi_ q) * x)) * (cos ((amf_ q) * (pi_ q) * y)) * (sin ((amf_ q) * (pi_ q) * z)) * (amf_ q) * (pi_ q)
   / (rhoS_ q)) - 1 / ((znot_ q) * (cos ((amf_ q) * (pi_ q) * x)) * (cos ((amf_ q) * (pi_ q) * y)) * (cos ((amf_ q) * (pi_ q) * z)) / (rhoP_ q) + (1 - (znot_ q) * (cos
   ((amf_ q) * (pi_ q) * x)) * (cos ((amf_ q) * (pi_ q) * y)) * (cos ((amf_ q) * (pi_ q) * z))) / (rhoS_ q)) * (wnot_ q) * (sin ((a_ q) * (pi_ q) * x)) * (((sin ((a_ q) *
   (pi_ q) * y))) ^ 2) * (((sin ((a_ q) * (pi_ q) * z))) ^ 2) * (a_ q) * (pi_ q) * (unot_ q) * (cos ((a_ q) * (pi_ q) * x)) + 1 / ((znot_ q) * (cos ((amf_ q) * (pi_ q) *
   x)) * (cos ((amf_ q) * (pi_ q) * y)) * (cos ((amf_ q) * (pi_ q) * z)) / (rhoP_ q) + (1 - (znot_ q) * (cos ((amf_ q) * (pi_ q) * x)) * (cos ((amf_ q) * (pi_ q) * y)) *
   (cos ((amf_ q) * (pi_ q) * z))) / (rhoS_ q)) * (wnot_ q) * (sin ((a_ q) * (pi_ q) * x)) * (((sin ((a_ q) * (pi_ q) * y))) ^ 2) * (((cos ((a_ q) * (pi_ q) * z))) ^ 2) *
   (unot_ q) * (cos ((a_ q) * (pi_ q) * x)) * (a_ q) * (pi_ q) - (visc_ q) * ((- ((unot_ q) * (cos ((a_ q) * (pi_ q) * x)) * (a_ q) * (a_ q) * (pi_ q) * (pi_ q) * (sin
   ((a_ q) * (pi_ q) * y)) * (sin ((a_ q) * (pi_ q) * z)) - (vnot_ q) * (cos ((a_ q) * (pi_ q) * x)) * (a_ q) * (a_ q) * (pi_ q) * (pi_ q) * (sin ((a_ q) * (pi_ q) * y)) *
   (sin ((a_ q) * (pi_ q) * z)) + (wnot_ q) * (cos ((a_ q) * (pi_ q) * x)) * (a_ q) * (a_ q) * (pi_ q) * (pi_ q) * (sin ((a_ q) * (pi_ q) * y)) * (sin ((a_ q) * (pi_ q) *
   z)))) * (twoThirds_ q) + 2 * (unot_ q) * (cos ((a_ q) * (pi_ q) * x)) * (a_ q) * (a_ q) * (pi_ q) * (pi_ q) * (sin ((a_ q) * (pi_ q) * y)) * (sin ((a_ q) * (pi_ q) *
   z))) - (visc_ q) * ((unot_ q) * (cos ((a_ q) * (pi_ q) * x)) * (a_ q) * (a_ q) * (pi_ q) * (pi_ q) * (sin ((a_ q) * (pi_ q) * y)) * (sin ((a_ q) * (pi_ q) * z)) -
   (vnot_ q) * (cos ((a_ q) * (pi_ q) * x)) * (a_ q) * (a_ q) * (pi_ q) * (pi_ q) * (sin ((a_ q) * (pi_ q) * y)) * (sin ((a_ q) * (pi_ q) * z))) - (visc_ q) * ((unot_ q) *
   (cos ((a_ q) * (pi_ q) * x)) * (a_ q) * (a_ q) * (pi_ q) * (pi_ q) * (sin ((a_ q) * (pi_ q) * y)) * (sin ((a_ q) * (pi_ q) * z)) + (wnot_ q) * (cos ((a_ q) * (pi_ q) *
   x)) * (a_ q) * (a_ q) * (pi_ q) * (pi_ q) * (sin ((a_ q) * (pi_ q) * y)) * (sin ((a_ q) * (pi_ q) * z))) + (1 / 2) * (pnot_ q) * (sin (2 * (a_ q) * (pi_ q) * x)) * (a_
   q) * (pi_ q) - (1 / ((znot_ q) * (cos ((amf_ q) * (pi_ q) * x)) * (cos ((amf_ q) * (pi_ q) * y)) * (cos ((amf_ q) * (pi_ q) * z)) / (rhoP_ q) + (1 - (znot_ q) * (cos
   ((amf_ q) * (pi_ q) * x)) * (cos ((amf_ q) * (pi_ q) * y)) * (cos ((amf_ q) * (pi_ q) * z))) / (rhoS_ q)) - (rhoRef_ q)) * (gx_ q)
| 1%nat => 1 * (inv2 ((znot_ q) * (cos ((amf_ q) * (pi_ q) * x)) * (cos ((amf_ q) * (pi_ q) * y)) * (cos ((amf_ q) * (pi_ q) * z)) / (rhoP_ q) + (1 - (znot_ q) * (cos
   ((amf_ q) * (pi_ q) * x)) * (cos ((amf_ q) * (pi_ q) * y)) * (cos ((amf_ q) * (pi_ q) * z))) / (rhoS_ q))) * (vnot_ q) * (sin ((a_ q) * (pi_ q) * x)) * (cos ((a_ q) *
   (pi_ q) * y)) * (((sin ((a_ q) * (pi_ q) * z))) ^ 2) * (unot_ q) * (cos ((a_ q) * (pi_ q) * x)) * (sin ((a_ q) * (pi_ q) * y)) * ((- (znot_ q)) * (sin ((amf_ q) * (pi_
   q) * x)) * (amf_ q) * (pi_ q) * (cos ((amf_ q) * (pi_ q) * y)) * (cos ((amf_ q) * (pi_ q) * z)) / (rhoP_ q) + (znot_ q) * (sin ((amf_ q) * (pi_ q) * x)) * (amf_ q) *
   (pi_ q) * (cos ((amf_ q) * (pi_ q) * y)) * (cos ((amf_ q) * (pi_ q) * z)) / (rhoS_ q)) - 1 / ((znot_ q) * (cos ((amf_ q) * (pi_ q) * x)) * (cos ((amf_ q) * (pi_ q) *
   y)) * (cos ((amf_ q) * (pi_ q) * z)) / (rhoP_ q) + (1 - (znot_ q) * (cos ((amf_ q) * (pi_ q) * x)) * (cos ((amf_ q) * (pi_ q) * y)) * (cos ((amf_ q) * (pi_ q) * z))) /
   (rhoS_ q)) * (vnot_ q) * (((cos ((a_ q) * (pi_ q) * x))) ^ 2) * (a_ q) * (pi_ q) * (cos ((a_ q) * (pi_ q) * y)) * (((sin ((a_ q) * (pi_ q) * z))) ^ 2) * (unot_ q) *
   (sin ((a_ q) * (pi_ q) * y)) + 1 / ((znot_ q) * (cos ((amf_ q) * (pi_ q) * x)) * (cos ((amf_ q) * (pi_ q) * y)) * (cos ((amf_ q) * (pi_ q) * z)) / (rhoP_ q) + (1 -
   (znot_ q) * (cos ((amf_ q) * (pi_ q) * x)) * (cos ((amf_ q) * (pi_ q) * y)) * (cos ((amf_ q) * (pi_ q) * z))) / (rhoS_ q)) * (vnot_ q) * (((sin ((a_ q) * (pi_ q) * x)))
   ^ 2) * (cos ((a_ q) * (pi_ q) * y)) * (((sin ((a_ q) * (pi_ q) * z))) ^ 2) * (unot_ q) * (a_ q) * (pi_ q) * (sin ((a_ q) * (pi_ q) * y)) - 1 * (inv2 ((znot_ q) * (cos
   ((amf_ q) * (pi_ q) * x)) * (cos ((amf_ q) * (pi_ q) * y)) * (cos ((amf_ q) * (pi_ q) * z)) / (rhoP_ q) + (1 - (znot_ q) * (cos ((amf_ q) * (pi_ q) * x)) * (cos ((amf_
   q) * (pi_ q) * y)) * (cos ((amf_ q) * (pi_ q) * z))) / (rhoS_ q))) * (vnot_ q) * (vnot_ q) * (((sin ((a_ q) * (pi_ q) * x))) ^ 2) * (((cos ((a_ q) * (pi_ q) * y))) ^ 2)
   * (((sin ((a_ q) * (pi_ q) * z))) ^ 2) * ((- (znot_ q)) * (cos ((amf_ q) * (pi_ q) * x)) * (sin ((amf_ q) * (pi_ q) * y)) * (amf_ q) * (pi_ q) * (cos ((amf_ q) * (pi_
   q) * z)) / (rhoP_ q) + (znot_ q) * (cos ((amf_ q) * (pi_ q) * x)) * (sin ((amf_ q) * (pi_ q) * y)) * (amf_ q) * (pi_ q) * (cos ((amf_ q) * (pi_ q) * z)) / (rhoS_ q)) -
   2 / ((znot_ q) * (cos ((amf_ q) * (pi_ q) * x)) * (cos ((amf_ q) * (pi_ q) * y)) * (cos ((amf_ q) * (pi_ q) * z)) / (rhoP_ q) + (1 - (znot_ q) * (cos ((amf_ q) * (pi_
   q) * x)) * (cos ((amf_ q) * (pi_ q) * y)) * (cos ((amf_ q) * (pi_ q) * z))) / (rhoS_ q)) * (vnot_ q) * (vnot_ q) * (((sin ((a_ q) * (pi_ q) * x))) ^ 2) * (cos ((a_ q) *
   (pi_ q) * y)) * (((sin ((a_ q) * (pi_ q) * z))) ^ 2) * (sin ((a_ q) * (pi_ q) * y)) * (a_ q) * (pi_ q) + 1 * (inv2 ((znot_ q) * (cos ((amf_ q) * (pi_ q) * x)) * (cos
   ((amf_ q) * (pi_ q) * y)) * (cos ((amf_ q) * (pi_ q) * z)) / (rhoP_ q) + (1 - (znot_ q) * (cos ((amf_ q) * (pi_ q) * x)) * (cos ((amf_ q) * (pi_ q) * y)) * (cos ((amf_
   q) * (pi_ q) * z))) / (rhoS_ q))) * (wnot_ q) * (((sin ((a_ q) * (pi_ q) * x))) ^ 2) * (sin ((a_ q) * (pi_ q) * y)) * (cos ((a_ q) * (pi_ q) * z)) * (vnot_ q) * (cos
   ((a_ q) * (pi_ q) * y)) * (sin ((a_ q) * (pi_ q) * z)) * ((- (znot_ q)) * (cos ((amf_ q) * (pi_ q) * x)) * (cos ((amf_ q) * (pi_ q) * y)) * (sin ((amf_ q) * (pi_ q) *
   z)) * (amf_ q) * (pi_ q) / (rhoP_ q) + (znot_ q) * (cos ((amf_ q) * (pi_ q) * x)) * (cos ((amf_ q) * (pi_ q) * y)) * (sin ((amf_ q) * (pi_ q) * z)) * (amf_ q) * (pi_ q)
   / (rhoS_ q)) + 1 / ((znot_ q) * (cos ((amf_ q) * (pi_ q) * x)) * (cos ((amf_ q) * (pi_ q) * y)) * (cos ((amf_ q) * (pi_ q) * z)) / (rhoP_ q) + (1 - (znot_ q) * (cos
   ((amf_ q) * (pi_ q) * x)) * (cos ((amf_ q) * (pi_ q) * y)) * (cos ((amf_ q) * (pi_ q) * z))) / (rhoS_ q)) * (wnot_ q) * (((sin ((a_ q) * (pi_ q) * x))) ^ 2) * (sin ((a_
   q) * (pi_ q) * y)) * (((sin ((a_ q) * (pi_ q) * z))) ^ 2) * (a_ q) * (pi_ q) * (vnot_ q) * (cos ((a_ q) * (pi_ q) * y)) - 1 / ((znot_ q) * (cos ((amf_ q) * (pi_ q) *
   x)) * (cos ((amf_ q) * (pi_ q) * y)) * (cos ((amf_ q) * (pi_ q) * z)) / (rhoP_ q) + (1 - (znot_ q) * (cos ((amf_ q) * (pi_ q) * x)) * (cos ((amf_ q) * (pi_ q) * y)) *
   (cos ((amf_ q) * (pi_ q) * z))) / (rhoS_ q)) * (wnot_ q) * (((sin ((a_ q) * (pi_ q) * x))) ^ 2) * (sin ((a_ q) * (pi_ q) * y)) * (((cos ((a_ q) * (pi_ q) * z))) ^ 2) *
   (vnot_ q) * (cos ((a_ q) * (pi_ q) * y)) * (a_ q) * (pi_ q) - (visc_ q) * ((unot_ q) * (sin ((a_ q) * (pi_ q) * x)) * (a_ q) * (a_ q) * (pi_ q) * (pi_ q) * (cos ((a_ q)
   * (pi_ q) * y)) * (sin ((a_ q) * (pi_ q) * z)) - (vnot_ q) * (sin ((a_ q) * (pi_ q) * x)) * (a_ q) * (a_ q) * (pi_ q) * (pi_ q) * (cos ((a_ q) * (pi_ q) * y)) * (sin
   ((a_ q) * (pi_ q) * z))) - (visc_ q) * ((- ((unot_ q) * (sin ((a_ q) * (pi_ q) * x)) * (a_ q) * (a_ q) * (pi_ q) * (pi_ q) * (cos ((a_ q) * (pi_ q) * y)) * (sin ((a_ q)
   * (pi_ q) * z)) - (vnot_ q) * (sin ((a_ q) * (pi_ q) * x)) * (a_ q) * (a_ q) * (pi_ q) * (pi_ q) * (cos ((a_ q) * (pi_ q) * y)) * (sin ((a_ q) * (pi_ q) * z)) + (wnot_
   q) * (sin ((a_ q) * (pi_ q) * x)) * (cos ((a_ q) * (pi_ q) * y)) * (a_ q) * (a_ q) * (pi_ q) * (pi_ q) * (sin ((a_ q) * (pi_ q) * z)))) * (twoThirds_ q) - 2 * (vnot_ q)
   * (sin ((a_ q) * (pi_ q) * x)) * (a_ q) * (a_ q) * (pi_ q) * (pi_ q) * (cos ((a_ q) * (pi_ q) * y)) * (sin ((a_ q) * (pi_ q) * z))) - (visc_ q) * ((- (vnot_ q)) * (sin
   ((a_ q) * (pi_ q) * x)) * (a_ q) * (a_ q) * (pi_ q) * (pi_ q) * (cos ((a_ q) * (pi_ q) * y)) * (sin ((a_ q) * (pi_ q) * z)) + (wnot_ q) * (sin ((a_ q) * (pi_ q) * x)) *
   (cos ((a_ q) * (pi_ q) * y)) * (a_ q) * (a_ q) * (pi_ q) * (pi_ q) * (sin ((a_ q) * (pi_ q) * z))) + (1 / 2) * (pnot_ q) * (sin (2 * (a_ q) * (pi_ q) * y)) * (a_ q) *
   (pi_ q) - (1 / ((znot_ q) * (cos ((amf_ q) * (pi_ q) * x)) * (cos ((amf_ q) * (pi_ q) * y)) * (cos ((amf_ q) * (pi_ q) * z)) / (rhoP_ q) + (1 - (znot_ q) * (cos ((amf_
   q) * (pi_ q) * x)) * (cos ((amf_ q) * (pi_ q) * y)) * (cos ((amf_ q) * (pi_ q) * z))) / (rhoS_ q)) - (rhoRef_ q)) * (gy_ q)
| 2%nat => (- 1) * (inv2 ((znot_ q) * (cos ((amf_ q) * (pi_ q) * x)) * (cos ((amf_ q) * (pi_ q) * y)) * (cos ((amf_ q) * (pi_ q) * z)) / (rhoP_ q) + (1 - (znot_ q) * (cos
   ((amf_ q) * (pi_ q) * x)) * (cos ((amf_ q) * (pi_ q) * y)) * (cos ((amf_ q) * (pi_ q) * z))) / (rhoS_ q))) * (wnot_ q) * (sin ((a_ q) * (pi_ q) * x)) * (((sin ((a_ q) *
   (pi_ q) * y))) ^ 2) * (cos ((a_ q) * (pi_ q) * z)) * (unot_ q) * (cos ((a_ q) * (pi_ q) * x)) * (sin ((a_ q) * (pi_ q) * z)) * ((- (znot_ q)) * (sin ((amf_ q) * (pi_ q)
   * x)) * (amf_ q) * (pi_ q) * (cos ((amf_ q) * (pi_ q) * y)) * (cos ((amf_ q) * (pi_ q) * z)) / (rhoP_ q) + (znot_ q) * (sin ((amf_ q) * (pi_ q) * x)) * (amf_ q) * (pi_
   q) * (cos ((amf_ q) * (pi_ q) * y)) * (cos ((amf_ q) * (pi_ q) * z)) / (rhoS_ q)) + 1 / ((znot_ q) * (cos ((amf_ q) * (pi_ q) * x)) * (cos ((amf_ q) * (pi_ q) * y)) *
   (cos ((amf_ q) * (pi_ q) * z)) / (rhoP_ q) + (1 - (znot_ q) * (cos ((amf_ q) * (pi_ q) * x)) * (cos ((amf_ q) * (pi_ q) * y)) * (cos ((amf_ q) * (pi_ q) * z))) / (rhoS_
   q)) * (wnot_ q) * (((cos ((a_ q) * (pi_ q) * x))) ^ 2) * (a_ q) * (pi_ q) * (((sin ((a_ q) * (pi_ q) * y))) ^ 2) * (cos ((a_ q) * (pi_ q) * z)) * (unot_ q) * (sin ((a_
   q) * (pi_ q) * z)) - 1 / ((znot_ q) * (cos ((amf_ q) * (pi_ q) * x)) * (cos ((amf_ q) * (pi_ q) * y)) * (cos ((amf_ q) * (pi_ q) * z)) / (rhoP_ q) + (1 - (znot_ q) *
   (cos ((amf_ q) * (pi_ q) * x)) * (cos ((amf_ q) * (pi_ q) * y)) * (cos ((amf_ q) * (pi_ q) * z))) / (rhoS_ q)) * (wnot_ q) * (((sin ((a_ q) * (pi_ q) * x))) ^ 2) *
   (((sin ((a_ q) * (pi_ q) * y))) ^ 2) * (cos ((a_ q) * (pi_ q) * z)) * (unot_ q) * (a_ q) * (pi_ q) * (sin ((a_ q) * (pi_ q) * z)) + 1 * (inv2 ((znot_ q) * (cos ((amf_
   q) * (pi_ q) * x)) * (cos ((amf_ q) * (pi_ q) * y)) * (cos ((amf_ q) * (pi_ q) * z)) / (rhoP_ q) + (1 - (znot_ q) * (cos ((amf_ q) * (pi_ q) * x)) * (cos ((amf_ q) *
   (pi_ q) * y)) * (cos ((amf_ q) * (pi_ q) * z))) / (rhoS_ q))) * (wnot_ q) * (((sin ((a_ q) * (pi_ q) * x))) ^ 2) * (sin ((a_ q) * (pi_ q) * y)) * (cos ((a_ q) * (pi_ q)
   * z)) * (vnot_ q) * (cos ((a_ q) * (pi_ q) * y)) * (sin ((a_ q) * (pi_ q) * z)) * ((- (znot_ q)) * (cos ((amf_ q) * (pi_ q) * x)) * (sin ((amf_ q) * (pi_ q) * y)) *
   (amf_ q) * (pi_ q) * (cos ((amf_ q) * (pi_ q) * z)) / (rhoP_ q) + (znot_ q) * (cos ((amf_ q) * (pi_ q) * x)) * (sin ((amf_ q) * (pi_ q) * y)) * (amf_ q) * (pi_ q) *
   (cos ((amf_ q) * (pi_ q) * z)) / (rhoS_ q)) - 1 / ((znot_ q) * (cos ((amf_ q) * (pi_ q) * x)) * (cos ((amf_ q) * (pi_ q) * y)) * (cos ((amf_ q) * (pi_ q) * z)) / (rhoP_
   q) + (1 - (znot_ q) * (cos ((amf_ q) * (pi_ q) * x)) * (cos ((amf_ q) * (pi_ q) * y)) * (cos ((amf_ q) * (pi_ q) * z))) / (rhoS_ q)) * (wnot_ q) * (((sin ((a_ q) * (pi_
   q) * x))) ^ 2) * (((cos ((a_ q) * (pi_ q) * y))) ^ 2) * (a_ q) * (pi_ q) * (cos ((a_ q) * (pi_ q) * z)) * (vnot_ q) * (sin ((a_ q) * (pi_ q) * z)) + 1 / ((znot_ q) *
   (cos ((amf_ q) * (pi_ q) * x)) * (cos ((amf_ q) * (pi_ q) * y)) * (cos ((amf_ q) * (pi_ q) * z)) / (rhoP_ q) + (1 - (znot_ q) * (cos ((amf_ q) * (pi_ q) * x)) * (cos
   ((amf_ q) * (pi_ q) * y)) * (cos ((amf_ q) * (pi_ q) * z))) / (rhoS_ q)) * (wnot_ q) * (((sin ((a_ q) * (pi_ q) * x))) ^ 2) * (((sin ((a_ q) * (pi_ q) * y))) ^ 2) *
   (cos ((a_ q) * (pi_ q) * z)) * (vnot_ q) * (a_ q) * (pi_ q) * (sin ((a_ q) * (pi_ q) * z)) - 1 * (inv2 ((znot_ q) * (cos ((amf_ q) * (pi_ q) * x)) * (cos ((amf_ q) *
   (pi_ q) * y)) * (cos ((amf_ q) * (pi_ q) * z)) / (rhoP_ q) + (1 - (znot_ q) * (cos ((amf_ q) * (pi_ q) * x)) * (cos ((amf_ q) * (pi_ q) * y)) * (cos ((amf_ q) * (pi_ q)
   * z))) / (rhoS_ q))) * (wnot_ q) * (wnot_ q) * (((sin ((a_ q) * (pi_ q) * x))) ^ 2) * (((sin ((a_ q) * (pi_ q) * y))) ^ 2) * (((cos ((a_ q) * (pi_ q) * z))) ^ 2) * ((-
   (znot_ q)) * (cos ((amf_ q) * (pi_ q) * x)) * (cos ((amf_ q) * (pi_ q) * y)) * (sin ((amf_ q) * (pi_ q) * z)) * (amf_ q) * (pi_ q) / (rhoP_ q) + (znot_ q) * (cos ((amf_
   q) * (pi_ q) * x)) * (cos ((amf_ q) * (pi_ q) * y)) * (sin ((amf_ q) * (pi_ q) * z)) * (amf_ q) * (pi_ q) / (rhoS_ q)) - 2 / ((znot_ q) * (cos ((amf_ q) * (pi_ q) * x))
   * (cos ((amf_ q) * (pi_ q) * y)) * (cos ((amf_ q) * (pi_ q) * z)) / (rhoP_ q) + (1 - (znot_ q) * (cos ((amf_ q) * (pi_ q) * x)) * (cos ((amf_ q) * (pi_ q) * y)) * (cos
   ((amf_ q) * (pi_ q) * z))) / (rhoS_ q)) * (wnot_ q) * (wnot_ q) * (((sin ((a_ q) * (pi_ q) * x))) ^ 2) * (((sin ((a_ q) * (pi_ q) * y))) ^ 2) * (cos ((a_ q) * (pi_ q) *
   z)) * (sin ((a_ q) * (pi_ q) * z)) * (a_ q) * (pi_ q) - (visc_ q) * ((unot_ q) * (sin ((a_ q) * (pi_ q) * x)) * (a_ q) * (a_ q) * (pi_ q) * (pi_ q) * (sin ((a_ q) *
   (pi_ q) * y)) * (cos ((a_ q) * (pi_ q) * z)) + (wnot_ q) * (sin ((a_ q) * (pi_ q) * x)) * (a_ q) * (a_ q) * (pi_ q) * (pi_ q) * (sin ((a_ q) * (pi_ q) * y)) * (cos ((a_
   q) * (pi_ q) * z))) - (visc_ q) * ((- (vnot_ q)) * (sin ((a_ q) * (pi_ q) * x)) * (sin ((a_ q) * (pi_ q) * y)) * (a_ q) * (a_ q) * (pi_ q) * (pi_ q) * (cos ((a_ q) *
   (pi_ q) * z)) + (wnot_ q) * (sin ((a_ q) * (pi_ q) * x)) * (a_ q) * (a_ q) * (pi_ q) * (pi_ q) * (sin ((a_ q) * (pi_ q) * y)) * (cos ((a_ q) * (pi_ q) * z))) - (visc_
   q) * ((- ((unot_ q) * (sin ((a_ q) * (pi_ q) * x)) * (a_ q) * (a_ q) * (pi_ q) * (pi_ q) * (sin ((a_ q) * (pi_ q) * y)) * (cos ((a_ q) * (pi_ q) * z)) - (vnot_ q) *
   (sin ((a_ q) * (pi_ q) * x)) * (sin ((a_ q) * (pi_ q) * y)) * (a_ q) * (a_ q) * (pi_ q) * (pi_ q) * (cos ((a_ q) * (pi_ q) * z)) + (wnot_ q) * (sin ((a_ q) * (pi_ q) *
   x)) * (a_ q) * (a_ q) * (pi_ q) * (pi_ q) * (sin ((a_ q) * (pi_ q) * y)) * (cos ((a_ q) * (pi_ q) * z)))) * (twoThirds_ q) + 2 * (wnot_ q) * (sin ((a_ q) * (pi_ q) *
   x)) * (a_ q) * (a_ q) * (pi_ q) * (pi_ q) * (sin ((a_ q) * (pi_ q) * y)) * (cos ((a_ q) * (pi_ q) * z))) + (1 / 2) * (pnot_ q) * (sin (2 * (a_ q) * (pi_ q) * z)) * (a_
   q) * (pi_ q) - (1 / ((znot_ q) * (cos ((amf_ q) * (pi_ q) * x)) * (cos ((amf_ q) * (pi_ q) * y)) * (cos ((amf_ q) * (pi_ q) * z)) / (rhoP_ q) + (1 - (znot_ q) * (cos
   ((amf_ q) * (pi_ q) * x)) * (cos ((amf_ q) * (pi_ q) * y)) * (cos ((amf_ q) * (pi_ q) * z))) / (rhoS_ q)) - (rhoRef_ q)) * (gz_ q)
  | _ => 0 end.
(** constructor constants of VariableDensityMomentumSrcNodeSuppAlg.C; fields it does not have are 0 *)
Definition vd_momentum_node_par (includeDivU rhoRef gx gy gz : R) : par := mkPar 1 1 1 1 1 0 20 10 0 0 (1 / 1000) (1 / 10) 1 0 0 0 0 0 0 0 PI (2 / 3 * includeDivU) rhoRef
   gx gy gz 0 0 0 0 0 0 0 0.
(** VariableDensityMomentumSrcElemSuppAlg.C line 161: srcXi_[0..2]. *)
Definition vd_momentum_elem_src (q : par) (i : nat) : field := fun t x y z => match i with
| 0%nat => (- 1) * (inv2 ((znot_ q) * (cos ((amf_ q) * (pi_ q) * x)) * (cos ((amf_ q) * (pi_ q) * y)) * (cos ((amf_ q) * (pi_ q) * z)) / (rhoP_ q) + (1 - (znot_ q) * (cos
   ((amf_ q) * (pi_ q) * x)) * (cos ((amf_ q) * (pi_ q) * y)) * (cos ((amf_ q) * (pi_ q) * z))) / (rhoS_ q))) * (unot_ q) * (unot_ q) * (((cos ((a_ q) * (pi_ q) * x))) ^
   2) * (((sin ((a_ q) * (pi_ q) * y))) ^ 2) * (((sin ((a_ q) * (pi_ q) * z))) ^ 2) * ((- (znot_ q)) * (sin ((amf_ q) * (pi_ q) * x)) * (amf_ q) * (pi_ q) * (cos ((amf_ q)
   * (pi_ q) * y)) * (cos ((amf_ q) * (pi_ q) * z)) / (rhoP_ q) + (znot_ q) * (sin ((amf_ q) * (pi_ q) * x)) * (amf_ q) * (pi_ q) * (cos ((amf_ q) * (pi_ q) * y)) * (cos
   ((amf_ q) * (pi_ q) * z)) / (rhoS_ q)) - 2 / ((znot_ q) * (cos ((amf_ q) * (pi_ q) * x)) * (cos ((amf_ q) * (pi_ q) * y)) * (cos ((amf_ q) * (pi_ q) * z)) / (rhoP_ q) +
   (1 - (znot_ q) * (cos ((amf_ q) * (pi_ q) * x)) * (cos ((amf_ q) * (pi_ q) * y)) * (cos ((amf_ q) * (pi_ q) * z))) / (rhoS_ q)) * (unot_ q) * (unot_ q) * (cos ((a_ q) *
   (pi_ q) * x)) * (((sin ((a_ q) * (pi_ q) * y))) ^ 2) * (((sin ((a_ q) * (pi_ q) * z))) ^ 2) * (sin ((a_ q) * (pi_ q) * x)) * (a_ q) * (pi_ q) + 1 * (inv2 ((znot_ q) *
   (cos ((amf_ q) * (pi_ q) * x)) * (cos ((amf_ q) * (pi_ q) * y)) * (cos ((amf_ q) * (pi_ q) * z)) / (rhoP_ q) + (1 - (znot_ q) * (cos ((amf_ q) * (pi_ q) * x)) * (cos
   ((amf_ q) * (pi_ q) * y)) * (cos ((amf_ q) * (pi_ q) * z))) / (rhoS_ q))) * (vnot_ q) * (sin ((a_ q) * (pi_ q) * x)) * (cos ((a_ q) * (pi_ q) * y)) * (((sin ((a_ q) *
   (pi_ q) * z))) ^ 2) * (unot_ q) * (cos ((a_ q) * (pi_ q) * x)) * (sin ((a_ q) * (pi_ q) * y)) * ((- (znot_ q)) * (cos ((amf_ q) * (pi_ q) * x)) * (sin ((amf_ q) * (pi_
   q) * y)) * (amf_ q) * (pi_ q) * (cos ((amf_ q) * (pi_ q) * z)) / (rhoP_ q) + (znot_ q) * (cos ((amf_ q) * (pi_ q) * x)) * (sin ((amf_ q) * (pi_ q) * y)) * (amf_ q) *
   (pi_ q) * (cos ((amf_ q) * (pi_ q) * z)) / (rhoS_ q)) + 1 / ((znot_ q) * (cos ((amf_ q) * (pi_ q) * x)) * (cos ((amf_ q) * (pi_ q) * y)) * (cos ((amf_ q) * (pi_ q) *
   z)) / (rhoP_ q) + (1 - (znot_ q) * (cos ((amf_ q) * (pi_ q) * x)) * (cos ((amf_ q) * (pi_ q) * y)) * (cos ((amf_ q) * (pi_ q) * z))) / (rhoS_ q)) * (vnot_ q) * (sin
   ((a_ q) * (pi_ q) * x)) * (((sin ((a_ q) * (pi_ q) * y))) ^ 2) * (a_ q) * (pi_ q) * (((sin ((a_ q) * (pi_ q) * z))) ^ 2) * (unot_ q) * (cos ((a_ q) * (pi_ q) * x)) - 1
   / ((znot_ q) * (cos ((amf_ q) * (pi_ q) * x)) * (cos ((amf_ q) * (pi_ q) * y)) * (cos ((amf_ q) * (pi_ q) * z)) / (rhoP_ q) + (1 - (znot_ q) * (cos ((amf_ q) * (pi_ q)
   * x)) * (cos ((amf_ q) * (pi_ q) * y)) * (cos ((amf_ q) * (pi_ q) * z))) / (rhoS_ q)) * (vnot_ q) * (sin ((a_ q) * (pi_ q) * x)) * (((cos ((a_ q) * (pi_ q) * y))) ^ 2)
   * (((sin ((a_ q) * (pi_ q) * z))) ^ 2) * (unot_ q) * (cos ((a_ q) * (pi_ q) * x)) * (a_ q) * (pi_ q) - 1 * (inv2 ((znot_ q) * (cos ((amf_ q) * (pi_ q) * x)) * (cos
   ((amf_ q) * (pi_ q) * y)) * (cos ((amf_ q) * (pi_ q) * z)) / (rhoP_ q) + (1 - (znot_ q) * (cos ((amf_ q) * (pi_ q) * x)) * (cos ((amf_ q) * (pi_ q) * y)) * (cos ((amf_
   q) * (pi_ q) * z))) / (rhoS_ q))) * (wnot_ q) * (sin ((a_ q) * (pi_ q) * x)) * (((sin ((a_ q) * (pi_ q) * y))) ^ 2) * (cos ((a_ q) * (pi_ q) * z)) * (unot_ q) * (cos
   ((a_ q) * (pi_ q) * x)) * (sin ((a_ q) * (pi_ q) * z)) * ((- (znot_ q)) * (cos ((amf_ q) * (pi_ q) * x)) * (cos ((amf_ q) * (pi_ q) * y)) * (sin ((amf_ q) * (pi_ q) *
   z)) * (amf_ q) * (pi_ q) / (rhoP_ q) + (znot_ q) * (cos ((amf_ q) * (pi_ q) * x)) * (cos ((amf_ q) * (pi_ q) * y)) * (sin ((amf_ q) * (pi_ q) * z)) * (amf_ q) * (pi_ q)
   / (rhoS_ q)) - 1 / ((znot_ q) * (cos ((amf_ q) * (pi_ q) * x)) * (cos ((amf_ q) * (pi_ q) * y)) * (cos ((amf_ q) * (pi_ q) * z)) / (rhoP_ q) + (1 - (znot_ q) * (cos
   ((amf_ q) * (pi_ q) * x)) * (cos ((amf_ q) * (pi_ q) * y)) * (cos ((amf_ q) * (pi_ q) * z))) / (rhoS_ q)) * (wnot_ q) * (sin ((a_ q) * (pi_ q) * x)) * (((sin ((a_ q) *
   (pi_ q) * y))) ^ 2) * (((sin ((a_ q) * (pi_ q) * z))) ^ 2) * (a_ q) * (pi_ q) * (unot_ q) * (cos ((a_ q) * (pi_ q) * x)) + 1 / ((znot_ q) * (cos ((amf_ q) * (pi_ q) *
   x)) * (cos ((amf_ q) * (pi_ q) * y)) * (cos ((amf_ q) * (pi_ q) * z)) / (rhoP_ q) + (1 - (znot_ q) * (cos ((amf_ q) * (pi_ q) * x)) * (cos ((amf_ q) * (pi_ q) * y)) *
   (cos ((amf_ q) * (pi_ q) * z))) / (rhoS_ q)) * (wnot_ q) * (sin ((a_ q) * (pi_ q) * x)) * (((sin ((a_ q) * (pi_ q) * y))) ^ 2) * (((cos ((a_ q) * (pi_ q) * z))) ^ 2) *
   (unot_ q) * (cos ((a_ q) * (pi_ q) * x)) * (a_ q) * (pi_ q) - (visc_ q) * ((- ((unot_ q) * (cos ((a_ q) * (pi_ q) * x)) * (a_ q) * (a_ q) * (pi_ q) * (pi_ q) * (sin
   ((a_ q) * (pi_ q) * y)) * (sin ((a_ q) * (pi_ q) * z)) - (vnot_ q) * (cos ((a_ q) * (pi_ q) * x)) * (a_ q) * (a_ q) * (pi_ q) * (pi_ q) * (sin ((a_ q) * (pi_ q) * y)) *
   (sin ((a_ q) * (pi_ q) * z)) + (wnot_ q) * (cos ((a_ q) * (pi_ q) * x)) * (a_ q) * (a_ q) * (pi_ q) * (pi_ q) * (sin ((a_ q) * (pi_ q) * y)) * (sin ((a_ q) * (pi_ q) *
   z)))) * (twoThirds_ q) + 2 * (unot_ q) * (cos ((a_ q) * (pi_ q) * x)) * (a_ q) * (a_ q) * (pi_ q) * (pi_ q) * (sin ((a_ q) * (pi_ q) * y)) * (sin ((a_ q) * (pi_ q) *
   z))) - (visc_ q) * ((unot_ q) * (cos ((a_ q) * (pi_ q) * x)) * (a_ q) * (a_ q) * (pi_ q) * (pi_ q) * (sin ((a_ q) * (pi_ q) * y)) * (sin ((a_ q) * (pi_ q) * z)) -
   (vnot_ q) * (cos ((a_ q) * (pi_ q) * x)) * (a_ q) * (a_ q) * (pi_ q) * (pi_ q) * (sin ((a_ q) * (pi_ q) * y)) * (sin ((a_ q) * (pi_ q) * z))) - (visc_ q) * ((unot_ q) *
   (cos ((a_ q) * (pi_ q) * x)) * (a_ q) * (a_ q) * (pi_ q) * (pi_ q) * (sin ((a_ q) * (pi_ q) * y)) * (sin ((a_ q) * (pi_ q) * z)) + (wnot_ q) * (cos ((a_ q) * (pi_ q) *
   x)) * (a_ q) * (a_ q) * (pi_ q) * (pi_ q) * (sin ((a_ q) * (pi_ q) * y)) * (sin ((a_ q) * (pi_ q) * z))) + (1 / 2) * (pnot_ q) * (sin (2 * (a_ q) * (pi_ q) * x)) * (a_
   q) * (pi_ q) - (1 / ((znot_ q) * (cos ((amf_ q) * (pi_ q) * x)) * (cos ((amf_ q) * (pi_ q) * y)) * (cos ((amf_ q) * (pi_ q) * z)) / (rhoP_ q) + (1 - (znot_ q) * (cos
   ((amf_ q) * (pi_ q) * x)) * (cos ((amf_ q) * (pi_ q) * y)) * (cos ((amf_ q) * (pi_ q) * z))) / (rhoS_ q)) - (rhoRef_ q)) * (gx_ q)
| 1%nat => 1 * (inv2 ((znot_ q) * (cos ((amf_ q) * (pi_ q) * x)) * (cos ((amf_ q) * (pi_ q) * y)) * (cos ((amf_ q) * (pi_ q) * z)) / (rhoP_ q) + (1 - (znot_ q) * (cos
   ((amf_ q) * (pi_ q) * x)) * (cos ((amf_ q) * (pi_ q) * y)) * (cos ((amf_ q) * (pi_ q) * z))) / (rhoS_ q))) * (vnot_ q) * (sin ((a_ q) * (pi_ q) * x)) * (cos ((a_ q) *
   (pi_ q) * y)) * (((sin ((a_ q) * (pi_ q) * z))) ^ 2) * (unot_ q) * (cos ((a_ q) * (pi_ q) * x)) * (sin ((a_ q) * (pi_ q) * y)) * ((- (znot_ q)) * (sin ((amf_ q) * (pi_
   q) * x)) * (amf_ q) * (pi_ q) * (cos ((amf_ q) * (pi_ q) * y)) * (cos ((amf_ q) * (pi_ q) * z)) / (rhoP_ q) + (znot_ q) * (sin ((amf_ q) * (pi_ q) * x)) * (amf_ q) *
   (pi_ q) * (cos ((amf_ q) * (pi_ q) * y)) * (cos ((amf_ q) * (pi_ q) * z)) / (rhoS_ q)) - 1 / ((znot_ q) * (cos ((amf_ q) * (pi_ q) * x)) * (cos ((amf_ q) * (pi_ q) *
   y)) * (cos ((amf_ q) * (pi_ q) * z)) / (rhoP_ q) + (1 - (znot_ q) * (cos ((amf_ q) * (pi_ q) * x)) * (cos ((amf_ q) * (pi_ q) * y)) * (cos ((amf_ q) * (pi_ q) * z))) /
   (rhoS_ q)) * (vnot_ q) * (((cos ((a_ q) * (pi_ q) * x))) ^ 2) * (a_ q) * (pi_ q) * (cos ((a_ q) * (pi_ q) * y)) * (((sin ((a_ q) * (pi_ q) * z))) ^ 2) * (unot_ q) *
   (sin ((a_ q) * (pi_ q) * y)) + 1 / ((znot_ q) * (cos ((amf_ q) * (pi_ q) * x)) * (cos ((amf_ q) * (pi_ q) * y)) * (cos ((amf_ q) * (pi_ q) * z)) / (rhoP_ q) + (1 -
   (znot_ q) * (cos ((amf_ q) * (pi_ q) * x)) * (cos ((amf_ q) * (pi_ q) * y)) * (cos ((amf_ q) * (pi_ q) * z))) / (rhoS_ q)) * (vnot_ q) * (((sin ((a_ q) * (pi_ q) * x)))
   ^ 2) * (cos ((a_ q) * (pi_ q) * y)) * (((sin ((a_ q) * (pi_ q) * z))) ^ 2) * (unot_ q) * (a_ q) * (pi_ q) * (sin ((a_ q) * (pi_ q) * y)) - 1 * (inv2 ((znot_ q) * (cos
   ((amf_ q) * (pi_ q) * x)) * (cos ((amf_ q) * (pi_ q) * y)) * (cos ((amf_ q) * (pi_ q) * z)) / (rhoP_ q) + (1 - (znot_ q) * (cos ((amf_ q) * (pi_ q) * x)) * (cos ((amf_
   q) * (pi_ q) * y)) * (cos ((amf_ q) * (pi_ q) * z))) / (rhoS_ q))) * (vnot_ q) * (vnot_ q) * (((sin ((a_ q) * (pi_ q) * x))) ^ 2) * (((cos ((a_ q) * (pi_ q) * y))) ^ 2)
   * (((sin ((a_ q) * (pi_ q) * z))) ^ 2) * ((- (znot_ q)) * (cos ((amf_ q) * (pi_ q) * x)) * (sin ((amf_ q) * (pi_ q) * y)) * (amf_ q) * (pi_ q) * (cos ((amf_ q) * (pi_
   q) * z)) / (rhoP_ q) + (znot_ q) * (cos ((amf_ q) * (pi_ q) * x)) * (sin ((amf_ q) * (pi_ q) * y)) * (amf_ q) * (pi_ q) * (cos ((amf_ q) * (pi_ q) * z)) / (rhoS_ q)) -
   2 / ((znot_ q) * (cos ((amf_ q) * (pi_ q) * x)) * (cos ((amf_ q) * (pi_ q) * y)) * (cos ((amf_ q) * (pi_ q) * z)) / (rhoP_ q) + (1 - (znot_ q) * (cos ((amf_ q) * (pi_
   q) * x)) * (cos ((amf_ q) * (pi_ q) * y)) * (cos ((amf_ q) * (pi_ q) * z))) / (rhoS_ q)) * (vnot_ q) * (vnot_ q) * (((sin ((a_ q) * (pi_ q) * x))) ^ 2) * (cos ((a_ q) *
   (pi_ q) * y)) * (((sin ((a_ q) * (pi_ q) * z))) ^ 2) * (sin ((a_ q) * (pi_ q) * y)) * (a_ q) * (pi_ q) + 1 * (inv2 ((znot_ q) * (cos ((amf_ q) * (pi_ q) * x)) * (cos
   ((amf_ q) * (pi_ q) * y)) * (cos ((amf_ q) * (pi_ q) * z)) / (rhoP_ q) + (1 - (znot_ q) * (cos ((amf_ q) * (pi_ q) * x)) * (cos ((amf_ q) * (pi_ q) * y)) * (cos ((amf_
   q) * (pi_ q) * z))) / (rhoS_ q))) * (wnot_ q) * (((sin ((a_ q) * (pi_ q) * x))) ^ 2) * (sin ((a_ q) * (pi_ q) * y)) * (cos ((a_ q) * (pi_ q) * z)) * (vnot_ q) * (cos
   ((a_ q) * (pi_ q) * y)) * (sin ((a_ q) * (pi_ q) * z)) * ((- (znot_ q)) * (cos ((amf_ q) * (pi_ q) * x)) * (cos ((amf_ q) * (pi_ q) * y)) * (sin ((amf_ q) * (pi_ q) *
   z)) * (amf_ q) * (pi_ q) / (rhoP_ q) + (znot_ q) * (cos ((amf_ q) * (pi_ q) * x)) * (cos ((amf_ q) * (pi_ q) * y)) * (sin ((amf_ q) * (pi_ q) * z)) * (amf_ q) * (pi_ q)
   / (rhoS_ q)) + 1 / ((znot_ q) * (cos ((amf_ q) * (pi_ q) * x)) * (cos ((amf_ q) * (pi_ q) * y)) * (cos ((amf_ q) * (pi_ q) * z)) / (rhoP_ q) + (1 - (znot_ q) * (cos
   ((amf_ q) * (pi_ q) * x)) * (cos ((amf_ q) * (pi_ q) * y)) * (cos ((amf_ q) * (pi_ q) * z))) / (rhoS_ q)) * (wnot_ q) * (((sin ((a_ q) * (pi_ q) * x))) ^ 2) * (sin ((a_
   q) * (pi_ q) * y)) * (((sin ((a_ q) * (pi_ q) * z))) ^ 2) * (a_ q) * (pi_ q) * (vnot_ q) * (cos ((a_ q) * (pi_ q) * y)) - 1 / ((znot_ q) * (cos ((amf_ q) * (pi_ q) *
   x)) * (cos ((amf_ q) * (pi_ q) * y)) * (cos ((amf_ q) * (pi_ q) * z)) / (rhoP_ q) + (1 - (znot_ q) * (cos ((amf_ q) * (pi_ q) * x)) * (cos ((amf_ q) * (pi_ q) * y)) *
   (cos ((amf_ q) * (pi_ q) * z))) / (rhoS_ q)) * (wnot_ q) * (((sin ((a_ q) * (pi_ q) * x))) ^ 2) * (sin ((a_ q) * (pi_ q) * y)) * (((cos ((a_ q) * (pi_ q) * z))) ^ 2) *
   (vnot_ q) * (cos ((a_ q) * (pi_ q) * y)) * (a_ q) * (pi_ q) - (visc_ q) * ((unot_ q) * (sin ((a_ q) * (pi_ q) * x)) * (a_ q) * (a_ q) * (pi_ q) * (pi_ q) * (cos ((a_ q)
   * (pi_ q) * y)) * (sin ((a_ q) * (pi_ q) * z)) - (vnot_ q) * (sin ((a_ q) * (pi_ q) * x)) * (a_ q) * (a_ q) * (pi_ q) * (pi_ q) * (cos ((a_ q) * (pi_ q) * y)) * (sin
   ((a_ q) * (pi_ q) * z))) - (visc_ q) * ((- ((unot_ q) * (sin ((a_ q) * (pi_ q) * x)) * (a_ q) * (a_ q) * (pi_ q) * (pi_ q) * (cos ((a_ q) * (pi_ q) * y)) * (sin ((a_ q)
   * (pi_ q) * z)) - (vnot_ q) * (sin ((a_ q) * (pi_ q) * x)) * (a_ q) * (a_ q) * (pi_ q) * (pi_ q) * (cos ((a_ q) * (pi_ q) * y)) * (sin ((a_ q) * (pi_ q) * z)) + (wnot_
   q) * (sin ((a_ q) * (pi_ q) * x)) * (cos ((a_ q) * (pi_ q) * y)) * (a_ q) * (a_ q) * (pi_ q) * (pi_ q) * (sin ((a_ q) * (pi_ q) * z)))) * (twoThirds_ q) - 2 * (vnot_ q)
   * (sin ((a_ q) * (pi_ q) * x)) * (a_ q) * (a_ q) * (pi_ q) * (pi_ q) * (cos ((a_ q) * (pi_ q) * y)) * (sin ((a_ q) * (pi_ q) * z))) - (visc_ q) * ((- (vnot_ q)) * (sin
   ((a_ q) * (pi_ q) * x)) * (a_ q) * (a_ q) * (pi_ q) * (pi_ q) * (cos ((a_ q) * (pi_ q) * y)) * (sin ((a_ q) * (pi_ q) * z)) + (wnot_ q) * (sin ((a_ q) * (pi_ q) * x)) *
   (cos ((a_ q) * (pi_ q) * y)) * (a_ q) * (a_ q) * (pi_ q) * (pi_ q) * (sin ((a_ q) * (pi_ q) * z))) + (1 / 2) * (pnot_ q) * (sin (2 * (a_ q) * (pi_ q) * y)) * (a_ q) *
   (pi_ q) - (1 / ((znot_ q) * (cos ((amf_ q) * (pi_ q) * x)) * (cos ((amf_ q) * (pi_ q) * y)) * (cos ((amf_ q) * (pi_ q) * z)) / (rhoP_ q) + (1 - (znot_ q) * (cos ((amf_
   q) * (pi_ q) * x)) * (cos ((amf_ q) * (pi_ q) * y)) * (cos ((amf_ q) * (pi_ q) * z))) / (rhoS_ q)) - (rhoRef_ q)) * (gy_ q)
| 2%nat => (- 1) * (inv2 ((znot_ q) * (cos ((amf_ q) * (pi_ q) * x)) * (cos ((amf_ q) * (pi_ q) * y)) * (cos ((amf_ q) * (pi_ q) * z)) / (rhoP_ q) + (1 - (znot_ q) * (cos
   ((amf_ q) * (pi_ q) * x)) * (cos ((amf_ q) * (pi_ q) * y)) * (cos ((amf_ q) * (pi_ q) * z))) / (rhoS_ q))) * (wnot_ q) * (sin ((a_ q) * (pi_ q) * x)) * (((sin ((a_ q) *
   (pi_ q) * y))) ^ 2) * (cos ((a_ q) * (pi_ q) * z)) * (unot_ q) * (cos ((a_ q) * (pi_ q) * x)) * (sin ((a_ q) * (pi_ q) * z)) * ((- (znot_ q)) * (sin ((amf_ q) * (pi_ q)
   * x)) * (amf_ q) * (pi_ q) * (cos ((amf_ q) * (pi_ q) * y)) * (cos ((amf_ q) * (pi_ q) * z)) / (rhoP_ q) + (znot_ q) * (sin ((amf_ q) * (pi_ q) * x)) * (amf_ q) * (pi_
   q) * (cos ((amf_ q) * (pi_ q) * y)) * (cos ((amf_ q) * (pi_ q) * z)) / (rhoS_ q)) + 1 / ((znot_ q) * (cos ((amf_ q) * (pi_ q) * x)) * (cos ((amf_ q) * (pi_ q) * y)) *
   (cos ((amf_ q) * (pi_ q) * z)) / (rhoP_ q) + (1 - (znot_ q) * (cos ((amf_ q) * (pi_ q) * x)) * (cos ((amf_ q) * (pi_ q) * y)) * (cos ((amf_ q) * (pi_ q) * z))) / (rhoS_
   q)) * (wnot_ q) * (((cos ((a_ q) * (pi_ q) * x))) ^ 2) * (a_ q) * (pi_ q) * (((sin ((a_ q) * (pi_ q) * y))) ^ 2) * (cos ((a_ q) * (pi_ q) * z)) * (unot_ q) * (sin ((a_
   q) * (pi_ q) * z)) - 1 / ((znot_ q) * (cos ((amf_ q) * (pi_ q) * x)) * (cos ((amf_ q) * (pi_ q) * y)) * (cos ((amf_ q) * (pi_ q) * z)) / (rhoP_ q) + (1 - (znot_ q) *
   (cos ((amf_ q) * (pi_ q) * x)) * (cos ((amf_ q) * (pi_ q) * y)) * (cos ((amf_ q) * (pi_ q) * z))) / (rhoS_ q)) * (wnot_ q) * (((sin ((a_ q) * (pi_ q) * x))) ^ 2) *
   (((sin ((a_ q) * (pi_ q) * y))) ^ 2) * (cos ((a_ q) * (pi_ q) * z)) * (unot_ q) * (a_ q) * (pi_ q) * (sin ((a_ q) * (pi_ q) * z)) + 1 * (inv2 ((znot_ q) * (cos ((amf_
   q) * (pi_ q) * x)) * (cos ((amf_ q) * (pi_ q) * y)) * (cos ((amf_ q) * (pi_ q) * z)) / (rhoP_ q) + (1 - (znot_ q) * (cos ((amf_ q) * (pi_ q) * x)) * (cos ((amf_ q) *
   (pi_ q) * y)) * (cos ((amf_ q) * (pi_ q) * z))) / (rhoS_ q))) * (wnot_ q) * (((sin ((a_ q) * (pi_ q) * x))) ^ 2) * (sin ((a_ q) * (pi_ q) * y)) * (cos ((a_ q) * (pi_ q)
   * z)) * (vnot_ q) * (cos ((a_ q) * (pi_ q) * y)) * (sin ((a_ q) * (pi_ q) * z)) * ((- (znot_ q)) * (cos ((amf_ q) * (pi_ q) * x)) * (sin ((amf_ q) * (pi_ q) * y)) *
   (amf_ q) * (pi_ q) * (cos ((amf_ q) * (pi_ q) * z)) / (rhoP_ q) + (znot_ q) * (cos ((amf_ q) * (pi_ q) * x)) * (sin ((amf_ q) * (pi_ q) * y)) * (amf_ q) * (pi_ q) *
   (cos ((amf_ q) * (pi_ q) * z)) / (rhoS_ q)) - 1 / ((znot_ q) * (cos ((amf_ q) * (pi_ q) * x)) * (cos ((amf_ q) * (pi_ q) * y)) * (cos ((amf_ q) * (pi_ q) * z)) / (rhoP_
   q) + (1 - (znot_ q) * (cos ((amf_ q) * (pi_ q) * x)) * (cos ((amf_ q) * (pi_ q) * y)) * (cos ((amf_ q) * (pi_ q) * z))) / (rhoS_ q)) * (wnot_ q) * (((sin ((a_ q) * (pi_
   q) * x))) ^ 2) * (((cos ((a_ q) * (pi_ q) * y))) ^ 2) * (a_ q) * (pi_ q) * (cos ((a_ q) * (pi_ q) * z)) * (vnot_ q) * (sin ((a_ q) * (pi_ q) * z)) + 1 / ((znot_ q) *
   (cos ((amf_ q) * (pi_ q) * x)) * (cos ((amf_ q) * (pi_ q) * y)) * (cos ((amf_ q) * (pi_ q) * z)) / (rhoP_ q) + (1 - (znot_ q) * (cos ((amf_ q) * (pi_ q) * x)) * (cos
   ((amf_ q) * (pi_ q) * y)) * (cos ((amf_ q) * (pi_ q) * z))) / (rhoS_ q)) * (wnot_ q) * (((sin ((a_ q) * (pi_ q) * x))) ^ 2) * (((sin ((a_ q) * (pi_ q) * y))) ^ 2) *
   (cos ((a_ q) * (pi_ q) * z)) * (vnot_ q) * (a_ q) * (pi_ q) * (sin ((a_ q) * (pi_ q) * z)) - 1 * (inv2 ((znot_ q) * (cos ((amf_ q) * (pi_ q) * x)) * (cos ((amf_ q) *
   (pi_ q) * y)) * (cos ((amf_ q) * (pi_ q) * z)) / (rhoP_ q) + (1 - (znot_ q) * (cos ((amf_ q) * (pi_ q) * x)) * (cos ((amf_ q) * (pi_ q) * y)) * (cos ((amf_ q) * (pi_ q)
   * z))) / (rhoS_ q))) * (wnot_ q) * (wnot_ q) * (((sin ((a_ q) * (pi_ q) * x))) ^ 2) * (((sin ((a_ q) * (pi_ q) * y))) ^ 2) * (((cos ((a_ q) * (pi_ q) * z))) ^ 2) * ((-
   (znot_ q)) * (cos ((amf_ q) * (pi_ q) * x)) * (cos ((amf_ q) * (pi_ q) * y)) * (sin ((amf_ q) * (pi_ q) * z)) * (amf_ q) * (pi_ q) / (rhoP_ q) + (znot_ q) * (cos ((amf_
   q) * (pi_ q) * x)) * (cos ((amf_ q) * (pi_ q) * y)) * (sin ((amf_ q) * (pi_ q) * z)) * (amf_ q) * (pi_ q) / (rhoS_ q)) - 2 / ((znot_ q) * (cos ((amf_ q) * (pi_ q) * x))
   * (cos ((amf_ q) * (pi_ q) * y)) * (cos ((amf_ q) * (pi_ q) * z)) / (rhoP_ q) + (1 - (znot_ q) * (cos ((amf_ q) * (pi_ q) * x)) * (cos ((amf_ q) * (pi_ q) * y)) * (cos
   ((amf_ q) * (pi_ q) * z))) / (rhoS_ q)) * (wnot_ q) * (wnot_ q) * (((sin ((a_ q) * (pi_ q) * x))) ^ 2) * (((sin ((a_ q) * (pi_ q) * y))) ^ 2) * (cos ((a_ q) * (pi_ q) *
   z)) * (sin ((a_ q) * (pi_ q) * z)) * (a_ q) * (pi_ q) - (visc_ q) * ((unot_ q) * (sin ((a_ q) * (pi_ q) * x)) * (a_ q) * (a_ q) * (pi_ q) * (pi_ q) * (sin ((a_ q) *
   (pi_ q) * y)) * (cos ((a_ q) * (pi_ q) * z)) + (wnot_ q) * (sin ((a_ q) * (pi_ q) * x)) * (a_ q) * (a_ q) * (pi_ q) * (pi_ q) * (sin ((a_ q) * (pi_ q) * y)) * (cos ((a_
   q) * (pi_ q) * z))) - (visc_ q) * ((- (vnot_ q)) * (sin ((a_ q) * (pi_ q) * x)) * (sin ((a_ q) * (pi_ q) * y)) * (a_ q) * (a_ q) * (pi_ q) * (pi_ q) * (cos ((a_ q) *
   (pi_ q) * z)) + (wnot_ q) * (sin ((a_ q) * (pi_ q) * x)) * (a_ q) * (a_ q) * (pi_ q) * (pi_ q) * (sin ((a_ q) * (pi_ q) * y)) * (cos ((a_ q) * (pi_ q) * z))) - (visc_
   q) * ((- ((unot_ q) * (sin ((a_ q) * (pi_ q) * x)) * (a_ q) * (a_ q) * (pi_ q) * (pi_ q) * (sin ((a_ q) * (pi_ q) * y)) * (cos ((a_ q) * (pi_ q) * z)) - (vnot_ q) *
   (sin ((a_ q) * (pi_ q) * x)) * (sin ((a_ q) * (pi_ q) * y)) * (a_ q) * (a_ q) * (pi_ q) * (pi_ q) * (cos ((a_ q) * (pi_ q) * z)) + (wnot_ q) * (sin ((a_ q) * (pi_ q) *
   x)) * (a_ q) * (a_ q) * (pi_ q) * (pi_ q) * (sin ((a_ q) * (pi_ q) * y)) * (cos ((a_ q) * (pi_ q) * z)))) * (twoThirds_ q) + 2 * (wnot_ q) * (sin ((a_ q) * (pi_ q) *
   x)) * (a_ q) * (a_ q) * (pi_ q) * (pi_ q) * (sin ((a_ q) * (pi_ q) * y)) * (cos ((a_ q) * (pi_ q) * z))) + (1 / 2) * (pnot_ q) * (sin (2 * (a_ q) * (pi_ q) * z)) * (a_
   q) * (pi_ q) - (1 / ((znot_ q) * (cos ((amf_ q) * (pi_ q) * x)) * (cos ((amf_ q) * (pi_ q) * y)) * (cos ((amf_ q) * (pi_ q) * z)) / (rhoP_ q) + (1 - (znot_ q) * (cos
   ((amf_ q) * (pi_ q) * x)) * (cos ((amf_ q) * (pi_ q) * y)) * (cos ((amf_ q) * (pi_ q) * z))) / (rhoS_ q)) - (rhoRef_ q)) * (gz_ q)
  | _ => 0 end.
(** constructor constants of VariableDensityMomentumSrcElemSuppAlg.C; fields it does not have are 0 *)
Definition vd_momentum_elem_par (includeDivU rhoRef gx gy gz : R) : par := mkPar 1 1 1 1 1 0 20 10 0 0 (1 / 1000) (1 / 10) 1 0 0 0 0 0 0 0 PI (2 / 3 * includeDivU) rhoRef
   gx gy gz 0 0 0 0 0 0 0 0.
(* ---------------------------------------------------------------- variable density, non-isothermal *)
(** VariableDensityNonIsoTemperatureAuxFunction.C line 48: h. *)
Definition vn_enthalpy (q : par) : field := fun t x y z => (cos ((ah_ q) * (pi_ q) * x)) * (cos ((ah_ q) * (pi_ q) * y)) * (cos ((ah_ q) * (pi_ q) * z)).
(** VariableDensityNonIsoTemperatureAuxFunction.C line 50: temp. *)
Definition vn_temperature (q : par) : field := fun t x y z => vn_enthalpy q t x y z / (Cp_ q) + (Tref_ q).
(** constructor constants of VariableDensityNonIsoTemperatureAuxFunction.C; fields it does not have are 0 *)
Definition vn_temperature_par : par := mkPar 0 0 0 0 0 0 0 0 10 0 0 0 0 0 0 0 0 0 300 (1 / 100) PI 0 0 0 0 0 0 0 0 0 0 0 0 0.
(** VariableDensityNonIsoContinuitySrcNodeSuppAlg.C line 84: src. *)
Definition vn_continuity_src (q : par) : field := fun t x y z => (- (Pref_ q)) * (MW_ q) / (R_ q) * (inv2 ((hnot_ q) * (cos ((ah_ q) * (pi_ q) * x)) * (cos ((ah_ q) * (pi_
   q) * y)) * (cos ((ah_ q) * (pi_ q) * z)) / (Cp_ q) + (Tref_ q))) * (unot_ q) * (cos ((a_ q) * (pi_ q) * x)) * (sin ((a_ q) * (pi_ q) * y)) * (sin ((a_ q) * (pi_ q) *
   z)) * (hnot_ q) * (sin ((ah_ q) * (pi_ q) * x)) * (ah_ q) * (pi_ q) * (cos ((ah_ q) * (pi_ q) * y)) * (cos ((ah_ q) * (pi_ q) * z)) / (Cp_ q) + (Pref_ q) * (MW_ q) /
   (R_ q) / ((hnot_ q) * (cos ((ah_ q) * (pi_ q) * x)) * (cos ((ah_ q) * (pi_ q) * y)) * (cos ((ah_ q) * (pi_ q) * z)) / (Cp_ q) + (Tref_ q)) * (unot_ q) * (sin ((a_ q) *
   (pi_ q) * x)) * (a_ q) * (pi_ q) * (sin ((a_ q) * (pi_ q) * y)) * (sin ((a_ q) * (pi_ q) * z)) + (Pref_ q) * (MW_ q) / (R_ q) * (inv2 ((hnot_ q) * (cos ((ah_ q) * (pi_
   q) * x)) * (cos ((ah_ q) * (pi_ q) * y)) * (cos ((ah_ q) * (pi_ q) * z)) / (Cp_ q) + (Tref_ q))) * (vnot_ q) * (sin ((a_ q) * (pi_ q) * x)) * (cos ((a_ q) * (pi_ q) *
   y)) * (sin ((a_ q) * (pi_ q) * z)) * (hnot_ q) * (cos ((ah_ q) * (pi_ q) * x)) * (sin ((ah_ q) * (pi_ q) * y)) * (ah_ q) * (pi_ q) * (cos ((ah_ q) * (pi_ q) * z)) /
   (Cp_ q) - (Pref_ q) * (MW_ q) / (R_ q) / ((hnot_ q) * (cos ((ah_ q) * (pi_ q) * x)) * (cos ((ah_ q) * (pi_ q) * y)) * (cos ((ah_ q) * (pi_ q) * z)) / (Cp_ q) + (Tref_
   q)) * (vnot_ q) * (sin ((a_ q) * (pi_ q) * x)) * (sin ((a_ q) * (pi_ q) * y)) * (a_ q) * (pi_ q) * (sin ((a_ q) * (pi_ q) * z)) - (Pref_ q) * (MW_ q) / (R_ q) * (inv2
   ((hnot_ q) * (cos ((ah_ q) * (pi_ q) * x)) * (cos ((ah_ q) * (pi_ q) * y)) * (cos ((ah_ q) * (pi_ q) * z)) / (Cp_ q) + (Tref_ q))) * (wnot_ q) * (sin ((a_ q) * (pi_ q)
   * x)) * (sin ((a_ q) * (pi_ q) * y)) * (cos ((a_ q) * (pi_ q) * z)) * (hnot_ q) * (cos ((ah_ q) * (pi_ q) * x)) * (cos ((ah_ q) * (pi_ q) * y)) * (sin ((ah_ q) * (pi_
   q) * z)) * (ah_ q) * (pi_ q) / (Cp_ q) + (Pref_ q) * (MW_ q) / (R_ q) / ((hnot_ q) * (cos ((ah_ q) * (pi_ q) * x)) * (cos ((ah_ q) * (pi_ q) * y)) * (cos ((ah_ q) *
   (pi_ q) * z)) / (Cp_ q) + (Tref_ q)) * (wnot_ q) * (sin ((a_ q) * (pi_ q) * x)) * (sin ((a_ q) * (pi_ q) * y)) * (sin ((a_ q) * (pi_ q) * z)) * (a_ q) * (pi_ q).
(** constructor constants of VariableDensityNonIsoContinuitySrcNodeSuppAlg.C; fields it does not have are 0 *)
Definition vn_continuity_par : par := mkPar 1 1 1 0 0 1 20 0 10 0 0 0 0 0 (4 / 5) 100 30 10 300 (1 / 100) PI 0 0 0 0 0 0 0 0 0 0 0 0 0.
(** VariableDensityNonIsoEnthalpySrcNodeSuppAlg.C line 84: src. *)
Definition vn_enthalpy_src (q : par) : field := fun t x y z => (- (Pref_ q)) * (MW_ q) / (R_ q) * (inv2 ((hnot_ q) * (cos ((ah_ q) * (pi_ q) * x)) * (cos ((ah_ q) * (pi_
   q) * y)) * (cos ((ah_ q) * (pi_ q) * z)) / (Cp_ q) + (Tref_ q))) * (unot_ q) * (cos ((a_ q) * (pi_ q) * x)) * (sin ((a_ q) * (pi_ q) * y)) * (sin ((a_ q) * (pi_ q) *
   z)) * (hnot_ q) * (hnot_ q) * (cos ((ah_ q) * (pi_ q) * x)) * (((cos ((ah_ q) * (pi_ q) * y))) ^ 2) * (((cos ((ah_ q) * (pi_ q) * z))) ^ 2) * (sin ((ah_ q) * (pi_ q) *
   x)) * (ah_ q) * (pi_ q) / (Cp_ q) + (Pref_ q) * (MW_ q) / (R_ q) / ((hnot_ q) * (cos ((ah_ q) * (pi_ q) * x)) * (cos ((ah_ q) * (pi_ q) * y)) * (cos ((ah_ q) * (pi_ q)
   * z)) / (Cp_ q) + (Tref_ q)) * (unot_ q) * (sin ((a_ q) * (pi_ q) * x)) * (a_ q) * (pi_ q) * (sin ((a_ q) * (pi_ q) * y)) * (sin ((a_ q) * (pi_ q) * z)) * (hnot_ q) *
   (cos ((ah_ q) * (pi_ q) * x)) * (cos ((ah_ q) * (pi_ q) * y)) * (cos ((ah_ q) * (pi_ q) * z)) + (Pref_ q) * (MW_ q) / (R_ q) / ((hnot_ q) * (cos ((ah_ q) * (pi_ q) *
   x)) * (cos ((ah_ q) * (pi_ q) * y)) * (cos ((ah_ q) * (pi_ q) * z)) / (Cp_ q) + (Tref_ q)) * (unot_ q) * (cos ((a_ q) * (pi_ q) * x)) * (sin ((a_ q) * (pi_ q) * y)) *
   (sin ((a_ q) * (pi_ q) * z)) * (hnot_ q) * (sin ((ah_ q) * (pi_ q) * x)) * (ah_ q) * (pi_ q) * (cos ((ah_ q) * (pi_ q) * y)) * (cos ((ah_ q) * (pi_ q) * z)) + (Pref_ q)
   * (MW_ q) / (R_ q) * (inv2 ((hnot_ q) * (cos ((ah_ q) * (pi_ q) * x)) * (cos ((ah_ q) * (pi_ q) * y)) * (cos ((ah_ q) * (pi_ q) * z)) / (Cp_ q) + (Tref_ q))) * (vnot_
   q) * (sin ((a_ q) * (pi_ q) * x)) * (cos ((a_ q) * (pi_ q) * y)) * (sin ((a_ q) * (pi_ q) * z)) * (hnot_ q) * (hnot_ q) * (((cos ((ah_ q) * (pi_ q) * x))) ^ 2) * (cos
   ((ah_ q) * (pi_ q) * y)) * (((cos ((ah_ q) * (pi_ q) * z))) ^ 2) * (sin ((ah_ q) * (pi_ q) * y)) * (ah_ q) * (pi_ q) / (Cp_ q) - (Pref_ q) * (MW_ q) / (R_ q) / ((hnot_
   q) * (cos ((ah_ q) * (pi_ q) * x)) * (cos ((ah_ q) * (pi_ q) * y)) * (cos ((ah_ q) * (pi_ q) * z)) / (Cp_ q) + (Tref_ q)) * (vnot_ q) * (sin ((a_ q) * (pi_ q) * x)) *
   (sin ((a_ q) * (pi_ q) * y)) * (a_ q) * (pi_ q) * (sin ((a_ q) * (pi_ q) * z)) * (hnot_ q) * (cos ((ah_ q) * (pi_ q) * x)) * (cos ((ah_ q) * (pi_ q) * y)) * (cos ((ah_
   q) * (pi_ q) * z)) - (Pref_ q) * (MW_ q) / (R_ q) / ((hnot_ q) * (cos ((ah_ q) * (pi_ q) * x)) * (cos ((ah_ q) * (pi_ q) * y)) * (cos ((ah_ q) * (pi_ q) * z)) / (Cp_ q)
   + (Tref_ q)) * (vnot_ q) * (sin ((a_ q) * (pi_ q) * x)) * (cos ((a_ q) * (pi_ q) * y)) * (sin ((a_ q) * (pi_ q) * z)) * (hnot_ q) * (cos ((ah_ q) * (pi_ q) * x)) * (sin
   ((ah_ q) * (pi_ q) * y)) * (ah_ q) * (pi_ q) * (cos ((ah_ q) * (pi_ q) * z)) - (Pref_ q) * (MW_ q) / (R_ q) * (inv2 ((hnot_ q) * (cos ((ah_ q) * (pi_ q) * x)) * (cos
   ((ah_ q) * (pi_ q) * y)) * (cos ((ah_ q) * (pi_ q) * z)) / (Cp_ q) + (Tref_ q))) * (wnot_ q) * (sin ((a_ q) * (pi_ q) * x)) * (sin ((a_ q) * (pi_ q) * y)) * (cos ((a_
   q) * (pi_ q) * z)) * (hnot_ q) * (hnot_ q) * (((cos ((ah_ q) * (pi_ q) * x))) ^ 2) * (((cos ((ah_ q) * (pi_ q) * y))) ^ 2) * (cos ((ah_ q) * (pi_ q) * z)) * (sin ((ah_
   q) * (pi_ q) * z)) * (ah_ q) * (pi_ q) / (Cp_ q) + (Pref_ q) * (MW_ q) / (R_ q) / ((hnot_ q) * (cos ((ah_ q) * (pi_ q) * x)) * (cos ((ah_ q) * (pi_ q) * y)) * (cos
   ((ah_ q) * (pi_ q) * z)) / (Cp_ q) + (Tref_ q)) * (wnot_ q) * (sin ((a_ q) * (pi_ q) * x)) * (sin ((a_ q) * (pi_ q) * y)) * (sin ((a_ q) * (pi_ q) * z)) * (a_ q) * (pi_
   q) * (hnot_ q) * (cos ((ah_ q) * (pi_ q) * x)) * (cos ((ah_ q) * (pi_ q) * y)) * (cos ((ah_ q) * (pi_ q) * z)) + (Pref_ q) * (MW_ q) / (R_ q) / ((hnot_ q) * (cos ((ah_
   q) * (pi_ q) * x)) * (cos ((ah_ q) * (pi_ q) * y)) * (cos ((ah_ q) * (pi_ q) * z)) / (Cp_ q) + (Tref_ q)) * (wnot_ q) * (sin ((a_ q) * (pi_ q) * x)) * (sin ((a_ q) *
   (pi_ q) * y)) * (cos ((a_ q) * (pi_ q) * z)) * (hnot_ q) * (cos ((ah_ q) * (pi_ q) * x)) * (cos ((ah_ q) * (pi_ q) * y)) * (sin ((ah_ q) * (pi_ q) * z)) * (ah_ q) *
   (pi_ q) + 3 * (visc_ q) / (Pr_ q) * (hnot_ q) * (cos ((ah_ q) * (pi_ q) * x)) * (ah_ q) * (ah_ q) * (pi_ q) * (pi_ q) * (cos ((ah_ q) * (pi_ q) * y)) * (cos ((ah_ q) *
   (pi_ q) * z)).
(** constructor constants of VariableDensityNonIsoEnthalpySrcNodeSuppAlg.C; fields it does not have are 0 *)
Definition vn_enthalpy_par : par := mkPar 1 1 1 0 0 1 20 0 10 0 (1 / 800) 0 0 0 (4 / 5) 100 30 10 300 (1 / 100) PI 0 0 0 0 0 0 0 0 0 0 0 0 0.
(** VariableDensityNonIsoMomentumSrcNodeSuppAlg.C line 100: srcXi_[0..2]. *)
Definition vn_momentum_src (q : par) (i : nat) : field := fun t x y z => match i with
| 0%nat => (Pref_ q) * (MW_ q) / (R_ q) * (inv2 ((hnot_ q) * (cos ((ah_ q) * (pi_ q) * x)) * (cos ((ah_ q) * (pi_ q) * y)) * (cos ((ah_ q) * (pi_ q) * z)) / (Cp_ q) +
   (Tref_ q))) * (unot_ q) * (unot_ q) * (((cos ((a_ q) * (pi_ q) * x))) ^ 2) * (((sin ((a_ q) * (pi_ q) * y))) ^ 2) * (((sin ((a_ q) * (pi_ q) * z))) ^ 2) * (hnot_ q) *
   (sin ((ah_ q) * (pi_ q) * x)) * (ah_ q) * (pi_ q) * (cos ((ah_ q) * (pi_ q) * y)) * (cos ((ah_ q) * (pi_ q) * z)) / (Cp_ q) - 2 * (Pref_ q) * (MW_ q) / (R_ q) / ((hnot_
   q) * (cos ((ah_ q) * (pi_ q) * x)) * (cos ((ah_ q) * (pi_ q) * y)) * (cos ((ah_ q) * (pi_ q) * z)) / (Cp_ q) + (Tref_ q)) * (unot_ q) * (unot_ q) * (cos ((a_ q) * (pi_
   q) * x)) * (((sin ((a_ q) * (pi_ q) * y))) ^ 2) * (((sin ((a_ q) * (pi_ q) * z))) ^ 2) * (sin ((a_ q) * (pi_ q) * x)) * (a_ q) * (pi_ q) - (Pref_ q) * (MW_ q) / (R_ q)
   * (inv2 ((hnot_ q) * (cos ((ah_ q) * (pi_ q) * x)) * (cos ((ah_ q) * (pi_ q) * y)) * (cos ((ah_ q) * (pi_ q) * z)) / (Cp_ q) + (Tref_ q))) * (vnot_ q) * (sin ((a_ q) *
   (pi_ q) * x)) * (cos ((a_ q) * (pi_ q) * y)) * (((sin ((a_ q) * (pi_ q) * z))) ^ 2) * (unot_ q) * (cos ((a_ q) * (pi_ q) * x)) * (sin ((a_ q) * (pi_ q) * y)) * (hnot_
   q) * (cos ((ah_ q) * (pi_ q) * x)) * (sin ((ah_ q) * (pi_ q) * y)) * (ah_ q) * (pi_ q) * (cos ((ah_ q) * (pi_ q) * z)) / (Cp_ q) + (Pref_ q) * (MW_ q) / (R_ q) /
   ((hnot_ q) * (cos ((ah_ q) * (pi_ q) * x)) * (cos ((ah_ q) * (pi_ q) * y)) * (cos ((ah_ q) * (pi_ q) * z)) / (Cp_ q) + (Tref_ q)) * (vnot_ q) * (sin ((a_ q) * (pi_ q) *
   x)) * (((sin ((a_ q) * (pi_ q) * y))) ^ 2) * (a_ q) * (pi_ q) * (((sin ((a_ q) * (pi_ q) * z))) ^ 2) * (unot_ q) * (cos ((a_ q) * (pi_ q) * x)) - (Pref_ q) * (MW_ q) /
   (R_ q) / ((hnot_ q) * (cos ((ah_ q) * (pi_ q) * x)) * (cos ((ah_ q) * (pi_ q) * y)) * (cos ((ah_ q) * (pi_ q) * z)) / (Cp_ q) + (Tref_ q)) * (vnot_ q) * (sin ((a_ q) *
   (pi_ q) * x)) * (((cos ((a_ q) * (pi_ q) * y))) ^ 2) * (((sin ((a_ q) * (pi_ q) * z))) ^ 2) * (unot_ q) * (cos ((a_ q) * (pi_ q) * x)) * (a_ q) * (pi_ q) + (Pref_ q) *
   (MW_ q) / (R_ q) * (inv2 ((hnot_ q) * (cos ((ah_ q) * (pi_ q) * x)) * (cos ((ah_ q) * (pi_ q) * y)) * (cos ((ah_ q) * (pi_ q) * z)) / (Cp_ q) + (Tref_ q))) * (wnot_ q)
   * (sin ((a_ q) * (pi_ q) * x)) * (((sin ((a_ q) * (pi_ q) * y))) ^ 2) * (cos ((a_ q) * (pi_ q) * z)) * (unot_ q) * (cos ((a_ q) * (pi_ q) * x)) * (sin ((a_ q) * (pi_ q)
   * z)) * (hnot_ q) * (cos ((ah_ q) * (pi_ q) * x)) * (cos ((ah_ q) * (pi_ q) * y)) * (sin ((ah_ q) * (pi_ q) * z)) * (ah_ q) * (pi_ q) / (Cp_ q) - (Pref_ q) * (MW_ q) /
   (R_ q) / ((hnot_ q) * (cos ((ah_ q) * (pi_ q) * x)) * (cos ((ah_ q) * (pi_ q) * y)) * (cos ((ah_ q) * (pi_ q) * z)) / (Cp_ q) + (Tref_ q)) * (wnot_ q) * (sin ((a_ q) *
   (pi_ q) * x)) * (((sin ((a_ q) * (pi_ q) * y))) ^ 2) * (((sin ((a_ q) * (pi_ q) * z))) ^ 2) * (a_ q) * (pi_ q) * (unot_ q) * (cos ((a_ q) * (pi_ q) * x)) + (Pref_ q) *
   (MW_ q) / (R_ q) / ((hnot_ q) * (cos ((ah_ q) * (pi_ q) * x)) * (cos ((ah_ q) * (pi_ q) * y)) * (cos ((ah_ q) * (pi_ q) * z)) / (Cp_ q) + (Tref_ q)) * (wnot_ q) * (sin
   ((a_ q) * (pi_ q) * x)) * (((sin ((a_ q) * (pi_ q) * y))) ^ 2) * (((cos ((a_ q) * (pi_ q) * z))) ^ 2) * (unot_ q) * (cos ((a_ q) * (pi_ q) * x)) * (a_ q) * (pi_ q) -
   (visc_ q) * ((- ((unot_ q) * (cos ((a_ q) * (pi_ q) * x)) * (a_ q) * (a_ q) * (pi_ q) * (pi_ q) * (sin ((a_ q) * (pi_ q) * y)) * (sin ((a_ q) * (pi_ q) * z)) - (vnot_
   q) * (cos ((a_ q) * (pi_ q) * x)) * (a_ q) * (a_ q) * (pi_ q) * (pi_ q) * (sin ((a_ q) * (pi_ q) * y)) * (sin ((a_ q) * (pi_ q) * z)) + (wnot_ q) * (cos ((a_ q) * (pi_
   q) * x)) * (a_ q) * (a_ q) * (pi_ q) * (pi_ q) * (sin ((a_ q) * (pi_ q) * y)) * (sin ((a_ q) * (pi_ q) * z)))) * (twoThirds_ q) + 2 * (unot_ q) * (cos ((a_ q) * (pi_ q)
   * x)) * (a_ q) * (a_ q) * (pi_ q) * (pi_ q) * (sin ((a_ q) * (pi_ q) * y)) * (sin ((a_ q) * (pi_ q) * z))) - (visc_ q) * ((unot_ q) * (cos ((a_ q) * (pi_ q) * x)) * (a_
   q) * (a_ q) * (pi_ q) * (pi_ q) * (sin ((a_ q) * (pi_ q) * y)) * (sin ((a_ q) * (pi_ q) * z)) - (vnot_ q) * (cos ((a_ q) * (pi_ q) * x)) * (a_ q) * (a_ q) * (pi_ q) *
   (pi_ q) * (sin ((a_ q) * (pi_ q) * y)) * (sin ((a_ q) * (pi_ q) * z))) - (visc_ q) * ((unot_ q) * (cos ((a_ q) * (pi_ q) * x)) * (a_ q) * (a_ q) * (pi_ q) * (pi_ q) *
   (sin ((a_ q) * (pi_ q) * y)) * (sin ((a_ q) * (pi_ q) * z)) + (wnot_ q) * (cos ((a_ q) * (pi_ q) * x)) * (a_ q) * (a_ q) * (pi_ q) * (pi_ q) * (sin ((a_ q) * (pi_ q) *
   y)) * (sin ((a_ q) * (pi_ q) * z))) + (1 / 2) * (pnot_ q) * (sin (2 * (a_ q) * (pi_ q) * x)) * (a_ q) * (pi_ q) - ((Pref_ q) * (MW_ q) / (R_ q) / ((hnot_ q) * (cos
   ((ah_ q) * (pi_ q) * x)) * (cos ((ah_ q) * (pi_ q) * y)) * (cos ((ah_ q) * (pi_ q) * z)) / (Cp_ q) + (Tref_ q)) - (rhoRef_ q)) * (gx_ q)
| 1%nat => (- (Pref_ q)) * (MW_ q) / (R_ q) * (inv2 ((hnot_ q) * (cos ((ah_ q) * (pi_ q) * x)) * (cos ((ah_ q) * (pi_ q) * y)) * (cos ((ah_ q) * (pi_ q) * z)) / (Cp_ q) +
   (Tref_ q))) * (vnot_ q) * (sin ((a_ q) * (pi_ q) * x)) * (cos ((a_ q) * (pi_ q) * y)) * (((sin ((a_ q) * (pi_ q) * z))) ^ 2) * (unot_ q) * (cos ((a_ q) * (pi_ q) * x))
   * (sin ((a_ q) * (pi_ q) * y)) * (hnot_ q) * (sin ((ah_ q) * (pi_ q) * x)) * (ah_ q) * (pi_ q) * (cos ((ah_ q) * (pi_ q) * y)) * (cos ((ah_ q) * (pi_ q) * z)) / (Cp_ q)
   - (Pref_ q) * (MW_ q) / (R_ q) / ((hnot_ q) * (cos ((ah_ q) * (pi_ q) * x)) * (cos ((ah_ q) * (pi_ q) * y)) * (cos ((ah_ q) * (pi_ q) * z)) / (Cp_ q) + (Tref_ q)) *
   (vnot_ q) * (((cos ((a_ q) * (pi_ q) * x))) ^ 2) * (a_ q) * (pi_ q) * (cos ((a_ q) * (pi_ q) * y)) * (((sin ((a_ q) * (pi_ q) * z))) ^ 2) * (unot_ q) * (sin ((a_ q) *
   (pi_ q) * y)) + (Pref_ q) * (MW_ q) / (R_ q) / ((hnot_ q) * (cos ((ah_ q) * (pi_ q) * x)) * (cos ((ah_ q) * (pi_ q) * y)) * (cos ((ah_ q) * (pi_ q) * z)) / (Cp_ q) +
   (Tref_ q)) * (vnot_ q) * (((sin ((a_ q) * (pi_ q) * x))) ^ 2) * (cos ((a_ q) * (pi_ q) * y)) * (((sin ((a_ q) * (pi_ q) * z))) ^ 2) * (unot_ q) * (a_ q) * (pi_ q) *
   (sin ((a_ q) * (pi_ q) * y)) + (Pref_ q) * (MW_ q) / (R_ q) * (inv2 ((hnot_ q) * (cos ((ah_ q) * (pi_ q) * x)) * (cos ((ah_ q) * (pi_ q) * y)) * (cos ((ah_ q) * (pi_ q)
   * z)) / (Cp_ q) + (Tref_ q))) * (vnot_ q) * (vnot_ q) * (((sin ((a_ q) * (pi_ q) * x))) ^ 2) * (((cos ((a_ q) * (pi_ q) * y))) ^ 2) * (((sin ((a_ q) * (pi_ q) * z))) ^
   2) * (hnot_ q) * (cos ((ah_ q) * (pi_ q) * x)) * (sin ((ah_ q) * (pi_ q) * y)) * (ah_ q) * (pi_ q) * (cos ((ah_ q) * (pi_ q) * z)) / (Cp_ q) - 2 * (Pref_ q) * (MW_ q) /
   (R_ q) / ((hnot_ q) * (cos ((ah_ q) * (pi_ q) * x)) * (cos ((ah_ q) * (pi_ q) * y)) * (cos ((ah_ q) * (pi_ q) * z)) / (Cp_ q) + (Tref_ q)) * (vnot_ q) * (vnot_ q) *
   (((sin ((a_ q) * (pi_ q) * x))) ^ 2) * (cos ((a_ q) * (pi_ q) * y)) * (((sin ((a_ q) * (pi_ q) * z))) ^ 2) * (sin ((a_ q) * (pi_ q) * y)) * (a_ q) * (pi_ q) - (Pref_ q)
   * (MW_ q) / (R_ q) * (inv2 ((hnot_ q) * (cos ((ah_ q) * (pi_ q) * x)) * (cos ((ah_ q) * (pi_ q) * y)) * (cos ((ah_ q) * (pi_ q) * z)) / (Cp_ q) + (Tref_ q))) * (wnot_
   q) * (((sin ((a_ q) * (pi_ q) * x))) ^ 2) * (sin ((a_ q) * (pi_ q) * y)) * (cos ((a_ q) * (pi_ q) * z)) * (vnot_ q) * (cos ((a_ q) * (pi_ q) * y)) * (sin ((a_ q) * (pi_
   q) * z)) * (hnot_ q) * (cos ((ah_ q) * (pi_ q) * x)) * (cos ((ah_ q) * (pi_ q) * y)) * (sin ((ah_ q) * (pi_ q) * z)) * (ah_ q) * (pi_ q) / (Cp_ q) + (Pref_ q) * (MW_ q)
   / (R_ q) / ((hnot_ q) * (cos ((ah_ q) * (pi_ q) * x)) * (cos ((ah_ q) * (pi_ q) * y)) * (cos ((ah_ q) * (pi_ q) * z)) / (Cp_ q) + (Tref_ q)) * (wnot_ q) * (((sin ((a_
   q) * (pi_ q) * x))) ^ 2) * (sin ((a_ q) * (pi_ q) * y)) * (((sin ((a_ q) * (pi_ q) * z))) ^ 2) * (a_ q) * (pi_ q) * (vnot_ q) * (cos ((a_ q) * (pi_ q) * y)) - (Pref_ q)
   * (MW_ q) / (R_ q) / ((hnot_ q) * (cos ((ah_ q) * (pi_ q) * x)) * (cos ((ah_ q) * (pi_ q) * y)) * (cos ((ah_ q) * (pi_ q) * z)) / (Cp_ q) + (Tref_ q)) * (wnot_ q) *
   (((sin ((a_ q) * (pi_ q) * x))) ^ 2) * (sin ((a_ q) * (pi_ q) * y)) * (((cos ((a_ q) * (pi_ q) * z))) ^ 2) * (vnot_ q) * (cos ((a_ q) * (pi_ q) * y)) * (a_ q) * (pi_ q)
   - (visc_ q) * ((unot_ q) * (sin ((a_ q) * (pi_ q) * x)) * (a_ q) * (a_ q) * (pi_ q) * (pi_ q) * (cos ((a_ q) * (pi_ q) * y)) * (sin ((a_ q) * (pi_ q) * z)) - (vnot_ q)
   * (sin ((a_ q) * (pi_ q) * x)) * (a_ q) * (a_ q) * (pi_ q) * (pi_ q) * (cos ((a_ q) * (pi_ q) * y)) * (sin ((a_ q) * (pi_ q) * z))) - (visc_ q) * ((- ((unot_ q) * (sin
   ((a_ q) * (pi_ q) * x)) * (a_ q) * (a_ q) * (pi_ q) * (pi_ q) * (cos ((a_ q) * (pi_ q) * y)) * (sin ((a_ q) * (pi_ q) * z)) - (vnot_ q) * (sin ((a_ q) * (pi_ q) * x)) *
   (a_ q) * (a_ q) * (pi_ q) * (pi_ q) * (cos ((a_ q) * (pi_ q) * y)) * (sin ((a_ q) * (pi_ q) * z)) + (wnot_ q) * (sin ((a_ q) * (pi_ q) * x)) * (cos ((a_ q) * (pi_ q) *
   y)) * (a_ q) * (a_ q) * (pi_ q) * (pi_ q) * (sin ((a_ q) * (pi_ q) * z)))) * (twoThirds_ q) - 2 * (vnot_ q) * (sin ((a_ q) * (pi_ q) * x)) * (a_ q) * (a_ q) * (pi_ q) *
   (pi_ q) * (cos ((a_ q) * (pi_ q) * y)) * (sin ((a_ q) * (pi_ q) * z))) - (visc_ q) * ((- (vnot_ q)) * (sin ((a_ q) * (pi_ q) * x)) * (a_ q) * (a_ q) * (pi_ q) * (pi_ q)
   * (cos ((a_ q) * (pi_ q) * y)) * (sin ((a_ q) * (pi_ q) * z)) + (wnot_ q) * (sin ((a_ q) * (pi_ q) * x)) * (cos ((a_ q) * (pi_ q) * y)) * (a_ q) * (a_ q) * (pi_ q) *
   (pi_ q) * (sin ((a_ q) * (pi_ q) * z))) + (1 / 2) * (pnot_ q) * (sin (2 * (a_ q) * (pi_ q) * y)) * (a_ q) * (pi_ q) - ((Pref_ q) * (MW_ q) / (R_ q) / ((hnot_ q) * (cos
   ((ah_ q) * (pi_ q) * x)) * (cos ((ah_ q) * (pi_ q) * y)) * (cos ((ah_ q) * (pi_ q) * z)) / (Cp_ q) + (Tref_ q)) - (rhoRef_ q)) * (gy_ q)
| 2%nat => (Pref_ q) * (MW_ q) / (R_ q) * (inv2 ((hnot_ q) * (cos ((ah_ q) * (pi_ q) * x)) * (cos ((ah_ q) * (pi_ q) * y)) * (cos ((ah_ q) * (pi_ q) * z)) / (Cp_ q) +
   (Tref_ q))) * (wnot_ q) * (sin ((a_ q) * (pi_ q) * x)) * (((sin ((a_ q) * (pi_ q) * y))) ^ 2) * (cos ((a_ q) * (pi_ q) * z)) * (unot_ q) * (cos ((a_ q) * (pi_ q) * x))
   * (sin ((a_ q) * (pi_ q) * z)) * (hnot_ q) * (sin ((ah_ q) * (pi_ q) * x)) * (ah_ q) * (pi_ q) * (cos ((ah_ q) * (pi_ q) * y)) * (cos ((ah_ q) * (pi_ q) * z)) / (Cp_ q)
   + (Pref_ q) * (MW_ q) / (R_ q) / ((hnot_ q) * (cos ((ah_ q) * (pi_ q) * x)) * (cos ((ah_ q) * (pi_ q) * y)) * (cos ((ah_ q) * (pi_ q) * z)) / (Cp_ q) + (Tref_ q)) *
   (wnot_ q) * (((cos ((a_ q) * (pi_ q) * x))) ^ 2) * (a_ q) * (pi_ q) * (((sin ((a_ q) * (pi_ q) * y))) ^ 2) * (cos ((a_ q) * (pi_ q) * z)) * (unot_ q) * (sin ((a_ q) *
   (pi_ q) * z)) - (Pref_ q) * (MW_ q) / (R_ q) / ((hnot_ q) * (cos ((ah_ q) * (pi_ q) * x)) * (cos ((ah_ q) * (pi_ q) * y)) * (cos ((ah_ q) * (pi_ q) * z)) / (Cp_ q) +
   (Tref_ q)) * (wnot_ q) * (((sin ((a_ q) * (pi_ q) * x))) ^ 2) * (((sin ((a_ q) * (pi_ q) * y))) ^ 2) * (cos ((a_ q) * (pi_ q) * z)) * (unot_ q) * (a_ q) * (pi_ q) *
   (sin ((a_ q) * (pi_ q) * z)) - (Pref_ q) * (MW_ q) / (R_ q) * (inv2 ((hnot_ q) * (cos ((ah_ q) * (pi_ q) * x)) * (cos ((ah_ q) * (pi_ q) * y)) * (cos ((ah_ q) * (pi_ q)
   * z)) / (Cp_ q) + (Tref_ q))) * (wnot_ q) * (((sin ((a_ q) * (pi_ q) * x))) ^ 2) * (sin ((a_ q) * (pi_ q) * y)) * (cos ((a_ q) * (pi_ q) * z)) * (vnot_ q) * (cos ((a_
   q) * (pi_ q) * y)) * (sin ((a_ q) * (pi_ q) * z)) * (hnot_ q) * (cos ((ah_ q) * (pi_ q) * x)) * (sin ((ah_ q) * (pi_ q) * y)) * (ah_ q) * (pi_ q) * (cos ((ah_ q) * (pi_
   q) * z)) / (Cp_ q) - (Pref_ q) * (MW_ q) / (R_ q) / ((hnot_ q) * (cos ((ah_ q) * (pi_ q) * x)) * (cos ((ah_ q) * (pi_ q) * y)) * (cos ((ah_ q) * (pi_ q) * z)) / (Cp_ q)
   + (Tref_ q)) * (wnot_ q) * (((sin ((a_ q) * (pi_ q) * x))) ^ 2) * (((cos ((a_ q) * (pi_ q) * y))) ^ 2) * (a_ q) * (pi_ q) * (cos ((a_ q) * (pi_ q) * z)) * (vnot_ q) *
   (sin ((a_ q) * (pi_ q) * z)) + (Pref_ q) * (MW_ q) / (R_ q) / ((hnot_ q) * (cos ((ah_ q) * (pi_ q) * x)) * (cos ((ah_ q) * (pi_ q) * y)) * (cos ((ah_ q) * (pi_ q) * z))
   / (Cp_ q) + (Tref_ q)) * (wnot_ q) * (((sin ((a_ q) * (pi_ q) * x))) ^ 2) * (((sin ((a_ q) * (pi_ q) * y))) ^ 2) * (cos ((a_ q) * (pi_ q) * z)) * (vnot_ q) * (a_ q) *
   (pi_ q) * (sin ((a_ q) * (pi_ q) * z)) + (Pref_ q) * (MW_ q) / (R_ q) * (inv2 ((hnot_ q) * (cos ((ah_ q) * (pi_ q) * x)) * (cos ((ah_ q) * (pi_ q) * y)) * (cos ((ah_ q)
   * (pi_ q) * z)) / (Cp_ q) + (Tref_ q))) * (wnot_ q) * (wnot_ q) * (((sin ((a_ q) * (pi_ q) * x))) ^ 2) * (((sin ((a_ q) * (pi_ q) * y))) ^ 2) * (((cos ((a_ q) * (pi_ q)
   * z))) ^ 2) * (hnot_ q) * (cos ((ah_ q) * (pi_ q) * x)) * (cos ((ah_ q) * (pi_ q) * y)) * (sin ((ah_ q) * (pi_ q) * z)) * (ah_ q) * (pi_ q) / (Cp_ q) - 2 * (Pref_ q) *
   (MW_ q) / (R_ q) / ((hnot_ q) * (cos ((ah_ q) * (pi_ q) * x)) * (cos ((ah_ q) * (pi_ q) * y)) * (cos ((ah_ q) * (pi_ q) * z)) / (Cp_ q) + (Tref_ q)) * (wnot_ q) *
   (wnot_ q) * (((sin ((a_ q) * (pi_ q) * x))) ^ 2) * (((sin ((a_ q) * (pi_ q) * y))) ^ 2) * (cos ((a_ q) * (pi_ q) * z)) * (sin ((a_ q) * (pi_ q) * z)) * (a_ q) * (pi_ q)
   - (visc_ q) * ((unot_ q) * (sin ((a_ q) * (pi_ q) * x)) * (a_ q) * (a_ q) * (pi_ q) * (pi_ q) * (sin ((a_ q) * (pi_ q) * y)) * (cos ((a_ q) * (pi_ q) * z)) + (wnot_ q)
   * (sin ((a_ q) * (pi_ q) * x)) * (a_ q) * (a_ q) * (pi_ q) * (pi_ q) * (sin ((a_ q) * (pi_ q) * y)) * (cos ((a_ q) * (pi_ q) * z))) - (visc_ q) * ((- (vnot_ q)) * (sin
   ((a_ q) * (pi_ q) * x)) * (sin ((a_ q) * (pi_ q) * y)) * (a_ q) * (a_ q) * (pi_ q) * (pi_ q) * (cos ((a_ q) * (pi_ q) * z)) + (wnot_ q) * (sin ((a_ q) * (pi_ q) * x)) *
   (a_ q) * (a_ q) * (pi_ q) * (pi_ q) * (sin ((a_ q) * (pi_ q) * y)) * (cos ((a_ q) * (pi_ q) * z))) - (visc_ q) * ((- ((unot_ q) * (sin ((a_ q) * (pi_ q) * x)) * (a_ q)
   * (a_ q) * (pi_ q) * (pi_ q) * (sin ((a_ q) * (pi_ q) * y)) * (cos ((a_ q) * (pi_ q) * z)) - (vnot_ q) * (sin ((a_ q) * (pi_ q) * x)) * (sin ((a_ q) * (pi_ q) * y)) *
   (a_ q) * (a_ q) * (pi_ q) * (pi_ q) * (cos ((a_ q) * (pi_ q) * z)) + (wnot_ q) * (sin ((a_ q) * (pi_ q) * x)) * (a_ q) * (a_ q) * (pi_ q) * (pi_ q) * (sin ((a_ q) *
   (pi_ q) * y)) * (cos ((a_ q) * (pi_ q) * z)))) * (twoThirds_ q) + 2 * (wnot_ q) * (sin ((a_ q) * (pi_ q) * x)) * (a_ q) * (a_ q) * (pi_ q) * (pi_ q) * (sin ((a_ q) *
   (pi_ q) * y)) * (cos ((a_ q) * (pi_ q) * z))) + (1 / 2) * (pnot_ q) * (sin (2 * (a_ q) * (pi_ q) * z)) * (a_ q) * (pi_ q) - ((Pref_ q) * (MW_ q) / (R_ q) / ((hnot_ q) *
   (cos ((ah_ q) * (pi_ q) * x)) * (cos ((ah_ q) * (pi_ q) * y)) * (cos ((ah_ q) * (pi_ q) * z)) / (Cp_ q) + (Tref_ q)) - (rhoRef_ q)) * (gz_ q)
  | _ => 0 end.
(** constructor constants of VariableDensityNonIsoMomentumSrcNodeSuppAlg.C; fields it does not have are 0 *)
Definition vn_momentum_par (includeDivU rhoRef gx gy gz : R) : par := mkPar 1 1 1 1 0 1 20 0 10 0 (1 / 800) 0 0 0 0 100 30 10 300 (1 / 100) PI (2 / 3 * includeDivU) rhoRef
   gx gy gz 0 0 0 0 0 0 0 0.
(* ---------------------------------------------------------------- Boussinesq *)
(** BoussinesqNonIsoVelocityAuxFunction.C line 48: fieldPtr[0..2]. *)
Definition bq_velocity (q : par) (i : nat) : field := fun t x y z => match i with
| 0%nat => (1 / 2) * (cos (2 * PI * x)) * (sin (2 * PI * y)) * (sin (2 * PI * z))
| 1%nat => (- (sin (2 * PI * x))) * (cos (2 * PI * y)) * (sin (2 * PI * z))
| 2%nat => (1 / 2) * (sin (2 * PI * x)) * (sin (2 * PI * y)) * (cos (2 * PI * z))
  | _ => 0 end.
(** BoussinesqNonIsoTemperatureAuxFunction.C line 43: h. *)
Definition bq_enthalpy (q : par) : field := fun t x y z => z.
(** BoussinesqNonIsoTemperatureAuxFunction.C line 45: temp. *)
Definition bq_temperature (q : par) : field := fun t x y z => bq_enthalpy q t x y z / (Cp_ q) + (Tref_ q).
(** constructor constants of BoussinesqNonIsoTemperatureAuxFunction.C; fields it does not have are 0 *)
Definition bq_temperature_par : par := mkPar 0 0 0 0 0 0 0 0 0 0 0 0 0 0 0 0 0 0 300 (1 / 100) 0 0 0 0 0 0 0 0 0 0 0 0 0 0.
(** BoussinesqNonIsoEnthalpySrcNodeSuppAlg.C line 70: src. *)
Definition bq_enthalpy_src (q : par) : field := fun t x y z => ((cos (2 * PI * z)) * (sin (2 * PI * x)) * (sin (2 * PI * y))) / 2.
(** BoussinesqNonIsoMomentumSrcNodeSuppAlg.C line 81: srcXi[0..2]. (the buoyancy of lines 93-99 is bq_buoyancy_src) *)
Definition bq_momentum_src (q : par) (i : nat) : field := fun t x y z => let mu := visc_ q in match i with
| 0%nat => (- (PI * (1 + (cos (4 * PI * y)) - 2 * (cos (4 * PI * z))) * (sin (4 * PI * x)))) / 8 + 6 * mu * (PI * PI) * (cos (2 * PI * x)) * (sin (2 * PI * y)) * (sin (2 *
   PI * z))
| 1%nat => (PI * (((- 2) + (cos (4 * PI * x)) + (cos (4 * PI * z))) * (sin (4 * PI * y)) - 48 * mu * PI * (cos (2 * PI * y)) * (sin (2 * PI * x)) * (sin (2 * PI * z)))) /
   4
| 2%nat => (PI * (24 * mu * PI * (cos (2 * PI * z)) * (sin (2 * PI * x)) * (sin (2 * PI * y)) + ((cos (4 * PI * x)) - ((cos (2 * PI * y)) * (cos (2 * PI * y)))) * (sin (4
   * PI * z)))) / 4
  | _ => 0 end.
(** constructor constants of BoussinesqNonIsoMomentumSrcNodeSuppAlg.C; fields it does not have are 0 *)
Definition bq_momentum_par : par := mkPar 0 0 0 0 0 0 0 0 0 0 (1 / 800) 0 0 0 0 0 0 0 0 (1 / 100) 0 0 1 0 0 0 0 0 0 0 0 0 0 0.
(** BoussinesqNonIsoMomentumSrcNodeSuppAlg.C lines 93-99: fac*gravity[d] per unit volume with
    h = z, temperature = h/Cp + TRef, fac = rhoRef*beta*(temperature - TRef). *)
Definition bq_buoyancy_src (Cp rhoRef TRef beta : R) (g : nat -> R) (d : nat) : field := fun t x y z =>
  let h := z in let temperature := h / Cp + TRef in
  let fac := rhoRef * beta * (temperature - TRef) in fac * g d.
(* ---------------------------------------------------------------- steady Taylor vortex *)
(** SteadyTaylorVortexVelocityAuxFunction.C line 48: fieldPtr[0..1]. *)
Definition tv_velocity (q : par) (i : nat) : field := fun t x y z => match i with
| 0%nat => (- (unot_ q)) * (cos ((a_ q) * (pi_ q) * x)) * (sin ((a_ q) * (pi_ q) * y))
| 1%nat => (vnot_ q) * (sin ((a_ q) * (pi_ q) * x)) * (cos ((a_ q) * (pi_ q) * y))
  | _ => 0 end.
(** constructor constants of SteadyTaylorVortexVelocityAuxFunction.C; fields it does not have are 0 *)
Definition tv_velocity_par : par := mkPar 1 1 0 0 0 0 20 0 0 0 0 0 0 0 0 0 0 0 0 0 PI 0 0 0 0 0 0 0 0 0 0 0 0 0.
(** SteadyTaylorVortexPressureAuxFunction.C line 45: fieldPtr[0]. *)
Definition tv_pressure (q : par) : field := fun t x y z => (- (pnot_ q)) / 4 * ((cos (2 * (a_ q) * (pi_ q) * x)) + (cos (2 * (a_ q) * (pi_ q) * y))).
(** constructor constants of SteadyTaylorVortexPressureAuxFunction.C; fields it does not have are 0 *)
Definition tv_pressure_par : par := mkPar 0 0 0 1 0 0 20 0 0 0 0 0 0 0 0 0 0 0 0 0 PI 0 0 0 0 0 0 0 0 0 0 0 0 0.
(** SteadyTaylorVortexGradPressureAuxFunction.C line 46: fieldPtr[0..1]. *)
Definition tv_gradp (q : par) (i : nat) : field := fun t x y z => match i with
| 0%nat => (a_ q) * (pi_ q) / 2 * (sin (2 * (a_ q) * (pi_ q) * x))
| 1%nat => (a_ q) * (pi_ q) / 2 * (sin (2 * (a_ q) * (pi_ q) * y))
  | _ => 0 end.
(** constructor constants of SteadyTaylorVortexGradPressureAuxFunction.C; fields it does not have are 0 *)
Definition tv_gradp_par : par := mkPar 0 0 0 0 0 0 20 0 0 0 0 0 0 0 0 0 0 0 0 0 PI 0 0 0 0 0 0 0 0 0 0 0 0 0.
(** SteadyTaylorVortexContinuitySrcElemKernel.C line 103: src. *)
Definition tv_continuity_src (q : par) : field := fun t x y z => 1 * (inv2 ((znot_ q) * (cos ((amf_ q) * (pi_ q) * x)) * (cos ((amf_ q) * (pi_ q) * y)) / (rhoP_ q) + (1 -
   (znot_ q) * (cos ((amf_ q) * (pi_ q) * x)) * (cos ((amf_ q) * (pi_ q) * y))) / (rhoS_ q))) * (unot_ q) * (cos ((a_ q) * (pi_ q) * x)) * (sin ((a_ q) * (pi_ q) * y)) *
   ((- (znot_ q)) * (sin ((amf_ q) * (pi_ q) * x)) * (amf_ q) * (pi_ q) * (cos ((amf_ q) * (pi_ q) * y)) / (rhoP_ q) + (znot_ q) * (sin ((amf_ q) * (pi_ q) * x)) * (amf_
   q) * (pi_ q) * (cos ((amf_ q) * (pi_ q) * y)) / (rhoS_ q)) + 1 / ((znot_ q) * (cos ((amf_ q) * (pi_ q) * x)) * (cos ((amf_ q) * (pi_ q) * y)) / (rhoP_ q) + (1 - (znot_
   q) * (cos ((amf_ q) * (pi_ q) * x)) * (cos ((amf_ q) * (pi_ q) * y))) / (rhoS_ q)) * (unot_ q) * (sin ((a_ q) * (pi_ q) * x)) * (a_ q) * (pi_ q) * (sin ((a_ q) * (pi_
   q) * y)) - 1 * (inv2 ((znot_ q) * (cos ((amf_ q) * (pi_ q) * x)) * (cos ((amf_ q) * (pi_ q) * y)) / (rhoP_ q) + (1 - (znot_ q) * (cos ((amf_ q) * (pi_ q) * x)) * (cos
   ((amf_ q) * (pi_ q) * y))) / (rhoS_ q))) * (vnot_ q) * (sin ((a_ q) * (pi_ q) * x)) * (cos ((a_ q) * (pi_ q) * y)) * ((- (znot_ q)) * (cos ((amf_ q) * (pi_ q) * x)) *
   (sin ((amf_ q) * (pi_ q) * y)) * (amf_ q) * (pi_ q) / (rhoP_ q) + (znot_ q) * (cos ((amf_ q) * (pi_ q) * x)) * (sin ((amf_ q) * (pi_ q) * y)) * (amf_ q) * (pi_ q) /
   (rhoS_ q)) - 1 / ((znot_ q) * (cos ((amf_ q) * (pi_ q) * x)) * (cos ((amf_ q) * (pi_ q) * y)) / (rhoP_ q) + (1 - (znot_ q) * (cos ((amf_ q) * (pi_ q) * x)) * (cos
   ((amf_ q) * (pi_ q) * y))) / (rhoS_ q)) * (vnot_ q) * (sin ((a_ q) * (pi_ q) * x)) * (sin ((a_ q) * (pi_ q) * y)) * (a_ q) * (pi_ q).
(** constructor constants of SteadyTaylorVortexContinuitySrcElemKernel.C; fields it does not have are 0 *)
Definition tv_continuity_par : par := mkPar 1 1 0 1 1 0 20 10 0 0 0 1 1 (9 / 10) 0 0 0 0 0 0 PI 0 0 0 0 0 0 0 0 0 0 0 0 0.
(** SteadyTaylorVortexMomentumSrcElemKernel.C line 91: w_src[0..2]. *)
Definition tv_momentum_src (q : par) (i : nat) : field := fun t x y z => match i with
| 0%nat => (- 2) * (unot_ q) * (a_ q) * (a_ q) * (pi_ q) * (pi_ q) * (visc_ q) * (cos ((a_ q) * (pi_ q) * x)) * (sin ((a_ q) * (pi_ q) * y))
| 1%nat => 2 * (unot_ q) * (a_ q) * (a_ q) * (pi_ q) * (pi_ q) * (visc_ q) * (sin ((a_ q) * (pi_ q) * x)) * (cos ((a_ q) * (pi_ q) * y))
| 2%nat => 0
  | _ => 0 end.
(** constructor constants of SteadyTaylorVortexMomentumSrcElemKernel.C; fields it does not have are 0 *)
Definition tv_momentum_par : par := mkPar 1 0 0 0 0 0 20 0 0 0 (1 / 1000) 0 0 0 0 0 0 0 0 0 PI 0 0 0 0 0 0 0 0 0 0 0 0 0.
(* ---------------------------------------------------------------- convecting Taylor vortex *)
(** ConvectingTaylorVortexVelocityAuxFunction.C line 49: fieldPtr[0..1]. *)
Definition cv_velocity (q : par) (i : nat) : field := fun t x y z => let omega := pi_ q * pi_ q * visc_ q in match i with
| 0%nat => (uNot_ q) - (cos ((pi_ q) * (x - (uNot_ q) * t))) * (sin ((pi_ q) * (y - (vNot_ q) * t))) * (exp ((- 2) * omega * t))
| 1%nat => (vNot_ q) + (sin ((pi_ q) * (x - (uNot_ q) * t))) * (cos ((pi_ q) * (y - (vNot_ q) * t))) * (exp ((- 2) * omega * t))
  | _ => 0 end.
(** constructor constants of ConvectingTaylorVortexVelocityAuxFunction.C; fields it does not have are 0 *)
Definition cv_velocity_par : par := mkPar 0 0 0 0 0 0 0 0 0 0 (1 / 1000) 0 0 0 0 0 0 0 0 0 PI 0 0 0 0 0 1 1 0 0 0 0 0 0.
(** ConvectingTaylorVortexPressureAuxFunction.C line 49: fieldPtr[0]. *)
Definition cv_pressure (q : par) : field := fun t x y z => let omega := pi_ q * pi_ q * visc_ q in (- ((pNot_ q) / 4)) * ((cos (2 * (pi_ q) * (x - (uNot_ q) * t))) + (cos
   (2 * (pi_ q) * (y - (vNot_ q) * t)))) * (exp ((- 4) * omega * t)).
(** constructor constants of ConvectingTaylorVortexPressureAuxFunction.C (ConvectingTaylorVortexPressureAuxFunction); fields it does not have are 0 *)
Definition cv_pressure_par : par := mkPar 0 0 0 0 0 0 0 0 0 0 (1 / 1000) 0 0 0 0 0 0 0 0 0 PI 0 0 0 0 0 1 1 1 0 0 0 0 0.
(** ConvectingTaylorVortexPressureAuxFunction.C line 87: fieldPtr[0..1]. *)
Definition cv_gradp (q : par) (i : nat) : field := fun t x y z => let omega := pi_ q * pi_ q * visc_ q in match i with
| 0%nat => (- ((pNot_ q) / 4)) * ((- 2) * (pi_ q) * (sin (2 * (pi_ q) * (x - (uNot_ q) * t)))) * (exp ((- 4) * omega * t))
| 1%nat => (- ((pNot_ q) / 4)) * ((- 2) * (pi_ q) * (sin (2 * (pi_ q) * (y - (vNot_ q) * t)))) * (exp ((- 4) * omega * t))
  | _ => 0 end.
(** constructor constants of ConvectingTaylorVortexPressureAuxFunction.C (ConvectingTaylorVortexPressureGradAuxFunction); fields it does not have are 0 *)
Definition cv_gradp_par : par := mkPar 0 0 0 0 0 0 0 0 0 0 (1 / 1000) 0 0 0 0 0 0 0 0 0 PI 0 0 0 0 0 1 1 1 0 0 0 0 0.
(* ---------------------------------------------------------------- Kovasznay flow *)
(** KovasznayVelocityAuxFunction.C line 49: fieldPtr[0..1]. *)
Definition kv_velocity (q : par) (i : nat) : field := fun t x y z => let pi := PI in let lam := 1 / 2 * Re_ q - sqrt (1 / 4 * Re_ q * Re_ q + 4 * pi * pi) in match i with
| 0%nat => 1 - (exp (lam * x)) * (cos ((kx_ q) * y))
| 1%nat => lam / (2 * pi) * (exp (lam * x)) * (sin ((ky_ q) * y))
  | _ => 0 end.
(** constructor constants of KovasznayVelocityAuxFunction.C; fields it does not have are 0 *)
Definition kv_velocity_par : par := mkPar 0 0 0 0 0 0 0 0 0 0 0 0 0 0 0 0 0 0 0 0 0 0 0 0 0 0 0 0 0 0 0 40 (2 * PI) (2 * PI).
(** KovasznayPressureAuxFunction.C line 45: fieldPtr[0]. *)
Definition kv_pressure (q : par) : field := fun t x y z => let pi := PI in let lam := 1 / 2 * Re_ q - sqrt (1 / 4 * Re_ q * Re_ q + 4 * pi * pi) in (1 / 2) * (1 - (exp (2
   * lam * x))).
(** constructor constants of KovasznayPressureAuxFunction.C (KovasznayPressureAuxFunction); fields it does not have are 0 *)
Definition kv_pressure_par : par := mkPar 0 0 0 0 0 0 0 0 0 0 0 0 0 0 0 0 0 0 0 0 0 0 0 0 0 0 0 0 0 0 0 40 0 0.
(** KovasznayPressureAuxFunction.C line 78: fieldPtr[0..1]. *)
Definition kv_gradp (q : par) (i : nat) : field := fun t x y z => let pi := PI in let lam := 1 / 2 * Re_ q - sqrt (1 / 4 * Re_ q * Re_ q + 4 * pi * pi) in match i with
| 0%nat => (- lam) * (exp (2 * lam * x))
| 1%nat => 0
  | _ => 0 end.
(** constructor constants of KovasznayPressureAuxFunction.C (KovasznayPressureGradientAuxFunction); fields it does not have are 0 *)
Definition kv_gradp_par : par := mkPar 0 0 0 0 0 0 0 0 0 0 0 0 0 0 0 0 0 0 0 0 0 0 0 0 0 0 0 0 0 0 0 40 0 0.
(* ---------------------------------------------------------------- Taylor-Green vortex (initial state) *)
(** TaylorGreenVelocityAuxFunction.C line 50: fieldPtr[0..2]. *)
Definition tg_velocity (q : par) (i : nat) : field := fun t x y z => match i with
| 0%nat => (uNot_ q) * (sin (x / (L_ q))) * (cos (y / (L_ q))) * (cos (z / (L_ q)))
| 1%nat => (- (uNot_ q)) * (cos (x / (L_ q))) * (sin (y / (L_ q))) * (cos (z / (L_ q)))
| 2%nat => 0
  | _ => 0 end.
(** constructor constants of TaylorGreenVelocityAuxFunction.C; fields it does not have are 0 *)
Definition tg_velocity_par : par := mkPar 0 0 0 0 0 0 0 0 0 0 0 0 0 0 0 0 0 0 0 0 0 0 0 0 0 0 1 0 0 0 1 0 0 0.
(** TaylorGreenPressureAuxFunction.C line 48: fieldPtr[0]. *)
Definition tg_pressure (q : par) : field := fun t x y z => (pNot_ q) + (rhoNot_ q) * (uNot_ q) * (uNot_ q) / 16 * ((cos (2 * x / (L_ q))) + (cos (2 * y / (L_ q)))) * ((cos
   (2 * z / (L_ q))) + 2).
(** constructor constants of TaylorGreenPressureAuxFunction.C; fields it does not have are 0 *)
Definition tg_pressure_par : par := mkPar 0 0 0 0 0 0 0 0 0 0 0 0 0 0 0 0 0 0 0 0 0 0 0 0 0 0 1 0 1 1 1 0 0 0.
(* ---------------------------------------------------------------- steady heat conduction *)
(** SteadyThermalContactAuxFunction.C line 46: fieldPtr[0]. *)
Definition sc_temperature (q : par) : field := fun t x y z => (k_ q) / 4 * ((cos (2 * (a_ q) * (pi_ q) * x)) + (cos (2 * (a_ q) * (pi_ q) * y))).
(** constructor constants of SteadyThermalContactAuxFunction.C; fields it does not have are 0 *)
Definition sc_temperature_par : par := mkPar 0 0 0 0 0 0 1 0 0 1 0 0 0 0 0 0 0 0 0 0 PI 0 0 0 0 0 0 0 0 0 0 0 0 0.
(** SteadyThermalContactSrcNodeSuppAlg.C line 70: rhs[0]. (per unit dual volume) *)
Definition sc_node_src (q : par) : field := fun t x y z => (k_ q) / 4 * (2 * (a_ q) * (pi_ q)) * (2 * (a_ q) * (pi_ q)) * ((cos (2 * (a_ q) * (pi_ q) * x)) + (cos (2 * (a_
   q) * (pi_ q) * y))) * 1.
(** constructor constants of SteadyThermalContactSrcNodeSuppAlg.C; fields it does not have are 0 *)
Definition sc_node_par : par := mkPar 0 0 0 0 0 0 1 0 0 1 0 0 0 0 0 0 0 0 0 0 PI 0 0 0 0 0 0 0 0 0 0 0 0 0.
(** SteadyThermal3dContactAuxFunction.C line 47: fieldPtr[0]. *)
Definition s3_temperature (q : par) : field := fun t x y z => (k_ q) / 4 * ((cos (2 * (a_ q) * (pi_ q) * x)) + (cos (2 * (a_ q) * (pi_ q) * y)) + (cos (2 * (a_ q) * (pi_
   q) * z))).
(** constructor constants of SteadyThermal3dContactAuxFunction.C; fields it does not have are 0 *)
Definition s3_temperature_par : par := mkPar 0 0 0 0 0 0 1 0 0 1 0 0 0 0 0 0 0 0 0 0 PI 0 0 0 0 0 0 0 0 0 0 0 0 0.
(** SteadyThermal3dContactDtDxAuxFunction.C line 49: fieldPtr[0..2]. *)
Definition s3_gradient (q : par) (i : nat) : field := fun t x y z => let fac := 2 * a_ q * pi_ q * k_ q / 4 in match i with
| 0%nat => (- fac) * (sin (2 * (a_ q) * (pi_ q) * x))
| 1%nat => (- fac) * (sin (2 * (a_ q) * (pi_ q) * y))
| 2%nat => (- fac) * (sin (2 * (a_ q) * (pi_ q) * z))
  | _ => 0 end.
(** constructor constants of SteadyThermal3dContactDtDxAuxFunction.C; fields it does not have are 0 *)
Definition s3_gradient_par : par := mkPar 0 0 0 0 0 0 1 0 0 1 0 0 0 0 0 0 0 0 0 0 PI 0 0 0 0 0 0 0 0 0 0 0 0 0.
(** SteadyThermalContact3DSrcNodeSuppAlg.C line 71: rhs[0]. (per unit dual volume) *)
Definition s3_node_src (q : par) : field := fun t x y z => (k_ q) / 4 * (2 * (a_ q) * (pi_ q)) * (2 * (a_ q) * (pi_ q)) * ((cos (2 * (a_ q) * (pi_ q) * x)) + (cos (2 * (a_
   q) * (pi_ q) * y)) + (cos (2 * (a_ q) * (pi_ q) * z))) * 1.
(** constructor constants of SteadyThermalContact3DSrcNodeSuppAlg.C; fields it does not have are 0 *)
Definition s3_node_par : par := mkPar 0 0 0 0 0 0 1 0 0 1 0 0 0 0 0 0 0 0 0 0 PI 0 0 0 0 0 0 0 0 0 0 0 0 0.
(** SteadyThermal3dContactSrcElemKernel.C line 83: rhs(nearestNode). (per unit sub-control volume, at its integration point) *)
Definition s3_elem_src (q : par) : field := fun t x y z => (k_ q) / 4 * (2 * (a_ q) * (pi_ q)) * (2 * (a_ q) * (pi_ q)) * ((cos (2 * (a_ q) * (pi_ q) * x)) + (cos (2 * (a_
   q) * (pi_ q) * y)) + (cos (2 * (a_ q) * (pi_ q) * z))) * 1.
(** constructor constants of SteadyThermal3dContactSrcElemKernel.C; fields it does not have are 0 *)
Definition s3_elem_par : par := mkPar 0 0 0 0 0 0 1 0 0 1 0 0 0 0 0 0 0 0 0 0 PI 0 0 0 0 0 0 0 0 0 0 0 0 0.
(** SteadyThermalContactSrcElemSuppAlg.C line 142: rhs[nearestNode]. (per unit sub-control volume, at its integration point) *)
Definition sc_elem_src (q : par) : field := fun t x y z => (k_ q) / 4 * (2 * (a_ q) * (pi_ q)) * (2 * (a_ q) * (pi_ q)) * ((cos (2 * (a_ q) * (pi_ q) * x)) + (cos (2 * (a_
   q) * (pi_ q) * y))) * 1.
(** constructor constants of SteadyThermalContactSrcElemSuppAlg.C; fields it does not have are 0 *)
Definition sc_elem_par : par := mkPar 0 0 0 0 0 0 1 0 0 1 0 0 0 0 0 0 0 0 0 0 PI 0 0 0 0 0 0 0 0 0 0 0 0 0.
