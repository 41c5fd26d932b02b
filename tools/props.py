#!/usr/bin/env python3
"""Source of /verif/properties.jsonl (run: python3 tools/props.py)."""
import json, os
P = []
def p(id, title, statement, quantifier, why, anchors):
    P.append(dict(id=id, title=title, statement=statement, quantifier=quantifier,
                  why_tests_cant=why, anchors=anchors))

p("C01", "BDF2/BE time coefficients are consistent",
  "The coefficients returned by get_gamma1/2/3 sum to zero on every step, and from the second step on of a second-order run (gamma1*q(t)+gamma2*q(t-dtN)+gamma3*q(t-dtN-dtNm1))/dtN equals q'(t) exactly for every quadratic q, whatever the ratio of the two step sizes; on the first step (and in first-order runs) the formula is backward Euler and exact for linear q.",
  "every sequence of positive step sizes, every step index, every quadratic polynomial",
  "The step-size ratio is a continuous parameter that adaptive stepping drives through arbitrary values; a test samples a few ratios.",
  ["src/TimeIntegrator.C:TimeIntegrator::compute_gamma", "src/TimeIntegrator.C:TimeIntegrator::integrate_realm", "src/ScalarMassBDF2NodeSuppAlg.C"])
p("C02", "Step-count termination performs exactly the requested steps",
  "With termination_step_count=N (which prevails over termination_time) a run starting at step count c performs exactly max(0,N-c) time steps, numbered c+1..N, and reports a final time equal to the start time plus the sum of the step sizes used.",
  "every N, every starting count (fresh or restarted), every sequence of negotiated step sizes",
  "Off-by-one in the loop only shows for particular (count, limit) pairs, including restart counts beyond the limit.",
  ["src/TimeIntegrator.C:TimeIntegrator::load", "src/TimeIntegrator.C:TimeIntegrator::simulation_proceeds", "src/TimeIntegrator.C:TimeIntegrator::integrate_realm"])
p("C03", "Time-based termination stops at the first step that reaches the end time",
  "With termination_time=T and fixed step dt>0 the run terminates; no step is started at or after T; the final time is >= T and exceeds T by less than one dt, and the number of steps is ceil((T-t0)/dt).",
  "every T, start time and positive dt",
  "Termination is a liveness property over unbounded executions.",
  ["src/TimeIntegrator.C:TimeIntegrator::simulation_proceeds", "src/TimeIntegrator.C:TimeIntegrator::integrate_realm"])
p("C04", "Realms advance in lock step through ordered phases",
  "In every time step, for every realm list and every nonlinear-iteration count, all realms swap and predict states before any realm moves its mesh, all realms move mesh and populate boundary data before any realm solves, each nonlinear iteration advances every realm once in list order and immediately transfers its data, and every realm's output happens after the last solve of every realm; nothing from step n+1 precedes anything of step n.",
  "every number of realms, nonlinear iterations and time steps",
  "Ordering has to hold for every interleaving-size combination, a test fixes one.",
  ["src/TimeIntegrator.C:TimeIntegrator::integrate_realm"])
p("C05", "Adaptive time step is bounded and negotiated",
  "With adaptive stepping the step used is the minimum of the realms' proposals (capped at 1e8); each proposal lies between dt/f and dt*f where f>=1 is the user's change factor, is positive if dt is, and if the bound is not active the proposal targets exactly the requested Courant number.",
  "every realm list, Courant number >0, previous step, change factor, target",
  "Continuous-valued controller; only boundary combinations break it.",
  ["src/Realm.C:Realm::compute_adaptive_time_step", "src/TimeIntegrator.C:TimeIntegrator::integrate_realm"])
p("C06", "Resuming from a restart file continues the same time history",
  "If a run is stopped after any step whose restart record was written and resumed from that record with the same input, the resumed run goes through exactly the same sequence of (count, time, dtN, dtNm1, gamma1..3) as the uninterrupted run.",
  "every crash/stop point at a restart record, every step-size controller that is a function of the saved state, fixed and adaptive stepping, first and second order",
  "The stop point ranges over all steps of all runs.",
  ["src/TimeIntegrator.C:TimeIntegrator::integrate_realm", "src/Realm.C:Realm::provide_restart_output", "src/Realm.C:Realm::populate_restart"])
p("C07", "Output and restart schedule",
  "A results (restart) file entry is written at step c iff frequency>0 and (c>=start and frequency divides c-start) or the wall-clock forced output fires; forced output fires at most once per run; with frequency 0 nothing is written.",
  "every step history, start, frequency, wall-clock history",
  "Schedule must hold over all step counts and clock histories.",
  ["src/Realm.C:Realm::provide_output", "src/Realm.C:Realm::provide_restart_output"])
p("C08", "Nonlinear iteration control",
  "One call of advance_time_step performs at least one and at most max-iterations sweeps when the limit is positive, stops at the first sweep after which every equation system is converged, never stops earlier, and a system is converged iff it has no linear system or its scaled nonlinear residual is below its tolerance.",
  "every list of equation systems, every residual history, every iteration limit",
  "Depends on the whole residual history.",
  ["src/Realm.C:Realm::advance_time_step", "src/EquationSystems.C:EquationSystems::solve_and_update", "src/EquationSystem.C:EquationSystem::system_is_converged"])
p("C09", "Prescribed mesh rotation is a rigid motion about its axis",
  "With mesh rotation about a unit axis through the centroid, at every time the current coordinates are an isometric, orientation preserving image of the model coordinates that fixes every point of the axis, and motion at time 0 is the identity; motions compose over time.",
  "every unit axis, centroid, angular speed, time and pair of points",
  "Continuum of angles/axes.",
  ["src/Realm.C:Realm::set_current_displacement", "src/Realm.C:Realm::set_current_coordinates"])
p("C10", "Mesh velocity is the time derivative of mesh position",
  "For a constant-omega rotating mesh the mesh velocity assigned to each node equals the time derivative of that node's current coordinates.",
  "every node position, centroid, unit axis, omega and time",
  "A derivative identity over a continuum.",
  ["src/Realm.C:Realm::set_current_displacement", "src/Realm.C:Realm::set_mesh_velocity", "src/Realm.C:Realm::mesh_velocity_cross_product"])
p("C11", "Six-DOF attitude representation is consistent",
  "The quaternion built from Euler angles has unit norm; the direction-cosine matrix of a unit quaternion is orthogonal with determinant one; converting a vector to the body frame and back is the identity; the Euler angles are recovered away from gimbal lock.",
  "every Euler-angle triple, every unit quaternion, every vector",
  "Continuum of attitudes.",
  ["src/Realm.C:Realm::get_quat_from_eulerxyz", "src/Realm.C:Realm::get_rotmat_from_quat", "src/Realm.C:Realm::get_eulerxyz_from_quat", "src/Realm.C:Realm::convert_vect_to_orig_frame"])
p("C12", "Six-DOF body integration is fourth-order Runge-Kutta",
  "One step of the six-DOF attitude and angular velocity update equals the classical RK4 step of quaternion kinematics / Euler's equations, and the body is advanced once per time step.",
  "every inertia tensor, angular velocity, step size, number of mesh blocks attached to the body",
  "Order of accuracy is an all-inputs algebraic identity.",
  ["src/Realm.C:Realm::update_body_cc", "src/Realm.C:Realm::advance_omega_dt", "src/Realm.C:Realm::update_six_dof_motion"])
p("C13", "Matrix global ids are a bijection with (node, dof)",
  "For every number of dofs per node, the map from (node id>=1, dof) to the row id is injective, its range for N nodes is exactly 1..N*numDof, and the decode used when reporting recovers node and dof.",
  "every node id, numDof>0, dof",
  "Arithmetic bijection over unbounded ids.",
  ["src/TpetraLinearSystem.C:GID_", "src/TpetraLinearSystem.C:GLOBAL_ENTITY_ID"])
p("C14", "Element contributions are summed to exactly the right matrix entries",
  "Assembling an element's dense lhs/rhs adds, for every pair of its dofs, exactly the dense value to the addressed global (row, column) entry and to no other entry, for owned and shared rows, and assembling a list of elements gives the sum in any order.",
  "every element connectivity with sparsity pattern containing it, every lhs/rhs, any order of elements",
  "Sorting/merging loop over arbitrary column lists.",
  ["src/TpetraLinearSystem.C:TpetraLinearSystem::sumInto", "src/TpetraLinearSystem.C:sum_into_row", "src/TpetraLinearSystem.C:sum_into_row_vec_3"])
p("C15", "Dirichlet conditions are imposed exactly and in parallel once",
  "After applying Dirichlet conditions, in the assembled global matrix (after shared rows are exported to their owners) every constrained row is the identity row with right-hand side bc-minus-current value, independent of which ranks hold copies of the node, and other rows are untouched; hence an exact solve followed by the solution update makes the constrained value equal the boundary value.",
  "every matrix, every distribution of copies over ranks, every set of constrained nodes",
  "Depends on the parallel distribution.",
  ["src/TpetraLinearSystem.C:TpetraLinearSystem::applyDirichletBCs", "src/TpetraLinearSystem.C:TpetraLinearSystem::loadComplete"])
p("C16", "Sparsity graph contains every connection",
  "The constructed graph of owned and shared rows contains, for every registered element/edge/face connection, every (row dof, column dof) pair, never overflows the row capacity computed beforehand, has no duplicate and, after compaction, no unused slot; column indices in each row are sorted.",
  "every mesh connectivity and every distribution of ownership",
  "Capacity counted in one pass must be enough for inserts made in another, for all meshes.",
  ["include/LinearSolver.h:LocalGraphArrays", "src/TpetraLinearSystem.C:TpetraLinearSystem::compute_graph_row_lengths", "src/TpetraLinearSystem.C:TpetraLinearSystem::insert_graph_connections"])
p("C17", "Reported residual scaling",
  "The scaled nonlinear residual reported to the convergence test is the current residual divided by the first residual of the time step (guarded from zero), so it is exactly 1 at the first solve of each step and scales invariantly when all residuals are multiplied by a positive constant.",
  "every residual history over any number of steps and iterations",
  "History dependent.",
  ["src/TpetraLinearSystem.C:TpetraLinearSystem::solve", "src/LinearSystem.C"])
p("C18", "Periodic pairs cover each subject node exactly once",
  "With one, two or three periodic pairs, after the redundant-node removal every node on a periodic subject surface belongs to exactly one subject search set, and is paired with the monarch on the opposite side in all its periodic directions.",
  "every node set membership of the periodic surfaces",
  "Set-algebra over all membership combinations of nodes in up to three surface pairs.",
  ["src/PeriodicManager.C:PeriodicManager::augment_periodic_selector_pairs", "src/PeriodicManager.C:PeriodicManager::remove_redundant_subject_nodes"])
p("C19", "Periodic translation vector is recovered",
  "If the subject surface is the monarch surface shifted by a vector, in whatever node order and rank distribution, the translation computed for the pair is exactly that vector (up to its sign convention), and every subject node, moved by it, lands on its monarch image.",
  "every finite point set, shift, order and distribution over ranks",
  "All point sets and distributions.",
  ["src/PeriodicManager.C:PeriodicManager::determine_translation"])
p("C20", "Periodic field synchronisation makes all images agree",
  "After the periodic sum update every node of a periodic equivalence class holds the sum of the class's values, on whatever ranks its nodes live; after the set update every subject holds its monarch's value; ghost copies agree with the owner; nodes outside are unchanged. (The max update is C45.)",
  "every set of subject/monarch pairs (several subjects per monarch allowed), every field",
  "Depends on multiplicity and order of pairs.",
  ["src/PeriodicManager.C:PeriodicManager::apply_constraints", "src/PeriodicManager.C:PeriodicManager::apply_max_field"])
p("C21", "Turbulence averages are time-weighted means",
  "After any number of steps within one averaging window, the Reynolds average of a field equals the step-size weighted mean of the samples since the last reset, and the Favre average the density-weighted mean; the filter size is the sum of the steps; a reset starts a new window with the current sample only.",
  "every history of samples, densities, positive step sizes and resets",
  "An invariant over unbounded histories.",
  ["src/TurbulenceAveragingPostProcessing.C:TurbulenceAveragingPostProcessing::execute"])
p("C22", "Running stresses are covariances",
  "The Reynolds (Favre) stress after any number of steps equals the weighted covariance of the velocity samples of the window: mean(u_i u_j)-mean(u_i)mean(u_j); in particular its diagonal is non-negative, it satisfies the Cauchy-Schwarz bound, and it vanishes for a steady flow.",
  "every velocity/density history and positive step sizes",
  "Algebraic invariant over all histories.",
  ["src/TurbulenceAveragingPostProcessing.C:compute_reynolds_stress", "src/TurbulenceAveragingPostProcessing.C:compute_favre_stress"])
p("C23", "Exponential moving average stays in range",
  "The exponential moving average equals the first sample after one step, always lies between the minimum and maximum of the samples seen, is constant for constant input and contracts towards a constant signal.",
  "every sample history, time scale and step sizes",
  "History dependent.",
  ["src/MovingAveragePostProcessor.C:ExponentialMovingAverager"])
p("C24", "Table interpolation",
  "linear_interp returns table values at the knots, is between neighbouring values inside, reproduces affine data exactly, clamps or extrapolates or throws outside according to the chosen option, and never reads outside the table.",
  "every strictly increasing table of any length >=2, every abscissa",
  "All tables and abscissae.",
  ["include/utils/LinearInterpolation.h"])
p("C25", "SIMD grouping visits every element exactly once",
  "For every bucket length and SIMD width the SIMD groups partition the element index range: group lengths are between 1 and the width, sum to the length, and (group, lane) enumerates each element exactly once; interleaving then reading back lane by lane returns each element's data unchanged.",
  "every bucket length, SIMD width, data",
  "All lengths modulo width.",
  ["include/SimdInterface.h", "include/CopyAndInterleave.h", "include/AssembleElemSolverAlgorithm.h"])
p("C26", "Edge-based scalar transport is conservative",
  "The edge advection-diffusion operator adds equal and opposite right-hand sides and matrix columns to its two nodes, so for every mesh the sum over all nodes of the assembled residual is zero (up to boundary terms) and the column sums of the matrix are zero.",
  "every edge mesh, geometry, field, mass flux, option set (upwind, limiter, Peclet function)",
  "Conservation is a global statement over every mesh and state.",
  ["src/AssembleScalarEdgeSolverAlgorithm.C:AssembleScalarEdgeSolverAlgorithm::execute"])
p("C27", "Edge scalar operator is exact for constants and linear fields and its matrix is a consistent linearisation",
  "For a constant field the diffusive residual is zero and the advective residual is minus the mass flux times the constant; with pure first-order upwind the matrix times the field reproduces the residual exactly, and is an M-matrix row (non-positive off-diagonals).",
  "every geometry, flux, coefficient",
  "Identities over continuous parameters and several option branches.",
  ["src/AssembleScalarEdgeSolverAlgorithm.C:AssembleScalarEdgeSolverAlgorithm::execute"])
p("C28", "van Leer limiter is bounded and sign-correct",
  "The limiter lies in [0,1], is zero when the two slopes differ in sign (extrema), symmetric in its arguments and tends to one for equal slopes, so limited extrapolation does not leave the range of the two neighbours and their mirrored values.",
  "every pair of slopes",
  "Continuous inputs.",
  ["src/AssembleScalarEdgeSolverAlgorithm.C:AssembleScalarEdgeSolverAlgorithm::van_leer"])
p("C29", "Peclet blending function is a blending weight",
  "Both Peclet functions return a value in [0,1] for every Peclet number >=0, the classic function is 0 at 0 and non-decreasing with hybrid limits, the tanh function is non-decreasing.",
  "every Peclet number, every parameter setting",
  "Continuous inputs and user parameters.",
  ["src/PecletFunction.C"])
p("C30", "Shape functions form a nodal basis",
  "For every master element the shape functions sum to one at every parametric point, are one at their own node and zero at the others, and reproduce linear fields; the parametric derivatives sum to zero and are the derivatives of the shape functions.",
  "every parametric point, every element type modelled",
  "Identity over a continuum of points.",
  ["src/master_element/Hex8CVFEM.C", "src/master_element/Tet4CVFEM.C", "src/master_element/Quad42DCVFEM.C", "src/master_element/Tri32DCVFEM.C", "src/master_element/Wed6CVFEM.C", "src/master_element/Pyr5CVFEM.C"])
p("C31", "Control-volume faces close",
  "For every (possibly distorted) element the sub-control-surface area vectors and boundary faces close around every node's sub control volume, and the sub control volumes of an element sum to its volume, so uniform flow is preserved exactly.",
  "every nodal coordinate set",
  "Geometric conservation over all element shapes.",
  ["src/master_element/Quad42DCVFEM.C", "src/master_element/Tri32DCVFEM.C", "src/master_element/Hex8CVFEM.C: HexSCV::determinant, HexSCS::determinant", "src/master_element/Tet4CVFEM.C", "src/master_element/Wed6CVFEM.C", "src/master_element/Pyr5CVFEM.C", "include/master_element/Hex8GeometryFunctions.h", "src/master_element/MasterElementWork.F"])
p("C32", "Small dense linear algebra used by the kernels is correct",
  "solve22/solve33 return the solution of the system when the determinant is nonzero; invert_matrix33 returns the inverse; determinants are multiplicative; cross products are orthogonal to their factors.",
  "every matrix and right-hand side",
  "Continuous inputs; wrong off-diagonal terms vanish on symmetric test matrices.",
  ["include/master_element/TensorOps.h"])
p("C33", "Inverse isoparametric map and point containment",
  "isInElement recovers the parametric coordinates of an image point (affine elements: exactly, in one step), reports a distance <=1 iff the point is inside, and interpolatePoint at the recovered coordinates returns the interpolated nodal field.",
  "every non-degenerate element, every point",
  "Continuum of points.",
  ["src/master_element/Tri32DCVFEM.C", "src/master_element/Tet4CVFEM.C"])
p("C34", "Equation systems are solved in registration order every sweep",
  "Each sweep runs pre-iteration work, then per system in order pre-solve hooks, solve and post-solve hooks, then post-iteration work; the reported mean norm is the ratio of summed norms to summed counts.",
  "every list of systems",
  "All list shapes.",
  ["src/EquationSystems.C:EquationSystems::solve_and_update", "src/EquationSystems.C:EquationSystems::provide_mean_system_norm"])
p("C35", "Second-order mass terms conserve and agree with their Jacobian",
  "The nodal time terms (backward Euler and BDF2) vanish for a steady density-scalar field on a fixed mesh, their left-hand side is the derivative of minus the right-hand side with respect to the new value, and telescoping over steps the backward-Euler term conserves the total rho*q*volume.",
  "every history, densities, volumes, time steps",
  "Algebraic identities over all states.",
  ["src/ScalarMassBDF2NodeSuppAlg.C", "src/ScalarMassBackwardEulerNodeSuppAlg.C"])
p("C36", "Per-field numerical options fall back to defaults",
  "A per-field option query returns the user's entry for that field if one was given and the documented default otherwise, independent of other fields' entries and of the order of specification.",
  "every option map and field name",
  "All maps.",
  ["src/Realm.C:Realm::get_hybrid_factor", "src/Realm.C:Realm::get_alpha_factor", "src/SolutionOptions.C"])

exec(open(os.path.join(os.path.dirname(__file__), "props_more.py")).read()) if os.path.exists(os.path.join(os.path.dirname(__file__), "props_more.py")) else None
out = os.path.join(os.path.dirname(__file__), "..", "properties.jsonl")
with open(out, "w") as f:
    for q in P: f.write(json.dumps(q) + "\n")
print(len(P), "properties")
