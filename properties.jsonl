{"id": "C01", "title": "BDF2/BE time coefficients are consistent", "statement": "The coefficients returned by get_gamma1/2/3 sum to zero on every step, and from the second step on of a second-order run (gamma1*q(t)+gamma2*q(t-dtN)+gamma3*q(t-dtN-dtNm1))/dtN equals q'(t) exactly for every quadratic q, whatever the ratio of the two step sizes; on the first step (and in first-order runs) the formula is backward Euler and exact for linear q.", "quantifier": "every sequence of positive step sizes, every step index, every quadratic polynomial", "why_tests_cant": "The step-size ratio is a continuous parameter that adaptive stepping drives through arbitrary values; a test samples a few ratios.", "anchors": ["src/TimeIntegrator.C:TimeIntegrator::compute_gamma", "src/TimeIntegrator.C:TimeIntegrator::integrate_realm", "src/ScalarMassBDF2NodeSuppAlg.C"]}
{"id": "C02", "title": "Step-count termination performs exactly the requested steps", "statement": "With termination_step_count=N (which prevails over termination_time) a run starting at step count c performs exactly max(0,N-c) time steps, numbered c+1..N, and reports a final time equal to the start time plus the sum of the step sizes used.", "quantifier": "every N, every starting count (fresh or restarted), every sequence of negotiated step sizes", "why_tests_cant": "Off-by-one in the loop only shows for particular (count, limit) pairs, including restart counts beyond the limit.", "anchors": ["src/TimeIntegrator.C:TimeIntegrator::load", "src/TimeIntegrator.C:TimeIntegrator::simulation_proceeds", "src/TimeIntegrator.C:TimeIntegrator::integrate_realm"]}
{"id": "C03", "title": "Time-based termination stops at the first step that reaches the end time", "statement": "With termination_time=T and fixed step dt>0 the run terminates; no step is started at or after T; the final time is >= T and exceeds T by less than one dt, and the number of steps is ceil((T-t0)/dt).", "quantifier": "every T, start time and positive dt", "why_tests_cant": "Termination is a liveness property over unbounded executions.", "anchors": ["src/TimeIntegrator.C:TimeIntegrator::simulation_proceeds", "src/TimeIntegrator.C:TimeIntegrator::integrate_realm"]}
{"id": "C04", "title": "Realms advance in lock step through ordered phases", "statement": "In every time step, for every realm list and every nonlinear-iteration count, all realms swap and predict states before any realm moves its mesh, all realms move mesh and populate boundary data before any realm solves, each nonlinear iteration advances every realm once in list order and immediately transfers its data, and every realm's output happens after the last solve of every realm; nothing from step n+1 precedes anything of step n.", "quantifier": "every number of realms, nonlinear iterations and time steps", "why_tests_cant": "Ordering has to hold for every interleaving-size combination, a test fixes one.", "anchors": ["src/TimeIntegrator.C:TimeIntegrator::integrate_realm"]}
{"id": "C05", "title": "Adaptive time step is bounded and negotiated", "statement": "With adaptive stepping the step used is the minimum of the realms' proposals (capped at 1e8); each proposal lies between dt/f and dt*f where f>=1 is the user's change factor, is positive if dt is, and if the bound is not active the proposal targets exactly the requested Courant number.", "quantifier": "every realm list, Courant number >0, previous step, change factor, target", "why_tests_cant": "Continuous-valued controller; only boundary combinations break it.", "anchors": ["src/Realm.C:Realm::compute_adaptive_time_step", "src/TimeIntegrator.C:TimeIntegrator::integrate_realm"]}
{"id": "C06", "title": "Resuming from a restart file continues the same time history", "statement": "If a run is stopped after any step whose restart record was written and resumed from that record with the same input, the resumed run goes through exactly the same sequence of (count, time, dtN, dtNm1, gamma1..3) as the uninterrupted run.", "quantifier": "every crash/stop point at a restart record, every step-size controller that is a function of the saved state, fixed and adaptive stepping, first and second order", "why_tests_cant": "The stop point ranges over all steps of all runs.", "anchors": ["src/TimeIntegrator.C:TimeIntegrator::integrate_realm", "src/Realm.C:Realm::provide_restart_output", "src/Realm.C:Realm::populate_restart"]}
{"id": "C07", "title": "Output and restart schedule", "statement": "A results (restart) file entry is written at step c iff frequency>0 and (c>=start and frequency divides c-start) or the wall-clock forced output fires; forced output fires at most once per run; with frequency 0 nothing is written.", "quantifier": "every step history, start, frequency, wall-clock history", "why_tests_cant": "Schedule must hold over all step counts and clock histories.", "anchors": ["src/Realm.C:Realm::provide_output", "src/Realm.C:Realm::provide_restart_output"]}
{"id": "C08", "title": "Nonlinear iteration control", "statement": "One call of advance_time_step performs at least one and at most max-iterations sweeps when the limit is positive, stops at the first sweep after which every equation system is converged, never stops earlier, and a system is converged iff it has no linear system or its scaled nonlinear residual is below its tolerance.", "quantifier": "every list of equation systems, every residual history, every iteration limit", "why_tests_cant": "Depends on the whole residual history.", "anchors": ["src/Realm.C:Realm::advance_time_step", "src/EquationSystems.C:EquationSystems::solve_and_update", "src/EquationSystem.C:EquationSystem::system_is_converged"]}
{"id": "C09", "title": "Prescribed mesh rotation is a rigid motion about its axis", "statement": "With mesh rotation about a unit axis through the centroid, at every time the current coordinates are an isometric, orientation preserving image of the model coordinates that fixes every point of the axis, and motion at time 0 is the identity; motions compose over time.", "quantifier": "every unit axis, centroid, angular speed, time and pair of points", "why_tests_cant": "Continuum of angles/axes.", "anchors": ["src/Realm.C:Realm::set_current_displacement", "src/Realm.C:Realm::set_current_coordinates"]}
{"id": "C10", "title": "Mesh velocity is the time derivative of mesh position", "statement": "For a constant-omega rotating mesh the mesh velocity assigned to each node equals the time derivative of that node's current coordinates.", "quantifier": "every node position, centroid, unit axis, omega and time", "why_tests_cant": "A derivative identity over a continuum.", "anchors": ["src/Realm.C:Realm::set_current_displacement", "src/Realm.C:Realm::set_mesh_velocity", "src/Realm.C:Realm::mesh_velocity_cross_product"]}
{"id": "C11", "title": "Six-DOF attitude representation is consistent", "statement": "The quaternion built from Euler angles has unit norm; the direction-cosine matrix of a unit quaternion is orthogonal with determinant one; converting a vector to the body frame and back is the identity; the Euler angles are recovered away from gimbal lock.", "quantifier": "every Euler-angle triple, every unit quaternion, every vector", "why_tests_cant": "Continuum of attitudes.", "anchors": ["src/Realm.C:Realm::get_quat_from_eulerxyz", "src/Realm.C:Realm::get_rotmat_from_quat", "src/Realm.C:Realm::get_eulerxyz_from_quat", "src/Realm.C:Realm::convert_vect_to_orig_frame"]}
{"id": "C12", "title": "Six-DOF body integration is fourth-order Runge-Kutta", "statement": "One step of the six-DOF attitude and angular velocity update equals the classical RK4 step of quaternion kinematics / Euler's equations, and the body is advanced once per time step.", "quantifier": "every inertia tensor, angular velocity, step size, number of mesh blocks attached to the body", "why_tests_cant": "Order of accuracy is an all-inputs algebraic identity.", "anchors": ["src/Realm.C:Realm::update_body_cc", "src/Realm.C:Realm::advance_omega_dt", "src/Realm.C:Realm::update_six_dof_motion"]}
{"id": "C13", "title": "Matrix global ids are a bijection with (node, dof)", "statement": "For every number of dofs per node, the map from (node id>=1, dof) to the row id is injective, its range for N nodes is exactly 1..N*numDof, and the decode used when reporting recovers node and dof.", "quantifier": "every node id, numDof>0, dof", "why_tests_cant": "Arithmetic bijection over unbounded ids.", "anchors": ["src/TpetraLinearSystem.C:GID_", "src/TpetraLinearSystem.C:GLOBAL_ENTITY_ID"]}
{"id": "C14", "title": "Element contributions are summed to exactly the right matrix entries", "statement": "Assembling an element's dense lhs/rhs adds, for every pair of its dofs, exactly the dense value to the addressed global (row, column) entry and to no other entry, for owned and shared rows, and assembling a list of elements gives the sum in any order.", "quantifier": "every element connectivity with sparsity pattern containing it, every lhs/rhs, any order of elements", "why_tests_cant": "Sorting/merging loop over arbitrary column lists.", "anchors": ["src/TpetraLinearSystem.C:TpetraLinearSystem::sumInto", "src/TpetraLinearSystem.C:sum_into_row", "src/TpetraLinearSystem.C:sum_into_row_vec_3"]}
{"id": "C15", "title": "Dirichlet conditions are imposed exactly and in parallel once", "statement": "After applying Dirichlet conditions, in the assembled global matrix (after shared rows are exported to their owners) every constrained row is the identity row with right-hand side bc-minus-current value, independent of which ranks hold copies of the node, and other rows are untouched; hence an exact solve followed by the solution update makes the constrained value equal the boundary value.", "quantifier": "every matrix, every distribution of copies over ranks, every set of constrained nodes", "why_tests_cant": "Depends on the parallel distribution.", "anchors": ["src/TpetraLinearSystem.C:TpetraLinearSystem::applyDirichletBCs", "src/TpetraLinearSystem.C:TpetraLinearSystem::loadComplete"]}
{"id": "C16", "title": "Sparsity graph contains every connection", "statement": "The constructed graph of owned and shared rows contains, for every registered element/edge/face connection, every (row dof, column dof) pair, never overflows the row capacity computed beforehand, has no duplicate and, after compaction, no unused slot; column indices in each row are sorted.", "quantifier": "every mesh connectivity and every distribution of ownership", "why_tests_cant": "Capacity counted in one pass must be enough for inserts made in another, for all meshes.", "anchors": ["include/LinearSolver.h:LocalGraphArrays", "src/TpetraLinearSystem.C:TpetraLinearSystem::compute_graph_row_lengths", "src/TpetraLinearSystem.C:TpetraLinearSystem::insert_graph_connections"]}
{"id": "C17", "title": "Reported residual scaling", "statement": "The scaled nonlinear residual reported to the convergence test is the current residual divided by the first residual of the time step (guarded from zero), so it is exactly 1 at the first solve of each step and scales invariantly when all residuals are multiplied by a positive constant.", "quantifier": "every residual history over any number of steps and iterations", "why_tests_cant": "History dependent.", "anchors": ["src/TpetraLinearSystem.C:TpetraLinearSystem::solve", "src/LinearSystem.C"]}
{"id": "C18", "title": "Periodic pairs cover each subject node exactly once", "statement": "With one, two or three periodic pairs, after the redundant-node removal every node on a periodic subject surface belongs to exactly one subject search set, and is paired with the monarch on the opposite side in all its periodic directions.", "quantifier": "every node set membership of the periodic surfaces", "why_tests_cant": "Set-algebra over all membership combinations of nodes in up to three surface pairs.", "anchors": ["src/PeriodicManager.C:PeriodicManager::augment_periodic_selector_pairs", "src/PeriodicManager.C:PeriodicManager::remove_redundant_subject_nodes"]}
{"id": "C19", "title": "Periodic translation vector is recovered", "statement": "If the subject surface is the monarch surface shifted by a vector, in whatever node order and rank distribution, the translation computed for the pair is exactly that vector (up to its sign convention), and every subject node, moved by it, lands on its monarch image.", "quantifier": "every finite point set, shift, order and distribution over ranks", "why_tests_cant": "All point sets and distributions.", "anchors": ["src/PeriodicManager.C:PeriodicManager::determine_translation"]}
{"id": "C20", "title": "Periodic field synchronisation makes all images agree", "statement": "After the periodic sum update every node of a periodic equivalence class holds the sum of the class's values, on whatever ranks its nodes live; after the set update every subject holds its monarch's value; ghost copies agree with the owner; nodes outside are unchanged. (The max update is C45.)", "quantifier": "every set of subject/monarch pairs (several subjects per monarch allowed), every field", "why_tests_cant": "Depends on multiplicity and order of pairs.", "anchors": ["src/PeriodicManager.C:PeriodicManager::apply_constraints", "src/PeriodicManager.C:PeriodicManager::apply_max_field"]}
{"id": "C21", "title": "Turbulence averages are time-weighted means", "statement": "After any number of steps within one averaging window, the Reynolds average of a field equals the step-size weighted mean of the samples since the last reset, and the Favre average the density-weighted mean; the filter size is the sum of the steps; a reset starts a new window with the current sample only.", "quantifier": "every history of samples, densities, positive step sizes and resets", "why_tests_cant": "An invariant over unbounded histories.", "anchors": ["src/TurbulenceAveragingPostProcessing.C:TurbulenceAveragingPostProcessing::execute"]}
{"id": "C22", "title": "Running stresses are covariances", "statement": "The Reynolds (Favre) stress after any number of steps equals the weighted covariance of the velocity samples of the window: mean(u_i u_j)-mean(u_i)mean(u_j); in particular its diagonal is non-negative, it satisfies the Cauchy-Schwarz bound, and it vanishes for a steady flow.", "quantifier": "every velocity/density history and positive step sizes", "why_tests_cant": "Algebraic invariant over all histories.", "anchors": ["src/TurbulenceAveragingPostProcessing.C:compute_reynolds_stress", "src/TurbulenceAveragingPostProcessing.C:compute_favre_stress"]}
{"id": "C23", "title": "Exponential moving average stays in range", "statement": "The exponential moving average equals the first sample after one step, always lies between the minimum and maximum of the samples seen, is constant for constant input and contracts towards a constant signal.", "quantifier": "every sample history, time scale and step sizes", "why_tests_cant": "History dependent.", "anchors": ["src/MovingAveragePostProcessor.C:ExponentialMovingAverager"]}
{"id": "C24", "title": "Table interpolation", "statement": "linear_interp returns table values at the knots, is between neighbouring values inside, reproduces affine data exactly, clamps or extrapolates or throws outside according to the chosen option, and never reads outside the table.", "quantifier": "every strictly increasing table of any length >=2, every abscissa", "why_tests_cant": "All tables and abscissae.", "anchors": ["include/utils/LinearInterpolation.h"]}
{"id": "C25", "title": "SIMD grouping visits every element exactly once", "statement": "For every bucket length and SIMD width the SIMD groups partition the element index range: group lengths are between 1 and the width, sum to the length, and (group, lane) enumerates each element exactly once; interleaving then reading back lane by lane returns each element's data unchanged.", "quantifier": "every bucket length, SIMD width, data", "why_tests_cant": "All lengths modulo width.", "anchors": ["include/SimdInterface.h", "include/CopyAndInterleave.h", "include/AssembleElemSolverAlgorithm.h"]}
{"id": "C26", "title": "Edge-based scalar transport is conservative", "statement": "The edge advection-diffusion operator adds equal and opposite right-hand sides and matrix columns to its two nodes, so for every mesh the sum over all nodes of the assembled residual is zero (up to boundary terms) and the column sums of the matrix are zero.", "quantifier": "every edge mesh, geometry, field, mass flux, option set (upwind, limiter, Peclet function)", "why_tests_cant": "Conservation is a global statement over every mesh and state.", "anchors": ["src/AssembleScalarEdgeSolverAlgorithm.C:AssembleScalarEdgeSolverAlgorithm::execute"]}
{"id": "C27", "title": "Edge scalar operator is exact for constants and linear fields and its matrix is a consistent linearisation", "statement": "For a constant field the diffusive residual is zero and the advective residual is minus the mass flux times the constant; with pure first-order upwind the matrix times the field reproduces the residual exactly, and is an M-matrix row (non-positive off-diagonals).", "quantifier": "every geometry, flux, coefficient", "why_tests_cant": "Identities over continuous parameters and several option branches.", "anchors": ["src/AssembleScalarEdgeSolverAlgorithm.C:AssembleScalarEdgeSolverAlgorithm::execute"]}
{"id": "C28", "title": "van Leer limiter is bounded and sign-correct", "statement": "The limiter lies in [0,1], is zero when the two slopes differ in sign (extrema), symmetric in its arguments and tends to one for equal slopes, so limited extrapolation does not leave the range of the two neighbours and their mirrored values.", "quantifier": "every pair of slopes", "why_tests_cant": "Continuous inputs.", "anchors": ["src/AssembleScalarEdgeSolverAlgorithm.C:AssembleScalarEdgeSolverAlgorithm::van_leer"]}
{"id": "C29", "title": "Peclet blending function is a blending weight", "statement": "Both Peclet functions return a value in [0,1] for every Peclet number >=0, the classic function is 0 at 0 and non-decreasing with hybrid limits, the tanh function is non-decreasing.", "quantifier": "every Peclet number, every parameter setting", "why_tests_cant": "Continuous inputs and user parameters.", "anchors": ["src/PecletFunction.C"]}
{"id": "C30", "title": "Shape functions form a nodal basis", "statement": "For every master element the shape functions sum to one at every parametric point, are one at their own node and zero at the others, and reproduce linear fields; the parametric derivatives sum to zero and are the derivatives of the shape functions.", "quantifier": "every parametric point, every element type modelled", "why_tests_cant": "Identity over a continuum of points.", "anchors": ["src/master_element/Hex8CVFEM.C", "src/master_element/Tet4CVFEM.C", "src/master_element/Quad42DCVFEM.C", "src/master_element/Tri32DCVFEM.C", "src/master_element/Wed6CVFEM.C", "src/master_element/Pyr5CVFEM.C"]}
{"id": "C31", "title": "Control-volume faces close", "statement": "For every (possibly distorted) element the sub-control-surface area vectors and boundary faces close around every node's sub control volume, and the sub control volumes of an element sum to its volume, so uniform flow is preserved exactly.", "quantifier": "every nodal coordinate set", "why_tests_cant": "Geometric conservation over all element shapes.", "anchors": ["src/master_element/Quad42DCVFEM.C", "src/master_element/Tri32DCVFEM.C", "src/master_element/Hex8CVFEM.C: HexSCV::determinant, HexSCS::determinant", "src/master_element/Tet4CVFEM.C", "src/master_element/Wed6CVFEM.C", "src/master_element/Pyr5CVFEM.C", "include/master_element/Hex8GeometryFunctions.h", "src/master_element/MasterElementWork.F"]}
{"id": "C32", "title": "Small dense linear algebra used by the kernels is correct", "statement": "solve22/solve33 return the solution of the system when the determinant is nonzero; invert_matrix33 returns the inverse; determinants are multiplicative; cross products are orthogonal to their factors.", "quantifier": "every matrix and right-hand side", "why_tests_cant": "Continuous inputs; wrong off-diagonal terms vanish on symmetric test matrices.", "anchors": ["include/master_element/TensorOps.h"]}
{"id": "C33", "title": "Inverse isoparametric map and point containment", "statement": "isInElement recovers the parametric coordinates of an image point (affine elements: exactly, in one step), reports a distance <=1 iff the point is inside, and interpolatePoint at the recovered coordinates returns the interpolated nodal field.", "quantifier": "every non-degenerate element, every point", "why_tests_cant": "Continuum of points.", "anchors": ["src/master_element/Tri32DCVFEM.C", "src/master_element/Tet4CVFEM.C"]}
{"id": "C34", "title": "Equation systems are solved in registration order every sweep", "statement": "Each sweep runs pre-iteration work, then per system in order pre-solve hooks, solve and post-solve hooks, then post-iteration work; the reported mean norm is the ratio of summed norms to summed counts.", "quantifier": "every list of systems", "why_tests_cant": "All list shapes.", "anchors": ["src/EquationSystems.C:EquationSystems::solve_and_update", "src/EquationSystems.C:EquationSystems::provide_mean_system_norm"]}
{"id": "C35", "title": "Second-order mass terms conserve and agree with their Jacobian", "statement": "The nodal time terms (backward Euler and BDF2) vanish for a steady density-scalar field on a fixed mesh, their left-hand side is the derivative of minus the right-hand side with respect to the new value, and telescoping over steps the backward-Euler term conserves the total rho*q*volume.", "quantifier": "every history, densities, volumes, time steps", "why_tests_cant": "Algebraic identities over all states.", "anchors": ["src/ScalarMassBDF2NodeSuppAlg.C", "src/ScalarMassBackwardEulerNodeSuppAlg.C"]}
{"id": "C36", "title": "Per-field numerical options fall back to defaults", "statement": "A per-field option query returns the user's entry for that field if one was given and the documented default otherwise, independent of other fields' entries and of the order of specification.", "quantifier": "every option map and field name", "why_tests_cant": "All maps.", "anchors": ["src/Realm.C:Realm::get_hybrid_factor", "src/Realm.C:Realm::get_alpha_factor", "src/SolutionOptions.C"]}
{"id": "C37", "title": "Derived flow diagnostics are the quantities they are named after", "statement": "The vorticity, Q-criterion, lambda_ci and sub-filter stress written by the averaging post-processor equal the corresponding textbook functions of the velocity gradient stored at the node, independent of the frame.", "quantifier": "every velocity gradient, density, viscosity and spatial dimension", "why_tests_cant": "Continuum of gradients; wrong strides and wrong signs disappear on symmetric or one-component test flows.", "anchors": ["src/TurbulenceAveragingPostProcessing.C:compute_vorticity", "src/TurbulenceAveragingPostProcessing.C:compute_q_criterion", "src/TurbulenceAveragingPostProcessing.C:compute_lambda_ci"]}
{"id": "C38", "title": "Edge-based nodal gradients", "statement": "The edge/boundary nodal gradient of a constant is zero on every closed control volume, and the volume-weighted sum of nodal gradients equals the boundary integral of the field (discrete Gauss theorem).", "quantifier": "every mesh, every nodal field", "why_tests_cant": "All mesh topologies and all fields.", "anchors": ["src/AssembleNodalGradEdgeAlgorithm.C:AssembleNodalGradEdgeAlgorithm::execute", "src/AssembleNodalGradBoundaryAlgorithm.C:AssembleNodalGradBoundaryAlgorithm::execute"]}
{"id": "C39", "title": "Mass is conserved by the pressure solve", "statement": "If the pressure increment solves the assembled equation at a node, the mass flow rates recomputed with the updated pressure balance the nodal source exactly; the pressure matrix is symmetric positive semi-definite with constants in its kernel; the stabilisation vanishes for linear pressure; the velocity projection does not alter the mass flow rates.", "quantifier": "every mesh, orthogonal or not, every state, time scale and source", "why_tests_cant": "A mismatch between the two copies of the mass-flow formula or a sign error shows only on particular meshes and pressures.", "anchors": ["src/AssembleContinuityEdgeSolverAlgorithm.C:AssembleContinuityEdgeSolverAlgorithm::execute", "src/ComputeMdotEdgeAlgorithm.C:ComputeMdotEdgeAlgorithm::execute", "src/LowMachEquationSystem.C:project_nodal_velocity"]}
{"id": "C40", "title": "The momentum edge operator is conservative, frame-indifferent and exactly linearised", "statement": "Each edge removes from one node what it adds to the other, produces no viscous flux for rigid-body motion, and its 2n x 2n block is the derivative of its residual.", "quantifier": "every edge, velocity field, viscosity and numerical option", "why_tests_cant": "Continuum of fields; a missing transpose term vanishes for shear-aligned tests.", "anchors": ["src/AssembleMomentumEdgeSolverAlgorithm.C:AssembleMomentumEdgeSolverAlgorithm::execute"]}
{"id": "C41", "title": "Element gradient, Jacobian and metric operators", "statement": "The element gradient operator returns zero for constants and the exact gradient for linear nodal fields on every non-degenerate element; its determinant equals the one reported by the determinant operator, is translation invariant and scales with volume; covariant and contravariant metrics are symmetric, inverse to each other and positive definite.", "quantifier": "every element geometry, any number of nodes, every reference gradient table of a partition of unity, 2-D and 3-D", "why_tests_cant": "Transposed cofactors are invisible on axis-aligned test elements; the claim is over a continuum of geometries.", "anchors": ["include/master_element/MasterElementFunctions.h:generic_grad_op", "include/master_element/MasterElementFunctions.h:generic_gij_3d", "include/master_element/MasterElementFunctions.h:generic_determinant_3d"]}
{"id": "C42", "title": "Nonlinear iteration stops at the first converged iterate", "statement": "Within a time step the realm performs outer iterations 1,2,... and stops after the first one at which every equation system with a linear system has scaled residual below its own tolerance, or at the iteration limit; at least one iteration is done; the reported maximum norm is the maximum of the systems' scaled norms; the last solve of the step uses the final linear tolerance.", "quantifier": "every number of equation systems, tolerances, residual history and iteration limit", "why_tests_cant": "The stopping rule depends on the whole residual history of all systems.", "anchors": ["src/Realm.C:Realm::advance_time_step", "src/EquationSystems.C:EquationSystems::solve_and_update", "src/EquationSystems.C:EquationSystems::provide_system_norm"]}
{"id": "C43", "title": "Reported linear iteration statistics are those of the solves done", "statement": "After any sequence of linear solves since the last report, the reported average, minimum and maximum linear iteration counts equal the mean, minimum and maximum of the counts of exactly those solves.", "quantifier": "every sequence of solves", "why_tests_cant": "The running average formula must be right for every length of history.", "anchors": ["src/EquationSystem.C:EquationSystem::update_iteration_statistics"]}
{"id": "C44", "title": "Periodic search is accepted only when complete", "statement": "The periodic search is accepted only if the number of found pairs equals the number of subject nodes; on a matching mesh the first attempt is accepted and pairs every subject with its image only; the number of attempts is bounded; an accepted search pairs every subject node.", "quantifier": "every mesh, tolerance and error limit", "why_tests_cant": "All point clouds and all tolerance histories; the acceptance test is a count.", "anchors": ["src/PeriodicManager.C:PeriodicManager::finalize_search", "src/PeriodicManager.C:PeriodicManager::error_check", "src/PeriodicManager.C:PeriodicManager::populate_search_key_vec"]}
{"id": "C45", "title": "Periodic maximum and identifiers", "statement": "After the periodic max update every node of a periodic class holds the class maximum; after the identifier update every subject node carries its monarch's identifier and every other node its own.", "quantifier": "every set of subject/monarch pairs, every rank distribution, every field", "why_tests_cant": "Depends on multiplicity, order and distribution of pairs.", "anchors": ["src/PeriodicManager.C:PeriodicManager::apply_max_field", "src/PeriodicManager.C:PeriodicManager::update_global_id_field"]}
{"id": "C46", "title": "Exposed-face data agree with the face element", "statement": "For every side of an element, sidePcoords_to_elemPcoords is the trace of the element on that side (shape functions of the side's nodes equal the face's, all others vanish), so neighbours sharing a side interpolate the same values; the element's exposed-face integration points evaluate every nodal field as the face element does at its own points, and lie in the control volume of the node they are mapped to.", "quantifier": "every element type, side, integration point, side coordinate and nodal field", "why_tests_cant": "Holds for a continuum of side coordinates and fields; a permutation of points on one side goes unnoticed by tests with symmetric fields.", "anchors": ["src/master_element/Hex8CVFEM.C:HexSCS::sidePcoords_to_elemPcoords", "src/master_element/Tet4CVFEM.C:TetSCS::TetSCS", "src/master_element/Wed6CVFEM.C", "src/master_element/Pyr5CVFEM.C", "src/master_element/Tri32DCVFEM.C", "src/master_element/Quad42DCVFEM.C"]}
{"id": "C47", "title": "Opposing nodes and surfaces", "statement": "opposingNodes(side, ip) is off the side and joined by an element edge to the ip's nearest node, and opposingFace(side, ip) is the sub-control surface between exactly these two nodes.", "quantifier": "every element type, side and integration point", "why_tests_cant": "The tables feed wall distances and open-boundary stabilisation, where a wrong entry changes results silently.", "anchors": ["src/master_element/Pyr5CVFEM.C:PyrSCS::opposingFace", "src/master_element/Hex8CVFEM.C", "src/master_element/Wed6CVFEM.C"]}
{"id": "C48", "title": "Integration points are centroids", "statement": "The integration point of a sub-control surface is the centroid of that surface (area-weighted; means of the corners for bilinear surfaces of arbitrary geometry) and that of a sub-control volume the centroid of the volume; shifted points sit at the middle of the edge between the left and right nodes.", "quantifier": "every placement of the nodes (tetrahedra, hexahedra, plane elements, wedge sides), every affine image (wedges, pyramids)", "why_tests_cant": "Second-order accuracy on every geometry rests on it.", "anchors": ["src/master_element/Tet4CVFEM.C", "src/master_element/Pyr5CVFEM.C", "src/master_element/Wed6CVFEM.C", "src/master_element/Hex8CVFEM.C"]}
{"id": "C49", "title": "Element kernels are conservative and only add", "statement": "Each interior element kernel (scalar diffusion, scalar advection-diffusion, scalar upwind advection, continuity advection, momentum advection-diffusion, momentum upwind) adds to the element system and never overwrites it, and the sum over the element's nodes of what it adds to the residual is zero for every component, as is every column sum of what it adds to the matrix: whatever leaves one control volume enters another.", "quantifier": "every element type (any node count, any adjacency of sub-control surfaces), geometry, nodal field, mass flow rate and numerical option", "why_tests_cant": "Continuum of geometries and fields times all option combinations; a dropped or doubled contribution can cancel in a symmetric test.", "anchors": ["src/kernel/ScalarDiffElemKernel.C", "src/kernel/ScalarAdvDiffElemKernel.C", "src/kernel/ScalarUpwAdvDiffElemKernel.C", "src/kernel/ContinuityAdvElemKernel.C", "src/kernel/MomentumAdvDiffElemKernel.C", "src/kernel/MomentumUpwAdvDiffElemKernel.C"]}
{"id": "C50", "title": "Element matrices are the exact Newton sensitivities", "statement": "The matrix a kernel adds is minus the derivative of the residual it adds: for any increment of the unknown, the residual at the incremented state equals the residual minus matrix times increment.", "quantifier": "every element, nodal field, increment, mass flow rate (limiter off, no div-u term; reduced pressure sensitivities off)", "why_tests_cant": "Must hold for every direction of increment; a wrong column only slows convergence in tests.", "anchors": ["src/kernel/ScalarAdvDiffElemKernel.C", "src/kernel/ScalarUpwAdvDiffElemKernel.C", "src/kernel/ContinuityAdvElemKernel.C", "src/kernel/MomentumAdvDiffElemKernel.C", "src/kernel/MomentumUpwAdvDiffElemKernel.C"]}
{"id": "C51", "title": "Element kernels preserve the solutions they should", "statement": "A uniform scalar feels only the net mass flux; a linear scalar is diffused with its exact gradient; rigid-body motion (translation plus rotation) produces no viscous force; adding a constant to the pressure changes nothing; a linear pressure produces no stabilisation flux.", "quantifier": "every non-degenerate linear element (hex, tet, wedge, quad, tri), every field of the stated form, every option", "why_tests_cant": "Continuum of geometries and fields.", "anchors": ["src/kernel/ScalarAdvDiffElemKernel.C", "src/kernel/MomentumAdvDiffElemKernel.C", "src/kernel/ContinuityAdvElemKernel.C"]}
{"id": "C52", "title": "Scalar transport is consistent with continuity", "statement": "With the same densities and mass flow rates, the element residual of a uniform scalar c (time term plus advection) is c times the element residual of the continuity equation (up to the time-scale factor of the latter), so a uniform scalar stays uniform whenever mass is conserved.", "quantifier": "every element, density history, time step, BDF coefficients and mass flow rate", "why_tests_cant": "Needs time terms, advection and continuity kernels to agree for all inputs.", "anchors": ["src/kernel/ScalarMassElemKernel.C", "src/kernel/ContinuityMassElemKernel.C", "src/kernel/ContinuityAdvElemKernel.C", "src/kernel/ScalarAdvDiffElemKernel.C", "src/kernel/ScalarUpwAdvDiffElemKernel.C"]}
{"id": "C53", "title": "Thermophysical property evaluators", "statement": "The ideal-gas evaluators satisfy p = rho R T sum(Yk/Wk) exactly and give positive density; the specific heat is the temperature derivative of the enthalpy evaluator it is paired with (polynomial, constant and water evaluators); mixture values are mass-weighted sums of species values; Sutherland mixture viscosity is positive, lies between its species' viscosities and equals Sutherland's law for one species; blended properties have the right end values and bounds.", "quantifier": "every temperature, pressure, number of species, composition and coefficient set", "why_tests_cant": "Continuum of states; a wrong coefficient index or exponent shifts results by an amount no single-point test notices at the reference state.", "anchors": ["src/property_evaluator/IdealGasPropertyEvaluator.C", "src/property_evaluator/SpecificHeatPropertyEvaluator.C", "src/property_evaluator/EnthalpyPropertyEvaluator.C", "src/property_evaluator/SutherlandsPropertyEvaluator.C", "src/property_evaluator/WaterPropertyEvaluator.C"]}
{"id": "C54", "title": "Temperature is recovered consistently from enthalpy", "statement": "After temperature extraction every node's temperature lies within the user's limits; temperature and stored enthalpy agree exactly where the solve failed or was clipped and to within 1e-8 relative correction elsewhere; a consistent state is left unchanged; for constant specific heat the result is exact; for specific heats varying by less than a factor two around the solution the iteration converges.", "quantifier": "every enthalpy and specific-heat evaluator, nodal enthalpy and starting temperature", "why_tests_cant": "Depends on the iteration history from arbitrary starting values.", "anchors": ["src/EnthalpyEquationSystem.C:EnthalpyEquationSystem::extract_temperature"]}
{"id": "C55", "title": "Compressible edge flux", "statement": "The explicit compressible flux only exchanges mass, momentum and energy between the two nodes of an edge, so one explicit step keeps the domain totals; between equal states it is the exact Euler flux; a uniform stream is preserved on any closed dual volume at any Mach number; the result does not depend on edge orientation; advected quantities are those of the donor node; supersonic flow takes the upstream flux; viscous exchange removes kinetic energy and heat flows from hot to cold; the Mach and pressure splittings are continuous and bounded.", "quantifier": "every mesh, nodal state, Mach number, time step and edge orientation", "why_tests_cant": "Continuum of states and meshes, with branch switches at Mach one and at flow reversal.", "anchors": ["src/gas_dynamics/AssembleGasDynamicsFluxAlgorithm.C", "src/gas_dynamics/GasDynamicsEquationSystem.C:GasDynamicsEquationSystem::update_gas_dynamics"]}
{"id": "C56", "title": "Compressible state conversions", "statement": "Conserved and primitive variables convert back and forth without change; after an update pressure, temperature, total enthalpy, speed of sound and Mach number satisfy the ideal-gas relations and are positive whenever internal energy is; a zero right-hand side is a steady state and Dirichlet nodes keep their state.", "quantifier": "every density, momentum, energy, specific heats with cp > cv > 0", "why_tests_cant": "Continuum of states.", "anchors": ["src/gas_dynamics/GasDynamicsEquationSystem.C"]}
{"id": "C57", "title": "Compressible boundaries", "statement": "A symmetry plane exchanges no mass or energy and exerts the local pressure force, so gas at rest in a closed box stays at rest; at open boundaries outflow never brings mass in and carries interior values, supersonic outflow is exact, inflow never lets mass out, a uniform stream matching the boundary data is steady, and the static pressure derived from a specified total pressure never exceeds it.", "quantifier": "every face list, nodal state and boundary data", "why_tests_cant": "Continuum of states; branch on flow direction.", "anchors": ["src/gas_dynamics/AssembleGasDynamicsOpenAlgorithm.C", "src/gas_dynamics/AssembleGasDynamicsSymmetryAlgorithm.C"]}
{"id": "C58", "title": "The assembled dual mesh", "statement": "On every conforming mesh of supported linear elements, mixed or not, the dual nodal volumes add up to the mesh volume, and around every node the assembled edge areas and the exposed boundary areas close exactly, whatever the coordinates, element order and edge orientations; so a constant has zero nodal gradient everywhere, gas at rest stays at rest and a uniform stream is preserved at interior nodes. The Jacobian check stops the run exactly when some sub-control volume is negative and reports exactly those elements; if it passes no dual volume is negative.", "quantifier": "every list of hex, tet, wedge, pyramid, triangle and quadrilateral elements with conforming faces, every coordinates, edge orientation and boundary", "why_tests_cant": "All meshes and coordinates.", "anchors": ["src/ComputeGeometryInteriorAlgorithm.C", "src/ComputeGeometryBoundaryAlgorithm.C", "src/ComputeGeometryAlgorithmDriver.C:ComputeGeometryAlgorithmDriver::check_jacobians"]}
{"id": "C59", "title": "Dense solver of the property tables", "statement": "The factorisation used to fit property tables reproduces the matrix, the computed solution solves the system and is the only one, whenever no pivot vanishes; it works exactly when every leading block is regular, in particular for diagonally dominant matrices.", "quantifier": "every size, matrix and right-hand side", "why_tests_cant": "All sizes and matrices; a wrong index in elimination shows only for particular fill patterns.", "anchors": ["src/tabular_props/LU.C"]}
{"id": "C60", "title": "Spline property tables", "statement": "A fitted table passes through its data, reproduces linear data everywhere, stays between its control values, keeps its end values when clipping, and first-order tables interpolate linearly between neighbouring points; increasing and decreasing tables of the same data agree; a lookup never depends on earlier lookups; two-dimensional tables interpolate their grid.", "quantifier": "every order, abscissae, ordinates, query point and sequence of earlier lookups", "why_tests_cant": "All table sizes and orders; the evaluation shares mutable scratch arrays between calls.", "anchors": ["src/tabular_props/BSpline.C"]}
{"id": "C61", "title": "Lookups in property files", "statement": "The independent variables listed in the input file are matched to the table's by name: any order is accepted and gives the same property, values outside the table are limited to its range and each such lookup is counted once; converters supply the variables they replace; the log keeps the most severe out-of-range lookups; the enthalpy converter's mixture fractions sum to one and the conversion inverts the mixing rule.", "quantifier": "every table, list of names, converter, nodal values and history of lookups", "why_tests_cant": "The wiring depends on names and order; wrong wiring gives plausible numbers.", "anchors": ["src/tabular_props/HDF5Table.C", "src/tabular_props/Converter.C", "src/property_evaluator/HDF5TablePropAlgorithm.C"]}
{"id": "C62", "title": "Ordinate directions and weights", "statement": "The quadrature set created for a given order has 8 n^2 ordinates, all unit vectors off the coordinate planes, all weights positive and summing to 4 pi, is closed under reflections in the coordinate planes, integrates the first moments to zero and the second moments to 4 pi/3 times the identity.", "quantifier": "every quadrature order n >= 1", "why_tests_cant": "Any order may be requested; weights are spherical excesses of n^2 triangles computed with inverse cosines.", "anchors": ["src/pmr/RadiativeTransportEquationSystem.C"]}
{"id": "C63", "title": "Radiative transport along one ordinate", "statement": "The assembled equations of an ordinate conserve energy between control volumes and walls, have the exact sensitivities in the matrix so that one solve annihilates the residual, hold radiative equilibrium exactly, and with upwinding the solution is unique and stays between the smallest and largest wall intensity and emission-to-extinction ratio, hence is never negative.", "quantifier": "every mesh, ordinate direction, absorption, scattering, source and intensity field, edge and element schemes", "why_tests_cant": "All meshes and directions; sign errors at edges show only for some directions.", "anchors": ["src/pmr/AssembleRadTransEdgeSolverAlgorithm.C", "src/pmr/AssembleRadTransEdgeUpwindSolverAlgorithm.C", "src/pmr/AssembleRadTransWallSolverAlgorithm.C", "src/pmr/RadTransAdvectionSUCVElemKernel.C", "src/pmr/RadTransAbsorptionBlackBodyElemKernel.C", "src/pmr/RadTransIsotropicScatteringElemKernel.C", "src/pmr/RadTransBlackBodyNodeSuppAlg.C"]}
{"id": "C64", "title": "Radiation outer iteration", "statement": "After every iteration the scalar flux, heat flux and wall irradiation are the moments of the intensities just computed; an isothermal enclosure is a fixed point with zero heat flux and zero divergence; the divergence of the heat flux integrates to the net power through the boundary; wall intensities are convex combinations of black-body and reflected radiation; the source linearisation is the temperature derivative of the source; the convergence norm does not depend on the number of processes.", "quantifier": "every quadrature order, mesh, state of the fields, wall properties and linear solver meeting its contract", "why_tests_cant": "Couples all ordinates, walls and iterations; equilibrium holds only if all of them fit together.", "anchors": ["src/pmr/RadiativeTransportEquationSystem.C"]}
{"id": "C65", "title": "Eddy viscosity does not depend on the observer and stays in its bounds", "statement": "Every eddy-viscosity model returns a non-negative value; turning or reflecting the axes changes none of them, superposed rigid rotation does not change SST or Smagorinsky, WALE vanishes in pure shear; SST viscosity is the smaller of rho k/omega and a1 rho k/(S F2); blending functions lie in [0,1) and effective viscosities are never below molecular.", "quantifier": "every velocity gradient, dimension, turbulence state and wall distance", "why_tests_cant": "Tests use a few gradients in one coordinate system.", "anchors": ["src/TurbViscSSTAlgorithm.C", "src/TurbViscSmagorinskyAlgorithm.C", "src/TurbViscWaleAlgorithm.C", "src/TurbViscKsgsAlgorithm.C", "src/TurbViscKEpsilonAlgorithm.C", "src/ShearStressTransportEquationSystem.C compute_f_one_blending", "src/EffectiveSSTDiffFluxCoeffAlgorithm.C"]}
{"id": "C66", "title": "Turbulence sources keep k, omega and epsilon non-negative", "statement": "Production is twice the eddy viscosity times the squared strain rate, limited to a multiple of the dissipation; the implicit update with any M-matrix transport operator keeps non-negative k, epsilon and omega non-negative; matrix entries are the derivatives of the dissipation; DES dissipation is never below RANS and equals it on coarse grids; element and nodal sources agree; clipping stores realisable values unchanged and replaces others by values with eddy viscosity equal to molecular.", "quantifier": "every mesh size, state, gradient, increment and model constant in range", "why_tests_cant": "Positivity must hold for all states and matrices, and each clip branch has corner cases of measure zero.", "anchors": ["src/TurbKineticEnergySSTNodeSourceSuppAlg.C", "src/SpecificDissipationRateSSTNodeSourceSuppAlg.C", "src/TurbKineticEnergySSTDESNodeSourceSuppAlg.C", "src/TurbKineticEnergyKsgsNodeSourceSuppAlg.C", "src/TurbKineticEnergyKEpsilonNodeSourceSuppAlg.C", "src/TurbDissipationKEpsilonNodeSourceSuppAlg.C", "src/kernel/TurbKineticEnergySSTSrcElemKernel.C", "src/ShearStressTransportEquationSystem.C update_and_clip"]}
{"id": "C67", "title": "Wall functions", "statement": "The friction velocity reported as converged is the unique solution of the logarithmic law to within 1e-6 (from above), convergence is guaranteed below an explicit speed, and the iteration divides its error by three each step; the turbulent wall stress is rho u_tau^2 up to that tolerance; the traction acts only tangentially, takes energy from the flow, vanishes without slip and has the exact matrix; edge and element forms agree; wall values of k and omega are area-weighted means of point values, positive and order independent.", "quantifier": "every positive state, slip velocity, wall orientation, number of faces and order of visiting them", "why_tests_cant": "A Newton iteration over all states and an assembly over all faces.", "anchors": ["src/ComputeWallFrictionVelocityAlgorithm.C", "src/AssembleMomentumElemWallFunctionSolverAlgoirthm.C", "src/AssembleMomentumEdgeWallFunctionSolverAlgoirthm.C", "src/kernel/MomentumWallFunctionElemKernel.C", "src/ComputeTurbKineticEnergyWallFunctionAlgorithm.C", "src/ComputeLowReynoldsSDRWallAlgorithm.C", "src/ComputeWallModelSDRWallAlgorithm.C", "src/ShearStressTransportEquationSystem.C clip_min_distance_to_wall"]}
{"id": "C68", "title": "Manufactured and exact solutions satisfy the equations they are used to verify", "statement": "For every shipped analytic solution the source terms that accompany it equal the residual of the governing equation evaluated on the analytic fields, at every point and time where the density is finite: variable-density, non-isothermal and Boussinesq continuity, scalar and momentum sources, steady Taylor vortex and heat-conduction sources; source-free solutions (convecting Taylor vortex, Kovasznay, wind-energy vortex with positive viscosity) solve the Navier-Stokes equations; velocities used as solenoidal are; gradient functions are the gradients of the companion value functions; element and nodal forms of one source agree.", "quantifier": "every point, time, parameter value and component", "why_tests_cant": "Convergence studies measure only an observed order at sample points; a wrong term in a source shows up as a plateau that is easily attributed to the scheme.", "anchors": ["src/user_functions/*SrcNodeSuppAlg.C", "src/user_functions/*SrcElemSuppAlg.C", "src/user_functions/*SrcElemKernel.C", "src/user_functions/*AuxFunction.C"]}
{"id": "C69", "title": "User tables and inflow profiles", "statement": "A one-dimensional user table with distinct abscissas gives the tabulated values at the tabulated abscissas, straight lines between neighbours, constant values beyond the ends, changes no faster than its steepest segment and does not depend on the order in which the pairs are listed; a two-dimensional table read from a file reproduces the grid values, is bilinear in every cell, is clamped outside, ramps linearly to full value at the blending time; only the selected component of every point is set and nothing else is written; linear and power-law profiles take their reference values, are monotone, and the pipe profile is axisymmetric and zero at and outside the wall.", "quantifier": "every table, argument, number of points, component and stride; every grid file", "why_tests_cant": "Tables are user data of any size and order, with equality corner cases at every abscissa.", "anchors": ["src/user_functions/TableAuxFunction.C", "src/user_functions/Table2dAuxFunction.C", "src/user_functions/LinearAuxFunction.C", "src/user_functions/PowerlawVelocityAuxFunction.C", "src/user_functions/PowerlawPipeVelocityAuxFunction.C"]}
{"id": "C70", "title": "Walls attached to a moving mesh move with it", "statement": "The velocity that the wind_energy and mesh_motion boundary functions assign to a wall node is the mesh velocity of that node, for prescribed rotation with any ramp and for six-degrees-of-freedom motion, in 3-D, and in 2-D for rotation about the z axis; so the velocity relative to the mesh vanishes there.", "quantifier": "every motion list, time, ramp, node, centroid, displacement", "why_tests_cant": "Two separate implementations must agree for all motions and positions.", "anchors": ["src/user_functions/WindEnergyAuxFunction.C", "src/user_functions/MeshMotionAuxFunction.C", "src/Realm.C set_mesh_velocity, set_mesh_velocity_six_dof"]}
{"id": "C71", "title": "Open boundaries carry out what is inside and bring in what the user specified", "statement": "Through an open face every transported quantity leaves with the value the solution has at the boundary (nearest node, face average or their blend) and enters with the user's entrainment value; a uniform state equal to the entrainment value is neither created nor destroyed beyond the mass flow; first-order element outflow is bounded by the face values; the matrix is the exact sensitivity to the solution; entering momentum has the normal velocity implied by the mass flow rate plus the user's tangential velocity, so a free stream is preserved.", "quantifier": "every face, element type, dimension, mass flow rate, field, entrainment value and blending parameter", "why_tests_cant": "Holds per face for arbitrary data; tests run a few fixed flows where backflow rarely occurs.", "anchors": ["src/AssembleScalarEdgeOpenSolverAlgorithm.C", "src/kernel/ScalarOpenAdvElemKernel.C", "src/AssembleMomentumEdgeOpenSolverAlgorithm.C", "src/kernel/MomentumOpenAdvDiffElemKernel.C"]}
{"id": "C72", "title": "Open and symmetry boundaries transmit only the tangential, respectively normal, viscous force", "statement": "The viscous contribution assembled at an open face is the tangential part of the Newtonian stress acting on the face, that at a symmetry face is the normal part; rigid motion feels neither; the assembled matrix is the exact sensitivity of these forces to the velocity.", "quantifier": "every face orientation, dimension, velocity field, viscosity; both the edge and the element scheme", "why_tests_cant": "Sign and projection errors vanish on axis-aligned faces and in uniform flow, which is what tests use.", "anchors": ["src/AssembleMomentumEdgeOpenSolverAlgorithm.C", "src/AssembleMomentumEdgeSymmetrySolverAlgorithm.C", "src/kernel/MomentumOpenAdvDiffElemKernel.C", "src/kernel/MomentumSymmetryElemKernel.C"]}
{"id": "C73", "title": "Mass is accounted for exactly at open and inflow boundaries", "statement": "The continuity equation receives at each open or inflow face the same mass flow rate that is stored for the transported equations and reported in the mass closure; its matrix is the exact sensitivity to pressure; a linear pressure field with consistent boundary value drives no spurious flow; once the pressure equation is solved, mass balances at every node including open faces, and globally outflow equals supply; the reported accumulation is the density-change term summed over the mesh once per element, whatever the decomposition; the dynamic pressure is that of entering flow only.", "quantifier": "every mesh, set of open faces, field, time step, decomposition into ranks", "why_tests_cant": "A balance over arbitrary meshes and decompositions.", "anchors": ["src/ComputeMdotEdgeOpenAlgorithm.C", "src/AssembleContinuityEdgeOpenSolverAlgorithm.C", "src/ComputeMdotElemOpenAlgorithm.C", "src/kernel/ContinuityOpenElemKernel.C", "src/ComputeMdotInflowAlgorithm.C", "src/kernel/ContinuityInflowElemKernel.C", "src/ComputeDynamicPressureAlgorithm.C", "src/ComputeMdotAlgorithmDriver.C"]}
{"id": "C74", "title": "Reported surface forces, moments, wall shear stress and y+", "statement": "For a post-processed surface the reported pressure and viscous forces are the sums over all its faces of pressure times area and of the Newtonian (or wall-model) traction, the moment is that of these forces about the given centre and transforms accordingly when the centre changes; a uniform pressure on a closed surface and a rigid motion give no pressure/viscous force; the reported wall-model force is the reaction of the one applied to the momentum equation; the nodal pressure force sums to the report; nodal wall shear stress and y+ lie in the range of the values at the adjacent wall points and within the reported extremes; nothing depends on face order or parallel decomposition.", "quantifier": "every surface, mesh, decomposition, face order, field, moment centre, list of requests", "why_tests_cant": "Integrals over arbitrary surfaces and decompositions; sign, double counting and normalisation errors are invisible on single symmetric bodies.", "anchors": ["src/SurfaceForceAndMomentAlgorithm.C", "src/SurfaceForceAndMomentWallFunctionAlgorithm.C", "src/SurfaceForceAndMomentAlgorithmDriver.C"]}
{"id": "C75", "title": "Edge-based scalar transport obeys a maximum principle", "statement": "With first-order upwinding (or a Peclet blend whose central part is dominated by diffusion), backward Euler and a mass flow field satisfying discrete continuity, every solved transport step leaves the scalar within the range of its previous values and of the values supplied at inflow, open and Dirichlet boundaries; this holds for any number of steps with arbitrary changes of flow, density and time step; the result does not depend on the iterate the step started from; a constant stays constant; the mixture-fraction clipping then never acts, and in general stores values in [-delta, 1+delta] and counts what it clipped; non-negative turbulence variables stay non-negative with their sources. (Counterexamples show that BDF2 and pure central differencing do not have the property.)", "quantifier": "every mesh, flow, density, time step, number of steps, boundary value, starting iterate", "why_tests_cant": "A statement about all meshes, flows and histories; a finite set of runs shows only that no overshoot happened there.", "anchors": ["src/AssembleScalarEdgeSolverAlgorithm.C", "src/AssembleScalarEdgeOpenSolverAlgorithm.C", "src/ScalarMassBackwardEulerNodeSuppAlg.C", "src/MixtureFractionEquationSystem.C update_and_clip", "src/TpetraLinearSystem.C applyDirichletBCs"]}
{"id": "C76", "title": "Pressure reference in a closed domain", "statement": "When a fix_pressure_at_node block names a location, the node that is constrained is a node of the given parts whose distance to the location is smallest over all MPI ranks (also when some ranks hold none), so it does not depend on the decomposition when it is unique. Exactly that node's row of the pressure system is replaced, once, however many ranks share it. On a connected mesh the resulting system has at most one solution for any right-hand side, the new pressure there equals the reference value, and if the sources balance the discarded row holds too; hence neither the choice of node nor the value changes any mass flow rate, and pressures change only by a constant.", "quantifier": "all meshes, decompositions, locations, reference values, right-hand sides and pressure fields", "why_tests_cant": "Tests fix one node of one mesh; uniqueness and independence of the flow from the choice are statements about all solutions on all connected meshes.", "anchors": ["src/FixPressureAtNodeAlgorithm.C:execute", "src/FixPressureAtNodeAlgorithm.C:determine_nearest_node", "src/FixPressureAtNodeAlgorithm.C:process_pressure_fix_node"]}
{"id": "C77", "title": "Overset fringe nodes carry the donor's interpolated value", "statement": "In the assembled overset system the equation of every fringe node states that the new value equals the shape-function interpolation of the new values of its donor element at the recorded parametric coordinates, for every component, whatever other contributions were assembled to that row and however many ranks share the node; all other rows are untouched; constants and (for linear elements) linear fields are reproduced and the interpolated value lies in the range of the donor's values when the point is inside it; the explicit field update sets the same value, whatever the processing order, as long as donors are not fringe nodes.", "quantifier": "every mesh, set of fringe nodes and donors, field, number of components, assembly order", "why_tests_cant": "Tests run one pair of meshes; the statement ranges over all donor configurations and fields.", "anchors": ["src/overset/AssembleOversetSolverConstraintAlgorithm.C", "src/overset/OversetManager.C overset_orphan_node_field_update", "src/TpetraLinearSystem.C prepareConstraints"]}
{"id": "C78", "title": "Overset hole cutting and donor search", "statement": "The cut box is the tight bounding box of the overset mesh, shrunk by the requested percentage on each side and moved with the body; every element with a node in the box is cut in the axis-aligned mode, and in the oriented modes exactly those whose centroid lies in the moved shape; cut elements never lie outside the (un-shrunk) overset region by more than an element; every fringe node gets, among the elements offered by the search, the one in which its parametric distance is smallest, ties going to the lowest identifier, so the donor does not depend on search order or on the rank that holds the node; an element that contains the node is always among those offered, so the donor of a node inside the background mesh contains it too; clipped coordinates lie in the parametric cube.", "quantifier": "every box, percentage, motion, element, list of candidate elements and its order, rank", "why_tests_cant": "Geometric predicates over all positions and rotations; the rotation centre is the origin in the shipped tests.", "anchors": ["src/overset/OversetManagerSTK.C:define_inactive_bounding_box", "src/overset/OversetManagerSTK.C:determine_intersected_elements", "src/overset/OversetManagerSTK.C:complete_search", "include/overset/OversetManagerSTK.h:OrientedBox", "include/overset/OversetManagerSTK.h:OrientedCylinder"]}
{"id": "C79", "title": "Fluxes across a non-conformal (sliding) interface", "statement": "At every Gauss point of a non-conformal interface the scalar and momentum equations receive advection and diffusion fluxes that are exact for fields linear in space (mdot q - mu grad q.A, and the corresponding stress), carry the upstream value when upwinded, transport uniform fields only with the mass, and whose matrix is their exact sensitivity; the pressure equation receives exactly the mass flow rate stored for the point, with an exact pressure matrix, and a linear pressure with matching projected gradient drives no flow; the assembled nodal gradient is exact on linear fields; where the Gauss points of the two sides match and the mesh is at rest, mass, scalars and each momentum component are conserved exactly.", "quantifier": "every element type, face, Gauss point, field, viscosity, mass flow, upwinding factor, order of the points", "why_tests_cant": "Consistency, exactness of derivatives and conservation over all geometries and fields; tests run one rotating mesh and check against stored norms.", "anchors": ["src/AssembleScalarNonConformalSolverAlgorithm.C", "src/AssembleScalarDiffNonConformalSolverAlgorithm.C", "src/AssembleMomentumNonConformalSolverAlgorithm.C", "src/AssembleContinuityNonConformalSolverAlgorithm.C", "src/ComputeMdotNonConformalAlgorithm.C", "src/AssembleVofNonConformalSolverAlgorithm.C", "src/AssemblePNGNonConformalSolverAlgorithm.C", "src/AssembleNodalGradNonConformalAlgorithm.C"]}
{"id": "C80", "title": "Opposing faces and ghosting of a non-conformal interface", "statement": "With the dynamic search tolerance, the search either ends with at least one opposing candidate for every Gauss point on every rank or stops the run, and it stops exactly when some point has no opposing face within 1024 times its initial radius; among the faces offered, each point takes one of smallest parametric distance whatever it had before, and the result does not depend on the order of the search results or the decomposition; a point without candidates stops the run; the stored search distance stays at least the distance of the face found and converges to it; after each step the ghosted elements are exactly those the new search asks for: nothing needed is missing, nothing superfluous is kept, nothing is sent twice.", "quantifier": "every decomposition, set of points and faces, radius, search order, history of ghosted elements", "why_tests_cant": "Ranges over all decompositions, result orders and ghosting histories; regression tests run a fixed mesh on a fixed rank count.", "anchors": ["src/NonConformalInfo.C:delete_range_points_found", "src/NonConformalInfo.C:repeat_search_if_needed", "src/NonConformalInfo.C:complete_search", "src/NonConformalManager.C:compute_precise_ghosting_lists"]}
{"id": "C81", "title": "Transfer of fields between realms", "statement": "When a field is transferred from one realm to another, every receiving node gets, among the donor elements the coarse search offered for it, the element with the smallest parametric distance, whatever order the candidates were offered in; an element containing the node is chosen whenever one is offered, and every element containing it has a bounding box in which it lies. The node then receives the shape-function interpolation of the donor's nodal values, component by component, clipped to the requested limits, and nothing else changes: nodes without a locatable donor keep their values, other fields and components are untouched, and nothing depends on the order in which receiving nodes are processed. Linear fields are reproduced on linear elements and no value outside the donor's range is created for a node inside it. From the input file, exactly the named fields, limits and transfer objectives take effect, and giving both a block pair and an all-blocks pair is rejected.", "quantifier": "every donor mesh of linear tetrahedra or hexahedra, set of receiving nodes, candidate list and its order, field, number of components, limits, input deck", "why_tests_cant": "Ranges over all pairs of meshes, search orders and fields; regression tests use a few fixed mesh pairs.", "anchors": ["include/xfer/LinInterp.h", "include/xfer/FromMesh.h", "include/xfer/ToMesh.h", "src/xfer/Transfer.C:load", "src/Realm.C:augment_transfer_vector"]}
{"id": "C82", "title": "Solution norms", "statement": "At exactly the time steps that are multiples of the requested frequency, one row per listed dof and component is appended, in the order of the input: the number of active target nodes, the largest, the mean and the root-mean-square deviation of that component from its analytic function over those nodes, each node counted once. The rows do not depend on the decomposition, the buckets or the order of nodes, and fields and components are never mixed. 0 <= L1 <= L2 <= Loo <= N L1, any of them is zero exactly when the solution is exact at every node, Loo bounds the error at every node, and scaling the error scales them. Every dof with a distinct name is compared with its own function on all target parts; missing targets, unknown parts, dofs or functions are rejected.", "quantifier": "every decomposition, bucket layout, number and size of fields, solution, step, frequency, input deck", "why_tests_cant": "Ranges over all decompositions, solutions and field lists; the regression tests read the file of one run.", "anchors": ["src/SolutionNormPostProcessing.C:execute", "src/SolutionNormPostProcessing.C:setup", "src/SolutionNormPostProcessing.C:load"]}
{"id": "C83", "title": "Data probes", "statement": "A line probe has the requested number of equally spaced points from its tail to its tip; a plane probe is the regular grid spanned by its two edges, every point once; a ring probe has, for every point of its seed line, the requested number of different points at equal angles on the circle about the given unit axis through the origin. Each probe lives on exactly one rank (probe k on rank k mod P) which holds all its points. Over any history of time steps its file gains, at exactly the output steps, one row per point in order with time, coordinates and the value of every listed component; the header is written once, when the file is created, existing contents are kept, and a stopped and restarted run gives the same file. A linear field of a tetrahedral mesh sampled along a line gives the exact linear profile.", "quantifier": "every number of points, geometry, number of probes and ranks, history of steps and restarts, field list", "why_tests_cant": "All geometries, rank counts and histories; the regression tests look at two fixed probes.", "anchors": ["src/DataProbePostProcessing.C:initialize", "src/DataProbePostProcessing.C:load", "src/DataProbePostProcessing.C:provide_output", "src/DataProbePostProcessing.C:compute_R"]}
{"id": "C84", "title": "Solid and mesh displacement", "statement": "The displacement equation balances Hooke's tractions of the interpolated Lame constants over each node's control volume: internal forces cancel in every component, translations and infinitesimal rotations are force free, a linear displacement gives one constant stress, and the matrix is the exact sensitivity. The simplified neo-Hookean option does the same with its nonlinear law, for which any rigid motion is stress free. Inertia is density times the acceleration of the sub-control volumes, zero in uniform motion and exact for constant acceleration, with an exact matrix. A pressure boundary condition loads the wall by minus pressure times its area vector, nothing in the matrix. The Lame constants of the input file reach the stress under their own names. The mesh moves by the displacement, with the velocity of its motion (exact for motions linear in time, and quadratic ones from the second step on), and the stored divergence is the trace of the velocity gradient.", "quantifier": "every element type, displacement, elastic constants, step sizes, motion, pressure", "why_tests_cant": "Rigid-motion invariance and exactness over all displacements and step sizes; the regression tests use geometric (equal) Lame constants and compare stored norms.", "anchors": ["src/kernel/MeshDisplacementElasticElemKernel.C", "src/kernel/MeshDisplacementSimplifiedNeohookeanElemKernel.C", "src/kernel/MeshDisplacementMassElemKernel.C", "src/mesh_motion/MeshDisplacementEquationSystem.C", "src/mesh_motion/AssemblePressureForceBCSolverAlgorithm.C"]}
{"id": "C85", "title": "Finite-element (Galerkin) kernels", "statement": "Each finite-element kernel adds to the equation of a node exactly the quadrature of its weak form: diffusion, advection, inertia, heat inertia, continuity with pressure stabilisation, projected nodal gradient, momentum inertia, body force, momentum advection and viscous stress mu(grad u + grad u^T) - 2/3 mu div(u) I; on faces, inflow mass, open-boundary mass, scalar and momentum fluxes (upwinded, with entrainment and tangential traction), penalty fluxes and the boundary part of the nodal gradient. Interior fluxes cancel over the nodes of an element, the matrix is the exact derivative of the residual, diffusive and inertial matrices are symmetric and non-negative, constants and rigid motions produce no flux, a uniform scalar or stream is carried consistently with mass, and integration by parts closes: element and face terms vanish together when the nodal gradient is the gradient of the field.", "quantifier": "every element with consistent shape functions (hex 8, tet 10 and any quadrature), every nodal field, coefficients, time step, boundary data", "why_tests_cant": "Weak forms, cancellation, exact matrices and definiteness over all geometries and fields; the unit tests compare stored numbers on one element.", "anchors": ["src/kernel/ScalarDiffFemKernel.C", "src/kernel/ScalarAdvFemKernel.C", "src/kernel/ScalarMassFemKernel.C", "src/kernel/ContinuityAdvFemKernel.C", "src/kernel/MomentumAdvFemKernel.C", "src/kernel/MomentumDiffFemKernel.C", "src/kernel/MomentumMassFemKernel.C", "src/kernel/MomentumBodyForceFemKernel.C", "src/kernel/ScalarPngFemKernel.C", "src/kernel/ScalarPngBcFemKernel.C", "src/kernel/ContinuityInflowFemKernel.C", "src/kernel/ContinuityOpenFemKernel.C", "src/kernel/ScalarOpenAdvFemKernel.C", "src/kernel/ScalarFluxPenaltyFemKernel.C", "src/kernel/MomentumOpenAdvDiffFemKernel.C", "src/master_element/Hex8FEM.C", "src/master_element/Tri6FEM.C"]}
{"id": "C86", "title": "Volume of fluid", "statement": "The volume-fraction equation adds to every node exactly the discrete balance it states: time term (exact matrix, zero in a steady state), advection in divergence or advective form, central or upwinded with the limited value always between the two nodes' values, compression term, grid-velocity correction, interface sharpening and evaporation. Interior fluxes cancel, a uniform volume fraction changes only by a net outflow of volume, pure phases are not sharpened, and the matrix is the derivative of the residual. The continuity equation with surface tension keeps a still drop in equilibrium with its Laplace pressure jump, and the capillary stabilisation conserves momentum, acts only at the interface and only in its plane, never adds energy and leaves a uniform velocity alone. After each solve the volume fraction lies in [-delta, 1+delta], with the clipped nodes counted. The nodal interface normal never exceeds unit length, is exact for planar interfaces, vanishes in pure fluid, and changes sign with the phases; the curvature of a planar interface is zero and of a linear normal field minus its divergence. Smoothing keeps the total volume and uniform or planar fields.", "quantifier": "every element type and mesh, every nodal field, flow rate, parameters, number of smoothing sweeps", "why_tests_cant": "Balances, bounds and exactness over all fields and meshes; the regression test compares stored norms of one run.", "anchors": ["src/kernel/VolumeOfFluidMassElemKernel.C", "src/kernel/VolumeOfFluidScsAdvElemKernel.C", "src/kernel/VolumeOfFluidScsUpwAdvElemKernel.C", "src/kernel/VolumeOfFluidScvAdvElemKernel.C", "src/kernel/VolumeOfFluidSharpenElemKernel.C", "src/kernel/VolumeOfFluidEvaporationElemKernel.C", "src/kernel/VolumeOfFluidSucvNsoElemKernel.C", "src/kernel/ContinuityVofAdvElemKernel.C", "src/kernel/MomentumVofCapillaryElemKernel.C", "src/kernel/MomentumVofSharpenElemKernel.C", "src/VolumeOfFluidEquationSystem.C:update_and_clip", "src/VolumeOfFluidEquationSystem.C:compute_interface_normal", "src/VolumeOfFluidEquationSystem.C:compute_interface_curvature", "src/VolumeOfFluidEquationSystem.C:smooth_vof"]}
{"id": "C87", "title": "Nonlinear stabilisation adds only a bounded, conservative, dissipative flux", "statement": "With nonlinear stabilisation active, each element adds to a scalar or momentum equation minus the net outflow of a flux nu*g^ij*(d_j q - f*G_j) along the element metric, where nu lies between zero and the upwind value and vanishes when the residual or the flow vanishes; element sums are unchanged; uniform fields (and, in the fourth-order form, linear fields) are left alone; the added matrix is the derivative with nu held; the finite-element form is symmetric and never amplifies; the strain-rate form leaves rotations alone and counts its divergence stress once.", "quantifier": "all elements with consistent maps and shape functions, all nodal fields, metrics, coefficients, states and components", "why_tests_cant": "nu is a minimum of square roots of nodal data; unit tests compare one element's numbers with stored gold values", "anchors": ["src/nso/ScalarNSOElemKernel.C", "src/nso/ScalarNSOKeElemKernel.C", "src/nso/MomentumNSOElemKernel.C", "src/nso/MomentumNSOKeElemKernel.C", "src/nso/MomentumNSOSijElemKernel.C", "src/nso/MomentumNSOGradElemSuppAlg.C", "src/nso/ScalarNSOFemKernel.C"]}
{"id": "C88", "title": "Body forces and heat sources", "statement": "Buoyancy adds to a node's momentum the integral over its share of the element of (density - reference density) times gravity, Boussinesq buoyancy the same with the linearised density, so an element as a whole receives its excess weight, the reference state none, and warm fluid is pushed against gravity; constant body forces, volumetric and actuator sources add their density times the volume with their stated matrix coefficient. The Rodi and sub-grid buoyancy sources of turbulence energy feed unstable and drain stable stratification and vanish for uniform fields. Viscous heating is the power of the Newtonian stress, never negative in up to three dimensions, zero for rigid rotation and uniform expansion. Pressure work is u.grad p, the pressure-rate term is exact for linear histories, and the compressibility and radiation matrix entries are derivatives of their residuals, stabilising, with no net source at radiative equilibrium.", "quantifier": "every element type, every nodal field, gravity vector, coefficient, time step and state", "why_tests_cant": "Integral identities, signs and exact derivatives over all fields; unit tests check a few kernels on one element against stored values", "anchors": ["src/MomentumBuoyancySrcNodeSuppAlg.C", "src/MomentumBoussinesqSrcNodeSuppAlg.C", "src/MomentumBodyForceSrcNodeSuppAlg.C", "src/MomentumActuatorSrcNodeSuppAlg.C", "src/kernel/MomentumBuoyancySrcElemKernel.C", "src/kernel/MomentumBuoyancyBoussinesqSrcElemKernel.C", "src/kernel/MomentumBodyForceElemKernel.C", "src/kernel/MomentumActuatorSrcElemKernel.C", "src/kernel/VolumetricSrcElemKernel.C", "src/TurbKineticEnergyRodiNodeSourceSuppAlg.C", "src/kernel/TurbKineticEnergyRodiSrcElemKernel.C", "src/kernel/TurbKineticEnergyKsgsBuoyancySrcElemKernel.C", "src/EnthalpyViscousWorkNodeSuppAlg.C", "src/EnthalpyPressureWorkNodeSuppAlg.C", "src/EnthalpyLowSpeedCompressibleNodeSuppAlg.C", "src/ContinuityLowSpeedCompressibleNodeSuppAlg.C", "src/EnthalpyPmrSrcNodeSuppAlg.C", "src/TemperaturePmrSrcNodeSuppAlg.C"]}
{"id": "C89", "title": "Wall heat fluxes and coupled-wall heat transfer data", "statement": "A convective wall adds q + alpha (T_ref - T) per area to its nodes, an irradiated wall emissivity (H - sigma T^4), a flux condition its specified flux, a temperature-gradient condition minus conductivity times the gradient, and the penalty form of a specified value its diffusive flux plus a penalty that vanishes at that value; the totals are the fluxes times the face area, equilibria exchange nothing, a hotter wall receives less radiation, and each matrix is the derivative of its residual. The heat-transfer data reported for a coupled wall satisfy flux = htc (T_ref - T_wall) at every node, conserve the total heat, are exact for linear temperatures, have a positive coefficient and a reference temperature between the adjacent fluid temperatures, and the coupling parameter is kappa/h sqrt(chi(chi+2)), non-negative and growing with chi.", "quantifier": "every face, nodal field, parameter, and list of boundary points around a node", "why_tests_cant": "Identities over all faces, fields and assembly orders; regression tests compare stored norms of one coupled run", "anchors": ["src/AssembleHeatCondWallSolverAlgorithm.C", "src/AssembleHeatCondIrradWallSolverAlgorithm.C", "src/AssembleScalarFluxBCSolverAlgorithm.C", "src/AssembleTemperatureNormalGradientBCSolverAlgorithm.C", "src/kernel/ScalarFluxPenaltyElemKernel.C", "src/ComputeHeatTransferElemWallAlgorithm.C", "src/ComputeHeatTransferEdgeWallAlgorithm.C", "src/AssembleWallHeatTransferAlgorithmDriver.C"]}
{"id": "C90", "title": "Actuator lines", "statement": "The points of an actuator line divide it evenly from tail to tip and rotate rigidly about its middle with the given angular velocity; each feels the gas with its own velocity. The drag on the gas is the Stokes/Schiller-Naumann/Newton law: along the slip, zero without slip, never less than Stokes drag, growing and continuous in the Reynolds number. It is spread to the nodes of the surrounding elements with a Gaussian of the given decay radius, every point adding its share whatever the rank that owns it; the matrix coefficient summed over the mesh is the points' drag coefficients. The element used for interpolation is the nearest candidate, the first on ties.", "quantifier": "every line, point count, time, angular velocity, gas state, mesh, distribution of machines to ranks", "why_tests_cant": "Holds for all lines, times, overlaps and rank distributions; the regression test runs one line on one mesh", "anchors": ["src/ActuatorLinePointDrag.C"]}
{"id": "C91", "title": "Nodal gradients", "statement": "The nodal gradient is the outward surface integral of the interpolated field over the node's control volume divided by its volume, whatever the order of elements and their distribution over ranks; it is zero for a constant and exact for a linear field at every node, including boundary nodes, of every conforming planar mesh; the volume-weighted sum over the mesh is the boundary integral. The vector gradient is the scalar one of each component, its trace the net outflow. The open-boundary pressure gradient uses the static pressure. The projected gradient, from any start and after any number of exact solves, satisfies the weak equation (volume integral of the gradient = surface integral of the field), is the only solution, is the Green-Gauss gradient when lumped, and is exact for linear fields. The balanced-force pressure gradient is the area-weighted mean of the net force per mass around the node: between the extremes, zero in balance, exact for linear pressure.", "quantifier": "every mesh, field, rank distribution, start value, number of iterations", "why_tests_cant": "Holds on all meshes and fields; unit tests check one element or one field", "anchors": ["src/AssembleNodalGradElemAlgorithm.C", "src/AssembleNodalGradUElemAlgorithm.C", "src/AssembleNodalGradUEdgeAlgorithm.C", "src/AssembleNodalGradUBoundaryAlgorithm.C", "src/AssembleNodalGradPBoundaryAlgorithm.C", "src/AssembleNodalGradPAWElemAlgorithm.C", "src/AssembleNodalGradPAWBoundaryAlgorithm.C", "src/AssembleNodalGradAlgorithmDriver.C", "src/AssemblePNGElemSolverAlgorithm.C", "src/AssemblePNGBoundarySolverAlgorithm.C", "src/AssemblePNGPressureBoundarySolverAlgorithm.C", "src/ProjectedNodalGradientEquationSystem.C"]}
{"id": "C92", "title": "Explicit filtering", "statement": "For each node the filter covers exactly the elements of the whole mesh whose bounding box meets the box of the given size around the node, in ascending order of identifier, whatever the distribution of nodes and elements over ranks and the order of the search results, and each of these elements is available on the node's rank; the elements around the node are always covered and a larger filter only adds elements. The filtered value is the volume-weighted mean of the elements' node means (over all images of a periodic node): linear, between the extremes, constants unchanged, linear fields unchanged at nodes with a centred stencil. The reported momentum residual is minus the volume-weighted strong form with the mass residual taken out: zero for a uniform stream in hydrostatic balance, the buoyancy force for gas at rest.", "quantifier": "every mesh, distribution over ranks, search order, filter size, field", "why_tests_cant": "Holds for all meshes, distributions and filter sizes; there is no unit test of the filtering", "anchors": ["src/ExplicitFiltering.C"]}
{"id": "C93", "title": "Error indicators and Courant/Reynolds numbers", "statement": "Each error indicator is a root mean of what it claims to measure: the velocity or scalar change along the element's edges predicted by the nodal gradients (zero for uniform fields), in space the vorticity magnitude (zero for irrotational flow), the pressure-stabilisation flux (zero exactly where stabilisation adds nothing, in particular for linear pressure), the limiter activity (always between 1e-8 and 1+1e-8), and none of the built-in exceptions can be raised. The Courant and Reynolds numbers of an element are the largest of its edges' and the realm's is the largest over all elements of all ranks whatever the distribution; the Courant number is |u.dx| dt/dx^2 (plus the sound in a gas), bounded by |u| dt/|dx|, proportional to the time step, so the time-step controller hits the target when it is not limited; on boxes the finite-element number agrees with the directional ones within sqrt 3.", "quantifier": "every element type, mesh, distribution, velocity, pressure and gradient field, time step", "why_tests_cant": "Holds for all fields, meshes and distributions; the regression suite only compares final norms", "anchors": ["src/SimpleErrorIndicatorElemAlgorithm.C", "src/SimpleErrorIndicatorScalarElemAlgorithm.C", "src/PstabErrorIndicatorElemAlgorithm.C", "src/PstabErrorIndicatorEdgeAlgorithm.C", "src/LimiterErrorIndicatorElemAlgorithm.C", "src/AssembleCourantReynoldsElemAlgorithm.C", "src/AssembleCourantReynoldsFemAlgorithm.C", "src/gas_dynamics/AssembleGasDynamicsCourantReynoldsElemAlgorithm.C"]}
{"id": "C94", "title": "Eigen-decomposition and the eigenvalue-perturbed scalar flux", "statement": "For every symmetric matrix the decomposition returns an orthogonal Q and a symmetric D with A = Q D Q^T exactly (so reconstructing gives A back) and the same trace; in the plane D is always diagonal, in space it is diagonal whenever the iteration stops before its pass limit, and a diagonal matrix comes back as it is. In SIMD packs every lane has the same guarantee and, without ties, exactly the scalar result whatever the other lanes hold. Perturbing moves each eigenvalue, by rank, the fraction delta towards the chosen limiting state: no perturbation gives exactly the ordinary Reynolds stress, and a realizable stress stays realizable (positive semi-definite). The edge contribution with the perturbed stress is conservative, its matrix is the exact derivative of its residual, a linear scalar gets the exact anisotropic flux on any edge, and a realizable stress only diffuses.", "quantifier": "every symmetric matrix, pack, perturbation, edge, field and option", "why_tests_cant": "Holds for all matrices and fields, including ties, repeated eigenvalues and oblique edges; the unit tests decompose two fixed matrices and random ones", "anchors": ["src/EigenDecomposition.C", "src/AssembleScalarEigenEdgeSolverAlgorithm.C"]}
{"id": "C95", "title": "The two implementations of each element operator agree", "statement": "Advection-diffusion of a scalar, pure diffusion, the pressure equation and momentum can be assembled either by the consolidated kernels or by the older element algorithms with flat arrays, and likewise the open and symmetry faces. For every element, field and option both give entry by entry the same matrix and the same right-hand side, and the flat arrays are never written outside their ends. Hence the arrays are conservative, their matrix is the exact sensitivity (without limiter and with one gradient operator), a uniform scalar only sees the net mass outflow and the pressure level is irrelevant. Residual and matrix of the pressure equation use the same gradient operator unless reduced sensitivities are requested without shifting.", "quantifier": "every element type, geometry, nodal field, scheme option and row", "why_tests_cant": "Agreement of two code paths must hold for all elements, fields and options; regression tests run one path per case", "anchors": ["src/AssembleScalarElemSolverAlgorithm.C", "src/AssembleScalarElemDiffSolverAlgorithm.C", "src/AssembleContinuityElemSolverAlgorithm.C", "src/AssembleMomentumElemSolverAlgorithm.C", "src/AssembleScalarElemOpenSolverAlgorithm.C", "src/AssembleContinuityElemOpenSolverAlgorithm.C", "src/AssembleMomentumElemOpenSolverAlgorithm.C", "src/AssembleMomentumElemSymmetrySolverAlgorithm.C"]}
{"id": "C96", "title": "Loads on a floating body", "statement": "The force and moment given to a six-degree-of-freedom body are the sums over all its wall points, on all ranks and in any order, and over all its tethers, of the single forces and of their moments about the body's present centre. A tether is attached to a point that moves rigidly with the body; it pulls along its line with stiffness times elongation, is the gradient of the spring energy, never pushes if it may go slack, and does not depend on where the origin is. In a fluid at rest the load is the weight of the displaced fluid. Under a constant load the stored acceleration approaches force/mass geometrically and a balanced body keeps its velocity. Tethers are read as groups of nine numbers; any other count is refused.", "quantifier": "every surface, decomposition, flow field, body attitude, tether and number of steps", "why_tests_cant": "The sums must hold for every mesh, rank layout and attitude; tests check single cases", "anchors": ["src/SixDofSurfaceForceAndMomentAlgorithm.C", "src/SixDofSurfaceForceAndMomentAlgorithmDriver.C", "src/Realm.C: update_body_vel", "src/SolutionOptions.C: tethers", "src/MeshMotionInfo.C"]}
{"id": "C97", "title": "Projected wall functions and the one-dimensional wall model", "statement": "For a wall function that takes its velocity at a projected distance from the wall: the exchange point lies exactly at that distance along the inward normal; with the one-dimensional wall model the points laid between the wall and the exchange point rise strictly, end exactly at the exchange point and grow geometrically by the stated bias; the tridiagonal solver solves every diagonally dominant system; each velocity profile is the one and only profile with the given end velocities that carries a single shear stress through the whole layer, it is monotone and bounded by its end values; the turbulent viscosity equals the molecular one at the wall and rises from there; a wall stress solving the model's equation exists, the friction velocity handed back is real and satisfies that equation to 1e-6 whenever convergence is reported; the force put into the momentum equations is the wall stress on the area along the slip, with no normal part, and the force, wall stress and y+ reported for the surface are its reaction. A flow at rest relative to the wall should give no force.", "quantifier": "every number of points, bias, layer thickness, density, viscosity, slip velocity, initial guess and starting profile; every wall face with any shape functions, areas and velocities", "why_tests_cant": "the profile is the solution of a linear system of any size inside a fixed-point iteration of any length; tests see a few channel-flow cases", "anchors": ["src/PointInfo.C: initialize_ode_points, compute_visc, assemble, tdma, solve", "src/ComputeWallFrictionVelocityProjectedAlgorithm.C: execute, compute_utau, compute_utau_ode, construct_bounding_points", "src/AssembleMomentumElemWallFunctionProjectedSolverAlgorithm.C: execute", "src/SurfaceForceAndMomentWallFunctionProjectedAlgorithm.C: execute"]}
{"id": "C98", "title": "Coupled realms: every declared transfer runs exactly when its objective says", "statement": "A transfer block that names neither or both of its variables and a coupling, or names its parts in neither or both of the two ways, is refused, as is one naming an unknown realm or objective; every accepted transfer belongs to exactly one realm and is executed by it, in input order: initialization transfers once, external-data transfers once at the start and once per step, input/output transfers whenever the step count is a multiple of the output frequency (the start included), multi-physics transfers once per nonlinear iteration of the steps in which their from realm is solved, plus once at the start of a restarted run. A multi-physics transfer always carries the solution its realm has just computed, with no other realm solved in between, so later realms of the same iteration see it. What an output realm writes was transferred in the same step, and a restarted run starts from the saved fields.", "quantifier": "every input deck of transfers and realms, every integrator realm list, frequency, start, number of steps and nonlinear iterations, restart or not", "why_tests_cant": "the order and number of executions is a property of the whole history of a run over any number of steps and realms", "anchors": ["src/xfer/Transfer.C: load, breadboard", "src/xfer/Transfers.C: load, breadboard", "include/Realms.h: find_realm", "src/Realm.C: augment_transfer_vector, process_multi_physics_transfer, process_initialization_transfer, process_io_transfer, process_external_data_transfer, active_time_step, provide_output", "src/TimeIntegrator.C: integrate_realm"]}
{"id": "C99", "title": "Assembly: every contribution enters the system once and boundary values are enforced as prescribed", "statement": "Whatever the numbering of elements and faces, their division into buckets, the SIMD width, what unused lanes hold and the order of the kernels, the assembled matrix and right-hand side are what was there plus every selected element's and boundary face's terms exactly once, each face with the side of its own element; an entity in several parts of one algorithm counts once, in whatever order the parts are listed. The names and order of algorithms do not matter. A row under a boundary value is the identity row whatever else was assembled or constrained, so that the solved value is the prescribed one; a constrained row holds the constraint only; a reference pressure prevails at its node. At a node under several conditions the one of the greatest kind prevails and among those the last of the input; conditions that do not overlap may be listed in any order, and repopulating boundary data changes nothing.", "quantifier": "every mesh traversal (bucket division, order, SIMD width), every list of additive kernels, every set of algorithms, constraints and boundary conditions in any order", "why_tests_cant": "the claim is about all traversals, group sizes and registration orders of any mesh; a test sees one bucket layout and one SIMD width", "anchors": ["include/AssembleElemSolverAlgorithm.h: run_algorithm", "src/AssembleElemSolverAlgorithm.C: execute", "include/AssembleFaceElemSolverAlgorithm.h: run_face_elem_algorithm", "include/kernel/KernelBuilder.h: build_or_add_part_to_solver_alg", "src/SolverAlgorithmDriver.C: execute", "src/DirichletBC.C: execute", "src/AuxFunctionAlgorithm.C: execute", "src/EquationSystems.C: populate_boundary_data", "src/VolumeOfFluidEquationSystem.C: register_inflow_bc, register_wall_bc"]}
{"id": "C100", "title": "Turbulence and species variables remain realizable after each segregated update", "statement": "Whatever the linear solver returns, after a mass-fraction update with at least one inner iteration the mass fractions of every owned or shared node sum to one, each solved one lies within the clip bounds and the last does not exceed one; the order in which independent species are solved does not matter and a converged realizable field is left alone. After a k-epsilon update k and epsilon are positive; admissible increments are accepted as they are, and whenever a value is reset the pair is in equilibrium with the molecular viscosity. The wall dissipation is the area mean of utau^3/(kappa y) over the wall points of a node, within their range and independent of their order; the maximum length of a node is its longest element edge whatever the order or direction of the edges; the enthalpy diffusivity is k/cp plus mut/Pr_t.", "quantifier": "every number of species, inner iterations, solver answer and field; every k, epsilon, increment and positive property; every list of wall points and of edges", "why_tests_cant": "a test fixes one chemistry, one solver and one mesh; the clipping matters precisely for the unusual solver answers no test produces", "anchors": ["src/MassFractionEquationSystem.C: solve_and_update, set_current_mass_fraction, compute_nth_mass_fraction", "src/FieldFunctions.C: field_axpby, field_index_copy", "src/KEpsilonEquationSystem.C: update_and_clip, initial_work", "src/TurbDissipationEquationSystem.C: compute_wall_model_parameters", "src/ComputeWallModelTurbDissipationWallAlgorithm.C: execute", "src/ComputeSSTMaxLengthScaleElemAlgorithm.C: execute", "src/EnthalpyEffectiveDiffFluxCoeffAlgorithm.C: execute"]}
{"id": "C101", "title": "The volume flow rates that carry the volume fraction are exactly those the pressure equation balances", "statement": "In a volume-of-fluid run the volume flow stored for transport at every interior, open and non-conformal point is the one the pressure equation of the adjacent nodes balances, and the stored mass flow is the density there times it. When the pressure gradient balances weight and surface tension the flow is that of the interpolated velocity whatever the time scale. Once the pressure equation is solved, a uniform volume fraction stays uniform. The accumulated inflow is the sum over the inflow faces of density times boundary velocity through them and is what the pressure equation receives. Across a non-conformal interface the matrix is the exact derivative of the residual, the volume flows seen from the two sides are opposite (sliding included), volume is conserved over the interface, a smooth flow passes exactly, and a fluid in balance is left at rest.", "quantifier": "every element, face and interface geometry, number of points, nodal field, density ratio, time scale, exponent and list of mirrored interface points", "why_tests_cant": "a test compares one element's flow with a stored number; equality of two separately coded flow computations and of the two sides of an interface has to hold for all fields and geometries, or fluid is slowly created", "anchors": ["src/ComputeMdotVofElemAlgorithm.C: execute", "src/ComputeMdotVofElemOpenAlgorithm.C: execute", "src/ComputeMdotVofInflowAlgorithm.C: execute", "src/ComputeMdotVofNonConformalAlgorithm.C: execute", "src/AssembleContinuityVofNonConformalSolverAlgorithm.C: execute"]}
{"id": "C102", "title": "Boundary and initial condition input is read faithfully", "statement": "A boundary condition block of the input file sets, for every documented keyword present, exactly the datum of that name and marks it as given; absent data keep their default and are not marked. The outcome does not depend on the order of the keywords, a user function is found under the name of the quantity it is given for and wins over a constant, and a block is accepted exactly if every keyword present is readable. The kind of a condition follows from its key and the conditions keep the order of the file. The wall thermal condition is decided by the data given; each convective or Robin wall reads its own coefficient; where initial conditions overlap, the last wins, and nodes of no target are untouched; an equation gets the solver block it names and a property the block of its name; unknown names stop the run.", "quantifier": "every input block (any keywords, order, values and user function maps), list of conditions, initial conditions with any overlap of parts, and solver and property lists", "why_tests_cant": "the keyword space is combinatorial: tests parse a handful of decks, while a keyword read into a neighbouring member, or not read at all, shows only with that keyword in that kind of block", "anchors": ["src/NaluParsing.C: expect_type, operator>>, decode", "include/NaluParsing.h: WallUserData, InflowUserData, OpenUserData", "src/BoundaryConditions.C: load", "include/BoundaryConditions.h: load", "src/InitialConditions.C: load", "src/Realm.C: setup_initial_conditions", "src/HeatCondEquationSystem.C: register_wall_bc", "src/EquationSystem.C: bc_data_specified, get_bc_function_name", "src/LinearSolvers.C: load, create_solver", "src/EquationSystems.C: get_solver_block_name", "src/MaterialProperty.C: load"]}
{"id": "C103", "title": "Compressible gas passes a sliding interface unharmed", "statement": "Where two non-conformal blocks meet, an inviscid gas exchanges exactly the flux an interior edge of the same area would carry between the states seen on the two faces, mass, momentum and energy coming from the side the gas flows from. A uniform stream over a mesh at rest gives the flux of that stream through the area, for any viscosity and conductivity, so it is not disturbed; a linear temperature in gas at rest is conducted exactly. What one side of a pair of matching points loses the other gains, so mass is conserved over the interface, and so are momentum and energy.", "quantifier": "every list of interface points in any order, both normals, any numbers of nodes and fields, any earlier contents of the work arrays", "why_tests_cant": "a regression test fixes one flow on one interface: an exchange that is wrong only for shear, for unequal densities, for a second point, for a moving mesh or for faces of different kinds goes unseen", "anchors": ["src/gas_dynamics/AssembleGasDynamicsNonConformalAlgorithm.C: execute"]}
{"id": "C104", "title": "Hybrid turbulence stress, element sources of turbulent energy, diffusion along edges", "statement": "The hybrid momentum stress moves momentum between the two nodes of each face and creates none; its matrix is exact; in a linear velocity field it is the stress of that gradient, nothing for uniform velocity and, with an isotropic tensor, nothing for rigid rotation and the ordinary eddy-viscosity stress otherwise. The element sources of turbulent energy give the nodes together the source over the element, production is limited to the given multiple of dissipation, rigid motion only dissipates, and in a uniform state the element form gives what the nodal form gives. Diffusion along edges conserves, has a symmetric exact matrix with the signs of a diffusion operator, is the transport operator with no flow and conducts linear fields exactly.", "quantifier": "every element with consistent maps, number of nodes and points, every tensor, field, matrix contents before the call, every mesh of edges and field", "why_tests_cant": "tests fix one unit element and one field: a stress counted once per node, a swapped row or a limiter on the wrong side is invisible unless the field has the component that shows it", "anchors": ["src/kernel/MomentumHybridTurbElemKernel.C: execute", "src/kernel/TurbKineticEnergySSTDESSrcElemKernel.C: execute", "src/kernel/TurbKineticEnergyKsgsDesignOrderSrcElemKernel.C: execute", "src/AssembleScalarEdgeDiffSolverAlgorithm.C: execute"]}
{"id": "C105", "title": "Balancing node ownership between processes", "statement": "When nodes on process boundaries are handed to less loaded processes, after any number of rounds every node is owned by exactly one process and that process holds the node, the counts add up to the number of nodes, nodes held by one process never move, and the smallest count never drops. A node goes only to a least loaded holder with strictly fewer nodes; a round moves nothing exactly when no such holder exists; with two processes, or when nobody receives from two others, the largest count never grows. Counts expected from a neighbour are always sent.", "quantifier": "every mesh, sharing of its nodes, starting ownership, order in which each process sees its nodes, target and number of rounds", "why_tests_cant": "the decisions are taken concurrently on exchanged counts; a test runs one small mesh on a few ranks and cannot show that no other sharing pattern loses a node, deadlocks or cycles", "anchors": ["src/InterfaceBalancer.C: balance_node_entities", "src/InterfaceBalancer.C: changeOwnersOfNodes", "src/InterfaceBalancer.C: exchangeLocalSizes", "src/InterfaceBalancer.C: getInterfaceDescription", "src/InterfaceBalancer.C: getGlobalLoadImbalance"]}
{"id": "C106", "title": "Element scratch memory is large enough and holds what was asked", "statement": "The memory reserved for an element or face-element algorithm covers everything placed in it, for any set of requested master-element data and fields: the arrays of all lanes, the vector copies, the element systems and the integer arrays; views never overlap. Each requested array exists with the extents of its request, together with the work arrays its calculation needs, and after filling holds the data of that request. Requests are accepted exactly when the elements they need were given; a field asked for twice is gathered once, a conflicting size is refused.", "quantifier": "every subset of the 18 requests for each coordinate field, every list of fields, every element (nodes, points, dimension), any number of lanes", "why_tests_cant": "the 2^18 request sets times element kinds times fields cannot be run; an undersized budget shows only as memory corruption for the kernel combination that triggers it", "anchors": ["src/ScratchViews.C: get_num_scalars_pre_req_data", "src/ScratchViews.C: fill_pre_req_data", "include/ScratchViews.h: create_master_element_views", "include/ScratchViews.h: fill_master_element_views_new_me", "include/ScratchViews.h: calculate_shared_mem_bytes_per_thread", "src/ElemDataRequests.C: add_gathered_nodal_field"]}
{"id": "C107", "title": "Built-in profiles are what they are named after", "statement": "A built-in initial or boundary profile chosen in the input is laid over the field so that every point holds the profile at its own coordinates and nothing else changes; constants fill exactly the named components. Each profile has the properties it is chosen for: the perturbed plug flow sticks to both walls, is bounded and fits a periodic channel; the boundary-layer disturbance is divergence free, vanishes at the wall and peaks at the given height; the vortex is pure swirl; the travelling puff is carried by the velocity; the two-sphere temperature and the 1:2 duct flow satisfy their equations; volume and mixture fractions stay in [0,1] with the interface where the input puts it; the measured cylinder temperature is interpolated at the right angle and never leaves the data.", "quantifier": "all points, times, parameters, numbers of points, tables of any length, any number of series terms", "why_tests_cant": "a test evaluates a profile at a few points; an error in a sign, a branch or the binary search shows only at particular angles, parameters or knots", "anchors": ["src/user_functions/ChannelFlowPerturbedPlugVelocityAuxFunction.C: do_evaluate", "src/user_functions/BoundaryLayerPerturbationAuxFunction.C: do_evaluate", "src/user_functions/RayleighTaylorMixFracAuxFunction.C: do_evaluate", "src/user_functions/FixedHeightMixFracAuxFunction.C: do_evaluate", "src/user_functions/TornadoAuxFunction.C: do_evaluate", "src/user_functions/FlowPastCylinderTempAuxFunction.C: interpolate_data", "src/user_functions/OneTwoTenVelocityAuxFunction.C: do_evaluate", "src/user_functions/ConcentricAuxFunction.C: do_evaluate", "src/ConstantAuxFunction.C: do_evaluate", "include/AuxFunction.h: evaluate"]}
{"id": "C108", "title": "The material blocks of the input decide what fills every property", "statement": "A run that starts has, for every material block, every part it names and every property the equations need, something that fills that property on that part, and its value at every node is what the block asked for: the constant; the mixing rule in mixture fraction (harmonic for density, linear otherwise) or in volume of fluid; the species-weighted heat; the polynomial viscosity and specific heat; the ideal gas law at reference or transported pressure, reference or solved temperature, reference or local composition according to the flow; the water fits; the inverse dual volume; the table. A property without a specification, and a combination that is not supported, stop the run. A gas given by its heat ratio gets both heats, satisfying Mayer's relation; the enthalpy that goes with a specific heat has it as its derivative. Reference constants are the block's own, or the defaults 101325, 298.15 and 8314.4621.", "quantifier": "all numbers of blocks, parts, properties and species, all specifications, flow flags, nodes and states", "why_tests_cant": "a test runs a few inputs; the choice among fifteen evaluators depends on five flags, the property and the type together, and values carried from one block to the next show only with several blocks", "anchors": ["src/Realm.C: setup_property", "src/MaterialProperty.C: extract_universal_constant, load", "src/MaterialPropertys.C", "include/MaterialProperty.h", "src/property_evaluator/IdealGasPropertyEvaluator.C", "src/property_evaluator/EnthalpyPropertyEvaluator.C", "src/property_evaluator/InverseDualVolumePropAlgorithm.C"]}
{"id": "C109", "title": "The coupled solver keeps velocity and pressure in step with its unknown", "statement": "In the coupled formulation velocity and pressure on the one hand and the coupled unknown on the other describe the same flow: after every time step each node's velocity components and pressure are exactly its entries of the unknown, now and at the previous time level; a step adds exactly the solver's increments to the last state; a fresh run of any length ends with the initial velocity and pressure plus all increments; a restarted run depends only on the saved unknown; no copy writes outside the nodes' own storage.", "quantifier": "all numbers of nodes, dimensions, time levels, steps and iterations, all increments, initial states, and boundary or transferred data written in between", "why_tests_cant": "a test runs one mesh for a few steps; an off-by-one in the interleaved layout, a missed copy or a wrong state level corrupts only some nodes or only later steps", "anchors": ["src/LowMachMonolithicEquationSystem.C: copy_uvwp_to_uvw_p, copy_uvw_p_to_uvwp, predict_state, pre_timestep_work, solve_and_update, initial_work", "src/Realm.C: swap_states, predict_state", "src/TimeIntegrator.C: integrate_realm"]}
{"id": "C110", "title": "The finite-element fractional step advects with a balanced mass flux", "statement": "In the finite-element low-Mach solver, whatever the momentum solves produced, once the pressure system has been solved at a node the flux the next iteration's equations are advected with has there exactly the weak divergence the given boundary flux allows (none inside), so a uniform flow gets no momentum source out of mass imbalance; after each iteration the stored pressure gradient is that of the stored pressure, and the velocity is what the momentum solves gave, corrected once by the total change of the pressure gradient; nodes whose velocity is prescribed are not corrected.", "quantifier": "all meshes of elements, node numberings, dimensions, densities, time scales, moving or fixed meshes, numbers of iterations, momentum increments, pressure increments and gradient projections", "why_tests_cant": "a test runs one case to convergence; lagging the wrong copy of the gradient or velocity, or projecting with the wrong sign, still converges to something plausible and only loses mass balance", "anchors": ["src/LowMachFemEquationSystem.C: solve_and_update, copy_lagged, project_nodal_velocity", "src/kernel/ContinuityAdvFemKernel.C", "src/kernel/MomentumAdvFemKernel.C", "src/Realm.C: compute_vrtm"]}
{"id": "C111", "title": "The quadratic quadrilateral divides its area exactly, curved sides included", "statement": "For the nine-node quadrilateral of any shape, curved or inverted, the volume given to each node is exactly the signed area of the image of that node's sub-box, the volumes add up to the element's area, the area vector between two neighbouring nodes is exactly the normal of their common (curved) edge pointing from the first to the second, faces exist only between neighbours, every node's faces together with its part of the sides close up and sum any linear field to its gradient times the node's volume, each side's points lie on that side in counter-clockwise order within their node's part of it, with the opposing interior face straight across between that node and its inner neighbour, and the gradient operator gives any linear field its gradient at every integration point.", "quantifier": "all nodal coordinates, nodes, integration points, linear fields and initial buffer contents", "why_tests_cant": "a test uses a few affine or mildly curved elements and a tolerance; a wrong weight, an interchanged node in the map or a sign flip of one face shows only on particular shapes", "anchors": ["src/master_element/MasterElement.C: QuadrilateralP2Element, Edge32DSCS", "src/master_element/Quad92DCVFEM.C: set_interior_info, determinant, jacobian_determinant, area_vector, grad_op, quad_gradient_operator", "include/ScratchViews.h"]}
