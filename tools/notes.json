{
 "C03": {
  "note": "Proved over exact reals (fixed and adaptive); in binary64 the clock can stagnate and the loop never end: C03_time_termination_binary64_refuted."
 },
 "C06": {
  "note": "Single restart record: proved for any stop point under a field-restoration simulation relation. Several realms with records of different age: refuted (time is the max, count is the last realm's)."
 },
 "C09": {
  "note": "The statement (unit axis) is proved for every node set, axis and time. The _refuted theorem records what happens outside it: a non-unit axis is not normalised and the motion is then not rigid.",
  "status": "proved"
 },
 "C10": {
  "note": "The statement (constant omega) is proved. The _refuted theorem is outside it: with a time-varying omega the assigned velocity is not the derivative of the displacement.",
  "status": "proved"
 },
 "C11": {
  "note": "The statement (away from gimbal lock) is proved. The _refuted theorem shows the excluded case really fails.",
  "status": "proved"
 },
 "C12": {
  "note": "The property as a user would expect it is refuted: the attitude and spin updates are not the classical RK4 steps (closed forms proved, exact for spherical bodies), the moment is used in the wrong frame and a body in two mesh blocks is advanced twice."
 },
 "C14": {
  "note": "Proved for the general path and for the three-dof path with pairwise distinct nodes and all columns present. Refuted: the three-dof path when two nodes of the element share a row (periodic, one element thick), and columns missing from the row."
 },
 "C15": {
  "note": "Proved for rows whose graph contains the diagonal and nodes that have a row. Refuted outside: missing diagonal gives a zero row, the range check is off by one, an unknown node is treated as row 0."
 },
 "C16": {
  "note": "All clauses of the statement proved for every connectivity and number of dofs per node. The _refuted theorem concerns an out-of-bounds read (not write) while shifting, which does not change the resulting graph.",
  "status": "proved"
 },
 "C18": {
  "note": "The statement (one to three pairs) is proved. The _refuted theorems show that four or more pairs are not handled.",
  "status": "proved"
 },
 "C21": {
  "note": "Classic (window) averaging: fully proved. Exponential averaging: closed form proved; a forced reset keeps the old filter length and a step longer than the window gives negative weights (refuted)."
 },
 "C22": {
  "note": "The Reynolds/Favre stress statement is proved. The _refuted theorems concern two other quantities (resolved stress of the first window, temperature variance) which omit the first sample.",
  "status": "proved"
 },
 "C24": {
  "note": "The statement is proved. The _refuted theorem is about the documentation of the helper find_index, which at an interior knot returns the interval on the left; the interpolated value is unaffected.",
  "status": "proved"
 },
 "C30": {
  "note": "Proved for all elements except the pyramid apex (off by one machine epsilon: refuted, bound proved) and the shifted pyramid (sum to one and Kronecker proved; linear reproduction refuted)."
 },
 "C32": {
  "note": "solve22/solve33, determinants, cross products proved. invert_matrix33 refuted: the array overload returns the inverse of the transpose (proved exactly), the pointer overload has a wrong factor."
 },
 "C33": {
  "note": "Affine elements exact; bilinear/trilinear elements: residual statement for converged Newton, multilinear quad/hex; quadratic elements and non-affine pyramids lack a residual bound. Clockwise 2-D triangles refuted."
 },
 "C35": {
  "note": "Nodal and element time terms: exact Jacobians, telescoping (BE any steps, BDF2 constant step), exactness for quadratics. Refuted: HeatCondMassBDF2 matrix lacks gamma1 (the iteration still contracts); BDF2 with variable step does not telescope."
 },
 "C36": {
  "note": "Refuted: two keywords in one options entry (only the first is read) and scalar keywords without default lose the constructor value. The per-field query statement itself is proved for every list of single-keyword entries."
 },
 "C37": {
  "note": "Vorticity, Q-criterion and lambda_ci proved frame independent; the sub-filter stress reads the velocity gradient with a wrong index (refuted)."
 },
 "C42": {
  "note": "Everything except the last clause proved; the last solve uses the final tolerance only if the iteration limit is reached (refuted otherwise)."
 },
 "C44": {
  "note": "All but the last clause proved; that an accepted search pairs every subject is refuted (two pairs for one subject compensate a missing one)."
 },
 "C45": {
  "note": "Identifier update proved; one pass of the max update does not reach all subjects of a class with several subjects (refuted); classes with a single subject are proved."
 },
 "C46": {
  "note": "Proved for all elements and sides except side 3 of the tetrahedron, where two exposed points are swapped (refuted)."
 },
 "C47": {
  "note": "Proved for all elements except the pyramid, whose opposingFace returns a node table (refuted)."
 },
 "C48": {
  "note": "Proved for all sub-control surfaces and the volumes of hex/quad/tri/wedge; refuted for tetrahedron volumes and shifted slant points of the pyramid."
 },
 "C50": {
  "note": "Proved with limiter off, includeDivU=0 and reduced sensitivities off (the code drops those derivatives deliberately)."
 },
 "C55": {
  "note": "Refuted: supersonic flow takes the upstream flux only when both speeds of sound agree. All other clauses proved."
 },
 "C57": {
  "note": "Refuted: the total-pressure inflow adds the third component instead of its square; subsonic open outflow applies half the split flux. Other clauses proved."
 },
 "C59": {
  "note": "The statement (no pivot vanishes / leading blocks regular) is proved. The _refuted theorem shows the hypothesis is needed: a regular matrix with a zero pivot fails.",
  "status": "proved"
 },
 "C60": {
  "note": "Interpolation for order >= 2 assumes the collocation matrix can be factorised without pivoting (Schoenberg-Whitney is not proved); order 1 is unconditional. Too few points for the order is not detected (refuted). Orders of ten and more overrun fixed work arrays in the code and are outside the model; 3-5 dimensional tables are not modelled."
 },
 "C61": {
  "note": "Proved without converters and for one converter with the variables in the table's order. Refuted: other orders with a converter, two converters, a converter without new inputs, tables nested in converters, lowering the log size, events of equal severity."
 },
 "C62": {
  "status": "proved",
  "note": "All clauses proved for every order. The _refuted theorem records a moment the statement does not claim: the half-range flux is not pi (2 pi/sqrt 3 for order 1)."
 },
 "C64": {
  "note": "Refuted: isotropic scattering uses the scalar flux of the ordinates already swept only, so scattering equilibrium is not a fixed point; partly reflecting walls lose equilibrium through the half-range flux; the norm is a sum of per-process roots. Proved: moments, energy balance, black/transparent-wall equilibrium for every order, linearisation, norm zero iff converged."
 },
 "C66": {
  "note": "Positivity proved for SST/DES k, high-Reynolds Ksgs k, k-epsilon (k >= tiny) and omega with non-negative cross-diffusion. Refuted: low-Reynolds Ksgs sink, omega with negative cross-diffusion, and omega > 0 after the clip (exactly two corner cases leave omega = 0)."
 },
 "C67": {
  "note": "Refuted: the wall distance used is not the normal distance except for axis-aligned walls (45 degrees: too small by 1/sqrt 2); the friction velocity is not zero at zero slip. Dissipation of the element form is proved for concentrated (shifted) shape functions."
 },
 "C68": {
  "note": "All analytic fields transcribed by tools/mms.py are covered. The _refuted theorems are findings outside the statement: the shipped mixture fraction leaves [0,1] away from the origin, and the wind-energy vortex with viscosity below 1e-30 is 0/0.",
  "status": "proved"
 },
 "C69": {
  "note": "Refuted: a grid file that ends in a newline is read with its last row twice and writes outside the array (Table2dAuxFunction.C 106-145). Finding outside the statement: a table with an abscissa listed twice can be 0/0 exactly there.",
  "status": "partial"
 },
 "C70": {
  "note": "The _refuted theorem is outside the statement: 2-D with an axis out of the z direction and a centroid off the plane.",
  "status": "proved"
 },
 "C71": {
  "note": "Edge and element schemes. Theorems about entrainment need positive density and non-zero face area.",
  "status": "proved"
 },
 "C72": {
  "note": "Tractions proved for both schemes (edge scheme with, element scheme without the dilatational stress). Matrices exact: element scheme; edge open in 2-D and on 3-D faces parallel to an axis; edge symmetry on axis-normal faces. Refuted: edge symmetry matrix on oblique faces (two terms lack 1/(A.dx), AssembleMomentumEdgeSymmetrySolverAlgorithm.C 304, 308); edge open matrix on fully oblique 3-D faces; element kernels with includeDivU = 1 (dilatational stress uses sum_j du_j/dx_j A_j in every component).",
  "status": "partial"
 },
 "C73": {
  "note": "Refuted part: the reported accumulation counts ghosted copies of elements (ComputeMdotAlgorithmDriver.C 199-200, no locally_owned_part). Global balance proved for the edge scheme; element scheme per face.",
  "status": "partial"
 },
 "C74": {
  "note": "Refuted parts: naming a surface in two requests doubles the nodal pressure_force; a node shared by resolved and wall-function faces gets the sum of two area-weighted means. The distance used in y+ is that of C67 (not rotation invariant).",
  "status": "partial"
 },
 "C75": {
  "note": "Exact linear solve, single global system. Meshes must be orthogonal if the non-orthogonal correction is switched on. The two _refuted theorems delimit the statement (BDF2, central differencing).",
  "status": "proved"
 },
 "C77": {
  "note": "Refuted parts: the explicit field update depends on the processing order when a donor node is itself a fringe node, and its gather buffer is indexed wrongly for fields with sizeRow different from sizeCol and sizeRow > 1 (overlapping or out of bounds).",
  "status": "partial"
 },
 "C78": {
  "note": "Refuted parts: the oriented box is displaced when the rotation centre is not the origin; the oriented cylinder ignores its own centre; clipping needs detailed output. Coarse search at its specification (C33 covers the parametric distance).",
  "status": "partial"
 },
 "C79": {
  "note": "Refuted parts: conservation on non-matching Gauss points and, on a moving interface with a density jump, of mass (the mesh velocity flux uses the current side's density only); the div(u) stress; the volume-of-fluid matrix without upwinding; the sign of the projected-gradient jump penalty. The VOF variants of the mass flow and continuity algorithms are not modelled.",
  "status": "partial"
 },
 "C80": {
  "note": "Refuted parts: in parallel, without the dynamic tolerance, an unmatched point goes unreported when another rank's point has the same local number and hit a local face (it keeps a stale face); with several candidates the stored distance can end below that of the chosen face. stk's coarse search and change_ghosting enter at their specification; non-shared downward entities are not tracked.",
  "status": "partial"
 },
 "C81": {
  "note": "Refuted parts: the maximum normalised distance reported after a transfer is taken over intermediate best candidates, so it can exceed one although every point lies in its element; a source field with fewer components than the target reads outside its storage. Donor elements are TET4/HEX8; stk's coarse search is any candidate map; the search is done once (not repeated for moving meshes).",
  "status": "partial"
 },
 "C82": {
  "note": "Refuted part: a dof listed twice with two functions shares one exact field, so both rows are relative to the last function. A dof stored with fewer components on some part than elsewhere is outside the hypothesis (setup uses the maximum). With no active node the file shows -1e16 and 0/0.",
  "status": "partial"
 },
 "C83": {
  "note": "Refuted parts: a plane with two points in its second direction gets half the spacing (max(2, n-1)); after a restart, when the points of a probe are spread over several ranks each rank numbers its own from zero, and when the number of points in the input was changed, the old points are spaced by the new spacing. Moving meshes: probes stay where they are.",
  "status": "partial"
 },
 "C84": {
  "status": "partial",
  "note": "Refuted parts: the neo-Hookean kernel counts the transposed gradient twice, so rotations are not force free, and in 2-D the body at rest is stressed (3/4 instead of 2/3); the inertia weights use dt/2 + dt_old instead of the mean of the two steps (2/3 of the acceleration with equal steps), and with two stored states they are not a second derivative; LAME_MU_ID is registered with the lambda field and vice versa. The neo-Hookean matrix is the lagged one, no Newton claim is made for it."
 },
 "C85": {
  "status": "partial",
  "note": "Refuted parts: MomentumDiffFemKernel adds the -2/3 mu div(u) stress inside the column loop, once per element node, so with includeDivU it is multiplied by the number of nodes (every element with two or more nodes); MomentumOpenAdvDiffFemKernel adds sum_j d_j u_j n_j as a spurious tangential force. Newton exactness of the viscous and open kernels is proved without the divergence stress, which has no matrix entry. Green identity of the element quadrature is a hypothesis of the integration-by-parts theorem, verified for the line element."
 },
 "C86": {
  "status": "partial",
  "note": "Refuted parts: the upwind kernels place the right-hand node sensitivity in the left column (matrix exact only for flow from left to right); the evaporation gradient accumulates a partially interpolated value, so a uniform volume fraction evaporates, the evaporation constant enters squared, and in the continuity equation it has the wrong sign and no projected time scale. The sharpening matrix is lagged. The mass-flow-rate algorithm of this scheme, the pressure-area-weighted gradient and non-conformal interfaces are not modelled here."
 },
 "C87": {
  "note": "MomentumNSOSijElemKernel adds the -2/3 div(u) stress inside the loop over the element's nodes, so with includeDivU it is counted nodesPerElement times (C87_sij_divergence_excess gives the excess for every element, the _refuted theorem a triangle where it is nonzero). Matrices are exact with the coefficient held."
 },
 "C88": {
  "note": "Refuted: the low-speed compressibility matrix lacks a factor gamma1 under BDF2 (C88_compressible_matrix_bdf2 gives the exact relation); the pressure rate of the enthalpy equation is always a backward-Euler difference; the nodal actuator algorithm uses the first component of actuator_source_lhs for every row."
 },
 "C89": {
  "note": "Refuted: the edge form subtracts its non-orthogonal correction where it should be added, so the correction doubles the error of a linear temperature on a skewed edge (C89_edge_linear_flux gives the value for every edge); a wall node at temperature zero divides by zero."
 },
 "C90": {
  "note": "Refuted: the velocity given to the drag law is minus the velocity of the point's motion (C90_velocity_is_minus_motion); in two dimensions the y-z rotation shrinks the line; the Gaussian's exponent is -r*r/eps*eps = -r^2 so the decay radius does not set its width; a node's source is assigned, not added, so of several points of one rank reaching a node only the last counts and the result depends on the distribution over ranks. Not modelled: density is missing from the fields communicated to ghosted elements."
 },
 "C91": {
  "note": "Refuted for the balanced-force boundary gradient: AssembleNodalGradPAWBoundaryAlgorithm.C:261 reads the volume fraction of the element's node number ic instead of face node ic, so a localised surface tension uses wrong nodes; C91_area_weighted_partial gives the cases where the intended value results and C91_area_weighted_code what is computed in general. The planar exactness theorems are for conforming meshes of Tri3/Quad4 (3-D elements: the general theorem with Gauss's identity as hypothesis)."
 },
 "C92": {
  "note": "Refuted for elements with several volume points per node: the residual uses p_scvol[nn] (volume number of the node) instead of p_scvol[ip] (C92_residual_volume_refuted; equal for all linear elements, C92_residual_linear_elements). Not modelled: reading the block (load), state handling of fields; stencils are found once at initialisation and not redone on a moving mesh."
 },
 "C93": {
  "note": "Refuted: in two dimensions the vorticity option drops the only component a plane flow has and reads the next node's gradient (C93_planar_vorticity_refuted); the edge length of vorticity_dx takes a root per component (C93_edge_length_refuted); without non-orthogonal correction the edge stabilisation indicator drops the whole nodal gradient (C93_no_correction_refuted); the limiter indicator uses four times instead of twice the projected difference, so a linear field gets 1/4 (C93_limiter_linear_refuted); a realm without active elements has Courant number -1 and the controller answers with a negative step (C93_no_elements_refuted). The scalar indicator is always zero for vorticity options; the velocity indicator uses the sum, not the mean, of the two gradients and two roots. Not modelled: registration of the algorithms, adaptivity itself."
 },
 "C94": {
  "note": "Refuted: the quaternion product is formed in place, so a rotation does not remove the entry it is meant for (C94_rotation_removes_entry_refuted; the iteration then needs more passes and its convergence in space is not proved, only that it stops early with a diagonal D and that A = Q D Q^T holds after any number of passes); the pack version treats equal largest entries as an already diagonal matrix (C94_pack_diagonal_refuted); in two dimensions the third row of the stress is never set, so the result depends on the edge visited before (C94_plane_stress_determined_refuted). Zero strain divides by zero; the laminar non-orthogonal correction ignores its option. Not modelled: floating-point exits."
 },
 "C95": {
  "note": "The open-boundary scalar agreement needs consistent node maps of the face (face_ok: the point's nearest element node is the nearest face node), because the legacy code extrapolates from the element's nearest node and the kernel from the face's. The defects recorded for the kernels (C72: dilatation stress and cross-term sign at open and symmetry faces) are therefore shared by the legacy algorithms."
 },
 "C96": {
  "note": "Defects (refuted theorems): the driver zeroes only the nodal area, so without the surface post-processing the nodal pressure_force, tau_wall and yplus grow with every step; they are not summed over ranks, so nodes on a rank border show only part; the first step of a body from rest accelerates with half the force (the acceleration is under-relaxed). A tether of zero length divides by zero. The body's angular update is C12."
 },
 "C97": {
  "note": "Refuted parts: the stress handed on is muWall times the first velocity difference, strictly below the stress the profile carries whenever the first segment is turbulent (C97_wall_stress_is_layer_stress_refuted); the convergence test is absolute so a guess below 1e-6 is returned as it stands, even with no slip (C97_small_guess_kept_refuted); with the one-dimensional model an exchange point at rest relative to the wall makes the momentum rows 0/0 (C97_rest_divides_by_zero_refuted). Not proved: that the fixed-point iteration converges within 1000 passes (only that a solution exists and that a reported convergence is genuine). The search for the element containing the exchange point is that of C81 and is not repeated."
 },
 "C98": {
  "note": "Refuted parts: a transfer whose executing realm is not named in the integrator's realms list is accepted and never run (C98_declared_transfers_run_refuted); the input/output test is count % output_frequency and ignores output_start, so when the start is not a multiple of the frequency results are written with fields transferred in an earlier step (C98_output_written_with_fresh_data_refuted; proved fresh when it is a multiple); initialization transfers run after the restart is read, again on every restart, and replace restored fields (C98_restart_kept_refuted; proved kept where no transfer writes). Output forced by a wall-clock limit is left out; frequency 0 is a division by zero in process_io_transfer."
 },
 "C99": {
  "note": "Refuted parts: a corner shared by two conditions on one field takes the value of the one listed last (C99_corner_value_independent_of_order_refuted); where kinds write different fields (volume of fluid, turbulent dissipation) it is not the last of the input but the greatest kind that prevails (C99_last_of_input_prevails_refuted). Kernels are any lanewise additive functions; Kokkos loops sequential; the row search of sumInto and the export to owners are C14-C16. Not in the model: the face algorithm does not exclude inactive parts while the element algorithm does, and the kernels of a named algorithm are those requested when its first part is registered.",
  "status": "proved"
 },
 "C100": {
  "note": "Refuted: the last species can become negative (the others are clipped one by one), an absent species becomes 1e-16, aura copies are neither clipped nor completed, and an initial k = epsilon = 0 keeps epsilon 0. With one species the averaged residual divides by zero. The linear solve is an arbitrary function; parallel and periodic sums are C14 and C20."
 },
 "C101": {
  "note": "Refuted: (1) ComputeMdotVofElemOpenAlgorithm.C:306 reads the volume fraction gathered over the element with the face-node counter, so with localised surface tension the stored open flow is not the assembled one (proved equal for default exponents, uniform fraction, or faces whose nodes come first); (2) across a non-conformal interface surface tension enters with the wrong sign, so a balanced fluid at rest is set in motion there (balance proved for the opposite sign)."
 },
 "C102": {
  "note": "Refuted: an open boundary's turbulent_dissipation is never read (NaluParsing.C:1085 tests for \"turbulent_dissipation_\"); the check \"irradiation without emissivity\" reads emissSpec_, which no constructor initialises; a heat flux next to a temperature is silently dropped; a convective and a Robin wall in one solid share one WALL_CHT algorithm that uses the first one's coefficient field (HeatCondEquationSystem.C 944-960); misspelled keywords are silently ignored."
 },
 "C103": {
  "note": "Mass conservation, the inviscid flux, uniform streams and conduction proved. Refuted: the velocity gradient is accumulated with the derivative direction of the component (457-492), so shear carries no traction; the isotropic stress of the opposing side is taken with the current normal, so momentum is conserved only with equal dilatation stresses; off-diagonal entries of the two stress arrays are never set back, so energy is conserved only if they are clean and unused; the momentum penalty acts on momentum, not velocity; the opposing Mach number does not subtract the mesh velocity; opposing vectors are gathered with the node count of the current face, so faces with different node counts read wrong components."
 },
 "C104": {
  "note": "Conservation, exact matrices, linear fields, limits, agreement with the nodal sources and edge diffusion proved. Refuted: the pressure of the unresolved motion is added once per node of the element instead of once; an anisotropic tensor resists rigid rotation. The DES kernel's matrix is 2/3 of the nodal source's; the low-Reynolds part of the design-order Ksgs kernel has no matrix counterpart; the hybrid kernel is included but never registered, so no input selects it."
 },
 "C105": {
  "note": "Valid ownership, conservation, monotone minimum, fixed points, matching exchange, target and the one-giver/two-process bound on the maximum proved. Refuted: balancing need not settle (two full and two empty processes that hold all nodes swap them for ever) and a round can make the load factor worse (three processes give to the same fourth). The quotients of counts are compared exactly; STK's change_entity_owner is assumed to do what it documents."
 },
 "C106": {
  "note": "Budget, disjointness, existence and extents of views, acceptance, registration and uncontested results proved. Refuted: requests that share an array (shifted and plain FEM gradient, SCS and FEM metric tensor) are meant to be refused but the check asks only numFemIp > 0, which always holds, so one kernel reads the other's data; add_*_field with one size does not compare the second, so a kernel can be handed a view of the wrong rank; a tensor request with second size 1 makes a view of another rank than the gather asks for. Space added by the allocator for alignment is not modelled."
 },
 "C107": {
  "note": "Refuted: a three-component profile laid over a two-component velocity writes beyond the field's storage; FixedHeight forgets the given height as soon as a wave amplitude is given; the Rayleigh-Taylor layer is monotone and without jumps only when its middle stands at an odd multiple of its thickness (as by default) - around height 0 it is upside down; a displacement ramp with fewer parameters than components reads beyond its list. Partial: on the side walls of the 1:2 duct the remaining velocity is shown to be the tail of the parabola's Fourier series, its size is not bounded. The plug's direction parameters (a permutation) are fixed to their defaults; std::erf is any monotone odd function into [-1,1]; cylinder axis itself (0/0) is excluded; boundary-layer and vortex loops advance the coordinates by the field size, equal to the dimension for the velocities they are used for."
 },
 "C108": {
  "note": "Proved when each reference constant is given by all blocks or by none (one block always qualifies) and at nodes where the divisions make sense. Refuted: otherwise a block without its own reference constant silently takes that of the block before it; the table file of a second block is never opened; constants given per species for anything but the specific heat of a run with enthalpy become zero; a uniform isothermal gas asked to be acoustically compressible ignores the pressure. When two specifications fill the same field on the same part (heat ratio and specific heat), both are registered and the theorem says each is asked for, not which comes last. Part lookup, the table's auxiliary variable and the evaluation of a table are not modelled."
 },
 "C109": {
  "note": "Refuted: what boundary conditions or transfers write into velocity and pressure during a step never reaches the coupled unknown and is overwritten (noted by the authors as a FIXME); at a restart the start-up work uses the velocity in memory instead of the saved one. The kernel that would assemble the coupled system throws \"not implemented\", so increments are arbitrary. One bucket of nodes; buckets do not interact."
 },
 "C110": {
  "note": "Density and geometry are those of one solve_and_update; the gradient projection is any function of the pressure; open-boundary rows are not covered, boundaries with a given flux enter as a right-hand side. When the projection time scale changes between solve and use, the balance is broken by an exact amount, proved (C110_changed_time_scale)."
 },
 "C111": {
  "note": "Refuted in part: the sub-volume grad_op writes only the first 24 (the number of face points) of the 36 points, so gradients at the points of the three top nodes are whatever the buffer held, in every element (C111_volume_gradients_refuted); proved for the 24 written (C111_volume_gradients_partial). Real arithmetic, degenerate points excluded from the gradient statement by the code's own threshold. Edge32DSCS::determinant given several sides overwrites one side's area vectors with the next's (C111_several_sides_refuted; callers pass one). The points on the sides and the faces opposite to them (set_boundary_info) are covered in QuadP2_Props2. Shifted points and the 3-D counterpart are not."
 }
}