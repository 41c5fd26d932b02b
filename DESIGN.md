# Formal model of NaluCFD/Nalu in Rocq (Coq 8.16.1)

(Generated by `tools/design.py` from the hand-written `tools/design_head.md`, `tools/plan_*.txt`, `tools/notes.json`, `tools/design_tail.md`.)

## Layout

`rocq/theories/`, one group of files per area `X`:

* `X_Model*.v` – the model: definitions only, each citing file:lines in `/repo`.
* `X_Spec.v`   – (where the property needs vocabulary) a small specification independent of the model.
* `X_Proofs*.v`– lemmas.
* `X_Props*.v` – the property theorems (`Cxx_...`), with `Print Assumptions` and non-vacuity `Example`s next to them.

`properties.jsonl` (from `tools/props*.py`), `MANIFEST.json` (from `tools/manifest.py`, which scans the `Cxx_` theorems and `tools/notes.json`),
`seeded/` – the wrong-program experiments: `mutants_*.py` are the edits, `seed.py` rebuilds a scratch copy for each, `LOG.jsonl` is the record.

## Abstraction choices

* C++ `double` in numeric kernels is modelled by Coq's `R` (exact real arithmetic). Rounding, overflow, NaN and infinities are **not**
  modelled except where said (binary64 via `Coq.Floats.SpecFloat` for the clock in C03). Division by zero in `R` is total, so theorems carry the
  non-zero hypotheses that the code needs; places where the code itself divides by zero are recorded under "Found".
* `int`, ids, counters: `Z` or `nat`; overflow is not modelled unless stated.
* STK mesh, Tpetra, MPI, STK search/transfer, HDF5 and yaml-cpp are modelled by their documented effect: ranks as lists, reductions as sums over
  ranks, mesh selections as lists, coarse searches as arbitrary candidate lists, YAML as an inductive tree with abstract scalar conversions.
* A floating-point sum over threads/ranks is a sum in `R`, hence order independent; a non-deterministic rounding order is out of scope.
* Arrays are functions from index to `R` or lists; numbers of nodes, integration points, edges, faces, ranks, steps, ordinates etc. are arbitrary.
* Undefined behaviour/out-of-range reads are a distinct outcome (`None`/`UB`), not a default value.
* Suffix `_partial`: part of the property; `_refuted`: the faithful model violates the property, with a witness – a theorem that the English
  property is false of the code, kept so that the full statement stays in view. A property with either is "partial".

## Per property: what is modelled, how it is proved

Status as in MANIFEST.json; "Found" lists what the faithful model refutes or leaves open.

* **C01 BDF2/BE time coefficients are consistent** (proved; Time_Props). reals; gamma as a function of (count, dtN, dtNm1) inside the integrator state machine; algebra (field/nra) + invariant over runs.
* **C02 Step-count termination performs exactly the requested steps** (proved; Time_Props). integrator loop as fuelled/inductive run relation; induction on remaining steps.
* **C03 Time-based termination stops at the first step that reaches the end time** (partial; Time_Props). same loop over R with archimedean bound; also binary64 stagnation witness (refuted for doubles). *Found:* Proved over exact reals (fixed and adaptive); in binary64 the clock can stagnate and the loop never end: C03_time_termination_binary64_refuted.
* **C04 Realms advance in lock step through ordered phases** (proved; Time_Props). integrator emits an event trace; ordering stated on positions of events in the trace for arbitrary realm lists.
* **C05 Adaptive time step is bounded and negotiated** (proved; Time_Props). controller function over R.
* **C06 Resuming from a restart file continues the same time history** (partial; Time_Props). state machine + restart record; simulation argument between resumed and uninterrupted run. *Found:* Single restart record: proved for any stop point under a field-restoration simulation relation. Several realms with records of different age: refuted (time is the max, count is the last realm's).
* **C07 Output and restart schedule** (proved; Time_Props). decision functions; history induction for the "at most once" part.
* **C08 Nonlinear iteration control** (proved; Time_Props). sweep loop over an abstract residual history.
* **C09 Prescribed mesh rotation is a rigid motion about its axis** (proved; Motion_Props, Motion_Props3). rotation via quaternion formulas on R^3, ring identities; Coquelicot derivative. *Found:* The statement (unit axis) is proved for every node set, axis and time. The _refuted theorem records what happens outside it: a non-unit axis is not normalised and the motion is then not rigid.
* **C10 Mesh velocity is the time derivative of mesh position** (proved; Motion_Props2). rotation via quaternion formulas on R^3, ring identities; Coquelicot derivative. *Found:* The statement (constant omega) is proved. The _refuted theorem is outside it: with a time-varying omega the assigned velocity is not the derivative of the displacement.
* **C11 Six-DOF attitude representation is consistent** (proved; Motion_Props2). ring/trig identities. *Found:* The statement (away from gimbal lock) is proved. The _refuted theorem shows the excluded case really fails.
* **C12 Six-DOF body integration is fourth-order Runge-Kutta** (partial; Motion_Props3). compared with a textbook RK4; expected outcome refuted (witness). *Found:* The property as a user would expect it is refuted: the attitude and spin updates are not the classical RK4 steps (closed forms proved, exact for spherical bodies), the moment is used in the wrong frame and a body in two mesh blocks is advanced twice.
* **C13 Matrix global ids are a bijection with (node, dof)** (proved; Graph_Props). Z arithmetic.
* **C14 Element contributions are summed to exactly the right matrix entries** (partial; Sum_Props). lists/sorting: permutation sort, merge loop; equality with dense "+=" specification. *Found:* Proved for the general path and for the three-dof path with pairwise distinct nodes and all columns present. Refuted: the three-dof path when two nodes of the element share a row (periodic, one element thick), and columns missing from the row.
* **C15 Dirichlet conditions are imposed exactly and in parallel once** (partial; Sys_Props). multi-rank matrices as functions row->col->R per rank, export = sum; theorem over any ranks. *Found:* Proved for rows whose graph contains the diagonal and nodes that have a row. Refuted outside: missing diagonal gives a zero row, the range check is off by one, an unknown node is treated as row 0.
* **C16 Sparsity graph contains every connection** (proved; Graph_Props). LocalGraphArrays insertion as list algorithm; capacity lemma. *Found:* All clauses of the statement proved for every connectivity and number of dofs per node. The _refuted theorem concerns an out-of-bounds read (not write) while shifting, which does not change the resulting graph.
* **C17 Reported residual scaling** (proved; Sys_Props). history state machine.
* **C18 Periodic pairs cover each subject node exactly once** (proved; Periodic_Props). Boolean set algebra over arbitrary node types. *Found:* The statement (one to three pairs) is proved. The _refuted theorems show that four or more pairs are not handled.
* **C19 Periodic translation vector is recovered** (proved; Periodic_Props). sums over permutations.
* **C20 Periodic field synchronisation makes all images agree** (proved; Periodic_Props). fold over pair lists.
* **C21 Turbulence averages are time-weighted means** (partial; Avg_Props). running sums invariants by induction over histories. *Found:* Classic (window) averaging: fully proved. Exponential averaging: closed form proved; a forced reset keeps the old filter length and a step longer than the window gives negative weights (refuted).
* **C22 Running stresses are covariances** (proved; Avg_Props). running sums invariants by induction over histories. *Found:* The Reynolds/Favre stress statement is proved. The _refuted theorems concern two other quantities (resolved stress of the first window, temperature variance) which omit the first sample.
* **C23 Exponential moving average stays in range** (proved; Avg_Props). running sums invariants by induction over histories.
* **C24 Table interpolation** (proved; Interp_Props). lists of reals, option result. *Found:* The statement is proved. The _refuted theorem is about the documentation of the helper find_index, which at an interior knot returns the interval on the left; the interpolated value is unaffected.
* **C25 SIMD grouping visits every element exactly once** (proved; Simd_Props). nat arithmetic, lists.
* **C26 Edge-based scalar transport is conservative** (proved; Edge_Props). algebra over R for one edge, induction over edge lists for the assembled operator.
* **C27 Edge scalar operator is exact for constants and linear fields and its matrix is a consistent linearisation** (proved; Edge_Props). algebra over R for one edge, induction over edge lists for the assembled operator.
* **C28 van Leer limiter is bounded and sign-correct** (proved; Edge_Props). algebra over R for one edge, induction over edge lists for the assembled operator.
* **C29 Peclet blending function is a blending weight** (proved; Edge_Props). algebra over R for one edge, induction over edge lists for the assembled operator.
* **C30 Shape functions form a nodal basis** (partial; ME_Shape_Props, ME_Shape_Props2). polynomial identities (ring/field) per element; Coquelicot derivatives. *Found:* Proved for all elements except the pyramid apex (off by one machine epsilon: refuted, bound proved) and the shifted pyramid (sum to one and Kronecker proved; linear reproduction refuted).
* **C31 Control-volume faces close** (proved; ME_Props, ME_Props2, ME_Props3). polynomial identities (ring/field) per element; Coquelicot derivatives.
* **C32 Small dense linear algebra used by the kernels is correct** (partial; Tensor_Props). polynomial identities (ring/field) per element; Coquelicot derivatives. *Found:* solve22/solve33, determinants, cross products proved. invert_matrix33 refuted: the array overload returns the inverse of the transpose (proved exactly), the pointer overload has a wrong factor.
* **C33 Inverse isoparametric map and point containment** (partial; ME_Point_Props, ME_Point_Props2, ME_Point_Props3, ME_Point_Props4, ME_Point_Props5, ME_Point_Props6). polynomial identities (ring/field) per element; Coquelicot derivatives. *Found:* Affine elements exact; bilinear/trilinear elements: residual statement for converged Newton, multilinear quad/hex; quadratic elements and non-affine pyramids lack a residual bound. Clockwise 2-D triangles refuted.
* **C34 Equation systems are solved in registration order every sweep** (proved; Time_Props). trace model.
* **C35 Second-order mass terms conserve and agree with their Jacobian** (partial; Elem_Props3). algebra, telescoping sums. *Found:* Nodal and element time terms: exact Jacobians, telescoping (BE any steps, BDF2 constant step), exactness for quadratics. Refuted: HeatCondMassBDF2 matrix lacks gamma1 (the iteration still contracts); BDF2 with variable step does not telescope.
* **C36 Per-field numerical options fall back to defaults** (partial; Opt_Props, Opt_Props2). finite maps as association lists. *Found:* Refuted: two keywords in one options entry (only the first is read) and scalar keywords without default lose the constructor value. The per-field query statement itself is proved for every list of single-keyword entries.
* **C37 Derived flow diagnostics are the quantities they are named after** (partial; Avg_Props). the post-processing formulas (vorticity, Q criterion, helicity, Favre/Reynolds stress) as functions of a 3x3 gradient; ring identities against textbook definitions. *Found:* Vorticity, Q-criterion and lambda_ci proved frame independent; the sub-filter stress reads the velocity gradient with a wrong index (refuted).
* **C38 Edge-based nodal gradients** (proved; Edge_Props). edge loop as a fold over an edge list with half-edge gathering; divergence-theorem identities by induction on the list.
* **C39 Mass is conserved by the pressure solve** (proved; Edge_Props). mass flow rate per edge before and after the pressure correction; sum over the edges of a node, induction on the edge list.
* **C40 The momentum edge operator is conservative, frame-indifferent and exactly linearised** (proved; Edge_Props). one edge of the momentum assembly over R (3 components, 6x6 block); rigid rotation/Galilean invariance by ring, matrix = derivative of residual at fixed coefficients.
* **C41 Element gradient, Jacobian and metric operators** (proved; Tensor_Props). TensorOps/MasterElementUtils gradient and metric functions; matrices over R, inverse identities by field.
* **C42 Nonlinear iteration stops at the first converged iterate** (partial; Sys_Props). solve loop as recursion over an arbitrary stream of iterates; minimality of the stopping index by induction. *Found:* Everything except the last clause proved; the last solve uses the final tolerance only if the iteration limit is reached (refuted otherwise).
* **C43 Reported linear iteration statistics are those of the solves done** (proved; Sys_Props). the statistics record as fold over the history of linear solves; equals min/max/mean over the list.
* **C44 Periodic search is accepted only when complete** (partial; Periodic_Props). search results as lists of pairs; acceptance test compared with completeness; refuted where counts coincide. *Found:* All but the last clause proved; that an accepted search pairs every subject is refuted (two pairs for one subject compensate a missing one).
* **C45 Periodic maximum and identifiers** (partial; Periodic_Props). parallel max/min over images; counterexample for chains (single pass). *Found:* Identifier update proved; one pass of the max update does not reach all subjects of a class with several subjects (refuted); classes with a single subject are proved.
* **C46 Exposed-face data agree with the face element** (partial; ME_Face_Props). the integer tables (sideNodeOrdinals, oppNode, oppFace, intgExpFace, ...) copied literally from the source and compared with independently written geometric descriptions, exhaustively per element by computation inside the kernel plus general coordinates by ring/field. *Found:* Proved for all elements and sides except side 3 of the tetrahedron, where two exposed points are swapped (refuted).
* **C47 Opposing nodes and surfaces** (partial; ME_Face_Props). the integer tables (sideNodeOrdinals, oppNode, oppFace, intgExpFace, ...) copied literally from the source and compared with independently written geometric descriptions, exhaustively per element by computation inside the kernel plus general coordinates by ring/field. *Found:* Proved for all elements except the pyramid, whose opposingFace returns a node table (refuted).
* **C48 Integration points are centroids** (partial; ME_Face_Props2, ME_Face_Props3). the integer tables (sideNodeOrdinals, oppNode, oppFace, intgExpFace, ...) copied literally from the source and compared with independently written geometric descriptions, exhaustively per element by computation inside the kernel plus general coordinates by ring/field. *Found:* Proved for all sub-control surfaces and the volumes of hex/quad/tri/wedge; refuted for tetrahedron volumes and shifted slant points of the pyramid.
* **C49 Element kernels are conservative and only add** (proved; Elem_Props). element kernels as functions from nodal values to residual/matrix arrays accumulated over integration points; row sums zero by induction over the points with arbitrary lrscv maps.
* **C50 Element matrices are the exact Newton sensitivities** (proved; Elem_Props). residual as a function of one dof; matrix entry = derivative, stated with difference quotients/affine identities for any number of nodes and points. *Found:* Proved with limiter off, includeDivU=0 and reduced sensitivities off (the code drops those derivatives deliberately).
* **C51 Element kernels preserve the solutions they should** (proved; Elem_Props2, Elem_Props4). linear exactness and constant preservation from the partition-of-unity and gradient identities of an arbitrary consistent element; induction over points.
* **C52 Scalar transport is consistent with continuity** (proved; Elem_Props2). linear exactness and constant preservation from the partition-of-unity and gradient identities of an arbitrary consistent element; induction over points.
* **C53 Thermophysical property evaluators** (proved; Prop_Props). polynomial/Sutherland/ideal-gas evaluators as real functions; continuity at the switch temperature, positivity, Coquelicot derivatives of h against cp.
* **C54 Temperature is recovered consistently from enthalpy** (proved; Prop_Props2). Newton iteration for T(h) as a recursion; monotone enthalpy gives uniqueness; fixed points are solutions.
* **C55 Compressible edge flux** (partial; Gas_Props, Gas_Props2). AUSM+ flux and state conversion formulas over R; consistency, symmetry under reversal and wall/open/inflow cases by field and case analysis on the Mach number. *Found:* Refuted: supersonic flow takes the upstream flux only when both speeds of sound agree. All other clauses proved.
* **C56 Compressible state conversions** (proved; Gas_Props3). AUSM+ flux and state conversion formulas over R; consistency, symmetry under reversal and wall/open/inflow cases by field and case analysis on the Mach number.
* **C57 Compressible boundaries** (partial; Gas_Props3). AUSM+ flux and state conversion formulas over R; consistency, symmetry under reversal and wall/open/inflow cases by field and case analysis on the Mach number. *Found:* Refuted: the total-pressure inflow adds the third component instead of its square; subsonic open outflow applies half the split flux. Other clauses proved.
* **C58 The assembled dual mesh** (proved; Geom_Props, Geom_Props3, Geom_Props4). dual mesh accumulation (volumes, edge areas, exposed areas) as folds over element lists; closure of each node's surface by induction with the element closure of C31.
* **C59 Dense solver of the property tables** (proved; Tab_LU_Props). the hand-written LU factorisation as nested recursions over an n x n matrix for any n; A = LU and solution uniqueness when no pivot vanishes. *Found:* The statement (no pivot vanishes / leading blocks regular) is proved. The _refuted theorem shows the hypothesis is needed: a regular matrix with a zero pivot fails.
* **C60 Spline property tables** (partial; Tab_Spline2_Props, Tab_Spline_Props, Tab_Spline_Props2, Tab_Spline_Props3, Tab_Spline_Props4). B-spline basis recursion over arbitrary knot lists; partition of unity, locality, interpolation conditions. *Found:* Interpolation for order >= 2 assumes the collocation matrix can be factorised without pivoting (Schoenberg-Whitney is not proved); order 1 is unconditional. Too few points for the order is not detected (refuted). Orders of ten and more overrun fixed work arrays in the code and are outside the model; 3-5 dimensional tables are not modelled.
* **C61 Lookups in property files** (partial; Tab_Query_Props, Tab_Query_Props2). table lookup (search of interval, clipping, interpolation) for lists of any length. *Found:* Proved without converters and for one converter with the variables in the table's order. Refuted: other orders with a converter, two converters, a converter without new inputs, tables nested in converters, lowering the log size, events of equal severity.
* **C62 Ordinate directions and weights** (proved; Rad_Quad_Props). Thurgood quadrature points and weights for any order n; sums by induction. *Found:* All clauses proved for every order. The _refuted theorem records a moment the statement does not claim: the half-range flux is not pi (2 pi/sqrt 3 for order 1).
* **C63 Radiative transport along one ordinate** (proved; Rad_Props, Rad_Props2). one ordinate's upwind (edge/element) operator with SUCV stabilisation; conservation and positivity facts over arbitrary lists of edges.
* **C64 Radiation outer iteration** (partial; Rad_Props3, Rad_Props4). the outer iteration over ordinates as a state machine: order of visits, scalar flux as sum over ordinates, convergence test. *Found:* Refuted: isotropic scattering uses the scalar flux of the ordinates already swept only, so scattering equilibrium is not a fixed point; partly reflecting walls lose equilibrium through the half-range flux; the norm is a sum of per-process roots. Proved: moments, energy balance, black/transparent-wall equilibrium for every order, linearisation, norm zero iff converged.
* **C65 Eddy viscosity does not depend on the observer and stays in its bounds** (proved; Turb_Props). Smagorinsky/WALE/KsGS/SST viscosity as functions of the velocity gradient; invariance under orthogonal matrices by algebra on traces.
* **C66 Turbulence sources keep k, omega and epsilon non-negative** (partial; Turb_Props2, Turb_Props3). clip-and-update step and source terms; sign and linearisation inequalities (nra) for all inputs. *Found:* Positivity proved for SST/DES k, high-Reynolds Ksgs k, k-epsilon (k >= tiny) and omega with non-negative cross-diffusion. Refuted: low-Reynolds Ksgs sink, omega with negative cross-diffusion, and omega > 0 after the clip (exactly two corner cases leave omega = 0).
* **C67 Wall functions** (partial; Wall_Props, Wall_Props2). log-law Newton iteration; fixed-point characterisation, monotonicity, limits. *Found:* Refuted: the wall distance used is not the normal distance except for axis-aligned walls (45 degrees: too small by 1/sqrt 2); the friction velocity is not zero at zero slip. Dissipation of the element form is proved for concentrated (shifted) shape functions.
* **C68 Manufactured and exact solutions satisfy the equations they are used to verify** (proved; MMS_Props, MMS_Props2, MMS_Props3, MMS_Props4, MMS_Props5, MMS_Props6). exact-solution functions as real expressions; PDE residual zero by Coquelicot derivatives. *Found:* All analytic fields transcribed by tools/mms.py are covered. The _refuted theorems are findings outside the statement: the shipped mixture fraction leaves [0,1] away from the origin, and the wind-energy vortex with viscosity below 1e-30 is 0/0.
* **C69 User tables and inflow profiles** (partial; Aux_Props, Aux_Props2, Aux_Props3). profile files as lists of samples; interpolation/wrap/time blending as list recursions; out-of-bounds reads are a separate outcome. *Found:* Refuted: a grid file that ends in a newline is read with its last row twice and writes outside the array (Table2dAuxFunction.C 106-145). Finding outside the statement: a table with an abscissa listed twice can be 0/0 exactly there.
* **C70 Walls attached to a moving mesh move with it** (proved; Aux_Props4). wall velocity from mesh displacement/omega; rigid-body kinematics by ring, derivative by Coquelicot. *Found:* The _refuted theorem is outside the statement: 2-D with an axis out of the z direction and a centroid off the plane.
* **C71 Open boundaries carry out what is inside and bring in what the user specified** (proved; Bnd_Props). open/symmetry kernels: one boundary integration point over R, arbitrary numbers of face and element nodes; decomposition of the traction by algebra. *Found:* Edge and element schemes. Theorems about entrainment need positive density and non-zero face area.
* **C72 Open and symmetry boundaries transmit only the tangential, respectively normal, viscous force** (partial; Bnd_Props2, Bnd_Props3, Bnd_Props4). open/symmetry kernels: one boundary integration point over R, arbitrary numbers of face and element nodes; decomposition of the traction by algebra. *Found:* Tractions proved for both schemes (edge scheme with, element scheme without the dilatational stress). Matrices exact: element scheme; edge open in 2-D and on 3-D faces parallel to an axis; edge symmetry on axis-normal faces. Refuted: edge symmetry matrix on oblique faces (two terms lack 1/(A.dx), AssembleMomentumEdgeSymmetrySolverAlgorithm.C 304, 308); edge open matrix on fully oblique 3-D faces; element kernels with includeDivU = 1 (dilatational stress uses sum_j du_j/dx_j A_j in every component).
* **C73 Mass is accounted for exactly at open and inflow boundaries** (partial; Bnd_Props5). accumulation over inflow/open faces and ranks; sums by induction, closure algebra. *Found:* Refuted part: the reported accumulation counts ghosted copies of elements (ComputeMdotAlgorithmDriver.C 199-200, no locally_owned_part). Global balance proved for the edge scheme; element scheme per face.
* **C74 Reported surface forces, moments, wall shear stress and y+** (partial; Force_Props, Force_Props2, Force_Props3). loop over faces with assembled nodal quantities; totals as sums over faces, refuted where requests overlap. *Found:* Refuted parts: naming a surface in two requests doubles the nodal pressure_force; a node shared by resolved and wall-function faces gets the sum of two area-weighted means. The distance used in y+ is that of C67 (not rotation invariant).
* **C75 Edge-based scalar transport obeys a maximum principle** (proved; Max_Props, Max_Props2). backward Euler upwind edge system as an M-matrix: discrete maximum principle by argmax over a finite node list. *Found:* Exact linear solve, single global system. Meshes must be orthogonal if the non-orthogonal correction is switched on. The two _refuted theorems delimit the statement (BDF2, central differencing).
* **C76 Pressure reference in a closed domain** (proved; Fix_Props). reference node choice across ranks as fold over minima; system with one fixed row.
* **C77 Overset fringe nodes carry the donor's interpolated value** (partial; Overset_Props, Overset_Props2). constraint rows and explicit updates of fringe nodes as folds; donor weights partition of unity. *Found:* Refuted parts: the explicit field update depends on the processing order when a donor node is itself a fringe node, and its gather buffer is indexed wrongly for fields with sizeRow different from sizeCol and sizeRow > 1 (overlapping or out of bounds).
* **C78 Overset hole cutting and donor search** (partial; Cut_Props, Cut_Props2). the cutting-shape tests and layer-by-layer skin search over arbitrary element lists; membership characterisations. *Found:* Refuted parts: the oriented box is displaced when the rotation centre is not the origin; the oriented cylinder ignores its own centre; clipping needs detailed output. Coarse search at its specification (C33 covers the parametric distance).
* **C79 Fluxes across a non-conformal (sliding) interface** (partial; NC_Props, NC_Props2, NC_Props3, NC_Props4). one Gauss point of the DG flux over R, both sides; action/reaction sums, consistency, matrix = sensitivity. *Found:* Refuted parts: conservation on non-matching Gauss points and, on a moving interface with a density jump, of mass (the mesh velocity flux uses the current side's density only); the div(u) stress; the volume-of-fluid matrix without upwinding; the sign of the projected-gradient jump penalty. The VOF variants of the mass flow and continuity algorithms are not modelled.
* **C80 Opposing faces and ghosting of a non-conformal interface** (partial; NCS_Props, NCS_Props2). candidate search as fold over faces keeping the best; ghosting list = set difference; refuted with id collisions. *Found:* Refuted parts: in parallel, without the dynamic tolerance, an unmatched point goes unreported when another rank's point has the same local number and hit a local face (it keeps a stale face); with several candidates the stored distance can end below that of the chosen face. stk's coarse search and change_ghosting enter at their specification; non-shared downward entities are not tracked.
* **C81 Transfer of fields between realms** (partial; Xfer_Props, Xfer_Props2, Xfer_Props3). coarse/fine search as folds over candidate lists; interpolation by shape functions; linear fields exact. *Found:* Refuted parts: the maximum normalised distance reported after a transfer is taken over intermediate best candidates, so it can exceed one although every point lies in its element; a source field with fewer components than the target reads outside its storage. Donor elements are TET4/HEX8; stk's coarse search is any candidate map; the search is done once (not repeated for moving meshes).
* **C82 Solution norms** (partial; Norm_Props, Norm_Props2). norms as folds over nodes and ranks; equal to the textbook L1/L2/Loo norms. *Found:* Refuted part: a dof listed twice with two functions shares one exact field, so both rows are relative to the last function. A dof stored with fewer components on some part than elsewhere is outside the hypothesis (setup uses the maximum). With no active node the file shows -1e16 and 0/0.
* **C83 Data probes** (partial; Probe_Props, Probe_Props2, Probe_Props3). line/plane sampling positions for any number of points; gather by rank sums. *Found:* Refuted parts: a plane with two points in its second direction gets half the spacing (max(2, n-1)); after a restart, when the points of a probe are spread over several ranks each rank numbers its own from zero, and when the number of points in the input was changed, the old points are spaced by the new spacing. Moving meshes: probes stay where they are.
* **C84 Solid and mesh displacement** (partial; Disp_Props, Disp_Props2, Disp_Props3). elastic kernels (linear, neo-Hookean) per point; objectivity and symmetry by ring; refuted identities with witnesses. *Found:* Refuted parts: the neo-Hookean kernel counts the transposed gradient twice, so rotations are not force free, and in 2-D the body at rest is stressed (3/4 instead of 2/3); the inertia weights use dt/2 + dt_old instead of the mean of the two steps (2/3 of the acceleration with equal steps), and with two stored states they are not a second derivative; LAME_MU_ID is registered with the lambda field and vice versa. The neo-Hookean matrix is the lagged one, no Newton claim is made for it.
* **C85 Finite-element (Galerkin) kernels** (partial; Fem_Props, Fem_Props2, Fem_Props3, Fem_Props4, Fem_Props5). Galerkin kernels with arbitrary numbers of quadrature points and nodes; exactness and conservation by double-sum induction. *Found:* Refuted parts: MomentumDiffFemKernel adds the -2/3 mu div(u) stress inside the column loop, once per element node, so with includeDivU it is multiplied by the number of nodes (every element with two or more nodes); MomentumOpenAdvDiffFemKernel adds sum_j d_j u_j n_j as a spurious tangential force. Newton exactness of the viscous and open kernels is proved without the divergence stress, which has no matrix entry. Green identity of the element quadrature is a hypothesis of the integration-by-parts theorem, verified for the line element.
* **C86 Volume of fluid** (partial; Vof_Props, Vof_Props2, Vof_Props3, Vof_Props4, Vof_Props5, Vof_Props6). VOF advection/sharpening/buoyancy/evaporation kernels; conservation by induction, sensitivity signs refuted by witness. *Found:* Refuted parts: the upwind kernels place the right-hand node sensitivity in the left column (matrix exact only for flow from left to right); the evaporation gradient accumulates a partially interpolated value, so a uniform volume fraction evaporates, the evaporation constant enters squared, and in the continuity equation it has the wrong sign and no projected time scale. The sharpening matrix is lagged. The mass-flow-rate algorithm of this scheme, the pressure-area-weighted gradient and non-conformal interfaces are not modelled here.
* **C87 Nonlinear stabilisation adds only a bounded, conservative, dissipative flux** (partial; Nso_Props, Nso_Props2, Nso_Props3, Nso_Props4). NSO viscosity as min of two estimates; dissipation from Cauchy-Schwarz; conservation by pairing. *Found:* MomentumNSOSijElemKernel adds the -2/3 div(u) stress inside the loop over the element's nodes, so with includeDivU it is counted nodesPerElement times (C87_sij_divergence_excess gives the excess for every element, the _refuted theorem a triangle where it is nonzero). Matrices are exact with the coefficient held.
* **C88 Body forces and heat sources** (partial; Src_Props, Src_Props2). source algorithms per node/point; sums equal integrated forces; Coquelicot for analytic sources. *Found:* Refuted: the low-speed compressibility matrix lacks a factor gamma1 under BDF2 (C88_compressible_matrix_bdf2 gives the exact relation); the pressure rate of the enthalpy equation is always a backward-Euler difference; the nodal actuator algorithm uses the first component of actuator_source_lhs for every row.
* **C89 Wall heat fluxes and coupled-wall heat transfer data** (partial; Heat_Props, Heat_Props2). wall flux algorithms per boundary point; energy balance with the assembled coefficient, two-side coupling algebra. *Found:* Refuted: the edge form subtracts its non-orthogonal correction where it should be added, so the correction doubles the error of a linear temperature on a skewed edge (C89_edge_linear_flux gives the value for every edge); a wall node at temperature zero divides by zero.
* **C90 Actuator lines** (partial; Act_Props, Act_Props2). actuator point kinematics, Gaussian spreading normalised by its sum, source sums; refuted where points overlap. *Found:* Refuted: the velocity given to the drag law is minus the velocity of the point's motion (C90_velocity_is_minus_motion); in two dimensions the y-z rotation shrinks the line; the Gaussian's exponent is -r*r/eps*eps = -r^2 so the decay radius does not set its width; a node's source is assigned, not added, so of several points of one rank reaching a node only the last counts and the result depends on the distribution over ranks. Not modelled: density is missing from the fields communicated to ghosted elements.
* **C91 Nodal gradients** (partial; Grad_Props, Grad_Props2, Grad_Props3, Grad_Props4, Grad_Props5, Grad_Props6, Grad_Props7). edge/element/boundary/PNG gradients; linear exactness by summation identities with the dual-volume closure hypotheses. *Found:* Refuted for the balanced-force boundary gradient: AssembleNodalGradPAWBoundaryAlgorithm.C:261 reads the volume fraction of the element's node number ic instead of face node ic, so a localised surface tension uses wrong nodes; C91_area_weighted_partial gives the cases where the intended value results and C91_area_weighted_code what is computed in general. The planar exactness theorems are for conforming meshes of Tri3/Quad4 (3-D elements: the general theorem with Gauss's identity as hypothesis).
* **C92 Explicit filtering** (partial; Filter_Props, Filter_Props2). filter stencils as lists of neighbours; weights sum to one, constants preserved, induction over sweeps. *Found:* Refuted for elements with several volume points per node: the residual uses p_scvol[nn] (volume number of the node) instead of p_scvol[ip] (C92_residual_volume_refuted; equal for all linear elements, C92_residual_linear_elements). Not modelled: reading the block (load), state handling of fields; stencils are found once at initialisation and not redone on a moving mesh.
* **C93 Error indicators and Courant/Reynolds numbers** (partial; Err_Props, Err_Props2). indicators as folds over elements/edges; maxima are attained; refutations by small meshes. *Found:* Refuted: in two dimensions the vorticity option drops the only component a plane flow has and reads the next node's gradient (C93_planar_vorticity_refuted); the edge length of vorticity_dx takes a root per component (C93_edge_length_refuted); without non-orthogonal correction the edge stabilisation indicator drops the whole nodal gradient (C93_no_correction_refuted); the limiter indicator uses four times instead of twice the projected difference, so a linear field gets 1/4 (C93_limiter_linear_refuted); a realm without active elements has Courant number -1 and the controller answers with a negative step (C93_no_elements_refuted). The scalar indicator is always zero for vorticity options; the velocity indicator uses the sum, not the mean, of the two gradients and two roots. Not modelled: registration of the algorithms, adaptivity itself.
* **C94 Eigen-decomposition and the eigenvalue-perturbed scalar flux** (partial; Eig_Props, Eig_Props2, Eig_Props3, Eig_Props4, Eig_Props5). Jacobi sweeps on symmetric 3x3 matrices: orthogonality invariants over any number of rotations; tensor rebuilt from its parts; refuted convergence of off-diagonals. *Found:* Refuted: the quaternion product is formed in place, so a rotation does not remove the entry it is meant for (C94_rotation_removes_entry_refuted; the iteration then needs more passes and its convergence in space is not proved, only that it stops early with a diagonal D and that A = Q D Q^T holds after any number of passes); the pack version treats equal largest entries as an already diagonal matrix (C94_pack_diagonal_refuted); in two dimensions the third row of the stress is never set, so the result depends on the edge visited before (C94_plane_stress_determined_refuted). Zero strain divides by zero; the laminar non-orthogonal correction ignores its option. Not modelled: floating-point exits.
* **C95 The two implementations of each element operator agree** (proved; Leg_Props4). legacy SolverAlgorithm loops and Kernel classes written as two independent models; equality for all inputs (functional extensionality on arrays). *Found:* The open-boundary scalar agreement needs consistent node maps of the face (face_ok: the point's nearest element node is the nearest face node), because the legacy code extrapolates from the element's nearest node and the kernel from the face's. The defects recorded for the kernels (C72: dilatation stress and cross-term sign at open and symmetry faces) are therefore shared by the legacy algorithms.
* **C96 Loads on a floating body** (partial; SixDof_Props, SixDof_Props2). force/moment sums and tethers over lists of faces; refuted accumulation over steps. *Found:* Defects (refuted theorems): the driver zeroes only the nodal area, so without the surface post-processing the nodal pressure_force, tau_wall and yplus grow with every step; they are not summed over ranks, so nodes on a rank border show only part; the first step of a body from rest accelerates with half the force (the acceleration is under-relaxed). A tether of zero length divides by zero. The body's angular update is C12.
* **C97 Projected wall functions and the one-dimensional wall model** (partial; WallOde_Props, WallOde_Props2, WallOde_Props3). ODE wall model: tridiagonal solve for any number of points, fixed points, bounds on utau. *Found:* Refuted parts: the stress handed on is muWall times the first velocity difference, strictly below the stress the profile carries whenever the first segment is turbulent (C97_wall_stress_is_layer_stress_refuted); the convergence test is absolute so a guess below 1e-6 is returned as it stands, even with no slip (C97_small_guess_kept_refuted); with the one-dimensional model an exchange point at rest relative to the wall makes the momentum rows 0/0 (C97_rest_divides_by_zero_refuted). Not proved: that the fixed-point iteration converges within 1000 passes (only that a solution exists and that a reported convergence is genuine). The search for the element containing the exchange point is that of C81 and is not repeated.
* **C98 Coupled realms: every declared transfer runs exactly when its objective says** (partial; Couple_Props, Couple_Props2, Couple_Props3). transfer scheduling as a state machine over realms, events, histories; exactly-once by induction. *Found:* Refuted parts: a transfer whose executing realm is not named in the integrator's realms list is accepted and never run (C98_declared_transfers_run_refuted); the input/output test is count % output_frequency and ignores output_start, so when the start is not a multiple of the frequency results are written with fields transferred in an earlier step (C98_output_written_with_fresh_data_refuted; proved fresh when it is a multiple); initialization transfers run after the restart is read, again on every restart, and replace restored fields (C98_restart_kept_refuted; proved kept where no transfer writes). Output forced by a wall-clock limit is left out; frequency 0 is a division by zero in process_io_transfer.
* **C99 Assembly: every contribution enters the system once and boundary values are enforced as prescribed** (proved; Asm_Props, Asm_Props2, Asm_Props3). registration maps and assembly drivers as folds over parts/buckets; each contribution once by NoDup/permutation arguments. *Found:* Refuted parts: a corner shared by two conditions on one field takes the value of the one listed last (C99_corner_value_independent_of_order_refuted); where kinds write different fields (volume of fluid, turbulent dissipation) it is not the last of the input but the greatest kind that prevails (C99_last_of_input_prevails_refuted). Kernels are any lanewise additive functions; Kokkos loops sequential; the row search of sumInto and the export to owners are C14-C16. Not in the model: the face algorithm does not exclude inactive parts while the element algorithm does, and the kernels of a named algorithm are those requested when its first part is registered.
* **C100 Turbulence and species variables remain realizable after each segregated update** (partial; Species_Props, Species_Props2). clip/normalise updates per node as state transformers; invariants (sum one, non-negative) over update histories. *Found:* Refuted: the last species can become negative (the others are clipped one by one), an absent species becomes 1e-16, aura copies are neither clipped nor completed, and an initial k = epsilon = 0 keeps epsilon 0. With one species the averaged residual divides by zero. The linear solve is an arbitrary function; parallel and periodic sums are C14 and C20.
* **C101 The volume flow rates that carry the volume fraction are exactly those the pressure equation balances** (partial; VofFlow_Props, VofFlow_Props2). vof mass-flow algorithms per integration point against the pressure-equation kernels; equality by ring; refuted sign. *Found:* Refuted: (1) ComputeMdotVofElemOpenAlgorithm.C:306 reads the volume fraction gathered over the element with the face-node counter, so with localised surface tension the stored open flow is not the assembled one (proved equal for default exponents, uniform fraction, or faces whose nodes come first); (2) across a non-conformal interface surface tension enters with the wrong sign, so a balanced fluid at rest is set in motion there (balance proved for the opposite sign).
* **C102 Boundary and initial condition input is read faithfully** (partial; Input_Props, Input_Props2, Input_Props3, Input_Props4, Input_Props5). YAML as an inductive tree; each reader as a list of (keyword, converter, member) entries interpreted over the tree; theorems against an independent keyword table for all trees. *Found:* Refuted: an open boundary's turbulent_dissipation is never read (NaluParsing.C:1085 tests for "turbulent_dissipation_"); the check "irradiation without emissivity" reads emissSpec_, which no constructor initialises; a heat flux next to a temperature is silently dropped; a convective and a Robin wall in one solid share one WALL_CHT algorithm that uses the first one's coefficient field (HeatCondEquationSystem.C 944-960); misspelled keywords are silently ignored.
* **C103 Compressible gas passes a sliding interface unharmed** (partial; GasNC_Props, GasNC_Props2, GasNC_Props3). interface flux of the compressible equations, both sides; conservation/consistency, refuted with witnesses. *Found:* Mass conservation, the inviscid flux, uniform streams and conduction proved. Refuted: the velocity gradient is accumulated with the derivative direction of the component (457-492), so shear carries no traction; the isotropic stress of the opposing side is taken with the current normal, so momentum is conserved only with equal dilatation stresses; off-diagonal entries of the two stress arrays are never set back, so energy is conserved only if they are clean and unused; the momentum penalty acts on momentum, not velocity; the opposing Mach number does not subtract the mesh velocity; opposing vectors are gathered with the node count of the current face, so faces with different node counts read wrong components.
* **C104 Hybrid turbulence stress, element sources of turbulent energy, diffusion along edges** (partial; Hyb_Props, Hyb_Props2). SGS/RANS blended stress and TKE sources at one point; invariance and sign facts; edge diffusion as fold. *Found:* Conservation, exact matrices, linear fields, limits, agreement with the nodal sources and edge diffusion proved. Refuted: the pressure of the unresolved motion is added once per node of the element instead of once; an anisotropic tensor resists rigid rotation. The DES kernel's matrix is 2/3 of the nodal source's; the low-Reynolds part of the design-order Ksgs kernel has no matrix counterpart; the hybrid kernel is included but never registered, so no input selects it.
* **C105 Balancing node ownership between processes** (partial; Bal_Props, Bal_Props2). ownership exchange rounds as transformations of (owner, node) lists over any number of processes; load totals preserved, termination by iteration bound, non-settling refuted by a 2-cycle. *Found:* Valid ownership, conservation, monotone minimum, fixed points, matching exchange, target and the one-giver/two-process bound on the maximum proved. Refuted: balancing need not settle (two full and two empty processes that hold all nodes swap them for ever) and a round can make the load factor worse (three processes give to the same fourth). The quotients of counts are compared exactly; STK's change_entity_owner is assumed to do what it documents.
* **C106 Element scratch memory is large enough and holds what was asked** (partial; Scratch_Props). request sets and storage layout as lists of (name, sizes); every gathered array fits its storage; refuted aliasing of rival requests. *Found:* Budget, disjointness, existence and extents of views, acceptance, registration and uncontested results proved. Refuted: requests that share an array (shifted and plain FEM gradient, SCS and FEM metric tensor) are meant to be refused but the check asks only numFemIp > 0, which always holds, so one kernel reads the other's data; add_*_field with one size does not compare the second, so a kernel can be handed a view of the wrong rank; a tensor request with second size 1 makes a view of another rank than the gather asks for. Space added by the allocator for alignment is not modelled.
* **C107 Built-in profiles are what they are named after** (partial; User_Props, User_Props2, User_Props3). profiles as real functions and a walk over field memory; storage by induction on points, binary search by invariant over any increasing table, angles by asin/acos identities, differential equations by Coquelicot derivatives, series by induction on the number of terms. *Found:* Refuted: a three-component profile laid over a two-component velocity writes beyond the field's storage; FixedHeight forgets the given height as soon as a wave amplitude is given; the Rayleigh-Taylor layer is monotone and without jumps only when its middle stands at an odd multiple of its thickness (as by default) - around height 0 it is upside down; a displacement ramp with fewer parameters than components reads beyond its list. Partial: on the side walls of the 1:2 duct the remaining velocity is shown to be the tail of the parabola's Fourier series, its size is not bounded. The plug's direction parameters (a permutation) are fixed to their defaults; std::erf is any monotone odd function into [-1,1]; cylinder axis itself (0/0) is excluded; boundary-layer and vortex loops advance the coordinates by the field size, equal to the dimension for the velocities they are used for.
* **C108 The material blocks of the input decide what fills every property** (partial; Mat_Props, Mat_Props2). setup as a fold over blocks, targets and properties with the reference constants, the table file and the registered evaluators as state; an inductive relation "asked" states what a block means, independent of the evaluator classes; invariant carried through the three loops; counterexample inputs for the carried-over constants, the table file, per-species constants and the isothermal gas. *Found:* Proved when each reference constant is given by all blocks or by none (one block always qualifies) and at nodes where the divisions make sense. Refuted: otherwise a block without its own reference constant silently takes that of the block before it; the table file of a second block is never opened; constants given per species for anything but the specific heat of a run with enthalpy become zero; a uniform isothermal gas asked to be acoustically compressible ignores the pressure. When two specifications fill the same field on the same part (heat ratio and specific heat), both are registered and the theorem says each is asked for, not which comes last. Part lookup, the table's auxiliary variable and the evaluation of a table are not modelled.
* **C109 The coupled solver keeps velocity and pressure in step with its unknown** (partial; Mono_Props). flat interleaved storage with the nested copy loops as folds of point updates; injectivity of the index maps by division; invariant over iterations, steps and runs by induction, for 2 or 3 time levels. *Found:* Refuted: what boundary conditions or transfers write into velocity and pressure during a step never reaches the coupled unknown and is overwritten (noted by the authors as a FIXME); at a restart the start-up work uses the velocity in memory instead of the saved one. The kernel that would assemble the coupled system throws "not implemented", so increments are arbitrary. One bucket of nodes; buckets do not interact.
* **C110 The finite-element fractional step advects with a balanced mass flux** (proved; FemStep_Props). fields as flat functions and solve_and_update as a fold over arbitrary increments; the assembled pressure system of the C85 kernels at a node; its solution transported by the Newton and weak-form theorems to the lagged fields; total correction by induction over iterations. *Found:* Density and geometry are those of one solve_and_update; the gradient projection is any function of the pressure; open-boundary rows are not covered, boundaries with a given flux enter as a right-hand side. When the projection time scale changes between solve and use, the balance is broken by an exact amount, proved (C110_changed_time_scale).
* **C111 The quadratic quadrilateral divides its area exactly, curved sides included** (partial; QuadP2_Props, QuadP2_Props2, QuadP2_Props3, QuadP2_Props4). integration points as index lists; two-point Gauss exactness for cubics by the fundamental theorem (Coquelicot), applied twice because the Jacobian is cubic in each variable; box additivity by Chasles; faces by exactness on quadratics; gradients by partition of unity. *Found:* Refuted in part: the sub-volume grad_op writes only the first 24 (the number of face points) of the 36 points, so gradients at the points of the three top nodes are whatever the buffer held, in every element (C111_volume_gradients_refuted); proved for the 24 written (C111_volume_gradients_partial). Real arithmetic, degenerate points excluded from the gradient statement by the code's own threshold. Edge32DSCS::determinant given several sides overwrites one side's area vectors with the next's (C111_several_sides_refuted; callers pass one). The points on the sides and the faces opposite to them (set_boundary_info) are covered in QuadP2_Props2. Shifted points and the 3-D counterpart are not.

## Not expressible or not modelled

* Rounding error of the numerics, performance, memory consumption, text output formats, exceptions thrown by third-party libraries.
* Linear solver internals (Belos/Ifpack2/MueLu/Hypre): the solve is an arbitrary function; theorems constrain the system given to it and the use made of its report.
* Concurrency: Kokkos thread interleavings are modelled by order-independent accumulation (C14, C99), not as an interleaving semantics.
* Files of `/repo/src` with no model: thin drivers and registrations whose content is only calls (LowMachFemEquationSystem, MixtureFractionFemEquationSystem,
  LowMachMonolithicEquationSystem, InputOutputRealm, Simulation, LinearSolver/LinearSolverConfig, MasterElementFactory, AlgorithmDriver, SolverAlgorithm, SupplementalAlgorithm,
  KernelBuilderLog), file wrappers (H5IO, HDF5FilePtr, NaluEnv), quadrature element Quad92DCVFEM and the Hex27 volume/surface quadrature,
  MomentumContinuityElemKernel (its `execute` only throws "not implemented"), and the property algorithms that only dispatch to evaluators (C53).

## Trusted base

* Coq 8.16.1 kernel (re-checked by `coqchk`), `coqc`'s elaboration of the definitions; `vm_compute` where used is part of the kernel.
* Axioms listed by `Print Assumptions` (every property file prints them): only the standard library's
  `ClassicalDedekindReals.sig_forall_dec`, `ClassicalDedekindReals.sig_not_dec` (construction of the reals),
  `FunctionalExtensionality.functional_extensionality_dep` (used by the reals, and directly in Leg_Props, Asm_Props, Bal_Props2) and
  `Classical_Prop.classic` (through Coquelicot/Reals lemmas: ME, Prop, Gas, Turb_Props3, MMS, Src_Props2, Heat_Props, Act_Props, Hyb_Props2, User_Props3 files);
  The binary64 witness of C03 computes with `Coq.Floats.SpecFloat` (an axiom-free specification of IEEE 754).
  No axioms of our own, no functors, no module types; `Section` variables are discharged into the statements.
* Fidelity of the hand-written model to the C++ text (each definition cites its lines and says where it simplifies). The seeded-bug log measures how
  tightly the theorems pin the model, not how faithfully the model follows the C++.
