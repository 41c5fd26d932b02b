C37 the post-processing formulas (vorticity, Q criterion, helicity, Favre/Reynolds stress) as functions of a 3x3 gradient; ring identities against textbook definitions.
C38 edge loop as a fold over an edge list with half-edge gathering; divergence-theorem identities by induction on the list.
C39 mass flow rate per edge before and after the pressure correction; sum over the edges of a node, induction on the edge list.
C40 one edge of the momentum assembly over R (3 components, 6x6 block); rigid rotation/Galilean invariance by ring, matrix = derivative of residual at fixed coefficients.
C41 TensorOps/MasterElementUtils gradient and metric functions; matrices over R, inverse identities by field.
C42 solve loop as recursion over an arbitrary stream of iterates; minimality of the stopping index by induction.
C43 the statistics record as fold over the history of linear solves; equals min/max/mean over the list.
C44 search results as lists of pairs; acceptance test compared with completeness; refuted where counts coincide.
C45 parallel max/min over images; counterexample for chains (single pass).
C46,C47,C48 the integer tables (sideNodeOrdinals, oppNode, oppFace, intgExpFace, ...) copied literally from the source and compared with independently written geometric descriptions, exhaustively per element by computation inside the kernel plus general coordinates by ring/field.
C49 element kernels as functions from nodal values to residual/matrix arrays accumulated over integration points; row sums zero by induction over the points with arbitrary lrscv maps.
C50 residual as a function of one dof; matrix entry = derivative, stated with difference quotients/affine identities for any number of nodes and points.
C51,C52 linear exactness and constant preservation from the partition-of-unity and gradient identities of an arbitrary consistent element; induction over points.
C53 polynomial/Sutherland/ideal-gas evaluators as real functions; continuity at the switch temperature, positivity, Coquelicot derivatives of h against cp.
C54 Newton iteration for T(h) as a recursion; monotone enthalpy gives uniqueness; fixed points are solutions.
C55,C56,C57 AUSM+ flux and state conversion formulas over R; consistency, symmetry under reversal and wall/open/inflow cases by field and case analysis on the Mach number.
C58 dual mesh accumulation (volumes, edge areas, exposed areas) as folds over element lists; closure of each node's surface by induction with the element closure of C31.
C59 the hand-written LU factorisation as nested recursions over an n x n matrix for any n; A = LU and solution uniqueness when no pivot vanishes.
C60 B-spline basis recursion over arbitrary knot lists; partition of unity, locality, interpolation conditions.
C61 table lookup (search of interval, clipping, interpolation) for lists of any length.
C62 Thurgood quadrature points and weights for any order n; sums by induction.
C63 one ordinate's upwind (edge/element) operator with SUCV stabilisation; conservation and positivity facts over arbitrary lists of edges.
C64 the outer iteration over ordinates as a state machine: order of visits, scalar flux as sum over ordinates, convergence test.
C65 Smagorinsky/WALE/KsGS/SST viscosity as functions of the velocity gradient; invariance under orthogonal matrices by algebra on traces.
C66 clip-and-update step and source terms; sign and linearisation inequalities (nra) for all inputs.
C67 log-law Newton iteration; fixed-point characterisation, monotonicity, limits.
C68 exact-solution functions as real expressions; PDE residual zero by Coquelicot derivatives.
C69 profile files as lists of samples; interpolation/wrap/time blending as list recursions; out-of-bounds reads are a separate outcome.
C70 wall velocity from mesh displacement/omega; rigid-body kinematics by ring, derivative by Coquelicot.
C71,C72 open/symmetry kernels: one boundary integration point over R, arbitrary numbers of face and element nodes; decomposition of the traction by algebra.
C73 accumulation over inflow/open faces and ranks; sums by induction, closure algebra.
C74 loop over faces with assembled nodal quantities; totals as sums over faces, refuted where requests overlap.
C75 backward Euler upwind edge system as an M-matrix: discrete maximum principle by argmax over a finite node list.
C76 reference node choice across ranks as fold over minima; system with one fixed row.
C77 constraint rows and explicit updates of fringe nodes as folds; donor weights partition of unity.
C78 the cutting-shape tests and layer-by-layer skin search over arbitrary element lists; membership characterisations.
C79 one Gauss point of the DG flux over R, both sides; action/reaction sums, consistency, matrix = sensitivity.
C80 candidate search as fold over faces keeping the best; ghosting list = set difference; refuted with id collisions.
C81 coarse/fine search as folds over candidate lists; interpolation by shape functions; linear fields exact.
C82 norms as folds over nodes and ranks; equal to the textbook L1/L2/Loo norms.
C83 line/plane sampling positions for any number of points; gather by rank sums.
C84 elastic kernels (linear, neo-Hookean) per point; objectivity and symmetry by ring; refuted identities with witnesses.
C85 Galerkin kernels with arbitrary numbers of quadrature points and nodes; exactness and conservation by double-sum induction.
C86 VOF advection/sharpening/buoyancy/evaporation kernels; conservation by induction, sensitivity signs refuted by witness.
C87 NSO viscosity as min of two estimates; dissipation from Cauchy-Schwarz; conservation by pairing.
C88 source algorithms per node/point; sums equal integrated forces; Coquelicot for analytic sources.
C89 wall flux algorithms per boundary point; energy balance with the assembled coefficient, two-side coupling algebra.
C90 actuator point kinematics, Gaussian spreading normalised by its sum, source sums; refuted where points overlap.
C91 edge/element/boundary/PNG gradients; linear exactness by summation identities with the dual-volume closure hypotheses.
C92 filter stencils as lists of neighbours; weights sum to one, constants preserved, induction over sweeps.
C93 indicators as folds over elements/edges; maxima are attained; refutations by small meshes.
C94 Jacobi sweeps on symmetric 3x3 matrices: orthogonality invariants over any number of rotations; tensor rebuilt from its parts; refuted convergence of off-diagonals.
C95 legacy SolverAlgorithm loops and Kernel classes written as two independent models; equality for all inputs (functional extensionality on arrays).
C96 force/moment sums and tethers over lists of faces; refuted accumulation over steps.
C97 ODE wall model: tridiagonal solve for any number of points, fixed points, bounds on utau.
C98 transfer scheduling as a state machine over realms, events, histories; exactly-once by induction.
C99 registration maps and assembly drivers as folds over parts/buckets; each contribution once by NoDup/permutation arguments.
C100 clip/normalise updates per node as state transformers; invariants (sum one, non-negative) over update histories.
C101 vof mass-flow algorithms per integration point against the pressure-equation kernels; equality by ring; refuted sign.
C102 YAML as an inductive tree; each reader as a list of (keyword, converter, member) entries interpreted over the tree; theorems against an independent keyword table for all trees.
C103 interface flux of the compressible equations, both sides; conservation/consistency, refuted with witnesses.
C104 SGS/RANS blended stress and TKE sources at one point; invariance and sign facts; edge diffusion as fold.
C105 ownership exchange rounds as transformations of (owner, node) lists over any number of processes; load totals preserved, termination by iteration bound, non-settling refuted by a 2-cycle.
C106 request sets and storage layout as lists of (name, sizes); every gathered array fits its storage; refuted aliasing of rival requests.
C107 profiles as real functions and a walk over field memory; storage by induction on points, binary search by invariant over any increasing table, angles by asin/acos identities, differential equations by Coquelicot derivatives, series by induction on the number of terms.
C108 setup as a fold over blocks, targets and properties with the reference constants, the table file and the registered evaluators as state; an inductive relation "asked" states what a block means, independent of the evaluator classes; invariant carried through the three loops; counterexample inputs for the carried-over constants, the table file, per-species constants and the isothermal gas.
C109 flat interleaved storage with the nested copy loops as folds of point updates; injectivity of the index maps by division; invariant over iterations, steps and runs by induction, for 2 or 3 time levels.
C110 fields as flat functions and solve_and_update as a fold over arbitrary increments; the assembled pressure system of the C85 kernels at a node; its solution transported by the Newton and weak-form theorems to the lagged fields; total correction by induction over iterations.
C111 integration points as index lists; two-point Gauss exactness for cubics by the fundamental theorem (Coquelicot), applied twice because the Jacobian is cubic in each variable; box additivity by Chasles; faces by exactness on quadratics; gradients by partition of unity.
