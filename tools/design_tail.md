## Not expressible or not modelled

* Rounding error of the numerics, performance, memory consumption, text output formats, exceptions thrown by third-party libraries.
* Linear solver internals (Belos/Ifpack2/MueLu/Hypre): the solve is an arbitrary function; theorems constrain the system given to it and the use made of its report.
* Concurrency: Kokkos thread interleavings are modelled by order-independent accumulation (C14, C99), not as an interleaving semantics.
* Files of `/repo/src` with no model: thin drivers and registrations whose content is only calls (LowMachFemEquationSystem, MixtureFractionFemEquationSystem,
  LowMachMonolithicEquationSystem, InputOutputRealm, Simulation, LinearSolver/LinearSolverConfig, MasterElementFactory, AlgorithmDriver, SolverAlgorithm, SupplementalAlgorithm,
  KernelBuilderLog), file wrappers (H5IO, HDF5FilePtr, NaluEnv), quadrature element Quad92DCVFEM and the Hex27 volume/surface quadrature,
  MomentumContinuityElemKernel (its `execute` only throws "not implemented"), and the property algorithms that only dispatch to evaluators (C53).

## Trusted base

* Coq 8.16.1 kernel (re-checked by `coqchk`), `coqc`'s elaboration of the definitions; `vm_compute` where used is part of the kernel.
* Axioms listed by `Print Assumptions` (every property file prints them): only the standard library's
  `ClassicalDedekindReals.sig_forall_dec`, `ClassicalDedekindReals.sig_not_dec` (construction of the reals),
  `FunctionalExtensionality.functional_extensionality_dep` (used by the reals, and directly in Leg_Props, Asm_Props, Bal_Props2) and
  `Classical_Prop.classic` (through Coquelicot/Reals lemmas: ME, Prop, Gas, Turb_Props3, MMS, Src_Props2, Heat_Props, Act_Props, Hyb_Props2, User_Props3 files);
  The binary64 witness of C03 computes with `Coq.Floats.SpecFloat` (an axiom-free specification of IEEE 754).
  No axioms of our own, no functors, no module types; `Section` variables are discharged into the statements.
* Fidelity of the hand-written model to the C++ text (each definition cites its lines and says where it simplifies). The seeded-bug log measures how
  tightly the theorems pin the model, not how faithfully the model follows the C++.
