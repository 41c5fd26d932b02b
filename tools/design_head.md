# Formal model of NaluCFD/Nalu in Rocq (Coq 8.16.1)

(Generated by `tools/design.py` from the hand-written `tools/design_head.md`, `tools/plan_*.txt`, `tools/notes.json`, `tools/design_tail.md`.)

## Layout

`rocq/theories/`, one group of files per area `X`:

* `X_Model*.v` – the model: definitions only, each citing file:lines in `/repo`.
* `X_Spec.v`   – (where the property needs vocabulary) a small specification independent of the model.
* `X_Proofs*.v`– lemmas.
* `X_Props*.v` – the property theorems (`Cxx_...`), with `Print Assumptions` and non-vacuity `Example`s next to them.

`properties.jsonl` (from `tools/props*.py`), `MANIFEST.json` (from `tools/manifest.py`, which scans the `Cxx_` theorems and `tools/notes.json`),
`seeded/` – the wrong-program experiments: `mutants_*.py` are the edits, `seed.py` rebuilds a scratch copy for each, `LOG.jsonl` is the record.

## Abstraction choices

* C++ `double` in numeric kernels is modelled by Coq's `R` (exact real arithmetic). Rounding, overflow, NaN and infinities are **not**
  modelled except where said (binary64 via `Coq.Floats.SpecFloat` for the clock in C03). Division by zero in `R` is total, so theorems carry the
  non-zero hypotheses that the code needs; places where the code itself divides by zero are recorded under "Found".
* `int`, ids, counters: `Z` or `nat`; overflow is not modelled unless stated.
* STK mesh, Tpetra, MPI, STK search/transfer, HDF5 and yaml-cpp are modelled by their documented effect: ranks as lists, reductions as sums over
  ranks, mesh selections as lists, coarse searches as arbitrary candidate lists, YAML as an inductive tree with abstract scalar conversions.
* A floating-point sum over threads/ranks is a sum in `R`, hence order independent; a non-deterministic rounding order is out of scope.
* Arrays are functions from index to `R` or lists; numbers of nodes, integration points, edges, faces, ranks, steps, ordinates etc. are arbitrary.
* Undefined behaviour/out-of-range reads are a distinct outcome (`None`/`UB`), not a default value.
* Suffix `_partial`: part of the property; `_refuted`: the faithful model violates the property, with a witness – a theorem that the English
  property is false of the code, kept so that the full statement stays in view. A property with either is "partial".
