C01 reals; gamma as a function of (count, dtN, dtNm1) inside the integrator state machine; algebra (field/nra) + invariant over runs.
C02 integrator loop as fuelled/inductive run relation; induction on remaining steps.
C03 same loop over R with archimedean bound; also binary64 stagnation witness (refuted for doubles).
C04 integrator emits an event trace; ordering stated on positions of events in the trace for arbitrary realm lists.
C05 controller function over R.
C06 state machine + restart record; simulation argument between resumed and uninterrupted run.
C07 decision functions; history induction for the "at most once" part.
C08 sweep loop over an abstract residual history.
C09,C10 rotation via quaternion formulas on R^3, ring identities; Coquelicot derivative.
C11 ring/trig identities.
C12 compared with a textbook RK4; expected outcome refuted (witness).
C13 Z arithmetic.
C14 lists/sorting: permutation sort, merge loop; equality with dense "+=" specification.
C15 multi-rank matrices as functions row->col->R per rank, export = sum; theorem over any ranks.
C16 LocalGraphArrays insertion as list algorithm; capacity lemma.
C17 history state machine.
C18 Boolean set algebra over arbitrary node types.
C19 sums over permutations.
C20 fold over pair lists.
C21,C22,C23 running sums invariants by induction over histories.
C24 lists of reals, option result.
C25 nat arithmetic, lists.
C26-C29 algebra over R for one edge, induction over edge lists for the assembled operator.
C30-C33 polynomial identities (ring/field) per element; Coquelicot derivatives.
C34 trace model.
C35 algebra, telescoping sums.
C36 finite maps as association lists.
