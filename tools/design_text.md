# Formal model of lanl/bml in Rocq (Coq 8.16.1)

## 1. Approach

* The library is a family of matrix formats (dense, ellpack, csr, ellblock,
  distributed2d) behind one API.  The specification of almost every call is a
  mathematical matrix identity.  `Spec.v` (and `RealSpec.v` for statements about
  the size of numbers) holds that specification: matrices are functions
  `nat -> nat -> K`, with finite sums, products, transposes, traces.  It contains
  no algorithm of the library.
* Each format is modelled by the data it really stores (flat arrays indexed with
  `ROWMAJOR`, per-row counters, per-row growable buffers, block lists in a heap,
  one local matrix per MPI task), and each function by the loops of the C source,
  in an error monad `res A := Ok a | Err | UB | Loop`.
  `Err` is `LOG_ERROR` or a failing `assert` (both terminate the process); `UB` is
  an out-of-bounds access, a read of an uninitialised or freed object, or a write
  past the end of an array; `Loop` is an exhausted fuel of a `while` loop and is
  excluded by the theorems (C47 proves that one such loop really diverges).
  Every array access of the model is bounds checked, so a theorem concluding
  `f x = Ok y /\ ...` also says that no access is out of range.
* Theorems are refinements: "well-formed input representing the matrices A, B =>
  the call returns `Ok`, the result is well formed and represents <matrix
  expression>", for all sizes, contents, thresholds and schedules.
* Arithmetic is exact.  Scalars are an arbitrary commutative ring with decidable
  equality (record `scalar` of `Spec.v`: covers exact reals and exact complex
  numbers; instances for Z and R are given), thresholds are an arbitrary predicate
  `keep` (the code's `|x| > t`).  Statements about magnitudes (error bounds,
  Gershgorin, normalize, norms, sparsity) are over the real numbers.
* OpenMP: a parallel loop is modelled by an arbitrary assignment of iterations to
  threads, executed in an arbitrary order, with thread-private workspaces carried
  over between iterations of one thread; critical/locked sections are atomic.
* MPI (distributed2d): every task has its own program; the tasks interleave
  arbitrarily; messages between two tasks do not overtake; a blocking send may or
  may not wait for its receiver.  Theorems hold for every interleaving
  (`always_ends`).  Reductions are taken in an arbitrary order of the tasks.
* Where the faithful model violates the property, a theorem `..._refuted` exhibits
  a witness (often for all sizes), `..._actual` says what the code computes, and
  the strongest true statement is proved beside it (`..._partial` if it is only
  part of the property).

## 2. Files

| part | model | specification | proofs | instances, counterexamples | property theorems |
|------|-------|---------------|--------|----------------------------|-------------------|
| common | Base.v | Spec.v, RealSpec.v | BaseFacts.v, SpecFacts.v | | |
| ellpack | EllpackModel.v, EllpackHistModel.v, GershModel.v | EllpackSpec.v | Ellpack{Facts,Ops,Arith,Mul,More,Mul2,Exact,Rest,Norm,Reorder,Trans,Adjust,Hist,Random}.v, GershFacts.v | EllpackCheck.v, EllpackCheck2.v, RealCheck.v | PropsEllpack.v, PropsEllpack2.v, PropsReal.v, PropsRandom.v |
| csr | CsrModel.v, CsrHistModel.v, CsrGershModel.v | CsrSpec.v | Csr{Facts,Ops,Mul,Hash,More,Trans,Top,Gersh,Real,Hist,Room}.v | CsrCheck.v, CsrRealCheck.v | PropsCsr.v, PropsCsrReal.v, PropsRandom.v |
| dense, gemm | GemmModel.v, DenseModel.v, DenseRealModel.v | DenseSpec.v | GemmFacts.v, DenseFacts.v, DenseOps.v, DenseReal.v | DenseCheck.v, DenseRealCheck.v | PropsDense.v, PropsDenseReal.v |
| domains | DomainModel.v | DomainSpec.v | DomainFacts.v | | PropsDomain.v |
| format-independent API | FormatModel.v, FormatHistModel.v | FormatSpec.v, FormatHistSpec.v | FormatFacts.v, FormatConv.v, FormatHist.v | FormatCheck.v | PropsFormat.v |
| message passing | MpiModel.v | MpiSpec.v | MpiFacts.v, MpiRun.v | | PropsMpi.v |
| distributed2d | Dist2dModel.v, Dist2dRestModel.v | Dist2dSpec.v | Dist2d{Local,Facts,Cannon,Ops,More,IO,Rest,Real}.v | Dist2dCheck.v, Dist2dRealCheck.v | PropsDist2d.v, PropsDist2dReal.v |
| row distribution | RowModel.v, RowRealModel.v | RowSpec.v | Row{Facts,Local,Ops,More,Dense,Real}.v | RowCheck.v, RowRealCheck.v | PropsRow.v |
| LAPACK wrappers | LapackModel.v | LapackSpec.v | LapackFacts.v | LapackCheck.v | PropsLapack.v |
| programs and conversions in four formats | EbProgModel.v | ProgSpec.v, EbProgSpec.v | ProgFacts.v, EbProgFacts.v, EbConv.v | EbProgCheck.v | PropsProg.v |
| kernels with rounding | FpModel.v | FpSpec.v | FpFacts.v, FpKernels.v, FpGemm.v, FpEll.v, FpExact.v | FpCheck.v | PropsFp.v |
| Fortran interface, typed getters | FortranModel.v | FortranSpec.v | FortranFacts.v, FortranVars.v | FortranCheck.v | PropsFortran.v |
| ellblock | EllblockModel.v | EllblockSpec.v | Ellblock{Facts,Heap,Read,Build,Make,Set,Copy,Work,Add,Mul,Prod,Ptr,Conv,Trans,Norm,Hist}.v | EllblockCheck.v | PropsEllblock.v |
| ellblock, real | EllblockRealModel.v | RealSpec.v, EllblockSpec.v | EllblockReal.v | EllblockRealCheck.v | PropsEllblockReal.v |
| memory | MemModel.v, EllblockMemModel.v | MemSpec.v, EllblockMemSpec.v | MemFacts.v, MemProg.v, EllblockMem.v, MemThms.v | MemThms.v | PropsMem.v |
| integer widths | IntModel.v | IntSpec.v | IntFacts.v | IntFacts.v | PropsInt.v |
| single accesses of threads | ThreadModel.v, RaceModel.v, RaceModel2.v, RaceModel3.v, RaceModel4.v | RaceSpec.v, RaceSpec3.v | ThreadFacts.v, ThreadLocks.v, RaceSim.v, RaceLoops.v, RacePar.v, RaceEll.v, RaceEll2.v, RaceEll3.v, RaceTranspose.v, RaceMain.v, RaceX2.v, RaceDense.v, RaceCsr.v, RaceCsr2.v, RaceGersh.v | RaceCheck.v, RaceCheck2.v, RaceCheck3.v, RaceCheck4.v, RaceCheck5.v | PropsRace.v |
| digits of values in files | MmFpModel.v | MmFpModel.v (is_single, is_double) | MmFpFacts.v, MmFpMat.v | MmFpCheck.v | PropsMmFp.v |
| small functions | EllpackModel.v, CsrModel.v, MemModel.v | EllpackSpec.v, CsrSpec.v | MiscFacts.v, EllblockFnorm2.v | EllpackCheck.v, CsrCheck.v | PropsMisc.v |
| ellblock, add_norm | EllblockAddNormModel.v | EllblockSpec.v, EllblockAddNormSpec.v | EllblockAddNorm.v, EllblockAddNormTotal.v | EllblockAddNormCheck.v | PropsEllblockAddNorm.v |
| ellblock, submatrix | EllblockSubModel.v | EllblockSubSpec.v | EllblockSub.v | EllblockSubCheck.v | PropsEllblockSub.v |
| submatrices, graphs | SubModel.v | SubSpec.v | Sub{Index,Block,Same,Adj,Group}.v | SubCheck.v | PropsSub.v |
| Matrix Market files | MmModel.v | MmSpec.v | MmFacts.v | MmCheck.v | PropsMm.v |
@FILES@

Model files contain no proofs, Props files contain nothing but theorem statements
(each closed by `exact`), `Print Assumptions` and instances (`Example`) showing
that a concrete, non-trivial state meets the hypotheses.
`tools/` holds the generators of properties.jsonl, MANIFEST.json, the Props files
and this file, and the runner of the seeded bugs (`seeded/LOG.jsonl`).

