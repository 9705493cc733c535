# Formal model of lanl/bml in Rocq (Coq 8.16.1)

## 1. Approach

* The library is a family of matrix formats (dense, ellpack, csr, ellblock,
  distributed2d) behind one API.  The specification of almost every call is a
  mathematical matrix identity.  `Spec.v` (and `RealSpec.v` for statements about
  the size of numbers) holds that specification: matrices are functions
  `nat -> nat -> K`, with finite sums, products, transposes, traces.  It contains
  no algorithm of the library.
* Each format is modelled by the data it really stores (flat arrays indexed with
  `ROWMAJOR`, per-row counters, per-row growable buffers, block lists in a heap,
  one local matrix per MPI task), and each function by the loops of the C source,
  in an error monad `res A := Ok a | Err | UB | Loop`.
  `Err` is `LOG_ERROR` or a failing `assert` (both terminate the process); `UB` is
  an out-of-bounds access, a read of an uninitialised or freed object, or a write
  past the end of an array; `Loop` is an exhausted fuel of a `while` loop and is
  excluded by the theorems (C47 proves that one such loop really diverges).
  Every array access of the model is bounds checked, so a theorem concluding
  `f x = Ok y /\ ...` also says that no access is out of range.
* Theorems are refinements: "well-formed input representing the matrices A, B =>
  the call returns `Ok`, the result is well formed and represents <matrix
  expression>", for all sizes, contents, thresholds and schedules.
* Arithmetic is exact.  Scalars are an arbitrary commutative ring with decidable
  equality (record `scalar` of `Spec.v`: covers exact reals and exact complex
  numbers; instances for Z and R are given), thresholds are an arbitrary predicate
  `keep` (the code's `|x| > t`).  Statements about magnitudes (error bounds,
  Gershgorin, normalize, norms, sparsity) are over the real numbers.
* OpenMP: a parallel loop is modelled by an arbitrary assignment of iterations to
  threads, executed in an arbitrary order, with thread-private workspaces carried
  over between iterations of one thread; critical/locked sections are atomic.
* MPI (distributed2d): every task has its own program; the tasks interleave
  arbitrarily; messages between two tasks do not overtake; a blocking send may or
  may not wait for its receiver.  Theorems hold for every interleaving
  (`always_ends`).  Reductions are taken in an arbitrary order of the tasks.
* Where the faithful model violates the property, a theorem `..._refuted` exhibits
  a witness (often for all sizes), `..._actual` says what the code computes, and
  the strongest true statement is proved beside it (`..._partial` if it is only
  part of the property).

## 2. Files

| part | model | specification | proofs | instances, counterexamples | property theorems |
|------|-------|---------------|--------|----------------------------|-------------------|
| common | Base.v | Spec.v, RealSpec.v | BaseFacts.v, SpecFacts.v | | |
| ellpack | EllpackModel.v, EllpackHistModel.v, GershModel.v | EllpackSpec.v | Ellpack{Facts,Ops,Arith,Mul,More,Mul2,Exact,Rest,Norm,Reorder,Trans,Adjust,Hist,Random}.v, GershFacts.v | EllpackCheck.v, EllpackCheck2.v, RealCheck.v | PropsEllpack.v, PropsEllpack2.v, PropsReal.v, PropsRandom.v |
| csr | CsrModel.v, CsrHistModel.v, CsrGershModel.v | CsrSpec.v | Csr{Facts,Ops,Mul,Hash,More,Trans,Top,Gersh,Real,Hist,Room}.v | CsrCheck.v, CsrRealCheck.v | PropsCsr.v, PropsCsrReal.v, PropsRandom.v |
| dense, gemm | GemmModel.v, DenseModel.v, DenseRealModel.v | DenseSpec.v | GemmFacts.v, DenseFacts.v, DenseOps.v, DenseReal.v | DenseCheck.v, DenseRealCheck.v | PropsDense.v, PropsDenseReal.v |
| domains | DomainModel.v | DomainSpec.v | DomainFacts.v | | PropsDomain.v |
| format-independent API | FormatModel.v, FormatHistModel.v | FormatSpec.v, FormatHistSpec.v | FormatFacts.v, FormatConv.v, FormatHist.v | FormatCheck.v | PropsFormat.v |
| message passing | MpiModel.v | MpiSpec.v | MpiFacts.v, MpiRun.v | | PropsMpi.v |
| distributed2d | Dist2dModel.v, Dist2dRestModel.v | Dist2dSpec.v | Dist2d{Local,Facts,Cannon,Ops,More,IO,Rest,Real}.v | Dist2dCheck.v, Dist2dRealCheck.v | PropsDist2d.v, PropsDist2dReal.v |
| row distribution | RowModel.v, RowRealModel.v | RowSpec.v | Row{Facts,Local,Ops,More,Dense,Real}.v | RowCheck.v, RowRealCheck.v | PropsRow.v |
| LAPACK wrappers | LapackModel.v | LapackSpec.v | LapackFacts.v | LapackCheck.v | PropsLapack.v |
| programs and conversions in four formats | EbProgModel.v | ProgSpec.v, EbProgSpec.v | ProgFacts.v, EbProgFacts.v, EbConv.v | EbProgCheck.v | PropsProg.v |
| kernels with rounding | FpModel.v | FpSpec.v | FpFacts.v, FpKernels.v, FpGemm.v, FpEll.v, FpExact.v | FpCheck.v | PropsFp.v |
| Fortran interface, typed getters | FortranModel.v | FortranSpec.v | FortranFacts.v, FortranVars.v | FortranCheck.v | PropsFortran.v |
| ellblock | EllblockModel.v | EllblockSpec.v | Ellblock{Facts,Heap,Read,Build,Make,Set,Copy,Work,Add,Mul,Prod,Ptr,Conv,Trans,Norm,Hist}.v | EllblockCheck.v | PropsEllblock.v |
| ellblock, real | EllblockRealModel.v | RealSpec.v, EllblockSpec.v | EllblockReal.v | EllblockRealCheck.v | PropsEllblockReal.v |
| memory | MemModel.v, EllblockMemModel.v | MemSpec.v, EllblockMemSpec.v | MemFacts.v, MemProg.v, EllblockMem.v, MemThms.v | MemThms.v | PropsMem.v |
| integer widths | IntModel.v | IntSpec.v | IntFacts.v | IntFacts.v | PropsInt.v |
| single accesses of threads | ThreadModel.v, RaceModel.v, RaceModel2.v, RaceModel3.v, RaceModel4.v | RaceSpec.v, RaceSpec3.v | ThreadFacts.v, ThreadLocks.v, RaceSim.v, RaceLoops.v, RacePar.v, RaceEll.v, RaceEll2.v, RaceEll3.v, RaceTranspose.v, RaceMain.v, RaceX2.v, RaceDense.v, RaceCsr.v, RaceCsr2.v, RaceGersh.v | RaceCheck.v, RaceCheck2.v, RaceCheck3.v, RaceCheck4.v, RaceCheck5.v | PropsRace.v |
| digits of values in files | MmFpModel.v | MmFpModel.v (is_single, is_double) | MmFpFacts.v, MmFpMat.v | MmFpCheck.v | PropsMmFp.v |
| small functions | EllpackModel.v, CsrModel.v, MemModel.v | EllpackSpec.v, CsrSpec.v | MiscFacts.v, EllblockFnorm2.v | EllpackCheck.v, CsrCheck.v | PropsMisc.v |
| ellblock, add_norm | EllblockAddNormModel.v | EllblockSpec.v, EllblockAddNormSpec.v | EllblockAddNorm.v, EllblockAddNormTotal.v | EllblockAddNormCheck.v | PropsEllblockAddNorm.v |
| ellblock, submatrix | EllblockSubModel.v | EllblockSubSpec.v | EllblockSub.v | EllblockSubCheck.v | PropsEllblockSub.v |
| submatrices, graphs | SubModel.v | SubSpec.v | Sub{Index,Block,Same,Adj,Group}.v | SubCheck.v | PropsSub.v |
| Matrix Market files | MmModel.v | MmSpec.v | MmFacts.v | MmCheck.v | PropsMm.v |

Model files contain no proofs, Props files contain nothing but theorem statements
(each closed by `exact`), `Print Assumptions` and instances (`Example`) showing
that a concrete, non-trivial state meets the hypotheses.
`tools/` holds the generators of properties.jsonl, MANIFEST.json, the Props files
and this file, and the runner of the seeded bugs (`seeded/LOG.jsonl`).

## 3. Properties

| id | property | model and proof | status |
|----|----------|-----------------|--------|
| C01 | ellpack: set_row / get_row round trip | set_row, get_row on flat arrays; loop invariant, frame lemma for ROWMAJOR | proved (1 theorems).  |
| C02 | ellpack: bml_set_element followed by bml_get_element | set_element, get_element; case analysis on the row | partial (5 theorems). False as stated: rows with at most 2 entries get a duplicate entry (refuted theorem). The remaining cases are proved. |
| C03 | ellpack: import from dense / export to dense round trip | import, export; loop invariants | proved (1 theorems).  |
| C04 | ellpack: bml_add computes alpha*A + beta*B | add with ix/jx/x workspace; invariant: ix all zero between rows of a thread | proved (3 theorems).  |
| C05 | ellpack: bml_multiply_AB computes the matrix product | multiply_AB; same workspace invariant, sums reassociated | proved (1 theorems).  |
| C06 | ellpack: bml_multiply computes alpha*A*B + beta*C | multiply through copies and multiply_AB | proved (5 theorems). C a different object than A and B; false when all three are the same object (refuted theorem). |
| C07 | ellpack: bml_multiply_x2 returns X^2 and the traces of X and X^2 | multiply_x2 with traces | proved (1 theorems).  |
| C08 | Thresholding: bound on the elementwise error and idempotence | threshold in three formats; error bound over R | proved (9 theorems). ellpack and csr: error bound, preservation above t, idempotence of threshold (ellpack also threshold_new), and for ellpack the bounds for add and multiply_AB, over the real numbers. csr threshold_new is C27. dense: threshold error bound, preservation, idempotence. |
| C09 | ellpack: parallel transpose gives the transpose under every schedule | transpose_new as atomic insertions in any order; permutation invariance | proved (2 theorems). ellpack and csr |
| C10 | ellpack/csr: in-place transpose | in-place transpose, row level; invariant on processed prefixes | partial (3 theorems). csr: proved for every pattern. ellpack: proved when the symmetrised pattern fits in M; refuted when only the result fits (cyclic permutation with M = 1). |
| C11 | bml_trace_mult(A,B) is the trace of A*B | trace_mult in all formats; counterexamples | partial (9 theorems). csr: proved. ellpack: trace_mult is the elementwise sum, equal to tr(AB) only for symmetric B; refuted in general, and an empty row of B is an uninitialised read. dense: elementwise sum, equal to tr(AB) for symmetric B, refuted in general. |
| C12 | bml_trace is the sum of the diagonal | trace in all formats; sum over the schedule | proved (5 theorems). ellpack, csr, dense for every schedule; ellblock and distributed2d (every number of tasks, every order of the reduction) as well. |
| C13 | bml_add_identity and bml_scale_add_identity | add_identity, scale_add_identity; loop invariants | partial (7 theorems). csr: proved. ellpack: proved when every row has a stored diagonal or a free slot; a full row without a diagonal is out of bounds (refuted theorem). dense: proved. |
| C14 | bml_scale, bml_copy: exact element-wise meaning and independence of the copy | scale, copy; loop invariants | partial (16 theorems). ellpack and csr: scale, copy_new proved; csr copy stops with an error when a row of the target is too small (proved exactly when, with a witness). dense: proved. |
| C15 | bml_reorder conjugates by the permutation | reorder; permutation of rows, then of columns | partial (3 theorems). ellpack. dense: refuted (only the columns move, in the inverse direction); what it computes is proved. |
| C16 | Norm functions | norm functions; reductions over any schedule | partial (15 theorems). ellpack and dense: proved. csr: sum_AB and sum_squares2 proved for rows of at most table_max entries (the hash table grows no further). dense sum_squares_submatrix differs from the other formats (refuted). ellblock: row sums and Frobenius norm proved. |
| C17 | bml_fnorm2 is the Frobenius norm of A-B | fnorm2; reductions, interleaving of a shared temporary in dense | partial (6 theorems). ellpack: proved for equal M, equal empty rows and no stored zeros in A; three refuted cases. dense: proved for traces without interleaving inside an iteration; a race on the shared temporary is refuted. |
| C18 | bml_gershgorin bounds every eigenvalue | gershgorin over R; classical Gershgorin argument on the scan postcondition | proved (5 theorems). ellpack, csr, dense (schedules and max/min reductions) and distributed2d (every number of tasks, every order of the reductions), ellblock (any block sizes); real eigenvalues. |
| C19 | bml_gershgorin returns the Gershgorin extremes | scan postcondition: extreme disc ends | partial (13 theorems). ellpack and csr: exact unless every disc ends below DBL_MIN; refuted for the matrix (-1) (emax starts at DBL_MIN, the smallest positive double). dense: same as the other formats. distributed2d: same, on every grid. ellblock: same partial theorem and refutation. |
| C20 | bml_normalize maps the spectrum into [0,1] | normalize over R; spectrum mapped by the affine function | partial (10 theorems). csr: proved when the bounds differ. ellpack: in addition every row needs a stored diagonal or a free slot; the 1x1 identity has equal bounds (division by zero). dense: proved when the bounds differ. distributed2d: proved when the bounds differ. ellblock: proved for blocks of one size, the own default sizes and room for the diagonal block of every block row; equal bounds refuted. |
| C21 | bml_element_multiply_AB is the elementwise product | element_multiply; workspace invariant | proved (3 theorems). ellpack and csr dense: proved. |
| C22 | ellpack structural invariant over every history of API calls | programs over a store of matrices; induction over the program | partial (4 theorems). invariant proved for every guarded program over 22 API calls; refuted without the guard (set_element duplicates, overflow past M). |
| C23 | Domain decomposition partitions the rows | default_domain, update_domain; arithmetic | proved (4 theorems). default domain (sequential, distributed) and update_domain; integers unbounded, minLocalExtent/maxLocalExtent not modelled |
| C24 | csr: bml_set_element / bml_get_element behave like a map for every history | csr rows with capacities; refinement of histories to a map | proved (2 theorems). single calls and every history of calls from the zero matrix. |
| C25 | csr: bml_add computes alpha*A + beta*B | csr add; freed arrays are a distinct state | partial (4 theorems). proved when no row has to grow; refuted otherwise (use of a freed array), and refuted for A == B. |
| C26 | csr: multiplication | csr products with hash tables; refinement | proved (4 theorems). multiply_AB, multiply_x2 for every input; the alpha/beta variants inherit the restriction of csr add. |
| C27 | csr: bml_threshold_new returns the thresholded matrix | csr threshold_new | partial (3 theorems). proved when each row keeps at most one entry; refuted otherwise. |
| C28 | csr hash table behaves as a finite map | hash table with chaining in arrays; refinement of histories to a finite map | partial (2 theorems). proved for all histories up to capacity and all table sizes up to 174762; larger sizes read past the array of sizes (refuted). |
| C29 | Internal BLAS replacement gemm is correct | gemm_internal; nested loop invariants for the four cases | proved (5 theorems). All four N/T combinations, all sizes, alpha, beta. Padding (lda > rows) and conjugation for flag C are refuted in separate theorems. |
| C30 | dense: products | dense products through gemm | partial (6 theorems). multiply, multiply_AB, multiply_x2 proved for N > 0; N = 0 is rejected with an error; multiply_adjust_AB stores the transpose of the product (refuted theorem). |
| C31 | dense: elementwise operations, transposes, thresholds, getters/setters | dense loops over cells, any schedule | proved (15 theorems). Every listed function, any schedule of its parallel loops. With A == B bml_add gives alpha(1+beta)A (refuted theorem for the aliased call). |
| C32 | Format conversion preserves the matrix | convert between formats through rows; refinement; block ellpack as source and target | proved (9 theorems). Exact between any two of dense, ellpack, csr and ellblock, for ellpack with M >= N, and there and back. Outside the statement: with M < N every conversion to ellpack overruns its arrays (c32_convert_ellpack_overruns). distributed2d: conversion of the blocks keeps the matrix. |
| C33 | Format independence | same program on two formats; relation between stores; a program means a function on matrices (ProgSpec.v), which every format refines, block ellpack included | partial (30 theorems). dense, ellpack, csr: per call and for whole programs, and what the programs compute; ellblock: the same programs compute the same numbers unless they multiply elementwise or add to a transposed or squared matrix. Refuted for trace_mult, the norm of add_norm, the threshold argument with dense, and the elementwise product in ellblock. |
| C34 | bml_extract_submatrix / bml_assign_submatrix | extract/assign submatrix | partial (14 theorems). extract: proved for ellpack, csr, dense. assign: dense proved; ellpack and csr proved into a block without stored entries, refuted otherwise (a second entry is appended). ellblock: whole blocks are extracted and assigned; proved for blocks with the sizes of the stored defaults and, for assign, rows without blocks; refuted otherwise (the result takes its size from the defaults, not from the request; other block sizes run past the block; assign puts a second block beside an existing one). |
| C35 | Graph functions: adjacency structure | adjacency arrays; counting and offsets | partial (6 theorems). proved when all rows store their diagonal or none does, both bases, any schedules; refuted otherwise (only row 0 is inspected): wrong offsets or writes outside. The variant for listed nodes is proved; its 1-based form needs one extra element (refuted without). |
| C36 | Graph functions: bml_group_matrix is independent of the schedule | group_matrix with per-thread markers, any schedule | partial (3 theorems). no wrong connection for any schedule; all connections when every thread runs at most one row; refuted for threads that run several rows (the marker array is never reset). The code path for IBM compilers resets it and is proved for every schedule. |
| C37 | distributed2d: Cannon multiplication | Cannon as message-passing program; Hoare logic per round, sum reindexed modulo p | proved (3 theorems). For every p x p grid, block size, interleaving of the tasks, and all three block formats: alpha A B + beta C when no nonzero element is thresholded. With a threshold the sparse formats lose partial products (refuted theorem). |
| C38 | distributed2d: bml_get_row, bml_set_row | get_row/set_row on a grid | partial (4 theorems). set_row proved; get_row is right on 1 and 4 tasks and wrong on every larger grid in every format (refuted theorem). |
| C39 | distributed2d: bml_add_identity, bml_scale_add_identity, bml_identity_matrix, bml_set_diagonal | constructors and diagonal on a grid | partial (7 theorems). identity, zero and set_diagonal proved; add_identity and scale_add_identity add the identity to every block, refuted on every grid of more than one task. |
| C40 | distributed2d: transpose, trace, norms, Gershgorin | transposes as exchange programs; sums over the grid reindexed | proved (22 theorems). transposes (every execution), trace, sums, elementwise operations, gershgorin, normalize, Frobenius norm: value for the global matrix, every grid. Besides: trace_mult of csr blocks refuted, add_norm of csr blocks not implemented. |
| C41 | distributed2d: import/export of dense matrices | import/export through the blocks | partial (5 theorems). Row-major import, export and the round trip in either order proved; column-major import transposes the blocks (refuted) and an imported matrix has no precision set. |
| C42 | ellblock: block sizes of a new matrix add up to the requested size, whatever was allocated before | global state of the block-size cache; histories of constructor calls | partial (7 theorems). Refuted as stated: the default block sizes of the first matrix are used for every later one, so a later matrix has the size of the first (c42_size_refuted, for all N, n) or the call stops; a first call of bml_noinit_matrix stops. Proved: the first matrix is right; what a whole history of constructor calls produces (c42_history_actual); the identity. |
| C43 | ellblock: set_element / get_element / get_row behave like a map | heap of blocks; histories of set_element | proved (9 theorems). Every history of set_element calls on a matrix without stale pointers (what constructors, import and copy produce), any block sizes; with enough room it never stops, otherwise the exact outcome when a row is full. For other calls in between see C46. |
| C44 | ellblock: bml_set_row replaces the row | set_row over blocks | partial (4 theorems). Refuted: elements of the new row that are not above the threshold keep their old value, and a row with more blocks than slots is written into the next row or past the end. Proved: what it computes (c44_set_row_actual) and the claim for rows that were zero. |
| C45 | ellblock: products and traces | block products with kernels of size 1..6; workspace of blocks | partial (11 theorems). multiply_AB and multiply_x2 proved for every well-formed input with blocks of at most 6 rows, any schedule, including the outcome when a row is full; trace(X^2) refuted for blocks of different sizes and proved for equal sizes. alpha A B + beta C proved for blocks of one size, or a new C with any sizes. |
| C46 | ellblock: transpose followed by other operations | pointers kept in slots; aliasing after transpose | partial (5 theorems). The in-place transpose itself is proved for every well-formed matrix with room. Refuted: a following set_element may stop and a following bml_add overwrites another block; the same after bml_clear and bml_multiply_x2 (use of freed memory). |
| C47 | bml_multiply_adjust_AB terminates | adjust_AB while loop; no fuel suffices | partial (3 theorems). terminates after one pass if the exact product fits, otherwise diverges (general theorem and concrete witness). |
| C48 | MatrixMarket write/read round trip | files as lists of triples; composition of writer and reader | proved (20 theorems). Any writer followed by any reader into an empty matrix, for all matrices and any value rendering fmt with fmt 0 = 0 (exact rendering: fmt = identity); room in the rows is required for ellpack and MB >= NB for ellblock. Beyond the property: symmetric files are read correctly by ellpack and csr only; the digits written do not restore every double (refuted). |
| C49 | bml_adjungate_triangle | adjungate with locks, any schedule | partial (5 theorems). dense: both triangles proved for any conjugation. ellpack: proved when the target triangle holds no entries and M >= N, any schedule; refuted when it holds entries (duplicates) and when M < N (lock array overrun). csr: the function is not implemented. |
| C50 | OpenMP row loops are schedule independent | equality of stored rows for any two schedules | proved (8 theorems). ellpack and csr multiply_AB, multiply_x2, element_multiply (and ellpack add, csr threshold) give identical stored rows for all schedules; the other parallel loops are proved correct for every schedule in their own property. |
| C51 | bml_set_diagonal / bml_get_diagonal | set/get diagonal | partial (4 theorems). ellpack and csr. dense: proved. |
| C52 | Constructors | constructors | partial (16 theorems). ellpack and csr; csr get_element does not check the column (refuted). dense: constructors proved; get_element accepts out-of-range indices (refuted). The random constructors of ellpack and csr are proved too. |
| C53 | Sparsity and bandwidth introspection | counting over rows | proved (11 theorems). dense, ellpack, csr and distributed2d, thresholds >= 0 (keep 0 = false); ellblock counts in C61. |
| C54 | csr structural invariant over every history of API calls | programs over a store of csr matrices; induction over the program | partial (1 theorems). invariant and absence of undefined behaviour for every guarded program over 25 csr API calls; the guards exclude the defects of C25, C27, C34. |
| C55 | csr: row and dense-array round trips | csr import/export, rows | proved (3 theorems).  |
| C56 | Message passing: exchange programs | message-passing semantics; every execution of matched exchanges ends in the same state | proved (2 theorems).  |
| C57 | Process grid of distributed2d | rank/coordinate arithmetic, integer square root loop | proved (3 theorems).  |
| C58 | ellblock: addition | ellblock add; sizes of the reused blocks | partial (11 theorems). Proved when every kept block fits the slot it is put in, in particular for blocks of one size. Refuted otherwise (heap overflow); add_identity refuted for converted matrices whose number of slots differs from the default. add_norm: proved that it returns when the slots exist, the matrix and the number it does return; that the number is the squared norm is refuted (squares of block sums), blocks of B without a slot in A crash (refuted), blocks of more than 25 elements overrun (refuted). |
| C59 | ellblock: copy, scale, threshold, transpose into a new matrix, clear | ellblock elementwise operations on heaps | proved (7 theorems). In-place threshold is stated with the room its merging of slots needs; blocks may have different sizes. copy_new stops when a block has 10 or more rows. |
| C60 | ellblock: import, export, conversion, blocks | ellblock import/export/convert | proved (5 theorems). Import into default sizes of N rows (see C42 for other sizes). |
| C61 | ellblock: reductions | ellblock reductions | partial (11 theorems). trace, trace_mult (c45), sum_squares, sum_squares2, sparsity, bandwidth proved. bml_sum_AB adds absolute values (refuted, actual result proved); bml_fnorm2 reads an uninitialised pointer when a block row of one matrix is empty (refuted). |
| C62 | Core+halo submatrices: index, extraction, assembly | core+halo index lists, extraction and assembly | partial (7 theorems). index list, extraction, assembly and round trip proved when the rows read hold at least one entry; an empty row is refuted (uninitialised vector). A row with too many kept elements is written before the length check (refuted). |
| C63 | Matrices distributed by rows over MPI ranks | lists of one matrix per rank, MPI_Allgatherv on the flat arrays, MPI_Allreduce in any order; each operation's row loop restricted to the rank's rows, proved through schedules over any set of rows | partial (41 theorems). proved for ellpack and dense; refuted for bml_add_dense with more than one rank (byte offset); bml_trace_mult and bml_fnorm2 need rows stored in both matrices, as on one rank; a product needs its second factor on every rank |
| C64 | Diagonalisation | the code around LAPACK with SYEV/HEEVR as a parameter and its contract as hypothesis on the arrays the code passes; export, transpose and import lemmas of each format | partial (14 theorems). proved for real symmetric matrices where the rows (blocks) of the eigenvectors fit; refuted for complex matrices: the vectors returned are the conjugates of the eigenvectors, because the row-major array is given to LAPACK as a column-major one; ellpack with M < N overruns, csr stops when the target rows are short. LAPACK itself is a parameter with a stated contract |
| C65 | Inverse | the code around LAPACK with GETRF/GETRI as a parameter and its contract as hypothesis; the inverse of the transpose is the transpose of the inverse | partial (6 theorems). proved where the rows of the inverse fit; refuted: ellpack with M < N loses elements, a singular matrix is not reported. LAPACK itself is a parameter with a stated contract |
| C66 | Typed element getters | the loops of bml_elemental_ellpack.c with the row whose index array is read as a parameter; induction over the slots; counterexample by computation | partial (7 theorems). proved for dense and for ellpack in single real precision; refuted for ellpack in the three other precisions (the column indices of row 0 are searched instead of those of row i) and for csr and ellblock (no case in the dispatch) |
| C67 | Fortran interface: arrays, indices, matrix variables | Fortran array descriptors (base, offset, strides, extents), wrappers on top of the format-independent model, matrix variables as pointers into a heap; invariant over all sequences of calls | partial (21 theorems). proved for whole square arrays, all formats but ellblock, all sequences of the modelled calls; refuted for array sections (the elements behind the first one in memory are taken) and for arrays with fewer columns than rows (read beyond the end) |
| C68 | Fortran interface: names and codes | tables of codes and names; case analysis; induction over strings for the file names | partial (11 theorems). codes sent are proved; refuted: bml_get_type stops on csr and calls distributed matrices csr, bml_get_distribution_mode stops on graph_distributed, bml_get_element_precision stops on complex matrices |
| C69 | Rounding errors | The kernels of the dense, gemm and ellpack models again, with a function rnd applied to every sum and product (FpModel.v; with the identity for rnd they are the exact models, which is proved). A calculus of 'y differs from x by at most ((1+u)^k - 1) m' closed under rounded sums, products, folds and reductions; the loops by the invariants of the exact proofs. Below the smallest normal number lam the error of a rounding is at most u lam: every operation adds lam to the size m. rnd is instantiated with Flocq's rounding to nearest even in double and single precision with gradual underflow. | proved (27 theorems). rounding, with gradual underflow, is a function on the reals: overflow is excluded, and so are fused operations and reassociation by the compiler |
| C70 | Schedules and rounding | The rows of the ellpack sum and product are computed each by one thread in a fixed order: equal for any two schedules. The trace of a 3x3 matrix in double precision has two values: refuted; a bound for the difference. | partial (5 theorems). refuted for reductions (the trace in double precision depends on the number of threads and on the order of combining them), with a bound of the difference; proved for the ellpack sum and product |
| C71 | Memory: no leak, no double free | A heap of live objects and a computation type that allocates and frees, with free of a dead object undefined and an arbitrary allocator (MemModel.v); each function transcribed to the mallocs and frees it makes. A separation-style triple: objects taken, objects given, objects lost, next to any others (MemSpec.v); one lemma per function, and programs over the functions by induction. | partial (24 theorems). proved for programs over import, export, copy, product, sum, inverse, diagonalization, reorder, set_row in the dense, ellpack and csr formats and for the distributed2d functions listed, with any allocator and any growth of csr rows; refuted for ellpack transpose_new and adjacency_group, csr extract_submatrix, distributed2d export, get_row and convert, each with the exact number of objects lost. Which functions allocate what is transcribed from the code; contents are not in this model |
| C72 | Memory of ellblock matrices | The blocks are objects in the heap of the ellblock model. orphans = live blocks - slots in use, an integer; a calculus of 'if it returns' over the model's loops shows for each function that it does not change, or is 0 for a new matrix; deallocate leaves exactly the orphans. | partial (5 theorems). deallocate, the constructors, set_element, set_row, set_diagonal, set_block, scale, threshold, clear and the in-place transpose are proved to keep the property; refuted for add and copy. multiply, the five arrays of the struct and the work arrays are not covered |
| C73 | Integer overflow in indices and sizes | A small expression language with int (32 bits, overflow undefined) and size_t (modulo 2^64) and the usual conversions; the index and size expressions of the code as terms of it, and for which N, M they have the value meant. | partial (11 theorems). sizes written sizeof first are right for all dimensions; indices and sizes computed in int first are right exactly up to 2^31 elements and refuted beyond. The expressions are transcribed site by site; the rest of the development keeps its unbounded indices |
| C74 | Data races | Programs over single reads, writes, lock and unlock; a machine that interleaves them (ThreadModel.v); the row loops of ellpack and loops of dense and csr written with it (RaceModel.v, RaceModel2.v, RaceModel3.v). A discipline of owners (cell of a thread, of a lock, or read only) implies for every interleaving no race, no crash, no deadlock, completion, and the result of the run with atomic iterations or critical sections (ThreadFacts.v, ThreadLocks.v); each loop is shown to follow it and to compute what its model of C03-C12 computes. Loops with races are refuted by an interleaving. | partial (33 theorems). proved for ellpack multiply_AB, multiply_x2, add, threshold, import, export, trace, sum_squares and transpose_new (locks), and for dense transpose (in place and new), triangle transpose/adjungate, threshold (in place and new), element_multiply, trace, trace_mult and sum_squares, and for csr scale_inplace, threshold, sum_squares (whole and submatrix), trace, trace_mult, export and gershgorin; refuted for adjungate 'u', the banded constructors of ellpack and csr (rand), multiply_AB with C == B, multiply_x2 with X2 == X or a row that does not fit, and dense fnorm2 (shared temp); csr loops that make rows grow, and the loops of ellblock, are not done at this level |
| C75 | Values in Matrix Market files | fprintf with d significant digits is rounding to nearest in radix 10, fscanf rounding to nearest in the binary format (Flocq, MmFpModel.v). A number nearer to x than half the distance to its neighbours is rounded to x (general lemma for both radices), from which exactness for float and stability for double follow; lifted to matrices with the round trips of C48. | partial (12 theorems). float: proved for every value, read directly or through a double, and for whole matrices in four formats. double: refuted (15 digits, 16 in ellblock, are too few: 1 + 2^-52 comes back as 1); proved instead: the error is at most 6e-15 of the value, whole numbers below 10^15 are exact, and with 15 digits the second file is equal to the first (values in the normal range). Correct rounding of fprintf/fscanf is assumed |

## 4. Simplifications

* No rounding, except in FpModel.v (C69, C70): REAL_T is an exact commutative ring;
  complex conjugation is a parameter where it matters (adjungate).
* FpModel.v: every sum and product of reals is rounded by a function with a relative
  error bound above the smallest normal number and an absolute one below it (gradual
  underflow); no overflow, no fused operations.
* MemModel.v: which objects are allocated and freed, not their contents; the rows of a
  csr matrix that grow and the branches of bml_multiply are arbitrary parameters; parallel
  loops in order; malloc does not fail.
* `int` is unbounded; sizes and indices are natural numbers (no negative index, no
  overflow of `i*M+j`). C73 says for which sizes this is right: arrays of at most 2^31
  elements; IntModel.v has the expressions with their C types.
* Parallel loops: one iteration (or one critical section) is one step, in any order.
  C74 proves for nine ellpack, ten dense and eight csr loops that this is what every interleaving of single
  accesses gives.  There, accesses are sequentially consistent (right for programs
  without data races), one order of evaluation is used inside a C statement, and
  omp_set_lock/omp_unset_lock are atomic.
* Host code path: no USE_OMP_OFFLOAD, CUSPARSE, ROCSPARSE, HYPRE, MAGMA, MKL_GPU.
* A loop bound read from memory that the body does not change is read once.
* dense: SCAL and AXPY are modelled by their definition; GEMM is the library's own
  replacement `bml_gemm_internal` (C29), an external BLAS is not modelled.
* csr: the arrays cols_ and vals_ of a row are one array of slots; memory not yet
  written is a distinct value, reading it is UB; a freed array is UB to read (C25).
* ellblock: the build without BML_ELLBLOCK_USE_MEMPOOL; blocks live in a heap per
  matrix, freed blocks are distinct; block kernels of size 1..6 only (others are UB
  in the code: the function pointer is not set).
* distributed2d: local blocks are matrices in sequential mode of one of the formats
  dense, ellpack, csr; csr's three messages per matrix are one message; blocks have
  room for all their columns (`dist_roomy`), which is what the constructors give.
* Row distribution: the matrices of all ranks are a list; ranks compute one after the
  other between collective calls (they share nothing); a collective call is one
  function of all ranks' buffers.  Ranks holding stale rows hold well-formed ones.
* Matrix Market: a file is the list of its entries, not its text; `fmt v` is the
  value read back after writing v.
* Deallocation is modelled only where its order matters (csr add, ellblock).
* Calls with aliased arguments (A == B) are modelled where the code reads after
  writing (dense add, csr add, ellpack multiply); elsewhere arguments are distinct
  objects.

## 5. Not modelled

* Floating-point rounding outside C69 and C70, overflow of floating-point
  numbers, exhausted memory, signals.
* LAPACK: parameters with a contract (C64, C65); MAGMA, ScaLAPACK, ELPA not at all.
* GPU and vendor-library paths; Fortran wrappers beyond those of C67, C68; the C preprocessing that
  instantiates the four precisions (the model is one instance, generic in REAL_T).
* bml_init/shutdown, logging, printing, version strings, bml_free.
* `bml_print_*`.
* ellblock: reorder ("not implemented" in the code).
* The float computation of minLocalExtent/maxLocalExtent of the default domain.

## 6. Defects found in the code

Stated by `_refuted` or `_actual` theorems, or by the hypotheses a `_partial` theorem
needs; those marked (reading) were found while reading and are not stated in Coq.

* ellpack `set_element` appends a duplicate to rows with at most two entries (C02).
* ellpack `multiply` with A, B, C the same object (C06).
* ellpack in-place transpose needs room for the symmetrised pattern (C10).
* `trace_mult` of ellpack, dense, distributed csr blocks is not tr(AB); ellpack
  reads uninitialised memory for an empty row of B (C11, C40).
* ellpack `add_identity`, `scale_add_identity`, `set_diagonal` on a full row without
  a diagonal write past the row (C13, C51).
* csr `copy` into smaller rows stops (C14).  dense `reorder` moves columns only, in
  the inverse direction (C15).  `fnorm2` of ellpack and dense (C17).
* `gershgorin`: the maximum starts at DBL_MIN, the smallest positive double, so
  matrices with all discs on the negative axis get a positive bound (C19), in every
  format and on every grid; `normalize` divides by zero for equal bounds (C20).
* csr `add` reads a freed array when a row grows, and is wrong for A == B (C25);
  csr `threshold_new` is wrong for rows that keep two entries (C27); the csr hash
  table reads past its table of sizes beyond 174762 entries (C28).
* gemm: lda > rows and conjugation (C29).  dense `multiply_adjust_AB` stores the
  transpose (C30).  dense `add` with A == B (C31).
* Conversion to ellpack with M < N overruns (C32).  Results depend on the format for
  trace_mult, add_norm and dense thresholds (C33).
* ellpack/csr `assign_submatrix` and ellpack `adjungate` append duplicates; the lock
  array of `adjungate` has M entries but is indexed by rows (C34, C49).
* adjacency inspects only row 0 for a diagonal; its 1-based variant writes one
  element too far (C35); `group_matrix` never resets its markers (C36); `submatrix`
  functions read uninitialised vectors for empty rows and check lengths after
  writing (C62).
* distributed2d: thresholded Cannon product (C37), `get_row` on more than 4 tasks
  (C38), `add_identity` on more than one task (C39), column-major import and the
  missing precision of imported matrices (C41), `add_norm` of csr blocks (C40).
* ellblock: the block sizes of the first matrix are used for every later one (C42);
  `set_row` keeps old elements and overruns (C44); trace of X^2 for blocks of
  different sizes (C45); stale pointers after transpose, clear, multiply_x2 (C46);
  `add` into smaller blocks, `add_norm` returns a sum of fourth powers, allocates no
  blocks and has work arrays of 25 elements per block (C58); `sum_AB` adds absolute values, `fnorm2` reads an
  uninitialised pointer (C61); `extract_submatrix` returns a matrix of the size of
  the stored defaults instead of B_N, with blocks too small when the sizes differ, and
  `assign_submatrix` adds a second block of the same column (C34).
* `bml_multiply_adjust_AB` does not terminate when the product does not fit (C47).
* Matrix Market: digits written do not restore every double; "symmetric" is ignored
  by dense and mishandled by ellblock (C48).
* dense `add` on more than one rank offsets a `void *` by localDispl bytes instead of
  elements (C63).
* `diagonalize` of a complex Hermitian matrix returns the conjugates of the
  eigenvectors: never eigenvectors unless the matrix is symmetric; ellpack overruns
  when they do not fit M, csr stops (C64).  `inverse` ignores LAPACK's info, so a
  singular matrix is not reported; ellpack loses elements (C65).
* The typed element getters of ellpack in double real, single complex and double
  complex precision search the indices of row 0 instead of row i (ellpack/
  bml_elemental_ellpack.c 69, 103, 137); csr and ellblock have no case (C66).
* Fortran: `bml_import_from_dense` of an array section takes wrong elements and of an
  array with fewer columns than rows reads beyond its end; results assigned to an operand
  of `bml_transpose`, `bml_copy_new` are computed from a freed matrix (C67);
  `bml_get_type` expects code 5 for csr (C: 4), so csr matrices stop the program and
  distributed ones are called csr; `bml_get_distribution_mode` expects 3 for
  graph_distributed (C: 2); `bml_get_element_precision` stops on complex (C68).
* Data races (C74): ellpack adjungate reads A_nnz[i] and row i without the lock under
  which other threads append to row i (the code asks "check for race conditions"; the
  appended columns happen to be skipped); rand() is called in the parallel loop of the
  banded constructors of ellpack and csr; multiply_AB with C == B and multiply_x2 with
  X2 == X read rows that other threads write, and the result depends on the order;
  multiply_x2 writes the surplus elements of a row that does not fit into the next row
  before it tests ll > M; dense fnorm2 declares temp shared, a race for every schedule that
  gives two threads work.
* Matrix Market files (C75): 15 significant digits (16 in ellblock) do not determine a
  double (17 would); a matrix of doubles is not restored by write and read.
* Memory that is never freed: the locks of ellpack `transpose_new` (bml_transpose_
  ellpack_typed.c 61), the vertex copy of ellpack `adjacency_group` (bml_submatrix_
  ellpack.c 446), two arrays per row in csr `extract_submatrix` (bml_submatrix_csr_
  typed.c 44-45), the send buffer of distributed2d `export`, the row part of distributed2d
  `get_row`, the first local matrix of distributed2d `convert` (C71); ellblock blocks
  dropped by `add` or overwritten counts in `copy` (C72).
* (reading) further memory that is never freed: the trace array of ellblock `multiply`
  with A == B (bml_multiply_ellblock_typed.c 202, 213), work arrays of ellblock
  `add_norm` (238, 245) and `multiply_adjust_AB` (671), `bsizes` of distributed2d
  `read`/`write`, the row and column communicators of distributed2d matrices, the
  default block sizes when set a second time.
* C73: from N = 46341 on, `N*N` overflows `int` in every `get_sparsity` (also of sparse
  formats), in dense clear, diagonalize and inverse, and in dense indices; `N*M` in ellpack
  clear and ellblock copy beyond 2^31. The arrays themselves are allocated with the right size.
* C02: `bml_set_element_new` (ellpack) does not look whether the element is stored: a stored
  element gets a second entry and keeps its old value for `get_element`; in a full row it
  writes into the next row, in the last row past the end of the arrays.
* (reading) the Fortran interface binds `bml_get_C` to a C function that does not
  exist; csr
  `bml_mpi_recv` overflows rows and `bcast` asserts a non-zero matrix; `bml_fnorm2` has no distributed2d or ellblock case;
  `bml_restore_domain` does not restore minLocalExtent and maxLocalExtent.

## 7. Trusted base

* The Coq 8.16.1 kernel (`coqc`, `vm_compute`); `coqchk` can recheck the compiled
  files.  No axiom of our own, no Admitted, no disabled check, no plugin beyond
  those the standard library's tactics load.
* The reading of the C source recorded, with file and line numbers, in the comments
  of the model files, and the specification files listed in section 2.
* Axioms: `Print Assumptions` stands under every property theorem.  The theorems not
  listed below are "Closed under the global context".  The others are statements over
  Coq's real numbers and depend on axioms of the standard library only:

* `ClassicalDedekindReals.sig_forall_dec`, `ClassicalDedekindReals.sig_not_dec`, `Classical_Prop.classic`, `FunctionalExtensionality.functional_extensionality_dep`: `c69_rnd32`, `c69_rnd64`, `c69_rnd64_relative_refuted`, `c69_without_underflow`, `c70_trace_order_refuted`, `c70_trace_schedule_refuted`, `c75_csr_single`, `c75_dense_single`, `c75_double_16_refuted`, `c75_double_error`, `c75_double_refuted`, `c75_double_stable`, `c75_double_whole`, `c75_ellblock_single`, `c75_ellpack_double`, `c75_ellpack_single`, `c75_single`, `c75_single_via_double`.
* `ClassicalDedekindReals.sig_forall_dec`, `ClassicalDedekindReals.sig_not_dec`, `FunctionalExtensionality.functional_extensionality_dep`: `c16_ellblock_fnorm`, `c40_fnorm`.
* `ClassicalDedekindReals.sig_forall_dec`, `FunctionalExtensionality.functional_extensionality_dep`: `c08_csr_threshold_bound`, `c08_dense_threshold_bound`, `c08_ellpack_add_bound`, `c08_ellpack_multiply_AB_bound`, `c08_ellpack_threshold_bound`, `c08_ellpack_threshold_new_bound`, `c16_ellblock_row_sums`, `c18_csr_gershgorin_bounds`, `c18_dense_gershgorin_bounds`, `c18_dist2d_gershgorin_bounds`, `c18_ellblock_gershgorin_bounds`, `c18_ellpack_gershgorin_bounds`, `c19_csr_accumulate_offdiag`, `c19_csr_gershgorin_exact_partial`, `c19_csr_gershgorin_refuted`, `c19_dense_accumulate_offdiag`, `c19_dense_gershgorin_exact_partial`, `c19_dense_gershgorin_refuted`, `c19_dist2d_gershgorin_exact_partial`, `c19_dist2d_gershgorin_refuted`, `c19_ellblock_gershgorin_partial`, `c19_ellblock_gershgorin_refuted`, `c19_ellpack_accumulate_offdiag`, `c19_ellpack_gershgorin_exact_partial`, `c19_ellpack_gershgorin_refuted`, `c20_csr_normalize_equal_bounds_refuted`, `c20_csr_normalize_partial`, `c20_dense_normalize_equal_bounds_refuted`, `c20_dense_normalize_partial`, `c20_dist2d_normalize_equal_bounds_refuted`, `c20_dist2d_normalize_partial`, `c20_ellblock_normalize_equal_bounds_refuted`, `c20_ellblock_normalize_partial`, `c20_ellpack_normalize_equal_bounds_refuted`, `c20_ellpack_normalize_partial`, `c53_dist2d_sparsity`, `c53_sparsity`, `c63_gershgorin_bounds`, `c63_gershgorin_partial`, `c63_normalize`, `c69_dense_add`, `c69_dense_multiply`, `c69_dense_scale`, `c69_dense_sum_squares`, `c69_dense_trace`, `c69_ellpack_add`, `c69_ellpack_add_bound`, `c69_ellpack_multiply_AB`, `c69_ellpack_multiply_AB_bound`, `c69_ellpack_sum_squares`, `c69_ellpack_trace`, `c69_gam_first_order`, `c69_gemm`, `c69_without_rounding_dense_add`, `c69_without_rounding_dense_multiply`, `c69_without_rounding_dense_scale`, `c69_without_rounding_dense_sum_squares`, `c69_without_rounding_dense_trace`, `c69_without_rounding_ell_add`, `c69_without_rounding_ell_multiply_AB`, `c69_without_rounding_ell_sum_squares`, `c69_without_rounding_ell_trace`, `c69_without_rounding_gemm`, `c70_add_schedule`, `c70_multiply_AB_schedule`, `c70_trace_schedules_close`, `c74_csr_gershgorin`.
