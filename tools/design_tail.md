## 4. Simplifications

* No rounding, except in FpModel.v (C69, C70): REAL_T is an exact commutative ring;
  complex conjugation is a parameter where it matters (adjungate).
* FpModel.v: every sum and product of reals is rounded by a function with a relative
  error bound above the smallest normal number and an absolute one below it (gradual
  underflow); no overflow, no fused operations.
* MemModel.v: which objects are allocated and freed, not their contents; the rows of a
  csr matrix that grow and the branches of bml_multiply are arbitrary parameters; parallel
  loops in order; malloc does not fail.
* `int` is unbounded; sizes and indices are natural numbers (no negative index, no
  overflow of `i*M+j`). C73 says for which sizes this is right: arrays of at most 2^31
  elements; IntModel.v has the expressions with their C types.
* Parallel loops: one iteration (or one critical section) is one step, in any order.
  C74 proves for nine ellpack, ten dense and eight csr loops that this is what every interleaving of single
  accesses gives.  There, accesses are sequentially consistent (right for programs
  without data races), one order of evaluation is used inside a C statement, and
  omp_set_lock/omp_unset_lock are atomic.
* Host code path: no USE_OMP_OFFLOAD, CUSPARSE, ROCSPARSE, HYPRE, MAGMA, MKL_GPU.
* A loop bound read from memory that the body does not change is read once.
* dense: SCAL and AXPY are modelled by their definition; GEMM is the library's own
  replacement `bml_gemm_internal` (C29), an external BLAS is not modelled.
* csr: the arrays cols_ and vals_ of a row are one array of slots; memory not yet
  written is a distinct value, reading it is UB; a freed array is UB to read (C25).
* ellblock: the build without BML_ELLBLOCK_USE_MEMPOOL; blocks live in a heap per
  matrix, freed blocks are distinct; block kernels of size 1..6 only (others are UB
  in the code: the function pointer is not set).
* distributed2d: local blocks are matrices in sequential mode of one of the formats
  dense, ellpack, csr; csr's three messages per matrix are one message; blocks have
  room for all their columns (`dist_roomy`), which is what the constructors give.
* Row distribution: the matrices of all ranks are a list; ranks compute one after the
  other between collective calls (they share nothing); a collective call is one
  function of all ranks' buffers.  Ranks holding stale rows hold well-formed ones.
* Matrix Market: a file is the list of its entries, not its text; `fmt v` is the
  value read back after writing v.
* Deallocation is modelled only where its order matters (csr add, ellblock).
* Calls with aliased arguments (A == B) are modelled where the code reads after
  writing (dense add, csr add, ellpack multiply); elsewhere arguments are distinct
  objects.

## 5. Not modelled

* Floating-point rounding outside C69 and C70, overflow of floating-point
  numbers, exhausted memory, signals.
* LAPACK: parameters with a contract (C64, C65); MAGMA, ScaLAPACK, ELPA not at all.
* GPU and vendor-library paths; Fortran wrappers beyond those of C67, C68; the C preprocessing that
  instantiates the four precisions (the model is one instance, generic in REAL_T).
* bml_init/shutdown, logging, printing, version strings, bml_free.
* `bml_print_*`.
* ellblock: reorder ("not implemented" in the code).
* The float computation of minLocalExtent/maxLocalExtent of the default domain.

## 6. Defects found in the code

Stated by `_refuted` or `_actual` theorems, or by the hypotheses a `_partial` theorem
needs; those marked (reading) were found while reading and are not stated in Coq.

* ellpack `set_element` appends a duplicate to rows with at most two entries (C02).
* ellpack `multiply` with A, B, C the same object (C06).
* ellpack in-place transpose needs room for the symmetrised pattern (C10).
* `trace_mult` of ellpack, dense, distributed csr blocks is not tr(AB); ellpack
  reads uninitialised memory for an empty row of B (C11, C40).
* ellpack `add_identity`, `scale_add_identity`, `set_diagonal` on a full row without
  a diagonal write past the row (C13, C51).
* csr `copy` into smaller rows stops (C14).  dense `reorder` moves columns only, in
  the inverse direction (C15).  `fnorm2` of ellpack and dense (C17).
* `gershgorin`: the maximum starts at DBL_MIN, the smallest positive double, so
  matrices with all discs on the negative axis get a positive bound (C19), in every
  format and on every grid; `normalize` divides by zero for equal bounds (C20).
* csr `add` reads a freed array when a row grows, and is wrong for A == B (C25);
  csr `threshold_new` is wrong for rows that keep two entries (C27); the csr hash
  table reads past its table of sizes beyond 174762 entries (C28).
* gemm: lda > rows and conjugation (C29).  dense `multiply_adjust_AB` stores the
  transpose (C30).  dense `add` with A == B (C31).
* Conversion to ellpack with M < N overruns (C32).  Results depend on the format for
  trace_mult, add_norm and dense thresholds (C33).
* ellpack/csr `assign_submatrix` and ellpack `adjungate` append duplicates; the lock
  array of `adjungate` has M entries but is indexed by rows (C34, C49).
* adjacency inspects only row 0 for a diagonal; its 1-based variant writes one
  element too far (C35); `group_matrix` never resets its markers (C36); `submatrix`
  functions read uninitialised vectors for empty rows and check lengths after
  writing (C62).
* distributed2d: thresholded Cannon product (C37), `get_row` on more than 4 tasks
  (C38), `add_identity` on more than one task (C39), column-major import and the
  missing precision of imported matrices (C41), `add_norm` of csr blocks (C40).
* ellblock: the block sizes of the first matrix are used for every later one (C42);
  `set_row` keeps old elements and overruns (C44); trace of X^2 for blocks of
  different sizes (C45); stale pointers after transpose, clear, multiply_x2 (C46);
  `add` into smaller blocks, `add_norm` returns a sum of fourth powers, allocates no
  blocks and has work arrays of 25 elements per block (C58); `sum_AB` adds absolute values, `fnorm2` reads an
  uninitialised pointer (C61); `extract_submatrix` returns a matrix of the size of
  the stored defaults instead of B_N, with blocks too small when the sizes differ, and
  `assign_submatrix` adds a second block of the same column (C34).
* `bml_multiply_adjust_AB` does not terminate when the product does not fit (C47).
* Matrix Market: digits written do not restore every double; "symmetric" is ignored
  by dense and mishandled by ellblock (C48).
* dense `add` on more than one rank offsets a `void *` by localDispl bytes instead of
  elements (C63).
* `diagonalize` of a complex Hermitian matrix returns the conjugates of the
  eigenvectors: never eigenvectors unless the matrix is symmetric; ellpack overruns
  when they do not fit M, csr stops (C64).  `inverse` ignores LAPACK's info, so a
  singular matrix is not reported; ellpack loses elements (C65).
* The typed element getters of ellpack in double real, single complex and double
  complex precision search the indices of row 0 instead of row i (ellpack/
  bml_elemental_ellpack.c 69, 103, 137); csr and ellblock have no case (C66).
* Fortran: `bml_import_from_dense` of an array section takes wrong elements and of an
  array with fewer columns than rows reads beyond its end; results assigned to an operand
  of `bml_transpose`, `bml_copy_new` are computed from a freed matrix (C67);
  `bml_get_type` expects code 5 for csr (C: 4), so csr matrices stop the program and
  distributed ones are called csr; `bml_get_distribution_mode` expects 3 for
  graph_distributed (C: 2); `bml_get_element_precision` stops on complex (C68).
* Data races (C74): ellpack adjungate reads A_nnz[i] and row i without the lock under
  which other threads append to row i (the code asks "check for race conditions"; the
  appended columns happen to be skipped); rand() is called in the parallel loop of the
  banded constructors of ellpack and csr; multiply_AB with C == B and multiply_x2 with
  X2 == X read rows that other threads write, and the result depends on the order;
  multiply_x2 writes the surplus elements of a row that does not fit into the next row
  before it tests ll > M; dense fnorm2 declares temp shared, a race for every schedule that
  gives two threads work.
* Matrix Market files (C75): 15 significant digits (16 in ellblock) do not determine a
  double (17 would); a matrix of doubles is not restored by write and read.
* Memory that is never freed: the locks of ellpack `transpose_new` (bml_transpose_
  ellpack_typed.c 61), the vertex copy of ellpack `adjacency_group` (bml_submatrix_
  ellpack.c 446), two arrays per row in csr `extract_submatrix` (bml_submatrix_csr_
  typed.c 44-45), the send buffer of distributed2d `export`, the row part of distributed2d
  `get_row`, the first local matrix of distributed2d `convert` (C71); ellblock blocks
  dropped by `add` or overwritten counts in `copy` (C72).
* (reading) further memory that is never freed: the trace array of ellblock `multiply`
  with A == B (bml_multiply_ellblock_typed.c 202, 213), work arrays of ellblock
  `add_norm` (238, 245) and `multiply_adjust_AB` (671), `bsizes` of distributed2d
  `read`/`write`, the row and column communicators of distributed2d matrices, the
  default block sizes when set a second time.
* C73: from N = 46341 on, `N*N` overflows `int` in every `get_sparsity` (also of sparse
  formats), in dense clear, diagonalize and inverse, and in dense indices; `N*M` in ellpack
  clear and ellblock copy beyond 2^31. The arrays themselves are allocated with the right size.
* C02: `bml_set_element_new` (ellpack) does not look whether the element is stored: a stored
  element gets a second entry and keeps its old value for `get_element`; in a full row it
  writes into the next row, in the last row past the end of the arrays.
* (reading) the Fortran interface binds `bml_get_C` to a C function that does not
  exist; csr
  `bml_mpi_recv` overflows rows and `bcast` asserts a non-zero matrix; `bml_fnorm2` has no distributed2d or ellblock case;
  `bml_restore_domain` does not restore minLocalExtent and maxLocalExtent.

## 7. Trusted base

* The Coq 8.16.1 kernel (`coqc`, `vm_compute`); `coqchk` can recheck the compiled
  files.  No axiom of our own, no Admitted, no disabled check, no plugin beyond
  those the standard library's tactics load.
* The reading of the C source recorded, with file and line numbers, in the comments
  of the model files, and the specification files listed in section 2.
* Axioms: `Print Assumptions` stands under every property theorem.  The theorems not
  listed below are "Closed under the global context".  The others are statements over
  Coq's real numbers and depend on axioms of the standard library only:

@AXIOMS@
