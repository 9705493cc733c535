{
 "C01": "set_row, get_row on flat arrays; loop invariant, frame lemma for ROWMAJOR",
 "C02": "set_element, get_element; case analysis on the row",
 "C03": "import, export; loop invariants",
 "C04": "add with ix/jx/x workspace; invariant: ix all zero between rows of a thread",
 "C05": "multiply_AB; same workspace invariant, sums reassociated",
 "C06": "multiply through copies and multiply_AB",
 "C07": "multiply_x2 with traces",
 "C08": "threshold in three formats; error bound over R",
 "C09": "transpose_new as atomic insertions in any order; permutation invariance",
 "C10": "in-place transpose, row level; invariant on processed prefixes",
 "C11": "trace_mult in all formats; counterexamples",
 "C12": "trace in all formats; sum over the schedule",
 "C13": "add_identity, scale_add_identity; loop invariants",
 "C14": "scale, copy; loop invariants",
 "C15": "reorder; permutation of rows, then of columns",
 "C16": "norm functions; reductions over any schedule",
 "C17": "fnorm2; reductions, interleaving of a shared temporary in dense",
 "C18": "gershgorin over R; classical Gershgorin argument on the scan postcondition",
 "C19": "scan postcondition: extreme disc ends",
 "C20": "normalize over R; spectrum mapped by the affine function",
 "C21": "element_multiply; workspace invariant",
 "C22": "programs over a store of matrices; induction over the program",
 "C23": "default_domain, update_domain; arithmetic",
 "C24": "csr rows with capacities; refinement of histories to a map",
 "C25": "csr add; freed arrays are a distinct state",
 "C26": "csr products with hash tables; refinement",
 "C27": "csr threshold_new",
 "C28": "hash table with chaining in arrays; refinement of histories to a finite map",
 "C29": "gemm_internal; nested loop invariants for the four cases",
 "C30": "dense products through gemm",
 "C31": "dense loops over cells, any schedule",
 "C32": "convert between formats through rows; refinement; block ellpack as source and target",
 "C33": "same program on two formats; relation between stores; a program means a function on matrices (ProgSpec.v), which every format refines, block ellpack included",
 "C34": "extract/assign submatrix",
 "C35": "adjacency arrays; counting and offsets",
 "C36": "group_matrix with per-thread markers, any schedule",
 "C37": "Cannon as message-passing program; Hoare logic per round, sum reindexed modulo p",
 "C38": "get_row/set_row on a grid",
 "C39": "constructors and diagonal on a grid",
 "C40": "transposes as exchange programs; sums over the grid reindexed",
 "C41": "import/export through the blocks",
 "C42": "global state of the block-size cache; histories of constructor calls",
 "C43": "heap of blocks; histories of set_element",
 "C44": "set_row over blocks",
 "C45": "block products with kernels of size 1..6; workspace of blocks",
 "C46": "pointers kept in slots; aliasing after transpose",
 "C47": "adjust_AB while loop; no fuel suffices",
 "C48": "files as lists of triples; composition of writer and reader",
 "C49": "adjungate with locks, any schedule",
 "C50": "equality of stored rows for any two schedules",
 "C51": "set/get diagonal",
 "C52": "constructors",
 "C53": "counting over rows",
 "C54": "programs over a store of csr matrices; induction over the program",
 "C55": "csr import/export, rows",
 "C56": "message-passing semantics; every execution of matched exchanges ends in the same state",
 "C57": "rank/coordinate arithmetic, integer square root loop",
 "C58": "ellblock add; sizes of the reused blocks",
 "C59": "ellblock elementwise operations on heaps",
 "C60": "ellblock import/export/convert",
 "C61": "ellblock reductions",
 "C62": "core+halo index lists, extraction and assembly",
 "C63": "lists of one matrix per rank, MPI_Allgatherv on the flat arrays, MPI_Allreduce in any order; each operation's row loop restricted to the rank's rows, proved through schedules over any set of rows",
 "C64": "the code around LAPACK with SYEV/HEEVR as a parameter and its contract as hypothesis on the arrays the code passes; export, transpose and import lemmas of each format",
 "C65": "the code around LAPACK with GETRF/GETRI as a parameter and its contract as hypothesis; the inverse of the transpose is the transpose of the inverse",
 "C66": "the loops of bml_elemental_ellpack.c with the row whose index array is read as a parameter; induction over the slots; counterexample by computation",
 "C67": "Fortran array descriptors (base, offset, strides, extents), wrappers on top of the format-independent model, matrix variables as pointers into a heap; invariant over all sequences of calls",
 "C68": "tables of codes and names; case analysis; induction over strings for the file names",
 "C69": "The kernels of the dense, gemm and ellpack models again, with a function rnd applied to every sum and product (FpModel.v; with the identity for rnd they are the exact models, which is proved). A calculus of 'y differs from x by at most ((1+u)^k - 1) m' closed under rounded sums, products, folds and reductions; the loops by the invariants of the exact proofs. Below the smallest normal number lam the error of a rounding is at most u lam: every operation adds lam to the size m. rnd is instantiated with Flocq's rounding to nearest even in double and single precision with gradual underflow.",
 "C70": "The rows of the ellpack sum and product are computed each by one thread in a fixed order: equal for any two schedules. The trace of a 3x3 matrix in double precision has two values: refuted; a bound for the difference.",
 "C71": "A heap of live objects and a computation type that allocates and frees, with free of a dead object undefined and an arbitrary allocator (MemModel.v); each function transcribed to the mallocs and frees it makes. A separation-style triple: objects taken, objects given, objects lost, next to any others (MemSpec.v); one lemma per function, and programs over the functions by induction.",
 "C72": "The blocks are objects in the heap of the ellblock model. orphans = live blocks - slots in use, an integer; a calculus of 'if it returns' over the model's loops shows for each function that it does not change, or is 0 for a new matrix; deallocate leaves exactly the orphans.",
 "C73": "A small expression language with int (32 bits, overflow undefined) and size_t (modulo 2^64) and the usual conversions; the index and size expressions of the code as terms of it, and for which N, M they have the value meant.",
 "C74": "Programs over single reads, writes, lock and unlock; a machine that interleaves them (ThreadModel.v); the row loops of ellpack and loops of dense and csr written with it (RaceModel.v, RaceModel2.v, RaceModel3.v). A discipline of owners (cell of a thread, of a lock, or read only) implies for every interleaving no race, no crash, no deadlock, completion, and the result of the run with atomic iterations or critical sections (ThreadFacts.v, ThreadLocks.v); each loop is shown to follow it and to compute what its model of C03-C12 computes. Loops with races are refuted by an interleaving.",
 "C75": "fprintf with d significant digits is rounding to nearest in radix 10, fscanf rounding to nearest in the binary format (Flocq, MmFpModel.v). A number nearer to x than half the distance to its neighbours is rounded to x (general lemma for both radices), from which exactness for float and stability for double follow; lifted to matrices with the round trips of C48."
}