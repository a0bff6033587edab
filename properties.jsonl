{"id": "C01", "title": "Array views free each owned block exactly once and never a borrowed one", "statement": "For any sequence of view operations (empty construction, allocation, wrapping, taking control, moving, moving to const, resizing, re-wrapping, destruction) in which the client never hands the same block to two owners, no block is freed twice, a block that the client only lent (wrapped) is never freed by a view, and when all views are destroyed every block some view owned has been freed.", "quantifier": "all finite histories of view operations over any number of views and blocks", "why_tests_cant": "Holds over arbitrarily long operation histories; a test runs a few fixed ones.", "anchors": ["include/arrayview.hpp: ArrayView, ~ArrayView, resize, wrap, take_control, move_to_const"]}
{"id": "C02", "title": "Moving a matrix storage transfers the matrix and empties the source views", "statement": "After moving a matrix storage (or moving it to const) the destination holds the same arrays and counts as the source had, the source's array views are empty and non-owning, and exactly one owner per block remains; sharing with const yields the same matrix and takes no ownership. The plain move leaves the source's counts unchanged (so the source claims rows it no longer has), move_to_const zeroes them.", "quantifier": "all matrix storages", "why_tests_cant": "Holds over arbitrarily long operation histories; a test runs a few fixed ones.", "anchors": ["src/rawsrmatrixutils.cpp: SRMatrixStorage, move_to_const, share_with_const", "include/arrayview.hpp: move_to_const"]}
{"id": "C03", "title": "Deep copy of a raw matrix is equal, disjoint and destroyed exactly once", "statement": "Copying a full matrix gives arrays with the same contents in freshly allocated blocks, so later writes to either do not show in the other; destroying the copy frees each of its blocks exactly once and nothing else.", "quantifier": "all well-formed full matrices, all later writes", "why_tests_cant": "Holds over arbitrarily long operation histories; a test runs a few fixed ones.", "anchors": ["src/rawsrmatrixutils.cpp: copyRawBSRMatrix, alignedDestroyRawBSRMatrix"]}
{"id": "C04", "title": "Coordinate to sparse-row conversion preserves the matrix", "statement": "Converting a row-sorted coordinate matrix to sparse-row form gives monotone row pointers from 0 to the number of entries, entry (i,j) of the result is v iff (i,j,v) is in the input, columns are in the input's order (so increasing when the input is sorted), and the diagonal index of each row holding a diagonal entry points at it; no access is out of bounds.", "quantifier": "all coordinate lists sorted by row with matching row pointers", "why_tests_cant": "Only sampled inputs can be tested; a wrong index shows up only on particular sparsity patterns.", "anchors": ["src/coomatrix.cpp: COOMatrix::convertToCSR, getSRMatrixFromCOO"]}
{"id": "C05", "title": "Coordinate to block-row conversion preserves the matrix in both storage orders", "statement": "Converting a coordinate matrix whose size is a multiple of the block size to block-row form gives a matrix whose scalar entry (i,j) is the input entry or zero, in row-major and column-major blocks alike, with monotone block-row pointers and no block column repeated in a block row.", "quantifier": "all coordinate lists whose first block row is non-empty, all block sizes, both storage orders", "why_tests_cant": "Only sampled inputs can be tested; a wrong index shows up only on particular sparsity patterns.", "anchors": ["src/coomatrix.cpp: COOMatrix::convertToBSR"]}
{"id": "C06", "title": "Matrix Market reading yields the file's entries with consistent row pointers", "statement": "Reading a coordinate file whose every row has an entry gives the file's entries converted to 0-based indices, sorted by row and column, with row pointers delimiting exactly the entries of each row. For a file with an empty row the row pointers are not correct.", "quantifier": "all entry lists and sizes", "why_tests_cant": "Only sampled inputs can be tested; a wrong index shows up only on particular sparsity patterns.", "anchors": ["src/coomatrix.cpp: COOMatrix::readMatrixMarket"]}
{"id": "C07", "title": "Matrix Market header recognition", "statement": "The header line is classified by storage format, scalar type and symmetry exactly as its words say; unrecognised words are rejected. 'pattern' matrices are not recognised although they are listed.", "quantifier": "all header lines", "why_tests_cant": "The set of header lines is infinite and rejection must hold for every unknown word.", "anchors": ["src/coomatrix.cpp: getMMDescription"]}
{"id": "C08", "title": "Sparse matrix-vector product equals the dense product", "statement": "The product routine writes into each output entry the sum over columns of matrix entry times input entry, for scalar and block matrices and both storage orders, touches nothing else, stays in bounds and gives the same result for every assignment of rows to threads.", "quantifier": "all well-formed matrices, vectors and thread schedules", "why_tests_cant": "The number of thread interleavings is unbounded and the operating system picks them; a test sees a handful.", "anchors": ["src/blas/matvecs.cpp: BLAS_BSR::matrix_apply, BLAS_CSR::matrix_apply"]}
{"id": "C09", "title": "Generalised product computes a*A*x + b*y", "statement": "The three-operand product writes a*A*x + b*y into the output, for scalar and block matrices, for every row schedule, also when output and y are the same array.", "quantifier": "all well-formed matrices, scalars, vectors and schedules", "why_tests_cant": "The number of thread interleavings is unbounded and the operating system picks them; a test sees a handful.", "anchors": ["src/blas/matvecs.cpp: BLAS_BSR::gemv3, BLAS_CSR::gemv3"]}
{"id": "C10", "title": "Column-storage product agrees with row-storage product under any atomic order", "statement": "The generalised product on a column-stored matrix gives a*A*x + b*y for every interleaving of its atomic additions.", "quantifier": "all well-formed column-stored matrices, vectors, interleavings", "why_tests_cant": "The number of thread interleavings is unbounded and the operating system picks them; a test sees a handful.", "anchors": ["src/blas/matvecs.cpp: bcsc_gemv3"]}
{"id": "C11", "title": "Row to column storage conversion preserves the matrix", "statement": "Converting block rows to block columns gives a matrix with the same entry at every position, columns delimited by monotone pointers, row indices increasing within each column, and diagonal pointers at the diagonal entries; the 1-based variant is the same shifted by one.", "quantifier": "all well-formed row-stored matrices", "why_tests_cant": "Only sampled inputs can be tested; a wrong index shows up only on particular sparsity patterns.", "anchors": ["src/scmatrix.cpp: convert_BSR_to_BSC, convert_BSR_to_BSC_1based"]}
{"id": "C12", "title": "Column adjacency lists exactly the nonzeros of each column", "statement": "The column adjacency of a matrix lists for each column, in increasing row order, each row having a nonzero there together with that nonzero's position, and nothing else.", "quantifier": "all well-formed matrices", "why_tests_cant": "Only sampled inputs can be tested; a wrong index shows up only on particular sparsity patterns.", "anchors": ["src/adjacency.cpp: ColumnAdjacency::compute"]}
{"id": "C13", "title": "Assembly by concurrent block updates adds up", "statement": "After any interleaving of atomic block updates and diagonal block updates, each stored entry equals its initial value plus the sum of the contributions addressed to it, and all other entries are unchanged; a submitted block overwrites exactly its own positions.", "quantifier": "all matrices, multisets of updates and interleavings of their element additions", "why_tests_cant": "The number of thread interleavings is unbounded and the operating system picks them; a test sees a handful.", "anchors": ["src/blockmatrices.ipp: submitBlock, updateBlock, updateDiagBlock"]}
{"id": "C14", "title": "Updating a rectangular block of a scalar matrix", "statement": "Adding a dense bsi-by-bsj block to a scalar sparse matrix adds entry (i,j) of the block to matrix entry (starti+i, startj+j). True only if bsi = bsj: otherwise the buffer is indexed with the wrong stride.", "quantifier": "all block shapes and positions", "why_tests_cant": "Only sampled inputs can be tested; a wrong index shows up only on particular sparsity patterns.", "anchors": ["src/blockmatrices.ipp: BSRMatrix<scalar,index,1>::updateBlock, submitBlock"]}
{"id": "C15", "title": "Zeroing and scaling operations touch exactly the intended entries", "statement": "Setting all values, or the diagonal blocks, to zero and scaling all values by a factor change exactly these values and keep the pattern.", "quantifier": "all well-formed matrices and factors", "why_tests_cant": "Only sampled inputs can be tested; a wrong index shows up only on particular sparsity patterns.", "anchors": ["src/blockmatrices.ipp: setAllZero, setDiagZero, scaleAll"]}
{"id": "C16", "title": "Triangular views denote the lower and upper triangle", "statement": "The lower (upper) triangular view of a matrix with a sorted pattern and a full diagonal has at (i,j) the matrix entry if j<=i (j>=i) and zero otherwise, its nonzero count is the number of entries visible, and the counts of both views add up to the matrix's count plus the number of rows.", "quantifier": "all well-formed matrices with full diagonal", "why_tests_cant": "Only sampled inputs can be tested; a wrong index shows up only on particular sparsity patterns.", "anchors": ["src/rawsrmatrixutils.cpp: getLowerTriangularView, getUpperTriangularView"]}
{"id": "C17", "title": "Diagonal queries of scalar matrices", "statement": "The reported zero-diagonal row, count of zero diagonals, product, absolute sum, smallest and largest magnitude of the diagonal are those of the matrix's diagonal.", "quantifier": "all scalar matrices with full diagonal", "why_tests_cant": "Only sampled inputs can be tested; a wrong index shows up only on particular sparsity patterns.", "anchors": ["src/blockmatrices.ipp: zeroDiagonalRow, getNumZeroDiagonals, getDiagonalProduct, getDiagonalAbsSum, getAbsMin, getAbsMax"]}
{"id": "C18", "title": "Vector reordering round trip", "statement": "For a permutation, the inverse permutation vector really is its inverse; applying an ordering to a vector and then its inverse (either way round) restores the vector, for every block size, and the forward application puts old entry p(i) at place i.", "quantifier": "all permutations, block sizes and vectors", "why_tests_cant": "Only sampled inputs can be tested; a wrong index shows up only on particular sparsity patterns.", "anchors": ["src/reorderingscaling.cpp: Reordering::invertPermutationVector, applyOrdering(vector)"]}
{"id": "C19", "title": "Matrix reordering permutes entries and is undone by its inverse", "statement": "Forward reordering gives the matrix whose block (i,j) is the old block (rp(i),cp(j)) with columns sorted in each row; the inverse reordering restores the original entries.", "quantifier": "all matrices and permutation pairs", "why_tests_cant": "Only sampled inputs can be tested; a wrong index shows up only on particular sparsity patterns.", "anchors": ["src/reorderingscaling.cpp: Reordering::applyOrdering(matrix)"]}
{"id": "C20", "title": "Reordering keeps diagonal positions valid", "statement": "After a matrix has been reordered its diagonal indices still point at diagonal entries. False: they are left unchanged.", "quantifier": "all matrices and permutation pairs", "why_tests_cant": "Only sampled inputs can be tested; a wrong index shows up only on particular sparsity patterns.", "anchors": ["src/reorderingscaling.cpp: Reordering::applyOrdering(matrix)", "src/solverops_ilu0.cpp: ReorderedAsyncILU0_SRPreconditioner::compute"]}
{"id": "C21", "title": "Scaling round trip", "statement": "Forward scaling multiplies entry (i,j) by the row factor of i and the column factor of j; inverse scaling undoes it when all factors are nonzero; the vector versions do the same for one side.", "quantifier": "all matrices, vectors and factors", "why_tests_cant": "Only sampled inputs can be tested; a wrong index shows up only on particular sparsity patterns.", "anchors": ["src/reorderingscaling.cpp: ReorderingScaling::applyScaling"]}
{"id": "C22", "title": "Solving through a reordered and scaled system solves the original one", "statement": "If the reordered (and scaled) matrix is B and the inner solve returns y with B y equal to the transformed right-hand side, then the back-transformed y solves the original system.", "quantifier": "all matrices, permutations, scalings, right-hand sides", "why_tests_cant": "Only sampled inputs can be tested; a wrong index shows up only on particular sparsity patterns.", "anchors": ["src/solverops_ilu0.cpp: ReorderedAsyncILU0_SRPreconditioner::apply", "src/reorderingscaling.cpp"]}
{"id": "C23", "title": "Row sorting sorts indices and keeps index-block pairs together", "statement": "Sorting a block row by column index yields increasing indices and the same multiset of (index, block) pairs, for every block size.", "quantifier": "all index and value arrays, block sizes", "why_tests_cant": "Only sampled inputs can be tested; a wrong index shows up only on particular sparsity patterns.", "anchors": ["src/helper_algorithms.cpp: sortBlockInnerDimension"]}
{"id": "C24", "title": "Inclusive scan", "statement": "The scan turns an array into its running sums, in place or into another array, and touches nothing else.", "quantifier": "all arrays", "why_tests_cant": "Only sampled inputs can be tested; a wrong index shows up only on particular sparsity patterns.", "anchors": ["src/helper_algorithms.cpp: inclusive_scan"]}
{"id": "C25", "title": "Parallel prefix sum", "statement": "The parallel exclusive prefix sum gives the sums of all earlier entries. Holds for one to four threads when every thread has work; fails for five threads (too few merge levels) and reads out of bounds when a thread has no work.", "quantifier": "all arrays, lengths and thread counts", "why_tests_cant": "The number of thread interleavings is unbounded and the operating system picks them; a test sees a handful.", "anchors": ["src/utils/prefix_sum.cpp: prefix_sum"]}
{"id": "C26", "title": "Level schedules are valid", "statement": "For a matrix with symmetric sorted pattern and full diagonal the level computation terminates and returns bounds starting at 0, ending at the row count and strictly increasing, such that no two different rows of the same level are coupled and every row depends only on rows of earlier levels below it; for an unsymmetric pattern it may report an error but never loops forever.", "quantifier": "all sparsity patterns", "why_tests_cant": "Termination and validity are over all patterns; non-termination cannot be observed by a test.", "anchors": ["src/levelschedule.cpp: computeLevels"]}
{"id": "C27", "title": "ILU positions enumerate exactly the needed products", "statement": "For each nonzero (i,j) the computed position lists contain exactly the pairs of positions of (i,k) and (k,j) with k<min(i,j) and both nonzeros, each once, in increasing k.", "quantifier": "all matrices with sorted pattern and full diagonal", "why_tests_cant": "Only sampled inputs can be tested; a wrong index shows up only on particular sparsity patterns.", "anchors": ["src/ilu_pattern.cpp: compute_ILU_positions_CSR_CSR"]}
{"id": "C28", "title": "Fixed points of the factorisation sweep are the incomplete factors", "statement": "Stored factor values are left unchanged by a factorisation sweep iff the product of the unit lower and upper factors equals the (scaled) matrix at every position of the pattern, for scalar and block matrices, provided pivots are invertible.", "quantifier": "all matrices, scalings and factor values", "why_tests_cant": "Equality is over all real matrices and patterns.", "anchors": ["src/kernels/kernels_ilu0_factorize.hpp", "src/async_ilu_factor.cpp", "src/async_blockilu_factor.cpp"]}
{"id": "C29", "title": "One sequential sweep computes the exact incomplete factorisation from any initial guess", "statement": "With sequential factorisation a single sweep gives the exact ILU(0) factors whatever initial values the factors had, and further sweeps change nothing; bit for bit the same for every initial guess.", "quantifier": "all matrices, initial guesses and sweep counts >= 1", "why_tests_cant": "Independence of all initial guesses for all patterns cannot be sampled.", "anchors": ["src/async_ilu_factor.cpp: scalar_ilu0_factorize, executeILU0Factorization", "src/async_blockilu_factor.cpp: block_ilu0_factorize"]}
{"id": "C30", "title": "Exact factors are stable under asynchronous sweeps", "statement": "If the factor storage holds the exact factors, any asynchronous execution of any number of sweeps by any number of threads, with arbitrary interleaving and stale reads, leaves them unchanged.", "quantifier": "all thread counts, sweeps, task assignments and interleavings", "why_tests_cant": "The number of thread interleavings is unbounded and the operating system picks them; a test sees a handful.", "anchors": ["src/async_ilu_factor.cpp: executeILU0Factorization", "src/async_blockilu_factor.cpp: async_bilu0_sweeps"]}
{"id": "C31", "title": "Asynchronous factorisation converges finitely when sweeps are separated", "statement": "If each sweep completes before the next begins (any interleaving inside), after as many sweeps as the longest dependency chain the factors are exact. Without the separation, which the code does not enforce, no number of sweeps guarantees it.", "quantifier": "all matrices, thread counts, interleavings", "why_tests_cant": "The number of thread interleavings is unbounded and the operating system picks them; a test sees a handful.", "anchors": ["src/async_ilu_factor.cpp: executeILU0Factorization"]}
{"id": "C32", "title": "Factorisation residual is zero exactly for exact factors", "statement": "The reported nonlinear residual of the factors is zero iff the factors' product matches the matrix at all pattern positions.", "quantifier": "all matrices and factor values", "why_tests_cant": "Only sampled inputs can be tested; a wrong index shows up only on particular sparsity patterns.", "anchors": ["src/async_ilu_factor.cpp: scalar_ilu0_nonlinear_res", "src/async_blockilu_factor.cpp: block_ilu0_nonlinear_res"]}
{"id": "C33", "title": "Factor initialisation honours the requested option", "statement": "Requesting zero, original, SGS or no initialisation gives factors that are zero, the (scaled) matrix, the SGS factors (D+L)D^-1 and (D+U), or the previous values. For scalar matrices the zero option yields the original matrix instead, and scaled SGS initialisation reads the wrong scaling entries.", "quantifier": "all matrices, scalings and options", "why_tests_cant": "Only sampled inputs can be tested; a wrong index shows up only on particular sparsity patterns.", "anchors": ["src/async_ilu_factor.cpp: scalar_ilu0_factorize, fact_init_sgs, fact_init_original", "src/async_blockilu_factor.cpp"]}
{"id": "C34", "title": "Sequential ILU application solves L U z = r", "statement": "With sequential application and at least one sweep, applying the factorisation to r gives the z with (LU) z = r (with symmetric scaling S: S^-1 L U S^-1 z = r), for scalar and block matrices, independent of the previous contents of z and of work arrays.", "quantifier": "all factors with invertible pivots, right-hand sides, sweep counts >= 1", "why_tests_cant": "Only sampled inputs can be tested; a wrong index shows up only on particular sparsity patterns.", "anchors": ["src/solverops_ilu0.cpp: scalar_ilu0_apply, block_ilu0_apply", "src/kernels/kernels_ilu_apply.hpp"]}
{"id": "C35", "title": "Every advertised application initialisation works for ILU", "statement": "Applying an ILU preconditioner succeeds for every initialisation option the option parser accepts. False: the 'no initialisation' option always ends in an exception.", "quantifier": "all options and matrices", "why_tests_cant": "Only sampled inputs can be tested; a wrong index shows up only on particular sparsity patterns.", "anchors": ["src/solverops_ilu0.cpp: scalar_ilu0_apply, block_ilu0_apply", "include/async_initialization_decl.hpp"]}
{"id": "C36", "title": "Asynchronous triangular solves", "statement": "Asynchronous lower and upper sweeps leave the exact solution unchanged under every interleaving; with sweeps separated they reach it after as many sweeps as the longest dependency chain; without separation there is for every sweep count a legal schedule ending in a wrong result.", "quantifier": "all matrices, thread counts, sweep counts, interleavings", "why_tests_cant": "The number of thread interleavings is unbounded and the operating system picks them; a test sees a handful.", "anchors": ["src/solverops_ilu0.cpp: scalar_ilu0_apply, block_ilu0_apply"]}
{"id": "C37", "title": "Level-scheduled application equals the sequential one bit for bit", "statement": "For a valid level schedule, level-by-level forward and backward substitution gives the same result as the sequential substitution for every order and interleaving inside a level and for every arithmetic (including floating point).", "quantifier": "all matrices, valid level partitions, interleavings inside levels", "why_tests_cant": "The number of thread interleavings is unbounded and the operating system picks them; a test sees a handful.", "anchors": ["src/solverops_levels_ilu0.cpp: apply", "src/solverops_levels_sgs.cpp: apply, apply_relax"]}
{"id": "C38", "title": "Symmetric Gauss-Seidel application", "statement": "Sequential SGS application to r gives the z with (D+L) D^-1 (D+U) z = r, for scalar and block matrices; the forward half is always sequential.", "quantifier": "all matrices with invertible diagonal (blocks), right-hand sides, sweeps >= 1", "why_tests_cant": "Only sampled inputs can be tested; a wrong index shows up only on particular sparsity patterns.", "anchors": ["src/solverops_sgs.cpp: AsyncSGS_SRPreconditioner::apply, AsyncBlockSGS_SRPreconditioner::apply"]}
{"id": "C39", "title": "Relaxations keep exactly the solutions of A x = b", "statement": "A vector is left unchanged by Jacobi, Gauss-Seidel (chaotic), symmetric Gauss-Seidel and level-scheduled relaxation iff it solves A x = b; a solution stays unchanged under every asynchronous schedule and iteration count.", "quantifier": "all matrices with invertible diagonal, vectors, schedules, iteration counts", "why_tests_cant": "The number of thread interleavings is unbounded and the operating system picks them; a test sees a handful.", "anchors": ["src/kernels/kernels_relaxation.hpp", "src/relaxation_chaotic.cpp", "src/solverops_sgs.cpp: apply_relax", "src/solverops_jacobi.cpp: apply_relax"]}
{"id": "C40", "title": "Jacobi preconditioner and iteration", "statement": "Jacobi application gives D^-1 r; Jacobi relaxation performs x := x + D^-1(b - A x) simultaneously in all rows, at most the maximum number of iterations, and stops at the first iteration meeting a tolerance if checking is on.", "quantifier": "all matrices, vectors, tolerances, iteration limits", "why_tests_cant": "Only sampled inputs can be tested; a wrong index shows up only on particular sparsity patterns.", "anchors": ["src/solverops_jacobi.cpp"]}
{"id": "C41", "title": "Column-based backward Gauss-Seidel is the exact backward solve", "statement": "Applying the column-based backward Gauss-Seidel preconditioner with one thread gives the z with (D+U) z = r after any positive number of sweeps.", "quantifier": "all matrices with invertible diagonal", "why_tests_cant": "Only sampled inputs can be tested; a wrong index shows up only on particular sparsity patterns.", "anchors": ["src/solverops_sgs.cpp: CSC_BGS_Preconditioner::apply"]}
{"id": "C42", "title": "The identity preconditioner is the identity", "statement": "Applying no preconditioner copies the input to the output; relaxing with it changes nothing.", "quantifier": "all vectors", "why_tests_cant": "Trivial for one size; must hold for all.", "anchors": ["src/solverops_base.cpp: NoPreconditioner"]}
{"id": "C43", "title": "Preconditioner application has no memory", "statement": "Applying an SGS or ILU preconditioner with zero or Jacobi initialisation gives a result depending only on matrix, factors, right-hand side and schedule, not on earlier applications or the previous contents of the output.", "quantifier": "all application histories", "why_tests_cant": "Holds over arbitrarily long operation histories; a test runs a few fixed ones.", "anchors": ["src/solverops_sgs.cpp", "src/solverops_ilu0.cpp"]}
{"id": "C44", "title": "Recomputing a preconditioner forgets the old matrix", "statement": "Calling compute again after the matrix values changed gives the same factors as a fresh preconditioner, for every initialisation except 'none' (and for 'none' too when sequential with at least one sweep).", "quantifier": "all compute histories", "why_tests_cant": "Holds over arbitrarily long operation histories; a test runs a few fixed ones.", "anchors": ["src/solverops_ilu0.cpp: compute, setup_storage", "src/async_blockilu_factor.cpp"]}
{"id": "C45", "title": "Preconditioner names and types", "statement": "Every advertised preconditioner name maps to its own type, every other string is rejected with an error; two different names never give the same type.", "quantifier": "all strings", "why_tests_cant": "All strings cannot be enumerated.", "anchors": ["src/solverfactory.cpp: SRFactory::solverTypeFromString"]}
{"id": "C46", "title": "Factory dispatch is total and honours the sequential variants", "statement": "For every type, block size and storage order the factory either returns a preconditioner of the requested kind with factorisation/application threading as the name says, or throws; it never returns nothing.", "quantifier": "all types, block sizes (integers), storage orders", "why_tests_cant": "Block sizes range over all integers.", "anchors": ["src/solverfactory.cpp: create_srpreconditioner_of_type, create_preconditioner"]}
{"id": "C47", "title": "Sweep options", "statement": "The sweep-count normalisation of the PETSc interface turns a negative sequential symbol into the right sequential variant and leaves positive counts alone. With the sequential symbol for both counts any preconditioner is silently replaced by sequential ILU, and explicitly sequential ILU keeps a non-positive sweep count.", "quantifier": "all sweep counts and types", "why_tests_cant": "Only sampled inputs can be tested; a wrong index shows up only on particular sparsity patterns.", "anchors": ["src/blasted_petsc.cpp: setSweeps_checkSeq"]}
{"id": "C48", "title": "Preconditioner context list bookkeeping", "statement": "Over any sequence of appends the list's size equals the number of contexts and their order is last-in first; destroying the list frees each context exactly once and leaves it empty.", "quantifier": "all append/destroy histories", "why_tests_cant": "Holds over arbitrarily long operation histories; a test runs a few fixed ones.", "anchors": ["src/blasted_petsc.cpp: newBlastedDataList, appendBlastedDataContext, destroyBlastedDataList"]}
{"id": "C49", "title": "A user-supplied factory is used", "statement": "Setting up the solver stack with a user factory gives contexts using it. False below composite solvers: nested levels get a new default factory which is never freed.", "quantifier": "all solver trees", "why_tests_cant": "Solver trees are unbounded.", "anchors": ["src/blasted_petsc.cpp: setup_blasted_stack_ext"]}
{"id": "C50", "title": "Accumulated timings are the sums over contexts", "statement": "The total factorisation and application times are the sums over all contexts in the list.", "quantifier": "all lists", "why_tests_cant": "Holds over arbitrarily long operation histories; a test runs a few fixed ones.", "anchors": ["src/blasted_petsc.cpp: computeTotalTimes"]}
{"id": "C51", "title": "Approximate-inverse patterns and small systems", "statement": "The computed pattern of the (incomplete) sparse approximate inverse lists for each row exactly the unknown and equation positions implied by the matrix pattern, and gathering/scattering the small systems reads and writes the right entries.", "quantifier": "all matrices with full diagonal", "why_tests_cant": "Only sampled inputs can be tested; a wrong index shows up only on particular sparsity patterns.", "anchors": ["src/sai.cpp"]}
{"id": "C52", "title": "Diagonal dominance measures", "statement": "The reported lower/upper average and minimum diagonal dominance are those of the matrix, for every order of the reductions.", "quantifier": "all matrices, schedules", "why_tests_cant": "The number of thread interleavings is unbounded and the operating system picks them; a test sees a handful.", "anchors": ["src/matrix_properties.cpp: diagonal_dominance"]}
{"id": "C53", "title": "Maximum norm", "statement": "The maximum norm is the largest magnitude of the entries for every vector having an entry of at least the smallest normal magnitude; for the zero vector it is a tiny positive number instead of zero.", "quantifier": "all vectors, reduction orders", "why_tests_cant": "The number of thread interleavings is unbounded and the operating system picks them; a test sees a handful.", "anchors": ["src/blas/blas1.cpp: maxnorm"]}
{"id": "C54", "title": "Constructor flags reach the right members", "statement": "The preconditioner constructors store threading and diagnostics options as passed. False for the level-scheduled and reordered scalar ILU, which pass them in the wrong positions.", "quantifier": "all option values", "why_tests_cant": "Only sampled inputs can be tested; a wrong index shows up only on particular sparsity patterns.", "anchors": ["src/solverops_levels_ilu0.cpp", "src/solverops_ilu0.cpp"]}
{"id": "C55", "title": "Matrix construction from arrays", "statement": "A matrix built from a pattern reports the pattern's dimension and stores it; a matrix built by wrapping arrays reads only within them. False for the block version (dimension 0) and the scalar wrap constructor (reads one past the row pointers).", "quantifier": "all patterns", "why_tests_cant": "Only sampled inputs can be tested; a wrong index shows up only on particular sparsity patterns.", "anchors": ["src/blockmatrices.ipp: BSRMatrix constructors, setStructure"]}
{"id": "C56", "title": "Matrix comparison", "statement": "The element-wise equality test returns true iff all structure and values agree within the tolerance.", "quantifier": "all matrices", "why_tests_cant": "Only sampled inputs can be tested; a wrong index shows up only on particular sparsity patterns.", "anchors": ["src/blockmatrices.ipp: areEqual, isEqual"]}
{"id": "C57", "title": "ILU is a direct solver when there is no fill-in", "statement": "If eliminating the matrix creates no entry outside its pattern, setting up the ILU(0) preconditioner (with at least one sequential sweep) and applying it to r returns the exact solution z of A z = r, with or without symmetric scaling.", "quantifier": "all matrices with closed pattern, right-hand sides, sweep counts, chunk sizes, initialisations", "why_tests_cant": "Only sampled inputs can be tested; a wrong index shows up only on particular sparsity patterns.", "anchors": ["src/solverops_ilu0.cpp: compute, apply", "src/async_ilu_factor.cpp", "src/rawsrmatrixutils.cpp: getScalingVector"]}
{"id": "C58", "title": "Symmetric scaling gives a unit diagonal", "statement": "The scaling vector used by ILU(0), applied to both sides, makes every diagonal entry of the matrix one.", "quantifier": "all matrices with square-rootable non-zero diagonal", "why_tests_cant": "Only sampled inputs can be tested; a wrong index shows up only on particular sparsity patterns.", "anchors": ["src/rawsrmatrixutils.cpp: getScalingVector", "src/async_ilu_factor.cpp"]}
{"id": "C59", "title": "Reordered ILU preconditioning solves the original system", "statement": "Setting up the reordering ILU(0) preconditioner and applying it to r, when ILU(0) is a direct solver for the reordered matrix, returns the solution of the original system A z = r. False in general: the column ordering is applied to the result forwards instead of backwards, so it holds only when the column permutation is its own inverse.", "quantifier": "all matrices, row and column permutations, right-hand sides, sweep counts, chunk sizes, initialisations", "why_tests_cant": "Only sampled inputs can be tested; a wrong index shows up only on particular sparsity patterns.", "anchors": ["src/solverops_ilu0.cpp: ReorderedAsyncILU0_SRPreconditioner::compute, apply", "src/reorderingscaling.cpp"]}
{"id": "C60", "title": "Constructing from a raw matrix takes over its arrays", "statement": "A matrix constructed from a raw matrix has its contents, leaves the raw matrix null, and frees the arrays exactly once when destroyed. False for the scalar class: it nulls the raw matrix but never frees the arrays.", "quantifier": "all raw matrices and heaps", "why_tests_cant": "Only sampled inputs can be tested; a wrong index shows up only on particular sparsity patterns.", "anchors": ["src/blockmatrices.ipp: BSRMatrix(RawBSRMatrix&)", "include/blockmatrices.hpp"]}
{"id": "C61", "title": "PETSc options reach the preconditioner", "statement": "If setting up a preconditioner through the PETSc interface succeeds, the preconditioner is of the kind, block size, threading, sweep counts, chunk size, scaling and starting guesses the options ask for, and does not depend on the previous contents of uninitialised memory; with all options set to documented values and a supported block size it succeeds.", "quantifier": "all option databases, contexts and contents of uninitialised memory", "why_tests_cant": "Only sampled inputs can be tested; a wrong index shows up only on particular sparsity patterns.", "anchors": ["src/blasted_petsc.cpp: setupDataFromOptions, createNewPreconditioner, compute_preconditioner_blasted"]}
{"id": "C62", "title": "Repeated set-up through PETSc", "statement": "After a successful first set-up, any number of later set-ups reuse the same preconditioner, append their diagnostics in order and add up their times. A failed first set-up is not retried: False - the next call uses a null preconditioner.", "quantifier": "all histories of set-ups", "why_tests_cant": "Holds over arbitrarily long operation histories; a test runs a few fixed ones.", "anchors": ["src/blasted_petsc.cpp: compute_preconditioner_blasted, createNewPreconditioner, updatePreconditioner"]}
{"id": "C63", "title": "Relaxation is registered for the preconditioners that support it", "statement": "Setting up a shell registers the relaxation function exactly if the preconditioner asked for supports relaxation. False: the decision reads a member which is not yet initialised, so it depends on what the memory happened to contain.", "quantifier": "all shells, solver stacks and memory contents", "why_tests_cant": "The outcome depends on the contents of uninitialised memory; a test sees one of them.", "anchors": ["src/blasted_petsc.cpp: setup_localpreconditioner_blasted, newBlastedDataContext"]}
{"id": "C64", "title": "Approximate inverses are as good as their pattern allows", "statement": "If the small dense systems are solved in the least-squares sense, every row of the full sparse approximate inverse M minimises the squared distance of that row of M A from the identity over all matrices with the pattern of A. If they are solved exactly, M A = I (full) or M A agrees with I on the pattern of A (incomplete). In the columns that are not equations of a row of the full approximate inverse, M A is zero.", "quantifier": "all matrices with full diagonal, block sizes, layouts, dense solvers and schedules", "why_tests_cant": "The number of thread interleavings is unbounded and the operating system picks them; a test sees a handful.", "anchors": ["src/sai.cpp: left_SAI_pattern, left_incomplete_SAI_pattern, compute_SAI"]}
{"id": "C65", "title": "Reading a matrix file into a PETSc matrix", "statement": "Both file readers return a PETSc matrix having exactly the entries of the coordinate file and zeros elsewhere, with the requested block size, for every block size dividing the dimension; they refuse parallel runs. False in corner cases: an error code from inserting a row is overwritten by that of the next row, so an entry outside the declared width is lost and the call still succeeds; the reader which converts first returns a square matrix for files with more rows than columns when it has no conversion for the block size, and runs into undefined behaviour if the block size has one but does not divide the dimension.", "quantifier": "all matrix files with entries in every row, dimensions and block sizes", "why_tests_cant": "Only sampled inputs can be tested; a wrong index shows up only on particular sparsity patterns.", "anchors": ["src/utils/blasted_petsc_io.cpp: readMatFromCOOFile, readMatFromCOOFile_viaSR"]}
{"id": "C66", "title": "Reading dense files and vectors", "statement": "Reading a dense real file returns its declared number of values in file order, and reading a vector fills exactly the vector's entries with them; files that are not dense are refused. False for short files (the missing values silently become zero) and for complex files (real and imaginary parts are taken for consecutive entries).", "quantifier": "all dense files and vector sizes", "why_tests_cant": "Only sampled inputs can be tested; a wrong index shows up only on particular sparsity patterns.", "anchors": ["src/coomatrix.cpp: readDenseMatrixMarket", "src/utils/blasted_petsc_io.cpp: readVecFromFile"]}
{"id": "C67", "title": "Reading single options", "statement": "Each required-option function returns the value given and throws if the option is not set; the optional real returns the default instead. False for the optional integer array, which throws like the required one; the string function leaks its buffer whenever it throws.", "quantifier": "all option values", "why_tests_cant": "Only sampled inputs can be tested; a wrong index shows up only on particular sparsity patterns.", "anchors": ["src/utils/cmdoptions.cpp"]}
{"id": "C68", "title": "Applying a preconditioner object after any history", "statement": "After any sequence of set-ups with matrices of one pattern, applications and changes of the relaxation parameters, applying the object depends only on its configuration and the matrix of the last set-up, and every call returns: no preconditioning returns its argument, Jacobi solves with the (block) diagonal, sequential SGS and level SGS solve with the symmetric Gauss-Seidel matrix, sequential CSC Gauss-Seidel solves with the upper triangle, sequential Gauss-Seidel performs the configured number of sweeps, sequential and level ILU solve with the exact (block) ILU(0) factors of the matrix, scaled if configured. False for Gauss-Seidel as a linear operator: its result depends on the old contents of the output vector.", "quantifier": "all objects the factory can make, histories of calls, matrices with one pattern, vectors, chunk sizes and schedules within the stated thread conditions", "why_tests_cant": "Holds over arbitrarily long operation histories; a test runs a few fixed ones.", "anchors": ["src/solverops_jacobi.cpp", "src/solverops_sgs.cpp", "src/solverops_levels_sgs.cpp", "src/solverops_ilu0.cpp", "src/solverops_levels_ilu0.cpp", "src/solverops_base.cpp"]}
{"id": "C69", "title": "Relaxation through PETSc", "statement": "The relaxation function called by PETSc performs the number of iterations asked for of the object's method (block Jacobi, Gauss-Seidel, symmetric Gauss-Seidel), starting from zero or from the given vector as PETSc asks, reports that number, and leaves solutions of the system unchanged under any schedule. Preconditioners without relaxation throw with the vectors still locked. False for the object without preconditioning: it claims to have iterated.", "quantifier": "all objects, histories, tolerances, iteration counts, vectors and schedules", "why_tests_cant": "Holds over arbitrarily long operation histories; a test runs a few fixed ones.", "anchors": ["src/blasted_petsc.cpp: relax_local_blasted"]}
{"id": "C70", "title": "Changing the matrix after set-up", "statement": "Jacobi, CSC Gauss-Seidel, ILU and level ILU objects keep a copy: until the next set-up, changing the matrix's values does not change what they compute. False for Gauss-Seidel, SGS and level SGS: they combine the old inverse diagonal blocks with the new off-diagonal values.", "quantifier": "all objects, matrices of one pattern and schedules", "why_tests_cant": "Holds over arbitrarily long operation histories; a test runs a few fixed ones.", "anchors": ["src/solverops_sgs.cpp", "src/solverops_levels_sgs.cpp", "src/solverops_ilu0.cpp", "src/solverops_jacobi.cpp"]}
{"id": "C71", "title": "PETSc sessions from options to result", "statement": "After any sequence of successful set-ups, applications and relaxations through the PETSc functions, with option changes after the first set-up, changes of the matrix and of all other contexts, the context holds a preconditioner made for the options of the first set-up, last set up with the matrix of the last set-up. So applying with option jacobi solves with the block diagonal, with sgs (one thread) and level_sgs solves with the symmetric Gauss-Seidel matrix, and with every ILU(0) name, scalar or blocked, solves with the (scaled) ILU(0) factorisation of that matrix whenever it exists, provided factorisation and application are done in order: by name, by a sweep count of -1, with one thread, or by levels. Two counts of -1 give sequential ILU(0) under any name. none copies, gs does the requested forward sweeps from the old output, cscbgs solves with the upper triangle.", "quantifier": "all sessions, option databases, matrices, vectors, contents of uninitialised memory", "why_tests_cant": "Holds over arbitrarily long operation histories; a test runs a few fixed ones.", "anchors": ["src/blasted_petsc.cpp: compute_preconditioner_blasted, apply_local_blasted, relax_local_blasted"]}
{"id": "C72", "title": "Matrix files are read as written, character by character", "statement": "Whatever comments a coordinate or dense file has, however its numbers are signed, spaced and broken into lines, the matrix read has exactly the entries written. False for: files which end in a comment without a line feed or have only the first line (the reader never ends), a blank line before the sizes (abort), a missing last value (silently the old value or zero), fewer entries than announced (undefined behaviour), complex files (parts taken for indices).", "quantifier": "all files as sequences of characters, all objects read into, all sizes", "why_tests_cant": "Only sampled inputs can be tested; a wrong index shows up only on particular sparsity patterns.", "anchors": ["src/coomatrix.cpp: getMMDescription, getSizeFromMatrixMarket, readMatrixMarket, readDenseMatrixMarket"]}
{"id": "C73", "title": "MC64 gives a best column ordering and unit diagonals", "statement": "Given that HSL's MC64 routine keeps its documented promise for a matrix, computing an MC64 object for that matrix gives the routine work arrays of the required lengths and, unless MC64 reports an error, leaves a column ordering (with its inverse) that puts a stored entry on every diagonal position and is best in the sense of the job number; for job 5 also row and column factors. Reordering and scaling the matrix with the object moves entry (i, p(j)) to (i, j); jobs 1 to 4 make the diagonal as good as any choice of entries can; job 5 makes every diagonal entry 1 in magnitude and no entry larger. The inverse operation restores the matrix. This holds for objects with any history. Not true, although one might expect it: that an error leaves nothing allocated, that an object can be used after a rejected job number, that the inquiries for the diagonal describe the diagonal of the reordered matrix, that the ILU preconditioner built on the ordering solves with a matrix whose reordered form it factorises exactly.", "quantifier": "all matrices with valid structure, jobs, earlier contents of the object, outputs of MC64 that satisfy its specification, contents of newly allocated arrays, and thread schedules", "why_tests_cant": "Only sampled inputs can be tested; a wrong index shows up only on particular sparsity patterns.", "anchors": ["src/reorderingscaling.cpp:MC64::compute", "src/reorderingscaling.cpp:getWorkSizes", "src/blockmatrices.ipp:reorderScale", "include/reorderingscaling.hpp:MC64", "src/solverops_ilu0.cpp:MC64_AsyncILU0_SRPreconditioner", "tests/mat_ops/testmc64.cpp"]}
{"id": "C74", "title": "Relaxation of dominant matrices converges under every schedule, at a rate per call; steps of one call need not gain anything", "statement": "Let every row of the matrix be weakly dominant with rate rho <= 1 for some weights (for blocks: the weighted row sums of the inverse diagonal block times the off-diagonal blocks are at most rho). Then each call of asynchronous relaxation and of relaxation with symmetric Gauss-Seidel, with any numbers of steps, chunk size, threads and any schedule with arbitrarily stale reads within the call, reduces the weighted maximum error by at least the factor rho, so k calls reduce it by rho^k. With one thread, with level scheduling and with Jacobi's method every sweep gains the factor. Not true: that the steps of one asynchronous call gain more than one factor (whatever the number of steps, one thread may hold back a row computed from the initial values), and that symmetric positive definite matrices suffice (with a thread for every row the calls may be Jacobi steps and the error grow as (3/2)^k).", "quantifier": "every scalar field (scalar) or commutative ring (block) with a magnitude, every matrix, block size, storage order, weights, rate, right-hand side, initial guess, number of calls, steps, chunk size, number of threads and schedule", "why_tests_cant": "The number of thread interleavings is unbounded and the operating system picks them; a test sees a handful.", "anchors": ["src/relaxation_chaotic.cpp ChaoticRelaxation::apply/apply_relax", "src/solverops_sgs.cpp AsyncSGS::apply_relax", "src/solverops_levels_sgs.cpp Level_SGS::apply_relax", "src/solverops_jacobi.cpp JacobiSRPreconditioner::apply_relax", "src/kernels/kernels_relaxation.hpp scalar_relax, block_relax"]}
{"id": "C75", "title": "Programs that use the PETSc interface as documented neither touch freed memory nor lose any", "statement": "A program may create several lists of contexts, configure several solver stacks with them, set shells up successfully or not, apply and relax with them, sum times, close shells and destroy lists, in any order that follows the documented rules: a stack is configured once, its list is destroyed after its shells, and a shell whose set-up failed is not set up again. Then no object is used after it was deleted or deleted twice, no null pointer is followed and no exception is thrown. At any time each preconditioner object belongs to exactly one existing shell, each context to exactly one list and each diagnostics object to exactly one context, so that nothing remains once all shells are closed and all lists destroyed. Destroying a list before its shells is not the mere leak that the documentation speaks of: closing or applying such a shell is then a use after free. Configuring a shell a second time loses its preconditioner object.", "quantifier": "all histories of calls of any length, any number of lists, shells and nested solvers, all option databases, outcomes of set-ups and contents of uninitialised memory", "why_tests_cant": "Holds over arbitrarily long operation histories; a test runs a few fixed ones.", "anchors": ["src/blasted_petsc.cpp: cleanup_blasted, compute_preconditioner_blasted, createNewPreconditioner, setupDataFromOptions, apply_local_blasted, relax_local_blasted, destroyBlastedDataList, setup_blasted_stack", "include/blasted_petsc.h: Blasted_node, Blasted_data_list"]}
{"id": "C76", "title": "Incomplete factorisation of dominant matrices cannot break down", "statement": "Computing an ILU preconditioner (in order, with or without symmetric scaling) of a scalar matrix that is strictly diagonally dominant, possibly after weighting its columns, never meets a zero pivot: each pivot is between 1 - rho and 1 + rho times the diagonal entry, where rho < 1 is the ratio of the off-diagonal sum to the diagonal; the upper factor is as dominant as the matrix; the factors multiply to the matrix on its pattern and applying them solves a system with one solution. Weak dominance is not enough, and neither is a symmetric positive definite matrix: for these the code finishes, reports nothing and leaves a zero pivot.", "quantifier": "all sizes, patterns, values, weights and rates, number fields with a magnitude, initial guesses, sweep counts, chunk sizes, contents of memory", "why_tests_cant": "Only sampled inputs can be tested; a wrong index shows up only on particular sparsity patterns.", "anchors": ["src/solverops_ilu0.cpp: AsyncILU0_SRPreconditioner::compute", "src/async_ilu_factor.cpp: scalar_ilu0_factorize, executeILU0Factorization", "src/kernels/kernels_ilu0_factorize.hpp: async_ilu0_factorize_kernel"]}
{"id": "C77", "title": "Scaling does not change the ILU preconditioner", "statement": "If the matrix has incomplete factors with non-zero pivots (invertible diagonal blocks) and no square root of a diagonal entry is zero, then for every vector the ILU(0) preconditioner gives the same result whether or not it was made with symmetric scaling, for the sweeping and the level-scheduled classes, for scalars and for blocks, whatever was done with the object before: the solution with the incomplete factors of the matrix as it is. So in exact arithmetic the scaling option matters for rounding and for unfinished asynchronous sweeps only.", "quantifier": "all fields, all matrices and patterns with sorted rows and stored diagonals, all block sizes, all right-hand sides, all settings with at least one in-order build sweep, all histories of calls on the object", "why_tests_cant": "Only sampled inputs can be tested; a wrong index shows up only on particular sparsity patterns.", "anchors": ["src/async_ilu_factor.cpp getScalingVector, scalar_ilu0_factorize, block_ilu0_factorize", "src/async_blockilu_factor.cpp", "src/solverops_ilu0.cpp", "include/solverops_ilu0.hpp usescaling"]}
{"id": "C78", "title": "Applied in order, every preconditioner is one fixed, one-to-one linear operator", "statement": "For every preconditioner type that has a single possible result (none, Jacobi, SGS, level-scheduled SGS, backward Gauss-Seidel, ILU(0), level-scheduled ILU(0), scalar and block, with a sequential or level-scheduled application, or one thread, and a sequential or one-thread factorisation): whatever the object was used for before, whatever the output vector holds on entry and whatever the allocator returns, apply() of a u + b v gives a (apply of u) + b (apply of v), the result depends only on the matrix last given to compute() and the vector, and different vectors have different results. So the object may be used as a fixed preconditioner in CG or GMRES. With two threads this is false: apply() of symmetric Gauss-Seidel has two possible results for the same vector.", "quantifier": "all preconditioner types with an ordered application, all matrices for which the preconditioner is defined (invertible diagonal or incomplete factors), all histories of compute/apply/apply_relax calls, all vectors u, v and scalars a, b", "why_tests_cant": "Holds over arbitrarily long operation histories; a test runs a few fixed ones.", "anchors": ["src/solverops_sgs.cpp", "src/solverops_jacobi.cpp", "src/solverops_ilu0.cpp", "src/solverops_levels_sgs.cpp", "src/solverops_levels_ilu0.cpp", "include/solverops_base.hpp: SRPreconditioner::apply"]}
{"id": "C79", "title": "Preconditioners of symmetric matrices are symmetric, of definite matrices definite", "statement": "For a symmetric matrix, applying none, Jacobi, SGS, level-scheduled SGS, ILU(0) or level-scheduled ILU(0) (scalar or block, in order) is a self-adjoint operation: (u, B v) = (B u, v) for all u, v. If also the matrix is positive definite (for ILU(0): its pivots or pivot blocks are positive definite) then (u, B u) > 0 for every u other than 0. So CG can be preconditioned with these types. This is false for the backward Gauss-Seidel type: for (2 1; 1 2) it is not self-adjoint.", "quantifier": "all symmetric matrices with symmetric pattern, all block sizes and layouts, all ordered settings, all vectors, any ordered field", "why_tests_cant": "Only sampled inputs can be tested; a wrong index shows up only on particular sparsity patterns.", "anchors": ["src/solverops_sgs.cpp", "src/solverops_jacobi.cpp", "src/solverops_ilu0.cpp", "src/async_ilu_factor.cpp", "src/solverops_levels_sgs.cpp", "src/solverops_levels_ilu0.cpp"]}
{"id": "C80", "title": "A matrix object is the matrix its calls describe", "statement": "Whatever sequence of setStructure, setAllZero, setDiagZero, scaleAll, submitBlock, updateBlock and updateDiagBlock (from several threads), reorderScale and copy construction a program makes on a block or scalar matrix object, each call being allowed at its time, no call accesses memory it should not, and the object is then the matrix that the calls describe: each entry has the value given to it by the history, entries outside the pattern are zero. apply and gemv3 multiply with that matrix, and the diagonal queries are about its diagonal. After a reordering the calls that use the diagonal are not allowed: setDiagZero then leaves diagonal entries other than zero.", "quantifier": "all histories of calls, patterns, block sizes, values, numbers of threads, interleavings and vectors; both classes", "why_tests_cant": "Holds over arbitrarily long operation histories; a test runs a few fixed ones.", "anchors": ["src/blockmatrices.ipp: BSRMatrix<scalar,index,bs>, BSRMatrix<scalar,index,1>", "include/blockmatrices.hpp", "src/reorderingscaling.cpp"]}
{"id": "C81", "title": "Gauss-Seidel relaxation of symmetric positive definite matrices loses energy with every call", "statement": "For a symmetric positive definite matrix, scalar or block, every call of relaxation that finishes a row before it begins the next (asynchronous relaxation and symmetric Gauss-Seidel with one thread, level-scheduled Gauss-Seidel with any number of threads) leaves the exact solution alone and from any other starting vector returns one whose error has strictly less energy (x-x*)^T A (x-x*). This holds for any sequence of such calls mixed in any way, without any dominance. It is false of Jacobi relaxation: there is a definite matrix for which each iteration multiplies the error by -3/2; C74 shows the same for asynchronous relaxation with a thread per row.", "quantifier": "every symmetric positive definite scalar or block matrix over an ordered field, right-hand side, starting vector, list of calls with any numbers of sweeps, chunk sizes, valid levels and threads, and all schedules", "why_tests_cant": "Only sampled inputs can be tested; a wrong index shows up only on particular sparsity patterns.", "anchors": ["src/relaxation_chaotic.cpp: ChaoticRelaxation::apply_relax, ChaoticBlockRelaxation::apply_relax", "src/solverops_sgs.cpp: AsyncSGS_SRPreconditioner::apply_relax, AsyncBlockSGS_SRPreconditioner::apply_relax", "src/solverops_levels_sgs.cpp: Level_SGS::apply_relax, Level_BSGS::apply_relax", "src/solverops_jacobi.cpp: JacobiSRPreconditioner::apply_relax"]}
{"id": "C82", "title": "For symmetric dominant matrices with positive diagonal every ordered scalar preconditioner is symmetric and positive", "statement": "If a scalar matrix is symmetric, has positive diagonal entries and is strictly diagonally dominant (with some positive weights), then it is positive definite, its incomplete LU factors on the stored pattern exist and all their pivots are positive, and every object of the Jacobi, symmetric Gauss-Seidel, level Gauss-Seidel, ILU and level ILU classes that computes and applies in order acts as one fixed operator B, whatever its history, with (u, B v) = (B u, v) and (u, B u) > 0 for u not zero. No condition on computed numbers is assumed. Without dominance this is false: C76 gives a symmetric positive definite matrix with a zero pivot.", "quantifier": "every symmetric strictly dominant scalar matrix with positive diagonal over an ordered field, settings with ordered computation, history of the object, vectors, thread counts and schedules", "why_tests_cant": "Only sampled inputs can be tested; a wrong index shows up only on particular sparsity patterns.", "anchors": ["src/async_ilu_factor.cpp: scalar_ilu0_factorize", "src/solverops_ilu0.cpp: AsyncILU0_SRPreconditioner::apply", "src/solverops_levels_ilu0.cpp: Async_Level_ILU0::apply", "src/solverops_sgs.cpp: AsyncSGS_SRPreconditioner::apply", "src/solverops_levels_sgs.cpp: Level_SGS::apply", "src/solverops_jacobi.cpp: JacobiSRPreconditioner::apply"]}
{"id": "C83", "title": "A matrix object made from a Matrix Market file is the matrix written in the file", "statement": "Constructing a square matrix object (scalar or block class) from the characters of a well-formed Matrix Market coordinate file ends normally. The object's pattern consists of the blocks which contain a written entry. Its entries are the numbers in the file, and zero elsewhere. Any allowed calls made on the object afterwards (zeroing, scaling, submitting and assembling blocks, reordering, copying) give the object which the file and those calls describe, so products with it are products with that matrix.", "quantifier": "all files (numbers of rows, order of entries, comments, blanks between the numbers), all block sizes, all later sequences of calls, all contents of fresh memory, all orders of parallel loops and interleavings of assembling threads", "why_tests_cant": "Holds over arbitrarily long operation histories; a test runs a few fixed ones.", "anchors": ["src/coomatrix.cpp:constructBSRMatrixFromMatrixMarketFile", "src/coomatrix.cpp:getSRMatrixFromCOO", "include/blockmatrices.hpp:BSRMatrix"]}
{"id": "C84", "title": "Comparing two matrix objects tells whether they are the same matrix", "statement": "Scalar class: for two matrix objects made by any allowed calls, isEqual's first flag says whether they have the same number of rows, its first three flags together whether they also have the same pattern, and its first four together whether moreover no entry differs by more than the tolerance; the fifth is true if the patterns agree and both objects know their diagonals. In particular a matrix reordered and scaled and then brought back is reported equal to the matrix before. Block class: what is reported equal is equal up to the tolerance.", "quantifier": "all pairs of call histories, sizes, patterns, values, tolerances, permutations and nonzero factors; all schedules of the parallel loops", "why_tests_cant": "Holds over arbitrarily long operation histories; a test runs a few fixed ones.", "anchors": ["src/blockmatrices.ipp:areEqual", "src/blockmatrices.ipp:isEqual", "include/blockmatrices.hpp:isEqual", "tests/mat_ops/testreordering.cpp"]}
{"id": "C85", "title": "The reported times are those of the successful calls", "statement": "Through PETSc, a set-up that succeeds adds its CPU and wall time to the building times of its preconditioner and an application or relaxation that succeeds adds its times to the applying times; a call that fails adds nothing. After any history that keeps the documented rules, computing the total times of a list succeeds and the four totals found in the list are the sums of the times of all successful set-ups and applications of the preconditioners configured for that list since it was made or last destroyed, including preconditioners already closed, and no others.", "quantifier": "all histories of calls with any number of lists, solver stacks, set-ups, applications, closings and destructions, all times, all contents of uninitialised memory, all outcomes of the parallel calls", "why_tests_cant": "Holds over arbitrarily long operation histories; a test runs a few fixed ones.", "anchors": ["src/blasted_petsc.cpp: compute_preconditioner_blasted, apply_local_blasted, relax_local_blasted, computeTotalTimes, setupDataFromOptions", "include/blasted_petsc.h: Blasted_node, Blasted_data_list"]}
{"id": "C86", "title": "A vector of the wrong length is refused without effect in debug builds, and only there", "statement": "When the library is built with its debug checks, applying or relaxing with the PETSc-facing preconditioner on a right-hand side whose local length is not that of the matrix returns an error, gives back every vector it took, and leaves the preconditioner object, the user's context and the output vector as they were (relaxation may still have set its parameters and zeroed a zero initial guess, but counts no iteration). Without those checks, or for an output vector that is too short even with them, the call has undefined behaviour.", "quantifier": "every context, preconditioner, matrix, pair of vectors, and every schedule of the call", "why_tests_cant": "Only sampled inputs can be tested; a wrong index shows up only on particular sparsity patterns.", "anchors": ["src/blasted_petsc.cpp: apply_local_blasted", "src/blasted_petsc.cpp: relax_local_blasted"]}
{"id": "C87", "title": "The diagnostic record holds under each heading what the heading names", "statement": "When diagnostics are asked for, each of the six numbers listed for a factorisation is the quantity its heading names: the mismatch between the (scaled) matrix and the product of the initial factors, the same for the factors returned, and the average and least diagonal dominance of the rows of the returned lower and upper factors (for blocks: before the diagonal blocks are inverted in place). Asking for diagnostics changes neither the factors nor the scaling vector, and computing them cannot fail.", "quantifier": "every matrix, scaling, initialisation, sweep count, thread count, previous content of the record, and schedule", "why_tests_cant": "The number of thread interleavings is unbounded and the operating system picks them; a test sees a handful.", "anchors": ["include/preconditioner_diagnostics.hpp: PrecInfo, PrecInfoList", "src/solverfactory.cpp: PrecInfoList::descr", "src/async_ilu_factor.cpp: scalar_ilu0_factorize", "src/async_blockilu_factor.cpp: block_ilu0_factorize"]}
{"id": "C88", "title": "The diagnostics of a shell are those of its successful set-ups, in order", "statement": "With diagnostics asked for at the first set-up, the list a program reads from the context of a shell has one record for each successful set-up of that shell, in order, and no other: also after failures, after set-ups of other shells, and after the shell was closed, until the list of contexts is destroyed. Without, or before the first successful set-up, there is no list. The record added is the one compute() returned. Only incomplete factorisations write to it; for every other preconditioner it holds whatever the memory held.", "quantifier": "all histories that keep the documented rules, all numbers of lists, stacks and shells, all options and outcomes", "why_tests_cant": "Holds over arbitrarily long operation histories; a test runs a few fixed ones.", "anchors": ["src/blasted_petsc.cpp: createNewPreconditioner, updatePreconditioner, compute_preconditioner_blasted, destroyBlastedDataList", "include/preconditioner_diagnostics.hpp: PrecInfo, PrecInfoList"]}
{"id": "C89", "title": "Triangular views share the arrays of their matrix and own only their row bounds", "statement": "Taking the lower or upper triangular view of a storage or raw matrix (sorted, full diagonal) leaves everything allocated before as it was; the view denotes the triangle; destroying the view (for raw views with the function meant for it) frees exactly the two arrays that making it allocated, and the matrix remains intact. Once an owning storage is destroyed its view denotes nothing, but the view can still be destroyed safely. A raw view destroyed as if it were a whole matrix takes the arrays of the matrix with it, and copying it as a whole matrix is undefined. A raw view of a whole storage denotes the same matrix. The debug assertions hold for every such matrix with at least one row.", "quantifier": "all heaps, all well-formed matrices with full diagonal in any allocation layout, whether or not moves are elided by the compiler", "why_tests_cant": "Only sampled inputs can be tested; a wrong index shows up only on particular sparsity patterns.", "anchors": ["src/rawsrmatrixutils.cpp: getLowerTriangularView, getUpperTriangularView, alignedDestroyRawBSRMatrixTriangularView, createRawView"]}
{"id": "C90", "title": "Setting up ILU is defined exactly while the number of products fits in the index type", "statement": "For a matrix with sorted rows and full diagonal whose entries can be counted in the index type, the list of positions that the ILU set-up computes is the right one if the number of triples (i,t,j), t<min(i,j), with (i,j), (i,t) and (t,j) stored fits in the index type, in particular if the longest row times the number of entries does; otherwise a signed addition overflows and the set-up is undefined. For 32-bit indices this happens for a dense matrix of 1862 rows (3467044 entries) and for no smaller dense one.", "quantifier": "all well-formed matrices, all ranges of the index type", "why_tests_cant": "Matrices large enough to overflow are not used in tests, and the limit depends on the pattern, not only on the size.", "anchors": ["src/ilu_pattern.cpp: compute_ILU_positions_CSR_CSR", "src/helper_algorithms.cpp: inclusive_scan", "src/solverops_ilu0.cpp: AsyncILU0_SRPreconditioner::compute, AsyncBlockILU0_SRPreconditioner::compute"]}
{"id": "C91", "title": "With rounding errors, products, relaxations and triangular solves are exact for a nearby matrix", "statement": "When every scalar operation rounds its exact result with a relative error of at most u (no overflow or underflow), the library's results are exact results for slightly changed matrices. The vector of a matrix-vector product is exactly A' x, and z = aAx + by likewise up to a factor on y; a Jacobi application solves exactly a diagonal system; a symmetric Gauss-Seidel application solves exactly one lower and one upper triangular system; an ILU application (sequential or level-scheduled, which give the same result) solves exactly L' U' x = r'. In each case every entry of the changed matrix is the original entry times a factor that lies between (1-u)^k and (1-u)^-k, where k is at most the number of entries stored in the row plus two; zeros stay zeros. For ILU without scaling this gives (LU + E) z = r with |E| at most ku/(1-ku) |L||U| entrywise, where k is twice the longest row plus two. The bounds do not depend on the number of rows, threads or sweeps.", "quantifier": "all machines that round with a relative error of at most u < 1, all well-formed scalar matrices with non-zero pivots, all right-hand sides, initial vectors, scalings, sweep counts, chunk sizes, level partitions and thread counts covered by the sequential and level-scheduled paths, and all schedules of the products and of the Jacobi application", "why_tests_cant": "A test sees the rounding of a few matrices on one machine; the bound must hold for every matrix and every way of rounding.", "anchors": ["src/kernels/kernels_ilu_apply.hpp: scalar_unit_lower_triangular, scalar_upper_triangular", "src/kernels/kernels_sgs.hpp: scalar_fgs, scalar_bgs", "src/solverops_jacobi.cpp: scalar_jacobi_apply", "include/blockmatrices.ipp: CSRMatrixView::apply, gemv3", "src/async_ilu_apply.cpp, src/levelschedule.cpp, src/solverops_levels_ilu0.cpp, src/solverops_levels_sgs.cpp"]}
{"id": "C92", "title": "With rounding errors, the factors reproduce the matrix up to a few roundings per row, and compute-then-apply solves a nearby system", "statement": "When every scalar operation rounds its exact result with a relative error of at most u (no overflow or underflow) and no computed pivot is zero, a sequential set-up of the scalar ILU(0) preconditioner gives factors L and U such that, at every stored position, the entry of the (scaled) matrix is exactly the sum of the products L_it U_tj each times a factor of at most m roundings, m being the number of entries stored in that row (two more with scaling). Hence |LU - A| is at most ku/(1-ku) |L||U| on the pattern. If the pattern has room for all the fill-in, then setting up and applying the preconditioner without scaling, sequentially or by levels, solves (A + E) z = r exactly with |E| at most ku/(1-ku) |L||U| entrywise, where k = 3m + 2 and no row stores more than m entries.", "quantifier": "all machines that round with a relative error of at most u < 1, all well-formed scalar matrices, scalings, initialisations, sweep counts, chunk sizes, right-hand sides, initial vectors and level partitions", "why_tests_cant": "A test sees the rounding of a few matrices on one machine; the bound must hold for every matrix and every way of rounding.", "anchors": ["src/kernels/kernels_ilu0_factorize.hpp: scalar_ilu0_factorize", "src/async_ilu_factor.cpp: executeILU0Factorization, scalar_ilu0_factorize", "src/solverops_ilu0.cpp: AsyncILU0_SRPreconditioner::compute, apply", "src/solverops_levels_ilu0.cpp"]}
{"id": "C93", "title": "In rounded arithmetic, relaxation of a diagonally dominant matrix still approaches the solution under every schedule", "statement": "For a (weighted) diagonally dominant scalar matrix with rate rho, on any machine whose operations round with relative error at most u, every call of asynchronous relaxation or of symmetric Gauss-Seidel relaxation - any numbers of steps, chunk sizes, threads, any schedule, stale reads included - multiplies the part of the error above an attainable accuracy lim by rho*g, where g = 1/(1-u)^(m+3) and m is the most entries in a row. Methods that wait for each sweep (one thread, level scheduling, Jacobi with or without its convergence test) gain that factor with each sweep. The attainable accuracy is (g-1)X/(1-rho g), with X the size of the solution, and g-1 is at most Ku/(1-Ku) with K = m+3. Nothing is ever computed wrongly by more: no schedule makes rounding errors pile up.", "quantifier": "all rounding machines, all well-formed scalar matrices with non-zero diagonal, right-hand sides, weights, starting vectors, numbers of calls, steps, threads, chunk sizes and all schedules of the parallel loops", "why_tests_cant": "The number of thread interleavings is unbounded and the operating system picks them; a test sees a handful.", "anchors": ["src/relaxation_chaotic.cpp ChaoticRelaxation::apply_relax", "src/solverops_sgs.cpp AsyncSGS_SRPreconditioner::apply_relax", "src/solverops_levels_sgs.cpp Level_SGS::apply_relax", "src/solverops_jacobi.cpp JacobiSRPreconditioner::apply_relax", "src/kernels/kernels_relaxation.hpp scalar_relax"]}
{"id": "C94", "title": "The order in which a compiler evaluates the sums, and its use of fused multiply-adds, do not matter", "statement": "However a compiler evaluates the sums in the scalar row kernels - in any order and bracketing, as the simd reduction clauses allow, with products rounded by themselves or fused with an addition - the ILU and Gauss-Seidel applications and all relaxations have exactly the same possible outcomes in exact arithmetic, and in arithmetic with rounding errors each satisfies the same backward error bounds (C91) and the same convergence bounds under every schedule (C93) as the plain loop.", "quantifier": "every valid evaluation order for the forward and the backward loops (trees over the value on entry and the products, with or without fused operations), every commutative ring or rounding machine, every well-formed matrix, every schedule, thread count, chunk size and number of sweeps", "why_tests_cant": "A test runs the one order its compiler and its flags chose; other compilers, vector widths and flags give other orders, with different results in floating point.", "anchors": ["src/kernels/kernels_ilu_apply.hpp: scalar_unit_lower_triangular, scalar_upper_triangular", "src/kernels/kernels_sgs.hpp: scalar_fgs, scalar_bgs", "src/kernels/kernels_relaxation.hpp: scalar_relax"]}
{"id": "C95", "title": "The order of the subtractions in the incomplete factorisation, and fused operations, do not matter", "statement": "The factorisation's inner loop carries a reduction clause that lets a compiler keep several partial results and fuse operations. In exact arithmetic a set-up has the same possible outcomes for every such evaluation, whatever the matrix, the state of the object, the initialisation, the number of threads and the schedule. In floating-point arithmetic every sequential set-up gives one array of factors; at each stored position the (scaled) matrix entry is exactly the sum of the products of the factors, each times a factor of at most twice the row's number of entries (plus two for scaling) roundings. With a pattern that has room for the factors, set-up followed by an application, each evaluated in any order, solves (A+E) z = r with |E| at most k u/(1-k u) |L||U|, k = 4m+2 for at most m entries in a row.", "quantifier": "all commutative rings (exact part), all machines with unit roundoff u and fused operations, all orders and bracketings of the subtractions and of the solves' additions, all well-formed matrices, sweep counts, chunk sizes, initialisations, levels", "why_tests_cant": "The compiler chooses the order of the partial results, and it changes with flags and hardware; a test sees the one order its build has, on a few matrices.", "anchors": ["src/kernels/kernels_ilu0_factorize.hpp: async_ilu0_factorize_kernel", "src/async_ilu_factor.cpp: scalar_ilu0_factorize, scalar_ilu0_nonlinear_res", "src/solverops_ilu0.cpp: AsyncILU0_SRPreconditioner::compute, apply"]}
{"id": "C96", "title": "The conversion program writes exactly its inputs", "statement": "Given a matrix file, a right-hand side file and possibly an exact-solution file of matching sizes, with names of at most 494 characters, the program util_petsc_io returns 0 and leaves, under each input's name with .pmat appended, exactly that matrix or vector in PETSc's format, and changes no other file. If an input is missing or cannot be read nothing is written. False beyond that: a longer name is undefined behaviour; a vector file called like the matrix file with .pmat appended is overwritten; if a later output cannot be opened, the earlier ones have already been emptied.", "quantifier": "all file names, contents of the disk, matrices, vectors, block sizes and sets of writable files", "why_tests_cant": "Only sampled inputs can be tested; a wrong index shows up only on particular sparsity patterns.", "anchors": ["src/utils/util_petsc_io.c: main", "src/utils/blasted_petsc_io.cpp: readMatFromCOOFile_viaSR, readVecFromFile"]}
{"id": "C97", "title": "Error codes become exceptions", "statement": "An error code of PETSc handed to petsc_throw is never lost: the function returns exactly for 0 and otherwise throws something derived from std::runtime_error; for a code between PETSc's limits that is a Petsc_exception with PETSc's text and that of the last error. Codes of MPI functions and states of files are treated likewise. False: that a handler for Petsc_exception catches every error of PETSc; codes at or beyond the limits are thrown as plain runtime errors whose text does not tell the code.", "quantifier": "all error codes, limits and texts", "why_tests_cant": "Only sampled inputs can be tested; a wrong index shows up only on particular sparsity patterns.", "anchors": ["src/utils/cmdoptions.cpp: parsePetscErrorCode, Petsc_exception, InputNotGivenError", "include/utils/cmdoptions.hpp: petsc_throw, file_input_throw", "include/utils/mpiutils.hpp: get_mpi_size, get_mpi_rank"]}
{"id": "C98", "title": "The ILU(0) set-up within the range of 32-bit indices", "statement": "Setting up an (asynchronous or sequential) ILU(0) preconditioner counts the products l(i,t)*u(t,c) of the factorisation in an int. If the number of such products fits in an int, the position lists are exactly those obtained with unbounded integers; if not, the behaviour is undefined (signed overflow), even when the numbers of rows and stored entries fit easily. (Stored entries) x (entries of the longest row - 1) <= 2^31-1 is enough. In particular a full matrix works exactly up to order 1861; 'every matrix whose entries can be counted in an int can be factorised' is refuted.", "quantifier": "all well-formed matrices of any size with fewer than 2^31-1 stored entries; all orders of full matrices", "why_tests_cant": "The overflow needs matrices with billions of products; unit tests use matrices with a few thousand entries, and the set-up of a test that reaches it takes minutes.", "anchors": ["src/ilu_pattern.cpp: compute_ILU_positions_CSR_CSR", "src/helper_algorithms.cpp: inclusive_scan", "include/ilu_pattern.hpp: ILUPositions"]}
{"id": "C99", "title": "The iterative solvers report the true residual norm of what they return", "statement": "In exact arithmetic and with any preconditioner, BiCGSTAB and GCR with at least one allowed step report exactly the 2-norm of b - A x for the vector x they return, and a run which ends before the last allowed step meets the tolerance. GCR's converged flag says whether the tolerance is met. Richardson iterates x <- x + M(b - A x) and reports the true norm if it stops early. Found failures: at the last allowed step Richardson reports the norm of the vector before; BiCGSTAB reports one step too many when it does not converge; Richardson and BiCGSTAB never set the converged flag; GCR with restart length 0 is undefined.", "quantifier": "all matrices (scalar and blocks), right-hand sides, initial guesses, tolerances, step limits and restart lengths, all preconditioners (with one or more outcomes) and all schedules", "why_tests_cant": "A test sees a few systems and one preconditioner; that the recursively updated residual stays equal to the residual of the returned vector must hold for every number of steps and every answer of the preconditioner.", "anchors": ["tests/solvers.cpp: RichardsonSolver::solve, BiCGSTAB::solve, GCR::solve, axpby, axpbypcz, dot, vecassign", "tests/solvers.hpp: SolveInfo"]}
{"id": "C100", "title": "GCR is flexible GMRES", "statement": "In exact arithmetic over an ordered field, if the preconditioner never answers a nonzero residual r with a z for which A z is orthogonal to r, and a zero residual meets the tolerance, then from an initial guess with nonzero residual GCR is flexible GMRES restarted after the given number of directions: each direction is an answer of the preconditioner to the current residual, and each iterate has the smallest residual among all combinations of the directions of the cycle. The residual of the result is strictly smaller than that of the initial guess. The condition holds for no preconditioner with a positive definite matrix and for exact solvers.", "quantifier": "all matrices, right-hand sides, initial guesses, tolerances, step limits and restart lengths, all preconditioners (with one or more outcomes, and different ones at each call) and all schedules", "why_tests_cant": "Minimality of the residual is a statement about all combinations of the directions, and about every answer of an asynchronous preconditioner.", "anchors": ["tests/solvers.cpp: GCR::solve", "tests/solvers.hpp: GCR"]}
{"id": "C101", "title": "GCR without restart needs at most as many steps as unknowns", "statement": "Under the conditions of C100 and with restart length and step limit at least the number N of unknowns, GCR meets any tolerance which a zero residual meets within N steps, and reports the true residual norm. With a tolerance which only a zero residual meets it returns a solution of A x = b.", "quantifier": "all matrices, right-hand sides, initial guesses and tolerances, all preconditioners which meet the condition and all their answers, all schedules", "why_tests_cant": "The number of steps must be bounded for every matrix and every sequence of answers of the preconditioner.", "anchors": ["tests/solvers.cpp: GCR::solve"]}
{"id": "C102", "title": "BiCGSTAB is the textbook method", "statement": "With a preconditioner that multiplies by a fixed matrix, the vector which BiCGSTAB returns is exactly the iterate of the textbook (van der Vorst) right-preconditioned BiCGSTAB recurrence started from the given guess, the number of recurrence steps being the reported count capped by the allowed count. The run stops at the first iterate whose relative residual norm is below the tolerance and not before.", "quantifier": "all matrices, linear preconditioners, right-hand sides, starting guesses, tolerances, step limits, thread schedules of the dot products and vector updates, and all commutative rings of scalars with any division", "why_tests_cant": "a wrong coefficient still gives an honest residual and often still converges on the few systems a test tries, only more slowly; equality with the recurrence must hold at every step of every run", "anchors": ["tests/solvers.cpp: BiCGSTAB::solve, axpby, axpbypcz, dot", "tests/solvers.hpp: SolveInfo"]}
{"id": "C103", "title": "BiCGSTAB ends within N steps unless it breaks down", "statement": "In exact arithmetic, with a linear preconditioner and at least N allowed steps, BiCGSTAB on N unknowns reports at most N steps and returns a vector which meets any tolerance that a zero residual meets, unless one of its first N steps breaks down (the residual is orthogonal to the first residual, the division for the step length is by zero, or the stabilising step has length zero). Breakdowns exist: a skew-symmetric matrix without preconditioner always breaks down in the first step.", "quantifier": "all matrices, linear preconditioners, right-hand sides, starting guesses and thread schedules, over every ordered field, for every number of unknowns N > 0", "why_tests_cant": "finite termination depends on the biorthogonality of all previous directions, for every N; tests in floating point with a loose tolerance cannot distinguish it from slow convergence", "anchors": ["tests/solvers.cpp: BiCGSTAB::solve"]}
{"id": "C104", "title": "A solver started from the exact solution (false for BiCGSTAB and GCR)", "statement": "A solver whose starting guess already has zero residual should return the guess. In IEEE double precision Richardson does so, without a step. BiCGSTAB and GCR do not: they divide zero by zero in the first step, return a vector all of whose entries are NaN, use up all the allowed steps and report a NaN residual norm. In particular they return NaNs for the right-hand side zero and the guess zero.", "quantifier": "all matrices and preconditioners which map zero vectors to zero vectors, all right-hand sides and guesses whose computed residual is zero, all tolerances, step limits, restart lengths and thread schedules, in IEEE double precision", "why_tests_cant": "tests start from a guess with a nonzero residual; that no schedule and no later restart ever recovers from the first division cannot be seen from examples", "anchors": ["tests/solvers.cpp: RichardsonSolver::solve, BiCGSTAB::solve, GCR::solve"]}
{"id": "C105", "title": "The generated Poisson problem is the finite-difference discretisation", "statement": "On any Cartesian mesh with increasing coordinates and any division of the interior points among processes, assembling the Poisson matrix reads only within the coordinate arrays, inserts each entry exactly once, and gives minus the discrete Laplacian: positive diagonal, negative off-diagonal entries, exact on quadratic functions. The interior-point count, the uniform and Chebyshev meshes and the mesh size are what they say. Refuted: the right-hand side and the exact solution are sampled one mesh point too low in every direction, so they do not belong to the matrix's unknowns; and the norm of a mesh function reads before the start of a coordinate array on every process owning a first point.", "quantifier": "every increasing mesh of any size, every partition into boxes, every grid function, every row", "why_tests_cant": "Tests use one or two meshes and one process; agreement with the continuous operator and absence of out-of-bounds reads must hold for all mesh sizes and partitions.", "anchors": ["tests/poisson3d-fd/poisson3d_fd.cpp: computeLHS, computeRHS, computeNorm", "tests/poisson3d-fd/cartmesh.cpp: CartMesh::createMeshAndDMDA, generateMesh_UniformDistribution, computeMeshSize", "tests/poisson3d-fd/cartmesh.hpp: CartMesh::gcoords"]}
{"id": "C106", "title": "The Poisson matrix is monotone, nonsingular and symmetrisable", "statement": "The assembled Poisson matrix satisfies the discrete maximum principle: a grid function with zero boundary values that it maps to values >= 0 is itself >= 0. Hence two grid functions with the same image are equal. Multiplied by the dual-cell volumes the matrix is symmetric.", "quantifier": "every increasing mesh of any size, every partition into boxes, every grid function", "why_tests_cant": "Nonsingularity and the maximum principle are statements about all grid functions on all meshes.", "anchors": ["tests/poisson3d-fd/poisson3d_fd.cpp: computeLHS"]}
{"id": "C107", "title": "The library's methods work on every generated Poisson matrix", "statement": "On every mesh and under every numbering of the unknowns, a sparse-row matrix holding the assembled Poisson matrix is strictly diagonally dominant for suitable positive weights, although unweighted it is only weakly dominant. Hence the ILU(0) preconditioner computed from it has no zero pivot, reproduces the matrix on its pattern and is invertible, for all settings of the ordered computation, and asynchronous or symmetric Gauss-Seidel relaxation approaches the solution by a factor below one with every call, whatever the schedule, threads and chunk size.", "quantifier": "every increasing mesh, every partition among processes, every numbering, every right-hand side and initial guess, every schedule", "why_tests_cant": "Tests run a few mesh sizes; that no mesh, numbering or schedule breaks the preconditioners needs a proof.", "anchors": ["tests/poisson3d-fd/poisson3d_fd.cpp: computeLHS", "src/async_ilu_factor.cpp: scalar_ilu0_factorize", "src/relaxation_chaotic.cpp: ChaoticRelaxation"]}
{"id": "C108", "title": "The separate factorisation without scaling is the general one; the approximate-inverse class does nothing", "statement": "The stand-alone ILU(0) factorisation without scaling has exactly the same possible results (undefined behaviour included) as the general factorisation called without a scaling vector, for every matrix, initial guess, option, thread count and schedule. Refuted: that the left sparse-approximate-inverse preconditioner class approximates anything: after set-up, applying it leaves the output vector as it was, and relaxation always throws.", "quantifier": "every matrix, option, number of threads, schedule and previous contents of the arrays; every vector", "why_tests_cant": "Equality of the sets of possible results under all schedules is not observable by running; a unit test of the class would see whatever the output held before.", "anchors": ["src/async_ilu_factor.cpp: scalar_ilu0_factorize_noscale, scalar_ilu0_factorize", "src/solverops_sai.cpp: LeftSAIPreconditioner"]}
{"id": "C109", "title": "The iterative solvers with the library's preconditioners; an exact preconditioner (false for BiCGSTAB in double precision)", "statement": "For every preconditioner object applied in order (Jacobi, symmetric and column Gauss-Seidel, ILU, level-scheduled variants, none; scalar and block), whatever was done with the object before, what an iterative solver sees is multiplication by one fixed matrix K, the inverse of the documented preconditioning matrix; so BiCGSTAB with it is the textbook method with K (C102, C103). ILU of a matrix whose elimination creates no new entries is exact. With an exact preconditioner, in exact arithmetic, Richardson ends after at most one step, GCR and BiCGSTAB after one step, with the solution. Refuted in double precision: BiCGSTAB with an exact preconditioner returns NaNs, because the second half of its step divides zero by zero.", "quantifier": "every matrix, preconditioner class, history of the object, right-hand side, initial vector, tolerance met by a zero residual, restart length; for the refutation every exact preconditioner of the system 2 x = 2, number of steps, tolerance and schedule", "why_tests_cant": "Tests run a few matrices for which the preconditioner is not exact, and compare iteration counts; they cannot tell that the operator is the same in every call and after every history.", "anchors": ["tests/solvers.cpp: RichardsonSolver::solve, BiCGSTAB::solve, GCR::solve", "src/solverops_*.cpp: apply"]}
{"id": "C110", "title": "The control file of the Poisson problem is read as written, and only some malformed files are noticed", "statement": "A control file with the expected labels, type of grid, numbers of points and coordinates, with any blanks between them and anything after them, gives exactly the mesh it describes; the Chebyshev points are used if and only if the type is the word \"chebyshev\". Characters that are no number where a number belongs give an exception. Refuted: a file that ends too early gives no exception, but indeterminate values that are then used; a word of fifty or more characters overflows a buffer; a file that cannot be opened, a number of points that is not an int, and numbers of points that PETSc refuses are undefined behaviour instead of an exception.", "quantifier": "all words, numbers of points with a total that fits an int, coordinates, blanks, trailing text, ranks, places at which the file ends or is malformed, and conversions of text to real numbers that understand the written numbers", "why_tests_cant": "There are infinitely many files and ways to cut them; the tests use three well-formed files.", "anchors": ["tests/poisson3d-fd/poisson_setup.cpp: readInputFile, createMesh, setup_poisson_problem", "tests/poisson3d-fd/cartmesh.cpp: createMeshAndDMDA, ~CartMesh", "tests/poisson3d-fd/poisson_utils.hpp: MeshSpec", "include/utils/cmdoptions.hpp: file_input_throw"]}
{"id": "C111", "title": "From the text of the files to the reported result: the solver driver solves and reports on the system that is written in the files", "statement": "The driver of the solver tests is given a Matrix Market file that lists a square matrix (entries in any order, none twice, the diagonal listed) and a file with a right-hand side. With any of the eleven preconditioner names, any number of threads (one for cscbgs), and bcgs or gcr, it ends normally, and the norm that it reports is that of the residual of the returned vector for the listed matrix and right-hand side; BiCGSTAB's step count and GCR's flag tell whether the tolerance is met. If elimination creates no new places and no zero pivot, then with an ILU type whose threads cannot interfere every solver returns the exact solution after one step, and a reference file with the solution is accepted. If the driver ends normally with a reference file, the returned vector is within the limit of it, whatever the method. A solver of another name is never run.", "quantifier": "all file texts of these forms, all scalars, all values of square root and comparisons, all contents of fresh memory, all thread schedules, all numbers of rows, entries, sweeps, steps", "why_tests_cant": "a test runs a few files with a few settings on a few schedules; the claim is about every matrix that can be written in a file and every schedule", "anchors": ["tests/testsolve.cpp: test_solve", "tests/solvers.cpp: RichardsonSolver::solve, BiCGSTAB::solve, GCR::solve", "src/coomatrix.cpp: readMatrixMarket, getSRMatrixFromCOO", "src/solverfactory.cpp: create_preconditioner"]}
{"id": "C112", "title": "The conversion to blocks orders the blocks of a block row by their first entry, not by column", "statement": "When a list of entries is converted to blocks, the blocks of a block row are stored in the order in which the list meets them first. If the columns of each row are in increasing order, the blocks of every block row are in increasing order if and only if no block starts in a row above one to its left; entries in the first row of every block are enough. The comment in the source that sorted rows give sorted block rows is false: a block below the diagonal whose first row is empty is stored after the diagonal block. Then the forward Gauss-Seidel sweep and the lower triangular solve ignore it, and one sweep in the order of the rows with the exact factors returns a vector that does not solve the system.", "quantifier": "all lists of entries, all block sizes, both storage orders, all contents of fresh memory, all scalars, all values of the misplaced entry, all right-hand sides", "why_tests_cant": "the test files have full blocks, in which the order is always right; the claim is about every pattern of entries within the blocks", "anchors": ["src/coomatrix.cpp: COOMatrix::convertToBSR", "src/kernels/kernels_sgs.hpp: block_fgs", "src/kernels/kernels_ilu_apply.hpp: block_unit_lower_triangular"]}
{"id": "C113", "title": "The driver of the reordering test solves full systems exactly, rejects wrong results, and loses the diagonal of sparse matrices", "statement": "The driver of the reordering test reads a matrix, a reference solution and a right-hand side from files and solves twice, with ILU(0) and with the reordering ILU(0). Its ordering exchanges unknowns 1 and 3 in rows and columns for every matrix with at least four rows; for smaller ones building it reads outside a vector. If the driver ends normally, the matrix has at least four rows, the solver is one of the two offered and both vectors are within the limit of the reference. If all entries are listed, there is one thread and elimination works for the matrix and for the reordered and scaled one, then it ends normally and both solves return the solution after one step. For a matrix with an entry in exactly one of the places (1,0) and (3,0), such as every tridiagonal one, the diagonal index of row 1 of the reordered matrix points to no diagonal entry.", "quantifier": "all file texts of these forms, all matrices, all scalars, all numbers of rows, sweeps and steps, all values of square root and comparisons, all contents of fresh memory, all thread schedules (in the claim about normal endings)", "why_tests_cant": "the test runs one file; the claim is about every matrix and every size, and a lost diagonal goes unnoticed as long as the solver still converges", "anchors": ["tests/testreorderedsolve.cpp: createTrivialColReordering, testSolve", "src/solverops_ilu0.cpp: ReorderedAsyncILU0_SRPreconditioner::compute, apply", "src/reorderingscaling.cpp: Reordering::setOrdering, applyOrdering"]}
{"id": "C114", "title": "The solver driver with matrices of dense blocks reports on the system in the files, and refuses every other layout", "statement": "The solver driver converts the matrix in a file to blocks of four rows in either layout, or of five rows stored by columns, and makes the block preconditioner asked for by name. If the file lists the diagonal, no entry twice, and each block left of another has an entry in the same row or above, then the driver ends normally with every block preconditioner of the library and every number of threads, and the residual norm that BiCGSTAB or GCR reports is that of the returned vector for the matrix and the right-hand side in the files. If moreover elimination by blocks works and creates no other blocks, and threads cannot interfere, each ILU(0) preconditioner makes every solver return the exact solution after one step, and a reference file with the solution is accepted. If it ends normally with a reference file, the returned vector is within the limit of the reference in all rows. With any other block size above one, any other name of a layout, or a preconditioner that has no block form, it never ends normally, whatever the files contain.", "quantifier": "all file texts of these forms, all matrices, all scalars, all numbers of block rows, threads, sweeps and steps, all schedules, all values of square root and comparisons, all contents of fresh memory; for refusals all block sizes other than one, all names and all files", "why_tests_cant": "the tests run a few files with one order of entries and a few names; the claim covers every pattern, every preconditioner, every schedule and every refused combination", "anchors": ["tests/testsolve.cpp: test_solve", "src/solverfactory.cpp: create_preconditioner, create_srpreconditioner_of_type", "src/coomatrix.cpp: convertToBSR, getSRMatrixFromCOO", "tests/solvers.cpp: BiCGSTAB::solve, GCR::solve"]}
