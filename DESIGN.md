# Formal model of BLASTed in Rocq

BLASTed is a C++14 library of sparse block-row matrices and asynchronous
(OpenMP) preconditioners. `properties.jsonl` lists what a user relies on;
this file says how each is modelled and proved. The model is in
`rocq/theories`, `MANIFEST.json` maps properties to theorems,
`seeded/LOG.jsonl` records mutation tests of the theorems.

## How code is modelled

* **Arrays** are lists with *checked* access. A function that can go wrong
  returns `res A := Ok a | UB | Throw | ...`; reading or writing outside an
  array, reading uninitialised data or dereferencing a null pointer is `UB`, a
  C++ exception is `Throw`. A theorem that a function returns `Ok` therefore
  includes memory safety of the modelled accesses.
* **Loops** are folds over index ranges in that monad (`for_`), with an
  invariant rule.
* **Indices** are unbounded naturals (or `Z` where the code uses -1); 32-bit
  overflow of `int` is not modelled, except where text is turned into numbers.
* **Scalars.** Wherever possible theorems hold for *any* type with any
  operations (no laws), hence also for IEEE doubles with rounding: this is the
  case for all schedule-independence, ordering, copying and bookkeeping
  theorems. Where algebra is needed (LU = A, (D+L)y = r, ...) scalars are a ring or field given
  as Section variables with their laws, so theorems are quantified over all such
  structures; for doubles they hold up to rounding. Concrete instances used in
  examples: canonical rationals `Qc`, `Z`, and `SpecFloat` binary64.
* **Blocks** are stretches of flat value arrays, in row- or column-major order;
  theorems about block methods are stated entry by entry over the scalars.
* **OpenMP.** A parallel region is a machine (`Async.v`): chunks of rows are
  handed out to threads, every read and write of a shared array is a step of its
  own, and a read may return the current value or *any* value the location has
  held since the region began. Universal theorems hold for all runs of this
  machine. Refutations use only runs in which every read returns the latest
  value (`region_sc`), so they do not depend on the weak memory. Loops whose
  iterations write disjoint locations are run in any order (`par_for`).
  A function with several outcomes is the set of them (`nd`); `nok m Q` says that
  there is an outcome and that all are normal and satisfy `Q`.
* **Objects and histories.** Preconditioner objects, matrices, arrays with
  owners and PETSc sessions are state machines; theorems about histories are
  inductions over lists of calls.


## Plan per property

| id | property | model and proof |
|---|---|---|
| C01 | Array views free each owned block exactly once and never a borrowed one | ArrayView.v: heap of blocks + table of views, one transition per constructor/member; invariant by induction over arbitrary histories. |
| C02 | Moving a matrix storage transfers the matrix and empties the source views | ArrayView.v: the same machine, storage = tuple of five views plus counts. |
| C03 | Deep copy of a raw matrix is equal, disjoint and destroyed exactly once | ArrayView.v (raw matrix copy and destroy over a heap of blocks), PropRaw.v: contents, disjointness, frame, ledger of frees; any order of the copying loops. |
| C04 | Coordinate to sparse-row conversion preserves the matrix | Coo.v (convertToCSR), CooSpec.v (what a coordinate matrix denotes), CooFacts.v: loop invariant, denotation of the result. |
| C05 | Coordinate to block-row conversion preserves the matrix in both storage orders | Coo.v (convertToBSR with a layout function), CooBsr.v; refutation for leading empty block rows. |
| C06 | Matrix Market reading yields the file's entries with consistent row pointers | Coo.v: list of parsed triples -> sort -> row pointer loop; the text tokeniser is out of the model. |
| C07 | Matrix Market header recognition | Coo.v (header decision on the words of the first line), PropCooRead.v. |
| C08 | Sparse matrix-vector product equals the dense product | Matvec.v, MatvecFacts.v, MatvecMain.v: loops over flat arrays, blocks by layout; refinement to the dense sum; rows in any order. |
| C09 | Generalised product computes a*A*x + b*y | Matvec.v: gemv3, z and y possibly the same array. |
| C10 | Column-storage product agrees with row-storage product under any atomic order | ColMat.v, ColMatRing.v: any interleaving of the atomic additions. |
| C11 | Row to column storage conversion preserves the matrix | ColMat.v (counting-sort transpose), ColMatFacts.v, ColMatMain.v: denotation. |
| C12 | Column adjacency lists exactly the nonzeros of each column | ColMat.v (column adjacency), ColMatFacts.v. |
| C13 | Assembly by concurrent block updates adds up | BlockMat.v (a call is a list of element additions), AssemblySpec.v, AssemblyFacts.v: any interleaving of the additions; commutative ring. |
| C14 | Updating a rectangular block of a scalar matrix | BlockMat.v (buffer index), PropAssembly.v: theorem for square blocks, refutations for the others. |
| C15 | Zeroing and scaling operations touch exactly the intended entries | BlockMat.v: loops on flat arrays; PropBlockMat.v, all schedules. |
| C16 | Triangular views denote the lower and upper triangle | TriView.v: view construction, denotation with row-end pointers; PropTriView.v. |
| C17 | Diagonal queries of scalar matrices | BlockMat.v: loops over the diagonal; PropBlockMat.v. |
| C18 | Vector reordering round trip | Reorder.v, ReorderFacts.v: permutation as list; loops. |
| C19 | Matrix reordering permutes entries and is undone by its inverse | Reorder.v, ReorderMain.v: matrix loops on flat arrays with the sort of C23; iterations own disjoint cells (Own.v). |
| C20 | Reordering keeps diagonal positions valid | Reorder.v: refutation witness; condition under which indices stay valid. |
| C21 | Scaling round trip | Reorder.v: scaling loops over a field. |
| C22 | Solving through a reordered and scaled system solves the original one | ReorderMain.v: linear algebra on denotations. |
| C23 | Row sorting sorts indices and keeps index-block pairs together | Helpers.v: selection sort on index and block arrays; Permutation + Sorted. |
| C24 | Inclusive scan | Helpers.v: serial loop. |
| C25 | Parallel prefix sum | PrefixSum.v: per-thread phases, levels; thread count symbolic; refutations by computation. |
| C26 | Level schedules are valid | Levels.v: fuelled loop with fuel shown sufficient; validity. |
| C27 | ILU positions enumerate exactly the needed products | IluPattern.v: two passes; exact characterisation. |
| C28 | Fixed points of the factorisation sweep are the incomplete factors | IluFactor.v (entry kernels), IluFactorFacts.v, IluFactorProofs.v: kernels against the algebraic LU specification of TriSpec.v. |
| C29 | One sequential sweep computes the exact incomplete factorisation from any initial guess | AsyncSystem.v/AsyncSweeps.v: generic theorem on acyclic systems of kernels, instantiated in IluFactorProofs.v and IluFactorMain.v. |
| C30 | Exact factors are stable under asynchronous sweeps | Async.v: machine whose reads return any value written since the region began; AsyncTheory.v: invariance; IluFactorProofs.v. |
| C31 | Asynchronous factorisation converges finitely when sweeps are separated | AsyncSweeps.v/Chains.v: depth argument; IluFactorStall.v: refutation for unseparated sweeps by an explicit execution. |
| C32 | Factorisation residual is zero exactly for exact factors | IluFactor.v: residual sums, any order of the reduction (Reduction.v); PropIluFactor.v, PropIluInit.v. |
| C33 | Factor initialisation honours the requested option | IluFactor.v (initialisation loops), IluFactorInit.v, PropIluInit.v; refutations. |
| C34 | Sequential ILU application solves L U z = r | Kernels.v, IluApply.v; TriSpec.v (dense triangular systems); IluApplyProofs.v, IluApplyMain.v. |
| C35 | Every advertised application initialisation works for ILU | IluApply.v: apply ends in Throw; PropIluApply.v. |
| C36 | Asynchronous triangular solves | AsyncSystem.v/AsyncSweeps.v instantiated in IluApplyMain.v; IluApplyStall.v: refutation by an explicit execution. |
| C37 | Level-scheduled application equals the sequential one bit for bit | IluApply.v, Sgs.v (level loops); IluApplyMain.v, SgsMain.v; no law of arithmetic used. |
| C38 | Symmetric Gauss-Seidel application | Sgs.v, SgsFacts.v, SgsProofs.v, SgsForms.v, SgsMain.v: as C34 with the Gauss-Seidel kernels. |
| C39 | Relaxations keep exactly the solutions of A x = b | Sgs.v (relaxations), SgsForms.v, SgsMain.v: solutions are fixed points of every kernel; conversely. |
| C40 | Jacobi preconditioner and iteration | Sgs.v (Jacobi), SgsMain.v. |
| C41 | Column-based backward Gauss-Seidel is the exact backward solve | ColMat.v (CSC backward Gauss-Seidel), ColMatRing.v; refutation for two threads. |
| C42 | The identity preconditioner is the identity | Sgs.v: copying loop. |
| C43 | Preconditioner application has no memory | Memory.v: state machine with work arrays, all histories of apply calls. |
| C44 | Recomputing a preconditioner forgets the old matrix | IluFactor.v, IluFactorMain.v: state machine of compute calls. |
| C45 | Preconditioner names and types | Factory.v over strings. |
| C46 | Factory dispatch is total and honours the sequential variants | Factory.v over Z block sizes. |
| C47 | Sweep options | Petsc.v over Z sweep counts. |
| C48 | Preconditioner context list bookkeeping | Petsc.v: linked list in a heap. |
| C49 | A user-supplied factory is used | Petsc.v: recursion over solver trees. |
| C50 | Accumulated timings are the sums over contexts | Petsc.v. |
| C51 | Approximate-inverse patterns and small systems | Sai.v models both pattern functions, gathering, scattering and compute_SAI; Eigen's dense solvers are an arbitrary function. SaiSpec.v says which unknowns, equations and entries the small systems have; the loops are shown to produce exactly these by invariants over the list of (row, entry) pairs. The assert in gather_lhs_matrix is refuted. |
| C52 | Diagonal dominance measures | MatProps.v, Reduction.v: oracles for magnitude and order with the laws used. |
| C53 | Maximum norm | MatProps.v, Reduction.v: oracles for magnitude and order; the starting value is the smallest normal number. |
| C54 | Constructor flags reach the right members | Factory.v: constructor parameter passing. |
| C55 | Matrix construction from arrays | BlockMat.v: constructors; PropConstruct.v. |
| C56 | Matrix comparison | BlockMat.v: areEqual; PropBlockMat.v. |
| C57 | ILU is a direct solver when there is no fill-in | IluFactor.v + IluApply.v: composition of factorisation and application theorems. |
| C58 | Symmetric scaling gives a unit diagonal | IluFactor.v: getScalingVector, scaled matrix. |
| C59 | Reordered ILU preconditioning solves the original system | ReorderedIlu.v: the reordering preconditioner, composition of C19, C18 and C57; refutation by a permuted identity matrix. |
| C60 | Constructing from a raw matrix takes over its arrays | RawCtor.v over the heap of ArrayView.v: contents through the new views, and the heap after the destructor; leak stated as a refutation. |
| C61 | PETSc options reach the preconditioner | Petsc.v: option reading, settings and creation as status-returning functions; garbage in unset members universally quantified; inversion against an options-to-preconditioner specification. |
| C62 | Repeated set-up through PETSc | Petsc.v: induction over any list of set-up calls from a prepared context; refutation for the call after a failed one. |
| C63 | Relaxation is registered for the preconditioners that support it | Petsc.v: the contents of a new context's memory are a parameter of the stack set-up; refutation: both outcomes occur. |
| C64 | Approximate inverses are as good as their pattern allows | From C51: the residual of a small system is a row of M A - I, for any values (commutative ring). |
| C65 | Reading a matrix file into a PETSc matrix | PetscIo.v: a PETSc matrix is a record with a value function; MatSetValues and its relatives as documented (index errors detected in a debugging build, undefined otherwise). Composition with C06, C04, C05; refutations for every file of the given shape. |
| C66 | Reading dense files and vectors | PetscIo.v: the numbers of a dense file are a list in which words that are not numbers are marked; stream extraction as in the C++ standard (a failed extraction stores zero and stops the stream). |
| C67 | Reading single options | PetscIo.v: an option is unset, unreadable or has a value; case analysis. |
| C68 | Applying a preconditioner object after any history | Objects.v models preconditioner objects with all their members; ObjHistory.v: an invariant over lives of objects (what each member holds); composed with C33-C43, C57. ObjTotal.v: all calls return. |
| C69 | Relaxation through PETSc | Objects.v: relax_local_blasted; GsSweep.v specifies sweeps row by row, independently of the kernels; composition with C39-C42. |
| C70 | Changing the matrix after set-up | Objects.v: two runs which differ only in the matrix given; refutation by a 2x2 matrix for each of the three classes. |
| C71 | PETSc sessions from options to result | PropSession.v: an inductive definition of sessions over Petsc.v and Objects.v; induction to a life of an object (C68), inversion of the options (C61). PropSessionMore.v: the remaining names, blocks, scaling and counts of -1. |
| C72 | Matrix files are read as written, character by character | MMText.v: streams with characters, eofbit and failbit; getline, stoi and extraction as in the C++ standard; conversion of reals is an oracle. A grammar of files as an inductive definition; induction over it. Divergence: every fuel is used up; the fuel used by the model is shown to be enough. |
| C73 | MC64 gives a best column ordering and unit diagonals | Mc64.v models MC64::compute with mc64ad_ and std::exp as parameters, on top of the conversion to 1-based column storage (ColMat.v) and reordering (Reorder.v). MC64's documentation is stated as a separate specification (promised, keeps_promise in PropMc64.v): lengths of work arrays, best transversal, dual factors of job 5. Proof: an invariant of the loop that stores permutation and factors, then C11 (conversion), C18 and C19 (orderings), C21 (scaling). The four claims that fail are refuted, the last two on matrices for which an MC64 that keeps its promise is given. |
| C74 | Relaxation of dominant matrices converges under every schedule, at a rate per call; steps of one call need not gain anything | An invariant of the region machine: all values ever visible to a thread stay in a box G around the solution, and every task that starts from values in G stores values in the smaller box S (AsyncSets.region_improves). The kernels map the box of radius e into that of radius rho e (RelaxNear, Contract). Refutations by the stalled-thread schedule (AsyncSweeps.stalled_task) and by the simultaneous schedule (AsyncJacobi.simultaneous_rows). |
| C75 | Programs that use the PETSc interface as documented neither touch freed memory nor lose any | Life.v combines the functions of Petsc.v to histories, adding preconditioner objects, the pointer each context has to one, PETSc's table of shells and what it calls. LifeFacts.v proves an invariant (separate linked lists, diagnostics and factories; each live object pointed to by the context of one existing shell) and that every allowed step keeps it and succeeds; the theorems follow by induction on the history. |
| C76 | Incomplete factorisation of dominant matrices cannot break down | DominantLu.v proves that a row of the incomplete elimination inherits dominance from the row of the matrix and the rows above, by summing the equations of the row and cancelling; PropDominantIlu.v applies it row by row to the array that C29 shows to be computed. Refutations: a 2x2 matrix of ones, and a 4x4 symmetric positive definite matrix after Kershaw, both shown to give a zero pivot. |
| C77 | Scaling does not change the ILU preconditioner | ScaledLu.v shows that if L and U are incomplete factors of A, then S L S^-1 and S U S are incomplete factors of S A S on the same pattern, for scalars and for the two block layouts. By the uniqueness of exact factors (C68, C29) these are what is computed with scaling, and the solutions correspond. |
| C78 | Applied in order, every preconditioner is one fixed, one-to-one linear operator | PropLinear.v: `gives` = every lived object returns this vector; each class solves P z = r with a fixed matrix P (from C68, C77); linearity and injectivity follow for vectors solving a linear system. PropLinearEx.v: two schedules of the two-thread backward sweep with different results. |
| C79 | Preconditioners of symmetric matrices are symmetric, of definite matrices definite | SymSpec.v (symmetric, form, ordered field, positive definite) as the specification; SymFacts.v: the SGS matrix (D+L)D^-1(D+U) and the product L U of incomplete factors are symmetric (for a symmetric pattern U = D L^T by strong induction) and x^T L U x = sum of forms of the pivot blocks; combined with the operator of C78. |
| C80 | A matrix object is the matrix its calls describe | An abstract matrix (pattern, entries as optional numbers) with the effect of each call (MatObjSpec.v); the object's calls as a machine (MatObj.v); a refinement relation preserved by every call, by the theorems C13, C14, C15, C18, C19, C21, C55; products by C08, C09, queries by C17 (PropMatObj.v). |
| C81 | Gauss-Seidel relaxation of symmetric positive definite matrices loses energy with every call | PropEnergy.v: solving block row i makes the residual of that row zero, so by symmetry the energy falls by exactly the energy of the change; induction over any list of rows; if nothing changed in a list with all rows, the vector solves the system. Drivers reduce to row lists by the lemmas of GsSweep/SgsProofs. PropEnergyEx.v: cases and the Jacobi counterexample for all iteration counts. |
| C82 | For symmetric dominant matrices with positive diagonal every ordered scalar preconditioner is symmetric and positive | PropDominantSym.v: from C76 (strengthened: each pivot differs from the diagonal entry by at most rho times it) pivots are positive; the form is at least (1-rho) times the weighted squares (2 y_i y_j <= y_i^2 + y_j^2 and a swap of sums), so the matrix is definite; C79 then applies with all its hypotheses discharged. |
| C83 | A matrix object made from a Matrix Market file is the matrix written in the file | Compose the text reader (C72), the conversions (C04, C05) and the refinement between matrix objects and abstract matrices (C80): show that the constructed object refines the abstract matrix of the file, whether or not the returned object is copied. |
| C84 | Comparing two matrix objects tells whether they are the same matrix | The flags compare arrays (C56). Show that with sorted rows the pattern determines the row pointers and column indices, and that the values correspond to the entries of the matrices which the histories describe (C80). Round trip at the level of abstract matrices. For blocks refute the converse: blocks of a row in another order, and the round trip of a row with blocks out of order. |
| C85 | The reported times are those of the successful calls | PropTimes: specification account, which runs along the history and books the time of each successful call; the invariant that the sum over the contexts of each list is its account, on top of the invariant of C75; the single calls on the objects of Objects. |
| C86 | A vector of the wrong length is refused without effect in debug builds, and only there | The PETSc entry points of Objects.v with the build flag as an argument; the refused call's every outcome is computed, and the unchecked claim is refuted on a concrete object by showing every outcome is undefined behaviour. |
| C87 | The diagnostic record holds under each heading what the heading names | Diag.v models the record as an array of six numbers with the positions of the accessors and the headings, and both factorisations with the record threaded through them; the remainders follow from the value form of the residual loops and the dominances from C52. The factorisations of C28-C33 are shown to be the same programs. |
| C88 | The diagnostics of a shell are those of its successful set-ups, in order | An invariant of the histories of Life ties the records of every context to the set-ups counted by a separate specification; single set-ups with the object they call use Objects. |
| C89 | Triangular views share the arrays of their matrix and own only their row bounds | TriHeap.v runs the view functions on the heap of ArrayView.v; PropTriHeap.v proves by simulation that the loops on the heap do what the list loops of TriView.v do, then tracks blocks. |
| C90 | Setting up ILU is defined exactly while the number of products fits in the index type | IluIndex.v repeats compute_ILU_positions with index additions that are undefined on overflow and the accumulation in int as written; PropIluIndex.v compares it with IluPattern.v and counts products, with a closed formula for dense matrices. |
| C91 | With rounding errors, products, relaxations and triangular solves are exact for a nearby matrix | Rounding.v states the standard model of rounding on rational scalars; the law-free kernel characterisations are instantiated with the rounding operations, each row is rewritten as an exact row with factors close to 1 (RoundFacts, RoundSolve, RoundMatvec), finite choice over rows gives the changed matrices, and RoundBounds turns factors into the usual ku/(1-ku) bound. RoundInst builds a machine with p binary digits that meets the hypotheses. |
| C92 | With rounding errors, the factors reproduce the matrix up to a few roundings per row, and compute-then-apply solves a nearby system | The unique array that sequential sweeps produce (law-free result behind C29) is consistent with the rounding operations; unrolling one entry's sum backwards (RoundFactor.v) writes the matrix entry as the sum of the products with factors close to 1; together with C91 and addition of the two bounds this gives the backward error of the solver. |
| C93 | In rounded arithmetic, relaxation of a diagonally dominant matrix still approaches the solution under every schedule | AsyncShrink.v: for any arithmetic, if each row maps values of kind K k to values of kind K (k+1), every schedule of a call does too (AsyncSets invariant). RoundRelax.v: with rounding, a row computed from any values within e of the solution is within rho g e + (g-1) X. PropRoundRelax.v puts them together. |
| C94 | The order in which a compiler evaluates the sums, and its use of fused multiply-adds, do not matter | Reduce.v: evaluation orders as trees, the kernels parametrised by the way of summing. Exact arithmetic: programs with the same reads and writes have the same outcomes in the machine of Async.v (a simulation), and a tree over a permutation of the terms has the value of the loop. Rounding: a tree with k+1 leaves rounds each term at most k+1 times, which is all the proofs of C91 and C93 use. |
| C95 | The order of the subtractions in the incomplete factorisation, and fused operations, do not matter | ReduceFactor.v: trees of partial results (value on entry, a lane's first subtraction from 0, further subtractions fused or not, additions of lanes); the factorisation parametrised by the way of summing. ReduceFactorFacts.v: programs with equal reads have equal outcomes; sums in a ring are order-independent; sequential set-ups for any way of summing. RoundReduce.v: at most one rounding per addition and two per product by induction on the tree; the factorisation error then follows from C92's argument, parametrised. |
| C96 | The conversion program writes exactly its inputs | Convert.v: the disk as a function from names to contents, the C string functions with the length of the array, PETSc's viewers as writing at the start of a file, main in the order of the code; the readers are those of PetscIo.v. PropConvert.v composes C65 and C66 with the writes. |
| C97 | Error codes become exceptions | PetscError.v: classes of exceptions and the functions branch by branch; PropPetscError.v by case distinction. |
| C98 | The ILU(0) set-up within the range of 32-bit indices | IntRange.v repeats compute_ILU_positions with int positions, checked signed addition, conversions modulo 2^32/2^64 and std::accumulate with an int accumulator; TripleSpec.v counts the products independently of the code. Proved by comparison with the closed form of the unbounded model (IluPatternFacts.v), a bijection between list entries and triples, and the sum of squares for full matrices. |
| C99 | The iterative solvers report the true residual norm of what they return | Solvers.v models the three solvers with the matrix and the preconditioner as arbitrary objects (sets of outcomes); SolveSpec.v defines residuals and iterates. Invariants: r = b - A x after every update, q_k = A p_k for every direction of GCR. PropSolvers.v instantiates the matrix object with the modelled products (C08, C09). |
| C100 | GCR is flexible GMRES | SolveSpec.v defines best vectors and flexible GMRES without reference to the solver. Invariant: the images q of the directions are nonzero and orthogonal to each other and to the residual, and span the images of the answers; GcrFacts.v. |
| C101 | GCR without restart needs at most as many steps as unknowns | At most N nonzero vectors with N entries are orthogonal to each other (Bessel's inequality for the unit vectors, summed); apply to the images of the directions and the residual (GcrFacts.v). |
| C102 | BiCGSTAB is the textbook method | BicgSpec.v gives the textbook recurrence on vectors. PropBicg.v proves by induction over the passes that the state of the program before each pass holds the textbook x and r and that its update of p yields the textbook direction (C102_textbook). |
| C103 | BiCGSTAB ends within N steps unless it breaks down | BicgFacts.v: the BiCGSTAB vectors are a product of factors I - omega A K applied to the residuals and directions of BiCG, which are biorthogonal to the powers of the transposed operator applied to the first residual (induction over the steps). A triangular family has at most N members (Gram-Schmidt and Bessel), so the N-th residual is zero. PropBicg.v combines this with C102 (C103_textbook_finite, C103_finite); C103_skew_refuted shows the breakdown; C103_case is a 3 x 3 system without breakdown. |
| C104 | A solver started from the exact solution (false for BiCGSTAB and GCR) | NanFacts.v proves with the IEEE operations of SpecFloat that zeros stay zeros, 0/0 is NaN and NaN is absorbing, also through reductions in any order, and follows zero and NaN vectors through the loops. PropNan.v: C104_richardson, and C104_bicgstab_refuted, C104_gcr_refuted for the failures; C104_csr and C104_zero_system show that CSR matrices with finite entries meet the hypotheses. |
| C105 | The generated Poisson problem is the finite-difference discretisation | Poisson.v models the mesh, the triple loops with checked accesses at PetscInt indices, and the entries handed to MatSetValuesStencil. PoissonSpec.v defines the second difference quotient, the grid and its partition. PoissonFacts.v shows the loops produce one row per owned point; the values equal the difference quotient by field arithmetic. |
| C106 | The Poisson matrix is monotone, nonsingular and symmetrisable | The rows are minus the discrete Laplacian (C105). At a negative minimum the lower x-neighbour has the same value; walking down reaches the boundary, where the value is zero. |
| C107 | The library's methods work on every generated Poisson matrix | With w = (x_max - x)(x - x_min) the matrix gives at least 2 in every row (exactness on quadratics; dropped boundary neighbours only help), so the weighted off-diagonal sum is at most (1 - 2/B) times the diagonal for a bound B. Then C76 and C74 apply. |
| C108 | The separate factorisation without scaling is the general one; the approximate-inverse class does nothing | Model the function in IluNoscale.v with its own initialisation loops and compare outcome sets; the class is three one-line functions. |
| C109 | The iterative solvers with the library's preconditioners; an exact preconditioner (false for BiCGSTAB in double precision) | Show from C78 that the object's apply is a linear function and build its matrix from the answers to the unit vectors (PropKrylov.v); then unfold one step of each solver. The refutation follows the step in IEEE arithmetic over all orders of the reductions (PropKrylovNan.v). |
| C110 | The control file of the Poisson problem is read as written, and only some malformed files are noticed | Model fscanf's three conversions on the characters of the file (PoissonSetup.v), with indeterminate variables as None and overflow, null pointers and indeterminate reads as UB. Specify files as lists of items written with blanks between them and cut at any place; prove the result for every cut by eating items one after the other. |
| C111 | From the text of the files to the reported result: the solver driver solves and reports on the system that is written in the files | TestSolve.v composes the models of reading, conversion, factory, compute(), apply() and the solvers; ObjShape.v shows that apply() returns vectors of the right size; the theorems compose C72, C04, C68, C99 and C109. |
| C112 | The conversion to blocks orders the blocks of a block row by their first entry, not by column | The invariant of the loop that collects the block columns is extended by the order of first appearance. The condition for increasing order is proved equivalent, and a parametric counterexample with one entry in the second row of a lower block is run through the models of the conversion, the kernels and the application of the factors. |
| C113 | The driver of the reordering test solves full systems exactly, rejects wrong results, and loses the diagonal of sparse matrices | The driver is modelled from the text of the files to the two results on top of the models of reading, conversion, the ILU objects, the reordering ILU and the solvers. The ordering is its own inverse, so C59 applies; in full matrices the diagonal indices stay valid because every row has all columns. The lost diagonal follows from the places of the first two columns in sorted rows. |
| C114 | The solver driver with matrices of dense blocks reports on the system in the files, and refuses every other layout | The driver's model of C111 already takes the block size. The conversion theorems C05 and C112 give a well-formed block matrix with the values in the file, C68 and the shape of results give the preconditioner object, and C99 the reports of the solvers. Refusals follow from the case analysis of the factory and of the conversion by name. |

## Trusted base

1. **Coq's kernel** (8.16.1, `coqc` and, as a second check, `coqchk`). No kernel
   check is switched off and no plugin is used.
2. **Axioms: none.** Every property file ends with `Print Assumptions` for each
   theorem, and each prints `Closed under the global context`. (`vcheck` lists
   seven parameters of `Coq.ssr.ssrunder`, which are loaded with std++ and used by
   no theorem.) Libraries used: Coq's standard library and std++.
3. **The model is written by hand** from the text of /repo. Every definition cites
   the lines it models and says where it simplifies. Nothing but reading, and the
   theorems themselves, connects the two. The definitions were tested by mutation
   (`seeded/LOG.jsonl`): edits of the model which make a claim false must break a
   theorem.
4. **Specifications.** The words of a theorem's statement: `dense`/`bdense` (the
   matrix a storage represents), `is_prod`, `is_inverse`, `levels_for`,
   `entries`, `error_within`, ... They are short and stand apart from the model
   (`SRMatrix.v`, `TriSpec.v` and the first section of each `Prop*.v`).

### What is taken as given

| where | assumption |
|---|---|
| `Async.v`, `Nd.v` | OpenMP: iterations of a loop are handed out in chunks in order, `nowait` lets chunks of later loops start early, the end of a region is a barrier; accesses to shared scalars are atomic and a read returns a value written since the region began (C++ calls this a data race; the code relies on it) |
| `Base.v` | memory is a set of separate arrays; allocation succeeds and gives arbitrary contents |
| `Alg.v` | laws of rings or fields only where a theorem asks for `CRing`/`Field`; `Norms.v`: laws of the absolute value |
| `IluFactor.v`, `Sgs.v`, `SgsForms.v` | Eigen: products and sums of small dense blocks are those of mathematics, `inverse()` of an invertible block is an inverse (`inverse_oracle`), of a singular block is anything |
| `Sai.v` | Eigen's dense solver is an oracle; theorems say what systems it is given |
| `IluFactor.v`, `Sgs.v`, `MatProps.v` | `std::sqrt`, `std::abs`, `<` on scalars are arbitrary functions, with laws only where a theorem states them |
| `Coo.v`, `MMText.v` | `std::sort` sorts (any sorted permutation); `std::getline`, `>>` and `std::stoi` as in C++17, device errors aside; the scanner of real numbers is a function `scan_real` |
| `Mc64.v`, `Reorder.v` | HSL's `mc64ad_` is an oracle that fills its arrays; `std::exp` is a function |
| `Petsc.v`, `Objects.v`, `PetscIo.v`, `PropSession.v`, `Life.v` | PETSc: PCSHELL contexts hold the pointer they were given; PETSc calls the functions registered with a shell, and only those (set-up before the first application, the destroy function once when the PC is destroyed); `MatGetDiagonalBlock`, `MatSeqAIJGetArray` and their relatives return the local matrix or an error; options are a finite map from names to text; `MPI` returns what was sent |

### Which parts of the code are modelled

* `include/arrayview.hpp, include/srmatrixdefs.hpp`: owners and views of arrays, raw matrix structures (`ArrayView.v, SRMatrix.v`)
* `src/rawsrmatrixutils.cpp`: copies, views of triangles, scalings, symmetric views (`ArrayView.v, TriView.v, ReorderedIlu.v`)
* `src/blockmatrices.ipp`: BSRMatrix and CSRMatrix: construction, assembly (submitBlock, updateBlock, updateDiagBlock), scaleAll, products, dimensions, reordering (`BlockMat.v, RawCtor.v, Mc64.v, Reorder.v`)
* `src/scmatrix.cpp, src/adjacency.*, src/blas/*`: conversion to columns, column-wise Gauss-Seidel, products (`ColMat.v, Matvec.v, MatProps.v`)
* `src/coomatrix.cpp, include/coomatrix.hpp`: Matrix Market files from characters, sorting, conversion to CSR and BSR (`Coo.v, MMText.v`)
* `src/utils/*.cpp`: prefix sums, reading options, reading PETSc files, the conversion program, error codes (`PrefixSum.v, PetscIo.v, Convert.v, PetscError.v`)
* `src/ilu_pattern.cpp, src/helper_algorithms.*, src/levelschedule.cpp, src/matrix_properties.cpp`: positions for ILU, search of diagonals, levels, properties of matrices (`IluPattern.v, Helpers.v, Levels.v, MatProps.v`)
* `src/kernels/*.hpp`: all kernels (`Kernels.v, IluFactor.v`)
* `src/async_ilu_factor.cpp, src/async_blockilu_factor.cpp`: asynchronous ILU(0) factorisation, scalar and block, initial factors, remainder (`IluFactor.v`)
* `src/solverops_ilu0.cpp, src/solverops_levels_ilu0.cpp`: factorise and apply, asynchronous and by levels, reordered (`IluApply.v, IluFactor.v, ReorderedIlu.v, Objects.v`)
* `src/solverops_jacobi.cpp, src/solverops_sgs.cpp, src/solverops_levels_sgs.cpp, src/relaxation_chaotic.cpp, src/solverops_base.cpp`: compute, apply, apply_relax of each (`Sgs.v, ColMat.v, Objects.v`)
* `src/sai.cpp`: sparse approximate inverse (`Sai.v`)
* `src/reorderingscaling.cpp`: permutations, scalings, MC64 (`Reorder.v, Mc64.v`)
* `src/solverfactory.cpp, include/solverfactory.hpp`: the factory and its settings (`Factory.v`)
* `src/blasted_petsc.cpp, include/blasted_petsc.h`: set-up, application, relaxation, destruction and timing through PETSc (`Petsc.v, Objects.v`), and the lifetimes of contexts, lists and preconditioner objects over histories of calls (`Life.v`)
* `src/async_ilu_factor.cpp` (the separate unscaled factorisation), `src/solverops_sai.cpp`: `IluNoscale.v`
* `tests/solvers.cpp`: Richardson, BiCGSTAB, GCR (`Solvers.v`; over fields, and C104 over IEEE doubles)
* `tests/testsolve.cpp`: `test_solve` (`TestSolve.v`; the files are strings, the command line and the messages are left out; the solvers may find the preconditioner object in any state that calls of `apply()` can leave)
* `tests/testreorderedsolve.cpp`: `createTrivialColReordering` and `testSolve` (`TestReordered.v`; the same simplifications; each application of the reordering preconditioner may find any contents in its work vectors)
* `tests/poisson3d-fd`: the mesh and the matrix, right-hand side and error norm of the Poisson problem (`Poisson.v`; PETSc's DMDA is a list of boxes, one per process, and `MatSetValuesStencil` a list of entries; `sin`, `cos` and `PI` are functions and a value with laws only where a theorem states them); the control file and the creation of the mesh (`PoissonSetup.v`; the file is a string, `fscanf`'s "%s" and "%d" are modelled on its characters, "%lf" is a section variable, and so is the error code of creating the DMDA; the rest of `setup_poisson_problem` is a sequence of PETSc calls and of the modelled assembly)

### Which are not

* Rounding in the theorems that use algebra; 32-bit overflow (except the index ranges of C98); failure of
  allocation; assertions (`assert`, except where `Sai.v` says so); printing and
  wall-clock time (only where a sum of times is reported, and then any numbers).
* Vectorised reassociation of sums inside one row (`#pragma omp simd`), except in C94 and
  C95 (`Reduce.v`, `ReduceFactor.v`), where every order and every use of fused operations
  is covered for the scalar kernels. Partial sums of threads in `reduction` clauses are
  modelled (`Reduction.v`).
* Code that is not compiled or not reachable: `solverops_sgs_sai.cpp`,
  `apply_local_base` (`#if 0`), `MC64_AsyncILU0_SRPreconditioner` (its constructor
  does not compile, see C73), `relaxation_async_sgs.hpp`, `dynamic_array_list.hpp`.
* The rest of `tests/` (drivers, option and mesh files), CMake files.
