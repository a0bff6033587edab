{
 "claims": [
  {
   "property": "C01",
   "status": "proved",
   "theorems": [
    "C01_freed_once"
   ],
   "note": "Failing allocations included; a move-to-const with or without copy elision."
  },
  {
   "property": "C02",
   "status": "proved",
   "theorems": [
    "C02_move",
    "C02_move_to_const",
    "C02_share",
    "C02_share_dangles",
    "C02_share_empty_refuted"
   ],
   "note": "Sharing is proved for storages whose array lengths match their counts; sharing an empty storage is refuted."
  },
  {
   "property": "C03",
   "status": "proved",
   "theorems": [
    "C03_copy",
    "C03_partial_view_refuted",
    "C03_no_row_ends"
   ],
   "note": "Every order of the iterations of the copying loops; for partial views destruction of the copy is undefined (refuted)."
  },
  {
   "property": "C04",
   "status": "proved",
   "theorems": [
    "C04_csr",
    "C04_same_matrix"
   ],
   "note": "Any finite coordinate matrix with valid row pointers; any contents of fresh arrays."
  },
  {
   "property": "C05",
   "status": "proved",
   "theorems": [
    "C05_block_rows",
    "C05_empty_first_block_row_refuted",
    "C05_by_name"
   ],
   "note": "Every block size and both storage orders, when the first block row is nonempty (the code is wrong otherwise: C05_empty_first_block_row_refuted)."
  },
  {
   "property": "C06",
   "status": "proved",
   "theorems": [
    "C06_read",
    "C06_read_convert",
    "C06_empty_row_refuted",
    "C06_refused"
   ],
   "note": "For files with an entry in every row, any outcome of the unstable sorts; a file with an empty row is undefined behaviour (C06_empty_row_refuted). Text-to-number conversion of the entries is outside the model."
  },
  {
   "property": "C07",
   "status": "proved",
   "theorems": [
    "C07_words",
    "C07_header",
    "C07_pattern_refuted",
    "C07_skew_symmetric_refuted",
    "C07_blanks"
   ],
   "note": "Headers split at blanks as the stream operators do; headers announcing pattern or skew-symmetric matrices are misread (refuted)."
  },
  {
   "property": "C08",
   "status": "proved",
   "theorems": [
    "C08_scalar_product",
    "C08_block_product",
    "C08_schedule_independent"
   ],
   "note": "Scalar and block, both storage orders; the bitwise schedule independence holds for any arithmetic."
  },
  {
   "property": "C09",
   "status": "proved",
   "theorems": [
    "C09_scalar_gemv3",
    "C09_block_gemv3",
    "C09_schedule_independent"
   ],
   "note": "Scalar and block; also in place."
  },
  {
   "property": "C10",
   "status": "proved",
   "theorems": [
    "C10_column_gemv3",
    "C10_same_as_rows"
   ],
   "note": "Every order of the atomic additions, both storage orders, any block size, also in place; same result as the row product of the matrix converted from."
  },
  {
   "property": "C11",
   "status": "proved",
   "theorems": [
    "C11_convert",
    "C11_same_matrix",
    "C11_convert_1based"
   ],
   "note": "Matrices without duplicate entries, in any order within rows."
  },
  {
   "property": "C12",
   "status": "proved",
   "theorems": [
    "C12_column_adjacency"
   ],
   "note": ""
  },
  {
   "property": "C13",
   "status": "proved",
   "theorems": [
    "C13_block_assembly",
    "C13_scalar_assembly",
    "C13_submit"
   ],
   "note": "Over every commutative ring, every interleaving of the atomic element additions, block and scalar class."
  },
  {
   "property": "C14",
   "status": "proved",
   "theorems": [
    "C14_submit",
    "C14_update_exact",
    "C14_square",
    "C14_tall_refuted",
    "C14_wide_refuted"
   ],
   "note": "Square blocks exact for every position; for bsi > bsj the code reads beyond the buffer and for bsi < bsj it adds the wrong entries (both refuted for every matrix containing the positions)."
  },
  {
   "property": "C15",
   "status": "proved",
   "theorems": [
    "C15_block_zero",
    "C15_scalar_zero",
    "C15_block_scale",
    "C15_scalar_scale",
    "C15_diag_zero",
    "C15_scalar_diag_zero"
   ],
   "note": "All schedules of the parallel loops, values of any type."
  },
  {
   "property": "C16",
   "status": "proved",
   "theorems": [
    "C16_views"
   ],
   "note": "Scalar and block, both storage orders."
  },
  {
   "property": "C17",
   "status": "proved",
   "theorems": [
    "C17_zero_row",
    "C17_zero_count",
    "C17_product",
    "C17_abs_sum",
    "C17_abs_min",
    "C17_abs_min_empty",
    "C17_abs_max"
   ],
   "note": "Magnitude and order are oracles with the laws of a strict total order (empty matrix case separate)."
  },
  {
   "property": "C18",
   "status": "proved",
   "theorems": [
    "C18_inverse_permutation",
    "C18_set_ordering",
    "C18_apply_vector",
    "C18_vector_round_trip"
   ],
   "note": "Any block size and permutation; each of the four mode/direction pairs of applying to a vector."
  },
  {
   "property": "C19",
   "status": "proved",
   "theorems": [
    "C19_forward",
    "C19_inverse",
    "C19_round_trip"
   ],
   "note": "Any block size; either, both or no orderings; forward, inverse and round trip for matrices with any order inside rows."
  },
  {
   "property": "C20",
   "status": "proved",
   "theorems": [
    "C20_diagonal_kept_refuted"
   ],
   "note": "False of the code: a row ordering leaves the diagonal indices stale. Proved as a refutation."
  },
  {
   "property": "C21",
   "status": "proved",
   "theorems": [
    "C21_matrix",
    "C21_vector",
    "C21_round_trip",
    "C21_vector_round_trip"
   ],
   "note": "Any block size; round trips need nonzero factors."
  },
  {
   "property": "C22",
   "status": "proved",
   "theorems": [
    "C22_solve_reordered_scaled"
   ],
   "note": ""
  },
  {
   "property": "C23",
   "status": "proved",
   "theorems": [
    "C23_sort_row"
   ],
   "note": "For any row range and block size; keys and payload blocks."
  },
  {
   "property": "C24",
   "status": "proved",
   "theorems": [
    "C24_inclusive_scan",
    "C24_inclusive_scan_copy"
   ],
   "note": "The scan is serial code, so there is no schedule to quantify over."
  },
  {
   "property": "C25",
   "status": "proved",
   "theorems": [
    "C25_prefix_sum",
    "C25_one_to_four_threads",
    "C25_too_few_levels_refuted",
    "C25_five_threads_refuted",
    "C25_idle_thread_refuted"
   ],
   "note": "Holds when there are enough combination levels for the thread count (1..4, 8, ... threads) and every thread has work; the failures for 5 threads and for idle threads are refutation theorems."
  },
  {
   "property": "C26",
   "status": "proved",
   "theorems": [
    "C26_valid_levels",
    "C26_unsymmetric_refuted"
   ],
   "note": "Stated for symmetric sorted patterns with full diagonal. For an unsymmetric pattern the loop does not terminate (C26_unsymmetric_refuted)."
  },
  {
   "property": "C27",
   "status": "proved",
   "theorems": [
    "C27_ILU_positions"
   ],
   "note": "The two position lists are exactly the pairs (i,t),(t,c) with t < min(i,c), each once, in increasing order."
  },
  {
   "property": "C28",
   "status": "proved",
   "theorems": [
    "C28_fixed_points",
    "C28_block_fixed_points"
   ],
   "note": "Scalar and block (block inverse an oracle): a fixed point of the entry kernels is exactly a factorisation that agrees with the scaled matrix on its pattern."
  },
  {
   "property": "C29",
   "status": "proved",
   "theorems": [
    "C29_sequential_sweeps",
    "C29_block_sequential_sweeps",
    "C29_compute_sequential",
    "C29_block_compute_sequential"
   ],
   "note": "Any number of sequential sweeps >= 1, any chunk size, initialisation; at the level of the sweeps and of the whole set-up."
  },
  {
   "property": "C30",
   "status": "proved",
   "theorems": [
    "C30_exact_factors_stable",
    "C30_block_exact_factors_stable"
   ],
   "note": "Every schedule of the asynchronous machine, scalar and block."
  },
  {
   "property": "C31",
   "status": "proved",
   "theorems": [
    "C31_dependencies",
    "C31_separated_sweeps_exact",
    "C31_block_separated_sweeps_exact",
    "C31_entries_many_sweeps_suffice",
    "C31_unseparated_sweeps_refuted"
   ],
   "note": "Exactness after as many separated sweeps as the longest dependency chain, scalar and block; for the unseparated (nowait) sweeps of the code, for every chunk size, number of sweeps and initialisation, a matrix with exact factors for which two threads may leave other factors (sequentially consistent schedule)."
  },
  {
   "property": "C32",
   "status": "proved",
   "theorems": [
    "C32_residual_zero_iff_exact",
    "C32_block_residual_zero_iff_exact",
    "C32_reported_residual"
   ],
   "note": "Residual zero iff exact on the pattern, scalar and block, for magnitudes that are zero only at zero; the reported numbers are the residuals before and after."
  },
  {
   "property": "C33",
   "status": "proved",
   "theorems": [
    "C33_original",
    "C33_none",
    "C33_sgs",
    "C33_block_zero_original",
    "C33_block_sgs",
    "C33_zero_refuted",
    "C33_scaled_sgs_out_of_bounds_refuted",
    "C33_scaled_sgs_values_refuted"
   ],
   "note": "Each initialisation option characterised; the documented behaviour of 'zero' and of scaled SGS initialisation is false of the code and refuted."
  },
  {
   "property": "C34",
   "status": "proved",
   "theorems": [
    "C34_scalar_sequential_apply",
    "C34_block_sequential_apply"
   ],
   "note": "Scalar and block, exact field/ring arithmetic; result independent of work vectors, sweeps >= 1, chunk size and initialisation."
  },
  {
   "property": "C35",
   "status": "proved",
   "theorems": [
    "C35_init_none_refuted",
    "C35_block_init_none_refuted"
   ],
   "note": "The property is false of the code; proved: the option 'none' always ends in the exception, scalar and block."
  },
  {
   "property": "C36",
   "status": "proved",
   "theorems": [
    "C36_exact_solution_stable",
    "C36_block_exact_solution_stable",
    "C36_separated_sweeps_exact",
    "C36_block_separated_sweeps_exact",
    "C36_dependencies",
    "C36_rows_many_sweeps_suffice",
    "C36_nowait_sweeps_exact_refuted"
   ],
   "note": "Stability and separated-sweep exactness for every schedule, scalar and block; refutation of exactness for the code's nowait sweeps with any chunk size and sweep count."
  },
  {
   "property": "C37",
   "status": "proved",
   "theorems": [
    "C37_scalar_level_apply",
    "C37_block_level_apply",
    "C37_level_sgs_sequential",
    "C37_block_level_sgs_sequential"
   ],
   "note": "Level-scheduled equals sequential application with no law of arithmetic used (so bit for bit), ILU and symmetric Gauss-Seidel, scalar and block."
  },
  {
   "property": "C38",
   "status": "proved",
   "theorems": [
    "C38_scalar_sgs",
    "C38_block_sgs"
   ],
   "note": "Scalar (field) and block (commutative ring, inverse of a block an oracle); setup and application together; forward half shown independent of the number of threads."
  },
  {
   "property": "C39",
   "status": "proved",
   "theorems": [
    "C39_solutions_stay",
    "C39_unchanged_only_solutions",
    "C39_block_solutions_stay",
    "C39_block_unchanged_only_solutions"
   ],
   "note": "All four methods, scalar and block: solutions stay for every schedule and iteration count; unchanged by one iteration implies solution."
  },
  {
   "property": "C40",
   "status": "proved",
   "theorems": [
    "C40_jacobi_apply",
    "C40_block_jacobi_apply",
    "C40_jacobi_relax",
    "C40_block_jacobi_relax"
   ],
   "note": "Scalar and block application and relaxation; std::sqrt and comparison are arbitrary functions."
  },
  {
   "property": "C41",
   "status": "proved",
   "theorems": [
    "C41_one_thread",
    "C41_two_threads_refuted",
    "C41_relaxation_refused"
   ],
   "note": "One thread; with two threads a refutation (columns taken out of order); relaxation with this preconditioner always throws."
  },
  {
   "property": "C42",
   "status": "proved",
   "theorems": [
    "C42_identity"
   ],
   "note": ""
  },
  {
   "property": "C43",
   "status": "proved",
   "theorems": [
    "C43_sgs_no_memory",
    "C43_ilu_no_memory",
    "C43_init_none_remembers_refuted"
   ],
   "note": "For arbitrary row kernels, so scalar and block, all schedules; plus a refutation for the option 'none'."
  },
  {
   "property": "C44",
   "status": "proved",
   "theorems": [
    "C44_compute_again",
    "C44_block_compute_again",
    "C44_none_sequential",
    "C44_block_none_sequential",
    "C44_none_zero_sweeps_refuted"
   ],
   "note": "All histories of compute calls on matrices of one pattern; refutation for option 'none' with zero sweeps."
  },
  {
   "property": "C45",
   "status": "proved",
   "theorems": [
    "C45_names",
    "C45_rejected",
    "C45_injective",
    "C45_initial_guesses"
   ],
   "note": "The advertised names and nothing else are recognised, each meaning a different type; likewise the starting guesses."
  },
  {
   "property": "C46",
   "status": "proved",
   "theorems": [
    "C46_total",
    "C46_supported",
    "C46_created",
    "C46_options_present"
   ],
   "note": "The factory returns a preconditioner or throws, never nothing; exactly the supported combinations are created, and with the requested kind, threading and parameters, except for the level-scheduled scalar ILU (see C54)."
  },
  {
   "property": "C47",
   "status": "proved",
   "theorems": [
    "C47_ilu",
    "C47_plain",
    "C47_others",
    "C47_both_refuted",
    "C47_sequential_refuted"
   ],
   "note": "Normalisation of sweep counts for every type and count; the two defects are stated as refutations."
  },
  {
   "property": "C48",
   "status": "proved",
   "theorems": [
    "C48_new",
    "C48_new_values",
    "C48_append",
    "C48_appends",
    "C48_destroy",
    "C48_twice",
    "C48_life"
   ],
   "note": "Any history of appends followed by destruction, over an explicit memory in which deleting twice is undefined behaviour."
  },
  {
   "property": "C49",
   "status": "proved",
   "theorems": [
    "C49_shell",
    "C49_stack",
    "C49_unsupported",
    "C49_user",
    "C49_argument_refuted",
    "C49_user_refuted",
    "C49_leak_refuted"
   ],
   "note": "Every shell of any supported stack gets its own context; unsupported stacks are refused. The user's factory is used only for a shell at the top, taken from the list and not from the argument; below composite solvers default factories are made and all but the last leak: refutations."
  },
  {
   "property": "C50",
   "status": "proved",
   "theorems": [
    "C50_totals"
   ],
   "note": "Law-free addition in list order, so it holds for floating-point numbers."
  },
  {
   "property": "C51",
   "status": "proved",
   "theorems": [
    "C51_full",
    "C51_incomplete",
    "C51_applies",
    "C51_views",
    "C51_gather",
    "C51_assert_refuted",
    "C51_compute"
   ],
   "note": "Both patterns describe exactly the unknowns and equations of each row; gathering returns the transposed restriction and computing writes the transposed solutions, for every solver and schedule, also for triangular views. C51_assert_refuted: with assertions enabled, gathering aborts unless each neighbouring row has an entry in every equation."
  },
  {
   "property": "C52",
   "status": "proved",
   "theorems": [
    "C52_dominance",
    "C52_minimum"
   ],
   "note": "Over every field, every distribution of rows over threads and every order of the reductions; magnitude, comparison and the starting values of the reductions are oracles with order laws."
  },
  {
   "property": "C53",
   "status": "proved",
   "theorems": [
    "C53_maxnorm",
    "C53_zero_refuted"
   ],
   "note": "The norm is the greatest magnitude provided some entry is at least the smallest normal number; refuted otherwise: a zero vector gets that number as its norm."
  },
  {
   "property": "C54",
   "status": "proved",
   "theorems": [
    "C54_factory",
    "C54_constructors",
    "C54_scalar_level_refuted",
    "C54_factory_refuted",
    "C54_reordered_refuted",
    "C54_sequential_refuted"
   ],
   "note": "The block constructors and the factory for all other types store the options as given; refutations for the scalar level-scheduled and reordered ILU."
  },
  {
   "property": "C55",
   "status": "proved",
   "theorems": [
    "C55_set_structure",
    "C55_scalar_constructor",
    "C55_well_formed",
    "C55_block_constructor_refuted",
    "C55_block_wrap",
    "C55_scalar_wrap_refuted",
    "C55_scalar_wrap_longer",
    "C55_copy"
   ],
   "note": "False of the code for the block pattern constructor (dimension 0) and the scalar wrapping constructor (reads past the row pointers): both refuted for every input; the other constructors proved."
  },
  {
   "property": "C56",
   "status": "proved",
   "theorems": [
    "C56_flags",
    "C56_equal"
   ],
   "note": "Flags characterised one by one; values are compared by the code's own |a-b|>tol test, so incomparable differences (NaN) count as equal."
  },
  {
   "property": "C57",
   "status": "proved",
   "theorems": [
    "C57_direct_solver",
    "C57_block_direct_solver"
   ],
   "note": "Scalar and block."
  },
  {
   "property": "C58",
   "status": "proved",
   "theorems": [
    "C58_unit_diagonal"
   ],
   "note": ""
  },
  {
   "property": "C59",
   "status": "proved",
   "theorems": [
    "C59_reordered_apply",
    "C59_solves_if_involution",
    "C59_column_ordering_refuted"
   ],
   "note": "False of the code for general column orderings (refuted, over every field); proved: the exact result returned for any orderings, and the property when the column ordering is an involution."
  },
  {
   "property": "C60",
   "status": "proved",
   "theorems": [
    "C60_block_takes_over",
    "C60_scalar_refuted"
   ],
   "note": "Block class proved; scalar class refuted (leak) for every input."
  },
  {
   "property": "C61",
   "status": "proved",
   "theorems": [
    "C61_options",
    "C61_independent",
    "C61_complete",
    "C61_block_size"
   ],
   "note": ""
  },
  {
   "property": "C62",
   "status": "proved",
   "theorems": [
    "C62_again",
    "C62_first",
    "C62_failed_refuted"
   ],
   "note": "The failed first set-up is a refutation."
  },
  {
   "property": "C63",
   "status": "proved",
   "theorems": [
    "C63_registered",
    "C63_refuted"
   ],
   "note": "Refuted: characterisation of the decision and both outcomes."
  },
  {
   "property": "C64",
   "status": "proved",
   "theorems": [
    "C64_residual",
    "C64_other",
    "C64_error",
    "C64_exact",
    "C64_optimal",
    "C64_full_exact",
    "C64_incomplete"
   ],
   "note": "Least-squares optimality and exactness of the approximate inverses, end to end from the matrix, relative to a contract of the dense solver."
  },
  {
   "property": "C65",
   "status": "proved",
   "theorems": [
    "C65_reader",
    "C65_reader_blocks",
    "C65_reader_fallback",
    "C65_determined",
    "C65_ranks",
    "C65_indivisible",
    "C65_tall_refuted",
    "C65_error_lost_refuted",
    "C65_indivisible_blocks_refuted"
   ],
   "note": "Both readers, every block size dividing the dimensions; they agree. Lost error codes, square result for tall files, and undefined behaviour for indivisible block sizes are refutations for every file of that shape."
  },
  {
   "property": "C66",
   "status": "proved",
   "theorems": [
    "C66_dense",
    "C66_vec",
    "C66_vec_sizes",
    "C66_short_refuted",
    "C66_complex_refuted",
    "C66_refused"
   ],
   "note": "Dense general files and vectors of any size; short, malformed and complex files are refutations."
  },
  {
   "property": "C67",
   "status": "proved",
   "theorems": [
    "C67_required",
    "C67_defined",
    "C67_optional_real",
    "C67_optional_array_refuted",
    "C67_string_leak_refuted"
   ],
   "note": "Every option state; the optional array and the leak are refutations."
  },
  {
   "property": "C68",
   "status": "proved",
   "theorems": [
    "C68_calls_return",
    "C68_none",
    "C68_jacobi",
    "C68_sgs",
    "C68_csc_bgs",
    "C68_gs",
    "C68_ilu",
    "C68_block_ilu",
    "C68_gs_output_is_input_refuted"
   ],
   "note": "Field for the algebra; calls_return needs no laws. Sequential application (one thread, or not threaded) where the classes are asynchronous; asynchronous behaviour is C31-C36, C39."
  },
  {
   "property": "C69",
   "status": "proved",
   "theorems": [
    "C69_jacobi",
    "C69_symmetric_gauss_seidel",
    "C69_gauss_seidel",
    "C69_solutions_stay",
    "C69_none_reports_convergence_refuted",
    "C69_unavailable"
   ],
   "note": "Field; tolerances are not used by the code. Gauss-Seidel and SGS relaxation on one thread; solutions_stay under any schedule."
  },
  {
   "property": "C70",
   "status": "proved",
   "theorems": [
    "C70_snapshot",
    "C70_live_matrix_refuted"
   ],
   "note": "Snapshot as equality of the sets of outcomes; the other half of the property is refuted for the three Gauss-Seidel classes."
  },
  {
   "property": "C71",
   "status": "proved",
   "theorems": [
    "C71_session",
    "C71_jacobi",
    "C71_sgs",
    "C71_seqilu0",
    "C71_ilu",
    "C71_block_ilu",
    "C71_none",
    "C71_gs",
    "C71_csc_bgs"
   ],
   "note": "All eleven names, scalar and blocked; asynchronous (non-deterministic) variants with several threads are C31, C36 and C74; options as read at the first set-up."
  },
  {
   "property": "C72",
   "status": "proved",
   "theorems": [
    "C72_short_dense_refuted",
    "C72_bad_column_refuted",
    "C72_numbers",
    "C72_matrix",
    "C72_dense",
    "C72_unfinished_file_refuted",
    "C72_bound_suffices",
    "C72_blank_line_refuted",
    "C72_missing_value_refuted",
    "C72_large_index_refuted",
    "C72_short_file_refuted",
    "C72_complex_refuted"
   ],
   "note": "The conversion of floating-point words is a parameter assumed to understand the words used. Composes with C06."
  },
  {
   "property": "C73",
   "status": "proved",
   "theorems": [
    "C73_compute",
    "C73_reordered",
    "C73_round_trip",
    "C73_failure_leaks_refuted",
    "C73_failed_object_refuted",
    "C73_inquiry_refuted",
    "C73_preconditioner_refuted"
   ],
   "note": "MC64 itself (Fortran, not in the repository) is a parameter with its documented specification as a hypothesis. The call of destroyRawBSCMatrix and the constructor of MC64_AsyncILU0_SRPreconditioner do not compile in this commit (HAVE_MC64 only); the former is read as alignedDestroyCRawBSCMatrix."
  },
  {
   "property": "C74",
   "status": "proved",
   "theorems": [
    "C74_every_schedule",
    "C74_every_sweep",
    "C74_block_every_schedule",
    "C74_block_every_sweep",
    "C74_steps_of_one_call_refuted",
    "C74_definite_refuted"
   ],
   "note": "Exact arithmetic. Scalar and block. The two claims that do not hold are refuted by concrete matrices and schedules, for any number of steps and calls."
  },
  {
   "property": "C75",
   "status": "proved",
   "theorems": [
    "C75_no_invalid_use",
    "C75_owned",
    "C75_nothing_left",
    "C75_end",
    "C75_order_refuted",
    "C75_twice_refuted"
   ],
   "note": "PETSc is modelled by what it does with its shells. Default factories only; setup_blasted_stack is the only way to configure. Default factories of nested solvers do leak: C49_leak_refuted. Setting up a shell again after a failed set-up is C62_failed_refuted."
  },
  {
   "property": "C76",
   "status": "proved",
   "theorems": [
    "C76_inherited",
    "C76_no_breakdown",
    "C76_weak_refuted",
    "C76_definite_refuted"
   ],
   "note": ""
  },
  {
   "property": "C77",
   "status": "proved",
   "theorems": [
    "C77_scaling",
    "C77_block_scaling"
   ],
   "note": "C77_scaling, C77_block_scaling. Exact arithmetic over any field; the square root is any function that is not zero on the diagonal entries. Scalar objects started from symmetric Gauss-Seidel factors with scaling are excluded, as in C68."
  },
  {
   "property": "C78",
   "status": "proved",
   "theorems": [
    "C78_linear",
    "C78_threads_refuted"
   ],
   "note": "Linearity over any field (exact arithmetic). Cases: C78_case, C78_block_case. C78_threads_refuted gives the two schedules."
  },
  {
   "property": "C79",
   "status": "proved",
   "theorems": [
    "C79_symmetric",
    "C79_positive",
    "C79_backward_refuted"
   ],
   "note": "Symmetric pattern is needed for ILU. For ILU positivity is about the pivots because incomplete factors of definite matrices may have negative pivots (C76_definite_refuted). Cases: C79_case, C79_block_case."
  },
  {
   "property": "C80",
   "status": "proved",
   "theorems": [
    "C80_history",
    "C80_apply",
    "C80_gemv3",
    "C80_diagonal",
    "C80_diagonal_after_reordering_refuted"
   ],
   "note": "Histories begin with setStructure with at least one row. The diagonal calls after a reordering are refuted (C80_diagonal_after_reordering_refuted)."
  },
  {
   "property": "C81",
   "status": "proved",
   "theorems": [
    "C81_energy",
    "C81_block_energy",
    "C81_jacobi_refuted"
   ],
   "note": ""
  },
  {
   "property": "C82",
   "status": "proved",
   "theorems": [
    "C82_definite",
    "C82_dominant_operators"
   ],
   "note": ""
  },
  {
   "property": "C83",
   "status": "proved",
   "theorems": [
    "C83_object",
    "C83_apply",
    "C83_product"
   ],
   "note": "Files with rows without an entry, with duplicate places or with a number of rows which is not a multiple of the block size are covered by the refutations at C05, C06 and C72."
  },
  {
   "property": "C84",
   "status": "proved",
   "theorems": [
    "C84_scalar",
    "C84_sound",
    "C84_round_trip",
    "C84_blocks_refuted",
    "C84_round_trip_blocks_refuted"
   ],
   "note": "Refuted for the block class: equal matrices with differently ordered blocks are reported different (C84_blocks_refuted), also after reordering there and back (C84_round_trip_blocks_refuted)."
  },
  {
   "property": "C85",
   "status": "proved",
   "theorems": [
    "C85_set_up",
    "C85_application",
    "C85_relaxation",
    "C85_totals"
   ],
   "note": "Times are scalars of a ring: the rounding of their sums is not modelled. What gettimeofday and clock return is a parameter of each call."
  },
  {
   "property": "C86",
   "status": "proved",
   "theorems": [
    "C86_refused_application",
    "C86_refused_relaxation",
    "C86_unchecked_refuted"
   ],
   "note": "C86_unchecked_refuted refutes the claim for release builds and for short output vectors."
  },
  {
   "property": "C87",
   "status": "proved",
   "theorems": [
    "C87_scalar",
    "C87_scalar_runs",
    "C87_block",
    "C87_same_factorisation",
    "C87_same_block_factorisation"
   ],
   "note": "The least dominance is the least of the rows' figures and 1e30, as in C52. The dominances need nonzero pivots."
  },
  {
   "property": "C88",
   "status": "proved",
   "theorems": [
    "C88_shell",
    "C88_context",
    "C88_written",
    "C88_set_up"
   ],
   "note": "Records are opaque in the histories; what is in one is C87."
  },
  {
   "property": "C89",
   "status": "proved",
   "theorems": [
    "C89_asserts",
    "C89_storage",
    "C89_dangles",
    "C89_raw",
    "C89_whole_destroy_refuted",
    "C89_copy_undefined",
    "C89_raw_of_storage"
   ],
   "note": "C89_whole_destroy_refuted and C89_copy_undefined show what misuse does. Allocation failure is not modelled here."
  },
  {
   "property": "C90",
   "status": "proved",
   "theorems": [
    "C90_fits",
    "C90_overflow",
    "C90_sparse",
    "C90_dense",
    "C90_int_refuted"
   ],
   "note": "C90_int_refuted: the set-up is undefined for a dense 1862x1862 matrix. Other index arithmetic is not range-checked in the model."
  },
  {
   "property": "C91",
   "status": "proved",
   "theorems": [
    "C91_product",
    "C91_gemv3",
    "C91_jacobi",
    "C91_sgs",
    "C91_ilu",
    "C91_ilu_backward_error"
   ],
   "note": "Scalars are rationals: no overflow, underflow, infinities or NaN. The terms of a row are added in the order of the source; a compiler that reassociates the sum under omp simd is not covered. Scalar (1x1) formats only; asynchronous multi-threaded sweeps are not covered, since their result depends on the schedule."
  },
  {
   "property": "C92",
   "status": "proved",
   "theorems": [
    "C92_factorisation",
    "C92_factorisation_error",
    "C92_direct_solver"
   ],
   "note": "Scalars are rationals: no overflow, underflow, infinities or NaN; sums are taken in the order of the source. The example factorises a matrix with 53 binary digits and has a result that is not the exact factorisation. The solver theorem is for the unscaled case; with scaling C91 and the first part apply separately."
  },
  {
   "property": "C93",
   "status": "proved",
   "theorems": [
    "C93_every_schedule",
    "C93_every_sweep",
    "C93_attainable"
   ],
   "note": "scalar matrices; the standard model of rounding (no overflow or underflow), as in C91"
  },
  {
   "property": "C94",
   "status": "proved",
   "theorems": [
    "C94_exact",
    "C94_ilu",
    "C94_sgs",
    "C94_relax"
   ],
   "note": "C94_exact, C94_ilu, C94_sgs, C94_relax. The loads of x are made in the order of the loop. Block kernels (Eigen expressions) are not covered."
  },
  {
   "property": "C95",
   "status": "proved",
   "theorems": [
    "C95_exact",
    "C95_factorisation",
    "C95_direct_solver"
   ],
   "note": "The products with the scaling factors are not fused with subtractions; the reads happen in the loop's order. The bound has 2 rowlen instead of C92's rowlen roundings because the value on entry and the products are rounded separately."
  },
  {
   "property": "C96",
   "status": "proved",
   "theorems": [
    "C96_converts",
    "C96_frame",
    "C96_missing",
    "C96_usage",
    "C96_long_name_refuted",
    "C96_input_lost_refuted",
    "C96_unwritable_refuted"
   ],
   "note": "PETSc's viewers are represented by their documented effect on files."
  },
  {
   "property": "C97",
   "status": "proved",
   "theorems": [
    "C97_never_lost",
    "C97_text",
    "C97_out_of_range_refuted",
    "C97_others"
   ],
   "note": ""
  },
  {
   "property": "C98",
   "status": "proved",
   "theorems": [
    "C98_same",
    "C98_overflow",
    "C98_width",
    "C98_dense",
    "C98_dense_refuted"
   ],
   "note": "Other int expressions (nnz*bs*bs and the like) are not checked; loop counters are at most nnz."
  },
  {
   "property": "C99",
   "status": "proved",
   "theorems": [
    "C99_matrix_views",
    "C99_richardson",
    "C99_bicgstab",
    "C99_gcr",
    "C99_bicgstab_count_refuted",
    "C99_gcr_no_directions_refuted",
    "C99_richardson_last_refuted"
   ],
   "note": "exact arithmetic over any commutative ring with any division; clocks and messages not modelled"
  },
  {
   "property": "C100",
   "status": "proved",
   "theorems": [
    "C100_flexible_gmres",
    "C100_useful_identity",
    "C100_useful_solver",
    "C100_useful_exact"
   ],
   "note": "exact arithmetic over any ordered field; division by zero is not specified and does not occur"
  },
  {
   "property": "C101",
   "status": "proved",
   "theorems": [
    "C101_finite",
    "C101_solution"
   ],
   "note": "exact arithmetic over any ordered field"
  },
  {
   "property": "C102",
   "status": "proved",
   "theorems": [
    "C102_textbook"
   ],
   "note": "Exact arithmetic (a commutative ring; no law of division is used)."
  },
  {
   "property": "C103",
   "status": "proved",
   "theorems": [
    "C103_textbook_finite",
    "C103_finite",
    "C103_linear_identity",
    "C103_skew_refuted"
   ],
   "note": "Exact arithmetic in an ordered field. The condition is stated on the textbook recurrence of BicgSpec.v, to which C102 ties the program."
  },
  {
   "property": "C104",
   "status": "proved",
   "theorems": [
    "C104_csr",
    "C104_zero_system",
    "C104_richardson",
    "C104_bicgstab_refuted",
    "C104_gcr_refuted"
   ],
   "note": "The general claim is refuted for BiCGSTAB and GCR and proved for Richardson. SpecFloat is IEEE binary64 with rounding to nearest even, without fused operations; NaN payloads are not modelled."
  },
  {
   "property": "C105",
   "status": "proved",
   "theorems": [
    "C105_matrix",
    "C105_signs",
    "C105_consistent",
    "C105_rhs",
    "C105_rhs_refuted",
    "C105_norm_refuted",
    "C105_uniform",
    "C105_chebyshev",
    "C105_mesh_size",
    "C105_count"
   ],
   "note": "C105_rhs_refuted and C105_norm_refuted are defects of the code as written: computeRHS uses gcoords(d,i) where computeLHS uses i+1, and computeNorm evaluates gcoords(d,-1). PETSc's DMDA and matrix insertion are represented by boxes and entry lists; sine and cosine are arbitrary functions (for the Chebyshev mesh: decreasing from 1 to -1 on [0, pi])."
  },
  {
   "property": "C106",
   "status": "proved",
   "theorems": [
    "C106_monotone",
    "C106_unique",
    "C106_symmetric"
   ],
   "note": "Exact arithmetic in an ordered field."
  },
  {
   "property": "C107",
   "status": "proved",
   "theorems": [
    "C107_dominant",
    "C107_no_breakdown",
    "C107_converges"
   ],
   "note": "Exact arithmetic in an ordered field; joins the model of the test problem to C74 and C76. How PETSc numbers the unknowns is left arbitrary."
  },
  {
   "property": "C108",
   "status": "proved",
   "theorems": [
    "C108_noscale",
    "C108_left_sai_refuted"
   ],
   "note": "The factory never creates the class (C46). The patterns and least-squares systems such a preconditioner would need are C51 and C64."
  },
  {
   "property": "C109",
   "status": "proved",
   "theorems": [
    "C109_linear",
    "C109_richardson_exact",
    "C109_gcr_exact",
    "C109_bicgstab_exact",
    "C109_inverse_exact",
    "C109_no_fill",
    "C109_bicgstab_exact_refuted"
   ],
   "note": "Continues C57, C78 and C99-C104. The state of the object between calls of the solver is over-approximated: every call may find it in any state reachable for the same matrix."
  },
  {
   "property": "C110",
   "status": "proved",
   "theorems": [
    "C110_reads",
    "C110_bad_number",
    "C110_truncated_refuted",
    "C110_long_word_refuted",
    "C110_large_number_refuted",
    "C110_missing_refuted",
    "C110_petsc_error_refuted"
   ],
   "note": "Both the reading of good files and the refutations are proved. PETSc's acceptance of the sizes and the conversion of real numbers are section variables."
  },
  {
   "property": "C111",
   "status": "proved",
   "theorems": [
    "C111_solves",
    "C111_reports",
    "C111_checked",
    "C111_unknown_solver"
   ],
   "note": "Exact arithmetic; blocks of size one. The solvers may find the preconditioner in any state that calls can leave, not only the one that the last call left. The driver never sets compute_precinfo (undefined behaviour when read): either value is assumed."
  },
  {
   "property": "C112",
   "status": "proved",
   "theorems": [
    "C112_order",
    "C112_sorted",
    "C112_first_rows",
    "C112_comment_refuted",
    "C112_lower_block_ignored_refuted",
    "C112_one_sweep_refuted"
   ],
   "note": "C112_comment_refuted, C112_lower_block_ignored_refuted and C112_one_sweep_refuted refute the comment in the source and the behaviour that it promises."
  },
  {
   "property": "C113",
   "status": "proved",
   "theorems": [
    "C113_ordering",
    "C113_diagonal_lost",
    "C113_checked",
    "C113_solves"
   ],
   "note": "Both solves ask for no threads, but the applications are threaded (C54); hence the theorem on exact results supposes one thread."
  },
  {
   "property": "C114",
   "status": "proved",
   "theorems": [
    "C114_reports",
    "C114_refused",
    "C114_checked",
    "C114_solves"
   ],
   "note": "The inverse of a small dense block (Eigen) is a parameter that satisfies the same law as in the other block theorems. The condition on blocks to the left is the one of C112; without it the blocks of a row are out of order. Richardson's loop is not part of the claim on reports. The case's pattern is not symmetric, so the level schedules are not part of the case."
  }
 ]
}