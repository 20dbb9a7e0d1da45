{
 "claims": [
  {
   "property": "C01",
   "status": "proved",
   "theorems": [
    "C01_crs_product",
    "C01_ccs_product",
    "C01_crs_ccs_agree",
    "C01_crs_partial_rows"
   ],
   "note": ""
  },
  {
   "property": "C02",
   "status": "partial",
   "theorems": [
    "C02_ccs_adjoint_product",
    "C02_crs_adjoint_product_partial",
    "C02_crs_zero_rows_refuted",
    "C02_crs_inner",
    "C02_ccs_inner"
   ],
   "note": "CCS full; CRS holds with at least one row, and is refuted for zero rows (y keeps stale contents)."
  },
  {
   "property": "C03",
   "status": "partial",
   "theorems": [
    "C03_crs_nt_partial",
    "C03_ccs_nt_partial",
    "C03_crs_t_real_partial",
    "C03_ccs_t_real_partial",
    "C03_complex_transpose_refuted",
    "C03_complex_transpose_ccs_refuted",
    "C03_no_columns_refuted"
   ],
   "note": "Column-wise equality proved without any algebraic law; refuted for complex transposed products (no conjugation) and for matrices without columns (early return)."
  },
  {
   "property": "C04",
   "status": "proved",
   "theorems": [
    "C04_conversion_keeps_entries",
    "C04_round_trip"
   ],
   "note": "Law-free for the stored entries; entry equality in any ring. Arrays tight (as every library constructor produces)."
  },
  {
   "property": "C05",
   "status": "proved",
   "theorems": [
    "C05_coo"
   ],
   "note": "Indices in range and positions distinct, as the property says; duplicates in an unsorted row lose values (example)."
  },
  {
   "property": "C06",
   "status": "partial",
   "theorems": [
    "C06_crs_lower",
    "C06_crs_lower_tran",
    "C06_crs_upper_partial",
    "C06_crs_upper_tran",
    "C06_ccs_lower",
    "C06_ccs_lower_tran_partial",
    "C06_ccs_upper_partial",
    "C06_ccs_upper_tran",
    "C06_size_zero_refuted"
   ],
   "note": "All eight solvers; four need n>0 because of unsigned wrap-around for n=0 (refuted there)."
  },
  {
   "property": "C07",
   "status": "partial",
   "theorems": [
    "C07_crs_lower",
    "C07_crs_upper",
    "C07_crs_upper_tran",
    "C07_ccs_lower",
    "C07_ccs_upper",
    "C07_ccs_upper_tran",
    "C07_crs_lower_tran_refuted",
    "C07_ccs_lower_tran_refuted"
   ],
   "note": "Six of eight solvers proved; the two lower transposed multi-RHS solvers are refuted."
  },
  {
   "property": "C08",
   "status": "proved",
   "theorems": [
    "C08_crs_scale_left",
    "C08_crs_scale_right",
    "C08_ccs_scale_right",
    "C08_ccs_scale_left"
   ],
   "note": ""
  },
  {
   "property": "C09",
   "status": "proved",
   "theorems": [
    "C09_permuted",
    "C09_struct_only"
   ],
   "note": "Secondary size > 0 (with 0 the code raises an allocation error); leading block or whole matrix, with and without values."
  },
  {
   "property": "C10",
   "status": "proved",
   "theorems": [
    "C10_split",
    "C10_split_at_positions",
    "C10_split_dual",
    "C10_split_dual_at_positions",
    "C10_split_entries",
    "C10_too_large"
   ],
   "note": "CRS/CCS same code; both parts, both storages, caller-supplied positions."
  },
  {
   "property": "C11",
   "status": "partial",
   "theorems": [
    "C11_leading_partial",
    "C11_empty_block_raises",
    "C11_zero_block_refuted"
   ],
   "note": "Full except for leading blocks without stored entries, which always raise an error (proved) - refutes the claim there."
  },
  {
   "property": "C12",
   "status": "partial",
   "theorems": [
    "C12_check_accepts_only_valid",
    "C12_check_decides_partial",
    "C12_decreasing_start_refuted",
    "C12_unallocated_refuted",
    "C12_wrap_crs_partial",
    "C12_wrap_ccs_square_partial",
    "C12_wrap_negative_index_refuted",
    "C12_wrap_ccs_wide_refuted",
    "C12_wrap_ccs_tall_refuted"
   ],
   "note": ""
  },
  {
   "property": "C13",
   "status": "proved",
   "theorems": [
    "C13_assembled_rows"
   ],
   "note": "Any sequence of pushes; debug-only assertions not modelled."
  },
  {
   "property": "C14",
   "status": "partial",
   "theorems": [
    "C14_build_inv",
    "C14_history_inverse",
    "C14_interchange_effect",
    "C14_interchange_inv_effect",
    "C14_make_eye",
    "C14_is_eye",
    "C14_is_eye_nonperm_refuted"
   ],
   "note": ""
  },
  {
   "property": "C15",
   "status": "partial",
   "theorems": [
    "C15_accumulator_history",
    "C15_push_reports_new",
    "C15_tag_reuse_refuted"
   ],
   "note": ""
  },
  {
   "property": "C16",
   "status": "proved",
   "theorems": [
    "C16_numerical_dropping"
   ],
   "note": ""
  },
  {
   "property": "C17",
   "status": "proved",
   "theorems": [
    "C17_space_dropping"
   ],
   "note": ""
  },
  {
   "property": "C18",
   "status": "proved",
   "theorems": [
    "C18_multiply_after_solve",
    "C18_solve_after_multiply",
    "C18_matrix"
   ],
   "note": "Any number of levels, exact arithmetic over any field with conjugation; the final dense solver is a parameter assumed to invert a matrix (dense_is)."
  },
  {
   "property": "C19",
   "status": "proved",
   "theorems": [
    "C19_multiply_adjoint",
    "C19_solve_adjoint",
    "C19_tran_multiply_after_solve",
    "C19_tran_solve_after_multiply"
   ],
   "note": "As C18; scaling factors real (self-conjugate), as produced by the code."
  },
  {
   "property": "C20",
   "status": "proved",
   "theorems": [
    "C20_solve",
    "C20_solve_tran",
    "C20_multiply",
    "C20_multiply_tran"
   ],
   "note": "No algebraic law; holds for floating point. Tightness example beside it."
  },
  {
   "property": "C21",
   "status": "partial",
   "theorems": [
    "C21_one_level_refuted",
    "C21_stale_refuted",
    "C21_full_level_partial"
   ],
   "note": "Refuted when a level leaves a Schur complement (copy direction reversed); proved for a single full level."
  },
  {
   "property": "C22",
   "status": "partial",
   "theorems": [
    "C22_history_partial",
    "C22_empty_throws",
    "C22_failed_factorize_refuted",
    "C22_mrhs_refuted",
    "C22_wrong_size_refuted",
    "C22_fresh_hifir_refuted"
   ],
   "note": "Refinement to a buffer-free object for every history without solve_mrhs, late factorize failures or wrong-size vectors; each exclusion refuted by a witness history."
  },
  {
   "property": "C23",
   "status": "partial",
   "theorems": [
    "C23_rank",
    "C23_nnz",
    "C23_prec_partial",
    "C23_prec_refuted",
    "C23_fresh_size_refuted"
   ],
   "note": "rank/nnz proved; prec(levels()-1) with a dense last level dereferences end() (refuted); sizes uninitialized before factorize (refuted)."
  },
  {
   "property": "C24",
   "status": "proved",
   "theorems": [
    "C24_hifir_iterates",
    "C24_iteration",
    "C24_error",
    "C24_exact",
    "C24_contraction"
   ],
   "note": "Law-free identification with the iteration for every history; algebraic recursion and exactness in any ring/field; over the exact reals the residual after N iterations is at most q^N times the right-hand side for a q-contracting preconditioner (C24_contraction)."
  },
  {
   "property": "C25",
   "status": "partial",
   "theorems": [
    "C25_truthful",
    "C25_trivial",
    "C25_converges_partial",
    "C25_exact_partial",
    "C25_residual_partial",
    "C25_tiny_refuted"
   ],
   "note": "Proved for every norm and comparison (C25_truthful); with the norm of the code over the exact reals the flag bounds the Euclidean residual ratio (C25_residual_partial), and a preconditioner contracting every residual by q makes it report \"converged\" after at most k iterations when q^k is within the bound (C25_converges_partial); with an exact factorization it reports \"converged\" after one iteration with the exact solution (C25_exact_partial); rounding missing; refuted for right-hand sides so tiny that their computed norm overflows (C25_tiny_refuted)."
  },
  {
   "property": "C26",
   "status": "proved",
   "theorems": [
    "C26_projects",
    "C26_idempotent",
    "C26_rejects"
   ],
   "note": "Exact arithmetic; range length nonzero in the field."
  },
  {
   "property": "C27",
   "status": "partial",
   "theorems": [
    "C27_no_double_free",
    "C27_released_exactly_with_last_owner",
    "C27_external_never_freed",
    "C27_owning_arrays_readable",
    "C27_no_leak",
    "C27_copy_of_moved_from_refuted",
    "C27_failed_copy_keeps_size_refuted",
    "C27_assign_to_alias_refuted",
    "C27_assign_keeps_stale_size_refuted"
   ],
   "note": "Reference-counted arrays as a heap machine over arbitrary histories of legal calls; see the legality conditions in ArraySpec.v."
  },
  {
   "property": "C28",
   "status": "partial",
   "theorems": [
    "C28_threads_equal_serial",
    "C28_threads_finish",
    "C28_threads_product",
    "C28_mrhs_threads_equal_serial",
    "C28_no_write_race",
    "C28_smaller_team_refuted"
   ],
   "note": ""
  },
  {
   "property": "C29",
   "status": "proved",
   "theorems": [
    "C29_partition",
    "C29_exactly_one"
   ],
   "note": ""
  },
  {
   "property": "C30",
   "status": "partial",
   "theorems": [
    "C30_general",
    "C30_read_partial",
    "C30_roundtrip",
    "C30_vector_roundtrip",
    "C30_short",
    "C30_wrong_type",
    "C30_all_diagonal",
    "C30_all_diagonal_refuted",
    "C30_comment_after_blank_refuted",
    "C30_no_validation_refuted",
    "C30_loose_refuted"
   ],
   "note": "Character-level model of the MatrixMarket readers and writers (first line, comments, blank lines, size line, entries, vectors). General files, mirrored kinds with at least one off-diagonal entry, exact write/read round trips, short files and wrong types. Refuted: symmetric-kind files with diagonal entries only (uninitialised memory), a comment after a blank line (endless loop), unchecked indices, loose arrays. Partial: floating point text form is a hypothesis (print then parse is the identity), long lines and partial-word integer matches are not represented."
  },
  {
   "property": "C31",
   "status": "partial",
   "theorems": [
    "C31_set_option_attr",
    "C31_history",
    "C31_stream_partial",
    "C31_stream_refuted",
    "C31_enable_verbose"
   ],
   "note": "set_option_attr for every name/history proved; the stream reader skips the member pivot (a deviation), hence C31_stream_partial."
  },
  {
   "property": "C32",
   "status": "partial",
   "theorems": [
    "C32_run_refuted",
    "C32_level_parameters_partial",
    "C32_pivot_parameters_partial",
    "C32_tau_swapped_refuted",
    "C32_symm_run_refuted"
   ],
   "note": "Refined parameters per level proved; the tau_L/tau_U swap is refuted both on the parameter tuple and on a complete factorization run. In symmetric mode the only factor is governed by tau_U (refuted)."
  },
  {
   "property": "C33",
   "status": "proved",
   "theorems": [
    "C33_static_deferral"
   ],
   "note": "All matrices, all acceptance outcomes; magnitudes abstract with order laws."
  },
  {
   "property": "C34",
   "status": "partial",
   "theorems": [
    "C34_permutation_partial",
    "C34_terminates",
    "C34_directed_refuted"
   ],
   "note": "run_rcm of pre/reordering.hpp and all of pre/rcm.hpp. Proved: for every graph it terminates inside its arrays and the numbered nodes are distinct (C34_terminates); for every undirected graph the result is a permutation (C34_permutation_partial). The English claim for directed graphs is false: C34_directed_refuted. The AMD reordering is not modelled."
  },
  {
   "property": "C35",
   "status": "proved",
   "theorems": [
    "C35_lower_left",
    "C35_upper_right",
    "C35_diagonal"
   ],
   "note": "extract_perm_diag, extract_E, extract_F for every valid matrix, permutation, scaling and leading size; exact storage plus entries over a ring."
  },
  {
   "property": "C36",
   "status": "proved",
   "theorems": [
    "C36_threads_equal_serial",
    "C36_threads_finish",
    "C36_schur",
    "C36_nothing_left"
   ],
   "note": "Serial compute_Schur_simple: valid, sorted, tight, exact pattern, entries C - L_E D U_F over a ring; empty trailing block. Work vector of the Crout phase: tags below n."
  },
  {
   "property": "C37",
   "status": "proved",
   "theorems": [
    "C37_largest_kept"
   ],
   "note": "Every conforming nth_element; alpha <= 0 empties the block. Hypothesis: a non-empty primary has a threshold of at least 1 (otherwise nth_element gets a position before its range)."
  },
  {
   "property": "C38",
   "status": "proved",
   "theorems": [
    "C38_exact",
    "C38_exact_where_stored",
    "C38_pivot_exact",
    "C38_pivot_exact_where_stored"
   ],
   "note": "One level, non-symmetric case: with a dropping that removes only zeros, L D U equals the permuted scaled matrix on every row and column of the leading block, for every deferral history; with any dropping the same holds wherever an entry is stored. The C38_pivot theorems say the same of the pivoting factorization (PivotCrout), for every sequence of exchanges; there the diagonal is exact with any dropping."
  },
  {
   "property": "C39",
   "status": "partial",
   "theorems": [
    "C39_without_dropping_partial",
    "C39_zero_alpha_refuted",
    "C39_qrcp_partial"
   ],
   "note": "Whole factorization, any number of levels, both storages, pivoting off, on or automatic, any preprocessing/deferral history/closing rule, exact arithmetic; exact whenever the dense solver is exact on the last Schur complement (shown nonsingular); C39_qrcp_partial instantiates it with QRCP under the LAPACK contract. Symmetric mode (opts.is_symm) is C54. Missing: a symmetric leading block (m0 > 0) without is_symm, threads > 1 as a whole (its two threaded stages are C36_threads_* and C55). alpha = 0 is not a way to disable dropping (refuted)."
  },
  {
   "property": "C40",
   "status": "proved",
   "theorems": [
    "C40_history",
    "C40_from_matrix",
    "C40_interchange"
   ],
   "note": "AugCRS (AugCCS is the same text with rows and columns exchanged). Legal histories: rows pushed in order with increasing columns; a deferral goes to an empty column behind the entries of the rows it touches."
  },
  {
   "property": "C41",
   "status": "partial",
   "theorems": [
    "C41_qrcp_rank_nonzero",
    "C41_qrcp_rank_is",
    "C41_qrcp_rank_diagonal",
    "C41_qrcp_zero_refuted",
    "C41_qrcp_user_rank_refuted",
    "C41_syeig_indefinite_partial",
    "C41_syeig_negative_refuted",
    "C41_syeig_definite_refuted",
    "C41_lup_rank",
    "C41_lup_solve_refuted"
   ],
   "note": "QRCP: safe whenever the first pivot is nonzero, exact description of the rank (the largest singular value estimate degenerates to |R(0,0)|); refuted for the zero matrix and for user ranks beyond it. SYEIG: proved in indefinite mode with positive dominant eigenvalues, refuted otherwise and in definite modes. LUP: rank proved, the solve ignores it (refuted)."
  },
  {
   "property": "C42",
   "status": "partial",
   "theorems": [
    "C42_null",
    "C42_history_partial",
    "C42_isolated",
    "C42_matrix_kept",
    "C42_error_message",
    "C42_solve_is_apply",
    "C42_matrix_usable",
    "C42_failed_update_refuted",
    "C42_failed_setup_refuted",
    "C42_rank_ignored",
    "C42_rank_refuted",
    "C42_empty_nnz_refuted",
    "C42_one_based_refuted"
   ],
   "note": "History theorem is partial: the factorization behind Setup/Refactorize is an oracle, betas and the file readers are not modelled, a failing factorization is assumed to store no level (C22). The property's claims that failed calls keep the matrix and that the rank is honoured are false of the code: C42_failed_update_refuted, C42_failed_setup_refuted, C42_rank_ignored/C42_rank_refuted; also C42_empty_nnz_refuted, C42_one_based_refuted."
  },
  {
   "property": "C43",
   "status": "proved",
   "theorems": [
    "C43_dense_of_crs",
    "C43_dense_of_ccs"
   ],
   "note": ""
  },
  {
   "property": "C44",
   "status": "proved",
   "theorems": [
    "C44_deferral",
    "C44_code_dropping",
    "C44_pivoting",
    "C44_pivot_code_dropping"
   ],
   "note": "Every decision/dropping function; result permutations, factor storage, split positions. C44_pivoting: the same for the pivoting factorization. IsSymm = true is not modelled."
  },
  {
   "property": "C45",
   "status": "partial",
   "theorems": [
    "C45_zero_threshold",
    "C45_prune_partial",
    "C45_column_threshold_refuted"
   ],
   "note": ""
  },
  {
   "property": "C46",
   "status": "partial",
   "theorems": [
    "C46_preprocessing_permutations",
    "C46_leading_pattern",
    "C46_symmetrised_pattern_refuted"
   ],
   "note": "Permutation composition and non-symmetrised pattern proved for all inputs; the symmetrised (RCM) pattern routine reads masks out of bounds when m<n: refuted."
  },
  {
   "property": "C47",
   "status": "proved",
   "theorems": [
    "C47_find_sorted",
    "C47_rotate_left",
    "C47_rotate_right"
   ],
   "note": ""
  },
  {
   "property": "C48",
   "status": "partial",
   "theorems": [
    "C48_scaled_entries_bounded_partial",
    "C48_symmetric_mode_refuted",
    "C48_iterative_partial",
    "C48_iterative_zero_refuted"
   ],
   "note": "scale_extreme_values in general mode proved over exact arithmetic laws, its symmetric mode refuted; iterative_scale (square roots, reals, both modes, any number of passes) proved for matrices without zero rows/columns, refuted (infinite or NaN factors) with them. Rounding not covered."
  },
  {
   "property": "C49",
   "status": "partial",
   "theorems": [
    "C49_usable_partial",
    "C49_nonsquare_rejected",
    "C49_qrcp_partial"
   ],
   "note": "Whole factorization (pivoting off, on or automatic) without laws of arithmetic (magnitudes totally ordered); C49_qrcp_partial with QRCP as the last solver. Symmetric mode (opts.is_symm) is C54. Missing: a symmetric leading block (m0 > 0), inputs without stored entries."
  },
  {
   "property": "C50",
   "status": "partial",
   "theorems": [
    "C50_qrcp",
    "C50_qrcp_several",
    "C50_syeig",
    "C50_syeig_several_refuted",
    "C50_lup_partial",
    "C50_lup_adjoint_refuted"
   ],
   "note": "QRCP full (solve, multiply, transposes, truncated ranks, several right-hand sides). SYEIG single right-hand side full; several refuted (leaves its buffer). LUP: real matrices; complex transposed solve refuted. LAPACK contracts are hypotheses."
  },
  {
   "property": "C51",
   "status": "partial",
   "theorems": [
    "C51_index_base",
    "C51_other_base",
    "C51_same_matrix",
    "C51_check_rejects",
    "C51_checked_pointers_usable_partial",
    "C51_conversion_overflow_refuted",
    "C51_short_values_refuted"
   ],
   "note": "Index base, entry-exact conversion, rejection of malformed arrays (start array not decreasing, as in C12), pointer interface composed with C49. Refuted: with another value type, a matrix with spare values overflows the converted array; a value array that is too short is not rejected by the check inside factorize. Matrices without rows not modelled."
  },
  {
   "property": "C52",
   "status": "partial",
   "theorems": [
    "C52_matching_permutation_partial",
    "C52_verdict_partial",
    "C52_empty_rejected",
    "C52_missed_matching_refuted",
    "C52_work_overlap_refuted"
   ],
   "note": "Memory safety, termination, permutation and stored entries for every pattern whose columns (rows of the user's matrix) hold at most (n+1)/2 entries, no law of arithmetic; C52_verdict_partial: with nonzero values and sums of finite numbers finite, flag 0 exactly for structurally nonsingular and flag 1 only for structurally singular patterns (a failed search exhibits a Hall violator). For fuller columns the code overwrites its own queue while building the heap (equilibrate.hpp:556-579): C52_missed_matching_refuted (a nonsingular matrix reported as singular) and C52_work_overlap_refuted (reads position 0 of the queue)."
  },
  {
   "property": "C53",
   "status": "partial",
   "theorems": [
    "C53_fill_bounded_partial",
    "C53_symmetric_partial",
    "C53_symmetric_alpha_U_refuted"
   ],
   "note": "Non-symmetric levels (with and without pivoting, automatic restart) and symmetric mode (there alpha_L governs both factors; alpha_U is ignored: C53_symmetric_alpha_U_refuted): every accepted row of U and column of L within the allowance of its reference size, reference sizes followed through all permutations to the rows and columns of the input, total over all levels bounded. Missing: E, F and the Schur complement (not limited in this way)."
  },
  {
   "property": "C54",
   "status": "partial",
   "theorems": [
    "C54_level",
    "C54_exact",
    "C54_exact_where_stored",
    "C54_code_dropping",
    "C54_without_dropping_partial",
    "C54_usable_partial",
    "C54_nonsquare_rejected",
    "C54_hermitian_refuted"
   ],
   "note": "Level: structure on every input, exactness on symmetric scaled input. Whole symmetric hierarchy (opts.is_symm): usable on every nonempty square input; exact without dropping on symmetric nonsingular real matrices, given an exact symmetric last solver. Refuted for Hermitian input (which Options.h documents) and for complex symmetric input. Missing: a user-given leading block smaller than n."
  },
  {
   "property": "C55",
   "status": "partial",
   "theorems": [
    "C55_threads_equal_serial",
    "C55_threads_finish",
    "C55_pair_equal_serial",
    "C55_zero_limit_refuted"
   ],
   "note": "Four threads or more: any schedule, one shared access per step (nth_element on the own primary and one round of the compression are one step), equality with the serial result and termination, for positive limits; two or three threads: any limits. Refuted for a limit of zero: with four threads or more nth_element gets a position before the range, while the serial code empties the block. Not modelled: teams smaller than requested."
  },
  {
   "property": "C56",
   "status": "partial",
   "theorems": [
    "C56_scaling_partial",
    "C56_maximum_product_partial",
    "C56_real_matrix_partial",
    "C56_verdict_partial"
   ],
   "note": "Columns of at most (n+1)/2 entries, as in C52 (beyond, C52_work_overlap_refuted and C52_missed_matching_refuted). For every arithmetic without rounding (exact_arith: comparisons, sums and differences agree with the extended reals); C56_real_matrix_partial is the instance with real numbers, ln and exp. Depends on the standard library's axioms for real numbers (listed in DESIGN.md). C56_verdict_partial: without overflow, flag 0 exactly for structurally nonsingular patterns. Rounding, and the clipping in EqlDriver, are not covered."
  },
  {
   "property": "C57",
   "status": "partial",
   "theorems": [
    "C57_preprocessing_partial",
    "C57_rejected",
    "C57_scaling_partial"
   ],
   "note": "Composition of matching, deferral and reordering. Rows of the leading block of at most (m0+1)/2 entries (beyond: C52_work_overlap_refuted); RCM in symmetric mode with symmetric pattern (otherwise C46_symmetrised_pattern_refuted); AMD is a parameter returning permutations. C57_scaling_partial: exact real arithmetic, every a priori scaling; the bound on all entries of the general mode needs level 1 or no beta (the repair gives it up), diagonals and maximality hold on all levels; axioms of the standard library's reals."
  },
  {
   "property": "C58",
   "status": "partial",
   "theorems": [
    "C58_norm2_partial",
    "C58_norm2_refuted",
    "C58_norm2_nonfinite",
    "C58_normalize_partial",
    "C58_inner_partial"
   ],
   "note": "Arithmetic without rounding and underflow but with a largest number; refuted when the reciprocal of the largest entry overflows (tiny vectors)."
  }
 ]
}