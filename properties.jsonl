{"id": "C01", "title": "Sparse matrix-vector product is A*x", "statement": "For every valid CRS or CCS matrix A and vectors x, y of matching size, A.multiply(x, y) / multiply_nt / multiply_nt_low reads and writes only inside its arrays and leaves y equal to the mathematical product A*x, whatever y contained before; CRS and CCS storage of the same matrix give the same result.", "quantifier": "all sizes (including 0 rows or columns), all sparsity patterns, all values in any commutative ring, all stale contents of y", "why_tests_cant": "The claim ranges over every sparsity pattern and size; CCS scatters and CRS gathers, and agreement must hold for all of them, including empty rows/columns.", "anchors": ["src/hif/ds/CompressedStorage.hpp: CRS::multiply_nt_low, CCS::multiply_nt_low"]}
{"id": "C02", "title": "Transposed matrix-vector product is A^H*x", "statement": "For every valid CRS or CCS matrix A, multiply_t(x, y) leaves y equal to conj(A)^T x for any previous contents of y, and is the adjoint of multiply_nt: <A x, y> = <x, A^H y>.", "quantifier": "all valid matrices, vectors and stale outputs", "why_tests_cant": "All patterns/sizes; degenerate shapes (zero rows with non-zero columns) are exactly where stale output survives.", "anchors": ["src/hif/ds/CompressedStorage.hpp: CRS::multiply_t_low, CCS::multiply_t_low"]}
{"id": "C03", "title": "Multi-RHS products act column by column", "statement": "multiply_mrhs_nt / multiply_mrhs_t on an interleaved block of Nrhs vectors gives, in each column, exactly (bit for bit, no algebraic law used) what the single-RHS product gives for that column.", "quantifier": "all valid matrices, all Nrhs, all scalar operations (floating point included)", "why_tests_cant": "Unbounded Nrhs and sizes; exact floating-point equality needs that the order of operations coincides for all inputs.", "anchors": ["src/hif/ds/CompressedStorage.hpp: multiply_mrhs_nt_low, multiply_mrhs_t_low"]}
{"id": "C04", "title": "CRS<->CCS conversion preserves the matrix", "statement": "Building a CCS from a CRS (or vice versa) yields a valid, sorted matrix of the same shape with the same entry at every (i,j) and the same nnz; converting twice returns the identical matrix.", "quantifier": "all valid sparse matrices", "why_tests_cant": "Counting-sort style conversions only fail on particular patterns (empty rows, trailing empty columns).", "anchors": ["src/hif/ds/CompressedStorage.hpp: internal::convert_storage", "src/hif/ds/CompressedStorage.hpp: CRS(const ccs_type&)", "src/hif/ds/CompressedStorage.hpp: CCS(const crs_type&)"]}
{"id": "C05", "title": "COO triplets become the matrix they describe", "statement": "Converting coordinate triplets (any order) to compressed storage puts value v at (i,j) exactly when some triplet says so, with sorted indices in every row, provided no (i,j) is duplicated.", "quantifier": "all triplet lists in any order", "why_tests_cant": "The order of triplets is arbitrary: n! histories per matrix.", "anchors": ["src/hif/utils/coo2compress.hpp: convert_coo2cs"]}
{"id": "C06", "title": "Triangular solves invert the unit triangular factor", "statement": "solve_as_strict_lower/upper and their transposed variants, on a strictly triangular matrix T stored without diagonal, overwrite b by the unique x with (I+T)x=b (resp. (I+T)^H x = b), touching only T's entries.", "quantifier": "all sizes, all strictly triangular sparse matrices, all right-hand sides", "why_tests_cant": "Correctness of substitution order depends on every pattern; size 0 underflows are corner cases of an unbounded family.", "anchors": ["src/hif/ds/CompressedStorage.hpp: solve_as_strict_lower, solve_as_strict_upper, solve_as_strict_lower_tran, solve_as_strict_upper_tran (CRS and CCS)"]}
{"id": "C07", "title": "Multi-RHS triangular solves act column by column", "statement": "Each solve_as_strict_*_mrhs(_tran) gives in every column exactly what the single-RHS routine gives on that column.", "quantifier": "all strictly triangular matrices, all Nrhs, all scalar operations", "why_tests_cant": "A start-index or iterator slip affects only the last row/columns and survives small tests.", "anchors": ["src/hif/ds/CompressedStorage.hpp: solve_as_strict_lower_mrhs, solve_as_strict_upper_mrhs, solve_as_strict_lower_mrhs_tran, solve_as_strict_upper_mrhs_tran"]}
{"id": "C08", "title": "Diagonal scaling multiplies by a diagonal matrix", "statement": "scale_diag_left(s) / scale_diag_right(t) replace A by diag(s)*A / A*diag(t), leaving pattern and shape unchanged.", "quantifier": "all valid matrices and scaling vectors", "why_tests_cant": "All sizes and patterns.", "anchors": ["src/hif/ds/CompressedStorage.hpp: scale_diag_left, scale_diag_right"]}
{"id": "C09", "title": "Permuted matrix has entry A(p(i),q(j)) at (i,j)", "statement": "compute_perm returns a valid sorted matrix (optionally only its leading m x m block) whose (i,j) entry is A(p[i],q[j]).", "quantifier": "all valid matrices, all row/column permutations, all leading sizes", "why_tests_cant": "n!^2 permutations.", "anchors": ["src/hif/ds/CompressedStorage.hpp: _compute_perm, compute_perm"]}
{"id": "C10", "title": "Splitting at a leading size partitions the matrix", "statement": "split<false>/split<true> (and split_crs/split_ccs) return the leading and the trailing part; every entry goes to exactly one part and both parts are valid and sorted.", "quantifier": "all valid matrices, all split positions", "why_tests_cant": "All patterns and split points.", "anchors": ["src/hif/ds/CompressedStorage.hpp: _split, split, split_crs, split_ccs, split_ccs_dual"]}
{"id": "C11", "title": "Leading block extraction", "statement": "extract_leading(m) is a valid m x m matrix with exactly the entries (i,j), i,j<m of A.", "quantifier": "all valid matrices and all m, including blocks that become empty", "why_tests_cant": "The all-empty leading block is a corner of an unbounded family.", "anchors": ["src/hif/ds/CompressedStorage.hpp: extract_leading, _extract_leading_struct"]}
{"id": "C12", "title": "Input validation accepts exactly the valid matrices", "statement": "check_validity / the wrapping functions with checking on raise an error iff the three arrays do not describe a valid sorted matrix of the given shape, and never read outside the arrays.", "quantifier": "all array triples (valid or not)", "why_tests_cant": "Adversarial inputs: infinite family of malformed arrays.", "anchors": ["src/hif/ds/CompressedStorage.hpp: check_validity", "src/hif/ds/CompressedStorage.hpp: wrap_const_crs, wrap_const_ccs"]}
{"id": "C13", "title": "Row/column assembly builds exactly the pushed rows", "statement": "begin_assemble, push_back_row/col/\u2026, end_assemble produce a valid matrix whose k-th row (column) is exactly what was pushed at step k, in any sequence of pushes.", "quantifier": "all sequences of pushes, all row contents", "why_tests_cant": "Histories of pushes of unbounded length.", "anchors": ["src/hif/ds/CompressedStorage.hpp: _psize, begin_assemble_rows, push_back_row, end_assemble_rows"]}
{"id": "C14", "title": "Permutation objects stay mutually inverse", "statement": "After build_inv, p and p_inv are inverse bijections; interchange keeps them inverse; is_eye holds iff the permutation is the identity.", "quantifier": "all permutations, all sequences of interchanges", "why_tests_cant": "Histories of unbounded length.", "anchors": ["src/hif/ds/PermMatrix.hpp: PermMatrix, BiPermMatrix"]}
{"id": "C15", "title": "Sparse accumulator holds a duplicate-free index set", "statement": "Over any sequence of push_back(tag)/reset_counter/restore, the first counts() indices are exactly the distinct indices pushed since the last reset, in first-push order; value slots of other indices are untouched.", "quantifier": "all push sequences and tags", "why_tests_cant": "Histories with stale tags from earlier steps.", "anchors": ["src/hif/ds/SparseVec.hpp: SparseVector::push_back, reset_counter, restore_cur_state"]}
{"id": "C16", "title": "Numerical dropping keeps exactly the large entries", "statement": "apply_num_dropping keeps an index iff |v| is above tau/kappa, keeps relative order, and never changes a kept value.", "quantifier": "all sparse vectors and thresholds", "why_tests_cant": "All vectors.", "anchors": ["src/hif/alg/thresholds.hpp: apply_num_dropping"]}
{"id": "C17", "title": "Space dropping keeps the largest entries", "statement": "apply_space_dropping with limit N keeps all entries if there are no more than N, otherwise exactly N of them, none smaller in magnitude than a dropped one.", "quantifier": "all sparse vectors, limits, and every permitted behaviour of nth_element", "why_tests_cant": "nth_element's order is unspecified: the claim is over every permitted outcome.", "anchors": ["src/hif/alg/thresholds.hpp: apply_space_dropping"]}
{"id": "C18", "title": "Solve and multiply are inverse to each other", "statement": "For a multilevel preconditioner with any number of levels whose diagonal entries are nonzero and whose last dense block solver is exact, mmultiply(solve(b)) = b and solve(mmultiply(x)) = x.", "quantifier": "all hierarchies (any number of levels, sizes, permutations, scalings, blocks), all vectors, any field", "why_tests_cant": "Unbounded levels and sizes; recursion with in-place buffers and index permutations.", "anchors": ["src/hif/alg/prec_solve.hpp: prec_solve", "src/hif/alg/prec_prod.hpp: prec_prod"]}
{"id": "C19", "title": "Transposed solve/multiply are the adjoints", "statement": "solve(..., trans=true) and mmultiply(..., trans=true) apply M^{-H} and M^H: <M x, y> = <x, M^H y> and they are mutually inverse.", "quantifier": "all hierarchies and vectors", "why_tests_cant": "As C18, plus conjugation.", "anchors": ["src/hif/alg/prec_solve.hpp: prec_solve_tran", "src/hif/alg/prec_prod.hpp: prec_prod_tran"]}
{"id": "C20", "title": "Results depend only on the input, and the advertised workspace suffices", "statement": "prec_solve/prec_prod and transposes give a result independent of the old contents of the output and of the work buffer, and with the work buffer of the advertised size no access is out of bounds, for any number of levels.", "quantifier": "all hierarchies, all stale buffer contents", "why_tests_cant": "Stale memory contents and nesting depth are unbounded.", "anchors": ["src/hif/alg/prec_solve.hpp: compute_prec_work_space, prec_solve", "src/hif/builder.hpp: HIF::solve"]}
{"id": "C21", "title": "Multi-RHS preconditioner solve acts column by column", "statement": "solve_mrhs applied to a block of right-hand sides gives in every column what solve gives for that column.", "quantifier": "all hierarchies, all Nrhs", "why_tests_cant": "Unbounded Nrhs, levels.", "anchors": ["src/hif/alg/prec_solve.hpp: prec_solve_mrhs"]}
{"id": "C22", "title": "Any history of HIF calls is safe", "statement": "Over every sequence of factorize (successful or failing at any level), solve, solve_mrhs, mmultiply, clear, no call writes past the internal work buffer nor follows a missing level; calls on an empty preconditioner raise an error.", "quantifier": "all call histories and crash (throw) points", "why_tests_cant": "Histories are unbounded; failures at any level of factorize.", "anchors": ["src/hif/builder.hpp: HIF::factorize, solve, solve_mrhs, mmultiply, clear"]}
{"id": "C23", "title": "Size, level, rank and nnz queries are consistent", "statement": "levels(), prec(k), nnz(), rank(), schur_rank(), schur_size() describe the hierarchy: prec(k) is defined for every k<levels(), rank = n - (size of last block - its rank), nnz is the sum over levels.", "quantifier": "all hierarchies", "why_tests_cant": "All numbers of levels.", "anchors": ["src/hif/builder.hpp: levels, prec, nnz, rank, schur_rank, schur_size"]}
{"id": "C24", "title": "Iterative refinement iterates x += M^-1 (b - A x)", "statement": "hifir(A,b,N,x) returns the N-th iterate of x_{k+1}=x_k+M^{-1}(b-Ax_k) from x_0=0; the error satisfies e_{k+1}=(I-M^{-1}A)e_k, and if M=A it returns the exact solution for every N>=1.", "quantifier": "all N, all matrices, all M", "why_tests_cant": "Unbounded number of iterations.", "anchors": ["src/hif/alg/IterRefine.hpp: IterRefine::iter_refine"]}
{"id": "C25", "title": "Bounded refinement reports truthfully", "statement": "hifir with bounds (beta_L,beta_U) stops at the first iteration whose relative residual is below beta_L (flag 0), above beta_U (flag 1), or after N iterations (flag -1); the returned count never exceeds N and x is the corresponding iterate.", "quantifier": "all residual histories, all N and bounds", "why_tests_cant": "All residual histories.", "anchors": ["src/hif/alg/IterRefine.hpp: IterRefine::iter_refine (betas)"]}
{"id": "C26", "title": "Null-space filter projects out the constant mode", "statement": "The constant-mode filter leaves entries outside [start,end) untouched, makes the entries inside sum to zero, is idempotent, changes nothing when the sum is already zero, and rejects ranges outside the vector.", "quantifier": "all vectors and ranges", "why_tests_cant": "All sizes/ranges.", "anchors": ["src/hif/NspFilter.hpp: NspFilter::_apply_const"]}
{"id": "C27", "title": "Shared arrays are released exactly once and never used after release", "statement": "Over any sequence of construct/copy/move/assign/resize/destroy operations on arrays, each owned buffer is freed exactly once, when its last owner goes; wrapped external buffers are never freed.", "quantifier": "all operation histories", "why_tests_cant": "Histories are unbounded.", "anchors": ["src/hif/ds/Array.hpp: Array"]}
{"id": "C28", "title": "Threaded products equal the serial product", "statement": "The multi-threaded matrix-vector product returns exactly the serial result for every number of threads and every interleaving.", "quantifier": "all thread counts, all schedules, all matrices", "why_tests_cant": "Schedules cannot be enumerated by tests.", "anchors": ["src/hif/utils/mt_mv.hpp: multiply_nt, multiply_mrhs_nt", "src/hif/utils/mt.hpp: uniform_partition"]}
{"id": "C29", "title": "Work partition is exact", "statement": "uniform_partition(n, threads, .) cuts 0..n into consecutive disjoint ranges that cover it, of sizes differing by at most one.", "quantifier": "all n, all thread counts", "why_tests_cant": "Unbounded n, threads.", "anchors": ["src/hif/utils/mt.hpp: uniform_partition"]}
{"id": "C30", "title": "MatrixMarket input denotes the file's matrix", "statement": "Reading a coordinate file yields the matrix it denotes, with symmetric/skew/hermitian files expanded by the mirror rule; writing a matrix and reading it back returns the same matrix.", "quantifier": "all files of the supported kinds", "why_tests_cant": "All files; all-diagonal symmetric files are a corner case.", "anchors": ["src/hif/utils/io.hpp: mm_read_sparse_data, write_mm_sparse", "src/hif/utils/coo2compress.hpp"]}
{"id": "C31", "title": "Options set by name change exactly that option", "statement": "set_option_attr(name, v, opt) succeeds iff name is a known option and then changes only the field with that name; the stream reader fills every field.", "quantifier": "all names and values, all prior option sets", "why_tests_cant": "All strings.", "anchors": ["src/hif/Options.h: set_option_attr, operator>>"]}
{"id": "C32", "title": "Drop tolerances reach the factor they are named for", "statement": "In each level's factorization tau_L governs dropping in L and tau_U in U (likewise alpha_L/alpha_U, kappa_d/kappa), after the documented per-level refinement.", "quantifier": "all parameter settings and levels", "why_tests_cant": "All parameter settings; default tau_L=tau_U hides a swap.", "anchors": ["src/hif/alg/factor.hpp: determine_fac_pars, level_factorize", "src/hif/alg/pivot_factor.hpp", "src/hif/alg/symm_factor.hpp"]}
{"id": "C33", "title": "Static deferral permutes and only defers", "statement": "Deferring tiny diagonals keeps p and q permutations of the same indices, leaves a leading block of size m all of whose diagonals are acceptable, and moves exactly the unacceptable ones, in order, behind it.", "quantifier": "all matrices, all acceptance patterns", "why_tests_cant": "2^n acceptance patterns.", "anchors": ["src/hif/pre/matching_scaling.hpp: defer_tiny_diags"]}
{"id": "C34", "title": "Reordering returns a permutation", "statement": "For every graph handed to it the RCM reordering returns a permutation of 0..n-1 and terminates.", "quantifier": "all graphs", "why_tests_cant": "All graphs, connected or not, symmetric or not.", "anchors": ["src/hif/pre/rcm.hpp: genrcm_, rcm_, fnroot_, rootls_, degree_", "src/hif/pre/reordering.hpp: run_rcm"]}
{"id": "C35", "title": "Extracted blocks are the scaled permuted blocks of A", "statement": "extract_perm_diag, extract_E, extract_F give the diagonal, the lower-left and upper-right blocks of diag(s) A diag(t) permuted by p,q, in sorted storage.", "quantifier": "all matrices, permutations, scalings, block sizes", "why_tests_cant": "All patterns/permutations.", "anchors": ["src/hif/alg/factor.hpp: extract_perm_diag, extract_E, extract_F"]}
{"id": "C36", "title": "Schur complement is C - L_E D U_F", "statement": "compute_Schur_simple returns a valid sorted matrix equal to the permuted scaled trailing block minus L_E*diag(d)*U_F; the threaded version returns the same for every thread count.", "quantifier": "all matrices, factors, thread counts", "why_tests_cant": "All patterns; schedules.", "anchors": ["src/hif/alg/Schur.hpp: compute_Schur_simple, mt::compute_Schur_simple"]}
{"id": "C37", "title": "Offset dropping keeps the largest entries per row", "statement": "drop_L_E / drop_U_F keep in each row (column) at most ceil(alpha*ref) entries, none smaller than a dropped one, and return a consistent compressed matrix.", "quantifier": "all matrices, references, alphas, nth_element behaviours", "why_tests_cant": "Unspecified nth_element order; all patterns.", "anchors": ["src/hif/alg/Schur.hpp: drop_offsets_kernel, drop_L_E, drop_U_F"]}
{"id": "C38", "title": "Crout factorization without dropping is exact", "statement": "With dropping disabled the incomplete LDU of one level reproduces the permuted scaled matrix on its leading block (including after dynamic deferrals and, with pivoting on, after any row and column exchanges): B = L D U, and the offsets satisfy E = L_E D U, F = L D U_F; the permutations stay permutations.", "quantifier": "all matrices and all deferral decisions (every pivoting history)", "why_tests_cant": "Deferral decisions are a history of unbounded length.", "anchors": ["src/hif/alg/Crout.hpp", "src/hif/alg/factor.hpp: level_factorize", "src/hif/alg/PivotCrout.hpp", "src/hif/alg/pivot_factor.hpp: pivot_level_factorize"]}
{"id": "C39", "title": "Without dropping the preconditioner is the matrix", "statement": "With dropping disabled and an exact final dense solve, solve(b) solves A x = b exactly for any number of levels.", "quantifier": "all nonsingular inputs, all hierarchies", "why_tests_cant": "Unbounded sizes/levels/pivoting histories.", "anchors": ["src/hif/builder.hpp: _factorize_kernel", "src/hif/alg/factor.hpp", "src/hif/alg/prec_solve.hpp", "src/hif/alg/pivot_factor.hpp: pivot_level_factorize"]}
{"id": "C40", "title": "Pivoting storage interchanges are consistent", "statement": "In the augmented storage, after any sequence of row pushes, column interchanges and deferrals, walking column j's list enumerates exactly the stored entries of column j, and interchange swaps exactly the two columns.", "quantifier": "all operation histories", "why_tests_cant": "Linked-list histories.", "anchors": ["src/hif/ds/AugmentedStorage.hpp: AugCRS, AugCCS"]}
{"id": "C41", "title": "Final dense solvers report their rank truthfully", "statement": "The dense last-level solvers report a numerical rank that counts exactly the pivots/eigenvalues above the threshold, never dividing by a zero one.", "quantifier": "all diagonal/eigenvalue sequences", "why_tests_cant": "All spectra.", "anchors": ["src/hif/small_scale/QRCP.hpp: _estimate_rank_2norm, factorize", "src/hif/small_scale/SYEIG.hpp: factorize", "src/hif/small_scale/LUP.hpp"]}
{"id": "C42", "title": "C interface handles behave as documented over any call history", "statement": "C API calls with NULL handles return the null status and change nothing; failed calls leave the handle's matrix unchanged; lhf*Apply honours op, nirs and rank.", "quantifier": "all call histories", "why_tests_cant": "Histories.", "anchors": ["libhifir/src/libhifir.cpp: lhfdCreate, lhfdSetup, lhfdUpdate, lhfdApply"]}
{"id": "C43", "title": "Dense copy of a sparse matrix is faithful", "statement": "DenseMatrix::from_sparse / copy_sparse gives the same entry at every (i,j), zeros elsewhere.", "quantifier": "all valid matrices", "why_tests_cant": "All patterns.", "anchors": ["src/hif/ds/DenseMatrix.hpp: from_sparse, copy_sparse"]}
{"id": "C44", "title": "Dynamic deferral bookkeeping keeps permutations", "statement": "Over any sequence of per-step accept/defer decisions the gap-compressed permutation arrays end as permutations of the input ones, with accepted indices first and deferred ones last in order. With rook pivoting (exchanges inside the leading block before each step) the same holds up to the order inside the leading block and among the deferred ones.", "quantifier": "all decision histories", "why_tests_cant": "2^n decision histories.", "anchors": ["src/hif/alg/factor.hpp: level_factorize", "src/hif/alg/Crout.hpp: compress_array, assign_gap_array", "src/hif/alg/PivotCrout.hpp", "src/hif/alg/pivot_factor.hpp: pivot_level_factorize"]}
{"id": "C45", "title": "Pruning drops exactly the small entries", "statement": "prune(eps) removes an entry iff it is below eps times both its row and its column maximum.", "quantifier": "all valid matrices, eps", "why_tests_cant": "All patterns and values.", "anchors": ["src/hif/ds/CompressedStorage.hpp: _prune"]}
{"id": "C46", "title": "Reordering composes with matching", "statement": "do_preprocessing's final p and q are permutations equal to the matching permutation composed with the reordering on the leading block, with correct inverses.", "quantifier": "all permutations", "why_tests_cant": "All permutations.", "anchors": ["src/hif/pre/driver.hpp: do_preprocessing"]}
{"id": "C47", "title": "Search and rotation helpers meet their contract", "statement": "find_sorted finds a key in a sorted range iff present and otherwise gives its insertion point; rotate_left/rotate_right move one element and keep the rest in order.", "quantifier": "all sorted sequences and positions", "why_tests_cant": "All lengths.", "anchors": ["src/hif/utils/common.hpp: find_sorted, rotate_left, rotate_right"]}
{"id": "C48", "title": "Static scaling keeps scaled entries bounded", "statement": "The a priori scalings (extreme-value and iterative) yield row/column factors that are positive, turn the matrix into diag(rs) B diag(cs) on the same pattern, and leave no entry exceeding one in magnitude.", "quantifier": "all matrices, all numbers of passes", "why_tests_cant": "All patterns, empty rows.", "anchors": ["src/hif/pre/a_priori_scaling.hpp: scale_extreme_values, iterative_scale_p"]}
{"id": "C49", "title": "Factorization always yields a usable preconditioner", "statement": "For every nonempty square input matrix (either storage) and every parameter setting, factorize either raises an error or returns at most n levels on which solve, multiply and their transposed versions succeed for every right-hand side with the advertised work space, without out-of-range accesses and independently of what the buffers held before.", "quantifier": "all inputs, parameters, dropping decisions, pivot deferrals, hierarchies and buffer contents; no law of arithmetic", "why_tests_cant": "All matrices and all dropping and deferral histories, including breakdowns at every step.", "anchors": ["src/hif/builder.hpp: factorize, _factorize_kernel", "src/hif/alg/factor.hpp: level_factorize", "src/hif/alg/prec_solve.hpp", "src/hif/alg/prec_prod.hpp", "src/hif/alg/pivot_factor.hpp: pivot_level_factorize"]}
{"id": "C50", "title": "Final dense solvers compute with the matrix they were given", "statement": "At full rank the dense last-level solvers solve A x = b (and with the adjoint when transposed) exactly and multiply by A; with a smaller rank they return the truncated solution on the kept pivot columns or eigenvectors; several right-hand sides give in each column what one gives.", "quantifier": "all sizes, matrices, factorizations meeting the LAPACK contracts, ranks and right-hand sides", "why_tests_cant": "All matrices, all ranks and all numbers of right-hand sides.", "anchors": ["src/hif/small_scale/QRCP.hpp: solve, multiply, solve_mrhs, multiply_mrhs", "src/hif/small_scale/SYEIG.hpp: solve, multiply, solve_mrhs", "src/hif/small_scale/LUP.hpp: solve"]}
{"id": "C51", "title": "The matrix handed to factorize is the one that is factorized", "statement": "factorize accepts compressed matrices counted from 0 or from 1, in its own or another value type, as objects or as raw pointers: the factorization sees exactly the entries of the user's matrix (values converted), the index base makes no difference, any other base is rejected, and with params.check arrays that do not describe a well-formed matrix are rejected.", "quantifier": "all index and start arrays (signed, arbitrary contents), all value arrays and conversions, check on or off, whatever the factorization does afterwards", "why_tests_cant": "Arbitrary array contents, including malformed ones.", "anchors": ["src/hif/builder.hpp: factorize (263-365, 388-401)", "src/hif/ds/CompressedStorage.hpp: CompressedStorage(n, ...), nnz, check_validity"]}
{"id": "C52", "title": "The matching of the preprocessing is a permutation on stored entries", "statement": "The preprocessing matches the rows and columns of the leading block of the input: for every pattern and all values (zeros, infinities and NaN included) the matching step ends without leaving its work arrays, returns a permutation, uses stored entries for all matched rows, returns a complete matching when it reports success, and reports a structurally singular matrix only when there is no complete matching; a block without entries is rejected.", "quantifier": "all square patterns without duplicates, all values, all work array contents, any comparison results", "why_tests_cant": "The search depends on the order and ties of all costs, heap states and augmenting paths; the failing inputs are rare small-looking coincidences.", "anchors": ["src/hif/pre/equilibrate.hpp: compute, kernel, kernel_, kernel__, kernel___, cleanup", "src/hif/pre/EqlDriver.hpp: do_matching"]}
{"id": "C53", "title": "Fill of the factors is bounded by the space factors", "statement": "A user sets alpha_L and alpha_U to bound memory: every row of U and every column of L kept on any level has at most max(1, ceil(alpha * size)) entries, where size is the number of entries of the corresponding row or column of the input (but at least the fixed fraction of the average) and alpha is the largest multiple of the option the code applies; so the factors of all levels together hold at most the sum of these allowances over the rows and columns of the input, however many levels, deferrals and interchanges there are.", "quantifier": "all square inputs in either storage, all values, thresholds, pivoting modes (and symmetric mode) and deferral decisions, all numbers of levels", "why_tests_cant": "The bound depends on following the reference sizes through every permutation, deferral and Schur complement; a test sees a few patterns.", "anchors": ["src/hif/alg/factor.hpp: level_factorize, apply_num_dropping, apply_space_dropping", "src/hif/alg/pivot_factor.hpp: pivot_level_factorize", "src/hif/utils/math.hpp"]}
{"id": "C54", "title": "Symmetric mode is safe on every square input and exact on symmetric ones", "statement": "Factorizing with opts.is_symm: on every valid square matrix (symmetric or not) the factorization ends normally, and the resulting hierarchy can be used by every solve, multiply and read-out operation; when the scaled matrix is symmetric and dropping is disabled, each level satisfies L D L^T = permuted scaled block, and applying the hierarchy solves the linear system exactly, whatever was deferred. The accepted pivots all pass the pivot test and rows and columns get the same permutation.", "quantifier": "all square inputs in either storage, all values, thresholds and deferral decisions, all numbers of levels", "why_tests_cant": "The factor is built with dynamic deferral and compressed storage; only one of the two triangles is computed, so every step relies on an invariant relating the stored half to the other one. Tests sample a few matrices.", "anchors": ["src/hif/alg/symm_factor.hpp: symm_level_factorize, make_transpose", "src/hif/alg/Crout.hpp: compute_symm, update_diag", "src/hif/builder.hpp: _factorize_kernel, factorize"]}
{"id": "C55", "title": "Thinning the offset blocks with threads gives the serial result", "statement": "With opts.threads > 1 the two offset blocks of a level are thinned by several threads sharing one pair of arrays per block. For every number of threads and every interleaving of their accesses nothing is read or written out of bounds, no barrier hangs, and the two blocks end up exactly as the serial code leaves them: the same start, index and value arrays.", "quantifier": "all pairs of blocks, all limits, all conforming selections, all thread counts, all schedules", "why_tests_cant": "Data races depend on the schedule; a test run shows one schedule out of exponentially many, and usually with one thread per core.", "anchors": ["src/hif/alg/Schur.hpp: mt::drop_L_E_and_U_F, internal::drop_offsets_kernel", "src/hif/utils: uniform_partition"]}
{"id": "C56", "title": "The matching has the greatest product and its scaling makes it one", "statement": "When equilibration reports success (flag 0) on a matrix without stored zeros, the returned permutation selects stored entries whose product of absolute values is the greatest over all permutations on stored entries, and multiplying rows and columns by the exponentials of the two returned arrays brings every stored entry to at most 1 in absolute value and the selected ones to exactly 1 (in exact arithmetic).", "quantifier": "all matrices with nonzero stored values, all sizes, all contents of the uninitialized work arrays", "why_tests_cant": "Optimality is over n! permutations and rests on a heap-based shortest path search with dual variables updated at every augmentation; a test can only compare a few small matrices.", "anchors": ["src/hif/pre/equilibrate.hpp: Equilibrator::compute, _compute_kernel", "src/hif/pre/EqlDriver.hpp: EqlDriver::do_matching"]}
{"id": "C57", "title": "Preprocessing of a level delivers usable permutations and scaling", "statement": "Preprocessing a level (matching, scaling, static deferral, reordering) of a matrix whose leading block has entries ends without failing and leaves row and column permutations of full length with correct inverses and scaling factors of full length; the first m diagonals chosen are the acceptable ones and the remaining ones of the leading block are not; positions beyond the leading block are untouched with factor 1; in symmetric mode rows and columns are treated alike. In exact arithmetic, with a complete matching and for every a priori scaling, factors are positive, the chosen diagonals have magnitude 1 after scaling and the largest possible product, and the scaled leading block has entries of magnitude at most 1 unless the factors are repaired (beta) on a deeper level. An invalid reordering option or an empty leading block raises an error.", "quantifier": "all matrices, all leading block sizes, levels, options (reordering, a priori scaling, beta), all contents of uninitialized arrays", "why_tests_cant": "It must hold for every matrix and every branch taken by matching, deferral and reordering; a wrong index in one composition only shows for matrices where permutations differ from the identity and diagonals are deferred.", "anchors": ["src/hif/pre/driver.hpp: do_preprocessing", "src/hif/pre/matching_scaling.hpp: do_maching, fix_poor_scaling, defer_tiny_diags", "src/hif/pre/EqlDriver.hpp: EqlDriver::do_matching", "src/hif/pre/a_priori_scaling.hpp: scale_eye, scale_extreme_values, iterative_scale"]}
{"id": "C58", "title": "Vector kernels: inner product, norm and normalization", "statement": "hif::norm2 of a real or complex vector of any length is its Euclidean norm; no intermediate result exceeds the largest number if the norm, the length and the reciprocal of some nonzero entry do not; the norm of a zero or empty vector is zero and a vector with an entry that is not finite never has a finite norm. hif::normalize gives the multiple with norm one, hif::normalize2 stores it in front of the given array. hif::inner gives the sum of conj(v_i) w_i (conjugate symmetric, bounded by the product of the norms), reading as many entries of the second vector as the first has.", "quantifier": "all vectors of all lengths, real and complex, every largest number of the arithmetic", "why_tests_cant": "Overflow of a sum depends on length and magnitudes together; a test of a few vectors cannot exclude an intermediate overflow or a lost non-finite entry for every vector.", "anchors": ["src/hif/utils/math.hpp: inner, norm2_sq, norm2, normalize, normalize2"]}
