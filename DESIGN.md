# HIFIR formal model in Rocq (Coq 8.16) — design

## 1. Approach

The C++ templates of `/repo/src/hif` are modelled function by function as total Gallina
functions.  Three ideas are used everywhere.

* **Outcomes.**  A routine returns `res A := Ok a | Err | UB`.  `Err` is `hif_error` (a C++
  exception), `UB` is an access outside an array (or any other undefined behaviour of the C++
  code that the model represents).  Array reads and writes are *checked* (`get`, `set`), so a theorem
  `f args = Ok r /\ ...` includes memory safety of `f` on `args`.
* **Scalars.**  Values range over an arbitrary structure `Ops` (carrier, 0, 1, +, *, -, /, conj,
  and for dropping an order on magnitudes).  Theorems whose truth depends on algebra take a
  `FieldLaws`/`RingLaws` record as hypothesis, so they hold for R, C, Q, ... in exact arithmetic.
  Theorems that say "two routines do the same operations in the same order" (multi-RHS vs
  single-RHS, threaded vs serial) assume **no** law and hence also cover IEEE arithmetic,
  bit for bit.  Rounding-error analysis is *not* modelled.
* **Hoare rules.**  C++ `for` loops become `for_range`/`for_down` in the `res` monad, with an
  invariant rule; every theorem is by induction/invariant with no bound on sizes.

Files: `*Model.v`-style files hold definitions with citations, `*Proofs.v` hold lemmas,
`Prop*.v` hold only the property theorems (`exact lemma`), `Print Assumptions`, and
non-vacuity `Example`s.  `Spec.v` is the small independent specification (matrices as functions
`nat -> nat -> T`, sums, products, triangularity, permutations).

A property that the *unchanged code violates* gets a theorem with suffix `_refuted` exhibiting a
concrete witness computed by the kernel, and where useful a `_partial` theorem giving the
hypothesis under which the claim does hold.  A theorem with a weaker conclusion than the English claim has
the suffix `_partial`.

## 2. Plan per property

| id | model | proof |
|----|-------|-------|
| C01,C02 | CRS/CCS storage, the gather and scatter kernels | loop invariants; result = dense-matrix product from `Spec.v` |
| C03,C07 | `_mrhs` kernels over interleaved blocks | simulation column by column, no ring law; refuted where the code deviates |
| C04 | `convert_storage` | counting-sort invariant, entries preserved, round trip |
| C05 | `convert_coo2cs` | counting-sort invariant + per-row sort |
| C06 | 8 triangular solvers | invariant "processed part solved"; uniqueness in a ring |
| C08 | scaling | invariant |
| C09,C10,C11 | permute/split/leading extraction | counting + fill + sort invariants; `_refuted` for the empty leading block |
| C12 | `check_validity`, `wrap_const_*` on integer (signed) arrays | soundness/completeness; refuted for wrap functions |
| C13 | assembly state machine | induction over push history |
| C14 | permutations | induction over history |
| C15 | sparse accumulator | induction over history |
| C16,C17,C37 | dropping; `nth_element` is a relation (any permitted outcome) | |
| C18-C20 | `prec_solve`, `prec_prod`, `_tran`, buffer-level with explicit work array | induction over levels, field laws |
| C21 | `prec_solve_mrhs` | refuted |
| C22,C23 | `HIF` object as state machine | invariant over histories; refuted parts |
| C24,C25 | `IterRefine` | induction over iterations; C25 also with the norm kernel of C58 over the reals (PropResidual): the flag bounds the ratio of Euclidean norms, and (PropConverge) with a contracting preconditioner the answer is "converged" after at most k iterations, by induction over the iterates (C24_contraction: q^N bound for a fixed number of iterations); refuted when the norm of a tiny right-hand side overflows |
| C26 | `NspFilter` | field laws |
| C27 | `Array` heap/refcount machine | invariant over histories; refuted parts |
| C28,C29 | partition; interleaving semantics of threads | every schedule |
| C30 | character-level MatrixMarket readers and writers (MmModel): lines, words, decimal integers concrete; text form of floats a parameter; endless loops visible as running out of every fuel | induction on the entry list, reuse of C05 for the compressed form; round trips; refuted for all-diagonal symmetric files, comments after a blank line, unchecked indices |
| C31,C32 | options, parameter determination | finite case analysis over names / refuted swap |
| C33,C44,C46 | permutation bookkeeping | invariants |
| C34 | RCM (RcmModel.v): searches, degrees with negated marks, insertion sort, reversal, driver | invariant of breadth first search (found set = least closed set), symmetric reachability; refuted for directed graphs |
| C35,C36 | extraction, Schur complement | invariants |
| C38,C39,C44 | Crout factorization of a level with arbitrary deferral decisions (CroutModel); the same with rook pivoting over augmented storage (PivotModel) | LDU invariant; the pivoting phase refines its augmented storage to the same columns, exchanges relabel them |
| C40 | augmented storage: pushes, interchange, deferral, lists, counts (AugModel.v) | refinement to a list-of-rows matrix (AugSpec.v): nodes keep row and value, operations relabel; merge-loop invariant |
| C41,C50 | QRCP, SYEIG, LUP (DenseModel): rank decisions, solves and products with a rank argument, several right-hand sides; `geqp3`, `ormqr`, `laic1`, `syev`, `getrf`, `getrs`, `gemv` are parameters with contracts in DenseSpec, `trsv`/`trmv` written out; division by zero is UB | loop invariants for the triangular kernels, unitary algebra, degeneration of the largest-singular-value estimate; refuted for zero matrices, negative dominant eigenvalues, definite modes, singular LUP, several right-hand sides in SYEIG |
| C42 | libhifir.cpp, double family: handles, matrices, error message as a world of objects (CApiModel); destroyed objects are UB; the factorization is an oracle | refinement of every legal call history to an abstract world without buffers (CApiSpec), frame theorems for all worlds, refutations |
| C43,C45,C47,C48 | helper routines | |
| C39,C49 | the whole factorization (FactorModel): preprocessing, Crout levels, offsets, Schur complement, closing decision, next level | induction over levels reusing C35, C36, C38, C44; C49 assumes no law of arithmetic |
| C51 | input conversion of `factorize` (InputModel): base, value type, check, pointer interface; the factorization itself is a parameter, then FactorModel | case analysis on arrays of signed integers, reusing C12; composition with C49 |
| C52 | the matching kernel of `pre/equilibrate.hpp` (EqModel), arbitrary comparisons; 1-based arrays, index 0 is UB | invariants: matching (both directions agree), heap bijection between queue and positions, tree of alternating paths rooted at the start column, counting for the completion; a failed search leaves a set of columns with too few rows (Hall violator), hence the verdict is right; counterexamples for full columns |
| C53 | the factorization of C49 (FactorModel), counting stored entries per row/column (FillSpec) | partial-correctness invariant over the Crout loops (entries below the current step are final, each within the limit its dropping call was given), reference sizes carried to the next level by `next_sizes`; sums over permutations; symmetric mode (SymmModel): the same invariant for L, U is its adjoint (FillProofs4, PropFill2) |
| C54 | symmetric factorization (SymmModel): the Crout update of one triangle with deferral, `compute_symm`, `update_diag<true>`, transposed copies, level, recursion | a symmetric step is a step of the general update on the pair (L, L^T): simulation into the invariant of C38/C44 for symmetric scaled matrices, the structural part for every matrix; hierarchy as in C39/C49; refuted for Hermitian and for complex symmetric input |
| C55 | `mt::drop_L_E_and_U_F`: threads as program counters over shared arrays, schedule = any list of thread numbers (MtDropModel) | invariant: each primary of each block is untouched, finished or at the stage the owner's counter says; frame lemma for the other threads; after the barrier the arrays equal those of the serial first loop (described position by position); the compression is the serial one; termination by a potential; refuted for a limit of zero |
| C56 | the same kernel (EqModel) over an arithmetic without rounding (DualSpec: extended reals) | dual variables: invariant that stored entries have nonnegative reduced cost (column costs minus row numbers), matched ones the column minimum; the search keeps labels at least the path length found, finished rows carry shortest paths, the update keeps feasibility; weak duality gives the greatest product |
| C57 | `do_preprocessing` and `do_maching` (PrepModel) on top of the matching kernel, the a priori scalings, extraction of the leading block, static deferral and RCM; AMD is a parameter | composition of the invariants of C52, C33, C46, C11, C34; for the real case the a priori scalings as positive row and column factors, the result of C56 through the index shift, and products over rearrangements |
| C58 | the kernels of utils/math.hpp over any scalar and value type (NormModel); arithmetic of the reals with a largest number, non-finite values absorbing, their comparisons arbitrary (NormSpec) | the largest entry found bounds every scaled entry by one, hence every partial sum by the length; real and complex as two instances of one proof; Cauchy-Schwarz by induction on the length |

Details of what is left out are in section 4.

## 3. Trusted base

Coq 8.16.1 kernel (including `vm_compute` for witnesses); no axioms are added (section 5).  The faithfulness of the hand-written
model to the C++ text is by reading; every definition cites file and lines.

## 4. What is modelled and what is not

Modelled (source file: model file).

* `ds/CompressedStorage.hpp`, `utils/mv_helper.hpp`-style kernels: CSModel (products, solves, scaling, mrhs), ConvModel
  (conversion, permutation, splitting, assembly), ValidModel (validation), PruneModel (prune), VecModel
  (permutations, sparse vectors, search, rotation, dropping).
* `ds/Array.hpp`: ArrayModel (heap with reference counts).
* `ds/AugmentedStorage.hpp`: AugModel.  A null link is `None`.
* `alg/PivotCrout.hpp` and `alg/pivot_factor.hpp`: the Crout phase (lines 176-484) is PivotModel, over the augmented storage; the rest of
  `pivot_level_factorize` shares FactorModel with `level_factorize`, and `_factorize_kernel` chooses between them (pivoting off, on, automatic).
* `alg/prec_solve.hpp`, `alg/prec_prod.hpp`, `ds/Prec.hpp`: PrecModel, with the work buffer as an explicit array.
* `builder.hpp`, `alg/IterRefine.hpp`, `alg/NspFilter.hpp`: BuilderModel; the factorization loop: FactorModel.
* `alg/factor.hpp`, `alg/Crout.hpp`, `ds/GapPerm`-style bookkeeping: CroutModel.  `alg/Schur.hpp`: SchurModel, MtSchurModel, MtDropModel.
* `pre/driver.hpp`, `pre/reordering.hpp`, `pre/rcm.hpp`, `pre/*scale*`: PreModel, RcmModel; the whole of `do_preprocessing`, `EqlDriver.hpp`: PrepModel.
* `utils/mt_mv.hpp`-style threading: MtModel (interleaving semantics).
* `Options.h`: OptModel.  `utils/io.hpp`, MatrixMarket part: MmModel.  `libhifir.cpp`: CApiModel.
* `pre/equilibrate.hpp`: EqModel (settings used by the library: job 5, no check).  `small_scale/*.hpp`: DenseModel.  `builder.hpp` input conversion: InputModel.

Not modelled: floating-point rounding (theorems without laws of arithmetic cover it as an arbitrary structure), LAPACK/BLAS
internals, AMD's quotient-graph algorithm, timers and log text,
the mixed mode `level_factorize<true>` (a symmetric leading block of user-given size), native binary/ASCII files, the 1-norm rank
estimator, `lhf?GetStats`, the `betas` outputs and parameter setters of the C API, allocation failure.

Simplifications that matter for reading a theorem.

* C04, C05, ...: arrays are tight (length of `indices` and `vals` = number of stored entries) unless stated.
* C09: secondary size > 0 (the code raises on 0); C11: a leading block without entries raises.
* C27: legality conditions in ArraySpec; C40: legal histories in AugSpec.
* C28, C36: the team has as many threads as requested; the cut-offs below which the code stays serial (200, 10000) are not modelled
  (serial and threaded results coincide anyway).
* C30: numbers in text form are a parameter (print followed by parse is the identity); lines longer than the buffer, words that are numbers
  followed by letters are not modelled; negative sizes are UB.
* C34: the start array has exactly `psize + 1` entries.
* C37: a non-empty primary has a threshold of at least 1; `std::copy` onto an overlapping earlier range is element by element.
* C38, C44: `IsSymm = false`; fully symmetric mode is C54 (SymmModel, `alg/symm_factor.hpp`), with m0 = n; a zero pivot is rejected (`bad 0 = true`, the code compares |1/d| with a bound).
* C39, C49: preprocessing, final dense solver (instantiated with QRCP in LastModel/PropLast, under the contracts of `geqp3` and `ormqr`), the growth `ceil(alpha * n)` and the closing rule are parameters with stated contracts.
* C41, C50: LAPACK contracts are hypotheses; magnitudes are rationals and their product `fmul` may round.
* C42: arrays by value, `malloc` never fails, the factorization is an oracle, only the double family (the others are the same template).
* C52: the five work arrays are separate lists of the sizes the code uses; integer overflow is not modelled; the optional input check (HIF_DEBUG) is off.
* C57: AMD is a parameter assumed to return permutations; RCM only in symmetric mode with a symmetric pattern (C46, C34); rows of at most (m0+1)/2 entries (C52); logging dropped, except the flag of the matching; `beta` values that disable the repair are `None`.
* C58: no rounding, no underflow; the recovery of infinities in complex products is left out (it only turns non-finite numbers into others); `inner` without a largest number.
* C46: the symmetrised pattern routine is out of bounds when m < n (refuted); C48: extreme-value scaling in general mode (symmetric mode refuted); iterative scaling over the reals, both modes, any number of passes, for matrices without empty rows or columns (PrepProofs5, PropScale; refuted with them over an IEEE-closed set {0,1,inf,nan}).

## 5. Assumptions

`Print Assumptions` after every property theorem except those of C56, C57_scaling_partial, C48_iterative_partial, C58, C24_contraction, C25_residual_partial, C25_converges_partial, C25_exact_partial and C25_tiny_refuted prints `Closed under the global context`.  These theorems
speak of real numbers and depend on the standard library's axioms `ClassicalDedekindReals.sig_forall_dec`, `ClassicalDedekindReals.sig_not_dec`,
`FunctionalExtensionality.functional_extensionality_dep` and `Classical_Prop.classic` (each of them some or all of these; `classic` only C56_real_matrix_partial and C57_scaling_partial, through `ln` and `exp`).  (vcheck's own listing additionally
shows the parameters of the standard library module type `ssrunder.UNDER_REL`, which the ssreflect files of the standard library declare; no theorem uses them.)
