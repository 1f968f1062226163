# Formal model of pairwise-perturbation in Rocq/Coq 8.16.1

## 1. What is modelled

The compiled C++ of /repo: `common.cxx`, `als_CP.cxx`, `als_Tucker.cxx`, `src/CP.cxx`,
`src/decomposition.cxx`, `src/optimizer/*.cxx` and the drivers `test_ALS.cxx`, `pp_bench.cxx`,
`run.cxx`.  (`src/Tucker.{h,cxx}` is not compiled by the Makefile: it is out of scope.)
The model is a set of total Gallina functions, one per C++ function, each with a comment citing
the file and the lines it models.

### Conventions

* **Outcome.** `res A := Ok a | Err e` with `e` one of `UB` (undefined behaviour: out-of-bounds or
  uninitialised read/write, `% 0`, double free), `CtfError` (the tensor library rejects an
  index string or a dimension mismatch), `AssertFail`, `OutOfFuel`.
* **Characters** are integers with 8-bit signed wrap-around; C char arrays are lists of
  `option Z` (None = uninitialised) of the declared length, every access is bounds-checked.
* **Numbers.** The element type is a record `num` of operations with *no* laws.  Laws are explicit
  hypotheses: commutative-ring laws for algebraic identities, an ordered field (or the stdlib reals)
  for monotonicity and norms, none at all for control-flow theorems (which therefore cover
  IEEE doubles including NaN).
  Consequence: algebraic theorems say nothing about rounding.
* **Tensors** are a list of lengths and a column-major list of elements.  CTF's
  `C[s] = A[s1]*B[s2]*...` is modelled by `assign`, an einsum over arbitrary index strings
  (dimension checks, repeated letters, `=` and `+=`).  CTF itself (distribution, MPI) is trusted
  to implement this.  `T[seq]` reads exactly `order(T)` characters.
* **External calls** (SVD, Cholesky, triangular solve, QR, random fill, clock) are functions in an
  oracle argument; contracts about them are hypotheses in the theorems that need them.
* **Integers** (`int`, `int64_t`) are unbounded in the main model; MInt.v repeats the drivers with iteration counters checked at
  32 bits and C82 proves that the results agree (except for maxiter = 2147483647); orders and lengths are `nat`.
* **Maps** `map<string,X>` are association functions on strings; `m[k]` on a missing key of a
  string map yields the empty string.
* **Recursion** uses fuel with the explicit outcome `OutOfFuel`; non-termination is stated as
  "`OutOfFuel` for every fuel".

### Simplifications and trusted readings (also stated at the definitions)
* `CPD::als` counts sweeps in a `double`: the model keeps a rational and rounds the step's fraction and every sum to binary64
  (`rnd64`, F64.v; C75 proves that it is the IEEE rounding).  From 2^40 on nothing is rounded: the code's conversion of the
  counter to `int` is undefined from 2^31 on anyway.
* `atoi` is glibc's (strtol, saturated, truncated to 32 bits); `atof` is a parameter.
* Data read by several processes (`fold_unfold`) comes as an arbitrary permutation of the index/value pairs.
* Random fills, data files and the reading order are an environment record (`rng`, `file`, `dist`); theorems hold for all of them.
* `issparse` only selects CTF's storage format and is not modelled.
* Storage (MLife): a block number is never reused; only allocation, release and pointer use are modelled there.
* `CTF` symmetric-hollow assignment used by `Gauss_Seidel` (`SH` matrices): sum over the permutations of the indices, zero
  diagonal, entries i < j stored (MHelpers.sh_assign).
* `std::sort` in `sort_indexes` is libstdc++'s insertion sort (at most 16 elements).
* Tucker: `norm2 >= 0` (sqrt_nonneg) where the code tests `norm_U < 0`; the decomposition is only assumed to return the right
  shapes, orthonormality is a hypothesis where used.

### Not modelled
Console printing, CTF `Timer`s, sparse storage, binary file formats (`read_dense_from_file` is an oracle), MPI collectives
beyond the rank-0 distinctions of the drivers, rounding of tensor elements (that of the sweep counter is modelled; C79 runs the model over binary64, with sums in the order of the model), integer overflow other than that of the iteration counters (C82), `src/Tucker.*` (not compiled), python scripts.

## 2. Files (rocq/theories)

| file | contents |
|---|---|
| Base.v | outcomes, loops, C buffers, characters |
| NumF.v | IEEE binary64 (SpecFloat of the standard library) as an element type, for C79; pow is a parameter |
| F64.v | rounding of positive rationals to binary64, for the sweep counter of CPD::als |
| Num.v, NumR.v | number records, laws, Z and R instances |
| Tensor.v | tensors, einsum `assign` (trusted CTF semantics) |
| Spec.v, Spec2.v ... Spec30.v | mathematical specification, independent of the model: MTTKRP, Gram, CP reconstruction, TTMc, ALS sweep (Spec); PP (2); optimizer schedules (3); CPD::als runs (4); generators (5); command line (6); Tucker (7-9); helpers (10); objective (11); PP drivers with log (12, 13); dimension-tree drivers with log (14); test_ALS (15), pp_bench (16), remaining generators (17), quality of a Tucker decomposition (18), convergence of the CP drivers (19), error of the PP expansions (20), exactness along a run of CPD::als (21), bound of the approximate phase (22), tensors without finite entries (23), quality of the PP Tucker method (24), objective in the phases of alsCP_PP (25), outcomes with 32-bit counters (26), rounded arithmetic (27), residual and gradient in rounded arithmetic (28), an ALS update in rounded arithmetic (29) and its normal equations (30) |
| MCommon.v, MHelpers.v | common.cxx: index strings, contractions, dimension tree, solvers, Normalize, low-rank updates, Gauss-Seidel |
| MCP.v | als_CP.cxx: alsCP, alsCP_DT, alsCP_PP, alsCP_PP_partupdate with their CSV rows and clock |
| MTucker.v | als_Tucker.cxx: hosvd, TTMc, alsTucker, alsTucker_DT, alsTucker_PP |
| MOpt.v, MOptLR.v | src/optimizer/*.cxx |
| MCPD.v | src/CP.cxx, src/decomposition.cxx: constructor, Init, als |
| MInt.v, MInt2.v | the drivers again with 32-bit int counters (overflow undefined) |
| MLife.v | allocation and release in src/ |
| MGen.v | tensor generators, fold_unfold |
| MRun.v | run.cxx; the settings of test_ALS.cxx and pp_bench.cxx |
| MMains.v | test_ALS.cxx and pp_bench.cxx: the whole programs after option parsing |
| MTest.v | tests/test_decomposition.cxx: the whole program |
| P*.v | proofs |
| Prop*.v | the property theorems, their concrete cases and `Print Assumptions` |

## 3. How each property is modelled and proved

| id | model | proof |
|---|---|---|
| C01-C03, C41, C49 | `KhatriRao_contract`, `gradient_CP`, `swap_char` on buffers and einsum | loop invariants: partial contraction value; permutation of nested sums |
| C04 | `build_V` | loop invariant on partial outer products |
| C05-C08 | `Construct_Dimension_Tree`, `mttkrp_map_DT`, `alsCP_DT` sweep | induction on the tree; cache invariant; refutations by computation |
| C09-C12 | `Build_mttkrp_map`, `alsCP_PP_sub` | induction on contracted prefix; multilinearity |
| C13-C14 | `Normalize` | over R |
| C15-C17, C47, C48 | solvers, low-rank updates, Gauss-Seidel | ring algebra with oracle contracts |
| C18, C56 | ALS update, optimizer steps | least-squares orthogonality; invariants over schedules |
| C19-C23, C50 | optimizers | invariants over step histories |
| C24-C28, C37, C42, C43, C51 | control flow of the drivers with clock/norm oracles | induction on sweeps; refutations by witness |
| C29-C33, C54, C55 | Tucker | as for CP |
| C34, C35, C40, C52 | generators, `fold_unfold` | index arithmetic; loop rule |
| C36, C38, C53 | argv parsing and driver set-up | case analysis |
| C39 | storage model for constructors, Init, step, destructors | invariant on the heap; refutations |
| C44-C46 | Khatri-Rao product, partial updates, sorting | invariants |
| C57-C59 | alsCP_PP, alsCP_PP_partupdate, alsTucker_PP as whole programs | simulation by the algorithms of Spec12, Spec13; log invariants |
| C60 | alsCP_DT, alsTucker_DT as whole programs | simulation by the algorithms of Spec14 |
| C61, C62 | the programs test_ALS and pp_bench | composition of the driver refinements; induction on repetitions for the log |
| C63 | Gram_Schmidt | evaluation of the einsum statements; Pythagoras |
| C64 | apply_rankR_update | evaluation of the three einsum statements for symbolic index strings |
| C65 | random_laplacian_tensor, unit_tensor | the Laplacian proof for an arbitrary matrix D; the written global indices are distinct |
| C66, C67 | the exact sweeps and drivers of als_Tucker.cxx over R (run refinement of C54) with an SVD oracle that returns leading singular vectors (`leading_along`, Spec18) | Pythagoras for orthonormal factors (PTuckFit); Ky Fan's maximum principle (PKyFan); induction on sweeps (PTuckMono); telescoping of the core norms |
| C68 | `hosvd`, `test_ALS` | truncation error of each mode against any competitor, summed over the modes (PHosvdQ); a competitor with arbitrary factors is one with orthonormal factors and another core, by a QR factorisation (PQR, PTuckAny) |
| C69, C70 | `alsCP_DT` over R (run refinement of C26) with an SVD oracle that is valid at the systems met (Spec19) | exact decrease of the objective at an update = a quadratic form of the step (PConv); Normalize by AM-GM (PConv2); sum over a sweep (PConv3, PConv4); the number of checks with a large gradient is bounded by telescoping (`few_large`) |
| C71 | `CPD::als` with three optimizers (run refinement of C24) and a Cholesky oracle right on SPD matrices | the same, on windows of two steps, which visit every mode (PConv5) |
| C72 | `pp_M`, `pp_Y` with the operator tables of the model; `PP_sweep`, `dw_count` | the expansion over subsets of modes, Cauchy-Schwarz and Minkowski per subset (PErr); the guard bounds the common norm g by a/(1-e) (PErr2) |
| C73 | `PP_sweep` twice, `dw_count`, with a decomposition that is right for 1 x 1 matrices | the rescaling factor of the MTTKRP; a lower bound from C72; explicit sweeps on 1 x 1 factors (PErr3) |
| C74 | the program test | the run refinement of C24 with its parameters; the checked iterations 0, 60, 61 by evaluation |
| C75 | `rnd64`, `sweeps_after` in the runs of `CPD::als` | Flocq's rounding (PF64); accumulated error of the counter against integer gaps |
| C76 | runs of `CPD::als` and of program run | the runs of C24/C53 with the step-wise decrease of C56 (PMono2), prefixes of the schedules |
| C77 | program test_ALS, -model CP -pp 0 | C61's reduction to alsCP_DT with C69 and C70 |
| C78 | `PP_sweep`, `PP_mode`, `pp_M`, `dw_count` over the reals, lambda > 0 | an update with an inexact right-hand side as an exact one plus a quadratic in the error (PApprox), summed over the modes of a sweep (PApprox2); the errors by C72 and by the rescaling factor of C73, which the guard bounds (PApprox3) |
| C79 | `Normalize`, `SVD_solve`, `alsCP_DT_sweep`, `alsCP_DT` over `F64` (NumF.v) | non-finite values absorb, zero-or-NaN values form an ideal (PNan); partial correctness of the sweep and the driver loop under these two laws (PNan2, PNan3) |
| C80 | `Tucker_PP_sweep`, `alsTucker_DT_sub`, `alsTucker_PP_sub`, `alsTucker_PP`, `test_ALS` over the reals; the singular value routine is assumed to return leading singular vectors | Bessel: contracting with orthonormal factors does not increase norms, so the dropped terms are bounded by those of the product of (1 + size of perturbation) (PTuckPP); Ky Fan for the perturbed unfolding, norms of cores, residual by Pythagoras (PTuckPP2); induction over phases and driver (PTuckPP3); explicit 2x2 eigenvectors for the case (PEig2) |
| C81 | `alsCP_DT_sub`, `alsCP_PP_sub` (by the refinement of C57), `alsCP_DT`, `test_ALS` over the reals, lambda > 0; the decomposition routine is assumed to be right on symmetric positive definite matrices | a zero factor would make the objective at least \|V\|^2, so monotone sweeps from below \|V\|^2 never meet one (PBetter); induction over the loops of the two phases with C78's bound for one sweep (PBetter2) |
| C82 | all drivers of als_CP.cxx, als_Tucker.cxx and src/CP.cxx again with the additions on iter, iters, maxiter and the conversion int(sweeps) checked at 32 bits, and `test_ALS` (MInt, MInt2) | loop by loop: same result or overflow; the counters stay in [0, maxiter + 1] (one more in benchmark mode, at most 2(maxsweep+1) steps in CPD::als); at INT_MAX the final test always overflows (PInt) |
| C83 | the same model functions (MCP.dt_M, MCommon.mttkrp_map_DT, KhatriRao_contract, build_V) instantiated with rounded real arithmetic (Spec27.Fl): each operation is the real operation followed by a rounding of relative error at most u; the order of the additions inside one CTF statement is that of Tensor.v | approximate contents of every intermediate tensor (value, absolute value, number of roundings) carried through the walk of the tree (PRnd: one contraction; PRndDT, PRndDT2, PRndKR, PRndBV: the kernels); Flocq for the 53-bit instance |
| C84 | MCP.diffnorm, Tensor.norm2 over the rounded numbers of C83 | entries of V - build_V by the calculus of PRnd, relative error of a sum of squares and of its root, Minkowski inequality (PRndNorm) |
| C85 | MCommon.gram_index, gradsubprob, gradient_CP, MCP.sumnorm, measure, alsCP_check over the rounded numbers of C83 | the matrix statements evaluated operation by operation, products of Gram matrices by induction over the modes, norms as in C84 (PRndGrad, PRndGrad2) |
| C86 | MCommon.SVD_solve, alsCP_mode, alsCP_DT_mode, DT_sub_mode and their sweeps over the rounded numbers of C83; the decomposition is an oracle of the right shapes, nothing is assumed of its values | each update is compared with the exact one AT THE FACTORS IT STARTS FROM (so errors are not amplified through the modes): right-hand side, system, solution through the returned decomposition, gradient (PRndALS); the contents of the dimension-tree table stay within rounding of the current factors (PRndALS2, PRndALS3) |
| C87 | MCP.Normalize over the rounded numbers of C83; the o-th root is exact up to one rounding (Num.nroot of Spec27.Fl) | the scale factors g/norm multiply to 1 up to the rounding of the norm product; entry by entry (PRndBal) |
| C88 | the updates of C86 | A L - R = A (L - S) + (A - M P) S + M (P S - I) + (M - R), each difference bounded by C86 (PRndNE) |
| C89 | all four drivers of als_CP.cxx (MCP.alsCP, alsCP_DT, alsCP_PP, alsCP_PP_partupdate) over an ARBITRARY number type, no algebraic law assumed (the doubles of NumF.F64 are one instance); the decomposition is an oracle of the right shapes; std::sort on NaN keys is the insertion sort libstdc++ runs below 17 elements | parametricity: every function maps inputs of equal shapes over two number types to outcomes such that if the second succeeds so does the first with equal shapes; the second is the number type with one element, where the correctness theorems of the other claims apply (PPar to PPar3: functions and sweeps; PPar4 to PPar6: drivers) |
| C90 | hosvd, TTMc and the three drivers of als_Tucker.cxx (MTucker.hosvd, alsTucker, alsTucker_DT, alsTucker_PP) over an ARBITRARY number type, no algebraic law assumed; the truncated decomposition is an oracle of the right shapes (it may return NaN) | parametricity as in C89: PPar7 and PPar11 relate every function of the file over two number types, PPar8 to PPar10 run the drivers against the one-element number type, where the exact correctness theorems apply |
| C91 | the tensor generators of common.cxx and the whole program test_ALS (MGen, MRun.run_tensor, MMains.test_ALS) over an ARBITRARY number type | PPar12 relates the generators over two number types (Gen_collinearity's redraw loop, whose length depends on the numbers, by induction on its bound); PropAny3 composes C89 and C90 with the option parser's ranges (rank <= size) |
| C92 | the whole program pp_bench (MMains.pp_bench) over an ARBITRARY number type | PropAny4: every repetition of the two halves keeps the shapes (C89, C90 in benchmark mode), copying the start factors back by parametricity |
| C93 | the whole use of a CPD object (MCPD.cpd_run: constructor, Init, als) with each of the five optimizers over an ARBITRARY number type | PPar13, PPar14: every function of MOpt and MOptLR in lockstep with the number type of one element (the gradient statement forces the shape of the MTTKRP, so the Cholesky routines get matrices of the right shapes); PropAny5: the one-element steps never fail (C19-C23), so neither do the others; induction over the rounds of als |

Floating-point accuracy is modelled for the kernels, sweeps and checks of C83 to C88 only (relative error per operation, no overflow or underflow); MPI performance and the numerical quality of LAPACK cannot be expressed in this model.

## 4. Trusted base

Coq's kernel; the definitions in Base/Num/Tensor/Spec*; the reading of the C++ in the M files (their comments cite the lines);
the axioms of the standard library listed in section 5.  No axioms, parameters or module types of our own.

## 5. Theorems and what `Print Assumptions` lists

"-" means "Closed under the global context".  R4 = the four axioms under the standard library reals and classical logic used with them: `ClassicalDedekindReals.sig_not_dec`, `ClassicalDedekindReals.sig_forall_dec`, `FunctionalExtensionality.functional_extensionality_dep`, `Classical_Prop.classic`.  R2 = `sig_forall_dec` and `functional_extensionality_dep` only.

| property | theorem (file) | axioms |
|---|---|---|
| C01 Direct MTTKRP is exact | C01_direct_mttkrp_exact (PropMttkrp) | - |
|  | C01_case (PropMttkrp) | - |
| C02 Direct MTTKRP breaks at order 11 | C02_direct_mttkrp_order11_fails (PropMttkrp) | - |
|  | C02_direct_mttkrp_order11_refuted (PropMttkrp) | - |
|  | C02_case (PropCases) | - |
| C03 CP gradient is exact | C03_gradient_exact (PropMttkrp) | - |
|  | C03_gradient_is_derivative (PropBasic) | - |
|  | C03_case (PropMttkrp) | - |
|  | C03_derivative_case (PropBasic) | - |
| C04 Reconstruction from factors is exact | C04_build_V_exact (PropBasic) | - |
|  | C04_build_V_order20_ub (PropBasic) | - |
|  | C04_build_V_order1_ub (PropBasic) | - |
|  | C04_case (PropBasic) | - |
| C05 Dimension-tree MTTKRP is exact | C05_dimension_tree_mttkrp_exact (PropALS) | - |
|  | C05_cached_requests_exact (PropALS) | - |
|  | C05_case (PropALS) | - |
| C06 Dimension-tree MTTKRP fails for orders 3 and 5 | C06_order5_undefined (PropALS) | - |
|  | C06_order12_undefined (PropALS) | - |
|  | C06_order3_diverges (PropALS) | - |
|  | C06_case (PropALS) | - |
| C07 Dimension tree is well formed | C07_dimension_tree_well_formed (PropALS) | - |
|  | C07_case (PropALS) | - |
| C08 A dimension-tree ALS sweep is an ALS sweep | C08_dimension_tree_sweep (PropALS) | - |
|  | C08_exact_phase_sweep (PropALS) | - |
|  | C08_direct_sweep (PropALS) | - |
|  | C08_case (PropALS) | - |
| C09 Pairwise-perturbation operators are exact | C09_request_exact (PropPP) | - |
|  | C09_operators_exact (PropPP) | - |
|  | C09_case (PropPP) | - |
| C10 Pairwise-perturbation operator construction overruns for order 10 and above | C10_operator_buffer_overrun (PropPP) | - |
|  | C10_long_request (PropPP) | - |
|  | C10_driver (PropPP) | - |
|  | C10_orders_1_and_2 (PropPP) | - |
|  | C10_case (PropPP) | - |
| C11 Pairwise perturbation is the first-order expansion | C11_pp_mttkrp (PropPP) | - |
|  | C11_sweep (PropPP) | - |
|  | C11_remainder_second_order (PropPP) | - |
|  | C11_case (PropPP) | - |
| C12 Pairwise perturbation is exact when one factor moved | C12_exact_when_one_factor_moved (PropPP) | - |
|  | C12_first_sweep (PropPP) | - |
|  | C12_case (PropPP) | - |
| C13 Normalize preserves the represented tensor | C13_normalize_preserves_tensor (PropBasic) | R4 |
|  | C13_case (PropBasic) | R4 |
| C14 Normalize equalises the factor norms | C14_normalize_equal_norms (PropBasic) | R4 |
|  | C13_case (PropBasic) | R4 |
| C15 SVD solve satisfies the normal equations | C15_svd_solve (PropBasic) | - |
|  | C15_case (PropBasic) | - |
| C16 Cholesky solve satisfies the normal equations | C16_cholesky_solve (PropBasic) | - |
|  | C16_case (PropBasic) | - |
| C17 Damped solve moves along the segment | C17_damped_solve (PropBasic) | - |
|  | C17_case (PropCases) | - |
| C18 ALS never increases the residual | C18_normal_equations_minimise (PropBasic) | - |
|  | C18_sweep_never_increases_residual (PropALS) | - |
|  | C18_dimension_tree_sweep_monotone (PropALS) | R4 |
|  | C18_case (PropBasic) | R4 |
|  | C18_real_case (PropALS) | R4 |
|  | C18_sweep_case (PropALS) | - |
| C19 Gram system matrix is exact | C19_system_matrix (PropOpt) | - |
|  | C19_no_memory (PropOpt) | - |
|  | C22_case (PropOpt) | - |
| C20 Multi-sweep tree optimizer uses only current factors | C20_multi_sweep_optimizer_exact (PropOpt) | - |
|  | C22_case (PropOpt) | - |
| C21 Two-subtree optimizer uses only current factors | C21_two_subtree_optimizer_exact (PropOpt) | - |
|  | C21_order2_undefined (PropOpt) | - |
|  | C22_case (PropOpt) | - |
| C22 Sweep accounting of the optimizers is honest | C22_two_subtree_accounting (PropOpt) | - |
|  | C22_multi_sweep_accounting (PropOpt) | - |
|  | C22_simple_step_is_a_sweep (PropOpt) | - |
|  | C22_case (PropOpt) | - |
| C23 Low-rank optimizers keep their cached contractions consistent | C23_two_subtree_low_rank_exact (PropOptLR) | - |
|  | C23_two_subtree_cache (PropOptLR) | - |
|  | C23_multi_sweep_low_rank_exact (PropOptLR) | - |
|  | C23_case (PropOptLR) | - |
| C24 CPD::als terminates | C24_als_terminates (PropCPD) | - |
|  | C24_als_run (PropCPD) | - |
|  | C25_case (PropCPD) | - |
| C25 CPD::als return value tells convergence | C25_return_value (PropCPD) | - |
|  | C25_multi_sweep_exact_orders (PropCPD) | - |
|  | C25_rounding (PropCPD) | - |
|  | C25_rounding_case (PropCPD) | - |
|  | C25_case (PropCPD) | - |
| C26 Plain ALS drivers terminate and report correctly | C26_alsCP_DT (PropALS) | - |
|  | C26_alsCP (PropALS) | - |
|  | C26_case (PropALS) | - |
|  | C26_alsCP_DT_run (PropCPD) | - |
|  | C26_alsCP_run (PropCPD) | - |
| C27 Pairwise-perturbation driver terminates unless the clock fires | C27_terminates (PropPP) | R4 |
|  | C27_never_returns (PropPP) | R4 |
|  | C27_stuck_state (PropPP) | R4 |
|  | C27_case (PropPP) | R2 |
| C28 Benchmark mode misreports | C28_exhausted_but_true (PropPP) | R4 |
|  | C28_never_false (PropPP) | R4 |
|  | C28_converged_but_false (PropPP) | R4 |
|  | C28_case (PropPP) | - |
| C29 TTMc is exact | C29_ttmc (PropTucker) | - |
|  | C29_ttmc_all_modes (PropTucker) | - |
|  | C29_fails_from_order_11 (PropTucker) | - |
|  | C29_case (PropTucker) | - |
|  | C29_fails_case (PropTucker) | - |
| C30 Tucker dimension-tree sweeps are exact HOOI sweeps | C30_dimension_tree_sweep (PropTucker) | - |
|  | C30_plain_sweep (PropTucker) | - |
|  | C30_order_3_never_completes (PropTucker) | - |
|  | C30_order_5_fails (PropTucker) | - |
|  | C30_order_5_wrong_tensor (PropTucker) | - |
|  | C30_case (PropTucker) | - |
|  | C30_order_3_case (PropTucker) | - |
|  | C30_order_5_case (PropTucker) | - |
| C31 Tucker pairwise-perturbation operators are exact | C31_operators_exact (PropTucker2) | - |
|  | C31_expansion (PropTucker2) | - |
|  | C31_remainder_second_order (PropTucker2) | - |
|  | C31_exact_when_one_factor_moved (PropTucker2) | - |
|  | C31_sweep (PropTucker2) | - |
|  | C31_other_orders_undefined (PropTucker2) | - |
|  | C31_case (PropTucker2) | - |
| C32 HOSVD initialisation | C32_hosvd (PropTucker) | - |
|  | C32_case (PropTucker) | - |
| C33 Unfolding Gram matrix | C33_unfolding_gram (PropTucker) | - |
|  | C33_case (PropTucker) | - |
| C34 Laplacian tensor | C34_laplacian (PropGen) | - |
|  | C34_laplacian_of_zeros (PropGen) | - |
|  | C34_one_direction_is_undefined (PropGen) | - |
|  | C34_case (PropGen) | - |
| C35 fold_unfold keeps the data | C35_fold_unfold (PropGen) | - |
|  | C35_back_and_forth (PropGen) | - |
|  | C35_too_small (PropGen) | - |
|  | C35_case (PropGen) | - |
| C36 Command-line parsing yields in-range settings | C36_run_settings (PropRun) | - |
|  | C36_test_ALS_settings (PropRun) | - |
|  | C36_pp_bench_settings (PropRun) | - |
|  | C36_run_in_range (PropRun) | - |
|  | C36_decimal (PropRun) | - |
|  | C36_tokens (PropRun) | - |
|  | C36_tokens_case (PropRun) | - |
|  | C36_case (PropRun) | - |
| C37 resprint=0 is accepted and divides by zero | C37_als_resprint_zero (PropCPD) | - |
|  | C37_alsCP_DT_resprint_zero (PropCPD) | - |
|  | C37_run_resprint_zero (PropRun2) | - |
|  | C53_case (PropRun2) | - |
| C38 run with the default tensor aborts | C38_default_tensor_never_decomposes (PropRun2) | - |
|  | C38_default_tensor_asserts (PropRun2) | - |
|  | C38_case (PropRun2) | - |
| C39 Object lifetime | C39_lifecycle (PropLife) | - |
|  | C39_lowrank_schedule (PropLife) | - |
|  | C39_destroy_without_init (PropLife) | - |
|  | C39_second_init (PropLife) | - |
|  | C39_caller_deletes_W (PropLife) | - |
|  | C39_copy_is_destroyed_twice (PropLife) | - |
|  | C39_step_before_init (PropLife) | - |
|  | C39_array_constructor (PropLife) | - |
|  | C39_case_run (PropLife) | - |
|  | C39_case_leak (PropLife) | - |
|  | C39_case_dtlr (PropLife) | - |
|  | C39_case_schedule (PropLife) | - |
| C40 Collinear factors are as requested | C40_collinearity (PropGen) | - |
|  | C40_no_other_error (PropGen) | - |
|  | C40_empty_range_never_returns (PropGen) | - |
|  | C40_case (PropGen) | - |
| C41 Index permutation helper is an involution | C41_swap_char_involution (PropMttkrp) | - |
|  | C41_case (PropCases) | - |
| C42 Reported time excludes residual checks | C42_als_time (PropCPD) | - |
|  | C42_alsCP_DT_time (PropCPD) | - |
|  | C25_case (PropCPD) | - |
|  | C26_case (PropALS) | - |
| C43 Ranks agree on control flow only without a time limit | C43_ranks_agree_without_limit (PropCPD) | - |
|  | C43_ranks_diverge (PropCPD) | - |
|  | C43_case (PropCPD) | - |
| C44 Khatri-Rao product | C44_khatri_rao (PropRank) | - |
|  | C44_eleven_factors_unequal (PropRank) | - |
|  | C44_eleven_factors_wrong (PropRank) | - |
|  | C44_case (PropRank) | - |
| C45 Partial-update pairwise perturbation | C45_partial_sweep (PropPU) | - |
|  | C45_in_order_sweeps (PropPU) | - |
|  | C45_first_full_sweep (PropPU) | - |
|  | C45_repeated_mode_loses_corrections (PropPU) | - |
|  | C45_selection_refuted (PropPU) | - |
|  | C45_case (PropPU) | - |
| C46 Index sorting | C46_permutation (PropSort) | - |
|  | C46_decreasing (PropSort) | - |
|  | C46_ties (PropSort) | - |
|  | C46_case (PropSort) | - |
| C47 Rank-R update | C47_cholesky_update (PropRank) | - |
|  | C47_randomised (PropRank) | - |
|  | C47_svd_update (PropRank) | - |
|  | C47_best_update (PropRank) | - |
|  | C47_case (PropRank) | - |
| C48 Gauss-Seidel solves on fixpoints | C48_sweeps (PropGS) | - |
|  | C48_fixpoint (PropGS) | - |
|  | C48_objective (PropGS) | - |
|  | C48_residual (PropGS) | R4 |
|  | C48_case (PropGS) | R4 |
| C49 Direct MTTKRP rejects tensors with unequal mode lengths | C49_direct_mttkrp_unequal_fails (PropMttkrp) | - |
|  | C49_gradient_unequal_fails (PropMttkrp) | - |
|  | C49_case (PropMttkrp) | - |
| C50 First tolerance test is on random gradients | C50_first_test_is_on_random_gradients (PropCPD) | - |
|  | C50_case (PropCPD) | - |
| C51 Which tensor kinds run can decompose | C51_decomposed_kinds (PropRun2) | - |
|  | C51_data_sets_never_decompose (PropRun2) | - |
|  | C51_case (PropRun2) | - |
| C52 Options without effect in run | C52_ignored_options (PropRun2) | - |
|  | C52_nothing_computed (PropRun2) | - |
|  | C53_case (PropRun2) | - |
| C53 End-to-end run | C53_run (PropRun2) | - |
|  | C53_tensor_p2 (PropRun2) | - |
|  | C53_tensor_r (PropRun2) | - |
|  | C53_tensor_r2 (PropRun2) | - |
|  | C53_tensor_c (PropRun2) | - |
|  | C53_case (PropRun2) | - |
| C54 Tucker drivers report and stop exactly | C54_dimension_tree_run (PropTucker2) | - |
|  | C54_plain_run (PropTucker2) | - |
|  | C54_case (PropTucker2) | - |
| C55 Termination of the pairwise-perturbation Tucker driver | C55_terminates (PropTucker2) | R4 |
|  | C55_enough_rounds (PropTucker2) | R2 |
|  | C55_never_returns (PropTucker2) | R4 |
|  | C55_benchmark (PropTucker2) | R4 |
|  | C55_case (PropTucker2) | R4 |
|  | C55_run (PropTucker2) | - |
| C56 Exact optimizer steps never increase the regularised objective | C56_two_subtree (PropMono2) | - |
|  | C56_multi_sweep (PropMono2) | - |
|  | C56_simple (PropMono2) | - |
|  | C56_two_subtree_low_rank (PropMono2) | - |
|  | C56_case (PropMono3) | - |
|  | C56_multi_sweep_low_rank_may_increase (PropMono4) | R4 |
| C57 alsCP_PP is the two-phase algorithm, with its log and return value | C57_alsCP_PP_is_the_algorithm (PropDrivers) | - |
|  | C57_log (PropDrivers) | - |
|  | C57_case (PropDrivers) | - |
| C58 alsCP_PP_partupdate is the two-phase algorithm with priorities, with its log and return value | C58_partupdate_is_the_algorithm (PropDrivers) | - |
|  | C58_log (PropDrivers) | - |
|  | C58_case (PropDrivers) | - |
| C59 alsTucker_PP is the two-phase Tucker algorithm, with its log and return value | C59_alsTucker_PP_is_the_algorithm (PropDrivers2) | - |
|  | C59_log (PropDrivers2) | - |
|  | C59_case (PropDrivers2) | - |
| C60 alsCP_DT and alsTucker_DT are the dimension-tree ALS/HOOI algorithms, with their log and return value | C60_alsCP_DT_is_the_algorithm (PropMains) | - |
|  | C60_alsTucker_DT_is_the_algorithm (PropMains) | - |
|  | C60_case (PropMains) | - |
| C61 the program test_ALS runs the algorithm its options select on the tensor they select | C61_test_ALS_cp (PropMains2) | - |
|  | C61_test_ALS_tucker (PropMains2) | - |
|  | C61_default_run (PropMains2) | - |
|  | C61_bad_orders (PropMains2) | - |
|  | C61_case (PropMains2) | - |
| C62 pp_bench measures maxiter repetitions of each method from the same start | C62_pp_bench_cp (PropMains3) | - |
|  | C62_pp_bench_tucker (PropMains3) | - |
|  | C62_cp_log (PropMains4) | - |
|  | C62_tucker_log (PropMains4) | - |
|  | C62_tucker_too_few_ranks (PropMains5) | - |
|  | C62_tucker_default_tensor (PropMains5) | - |
|  | C62_default_run (PropMains5) | - |
|  | C62_pp_ignored (PropMains5) | - |
|  | C62_case (PropMains5) | - |
|  | C62_no_data_sets (PropMains5) | - |
| C63 Gram_Schmidt removes the component along B | C63_gram_schmidt (PropHelpers) | - |
|  | C63_orthogonal (PropHelpers) | - |
|  | C63_real (PropHelpers) | R4 |
|  | C63_case (PropHelpers) | - |
| C64 apply_rankR_update | C64_rankR_update (PropHelpers) | - |
|  | C64_A_is_overwritten (PropHelpers) | - |
|  | C64_case (PropHelpers) | - |
| C65 random_laplacian_tensor and unit_tensor | C65_random_laplacian (PropHelpers) | - |
|  | C65_unit_tensor (PropHelpers) | - |
|  | C65_unit_tensor_too_small (PropHelpers) | - |
|  | C65_case (PropHelpers) | - |
| C66 Exact Tucker sweeps never make the approximation worse | C66_fit (PropTucker3) | - |
|  | C66_update_is_best (PropTucker3) | R4 |
|  | C66_sweeps (PropTucker3) | R4 |
|  | C66_logged_residuals (PropTucker3) | R4 |
|  | C66_plain_run (PropTucker3) | R4 |
|  | C66_case (PropTucker3) | R4 |
| C67 The Tucker drivers converge | C67_dimension_tree_converges (PropTucker3) | R4 |
|  | C67_plain_converges (PropTucker3) | R4 |
|  | C66_case (PropTucker3) | R4 |
| C68 Quality of hosvd and of test_ALS for the Tucker model | C68_core_is_best (PropTucker4) | - |
|  | C68_hosvd (PropTucker4) | R4 |
|  | C68_test_ALS (PropTucker4) | R4 |
|  | C68_case (PropTucker4) | R4 |
| C69 The CP drivers never make the regularised fit worse | C69_sweeps (PropConv) | R4 |
|  | C69_regularised_systems_invertible (PropConv) | R4 |
|  | C69_run (PropConv) | R4 |
|  | C69_plain_run (PropMono7) | R4 |
|  | C69_case (PropConv3) | R4 |
| C70 alsCP_DT converges | C70_converges (PropConv) | R4 |
|  | C70_case (PropConv3) | R4 |
| C71 CPD::als converges with the exact optimizers | C71_systems_positive_definite (PropConv2) | R4 |
|  | C71_converges (PropConv2) | R4 |
|  | C71_case (PropConv3) | R4 |
| C72 Pairwise-perturbation error bound | C72_mttkrp_error (PropErr) | R4 |
|  | C72_relative_error (PropErr) | R4 |
|  | C72_tucker_error (PropErr) | R4 |
|  | C72_sweep_leaves (PropErr) | R4 |
|  | C72_start (PropErr) | R4 |
|  | C72_guarded_sweep (PropErr) | R4 |
|  | C72_case (PropErr2) | R4 |
| C73 Finding: Normalize inside the approximate phase invalidates the expansion | C73_rescaled_mttkrp (PropErr2) | R4 |
|  | C73_first_order_error (PropErr2) | R4 |
|  | C73_fit_lost (PropErr2) | R4 |
|  | C73_case (PropErr2) | R2 |
| C74 The program test ends after at most 62 half sweeps and logs at most three rows | C74_test_program (PropTest) | - |
|  | C74_unused_test (PropTest) | - |
|  | C74_case (PropTest) | - |
| C75 Rounding of the sweep counter costs at most one step | C75_rounding (PropF64) | R4 |
|  | C75_steps (PropF64) | R4 |
|  | C75_return_value_is_constant (PropF64) | R4 |
|  | C75_case (PropF64) | R2 |
| C76 A whole run of CPD::als never makes the fit worse | C76_als (PropMono5) | R4 |
|  | C76_regularised_systems_exact (PropMono5) | R4 |
|  | C76_run (PropMono6) | R4 |
|  | C76_case (PropMono5) | R4 |
|  | C76_run_case (PropMono6) | R4 |
| C77 The default CP run of test_ALS never makes the fit worse, and converges with regularisation | C77_test_ALS (PropMono7) | R4 |
|  | C77_test_ALS_converges (PropMono7) | R4 |
|  | C77_case (PropMono7) | R4 |
| C78 Approximate sweeps are nearly monotone | C78_first_sweep (PropErr3) | R4 |
|  | C78_guarded_sweep (PropErr3) | R4 |
|  | C78_update_close (PropErr3) | R4 |
|  | C78_case (PropErr3) | R4 |
|  | C78_gap_small (PropErr3) | R2 |
| C79 In binary64, loss of finiteness is silent and permanent | C79_normalize_spreads (PropNan) | - |
|  | C79_normalize_zero (PropNan) | - |
|  | C79_singular_solve (PropNan) | - |
|  | C79_sweep (PropNan) | - |
|  | C79_singular_sweep (PropNan) | - |
|  | C79_run (PropNan) | - |
|  | C79_zero_tensor_run (PropNan) | - |
|  | C79_case (PropNan) | - |
|  | C79_singular_case (PropNan) | - |
| C80 Pairwise-perturbation Tucker: orthonormal factors, and a sweep loses at most second order | C80_update (PropTucker5) | R4 |
|  | C80_sweep (PropTucker5) | R4 |
|  | C80_guard (PropTucker5) | R4 |
|  | C80_exact_phase (PropTucker5) | R4 |
|  | C80_approx_phase (PropTucker5) | R4 |
|  | C80_run (PropTucker5) | R4 |
|  | C80_test_ALS (PropTucker5) | R4 |
|  | C80_case (PropTucker5) | R4 |
| C81 Pairwise-perturbation CP: exact phases never raise the regularised objective, approximate phases by a bounded amount; no factor vanishes | C81_never_zero (PropBetter) | R4 |
|  | C81_alsCP_DT_converges (PropBetter) | R4 |
|  | C81_test_ALS_converges (PropBetter) | R4 |
|  | C81_exact_phase (PropBetter) | R4 |
|  | C81_approx_phase (PropBetter) | R4 |
|  | C81_case (PropBetter) | R4 |
| C82 Iteration counters fit a 32-bit int except for maxiter = 2147483647 | C82_only_overflow (PropInt) | - |
|  | C82_counters_exact (PropInt) | - |
|  | C82_cpd_counters_exact (PropInt) | - |
|  | C82_int_max_undefined (PropInt) | - |
|  | C82_alsCP_DT_int_max (PropInt) | - |
|  | C82_test_ALS (PropInt) | - |
|  | C82_case (PropInt) | - |
| C83 Rounding errors of the MTTKRP kernels and of the reconstruction are bounded entry by entry | C83_round53 (PropRnd) | R4 |
|  | C83_round53_rounds (PropRnd) | R4 |
|  | C83_gam (PropRnd) | R2 |
|  | C83_dimension_tree_rounded (PropRnd) | R4 |
|  | C83_cached_requests_rounded (PropRnd) | R4 |
|  | C83_direct_mttkrp_rounded (PropRnd) | R4 |
|  | C83_build_V_rounded (PropRnd) | R4 |
|  | C83_case (PropRnd) | R4 |
| C84 The logged residual norm is right up to an explicit rounding error | C84_norm_rounded (PropRnd2) | R4 |
|  | C84_residual_norm_rounded (PropRnd2) | R4 |
|  | C84_true_residual (PropRnd2) | R4 |
|  | C84_case (PropRnd2) | R4 |
| C85 Gradients and the logged gradient norm are right up to an explicit rounding error | C85_gradient_rounded (PropRnd2) | R4 |
|  | C85_dimension_tree_gradient_rounded (PropRnd2) | R4 |
|  | C85_alsCP_check_rounded (PropRnd2) | R4 |
|  | C85_logged_norms (PropRnd2) | R4 |
|  | C85_case (PropRnd2) | R4 |
| C86 A sweep in rounded arithmetic makes every ALS update up to an explicit rounding error | C86_solve_rounded (PropRnd3) | R4 |
|  | C86_dimension_tree_sweep_rounded (PropRnd3) | R4 |
|  | C86_exact_phase_sweep_rounded (PropRnd3) | R4 |
|  | C86_direct_sweep_rounded (PropRnd3) | R4 |
|  | C86_case (PropRnd3) | R4 |
| C87 Normalize in rounded arithmetic keeps the represented tensor and equalises the norms up to rounding | C87_normalize_rounded (PropRnd3) | R4 |
|  | C87_case (PropRnd3) | R4 |
| C88 After an update in rounded arithmetic the new factor solves the normal equations up to rounding and the defect of the decomposition | C88_updated_factor_residual (PropRnd3) | R4 |
|  | C88_exact_decomposition (PropRnd3) | R4 |
|  | C88_dimension_tree_sweep (PropRnd3) | R4 |
|  | C88_direct_sweep (PropRnd3) | R4 |
|  | C88_case (PropRnd3) | R4 |
| C89 Whatever the numbers, no CP driver fails and every shape is kept | C89_direct (PropAny) | - |
|  | C89_dimension_tree (PropAny) | - |
|  | C89_pairwise_perturbation (PropAny) | - |
|  | C89_partial_update (PropAny) | - |
|  | C89_zero_tensor (PropAny) | - |
|  | C89_case (PropAny) | - |
| C90 Whatever the numbers, no Tucker driver fails and every shape is kept | C90_hosvd (PropAny2) | - |
|  | C90_plain (PropAny2) | - |
|  | C90_dimension_tree (PropAny2) | - |
|  | C90_pairwise_perturbation (PropAny2) | - |
|  | C90_hosvd_then_sweeps (PropAny2) | - |
|  | C90_case (PropAny2) | - |
| C91 Whatever the numbers, a valid command line of test_ALS never fails | C91_test_ALS_cp (PropAny3) | - |
|  | C91_test_ALS_tucker (PropAny3) | - |
|  | C91_tensor (PropAny3) | - |
|  | C91_command_line_cp (PropAny3) | - |
|  | C91_command_line_tucker (PropAny3) | - |
|  | C91_case (PropAny3) | - |
| C92 Whatever the numbers, a valid command line of pp_bench never fails | C92_pp_bench_cp (PropAny4) | - |
|  | C92_pp_bench_tucker (PropAny4) | - |
|  | C92_command_line (PropAny4) | - |
|  | C92_case (PropAny4) | - |
| C93 Whatever the numbers, running a CPD object never fails | C93_runs_whatever_the_numbers (PropAny5) | - |
|  | C93_case (PropAny5) | - |
