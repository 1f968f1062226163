{
 "claims": [
  {
   "property": "C01",
   "status": "proved",
   "theorems": [
    "C01_direct_mttkrp_exact",
    "C01_case"
   ],
   "note": "equal mode lengths, orders 2..10; unequal lengths are C49"
  },
  {
   "property": "C02",
   "status": "proved",
   "theorems": [
    "C02_direct_mttkrp_order11_fails",
    "C02_direct_mttkrp_order11_refuted",
    "C02_case"
   ],
   "note": ""
  },
  {
   "property": "C03",
   "status": "proved",
   "theorems": [
    "C03_gradient_exact",
    "C03_gradient_is_derivative",
    "C03_case",
    "C03_derivative_case"
   ],
   "note": ""
  },
  {
   "property": "C04",
   "status": "proved",
   "theorems": [
    "C04_build_V_exact",
    "C04_build_V_order20_ub",
    "C04_build_V_order1_ub",
    "C04_case"
   ],
   "note": ""
  },
  {
   "property": "C05",
   "status": "proved",
   "theorems": [
    "C05_dimension_tree_mttkrp_exact",
    "C05_cached_requests_exact",
    "C05_case"
   ],
   "note": "orders 4 and 6..31 (the others: C06); empty table and any sequence of requests; inside a sweep with changing factors: C08"
  },
  {
   "property": "C06",
   "status": "proved",
   "theorems": [
    "C06_order5_undefined",
    "C06_order12_undefined",
    "C06_order3_diverges",
    "C06_case"
   ],
   "note": "orders 1, 2 and 5 undefined behaviour, order 3 never returns, at sweep level"
  },
  {
   "property": "C07",
   "status": "proved",
   "theorems": [
    "C07_dimension_tree_well_formed",
    "C07_case"
   ],
   "note": "orders 2..31"
  },
  {
   "property": "C08",
   "status": "proved",
   "theorems": [
    "C08_dimension_tree_sweep",
    "C08_exact_phase_sweep",
    "C08_direct_sweep",
    "C08_case"
   ],
   "note": "factors and recorded gradients of alsCP_DT, of the exact phase of alsCP_PP and of alsCP"
  },
  {
   "property": "C09",
   "status": "proved",
   "theorems": [
    "C09_request_exact",
    "C09_operators_exact",
    "C09_case"
   ],
   "note": "Every operator of a checkpoint (orders 3-9) and every single request of at most 8 contracted modes, from any table with correct entries, is the exact partial MTTKRP; old entries are unchanged."
  },
  {
   "property": "C10",
   "status": "proved",
   "theorems": [
    "C10_operator_buffer_overrun",
    "C10_long_request",
    "C10_driver",
    "C10_orders_1_and_2",
    "C10_case"
   ],
   "note": "Order >= 10 (every order, every input): operator construction is undefined behaviour; also at the level of the driver in benchmark mode; orders 1 and 2 too."
  },
  {
   "property": "C11",
   "status": "proved",
   "theorems": [
    "C11_pp_mttkrp",
    "C11_sweep",
    "C11_remainder_second_order",
    "C11_case"
   ],
   "note": "MTTKRP of a PP sweep is the first-order expansion, whole sweep characterised, remainder is t^2 times a polynomial. Orders 3-9 (others are undefined, C10)."
  },
  {
   "property": "C12",
   "status": "proved",
   "theorems": [
    "C12_exact_when_one_factor_moved",
    "C12_first_sweep",
    "C12_case"
   ],
   "note": "Exact when at most one other factor moved; instance: modes 0 and 1 of the first sweep after a checkpoint."
  },
  {
   "property": "C13",
   "status": "proved",
   "theorems": [
    "C13_normalize_preserves_tensor",
    "C13_case"
   ],
   "note": "over the reals; factors with non-zero norm (a zero factor divides by zero)"
  },
  {
   "property": "C14",
   "status": "proved",
   "theorems": [
    "C14_normalize_equal_norms",
    "C13_case"
   ],
   "note": "over the reals"
  },
  {
   "property": "C15",
   "status": "proved",
   "theorems": [
    "C15_svd_solve",
    "C15_case"
   ],
   "note": "under the SVD contract"
  },
  {
   "property": "C16",
   "status": "proved",
   "theorems": [
    "C16_cholesky_solve",
    "C16_case"
   ],
   "note": "under the Cholesky and triangular-solve contracts"
  },
  {
   "property": "C17",
   "status": "proved",
   "theorems": [
    "C17_damped_solve",
    "C17_case"
   ],
   "note": ""
  },
  {
   "property": "C18",
   "status": "proved",
   "theorems": [
    "C18_normal_equations_minimise",
    "C18_sweep_never_increases_residual",
    "C18_dimension_tree_sweep_monotone",
    "C18_case",
    "C18_real_case",
    "C18_sweep_case"
   ],
   "note": "one mode, a whole sweep (any ordered ring), and the code's dimension-tree sweep with normalisation over the reals"
  },
  {
   "property": "C19",
   "status": "proved",
   "theorems": [
    "C19_system_matrix",
    "C19_no_memory",
    "C22_case"
   ],
   "note": "update_S for every factor list, mode and previous content of S"
  },
  {
   "property": "C20",
   "status": "proved",
   "theorems": [
    "C20_multi_sweep_optimizer_exact",
    "C22_case"
   ],
   "note": "every history of CPMSDTOptimizer steps, orders 3..31; order 2 is undefined behaviour (C21_order2_undefined)"
  },
  {
   "property": "C21",
   "status": "proved",
   "theorems": [
    "C21_two_subtree_optimizer_exact",
    "C21_order2_undefined",
    "C22_case"
   ],
   "note": "every history of CPDTOptimizer steps, orders 3..31; order 2 is undefined behaviour"
  },
  {
   "property": "C22",
   "status": "proved",
   "theorems": [
    "C22_two_subtree_accounting",
    "C22_multi_sweep_accounting",
    "C22_simple_step_is_a_sweep",
    "C22_case"
   ],
   "note": "sum of returned fractions against number of visits per mode; simple optimizer for orders 2..10 with equal mode lengths"
  },
  {
   "property": "C23",
   "status": "proved",
   "theorems": [
    "C23_two_subtree_low_rank_exact",
    "C23_two_subtree_cache",
    "C23_multi_sweep_low_rank_exact",
    "C23_case"
   ],
   "note": "Both low-rank optimizers, any number of steps, plain or randomised decomposition: factors and gradients are those of the schedule of full / low-rank updates, each computed from the exact MTTKRP and system matrix of the current factors; cached contractions are those of V with the reference factor. Decomposition routines are arbitrary functions of the right shapes; orders 3..31."
  },
  {
   "property": "C24",
   "status": "proved",
   "theorems": [
    "C24_als_terminates",
    "C24_als_run",
    "C25_case"
   ],
   "note": "cpd_run (constructor, Init, als) with each of the five optimizers never exceeds 2(maxsweep+1) rounds, for arbitrary numbers (no laws: NaN included); C24_als_run is the complete description of a run. The sweep counter (a double) is an exact rational in the model."
  },
  {
   "property": "C25",
   "status": "proved",
   "theorems": [
    "C25_return_value",
    "C25_multi_sweep_exact_orders",
    "C25_rounding",
    "C25_rounding_case",
    "C25_case"
   ],
   "note": "stopped iff true for Simple, two-subtree, two-subtree low-rank; for the multi-sweep optimizers the exact value with the binary64 counter (wrong unless it hits maxsweep+1); closed form for orders 4, 8, 16; rounding changes the number of steps at order 3."
  },
  {
   "property": "C26",
   "status": "proved",
   "theorems": [
    "C26_alsCP_DT",
    "C26_alsCP",
    "C26_case",
    "C26_alsCP_DT_run",
    "C26_alsCP_run"
   ],
   "note": "complete runs: sweeps, check points, stop decisions, return value, rows"
  },
  {
   "property": "C27",
   "status": "proved",
   "theorems": [
    "C27_terminates",
    "C27_never_returns",
    "C27_stuck_state",
    "C27_case"
   ],
   "note": "Over the reals with a monotone clock: terminates within maxiter+1 rounds if the run stays within the limit; never returns once the limit is exceeded on a checked iteration with gradient norm above tol."
  },
  {
   "property": "C28",
   "status": "proved",
   "theorems": [
    "C28_exhausted_but_true",
    "C28_never_false",
    "C28_converged_but_false",
    "C28_case"
   ],
   "note": "Benchmark mode: exhausted budget reported as true; never false for tol <= 0; converged run reported as false for maxiter = 0."
  },
  {
   "property": "C29",
   "status": "proved",
   "theorems": [
    "C29_ttmc",
    "C29_ttmc_all_modes",
    "C29_fails_from_order_11",
    "C29_case",
    "C29_fails_case"
   ],
   "note": "TTMc exact for orders 2..10, all modes and -1; CTF error from order 11 (letter clash)."
  },
  {
   "property": "C30",
   "status": "proved",
   "theorems": [
    "C30_dimension_tree_sweep",
    "C30_plain_sweep",
    "C30_order_3_never_completes",
    "C30_order_5_fails",
    "C30_order_5_wrong_tensor",
    "C30_case",
    "C30_order_3_case",
    "C30_order_5_case"
   ],
   "note": "alsTucker_DT sweeps (orders 2, 4, 6..18) and alsTucker sweeps (2..10) are HOOI sweeps, the core is exact; orders 3 and 5 are proved to fail. sqrt_nonneg: the square root is never negative."
  },
  {
   "property": "C31",
   "status": "proved",
   "theorems": [
    "C31_operators_exact",
    "C31_expansion",
    "C31_remainder_second_order",
    "C31_exact_when_one_factor_moved",
    "C31_sweep",
    "C31_other_orders_undefined",
    "C31_case"
   ],
   "note": "operators, first-order expansion, second-order remainder, exactness when one factor moved, the approximate sweep, undefined behaviour for orders 1-2 and from 10 on (ring laws; svd of the right shape; sqrt_nonneg)"
  },
  {
   "property": "C32",
   "status": "proved",
   "theorems": [
    "C32_hosvd",
    "C32_case"
   ],
   "note": "hosvd, orders up to 18; decomposition oracle only assumed to return the right shapes."
  },
  {
   "property": "C33",
   "status": "proved",
   "theorems": [
    "C33_unfolding_gram",
    "C33_case"
   ],
   "note": "orders up to 18, every mode"
  },
  {
   "property": "C34",
   "status": "proved",
   "theorems": [
    "C34_laplacian",
    "C34_laplacian_of_zeros",
    "C34_one_direction_is_undefined",
    "C34_case"
   ],
   "note": "2..15 directions (order 4..30), any grid size: laplacian_tensor adds the Laplacian to V; order 2 is undefined behaviour"
  },
  {
   "property": "C35",
   "status": "proved",
   "theorems": [
    "C35_fold_unfold",
    "C35_back_and_forth",
    "C35_too_small",
    "C35_case"
   ],
   "note": "for every distribution of the source over the processes (any permutation of its index/value pairs)"
  },
  {
   "property": "C36",
   "status": "proved",
   "theorems": [
    "C36_run_settings",
    "C36_test_ALS_settings",
    "C36_pp_bench_settings",
    "C36_run_in_range",
    "C36_decimal",
    "C36_tokens",
    "C36_tokens_case",
    "C36_case"
   ],
   "note": "all argument vectors, the three programs; atof is a parameter; atoi modelled as glibc's; a NaN passes the double range tests, as in the code C36_tokens: every token of blanks, sign, digits and tail."
  },
  {
   "property": "C37",
   "status": "proved",
   "theorems": [
    "C37_als_resprint_zero",
    "C37_alsCP_DT_resprint_zero",
    "C37_run_resprint_zero",
    "C53_case"
   ],
   "note": "loops of CPD::als and alsCP_DT, and the whole program run with -resprint 0"
  },
  {
   "property": "C38",
   "status": "proved",
   "theorems": [
    "C38_default_tensor_never_decomposes",
    "C38_default_tensor_asserts",
    "C38_case"
   ],
   "note": "never decomposes for any argv; exactly an assertion failure for even dim 4..30; also without any option"
  },
  {
   "property": "C39",
   "status": "proved",
   "theorems": [
    "C39_lifecycle",
    "C39_lowrank_schedule",
    "C39_destroy_without_init",
    "C39_second_init",
    "C39_caller_deletes_W",
    "C39_copy_is_destroyed_twice",
    "C39_step_before_init",
    "C39_array_constructor",
    "C39_case_run",
    "C39_case_leak",
    "C39_case_dtlr",
    "C39_case_schedule"
   ],
   "note": "storage model of CPD objects; Init takes ownership of W and never frees V; second Init, caller's delete[] W, copies, step before Init and the array constructor are undefined; the multi-sweep low-rank optimizer leaks one array"
  },
  {
   "property": "C40",
   "status": "proved",
   "theorems": [
    "C40_collinearity",
    "C40_no_other_error",
    "C40_empty_range_never_returns",
    "C40_case"
   ],
   "note": "for every stream of drawn vectors and every number of draws; orders 2..19; a NaN collinearity counts as inside the range, as in the code"
  },
  {
   "property": "C41",
   "status": "proved",
   "theorems": [
    "C41_swap_char_involution",
    "C41_case"
   ],
   "note": ""
  },
  {
   "property": "C42",
   "status": "proved",
   "theorems": [
    "C42_als_time",
    "C42_alsCP_DT_time",
    "C25_case",
    "C26_case"
   ],
   "note": "for CPD::als with every optimizer and alsCP_DT; clock readings per check as in the code"
  },
  {
   "property": "C43",
   "status": "proved",
   "theorems": [
    "C43_ranks_agree_without_limit",
    "C43_ranks_diverge",
    "C43_case"
   ],
   "note": "agreement when no clock exceeds the limit; divergence theorem and concrete case"
  },
  {
   "property": "C44",
   "status": "proved",
   "theorems": [
    "C44_khatri_rao",
    "C44_eleven_factors_unequal",
    "C44_eleven_factors_wrong",
    "C44_case"
   ],
   "note": "exact for 1..10 factors; refuted (error or zeros) from 11 on"
  },
  {
   "property": "C45",
   "status": "proved",
   "theorems": [
    "C45_partial_sweep",
    "C45_in_order_sweeps",
    "C45_first_full_sweep",
    "C45_repeated_mode_loses_corrections",
    "C45_selection_refuted",
    "C45_case"
   ],
   "note": "exact effect of a partial sweep; n in-order sweeps equal n PP sweeps (any n); first full sweep always in order; refutations for other selections"
  },
  {
   "property": "C46",
   "status": "proved",
   "theorems": [
    "C46_permutation",
    "C46_decreasing",
    "C46_ties",
    "C46_case"
   ],
   "note": "permutation; decreasing order under asymmetry and transitivity of not-less; ties keep index order (at most 16 elements: libstdc++ insertion sort)"
  },
  {
   "property": "C47",
   "status": "proved",
   "theorems": [
    "C47_cholesky_update",
    "C47_randomised",
    "C47_svd_update",
    "C47_best_update",
    "C47_case"
   ],
   "note": "Cholesky and eigen-decomposition variants, plain and randomised; optimality when the truncated decomposition is a best approximation"
  },
  {
   "property": "C48",
   "status": "proved",
   "theorems": [
    "C48_sweeps",
    "C48_fixpoint",
    "C48_objective",
    "C48_residual",
    "C48_case"
   ],
   "note": "CTF's symmetric-hollow assignment is modelled as in MHelpers.v (stated in DESIGN.md)"
  },
  {
   "property": "C49",
   "status": "proved",
   "theorems": [
    "C49_direct_mttkrp_unequal_fails",
    "C49_gradient_unequal_fails",
    "C49_case"
   ],
   "note": ""
  },
  {
   "property": "C50",
   "status": "proved",
   "theorems": [
    "C50_first_test_is_on_random_gradients",
    "C50_case"
   ],
   "note": "both directions, all optimizers"
  },
  {
   "property": "C51",
   "status": "proved",
   "theorems": [
    "C51_decomposed_kinds",
    "C51_data_sets_never_decompose",
    "C51_case"
   ],
   "note": ""
  },
  {
   "property": "C52",
   "status": "proved",
   "theorems": [
    "C52_ignored_options",
    "C52_nothing_computed",
    "C53_case"
   ],
   "note": "issparse only selects the storage format and is not modelled"
  },
  {
   "property": "C53",
   "status": "proved",
   "theorems": [
    "C53_run",
    "C53_tensor_p2",
    "C53_tensor_r",
    "C53_tensor_r2",
    "C53_tensor_c",
    "C53_case"
   ],
   "note": "Simple 2..10, other methods 3..19 modes, as in C24"
  },
  {
   "property": "C54",
   "status": "proved",
   "theorems": [
    "C54_dimension_tree_run",
    "C54_plain_run",
    "C54_case"
   ],
   "note": "the full runs of alsTucker_DT and alsTucker: number of sweeps, result, rows; finding: core stale when alsTucker returns false"
  },
  {
   "property": "C55",
   "status": "proved",
   "theorems": [
    "C55_terminates",
    "C55_enough_rounds",
    "C55_never_returns",
    "C55_benchmark",
    "C55_case",
    "C55_run"
   ],
   "note": "over the reals; termination bound, divergence when the limit is exceeded from the start, benchmark mode"
  },
  {
   "property": "C56",
   "status": "proved",
   "theorems": [
    "C56_two_subtree",
    "C56_multi_sweep",
    "C56_simple",
    "C56_two_subtree_low_rank",
    "C56_case",
    "C56_multi_sweep_low_rank_may_increase"
   ],
   "note": "exactness of the solves and optimality of the truncation are hypotheses, met by C56_case; the low-rank multi-sweep optimizer is shown by an example not to have the property (reals)"
  },
  {
   "property": "C57",
   "status": "proved",
   "theorems": [
    "C57_alsCP_PP_is_the_algorithm",
    "C57_log",
    "C57_case"
   ],
   "note": "refinement to the algorithm of Spec12 for every clock and history; log shape as corollary"
  },
  {
   "property": "C58",
   "status": "proved",
   "theorems": [
    "C58_partupdate_is_the_algorithm",
    "C58_log",
    "C58_case"
   ],
   "note": "refinement to the algorithm of Spec12; update_size is a parameter (int(order*percentage) is not computed)"
  },
  {
   "property": "C59",
   "status": "proved",
   "theorems": [
    "C59_alsTucker_PP_is_the_algorithm",
    "C59_log",
    "C59_case"
   ],
   "note": "refinement theorem over every ring with square root: alsTucker_PP = tk_algorithm (Spec13); log order as corollary; order 3 and 5 non-benchmark runs fail (C30)"
  },
  {
   "property": "C60",
   "status": "proved",
   "theorems": [
    "C60_alsCP_DT_is_the_algorithm",
    "C60_alsTucker_DT_is_the_algorithm",
    "C60_case"
   ],
   "note": "als*_DT refine the algorithms of Spec14"
  },
  {
   "property": "C61",
   "status": "proved",
   "theorems": [
    "C61_test_ALS_cp",
    "C61_test_ALS_tucker",
    "C61_default_run",
    "C61_bad_orders",
    "C61_case"
   ],
   "note": "whole program test_ALS after option parsing; tensor generation is C53; orders 4, 6..19 (CP pp 0), 4, 6..9 (pp 1, 2), Tucker orders of Spec15"
  },
  {
   "property": "C62",
   "status": "proved",
   "theorems": [
    "C62_pp_bench_cp",
    "C62_pp_bench_tucker",
    "C62_cp_log",
    "C62_tucker_log",
    "C62_tucker_too_few_ranks",
    "C62_tucker_default_tensor",
    "C62_default_run",
    "C62_pp_ignored",
    "C62_case",
    "C62_no_data_sets"
   ],
   "note": "whole program pp_bench, its log, its failing runs"
  },
  {
   "property": "C63",
   "status": "proved",
   "theorems": [
    "C63_gram_schmidt",
    "C63_orthogonal",
    "C63_real",
    "C63_case"
   ],
   "note": ""
  },
  {
   "property": "C64",
   "status": "proved",
   "theorems": [
    "C64_rankR_update",
    "C64_A_is_overwritten",
    "C64_case"
   ],
   "note": "the function is not called by any program"
  },
  {
   "property": "C65",
   "status": "proved",
   "theorems": [
    "C65_random_laplacian",
    "C65_unit_tensor",
    "C65_unit_tensor_too_small",
    "C65_case"
   ],
   "note": "the functions are not called by any program"
  },
  {
   "property": "C66",
   "status": "proved",
   "theorems": [
    "C66_fit",
    "C66_update_is_best",
    "C66_sweeps",
    "C66_logged_residuals",
    "C66_plain_run",
    "C66_case"
   ],
   "note": "over R; hypothesis leading_along: the SVD oracle answers every reachable request with leading singular vectors"
  },
  {
   "property": "C67",
   "status": "proved",
   "theorems": [
    "C67_dimension_tree_converges",
    "C67_plain_converges",
    "C66_case"
   ],
   "note": "over R; same hypothesis on the SVD; the hypotheses are met by C66_case (its last conjunct is the bound)"
  },
  {
   "property": "C68",
   "status": "proved",
   "theorems": [
    "C68_core_is_best",
    "C68_hosvd",
    "C68_test_ALS",
    "C68_case"
   ],
   "note": "over R; competitors: any factors of the same shapes, orthonormal or not, any core"
  },
  {
   "property": "C69",
   "status": "proved",
   "theorems": [
    "C69_sweeps",
    "C69_regularised_systems_invertible",
    "C69_run",
    "C69_plain_run",
    "C69_case"
   ],
   "note": "Over the reals, exact arithmetic. The decomposition routine is assumed to return a valid decomposition with invertible singular values at each system met (for lambda > 0 validity is enough: C69_regularised_systems_invertible), and no factor to become zero (Normalize would divide by its norm)."
  },
  {
   "property": "C70",
   "status": "proved",
   "theorems": [
    "C70_converges",
    "C70_case"
   ],
   "note": "Over the reals. The gradients tested are those met during the last sweep, as in the code. Case: positive 2x2x2x2 tensor, rank 1, a start that the first check does not accept."
  },
  {
   "property": "C71",
   "status": "proved",
   "theorems": [
    "C71_systems_positive_definite",
    "C71_converges",
    "C71_case"
   ],
   "note": "Over the reals. The low-rank optimizers are not covered (C56 has the counterexample for the multi-sweep one)."
  },
  {
   "property": "C72",
   "status": "proved",
   "theorems": [
    "C72_mttkrp_error",
    "C72_relative_error",
    "C72_tucker_error",
    "C72_sweep_leaves",
    "C72_start",
    "C72_guarded_sweep",
    "C72_case"
   ],
   "note": "explicit second-order error bounds for the CP and Tucker expansions; the guard bounds the perturbations of a sweep (factors W0 of equal norm, no factor becomes zero)"
  },
  {
   "property": "C73",
   "status": "proved",
   "theorems": [
    "C73_rescaled_mttkrp",
    "C73_first_order_error",
    "C73_fit_lost",
    "C73_case"
   ],
   "note": "finding: rescaling without dW; first-order lower bound and a lost perfect fit"
  },
  {
   "property": "C74",
   "status": "proved",
   "theorems": [
    "C74_test_program",
    "C74_unused_test",
    "C74_case"
   ],
   "note": "whole program test composed from CPD, Init and als with CPDTOptimizer; the outcome is given by cases on the three checks. C74_case: complete runs ending after 62 half sweeps and at the second check"
  },
  {
   "property": "C75",
   "status": "proved",
   "theorems": [
    "C75_rounding",
    "C75_steps",
    "C75_return_value_is_constant",
    "C75_case"
   ],
   "note": "The counter of the multi-sweep optimizers with binary64 rounding; the model's rounding is Flocq's round-to-nearest-even on the normal range below 2^40."
  },
  {
   "property": "C76",
   "status": "proved",
   "theorems": [
    "C76_als",
    "C76_regularised_systems_exact",
    "C76_run",
    "C76_case",
    "C76_run_case"
   ],
   "note": "whole runs of CPD::als and of program run over R: returned objective and logged residuals never increase; regularised systems are exact as soon as Cholesky works; the multi-sweep low-rank optimizer is excluded because the claim is false of it (C56_multi_sweep_low_rank_may_increase)"
  },
  {
   "property": "C77",
   "status": "proved",
   "theorems": [
    "C77_test_ALS",
    "C77_test_ALS_converges",
    "C77_case"
   ],
   "note": "over R; hypotheses on the SVD oracle and non-zero factors as in C69/C70. Case: complete runs of the program on a positive 2x2x2x2 tensor with -lambda 0 and -lambda 1"
  },
  {
   "property": "C78",
   "status": "proved",
   "theorems": [
    "C78_first_sweep",
    "C78_guarded_sweep",
    "C78_update_close",
    "C78_case",
    "C78_gap_small"
   ],
   "note": "Over the reals. The sweep that the guard ends is covered only when it is the first after the checkpoint; case: a sweep on a 1x1x1x1 tensor that moves a factor and meets all hypotheses."
  },
  {
   "property": "C79",
   "status": "proved",
   "theorems": [
    "C79_normalize_spreads",
    "C79_normalize_zero",
    "C79_singular_solve",
    "C79_sweep",
    "C79_singular_sweep",
    "C79_run",
    "C79_zero_tensor_run",
    "C79_case",
    "C79_singular_case"
   ],
   "note": "Finding, over IEEE binary64 (SpecFloat); nothing assumed of the linear algebra. pow(x,1/n) is a parameter with pow_contract (zero to zero or NaN, non-finite to non-finite)."
  },
  {
   "property": "C80",
   "status": "proved",
   "theorems": [
    "C80_update",
    "C80_sweep",
    "C80_guard",
    "C80_exact_phase",
    "C80_approx_phase",
    "C80_run",
    "C80_test_ALS",
    "C80_case"
   ],
   "note": ""
  },
  {
   "property": "C81",
   "status": "proved",
   "theorems": [
    "C81_never_zero",
    "C81_alsCP_DT_converges",
    "C81_test_ALS_converges",
    "C81_exact_phase",
    "C81_approx_phase",
    "C81_case"
   ],
   "note": "alsCP_DT_sub and alsCP_PP_sub over the reals with lambda > 0: objective in the exact and approximate phases; no factor vanishes from a start better than zero; convergence of alsCP_DT and test_ALS under input conditions only. Not covered: the objective after the one sweep that breaks the guard and ends an approximate phase."
  },
  {
   "property": "C82",
   "status": "proved",
   "theorems": [
    "C82_only_overflow",
    "C82_counters_exact",
    "C82_cpd_counters_exact",
    "C82_int_max_undefined",
    "C82_alsCP_DT_int_max",
    "C82_test_ALS",
    "C82_case"
   ],
   "note": "The int-checked drivers equal the models over Z, so all other theorems carry over to 32-bit counters; maxiter = INT_MAX is undefined for every driver and for test_ALS."
  },
  {
   "property": "C83",
   "status": "proved",
   "theorems": [
    "C83_round53",
    "C83_round53_rounds",
    "C83_gam",
    "C83_dimension_tree_rounded",
    "C83_cached_requests_rounded",
    "C83_direct_mttkrp_rounded",
    "C83_build_V_rounded",
    "C83_case"
   ],
   "note": "standard model of rounding; order of the additions inside one CTF statement as in Tensor.v"
  },
  {
   "property": "C84",
   "status": "proved",
   "theorems": [
    "C84_norm_rounded",
    "C84_residual_norm_rounded",
    "C84_true_residual",
    "C84_case"
   ],
   "note": "standard model of rounding, as C83"
  },
  {
   "property": "C85",
   "status": "proved",
   "theorems": [
    "C85_gradient_rounded",
    "C85_dimension_tree_gradient_rounded",
    "C85_alsCP_check_rounded",
    "C85_logged_norms",
    "C85_case"
   ],
   "note": "standard model of rounding, as C83; the alsCP check is for the zero forcing term that test_ALS passes"
  },
  {
   "property": "C86",
   "status": "proved",
   "theorems": [
    "C86_solve_rounded",
    "C86_dimension_tree_sweep_rounded",
    "C86_exact_phase_sweep_rounded",
    "C86_direct_sweep_rounded",
    "C86_case"
   ],
   "note": "Each step is compared with the exact step at the factors it starts from; als_solve_within and als_grad_within are in Spec29."
  },
  {
   "property": "C87",
   "status": "proved",
   "theorems": [
    "C87_normalize_rounded",
    "C87_case"
   ],
   "note": "g is existential; the case gives factors of nonzero norm in 53-bit rounding."
  },
  {
   "property": "C88",
   "status": "proved",
   "theorems": [
    "C88_updated_factor_residual",
    "C88_exact_decomposition",
    "C88_dimension_tree_sweep",
    "C88_direct_sweep",
    "C88_case"
   ],
   "note": "The gradient is the exact one of the stored numbers, at the new factors; the case meets the exact-decomposition hypothesis at rank one."
  },
  {
   "property": "C89",
   "status": "proved",
   "theorems": [
    "C89_direct",
    "C89_dimension_tree",
    "C89_pairwise_perturbation",
    "C89_partial_update",
    "C89_zero_tensor",
    "C89_case"
   ],
   "note": "N is an arbitrary num record; C89_zero_tensor instantiates it with binary64 and discharges the success hypothesis of C79. LoopFuel stands for a driver loop still running after wf rounds."
  },
  {
   "property": "C90",
   "status": "proved",
   "theorems": [
    "C90_hosvd",
    "C90_plain",
    "C90_dimension_tree",
    "C90_pairwise_perturbation",
    "C90_hosvd_then_sweeps",
    "C90_case"
   ],
   "note": "N is an arbitrary num record. LoopFuel stands for a driver loop still running after wf rounds."
  },
  {
   "property": "C91",
   "status": "proved",
   "theorems": [
    "C91_test_ALS_cp",
    "C91_test_ALS_tucker",
    "C91_tensor",
    "C91_command_line_cp",
    "C91_command_line_tucker",
    "C91_case"
   ],
   "note": "N is an arbitrary num record. LoopFuel stands for a loop still running after the given number of rounds; the statements say for which options it can occur."
  },
  {
   "property": "C92",
   "status": "proved",
   "theorems": [
    "C92_pp_bench_cp",
    "C92_pp_bench_tucker",
    "C92_command_line",
    "C92_case"
   ],
   "note": "N is an arbitrary num record. LoopFuel stands for a loop still running after the given number of rounds."
  },
  {
   "property": "C93",
   "status": "proved",
   "theorems": [
    "C93_runs_whatever_the_numbers",
    "C93_case"
   ],
   "note": "N is an arbitrary num record, without laws."
  }
 ]
}