{"id": "C01", "title": "Direct MTTKRP is exact", "statement": "KhatriRao_contract(M,V,W,..,n) leaves in M, at every entry (i,k), the sum over all multi-indices x of V with x_n=i of V(x) times the product over the other modes m of W_m(x_m,k); it never reads outside its buffers and changes nothing but M. Holds for orders 2 to 10 when all modes of V have the same length (for other shapes see C49).", "quantifier": "all orders 2..10, all mode sizes, all ranks, all tensor and factor values over any commutative ring, all target modes", "why_tests_cant": "the claim ranges over every order, size, rank, mode and value; a test fixes one", "anchors": ["common.cxx:KhatriRao_contract", "common.cxx:mttkrp"]}
{"id": "C02", "title": "Direct MTTKRP breaks at order 11", "statement": "For order 11 and above the rank letter 'k' that KhatriRao_contract uses coincides with the letter of mode 10, so the result is not the MTTKRP (the property 'works for every order the CLI accepts' is refuted).", "quantifier": "existence: an order >= 11 with concrete data", "why_tests_cant": "no test in the project uses such orders; the failure is a letter collision", "anchors": ["common.cxx:KhatriRao_contract"]}
{"id": "C03", "title": "CP gradient is exact", "statement": "gradient_CP leaves in grad_W[n] the exact value -M_n + W_n S_n with M_n the MTTKRP of the residual-free tensor and S_n the Hadamard product of the other factors' Gram matrices, i.e. the gradient of half the squared residual. Holds for orders 2 to 10 with equal mode lengths (see C49).", "quantifier": "all orders 2..10, sizes, ranks, values, all modes", "why_tests_cant": "quantifies over all data", "anchors": ["common.cxx:gradient_CP", "common.cxx:gradsubprob"]}
{"id": "C04", "title": "Reconstruction from factors is exact", "statement": "build_V(V,W,order) leaves in V, at every multi-index x, the sum over r of the product over m of W_m(x_m,r), for every order from 2 to 19 (order 19 uses the table's terminating '\\0' as its last index letter); every other order is undefined behaviour.", "quantifier": "all orders 2..19, all sizes, ranks, values", "why_tests_cant": "every order, size and value", "anchors": ["common.cxx:build_V"]}
{"id": "C05", "title": "Dimension-tree MTTKRP is exact", "statement": "In alsCP_DT, the matrix produced for a mode by evaluating the dimension tree is exactly the MTTKRP of the tensor with the factor matrices as they stand, for every order for which the tree evaluation is defined.", "quantifier": "all orders 4 and 6..31, all sizes, ranks, values, all leaves, all cache states consistent with the factors", "why_tests_cant": "the tree is built by recursion over an unbounded order and caches intermediates across mode updates", "anchors": ["common.cxx:mttkrp_map_DT", "common.cxx:Construct_Dimension_Tree", "als_CP.cxx:alsCP_DT"]}
{"id": "C06", "title": "Dimension-tree MTTKRP fails for orders 3 and 5", "statement": "The order-independent reading of C05 is false: with order 5 the tree evaluation takes an intermediate node for a top-level node and performs a contraction with the wrong index string; with order 3 it recurses forever.", "quantifier": "existence: order 5 and order 3", "why_tests_cant": "the drivers default to orders where it works", "anchors": ["common.cxx:mttkrp_map_DT"]}
{"id": "C07", "title": "Dimension tree is well formed", "statement": "Construct_Dimension_Tree gives every proper node exactly one parent, each parent is the disjoint union of its two children, every single-mode leaf is present and following parents from any leaf reaches the full index set in finitely many steps.", "quantifier": "all orders", "why_tests_cant": "an inductive structural fact about all orders", "anchors": ["common.cxx:Construct_Dimension_Tree"]}
{"id": "C08", "title": "A dimension-tree ALS sweep is an ALS sweep", "statement": "One sweep of alsCP_DT leaves exactly the factor matrices that the textbook ALS sweep (update each mode in order, from the exact MTTKRP with already updated factors and from the Hadamard product of Grams plus lambda I, with the same solver) leaves; no stale cached intermediate is ever used.", "quantifier": "all valid orders, sizes, ranks, starting factors, regularisation values, solvers", "why_tests_cant": "staleness bugs depend on the interleaving of updates and cache reuse for every order", "anchors": ["als_CP.cxx:alsCP_DT"]}
{"id": "C09", "title": "Pairwise-perturbation operators are exact", "statement": "Build_mttkrp_map computes, for every pair (and single) of uncontracted modes, exactly the partial MTTKRP of the tensor with the current factors of all the other modes; recursion through cached parents never changes the value.", "quantifier": "orders 3..9, all sizes, ranks, values, any pre-existing correct cache", "why_tests_cant": "all orders, all pairs, all cache histories", "anchors": ["als_CP.cxx:Build_mttkrp_map", "als_CP.cxx:stringbuilder_mttkrp"]}
{"id": "C10", "title": "Pairwise-perturbation operator construction overruns for order 10 and above", "statement": "Because the scratch buffer has the size of a pointer (8 bytes), building the operators for order >= 10 writes outside it.", "quantifier": "all orders >= 10", "why_tests_cant": "undefined behaviour that a test may not observe", "anchors": ["als_CP.cxx:Build_mttkrp_map"]}
{"id": "C11", "title": "Pairwise perturbation is the first-order expansion", "statement": "The MTTKRP used in a pairwise-perturbation sweep for mode n equals the MTTKRP at the checkpoint factors plus, for each other mode m, the checkpoint MTTKRP with factor m replaced by its perturbation: i.e. the exact MTTKRP of the perturbed factors minus all terms of second and higher order.", "quantifier": "orders 3..9, all modes, checkpoint factors, perturbations", "why_tests_cant": "an identity over all values and orders", "anchors": ["als_CP.cxx:alsCP_PP_sub"]}
{"id": "C12", "title": "Pairwise perturbation is exact when one factor moved", "statement": "If at most one factor other than n differs from its checkpoint, the pairwise-perturbation MTTKRP of mode n equals the exact MTTKRP of the current factors.", "quantifier": "orders 3..9, all values, all modes", "why_tests_cant": "quantifies over values", "anchors": ["als_CP.cxx:alsCP_PP_sub"]}
{"id": "C13", "title": "Normalize preserves the represented tensor", "statement": "Normalize rescales the factors without changing the tensor they represent.", "quantifier": "all orders, sizes, ranks, non-zero factors, over the reals", "why_tests_cant": "all values; in floating point only approximately", "anchors": ["common.cxx:Normalize"]}
{"id": "C14", "title": "Normalize equalises the factor norms", "statement": "After Normalize all factor matrices have the same Frobenius norm, the geometric mean of the old ones.", "quantifier": "all orders, sizes, ranks, non-zero factors, over the reals", "why_tests_cant": "all values", "anchors": ["common.cxx:Normalize"]}
{"id": "C15", "title": "SVD solve satisfies the normal equations", "statement": "SVD_solve(M,W,S): if the SVD of S is valid with non-zero singular values then the result satisfies W S = M.", "quantifier": "all sizes, all M and S and all valid SVD outputs", "why_tests_cant": "all matrices, any SVD implementation", "anchors": ["common.cxx:SVD_solve"]}
{"id": "C16", "title": "Cholesky solve satisfies the normal equations", "statement": "cholesky_solve(M,W,S): if the Cholesky factor and triangular solves meet their contracts then W S = M for symmetric S.", "quantifier": "all sizes and matrices, all oracles meeting the contract", "why_tests_cant": "all matrices, any LAPACK", "anchors": ["common.cxx:cholesky_solve"]}
{"id": "C17", "title": "Damped solve moves along the segment", "statement": "SVD_solve_mod leaves dW = ratio*(W* - W_init), where W* is the full solution, and W = W_init + dW when ratio is not 1, W = W* otherwise; with ratio 1 W = W_init + dW holds too.", "quantifier": "all matrices, ratios, oracles", "why_tests_cant": "all values", "anchors": ["common.cxx:SVD_solve_mod"]}
{"id": "C18", "title": "ALS never increases the residual", "statement": "With lambda = 0, replacing factor n by the solution of its normal equations never increases the squared residual ||V - [[W]]||^2; therefore an exact sweep (with the direct or any exact MTTKRP) never does, and the normalisation at its end does not change it.", "quantifier": "all orders, sizes, ranks, starting factors, over the reals, any solver that solves the normal equations", "why_tests_cant": "all starting points and all sweeps", "anchors": ["als_CP.cxx:alsCP_DT", "als_CP.cxx:alsCP", "src/optimizer/cp_simple_optimizer.cxx:CPSimpleOptimizer::step"]}
{"id": "C19", "title": "Gram system matrix is exact", "statement": "update_S(n) leaves S = Hadamard product over m != n of W_m^T W_m, plus the regularisation matrix, whatever S held before.", "quantifier": "all orders, sizes, ranks, values, modes", "why_tests_cant": "all values and prior states", "anchors": ["src/optimizer/cp_als_optimizer.cxx:CPOptimizer::update_S"]}
{"id": "C20", "title": "Multi-sweep tree optimizer uses only current factors", "statement": "In any sequence of CPMSDTOptimizer steps, every mode update uses the exact MTTKRP of V with the factor matrices as they stand at that instant.", "quantifier": "all orders >= 3, sizes, ranks, values, any number of steps", "why_tests_cant": "the cached trees live across steps and the root mode rotates; needs an invariant over histories", "anchors": ["src/optimizer/cp_msdt_optimizer.cxx:CPMSDTOptimizer::step", "src/optimizer/cp_msdt_optimizer.cxx:CPMSDTOptimizer::mttkrp_map_DT"]}
{"id": "C21", "title": "Two-subtree optimizer uses only current factors", "statement": "In any sequence of CPDTOptimizer steps, every mode update uses the exact MTTKRP of V with the factor matrices as they stand at that instant.", "quantifier": "all orders >= 3, sizes, ranks, values, any number of steps", "why_tests_cant": "cache shared across mode updates and half sweeps", "anchors": ["src/optimizer/cp_dt_optimizer.cxx:CPDTOptimizer::step"]}
{"id": "C22", "title": "Sweep accounting of the optimizers is honest", "statement": "Two consecutive CPDTOptimizer steps (0.5 sweep each) update each mode exactly once; N consecutive CPMSDTOptimizer steps (each reported as (N-1)/N of a sweep) update each mode exactly N-1 times; a CPSimpleOptimizer step (1 sweep) updates each mode exactly once in order.", "quantifier": "all orders >= 3, any starting phase", "why_tests_cant": "rotation over an unbounded history", "anchors": ["src/optimizer/cp_dt_optimizer.cxx:CPDTOptimizer::step", "src/optimizer/cp_msdt_optimizer.cxx:CPMSDTOptimizer::step", "src/optimizer/cp_simple_optimizer.cxx:CPSimpleOptimizer::step"]}
{"id": "C23", "title": "Low-rank optimizers keep their cached contractions consistent", "statement": "In any sequence of CPDTLROptimizer / CPMSDTLROptimizer steps every cached first-level contraction equals the contraction of V with the factor it was last updated for, and every mode update solves with the exact MTTKRP of the current factors, also when the low-rank update path is taken.", "quantifier": "all orders >= 3, values, step histories, all rank-R update oracles", "why_tests_cant": "history-dependent cache invariants", "anchors": ["src/optimizer/cp_dt_lr_optimizer.cxx:CPDTLROptimizer", "src/optimizer/cp_msdt_lr_optimizer.cxx:CPMSDTLROptimizer"]}
{"id": "C24", "title": "CPD::als terminates", "statement": "CPD::als performs a bounded number of optimizer steps for every optimizer whose step returns a positive fixed fraction of a sweep, whatever the tensor data, tolerance, clock and norms (NaN included).", "quantifier": "all inputs, clocks, norms, maxsweep, resprint >= 1", "why_tests_cant": "termination for all inputs", "anchors": ["src/CP.cxx:CPD::als"]}
{"id": "C25", "title": "CPD::als return value tells convergence", "statement": "CPD::als returns false exactly when it stopped because the sweep budget was exhausted: true for the simple, two-subtree and two-subtree low-rank optimizers. For the multi-sweep optimizers, whose step counts (order-1)/order of a sweep, an exhausted budget is reported as false only if the double sweep counter hits maxsweep+1 exactly: for orders 4, 8 and 16 when order-1 divides maxsweep+1; for orders that are no power of two the rounding of the counter decides, and can also cost an extra step (order 3, maxsweep 3: seven steps instead of six, and true is returned).", "quantifier": "all inputs, methods, budgets and stopping histories; existence for the wrong return values", "why_tests_cant": "all inputs and counter values", "anchors": ["src/CP.cxx:CPD::als"]}
{"id": "C26", "title": "Plain ALS drivers terminate and report correctly", "statement": "alsCP and alsCP_DT execute at most maxiter+1 sweeps and return true iff they stopped by the tolerance or the time limit, not by exhausting maxiter.", "quantifier": "all inputs, clocks, norms, maxiter >= 0, resprint >= 1", "why_tests_cant": "all inputs, schedules and clock readings", "anchors": ["als_CP.cxx:alsCP", "als_CP.cxx:alsCP_DT"]}
{"id": "C27", "title": "Pairwise-perturbation driver terminates unless the clock fires", "statement": "alsCP_PP performs finitely many sweeps when the time limit is never exceeded; once the time limit is exceeded in the regime where the gradient norm is still above tol it loops forever (refutation of unconditional termination).", "quantifier": "all inputs and clocks; existence for the refutation", "why_tests_cant": "termination over all schedules", "anchors": ["als_CP.cxx:alsCP_PP", "als_CP.cxx:alsCP_DT_sub", "als_CP.cxx:alsCP_PP_sub"]}
{"id": "C28", "title": "Benchmark mode misreports", "statement": "With bench on, alsCP_PP returns true (converged) although its sweep budget was exhausted (refutation).", "quantifier": "existence", "why_tests_cant": "depends on the exact value of a counter at exit", "anchors": ["als_CP.cxx:alsCP_PP"]}
{"id": "C29", "title": "TTMc is exact", "statement": "TTMc(Y,V,W,n) leaves in Y the tensor V contracted in every mode m != n with W_m (n = -1: in every mode), for orders up to 10.", "quantifier": "orders 2..10, all sizes, ranks, values, modes", "why_tests_cant": "all data", "anchors": ["als_Tucker.cxx:TTMc"]}
{"id": "C30", "title": "Tucker dimension-tree sweeps are exact HOOI sweeps", "statement": "In alsTucker_DT every factor update uses exactly the TTMc of the tensor with the factors as they stand, and the core tensor left by the sweep is the tensor contracted with all updated factors.", "quantifier": "all valid orders, sizes, ranks, values", "why_tests_cant": "cache reuse for all orders", "anchors": ["als_Tucker.cxx:alsTucker_DT", "als_Tucker.cxx:ttmc_map_DT"]}
{"id": "C31", "title": "Tucker pairwise-perturbation operators are exact", "statement": "Build_ttmc_map computes for every set of uncontracted modes the exact partial TTMc with the current factors; the PP sweep's input for mode n is the first-order expansion.", "quantifier": "orders 3..9, values", "why_tests_cant": "all data", "anchors": ["als_Tucker.cxx:Build_ttmc_map", "als_Tucker.cxx:alsTucker_PP_sub"]}
{"id": "C32", "title": "HOSVD initialisation", "statement": "hosvd leaves as core the tensor contracted in every mode with the factor of that mode.", "quantifier": "orders 2..10, sizes, values", "why_tests_cant": "all data", "anchors": ["als_Tucker.cxx:hosvd", "als_Tucker.cxx:get_core_tensor", "als_Tucker.cxx:get_factor_matrices"]}
{"id": "C33", "title": "Unfolding Gram matrix", "statement": "unroll_tensor_contraction(MTM,M,n) leaves in MTM the Gram matrix of the mode-n unfolding of M.", "quantifier": "orders 2..18, modes, values", "why_tests_cant": "all data", "anchors": ["common.cxx:unroll_tensor_contraction"]}
{"id": "C34", "title": "Laplacian tensor", "statement": "laplacian_tensor(V,..) leaves in V the N-dimensional discrete Laplacian: the sum over k of the Kronecker product of identities with the tridiagonal [-1 2 -1] in position k.", "quantifier": "all even orders 4..30, all grid sizes s", "why_tests_cant": "all sizes", "anchors": ["common.cxx:laplacian_tensor", "common.cxx:identitiy_tensor"]}
{"id": "C35", "title": "fold_unfold keeps the data", "statement": "fold_unfold changes only the shape: the element at each linear (column-major) position is unchanged; folding back and forth is the identity.", "quantifier": "all shapes with equal total size", "why_tests_cant": "all shapes", "anchors": ["common.cxx:fold_unfold"]}
{"id": "C36", "title": "Command-line parsing yields in-range settings", "statement": "For every argv, the settings the drivers use are inside the documented ranges or the defaults; the selected value is the token after the first occurrence of the option.", "quantifier": "all argument vectors", "why_tests_cant": "all argv", "anchors": ["test_ALS.cxx:main", "run.cxx:main", "pp_bench.cxx:main", "test_ALS.cxx:getCmdOption"]}
{"id": "C37", "title": "resprint=0 is accepted and divides by zero", "statement": "The drivers accept -resprint 0 and the optimisation loop then computes iter % 0 (undefined).", "quantifier": "existence", "why_tests_cant": "needs the combination of parsing and loop", "anchors": ["run.cxx:main", "src/CP.cxx:CPD::als"]}
{"id": "C38", "title": "run with the default tensor aborts", "statement": "With the default tensor kind the tensor that run builds has order dim/2 while the decomposition is created with order dim, so initialisation fails its assertion for every dim >= 1.", "quantifier": "all dims and sizes", "why_tests_cant": "all CLI inputs", "anchors": ["run.cxx:main", "src/decomposition.cxx:Decomposition::Init"]}
{"id": "C39", "title": "Object lifetime", "statement": "A CPD object that is initialised once and destroyed frees each of the matrices it owns exactly once; initialising twice frees the same matrices twice (refutation).", "quantifier": "all optimizers; existence for the refutation", "why_tests_cant": "memory errors depend on the call history", "anchors": ["src/decomposition.cxx:Decomposition", "src/CP.cxx:CPD", "src/optimizer/cp_als_optimizer.cxx:CPOptimizer::configure"]}
{"id": "C40", "title": "Collinear factors are as requested", "statement": "When Gen_collinearity returns, every pair of columns of every factor has collinearity within [col_min,col_max]; with col_min > col_max and R >= 2 it never returns.", "quantifier": "all random streams", "why_tests_cant": "all random streams; partial correctness of an unbounded resampling loop", "anchors": ["common.cxx:Gen_collinearity"]}
{"id": "C41", "title": "Index permutation helper is an involution", "statement": "swap_char applied twice with the same positions restores the string, so the index strings that the MTTKRP routines reuse across modes are unchanged between modes.", "quantifier": "all strings and positions", "why_tests_cant": "all strings", "anchors": ["common.cxx:swap_char", "common.cxx:KhatriRao_contract"]}
{"id": "C42", "title": "Reported time excludes residual checks", "statement": "The time compared with the limit and logged is the wall time minus the time spent in the residual checks done so far.", "quantifier": "all clock readings, all schedules", "why_tests_cant": "all clock sequences", "anchors": ["als_CP.cxx:alsCP_DT", "src/CP.cxx:CPD::als"]}
{"id": "C43", "title": "Ranks agree on control flow only without a time limit", "statement": "When the time limit does not fire on any rank all ranks take the same branches; since each rank reads its own clock, two ranks can leave the loop in different iterations (refutation of SPMD agreement).", "quantifier": "all clocks per rank; existence", "why_tests_cant": "schedules across ranks", "anchors": ["als_CP.cxx:alsCP_DT", "src/CP.cxx:CPD::als"]}
{"id": "C44", "title": "Khatri-Rao product", "statement": "KhatriRaoProduct computes the Khatri-Rao product of one to ten of the factor matrices: entry (x_0,...,x_{p-1},k) is the product of the entries (x_m,k). With eleven or more factors the tenth factor's index letter collides with that of the incoming matrix: unequal row counts abort, equal ones give a tensor that is zero wherever the tenth and eleventh indices differ.", "quantifier": "all numbers of factors, sizes, values", "why_tests_cant": "all data", "anchors": ["common.cxx:KhatriRaoProduct"]}
{"id": "C45", "title": "Partial-update pairwise perturbation", "statement": "When every mode is updated in order each sweep, the accumulated approximations of alsCP_PP_partupdate_sub equal those of alsCP_PP_sub; when the selection skips modes they may differ (refutation).", "quantifier": "orders 3..9, all values; existence", "why_tests_cant": "history-dependent accumulation", "anchors": ["als_CP.cxx:alsCP_PP_partupdate_sub", "als_CP.cxx:sort_indexes"]}
{"id": "C46", "title": "Index sorting", "statement": "sort_indexes returns a permutation of the indices ordered by decreasing value when the values are totally ordered.", "quantifier": "all value vectors", "why_tests_cant": "all vectors", "anchors": ["als_CP.cxx:sort_indexes"]}
{"id": "C47", "title": "Rank-R update", "statement": "get_rankR_update_cholesky and get_rankR_update_svd return factors (U,s,VT) of an update D = U diag(s) VT of rank at most R such that what is left of the normal equations is exactly the part of the whitened right-hand side X that the truncated decomposition drops: M-(A+D)G = (X-DL)L^T; an exact decomposition gives (A+D)G = M, the full ALS update; a best rank-R decomposition gives an update for which no other rank-R change of that factor has a smaller squared residual; the randomised variant is the projection of X on the sketch.", "quantifier": "all sizes, values, decomposition routines meeting their contract", "why_tests_cant": "all data", "anchors": ["common.cxx:get_rankR_update_cholesky", "common.cxx:get_rankR_update_svd"]}
{"id": "C48", "title": "Gauss-Seidel solves on fixpoints", "statement": "Gauss_Seidel(A,F,G,m) performs m Gauss-Seidel sweeps for A G = F (G symmetric, lower triangle invertible): new column j solves its own equation with new earlier and old later columns. A state is left unchanged exactly when it solves A G = F, and each sweep decreases the quadratic objective by exactly sum G_jj (dA_ij)^2, so relaxing a CP factor never increases the residual.", "quantifier": "all sizes, values, numbers of sweeps", "why_tests_cant": "all data", "anchors": ["common.cxx:Gauss_Seidel"]}
{"id": "C49", "title": "Direct MTTKRP rejects tensors with unequal mode lengths", "statement": "KhatriRao_contract, called the way gradient_CP, alsCP and CPSimpleOptimizer call it, gives each intermediate tensor the length of the mode that precedes it in the permutation; for every tensor in which two modes differ in length it is rejected by the tensor library with a dimension error, so the plain ALS and the final gradient cannot be used on such tensors (the property 'works for every tensor shape' is refuted).", "quantifier": "every tensor of order 2 to 31 with two different mode lengths, all factors, every rank", "why_tests_cant": "the tests use cubic tensors only; the failure must be shown for every shape, and its absence for every cubic shape", "anchors": ["common.cxx:KhatriRao_contract", "common.cxx:gradient_CP", "als_CP.cxx:alsCP", "src/optimizer/cp_simple_optimizer.cxx"]}
{"id": "C50", "title": "First tolerance test is on random gradients", "statement": "CPD::als tests the gradient norm before its first step, but Init has filled the gradients with random numbers: if these happen to be below tol, als reports convergence without a step whatever the tensor and the factors are; if not (and there is time) at least one step is done even from a stationary point.", "quantifier": "all inputs, optimizers, clocks, random fillings", "why_tests_cant": "depends on the random filling; all inputs", "anchors": ["src/CP.cxx:CPD::Init", "src/CP.cxx:CPD::als"]}
{"id": "C51", "title": "Which tensor kinds run can decompose", "statement": "A run of the program that computes a decomposition was started with tensor kind c.., r.. or p2..; with the data sets o1 and o2 every run that selects a CP method ends in an assertion failure (dim 4) or in undefined behaviour (any other dim), whatever the other options.", "quantifier": "all argument vectors, file contents, random streams", "why_tests_cant": "the space of command lines is unbounded; tests only try some", "anchors": ["run.cxx:main", "src/decomposition.cxx:Decomposition::Init"]}
{"id": "C52", "title": "Options without effect in run", "statement": "-lambda, -magni, -pp_res_tol, -update_percentage_pp and -tensorfile do not influence the result of run; with a model starting with T, or pp above 4, no decomposition is computed.", "quantifier": "all settings and argument vectors", "why_tests_cant": "independence from an option is a statement about all pairs of runs", "anchors": ["run.cxx:main", "src/CP.h:CPD::Init"]}
{"id": "C53", "title": "End-to-end run", "statement": "With valid settings run builds the tensor its kind describes (Laplacian, random CP tensor, random tensor, collinear tensor plus noise of the requested relative size) and then performs exactly the checked steps of the selected method on it: regularisation 0, tolerance tol*|V|, stopping by gradient norm, time limit or maxiter sweeps.", "quantifier": "all argument vectors, orders, sizes, ranks, random streams, clocks, linear algebra oracles of the right shape", "why_tests_cant": "all command lines and all numeric inputs", "anchors": ["run.cxx:main", "src/CP.cxx:CPD::als"]}
{"id": "C54", "title": "Tucker drivers report and stop exactly", "statement": "alsTucker_DT and alsTucker perform k HOOI sweeps where k is decided only by the core-change test (the norms of the cores at the last two checks differ by less than tol), the time limit and maxiter; every reported row is the fitness/change of the factors at that sweep; the return value says whether the tolerance was met. When the plain driver returns false its core is that of the previous sweep (one sweep stale).", "quantifier": "every tensor of order 2 to the letter limit, all starting factors, ranks, tolerances, clocks, decompositions of the right shape", "why_tests_cant": "all histories of clock readings, norms and sweeps", "anchors": ["als_Tucker.cxx:alsTucker_DT", "als_Tucker.cxx:alsTucker"]}
{"id": "C55", "title": "Termination of the pairwise-perturbation Tucker driver", "statement": "alsTucker_PP (order 4 or 6 to 9) returns within a number of restart rounds bounded by the number of 0.9-decays needed to bring the tolerance below 1 plus maxiter when the time limit is not exceeded; if the time limit is exceeded from the start (and the first exact sweep is not yet converged) it never returns; in benchmark mode it performs only approximate sweeps, at most maxiter.", "quantifier": "all tensors, factors, tolerances, clocks, decompositions of the right shape", "why_tests_cant": "termination and non-termination quantify over all round counts", "anchors": ["als_Tucker.cxx:alsTucker_PP", "als_Tucker.cxx:alsTucker_PP_sub", "als_Tucker.cxx:alsTucker_DT_sub"]}
{"id": "C56", "title": "Exact optimizer steps never increase the regularised objective", "statement": "For the simple, the two-subtree dimension-tree, the multi-sweep and the two-subtree low-rank optimizers: if every system matrix met has an exact Cholesky factor and exact triangular solves (and, for low-rank updates, the truncated decomposition used is a best rank-k approximation), then each call of the step function leaves the sum of the squared residual and lambda times the squared Frobenius norms of the factors no larger than before, over any ordered ring. The low-rank multi-sweep optimizer does not have this property: its low-rank update is relative to a factor saved one sweep earlier, and there is an input on which a step with exact solves and best truncations takes the residual from 0 to 1.", "quantifier": "all tensors of order 3..31 (2..10 for the simple optimizer), all factors, ranks, regularisation parameters, all numbers of steps", "why_tests_cant": "monotonicity must hold at every step of every run; a test follows finitely many runs, and rounding hides small increases", "anchors": ["src/optimizer/cp_dt_optimizer.cxx:CPDTOptimizer::step", "src/optimizer/cp_msdt_optimizer.cxx:CPMSDTOptimizer::step", "src/optimizer/cp_simple_optimizer.cxx:CPSimpleOptimizer::step", "src/optimizer/cp_dt_lr_optimizer.cxx:CPDTLROptimizer::step", "src/optimizer/cp_msdt_lr_optimizer.cxx:CPMSDTLROptimizer::step"]}
{"id": "C57", "title": "alsCP_PP is the two-phase algorithm, with its log and return value", "statement": "For orders 4 and 6..9 (in benchmark mode 3..9), whatever the tensor, factors, regularisation, tolerances, clock, time limit, print interval and process rank, alsCP_PP computes exactly: rounds of (a) exact ALS sweeps until every factor changes relatively by less than tol_init, a check stops or the iterations are used up, then (b) pairwise-perturbation sweeps around the factors at the entry of the phase, left after 15 sweeps or when some factor is more than tol_init away, with a check when the iteration number is a multiple of the print interval, equals maxiter or the phase is entered; until the last measured gradient norm is at most tol or the iteration number exceeds maxiter. The factors, the gradients, every log row (length of mode 0, iteration, gradient norm, tol, phase 0/1, residual, time without the checks), the number of clock readings and the returned flag are those of this algorithm; if it runs forever so does the code. The rows of a run carry iteration numbers 0..maxiter in non-decreasing order; ranks other than 0 write nothing.", "quantifier": "all tensors of the orders, ranks, factors, parameters, clocks, numbers of rounds, ranks of the process", "why_tests_cant": "The path through phases, checks and the log depends on the data and on the clock; tests see single histories.", "anchors": ["als_CP.cxx: alsCP_PP, alsCP_DT_sub, alsCP_PP_sub"]}
{"id": "C58", "title": "alsCP_PP_partupdate is the two-phase algorithm with priorities, with its log and return value", "statement": "Under the same conditions alsCP_PP_partupdate computes exactly the same alternation, where a sweep of the approximate phase updates only the update_size modes of largest priority (ties and order as sort_indexes returns them), the priority of a mode being |dM|/|M| of its approximate MTTKRP after the previous sweep of this phase (0 at its entry), and the corrections dM are propagated from each updated mode to the others; log, return value, gradients and non-termination are those of the algorithm.", "quantifier": "all tensors of the orders, ranks, factors, parameters, update sizes at most the order, clocks, numbers of rounds, ranks of the process", "why_tests_cant": "The selection depends on all earlier sweeps; tests see single histories.", "anchors": ["als_CP.cxx: alsCP_PP_partupdate, alsCP_PP_partupdate_sub, sort_indexes, alsCP_DT_sub"]}
{"id": "C59", "title": "alsTucker_PP is the two-phase Tucker algorithm, with its log and return value", "statement": "For order 4 or 6..9 (3..9 in benchmark mode), alsTucker_PP computes exactly this alternation: an exact phase of HOOI sweeps whose columns keep the signs of the previous sweep, left when a check stops it, when every factor moved relatively less than tol_init, or after iteration maxiter; then an approximate phase that freezes the operators at its first factors and updates all modes from the first-order expansion, left when some factor is farther than tol_init (not in benchmarks), when a check stops it, or at maxiter; the check compares the norm of the change of the core since the last check that did not stop with tol; after each round tol_init decreases by a tenth while above 0.005. Factors, core, changes, clock readings, log rows and return value are those of the algorithm, and it is still running exactly if the algorithm is. In a run that is not a benchmark the log rows appear in non-decreasing iteration order within 0..maxiter, and only rank 0 writes.", "quantifier": "all tensors of those orders, ranks, factors, tolerances, limits, iteration limits, print intervals other than 0, clocks, numbers of rounds, process ranks", "why_tests_cant": "The switching depends on the whole history of factors, cores and clock readings; tests see single histories.", "anchors": ["als_Tucker.cxx: alsTucker_PP, alsTucker_PP_sub, alsTucker_DT_sub"]}
{"id": "C60", "title": "alsCP_DT and alsTucker_DT are the dimension-tree ALS/HOOI algorithms, with their log and return value", "statement": "For order 4 or 6..19, alsCP_DT computes exactly this: before iteration 0, every resprint iterations and at iteration maxiter it checks (one row with iteration, gradient norm, tolerance, residual norm and time; in benchmark mode only a time, and none at iteration 0), stops if the gradient norm is below tol or the time limit is over, and otherwise does one ALS sweep with corrections F, after which the columns are rescaled; it returns true exactly if it did not reach iteration maxiter+1. For order 2, 4 or 6..10 alsTucker_DT computes the corresponding loop of HOOI sweeps, with a check at iteration 1 (not 0), every resprint iterations and at maxiter that compares the core with that of the last check. Factors, gradients, core, clock readings, rows and return value are those of the algorithm.", "quantifier": "all tensors of those orders, ranks, factors, gradients, correction matrices, tolerances, limits, iteration limits, print intervals other than 0, benchmark flags, clocks, process ranks", "why_tests_cant": "The outcome depends on the whole history of factors and clock readings.", "anchors": ["als_CP.cxx: alsCP_DT", "als_Tucker.cxx: alsTucker_DT"]}
{"id": "C61", "title": "the program test_ALS runs the algorithm its options select on the tensor they select", "statement": "test_ALS with -model C... and -pp 0, 1 or 2 ends with the factors, gradients and log of alsCP_DT, alsCP_PP or alsCP_PP_partupdate on the tensor selected by -tensor, started from the random factors and gradients, with tolerance tol times the norm of the tensor; with -model T... it starts from the HOSVD with the ranks of the data set (o1, o2) or -rank in every mode, and runs alsTucker_DT, alsTucker_PP or nothing more. It is still running exactly if that algorithm is. ./test_ALS without options completes on the folded 100x100x100x100 Laplacian (whereas run rejects its default tensor). With a tensor of order 1, 2, 3 or 5, -model C -pp 0 can end normally only if the first check stops it.", "quantifier": "all argument vectors whose tensor has a supported order, all random streams, clocks, process ranks, external SVD routines of the right shape", "why_tests_cant": "The program has about 20 options and depends on the random stream, the clock and LAPACK.", "anchors": ["test_ALS.cxx: main"]}
{"id": "C62", "title": "pp_bench measures maxiter repetitions of each method from the same start", "statement": "pp_bench with -model C... does maxiter runs of alsCP_DT and then maxiter runs of alsCP_PP in benchmark mode with one iteration, every run starting from the same random factors, while gradients, clock and log are handed on; with -model T... the same with alsTucker_DT and alsTucker_PP, where the core (initially zero) is handed on. Every run ends. Process 0 writes at most one time per run, first those of the dimension tree and then those of pairwise perturbation; exactly one per run if no first check can stop a run, and none at all (with unchanged gradients) if the random start gradient is already below the tolerance; Tucker dimension-tree runs always write exactly one. -pp is ignored. -model T with fewer tensor modes than -dim, in particular with the default tensor p, is undefined behaviour. A tensor kind o... is not loaded: the run is undefined behaviour, except that -model C... with -maxiter 0 ends at once without factors.", "quantifier": "all argument vectors whose tensor has order 4 or 6..9, all random streams, clocks, process ranks, external SVD routines of the right shape", "why_tests_cant": "The number of rows depends on state carried from run to run and on the clock.", "anchors": ["pp_bench.cxx: main"]}
{"id": "C63", "title": "Gram_Schmidt removes the component along B", "statement": "Gram_Schmidt(A, B) for two vectors of equal length replaces A by A - ((A.B)/(B.B)) B; if the quotient is exact (over the reals: if B is not zero) the new A is orthogonal to B, its products with vectors orthogonal to B are unchanged and its norm does not grow.", "quantifier": "all vectors A, B of any length", "why_tests_cant": "orthogonality must hold for all vectors; a test checks a few and cannot separate rounding from a wrong formula", "anchors": ["common.cxx:Gram_Schmidt"]}
{"id": "C64", "title": "apply_rankR_update", "statement": "apply_rankR_update(U, sigma, VT, A, V, cached, mode) scales the columns of U by sigma, stores U diag(sigma) VT in A (overwriting the old A, although the documentation says update) and adds the mode product of V with that matrix to the cached tensor; no other entry changes.", "quantifier": "all orders up to 29, modes, lengths, ranks and values", "why_tests_cant": "the result must be right for every order, mode and rank; that the old A is ignored is a statement about all A", "anchors": ["common.cxx:apply_rankR_update"]}
{"id": "C65", "title": "random_laplacian_tensor and unit_tensor", "statement": "random_laplacian_tensor draws no random number: it adds to V the sum over the N/2 grid directions of the tridiagonal matrix with 2 on, -1 below and -2 above the diagonal (not symmetric). unit_tensor sets the s*s entries (i, j, k) with j = (i+k) mod s of an s x s x s tensor to one and leaves the others; a tensor that is too small is rejected.", "quantifier": "all grid sizes s, all numbers of directions 2..15, all V", "why_tests_cant": "index arithmetic for all sizes and orders", "anchors": ["common.cxx:random_laplacian_tensor", "common.cxx:unit_tensor", "common.cxx:identitiy_tensor"]}
{"id": "C66", "title": "Exact Tucker sweeps never make the approximation worse", "statement": "If the SVD routine returns leading singular vectors, each factor update of alsTucker / alsTucker_DT is the best choice of orthonormal columns for its mode, the factors are orthonormal from the first sweep on, |V - reconstruction|^2 = |V|^2 - |core|^2, the residual never increases from sweep to sweep, the residuals that a run of alsTucker_DT appends to the log never increase, and a run that starts from orthonormal factors returns factors that are at least as good.", "quantifier": "all tensors, start factors, ranks, sweep counts, tolerances, clocks, and all SVD routines with that contract", "why_tests_cant": "an optimality claim over all orthonormal competitors, for every tensor and every number of sweeps", "anchors": ["als_Tucker.cxx:alsTucker", "als_Tucker.cxx:alsTucker_DT", "als_Tucker.cxx:alsTucker_DT_sub", "als_Tucker.cxx:TTMc"]}
{"id": "C67", "title": "The Tucker drivers converge", "statement": "With a positive tolerance, an SVD routine that returns leading singular vectors and no time-out, alsTucker_DT ends by convergence (returns true, with a last change of the core norm below tol) whenever (maxiter/resprint - 1) * tol exceeds |V|; alsTucker likewise with 100 for resprint.", "quantifier": "all tensors, starts, ranks, tolerances, iteration limits, print intervals and clocks", "why_tests_cant": "a termination-by-convergence bound for every input", "anchors": ["als_Tucker.cxx:alsTucker", "als_Tucker.cxx:alsTucker_DT"]}
{"id": "C68", "title": "Quality of hosvd and of test_ALS for the Tucker model", "statement": "If the SVD routine returns leading singular vectors, hosvd returns orthonormal factors and the best core for them, and its error is at most sqrt(order) times that of any Tucker approximation with the same ranks (any factors, orthonormal or not, and any core); the same bound holds for what the program test_ALS ends with for -model Tucker and -pp 0 or 2.", "quantifier": "all tensors up to the supported order, all ranks, all competitors, all command lines", "why_tests_cant": "a bound against every competing approximation, for every tensor", "anchors": ["als_Tucker.cxx:hosvd", "test_ALS.cxx:main"]}
{"id": "C69", "title": "The CP drivers never make the regularised fit worse", "statement": "For lambda >= 0 and F = 0, each sweep of alsCP_DT (including the final rescaling of the factors by Normalize) does not increase |V - [[W]]|^2 + lambda (|W_1|^2 + ... + |W_o|^2); hence the factors returned are at least as good as the factors given, and for lambda = 0 the residuals of the rows appended to the log never increase. For lambda > 0 the system matrices of the sweeps are always invertible, so a valid singular value decomposition is all the solver needs. alsCP (which has no regularisation) likewise returns factors with a residual no larger than that of the factors given.", "quantifier": "all real tensors of the orders the driver accepts, all factors, ranks, lambda >= 0, clocks and numbers of sweeps, for every decomposition routine that returns valid invertible decompositions at the systems met, as long as no factor becomes zero", "why_tests_cant": "monotonicity along every run for every input; the rescaling step is a separate operation whose effect on the regularised objective depends on the inequality of arithmetic and geometric means", "anchors": ["als_CP.cxx:alsCP_DT", "common.cxx:Normalize", "common.cxx:SVD_solve"]}
{"id": "C70", "title": "alsCP_DT converges", "statement": "With lambda > 0, a positive tolerance and no time-out, alsCP_DT returns true with a gradient norm below tol, and an objective no larger than at the start, as soon as (lambda R + (f0/lambda)^(o-1)) f0 < (maxiter / resprint) tol^2, where f0 is the objective of the given factors, R the rank and o the order.", "quantifier": "all real tensors, factors, starting gradients, ranks, lambda > 0, tol > 0, clocks; every decomposition routine that returns valid decompositions at the systems met", "why_tests_cant": "termination through the convergence criterion for all inputs, with an explicit bound on the number of iterations; relies on a sufficient decrease argument, not on observation", "anchors": ["als_CP.cxx:alsCP_DT", "common.cxx:SVD_solve", "common.cxx:Normalize"]}
{"id": "C71", "title": "CPD::als converges with the exact optimizers", "statement": "With lambda > 0, a positive tolerance and no time-out, CPD::als with the simple, two-subtree or multi-sweep optimizer returns true with a gradient norm below tol, and an objective no larger than at the start, as soon as 2 (lambda R + (f0/lambda)^(o-1)) f0 < (maxsweep / resprint - 1) tol^2. The systems handed to the Cholesky factorisation are symmetric positive definite, whatever the factors are.", "quantifier": "all real tensors with equal mode lengths, factors, ranks, lambda > 0, tol > 0, clocks; every Cholesky factorisation that is right on symmetric positive definite matrices", "why_tests_cant": "convergence for all inputs, with an explicit bound on the number of sweeps, for three update schedules of which two visit a mode only in every other step", "anchors": ["src/CP.cxx:CPD::als", "src/optimizer/cp_dt_optimizer.cxx:step", "src/optimizer/cp_msdt_optimizer.cxx:step", "src/optimizer/cp_simple_optimizer.cxx:step"]}
{"id": "C72", "title": "Pairwise-perturbation error bound", "statement": "The MTTKRP (CP) or TTMc (Tucker) that a sweep of the approximate phase uses for a mode differs from the exact one for the factors W0+dW by at most |V| times the second-order remainder of prod(|W0_m|+|dW_m|). With relative perturbations at most e this is |V| prod|W0_m| p(p-1)/2 e^2 (1+e)^p, p = order-1. When the distance guard lets the phase go on after a sweep and the checkpoint factors have norm a, every MTTKRP used in that sweep is within |V| a^p p(p-1)/2 h^2 (1+h)^p with h = tol_init/(1-tol_init).", "quantifier": "all real tensors of order 3 to 9, checkpoint factors, perturbations, ranks, modes, tolerances below 1, solvers", "why_tests_cant": "a norm bound with explicit constant over all inputs; tests only sample the error", "anchors": ["als_CP.cxx:alsCP_PP_sub", "als_CP.cxx:Build_mttkrp_map", "als_Tucker.cxx:alsTucker_PP_sub"]}
{"id": "C73", "title": "Finding: Normalize inside the approximate phase invalidates the expansion", "statement": "Each sweep of the approximate phase ends with Normalize, which rescales the factors but leaves the perturbations dW as they are. From the second sweep on, the expansion approximates the MTTKRP of W0+dW, which differs from that of the current factors by the factor |W0_n+dW_n|/g (g the common norm): an error of first order in the change of the norms. On a tensor with one entry g^4 (g not 1) and checkpoint factors 1 the first sweep fits perfectly and the second, which the guard allows, has a non-zero residual.", "quantifier": "all real tensors of order 3 to 9, checkpoints, perturbations and ranks for the first-order bound; all g > 0, g not 1, and guard tolerances that let the phase go on for the lost fit", "why_tests_cant": "no test compares the approximate phase with exact sweeps; the error is hidden because a later exact phase repairs it", "anchors": ["als_CP.cxx:alsCP_PP_sub", "common.cxx:Normalize"]}
{"id": "C74", "title": "The program test ends after at most 62 half sweeps and logs at most three rows", "statement": "The test program (tests/test_decomposition.cxx) always ends normally, without an assertion failure, an abort or undefined behaviour. It looks at the gradient norm and the clock only before the first half sweep and after 30 and 30.5 sweeps; it stops at such a check exactly if the gradient norm is below 1e-5 or the time is up, and otherwise after exactly 31 sweeps; als returns whether a check stopped it, and the factors are those of alternating least squares in the order 0..4 | 5 after that many half sweeps. results/test.csv gets one row per check made (one, two or three). The unused TEST_decomposition would pass as well.", "quantifier": "every random tensor, starting factors and starting gradients of the program's sizes, every clock, every Cholesky/triangular solver with outputs of the right shapes, every ring of numbers", "why_tests_cant": "running the program shows one random start and one clock; the claim covers every random stream, timing and library behaviour", "anchors": ["tests/test_decomposition.cxx:main", "tests/test_decomposition.cxx:TEST_CPD", "tests/test_decomposition.cxx:TEST_decomposition", "src/CP.cxx:als"]}
{"id": "C75", "title": "Rounding of the sweep counter costs at most one step", "statement": "CPD::als accumulates the fraction of a sweep made by each step in a double. For the multi-sweep optimizers, of any order up to 100 and budgets up to a million sweeps, an unstopped run makes exactly the number of steps that exact arithmetic gives, or one more, and one more only if order-1 divides maxsweep+1. If order-1 does not divide maxsweep+1, the call returns true whatever happens, so that its return value says nothing about convergence. The rounding used in the model is IEEE round-to-nearest-even.", "quantifier": "all orders up to 100, all budgets up to 10^6, all stopping histories, all inputs; all rationals in the normal range below 2^40 for the rounding", "why_tests_cant": "accumulated rounding over all run lengths and orders", "anchors": ["src/CP.cxx:CPD::als", "src/optimizer/cp_msdt_optimizer.cxx:CPMSDTOptimizer::step"]}
{"id": "C76", "title": "A whole run of CPD::als never makes the fit worse", "statement": "Over the reals, when every linear system met by the optimizer is solved exactly, CPD<dtype, Optimizer>::als with the simple, two-subtree, multi-sweep or two-subtree low-rank optimizer returns factors whose regularised objective |V - [[W]]|^2 + lambda sum |W_n|^2 is no larger than that of the factors it was given; without regularisation the residuals written in the log never increase from row to row and never exceed the residual of the start. With lambda > 0 a Cholesky routine that is right for positive definite matrices is enough. The program run (regularisation 0, random start) inherits this for every tensor kind it can decompose.", "quantifier": "all tensors with equal mode sizes, orders 2..10 (simple) or 3..19, all start factors, all regularisations, tolerances, time limits, clocks, sweep limits and print intervals, all external linear-algebra routines that are exact on the systems met", "why_tests_cant": "a test sees one start and one tensor; monotonicity must hold for every start, every stopping point and every clock", "anchors": ["src/CP.cxx:CPD::als", "src/optimizer/cp_dt_optimizer.cxx:step", "src/optimizer/cp_msdt_optimizer.cxx:step", "src/optimizer/cp_simple_optimizer.cxx:step", "src/optimizer/cp_dt_lr_optimizer.cxx:step", "run.cxx:main"]}
{"id": "C77", "title": "The default CP run of test_ALS never makes the fit worse, and converges with regularisation", "statement": "The program test_ALS with -model CP and -pp 0 (its defaults), for a generated or read tensor of order 4 or 6..19 and its random start, ends normally with factors whose objective |V - [[W]]|^2 + lambda sum |W_n|^2 (lambda from -lambda, never negative) is no larger than that of the start; with -lambda 0 the residuals it logs never increase. With -lambda > 0, a positive tolerance and no time-out it reports convergence, with a gradient norm below tol * |V|, as soon as (lambda R + (f0/lambda)^(o-1)) f0 < (maxiter / resprint) (tol |V|)^2.", "quantifier": "all command lines with these settings, all tensors, random starts, clocks, processor ranks; all SVD routines that are right on the systems met; starts from which no factor becomes zero", "why_tests_cant": "ranges over all tensors, starts and option values; a bound on the number of iterations cannot be read off examples", "anchors": ["test_ALS.cxx:main", "als_CP.cxx:alsCP_DT", "common.cxx:SVD_solve", "common.cxx:Normalize"]}
{"id": "C78", "title": "Approximate sweeps are nearly monotone", "statement": "With regularisation lambda > 0 and right decompositions, a sweep of the approximate phase is close to an exact sweep of alternating least squares. An undamped update of a mode yields a factor within |E|/lambda of the exact update from the same factors, E being the error of the MTTKRP used. The first sweep after a checkpoint W0, with damping ratio in [0,1], leaves an objective of at most the one before plus ratio/lambda times the sum over the modes of (|V| times the second-order remainder of prod(|W0_m|+|dW'_m|))^2, dW' the perturbations it leaves. A later undamped sweep, before and after which the guard tol_init = e < 1/2 holds, leaves an objective of at most the one before plus order/lambda times (|V| a^p gap(p,h))^2, with a the norm of the checkpoint factors, p = order-1, h = e/(1-e) and gap(p,h) = (1+h)^p(((1+h)/(1-h))^p-1) + p(p-1)/2 h^2 (1+h)^p. (The sweep after which the guard fails, the last of its phase, is not bounded unless it is the first.)", "quantifier": "all real tensors of order 3 to 9, checkpoints, factors, perturbations, ranks, lambda > 0, damping ratios, guard tolerances below 1/2", "why_tests_cant": "an inequality over all inputs with an explicit constant; a test run of the approximate phase may well increase the objective and cannot tell an allowed increase from a bug", "anchors": ["als_CP.cxx:alsCP_PP_sub", "als_CP.cxx:Build_mttkrp_map", "common.cxx:Normalize", "common.cxx:SVD_solve"]}
{"id": "C79", "title": "In binary64, loss of finiteness is silent and permanent", "statement": "Finding. With IEEE binary64 elements (signed zeros, infinities, NaN, rounding to nearest even) alsCP_DT neither repairs nor reports factors that stop being finite. (1) One infinite or NaN entry in one factor at the end of a sweep makes every entry of every factor infinite or NaN, through Normalize. (2) A zero factor becomes NaN in Normalize (0/0) and every other factor becomes zero or NaN. (3) SVD_solve with a decomposition that reports a zero singular value returns no finite entry, so a singular system in any mode loses all factors in that sweep. (4) Factors without finite entries stay so through every further sweep, whatever the linear algebra returns, and all gradients written are non-finite. (5) Such a run never meets the tolerance: only the time limit can end it early, and it returns the lost factors as after any run that used all iterations. (6) A zero tensor with zero F ends this way from every start: the first sweep already loses everything.", "quantifier": "all binary64 tensors of order 1 to 31 with positive lengths, factors, gradients, tolerances, limits, clocks, linear algebra routines (no assumption on them), options; all pow functions that map zeros to zeros and non-finite values to non-finite values", "why_tests_cant": "a property of all continuations of a run after the loss, for every linear algebra routine; a test sees one run", "anchors": ["als_CP.cxx:alsCP_DT", "common.cxx:Normalize", "common.cxx:SVD_solve", "common.cxx:gradsubprob", "common.cxx:mttkrp_map_DT"]}
{"id": "C80", "title": "Pairwise-perturbation Tucker: orthonormal factors, and a sweep loses at most second order", "statement": "Over the reals, if the singular value routine returns leading singular vectors: (1) the approximate update of one mode around orthonormal factors W0 chooses an orthonormal factor whose core norm is within 2|V| q of the largest any orthonormal factor of that mode gives, q being the terms of second and higher order of the product of (1 + |dW_m|) over the other modes. (2) One call of the approximate sweep keeps the factors orthonormal and equal to W0 + dW', lets the norm of the core fall by at most 2|V| times the sum of these q, the squared residual rise by at most 4|V|^2 times it, and the core it returns has the norm of the true core up to |V| q. (3) While the guard pp_res_tol = e holds, each q is at most (1+h)^p - 1 - p h <= p(p-1)/2 h^2 (1+h)^p with h = e sqrt(max rank), p = order-1. (4) The exact phase never raises the residual. (5) In the approximate phase the squared residual logged at iteration it exceeds that at the start of the phase by at most 4 (it - start) order q |V|^2. (6) A whole run of alsTucker_PP that ends returns orthonormal factors; no logged residual exceeds |V|, and no residual exceeds the one in the row before when that row is of the exact phase. (7) The same for the program test_ALS with -model T -pp 1.", "quantifier": "all real tensors of order 4 or 6 to 9 (one sweep and the approximate phase: 3 to 9), ranks between 1 and the lengths, starts with orthonormal factors, tolerances, guards, limits, clocks, iteration counts and print intervals other than 0, command lines; every routine that returns leading singular vectors", "why_tests_cant": "an inequality for every tensor and every number of sweeps; a test sees a few residuals", "anchors": ["als_Tucker.cxx:alsTucker_PP_sub", "als_Tucker.cxx:alsTucker_DT_sub", "als_Tucker.cxx:alsTucker_PP", "test_ALS.cxx:main"]}
{"id": "C81", "title": "Pairwise-perturbation CP: exact phases never raise the regularised objective, approximate phases by a bounded amount; no factor vanishes", "statement": "Over the reals with lambda > 0 and a decomposition routine that is right on symmetric positive definite matrices: (1) if the factors fit V better than the zero tensor does (|V - [[W]]|^2 + lambda sum |W_m|^2 < |V|^2), no factor ever becomes zero in exact ALS sweeps, so Normalize never divides by zero, every system is solvable and the objective never exceeds its start. (2) Hence alsCP_DT, and test_ALS with -model C -pp 0, converge within the explicit number of iterations of C70 under conditions on the input only. (3) The exact phase of alsCP_PP returns with an objective no larger than at its start; unless it made no sweep, its factors all have the same norm; the squared residuals it logs are at most the objective at its start. (4) The approximate phase, undamped, around factors of common norm a and with guard pp_res_tol = e < 1/2, makes at most 15 sweeps; each sweep after which the guard holds adds at most order (|V| a^(order-1) gap)^2 / lambda to the objective, gap being the explicit bound of C78 at e/(1-e): the squared residual logged at iteration it is at most the objective at the checkpoint plus (it - start) times that, and so is the objective at the end unless the last sweep broke the guard.", "quantifier": "all real tensors of order 4 or 6 to 19 (approximate phase: 3 to 9), ranks, factors, lambda > 0, tolerances, guards below 1/2, clocks, limits, iteration counts and print intervals other than 0; every decomposition routine that is right on positive definite matrices; approximate phase: as long as no factor of its sweeps is zero", "why_tests_cant": "an inequality for every tensor and any number of sweeps", "anchors": ["als_CP.cxx:alsCP_DT_sub", "als_CP.cxx:alsCP_PP_sub", "als_CP.cxx:alsCP_PP", "als_CP.cxx:alsCP_DT", "common.cxx:Normalize", "test_ALS.cxx:main"]}
{"id": "C82", "title": "Iteration counters fit a 32-bit int except for maxiter = 2147483647", "statement": "With int arithmetic checked at 32 bits (overflow undefined), every driver (alsCP, alsCP_DT, alsCP_PP, alsCP_PP_partupdate, alsTucker, alsTucker_DT, alsTucker_PP, CPD::als) behaves exactly as over unbounded integers for every maxiter below 2147483647 (in benchmark mode of the pairwise-perturbation drivers below 2147483646; for CPD::als up to 1073741822 sweeps, where int(sweeps) and iters also fit); the only possible deviation at all is an overflow. Finding: with maxiter = 2147483647, which the option parser accepts, no driver has a defined result, because the final test iter == maxiter + 1 overflows even when the method converged at once; test_ALS is undefined for exactly that value of -maxiter.", "quantifier": "every tensor, start, tolerance, clock, time limit, maxiter, resprint, mode and command line", "why_tests_cant": "The counter would have to run through two thousand million sweeps, and overflow is undefined behaviour that a test may not notice.", "anchors": ["als_CP.cxx:alsCP", "als_CP.cxx:alsCP_DT", "als_CP.cxx:alsCP_PP", "als_CP.cxx:alsCP_PP_partupdate", "als_Tucker.cxx:alsTucker_PP", "src/CP.cxx:CPD::als", "test_ALS.cxx:main"]}
{"id": "C83", "title": "Rounding errors of the MTTKRP kernels and of the reconstruction are bounded entry by entry", "statement": "If every addition, multiplication, ... is rounded with relative error at most u (53-bit rounding to nearest: u = 2^-53, no overflow or underflow), then (1) the MTTKRP of mode n that the dimension-tree method computes differs in each entry from the exact MTTKRP of the same numbers by at most ((1+u)^K - 1) times the MTTKRP of the absolute values, where K = the sum over the other modes of (length + 3); (2) so do all answers read from the shared table of intermediate tensors, in any order of requests; (3) the direct method obeys the same bound with two roundings more; (4) each entry of the reconstructed tensor has an error of at most ((1+u)^(3(order-1)+rank) - 1) times the reconstruction from absolute values; (5) (1+u)^K - 1 <= K u / (1 - K u) when K u < 1.", "quantifier": "every rounding function with relative error u, all real tensors of order 4 or 6 to 31 (direct method: cubes of order 2 to 10; reconstruction: order 2 to 19), ranks, factors, modes and sequences of requests", "why_tests_cant": "a bound over all inputs and all accumulated roundings; a test sees one rounding pattern", "anchors": ["common.cxx:mttkrp_map_DT", "als_CP.cxx:alsCP_DT", "common.cxx:KhatriRao_contract", "common.cxx:build_V"]}
{"id": "C84", "title": "The logged residual norm is right up to an explicit rounding error", "statement": "In rounded arithmetic (relative error at most u per operation): the Frobenius norm of a tensor with n entries is computed with relative error at most (1+u)^(n+2) - 1. The residual norm that the CP drivers log differs from |V - [[W]]| of the same numbers by at most ((1+u)^(n+2) - 1) |V - [[W]]| + ((1+u)^(n+3(order-1)+rank+5) - 1) times the norm of |V| + [[|W_0|, |W_1|, ..]]; so a logged value bounds the true residual.", "quantifier": "every rounding function with relative error u, all real tensors of order 2 to 19, ranks and factors", "why_tests_cant": "a bound over all inputs and all accumulated roundings", "anchors": ["als_CP.cxx:alsCP_DT", "als_CP.cxx:alsCP_PP", "common.cxx:build_V", "src/CP.cxx:CPD::als"]}
{"id": "C85", "title": "Gradients and the logged gradient norm are right up to an explicit rounding error", "statement": "In rounded arithmetic (relative error at most u per operation): every entry of the gradient W_n H_n - MTTKRP_n that gradient_CP stores, or that the dimension-tree method computes for a mode, differs from the exact gradient of the same numbers by at most ((1+u)^K - 1) times the entry of |W_n| H_n(|W|) + MTTKRP_n(|V|,|W|), K = sum over the other modes of (length + 4) + rank + 5. The projected gradient norm that alsCP compares with its tolerance (zero forcing term) differs from the exact one by at most a relative (1+u)^(2 s rank + order + 6) - 1 plus ((1+u)^(2 s rank + order + 6 + (order-1)(s+4) + rank + 8) - 1) times the norm of these masses. The gradient norm in a log row has relative error at most (1+u)^(2n+order+6) - 1 with respect to the stored gradients of at most n entries each.", "quantifier": "every rounding function with relative error u; gradient_CP and alsCP: cubes of order 2 to 10; dimension tree: order 4 or 6 to 31; log rows: order 2 to 19; all ranks, factors, tolerances, clocks and limits", "why_tests_cant": "a bound over all inputs and all accumulated roundings", "anchors": ["common.cxx:gradient_CP", "common.cxx:gradsubprob", "als_CP.cxx:alsCP", "als_CP.cxx:alsCP_DT"]}
{"id": "C86", "title": "A sweep in rounded arithmetic makes every ALS update up to an explicit rounding error", "statement": "In rounded arithmetic (relative error at most u per operation) a sweep of alsCP, alsCP_DT or the exact phase of pairwise perturbation always completes when the decomposition routine returns matrices of the right shapes, and updates the modes in order. At the update of mode n, with the factors as they then are, the right-hand side is the MTTKRP plus F_n up to (1+u)^(k+1)-1 times the same expression of absolute values (k the roundings of C83), the system matrix is the Hadamard product of the other Gram matrices plus lambda I up to (1+u)^(K+1)-1 times its absolute version, K = sum of (length+4) over the other modes, and the new factor is M V^-T s^-1 U^T for the decomposition U s VT returned for that system, up to (1+u)^(2R+8)-1 times its absolute version. The gradient stored for the mode is factor times system minus right-hand side within (1+u)^(K+R+6)-1 of its absolute version. Other factors are untouched until the final Normalize. In particular no intermediate of the dimension tree is stale, in rounded arithmetic too.", "quantifier": "every rounding function with relative error u, every decomposition routine with outputs of the right shapes, all tensors, factors, ranks and lambda; dimension tree: order 4 or 6 to 31; alsCP: cubes of order 2 to 10", "why_tests_cant": "a bound over all inputs and all accumulated roundings; a test compares one run with a tolerance", "anchors": ["common.cxx:SVD_solve", "als_CP.cxx:alsCP", "als_CP.cxx:alsCP_DT", "als_CP.cxx:alsCP_DT_sub"]}
{"id": "C87", "title": "Normalize in rounded arithmetic keeps the represented tensor and equalises the norms up to rounding", "statement": "In rounded arithmetic, Normalize on factors of nonzero norm returns factors of the same shapes; every entry of the tensor they represent differs from the old one by at most (1+u)^(5 order)-1 times the sum of the absolute products; and there is one number g such that every new factor has norm within a relative (gam_3 + gam_k)/(1 - gam_k) of g, where gam_j = (1+u)^j - 1 and k is the number of entries of the factor plus two.", "quantifier": "every rounding function with relative error u, all lists of factors with a common number of columns, nonzero true norms and gam_k < 1", "why_tests_cant": "a bound over all inputs", "anchors": ["common.cxx:Normalize"]}
{"id": "C88", "title": "After an update in rounded arithmetic the new factor solves the normal equations up to rounding and the defect of the decomposition", "statement": "After the update of mode n by a sweep of alsCP or alsCP_DT in rounded arithmetic, the exact gradient A L - R of the regularised objective with respect to the new factor A, at the new factors, is bounded entry by entry by (1+u)^(K+1)-1 times |A| L(|W|), plus (1+u)^(k+1)-1 times R(|V|,|W|), plus (1+u)^(2R+8)-1 times |M| |P| |S|, plus |M| |P S - I|: M and S are the computed right-hand side and system, P the matrix that the returned decomposition inverts S with. If the decomposition is exact and nonsingular the last term is absent.", "quantifier": "every rounding function with relative error u, every decomposition routine with outputs of the right shapes, all tensors, factors, ranks, lambda and modes; orders as in C86", "why_tests_cant": "a bound over all inputs and every decomposition the library may return", "anchors": ["common.cxx:SVD_solve", "als_CP.cxx:alsCP", "als_CP.cxx:alsCP_DT"]}
{"id": "C89", "title": "Whatever the numbers, no CP driver fails and every shape is kept", "statement": "With any arithmetic at all (doubles with overflow, infinities and NaN included, no law of algebra assumed), alsCP, alsCP_DT, alsCP_PP and alsCP_PP_partupdate never commit an out-of-range access, never hand CTF indices of inconsistent lengths and never use an unset value; they return factors and gradients of the shapes they were given. alsCP and alsCP_DT return after at most maxiter+1 sweeps, true exactly by one of the two stop tests at a check, false exactly after maxiter+1 sweeps. The only other outcome, with pairwise perturbation, is a driver loop that is still running. In particular a zero tensor of doubles is decomposed to the end: alsCP_DT returns false with no finite number left in any factor, or true because of the time limit.", "quantifier": "every number type, decomposition routine with outputs of the right shapes, clock, tensor, factors, rank and option; alsCP: cubes of order 2 to 10; alsCP_DT: orders 4 and 6 to 19; pairwise perturbation: orders 4 and 6 to 9 (3 to 9 in benchmark mode)", "why_tests_cant": "ranges over all inputs, NaN patterns and arithmetics", "anchors": ["als_CP.cxx:alsCP", "als_CP.cxx:alsCP_DT", "als_CP.cxx:alsCP_PP", "als_CP.cxx:alsCP_PP_partupdate"]}
{"id": "C90", "title": "Whatever the numbers, no Tucker driver fails and every shape is kept", "statement": "With any arithmetic at all (doubles with overflow, infinities and NaN included, no law of algebra assumed, and a decomposition that may return NaN), hosvd, alsTucker, alsTucker_DT and alsTucker_PP never commit an out-of-range access, never hand CTF indices of inconsistent lengths and never use an unset value. hosvd returns factors of shape mode length by rank and a core with the requested ranks; the drivers return factors, increments and a core of the shapes they were given. alsTucker and alsTucker_DT return after at most maxiter+1 sweeps, true exactly by one of the two stop tests at a check, false exactly after maxiter+1 sweeps. The only other outcome, with pairwise perturbation, is a driver loop that is still running.", "quantifier": "every number type, decomposition routine with outputs of the right shapes, clock, tensor, factors, ranks between 1 and the mode lengths and option; hosvd: orders 2 to 18; alsTucker: 2 to 10; alsTucker_DT: 2, 4 and 6 to 10; pairwise perturbation: 4 and 6 to 9 (3 to 9 in benchmark mode)", "why_tests_cant": "ranges over all inputs, NaN patterns and arithmetics", "anchors": ["als_Tucker.cxx:hosvd", "als_Tucker.cxx:alsTucker", "als_Tucker.cxx:alsTucker_DT", "als_Tucker.cxx:alsTucker_PP"]}
{"id": "C91", "title": "Whatever the numbers, a valid command line of test_ALS never fails", "statement": "With any arithmetic at all (doubles with NaN and overflow included), a command line of test_ALS that asks for -tensor p, c or r of valid dimensions and for a tensor order that the chosen driver supports builds a tensor of exactly the requested lengths and runs to completion without undefined behaviour or an index error; with -model C it leaves one factor and one gradient matrix per mode, of size mode length by rank, with -model T it leaves factors of size mode length by rank and a core whose lengths all equal the rank. The only other outcome is a loop whose length depends on the numbers and that is still running: the drawing of collinear vectors (-tensor c) or the outer loop of pairwise perturbation.", "quantifier": "every number type, argv, random generator, external routine with outputs of the right shapes, clock and process distribution; orders as in C89 and C90", "why_tests_cant": "ranges over all command lines, random streams and arithmetics", "anchors": ["test_ALS.cxx:main", "common.cxx:laplacian_tensor", "common.cxx:Gen_collinearity", "common.cxx:build_V", "common.cxx:fold_unfold", "als_CP.cxx:alsCP_DT", "als_Tucker.cxx:hosvd"]}
{"id": "C92", "title": "Whatever the numbers, a valid command line of pp_bench never fails", "statement": "With any arithmetic at all (doubles with NaN and overflow included), a command line of pp_bench that asks for -tensor p, c or r of valid dimensions and for a tensor order that the drivers support performs its maxiter repetitions of dimension-tree sweeps and of pairwise-perturbation sweeps without undefined behaviour or an index error. At the end the start factors are the random matrices that were drawn first, unchanged by the repetitions, the gradients have the shapes of the factors, and for -model T the core has the rank as the length of every mode. The only other outcome is a loop that is still running: the drawing of collinear vectors or the loop of pairwise perturbation.", "quantifier": "every number type, argv, random generator, external routine with outputs of the right shapes, clock and process distribution; orders 4 and 6 to 9", "why_tests_cant": "ranges over all command lines, random streams and arithmetics", "anchors": ["pp_bench.cxx:main", "als_CP.cxx:alsCP_DT", "als_CP.cxx:alsCP_PP", "als_Tucker.cxx:alsTucker_DT", "als_Tucker.cxx:alsTucker_PP"]}
{"id": "C93", "title": "Whatever the numbers, running a CPD object never fails", "statement": "With any arithmetic at all (doubles with NaN and overflow included), constructing a CPD object with any of the optimizers (two-subtree, multi-sweep, their low-rank variants with an update rank up to the rank and the mode length, simple), initialising it with a tensor of equal mode lengths and matching factors, and calling als with maxsweep >= 0 and a non-zero resprint completes without undefined behaviour or an index error within 2(maxsweep+1) steps; factors and gradients keep their shapes; als ends either because more than maxsweep sweeps are done, or, before that, because the gradient norm compared below the tolerance or the clock went past the limit (a NaN norm never stops it); it returns false exactly if the sweeps done equal maxsweep+1.", "quantifier": "every number type, tensor, factors, gradients, Cholesky, triangular-solve, decomposition, QR and random routines with outputs of the right shapes, clock, tolerance, time limit, maxsweep, resprint; orders 3 to 19 (simple optimizer: 2 to 10)", "why_tests_cant": "ranges over all arithmetics, data and clocks, and over sequences of optimizer steps of any length", "anchors": ["src/CP.cxx:CPD::als", "src/optimizer/cp_dt_optimizer.cxx:CPDTOptimizer::step", "src/optimizer/cp_msdt_optimizer.cxx:CPMSDTOptimizer::step", "src/optimizer/cp_simple_optimizer.cxx:CPSimpleOptimizer::step", "src/optimizer/cp_dt_lr_optimizer.cxx:CPDTLROptimizer::step", "src/optimizer/cp_msdt_lr_optimizer.cxx:CPMSDTLROptimizer::step", "src/optimizer/cp_als_optimizer.cxx:update_S"]}
