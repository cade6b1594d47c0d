{"id": "C01", "title": "soft_thresholding is the exact l1 proximal operator", "statement": "For every array a and every lamda >= 0, each entry of soft_thresholding(a, lamda) is the unique minimiser x of lamda*|x| + (x - a_ij)^2/2; equivalently the returned array is the unique minimiser of lamda*||X||_1 + ||X - a||_F^2/2 over all arrays of that shape.", "quantifier": "all shapes, all real arrays a, all real lamda >= 0, all competitors X", "why_tests_cant": "a test can compare against finitely many competitors X and finitely many (a, lamda); optimality quantifies over all of them, with a kink at |a|=lamda that sampling misses", "anchors": ["regain/prox.py: soft_thresholding"]}
{"id": "C02", "title": "soft_thresholding_off_diagonal is the prox of the off-diagonal l1 norm and leaves the diagonal untouched", "statement": "For every square a and lamda >= 0 the result has the same diagonal as a, and is the unique minimiser of lamda*l1_od_norm(X) + ||X - a||_F^2/2; it is symmetric whenever a is.", "quantifier": "all square matrices, all lamda >= 0, all competitors", "why_tests_cant": "universally quantified optimality; tests only sample", "anchors": ["regain/prox.py: soft_thresholding_off_diagonal", "regain/norm.py: l1_od_norm"]}
{"id": "C03", "title": "prox_logdet returns the unique positive definite minimiser of its objective", "statement": "For every symmetric A and lamda > 0, prox_logdet(A, lamda) is symmetric positive definite and, among all symmetric positive definite X, it is the unique minimiser of trace(A X) - log det X + ||X||_F^2/(2 lamda); this holds whichever orthonormal eigenbasis eigh returns, so the value does not depend on that choice.", "quantifier": "all dimensions, all symmetric A, all lamda > 0, all eigen-decompositions eigh may return, all positive definite competitors", "why_tests_cant": "optimality over a non-polyhedral cone in every dimension and for repeated eigenvalues (non-unique eigenbasis) cannot be enumerated", "anchors": ["regain/prox.py: prox_logdet"]}
{"id": "C04", "title": "prox_trace_indicator returns the positive semidefinite minimiser of the trace penalty", "statement": "For every symmetric A and lamda >= 0, prox_trace_indicator(A, lamda) is symmetric positive semidefinite and is the unique minimiser over PSD X of lamda*trace(X) + ||X - A||_F^2/2.", "quantifier": "all dimensions, symmetric A, lamda >= 0 and all PSD competitors, any eigh result", "why_tests_cant": "as C03", "anchors": ["regain/prox.py: prox_trace_indicator"]}
{"id": "C05", "title": "prox_laplacian is the prox of the squared norm", "statement": "For every array a and lamda >= 0, prox_laplacian(a, lamda) is the unique minimiser of lamda*||X||_F^2 + ||X - a||_F^2/2.", "quantifier": "all shapes, arrays, lamda >= 0, competitors", "why_tests_cant": "universally quantified optimality", "anchors": ["regain/prox.py: prox_laplacian"]}
{"id": "C06", "title": "Group soft-thresholding is the prox of the sum of column norms, except where it divides by zero", "statement": "For lamda > 0, each column of blockwise_soft_thresholding(a, lamda) is the unique minimiser of lamda*||x||_2 + ||x - a_col||_2^2/2, including all-zero columns; for lamda = 0 an all-zero column yields NaN. The variant blockwise_soft_thresholding_symmetric agrees on nonzero columns, but returns NaN for an all-zero column.", "quantifier": "all matrices and lamda >= 0, IEEE special values for the quotient", "why_tests_cant": "the failing inputs are a measure-zero set (exact zero columns) that random tests never hit", "anchors": ["regain/prox.py: soft_thresholding_vector, blockwise_soft_thresholding, blockwise_soft_thresholding_symmetric"]}
{"id": "C07", "title": "The (norm, prox) pair selected by check_norm_prox is consistent", "statement": "For every string other than the five accepted a ValueError is raised, and the node flag is set exactly for 'node'. Expected: for each accepted name, the returned prox is the proximal operator of the returned norm. Settled: holds for 'laplacian' and 'l1'; refuted for 'l2', 'linf' and 'node' (node_penalty is |sum of entries|/(2 sqrt n), zero on nonzero matrices; the resting states of its prox solve neither the prox problem of any multiple of it nor the overlap-norm problem).", "quantifier": "all strings, all matrices, all lamda > 0", "why_tests_cant": "needs optimality over all competitors, for each accepted name", "anchors": ["regain/validation.py: check_norm_prox", "regain/prox.py", "regain/norm.py"]}
{"id": "C08", "title": "The temporal pair update in the time-varying solvers is the exact joint minimiser", "statement": "Whenever prox_psi is the exact prox of psi, the pair (Z_1, Z_2) = ((A_1+A_2-e)/2, (A_1+A_2+e)/2) with e = prox_psi(A_2-A_1, 2 beta/rho) is the unique joint minimiser of beta*psi(Z_2-Z_1) + rho/2*(||Z_1-A_1||^2 + ||Z_2-A_2||^2).", "quantifier": "all A_1, A_2, beta >= 0, rho > 0, all penalties psi with exact prox, all competitor pairs", "why_tests_cant": "universal optimality", "anchors": ["regain/covariance/time_graphical_lasso_.py: time_graphical_lasso lines 206-212", "regain/covariance/latent_time_graphical_lasso_.py", "regain/covariance/kernel_time_graphical_lasso_.py"]}
{"id": "C09", "title": "prox_FL is the exact fused-lasso prox", "statement": "Assuming the external 1-d total-variation solver returns the TV prox, prox_FL(a, beta, lamda) returns, for each off-diagonal entry, the time series minimising lamda*sum|x_t| + beta*sum|x_{t+1}-x_t| + ||x - a_ij||^2/2, and for each diagonal entry the pure TV prox.", "quantifier": "all series lengths, all series, beta, lamda >= 0", "why_tests_cant": "the soft-threshold-after-TV decomposition is a theorem about all series, not checkable on samples", "anchors": ["regain/prox.py: prox_FL"]}
{"id": "C10", "title": "update_rho keeps the penalty positive and within its geometric envelope", "statement": "For rho > 0 and positive tau_inc, tau_dec, update_rho returns a positive value which is one of tau_inc*rho, rho/tau_dec, rho; it grows only if rnorm > mu*snorm and shrinks only if snorm > mu*rnorm; after k calls with arbitrary residuals rho lies in [rho0/tau_dec^k, rho0*tau_inc^k] when both factors are at least 1.", "quantifier": "all residual histories of any length, all positive parameters", "why_tests_cant": "histories are unbounded", "anchors": ["regain/update_rules.py: update_rho"]}
{"id": "C11", "title": "update_gamma is monotone, bounded below by eps and never increases a step above eps", "statement": "For any run of update_gamma over consecutive iterations the step never increases as long as it is at least eps, is always >= eps, and is eventually exactly eps.", "quantifier": "all starting steps, all iteration sequences", "why_tests_cant": "unbounded histories", "anchors": ["regain/update_rules.py: update_gamma"]}
{"id": "C12", "title": "graphical_lasso returns a symmetric estimate with positive diagonal at every stopping point", "statement": "For symmetric emp_cov and symmetric init, alpha >= 0, rho > 0, over_relax = 1 and any positive rho-update factors, whatever iteration the loop stops at (max_iter >= 1), the returned precision is exactly symmetric and its diagonal is strictly positive, and the log-det iterate K is positive definite.", "quantifier": "all dimensions, data, parameters, tolerances, max_iter, all rho-update options", "why_tests_cant": "needs an invariant over every iterate of an unbounded adaptive loop", "anchors": ["regain/covariance/graphical_lasso_.py: graphical_lasso"]}
{"id": "C13", "title": "Stationary points of graphical_lasso are exactly the optima of the documented objective", "statement": "With over_relax = 1: if an ADMM step leaves the state unchanged then the precision it holds is positive definite and minimises trace(S K) - log det K + alpha*||K||_od,1 over all positive definite K; conversely every optimum with its multiplier is left unchanged by a step, for every rho > 0.", "quantifier": "all dimensions, symmetric S, alpha >= 0, rho > 0, all competitors", "why_tests_cant": "global optimality over a continuum", "anchors": ["regain/covariance/graphical_lasso_.py: graphical_lasso, objective"]}
{"id": "C14", "title": "graphical_lasso terminates by its own stopping rule", "statement": "With constant rho and over_relax = 1, whenever the problem has an optimum (always, if the covariance is positive semidefinite with positive variances and alpha > 0), the loop's stopping test with tol > 0 is satisfied after finitely many iterations from any symmetric init, with an explicit bound; hence for max_iter beyond the bound no 'did not converge' warning is emitted.", "quantifier": "all data for which an optimum exists, all tol > 0, rtol >= 0, alpha, rho, init", "why_tests_cant": "convergence is a statement about all runs; a test can only time out", "anchors": ["regain/covariance/graphical_lasso_.py: graphical_lasso"]}
{"id": "C15", "title": "Stopping certifies near-optimality", "statement": "When the loop stops after at least two iterations with residuals rnorm, snorm, the objective value exceeds the optimum by at most rho*||U||*rnorm + snorm*||K - K_opt||. At the first iteration this fails: the dual residual is measured against zeros instead of the supplied init, so the solver can declare convergence arbitrarily far from the optimum.", "quantifier": "all runs and all optima", "why_tests_cant": "soundness of a stopping rule quantifies over all runs", "anchors": ["regain/covariance/graphical_lasso_.py: graphical_lasso lines 149-187"]}
{"id": "C16", "title": "Over-relaxation preserves the solution", "statement": "For every over_relax in (1, 1.8], graphical_lasso's stationary points are the optima of the documented objective. Settled: refuted. The code subtracts the relaxation term instead of adding it, and for every over_relax in (1, 2) and every problem with at least one variable, no stationary point is an optimum.", "quantifier": "all over_relax, S, alpha, rho", "why_tests_cant": "fixed-point characterisation over all inputs", "anchors": ["regain/covariance/graphical_lasso_.py: graphical_lasso line 162"]}
{"id": "C17", "title": "Reported iteration count and history match the iterations performed", "statement": "For every covariance solver and every max_iter >= 1, the returned iteration count equals the number of iterations performed and the history has one entry per iteration. Settled solver by solver: time_graphical_lasso, kernel_time_graphical_lasso and tgl_forward_backward return the number of iterations and keep one extra (initial) history entry; the others return one less than the number of iterations performed.", "quantifier": "all inputs and max_iter", "why_tests_cant": "depends on where each run stops", "anchors": ["graphical_lasso_.py", "latent_graphical_lasso_.py", "time_graphical_lasso_.py", "latent_time_graphical_lasso_.py"]}
{"id": "C18", "title": "max_iter = 0 returns the initial estimate or raises, consistently", "statement": "With max_iter = 0, the covariance solvers return the initial precision when return_n_iter is False, and raise UnboundLocalError when it is True (the default, and what every estimator's fit uses); missing_graphical_lasso raises it in both cases.", "quantifier": "all inputs", "why_tests_cant": "a statement about every input and both flags", "anchors": ["graphical_lasso_.py: graphical_lasso", "time_graphical_lasso_.py"]}
{"id": "C19", "title": "Relabelling variables relabels the graphical lasso result", "statement": "For every permutation of the features, running graphical_lasso on the permuted covariance (and permuted init) gives the permuted result, with the same iteration count and the same residual history, even if eigh breaks ties differently.", "quantifier": "all dimensions, permutations, inputs, iteration counts, eigh behaviours", "why_tests_cant": "metamorphic property over all permutations and unbounded loops", "anchors": ["graphical_lasso_.py: graphical_lasso", "prox.py: prox_logdet, soft_thresholding_off_diagonal"]}
{"id": "C20", "title": "latent_graphical_lasso keeps its structural constraints", "statement": "At every iteration R is positive definite, the returned latent part L is symmetric positive semidefinite, and K, L are symmetric, for any symmetric data and init.", "quantifier": "all inputs, parameters, iteration counts", "why_tests_cant": "invariant over all iterates", "anchors": ["latent_graphical_lasso_.py: latent_graphical_lasso"]}
{"id": "C21", "title": "Stationary points of latent_graphical_lasso are optima", "statement": "If a step leaves the state unchanged then (K, L) minimises -loglik(S, K-L) + alpha*||K||_1 + tau*trace(L) subject to L PSD and K-L PD, where the l1 norm includes the diagonal; it need not minimise the documented objective, whose l1 norm is off-diagonal.", "quantifier": "all data and parameters, all feasible competitors", "why_tests_cant": "global optimality; the mismatch is invisible to tests comparing support only", "anchors": ["latent_graphical_lasso_.py: latent_graphical_lasso, objective"]}
{"id": "C22", "title": "time_graphical_lasso keeps all its time slices symmetric and its log-det iterate positive definite", "statement": "For any number of times, symmetric data and init, positive sample counts, any psi whose prox preserves symmetry: every K_t is symmetric positive definite and every Z_0, Z_1, Z_2, U slice is symmetric at every iteration.", "quantifier": "all numbers of times, dimensions, runs", "why_tests_cant": "invariant over all iterates", "anchors": ["time_graphical_lasso_.py: time_graphical_lasso"]}
{"id": "C23", "title": "Stationary points of time_graphical_lasso are optima of the time-varying problem", "statement": "If a step leaves the state unchanged, the returned sequence minimises sum_t n_t(-log det K_t + trace(S_t K_t)) + alpha*sum||K_t||_1 + beta*sum psi(K_{t+1}-K_t) over positive definite sequences, for any convex psi with exact prox. The documented objective penalises only off-diagonal entries: for that one the claim is false.", "quantifier": "all T, dimensions, data, weights, alpha, beta, rho, psi", "why_tests_cant": "global optimality over sequences", "anchors": ["time_graphical_lasso_.py: time_graphical_lasso, objective, loss"]}
{"id": "C24", "title": "time_graphical_lasso terminates by its own stopping rule", "statement": "With constant rho, whenever the problem actually being solved has an optimum (always, if the covariances are positive semidefinite, alpha > 0 and psi is non-negative), the stopping test is met after finitely many iterations, for every T and psi with exact convex prox.", "quantifier": "all T, data, tol > 0", "why_tests_cant": "convergence over all runs", "anchors": ["time_graphical_lasso_.py: time_graphical_lasso"]}
{"id": "C25", "title": "Reversing time reverses the time-varying estimate", "statement": "For every even psi whose prox is odd, running time_graphical_lasso on the time-reversed covariances, sample counts and init gives the time-reversed precision sequence with the same iteration count and residuals; the same for kernel_time_graphical_lasso, with the kernel reversed too.", "quantifier": "all T, inputs, iteration counts", "why_tests_cant": "metamorphic over unbounded runs", "anchors": ["time_graphical_lasso_.py: time_graphical_lasso"]}
{"id": "C26", "title": "The objective recorded in the history is the documented objective of the returned iterate", "statement": "Each history entry's obj equals objective evaluated with log-likelihood at the log-det iterate K and l1 penalty at Z_0. Settled: it holds for graphical_lasso, latent_graphical_lasso, latent_time_graphical_lasso and latent_time_matrix_decomposition; it is refuted for time_graphical_lasso and kernel_time_graphical_lasso, which swap the two arguments and can record +inf when the documented value is finite.", "quantifier": "all runs", "why_tests_cant": "needs all states", "anchors": ["time_graphical_lasso_.py lines 241-245", "graphical_lasso_.py line 169"]}
{"id": "C27", "title": "latent_time_graphical_lasso structural constraints", "statement": "Every R_t iterate is positive definite, every latent slice Z/W is symmetric positive semidefinite where projected, and all consensus and dual variables are symmetric, for every T and every iteration.", "quantifier": "all runs", "why_tests_cant": "invariant over all iterates", "anchors": ["latent_time_graphical_lasso_.py"]}
{"id": "C28", "title": "Kernel time graphical lasso with a first-neighbour kernel solves the same problem as the time graphical lasso", "statement": "For the kernel whose only nonzero off-diagonal entries are the first off-diagonals (weight beta), kernel_time_graphical_lasso and time_graphical_lasso minimise the same objective, and any stationary states of the two solvers (whatever rho and the starting point) hold the same precision matrices.", "quantifier": "all T, inputs", "why_tests_cant": "equivalence over all inputs", "anchors": ["kernel_time_graphical_lasso_.py"]}
{"id": "C29", "title": "Estimator fit depends on the data only through the per-class multisets of samples", "statement": "For every permutation of the rows of (X, y), the class order, per-class counts, means and covariances passed to the solver are unchanged; counts sum to the number of rows; relabelling the classes by any order-preserving map changes nothing else.", "quantifier": "all data sets, labellings and permutations", "why_tests_cant": "quantifies over all permutations", "anchors": ["time_graphical_lasso_.py: TimeGraphicalLasso.fit"]}
{"id": "C30", "title": "empirical covariance fed to the solvers is symmetric PSD", "statement": "For every data matrix with at least one row, emp_cov is symmetric positive semidefinite, and invariant under row permutation and (when not assume_centered) under translation of the data.", "quantifier": "all data", "why_tests_cant": "quantifies over all data", "anchors": ["graphical_lasso_.py: GraphicalLasso.fit"]}
{"id": "C31", "title": "Instability is a number in [0, 1/2], zero exactly when all graphs agree", "statement": "For every non-empty list of precision matrices of equal shape with at least two variables, global_instability lies in [0, 1/2], is 0 iff all estimators have the same off-diagonal support in the upper triangle, and does not depend on the order of the estimators.", "quantifier": "all lists of estimators, 2-d and 3-d", "why_tests_cant": "quantifies over all lists", "anchors": ["model_selection/stability_optimization.py: global_instability"]}
{"id": "C32", "title": "Stability selection picks the least regularised parameter whose instability is within 0.05", "statement": "Given instabilities for parameters in descending order, the selected index is the last whose monotonised instability (max of raw instabilities up to and including it) is at most 0.05. Settled: refuted. The running maximum excludes the current entry, so for increasing instabilities the candidate after the last stable one is selected, and the instability of the last candidate is never looked at. When every candidate is unstable the first one is selected with score -inf.", "quantifier": "all instability sequences", "why_tests_cant": "quantifies over all sequences", "anchors": ["model_selection/stability_optimization.py: _format_results, fit"]}
{"id": "C33", "title": "_check_param_order yields descending grids", "statement": "For every dict of parameter lists each value list becomes a permutation of itself sorted in descending order; for a list of dicts with overlapping names later grids silently replace earlier ones (so the union of the grids is not searched).", "quantifier": "all grids", "why_tests_cant": "quantifies over all grids", "anchors": ["model_selection/stability_optimization.py: _check_param_order"]}
{"id": "C34", "title": "structure_error counts partition the entries and ratios stay in range", "statement": "For all true/pred matrices of equal shape, TP+FP+TN+FN equals the number of entries (minus the diagonal when no_diagonal), TP+FN is the number of true edges, all ratios lie in [0,1], recall+miss_rate=1, f1 is the harmonic mean; swapping arguments swaps FP and FN. It raises ZeroDivisionError exactly when there are no true edges.", "quantifier": "all matrices", "why_tests_cant": "quantifies over all matrices", "anchors": ["utils.py: structure_error"]}
{"id": "C35", "title": "A perfect prediction has accuracy one", "statement": "Expected: structure_error(t, t, no_diagonal=True)['accuracy'] is 1. Settled: refuted. The denominator includes the diagonal, so the value is 1 - (diagonal entries)/(entries), always below 1. Precision, recall and f1 are 1, and accuracy is 1 when the diagonal is kept.", "quantifier": "all matrices", "why_tests_cant": "corner of the denominator", "anchors": ["utils.py: structure_error"]}
{"id": "C36", "title": "upper_to_full inverts extraction of the upper triangle", "statement": "For every n and every vector of length n(n+1)/2, upper_to_full returns the symmetric matrix whose upper triangle in row-major order is that vector; so extracting the triangle gives the vector back and every symmetric matrix is recovered.", "quantifier": "all n, all vectors", "why_tests_cant": "quantifies over all sizes; int(sqrt) rounding", "anchors": ["utils.py: upper_to_full"]}
{"id": "C37", "title": "ensure_posdef leaves positive definite input untouched and otherwise makes it positive definite", "statement": "For every symmetric matrix the result is positive definite, off-diagonal entries are unchanged, and a matrix that already passes the test is unchanged.", "quantifier": "all symmetric matrices, any dimension", "why_tests_cant": "diagonal dominance theorem for all matrices", "anchors": ["utils.py: ensure_posdef"]}
{"id": "C38", "title": "normalize_matrix gives unit diagonal and preserves symmetry and definiteness", "statement": "For every matrix with positive diagonal, the diagonal becomes 1; symmetric stays symmetric, PD stays PD; idempotent.", "quantifier": "all matrices", "why_tests_cant": "universal", "anchors": ["utils.py: normalize_matrix"]}
{"id": "C39", "title": "build_adjacency_matrix yields symmetric graphs with the documented support", "statement": "For every family of per-node coefficient vectors the result is symmetric with unit diagonal; 'intersection' keeps an edge iff both directions are nonzero and gives the mean weight (zero if they cancel). 'union' is expected to keep an edge iff one direction is nonzero and to average the two weights. Settled: refuted. The average is taken inside the loop, so the weight is half the later coefficient plus a quarter of the earlier one: an edge found by both regressions can vanish, and equal weights w give 3w/4. With coefficients of one sign the support is right.", "quantifier": "all families of vectors, all sizes", "why_tests_cant": "loop invariant; cancellation cases are measure zero", "anchors": ["generalized_linear_model/base.py: build_adjacency_matrix"]}
{"id": "C40", "title": "The Ising gradient uses every sample", "statement": "Expected: the Ising fit depends on every sample, and its step direction is the gradient of the pseudo-likelihood over all samples. Settled: refuted: the estimate of IsingGraphicalModel is the same for any two data sets with the same first sample and size; there is a data set with no association whose optimum is the empty network, from which the fit moves away. For one sample the direction is the gradient (along symmetric directions).", "quantifier": "all data", "why_tests_cant": "needs derivative for all data", "anchors": ["generalized_linear_model/glm_ising.py: _gradient_ising, loss"]}
{"id": "C41", "title": "Iterates of the Ising fit are symmetric with zero diagonal", "statement": "Starting from the default or any symmetric zero-diagonal warm start, every theta in the history is symmetric with zero diagonal, so the loss is always finite.", "quantifier": "all data, steps, iteration counts", "why_tests_cant": "invariant over all iterates", "anchors": ["generalized_linear_model/glm_ising.py: _fit"]}
{"id": "C42", "title": "The NIW posterior is order independent and incremental", "statement": "Updating the normal-inverse-Wishart prior with one batch and then another gives the same parameters as updating once with the concatenation, for any split and any order of samples.", "quantifier": "all data sets, splits and priors", "why_tests_cant": "algebraic identity over all data", "anchors": ["bayesian/wishart_distribution_.py lines 202-229"]}
{"id": "C43", "title": "Elliptical slice sampling never leaves its bracket and only accepts states above the slice", "statement": "For every likelihood function and every stream of random numbers, the shrinking bracket always contains angle 0, every proposal angle lies in the bracket, and the returned state, when returned, has log-likelihood above the slice threshold.", "quantifier": "all likelihoods, all random streams", "why_tests_cant": "quantifies over randomness", "anchors": ["bayesian/sampling.py"]}
{"id": "C44", "title": "Ising sampling respects constraints and the response set", "statement": "For every random stream, every state visited by the Metropolis-Hastings sampler has all its entries in the response set and respects the fixed entries; and the coupling-from-the-past bounds bracket the true conditional probability.", "quantifier": "all streams, graphs", "why_tests_cant": "quantifies over randomness", "anchors": ["datasets/ising.py"]}
{"id": "C45", "title": "flatten, compose and filename helpers", "statement": "flatten returns the leaves left to right, is idempotent and distributes over concatenation; compose applies right to left and is associative; _ensure_filename_ending returns a name ending in one of the extensions and is idempotent.", "quantifier": "all nested lists, function lists, strings", "why_tests_cant": "inductive structures", "anchors": ["utils.py: flatten, compose, _ensure_filename_ending"]}
{"id": "C46", "title": "threshold clamps exactly the out-of-range entries", "statement": "threshold(a, lo, hi, newval) changes exactly the entries below lo or above hi, to newval; it never modifies its input; applying it twice with newval in [lo, hi] is the same as once.", "quantifier": "all arrays and bounds incl. None", "why_tests_cant": "universal", "anchors": ["utils.py: threshold"]}
{"id": "C47", "title": "Graph representative and distance used for clustering", "statement": "get_representative is the intersection of supports; compute_distances is half the symmetric-difference size, hence symmetric, zero iff same support, and satisfies the triangle inequality.", "quantifier": "all lists of graphs", "why_tests_cant": "universal; triangle inequality", "anchors": ["clustering.py: get_representative, compute_distances"]}
{"id": "C48", "title": "Model selection scores count edges", "statement": "BIC penalises by the number of nonzero off-diagonal entries when the diagonal is nonzero; adding an entry to the support with the same likelihood lowers BIC by one; EBIC is never above the plain likelihood for n >= 1, p >= 1 and a nonzero diagonal.", "quantifier": "all matrices", "why_tests_cant": "universal", "anchors": ["scores.py"]}
{"id": "C49", "title": "Discriminant analysis priors are a probability distribution", "statement": "The class priors computed by fit are positive, sum to one and are the class frequencies for every labelled data set, and are unaffected by row order. Expected also for priors given by the user (documented as \"sum to 1\"); settled: refuted, they are stored unchecked.", "quantifier": "all labelled data", "why_tests_cant": "universal", "anchors": ["discriminant_analysis.py: fit"]}
{"id": "C50", "title": "Group averaging in overlapping group lasso is the projection onto the consensus space", "statement": "The D and P* helpers average the copies of each variable; the average is the least-squares consensus.", "quantifier": "all groups and vectors", "why_tests_cant": "universal", "anchors": ["linear_model/group_lasso_overlap_.py"]}
{"id": "C51", "title": "Forward-backward line search returns an acceptable step", "statement": "choose_gamma returns the first of gamma, gamma*eps, gamma*eps^2, ... that satisfies the sufficient decrease condition, together with the proximal point of that step; it is positive and not larger than the initial one. At a positive definite point a large enough budget suffices. If the budget is exhausted it returns gamma*eps^max_iter with the proximal point of gamma*eps^(max_iter-1): the point is then not that of the step length returned (refuted).", "quantifier": "all data, all budgets", "why_tests_cant": "unbounded loop over all inputs", "anchors": ["forward_backward/forward_backward.py: choose_gamma"]}
{"id": "C52", "title": "convert_data_to_2d is faithful", "statement": "Stacking then splitting by label gives back the list of matrices, for lists of equal-length matrices.", "quantifier": "all lists", "why_tests_cant": "universal", "anchors": ["utils.py: convert_data_to_2d"]}
{"id": "C53", "title": "Evolution of the generated precision matrices", "statement": "Expected: along the evolution every precision, and its difference with the latent part, is symmetric positive definite. Settled: for every stream, at every time the precision is symmetric and the latent part is K^T K of rank n_dim_lat; with update_theta='l1' the precision is non-negative positive definite and at most 'no' pairs change between two times, to 0, 0.12 or 0.06; update_ell='fixed' keeps the latent part; the observed precision is positive definite at the first time. Refuted for the observed precision at later times. With one variable the evolution never succeeds.", "quantifier": "all random streams, sizes, numbers of times", "why_tests_cant": "quantifies over randomness", "anchors": ["datasets/gaussian.py: make_covariance, _update_theta_l1, _update_theta_l2, _update_ell_l2"]}
{"id": "C54", "title": "Enumeration of undirected graphs is complete and without repetition", "statement": "The graph enumerator returns 2^(n(n-1)/2) pairwise distinct symmetric 0/1 matrices without self-loops, and every such graph appears.", "quantifier": "all n", "why_tests_cant": "exponential in n", "anchors": ["bayesian/gwishart_inference.py"]}
{"id": "C55", "title": "error_norm is a distance between matrices", "statement": "For all matrices and all scaling/squared/upper_triangular flags (Frobenius norm), error_norm is non-negative, symmetric in its two arguments, and zero exactly when the compared entries agree; its value is the sum of squared differences, divided by the number of features when scaling, square-rooted when squared is False.", "quantifier": "all matrices, all flag combinations", "why_tests_cant": "universal over matrices", "anchors": ["utils.py: error_norm"]}
{"id": "C56", "title": "error_norm(nonzero=True) compares the nonzero entries", "statement": "Expected: with nonzero=True the error is restricted to entries where the reference is nonzero. Settled: refuted. It is restricted to entries where the reference is zero, so any estimate with the right zeros has error 0 however wrong its nonzero entries are.", "quantifier": "all matrices", "why_tests_cant": "a statement about every pair of matrices", "anchors": ["utils.py: error_norm"]}
{"id": "C57", "title": "The Matthews correlation reported by structure_error sees every edge", "statement": "Expected: mcc, like the other scores, treats every nonzero entry as an edge. Settled: refuted. Labels are x > 0, so negative edges (the usual sign in precision matrices) count as absent: when no upper entry is positive the score is that of two empty graphs.", "quantifier": "all matrices", "why_tests_cant": "sign dependent, for every pair of matrices", "anchors": ["utils.py: structure_error"]}
{"id": "C58", "title": "mean_structure_error averages structure_error", "statement": "Expected: mean_structure_error(true, preds) returns the averaged scores. Settled: refuted. It raises KeyError('mcc') for every non-empty list for which structure_error returns.", "quantifier": "all inputs", "why_tests_cant": "must fail for every input", "anchors": ["utils.py: mean_structure_error"]}
{"id": "C59", "title": "The clustering similarity kernel is positive semidefinite", "statement": "For every table of non-negative distances whose rows are not identically zero, the kernel built from it has finite entries in [0, number of representatives - 1] and is symmetric positive semidefinite; a row of zero distances makes its entries NaN.", "quantifier": "all distance tables", "why_tests_cant": "positive semidefiniteness for all tables", "anchors": ["clustering.py: kernel computation"]}
{"id": "C60", "title": "G-StARS selects inside its instability window", "statement": "For every sequence of instabilities, upper bounds and graphlet instabilities, the selected candidate lies between the last candidate whose recorded upper bound is within 0.05 and the last whose recorded instability is, and has the smallest graphlet instability there (first one on ties); the window is well formed whenever the upper bounds dominate the instabilities.", "quantifier": "all sequences", "why_tests_cant": "quantifies over all sequences", "anchors": ["model_selection/stability_optimization.py: _format_results"]}
{"id": "C61", "title": "The instability upper bound dominates the instability", "statement": "For every non-empty list of estimators with at least two variables, upper_bound is between twice the instability and 1, and does not depend on the order of the estimators.", "quantifier": "all lists of estimators", "why_tests_cant": "quantifies over all lists", "anchors": ["model_selection/stability_optimization.py: upper_bound, global_instability"]}
{"id": "C62", "title": "EBIC penalises more than BIC, and EBIC_m more than EBIC", "statement": "Expected (docstrings): EBIC <= BIC and EBIC_m <= EBIC. Settled: refuted. With the default n and epsilon EBIC is strictly above BIC for every graph with an edge and at most 40 variables; EBIC_m <= EBIC holds for 3 or more variables, is reversed for 2 and NaN for 1.", "quantifier": "all matrices", "why_tests_cant": "a comparison over all matrices", "anchors": ["scores.py: BIC, EBIC, EBIC_m"]}
{"id": "C63", "title": "kernel_time_graphical_lasso stationary points are exactly the minimisers", "statement": "For every T, covariances, sample counts, kernel non-negative above the diagonal and convex psi with exact prox: a state that an iteration leaves unchanged holds a minimiser of sum n_t (tr(S_t K_t) - log det K_t) + alpha sum ||K_t||_1 + sum_{s<t} kernel[s,t] psi(K_t - K_s), and every minimiser is such a state. For the documented objective (off-diagonal l1) it is refuted: with alpha > 0 no stationary point minimises it.", "quantifier": "all T, covariances, kernels, penalties, rho", "why_tests_cant": "optimality against all competitors", "anchors": ["kernel_time_graphical_lasso_.py: kernel_time_graphical_lasso"]}
{"id": "C64", "title": "kernel_time_graphical_lasso structure", "statement": "Every K_t iterate is positive definite, the consensus and dual variables are symmetric at every iteration, and the returned precision is symmetric.", "quantifier": "all runs", "why_tests_cant": "invariant over all iterates", "anchors": ["kernel_time_graphical_lasso_.py: kernel_time_graphical_lasso"]}
{"id": "C65", "title": "kernel_time_graphical_lasso stops", "statement": "With the step-size adaptation disabled and a positive tolerance, whenever the problem has a minimiser (always, if the covariances are positive semidefinite, alpha > 0 and psi is non-negative) there is a number of iterations after which every run stops by its residual test without a warning.", "quantifier": "all inputs and starting points", "why_tests_cant": "termination is a liveness claim", "anchors": ["kernel_time_graphical_lasso_.py: kernel_time_graphical_lasso"]}
{"id": "C66", "title": "Without a kernel the times are estimated independently", "statement": "With kernel=None (the default: identity) each slice of a stationary state minimises its own single-time problem: the temporal penalty has no effect at all.", "quantifier": "all T and inputs", "why_tests_cant": "optimality against all competitors", "anchors": ["kernel_time_graphical_lasso_.py lines 141-142, 208-214"]}
{"id": "C67", "title": "Only the part of the kernel above the diagonal matters", "statement": "Two kernels which agree above the diagonal give the same result, history, count and warning, for every input; symmetry of the kernel is never used.", "quantifier": "all kernels and runs", "why_tests_cant": "relational over unbounded runs", "anchors": ["kernel_time_graphical_lasso_.py: kernel_time_graphical_lasso, objective"]}
{"id": "C68", "title": "The estimate a solver converges to is unique", "statement": "For graphical_lasso, time_graphical_lasso and kernel_time_graphical_lasso: any two stationary states of the same problem hold the same precision, whatever rho, the starting point, the eigendecomposition and the implementation of the exact prox.", "quantifier": "all inputs, rho, starting points", "why_tests_cant": "uniqueness over all states", "anchors": ["graphical_lasso_.py", "time_graphical_lasso_.py", "kernel_time_graphical_lasso_.py"]}
{"id": "C69", "title": "Stationary states of latent_time_graphical_lasso are its minimisers", "statement": "For convex psi, phi with exact prox and non-negative alpha, tau, beta, eta: a state left unchanged by one iteration holds a precision K and a latent part L which minimise sum_t n_t(tr(S_t(K_t-L_t)) - log det(K_t-L_t)) + alpha*sum|K_t| + tau*sum tr L_t + beta*sum psi(K_t - K_(t-1)) + eta*sum phi(L_t - L_(t-1)) over L_t PSD, K_t - L_t PD; conversely every minimiser is held by some stationary state.", "quantifier": "all n, T, S, n_samples, psi, phi, parameters, rho", "why_tests_cant": "optimality against all competitors and existence of multipliers", "anchors": ["covariance/latent_time_graphical_lasso_.py: latent_time_graphical_lasso"]}
{"id": "C70", "title": "Stationary states of kernel_latent_time_graphical_lasso are its minimisers", "statement": "As C69 with the couplings sum over s<t of kernel_psi[s,t]*psi(K_t-K_s) and kernel_phi[s,t]*phi(L_t-L_s), for all kernels non-negative above the diagonal.", "quantifier": "all n, T, S, kernels, psi, phi, rho", "why_tests_cant": "optimality against all competitors and existence of multipliers", "anchors": ["covariance/kernel_latent_time_graphical_lasso_.py: kernel_latent_time_graphical_lasso"]}
{"id": "C71", "title": "Stationary states of latent_time_matrix_decomposition are its minimisers", "statement": "As C69 with the loss sum_t ||S_t - (K_t - L_t)||_F^2 over symmetric K_t - L_t.", "quantifier": "all n, T, S, psi, phi, parameters, rho", "why_tests_cant": "optimality against all competitors and existence of multipliers", "anchors": ["covariance/latent_time_matrix_decomposition.py: latent_time_matrix_decomposition"]}
{"id": "C72", "title": "The observed-variable estimate of the latent time solvers is unique", "statement": "Any two stationary states of the same problem (any rho, start, eigendecomposition, implementation of the exact prox) have the same K - L, for the three latent time-varying solvers.", "quantifier": "all inputs, rho, starting points", "why_tests_cant": "uniqueness over all states", "anchors": ["covariance/latent_time_graphical_lasso_.py", "covariance/kernel_latent_time_graphical_lasso_.py", "covariance/latent_time_matrix_decomposition.py"]}
{"id": "C73", "title": "The latent time solvers minimise their documented objective (off-diagonal penalty)", "statement": "Expected: a stationary state minimises the documented objective, in which only off-diagonal entries of K are penalised. Settled: refuted for all three solvers whenever alpha > 0 (for the matrix decomposition wherever the estimate has a positive diagonal), because they soft-threshold the diagonal too.", "quantifier": "all inputs with alpha > 0", "why_tests_cant": "every stationary state of every input fails", "anchors": ["covariance/latent_time_graphical_lasso_.py line 187", "covariance/kernel_latent_time_graphical_lasso_.py line 201", "covariance/latent_time_matrix_decomposition.py line 154"]}
{"id": "C74", "title": "fit returns a well-formed estimate for every data set", "statement": "For every data set with at least two columns and one (GraphicalLasso: two) rows, fit returns one symmetric precision per class (GraphicalLasso: with positive diagonal, over_relax = 1), without any assumption on the data; it raises ValueError exactly on an empty data set or a single column.", "quantifier": "all data sets, labels, parameters with positive rho", "why_tests_cant": "composition of covariance estimation and an unbounded iteration, over all data", "anchors": ["covariance/graphical_lasso_.py: GraphicalLasso.fit", "covariance/time_graphical_lasso_.py: TimeGraphicalLasso.fit"]}
{"id": "C75", "title": "score is the Gaussian log-likelihood of the test rows", "statement": "Whenever the fitted precisions are positive definite, score(X, y) equals the sum over the test rows of twice the Gaussian log-density (mean location_, precision precision_ of the row's class) plus n*log(2 pi); rows of classes unseen in fit are ignored; row order is irrelevant; it raises exactly when the test set is empty or lacks a fitted class.", "quantifier": "all fitted models and test sets", "why_tests_cant": "equality with a row-wise specification over all data", "anchors": ["covariance/time_graphical_lasso_.py: TimeGraphicalLasso.score, log_likelihood"]}
{"id": "C76", "title": "covariance_ is the inverse of precision_", "statement": "Expected: for every solver, covariance_ is the inverse of precision_ when the latter is invertible. Settled: proved for latent_graphical_lasso, time_graphical_lasso and kernel_time_graphical_lasso; refuted for graphical_lasso, which returns the empirical covariance: at no stationary point with alpha > 0 of a problem with a correlated pair of variables is it the inverse of the precision.", "quantifier": "all inputs", "why_tests_cant": "equation over all inputs; refutation covers every stationary point", "anchors": ["covariance/graphical_lasso_.py line 198", "covariance/latent_graphical_lasso_.py line 176", "covariance/time_graphical_lasso_.py line 295", "covariance/kernel_time_graphical_lasso_.py line 309"]}
{"id": "C77", "title": "Changing the penalty rho never moves a stationary estimate", "statement": "From a stationary state of graphical_lasso, time_graphical_lasso or kernel_time_graphical_lasso, whatever sequence of rho updates the residuals trigger, every later iterate is the same estimate and stays stationary (the dual variables are rescaled consistently).", "quantifier": "all inputs, rho options, numbers of iterations", "why_tests_cant": "all schedules of penalty updates", "anchors": ["update_rules.py: update_rho", "covariance/graphical_lasso_.py lines 186-194", "covariance/time_graphical_lasso_.py lines 283-291", "covariance/kernel_time_graphical_lasso_.py"]}
{"id": "C78", "title": "IsingGraphicalModel.fit terminates by its tolerance and its objective never increases", "statement": "With |X[0,j]| <= 1 and gamma * sum_j X[0,j]^2 <= n, fit ends by the tolerance test within an explicit number of iterations, whatever the data; for one sample every recorded objective is the penalised likelihood of its iterate and the sequence never increases; a penalty alpha >= |X[0,i] X[0,j]| / n for all pairs returns the empty network.", "quantifier": "all data, penalties, tolerances, step sizes", "why_tests_cant": "termination and monotonicity over all iterations and inputs", "anchors": ["generalized_linear_model/glm_ising.py: _fit, IsingGraphicalModel.fit"]}
{"id": "C79", "title": "The Poisson node-wise fit returns, never increases its objective, and stops only at minimisers when nothing moves", "statement": "Without coupling matrix: for all data the unbounded line search accepts a step, so the fit returns; the penalised likelihood never increases; an iteration that changes nothing is at a minimiser. With a coupling matrix (as called by the temporal model) the claim of termination is refuted: there are inputs on which the line search rejects every step size and the call never returns.", "quantifier": "all data, variables, step-size factors in (0,1)", "why_tests_cant": "termination of an unbounded loop for all inputs", "anchors": ["generalized_linear_model/glm_poisson.py: fit_each_variable"]}
{"id": "C80", "title": "The Gaussian node-wise fit converges", "statement": "If gamma * ||X_rest||_F^2 / n <= 2 the recorded objective (lasso cost up to a constant) never increases; if <= 1 the fit ends by its tolerance within an explicit number of iterations, with an explicit bound on the excess cost over every other coefficient vector; a step changes nothing exactly at a minimiser. For data that is not scaled the claim is refuted: with the step size the estimator uses, one sample (1, 100) drives the coefficient above 0.09*7^999.", "quantifier": "all data, penalties, step sizes, iteration counts", "why_tests_cant": "all iterations, all competitors; divergence over 1000 iterations", "anchors": ["generalized_linear_model/glm_gaussian.py: fit_each_variable, Gaussian_GLM_GM.fit"]}
{"id": "C81", "title": "The arguments of the Gaussian graphical model have an effect", "statement": "Expected: gamma of fit, tol, rtol and max_iter of the constructor influence the fit. Settled: refuted: two estimators with the same alpha and reconstruction return the same precision for every data set, whatever these arguments are.", "quantifier": "all data sets and arguments", "why_tests_cant": "equality for all inputs", "anchors": ["generalized_linear_model/glm_gaussian.py: Gaussian_GLM_GM.fit"]}
{"id": "C83", "title": "The Gaussian and Poisson step directions are gradients of the loss over all samples", "statement": "For all data and coefficients, the direction used by the Gaussian and Poisson node-wise solvers is the gradient of their (least squares, Poisson negative log-likelihood) loss.", "quantifier": "all data, variables and coefficients", "why_tests_cant": "derivative statement over all points and directions", "anchors": ["generalized_linear_model/glm_gaussian.py: fit_each_variable", "generalized_linear_model/glm_poisson.py: fit_each_variable"]}
{"id": "C82", "title": "The temporal Ising model fits what it documents", "statement": "Every matrix the temporal Ising fit returns is symmetric with zero diagonal. Expected further: the fit uses every sample; the recorded objective is minus the log-likelihoods plus penalties; without temporal coupling the result is the fit of each time. Settled: all three refuted: only the first sample of each time matters, the recorded objective has the likelihood with the wrong sign, and with one time point and the default kernel the result differs from the Ising fit (an additional ridge of strength rho).", "quantifier": "all data, penalties, step sizes, kernels, iteration counts", "why_tests_cant": "all inputs; equality of results for all data sets that agree on the first samples", "anchors": ["generalized_linear_model/glm_time_ising.py: _fit_time_ising_model, objective, loss_ising"]}
{"id": "C84", "title": "The reported modes are the modes", "statement": "The matrix returned by mode() of the Wishart and inverse-Wishart distributions, and the pair returned by mode() of the normal-inverse-Wishart distribution, is valid (positive definite) and gives a strictly larger value of the same object's log_likelihood than any other positive definite argument.", "quantifier": "all dimensions, degrees of freedom where the mode exists, scale matrices and arguments", "why_tests_cant": "optimality over a continuum of matrices", "anchors": ["bayesian/wishart_distribution_.py lines 54-116, 164-189"]}
{"id": "C85", "title": "A posterior is a usable distribution", "statement": "Expected: the object returned by posterior() can be evaluated and sampled like the prior. Settled: refuted. posterior() stores its location as a (1, D) array, and with two or more variables both log_likelihood and sample then raise ValueError, for every prior and data set.", "quantifier": "all priors, data sets, arguments", "why_tests_cant": "universal over data", "anchors": ["bayesian/wishart_distribution_.py lines 152-229"]}
{"id": "C86", "title": "The slice level is the documented one", "statement": "Expected: elliptical slice sampling leaves prior times likelihood invariant, which needs the slice level log u + current log-likelihood. Settled: refuted. The level uses 0.001 log u: a proposal is accepted on the first try exactly when u < (l'/l)^1000, so the likelihood sampled is the 1000th power of the given one.", "quantifier": "all likelihoods, states, random streams", "why_tests_cant": "about acceptance for all random numbers", "anchors": ["bayesian/sampling.py: elliptical_slice line 107"]}
{"id": "C87", "title": "The Metropolis-Hastings updates leave their target invariant", "statement": "The updates of the kernel width and of each element of the Cholesky factor satisfy detailed balance for the posterior density given by the likelihood and priors, for the proposal densities used; the lognormal proposal has the requested mean and variance.", "quantifier": "all target densities, proposals, random numbers", "why_tests_cant": "quantifies over densities and randomness", "anchors": ["bayesian/sampling.py: sample_hyper_kernel, _sample_ell_comp", "bayesian/stats.py: lognstat"]}
{"id": "C88", "title": "Wishart process estimates are covariances and the best retained sample", "statement": "For every random stream, fit returns symmetric positive semidefinite matrices for every time without failing, whenever the burn-in is shorter than the run; with a given factor they are those of the retained sample with the largest log-likelihood; predict returns covariances and reproduces the fitted ones at the training times.", "quantifier": "all data, streams, run lengths", "why_tests_cant": "quantifies over randomness and run length", "anchors": ["bayesian/wishart_process_.py"]}
{"id": "C89", "title": "The learnt factor returned belongs to the returned sample", "statement": "Expected: with learn_ell=True, Lmap, u_map and D_map come from the retained sample with the largest log-likelihood. Settled: refuted. Every entry of the list of factors is the same array, so Lmap is the factor of the last iteration and D_map can have a lower log-likelihood than the best sample.", "quantifier": "all runs", "why_tests_cant": "aliasing over a whole run", "anchors": ["bayesian/wishart_process_.py lines 102-163"]}
{"id": "C90", "title": "The slice sampler explores the space of functions", "statement": "Expected: each slice update combines the state with a fresh prior draw. Settled: refuted. fit passes the same prior draw every time, so every sample is that draw times one number, for every time and entry, until the kernel width is changed.", "quantifier": "all runs", "why_tests_cant": "invariant over whole runs", "anchors": ["bayesian/wishart_process_.py: fit"]}
{"id": "C91", "title": "The precision estimated by a Wishart process inverts the covariance", "statement": "Expected: covariance_ is invertible. Settled: refuted. WishartProcess uses one degree of freedom, so with two or more variables every estimated covariance is singular.", "quantifier": "all data and runs", "why_tests_cant": "holds for every run", "anchors": ["bayesian/wishart_process_.py line 305"]}
{"id": "C92", "title": "The Wishart process score is a log-likelihood", "statement": "Expected: score is the Gaussian log-likelihood of the data. Settled: refuted. With n samples at each time it is n times the log-likelihood.", "quantifier": "all data sets and covariances", "why_tests_cant": "universal", "anchors": ["bayesian/stats.py: t_mvn_logpdf", "bayesian/wishart_process_.py: score"]}
{"id": "C93", "title": "Markov blankets and the graphs sampled from them", "statement": "The blankets returned are exactly the neighbourhoods (entries at least tol in absolute value, variable itself excluded) in the given precision matrices; every graph drawn from them is undirected and has an edge only if some input matrix has it seen from each end; the mask used afterwards is upper triangular with the full diagonal; the blanket probabilities are positive and sum to one.", "quantifier": "all lists of matrices, all tolerances > 0, all random choices", "why_tests_cant": "quantifies over randomness and all inputs", "anchors": ["bayesian/gwishart_inference.py: markov_blankets, score_blankets, _get_graphs"]}
{"id": "C94", "title": "Maximum likelihood given a graph", "statement": "The precision built from the optimiser's vector is symmetric with zeros outside the graph; the objective is the negative Gaussian log-likelihood and the returned gradient is its gradient; where the gradient vanishes at a positive definite matrix, the inverse agrees with the covariance on the graph and the matrix is the only maximiser of the likelihood among precisions with that graph; with C = (S+S0)/(dn-2) it is the mode of the G-Wishart posterior.", "quantifier": "all graphs, covariances and vectors", "why_tests_cant": "optimality quantifies over all matrices", "anchors": ["bayesian/gwishart_inference.py: covsel, precision_selection, GWishartFit"]}
{"id": "C95", "title": "The objective given to the optimiser is bounded below", "statement": "Expected: the covariance-selection objective is bounded below over the vectors the optimiser may visit when the covariance is positive definite. Settled: refuted. Positive determinant is the only test made, so for an even number of variables the objective tends to minus infinity along negative definite matrices.", "quantifier": "all masks with the diagonal, all covariances of positive trace, all bounds", "why_tests_cant": "unbounded below is a statement about all bounds", "anchors": ["bayesian/gwishart_inference.py: covsel"]}
{"id": "C96", "title": "Hessian of the Laplace approximation", "statement": "The negated matrix given to Cholesky is positive definite for every positive definite precision and dn > 2, so the factorisation never fails, and diaglaplace uses exactly its diagonal. first_derivative_h is the derivative of the concave log density h. Expected also: the matrix is the Hessian of the log density in the free parameters. Settled: refuted; rows and columns of the diagonal parameters are multiplied by two.", "quantifier": "all precisions, graphs, dn > 2", "why_tests_cant": "universal over matrices of every size", "anchors": ["bayesian/gwishart_inference.py: compute_score", "bayesian/_laplace_approximation.py"]}
{"id": "C97", "title": "Default prior of the graph score", "statement": "Expected: GWishartScore can be called without S0. Settled: refuted. The default scale is computed with rows as variables, so it is n_samples x n_samples and the call raises ValueError unless n_samples = n_dim; a given S0 is accepted exactly when it is n_dim x n_dim.", "quantifier": "all sample sizes and dimensions", "why_tests_cant": "every pair of sizes", "anchors": ["bayesian/gwishart_inference.py: GWishartScore, GWishartFit"]}
{"id": "C98", "title": "bayesian_graphical_lasso averages the top_n best", "statement": "The result is the mean of min(top_n, number of results) precision matrices such that no excluded one has a higher score; it is positive definite if all are, and zero wherever all are.", "quantifier": "all result lists, all top_n", "why_tests_cant": "universal", "anchors": ["bayesian/gwishart_inference.py: bayesian_graphical_lasso"]}
{"id": "C99", "title": "What the graph scores compute", "statement": "bic is the log-likelihood of the sample (about its mean) minus dof/2 log n. At the posterior mode the Laplace constant (full and diagonal) equals Laplace's approximation of the log normalising constant plus (dn-2)p - p log 2, a number that does not depend on the graph, so graphs are ranked as by the exact formula.", "quantifier": "all graphs, precisions, samples", "why_tests_cant": "universal over graphs and matrices", "anchors": ["bayesian/gwishart_inference.py: compute_score"]}
{"id": "C100", "title": "When the covariance solvers stop and when they warn", "statement": "For each of the eight covariance solvers modelled (infimal_convolution included), the returned history (without the initial entry of the time-varying solvers) has no entry before the last that satisfies the stopping rule, and a ConvergenceWarning is emitted exactly when no iteration satisfies it, after max_iter iterations. The rule: both residuals within their tolerances, or an infinite objective (latent_graphical_lasso), or an objective within a relative stop_when of stop_at (time-varying solvers).", "quantifier": "all inputs and parameters", "why_tests_cant": "depends on where each run stops", "anchors": ["covariance/*.py"]}
{"id": "C101", "title": "The estimation problems have solutions and the solvers have resting states", "statement": "For a positive semidefinite empirical covariance and a positive sparsity weight the problem solved by each covariance solver has a minimiser (graphical_lasso needs positive empirical variances, and with a zero variance there is none); hence for each latent solver there is a state that an iteration leaves unchanged.", "quantifier": "all covariances, sizes, numbers of times, weights, convex non-negative temporal penalties", "why_tests_cant": "existence of a minimum over all matrices", "anchors": ["covariance/graphical_lasso_.py", "covariance/latent_graphical_lasso_.py", "covariance/time_graphical_lasso_.py", "covariance/kernel_time_graphical_lasso_.py", "covariance/latent_time_graphical_lasso_.py", "covariance/kernel_latent_time_graphical_lasso_.py", "covariance/latent_time_matrix_decomposition_.py"]}
{"id": "C102", "title": "lasso: steps and resting states", "statement": "The x-step of lasso is the exact minimiser of its subproblem in both branches (more samples than features or fewer); the states that an iteration leaves unchanged are exactly the solutions of 1/2|Ax-b|^2 + lamda |x|_1, which exist for lamda > 0.", "quantifier": "all A, b, lamda, rho, alpha != 0", "why_tests_cant": "optimality quantifies over all coefficient vectors", "anchors": ["linear_model/lasso_.py: lasso"]}
{"id": "C103", "title": "lasso stops, with a certificate", "statement": "With alpha = 1, lamda, rho, tol > 0 there is a number of iterations after which every larger max_iter gives the same result, whose residuals are within tolerance; at any stop, the recorded objective exceeds the value of any coefficients y by at most lamda sqrt(n) r + s (|y - z| + r), r and s being the recorded residuals.", "quantifier": "all data, all budgets, all competitors y", "why_tests_cant": "termination and optimality bounds are universal", "anchors": ["linear_model/lasso_.py: lasso"]}
{"id": "C104", "title": "What lasso returns", "statement": "Expected: the coefficients, or with return_history=True the coefficients and the list of the entries of all iterations. Settled: refuted. lasso always returns a pair: the coefficients twice, or the coefficients and the entry of the last iteration only; with max_iter=0 and return_history=True it raises UnboundLocalError.", "quantifier": "all inputs", "why_tests_cant": "every call", "anchors": ["linear_model/lasso_.py: lasso"]}
{"id": "C105", "title": "group_lasso solves the group lasso", "statement": "Expected: resting states of group_lasso minimise 1/2|Ax-b|^2 + lamda sum_g |x_g|_2. Settled: refuted. The threshold is applied entry by entry: the resting states minimise the lasso objective whatever the groups, and on a 2-variable example every run returns an estimate that is not optimal.", "quantifier": "all data and groups; all budgets and tolerances for the counterexample", "why_tests_cant": "optimality over all coefficient vectors", "anchors": ["linear_model/group_lasso_.py: group_lasso"]}
{"id": "C106", "title": "group_lasso's stopping rule", "statement": "Expected: the recorded dual residual measures the change of z, so that a stop means proximity to a solution. Settled: refuted. zold aliases z, the recorded dual residual is always 0; when lamda < tol * rho the loop stops after one iteration, and the estimate may be worse than another by any amount.", "quantifier": "all data, all M", "why_tests_cant": "universal over data and histories", "anchors": ["linear_model/group_lasso_.py: group_lasso"]}
{"id": "C107", "title": "The groups group_lasso accepts", "statement": "Expected: exactly the partitions of the features. Settled: refuted. From 2 to 10^5 features it accepts exactly the lists of groups that read 0..n-1 in order: other partitions are rejected; above 10^5 features, or with 1 feature, some lists that are not partitions are accepted.", "quantifier": "all numbers of features and groups", "why_tests_cant": "universal over group lists", "anchors": ["linear_model/group_lasso_.py: group_lasso"]}
{"id": "C108", "title": "group_lasso_overlap solves the overlapping group lasso", "statement": "Expected: resting states minimise 1/2|Ax-b|^2 + lamda sum_g |x_g|_2. Settled: refuted. In every reachable state the local copies of a variable agree; the resting states minimise the problem with sum_g |x_g|_1, and on a 2-variable example every run of at least 3 iterations returns an estimate that is not optimal.", "quantifier": "all data and groups, all iterations", "why_tests_cant": "optimality over all coefficient vectors", "anchors": ["linear_model/group_lasso_overlap_.py: group_lasso_overlap"]}
{"id": "C109", "title": "group_lasso_overlap's stopping rule and counts", "statement": "It stops at the first twelve consecutive iterations whose residuals are within tolerance, or after max_iter; the history has one entry for each iteration, one more than the returned index; max_iter=0 raises UnboundLocalError.", "quantifier": "all inputs and budgets", "why_tests_cant": "depends on where each run stops", "anchors": ["linear_model/group_lasso_overlap_.py: group_lasso_overlap"]}
{"id": "C110", "title": "Dropping features that are in no group", "statement": "After _remove_unused_features, each group selects the same columns as before from the reduced data, every kept column is in a group, and each used column is kept once.", "quantifier": "all data and groups", "why_tests_cant": "universal over group lists", "anchors": ["linear_model/group_lasso_overlap_.py: _remove_unused_features"]}
{"id": "C111", "title": "choose_lamda: which relaxation is returned", "statement": "choose_lamda returns the first of lamda, lamda*eps, lamda*eps^2, ... that meets the criterion given ('a', 'b' or 'c'), with the number of values tried, or lamda*eps^max_iter after max_iter failures; another criterion raises ValueError, max_iter=0 UnboundLocalError. With criterion 'b' a success leaves every time's matrix positive definite.", "quantifier": "all points, functions, budgets, criteria", "why_tests_cant": "loop over all inputs", "anchors": ["forward_backward/forward_backward.py: choose_lamda"]}
{"id": "C112", "title": "Objective, gradient and proximal step of the forward-backward solver match the problem", "statement": "On positive definite matrices the recorded objective is the documented problem (log-likelihood, off-diagonal l1, temporal l1 or Laplacian, vareps/2 |K|^2); the gradient used is the gradient of its smooth part, with a remainder between 0 and L |H|^2; the proximal step is the exact minimiser of the penalty plus the quadratic.", "quantifier": "all data, sizes, numbers of times, both penalties", "why_tests_cant": "identities over all matrices", "anchors": ["forward_backward/time_graphical_lasso_.py: loss, grad_loss, loss_laplacian, grad_loss_laplacian, penalty, objective", "forward_backward/forward_backward.py: choose_gamma"]}
{"id": "C113", "title": "The forward-backward solver never increases its objective", "statement": "With choose='gamma', lamda in (0,1], delta and eps in (0,1): as long as the line searches succeed, the objectives recorded in the history are finite and non-increasing.", "quantifier": "all data, initialisations, budgets", "why_tests_cant": "whole histories", "anchors": ["forward_backward/time_graphical_lasso_.py: tgl_forward_backward"]}
{"id": "C114", "title": "The forward-backward solver rests exactly at the optima", "statement": "Started at a minimiser of the problem over positive definite matrices it returns it unchanged, for every budget; conversely if one iteration leaves a positive definite point unchanged, that point is a minimiser.", "quantifier": "all data, step lengths, budgets", "why_tests_cant": "optimality over all matrices", "anchors": ["forward_backward/time_graphical_lasso_.py: tgl_forward_backward"]}
{"id": "C115", "title": "The forward-backward solver returns positive definite precisions", "statement": "Expected: started at positive definite matrices, every precision returned is positive definite. Settled: refuted. The line search tests the value of the loss only, which is finite whenever the determinant is positive: from the identity, with S = 10 I and two variables, every run of any length returns a negative definite matrix at every time. It does hold for choose='fixed' with a small enough step length, and then the value never exceeds that of the start.", "quantifier": "all data, budgets; the counterexample for every number of times and iterations", "why_tests_cant": "invariant of all iterates", "anchors": ["forward_backward/time_graphical_lasso_.py: tgl_forward_backward", "forward_backward/forward_backward.py: choose_gamma"]}
{"id": "C116", "title": "Which calls of tgl_forward_backward return", "statement": "With at least two times and one iteration the call returns exactly when choose is 'gamma' or 'fixed' and n_samples is given: choose='lamda' and choose='both' always raise TypeError (unexpected keyword vareps), and so does the default n_samples=None; a single time always raises; max_iter=0 with return_n_iter raises UnboundLocalError.", "quantifier": "all arguments", "why_tests_cant": "every call", "anchors": ["forward_backward/time_graphical_lasso_.py: tgl_forward_backward"]}
{"id": "C117", "title": "Counts returned by tgl_forward_backward", "statement": "n_iter is the number of iterations performed, at most max_iter; the history has one more entry; a warning is given only when max_iter iterations were performed; the covariance is the pseudo-inverse of the precision at each time; the number of line searches returned is always 0.", "quantifier": "all runs", "why_tests_cant": "every run", "anchors": ["forward_backward/time_graphical_lasso_.py: tgl_forward_backward"]}
{"id": "C118", "title": "Optimality certificate of a forward-backward step", "statement": "If Y is the proximal point of a step of length gamma from a positive definite X, then for every positive definite Z the value at X exceeds the value at Z by at most D + <X-Y, Y-Z>/gamma where D = g(X) - g(Y) - <grad, Y-X> >= |Y-X|^2/gamma.", "quantifier": "all X, Z, step lengths", "why_tests_cant": "quantifies over all competitors", "anchors": ["forward_backward/time_graphical_lasso_.py: tgl_forward_backward"]}
{"id": "C119", "title": "The forward-backward solver converges to the optimal value", "statement": "With vareps > 0: for choose='fixed' and every small enough step length, the value of the returned precision is within e of that of any positive definite Z for all large enough max_iter (debug=True); for choose='gamma' the same holds of the iterates as long as the searches succeed and the iterates stay positive definite.", "quantifier": "all data, initialisations, tolerances, competitors", "why_tests_cant": "limits of runs", "anchors": ["forward_backward/time_graphical_lasso_.py: tgl_forward_backward"]}
{"id": "C120", "title": "The forward-backward solver stops", "statement": "With vareps > 0 and tol > 0: for choose='fixed' and every small enough step length there is a number of iterations beyond which no run warns; for choose='gamma' the same, unless a search fails or an iterate is not positive definite.", "quantifier": "all data, initialisations, budgets", "why_tests_cant": "termination", "anchors": ["forward_backward/time_graphical_lasso_.py: tgl_forward_backward"]}
{"id": "C121", "title": "Metropolis-Hastings sampling converges to the Ising law", "statement": "For every symmetric graph and two distinct responses, the probability that the Metropolis-Hastings sampler returns a configuration differs from its probability under the Ising law (weight exp(beta(sum_i t_i s_i + sum_{i<j} theta_ij s_i s_j))), conditioned on the fixed entries, by at most q^max_iter, for some q < 1 that does not depend on max_iter nor on the configuration.", "quantifier": "all graphs, thresholds, beta, responses, fixed entries, numbers of sweeps", "why_tests_cant": "probabilities over all streams; limit in max_iter", "anchors": ["datasets/ising.py: ising_metropolis_hastings, p_plus"]}
{"id": "C122", "title": "Coupling from the past samples exactly from the Ising law", "statement": "For beta >= 0 and responses with r1(r1-r0) > 0 (such as (-1,1) and (0,1)) and max_iter >= 1, the probability that the loop has ended within K passes with a given configuration is at most its probability under the Ising law and tends to it, and the probability that it has not ended tends to 0, at a geometric rate in K. Refuted for the responses (-1,0). max_chain is ignored: with max_iter=0 it never ends, and some streams of positive length keep it going for any number of passes. exact=False ends after one pass.", "quantifier": "all graphs, thresholds, numbers of sweeps and passes", "why_tests_cant": "probabilities over all streams, unbounded loop", "anchors": ["datasets/ising.py: ising_exact, p_plus_minmax"]}
{"id": "C123", "title": "Direct sampling draws from the Ising law", "statement": "Expected: the rows are drawn from the Ising law. Settled: refuted. The probabilities used are those of the Ising law with the coupling doubled (each pair is counted twice); the rows are drawn without replacement, so that with n = 1024 every state is returned exactly once whatever the graph; every row has 10 entries whatever the number of variables; more than 10 variables raise IndexError, n > 1024 ValueError.", "quantifier": "all graphs, thresholds, responses", "why_tests_cant": "probabilities for all graphs", "anchors": ["datasets/ising.py: direct_sampling, hamiltonian"]}
{"id": "C124", "title": "Interface of ising_sampler", "statement": "Expected: an n x p matrix. Settled: n >= 2 rows for MH and n rows for CFTP; refuted for MH with n=1 (a vector) and n=0 (IndexError), and CFTP with CFTP_retry <= 1 (UnboundLocalError). An asymmetric graph raises AssertionError, an unknown method ValueError; the diagonal of the caller's graph is set to zero in place.", "quantifier": "all arguments", "why_tests_cant": "every call", "anchors": ["datasets/ising.py: ising_sampler"]}
{"id": "C125", "title": "Generator of Ising graphs", "statement": "Expected: symmetric matrices with zero diagonal, 'change' edges changed at each time. Settled: max(1,T) matrices, symmetric, with entries in {-1,0,1}, for every stream; refuted for the diagonal and the number of changes: pairs (r,r) drawn are applied, then new pairs are drawn and applied on top. With one variable it never ends. Modes 'switch' and 'diffusion' raise ValueError.", "quantifier": "all streams, graphs, numbers of times", "why_tests_cant": "quantifies over randomness", "anchors": ["datasets/ising.py: update_ising_l1, ising_theta_generator"]}
{"id": "C126", "title": "Generator of Poisson graphs", "statement": "Expected: symmetric 0/1 matrices with zero diagonal, n_to_change edges changed at each time. Settled: max(1,T) symmetric zero-diagonal matrices and edges are only ever removed; a time step ends as soon as one draw has no pair (r,r); refuted for the number of changes; with one variable it never ends.", "quantifier": "all streams, graphs, numbers of times", "why_tests_cant": "quantifies over randomness", "anchors": ["datasets/poisson.py: poisson_theta_generator, update_l1"]}
{"id": "C127", "title": "Sampler of the local Poisson graphical model", "statement": "For a symmetric 0/1 graph each sample of a variable is its own count plus one shared count per neighbour (the same for both ends of an edge) plus noise. Expected for any weights; settled: refuted, a weight outside {0,1} raises ValueError.", "quantifier": "all graphs, all streams of counts", "why_tests_cant": "quantifies over randomness", "anchors": ["datasets/poisson.py: poisson_sampler, _adjacency_to_A"]}
{"id": "C128", "title": "Gibbs sampler of Poisson counts", "statement": "One sweep draws each variable in turn with rate exp(threshold + sum over the others of weight times current count), and the counts returned are the last of the sweep.", "quantifier": "all graphs, all streams, all numbers of sweeps", "why_tests_cant": "quantifies over randomness", "anchors": ["datasets/poisson.py: poisson_sampler"]}
{"id": "C129", "title": "Meinshausen-Yuan generator", "statement": "For every stream: the assertion of the generator holds, the graph is symmetric with unit diagonal, weights 0.245, at most four neighbours per node, positive definite; with n_dim_obs*n_dim_lat <= 396 no assertion on the observed precision fails, and the covariance returned is its inverse. Expected for all numbers of latent variables; settled: refuted, with n_dim_obs*n_dim_lat >= 20402 some loadings in [0,0.01) make it fail for every graph.", "quantifier": "all streams, sizes, numbers of times", "why_tests_cant": "quantifies over randomness and sizes", "anchors": ["datasets/gaussian.py: _theta_my, data_Meinshausen_Yuan"]}
{"id": "C130", "title": "Starting precision matrices", "statement": "What make_starting returns is a non-negative, symmetric positive definite matrix, a latent part K^T K of rank n_dim_lat whose factor has rows of sum 2, and a positive definite difference; otherwise AssertionError. The plain start has at most `degree` links per node of weight 0.5/degree.", "quantifier": "all streams, sizes, degrees", "why_tests_cant": "quantifies over randomness", "anchors": ["datasets/gaussian.py: make_starting, make_ell"]}
{"id": "C131", "title": "Fixed-sparsity generator", "statement": "Expected: the zero entries of the first precision are zero at every time. Settled: refuted (two variables, two times); after the first step every off-diagonal entry is moved. Once the start succeeds, all later precisions and their observed parts are positive definite.", "quantifier": "all streams, sizes, numbers of times", "why_tests_cant": "quantifies over randomness", "anchors": ["datasets/gaussian.py: make_fixed_sparsity"]}
{"id": "C132", "title": "Sine generators", "statement": "make_sin returns positive definite matrices with the positive parts of the sines off the diagonal, at every time. Expected of make_sin_cos: one observed precision for each time. Settled: refuted, only the last one is returned; with T=0 UnboundLocalError.", "quantifier": "all curves, sizes, numbers of times", "why_tests_cant": "universal", "anchors": ["datasets/gaussian.py: make_sin, make_sin_cos"]}
{"id": "C133", "title": "Ma-Xue-Zou generators", "statement": "The joint precision is positive definite, the observed precision returned is the inverse of the observed block of the joint covariance, only the rank assertion can fail. Expected of the random-K variant too; settled: refuted, it returns a singular precision.", "quantifier": "all streams, sizes", "why_tests_cant": "quantifies over randomness", "anchors": ["datasets/gaussian.py: make_ma_xue_zou, make_ma_xue_zou_rand_k"]}
{"id": "C134", "title": "Kernel-based generators", "statement": "Exp-sine-squared: positive definite matrices with the (sparsified) curves off the diagonal, failing only when subtracting the latent part loses positive definiteness. RBF never fails; its observed precisions are the Schur complements, positive definite. TICC: positive definite block-Toeplitz matrix off the diagonal.", "quantifier": "all curves, sizes, numbers of times", "why_tests_cant": "universal", "anchors": ["datasets/kernels.py: make_exp_sine_squared, make_RBF, make_ticc"]}
{"id": "C135", "title": "infimal_convolution solves a penalised least-squares fit", "statement": "Expected (docstring): minimises -loglik(S, K-L) + alpha*||K||_od,1 + tau*||L||_*. Settled: refuted. The result is a symmetric K and a positive semidefinite L; the states an iteration leaves unchanged are exactly the minimisers of ||S-(K-L)||^2/2 + alpha*||K||_1 (diagonal included) + tau*trace(L), which exist for alpha > 0; when no entry of S exceeds alpha the solver returns K = L = 0 whatever the number of iterations, where the documented objective is undefined.", "quantifier": "all symmetric matrices, sizes, weights, step sizes, numbers of iterations", "why_tests_cant": "optimality over all matrices; every run", "anchors": ["covariance/infimal_convolution_.py: infimal_convolution, objective"]}
{"id": "C136", "title": "missing_graphical_lasso: imputation and covariance", "statement": "Observed entries are returned unchanged; the result is symmetric, with positive diagonal for over_relax=1; an iteration fills the missing entries with their conditional means under the precision and means of the previous iteration, all divided by the same number c >= 1 (1 when no conditional mean exceeds 1), so every filled entry lies in [-1,1]; the covariance is the sum of z z^T plus the conditional covariances, divided by its largest entry; positive semidefinite when the previous precision is positive definite. Expected: on complete data the covariance is X^T X/n, and missing values are filled with conditional means. Settled: refuted. On complete data it is X^T X divided by its largest entry and the estimate is the same for X and cX; with one variable two iterations fill in the sum of the observed values cut off at 1, not their average. It stops at the first difference of log-likelihoods below tol and warns otherwise.", "quantifier": "all data matrices with any pattern of missing entries, all parameters", "why_tests_cant": "all missingness patterns and runs", "anchors": ["covariance/missing_graphical_lasso_.py: compute_cs, compute_mean, compute_empirical_covariance, missing_graphical_lasso"]}
{"id": "C137", "title": "make_multiclass_dataset: classes, graphs and networks", "statement": "When it returns, for n_classes >= 1: n_classes binary networks, the first being the drawn graph, all symmetric with entries 0 and 1; a data set exactly for the distributions asked for, each with n_classes groups of n rows; Gaussian networks are symmetric with unit diagonal, zero off the edges and common weights in [-1/2,1/2] on them, and class t is drawn with the inverse of network t; Ising data are -1 and 1. Expected: a new class adds and removes edges at about a tenth of the positions; the Gaussian networks are positive definite; there are as many labels as rows. Settled: refuted. A class differs from the first in at most one absent and one present pair; the second class only ever gains a loop at the first vertex; the complete graph on four vertices gives an invertible network that is not positive definite; n_classes=0 returns one class of data without labels.", "quantifier": "all graphs, numbers of classes, distributions and random draws", "why_tests_cant": "all graphs and draws", "anchors": ["datasets/multi_class.py: make_multiclass_dataset, generate_multiple_class_dataset"]}
{"id": "C138", "title": "make_dataset: labels, axes, modes and distributions", "statement": "Whatever the distribution, the mode, the axis and the random numbers, when make_dataset returns X and y are grouped: label t on n consecutive rows, and the data array holds the same rows on either axis. Gaussian: every observed precision matrix sampled from is invertible and the rows of time t are drawn with its inverse. Ising: entries -1 and 1, graphs with zero diagonal. Default mode: T times, ells positive semidefinite of rank n_dim_lat and thetas_observed = thetas - ells. Expected: the documented modes generate a data set of T times and degree is used. Settled: refuted. Modes evolving, fixed, l1, l1l2 raise ValueError, and so do my, mys and ticc whenever their generator returns; sincos gives a single time; degree has no effect for Ising and Poisson; Ising with one sample and time on the last axis raises ValueError.", "quantifier": "all modes, distributions, axes, sizes and random draws", "why_tests_cant": "all draws and modes", "anchors": ["datasets/base.py: make_dataset, _gaussian_case, _ising_case, _poisson_case"]}
{"id": "C139", "title": "make_fede and make_sparse_low_rank: what they generate", "statement": "make_fede: T triples (K, K-L, L), K symmetric, L positive semidefinite of rank at most n_dim_lat, and v^T(K-L)v > -epsilon*p*|v|^2 for every v <> 0; positive definite when epsilon <= 0. make_sparse_low_rank: cumulative sums of the drawn matrices, the sparse part positive definite. Expected: the observed precision matrices are symmetric positive definite. Settled: refuted. With the default threshold 1e-2, make_fede can return an observed precision that is not even positive semidefinite; the low-rank part of make_sparse_low_rank, hence its observed precision, need not be symmetric.", "quantifier": "all sizes, numbers of times and draws in [0,1), every eigendecomposition", "why_tests_cant": "all draws", "anchors": ["datasets/gaussian.py: make_fede, make_sparse_low_rank"]}
{"id": "C140", "title": "temporal Poisson model: what the returned matrices are and what the recorded objective is", "statement": "After at least one iteration every matrix returned by the temporal Poisson fit is symmetric and joins node-wise Poisson regressions of that time's samples, each with the l1 penalty alpha and a quadratic coupling; a node-wise iteration that changes nothing has found a minimiser of likelihood + coupling + l1 penalty. Expected: the recorded objective is the negative log-likelihood plus the penalty and the entries join both coefficients equally. Settled: refuted. With the default kernel the recorded objective has the likelihood with the wrong sign (it differs from the documented cost as soon as the likelihood is nonzero); the matrices have ones on the diagonal and, for i<j, half of one coefficient plus a quarter of the other.", "quantifier": "all data, numbers of times, samples and variables, all parameters, all returning runs", "why_tests_cant": "all data and iterations", "anchors": ["generalized_linear_model/glm_time_poisson.py: _fit_time_poisson_model, loss_poisson, objective", "generalized_linear_model/glm_poisson.py: fit_each_variable, loss"]}
{"id": "C141", "title": "iteration counts and histories of the generalised linear model fits", "statement": "In every returning run with the history requested: k iterations give k+1 recorded estimates, from the starting point to the returned one, and one check per iteration carrying its number and the distance between successive estimates; the loop ends before max_iter only through its tolerance test, passed at the last iteration and at no earlier one. The temporal fits report k iterations as k with k+1 history entries. Expected: the static fits report the number of iterations too and test the tolerance at each one. Settled: refuted. The Ising, Gaussian and Poisson node-wise fits report k-1, and the Poisson fit makes neither check nor test in its first iteration.", "quantifier": "all data, parameters and returning runs", "why_tests_cant": "all runs", "anchors": ["generalized_linear_model/glm_ising.py: _fit", "generalized_linear_model/glm_gaussian.py: fit_each_variable", "generalized_linear_model/glm_poisson.py: fit_each_variable", "generalized_linear_model/glm_time_ising.py: _fit_time_ising_model", "generalized_linear_model/glm_time_poisson.py: _fit_time_poisson_model"]}
{"id": "C142", "title": "densities of the statistics module", "statement": "The log-normal density is, for every mu, sigma>0 and x>0, positive and the derivative of the distribution function of exp Z for Z normal with mean mu and standard deviation sigma; its log version is its logarithm. The Frobenius log-likelihood is the sum of the log-densities of independent normal entries with the given means and variance.", "quantifier": "all real parameters with positive scale, all matrices", "why_tests_cant": "real-valued parameters", "anchors": ["bayesian/stats.py: lognormal_pdf, lognormal_logpdf, log_lik_frob"]}
{"id": "C143", "title": "the kernel of the kernel-driven estimators", "statement": "Expected: kernel is an array (documented), a kernel class, or None for no coupling. Settled: None gives the identity and decoupled problems; a class gives the matrix of its values at the class labels (RBF: symmetric, 1 on the diagonal, between 0 and 1, larger for nearer labels). Refuted for arrays: every array kernel of two or more classes raises ValueError in KernelTimeGraphicalLasso, KernelLatentTimeGraphicalLasso, TemporalIsingModel and TemporalPoissonModel; only the Similarity estimators accept one, of the right size. Refuted for ExpSineSquared: at whole labels it is all ones whatever its parameter.", "quantifier": "all numbers of classes, labels, arrays, kernel parameters and solvers", "why_tests_cant": "the tests fit with one callable kernel on one data set; the truth value of an array depends on its size only, and monotonicity in the distance needs all labels", "anchors": ["covariance/kernel_time_graphical_lasso_.py: KernelTimeGraphicalLasso._fit", "covariance/kernel_latent_time_graphical_lasso_.py: KernelLatentTimeGraphicalLasso._fit", "generalized_linear_model/glm_time_ising.py: TemporalIsingModel.fit", "generalized_linear_model/glm_time_poisson.py: TemporalPoissonModel.fit", "covariance/kernel_time_graphical_lasso_.py: SimilarityTimeGraphicalLasso._fit"]}
{"id": "C144", "title": "ker_param=\"auto\": which parameter and which fit are returned", "statement": "Expected: the loop finds the best kernel parameter. Settled: if it stops by itself the returned matrices are the solver's result for a parameter within 1e-5 of the search's answer for those matrices; if it is exhausted, for the answer for the previous matrices; a kernel that is not callable raises. Refuted: for RBF and ConstantKernel the criterion is strictly increasing in the parameter as soon as two matrices differ, with infimum 0 at 0 for RBF, so no positive parameter is best (for ExpSineSquared it is non-decreasing).", "quantifier": "all times, kernels, penalties psi >= 0, searches, solvers, iteration limits and matrices", "why_tests_cant": "the outcome depends on an external scalar search and on the limit of the criterion at 0; no finite grid of parameters shows the absence of a minimum", "anchors": ["covariance/kernel_time_graphical_lasso_.py: objective_kernel", "covariance/kernel_time_graphical_lasso_.py: KernelTimeGraphicalLasso._fit"]}
{"id": "C145", "title": "precision_similarity", "statement": "For every non-negative distance psi and matrices not all at distance 0 the result is symmetric, 1 on the diagonal, in [0,1], 0 for the farthest pair, and equal to 1 - distance / largest distance; it is nan everywhere exactly when no two matrices are apart, in particular for a single time. The Ising version is the same with the off-diagonal l1 distance.", "quantifier": "all numbers of times, matrices and non-negative psi", "why_tests_cant": "min and max range over all pairs of times; the nan case is a degenerate input that random data never hits", "anchors": ["covariance/kernel_time_graphical_lasso_.py: precision_similarity", "generalized_linear_model/glm_time_ising.py: precision_similarity"]}
{"id": "C146", "title": "the estimators that learn the similarity of the times", "statement": "Expected: similar times are clustered and similarity_matrix_ is their similarity. Settled: if the loop stops by itself (eps <= 1/n_times) similarity_matrix_ is the similarity of the returned matrices and these are the solver's result for the kernel of their own clusters. Refuted: after the warning it is the last kernel, 2 on the diagonal; the similarity is clustered as a distance, so with one cluster less than times the pair whose matrices differ most is merged; n_clusters=None is overwritten, so a refit with fewer times raises; a single time always raises.", "quantifier": "all solvers, matrices, clusterings, numbers of times and iterations", "why_tests_cant": "the loop's result depends on arbitrary solver and clustering outcomes; refits are histories", "anchors": ["covariance/kernel_time_graphical_lasso_.py: SimilarityTimeGraphicalLasso._fit", "generalized_linear_model/glm_time_ising.py: SimilarityTemporalIsingModel.fit"]}
{"id": "C147", "title": "the kernel of the latent variables in SimilarityLatentTimeGraphicalLasso", "statement": "Expected: eta couples the latent variables of consecutive times when kernel_phi is not given. Settled: refuted. For every eta the fit is the one with the identity for kernel_phi; a callable kernel_phi raises ValueError; with kernel_psi given and kernel_phi left out it raises AttributeError; an array is passed on unchanged.", "quantifier": "all eta, kernels, solvers and data", "why_tests_cant": "independence of a parameter is a statement about all its values", "anchors": ["covariance/kernel_latent_time_graphical_lasso_.py: SimilarityLatentTimeGraphicalLasso._fit"]}
{"id": "C148", "title": "the temporal Ising and Poisson estimators: data checks, automatic parameter, score", "statement": "Expected: invalid data are rejected, the automatic kernel parameter works, the score ranks models. Settled: with a number for ker_param and classes of one size the estimators store the solver's matrices for the chosen kernel; Ising data with one or more than two values are rejected. Refuted: any two values pass for binary data; negative counts are never rejected; classes of different sizes raise; ker_param=\"auto\" never succeeds for Ising nor for a first Poisson fit; the score is a constant; SimilarityTemporalPoissonModel cannot be constructed.", "quantifier": "all data, class sizes, kernels, solvers and parameters", "why_tests_cant": "a check that never fires is only visible over all inputs; likewise a constant score", "anchors": ["generalized_linear_model/glm_time_ising.py: TemporalIsingModel.fit, score", "generalized_linear_model/glm_time_poisson.py: TemporalPoissonModel.fit, score", "generalized_linear_model/glm_time_poisson.py: SimilarityTemporalPoissonModel.__init__"]}
{"id": "C149", "title": "read_network: what is read and the filled diagonal", "statement": "Expected: a table of gene interactions is read back, thresholded to its heaviest rows, with a diagonal that makes it positive definite (documented). Settled: the genes are those of the first column in increasing order, the result is symmetric without negative entries; a file listing both directions of a symmetric table is read back with negative weights replaced by 0; the rows dropped by threshold are not heavier than those kept, and their number is the threshold rounded down to a multiple of 2 (full) or 1; the filled diagonal gives a positive semidefinite matrix. Refuted: it is singular for every network without self-interactions that is two-colourable; with full_network=False an upper-triangular file always enlarges the frame by a row and a column of nan.", "quantifier": "all files (lists of rows), thresholds in [0,1], orders of ties and both flags", "why_tests_cant": "the failure depends on the colourability of the whole network, not on its size, and the tests read no network at all", "anchors": ["utils.py: read_network"]}
{"id": "C150", "title": "retain_top_n keeps the n largest entries", "statement": "For every table and every n between 1 and the number of entries, exactly n entries are retained unchanged, all others are 0, no discarded entry is larger in absolute value than a retained one, and the result is a best approximation of the table in the Frobenius norm among all tables with at most n nonzero entries. n = 0 or larger than the number of entries raises ValueError.", "quantifier": "all shapes, tables, n and partial orderings returned by argpartition (ties in any order)", "why_tests_cant": "the number of tables and of tie orders is unbounded; optimality compares with every sparse table", "anchors": ["utils.py: retain_top_n", "utils.py: top_n_indexes"]}
{"id": "C151", "title": "logentropy_normalize", "statement": "For every table without negative entries: the weight of a column is between 1 - log n / log(n+1) > 0 and 1; it is 1 exactly for columns with at most one nonzero entry and smallest for constant columns; it does not depend on the unit of the column; the normalised entries are between 0 and log(1+x) and zero exactly where the table is.", "quantifier": "all numbers of rows and columns, all non-negative tables", "why_tests_cant": "entropy bounds are inequalities over all distributions; the nan of empty columns and zero entries must not leak for any table", "anchors": ["utils.py: logentropy_normalize"]}
{"id": "C152", "title": "alpha_heuristic and the units of the data", "statement": "Expected: a penalty computed from the covariance selects the same model whatever the unit of the data (the graphical lasso for (cS, c alpha) is the one for (S, alpha) in the new unit), and grows without bound when the level gamma tends to 0, as in the cited rule. Settled: the value, and the maximum over times. Refuted: it scales with the square of the covariance, so for every covariance every positive penalty is the selected one in some unit; and since the density is used instead of the quantile it never exceeds 4/5 of the squared variance over sqrt(n-2).", "quantifier": "all covariances with non-negative diagonal, sample numbers above 2, levels, densities bounded by 2/5 and targets", "why_tests_cant": "the failure is a statement about all units and all solutions of the convex program", "anchors": ["utils.py: alpha_heuristic"]}
{"id": "C153", "title": "error_norm_time and error_rank", "statement": "Expected: an error is 0 exactly when the two series agree, and series of different lengths are rejected. Settled: for equal lengths error_norm_time is the mean of the squared distances and 0 exactly for equal series; error_rank is 0 exactly for equal ranks and raises ValueError for different lengths unless one is 1. Refuted: error_norm_time ignores the extra times of the longer series.", "quantifier": "all numbers of times and variables, all matrices, any rank routine", "why_tests_cant": "any finite set of series has the same length in the tests; the equality holds for every continuation", "anchors": ["utils.py: error_norm_time", "utils.py: error_rank"]}
{"id": "C154", "title": "validation of the data by check_input", "statement": "Expected: a list of tables, or an array with the time where time_on_axis says, is accepted if it has at least two samples and two variables at each time and the same variables at all times. Settled: whatever is accepted is so, and the returned numbers describe it; arrays are laid out as announced; well formed lists with equally many samples are returned unchanged; labels, sparse matrices and other numbers of dimensions are rejected. Refuted: with a recent numpy every list with different numbers of samples raises ValueError; time_on_axis is ignored for lists and two-dimensional arrays, and any word other than last means first.", "quantifier": "all lists, arrays, shapes, entries and words", "why_tests_cant": "the shapes are unbounded and the tests pass only equal ones", "anchors": ["validation.py: check_input", "validation.py: check_input_3d", "validation.py: check_array_dimensions"]}
{"id": "C155", "title": "graph_k_means: assignments, convergence and the kernel", "statement": "Expected: the clustering of graphs assigns every graph to a nearest representative, improves from round to round, and returns a similarity kernel. Settled: every graph is assigned to a nearest representative; a result without the warning is the kernel of representatives that one more round leaves unchanged; graphs with the same edges have the same label and the same kernel row; max_iter=0 raises UnboundLocalError and k=0 ValueError. Refuted: one round can multiply the total distance to the representatives by the number of graphs minus one; with one cluster every kernel entry is 0 or nan.", "quantifier": "all lists of graphs of every order, shuffles, k and max_iter", "why_tests_cant": "the rounds depend on all the graphs together and on the shuffle; the degenerate kernels need a graph equal to its representative", "anchors": ["clustering.py: graph_k_means"]}
{"id": "C156", "title": "Discriminant analysis: decision values, predictions, probabilities", "statement": "Expected: the classifier predicts the class of largest posterior under one Gaussian per class. Settled: for positive definite class covariances the decision value is the logarithm of prior times Gaussian density up to a class-independent constant, the prediction is the first class of largest posterior, and the predicted probabilities are positive, sum to one and are in the ratio of the posteriors. Refuted: a symmetric class covariance that is not positive definite is silently replaced by its absolute value (the matrix with the same square); the precomputed estimator cannot be used: it has no location_, so AttributeError.", "quantifier": "all numbers of classes, dimensions, class parameters, points and singular value decompositions", "why_tests_cant": "a claim over the reals about all covariances; an indefinite covariance gives finite, plausible decision values", "anchors": ["discriminant_analysis.py: DiscriminantAnalysis._decision_function", "discriminant_analysis.py: DiscriminantAnalysis.fit", "discriminant_analysis.py: PrecomputedDiscriminantAnalysis"]}
{"id": "C157", "title": "GroupLassoOverlap.fit: intercept, units, targets and options", "statement": "Expected: the estimator around the overlapping group lasso behaves as a scikit-learn linear model and its options have their documented effect. Settled, for whatever the solver returns: with an intercept the training residuals of every target sum to zero and the prediction at the mean sample is the mean target; adding a constant to a feature or a target moves the predictions accordingly; with normalize the predictions do not depend on the units of features that are not constant; every target is fitted as if alone; invalid options raise ValueError. Refuted: positive, precompute, selection, warm_start and n_jobs never change the result, dual_gap_ is always zero; with warm_start after a fit with more targets the rows of the earlier fit stay in coef_, after one with fewer targets IndexError; one feature with several targets raises ValueError in fit, or in every prediction.", "quantifier": "all data, solvers, options, numbers of targets and earlier coefficients", "why_tests_cant": "invariance over all data and all solver outputs; the stale rows need a particular history of fits", "anchors": ["linear_model/group_lasso_overlap_.py: GroupLassoOverlap.fit", "linear_model/group_lasso_overlap_.py: GroupLassoOverlap._decision_function"]}
{"id": "C158", "title": "GroupLassoOverlapClassifier: majority, symmetry, one feature", "statement": "Expected: the classifier treats the classes symmetrically and works for any number of features. Settled: when the solver selects nothing the prediction is the most frequent class, the first of them on ties; with two classes and a solver that is odd in the target, exchanging the class names exchanges the predictions except for a zero score, where both predict their first class. Refuted: three or more classes cannot be fitted from one feature (ValueError).", "quantifier": "all data, labels, class counts and solvers", "why_tests_cant": "quantifies over all data and label assignments", "anchors": ["linear_model/group_lasso_overlap_.py: GroupLassoOverlapClassifier"]}
{"id": "C159", "title": "glo_prox: the proximity operator of the overlapping group lasso", "statement": "Expected: glo_prox returns the proximal point of its input for the group lasso with overlap, from any starting multipliers. Settled: whenever it returns, the multipliers are nonnegative, one per block and zero on discarded blocks, the result is the input shrunk coordinate by coordinate (same sign, no larger, zero outside the blocks), and from a cold start the dual objective has not increased; when the multipliers meet the optimality conditions on the blocks that were kept and no radius exceeds 1, the result is the proximal point, with quadratic growth, for all blocks; exact multipliers are left unchanged and stop the iteration. Refuted: the screening compares a block's norm with the squared radius, so for one block of radius above 1 and a norm between the radius and its square the result is 0, which is not the proximal point; a start with two multipliers or more raises ValueError.", "quantifier": "all inputs, blocks (overlapping or not), weights, radii, starting multipliers and iteration counts", "why_tests_cant": "optimality against every competitor vector; the wrong screening needs a radius above 1", "anchors": ["wrapper/paspal/glopridu.py: glo_prox"]}
{"id": "C160", "title": "glopridu_algorithm: convergence rate, number of groups", "statement": "Expected: the accelerated proximal method solves the overlapping group lasso for any groups. Settled: with exact proximity steps and no smoothing the objective |Y - X b|^2 / (2 n) + tau P(b) at the returned coefficients is within 2 sigma |b*|^2 / (n_iter + 1)^2 of the optimum, for every convex penalty; coefficients that an exact step leaves unchanged are a minimiser. Refuted: the call raises ValueError on every problem with two groups or more, because the multipliers of the previous iteration are tested for truth.", "quantifier": "all data, convex penalties, tolerances and iteration counts", "why_tests_cant": "a rate for every run length and every convex penalty", "anchors": ["wrapper/paspal/glopridu.py: glopridu_algorithm"]}
{"id": "C161", "title": "make_cluster_representative: number of times and places of the representatives", "statement": "Expected: the series has T precision matrices, and visits the clusters in order. Settled: with k < T clusters the call returns, the matrix at every time that is a multiple of T // (k + 1) is the representative of cluster i mod k, and the last matrix is a representative; T <= k raises ZeroDivisionError, a given series of the wrong length AssertionError, a label that is not below the number of labels IndexError. Refuted: when T // (k + 1) divides T - 1 there are T + 1 matrices (T = 10, k = 2).", "quantifier": "all T, numbers of clusters, graphs, weights and shuffles", "why_tests_cant": "all pairs (T, k), and every outcome of the generator", "anchors": ["datasets/kernels.py: make_cluster_representative"]}
{"id": "C162", "title": "make_cluster_representative: what changes between two representatives", "statement": "Between two representatives an entry changes only if it is zero in exactly one of them; once changed it is zero or not as in the next representative, has a value in [0, 0.2) and is symmetric; the number of entries that still have to change falls at every time by at least e and at most 2 e, where e is the number of edges per change, and the support of the next representative is not reached before its time when at least 2 (h + 1) entries change.", "quantifier": "all pairs of matrices with symmetric supports, all shuffles, all random numbers in (0, 1), all lengths", "why_tests_cant": "every shuffle and draw", "anchors": ["datasets/kernels.py: make_cluster_representative"]}
{"id": "C163", "title": "make_cluster_representative: symmetric, positive definite precision matrices", "statement": "Expected: the matrices of the series are symmetric and positive definite, and the samples are drawn from them. Settled: a representative has unit diagonal, the support of its graph, weights below 0.45, and with degrees of at most two the matrix that pinvh inverts (its lower triangle) is positive definite. Refuted: if the random numbers differ, no edge has the same weight in both directions, so the matrix is not symmetric and is not the inverse covariance of the samples; with degree 3, or between two representatives of degree 2, it need not be positive semidefinite.", "quantifier": "all graphs and weights in (0, 1)", "why_tests_cant": "every graph and draw", "anchors": ["datasets/kernels.py: make_cluster_representative"]}
{"id": "C164", "title": "make_ticc_dataset: labels of samples and times", "statement": "Expected: a number of samples that is a multiple of the number of times is enough for every time to have a single cluster. Settled: when the call returns, sample i is of cluster clusters[i // n_samples], every time has the same number of consecutive samples and id_cluster_group[y[i]] = id_cluster[i]; it returns exactly when T divides the number of samples and no time mixes clusters, and always when also the number of clusters divides T. Refuted: clusters (0, 1, 0) with 2 samples each and T = 2 raise AssertionError; make_ticc_dataset_new returns a y shorter than X.", "quantifier": "all cluster sequences, numbers of samples and of times", "why_tests_cant": "all lengths at once", "anchors": ["datasets/kernels.py: make_ticc_dataset, make_ticc_dataset_new"]}
{"id": "C165", "title": "make_ticc_dataset: the reported precisions are those of the samples", "statement": "For w_size >= 2, from sample w_size - 1 on the reported precision of a sample of cluster c is the diagonal block of the precision matrix of c and the sample is drawn from the normal distribution with that precision and the mean given by the w_size - 1 previous samples; earlier reported precisions are positive definite too.", "quantifier": "all block matrices with a symmetric first block, label sequences, sample positions and draws", "why_tests_cant": "an identity between inverses for every size and position", "anchors": ["datasets/kernels.py: make_ticc_dataset, _block_matrix, make_ticc"]}
{"id": "C166", "title": "make_ticc_dataset_new: conditioning on the window equals conditioning on the whole past", "statement": "The precision matrix of the whole series is positive definite, zero between samples more than w_size apart, and every sample is drawn from its conditional distribution given all previous samples (not only those of the window), so that the series is an exact draw of the Gaussian with that precision.", "quantifier": "all blocks with symmetric first block, cluster sequences, windows, sample numbers and draws", "why_tests_cant": "a Markov property for all series lengths and windows", "anchors": ["datasets/kernels.py: make_ticc_dataset_new, _block_matrix"]}
{"id": "C167", "title": "make_ticc_dataset_v3: temporal window", "statement": "Expected: w_size controls the dependence between consecutive clusters. Refuted: the matrix is block diagonal and the same for every w_size, the mean of every cluster is zero whatever precedes it, and precs equals sparse_precs.", "quantifier": "all blocks, cluster sequences and windows", "why_tests_cant": "every window and sequence", "anchors": ["datasets/kernels.py: make_ticc_dataset_v3"]}
{"id": "C168", "title": "genInvCov and genRandInv: support and values of the random blocks", "statement": "genInvCov is symmetric with zero diagonal, non-zero exactly on the edges of the graph drawn, with 2 |E| non-zero entries; the values drawn have a modulus between low and upper and the sign of the random bit.", "quantifier": "all simple graphs, non-zero values, bounds and draws", "why_tests_cant": "all graphs and draws", "anchors": ["datasets/kernels.py: genInvCov, genRandInv"]}
{"id": "C169", "title": "graphlet_instability is the mean graphlet distance of the pairs of estimators", "statement": "Expected: a value for every non-empty list of estimators. Settled: for two estimators or more it is the mean over the pairs of the distance between their graphs (an edge for each nonzero entry off the diagonal), averaged over the times when there are several; it lies between the smallest and the greatest of the distances, depends on the precisions only through the graphs, and not on the order of the estimators when the distance is symmetric. Refuted: with one estimator it raises ZeroDivisionError, where global_instability returns a number.", "quantifier": "all lists of precisions (with or without times), degree vectors and distances", "why_tests_cant": "all numbers of estimators, nodes and times and every distance", "anchors": ["model_selection/stability_optimization.py: graphlet_instability"]}
{"id": "C170", "title": "GraphicalModelStabilitySelection: size of the subsamples", "statement": "Expected: every fit uses subsamples of a positive size below the number of its samples. Settled: the default is the largest integer not above 10 sqrt(n) and n - 10, in [1, n - 10] when n > 10; with labels it is lowered to the next multiple of the number of classes. Refuted: n <= 10 gives a size that is not positive, more classes than the size give 0, and a second fit keeps the size chosen for the first data set, even above its own number of samples.", "quantifier": "all numbers of samples and classes, and all sequences of two fits", "why_tests_cant": "all sizes and histories of fits", "anchors": ["model_selection/stability_optimization.py: GraphicalModelStabilitySelection.fit"]}
{"id": "C171", "title": "GraphicalModelStabilitySelection: cv_results_", "statement": "All candidates are evaluated on the same splits; the split columns, (weighted) means, standard deviations and ranks of a candidate in cv_results_ are those of its own scores, rank r means that exactly r - 1 candidates have a greater mean; the array of a parameter holds its value for the candidates that have it and is masked for the others; no candidates or no splits raise ValueError and weights of sum zero ZeroDivisionError.", "quantifier": "all candidates, splits, scores, weights and parameter dictionaries", "why_tests_cant": "an indexing identity for all numbers of candidates and splits", "anchors": ["model_selection/stability_optimization.py: GraphicalModelStabilitySelection.fit, _format_results"]}
{"id": "C172", "title": "GraphicalModelStabilitySelection: which candidate is kept", "statement": "Expected: the candidate of the first instability rank, whatever the scorers. Settled: so with one scorer, whatever refit is; a callable refit must return the index of a candidate (TypeError, IndexError otherwise). Refuted: with several scorers the candidate with the highest mean of the scorer named by refit is kept and the instabilities are not read; the default refit=True is then an error and refit=False keeps nothing.", "quantifier": "all score tables, scorer names and refit arguments", "why_tests_cant": "all tables and arguments", "anchors": ["model_selection/stability_optimization.py: GraphicalModelStabilitySelection.fit"]}
{"id": "C173", "title": "_compute_probabilities and _permute_locations", "statement": "Expected: a symmetric table of probabilities that decrease with the distance, larger for the edges of the previous time; locations that stay in the unit square. Settled: each entry is 0 or 2 phi(d sqrt(p)), below 1, according to the threshold; closer pairs with lower thresholds and masked pairs never have smaller entries; locations stay nonnegative and move by at most 0.03 per coordinate. Refuted: the table is not symmetric and locations can leave the unit square.", "quantifier": "all numbers of nodes, locations, masks, thresholds and moves", "why_tests_cant": "all draws", "anchors": ["datasets/gaussian.py: _compute_probabilities, _permute_locations"]}
{"id": "C174", "title": "data_Meinshausen_Yuan_sparse_latent is a latent variable Gaussian model", "statement": "With at least one latent variable and twenty observed variables for each, no draw makes it raise; at each time theta has unit diagonal, entries 0 or 0.245 and at most four links per row, theta_H is positive definite with unit diagonal, theta_obs is the Schur complement theta - C' theta_H^-1 C and positive definite, the joint precision matrix is positive definite, and sigma is the block of the observed variables in its inverse.", "quantifier": "all h >= 1, p >= 20 h, numbers of times, orders and shuffles", "why_tests_cant": "an inequality for all dimensions and all draws", "anchors": ["datasets/gaussian.py: data_Meinshausen_Yuan_sparse_latent"]}
{"id": "C175", "title": "data_Meinshausen_Yuan_sparse_latent: which links, which sizes", "statement": "Expected: a latent variable is linked with the observed variables it is most probably linked with, and every p and h work. Refuted: the columns of the array of links put the latent variables first and the probabilities put them last, so with one latent variable a choice of node j makes a link with variable j - 1 (none for j = 0, the last observed variable when the latent variable chose itself); with two observed variables and one latent variable it always raises TypeError.", "quantifier": "all p >= 1 with h = 1, all orders; all draws for p = 2, h = 1", "why_tests_cant": "all draws", "anchors": ["datasets/gaussian.py: data_Meinshausen_Yuan_sparse_latent"]}
{"id": "C176", "title": "prox_linf_1d is the proximal operator of the maximum norm", "statement": "For lamda >= 0 the result is the one minimiser of lamda max|x_i| + |a - x|^2 / 2, given by the formula in the docstring; a minus it is the closest point of the l1 ball of radius lamda; entries keep their sign and do not grow, all vanish exactly when the l1 norm of a is at most lamda; two inputs are never moved apart. Refuted for lamda < 0: two minimisers, so the result depends on the solver.", "quantifier": "all lengths, vectors and lamda >= 0", "why_tests_cant": "an optimum over all vectors", "anchors": ["prox.py: prox_linf_1d"]}
{"id": "C177", "title": "plot_cov_2d and plot_cov_ellipse draw the level set of the covariance", "statement": "The curve of plot_cov_2d is exactly the set of points at Mahalanobis distance sdwidth, and the ellipse of plot_cov_ellipse is at distance |nstd|, for every positive definite covariance. Expected: the axis limits contain the ellipse, the returned value is the correlation. Refuted: the second axis can cut the ellipse, the limits are not centered and are empty for a center far on the negative side, a zero covariance gives a circle, and the returned value is the covariance.", "quantifier": "all positive definite 2x2 covariances, means, widths and parameters of the curve", "why_tests_cant": "all covariances and all points of the curve", "anchors": ["plotting/covariance.py: plot_cov_2d, plot_cov_ellipse"]}
{"id": "C178", "title": "The curved edges of the circular plot", "statement": "_deCasteljau returns the point of the Bezier curve for any number of control points (ValueError below two) and stays in the box of the control points; _BezierCv goes from the first to the last control point; an edge is drawn from one node to the other one, the same curve in both directions; the interval of a distance is the one that contains it and farther nodes get a greater divisor. Refuted for nodes in the same position: they get the divisor of the farthest nodes.", "quantifier": "all dimensions, control points, parameters, numbers of points, positions", "why_tests_cant": "all lists of control points", "anchors": ["plotting/plotly.py: _get_idx_interv, dist, _deCasteljau, _BezierCv, lines_chord"]}
{"id": "C179", "title": "save_pickle and load_pickle", "statement": "Expected: load_pickle reads what save_pickle wrote under the same name, and a failed save keeps the old file. Settled: for names that end with .pkl the round trip holds, for other names after adding .pkl, and no other file changes; a file that cannot be opened leaves everything as it was. Refuted: for other names load_pickle reads what was there before or raises FileNotFoundError; when the object cannot be pickled the old content is already gone.", "quantifier": "all names, objects, file contents, picklers", "why_tests_cant": "all names and all points of failure", "anchors": ["utils.py: save_pickle, load_pickle"]}
{"id": "C180", "title": "suppress_stdout", "statement": "For every program that writes through sys.stdout, raises, handles exceptions and nests the context manager, nothing of its output appears, sys.stdout is the previous one afterwards also when it raises or replaces sys.stdout, exceptions pass through, and what follows is written as if the body had not been there. Refuted: output through a file object kept from before is not suppressed.", "quantifier": "all programs of the language of prints, exceptions and nested contexts, all states", "why_tests_cant": "all programs", "anchors": ["utils.py: suppress_stdout"]}
{"id": "C181", "title": "init_logger", "statement": "Without filters, however often it is called and whatever handlers there were, the root logger has exactly one file handler and one stream handler, the previous ones are closed, the file is empty and its name, with .log or .txt, is returned; messages from INFO on go to the file and, if verbose or from ERROR on, to the stream, once each. Refuted: a filter of the logging package on the root logger makes it raise AttributeError, with no handlers left.", "quantifier": "all logger states, names, levels, sequences of calls", "why_tests_cant": "all histories of the logger", "anchors": ["utils.py: init_logger"]}
{"id": "C182", "title": "The derivatives of the Laplace approximation, second version", "statement": "first_derivative_h_version2 is the gradient of the log density in the entries on and above the diagonal (tangent above the density at every positive definite matrix). second_derivative_h_version2 has one row for each nonzero entry on and above the diagonal, sorted by column, and its entries are those of the Hessian, doubled once for each diagonal parameter. Refuted: a zero on the diagonal raises IndexError.", "quantifier": "all dimensions, positive definite matrices, scale matrices, degrees of freedom, orders of equal keys", "why_tests_cant": "all matrices", "anchors": ["bayesian/_laplace_approximation.py: first_derivative_h_version2, second_derivative_h_version2"]}
{"id": "C183", "title": "objective_similarity", "statement": "It is the sum over all pairs of times s < t of the entry of theta for the pair (row order) times psi of the difference; other lengths raise ValueError, except one entry used for all pairs. Refuted as an objective for theta: it is linear, so it has no minimum as soon as two matrices differ.", "quantifier": "all numbers of times, matrices, penalties and theta", "why_tests_cant": "all numbers of times", "anchors": ["covariance/kernel_time_graphical_lasso_.py: objective_similarity"]}
{"id": "C184", "title": "x_update of the feature-split group lasso", "statement": "Expected: x_update minimises 1/2|Ax-b|^2 + kappa|x|. Settled: when |A'b| <= kappa it returns 0, which is the minimiser; otherwise it returns the exact minimiser of the problem with kappa replaced by t|x|, where t is within 1e-6 of the smaller of kappa/|minimiser| and 1e10. Refuted: because of the cap 1e10 on the bisection, the distance to the minimiser is not bounded.", "quantifier": "all sizes, matrices, targets, kappa >= 0, eigendecompositions of A'A", "why_tests_cant": "all matrices and a hundred bisections", "anchors": ["linear_model/_group_lasso_overlap_old_.py: x_update"]}
{"id": "C185", "title": "The retired group lasso solvers", "statement": "Expected: group_lasso_feat_split and _overlapping_group_lasso return a solution. Refuted: for every input the first raises TypeError (ZeroDivisionError for blocks of size 0), the second raises TypeError or LinAlgError, also for max_iter = 0.", "quantifier": "all inputs", "why_tests_cant": "absence of any input that works", "anchors": ["linear_model/_group_lasso_overlap_old_.py: group_lasso_feat_split", "linear_model/group_lasso_overlap_.py: _overlapping_group_lasso, P_star_x_bar_function"]}
{"id": "C186", "title": "Marginals and predictive of the normal-inverse-Wishart", "statement": "The predictive density at x is, for every mean and covariance, prior times Gaussian likelihood divided by the density of posterior(x). The joint density is the density of the marginal of the mean times an inverse Wishart in the covariance, and also the marginal of the covariance times a Gaussian. Both t distributions have positive degrees of freedom and positive definite scale.", "quantifier": "all dimensions, parameters with kappa > 0, S positive definite, nu > D - 1, all points", "why_tests_cant": "all parameters and points", "anchors": ["bayesian/wishart_distribution_.py: NormalInverseWishartDistribution.marginals, NormalInverseWishartDistribution.predictive, NormalInverseWishartDistribution.posterior"]}
{"id": "C187", "title": "The kernels of the Wishart process", "statement": "The RBF kernel matrix of any points is symmetric positive semidefinite, positive definite for distinct times (the fitted labels), so that predict at the training times gives the fitted covariances; its correlations fall as the inverse width grows. The periodic kernel is positive semidefinite with ones on the diagonal. Refuted: the defaults of _rbf_kernel raise TypeError; the normalised kernel has a wrong diagonal unless the inverse width is 2 pi; the periodic kernel's correlations grow with its inverse_width; at integer times it is the matrix of ones, singular, and the predicted covariance is the same at all integer times.", "quantifier": "all numbers of points, dimensions, points, variances, inverse widths", "why_tests_cant": "all sets of points, positive definiteness of infinite families", "anchors": ["bayesian/wishart_process_.py: _rbf_kernel, _periodic_kernel, predict"]}
{"id": "C188", "title": "write_network and read_network", "statement": "Expected: read_network reads back what write_network wrote. Settled: with a pandas that writes no header, a symmetric table comes back with its negative entries replaced by zero, if it is not read as a full network or the number of genes is even. Refuted: with the header that pandas writes since 1.0 every file raises TypeError; with an odd number of genes a full network loses its smallest entry.", "quantifier": "all sorted lists of genes, symmetric tables, orders of equal weights", "why_tests_cant": "all tables and sizes", "anchors": ["utils.py: write_network, read_network"]}
{"id": "C189", "title": "The ROC curves of plot_roc_curves", "statement": "For any number of folds with ROC curves from (0,0) to (1,1): each fold's area is between 0 and 1; the mean curve starts at 0, ends at 1, never falls; the band of one standard deviation contains it and stays in [0,1]. Refuted: the mean area is always between 1/198 and 197/198, also when every fold is perfect (area 1) or worst (area 0); a matrix as truth raises ValueError.", "quantifier": "all numbers of folds and curves, all truths and predictions", "why_tests_cant": "all curves", "anchors": ["plotting/results.py: plot_roc_curves"]}
{"id": "C190", "title": "The search of _BayesianOptimization", "statement": "For every strategy of choosing points: when no evaluated candidate scored nan, best_params_ are those of an evaluated point whose mean cross-validation score is at least that of every evaluated point, best_score_ is minus that score, and the refitted estimator is the given one with these parameters. plot_acquisition plots the finite values and restores X and Y. Refuted: a candidate with score nan is taken for the best; the given estimator is left with the parameters of the last evaluated point; X and Y stay filtered when the plot raises.", "quantifier": "all strategies, numbers of iterations, initial designs, names, scores, estimators", "why_tests_cant": "all strategies and histories", "anchors": ["model_selection/_bayesian_optimization.py: _BayesianOptimization.fit, _BayesianOptimization.plot_acquisition, _fit_score"]}
{"id": "C191", "title": "The network drawn by plot_network", "statement": "In two and three dimensions the traces of lines_straight draw exactly the segments between the ends of the edges, in order: one trace with gaps without weights, one trace of width twice the weight for each edge with nonnegative weights. plot_network puts every node at its position, with its label and degree, nodes beyond the labels get no text, and the degrees add up to twice the number of edges. Any other dimension raises. Expected: a weighted graph with negative weights (a precision matrix) is drawn. Settled: refuted, one negative weight makes the call raise; lines_straight with weights and another dimension drops the third coordinate.", "quantifier": "all graphs, layouts, labels, weights, dimensions", "why_tests_cant": "all graphs and layouts", "anchors": ["plotting/plotly.py: lines_straight, plot_network"]}
{"id": "C192", "title": "The labels of plot_circular", "statement": "With an even number of nodes the labels are on a circle of radius dist_text around the nodes' circle, each on the ray of its node; in general they are scaled by dist_text about the centre of the bounding box, and each text lies along the ray from this centre, at most 90 degrees from the horizontal (nan exactly at the centre). The texts of the edges name the same labels as the annotations when the nodes are 0, ..., n-1 in order. Refuted: for every odd number of nodes from three on (and dist_text other than 0 and 1) the labels are not on a circle around the origin; with the nodes listed in another order the edges name other labels than the annotations.", "quantifier": "all numbers of nodes, dist_text, labels, edges", "why_tests_cant": "all sizes", "anchors": ["plotting/plotly.py: plot_circular, lines_chord"]}
{"id": "C193", "title": "plot_curve draws each key on its own, and the ROC mean is that of C189", "statement": "Expected: plot_curve draws for each key the curve(s) of that key's predictions against true, whatever the other keys and their order, for true a vector or a matrix and for one or several predictions per key; several equal folds give the curve of one; the axes carry the quantities they are labelled with. Settled: with a single truth that is not a two-dimensional array, or when no key has exactly one prediction, every key's drawing is the one it would have alone, and one fails iff it fails alone; in ROC mode the mean curve and its area are those of C189. Refuted: with a matrix as truth a key with one prediction raises ValueError or is drawn depending on whether a key with several comes before it; with several truths a key with one prediction always raises; in the precision-recall mode a single curve has recall on the axis labelled Precision, and the mean of equal folds is recall as a function of precision, which is another curve.", "quantifier": "every sequence of keys with any number of predictions, every truth, curve function and interpolation", "why_tests_cant": "the state carried from one key to the next only shows for particular orders and shapes, and the curves range over all reals", "anchors": ["plotting/results.py: plot_curve"]}
{"id": "C194", "title": "What the penalty of the graphical lasso removes", "statement": "At every resting state of graphical_lasso: for every set of variables the estimate has no edge to the other variables exactly when no empirical covariance between them exceeds alpha, so the components of the estimated graph are those of the thresholded covariances; two such groups can be estimated separately; the estimate is diagonal, with the inverse variances, exactly when alpha is at least every covariance; the estimated covariance keeps the variances, is within alpha of the empirical covariances and off by exactly alpha, towards the sign of the edge, at the edges.", "quantifier": "every symmetric covariance, penalty, rho and every set of variables", "why_tests_cant": "equivalences over all subsets of variables and all covariance matrices", "anchors": ["covariance/graphical_lasso_.py: graphical_lasso"]}
{"id": "C195", "title": "The path of the graphical lasso penalties", "statement": "A larger alpha never gives an estimate with a larger off-diagonal l1 norm or a better likelihood, and an equal norm only with the same estimate; trace(S K) + alpha ||K||_od,1 is the number of variables; scaling the covariances and alpha by c scales the estimate by 1/c.", "quantifier": "every symmetric covariance, all pairs of penalties, all positive factors", "why_tests_cant": "compares the limits of pairs of runs for all inputs", "anchors": ["covariance/graphical_lasso_.py: graphical_lasso"]}
{"id": "C196", "title": "What the penalty removes over time", "statement": "At every resting state of time_graphical_lasso and kernel_time_graphical_lasso, whose penalty on the changes depends only on the absolute values of the entries (the l1, l2, Laplacian and infinity norms do): two groups of variables whose weighted empirical covariances never exceed alpha at any time have no edge between them at any time.", "quantifier": "every stack of symmetric covariances, weights, penalties, kernel, rho and every set of variables", "why_tests_cant": "ranges over all subsets of variables, lengths and covariances", "anchors": ["covariance/time_graphical_lasso_.py: time_graphical_lasso", "covariance/kernel_time_graphical_lasso_.py: kernel_time_graphical_lasso"]}
{"id": "C197", "title": "The paths of the penalties over time", "statement": "At the resting states: a larger alpha never gives a larger sum of l1 norms; a larger beta never gives a larger sum of the penalties of the changes; a larger tau never gives latent_graphical_lasso a latent part of larger trace. When the penalty of the changes grows linearly along rays, sum n_t trace(S_t K_t) + alpha sum ||K_t||_1 + beta sum psi(K_t+1 - K_t) is the number of variables times sum n_t.", "quantifier": "every stack of symmetric covariances, weights, pairs of penalties and rho", "why_tests_cant": "compares the limits of pairs of runs for all inputs", "anchors": ["covariance/time_graphical_lasso_.py: time_graphical_lasso", "covariance/latent_graphical_lasso_.py: latent_graphical_lasso"]}
{"id": "C198", "title": "When no latent variable is found", "statement": "When tau exceeds the number of variables times alpha, every resting state of latent_graphical_lasso has latent part zero and its observed part is the estimate without latent variables; so it is for latent_time_graphical_lasso at all times when moreover the penalty of the changes is subadditive and a change of the latent part costs at least what the same change of the observed part costs.", "quantifier": "every symmetric covariance, penalties with tau > n alpha, rho", "why_tests_cant": "a threshold valid for all inputs", "anchors": ["covariance/latent_graphical_lasso_.py: latent_graphical_lasso", "covariance/latent_time_graphical_lasso_.py: latent_time_graphical_lasso"]}
{"id": "C199", "title": "Prior constant of the G-Wishart scores", "statement": "Expected: the Laplace scores of a graph (GWishartScore with scoring laplace or diaglaplace, the default of bayesian_graphical_lasso) compare the posterior normalising constant with the one of the prior the caller gave, so that graphs are weighed by that prior. Settled: the prior mode is fitted on an array with no rows. Where the empirical covariance refuses such an array, every laplace and diaglaplace score raises, for every data set, graph, degrees of freedom and scale matrix. Refuted: where it returns nan, an optimiser that stays where the gradient is zero returns the identity, so that the prior constant does not depend on the scale matrix S0 and the score of every graph is the one of an identity prior mode; with the prior of bayesian_graphical_lasso (S0 = I and n_dim + 2 degrees of freedom), whose true mode is n_dim times the identity on every graph, the score is higher than the one with the true constant by (n_dim^2/2 + dof) log n_dim, where dof counts the free entries of the graph: each further edge is favoured by log n_dim. The posterior side is right: an optimiser that ends at a stationary positive definite point gives the mode of the posterior, and the posterior constant is Laplace's approximation there up to a number that does not depend on the graph.", "quantifier": "every data set, graph, degrees of freedom, scale matrix and numerical back end (svd, Cholesky, optimiser) meeting its specification", "why_tests_cant": "a test fixes one graph and one prior, and the score has no reference value; that the constant ignores the prior on every graph, and by how much the score is wrong, is a statement about all of them", "anchors": ["regain/bayesian/gwishart_inference.py: GWishartFit, GWishartScore, bayesian_graphical_lasso"]}
{"id": "C200", "title": "Fitting a given graph with the graphical lasso (GWishartFit, mode gl)", "statement": "With mode='gl' (the default of bayesian_graphical_lasso) GWishartFit calls the graphical lasso with penalty 0 on the pairs of the graph and infinity elsewhere. After however many iterations the returned precision is exactly zero outside the graph. The points where the iteration rests are exactly the maximum likelihood estimates given the graph: positive definite, zero outside the graph, with an inverse equal to the (posterior) covariance on it. When the solver stops without warning after its first iteration, the returned matrix agrees on the graph with a positive definite K, whose entries outside the graph have Frobenius norm at most n_dim tol + tol max(|K|, |P|) and whose inverse differs from the covariance on the graph by at most n_dim tol + tol |(K^-1 - C) outside the graph|, tol = 1e-4.", "quantifier": "every data set, graph, prior scale matrix and degrees of freedom, every eigendecomposition, every number of iterations and every step size history", "why_tests_cant": "tests run a few graphs to convergence; the exact zeros, and that the stopping rule bounds the violation of the likelihood equations whatever the history of the penalty parameter, concern all runs", "anchors": ["regain/bayesian/gwishart_inference.py: GWishartFit", "regain/covariance/graphical_lasso_.py: graphical_lasso", "regain/prox.py: soft_thresholding_off_diagonal"]}
{"id": "C201", "title": "display_topics lists the heaviest words", "statement": "For every topic, display_topics returns the n_top_words names of largest weight by decreasing weight (all of them when the vocabulary is smaller, none for 0), each word once, with its own weight; with print_docs the n_top_documents documents of largest weight in the column of the topic are printed in decreasing order, and without it none. It raises nothing when there is a name for every word, a column for every topic and, if documents are printed, a document for every row. Without a column for every topic it returns nothing.", "quantifier": "every pair of matrices, names, documents and numbers, whatever order argsort gives to equal weights", "why_tests_cant": "the slice [: -n - 1 : -1] has boundary cases in n (0, the size of the vocabulary and beyond) that a test fixes one by one", "anchors": ["regain/utils.py: display_topics"]}
{"id": "C202", "title": "What the graph plots draw", "statement": "Expected: plot_graph_with_latent_variables shows the first n_latents nodes as latent variables. Refuted: it draws them in red and then draws every node, opaque and of the same size, over them, so that what is seen at every node is the same for every n_latents; n_observed is not used. Settled: a line is drawn for each pair with a nonzero entry of the adjacency matrix on either side, once; more latent variables than nodes are refused. plot_meinshausen_yuan draws a segment for every nonzero entry of theta: an edge of a symmetric matrix twice, and a point for every nonzero diagonal entry.", "quantifier": "every adjacency matrix and every number of latent and observed variables", "why_tests_cant": "a test of a plot compares no pixels; that the latent nodes are hidden for every graph is a statement about the order of drawing", "anchors": ["regain/plotting/graph.py: plot_graph_with_latent_variables, plot_meinshausen_yuan"]}
{"id": "C203", "title": "The Bayesian graphical lasso: the estimate and the fitted estimator", "statement": "Whatever the random choices, the estimate of bayesian_graphical_lasso is symmetric, and zero at every pair (i, j) for which one of the two entries is below the tolerance in the estimates of the graphical lasso for all alphas; only n_resampling=0 or top_n=0 give nan. With the Laplace scores it is the mean of the fits of min(top_n, n_resampling) of the drawn graphs, and no graph left out has a larger score. Expected: it can be computed with the default scoring, and a fitted BayesianGraphicalLasso has the attributes its documentation lists and can be scored. Refuted: where the empirical covariance of no samples is refused, every scoring but bic raises for every data; and fit sets precision_ only, so covariance_, n_iter_, score, mahalanobis and error_norm raise AttributeError, which all work on the GraphicalLasso it derives from.", "quantifier": "every data set, list of graphical lasso estimates, tolerance, random choice, number of graphs, mode, scoring and solver", "why_tests_cant": "the graphs are drawn at random and the fits come from iterative solvers; a test sees one draw", "anchors": ["regain/bayesian/gwishart_inference.py: bayesian_graphical_lasso, GWishartScore, BayesianGraphicalLasso.fit"]}
{"id": "C204", "title": "The posterior from which the inverse width of the Wishart process is sampled", "statement": "Expected: the kernel's inverse width is sampled from its posterior given the draws of the Gaussian process, which have mean zero (sample_gp). Refuted: the density is evaluated around the mean of the draws themselves, so that it does not change when the same function of time is added to all draws, and with a single draw the data have no influence at all. Settled: with k draws of mean m and kernel matrix K, the sampled log posterior is that of the model plus (k/2) m' K^-1 m, so they agree exactly when that term does not depend on the width, as for draws of mean zero.", "quantifier": "every set of draws, kernel, prior and width", "why_tests_cant": "a test would have to compare an acceptance probability with the density of a Gaussian process for all draws", "anchors": ["regain/bayesian/sampling.py: sample_hyper_kernel"]}
{"id": "C205", "title": "The scores of the Markov blankets", "statement": "For positive penalties, the score of every blanket lies between 0 and the number of penalties; the empty blanket has the least score, 0, unless the variable is constant. The normalised scores of each variable are probabilities, and none is more than exp(number of penalties) times another: with k blankets and the three penalties that bayesian_graphical_lasso uses, every blanket is drawn with a probability of at least exp(-3)/k, however well another one predicts the variable.", "quantifier": "every data set, list of blankets, list of positive penalties and lasso solver that minimises its objective", "why_tests_cant": "the bound holds because the lasso is never worse than the constant prediction on its own data, for every data set", "anchors": ["regain/bayesian/gwishart_inference.py: score_blankets"]}
{"id": "C206", "title": "plot_roc_comparison and plot_precision_recall_comparison can be called", "statement": "Expected: the two comparison plots draw what plot_curve draws in their mode, with a warning that they are deprecated. Refuted: they are decorated with scikit-learn's deprecated without parentheses, which replaces each by an instance of the decorator: no call of them draws anything, and every call with other than one argument, in particular with the truth and the predictions, raises TypeError; with one argument they only decorate that argument. Settled: with parentheses, as in the other uses in the package, the decorated function does what its body does.", "quantifier": "every body of the function and every list of positional and keyword arguments", "why_tests_cant": "no test calls them; that no call at all works is a statement about every argument list", "anchors": ["regain/plotting/results.py: plot_roc_comparison, plot_precision_recall_comparison"]}
{"id": "C207", "title": "Estimators store the parameters they are given, so that get_params, clone and grid searches work", "statement": "Expected: for every estimator, get_params returns the arguments of the constructor and clone makes an unfitted estimator with the same parameters. Settled: this holds for nineteen estimators, and for exactly those; their clones have parameters of the same contents. Refuted: WishartProcess and PrecomputedDiscriminantAnalysis do not store some of their arguments, so that get_params and clone raise AttributeError whatever the arguments; SimilarityTimeGraphicalLasso and SimilarityTemporalIsingModel ignore ker_param, which is always 1; a GroupLassoOverlap can be cloned if and only if it was given groups, otherwise clone raises RuntimeError; GraphicalModelStabilitySelection replaces the cv it is given and can never be cloned.", "quantifier": "every list of arguments of the constructors, and every identity of the objects among them", "why_tests_cant": "tests construct the estimators with a few arguments, and never clone those that fail", "anchors": ["regain/covariance: __init__ of the estimators", "regain/bayesian/wishart_process_.py: WishartProcess.__init__", "regain/discriminant_analysis.py: __init__", "regain/linear_model/group_lasso_overlap_.py: GroupLassoOverlap.__init__", "regain/model_selection/stability_optimization.py: GraphicalModelStabilitySelection.__init__", "regain/generalized_linear_model: __init__ of the estimators"]}
