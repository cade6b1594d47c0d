# Formal model of fdtomasi/regain in Rocq: design

Source: `/repo/regain` (python, pinned commit), read as text, never executed.
Model, specifications and proofs: `/verif/rocq/theories`, logical name `Verif`.

## 1. Layout

| prefix | contents |
|---|---|
| `RStruct.v`, `RMx.v`, ... | mathematics only (Coq's `R` as a mathcomp real closed field, matrix lemmas) |
| `M_*.v` | models: one Coq definition per python function, each with a comment citing file and lines |
| `S_*.v` | specifications: what a property means, independent of the model's helpers |
| `P_*.v` | proofs |
| `T_*.v` | property theorems only: each closed by one lemma, with `Print Assumptions` and a non-vacuity `Example` |

## 2. Modelling decisions

* **Numbers.** Arrays of float64 are matrices/functions over Coq's real numbers `R`. Rounding, overflow and
  denormals are **not** modelled. Where the code can divide by zero and numpy would produce `inf`/`nan` and go on,
  the model uses an explicit extended type (`Fin r | PInf | NInf | NaN`) so that the special value is visible.
* **Arrays.** A 2-d array is a mathcomp matrix `'M[R]_n` (n arbitrary), a 3-d array a finite function from the time
  index to matrices. Ragged/variable-length data are lists.
* **Exceptions** are values of an explicit sum type.
* **Loops**: `for iteration_ in range(max_iter)` with `break` is structural recursion on the number of iterations
  left; the python `else:` clause (warning) is a flag in the result.
* **External calls** are explicit arguments of the model (never axioms), with a specification hypothesis in the
  theorems that need one: `np.linalg.eigh` (orthonormal eigendecomposition of a symmetric matrix), `linalg.pinvh`,
  `prox_tv` solvers (TV prox), `scipy.optimize.minimize`, `numpy.random` (stream of numbers), sklearn splitters.
  Satisfiability of the `eigh` hypothesis is itself proved (spectral theorem for real symmetric matrices).
* **Mutation**: numpy in-place updates are modelled by their value semantics; where aliasing is observable
  (`zold = z`) the model represents the alias. `A += A.T` is `A + A^T`: numpy detects the overlap of the two
  views and buffers (since 1.13).

## 3. Property by property

| property | modelled | how proved |
|---|---|---|
| C01, C02, C05 | `soft_thresholding`, `soft_thresholding_off_diagonal`, `prox_laplacian`, entry by entry | quadratic lower bound f(x) >= f(x*) + (x-x*)^2/2, summed over entries |
| C03 | `prox_logdet` with `eigh` as argument | X* commutes with A, A + X*/lam = X*^-1, concavity of log det (proved by Schur complements) |
| C04 | `prox_trace_indicator` | Moreau decomposition, trace of a product of PSD matrices is non-negative |
| C06 | `soft_thresholding_vector`, blockwise variants, extended reals | Cauchy-Schwarz; NaN cases by evaluation |
| C07 | `check_norm_prox` as decision function; `node_penalty` as the exact minimum of its scipy problem; `prox_node_penalty` update by update | cases; counterexample matrices for 'l2', 'linf'; node: Cauchy-Schwarz for the value, linear algebra on the fixed-point equations |
| C08 | pair update | change of variables sum/difference |
| C09 | `prox_FL` with TV oracle | TV(y)=TV(S y)+TV(y - S y), subgradient inequality |
| C10, C11 | `update_rho`, `update_gamma` | case analysis, induction on history |
| C12-C18 | `graphical_lasso` loop in full (state, residuals, tolerances, history, flags) | invariant; fixed-point/KKT; Lyapunov function; counterexamples for C15 (first iteration), C16 |
| C19 | same, two different eigh oracles | simulation relation, using uniqueness from C03 |
| C20, C21 | `latent_graphical_lasso` | invariant; KKT |
| C22-C26 | `time_graphical_lasso` | invariant; KKT; generic two-block ADMM Lyapunov; simulation under reversal |
| C27, C69-C73 | `latent_time_graphical_lasso`, `kernel_latent_time_graphical_lasso`, `latent_time_matrix_decomposition` | one generic three-block core (P_LatCore, P_Lat2) instantiated three times: invariants; KKT; separation theorem for the multipliers; strict convexity |
| C28, C63-C67 | `kernel_time_graphical_lasso` | invariants; KKT; ADMM Lyapunov; simulation; strict convexity |
| C68 | the three convex solvers | strict concavity of log det at midpoints |
| C29, C30, C49, C74, C75 | `GraphicalLasso.fit`, `TimeGraphicalLasso.fit`/`score`, `DiscriminantAnalysis.fit`, sklearn `empirical_covariance` | permutation lemmas on lists; composition with the solver theorems |
| C135 | `infimal_convolution`, whole loop | KKT conditions both ways; invariant rho*U = theta*S for the zero result; compactness for existence |
| C136 | `missing_graphical_lasso` whole, rows as functions to `option R`, meshgrid indexing spelled out, `pinv` a parameter | normal equations of the conditional mean; congruences for the covariance; induction over the iterations; a two-iteration run for the refutation |
| C137 | `make_multiclass_dataset` and `generate_multiple_class_dataset`, graphs and draws as arguments | invariant over the classes; explicit graphs for the refutations |
| C138 | `make_dataset` and its three cases, the generators as functions of the mode | case analysis on distribution and mode; row/label bookkeeping by induction |
| C139 | `make_fede`, `make_sparse_low_rank` | invariant c+t <= sigma, lamda < c+t over the times; threshold perturbation bounded by epsilon*p; explicit 3x3 and 2x2 witnesses |
| C140 | the temporal Poisson fit over the common temporal loop | invariant over the iterations; optimality of a fixed point of the proximal step with the coupling |
| C141 | the loops of the three static and two temporal fits with their histories | induction on the iterations, invariant "history of k iterations" |
| C142 | `lognormal_pdf`, `lognormal_logpdf`, `log_lik_frob` | derivative of a composition; logarithm identities; a primitive of the normal density from Coquelicot's integral for the example |
| C143 | the choice of the kernel in the four kernel estimators and the two Similarity ones | case analysis; monotonicity of exp; sine at multiples of pi; C66 |
| C144 | the alternating loop of ker_param="auto", `objective_kernel` | invariant of the loop; strict monotonicity of the criterion, exp(-x) <= 1/x for its limit |
| C145 | both `precision_similarity` | minimum and maximum over all pairs |
| C146 | the loops of SimilarityTimeGraphicalLasso and SimilarityTemporalIsingModel | invariant "the matrices are solved for the kernel of the labels"; order reversal for the clustering |
| C147 | `SimilarityLatentTimeGraphicalLasso._fit` | equality of the two programs |
| C148 | `fit`, `score`, constructor of the temporal Ising and Poisson estimators | case analysis over all data |
| C149 | `read_network` | invariant of the loop over rows; sum-of-squares identity for diagonally dominant matrices |
| C150 | `retain_top_n`, `top_n_indexes`; argpartition as an argument | exchange argument with the pivot value |
| C151 | `logentropy_normalize` | Gibbs' inequality from log x <= x - 1 |
| C152 | `alpha_heuristic` | scaling of the graphical lasso objective |
| C153 | `error_norm_time`, `error_rank` | sums of squares; zip and broadcasting |
| C154 | `check_input`, `check_input_3d`, `check_array_dimensions` | case analysis, lists of any length |
| C155 | `graph_k_means` | induction over the rounds with the invariant "representatives are the update of the previous labels" |
| C156 | the decision function of the discriminant analysis | uniqueness of the positive semidefinite square root; spectral form of the singular value decomposition |
| C157, C158 | `GroupLassoOverlap.fit` and the classifier (solver as an argument) | loop over targets by induction; algebra of centring and scaling |
| C159 | `glo_prox`: screening, projected Newton with line search, primal point (pinv as an argument) | nonnegativity and descent by induction on the loops; KKT conditions give the projection on the cylinders |
| C160 | `glopridu_algorithm` (proximity step as an argument) | energy of the accelerated method decreases along the loop |
| C161 | `make_cluster_representative`: positions, series, list of matrices | arithmetic of the positions; induction on the list of segments |
| C162 | the steps between two representatives (shuffle and random numbers as arguments) | what a fold over the drawn entries writes; counting; induction on the steps |
| C163 | the representatives and what pinvh reads | diagonal dominance; explicit graphs on six nodes |
| C164 | labels of `make_ticc_dataset` and `make_ticc_dataset_new` | arithmetic of np.repeat; list lemmas |
| C165 | the samples of `make_ticc_dataset` (multivariate_normal as an argument) | block inverse |
| C166 | matrix and samples of `make_ticc_dataset_new` | Schur complement of the future keeps the band; uniqueness of the regression; induction on the series |
| C167 | `make_ticc_dataset_v3` | the band lemma with band 0 |
| C168 | `genInvCov`, `genRandInv` | counting |
| C169 | `graphlet_instability` (netanalytics as arguments) | induction on the list of estimators, double counting |
| C170 | the sampling size of `fit`, as a state kept between fits | integer square root and division |
| C171 | the product of candidates and splits, `_store`, the masked arrays | index arithmetic; fold invariants |
| C172 | the choice of best_index_ | rank lemmas of C32 |
| C173 | `_compute_probabilities`, `_permute_locations` with the draws as arguments | monotonicity of exp and sqrt |
| C174 | `data_Meinshausen_Yuan_sparse_latent`, all times, exceptions as values | diagonal dominance with a margin, Cauchy inequality for C' theta_H^-1 C, Schur complement |
| C175 | the same | direct computation |
| C176 | `prox_linf_1d`, its objective and the Matlab reference of its docstring | projection on the l1 ball, duality, strong convexity |
| C177 | `plot_cov_2d`, `plot_cov_ellipse`, their curves and limits | spectral decomposition, polar coordinates |
| C178 | `_get_idx_interv`, `dist`, `_deCasteljau`, `_BezierCv`, the points of `lines_chord` | induction on the steps of the algorithm, Bernstein weights |
| C179 | `save_pickle`, `load_pickle` on a file system | case analysis |
| C180 | `suppress_stdout` in a language of prints, exceptions and nesting | induction on programs |
| C181 | `init_logger` on the state of the root logger | case analysis, induction on filters |
| C182 | `first_derivative_h_version2`, `second_derivative_h_version2` with IndexError as a value | trace identities, concavity, C96 |
| C183 | `objective_similarity`, lag by lag | reindexing of lags to pairs, position in the strict upper triangle |
| C184 | `x_update` as a bounded bisection | monotone secular function, invariant of the bisection, KKT |
| C185 | first statements of `group_lasso_feat_split`, all calls of `_overlapping_group_lasso` | case analysis |
| C186 | `marginals`, `predictive` as parameters of a t distribution | matrix determinant lemma, telescoping multigammaln |
| C187 | `_rbf_kernel`, `_periodic_kernel` | Schur product theorem, entrywise exponential as a limit, Lagrange polynomials for definiteness |
| C188 | `write_network` as lines of cells, `read_network` on them | C149's table lemma, parity of the number of rows |
| C189 | `plot_roc_curves`: interpolation, mean, band, areas | monotone interpolation, trapezoid bounds |
| C190 | `fit`, `_fit_score`, `plot_acquisition` with an arbitrary strategy | invariant of the history, argmin with nan |
| C191 | `lines_straight`, `plot_network`: traces, node texts, exceptions | segments of gapped polylines, induction on the edges |
| C192 | `circular_layout`, centre, label positions, angles, label lookup of `plot_circular` | trigonometry of the n-gon |
| C193 | `M_PlotCurve.v`: the loop over the keys with the reassigned `true`, the folds and the means | induction over the keys with the invariant that the carried truth has the same binary entries; reduction to C189 for the ROC mean; witnesses |
| C194 | resting states of the model of C13 | changing the signs of the entries between two groups preserves the objective up to the cross terms; midpoint concavity of log det; uniqueness (C68); first order conditions entry by entry |
| C195 | as C194 | exchange argument for two penalties; sum of the first order conditions; scaling of the objective |
| C196 | resting states of the models of C22, C65 | the averaged estimate with the cross entries removed is no worse, by convexity and blindness to signs; uniqueness of the optimum (C68) |
| C197 | resting states of the models of C22, C20 | exchange argument; scaling all slices by c > 0 and ln c >= 1 - 1/c |
| C198 | resting states of the models of C20, C27 | moving L into K: the l1 norm of a positive semidefinite matrix is at most n times its trace |
| C199 | gw_fit, gw_constant, gwishart_score in M_GWPrior: GWishartFit on no rows, the two constants, the score | case analysis of the call on no rows; constants on a multiple of the identity by determinants of scalar blocks |
| C200 | glx_updates, glx_body, graphical_lasso_x, gw_fit_gl in M_GWGL: the solver with a matrix of penalties | the dual variable vanishes on the graph at every iteration, so the dual residual is the gap of the likelihood equations on the graph |
| C201 | slice_back, topic_words, top_documents, display_topics in M_Display | the slice as a prefix of the reversed list; sortedness of prefixes |
| C202 | plot_graph, plot_meinshausen in M_Display: the discs and lines in the order of drawing | the last disc of each node |
| C203 | gw_fit_mode, gw_score_mode, bayesian_graphical_lasso, bgl_fit, works in M_BGL | both modes give a symmetric matrix on the graph (C200); blankets (C93) through the resampling and the mean |
| C204 | width_logp_post in M_Width | expansion of the quadratic form around the mean |
| C205 | score_blanket, score_blankets in M_ScoreBl; normalized_scores in M_GWishart | comparison of the lasso objective with the constant prediction; residuals around the mean |
| C206 | deprecated_class, decorate, call, bare_decorator, called_decorator in M_Deprecated | case analysis of the argument lists |
| C207 | act, construct, get_params, copies, clone, storing, ctor_*, constructors in M_Ctor | case analysis of the constructors, induction over the arguments |
| C100 | the loops of the covariance solvers | induction on the iterations |
| C76, C77 | returned covariance; rho update | stationarity equations; KKT points are invariant under rescaling |
| C31-C33, C60, C61 | `global_instability`, `upper_bound`, `_format_results`, `_check_param_order` | list induction; counterexamples |
| C34, C35, C57, C58 | `structure_error`, `mean_structure_error` | counting; counterexample |
| C36-C38, C45, C46, C52, C55, C56 | utilities | induction, algebra |
| C39 | `build_adjacency_matrix` | loop invariant; counterexample for union |
| C40, C41, C78 | `_gradient_ising`, `_fit`, `IsingGraphicalModel.fit` | counterexample; invariant; proximal gradient descent lemma with the curvature bound of log cosh (Calc), potential argument for termination |
| C82 | `glm_time_ising` solver (and `glm_time_poisson`, modelled only) | invariant over the loop; relation between two runs; concrete runs for the refutations |
| C79-C81, C83 | `glm_gaussian`, `glm_poisson` node-wise solvers and estimators | derivatives from the standard library's analysis; line search by a bound on the iterates; divergence by induction |
| C42, C84, C85 | `wishart_distribution_.py` | algebra on sums, completing the square; log-det tangent inequality; computation |
| C43, C86-C92 | `sampling.py`, `stats.py`, `wishart_process_.py` with random numbers as arguments | invariants over the loops; algebra of exp/log; rank argument; a computed run |
| C47, C48, C59, C62 | `clustering.py`, `scores.py` | finite set algebra |
| C101 | existence of minimisers for all covariance solvers | Bolzano-Weierstrass on finitely many coordinates (BW, Exist), bounded level sets by the tangent inequality of log det, continuity of finite convex functions |
| C50, C102-C110 | `linear_model/lasso_.py`, `group_lasso_.py`, `group_lasso_overlap_.py` (`cholesky`, `lstsq`, `inv` as arguments) | normal equations (Woodbury), KKT, ADMM Lyapunov, loop invariants, concrete runs for the refutations |
| C51, C111-C120 | `forward_backward/*.py` (1-D total variation solver, `pinvh`, Cholesky test as arguments) | loop specifications; subgradient inequality of the proximal step; second order expansion of log det on matrices bounded below (P_FB2); bounded level sets; pigeonhole on the decreases; concrete runs for the refutations |
| C44, C121-C125 | `datasets/ising.py`: the samplers and the generator with random numbers as arguments; probabilities as expectations over independent uniform numbers seen through cut points (S_Prob) | heat-bath operators: the Ising law is invariant (pairing a configuration with its flip), a minorisation gives geometric mixing; coupling of partial configurations for CFTP, regeneration events for its running time; concrete two-variable runs for the refutations |
| C53, C129-C134 | `datasets/gaussian.py` and `datasets/kernels.py`: the generators, random numbers as arguments, Cholesky and eigendecomposition as functions with their specification; floats idealised as reals | diagonal dominance gives positive definiteness; Schur complements; invariants over the times; concrete runs for the refutations |
| C126-C128 | `datasets/poisson.py`: generator and samplers with random numbers as arguments | invariants over the passes; counting identity |
| C54, C93-C99 | `bayesian/gwishart_inference.py`, `_laplace_approximation.py` (sort, unique, svd, cholesky, optimiser result as arguments) | bijection with bit strings; tangent inequality of log det; congruence by the square root of the inverse |

Claims which the code does not satisfy are proved false: a theorem with suffix `_refuted` exhibits the witness, and the
finding is listed in section 5.

## 4. Trusted base

* Coq 8.16.1's kernel (and the definitions of the mathcomp library and, in `Gauss1.v` only, of Coquelicot, which add no axioms).
* Standard library axioms reported by `Print Assumptions` beneath each theorem: the classical real numbers
  (`ClassicalDedekindReals.sig_forall_dec`, `ClassicalDedekindReals.sig_not_dec`),
  `FunctionalExtensionality.functional_extensionality_dep`, `Epsilon.epsilon_statement`,
  `ClassicalEpsilon.constructive_indefinite_description`
  (choice operator for `R` as a mathcomp `choiceType`) and `Classical_Prop.classic` (from the library's
  `ln`, `sqrt` and completeness lemmas). No others, none of our own.
* The faithfulness of the model to the python text, and of the specification hypotheses to the external libraries.

## 5. Findings

Each finding is a theorem with suffix `_refuted` (or a positive theorem stating what the code does instead).

| finding | theorem |
|---|---|
| `check_norm_prox('l2')` pairs the Frobenius norm with the prox of the sum of column norms; 'linf' likewise does not match | `C07_*_refuted` |
| Group soft-thresholding with lamda = 0 turns an all-zero column into NaN | `C06_*` |
| `graphical_lasso` measures the first dual residual against zeros, so it can stop after one iteration arbitrarily far from the optimum without a warning | `C15_first_iteration_refuted` |
| over-relaxation has the wrong sign (`K_hat = a*K - (1-a)*Z`): with over_relax in (1,2) no stationary point is an optimum | `C16_over_relaxation_refuted` |
| `n_iter_` of `graphical_lasso`, `latent_graphical_lasso` and the latent time solvers is one less than the number of iterations performed; `time_graphical_lasso` reports it correctly, with a history one entry longer | `C17_*` |
| `max_iter=0` raises UnboundLocalError when `return_n_iter` | `C18_*` |
| `latent_graphical_lasso`, `time_graphical_lasso` soft-threshold the diagonal: their stationary points never minimise the documented (off-diagonal) objective when alpha > 0 | `C21_documented_objective_refuted`, `C23_documented_objective_refuted` |
| `kernel_time_graphical_lasso` and the three latent time solvers soft-threshold the diagonal as well | `C63_documented_objective_refuted`, `C73_*_refuted` |
| `time_graphical_lasso` and `kernel_time_graphical_lasso` evaluate the recorded objective with K and Z_0 swapped: it can record +inf while the documented value is finite | `C26_time_objective_refuted`, `C26_kernel_time_objective_refuted` |
| `kernel=None` means the identity, which has no entry above the diagonal: the times are not coupled | `C66_default_kernel_decouples` |
| stability selection takes the running maximum of the instabilities strictly before each candidate: it selects the candidate after the last stable one and never looks at the last instability | `C32_last_stable_refuted`, `C32_last_ignored` |
| if every candidate is unstable, stability selection still selects the first one, with score -inf | `C32_none_stable` |
| a list of parameter grids is merged into one dict: shared names keep only the last grid's values | `C33_merged_refuted` |
| `structure_error(..., no_diagonal=True)`: accuracy of a perfect prediction is below 1 | `C35_accuracy_refuted` |
| `structure_error` raises ZeroDivisionError exactly when the reference has no edge | `C34_raises` |
| `build_adjacency_matrix('union')` averages inside its loop: wrong weights, edges can cancel | `C39_union_*_refuted` |
| `convert_data_to_2d` raises for matrices with different numbers of rows | `C52_ragged_raises` |
| `error_norm(nonzero=True)` compares the zero entries | `C56_nonzero_refuted` |
| `structure_error['mcc']` ignores negative edges | `C57_negative_edges_refuted` |
| `mean_structure_error` always raises KeyError('mcc') | `C58_mean_structure_error_refuted` |
| `graphical_lasso` returns the empirical covariance as `covariance_`: it is not the inverse of `precision_` | `C76_graphical_lasso_refuted` |
| `DiscriminantAnalysis` stores user-given priors unchecked (documented to sum to one) | `C49_given_priors_refuted` |
| the clustering kernel is NaN for a graph at distance 0 from every representative | `C59_degenerate` |
| EBIC does not penalise more than BIC with its default arguments; EBIC_m is below the penalty of EBIC for two variables and NaN for one | `C62_*_refuted` |
| the Ising gradient returns inside its loop over samples: only the first sample is used | `C40_first_sample_only`, `C40_every_sample_refuted` |
| `Gaussian_GLM_GM` ignores gamma, tol, rtol and max_iter; its fixed step size diverges on unscaled data | `C81_gaussian_arguments_refuted`, `C80_scaled_data_refuted` |
| the Poisson line search with a coupling matrix can reject every step size and never return | `C79_coupled_refuted` |
| the temporal Ising solver uses the first sample of each time, records the likelihood with the wrong sign, and adds a ridge: with one time point it does not return the Ising fit | `C82_first_sample_only`, `C82_objective_sign_refuted`, `C82_uncoupled_refuted` |
| the object returned by the normal-inverse-Wishart `posterior` stores a 2-D location: `log_likelihood` and `sample` raise ValueError | `C85_posterior_usable_refuted` |
| `elliptical_slice` multiplies log u by 0.001: it samples the 1000th power of the likelihood | `C86_tempered`, `C86_documented_slice_refuted` |
| `wishart_process_.fit` reuses one prior draw: samples are multiples of it | `C90_samples_are_scaled_prior_draws_refuted` |
| `wishart_process_.fit` appends the same array L__ at each iteration: Lmap is the last factor | `C89_stored_factors_refuted`, `C89_learnt_factor_refuted` |
| `WishartProcess` uses one degree of freedom: its covariances are singular | `C91_singular_refuted` |
| `t_mvn_logpdf` multiplies the log-likelihood of each time by its number of samples | `C92_loglik_refuted` |
| `covsel` is unbounded below over the vectors its optimiser visits: only the sign of the determinant is tested (even dimension) | C95_unbounded_refuted |
| the matrix used for the Laplace score is not the Hessian: diagonal parameters are doubled; the constant it adds does not depend on the graph, so rankings are unaffected | C96_is_hessian_refuted, C96_hessian_doubled, C99_laplace |
| `GWishartScore` without `S0` raises ValueError unless n_samples = n_dim (np.cov on the wrong axis) | C97_default_prior_refuted |
| `lasso` returns a pair always; with return_history only the last entry | C104_pair_refuted, C104_history_refuted |
| `group_lasso` thresholds entry by entry: it solves the lasso, not the group lasso | C105_stationary_is_lasso, C105_group_problem_refuted |
| `group_lasso`: `zold` aliases `z`, the dual residual is always 0 and a run may stop after one iteration | C106_dual_residual_refuted, C106_arbitrarily_bad_refuted |
| `group_lasso` rejects partitions that are not listed in order and accepts some lists that are not partitions | C107_partition_rejected_refuted, C107_non_partition_accepted_refuted, C107_no_groups_accepted_refuted |
| `group_lasso_overlap`: the x-update ignores the consensus and thresholds entry by entry: resting states solve an l1 problem | C108_stationary_is_l1, C108_group_problem_refuted |
| `tgl_forward_backward` can return negative definite precisions: the line search only tests the loss, finite when the determinant is positive | C115_negative, C115_refuted |
| `tgl_forward_backward(choose='lamda' or 'both')` always raises TypeError (`choose_lamda` has no argument `vareps`); so does the default n_samples=None; one time point always raises | C116_type_error, C116_single_time |
| the number of line searches returned is always 0 | C117_n_linesearch |
| an exhausted step length search returns a step length that is not the one of the point returned | C51_exhausted_refuted |
| coupling from the past with responses (-1, 0) does not sample from the Ising law (the brackets are reversed); it ignores `constraints` and `max_chain` | C44_brackets_refuted, C44_fixed_refuted, C122_responses_refuted, C122_never, C122_no_sweeps |
| direct sampling doubles the coupling, draws without replacement, always returns 10 columns | C123_law, C123_exhausted, C123_rows |
| `ising_sampler(method='MH', n=1)` returns a vector, n=0 raises IndexError; the caller's theta is modified | C124_returns |
| `update_ising_l1` writes on the diagonal and changes more entries than asked; one variable: never ends | C125_diagonal_refuted, C125_one_variable |
| `make_covariance`: the observed precision is repaired at the first time only; later it may be indefinite; one variable: never ends | C53_observed_refuted, C53_one_variable |
| Poisson `update_l1` removes more edges than asked; one variable: never ends | C126_count_refuted, C126_one_variable |
| Poisson sampler: weighted graphs raise ValueError | C127_weights_refuted |
| Meinshausen-Yuan with many latent variables fails its own assertion | C129_many_latents_refuted |
| `make_fixed_sparsity` does not fix the sparsity | C131_sparsity_refuted, C131_all_moved |
| `make_sin_cos` returns the observed precision of the last time only | C132_sin_cos_refuted |
| `make_ma_xue_zou_rand_k` overwrites its positive definite matrix by a possibly singular one | C133_rand_k_refuted |
| `node_penalty` constrains only the sum of the entries of V + V^T - X, so it is zero on nonzero matrices | C07_node_penalty_value, C07_node_penalty_refuted |
| `prox_node_penalty` transposes once too often: W drops out of one update and is doubled in another; its resting states do not solve the documented problem; `rho` is unused; max_iter=0 returns the constant 1/n | C07_node_stationary, C07_node_prox_refuted, C07_node_zero_iterations |
| `infimal_convolution` solves a least-squares problem, not the documented likelihood problem; for small covariances it returns zero matrices | C135_documented_problem_refuted |
| `missing_graphical_lasso` divides the imputed values by their largest absolute value, uses column sums as means, and divides the covariance by its largest entry: imputed values never exceed 1, the estimate ignores the scale of the data | C136_observed_kept, C136_imputation_refuted, C136_complete_data, C136_scale_refuted |
| `missing_graphical_lasso` ignores its `init` argument, stores the function `logl` in its history, and raises UnboundLocalError for max_iter=0 whatever the flags | C18_missing_graphical_lasso_zero_iterations |
| `make_dataset`: the documented modes evolving, fixed, l1, l1l2 raise ValueError; my, mys, ticc are listed but unusable; sincos yields one time only; `degree` has no effect for Ising and Poisson data | C138_modes_refuted, C138_sincos_refuted, C138_degree_refuted |
| `make_dataset`, Ising with n_samples=1 and time_on_axis="last": ValueError | C138_ising |
| `make_multiclass_dataset` perturbs with the class index instead of the loop variable: at most one pair added and one removed per class, and the second class only gains a loop | C137_changes_refuted |
| `make_multiclass_dataset`: Gaussian networks need not be positive definite; n_classes=0 returns data without labels; an unknown distribution is ignored | C137_precision_refuted, C137_no_class_refuted, C137_classes |
| `make_fede` thresholds K after fixing its spectrum: the observed precision can lose positive definiteness with the default epsilon | C139_fede_refuted |
| `make_sparse_low_rank` subtracts a low-rank matrix that is not symmetric | C139_symmetric_refuted |
| the temporal Poisson objective adds the log-likelihood instead of subtracting it | C140_objective_refuted |
| the temporal Poisson matrices have a unit diagonal and weigh the two coefficients of a pair by 1/2 and 1/4 | C140_shape |
| the static GLM fits report one iteration less than they did; the Poisson one neither checks nor tests its first iteration | C141_ising, C141_gaussian, C141_poisson |
| an array kernel (the documented type) raises ValueError in four estimators: `self.kernel or np.identity` | C143_array_refuted, C143_array_fit_refuted |
| ExpSineSquared at whole labels is all ones | C143_periodic_refuted |
| the criterion of ker_param="auto" has no minimum over positive parameters | C144_best_refuted, C144_best_limit |
| similarity_matrix_ after the warning is a kernel with 2 on the diagonal | C146_warned_refuted |
| the similarity is clustered as a distance: the most different times are merged | C146_clusters_refuted |
| n_clusters=None is overwritten by the first fit; one time raises | C146_refit_refuted, C146_single_refuted |
| eta has no effect; callable or missing kernel_phi raise | C147_eta_refuted, C147_callable_refuted, C147_default_refuted |
| temporal Ising/Poisson: any two values, negative counts accepted; unequal classes, "auto" and the Similarity Poisson constructor raise; constant score | C148_* |
| read_network: the "positive definite" diagonal is singular for two-colourable networks; upper-triangular files enlarge the frame with nan | C149_posdef_refuted, C149_upper_refuted |
| alpha_heuristic depends on the unit of the data, and uses the density instead of the quantile | C152_units_refuted, C152_level_refuted |
| error_norm_time ignores the extra times of the longer series | C153_lengths_refuted |
| check_input: unequal numbers of samples raise with numpy >= 1.24; time_on_axis ignored for lists | C154_unequal_refuted, C154_axis_refuted |
| graph_k_means: a round can multiply the total distance by the number of graphs; with one cluster the kernel has only 0 and nan | C155_cost_refuted, C155_single_refuted |
| DiscriminantAnalysis: an indefinite class covariance is used as its absolute value without a warning; PrecomputedDiscriminantAnalysis as the estimator raises AttributeError | C156_indefinite_refuted, C156_precomputed_refuted |
| GroupLassoOverlap: positive, precompute, selection, warm_start, n_jobs have no effect, dual_gap_ is always 0 | C157_options_refuted, C157_dual_gap_refuted |
| GroupLassoOverlap with warm_start keeps rows of an earlier fit with more targets; one feature with several targets (or three classes) raises ValueError | C157_stale_refuted, C157_one_feature_refuted, C158_one_feature_refuted |
| the Meinshausen-Yuan generator lets a node choose itself as a neighbour, and its own distance is the smallest: then it chooses at most three others | C129_self_refuted |
| infimal_convolution reports an objective without the diagonal penalty it minimises | C135_objective_refuted |
| glo_prox discards a block by comparing its norm with the square of its radius: wrong result for radii above 1 | C159_screening_refuted |
| glo_prox raises ValueError on a warm start with two multipliers or more, hence glopridu_algorithm (mode="paspal") on every problem with two groups or more | C159_warm_start_refuted, C160_groups_refuted |
| make_cluster_representative returns T + 1 matrices when T // (k + 1) divides T - 1 | C161_count_refuted |
| make_cluster_representative: the matrices are not symmetric, hence not the inverse covariances of the samples | C163_representative |
| make_cluster_representative: matrices that are not positive semidefinite, with degree 3 and between representatives of degree 2 | C163_degree3_refuted, C163_between_refuted |
| make_ticc_dataset accepts sample numbers for which a time mixes clusters (AssertionError); make_ticc_dataset_new returns y shorter than X | C164_check_refuted, C164_new_refuted |
| make_ticc_dataset_v3 ignores w_size: the clusters are independent of each other | C167_window_refuted |
| graphlet_instability raises ZeroDivisionError with one repetition | C169_single_refuted |
| the sampling size is not positive for n <= 10 or too many classes, and a second fit keeps the size of the first | C170_positive_refuted, C170_second_fit_refuted |
| with several scorers the stability selection ignores the instabilities; refit=True raises | C172_several_refuted, C172_flag |
| _compute_probabilities is not symmetric; _permute_locations leaves the unit square | C173_symmetric_refuted, C173_square_refuted |
| data_Meinshausen_Yuan_sparse_latent shifts the links of the latent variables by h nodes | C175_shift_refuted |
| data_Meinshausen_Yuan_sparse_latent raises TypeError for p = 2, h = 1 (a slice with a float) | C175_small_refuted |
| prox_linf_1d with lamda < 0 has two minimisers | C176_negative_refuted |
| plot_cov_ellipse: axis limits cut the ellipse, can be empty; zero covariance gives a circle of radius 0.05 | C177_limits_refuted, C177_negative_refuted, C177_degenerate_refuted |
| plot_cov_2d documents a correlation and returns the covariance | C177_correlation_refuted |
| lines_chord: nodes in the same position get index -1, the parameters of the farthest nodes | C178_coincident_refuted |
| load_pickle does not add the extension that save_pickle adds; a failed save_pickle destroys the old file | C179_same_name_refuted, C179_failed_save_refuted |
| suppress_stdout does not suppress output through a kept file object | C180_kept_file_refuted |
| init_logger raises AttributeError when the root logger has a filter | C181_filter_refuted |
| second_derivative_h_version2 raises IndexError for a zero diagonal entry | C182_zero_diagonal_refuted |
| objective_similarity is linear in theta: no minimum | C183_no_minimum_refuted |
| x_update of the old group lasso is arbitrarily far from the minimiser because t is capped at 1e10 | C184_cap_refuted |
| group_lasso_feat_split raises for every input | C185_feat_split_refuted |
| _overlapping_group_lasso never returns | C185_overlapping_refuted |
| _rbf_kernel: defaults raise TypeError, normalised diagonal | C187_rbf_defaults_refuted, C187_rbf_normalised_refuted |
| _periodic_kernel: inverse_width is the width; all ones at integer times, prediction constant | C187_periodic_width_refuted, C187_periodic_integer_refuted |
| read_network cannot read what write_network writes (header); for odd sizes the smallest entry is lost | C188_header_refuted, C188_odd_refuted |
| plot_roc_curves: the area of the mean curve is never 0 or 1; a matrix raises ValueError | C189_mean_auc_refuted, C189_matrix_refuted |
| _BayesianOptimization: nan is taken for the best score; the given estimator is changed; X and Y not restored on an exception | C190_nan_refuted, C190_estimator_refuted, C190_plot_refuted |
| plot_network with weights raises if a weight is negative; lines_straight with weights drops the third coordinate when dim is not 2 or 3 | C191_negative_refuted, C191_third_dropped |
| plot_circular: the labels are off the circle for every odd number of nodes; edges are named by node, nodes by position | C192_odd_refuted, C192_labels_refuted |
| `plot_curve`: `true` is reassigned in the loop over the keys, so a key with one prediction against a matrix raises ValueError unless a key with several comes before; with several truths such a key always raises; precision-recall curves are drawn with the axes exchanged for one prediction and not for several | `C193_order_refuted`, `C193_list_refuted`, `C193_axes_refuted`, `C193_mean_differs_refuted` |
| The Laplace scores of GWishartScore never use the prior: GWishartFit is called with an empty array for it, which raises or leaves the identity as prior mode; with the prior of bayesian_graphical_lasso each further edge gains log n_dim | C199_refused, C199_identity, C199_edges_favoured_refuted |
| plot_graph_with_latent_variables never shows the latent variables: the red discs are covered by those of all nodes | C202_latents_hidden_refuted |
| a fitted BayesianGraphicalLasso lacks covariance_, n_iter_ and location_, so score, mahalanobis and error_norm raise AttributeError | C203_attributes_refuted |
| sample_hyper_kernel evaluates the density of the draws around their own mean instead of zero: the posterior of the width ignores what the draws have in common | C204_shift_refuted, C204_gap |
| plot_roc_comparison and plot_precision_recall_comparison are decorated with deprecated without parentheses: every call with truth and predictions raises TypeError | C206_bare_refuted |
| WishartProcess and PrecomputedDiscriminantAnalysis: get_params and clone raise AttributeError | C207_missing_refuted |
| SimilarityTimeGraphicalLasso, SimilarityTemporalIsingModel: ker_param is ignored | C207_ker_param_refuted |
| GroupLassoOverlap without groups cannot be cloned | C207_group_lasso |
| GraphicalModelStabilitySelection ignores the given cv and cannot be cloned | C207_stability_refuted |

## 6. Not modelled

Everywhere: floating point rounding (numbers are exact reals, with nan and the infinities where the code can produce them), printing, the
statistical quality of random generators (draws are arguments), the internals of numpy, scipy, scikit-learn and networkx routines (arguments with a
specification, see each theorem), warnings other than the ones named in a theorem, memory and time.

File by file (a file that is not listed is modelled except for the items above):

| file | not modelled |
|---|---|
| bayesian/gwishart_inference.py | the choice of blankets is a random argument; the default alphas |
| bayesian/sampling.py | `get_logp` and the second `logp_post` are inlined in `sample_ell` and `sample_ell_comp` |
| bayesian/wishart_distribution_.py | `main`; the draws inside `sample` |
| bayesian/gaussian_process_.py | the draw itself (numpy's multivariate normal) |
| covariance/*.py | the objective reported with penalty matrices (C200) |
| data/base.py | the contents of the data files |
| datasets/kernels.py | the nested helpers `get_out_zero`, `get_out_diag`, `get_diag` are inlined in the kernels that use them |
| discriminant_analysis.py | `_decision_function2`, which nothing calls |
| generalized_linear_model/base.py, utils.py | `Convergence.__str__` |
| linear_model/group_lasso_overlap_.py | `sparse_coef_` |
| math.py | `create_from_diagonal`, which nothing calls |
| model_selection/stability_optimization.py | `GraphicalModelStabilitySelection.plot` |
| plotting/*.py | colours, fonts, layouts and files; what is drawn is modelled for `plot_curve`, the ROC plots, the covariance and plotly plots and the graph plot |
| wrapper/__init__.py | the Matlab bridge (`lvglasso`, `total_variation_condat`, `group_lasso_overlap_paspal`, `check_matlab_engine`) |
