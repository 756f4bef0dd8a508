{"id": "C01", "title": "Stored data equal the history of updates", "statement": "After the constructor and any sequence of update_gp_data calls that return normally, GP.x_data and GP.y_data hold exactly the points of the most recent overwriting call (or of the constructor if there was none) followed, in call order, by the points of every later append=True call; the two stay row-aligned and the reported number of points equals their common length.", "quantifier": "all constructor inputs and all finite sequences of append/overwrite updates of any size", "why_tests_cant": "A test fixes one short sequence of updates; the claim ranges over every interleaving of appends and overwrites of any length.", "anchors": ["fvgp/gp_data.py:GPdata.__init__", "fvgp/gp_data.py:GPdata.update", "fvgp/gp.py:GP.update_gp_data"]}
{"id": "C02", "title": "Measurement noise stays aligned with the data", "statement": "If a GP was built with noise_variances, then after any sequence of update_gp_data calls that return normally there is exactly one stored noise variance per stored data point and it is the one supplied with that point.", "quantifier": "all histories of updates, including updates whose noise vector has a different length from the new points", "why_tests_cant": "Tests always pass noise vectors of the right length; the claim is about what is rejected for every input.", "anchors": ["fvgp/gp_data.py:GPdata.update", "fvgp/gp.py:GP.update_gp_data"]}
{"id": "C03", "title": "A rejected data update changes nothing", "statement": "If update_gp_data raises because of its arguments (wrong types, wrong lengths, missing or unexpected noise, wrong number of output columns, NaN), the data stored in the GP are the same as before the call.", "quantifier": "all stored states, all update arguments, every point at which the call can raise", "why_tests_cant": "Needs every raising path from every state; tests check that an exception is raised, not what was left behind.", "anchors": ["fvgp/gp_data.py:GPdata.update", "fvgp/gp.py:GP.update_gp_data"]}
{"id": "C04", "title": "Incremental prior equals the prior built from scratch", "statement": "After any sequence of appends the stored prior mean vector and prior covariance matrix are the ones a freshly constructed GP on the complete data with the same hyperparameters would have, for the default mean, for any user mean function that acts point by point, and for any symmetric kernel.", "quantifier": "all kernels symmetric in their two arguments, all point-wise mean functions, all append histories", "why_tests_cant": "Tests compare one or two appends for built-in kernels on small data.", "anchors": ["fvgp/gp_prior.py:GPprior._update_prior", "fvgp/gp_prior.py:GPprior._update_prior_covariance_matrix", "fvgp/gp_prior.py:GPprior.augment_state_data"]}
{"id": "C05", "title": "Factorization after an append equals a fresh factorization", "statement": "After update_gp_data(append=True) in Chol, CholInv or Inv mode the stored factorization (and hence predictions and likelihood) is a factorization of the current K+V, i.e. the same as in a GP built from all the data at once, for every noise model.", "quantifier": "all append histories, all noise models: fixed measurement noise, noise functions, and the default noise", "why_tests_cant": "The update is only correct if the old block of K+V did not move; tests append tiny batches for which the drift is invisible at the chosen tolerance.", "anchors": ["fvgp/gp_kv.py:GPkv.update_KV", "fvgp/gp_lin_alg.py:update_Chol_factor", "fvgp/gp_likelihood.py:GPlikelihood._default_noise_function"]}
{"id": "C06", "title": "Rank-n Cholesky update produces the Cholesky factor of the extended matrix", "statement": "Given a lower-triangular factor L with positive diagonal and L L^T = A, updating with a block of n new rows and columns yields a lower-triangular factor with positive diagonal of the bordered matrix [[A, b],[b^T, c]] whenever that matrix is positive definite, and otherwise reports non-positive-definiteness; the leading block is L unchanged.", "quantifier": "all sizes of A, all block widths n, all entries in a real closed field (exact arithmetic)", "why_tests_cant": "Tests sample a few random matrices of one size and compare up to tolerance.", "anchors": ["fvgp/gp_lin_alg.py:cholesky_update_rank_n", "fvgp/gp_lin_alg.py:cholesky_update_rank_1_numpy", "fvgp/gp_lin_alg.py:update_Chol_factor"]}
{"id": "C07", "title": "Block inverse update is the inverse of the extended matrix", "statement": "Given the inverse of the leading block and the extended matrix, the block-inverse update returns the inverse of the extended symmetric matrix whenever the Schur complement is invertible.", "quantifier": "all matrix sizes and block widths, all fields (exact arithmetic)", "why_tests_cant": "Sampling cannot show an identity for all sizes.", "anchors": ["fvgp/gp_lin_alg.py:update_inv"]}
{"id": "C08", "title": "Log-determinant update matches the determinant of the extended matrix", "statement": "The log-determinant update adds the log-determinant of the Schur complement: the determinant implied by the old value and the update equals the determinant of the extended matrix; and twice the sum of logs of the Cholesky diagonal is the log-determinant of the factored matrix.", "quantifier": "all sizes and block widths with invertible leading block", "why_tests_cant": "An identity over all sizes.", "anchors": ["fvgp/gp_lin_alg.py:update_logdet", "fvgp/gp_lin_alg.py:calculate_Chol_logdet"]}
{"id": "C09", "title": "Batching covers every point exactly once", "statement": "The gp2Scale index ranges used for batching partition 0..n-1 into consecutive, non-empty pieces of at most batch_size points each, for every n and batch size; likewise the strips used for assembly cover all rows exactly once.", "quantifier": "all numbers of points and batch sizes", "why_tests_cant": "Off-by-one errors appear only for particular remainders; the claim is for every pair.", "anchors": ["fvgp/gp2Scale_covariance.py:ranges", "fvgp/gp2Scale_covariance.py:strip_width"]}
{"id": "C10", "title": "Distributed covariance equals the kernel matrix for every schedule", "statement": "The sparse covariance matrix assembled from distributed block tasks has, at every index pair, exactly the kernel value of the two points (both triangles, diagonal once), independently of the order in which tasks complete, of the batch size and of the way blocks are routed.", "quantifier": "all kernels symmetric in their arguments, all batch sizes, all completion orders", "why_tests_cant": "Completion order is chosen by the cluster; tests see one order per run.", "anchors": ["fvgp/gp2Scale_covariance.py:distributed_covariance", "fvgp/gp2Scale_covariance.py:assemble_triplets", "fvgp/gp2Scale_covariance.py:block_triplets"]}
{"id": "C11", "title": "Augmented sparse covariance equals the covariance of all points", "statement": "Appending points in gp2Scale mode and stacking old block, cross block, its transpose and new block gives the sparse covariance that would be computed for all points at once.", "quantifier": "all old and new point counts, all symmetric kernels", "why_tests_cant": "Sizes and batch remainders are unbounded.", "anchors": ["fvgp/gp2Scale_covariance.py:stack_augmented_covariance", "fvgp/gp_prior.py:GPprior._update_prior_covariance_matrix"]}
{"id": "C12", "title": "Distributed tasks stay within their entry budget and every future is released", "statement": "Each task of a distributed covariance asks the kernel for at most the per-task entry budget (batch_size squared, or n1*batch_size row-wise; strips of rectangular blocks at most the larger of the budget and one line of the long axis). On normal return every submitted task future has been released exactly once, and every point set a covariance call or an append scattered for itself has been released exactly once even if the call raises, while futures handed in (the persistent scatter of the data) are not released.", "quantifier": "all point counts, batch sizes, both distributions, all completion orders and task failures", "why_tests_cant": "Depends on the scheduler's completion order, on failures at arbitrary tasks and on size remainders.", "anchors": ["fvgp/gp2Scale_covariance.py:task_budget", "fvgp/gp2Scale_covariance.py:strip_width", "fvgp/gp2Scale_covariance.py:_harvest", "fvgp/gp_prior.py:GPprior._gp2Scale_covariance"]}
{"id": "C13", "title": "Temporary solver settings are always restored", "statement": "While a sequential optimizer runs, warm starting is off and the preconditioner is refreshed every time; afterwards the user's args dictionary is exactly what it was before (keys that were absent are absent again), whether the body returned or raised; for mcmc nothing is changed.", "quantifier": "all args dictionaries, all method names, normal and exceptional exits, nested use", "why_tests_cant": "Needs every dictionary and every exit path.", "anchors": ["fvgp/gp_kv.py:sequential_linalg_state"]}
{"id": "C14", "title": "Linear-algebra mode resolution is deterministic, case-insensitive and never mutates the user's args", "statement": "Resolving a gp2Scale linear-algebra mode splits the documented prefixes regardless of case, rejects a preconditioner that conflicts with args, is idempotent on its own output, and leaves the caller's args untouched.", "quantifier": "all mode strings and all args dictionaries", "why_tests_cant": "The input is an arbitrary string.", "anchors": ["fvgp/gp_lin_alg.py:resolve_gp2scale_linalg_mode", "fvgp/gp_lin_alg.py:normalize_sparse_preconditioner_type"]}
{"id": "C15", "title": "Automatic solver choice follows matrix size and sparsity", "statement": "With no user preference exactly one of the three automatic solvers is chosen for each size and sparsity, Cholesky only below 2001 points, sparse LU only below 50001 points, and a user-supplied mode always wins.", "quantifier": "all sizes and sparsities", "why_tests_cant": "Thresholds interact; tests probe a few points.", "anchors": ["fvgp/gp_kv.py:GPkv._set_gp2Scale_mode"]}
{"id": "C16", "title": "A cached preconditioner is only reused for a compatible matrix and at most the refresh interval", "statement": "A preconditioner is reused only if it was built with the same settings for a matrix of the same size whose fingerprint drift is within the tolerance, and never more often in a row than the refresh interval permits.", "quantifier": "all sequences of matrices and settings", "why_tests_cant": "A property of histories of solver calls.", "anchors": ["fvgp/gp_kv.py:GPkv._can_reuse_sparse_preconditioner", "fvgp/gp_kv.py:GPkv._get_or_refresh_preconditioner"]}
{"id": "C17", "title": "Graph blocks partition the unknowns", "statement": "Block-Jacobi/Schwarz blocks built from a sparse matrix partition all indices: every index in exactly one block, every block non-empty and at most the block size; the overlap extension of a block is exactly the set of indices within the given graph distance of it.", "quantifier": "all symmetric sparsity patterns, block sizes, overlaps", "why_tests_cant": "Graphs are unbounded objects; tests use one banded matrix.", "anchors": ["fvgp/gp_lin_alg.py:_build_graph_blocks", "fvgp/gp_lin_alg.py:_expand_block_overlap"]}
{"id": "C18", "title": "Shifted factorization tries an increasing, bounded sequence of shifts", "statement": "The shifted Cholesky and the incomplete-factor retry loops try shifts in strictly increasing order starting with the base shift, stop at the first success, make at most max(attempts,1) attempts, and raise only if every attempt failed.", "quantifier": "all base shifts, growth factors above one, attempt limits and success patterns", "why_tests_cant": "Ranges over all failure patterns.", "anchors": ["fvgp/gp_lin_alg.py:_shifted_dense_cholesky", "fvgp/gp_lin_alg.py:_shift_retry_ilupp_factor"]}
{"id": "C19", "title": "Krylov starting guesses always have the shape of the right-hand side", "statement": "A warm-start vector is turned into a starting guess with exactly as many rows and columns as the right-hand side: extra rows dropped, missing rows zero, a single column repeated, any other column mismatch rejected; entries in the common range are preserved.", "quantifier": "all shapes of guess and right-hand side", "why_tests_cant": "Shape space is unbounded.", "anchors": ["fvgp/gp_lin_alg.py:_normalize_initial_guess", "fvgp/gp_lin_alg.py:_column_initial_guess"]}
{"id": "C20", "title": "Block conjugate gradients never report convergence falsely", "statement": "Whatever the preconditioner and the small inner solves return, the residual carried by block CG equals B - A X for the returned X, and the exit code is 0 exactly when every column's residual norm is at most tol times the norm of its right-hand side (at most tol itself for a zero right-hand side).", "quantifier": "all matrices, right-hand sides, preconditioners, iteration limits (exact arithmetic)", "why_tests_cant": "Invariant over all iterations and inputs.", "anchors": ["fvgp/gp_lin_alg.py:_block_conjugate_gradient"]}
{"id": "C21", "title": "Solving in column blocks equals solving column by column", "statement": "Splitting a multi-column right-hand side into column blocks returns, in order, one solution column per right-hand side column, each solved exactly once together with its own starting guess, for every block size; a block whose block solver raises is solved column by column; if no warning is issued every solve reported success.", "quantifier": "all numbers of columns and block sizes", "why_tests_cant": "Remainder handling.", "anchors": ["fvgp/gp_lin_alg.py:calculate_sparse_conj_grad"]}
{"id": "C22", "title": "MCMC never leaves the prior's support and records a complete trace", "statement": "Every recorded MCMC sample has prior density above minus infinity (inside the bounds for the default prior) if the start does; the trace has one entry per iteration run plus the start, in order; each entry is either its predecessor or an accepted proposal.", "quantifier": "all likelihoods, proposals, random streams, break conditions", "why_tests_cant": "Random streams are unbounded.", "anchors": ["fvgp/gp_mcmc.py:gpMCMC.run_mcmc", "fvgp/gp_mcmc.py:gpMCMC._jump"]}
{"id": "C23", "title": "MCMC reports the best sample", "statement": "The reported maximum of f and the reported maximizing x belong to the same, best, trace entry, and MAP is the point of highest recorded value.", "quantifier": "all traces", "why_tests_cant": "Off-by-one visible only if best sample is at specific positions.", "anchors": ["fvgp/gp_mcmc.py:gpMCMC.run_mcmc"]}
{"id": "C24", "title": "Asynchronous training can be stopped and polled at any moment", "statement": "For every interleaving of start, background steps, polls and stop: a poll returns a state some iteration actually produced (or the initial one), never a mixture; iterations observed never decrease; and once stop is called after start, at most one further iteration runs.", "quantifier": "all interleavings", "why_tests_cant": "Thread schedules cannot be enumerated by tests.", "anchors": ["fvgp/gp_actor.py:_MCMCActor", "fvgp/gp_actor.py:_AdamActor", "fvgp/gp_actor.py:_BOActor"]}
{"id": "C25", "title": "Asynchronous training ends in a terminal status", "statement": "Every started asynchronous optimization, however it ends (converged, stopped, exception in the objective), eventually reports that it is no longer running / finished.", "quantifier": "all ends of the background run", "why_tests_cant": "Requires every way to end, including stop before the first evaluation.", "anchors": ["fvgp/gp_actor.py:_BOActor", "fvgp/gp_actor.py:_AdamActor", "fvgp/gp_bo.py:bayesian_optimize"]}
{"id": "C26", "title": "Training starts inside the bounds", "statement": "Whatever initial hyperparameters are supplied, the starting point handed to the optimizer satisfies the bounds component by component (inclusive), unless a component is NaN.", "quantifier": "all bounds and initial vectors", "why_tests_cant": "Boundary cases and NaN.", "anchors": ["fvgp/gp.py:GP.train", "fvgp/gp.py:out_of_bounds"]}
{"id": "C27", "title": "Training results respect the bounds", "statement": "Hyperparameters installed by train() lie inside the supplied bounds for every method.", "quantifier": "all methods, objectives and bounds", "why_tests_cant": "The optimizer's path depends on the objective.", "anchors": ["fvgp/gp_training.py:GPtraining.train", "fvgp/gp_training.py:GPtraining.adam_optimize"]}
{"id": "C28", "title": "Guarded training never installs a worse optimum", "statement": "With accept_only_if_improved, after train() the installed hyperparameters have a log likelihood at least that of the previous ones minus the stated noise tolerance; if not, the previous hyperparameters (and all state derived from them) are restored.", "quantifier": "all likelihood functions including those returning NaN, all optimizer results", "why_tests_cant": "Needs every possible optimizer result.", "anchors": ["fvgp/gp.py:GP._reject_if_not_improved", "fvgp/gp.py:GP.train"]}
{"id": "C29", "title": "Polling an asynchronous optimizer never corrupts the hyperparameters", "statement": "update_hyperparameters installs either the optimizer's current best vector or keeps the previous hyperparameters; a failing or empty optimizer state leaves them unchanged.", "quantifier": "all optimizer replies", "why_tests_cant": "The reply is arbitrary data.", "anchors": ["fvgp/gp_training.py:GPtraining.update_hyperparameters"]}
{"id": "C30", "title": "Adam stops for exactly the documented reasons and returns its last iterate", "statement": "Adam runs at most max_iter iterations; it calls the callback once per iteration, in order, with the iterate, value and gradient of that iteration; each step is lr times the bias-corrected weighted average of the gradients so far divided by eps plus the root of that of their squares; it stops early exactly when the parameter update is shorter than tol or a stop is requested, and returns the iterate after the last step.", "quantifier": "all objectives, gradients, stop patterns, settings and iteration limits", "why_tests_cant": "Universally quantified over objective behaviours.", "anchors": ["fvgp/gp_training.py:GPtraining.adam_optimize"]}
{"id": "C31", "title": "Bayesian optimization only evaluates points inside the box", "statement": "Every hyperparameter vector at which BO evaluates the objective, and the one it returns, lies inside the bounds.", "quantifier": "all bounds (including log-scaled and degenerate intervals), all surrogate behaviours", "why_tests_cant": "Depends on the acquisition maximizer; degenerate boxes are not tested.", "anchors": ["fvgp/gp_bo.py:_LogAffineTransform", "fvgp/gp_bo.py:bayesian_optimize"]}
{"id": "C32", "title": "Bayesian optimization respects its evaluation budget", "statement": "BO evaluates the objective at most max_iter times and reports the number of evaluations it made.", "quantifier": "all max_iter, design sizes, stop patterns", "why_tests_cant": "Edge cases of the budget.", "anchors": ["fvgp/gp_bo.py:bayesian_optimize"]}
{"id": "C33", "title": "Bayesian optimization can be stopped at any poll and still returns its best point", "statement": "If a stop is requested at any poll, BO returns normally with a point it evaluated and says why it stopped.", "quantifier": "all stop patterns including the first poll", "why_tests_cant": "Every stop position.", "anchors": ["fvgp/gp_bo.py:bayesian_optimize"]}
{"id": "C34", "title": "The BO recommendation is an evaluated point close to the best observation", "statement": "The recommended point is one that was evaluated; without reported noise it is the best observation; with noise its observed value is within three noise standard deviations of the best one. The noise is the mean of the positive finite values the noise function reported for the evaluated points (or the fixed noise); everything else it reports counts as unknown.", "quantifier": "all evaluation histories", "why_tests_cant": "All histories.", "anchors": ["fvgp/gp_bo.py:bayesian_optimize"]}
{"id": "C35", "title": "Unit-cube transform round trip", "statement": "Mapping a hyperparameter vector inside the bounds to the unit cube and back returns it (degenerate intervals included); for intervals of positive length the cube maps monotonically onto the box and back. A dimension is logarithmic exactly if both its bounds are positive and the caller did not ask for a linear one.", "quantifier": "all bounds whose positive lower ends are at least 1e-300, linear and log dimensions", "why_tests_cant": "Continuum of inputs.", "anchors": ["fvgp/gp_bo.py:_LogAffineTransform"]}
{"id": "C36", "title": "Kernels of a distance are largest at distance zero, non-negative and never increase", "statement": "Each built-in kernel of a distance equals one at distance zero, is non-negative, and never increases as the distance grows, which a correlation function must satisfy; this includes the robust variants. (The periodic kernel is only required to be at most one and periodic; the compactly supported sparse kernel to vanish beyond its radius.)", "quantifier": "all non-negative distances, positive length scales and non-zero robust parameters", "why_tests_cant": "Continuum of inputs; a necessary condition for a covariance function.", "anchors": ["fvgp/kernels.py:matern_kernel_diff1", "fvgp/kernels.py:matern_kernel_diff2", "fvgp/kernels.py:matern_kernel_diff2_robust", "fvgp/kernels.py:sparse_kernel"]}
{"id": "C37", "title": "Robust kernel variants are the plain kernels reparametrized", "statement": "Every *_robust kernel with parameter phi is the plain kernel with another length scale: 1/phi^2, or 1/(sqrt(2)|phi|) for the squared exponential.", "quantifier": "all distances and non-zero parameters", "why_tests_cant": "Continuum of inputs.", "anchors": ["fvgp/kernels.py:squared_exponential_kernel_robust", "fvgp/kernels.py:exponential_kernel_robust", "fvgp/kernels.py:matern_kernel_diff1_robust", "fvgp/kernels.py:matern_kernel_diff2_robust"]}
{"id": "C38", "title": "Compactly supported kernels vanish outside their support and sparse evaluation loses nothing", "statement": "The Wendland kernels and the bump function are zero beyond their support, and the support-aware sparse evaluation, read as a matrix, is the dense kernel block for the same hyperparameter vector, without stored zeros.", "quantifier": "all point sets, length scales, hyperparameter vectors and correct neighbour searches", "why_tests_cant": "Boundary of the support, early exit on bounding boxes, and hyperparameter vectors shared with noise and mean functions.", "anchors": ["fvgp/kernels.py:wendland_anisotropic_gp2Scale_cpu", "fvgp/kernels.py:wendland_anisotropic_gp2Scale_cpu_sparse", "fvgp/kernels.py:_wendland_support_aware_cpu_triplets", "fvgp/kernels.py:bump"]}
{"id": "C39", "title": "Kernel analytic gradients are the derivatives of the kernel", "statement": "The analytic gradient of the default kernel with respect to each hyperparameter, and that of the non-stationary kernel with respect to each weight and the length scale, is the derivative of the kernel value; this includes coinciding points and hyperparameters the kernel does not use.", "quantifier": "all pairs of points, all hyperparameters with non-zero length scales", "why_tests_cant": "Finite differences only approximate at sample points.", "anchors": ["fvgp/gp_prior.py:GPprior._default_kernel_analytical_gradient", "fvgp/kernels.py:matern_kernel_diff1_grad", "fvgp/kernels.py:non_stat_kernel_gradient"]}
{"id": "C40", "title": "Likelihood gradient includes every dependency", "statement": "The i-th component of the log-likelihood gradient is the derivative of the log likelihood with respect to hyperparameter i, also when several of mean, kernel and noise depend on it.", "quantifier": "all index overlaps between mean, kernel and noise hyperparameters", "why_tests_cant": "Tests use disjoint parameter ranges.", "anchors": ["fvgp/gp_marginal_likelihood.py:GPMarginalLikelihood.neg_log_likelihood_gradient"]}
{"id": "C41", "title": "Multi-task predictions are arranged by point and task", "statement": "For multi-task prediction, entry [p, t] of the returned mean, variance and gradient arrays is the quantity for prediction point p and task t, for every number of points, tasks and dimensions.", "quantifier": "all numbers of points, tasks, dimensions, covariance columns", "why_tests_cant": "Reshapes agree by accident when one of the sizes is one.", "anchors": ["fvgp/gp_posterior.py:GPposterior.cartesian_product", "fvgp/gp_posterior.py:GPposterior.posterior_mean", "fvgp/gp_posterior.py:GPposterior.posterior_mean_grad"]}
{"id": "C42", "title": "Reported posterior variances are non-negative", "statement": "The variances returned by posterior_covariance are never negative, whatever round-off did to the covariance matrix, with and without variance_only and with noise added.", "quantifier": "all computed covariance matrices and all option combinations", "why_tests_cant": "Round-off produces negative diagonals only on ill-conditioned data.", "anchors": ["fvgp/gp_posterior.py:GPposterior.posterior_covariance"]}
{"id": "C43", "title": "Posterior covariance never exceeds the prior", "statement": "In exact arithmetic the posterior covariance matrix is symmetric and the posterior variance at every point is at most the prior variance.", "quantifier": "all data and prediction points with K+V positive definite", "why_tests_cant": "An inequality over all data sets.", "anchors": ["fvgp/gp_posterior.py:GPposterior.posterior_covariance"]}
{"id": "C44", "title": "Information measures obey their algebra", "statement": "KL divergence of a Gaussian with itself is zero, mutual information and total correlation are the stated combinations of entropies, relative information entropies are consistent with each other.", "quantifier": "all covariance matrices and means", "why_tests_cant": "Identities over all inputs.", "anchors": ["fvgp/gp_posterior.py:GPposterior.kl_div", "fvgp/gp_posterior.py:GPposterior.gp_mutual_information"]}
{"id": "C45", "title": "Validation metrics satisfy their defining inequalities", "statement": "MAE is at most RMSE; both are zero exactly for perfect predictions; CRPS is non-negative; the interval score is at least the interval width and equal to it iff the truth is covered; empirical coverage lies in [0,1] and grows with the interval.", "quantifier": "all test sets and predictions", "why_tests_cant": "Inequalities over all inputs.", "anchors": ["fvgp/gp.py:GP.rmse", "fvgp/gp.py:GP.mae", "fvgp/gp.py:GP.interval_score", "fvgp/gp.py:GP.picp"]}
{"id": "C46", "title": "fvGP flattening is a bijection on the observed entries", "statement": "The single-task data set built from multi-task data contains exactly one entry per non-NaN (point, task) pair, with that point, task index, value and noise, and nothing else.", "quantifier": "all numbers of points and tasks, all NaN patterns", "why_tests_cant": "All missing-value patterns.", "anchors": ["fvgp/fvgp.py:fvGP._transform_index_set2"]}
{"id": "C47", "title": "Appending multi-task data gives the data set of all points", "statement": "After update_gp_data(append=True) an fvGP holds the same flattened data, in the same order, as an fvGP built from all points at once.", "quantifier": "all histories, numbers of points and tasks", "why_tests_cant": "Order effects need more than one task and more than one batch.", "anchors": ["fvgp/fvgp.py:fvGP.update_gp_data", "fvgp/fvgp.py:fvGP._transform_index_set2"]}
{"id": "C48", "title": "A rejected multi-task update changes nothing", "statement": "If fvGP.update_gp_data raises, the stored multi-task data equal those before the call.", "quantifier": "all arguments and states", "why_tests_cant": "Every raising path.", "anchors": ["fvgp/fvgp.py:fvGP.update_gp_data"]}
{"id": "C49", "title": "At most one live GP uses a Dask client", "statement": "At every moment at most one live, successfully constructed GP is registered per Dask client; constructing a second one raises and leaves the first registered; after the first is garbage collected a new one may be built.", "quantifier": "all sequences of constructions (successful, failing) and deletions", "why_tests_cant": "Histories with garbage collection.", "anchors": ["fvgp/gp.py:GP.__init__"]}
{"id": "C50", "title": "GGMP hyperparameter vectorization round trip", "statement": "Flattening weights and per-component hyperparameters into a vector and splitting it again returns the same weights and hyperparameters, and vice versa.", "quantifier": "all numbers of components and hyperparameters per component", "why_tests_cant": "All shapes.", "anchors": ["fvgp/ggmp.py:hyperparameters"]}
{"id": "C51", "title": "GGMP mixture weights stay on the simplex and EM never decreases the likelihood", "statement": "After every EM iteration the weights are positive and sum to one, and while neither the floor nor the guard against log(0) is active the objective never decreases from one iteration to the next (otherwise by no more than these explain).", "quantifier": "all data terms, starting weights, iteration counts", "why_tests_cant": "Monotonicity for all data.", "anchors": ["fvgp/ggmp.py:optimize_weights_em_density", "fvgp/ggmp.py:optimize_weights_em_multivariate_samples"]}
{"id": "C52", "title": "Normalized densities integrate to one", "statement": "The grid normalization used for GGMP densities returns weights that sum to one for every input, including densities with no positive mass.", "quantifier": "all domains and densities", "why_tests_cant": "The fallback branch is not tested.", "anchors": ["fvgp/ggmp.py:_normalize_pdf"]}
{"id": "C53", "title": "Component alignment only relabels and reaches every input", "statement": "Aligning local mixtures along the spanning tree assigns to every input a permutation of its own components, visiting each input once, parents before children.", "quantifier": "all inputs, including coincident points", "why_tests_cant": "Coincident inputs are a measure-zero case tests do not generate.", "anchors": ["fvgp/ggmp.py:build_input_mst", "fvgp/ggmp.py:align_local_gmms_mst"]}
{"id": "C54", "title": "The GMM fit cache is crash safe and transparent", "statement": "Whenever the process is killed during a cache write, the cache file is either the old or the complete new one; and a run with cache returns what a run without cache would.", "quantifier": "all crash points, all cache contents, all station lists", "why_tests_cant": "Crash points cannot be enumerated by tests.", "anchors": ["fvgp/ggmp.py:_save_gmm_cache", "fvgp/ggmp.py:fit_station_gmms_fixed_weights_cached"]}
{"id": "C55", "title": "GGMP predictive variance is the mixture variance", "statement": "The predictive variance equals the variance of the Gaussian mixture (second moment minus squared mean), is non-negative and at least the weighted component variance.", "quantifier": "all weights, means and variances", "why_tests_cant": "Identity over all inputs.", "anchors": ["fvgp/ggmp.py:GGMP.posterior_variance"]}
{"id": "C56", "title": "GGMP methods called in the wrong order fail with the documented error", "statement": "Calling initGPs, train or posterior functions before the required initialization raises the documented ValueError.", "quantifier": "all call orders", "why_tests_cant": "All method call orders.", "anchors": ["fvgp/ggmp.py:GGMP.__getattr__", "fvgp/ggmp.py:GGMP.initGPs", "fvgp/ggmp.py:GGMP.train"]}
{"id": "C57", "title": "A GP survives pickling", "statement": "Pickling and unpickling a GP preserves data, hyperparameters and every cached factorization, and drops only the Dask client (and unpicklable callbacks/handles the documentation names).", "quantifier": "all GP states", "why_tests_cant": "All combinations of optional attributes.", "anchors": ["fvgp/gp.py:GP.__getstate__", "fvgp/gp_kv.py:GPkv.__getstate__", "fvgp/gp_data.py:GPdata.__getstate__"]}
{"id": "C58", "title": "After a failed distributed operation the next accepted one restores a correct covariance", "statement": "In a gp2Scale session in which some operations raise (for example because the cluster loses tasks), whenever a later append, overwrite or set_hyperparameters returns normally, the stored prior covariance is the kernel matrix of the stored data and hyperparameters.", "quantifier": "all sessions of appends, overwrites and hyperparameter changes, all failures of tasks", "why_tests_cant": "Needs failures injected at arbitrary points of arbitrary sessions.", "anchors": ["fvgp/gp_prior.py:GPprior.augment_state_data", "fvgp/gp_prior.py:GPprior.compute_prior_covariance_matrix", "fvgp/gp_prior.py:GPprior._update_prior_covariance_matrix"]}
{"id": "C59", "title": "A Krylov warm start only comes from a nearby matrix", "statement": "When warm starts are enabled, the starting guess handed to the iterative solver was computed for a matrix whose fingerprint drift from the current matrix is within the configured limit.", "quantifier": "all sequences of likelihood evaluations, including evaluations that raise", "why_tests_cant": "A property of histories of evaluations in which some fail; a wrong guess does not change the converged result, so it is invisible to value checks.", "anchors": ["fvgp/gp_kv.py:287-308", "fvgp/gp_kv.py:517-518", "fvgp/gp_kv.py:582-583", "fvgp/gp_marginal_likelihood.py:91-133"]}
{"id": "C60", "title": "No NaN is ever stored by a call that returned normally", "statement": "After construction or a data update that returned without raising, neither the stored inputs nor the stored values contain NaN.", "quantifier": "all data, all update histories including rejected updates", "why_tests_cant": "The check runs over the whole data set at the end of every update; whether it covers all input kinds and histories is a statement about all calls.", "anchors": ["fvgp/gp_data.py:47", "fvgp/gp_data.py:116-122"]}
{"id": "C61", "title": "Block preconditioners are symmetric positive definite", "statement": "The block-Jacobi and additive-Schwarz operators built from a symmetric positive definite matrix are linear, symmetric and positive definite (as conjugate gradients requires), and without overlap each block of the result solves that block's own local system.", "quantifier": "all symmetric positive definite matrices, all block covers, all overlaps (exact arithmetic)", "why_tests_cant": "Definiteness is a statement about all vectors and all matrices.", "anchors": ["fvgp/gp_lin_alg.py:591-650"]}
{"id": "C62", "title": "Incomplete Cholesky is exact on the pattern and gives a usable preconditioner", "statement": "When the IC(0) factorization succeeds, its factor is lower triangular with positive diagonal, has no entry outside the pattern of the matrix, its product with its transpose equals the matrix at every position of the pattern, and the operator built from it solves with that product and is symmetric positive definite.", "quantifier": "all symmetric sparse matrices on which it succeeds (exact arithmetic)", "why_tests_cant": "Ranges over all matrices and patterns; tests check one banded case.", "anchors": ["fvgp/gp_lin_alg.py:655-756"]}
{"id": "C63", "title": "The Metropolis acceptance rule satisfies detailed balance", "statement": "From a point and a proposal with finite densities, the proposal is accepted exactly when the uniform number is below min(1, density ratio), also for very large ratios; the resulting acceptance probabilities satisfy detailed balance with respect to exp(prior + likelihood).", "quantifier": "all likelihood and prior values, all uniform numbers", "why_tests_cant": "A statement about probabilities for all pairs of densities; tests look at finitely many draws.", "anchors": ["fvgp/gp_mcmc.py:196-224"]}
{"id": "C64", "title": "MCMC never accepts a proposal of undefined density", "statement": "A proposal whose prior or likelihood is NaN is never accepted; a proposal of zero likelihood is never accepted from a point of finite density.", "quantifier": "all priors and likelihoods including NaN and infinite values", "why_tests_cant": "Depends on the order of comparisons with NaN, which tests with ordinary values never exercise.", "anchors": ["fvgp/gp_mcmc.py:206-214"]}
{"id": "C65", "title": "The MCMC result describes the whole run", "statement": "The dictionary returned by run_mcmc contains every recorded sample with its value, also when the run was ended by the break condition, and its window statistics use the last hundredth of the samples, never an empty set.", "quantifier": "all runs and break conditions", "why_tests_cant": "Depends on where a run is broken off.", "anchors": ["fvgp/gp_mcmc.py:165-181"]}
{"id": "C66", "title": "Adaptation keeps the proposal covariance a covariance", "statement": "After every adaptation step the proposal scale is positive and the proposal covariance is symmetric positive semi-definite, so that drawing from the normal proposal is well defined.", "quantifier": "all traces, adaptation windows K, decay exponents", "why_tests_cant": "Positive semi-definiteness concerns all directions; the degenerate windows are not used by tests.", "anchors": ["fvgp/gp_mcmc.py:343-361"]}
{"id": "C67", "title": "Hyperparameters that cannot be installed are not half installed", "statement": "If set_hyperparameters (or train, which calls it) raises, the GP still has its previous hyperparameters together with the prior, noise and solver state belonging to them.", "quantifier": "all hyperparameters and all points at which the recomputation can fail", "why_tests_cant": "The recomputation can fail at any of several stages.", "anchors": ["fvgp/gp.py:GP.set_hyperparameters"]}
{"id": "C68", "title": "The built-in kernels are valid covariance functions in every dimension", "statement": "For every finite set of points in any dimension, the covariance matrix computed by a built-in kernel is symmetric positive semidefinite: squared exponential, exponential, both Matern kernels and the robust ones, the compactly supported sparse kernel, the anisotropic default kernel, the landmark (SLE) kernel, linear, dot-product, polynomial, non-stationary, and the periodic kernel on the line.", "quantifier": "all dimensions, all finite point sets and weights, all admissible hyperparameters", "why_tests_cant": "Quantifies over all point sets of all sizes; a failing eigenvalue is a rounding-size event on random samples.", "anchors": ["fvgp/kernels.py", "fvgp/gp_prior.py:GPprior._default_kernel"]}
{"id": "C69", "title": "The gp2Scale default kernel is a valid covariance function for every input dimension", "statement": "The anisotropic Wendland kernel that gp2Scale installs when the user gives no kernel yields a positive semidefinite covariance matrix whatever the number of input columns.", "quantifier": "all dimensions and point sets", "why_tests_cant": "Indefiniteness only shows for special configurations in high dimensions.", "anchors": ["fvgp/kernels.py:wendland_anisotropic_gp2Scale_cpu", "fvgp/gp_prior.py:GPprior.__init__"]}
{"id": "C70", "title": "Calling a kernel leaves its arguments unchanged", "statement": "A kernel function only returns a value; the distance array passed by the caller is the same afterwards.", "quantifier": "all distance arrays", "why_tests_cant": "Tests look at the returned value only.", "anchors": ["fvgp/kernels.py:wendland_kernel", "fvgp/kernels.py:sparse_kernel"]}
{"id": "C71", "title": "The Wasserstein helper separates distributions", "statement": "wasserstein_1d is a metric on normalized distributions: symmetric, non-negative, satisfying the triangle inequality, and zero only for equal distributions.", "quantifier": "all pairs of non-negative vectors of equal length", "why_tests_cant": "Needs inputs that are permutations of each other.", "anchors": ["fvgp/kernels.py:wasserstein_1d", "fvgp/kernels.py:wasserstein_1d_outer_vec"]}
{"id": "C72", "title": "Bayesian optimization reports convergence only after patience stable iterations", "statement": "If a Bayesian-optimization run ends with the reason 'converged', then patience is positive and each of the last `patience` evaluations (all after the initial design) improved the best value by at most f_rtol of the observed spread and moved the best point by at most x_tol.", "quantifier": "all objectives, settings, surrogate behaviours and run lengths", "why_tests_cant": "Depends on every sequence of progress and stall over unbounded runs; a counter that is not reset only shows on particular sequences.", "anchors": ["fvgp/gp_bo.py:bayesian_optimize"]}
{"id": "C73", "title": "The log likelihood is the Gaussian log density of the data", "statement": "log_likelihood returns the logarithm of the multivariate normal density of the observations with the prior mean and covariance K+V, averaged over the columns of y when there are several.", "quantifier": "all data sizes, numbers of columns, kernels, means, noise shapes and hyperparameters", "why_tests_cant": "An identity over all matrices; tests compare a few numbers.", "anchors": ["fvgp/gp_marginal_likelihood.py:GPMarginalLikelihood.log_likelihood"]}
{"id": "C74", "title": "The likelihood Hessian is symmetric and made of differences of the gradient", "statement": "neg_log_likelihood_hessian returns, for every hyperparameter vector including the documented default None (the current ones), a symmetric matrix whose (i, j) entry, i <= j, is the forward difference in hyperparameter i of the j-th gradient component.", "quantifier": "all gradients, step sizes and hyperparameters", "why_tests_cant": "Symmetry must hold for every gradient, also a non-integrable one; the default argument is never exercised.", "anchors": ["fvgp/gp_marginal_likelihood.py:GPMarginalLikelihood.neg_log_likelihood_hessian"]}
{"id": "C75", "title": "variance_only returns variances without a matrix", "statement": "With variance_only=True posterior_covariance returns the same variances as without it, and S and S_flat are None.", "quantifier": "all data, prediction points, solver modes and numbers of output columns", "why_tests_cant": "Which branch runs depends on the stored inverse and the number of columns.", "anchors": ["fvgp/gp_posterior.py:GPposterior.posterior_covariance", "fvgp/gp.py:GP.posterior_covariance"]}
{"id": "C76", "title": "Posterior mean and covariance are those of the conditional distribution", "statement": "The returned mean and covariance are the Gaussian conditional of the predictions given the data: the joint Gaussian density of observations and predictions factors into the density of the observations and the Gaussian density with the returned mean and covariance. Without noise the prediction at a data point is the observation with variance zero.", "quantifier": "all kernels, means, noise models, data and prediction points", "why_tests_cant": "An identity over all matrices.", "anchors": ["fvgp/gp_posterior.py:GPposterior.posterior_mean", "fvgp/gp_posterior.py:GPposterior.posterior_covariance"]}
{"id": "C77", "title": "posterior_probability is the overlap of two Gaussians", "statement": "posterior_probability returns mu, covariance and probability such that the product of the posterior density and the given density is the probability times the Gaussian density with mu and covariance, for any number of prediction points.", "quantifier": "all posteriors, comparison means and covariances, numbers of points", "why_tests_cant": "An identity of densities; single-point calls are never exercised.", "anchors": ["fvgp/gp_posterior.py:GPposterior.posterior_probability"]}
{"id": "C78", "title": "Posterior gradients are derivatives", "statement": "posterior_mean_grad, dv/dx and dS/dx of posterior_covariance_grad are the derivatives of posterior mean, variances and covariance matrix when all prediction points move along the direction, given derivatives of kernel and mean.", "quantifier": "all differentiable kernels and means, data, points, directions", "why_tests_cant": "Tests check shapes and diagonal entries only.", "anchors": ["fvgp/gp_posterior.py:GPposterior.posterior_mean_grad", "fvgp/gp_posterior.py:GPposterior.posterior_covariance_grad"]}
{"id": "C79", "title": "The entropy gradient is the derivative of the entropy", "statement": "gp_entropy_grad is the derivative of gp_entropy when the prediction points move along the direction, given the derivatives of the kernel.", "quantifier": "all valid differentiable kernels, data and prediction points", "why_tests_cant": "A limit statement for all kernels.", "anchors": ["fvgp/gp_posterior.py:GPposterior.gp_entropy", "fvgp/gp_posterior.py:GPposterior.gp_entropy_grad"]}
{"id": "C80", "title": "The prediction chunk size does not change predictions", "statement": "The posterior covariance is the same for every chunk size (zero, negative, larger than the number of points), in gp2Scale mode or not, and does not depend on the uninitialized buffer it is assembled in.", "quantifier": "all chunk sizes, numbers of points, solvers that are linear", "why_tests_cant": "Off-by-one in the last chunk shows only for some combinations of sizes.", "anchors": ["fvgp/gp_posterior.py:GPposterior._cross_solve_product"]}
{"id": "C81", "title": "The noise added to a prediction does not depend on the batch", "statement": "With stored noise variances and add_noise=True the variance reported for a point is the same whichever other points are asked in the same call.", "quantifier": "all data, noise variances and batches", "why_tests_cant": "It breaks only when the number of prediction points happens to equal the number of data points.", "anchors": ["fvgp/gp_likelihood.py:GPlikelihood._measured_noise_function", "fvgp/gp_posterior.py:GPposterior.add_noise"]}
{"id": "C82", "title": "Every metric works on a single test point", "statement": "Each validation metric returns a number when called with one test point and one observation of shape (1,), as it does for several points.", "quantifier": "all predictions, numbers of test points and output columns", "why_tests_cant": "Whether a shape assertion fires depends on numpy's squeeze of a dimension of size one, which tests with several points never trigger.", "anchors": ["fvgp/gp.py:GP.crps", "fvgp/gp.py:GP.rmse", "fvgp/gp.py:GP.nlpd", "fvgp/gp_posterior.py:GPposterior.posterior_mean"]}
{"id": "C83", "title": "crps is the continuous ranked probability score", "statement": "The value returned by crps is the average over the test points of the integral of (F(t) - 1[y <= t])^2, F being the Gaussian predictive distribution function, and the second value is the standard deviation of these integrals.", "quantifier": "all predictions with positive variance, all observations", "why_tests_cant": "The closed form must agree with an improper integral for all arguments; a test compares with another closed form.", "anchors": ["fvgp/gp.py:GP._crps_s", "fvgp/gp.py:GP.crps"]}
{"id": "C84", "title": "nlpd, msll and r2 are what their names say", "statement": "nlpd is the average negative log of the Gaussian predictive density at the observations; msll is nlpd minus that of the Gaussian with the mean and variance of the training data and is zero when the predictions are that Gaussian; r2 is at most one, one exactly for perfect predictions, and zero for the constant mean.", "quantifier": "all predictions and observations", "why_tests_cant": "Identities and inequalities over all inputs.", "anchors": ["fvgp/gp.py:GP.nlpd", "fvgp/gp.py:GP.msll", "fvgp/gp.py:GP.r2"]}
{"id": "C85", "title": "Coverage compares each observation with its own interval", "statement": "picp returns the fraction of observations lying in the prediction interval of their own test point, whatever the shape (N,) or (N, 1) of the observations.", "quantifier": "all numbers of points, predictions and observations", "why_tests_cant": "Broadcasting gives a number in [0,1] either way; no test sees that it is the wrong one.", "anchors": ["fvgp/gp.py:GP.picp", "fvgp/gp.py:GP.coverage_curve"]}
{"id": "C86", "title": "The one-GP-per-client guard also holds across threads", "statement": "If several threads of one process construct gp2Scale GPs with the same Dask client, at most one of the constructions succeeds while the resulting GP is alive.", "quantifier": "all interleavings of the constructors' guard and registration steps with collections", "why_tests_cant": "Thread interleavings cannot be enumerated by tests.", "anchors": ["fvgp/gp.py:GP.__init__"]}
{"id": "C87", "title": "A cached preconditioner is only reused for a matrix close to the one it was built for", "statement": "In the preconditioned Krylov modes, whatever sequence of solves, forced refreshes and picklings happened before, the preconditioner used in a solve was either built for the matrix at hand or is the most recently built one; in the latter case no pickling lies in between, all sparse_preconditioner_* settings and the shape are the same, the (finite) trace and Frobenius norm changed by at most the allowed relative drift, and it was reused fewer times than the refresh interval allows. An unchanged matrix is not factorized again within the interval.", "quantifier": "all sequences of solves, refreshes and picklings, all matrices, settings, intervals and drifts", "why_tests_cant": "Staleness depends on the whole history of matrices and settings; tests try a few short histories.", "anchors": ["fvgp/gp_kv.py:_can_reuse_sparse_preconditioner", "fvgp/gp_kv.py:_get_or_refresh_preconditioner", "fvgp/gp_kv.py:_fingerprint_drift"]}
{"id": "C88", "title": "A warm start is only used if it was computed for a nearby matrix", "statement": "With warm starts enabled, every starting guess handed to an iterative solver by an evaluation of the marginal likelihood is the solution for a matrix whose trace and Frobenius norm are within the allowed drift of the current one.", "quantifier": "all sequences of evaluations of the marginal likelihood and of posteriors at other hyperparameters, and of changes of hyperparameters or data", "why_tests_cant": "The stored solution and the stored fingerprint are updated in different places; only particular interleavings separate them.", "anchors": ["fvgp/gp_kv.py:_validated_warm_start", "fvgp/gp_kv.py:compute_new_KVinvY", "fvgp/gp_marginal_likelihood.py:_iterative_initial_guess", "fvgp/gp_posterior.py:compute_new_KVinvY"]}
{"id": "C89", "title": "The stored GGMP hyperparameter vector always represents the stored hyperparameters", "statement": "After construction and after every set of hyperparameters, the flat vector (and the flat bounds) equals the flattened stored weights and hyperparameters (bounds); a set either is rejected without effect or updates both consistently.", "quantifier": "all shapes at construction, all sequences of sets", "why_tests_cant": "All sequences of sets with all shapes.", "anchors": ["fvgp/ggmp.py:hyperparameters.set", "fvgp/ggmp.py:hyperparameters.__init__"]}
{"id": "C90", "title": "Station moments are the moments of the station's density", "statement": "The mean and variance computed for each station are those of the distribution with masses proportional to the positive part of the density times the grid spacing (equal masses if there is none): the mean lies within the domain and the variance is at least 1e-6.", "quantifier": "all grids with at least two points, all densities", "why_tests_cant": "Holds for all grids, including unordered ones, and densities with no positive mass.", "anchors": ["fvgp/ggmp.py:GGMP.initLikelihoods"]}
{"id": "C91", "title": "The distances between densities behave like distances", "statement": "The Bhattacharyya distance is non-negative, bounded and symmetric; the 1d Wasserstein distance is non-negative, symmetric, zero for equal densities and satisfies the triangle inequality; the KL divergence is zero for equal densities and non-negative up to the effect of the regularization constant.", "quantifier": "all grids and densities on them", "why_tests_cant": "Inequalities over all densities.", "anchors": ["fvgp/ggmp.py:bhattacharyya_distance", "fvgp/ggmp.py:kl_divergence", "fvgp/ggmp.py:wasserstein_1d"]}
{"id": "C92", "title": "Sequential alignment relabels components optimally", "statement": "Aligning local mixtures along a sequence leaves the first one unchanged and gives every other one as a permutation of its own components (weights, means and covariances alike) whose total squared Wasserstein distance to the reference (previous result or first mixture) no other permutation undercuts; mixtures of different size are rejected.", "quantifier": "all sequences of mixtures and both reference modes", "why_tests_cant": "Optimality over all permutations for all inputs.", "anchors": ["fvgp/ggmp.py:align_local_gmms_sequence", "fvgp/ggmp.py:align_gmm_components_hungarian"]}
{"id": "C93", "title": "Concurrent saves leave a complete fit cache", "statement": "When several processes save to the same fit cache at the same time, the cache file is at every moment a complete one (the old one or one that a process saved), and every process that saves succeeds.", "quantifier": "all numbers of processes and interleavings", "why_tests_cant": "All interleavings.", "anchors": ["fvgp/ggmp.py:_save_gmm_cache"]}
{"id": "C94", "title": "Exceptions inside the GPU device context surface unchanged and the device is restored", "statement": "Entering GGMP._gpu_device(device_id) runs the body of the with statement exactly once, with the requested device current in the library that is used (torch first, cupy next; none if neither is installed or knows the device). When the statement is left, the device that was current before is current again, whatever the body raised, and an exception raised by the body leaves the statement unchanged.", "quantifier": "for all combinations of installed libraries, device counts, engine settings, device ids, device states and bodies", "why_tests_cant": "The behaviour depends on GPU libraries absent from CI, on where in the generator the exception is thrown and on the exception class; tests run the None branch only.", "anchors": ["fvgp/ggmp.py:467-500", "fvgp/ggmp.py:2207-2256"]}
{"id": "C95", "title": "MCMC training until convergence obeys its stopping rule and budget", "statement": "train_gp_mcmc_until_converged trains in batches, each started where the one before ended, stops after the first batch at which the last `patience` relative changes are all below tol_rel or when max_total iterations are reached, returns the hyperparameters of the last batch, and never runs more than max_total iterations.", "quantifier": "for all training outcomes (including exceptions), batch sizes, budgets, tolerances and patience values, also non-positive ones", "why_tests_cant": "The stopping rule concerns every possible sequence of random training outcomes; a test sees a few short chains.", "anchors": ["fvgp/ggmp.py:2089-2148"]}
{"id": "C96", "title": "Parallel training of the components equals sequential training", "statement": "train_component_gps_mcmc with gp_parallel returns, for every order in which the threads finish, the trained hyperparameters of component k at position k, exactly as without threads; it raises iff the training of some component raises, and then one of those exceptions. The pool size is legal for every gp_workers, and components are assigned to the devices round robin.", "quantifier": "for all numbers of components, worker settings, device lists, training outcomes and completion orders", "why_tests_cant": "Completion orders are decided by the scheduler; a test sees one.", "anchors": ["fvgp/ggmp.py:2197-2205", "fvgp/ggmp.py:2258-2287"]}
{"id": "C97", "title": "GPU requests end on existing devices or entirely on the CPU", "statement": "initGPs: if a GPU is requested and present, the effective device ids are a non-empty list of existing devices containing every existing device that was asked for; if none is present, nothing the GPs are built with names the GPU any more. Entries of args given by the caller take precedence over compute_device and entries for other purposes are handed on unchanged.", "quantifier": "for all gp_init_kwargs, gp_device_ids and numbers of GPUs", "why_tests_cant": "Needs machines with different numbers of GPUs and all combinations of six interacting settings.", "anchors": ["fvgp/ggmp.py:240-346"]}
{"id": "C98", "title": "No setting of a component is dropped silently when its GP is constructed", "statement": "initGPs: the retry logic around the GP constructor ends for every constructor. With the constructor of this repository each component's GP is built with its variances, its kernel, its mean function and every supported keyword argument, or the constructor's exception is passed on; with any other constructor the kernel is given up only after all its known names were rejected.", "quantifier": "for all constructors (any behaviour on any keyword dictionary), kernels, mean functions and keyword arguments", "why_tests_cant": "The fallback paths are reached with other versions of the constructor only; that the loop ends and keeps the kernel is a statement about every constructor.", "anchors": ["fvgp/ggmp.py:348-441"]}
{"id": "C99", "title": "The energy distance is the square of a metric of empirical distributions", "statement": "For non-empty samples with the same number of columns, energy_distance_multivariate returns 2 E|A-B| - E|A-A'| - E|B-B'| (the clip at zero never changes the value), is symmetric, is zero exactly if every point has the same share in both samples, its square root satisfies the triangle inequality, it ignores the order of rows and repetition of a whole sample, is unchanged by a common shift and scales with the units.", "quantifier": "for all non-empty samples of any sizes and any dimension, all shifts and scale factors", "why_tests_cant": "Separation (zero only for equal distributions) and the triangle inequality are statements about all pairs and triples of samples; examples with a small positive value do not exclude distinct samples at distance zero.", "anchors": ["fvgp/ggmp.py:1703-1716", "fvgp/ggmp.py:1036-1045"]}
{"id": "C100", "title": "Samples with different numbers of columns are rejected", "statement": "energy_distance_multivariate, mmd_rbf and sliced_wasserstein_distance raise an error if a sample is empty or if the two samples have different numbers of columns.", "quantifier": "for all pairs of samples", "why_tests_cant": "Whether numpy broadcasting lets a mismatch pass depends on the combination of shapes; a test checks a few of them.", "anchors": ["fvgp/ggmp.py:1712-1714", "fvgp/ggmp.py:1758-1763", "fvgp/ggmp.py:1732-1738"]}
{"id": "C101", "title": "The kernel estimate is unbiased and stays within 1/n+1/m of a squared distance", "statement": "For a given gamma, the mean of mmd_rbf over all samples of n and m rows drawn independently from two finite populations is exactly the squared maximum mean discrepancy of the populations. It is symmetric, never exceeds the biased (non-negative) statistic of the two samples or 2, and is below the biased statistic by at most 1/n + 1/m.", "quantifier": "for all gamma, dimensions, populations, sample sizes n, m >= 2 and samples", "why_tests_cant": "Unbiasedness is an identity about the average over all possible samples; simulations only estimate it.", "anchors": ["fvgp/ggmp.py:1743-1777"]}
{"id": "C102", "title": "A sample compared with itself has distance zero", "statement": "energy_distance_multivariate, sliced_wasserstein_distance and mmd_rbf return zero for two identical samples.", "quantifier": "for all samples", "why_tests_cant": "Needs all samples; the value of mmd_rbf depends on the spread of the rows.", "anchors": ["fvgp/ggmp.py:1703-1777"]}
{"id": "C103", "title": "mmd_rbf with automatic scale does not depend on units or origin", "statement": "Multiplying all data by a non-zero constant and adding a constant vector does not change mmd_rbf when gamma is chosen automatically.", "quantifier": "for all samples, non-zero factors and shifts", "why_tests_cant": "The dependence appears only below a threshold built into the program (1e-12 on the squared distances).", "anchors": ["fvgp/ggmp.py:1765-1767"]}
{"id": "C104", "title": "The sliced distance is a pseudometric", "statement": "For a fixed seed and number of projections, sliced_wasserstein_distance is symmetric, non-negative and satisfies the triangle inequality on samples with the same number of columns, and does not exceed the largest projected distance along directions of length at most one; numbers of projections below one count as one.", "quantifier": "for all samples, all seeds (draws) and numbers of projections; the one-dimensional distance is any pseudometric", "why_tests_cant": "Triples of samples and all seeds.", "anchors": ["fvgp/ggmp.py:1719-1740"]}
{"id": "C105", "title": "fit_gmm_fixed_weights returns the state reached by its iteration, sorted", "statement": "For non-empty data, K weights and K initial means, fit_gmm_fixed_weights returns K pairs (mean, variance) in ascending order of the means which are, up to order, the state reached by iterating the expectation-maximisation map with the normalised weights from the initial means with common variance var(y)/K, stopped after max_iter rounds or at the first round that moves no mean by tol; empty data, a wrong number of weights and a wrong number of initial means are rejected.", "quantifier": "for all data, weights, initial means, max_iter > 0, tolerances and any correct argsort", "why_tests_cant": "Relates the loop, its early exit and the final sorting to a mathematical iteration for every input.", "anchors": ["fvgp/ggmp.py:967-1033"]}
{"id": "C106", "title": "Fitted means and variances stay in the range of the data", "statement": "Means returned by fit_gmm_fixed_weights lie in the range of the data and variances between 1e-6 and the squared range plus 1e-6.", "quantifier": "for all data, weights, initial means and numbers of iterations", "why_tests_cant": "Holds for ordinary data; a component without data moves to zero, whatever the data are.", "anchors": ["fvgp/ggmp.py:1006-1027"]}
{"id": "C107", "title": "Returned components belong to the given weights", "statement": "Pairing the weights passed to fit_gmm_fixed_weights with the returned means and variances in order gives the fitted mixture.", "quantifier": "for all data, weights, initial means and numbers of iterations", "why_tests_cant": "The components are sorted without the weights, which is invisible with equal weights or when the order happens to agree.", "anchors": ["fvgp/ggmp.py:1029-1033"]}
{"id": "C108", "title": "fit_gmm_fixed_weights leaves its arguments alone", "statement": "The array of initial means passed by the caller is not modified.", "quantifier": "for all arguments, and for initial means given as list or as array of floats", "why_tests_cant": "Depends on whether numpy copies; results of a single call do not show it.", "anchors": ["fvgp/ggmp.py:997-1027"]}
{"id": "C109", "title": "Free fits give proper mixtures whose parts stay together", "statement": "fit_gmm_free_weights_multivariate returns K weights, means and covariances; weights have sum one and are at least floor/(1+K*floor); each weight stays with its mean and covariance; components are reordered only for one-dimensional data with sorting requested, and then by mean; weights above the floor are not changed; no samples or fewer samples than components are rejected.", "quantifier": "for all data, K, seeds, floors >= 0, for any mixture estimator returning a proper mixture and any correct argsort", "why_tests_cant": "Quantifies over all results of the estimator, including zero weights.", "anchors": ["fvgp/ggmp.py:1083-1157"]}
{"id": "C110", "title": "Covariance types keep their meaning and stations are fitted separately", "statement": "Converting diagonal, spherical and tied covariances to full matrices keeps the quadratic form of each component; fit_local_gmms_multivariate returns for station i exactly the free fit of its data with seed + i, reports the dimension of the first station, and fails exactly if a station fails or there is none.", "quantifier": "for all covariance types, dimensions, lists of stations and seeds", "why_tests_cant": "All covariance types and all lists of stations.", "anchors": ["fvgp/ggmp.py:1047-1081", "fvgp/ggmp.py:1159-1200"]}
{"id": "C111", "title": "gaussian_w2_squared is the least expected squared distance", "statement": "For symmetric covariances whose variances in all directions are at least 1e-6, gaussian_w2_squared equals the expected squared distance of some joint distribution of the two Gaussians and is at most that of every joint distribution.", "quantifier": "for all dimensions, means, covariances with variances >= 1e-6 and all joint covariances; any correct eigendecomposition", "why_tests_cant": "A minimum over a continuum of joint distributions.", "anchors": ["fvgp/ggmp.py:1210-1244"]}
{"id": "C112", "title": "The root of gaussian_w2_squared is a metric", "statement": "On Gaussians with variances of at least 1e-6 the square root of gaussian_w2_squared is non-negative, zero exactly for equal Gaussians, symmetric and satisfies the triangle inequality.", "quantifier": "for all dimensions and all triples of Gaussians", "why_tests_cant": "Triples of matrices.", "anchors": ["fvgp/ggmp.py:1224-1244"]}
{"id": "C113", "title": "Distances between components do not depend on eigenvectors or coordinates", "statement": "_sqrtm_psd and gaussian_w2_squared give the same value for every orthonormal eigendecomposition; the distance does not change under rotations and translations; the root of a covariance with variances of at least 1e-12 is its positive definite square root.", "quantifier": "for all matrices, all correct eigendecompositions, all orthogonal matrices and shifts", "why_tests_cant": "Repeated eigenvalues leave a continuum of eigenvectors.", "anchors": ["fvgp/ggmp.py:1216-1221", "fvgp/ggmp.py:1224-1244"]}
{"id": "C114", "title": "gaussian_w2_squared is a distance for all covariances", "statement": "gaussian_w2_squared is non-negative, zero from a Gaussian to itself, symmetric, and positive between different Gaussians, also if covariances are singular or small.", "quantifier": "for all dimensions, means and positive semidefinite covariances", "why_tests_cant": "Deviations occur for degenerate covariances only and are small.", "anchors": ["fvgp/ggmp.py:1216-1244"]}
{"id": "C115", "title": "Derivatives used by the BO surrogate are derivatives", "statement": "The surrogate kernel's gradients with respect to the point and to the hyperparameters, the gradient of the learned noise, and the gradient of the quadratic mean equal the derivatives of the functions they accompany in every direction, also where points coincide; and the surrogate kernel is a valid covariance function.", "quantifier": "for all dimensions, points, non-zero length scales, polynomial coefficients and directions; the noise level above its floor", "why_tests_cant": "A finite-difference test samples a few points and misses the removable singularity at zero distance.", "anchors": ["fvgp/gp_bo.py:115-220", "fvgp/gp_bo.py:265-304"]}
{"id": "C116", "title": "The gradient search of the acquisition uses the surrogate's posterior", "statement": "The mean and variance from _posterior_mean_var_and_grad are the posterior mean and (floored) variance the surrogate GP reports, and the gradients returned with them are their gradients.", "quantifier": "for all data sets, hyperparameters, noise levels and query points", "why_tests_cant": "Tests with enough points for the quadratic mean cannot see that the constant prior mean is dropped with fewer points.", "anchors": ["fvgp/gp_bo.py:222-262", "fvgp/gp_prior.py:449-458"]}
{"id": "C117", "title": "Noisy expected improvement is an average of expected gains with its exact gradient", "statement": "Both acquisition functions return the average over sampled incumbents of the expected gain of a normal variable over the incumbent, which is positive; the gradient returned with the second is its gradient.", "quantifier": "for all surrogates, non-empty lists of sampled incumbents and query points; the gradient away from the variance floor", "why_tests_cant": "The claim involves an integral over the normal distribution and derivatives in all directions.", "anchors": ["fvgp/gp_bo.py:441-488"]}
{"id": "C118", "title": "Candidates are screened with the same acquisition value that is then maximized", "statement": "The value used to rank raw candidates equals the value maximized by the gradient search at every point.", "quantifier": "for all surrogates, incumbents and points", "why_tests_cant": "The two values agree at almost all points once there are enough data, and differ by the floors or the prior mean otherwise.", "anchors": ["fvgp/gp_bo.py:441-523"]}
{"id": "C119", "title": "The proposed point is feasible and at least as good as every screened candidate", "statement": "The maximization of the acquisition returns a point of the unit cube whose reported value is a value of the acquisition at that point and is not below the value of any raw candidate; without candidates or starts it fails. The minimizer is handed minus the acquisition together with its gradient.", "quantifier": "for all acquisition functions, raw candidates, numbers of starts, and all minimizers that return points of the box with their value or report failure", "why_tests_cant": "Quantifies over every behaviour of the optimizer, including failures and points a rounding error outside the box.", "anchors": ["fvgp/gp_bo.py:491-523"]}
{"id": "C120", "title": "The quadratic mean is the least squares fit and is used only with enough points", "statement": "The quadratic mean is fitted iff there are at least twice as many points as coefficients; it has the least squared error of all separable quadratics and reproduces data of that form; the residual variance used as scale is positive, not above the variance of the data, and 1 for constant data.", "quantifier": "for all dimensions, point sets and values, and all least squares solvers", "why_tests_cant": "Optimality compares with infinitely many coefficient vectors.", "anchors": ["fvgp/gp_bo.py:265-297", "fvgp/gp_bo.py:306-395"]}
{"id": "C121", "title": "The surrogate's training starts inside its box", "statement": "The box for training the surrogate's hyperparameters is a non-empty box of positive numbers containing the start; learned and given noise levels stay at or above the nugget.", "quantifier": "for all data sets, dimensions and reported noise levels", "why_tests_cant": "Fails only for data with variance near 1e-12.", "anchors": ["fvgp/gp_bo.py:299-395"]}
{"id": "C122", "title": "The Laplace covariance of the hyperparameters is the inverse curvature, and exists exactly at a clean optimum", "statement": "_laplace_posterior returns a symmetric curvature in the searched coordinates made of mixed second differences; it returns a covariance iff that curvature is positive definite, and then the covariance is symmetric, positive definite and the curvature's inverse; for a quadratic objective the curvature is the exact second derivative in searched coordinates and at the minimum the covariance is that of the normal density exp(-objective).", "quantifier": "for all surrogate means, points, spans and dimensions, and all correct eigenvalue routines", "why_tests_cant": "The equivalence with positive definiteness quantifies over all directions; exactness over all quadratics.", "anchors": ["fvgp/gp_bo.py:397-435"]}
{"id": "C128", "title": "Every solver mode solves with the current matrix after any history of updates", "statement": "Whatever sequence of data replacements, appends, hyperparameter changes and evaluations a GP has gone through, in each linear-algebra mode the stored KVinvY solves the system of the current K+V, the stored log-determinant is that of the current K+V, and later solves use the current K+V: exactly for Chol, CholInv, Inv, sparseLU and the user's callables, within the contract of the iterative solver and as an estimate at the current matrix otherwise. An update succeeds exactly if the matrix is positive definite (Chol, CholInv) or invertible (Inv, sparseLU).", "quantifier": "all modes, all real closed fields, all symmetric matrices of all sizes, all histories of set, append and evaluation, all library oracles meeting their contracts", "why_tests_cant": "Every mode keeps different attributes and updates them differently; only a proof covers all interleavings of set, append and evaluation in all modes.", "anchors": ["fvgp/gp_kv.py:404-508", "fvgp/gp_kv.py:671-716", "fvgp/gp_lin_alg.py:203-286", "fvgp/gp_lin_alg.py:1484-1578"]}
{"id": "C129", "title": "Cached and recomputed log likelihood agree in all exact modes", "statement": "log_likelihood() from the stored state and log_likelihood(h) evaluated at the stored hyperparameters use the same KVinvY and the same log-determinant, whichever exact modes the state and the evaluation use, and for a positive definite K+V the evaluation succeeds and leaves the estimator's record alone.", "quantifier": "all pairs of exact modes, all reachable states, all matrices", "why_tests_cant": "Tests compare the two paths for single modes and data sets with a tolerance.", "anchors": ["fvgp/gp_kv.py:510-632", "fvgp/gp_marginal_likelihood.py:137-180"]}
{"id": "C130", "title": "The reported likelihood variance describes the last evaluation", "statement": "After an evaluation of the likelihood, log_likelihood_variance() is None if the evaluation was exact, and a quarter of the variance of the log-determinant estimate that entered this evaluation otherwise.", "quantifier": "all settings of gp2Scale and linalg_mode, all sequences of evaluations", "why_tests_cant": "It depends on the order of evaluations whose modes differ because the sparsity of K+V changes with the hyperparameters.", "anchors": ["fvgp/gp_kv.py:103-107", "fvgp/gp_kv.py:182-188", "fvgp/gp_kv.py:559-632", "fvgp/gp_marginal_likelihood.py:182-204"]}
{"id": "C131", "title": "A covariance that is not positive definite is never used silently", "statement": "If K+V is symmetric but not positive definite, storing it or evaluating the likelihood with it fails instead of producing a number.", "quantifier": "all modes, all symmetric matrices, all histories", "why_tests_cant": "Indefinite matrices appear for invalid user kernels or noise; a test sees single matrices.", "anchors": ["fvgp/gp_kv.py:425-632", "fvgp/gp_lin_alg.py:203-269", "fvgp/gp_lin_alg.py:1484-1555"]}
{"id": "C127", "title": "Finite-difference gradients approximate the derivatives they stand for", "statement": "When no gradient callable is given, the derivatives of kernel, prior mean and noise with respect to each hyperparameter differ from the true partial derivatives by at most a sixth of the third derivative times the squared step (1e-6 for mean and noise, 1e-8 for the kernel), they are exact for functions quadratic in that hyperparameter, the one-direction (ram_economy) variants return the same numbers, and the comparison gradient of test_log_likelihood_gradient is off by at most half the second derivative times its step. Real arithmetic, hyperparameters stored as floats.", "quantifier": "all functions, all hyperparameter vectors, all components, all evaluation points", "why_tests_cant": "A test compares a few functions at a few points; a wrong step or divisor in one variant shows only for functions the test does not use.", "anchors": ["fvgp/gp_prior.py:411-447", "fvgp/gp_prior.py:460-470", "fvgp/gp_likelihood.py:125-146", "fvgp/gp_marginal_likelihood.py:338-369"]}
{"id": "C132", "title": "Gradients do not depend on whether hyperparameters are given as integers or floats", "statement": "Passing the same hyperparameter vector as an integer array or as a float array gives the same finite-difference gradients.", "quantifier": "all functions, all integer-valued hyperparameter vectors, all components", "why_tests_cant": "Tests create hyperparameters with floats or random numbers; the failure needs an integer array such as np.array([1, 2]), and nothing raises.", "anchors": ["fvgp/gp_prior.py:411-447", "fvgp/gp_prior.py:460-470", "fvgp/gp_likelihood.py:125-146", "fvgp/gp_marginal_likelihood.py:338-369"]}
{"id": "C123", "title": "The optimizer gets derivatives of the function it minimizes", "statement": "Whenever train() starts an optimizer that uses a gradient or a Hessian, those are the gradient and Hessian of the objective handed to the same optimizer.", "quantifier": "all methods, all combinations of user-supplied objective, gradient and Hessian, synchronous and asynchronous, with and without gp2Scale", "why_tests_cant": "The combinations of optional callables and methods are many, and an optimizer given a wrong derivative still returns a vector.", "anchors": ["fvgp/gp.py:1038-1053", "fvgp/gp.py:1090-1141", "fvgp/gp_training.py:84-193", "fvgp/gp_training.py:226-271"]}
{"id": "C124", "title": "train() runs the requested method, or raises, or switches exactly as documented", "statement": "A gp2Scale GP always trains synchronously with mcmc or bo; any other GP runs the requested method, asynchronously exactly if that was requested for hgdl, mcmc, adam or bo and a Dask client exists. mcmc always gets the log likelihood, every other built-in method the user's objective or the negative log likelihood. Training is guarded against worse results only when synchronous and with the default objective. Each way of failing happens exactly under its condition: no client, no bounds, no gradient for local or hgdl with a user objective, unknown method.", "quantifier": "all requests, all GPs", "why_tests_cant": "The outcome depends on a product of method, flags and optional arguments that no test enumerates, and asynchronous and gp2Scale branches are excluded from coverage.", "anchors": ["fvgp/gp.py:990-1141", "fvgp/gp_training.py:53-196", "fvgp/gp_training.py:226-271"]}
{"id": "C125", "title": "Default hyperparameter bounds form a box of positive numbers", "statement": "When train() is called without bounds and default bounds exist, every interval is non-degenerate with a positive lower end, so that training starts from positive signal variance and length scales.", "quantifier": "all data sets", "why_tests_cant": "Tests use random data; the failure needs constant observations or a constant coordinate.", "anchors": ["fvgp/gp.py:752-775", "fvgp/gp.py:1018-1036"]}
{"id": "C126", "title": "Gradient callables are called in the form documented for ram_economy", "statement": "Kernel and noise gradients written for the value of ram_economy passed to the constructor are called with the arguments that form takes; the built-in ones likewise.", "quantifier": "all combinations of ram_economy, kernel, kernel gradient, noise function and noise gradient, with and without gp2Scale", "why_tests_cant": "One constructor argument silently changes the flag another callable depends on; only one combination shows it.", "anchors": ["fvgp/gp_prior.py:44-76", "fvgp/gp_prior.py:236-240", "fvgp/gp_likelihood.py:40-51", "fvgp/gp_likelihood.py:96-99", "fvgp/gp.py:282-292"]}
{"id": "C133", "title": "kill_client stops the training and shuts the Dask client down", "statement": "After kill_client on the object returned by an asynchronous training, the run has stopped and its Dask client is shut down; stop_training stops the run and leaves the client alive.", "quantifier": "all asynchronous methods, all states", "why_tests_cant": "A test needs a live cluster and sees one method.", "anchors": ["fvgp/gp.py:1235-1258", "fvgp/gp_training.py:474-506", "fvgp/gp_actor.py:246-256"]}
{"id": "C134", "title": "After training a GGMP everything it stores describes the same model", "statement": "If GGMP.train returns, the returned list is the list of hyperparameters of the component GPs, the stored hyperparameters are that list, the stored weights are the weights of the likelihoods, every GP's prior, noise and factorization belong to its hyperparameters, and the weights are the result of the requested weight method for exactly these GPs, or unchanged if weights are not trained.", "quantifier": "all numbers of components, all optimizers and weight methods, all arguments, all states of the components", "why_tests_cant": "Four copies of the parameters are kept in step by hand across two phases; a test inspects one of them after one configuration.", "anchors": ["fvgp/ggmp.py:545-569", "fvgp/ggmp.py:571-693", "fvgp/ggmp.py:2301-2342"]}
{"id": "C135", "title": "A GGMP.train call that raises leaves the model as it was", "statement": "If GGMP.train raises, the component GPs, the weights and the stored hyperparameters are unchanged.", "quantifier": "all arguments, all points of failure", "why_tests_cant": "Tests check that the exception is raised, not the state of each component afterwards.", "anchors": ["fvgp/ggmp.py:621-693"]}
{"id": "C136", "title": "Guarded GGMP training never lowers the likelihood of a component", "statement": "With a method for which GP.train keeps the incumbent unless the result improves, no component has a lower log marginal likelihood after GGMP.train than before.", "quantifier": "all optimizers, all components, all starting vectors", "why_tests_cant": "Optimizers usually improve; the guard matters only when they do not.", "anchors": ["fvgp/ggmp.py:624-640", "fvgp/gp.py:1075-1116"]}
{"id": "C137", "title": "The hyperparameters returned by GGMP.train are results of the training", "statement": "If GGMP.train returns, each returned vector is what the optimizer of that component returned, started inside the bounds, or the starting vector when the guard kept it.", "quantifier": "all optimizers, all arguments forwarded to GP.train", "why_tests_cant": "Keyword arguments are forwarded unchecked; asynchronous training needs a cluster.", "anchors": ["fvgp/ggmp.py:624-641"]}
{"id": "C138", "title": "Setting hyperparameters of a component either raises or leaves a GP built for them", "statement": "If _safe_set_hyperparameters returns, the GP's hyperparameters are the given ones and its prior, noise and factorization belong to them.", "quantifier": "all vectors, all states reachable by earlier calls including failed ones", "why_tests_cant": "The shortcut for equal vectors is wrong only after an earlier failure with the same vector.", "anchors": ["fvgp/ggmp.py:545-569", "fvgp/gp.py:672-687"]}
{"id": "C139", "title": "Block CG never moves away from the solution", "statement": "Whatever the exit code, the energy norm of the error of every column returned by the block conjugate gradient solver is at most that of the starting guess.", "quantifier": "all positive definite matrices, right-hand sides, preconditioners with positive form, starting guesses, tolerances and iteration limits, exact arithmetic", "why_tests_cant": "Holds for symmetric preconditioners and the test matrices; the incomplete LU preconditioner is not symmetric.", "anchors": ["fvgp/gp_lin_alg.py:1024-1080"]}
{"id": "C140", "title": "Block CG solves every system", "statement": "With a positive definite matrix and preconditioner and the default number of iterations, the block conjugate gradient solver meets the tolerance in every column.", "quantifier": "all positive definite matrices and preconditioners, all right-hand sides, exact arithmetic", "why_tests_cant": "Random right-hand sides are linearly independent; a zero or repeated column stops the whole block and only a warning is issued.", "anchors": ["fvgp/gp_lin_alg.py:1024-1080", "fvgp/gp_lin_alg.py:1242-1284"]}
{"id": "C141", "title": "A GPU request runs on a GPU or says that it does not", "statement": "When a linear-algebra call is asked to run on the GPU, it runs on an existing GPU of the requested engine without a warning, or on the CPU with exactly one warning.", "quantifier": "all combinations of installed packages and devices, all values of GPU_engine, GPU_device and GPU_device_index", "why_tests_cant": "The GPU branches are excluded from the tests; the outcome depends on the machine.", "anchors": ["fvgp/gp_lin_alg.py:69-181"]}
{"id": "C142", "title": "The GPU device named in args is the one used", "statement": "With args['GPU_device'] given, every linear-algebra call of a training step that runs on a GPU runs on that device.", "quantifier": "all machines, engines, devices, likelihood and gradient evaluations", "why_tests_cant": "Needs a machine with several GPUs.", "anchors": ["fvgp/gp_lin_alg.py:69-181", "fvgp/gp_marginal_likelihood.py:274", "fvgp/gp_marginal_likelihood.py:300"]}
{"id": "C143", "title": "GPU and CPU linear algebra give the same results", "statement": "Factor (as far as it is read), solutions, inverse, log-determinant and rank-1 update are the same numbers on the CPU and on the GPU with any engine, also when operations on different devices are combined.", "quantifier": "all matrices, right-hand sides, engines and per-operation device settings, exact arithmetic", "why_tests_cant": "The GPU branches are excluded from the tests; the difference appears for singular matrices.", "anchors": ["fvgp/gp_lin_alg.py:236-360", "fvgp/gp_lin_alg.py:1311-1461", "fvgp/gp_lin_alg.py:1484-1625"]}
{"id": "C144", "title": "NonPositiveDefiniteError means that the matrix is not positive definite", "statement": "If calculate_Chol_factor raises NonPositiveDefiniteError for a symmetric matrix, the matrix is not positive definite.", "quantifier": "all symmetric matrices, devices, engines, library failures", "why_tests_cant": "Out-of-memory and driver errors of a GPU do not occur in tests.", "anchors": ["fvgp/gp_lin_alg.py:236-269"]}
{"id": "C145", "title": "Without a usable GPU every GPU request computes the CPU result", "statement": "If no engine is usable, each dense linear-algebra function called with compute_device='gpu' returns what it returns on the CPU.", "quantifier": "all functions, inputs and device settings", "why_tests_cant": "Each function has its own fallback branch; one returns None, which no test on a CPU-only machine calls.", "anchors": ["fvgp/gp_lin_alg.py:236-360", "fvgp/gp_lin_alg.py:1337-1348", "fvgp/gp_lin_alg.py:1484-1625"]}
{"id": "C146", "title": "Products with sparse factors are computed on the CPU", "statement": "matmul and matmul3 return the product of their factors for every mix of dense and sparse ones, on the CPU if one is sparse.", "quantifier": "all shapes, entries, devices", "why_tests_cant": "Needs all combinations of storage and device.", "anchors": ["fvgp/gp_lin_alg.py:1628-1696"]}
{"id": "C147", "title": "Documented solver options have their documented effect", "statement": "Each documented key of args gives its solver, and only that one, the value the user set, and without it the documented default: Krylov tolerances and iteration limits, block mode and size, the settings of the stochastic log-determinant, and the devices of the Cholesky steps.", "quantifier": "all dictionaries of options, devices, machines", "why_tests_cant": "The keys interact through fallbacks; tests set a few keys one at a time.", "anchors": ["fvgp/gp.py:297-389", "fvgp/gp_lin_alg.py:240,272-286,295,334,937-963,1128-1156,1191-1197,1222-1245"]}
{"id": "C148", "title": "The reported likelihood variance is on average the variance of the likelihood", "statement": "In the sparse modes log_likelihood_variance is an unbiased estimate of the variance of the stochastic log marginal likelihood due to the log-determinant.", "quantifier": "all distributions of a probe, all sample limits and stopping rules", "why_tests_cant": "A statement about expectations over random probes.", "anchors": ["fvgp/gp_lin_alg.py:1103-1181", "fvgp/gp_marginal_likelihood.py:182-204"]}
{"id": "C149", "title": "A prediction uses one set of args", "statement": "After set_args the posterior mean and variance are those of a GP with the current data and hyperparameters and one set of args (old or new), for kernels, means and noise functions that read args.", "quantifier": "all callables, data, args, histories of updates and set_args", "why_tests_cant": "Inconsistent mixtures look like plausible predictions; needs all interleavings of set_args with updates and predictions.", "anchors": ["fvgp/gp.py:617-749", "fvgp/gp_prior.py:217-299", "fvgp/gp_posterior.py:135-262"]}
{"id": "C150", "title": "The preconditioner named by the linear-algebra mode is the one used", "statement": "A GP constructed with a mode such as sparseCGpre_amg uses the named preconditioner for its whole life, and conflicting settings are refused.", "quantifier": "all mode spellings, args, later set_args calls", "why_tests_cant": "Depends on the history of set_args calls; the fallback is silent.", "anchors": ["fvgp/gp.py:650-669", "fvgp/gp_kv.py:113-118", "fvgp/gp_lin_alg.py:397-427,474-505,899-902"]}
{"id": "C151", "title": "A Bayesian optimization that never uses its surrogate is announced by a warning, and only then", "statement": "train(method='bo') warns that the budget is spent on the initial design exactly when the run is the space-filling design, i.e. when its result cannot depend on the surrogate.", "quantifier": "all budgets, design sizes, dimensions, objectives, surrogates", "why_tests_cant": "The warning and the optimizer compute the design size separately; agreement is needed for all settings.", "anchors": ["fvgp/gp.py:1170-1232", "fvgp/gp_bo.py:104-112,581-582,666-700"]}
{"id": "C152", "title": "A prediction grid covers its rectangle", "statement": "make_1d_x_pred and make_2d_x_pred return evenly spaced points from the lower to the upper bounds, resx*resy of them, ordered so that results reshape to (resx, resy).", "quantifier": "all bounds and resolutions", "why_tests_cant": "All resolutions including the degenerate ones.", "anchors": ["fvgp/gp.py:2153-2197"]}
{"id": "C153", "title": "get_gp2Scale_exec_time estimates the time of the distributed covariance", "statement": "The estimate is a lower bound of the time of any distribution of the block tasks over the workers and within a constant factor of the best one.", "quantifier": "all data sizes, batch sizes, numbers of workers, schedules", "why_tests_cant": "Quantifies over all schedules.", "anchors": ["fvgp/gp.py:2199-2219", "fvgp/gp2Scale_covariance.py:48-61,377-390"]}
{"id": "C154", "title": "After any history of updates the object is the Gaussian process of its data", "statement": "After constructing a GP and any sequence of update_gp_data calls (appending with or without rank-n updates, or overwriting) and hyperparameter changes, the stored data and hyperparameters are those of the history, log_likelihood() is the Gaussian log density of the stored observations, and posterior_mean / posterior_covariance return the mean and covariance of the conditional distribution given all stored observations: the joint density of observations and predicted values factors into the two. No update fails while the noise is positive definite.", "quantifier": "all point types, valid covariance functions, mean functions (user's or default), noise given as measured variances or by a function (or default noise without rank-n updates, see C05), all histories, all exact solver modes (Chol, CholInv, Inv, sparseLU, custom), all prediction points, all libraries meeting their contracts, exact arithmetic", "why_tests_cant": "The claim composes data bookkeeping, blockwise prior updates, factor updates in five modes and prediction formulas over arbitrarily long update sequences; tests compare a few sequences on a few data sets to a tolerance.", "anchors": ["fvgp/gp.py:483-560", "fvgp/gp.py:684-749", "fvgp/gp_kv.py:404-508", "fvgp/gp_posterior.py:120-182", "fvgp/gp_posterior.py:229-288", "fvgp/gp_marginal_likelihood.py:137-179"]}
{"id": "C155", "title": "The proposal width follows the acceptance rate", "statement": "With the default adaptation of the normal proposal, the width of the proposals depends on the acceptance rate: two runs which differ in the target rate r_opt, the gain c_0 or the scale sigma_m propose different steps, so that the acceptance rate is steered towards r_opt.", "quantifier": "all likelihoods, priors, starting points, random numbers, numbers of iterations, break conditions and lists of normal proposal distributions", "why_tests_cant": "A test sees one run and that sigma_m changes; that sigma_m, r_opt and c_0 influence no sample of any run is a statement over pairs of runs.", "anchors": ["fvgp/gp_mcmc.py:321", "fvgp/gp_mcmc.py:343"]}
{"id": "C156", "title": "The default break condition stops a settled chain, and only a settled chain", "statement": "With break_condition='default' run_mcmc ends early only if the mean of the position has not changed significantly in the last 200 iterations, not before 1000 iterations, and ends at the first iteration at which this is so.", "quantifier": "all likelihoods, priors, proposals, random numbers and numbers of iterations", "why_tests_cant": "Whether a run stops depends on 1000 random iterations; a test observes that some run stops, not that no unsettled run does.", "anchors": ["fvgp/gp_mcmc.py:184", "fvgp/gp_mcmc.py:118"]}
{"id": "C157", "title": "The multivariate mixture likelihood is that of the multivariate mixture sampler", "statement": "For the same weights, means and covariances, loglik_multivariate_mixture_samples returns at every point the log density of the distribution from which sample_gmm_multivariate draws its rows, each row being a separate draw of the component chosen for it.", "quantifier": "all positive weights, means, covariances, ridges, points and sample sizes", "why_tests_cant": "A test checks shapes and finiteness of ten values; agreement of a density with a sampler is a statement about all points and all random choices.", "anchors": ["fvgp/ggmp.py:1650", "fvgp/ggmp.py:1674", "fvgp/ggmp.py:1556"]}
{"id": "C158", "title": "A saved MCMC trace pairs every position with its log likelihood", "statement": "In the trace file of a component GP, entry j of f is the log likelihood at row j of x, and with thinning row j is sample number j*thin of the run.", "quantifier": "all runs of the sampler, thinning factors, tags and prior contents of the run directory", "why_tests_cant": "A test reads back shapes of one file; whether the two thinned arrays belong together is a statement about all runs and all thinning factors.", "anchors": ["fvgp/ggmp.py:2032", "fvgp/gp_mcmc.py:171"]}
{"id": "C159", "title": "Saving a trace is all-or-nothing and touches no other trace", "statement": "Whatever fails while a trace is saved, the file of that component and tag holds afterwards either its old content or the complete new trace, and the trace of every other component or tag is unchanged.", "quantifier": "all components, tags, traces, run directory contents and points of failure", "why_tests_cant": "Tests do not interrupt a write between its steps nor try all pairs of tags.", "anchors": ["fvgp/ggmp.py:2024", "fvgp/ggmp.py:2083"]}
{"id": "C160", "title": "The trace files of chunked training hold the whole training", "statement": "After training a component chunk by chunk with saving on, its final trace file holds the samples of the whole training, and each chunk's file the samples of that chunk, whichever chunk writes failed.", "quantifier": "all numbers and sizes of chunks, thinning factors, write failures and directory contents", "why_tests_cant": "It is a statement about all sequences of chunks and failures; a test runs one.", "anchors": ["fvgp/ggmp.py:2217", "fvgp/ggmp.py:2257", "fvgp/ggmp.py:2137"]}
{"id": "C161", "title": "The sparse approximate inverse converges to the inverse", "statement": "For every symmetric positive definite matrix the iteration of spai never fails, its residual |A M - I| never grows and shrinks at least by a fixed factor below one per step, and the distance of the result to the inverse is bounded by the residual; the result is symmetric and commutes with the matrix.", "quantifier": "all sizes, symmetric positive definite matrices, step counts and norm estimates", "why_tests_cant": "Tests compare a few matrices after a few steps; the rate and the absence of a breakdown concern every matrix and every number of steps.", "anchors": ["fvgp/gp_lin_alg.py:363"]}
{"id": "C162", "title": "The sparse approximate inverse can serve as preconditioner", "statement": "For a symmetric positive definite matrix the result of spai is positive definite after every number of steps, as conjugate gradients and MINRES require of a preconditioner.", "quantifier": "all sizes, symmetric positive definite matrices and step counts", "why_tests_cant": "A lost positive direction shows only for particular spectra and particular step counts.", "anchors": ["fvgp/gp_lin_alg.py:363", "fvgp/gp_lin_alg.py:376"]}
{"id": "C163", "title": "Finite-difference derivatives survive double precision", "statement": "At every input point and hyperparameter vector the finite-difference derivatives used for training and for posterior gradients evaluate the function at moved arguments, so that a function linear in the argument gets its slope to three digits.", "quantifier": "all functions, all double-precision arguments of any magnitude", "why_tests_cant": "Tests use inputs and hyperparameters of size one; the fixed steps 1e-8 and 1e-6 vanish only for large arguments such as time stamps or variances of unscaled data.", "anchors": ["fvgp/gp_prior.py:402", "fvgp/gp_prior.py:438", "fvgp/gp_prior.py:460", "fvgp/gp_likelihood.py:125", "fvgp/gp_posterior.py:203"]}
{"id": "C164", "title": "The unit-cube transform stays inside the box in double precision", "statement": "In double precision, too, every point of the unit cube is mapped into the interval given by the bounds of a linear dimension, monotonically and onto its lower end.", "quantifier": "all double-precision bounds and cube coordinates", "why_tests_cant": "The overshoot depends on the last bits of the bounds; a test would have to hit such a pair.", "anchors": ["fvgp/gp_bo.py:83", "fvgp/gp_bo.py:94"]}
{"id": "C165", "title": "The 1e-9 on the diagonal makes joint covariances positive definite", "statement": "Adding 1e-9 to the diagonal of a positive semidefinite covariance matrix makes it positive definite, so that the information measures exist also when predicted points coincide with data points.", "quantifier": "all sizes and all positive semidefinite matrices of doubles", "why_tests_cant": "Whether anything is added depends on the magnitude of the data's variance; tests use variances of size one.", "anchors": ["fvgp/gp_posterior.py:336", "fvgp/gp_posterior.py:465", "fvgp/gp_posterior.py:450"]}
{"id": "C166", "title": "Retries of a preconditioner use a different matrix", "statement": "The retries with a shifted diagonal try larger and larger diagonals, and the last one succeeds for every positive semidefinite matrix.", "quantifier": "all sizes and all positive semidefinite matrices of doubles, default options", "why_tests_cant": "Tests provoke failures with small matrices whose entries are of size one.", "anchors": ["fvgp/gp_lin_alg.py:514", "fvgp/gp_lin_alg.py:751", "fvgp/gp_lin_alg.py:800"]}
{"id": "C167", "title": "A GP owns the data and hyperparameters it was given", "statement": "After x_data, y_data, noise_variances and hyperparameters have been handed to GP(...), update_gp_data or set_hyperparameters, what the caller later writes into those arrays does not change any prediction: each posterior mean is that of a GP newly built from the contents as they were at the calls.", "quantifier": "for all programs that construct, update, predict and write into their own arrays in any order, all kernels, prior means and data", "why_tests_cant": "Tests build the arrays, use the GP and never touch the arrays again; the fault needs a later in-place write and gives plausible numbers without any error.", "anchors": ["fvgp/gp_data.py:25-39", "fvgp/gp_data.py:93-115", "fvgp/gp_training.py:18", "fvgp/gp.py:672-687", "fvgp/gp_posterior.py:142-165"]}
{"id": "C168", "title": "Arrays obtained from a GP can be modified freely", "statement": "Arrays returned by a GP (predictions, the hyperparameters property, the result of train, x_data, y_data, K, m, get_prior_pdf) belong to the caller: writing into them does not change later predictions of the GP.", "quantifier": "for all programs that read properties, train, update, predict and write into what they obtained, in any order", "why_tests_cant": "It is a statement about every later call after a write through an alias; tests read the properties only to compare them.", "anchors": ["fvgp/gp.py:576-645", "fvgp/gp.py:1093-1117", "fvgp/gp.py:1297-1308", "fvgp/gp_prior.py:158-183"]}
{"id": "C169", "title": "Passing the current hyperparameters explicitly changes no prediction", "statement": "posterior_mean and posterior_mean_grad called with hyperparameters equal to the ones in force use the same matrix K+V as the calls without the argument, in every noise format and with and without gp2Scale.", "quantifier": "all covariance matrices, dense or sparse, integer or float, and all noise values of the documented formats", "why_tests_cant": "The only test with explicit hyperparameters uses a dense float covariance; the other combinations of formats and dtypes are never exercised together.", "anchors": ["fvgp/gp_posterior.py:139-146", "fvgp/gp_posterior.py:184-192", "fvgp/gp_kv.py:639-669"]}
{"id": "C170", "title": "K+V is the kernel matrix plus the noise covariance", "statement": "The matrix that is factorized is the sum of the kernel matrix and the noise covariance, whatever the dtype and format of the arrays the user's functions return.", "quantifier": "all kernel matrices of integer or float dtype, dense or sparse, all noise values", "why_tests_cant": "Tests use kernels with float results; with an integer kernel matrix nothing raises, the variances are truncated when they are written into the copy.", "anchors": ["fvgp/gp_kv.py:639-669"]}
{"id": "C171", "title": "Every documented noise format works everywhere", "statement": "A noise function may return a vector, a matrix or a sparse matrix; for each of them construction, predictions with explicit hyperparameters, predictions with noise and the likelihood gradient work and use that noise covariance.", "quantifier": "all noise values of the three formats, dense and sparse covariances, both values of ram_economy", "why_tests_cant": "It is a table of formats against operations of which tests visit a few cells.", "anchors": ["fvgp/gp.py:133-136", "fvgp/gp_posterior.py:554-569", "fvgp/gp_likelihood.py:123-145", "fvgp/gp_kv.py:639-669"]}
{"id": "C172", "title": "The input dimension follows the data", "statement": "After update_gp_data(x, y, append=False) with any 2-d array x that the call accepts, predictions are accepted exactly for points with the columns of the current data, every coordinate of an accepted point enters the covariance with the data, default bounds can still be formed, and a refused overwrite leaves the data as they were. False: the dimension is remembered from construction only. An overwrite with fewer columns is accepted, then the data's own points are refused as prediction points, points of the old dimension are accepted with their extra coordinates ignored, and default bounds raise. With more columns the call raises after the data were replaced. True whenever the overwrite keeps the number of columns.", "quantifier": "all kernels of the default form, all data, all hyperparameters, all overwrites, all prediction points", "why_tests_cant": "Tests overwrite data with arrays of the same shape; the effect needs two arrays of different widths and shows as silently ignored coordinates, not as an error.", "anchors": ["fvgp/gp_data.py:27-34", "fvgp/gp_data.py:93-103", "fvgp/gp_posterior.py:576-581", "fvgp/gp_prior.py:383-400", "fvgp/gp.py:739-776"]}
{"id": "C173", "title": "number_of_hps is the number of parameters of the deep-kernel network", "statement": "For every input dimension and layer width, Network(dim, layer_width).number_of_hps equals the total number of weights and biases of its three layers; cutting a hyperparameter vector of that length into weights and biases as in the example notebook uses every entry exactly once, gives arrays of the right shapes, reaches every network, and raises exactly when the vector is shorter.", "quantifier": "all dimensions, layer widths, networks and hyperparameter vectors", "why_tests_cant": "Tests fix one size; a formula that is off for other sizes makes the kernel silently ignore hyperparameters or raise during training.", "anchors": ["fvgp/deep_kernel_network.py:5-37", "examples/MultiTaskTest.ipynb:847-874"]}
{"id": "C174", "title": "The deep kernel generalises the plain kernel and is always valid", "statement": "For every positive semidefinite kernel the kernel evaluated on the network's outputs is positive semidefinite for all parameters, and for every stationary kernel there are parameters for which the deep kernel equals the plain one. The second half is false on the whole space for every layer width, since the last layer's relu makes all outputs non-negative; it holds on every finite set of points when the layers are at least as wide as the input (exact arithmetic).", "quantifier": "all kernels, parameters, layer widths, finite sets of points", "why_tests_cant": "It is an existence statement over all parameters; no finite number of trained networks shows what cannot be represented.", "anchors": ["fvgp/deep_kernel_network.py:15-20", "fvgp/deep_kernel_network.py:56-63"]}
{"id": "C175", "title": "The deep-kernel network can keep distinct points apart", "statement": "For any finite set of distinct points there are parameters under which their images under Network.forward are distinct. False in the implementation: inputs are cast to single precision first, so points a and a + d with d below half a unit in the last single-precision place have the same image, hence the same kernel row, for all parameters (also for WarpNet). True in exact arithmetic for layers at least as wide as the input.", "quantifier": "all parameters, all points, all kernels", "why_tests_cant": "Points in tests are far apart; rows that coincide only show as a singular matrix.", "anchors": ["fvgp/deep_kernel_network.py:16", "fvgp/deep_kernel_network.py:22-30"]}
{"id": "C176", "title": "empirical_pdf_from_samples returns a density close to the histogram", "statement": "For all non-empty samples and at least two bins, the result has one value per bin, on equally spaced centers whose bins cover all samples; all values are positive, their sum times the spacing is one, and each value differs from the relative frequency per unit length by at most the floor 1e-12 upwards and by the factor 1 + 1e-12 times the range downwards.", "quantifier": "all samples, all numbers of bins", "why_tests_cant": "The bound involves all positions of samples relative to bin edges, including samples on edges.", "anchors": ["fvgp/ggmp.py:954-964", "fvgp/ggmp.py:933-950"]}
{"id": "C177", "title": "The empirical density does not depend on the unit of the samples", "statement": "Multiplying all samples by c > 0 multiplies the centers by c and divides the density by c. False: because of the absolute floor on the histogram, for any samples that are not all equal there is a factor beyond which the result is the uniform density, whatever the samples. True as long as no bin falls below the floor in either unit.", "quantifier": "all samples, all numbers of bins, all scale factors", "why_tests_cant": "Tests use samples of order one.", "anchors": ["fvgp/ggmp.py:961-963"]}
{"id": "C178", "title": "A copy of a GGMP is a GGMP with the same content", "statement": "copy.copy, copy.deepcopy and a round trip through pickle of a GGMP, of a hyperparameters object or of a NormalLikelihood give an object with the same fields. False for every GGMP: its __getattr__ answers for __deepcopy__, __getstate__ and __setstate__, so deepcopy returns None and the other two return a GGMP without any field, whose attributes all read as a function that does nothing. True for the two helper classes.", "quantifier": "all contents, all Python versions (with and without object.__getstate__)", "why_tests_cant": "No test copies a GGMP; the copy is made without an error and the loss shows only when it is used.", "anchors": ["fvgp/ggmp.py:125-128", "fvgp/ggmp.py:781-815", "fvgp/ggmp.py:862-905"]}
{"id": "C179", "title": "The GPU variants of the Wendland kernel agree with the CPU's", "statement": "For all inputs, each entry computed by wendland_anisotropic_gp2Scale_gpu and by its sparse variant is within a thousandth of the signal variance of the entry computed on the CPU. False for the dense variant: coordinates are cast to single precision before they are subtracted, so two points that differ by less than half a unit in the last single-precision place get the full signal variance, however many length scales apart they are (time stamps of the order of 1e8 one length scale apart). True for the dense variant when coordinates and hyperparameters are single-precision numbers, and for the sparse variant, which whitens and subtracts in double precision, for all coordinates up to a million length scales; both then keep the support and the diagonal.", "quantifier": "all coordinates, length scales and signal variances; one input column; no GPU overflow", "why_tests_cant": "GPU code is excluded from the tests (no cover), and inputs of order one do not show the cast.", "anchors": ["fvgp/kernels.py:531-591", "fvgp/kernels.py:741-840"]}
{"id": "C180", "title": "The order of the observations does not matter", "statement": "Permuting the observations (points, values and measured variances together) changes neither the log likelihood nor any posterior mean or covariance. True for the log likelihood, posterior_mean and posterior_covariance(add_noise=False), with every kind of mean and noise. False for posterior_covariance(add_noise=True) with measured variances: predicting at as many points as there are data, the stored variances are added by position, whatever the points are, so the reported variance of a point changes by the difference of the variances that traded places.", "quantifier": "all data, permutations, kernels, mean and noise functions, prediction points", "why_tests_cant": "Needs a statement about every permutation of every data set, and the tests use equal variances.", "anchors": ["fvgp/gp_likelihood.py:106-110", "fvgp/gp_posterior.py:139-182", "fvgp/gp_posterior.py:229-288", "fvgp/gp_posterior.py:554-569", "fvgp/gp_marginal_likelihood.py:137-179"]}
{"id": "C181", "title": "The origin and the unit of the values do not matter", "statement": "Adding a constant to all values (and to the prior mean function if one is given) adds it to every posterior mean and leaves the covariances and the log likelihood as they were; multiplying all values by a (and the mean by a, variances and kernel by a^2) multiplies the means by a, the covariances by a^2 and lowers the log likelihood by n log|a|. The second holds also with the default mean and the default noise. The first fails with the default noise, which is (mean|y|/100)^2: a value 0 is taken as exact, the same value written as 100 from another origin (with a prior variance of 1) as having noise variance 1.", "quantifier": "all data, constants, valid kernels, positive noise", "why_tests_cant": "A relation between two runs over all real data and constants.", "anchors": ["fvgp/gp_likelihood.py:102-104", "fvgp/gp_prior.py:449-458", "fvgp/gp_posterior.py:139-182", "fvgp/gp_posterior.py:229-288"]}
{"id": "C182", "title": "More observations never make a prediction less certain", "statement": "Adding observations never increases a posterior variance at any point, and the posterior covariance matrix of any points decreases in the order of positive semi-definite matrices. True with measured variances or a noise function. False with the default noise: an observation of a large value elsewhere raises the noise variance of all the others (a value 0 at a point known exactly; a value 200 at an uncorrelated point raises its variance to half the prior variance).", "quantifier": "all data sets, further observations, prediction points, valid kernels, positive noise", "why_tests_cant": "Quantifies over all pairs of data sets; a matrix inequality.", "anchors": ["fvgp/gp_likelihood.py:102-104", "fvgp/gp_posterior.py:229-288"]}
{"id": "C183", "title": "The likelihood of two batches is the likelihood of the first times the predictive density of the second", "statement": "log_likelihood of the joined data is log_likelihood of the first batch plus the log density of the second batch's values under the posterior of the first (mean from posterior_mean, covariance from posterior_covariance with the noise of the second batch). True with a prior mean function and a noise function; with measured variances true if the noise of the second batch is added to the covariance by hand. False with the default mean (the mean of all values, so the second batch changes the prior of the first), and with measured variances if the covariance comes from add_noise=True (which adds the noise of the first batch).", "quantifier": "all pairs of batches with one output, valid kernels, positive noise", "why_tests_cant": "An identity between determinants and inverses of all sizes.", "anchors": ["fvgp/gp_marginal_likelihood.py:137-179", "fvgp/gp_posterior.py:139-182", "fvgp/gp_posterior.py:229-288", "fvgp/gp_posterior.py:554-569", "fvgp/gp_prior.py:449-458"]}
{"id": "C184", "title": "The columns of y are independent outputs", "statement": "With values of several columns, each column of the posterior mean is what a GP of that column alone predicts, the covariance is that of each of them, and the log likelihood is the average of theirs. True with a prior mean function and with a noise function or measured variances. False with the default mean and the default noise, which average over all columns: where the kernel says nothing all columns are predicted to be the common mean, and a column of zeros is given the noise of the other.", "quantifier": "all data with any number of columns, kernels, prediction points", "why_tests_cant": "A relation between runs over all data; the tests only look at shapes for several columns.", "anchors": ["fvgp/gp_prior.py:449-458", "fvgp/gp_likelihood.py:102-104", "fvgp/gp_posterior.py:139-182", "fvgp/gp_marginal_likelihood.py:137-179"]}
{"id": "C185", "title": "A seeded Bayesian optimization is reproducible", "statement": "train(method='bo') with the same data, bounds, options and seed evaluates the same points and returns the same recommendation in every process, whatever the state of NumPy's global random generator, and does not touch that generator.", "quantifier": "for all objectives, bounds, starts, options, seeds and states of the global generator", "why_tests_cant": "A test compares a few runs; the search falls back on the global generator only when the values found so far (less their quadratic trend) have a variance below 1e-12, or the start is outside the bounds.", "anchors": ["fvgp/gp_bo.py:306-394", "fvgp/gp_bo.py:575-772", "fvgp/gp.py:1023-1036"]}
{"id": "C186", "title": "Derivatives at prediction points are within the step error of the true derivatives", "statement": "posterior_mean_grad, posterior_covariance_grad (dv/dx) and joint_gp_prior_grad return numbers that differ from the derivatives of predictive mean, predictive variance and joint prior by at most the difference steps (1e-8 for kernel rows, 1e-6 otherwise) times bounds on the higher derivatives, for arrays of points of every numeric dtype.", "quantifier": "for all smooth kernels and means, data, points, directions and dtypes", "why_tests_cant": "A bound for every kernel, data set and point; tests use float arrays and a few kernels.", "anchors": ["fvgp/gp_prior.py:402-409", "fvgp/gp_posterior.py:184-226", "fvgp/gp_posterior.py:291-328", "fvgp/gp_posterior.py:354-383"]}
{"id": "C187", "title": "Units and origins of the inputs do not matter", "statement": "A user may measure each coordinate of the inputs in any unit and from any origin: GP(x_data, y_data) with the default kernel, its default hyperparameters or train(method='mcmc') with default bounds, and the predictions and their derivatives at the converted points are the converted ones.", "quantifier": "all data sets, numbers of coordinates, positive unit factors and origins, mean and noise functions, starts, numbers of updates and random numbers", "why_tests_cant": "Tests fix one unit; that a whole training run in another unit visits the converted positions is a statement about pairs of runs, for every factor and random number, and where it fails (defaults of one, the order of random numbers, absolute difference steps) single runs look normal.", "anchors": ["fvgp/gp.py:499-501", "fvgp/gp.py:752-776", "fvgp/gp.py:1019-1036", "fvgp/gp_mcmc.py:80-93", "fvgp/gp_mcmc.py:321-360", "fvgp/gp_prior.py:376-409"]}
{"id": "C188", "title": "Repeated measurements can be replaced by their averages", "statement": "Several measurements at the same point may be replaced by one: their average weighted by 1/variance, with variance one over the sum of the 1/variances. The posterior mean and covariance at every point stay the same, and the log marginal likelihood changes by a number that does not depend on the kernel or the mean, so training prefers the same hyperparameters.", "quantifier": "for all data sets with any number of repetitions per point, any number of outputs, all positive noise variances, all valid kernels, mean functions and prediction points", "why_tests_cant": "It compares two linear systems of different sizes for every kernel, every grouping of the rows and every set of variances; a test fixes one data set and compares floating-point numbers.", "anchors": ["fvgp/gp_posterior.py:139-182", "fvgp/gp_posterior.py:229-288", "fvgp/gp_marginal_likelihood.py:137-179", "fvgp/gp_likelihood.py:89-110", "fvgp/gp_prior.py:449-458"]}
{"id": "C189", "title": "The variance at a measured point is bounded by the measurement", "statement": "At a point which has been measured, the reported (noise-free) variance is at most the noise variance of each measurement there, and its inverse is at least the inverse of the prior variance plus the sum of the inverse noise variances of all measurements there, whatever else was observed and wherever the noise comes from.", "quantifier": "for all data sets, valid kernels, sources of noise with positive variances, and lists of prediction points containing the point", "why_tests_cant": "It is an inequality between an entry of a Schur complement and the data for every kernel and every other observation; a test samples some of them.", "anchors": ["fvgp/gp_posterior.py:229-288", "fvgp/gp_likelihood.py:89-110"]}
{"id": "C190", "title": "Observations out of reach have no effect", "statement": "Observations whose covariance with all other observations and with the point of prediction is zero change neither mean nor variance there, and the likelihood of the whole data is the product of the likelihoods; with the compactly supported kernel of gp2Scale these are all observations farther away than the length scales.", "quantifier": "for all data sets, kernels, mean functions, positive noise variances, prediction points; for the Wendland kernel up to three input dimensions", "why_tests_cant": "It is about adding any number of arbitrary far observations to any data; a test adds a few and sees them vanish up to rounding.", "anchors": ["fvgp/gp_posterior.py:139-182", "fvgp/gp_posterior.py:229-288", "fvgp/gp_marginal_likelihood.py:137-179", "fvgp/gp_prior.py:449-458", "fvgp/gp_likelihood.py:102-110", "fvgp/kernels.py:502-528"]}
{"id": "C191", "title": "A gp2Scale GP is exact Gaussian process regression, end to end", "statement": "A GP with gp2Scale whose covariances were assembled on Dask clusters that complete (or fail) tasks in any order, after any history of accepted appends, overwrites and hyperparameter changes, holds the data and hyperparameters of that history; log_likelihood() is the Gaussian log density of all observations, and posterior_mean and posterior_covariance, whose cross covariances are again assembled on a cluster and whose products are formed in chunks, are mean and covariance of the conditional distribution. With a kernel that does not raise and a cluster that loses no task, updates and predictions succeed.", "quantifier": "for all covariance functions and kernel callables returning their matrix (dense or sparse blocks), batch sizes, distributions, clusters, histories, noise models that do not move, exact solver modes, and prediction points", "why_tests_cant": "batch sizes, completion orders and histories of updates form an infinite space of schedules; each test sees one schedule, and a wrong block in the wrong place shows only for particular sizes", "anchors": ["fvgp/gp.py:483-560", "fvgp/gp.py:684-749", "fvgp/gp_prior.py:158-225", "fvgp/gp_prior.py:324-370", "fvgp/gp_kv.py:404-423", "fvgp/gp_kv.py:640-669", "fvgp/gp_posterior.py:120-182", "fvgp/gp_posterior.py:229-288", "fvgp/gp2Scale_covariance.py:48-446"]}
{"id": "C192", "title": "The landmark kernel sees points only through the data points within its radius", "statement": "With positive hyperparameters, sle_kernel gives two points the full covariance exactly when no data point closer than the radius to one of them is at different distances from the two; otherwise the covariance is smaller, but never smaller than amplitude * exp(-m / length scale) for m data points.", "quantifier": "all data sets, dimensions, pairs of points and positive hyperparameters", "why_tests_cant": "Points that are all out of reach are perfectly correlated however far apart they are, which looks like a singular covariance matrix; the exact criterion quantifies over all configurations.", "anchors": ["fvgp/kernels.py:sle_kernel", "fvgp/kernels.py:bump"]}
{"id": "C193", "title": "A preconditioner is applied as its factor is, column by column", "statement": "The operator handed to the Krylov solvers maps every vector to what the factor gives for it, treats several columns as it treats each alone, and is self-adjoint and positive if the factor is.", "quantifier": "all preconditioner kinds, factors, vectors, numbers of columns and dtypes of K+V", "why_tests_cant": "A cast through the dtype of the matrix truncates residuals silently; the solver then stagnates or divides by zero depending on the data.", "anchors": ["fvgp/gp_lin_alg.py:759-782", "fvgp/gp_lin_alg.py:784-799", "fvgp/gp_lin_alg.py:750", "fvgp/gp_lin_alg.py:838", "fvgp/gp_lin_alg.py:859"]}
{"id": "C194", "title": "Mixture weights are fitted for the mixture that is reported", "statement": "At every station, posterior_mean and posterior_variance of a trained GGMP are the mean and variance of the mixture of Gaussians whose likelihood the weights were fitted to.", "quantifier": "all stations, numbers of components, weights, posterior means and variances and noise of the components", "why_tests_cant": "Training uses the noise of each station, reporting its mean over the stations; both are plausible variances and agree in tests with constant noise.", "anchors": ["fvgp/ggmp.py:2301-2342", "fvgp/ggmp.py:763-778", "fvgp/ggmp.py:658-688"]}
{"id": "C195", "title": "The weights are fitted to every station's normalised density, or to the samples of the stations", "statement": "With weight_method='density' the objective sums, over all stations and grid points, the mass of the normalised density times the log of the mixture of the components' predictive densities there; a station weighs at most one, data are refused exactly if a grid has fewer than two points or shapes disagree, and the weights stay positive, sum to one and never lose more of the objective than the floor explains. With weight_method='samples' every sample of a station counts one; samples beyond the stations count for nothing.", "quantifier": "all stations, grids, densities (also negative or not finite), samples, posterior means and variances, starting weights and iteration limits", "why_tests_cant": "A mass, variance or station index mixed up still gives weights on the simplex; only the value of the objective for all inputs tells.", "anchors": ["fvgp/ggmp.py:2301-2342", "fvgp/ggmp.py:642-688", "fvgp/ggmp.py:1608-1625"]}
{"id": "C196", "title": "A multi-task GP predicts each point and task from exactly the observed entries of the data it was given", "statement": "Construct an fvGP from a points-by-tasks array of values (NaN where a task was not measured), and let any accepted sequence of update_gp_data (appending, with or without rank-n update, or overwriting) and set_hyperparameters calls follow. Then the multi-task arrays of the object are the batches one below the other since the last overwrite; the single-task data used for the likelihood and the predictions list every observed (task, point) entry exactly once with its value and noise variance, and no NaN entry; the stored log likelihood is the Gaussian log density of these data; and posterior_mean, posterior_covariance's v(x) and S at [point p, task t] (and [p, p', t, t']) are the conditional mean, variance and covariance of the joint Gaussian over all points and tasks given exactly those entries, at the hyperparameters last set, for any choice of x_out and in every exact linear-algebra mode.", "quantifier": "every input space (arrays or lists of objects), kernel, mean and noise choice, every sequence of accepted calls, every set of prediction points and tasks", "why_tests_cant": "Tests check shapes of the multi-task outputs and single updates; a misplaced entry when NaNs occur, or a stale factor after an append with missing tasks, still returns plausible numbers of the right shape, and the space of histories and missing-data patterns is unbounded.", "anchors": ["fvgp/fvgp.py:501-534", "fvgp/fvgp.py:595-680", "fvgp/gp.py:483-560", "fvgp/gp.py:684-749", "fvgp/gp_posterior.py:151-288", "fvgp/gp_posterior.py:586-606"]}
{"id": "C197", "title": "The observed-versus-predicted plot pairs every observation with its own prediction", "statement": "For n test points and c columns of values (or c tasks), plot_observed_vs_predicted(x_test, y_test) draws every entry of y_test exactly once, against the posterior mean of the same point and column, with an error bar of one standard deviation of that prediction (zero where rounding made the variance negative), and the line y = x spans exactly the range of everything drawn; a y_test of another size is refused.", "quantifier": "all shapes of test values and predictions, all values", "why_tests_cant": "Plots are at best checked not to raise; a transposed flattening, or a bar taken from another point or column, gives a picture of the same kind for every shape and every set of values.", "anchors": ["fvgp/gp.py:2096-2127", "fvgp/gp_posterior.py:151-170", "fvgp/gp_posterior.py:229-288"]}
{"id": "C198", "title": "gaussian_1d is the density of the normal distribution it names", "statement": "For every mean and every positive standard deviation, the integral of GP.gaussian_1d over any interval is the probability of that interval under the normal distribution with that mean and standard deviation, it is positive and largest at the mean, and its logarithm equals the log density the mixture model evaluates.", "quantifier": "all means, positive standard deviations, intervals and points", "why_tests_cant": "Point evaluations compare two implementations of the same formula at a few values; that the function integrates to the right probabilities over every interval is a statement about all real intervals.", "anchors": ["fvgp/gp.py:2148-2150"]}
{"id": "C199", "title": "The mixture a GGMP starts from describes its stations", "statement": "When initLikelihoods is called without component means and deviations, the K components it creates form a mixture which at every station has the mean and the variance of that station's density, with components that differ. Means, deviations and weights that the caller does give are used as given, component by component, and nothing but a grid of fewer than two points, a wrong number of arrays or missing weights makes the call fail.", "quantifier": "for all numbers of components, all station densities on all grids, and all combinations of given and missing arguments", "why_tests_cant": "The tests always call it with several components and check that training runs; the component means are never changed again, so an offset shifts every later prediction without any error, and whether it cancels depends on the number of components.", "anchors": ["fvgp/ggmp.py:147-222", "fvgp/ggmp.py:206-216"]}
{"id": "C200", "title": "A GGMP predicts the mixture of its components' conditional processes", "statement": "For station densities turned into K likelihood objects (means and variances at the stations, one weight), a GGMP built from them with positive variances, and any training (assignments of hyperparameters to components and of weights), posterior_mean and posterior_variance at a point are the mean and the variance of the mixture, in proportions of the current weights, of K normal distributions. The k-th of them is the conditional distribution of process k (its kernel and mean function at the hyperparameters last assigned, or the starting ones with the average of the component's values as last entry) given the component's means observed with the component's variances, with the component's average noise added to the variance. The predicted variance is never below the average noise. Construction succeeds for positive variances, in particular for every mixture made from the station densities, and so does every assignment to an existing component.", "quantifier": "all stations, likelihood objects, starting hyperparameters, kernels valid as covariances, mean functions, exact solver modes, training histories and prediction points", "why_tests_cant": "training histories, kernels and the number of stations and components are unbounded, and a test has no independent mixture of conditional processes to compare with", "anchors": ["fvgp/ggmp.py:147-222", "fvgp/ggmp.py:383-446", "fvgp/ggmp.py:637-690", "fvgp/ggmp.py:719-778"]}
{"id": "C201", "title": "A GGMP left to its defaults predicts the regression of its station means", "statement": "A GGMP whose mixture is made from the station densities without further arguments, with one kernel, the constant mean function and one vector of starting hyperparameters for all components, predicts before training what Gaussian-process regression of the station means (observed with the station variances, prior mean their average) predicts: the same mean, and its variance plus the average station variance. With a single component the same holds after any training, with the hyperparameters training assigned.", "quantifier": "all stations and densities, numbers of components, kernels valid as covariances that do not read the last hyperparameter, hyperparameters, exact solver modes, training histories and prediction points", "why_tests_cant": "an offset that is the same for all inputs and data looks plausible at any finite set of test points, and the amount by which mean and variance are off is a statement about all of them", "anchors": ["fvgp/ggmp.py:147-222", "fvgp/ggmp.py:383-446", "fvgp/ggmp.py:719-778"]}
{"id": "C202", "title": "Predictions of a GGMP depend on the mixture, not on how it is written down", "statement": "Renumbering the components of a GGMP (likelihood objects, starting hyperparameters, kernels, mean functions, everything training assigns), multiplying all mixture weights by a positive number, or adding a component of weight zero, whatever its data and training, changes neither posterior_mean nor posterior_variance at any point.", "quantifier": "all stations, likelihood objects, kernels valid as covariances, mean functions, hyperparameters, exact solver modes, training histories with usable weights, renumberings and prediction points", "why_tests_cant": "the renumberings, histories and numbers of components are unbounded; a test compares a few of them at a few points", "anchors": ["fvgp/ggmp.py:383-446", "fvgp/ggmp.py:637-690", "fvgp/ggmp.py:719-778"]}
{"id": "C203", "title": "Bayesian optimisation starts from a space-filling design of documented size", "statement": "A train(method='bo') run that is not stopped first evaluates the given hyperparameters and then the points of the space-filling sequence, in order: 2(d+1) evaluations for d hyperparameters, clipped into [5, 10d] and then into the budget, or bo_args['n_init'] clipped into [2, max_iter]. These evaluations are the same whatever the surrogate does; if the surrogate cannot be fitted, they are all there is.", "quantifier": "all numbers of hyperparameters, budgets of at least two, requests, objectives, noise functions, surrogates, acquisition results and settings", "why_tests_cant": "the size must be right for every dimension and budget and the prefix the same for every surrogate; tests run a few small configurations", "anchors": ["fvgp/gp_bo.py:104-112", "fvgp/gp_bo.py:581-582", "fvgp/gp_bo.py:634-680"]}
{"id": "C204", "title": "Advice after a failed preconditioner is about that preconditioner", "statement": "When a sparse preconditioner cannot be built, the solve falls back with a warning whose specific sentence is about the settings of the backend that was tried, whichever way it was selected (alias, case of letters, mode suffix, default), whenever there is such a sentence; it is never about another backend.", "quantifier": "all args dictionaries, modes, aliases and builders", "why_tests_cant": "the two functions read the same key with different defaults; a test compares the text for the names it thinks of", "anchors": ["fvgp/gp_lin_alg.py:397-427", "fvgp/gp_lin_alg.py:440-471", "fvgp/gp_lin_alg.py:890-923", "fvgp/gp_kv.py:339-353"]}
{"id": "C205", "title": "Bayesian optimisation never answers with something worse than its starting point", "statement": "A train(method='bo') run starting inside the bounds evaluates the objective first at exactly the hyperparameters it was given. The value it reports with its answer is at most the value found there if the objective is exact, and at most that value plus three standard deviations of the reported noise otherwise, whether or not the run was stopped.", "quantifier": "all bounds (lower bounds, where positive, at least 1e-300), log-scale requests, starting points in the bounds, objectives, noise reports, surrogates, stopping times and settings", "why_tests_cant": "the starting point passes through a transform to the unit cube and back, and the answer depends on surrogate, noise and stopping; tests try a few smooth objectives", "anchors": ["fvgp/gp_bo.py:45-98", "fvgp/gp_bo.py:634-670", "fvgp/gp_bo.py:786-811"]}
{"id": "C206", "title": "The Wasserstein distance of grid densities measures how far mass moves", "statement": "For two densities of the same mass on a grid, wasserstein_1d is at least the distance between their average positions, and equal to it if mass only has to move one way; in particular a density moved by m cells of width h is at distance m*h. (Up to the factor mass/(mass+1e-300).)", "quantifier": "all grids with at least two points, densities (negative values count as zero) and displacements", "why_tests_cant": "holds or fails depending on the spacing of the grid; a test on an evenly spaced grid passes", "anchors": ["fvgp/ggmp.py:2430-2441"]}
{"id": "C207", "title": "Training by Bayesian optimisation never lowers the likelihood of the data, end to end", "statement": "After any history of construction and updates, GP.train(method=\"bo\") with an exact solver, a valid kernel and positive definite noise keeps the stored data, ends at hyperparameters inside the bounds, and leaves a GP whose log_likelihood() is the Gaussian log density of the stored data at those hyperparameters. If the hyperparameters in force lay inside the bounds the density is at least what it was before the call; otherwise it is at least the density at the random start. As long as the surrogate proposes points the call does not fail.", "quantifier": "all data, histories of updates, hyperparameters, bounds lo<hi (positive ones at least 1e-300), kernels, means, noise models, solver modes that are exact, BO settings, surrogates and acquisition outcomes", "why_tests_cant": "The guard accept_only_if_improved is not applied to method='bo' on the grounds that it cannot return a worse point; whether that holds for every surrogate outcome, transform and box is a statement about all runs.", "anchors": ["fvgp/gp.py:1018-1111", "fvgp/gp_bo.py", "fvgp/gp_training.py:53-54", "fvgp/gp_marginal_likelihood.py:207-222"]}
{"id": "C208", "title": "A GP stays the Gaussian process of its data through any mixture of updates and trainings", "statement": "After construction and any sequence of update_gp_data, set_hyperparameters and train calls (guarded methods with whatever their optimizer returned, or method='bo'), in every exact solver mode the GP holds exactly the data of the updates, log_likelihood() is the Gaussian log density of these data at the hyperparameters it holds, and posterior_mean and posterior_covariance are mean and covariance of the conditional distribution there. A further training keeps the data and never lowers the log likelihood, and a guarded one does not fail unless its optimizer does. A guarded training installs what its optimizer returned exactly if that is at least as likely as the hyperparameters before, keeps those otherwise, and returns only if the optimizer did.", "quantifier": "all data, sessions of any length, optimizer results, BO boxes around the hyperparameters in force, kernels, means, noise models, exact solver modes", "why_tests_cant": "The derived state is updated along different paths by appends, rank-n updates, overwrites, trainings and rollbacks; that it is consistent after every interleaving is not a finite set of cases.", "anchors": ["fvgp/gp.py:1018-1168", "fvgp/gp.py:672-780", "fvgp/gp_kv.py", "fvgp/gp_posterior.py"]}
{"id": "C209", "title": "Splitting a component of a GGMP changes nothing", "statement": "If one component of a GGMP is written as two, with the same station means and variances, kernel, mean function, starting hyperparameters and everything training assigns to it, and with weights that always add up to the weight of the original, posterior_mean and posterior_variance at every point are what they were.", "quantifier": "all stations, likelihood objects, kernels valid as covariances, mean functions, hyperparameters, exact solver modes, training histories with usable weights, components to be split, divisions of the weights and prediction points", "why_tests_cant": "the histories, divisions of weights and kernels are infinitely many; a prediction that depends on the number of components (an unweighted average, a normalisation by K, a maximum over components) passes every test with a fixed K", "anchors": ["fvgp/ggmp.py:383-446", "fvgp/ggmp.py:637-690", "fvgp/ggmp.py:719-778"]}
{"id": "C210", "title": "A BO run says that it ended where it began exactly when nothing better was found", "statement": "The warning of train(method='bo') that it returned the hyperparameters it started from, because none of the evaluated points improved on them, is issued exactly when at least two points were evaluated and none of them has a smaller objective than the starting point; the returned hyperparameters are then exactly the given ones. Without the warning (and with at least two evaluations) the answer is strictly better than the starting point.", "quantifier": "all bounds (lower bounds, where positive, at least 1e-300), starting points in the bounds, objectives, noise reports, surrogates, stopping times and settings", "why_tests_cant": "whether the warning tells the truth depends on the noise level, the surrogate and the order of all evaluations; tests look at single deterministic runs", "anchors": ["fvgp/gp_bo.py:773-822"]}
{"id": "C211", "title": "A multi-task GP stays the Gaussian process of its observed entries through updates and trainings", "statement": "After construction of an fvGP and any sequence of update_gp_data, set_hyperparameters and train calls (guarded methods with whatever their optimizer returned, or method='bo'), in every exact solver mode the multi-task arrays are those of the updates, the single-task data are exactly their observed entries, each once, log_likelihood() is the Gaussian log density of these at the hyperparameters held, and posterior_mean and posterior_covariance give for every point and task the conditional mean and covariance. A further training changes neither array, never lowers the log likelihood, and a guarded one does not fail unless its optimizer does. A guarded training installs what its optimizer returned exactly if that is at least as likely as the hyperparameters before, keeps those otherwise, and returns only if the optimizer did.", "quantifier": "all points, tasks, missing entries, noise choices, kernels valid as covariances, update sequences accepted, optimizer results, surrogates, solver modes without approximation, prediction points and tasks", "why_tests_cant": "training rebuilds the single-task state from arrays that the multi-task class keeps separately; whether they stay in step depends on the whole history, which tests sample", "anchors": ["fvgp/fvgp.py:480-660", "fvgp/gp.py:1075-1168"]}
{"id": "C212", "title": "Watching an asynchronous training does not change it", "statement": "If nobody calls stop, an asynchronous MCMC, Adam or Bayesian optimization ends with the same number of evaluations, the same published state and the same success, however often it is polled and however its thread is scheduled: those of the iterations carried out in order until one raises, the optimizer's own criterion holds or the budget is used. Before start nothing is evaluated and polls return the initial state.", "quantifier": "all interleavings without a stop, all numbers of iterations, all outcomes of the iterations", "why_tests_cant": "Schedules and poll times cannot be enumerated, and a run that ends one iteration early or late looks like a normal run.", "anchors": ["fvgp/gp_actor.py:_MCMCActor", "fvgp/gp_actor.py:_AdamActor", "fvgp/gp_actor.py:_BOActor"]}
{"id": "C213", "title": "A stopped asynchronous training is a shorter training", "statement": "However and whenever it is stopped, an asynchronous MCMC, Adam or Bayesian optimization that has ended leaves exactly what its first m iterations leave, for some m within the budget: the same evaluations, the same published state, the same success, and for Bayesian optimization the recommendation made from those m evaluations. Nothing is published twice, torn or dropped by the stop.", "quantifier": "all interleavings of start, stop, polls and the thread, all budgets, all outcomes of the iterations", "why_tests_cant": "The stop may fall between any two statements of the background thread.", "anchors": ["fvgp/gp_actor.py:_MCMCActor", "fvgp/gp_actor.py:_AdamActor", "fvgp/gp_actor.py:_BOActor"]}
{"id": "C214", "title": "A gp2Scale GP stays the Gaussian process of its data through updates and trainings", "statement": "With gp2Scale, however appends, overwrites, settings of hyperparameters and guarded trainings are mixed, whatever order the cluster completes its tasks in and whether or not it loses some: as long as no call raises, the data are those of the updates, log_likelihood() and the predictions are those of the Gaussian process of exactly these data at the hyperparameters in force, a training never lowers the likelihood, and on a cluster that loses nothing it does not fail unless its optimizer does. A guarded training installs what its optimizer returned exactly if that is at least as likely as the hyperparameters before, keeps those otherwise, and returns only if the optimizer did.", "quantifier": "all sessions, clusters, batch sizes, distributions, exact solver modes, kernels that are covariance functions", "why_tests_cant": "It ranges over schedules of a cluster, interleavings of calls and arbitrary results of the optimizer; a stale block shows only after a particular order.", "anchors": ["fvgp/gp.py:GP.train", "fvgp/gp.py:GP._reject_if_not_improved", "fvgp/gp_prior.py:GPprior.update_state_hyperparameters", "fvgp/gp2Scale_covariance.py"]}
{"id": "C215", "title": "Block products in block conjugate gradients do not depend on the interface of the operator", "statement": "When the block conjugate gradient solver multiplies an operator or a preconditioner that stands for a square matrix A with a block X of columns, the result is A X, whether the operator has a method for blocks, has none, or has one that raises for some blocks; without a preconditioner the block is returned as it is. A product fails exactly if the block is not empty, no block method returned, and the product with one of the columns fails.", "quantifier": "all matrices, sizes and numbers of columns including 0, all operators with or without a block method, all patterns of raising", "why_tests_cant": "Tests use operators whose block method works; which blocks make it raise, and the combination with failing columns, is an unbounded space.", "anchors": ["fvgp/gp_lin_alg.py:1006-1021"]}
