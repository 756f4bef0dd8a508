{
 "claims": [
  {
   "property": "C01",
   "status": "proved",
   "theorems": [
    "stored_data_history"
   ],
   "note": "Every history of accepted appends and overwrites, over arbitrary entry type."
  },
  {
   "property": "C02",
   "status": "partial",
   "theorems": [
    "noise_alignment_refuted",
    "noise_alignment_partial"
   ],
   "note": "False of the code: a noise vector of the wrong length is accepted by an append (witness). Proved when every accepted update supplies one value per point."
  },
  {
   "property": "C03",
   "status": "partial",
   "theorems": [
    "rejected_update_unchanged_refuted",
    "rejected_update_unchanged_partial"
   ],
   "note": "False of the code: an append rejected late (y shape or NaN) has already extended the stored x. Proved for all earlier raise sites."
  },
  {
   "property": "C04",
   "status": "proved",
   "theorems": [
    "incremental_prior"
   ],
   "note": "For entrywise symmetric kernels and pointwise user means (or the default mean), any history."
  },
  {
   "property": "C05",
   "status": "partial",
   "theorems": [
    "incremental_factor_refuted",
    "incremental_factor_partial"
   ],
   "note": "False with the default noise model after a rank-n append (witness). Proved for measured noise and pointwise/pairwise noise functions."
  },
  {
   "property": "C06",
   "status": "proved",
   "theorems": [
    "chol_update"
   ],
   "note": "Any size, any block width, over any real closed field; also uniqueness and success iff positive definite; entries above the diagonal of the stored factor are irrelevant."
  },
  {
   "property": "C07",
   "status": "proved",
   "theorems": [
    "block_inverse_update"
   ],
   "note": "Any field, any sizes."
  },
  {
   "property": "C08",
   "status": "proved",
   "theorems": [
    "logdet_update",
    "chol_logdet_is_logdet",
    "chol_solve_solves"
   ],
   "note": "log is any map turning products into sums."
  },
  {
   "property": "C09",
   "status": "proved",
   "theorems": [
    "ranges_partition"
   ],
   "note": "strips use the same function with the width of strip_width"
  },
  {
   "property": "C10",
   "status": "proved",
   "theorems": [
    "distributed_is_kernel_matrix"
   ],
   "note": "values in any commutative monoid (exact sums); index arithmetic with the chosen integer type, up to 2^63 points"
  },
  {
   "property": "C100",
   "status": "partial",
   "theorems": [
    "columns_partial",
    "columns_refuted"
   ],
   "note": "False: a sample with one column is compared with a sample of several columns by broadcasting. Proved: rejection in all other cases, and always by the sliced distance."
  },
  {
   "property": "C101",
   "status": "proved",
   "theorems": [
    "mmd_estimate",
    "mmd_unbiased"
   ],
   "note": "Fixed gamma; real arithmetic; populations are finite lists (any rational weights)."
  },
  {
   "property": "C102",
   "status": "partial",
   "theorems": [
    "itself_partial",
    "itself_refuted"
   ],
   "note": "False for mmd_rbf, which gives a negative value for two different rows; proved: energy and sliced distance zero, mmd_rbf between -2/n and 0."
  },
  {
   "property": "C103",
   "status": "partial",
   "theorems": [
    "units_partial",
    "units_refuted"
   ],
   "note": "False when twice the median squared distance is below 1e-12; proved otherwise, and for shifts always."
  },
  {
   "property": "C104",
   "status": "proved",
   "theorems": [
    "sliced_metric"
   ],
   "note": "scipy's one-dimensional distance enters as any pseudometric; the directions are arbitrary."
  },
  {
   "property": "C105",
   "status": "proved",
   "theorems": [
    "fixed_fit",
    "fixed_fit_rejects"
   ],
   "note": "Real arithmetic; the argsort is any sorting permutation (contract instantiated by argsort_ins)."
  },
  {
   "property": "C106",
   "status": "partial",
   "theorems": [
    "fit_range_partial",
    "fit_range_refuted"
   ],
   "note": "Proved: means lie between the extremes of the data and zero. Refuted: with all data 300 and an initial mean of 10000 a fitted mean is below 1."
  },
  {
   "property": "C107",
   "status": "partial",
   "theorems": [
    "weights_match_partial",
    "weights_match_refuted"
   ],
   "note": "Proved for equal weights. Refuted: sorting by mean separates components from their weights."
  },
  {
   "property": "C108",
   "status": "partial",
   "theorems": [
    "init_kept_partial",
    "init_kept_refuted"
   ],
   "note": "Proved for defaults, copied arrays, no iterations and rejected calls. Refuted for a float array, which holds the fitted means afterwards."
  },
  {
   "property": "C109",
   "status": "proved",
   "theorems": [
    "free_fit",
    "free_fit_rejects"
   ],
   "note": "scikit-learn's estimator is any function returning K proper components or failing."
  },
  {
   "property": "C11",
   "status": "proved",
   "theorems": [
    "augmented_covariance"
   ],
   "note": "whole sessions of accepted appends, overwrites and hyperparameter changes"
  },
  {
   "property": "C110",
   "status": "proved",
   "theorems": [
    "full_covariances",
    "full_covariances_count",
    "local_fits"
   ],
   "note": ""
  },
  {
   "property": "C111",
   "status": "proved",
   "theorems": [
    "w2_couplings"
   ],
   "note": "Exact arithmetic over any real closed field."
  },
  {
   "property": "C112",
   "status": "proved",
   "theorems": [
    "w2_metric"
   ],
   "note": ""
  },
  {
   "property": "C113",
   "status": "proved",
   "theorems": [
    "w2_invariant",
    "sqrtm_root",
    "eigh_possible"
   ],
   "note": "eigh_possible shows that the contract assumed of np.linalg.eigh can be met for every dimension."
  },
  {
   "property": "C114",
   "status": "partial",
   "theorems": [
    "w2_degenerate_partial",
    "w2_symmetry_refuted",
    "w2_separation_refuted"
   ],
   "note": "Proved: non-negative, zero to itself, symmetric for variances of at least 1e-12. Refuted: symmetry for singular covariances (0 and 4 in one dimension); positive definite covariances 1e-6 and 5e-7 have distance zero because eigenvalues are raised to 1e-12."
  },
  {
   "property": "C115",
   "status": "proved",
   "theorems": [
    "surrogate_derivatives",
    "surrogate_kernel_valid"
   ],
   "note": "Noise gradient is stated above the floor 1e-12; below it the code returns 1 for a constant function (Example learned_noise_flat)."
  },
  {
   "property": "C116",
   "status": "partial",
   "theorems": [
    "surrogate_post_partial",
    "surrogate_post_refuted"
   ],
   "note": "False before a quadratic mean is fitted: the constant default mean of the GP is left out, so the mean is off by the average of the data. Proved: gradients match, variance is the floored posterior variance, the mean agrees once 2(1+2D) points are known, and the exact difference otherwise."
  },
  {
   "property": "C117",
   "status": "proved",
   "theorems": [
    "nei_gains",
    "nei_gradient"
   ],
   "note": "For every function Phi that is the normal distribution function; GaussP.std_cdf is one."
  },
  {
   "property": "C118",
   "status": "partial",
   "theorems": [
    "screening_partial",
    "screening_refuted"
   ],
   "note": "False: without a quadratic mean the values can differ by any amount. Proved: with a quadratic mean they agree where the variance is above both floors and differ by at most sqrt(floor)/sqrt(2 pi) elsewhere."
  },
  {
   "property": "C119",
   "status": "proved",
   "theorems": [
    "acquisition_maximum",
    "acquisition_search",
    "acquisition_direction",
    "acquisition_rejects"
   ],
   "note": "The minimizer is any function that, on success, returns the objective's value at a point."
  },
  {
   "property": "C12",
   "status": "proved",
   "theorems": [
    "distributed_resources"
   ],
   "note": ""
  },
  {
   "property": "C120",
   "status": "proved",
   "theorems": [
    "quadratic_mean",
    "surrogate_scale"
   ],
   "note": "The least squares contract can be met (Example least_squares_possible)."
  },
  {
   "property": "C121",
   "status": "partial",
   "theorems": [
    "training_box_partial",
    "training_box_refuted"
   ],
   "note": "False for data of variance about 1e-12 and less: the start of the signal variance lies below the lower bound. Proved: the rest, and the start is in the box for scales above 1.0002e-12."
  },
  {
   "property": "C122",
   "status": "proved",
   "theorems": [
    "laplace_general",
    "laplace_quadratic"
   ],
   "note": "Exact arithmetic over a real closed field; eigenvalue contract shown satisfiable (Example eigenvalues_possible)."
  },
  {
   "property": "C123",
   "status": "partial",
   "theorems": [
    "derivatives_belong_partial",
    "derivatives_belong_refuted"
   ],
   "note": "False: adam with a user objective and no gradient gets the likelihood's gradient; a missing Hessian is replaced by the likelihood's; a gradient given alone is paired with the likelihood. True if everything or nothing is supplied, or the method uses no derivatives."
  },
  {
   "property": "C124",
   "status": "proved",
   "theorems": [
    "train_dispatch"
   ],
   "note": ""
  },
  {
   "property": "C125",
   "status": "partial",
   "theorems": [
    "default_bounds_partial",
    "default_bounds_refuted"
   ],
   "note": "False for constant observations or a constant coordinate: the interval is [0, 0] and training starts from 0. The partial theorem shows these are the only cases, in exact arithmetic."
  },
  {
   "property": "C126",
   "status": "partial",
   "theorems": [
    "gradient_calls_partial",
    "gradient_calls_refuted"
   ],
   "note": "False: with the default kernel and no kernel gradient the constructor resets ram_economy, so a noise gradient taking a direction is called without one. The partial theorem shows this is the only failing combination."
  },
  {
   "property": "C127",
   "status": "proved",
   "theorems": [
    "fd_gradients"
   ],
   "note": "Error bounds for all finite-difference derivatives in real arithmetic; rounding errors are not modelled."
  },
  {
   "property": "C128",
   "status": "proved",
   "theorems": [
    "solver_state",
    "solver_accepts",
    "solver_mode"
   ],
   "note": "All modes of GPkv as one state machine over a real closed field; library routines are oracles with contracts (shown satisfiable: contracts_possible, log_possible). Appends need the old block of K+V unchanged, which C05 shows to fail for the default noise."
  },
  {
   "property": "C129",
   "status": "proved",
   "theorems": [
    "cached_equals_fresh"
   ],
   "note": "Any two exact modes; custom callables for invertible matrices."
  },
  {
   "property": "C13",
   "status": "proved",
   "theorems": [
    "settings_restored"
   ],
   "note": "sequential_linalg_state for every body, including raising and nested bodies"
  },
  {
   "property": "C130",
   "status": "partial",
   "theorems": [
    "variance_describes_last_partial",
    "variance_describes_last_refuted"
   ],
   "note": "Holds when the mode cannot change (no gp2Scale, or a mode given by the user). False for gp2Scale with automatic mode: last_logdet_variance is never reset, so an exact sparseLU evaluation reports the variance of an earlier sparseMINRES evaluation."
  },
  {
   "property": "C131",
   "status": "partial",
   "theorems": [
    "nonpd_rejected_partial",
    "nonpd_rejected_refuted"
   ],
   "note": "Holds for Chol and CholInv. False for Inv and sparseLU (the automatic choice for very sparse gp2Scale matrices): the negative definite matrix -1 gives a stored state and a likelihood value, because only log|det| is taken."
  },
  {
   "property": "C132",
   "status": "partial",
   "theorems": [
    "fd_integer_arrays_partial",
    "fd_integer_arrays_refuted"
   ],
   "note": "False: an item assignment into an integer array truncates the shifted value. With np.array([1]) and noise variance h0 the gradient is 500000 instead of 1. The partial theorem says exactly what is returned for integer arrays with positive entries."
  },
  {
   "property": "C133",
   "status": "partial",
   "theorems": [
    "kill_client_partial",
    "kill_client_refuted"
   ],
   "note": "False for mcmc, adam and bo, whose kill_client only stops the run. stop_training holds for all methods; HGDL's own two methods are assumed to do what its interface says."
  },
  {
   "property": "C134",
   "status": "proved",
   "theorems": [
    "ggmp_train_synced"
   ],
   "note": "For GPs that were consistent before the call; C138 says how they can fail to be."
  },
  {
   "property": "C135",
   "status": "partial",
   "theorems": [
    "failed_ggmp_train_partial",
    "failed_ggmp_train_refuted"
   ],
   "note": "False: an unknown weight_method or missing y_samples is noticed after all GPs were retrained. Weights and stored hyperparameters do stay unchanged, as do the components after the failing one."
  },
  {
   "property": "C136",
   "status": "partial",
   "theorems": [
    "ggmp_never_worse_partial",
    "ggmp_never_worse_refuted"
   ],
   "note": "False when init_hyperparameters are given: they are installed before training and become the incumbent. True otherwise, up to the tolerance for stochastic likelihoods."
  },
  {
   "property": "C137",
   "status": "partial",
   "theorems": [
    "ggmp_result_is_trained_partial",
    "ggmp_result_is_trained_refuted"
   ],
   "note": "False for asynchronous=True: the optimizer handle is dropped and the starting vectors are returned. True for synchronous training."
  },
  {
   "property": "C138",
   "status": "partial",
   "theorems": [
    "safe_set_partial",
    "safe_set_refuted"
   ],
   "note": "False after a failed call: the failed vector is already stored, so a second call with it returns at once with the old factorization. True from consistent states and for vectors different from the stored one."
  },
  {
   "property": "C139",
   "status": "partial",
   "theorems": [
    "block_cg_energy_partial",
    "block_cg_progress_partial",
    "block_cg_energy_refuted"
   ],
   "note": "Proved for every symmetric preconditioner, including none; refuted for a non-symmetric one with positive form (the incomplete LU preconditioner is of that kind): one step on the identity doubles the squared error of the second column. With the symmetric preconditioner the error strictly decreases unless the first small system is singular."
  },
  {
   "property": "C14",
   "status": "proved",
   "theorems": [
    "mode_resolution",
    "preconditioner_names"
   ],
   "note": "ASCII strings."
  },
  {
   "property": "C140",
   "status": "partial",
   "theorems": [
    "block_cg_converges_partial",
    "block_cg_converges_refuted"
   ],
   "note": "In exact arithmetic the tolerance is met unless the residual columns become linearly dependent (exit code 2). Refuted: one zero column in the right-hand side returns the whole block as zeros, with a warning only."
  },
  {
   "property": "C141",
   "status": "partial",
   "theorems": [
    "gpu_request_partial",
    "gpu_engine_requested",
    "gpu_request_refuted"
   ],
   "note": "Holds if the device named exists (or its kind is absent altogether); the engine used is always the one requested. False for GPU_device='cpu' (accepted as a GPU, no warning) and for CUDA indices that do not exist."
  },
  {
   "property": "C142",
   "status": "partial",
   "theorems": [
    "gpu_device_obeyed_partial",
    "gpu_device_obeyed_refuted"
   ],
   "note": "Holds for likelihood evaluations with torch. False: the solves of the gradient are called without args, cupy ignores the device, and an absent device is silently replaced by cupy's."
  },
  {
   "property": "C143",
   "status": "partial",
   "theorems": [
    "gpu_equals_cpu_partial",
    "chol_logdet_value",
    "gpu_equals_cpu_refuted"
   ],
   "note": "Holds for positive definite matrices (Cholesky operations) and invertible ones, given libraries that solve what is solvable; the log-determinant computed from the factor is the logarithm of the determinant. False for singular matrices: log-determinant minus infinity against a finite number, least squares against an exception. Conversions of precision are not modelled."
  },
  {
   "property": "C144",
   "status": "partial",
   "theorems": [
    "nonpd_error_partial",
    "nonpd_error_cpu_partial",
    "nonpd_error_refuted"
   ],
   "note": "Exact on the CPU and for GPU libraries that fail only on such matrices; any RuntimeError of the GPU library is turned into this error."
  },
  {
   "property": "C145",
   "status": "partial",
   "theorems": [
    "gpu_fallback_partial",
    "devices_respected",
    "gpu_fallback_refuted"
   ],
   "note": "Holds for factor, solves, inverse and log-determinants, and work asked for on the CPU never reaches a GPU library; cholesky_update_rank_1 returns None."
  },
  {
   "property": "C146",
   "status": "partial",
   "theorems": [
    "sparse_product_partial",
    "dense_product",
    "sparse_product_refuted"
   ],
   "note": "Holds for matmul and for dense factors of matmul3; matmul3 raises AssertionError for every sparse factor."
  },
  {
   "property": "C147",
   "status": "partial",
   "theorems": [
    "options_documented_partial",
    "options_documented_refuted"
   ],
   "note": "False: sparse_minres_tol also sets the tolerance of CG when sparse_cg_tol and cg_minres_tol are absent, and the documented keys random_logdet_lanczos_compute_device and update_Chol_factor_compute_device are never read. Proved for the remaining keys."
  },
  {
   "property": "C148",
   "status": "partial",
   "theorems": [
    "reported_variance_partial",
    "reported_variance_refuted"
   ],
   "note": "True for a fixed number of probes (at least two), any finite distribution. False when the number of probes is chosen by the confidence-interval rule: for fair +-1 probes and two to three of them 1/18 is reported on average and 5/36 is true."
  },
  {
   "property": "C149",
   "status": "partial",
   "theorems": [
    "set_args_consistent_partial",
    "set_args_consistent_refuted"
   ],
   "note": "False: a prediction right after set_args combines cross covariances of the new args with the cached solution of the old ones; in the witness no admissible args give the predicted mean, and the variance is clipped from a negative value. Proved: after a flush (set_hyperparameters or a non-appending update) and later updates the GP is the one built with the current args, and means with explicit hyperparameters always are."
  },
  {
   "property": "C15",
   "status": "proved",
   "theorems": [
    "automatic_solver"
   ],
   "note": "exact arithmetic for nnz/n^2"
  },
  {
   "property": "C150",
   "status": "partial",
   "theorems": [
    "named_preconditioner_partial",
    "named_preconditioner_refuted"
   ],
   "note": "False after set_args: new args without the type silently switch to ilu, and a conflicting type refused at construction is accepted. Proved from construction until set_args, and beyond if the type is repeated."
  },
  {
   "property": "C151",
   "status": "proved",
   "theorems": [
    "bo_warning_exact"
   ],
   "note": "Both directions; early stops, errors of the objective and failing surrogate fits excepted in the second."
  },
  {
   "property": "C152",
   "status": "partial",
   "theorems": [
    "grid_covers_partial",
    "grid_covers_refuted"
   ],
   "note": "True for two or more points per direction; one point gives only the lower bound, and resolution 0 makes the one-dimensional grid raise."
  },
  {
   "property": "C153",
   "status": "partial",
   "theorems": [
    "exec_time_partial",
    "exec_time_refuted"
   ],
   "note": "Lower bound proved for every schedule of the block tasks, with a matching upper bound (D/b+1)(D/b+2)/(2n)+1 tasks for the balanced one. No constant factor: with many workers the estimate is below any fraction of the real time."
  },
  {
   "property": "C154",
   "status": "proved",
   "theorems": [
    "end_to_end",
    "updates_succeed"
   ],
   "note": "Composite model (GPState + Solvers + Posterior) over the reals; joint density factorization; kernel, mean and noise callables act point by point; default noise with rank-n updates is excluded (refuted as C05)."
  },
  {
   "property": "C155",
   "status": "partial",
   "theorems": [
    "step_size_follows_rate_refuted",
    "step_size_follows_rate_partial",
    "scale_follows_rate"
   ],
   "note": "False: sigma_m is adapted but never used by normal_proposal_dist; runs which differ only in r_opt, c_0, sigma_m and recorded jumps are identical (step_size_follows_rate_refuted). True: without adapt_cov a run equals the run without adaptation, and a window of at least two positions in which the chain did not move shrinks the covariance by a factor in [0,1); sigma_m itself grows exactly when the rate of the window exceeds r_opt, and K=2 makes the covariance NaN (scale_follows_rate)."
  },
  {
   "property": "C156",
   "status": "partial",
   "theorems": [
    "default_break_refuted",
    "default_break_partial",
    "default_break_finite"
   ],
   "note": "False as documented: the condition looks at the log likelihood, not the position; a chain drifting by one unit per iteration on a flat likelihood is stopped (default_break_refuted). True: a run ends early only after at least 1000 iterations with the mean log likelihoods of the last two windows of 100 within 1/1000, never continues past such an iteration, and never past 200 equal values (finite log likelihoods); without any assumption, a stop means that the last 200 values are finite and settled (default_break_finite)."
  },
  {
   "property": "C157",
   "status": "partial",
   "theorems": [
    "mixture_likelihood_refuted",
    "mixture_likelihood_partial"
   ],
   "note": "False for weights that do not sum to one: the sampler normalises them, the likelihood does not (mixture_likelihood_refuted). True: for weights of at least 1e-300 the reported value is the log density of the two-stage draw plus the log of the sum of the weights; row i of the sampler is the next unused draw of its component with the same mean and regularised covariance. scipy's logpdf and the numpy generator are parameters."
  },
  {
   "property": "C158",
   "status": "partial",
   "theorems": [
    "trace_file_pairs_refuted",
    "trace_file_pairs_partial"
   ],
   "note": "False: the x array starts with the starting point and f does not, so f[j] is the value of the sample after x[j] (trace_file_pairs_refuted). True: row j of x is sample j*thin, entry j of f is the log likelihood of sample j*thin+1, and no row is left out."
  },
  {
   "property": "C159",
   "status": "partial",
   "theorems": [
    "trace_file_safe_refuted",
    "trace_file_safe_partial"
   ],
   "note": "False: the temporary file of tag 'a' is the file of tag 'a.tmp' (trace_file_safe_refuted). True for every other tag, in particular for all tags without a dot; own file old or complete new, for failures of the write and of the renaming."
  },
  {
   "property": "C16",
   "status": "proved",
   "theorems": [
    "preconditioner_reuse"
   ],
   "note": "arbitrary histories of calls, builds that fail or raise included"
  },
  {
   "property": "C160",
   "status": "partial",
   "theorems": [
    "training_files_refuted",
    "training_files_partial"
   ],
   "note": "False: the final file holds the last chunk only (training_files_refuted). True: every chunk written is found under its own name (the names chunkNNNNNN are modelled and distinct), a failed one leaves the earlier file, the final file holds the last chunk, a failed final save is reported and leaves the old file, files of other components are untouched."
  },
  {
   "property": "C161",
   "status": "proved",
   "theorems": [
    "spai_converges"
   ],
   "note": "Exact arithmetic; the one-norm estimate is any number. Residual monotone for every matrix on which both runs succeed; geometric rate 1 - c^2/C per step for symmetric A with c|x|^2 <= x'Ax, |Ax|^2 <= C|x|^2."
  },
  {
   "property": "C162",
   "status": "partial",
   "theorems": [
    "spai_positive_refuted",
    "spai_positive_partial"
   ],
   "note": "False: diag(1,...,1,5) of size 11 with the exact one-norm has a negative direction after one step. True: the start is positive definite, and so is every result with residual below (c^2/C)^2."
  },
  {
   "property": "C163",
   "status": "partial",
   "theorems": [
    "fd_double_refuted",
    "fd_double_partial"
   ],
   "note": "False: for every function the kernel derivatives are exactly zero for arguments beyond 2^27 (Unix times, signal variances of unscaled data), the others beyond 2^34. True: up to 2^16 (steps 1e-8) and 2^22 (steps 1e-6) affine functions get their slope to three digits. Round to nearest double; no overflow; values of the function are not rounded in the second theorem."
  },
  {
   "property": "C164",
   "status": "partial",
   "theorems": [
    "box_double_refuted",
    "box_double_partial"
   ],
   "note": "False: with bounds [-1, 0.1] the corner of the cube is mapped to 0.10000000000000009. True: never below, monotone, exact for intervals starting at zero, overshoot bounded by rounding errors. Linear dimensions."
  },
  {
   "property": "C165",
   "status": "partial",
   "theorems": [
    "jitter_double_refuted",
    "jitter_double_partial"
   ],
   "note": "Exact threshold: positive definite if the diagonal is below 2^24; from 2^24 on the matrix is unchanged (witness: signal variance 2e7)."
  },
  {
   "property": "C166",
   "status": "partial",
   "theorems": [
    "shift_retries_refuted",
    "shift_retries_partial"
   ],
   "note": "Exact thresholds 2^30 (dense and incomplete Cholesky) and 2^24 (ilupp): below, the last attempt is positive definite; from there on all five attempts use the same matrix. Definiteness is exact; rounding inside the factorization is not modelled."
  },
  {
   "property": "C167",
   "status": "partial",
   "theorems": [
    "sharing_args_refuted",
    "sharing_args_partial"
   ],
   "note": "Refuted: GPdata and GPtraining keep the caller's arrays; after an in-place write the cached K and solve belong to the old contents while the cross-covariance uses the new ones, so the prediction is neither that of the old nor that of the new data. Proved for every program that does not write into arrays given to the constructor, to an overwriting update or as hyperparameters; arrays given to appending updates and prediction points are free, and an append detaches all earlier data arrays."
  },
  {
   "property": "C168",
   "status": "partial",
   "theorems": [
    "sharing_results_refuted",
    "sharing_results_partial"
   ],
   "note": "Refuted for the hyperparameters property, the array returned by train and get_prior_pdf, which are the stored arrays. Proved whenever the array written is not held by the object at that moment; predictions never are."
  },
  {
   "property": "C169",
   "status": "partial",
   "theorems": [
    "explicit_hps_refuted",
    "explicit_hps_partial"
   ],
   "note": "Refuted: under gp2Scale with variances as a vector (all built-in noise) the argument always raises; a one-element noise vector is put on the diagonal without the argument and added to every entry with it; integer covariances differ. The partial theorem gives the exact condition for noise of the right size."
  },
  {
   "property": "C17",
   "status": "proved",
   "theorems": [
    "graph_blocks_partition"
   ],
   "note": "for every symmetric adjacency structure"
  },
  {
   "property": "C170",
   "status": "partial",
   "theorems": [
    "int_noise_refuted",
    "int_noise_partial",
    "kv_dtype"
   ],
   "note": "Refuted for integer kernel matrices: all variances below one vanish. The partial theorem gives the exact condition; kv_dtype: the dtype of the sum."
  },
  {
   "property": "C171",
   "status": "partial",
   "theorems": [
    "noise_formats_refuted",
    "noise_formats_partial"
   ],
   "note": "Refuted: under gp2Scale no format works everywhere; sparse noise fails in add_noise and in the gradient. The partial theorem is the exact table."
  },
  {
   "property": "C172",
   "status": "partial",
   "theorems": [
    "dims_refuted",
    "dims_partial"
   ],
   "note": "False for overwrites that change the number of columns: dims_refuted holds for every such overwrite with the default kernel. dims_partial: overwrites that keep it are accepted and give the state of a newly built GP."
  },
  {
   "property": "C173",
   "status": "proved",
   "theorems": [
    "deep_parameter_count",
    "deep_unpack"
   ],
   "note": "Natural-number arithmetic for the float formula of the source (exact below 2^53)."
  },
  {
   "property": "C174",
   "status": "partial",
   "theorems": [
    "deep_kernel_psd",
    "deep_contains_plain_refuted",
    "deep_contains_plain_partial"
   ],
   "note": "Validity holds for all kernels, parameters and roundings. Containing the plain kernel is false on the whole space and true on finite sets in exact arithmetic; rounding is not covered by the positive half."
  },
  {
   "property": "C175",
   "status": "partial",
   "theorems": [
    "deep_distinct_refuted",
    "deep_distinct_partial"
   ],
   "note": "False because of the cast to single precision, for all parameters; true in exact arithmetic."
  },
  {
   "property": "C176",
   "status": "proved",
   "theorems": [
    "empirical_pdf_density"
   ],
   "note": "np.histogram is modelled by its documentation; nan and infinite samples left out."
  },
  {
   "property": "C177",
   "status": "partial",
   "theorems": [
    "empirical_pdf_units_refuted",
    "empirical_pdf_units_partial"
   ],
   "note": "False for large factors because of the floor 1e-12; true while all bins are at or above it."
  },
  {
   "property": "C178",
   "status": "partial",
   "theorems": [
    "ggmp_copies_refuted",
    "ggmp_copies_partial"
   ],
   "note": "False for every GGMP; true for hyperparameters and NormalLikelihood. The protocols of copy and pickle are modelled after the standard library's sources."
  },
  {
   "property": "C179",
   "status": "partial",
   "theorems": [
    "gpu_kernel_refuted",
    "gpu_kernel_partial"
   ],
   "note": "False for the dense variant on double-precision coordinates; bounds of the error proved for single-precision coordinates and for the sparse variant. One input column."
  },
  {
   "property": "C18",
   "status": "proved",
   "theorems": [
    "shifted_retries"
   ],
   "note": "success pattern of the factorization is an oracle"
  },
  {
   "property": "C180",
   "status": "partial",
   "theorems": [
    "order_of_observations_partial",
    "order_of_observations_refuted"
   ],
   "note": "add_noise=True with measured variances at as many points as data takes the variances by position; everything else holds."
  },
  {
   "property": "C181",
   "status": "partial",
   "theorems": [
    "origin_and_unit_partial",
    "origin_and_unit_refuted"
   ],
   "note": "The default noise depends on the origin of the values; everything else holds."
  },
  {
   "property": "C182",
   "status": "partial",
   "theorems": [
    "more_data_less_variance_partial",
    "more_data_less_variance_refuted"
   ],
   "note": "Not with the default noise. Over the reals."
  },
  {
   "property": "C183",
   "status": "partial",
   "theorems": [
    "batches_chain_partial",
    "batches_chain_refuted"
   ],
   "note": "Not with the default mean or, through add_noise, measured variances. Over the reals."
  },
  {
   "property": "C184",
   "status": "partial",
   "theorems": [
    "outputs_independent_partial",
    "outputs_independent_refuted"
   ],
   "note": "Not with the default mean or the default noise."
  },
  {
   "property": "C185",
   "status": "partial",
   "theorems": [
    "seeded_search_refuted",
    "seeded_search_partial",
    "surrogate_scale",
    "seeded_states"
   ],
   "note": "Refuted: with values that differ by 2e-7 the start of the surrogate's training lies below its box, so GP.train draws another start from NumPy's global generator and the next evaluated point depends on it (in floating point an exactly quadratic objective is enough: its residuals are rounding errors). Proved: if the start is in the bounds and every fitted scale is at least 1.0001e-12, the whole run is independent of the global generator and leaves it unchanged; the scale is the variance of the values (one if zero) as long as no trend is fitted."
  },
  {
   "property": "C186",
   "status": "partial",
   "theorems": [
    "point_gradients_refuted",
    "point_gradients_partial",
    "point_gradients_all"
   ],
   "note": "Refuted for integer arrays: _d_kernel_dx adds the step in place to a view of the integer array, so every derivative raises (predictions at the same points work). Proved for float arrays: explicit error bounds for mean, variance and joint prior, and with direction=None the directions in order."
  },
  {
   "property": "C187",
   "status": "partial",
   "theorems": [
    "input_units_partial",
    "input_units_refuted",
    "amplitude_bounds_all_outputs"
   ],
   "note": "Likelihood, predictions, default bounds and whole MCMC runs are converted, given a start in the new units and a sampler of normal vectors that commutes with the conversion. Refuted: default hyperparameters are one in any unit, so untrained predictions and the choice between current and random start depend on it; NumPy's sampler hands out its random numbers by size of the variances; derivatives at prediction points use a fixed step."
  },
  {
   "property": "C188",
   "status": "partial",
   "theorems": [
    "repeated_measurements_partial",
    "repeated_measurements_training_partial",
    "repeated_measurements_refuted"
   ],
   "note": "Holds with a mean function and measured variances, for any grouping and any number of outputs; the change of the log-likelihood is given in closed form. Refuted with nothing given: the default noise is the same for the average of two values as for each of them (variance 1/3 against 1/2), and the default mean weighs points by their number of measurements. Exact real arithmetic; stored hyperparameters; covariance without noise."
  },
  {
   "property": "C189",
   "status": "proved",
   "theorems": [
    "variance_at_measured_point"
   ],
   "note": "Any source of noise (default, measured, function of the point) with positive variances; any number of measurements at the point. Exact real arithmetic, exact solves; variance without noise."
  },
  {
   "property": "C19",
   "status": "proved",
   "theorems": [
    "guess_shape"
   ],
   "note": ""
  },
  {
   "property": "C190",
   "status": "partial",
   "theorems": [
    "unrelated_observations_partial",
    "far_observations_partial",
    "unrelated_observations_refuted"
   ],
   "note": "Holds with a mean function and a noise that is not the default; far_observations_partial instantiates it with the Wendland kernel in up to three dimensions (with five or more columns the kernel is not a covariance: C69). Refuted with the defaults: the default mean and default noise use all values, so an observation out of reach moves the mean and the variance. Exact real arithmetic."
  },
  {
   "property": "C191",
   "status": "proved",
   "theorems": [
    "large_end_to_end",
    "large_updates_succeed"
   ],
   "note": "Composition of the distributed covariance (C10, C11), the life cycle (C154) and chunked prediction (C80). The clusters may lose tasks; an operation that raises ends the history (what follows a failure is C58). One column of y; the mode is fixed."
  },
  {
   "property": "C192",
   "status": "proved",
   "theorems": [
    "landmark_kernel_sight"
   ],
   "note": "Exact arithmetic, Euclidean inputs."
  },
  {
   "property": "C193",
   "status": "partial",
   "theorems": [
    "operator_is_factor_partial",
    "operator_is_factor_refuted"
   ],
   "note": "False for ILU of an integer matrix: residuals are truncated to integers before the factor sees them. Holds for all float64 matrices and for the other kinds; rounding to float32 is not judged."
  },
  {
   "property": "C194",
   "status": "partial",
   "theorems": [
    "fitted_is_reported_refuted",
    "fitted_is_reported_partial"
   ],
   "note": "Refuted for weight_method='density' when the noise of a component differs between stations: the objective uses the station's noise, posterior_variance the mean over the stations. Partial: the difference is exactly the weighted difference of the noise, none if it is constant; for samples only the ridge of 1e-9 differs. Real arithmetic; the component GPs keep the hyperparameters set before the weights are fitted."
  },
  {
   "property": "C195",
   "status": "proved",
   "theorems": [
    "density_terms",
    "density_terms_total",
    "density_weights",
    "sample_weights"
   ],
   "note": "Real arithmetic; the component posteriors are arbitrary functions. The EM loop is that of C51."
  },
  {
   "property": "C196",
   "status": "proved",
   "theorems": [
    "multi_task_end_to_end"
   ],
   "note": "Model/MultiGP.v composes FvGP.v (multi-task data), LifeCycle.v (derived state and predictions) and TaskArray.v (arrangement of outputs). External contracts: Cholesky, inverse, LU and custom solver satisfy their specifications (shown satisfiable); the kernel is a valid covariance. Hypotheses name the exclusions: calls that raise end the history (C48), rank-n appends under the default noise level (C05), noise positive definite, exact modes. Example multi_task_ex computes a two-task history with missing entries."
  },
  {
   "property": "C197",
   "status": "proved",
   "theorems": [
    "observed_vs_predicted"
   ],
   "note": "Model/ObsPlot.v with the shapes in which posterior_mean and posterior_covariance return their results (squeezed for one column, variances tiled for several). NaN entries, labels and the missing-matplotlib path are not modelled."
  },
  {
   "property": "C198",
   "status": "proved",
   "theorems": [
    "gaussian_density"
   ],
   "note": "Model/ObsPlot.v gaussian_1d over real numbers; the normal distribution function is any with the normal density and limits 0 and 1 (std_normal shows one exists)."
  },
  {
   "property": "C199",
   "status": "partial",
   "theorems": [
    "default_mixture_partial",
    "default_mixture_refuted"
   ],
   "note": "False as stated. Refuted: np.linspace(-1.0, 1.0, 1) is [-1], so with one component the mean lies exactly one unit below that of every station, for all data; and with two or more components the variance exceeds that of the station by (K+1)/(3(K-1)), more than 1/3, in whatever unit the data are given, as the offsets do not follow the scale of the data. Proved: for two or more components the mean is exact, the components differ and stay within one unit of it, the weights are 1/K, the excess of the variance is exactly that number; given arguments are used as given, and the call succeeds for grids of two or more points."
  },
  {
   "property": "C20",
   "status": "proved",
   "theorems": [
    "block_cg_exit_code"
   ],
   "note": "exact arithmetic; inner solves and preconditioner are arbitrary functions"
  },
  {
   "property": "C200",
   "status": "proved",
   "theorems": [
    "mixture_end_to_end",
    "mixture_succeeds"
   ],
   "note": "over the GP model of LifeCycle.v (real arithmetic, factorisation and solver contracts as hypotheses, shown satisfiable); which hyperparameters and weights training finds is left open; components not fitted with gp2Scale; concrete run mixture_end_to_end_ex"
  },
  {
   "property": "C201",
   "status": "partial",
   "theorems": [
    "default_regression_partial",
    "default_regression_refuted"
   ],
   "note": "False as stated. Refuted: with one component the prediction is exactly one below the regression (np.linspace(-1, 1, 1) is [-1]), with two or more the variance is too large by (K+1)/(3(K-1)). Proved: for two or more components the mean is exactly that of the regression and the excess of the variance exactly that number; one component predicts, after any training, the regression with a prior mean one unit higher, minus one, with the right variance. Real arithmetic, contracts of the solvers as hypotheses."
  },
  {
   "property": "C202",
   "status": "proved",
   "theorems": [
    "mixture_relabelled",
    "mixture_rescaled",
    "mixture_widened"
   ],
   "note": "over the model of C200, same assumptions; concrete runs mixture_sym_ex"
  },
  {
   "property": "C203",
   "status": "proved",
   "theorems": [
    "bo_design"
   ],
   "note": "for at least one hyperparameter and a budget of at least two (a budget of one is exceeded, see C32)"
  },
  {
   "property": "C204",
   "status": "partial",
   "theorems": [
    "guidance_refuted",
    "guidance_partial"
   ],
   "note": "refuted for the default: with no type set ILU is tried, but the guidance reads the missing key as None and gives no advice about ILU; proved: advice is never about another backend, and with a type set (any alias, case, or mode suffix) it is given exactly for the backends there is a sentence about (none for AMG and native incomplete Cholesky)"
  },
  {
   "property": "C205",
   "status": "proved",
   "theorems": [
    "bo_never_worse"
   ],
   "note": "exact real arithmetic; the objective may depend on the number of the call"
  },
  {
   "property": "C206",
   "status": "partial",
   "theorems": [
    "transport_refuted",
    "transport_partial"
   ],
   "note": "refuted on uneven grids (np.gradient averages the two neighbouring spacings, so mass moved from 1 to 3 on the grid 0, 1, 3 counts as 3/2); proved for every evenly spaced grid"
  },
  {
   "property": "C207",
   "status": "proved",
   "theorems": [
    "bo_training"
   ],
   "note": "Composes the life cycle of the GP, the choice of the starting point, the BO run and set_hyperparameters. Exact reals; the surrogate is an oracle; synchronous training with the default objective."
  },
  {
   "property": "C208",
   "status": "proved",
   "theorems": [
    "training_session"
   ],
   "note": "Composes C154 (life cycle), C28 (guard) and C207 (BO). Exact reals; noise covariance positive definite for all hyperparameters where training is concerned; an exception ends the session; method mcmc, which may lower the likelihood, counts as a setting of hyperparameters."
  },
  {
   "property": "C209",
   "status": "proved",
   "theorems": [
    "mixture_split"
   ],
   "note": "over the model of C200, same assumptions; concrete run mixture_split_ex"
  },
  {
   "property": "C21",
   "status": "proved",
   "theorems": [
    "column_blocks"
   ],
   "note": "single-column and block solvers are oracles"
  },
  {
   "property": "C210",
   "status": "partial",
   "theorems": [
    "bo_start_warning_refuted",
    "bo_start_warning_partial"
   ],
   "note": "false when the objective reports noise: the surrogate may pick the start although an evaluated point has a smaller objective, and the warning then claims that none had. Proved: the warned run returns exactly what it was given and nothing evaluated is better by more than three standard deviations; with an exact objective the warning is issued exactly if nothing better was found, and otherwise the answer is strictly better"
  },
  {
   "property": "C211",
   "status": "proved",
   "theorems": [
    "multi_task_session"
   ],
   "note": "over the models of C196 and C208, same assumptions; concrete run multi_task_session_ex"
  },
  {
   "property": "C212",
   "status": "proved",
   "theorems": [
    "async_run"
   ],
   "note": "The outcome of iteration i is an oracle of i alone, so random numbers shared with other threads are outside this claim (C96 is about those). Example async_run_ex."
  },
  {
   "property": "C213",
   "status": "proved",
   "theorems": [
    "stopped_run"
   ],
   "note": "For any calls of stop, including none and stops before start (which are forgotten). MCMC and Adam make at least one iteration. The outcome of iteration i is an oracle of i alone. Example stopped_run_ex."
  },
  {
   "property": "C214",
   "status": "proved",
   "theorems": [
    "large_session"
   ],
   "note": "Composes C191 and the guard of C28. Methods local, hgdl, adam and callables with the guard; a training without it counts as a setting of hyperparameters. Exact modes; an exception ends the session. Example large_session_ex."
  },
  {
   "property": "C215",
   "status": "proved",
   "theorems": [
    "block_product",
    "block_product_fails"
   ],
   "note": "Exceptions are alike, float64 conversion is the identity and a product has the length of its vector; the contract on the operator (products right whenever they return) is a hypothesis of block_product, satisfied in block_product_ex."
  },
  {
   "property": "C22",
   "status": "proved",
   "theorems": [
    "mcmc_trace",
    "mcmc_in_box"
   ],
   "note": "likelihood, prior, proposals, randomness are arbitrary functions"
  },
  {
   "property": "C23",
   "status": "partial",
   "theorems": [
    "mcmc_best_refuted",
    "mcmc_best_partial"
   ],
   "note": "the reported maximizer is the position before the best one; MAP is a value"
  },
  {
   "property": "C24",
   "status": "proved",
   "theorems": [
    "poll_and_stop",
    "bo_status"
   ],
   "note": "all interleavings of one start with stops, polls and thread steps; bo_status says what each status of a Bayesian optimizer comes with and that it never goes back"
  },
  {
   "property": "C25",
   "status": "partial",
   "theorems": [
    "terminal_status_refuted",
    "terminal_status_bo_refuted",
    "terminal_status_partial"
   ],
   "note": "exceptions leave MCMC/Adam flagged as running and BO reporting queued/running; termination and the exception-free case are proved"
  },
  {
   "property": "C26",
   "status": "proved",
   "theorems": [
    "start_in_bounds"
   ],
   "note": "Synchronous runs unconditionally; asynchronous runs when the vector has one component per bound (extra bounds are not checked by out_of_bounds)."
  },
  {
   "property": "C27",
   "status": "partial",
   "theorems": [
    "results_in_bounds_refuted",
    "mcmc_result_in_bounds_partial"
   ],
   "note": "Adam never looks at the bounds and leaves them. MCMC medians stay inside for finite samples and bounds; scipy optimizers are outside the model."
  },
  {
   "property": "C28",
   "status": "proved",
   "theorems": [
    "guarded_training",
    "guarded_training_complete"
   ],
   "note": "Rejection restores the whole state exactly (recomputation assumed deterministic); NaN likelihoods are rejected."
  },
  {
   "property": "C29",
   "status": "proved",
   "theorems": [
    "poll_safe",
    "poll_empty"
   ],
   "note": "If the optimizer's vector itself cannot be installed, see C67."
  },
  {
   "property": "C30",
   "status": "proved",
   "theorems": [
    "adam_run",
    "adam_average"
   ],
   "note": "Exact real arithmetic."
  },
  {
   "property": "C31",
   "status": "partial",
   "theorems": [
    "bo_in_box_refuted",
    "bo_in_box_partial"
   ],
   "note": "A degenerate interval lo = hi is searched with width one, so points outside the box are evaluated. Proved for all boxes with positive side lengths and any proposals of the maximizer."
  },
  {
   "property": "C32",
   "status": "partial",
   "theorems": [
    "bo_budget_refuted",
    "bo_budget_partial"
   ],
   "note": "max_iter = 1 leads to two evaluations (also max_iter <= 0). Proved for budgets of at least two, with an exact account of trace and callbacks."
  },
  {
   "property": "C33",
   "status": "partial",
   "theorems": [
    "bo_stop_refuted",
    "bo_stop_partial"
   ],
   "note": "A stop at the first poll raises (argmin of an empty array); a stop during the initial design is reported with reason budget. Everything else proved."
  },
  {
   "property": "C34",
   "status": "proved",
   "theorems": [
    "bo_recommendation"
   ],
   "note": "The posterior-mean oracle returns one value per evaluated point."
  },
  {
   "property": "C35",
   "status": "proved",
   "theorems": [
    "transform_round_trip"
   ],
   "note": "Exact real arithmetic."
  },
  {
   "property": "C36",
   "status": "partial",
   "theorems": [
    "radial_kernels_partial",
    "radial_kernels_refuted"
   ],
   "note": "Holds for all kernels of a distance except matern_kernel_diff2_robust, which exceeds its value at zero by half for every phi (its quadratic term has 15 instead of 5/3), and sparse_kernel, which evaluates distance zero as 1e-5 and is larger just off it. Exact arithmetic."
  },
  {
   "property": "C37",
   "status": "partial",
   "theorems": [
    "robust_reparametrization_partial",
    "robust_reparametrization_refuted"
   ],
   "note": "Holds for exponential, first-order Matern and squared exponential; for no phi is matern_kernel_diff2_robust a second-order Matern kernel of any length scale."
  },
  {
   "property": "C38",
   "status": "partial",
   "theorems": [
    "compact_support",
    "sparse_block_partial",
    "sparse_block_refuted"
   ],
   "note": "The sparse block equals the dense one when the vector has exactly D+1 hyperparameters; with further entries (noise or mean parameters) the sparse evaluation raises, or for one-dimensional inputs silently uses them as length scales while the dense one ignores them. The neighbour search is assumed to meet its contract; exact arithmetic (the single-precision GPU variants are C179)."
  },
  {
   "property": "C39",
   "status": "proved",
   "theorems": [
    "default_gradient_is_derivative",
    "non_stat_gradient_is_derivative"
   ],
   "note": "All pairs of points including coinciding ones, any number of hyperparameters, exact arithmetic."
  },
  {
   "property": "C40",
   "status": "partial",
   "theorems": [
    "likelihood_gradient_partial",
    "likelihood_gradient_disjoint",
    "likelihood_gradient_refuted",
    "likelihood_gradient_columns_refuted"
   ],
   "note": "The gradient component is the derivative exactly when the derivative through the mean or the one through the covariance vanishes; refuted for a shared hyperparameter and for several columns of y (objective averages, gradient uses one column). Analytic gradients of kernel, noise and mean are hypotheses."
  },
  {
   "property": "C41",
   "status": "partial",
   "theorems": [
    "task_arrays_partial",
    "task_gradients_partial",
    "task_gradients_refuted",
    "task_covariance_gradient_partial",
    "task_covariance_gradient_refuted"
   ],
   "note": "Mean, variances, one-direction gradients and the covariance tensor are arranged by point and task for all sizes. The all-direction gradients (mean and variance) are scrambled as soon as there are two tasks and two input dimensions, dS/dx as soon as there are two tasks and two points; right in the remaining sizes."
  },
  {
   "property": "C42",
   "status": "proved",
   "theorems": [
    "posterior_variance_nonneg"
   ],
   "note": "For every product/solver output, stored inverse and option combination; noise diagonal assumed non-negative. When a matrix is returned its diagonal is the variances."
  },
  {
   "property": "C43",
   "status": "proved",
   "theorems": [
    "posterior_below_prior"
   ],
   "note": "Symmetric, positive semidefinite and below the prior as matrices; variances between 0 and the prior variance. Exact arithmetic, valid covariance function, positive definite noise."
  },
  {
   "property": "C44",
   "status": "proved",
   "theorems": [
    "kl_div_divergence",
    "mutual_information_nonneg",
    "total_correlation_nonneg",
    "gp_divergences_nonneg",
    "relative_information_set_entries"
   ],
   "note": "KL value, non-negativity, zero exactly for equal Gaussians; mutual information is the KL divergence of the joint from the product of marginals, the stated combination of log determinants, zero exactly when the cross covariance is zero; total correlation above the mutual information; relative information entropy and GP KL divergence non-negative with equality case. The code's 1e-9 on the diagonal is a positive parameter."
  },
  {
   "property": "C45",
   "status": "proved",
   "theorems": [
    "mae_at_most_rmse",
    "errors_zero_iff_perfect",
    "crps_lower_bound",
    "interval_score_bound",
    "mpiw_monotone",
    "coverage_monotone",
    "coverage_curve_monotone",
    "normal_exists",
    "nrmse_is_relative_to_range",
    "mape_is_mean_relative_error"
   ],
   "note": "Exact reals. Phi/ppf are scipy's norm.cdf/ppf with their defining properties as hypotheses; normal_exists (Gaussian integral) shows that they are satisfiable. CRPS is bounded below by a positive multiple of the mean standard deviation. Coverage for observations of any shape that broadcasts."
  },
  {
   "property": "C46",
   "status": "proved",
   "theorems": [
    "flattening_exact",
    "flattening_total"
   ],
   "note": "values as a 2-d array; noise None or a 2-d array (other shapes are rejected by the transform when there is a point)"
  },
  {
   "property": "C47",
   "status": "partial",
   "theorems": [
    "appended_observations_partial",
    "appended_as_rebuilt_partial",
    "append_order_refuted"
   ],
   "note": "after any accepted calls the single-task data are the observations of the stacked multi-task data, as a set with multiplicities, and in the same order with one task; with two tasks the order differs from that of a GP built at once, refuted by a witness"
  },
  {
   "property": "C48",
   "status": "partial",
   "theorems": [
    "rejected_fv_update_partial",
    "rejected_fv_update_refuted",
    "rejected_all_nan_refuted"
   ],
   "note": "calls refused before the multi-task data are set change nothing and the single-task data survive; calls refused later leave the multi-task data grown, the noise lost, refuted by witnesses"
  },
  {
   "property": "C49",
   "status": "proved",
   "theorems": [
    "one_gp_per_client",
    "second_gp_raises",
    "free_client_accepted",
    "collecting_frees",
    "failed_construction_keeps"
   ],
   "note": "constructions one after the other, each object initialized once; interleaved constructions are C86"
  },
  {
   "property": "C50",
   "status": "proved",
   "theorems": [
    "hps_round_trip",
    "vector_round_trip",
    "bounds_round_trip",
    "moments_round_trip"
   ],
   "note": "Flattening and splitting are inverse to each other for hyperparameters of the shape given at construction, for bounds, and for the likelihood's means and variances."
  },
  {
   "property": "C51",
   "status": "proved",
   "theorems": [
    "em_on_simplex",
    "em_stops",
    "em_monotone"
   ],
   "note": "Both EM variants (extra is 0 or 1e-300). Data terms are assumed to have positive total weight."
  },
  {
   "property": "C52",
   "status": "partial",
   "theorems": [
    "normalize_partial",
    "normalize_refuted"
   ],
   "note": "Holds for densities with positive mass. In the fallback the values times the spacings sum to 1/n."
  },
  {
   "property": "C53",
   "status": "partial",
   "theorems": [
    "tree_alignment_partial",
    "coincident_refuted",
    "visiting_order"
   ],
   "note": "Holds unless two or more inputs all coincide, in which case only the root is aligned and the others come back as None. visiting_order: siblings by distance and index, breadth first. Spanning tree and assignment of scipy are oracles with stated contracts, which are shown to be satisfiable."
  },
  {
   "property": "C54",
   "status": "partial",
   "theorems": [
    "save_crash_safe",
    "save_completes",
    "cache_transparent_partial",
    "plain_fits",
    "cache_kept",
    "other_settings_not_served",
    "duplicate_ids_refuted",
    "other_series_refuted",
    "other_meta_refuted"
   ],
   "note": "Crash safety holds (process kill; no power loss). Transparency holds for any sequence of possibly killed runs if ids determine series and the directory holds only files of this code; it fails for repeated ids, for series prepared differently from the same file, and for files of other settings at the same path (merged into the new file; not served by the run that finds them)."
  },
  {
   "property": "C55",
   "status": "proved",
   "theorems": [
    "mixture_variance"
   ],
   "note": "Point-wise; the posterior of each GP is an input."
  },
  {
   "property": "C56",
   "status": "partial",
   "theorems": [
    "call_order_partial",
    "early_call_no_effect",
    "guards_refuted"
   ],
   "note": "Calls in the wrong order raise a TypeError and have no effect; the documented ValueError is never raised because __getattr__ returns a function for every missing attribute."
  },
  {
   "property": "C57",
   "status": "partial",
   "theorems": [
    "unpickled_reads_same_partial",
    "unpickled_data_same_partial",
    "unpickled_sharing_partial",
    "unpickled_dropped",
    "clean_gp_pickles_partial",
    "sparse_lu_pickle_refuted"
   ],
   "note": "the pickle library is described by its contract; every attribute chain that avoids the Dask client, the future, the preconditioner and the surrogate reads the same and sharing is kept; refuted for mode sparseLU, whose SuperLU factor is not dropped and cannot be pickled; the preconditioner is a cached factorization that is dropped"
  },
  {
   "property": "C58",
   "status": "partial",
   "theorems": [
    "recovered_covariance_refuted",
    "recovered_covariance_partial"
   ],
   "note": "false after a lost append (stale persistent scatter) and after a lost set_hyperparameters (mixed blocks); true from any accepted overwrite on"
  },
  {
   "property": "C59",
   "status": "partial",
   "theorems": [
    "warm_start_nearby_refuted",
    "warm_start_nearby_partial",
    "warm_start_opt_in"
   ],
   "note": "false after a failed evaluation: the fingerprint is overwritten before the solve; holds for histories in which no evaluation fails and the size is unchanged; without the entry in args no guess is used and none is kept"
  },
  {
   "property": "C60",
   "status": "partial",
   "theorems": [
    "no_nan_stored_refuted",
    "no_nan_stored_partial"
   ],
   "note": "false for non-Euclidean inputs, where the check is skipped; holds for array inputs after any history"
  },
  {
   "property": "C61",
   "status": "proved",
   "theorems": [
    "block_preconditioner_spd"
   ],
   "note": "exact arithmetic"
  },
  {
   "property": "C62",
   "status": "proved",
   "theorems": [
    "incomplete_cholesky"
   ],
   "note": "exact arithmetic"
  },
  {
   "property": "C63",
   "status": "proved",
   "theorems": [
    "metropolis_rule",
    "metropolis_zero_likelihood"
   ],
   "note": ""
  },
  {
   "property": "C64",
   "status": "partial",
   "theorems": [
    "mcmc_nan_rejected_refuted",
    "mcmc_nan_rejected_partial"
   ],
   "note": "a NaN prior is accepted because the comparison with 50 is false"
  },
  {
   "property": "C65",
   "status": "partial",
   "theorems": [
    "mcmc_info_complete_refuted",
    "mcmc_info_complete_partial"
   ],
   "note": "after a break the last sample is missing (everything after a break in the first iteration)"
  },
  {
   "property": "C66",
   "status": "partial",
   "theorems": [
    "adapt_covariance_refuted",
    "adapt_covariance_partial"
   ],
   "note": "false for K <= 2; proved for K >= 3"
  },
  {
   "property": "C67",
   "status": "partial",
   "theorems": [
    "failed_set_atomic_refuted",
    "failed_set_atomic_partial"
   ],
   "note": "set_hyperparameters assigns the vector before recomputing prior, noise and factorization; a failure leaves a mixed state. Re-installing the old vector restores it."
  },
  {
   "property": "C68",
   "status": "partial",
   "theorems": [
    "distance_kernels_valid",
    "default_kernel_valid",
    "landmark_kernel_valid",
    "inner_product_kernels_valid",
    "kernels_valid_refuted",
    "sparse_kernel_valid_refuted"
   ],
   "note": "Proved in every dimension for all listed kernels but two: matern_kernel_diff2_robust gives an indefinite matrix for two points, whatever phi; sparse_kernel gives an indefinite matrix for any two distinct points closer than 1e-5 (and the radius), because it evaluates distance zero as 1e-5. Exact arithmetic."
  },
  {
   "property": "C69",
   "status": "partial",
   "theorems": [
    "wendland_valid_refuted",
    "wendland_valid_partial",
    "wendland_pairs_partial"
   ],
   "note": "False for five or more input columns, for every choice of positive hyperparameters (alternating signs on a grid of spacing 1/sqrt 683 in units of the length scales; the lattice sum is bounded by exact integer arithmetic). Proved for up to three columns, for both anisotropic Wendland kernels and the Wendland kernel of the Euclidean distance. Four columns are open here; in every dimension the matrix is symmetric with the signal variance on the diagonal and entries between zero and it."
  },
  {
   "property": "C70",
   "status": "partial",
   "theorems": [
    "kernel_arguments_refuted",
    "kernel_arguments_partial"
   ],
   "note": "wendland_kernel clips the caller's array; unchanged exactly when all distances are at most one. sparse_kernel copies."
  },
  {
   "property": "C71",
   "status": "partial",
   "theorems": [
    "wasserstein_refuted",
    "wasserstein_partial"
   ],
   "note": "The helper sorts the masses, so permuted distributions have distance zero; it is a symmetric pseudometric."
  },
  {
   "property": "C72",
   "status": "proved",
   "theorems": [
    "bo_converged"
   ],
   "note": "The last patience evaluations brought no progress, measured against the incumbents before and after each of them; at least two design points precede them."
  },
  {
   "property": "C73",
   "status": "proved",
   "theorems": [
    "likelihood_is_gaussian"
   ],
   "note": "Exact real arithmetic; solver and log-determinant as in C01-C08."
  },
  {
   "property": "C74",
   "status": "partial",
   "theorems": [
    "likelihood_hessian_partial",
    "likelihood_hessian_refuted"
   ],
   "note": "Proved for given hyperparameters; the documented default None raises TypeError."
  },
  {
   "property": "C75",
   "status": "partial",
   "theorems": [
    "variance_only_partial",
    "variance_only_refuted"
   ],
   "note": "The variances agree; S is None only when the inverse is stored and y has one column; otherwise the full matrix is returned (witness)."
  },
  {
   "property": "C76",
   "status": "proved",
   "theorems": [
    "posterior_is_conditional",
    "posterior_interpolates"
   ],
   "note": "Factorization of densities for positive definite noise and joint covariance; interpolation for zero noise and invertible K."
  },
  {
   "property": "C77",
   "status": "partial",
   "theorems": [
    "posterior_probability_partial",
    "posterior_probability_refuted"
   ],
   "note": "Holds for every number of points except one; for a single point the squeezed mean makes the matrix product raise."
  },
  {
   "property": "C78",
   "status": "partial",
   "theorems": [
    "posterior_mean_gradient",
    "posterior_covariance_gradient_partial",
    "posterior_covariance_gradient_refuted"
   ],
   "note": "Mean gradient and dv/dx are derivatives (finite differences of kernel and mean taken as derivatives); the derivative of S is the symmetric part of dS/dx; dS/dx itself is not the derivative off the diagonal (witness: linear kernel)."
  },
  {
   "property": "C79",
   "status": "proved",
   "theorems": [
    "entropy_gradient"
   ],
   "note": "With the finite differences of the kernel taken as derivatives and any positive jitter."
  },
  {
   "property": "C80",
   "status": "proved",
   "theorems": [
    "prediction_chunks"
   ],
   "note": "For every linear solve, chunk size, mode, batch size and initial buffer."
  },
  {
   "property": "C81",
   "status": "partial",
   "theorems": [
    "noisy_prediction_partial",
    "noisy_prediction_refuted"
   ],
   "note": "True for batches whose size differs from the number of data points; for a batch of that size the stored variances are used in order instead of their mean, which changes the answer (witness)."
  },
  {
   "property": "C82",
   "status": "partial",
   "theorems": [
    "metrics_on_several_points_partial",
    "metrics_on_one_point_refuted"
   ],
   "note": "False for one test point and one output column: m(x) is squeezed to shape () while v(x) keeps (1,), so crps, nlpd, interval_score and msll raise for every y_test and the others for y_test of shape (1,). True for two or more points or columns."
  },
  {
   "property": "C83",
   "status": "proved",
   "theorems": [
    "crps_is_integral",
    "crps_of_unique",
    "normal_exists"
   ],
   "note": "Positive variances, exact reals."
  },
  {
   "property": "C84",
   "status": "proved",
   "theorems": [
    "nlpd_is_log_density",
    "msll_is_relative",
    "r2_bounds"
   ],
   "note": "Positive variances, exact reals; r2 for observations that are not all equal."
  },
  {
   "property": "C85",
   "status": "partial",
   "theorems": [
    "coverage_is_fraction_partial",
    "coverage_of_column_refuted",
    "coverage_of_columns_partial",
    "coverage_of_column_partial"
   ],
   "note": "True for y_true of shape (N,) with one output column and of shape (N,c) with c >= 2 columns; for one column and y_true of shape (N,1) every observation is compared with every interval: perfect predictions of two points get coverage 1/2."
  },
  {
   "property": "C86",
   "status": "partial",
   "theorems": [
    "threads_share_client_refuted",
    "threads_registry_partial"
   ],
   "note": "the guard checks before and registers after the construction, so two threads may both pass; what holds under every interleaving is that registered GPs are alive, constructed with that client, and one per client"
  },
  {
   "property": "C87",
   "status": "proved",
   "theorems": [
    "preconditioner_fresh",
    "preconditioner_built_once"
   ],
   "note": "For every history from the empty cache. Non-finite trace or norm is ignored by the drift in the code (see ex_nonfinite), so closeness is claimed for finite values; the drift sees only trace and norm (ex_same_drift). Building is an oracle."
  },
  {
   "property": "C88",
   "status": "partial",
   "theorems": [
    "warm_start_first_refuted",
    "warm_start_posterior_refuted",
    "warm_start_near_partial"
   ],
   "note": "False: the first evaluation uses the committed solution unchecked, and a posterior at other hyperparameters moves the fingerprint without the stored solution. Proved for runs of marginal-likelihood evaluations with warm starts enabled, after the first one."
  },
  {
   "property": "C89",
   "status": "partial",
   "theorems": [
    "stored_vector_partial",
    "set_longer_refuted",
    "set_shorter_refuted",
    "longer_bounds_refuted"
   ],
   "note": "Holds as long as only hyperparameters of the shape at construction are set."
  },
  {
   "property": "C90",
   "status": "proved",
   "theorems": [
    "station_moments_correct",
    "station_moments_total"
   ],
   "note": ""
  },
  {
   "property": "C91",
   "status": "proved",
   "theorems": [
    "bhattacharyya_distance",
    "wasserstein_pseudometric",
    "kl_nonnegative"
   ],
   "note": "1e-300 is a positive parameter."
  },
  {
   "property": "C92",
   "status": "proved",
   "theorems": [
    "sequence_alignment",
    "sequence_rejects"
   ],
   "note": "linear_sum_assignment is an oracle with the contract to return a permutation of least cost."
  },
  {
   "property": "C93",
   "status": "partial",
   "theorems": [
    "concurrent_complete_partial",
    "concurrent_refuted"
   ],
   "note": "All processes share one temporary file: a complete file may be replaced by an unfinished one and a process may fail with FileNotFoundError."
  },
  {
   "property": "C94",
   "status": "partial",
   "theorems": [
    "gpu_device_partial",
    "gpu_device_masks",
    "gpu_device_refuted"
   ],
   "note": "Device and single execution hold always. Exceptions are kept unless a library was switched: then the except clause of the generator swallows the exception, it yields again, and contextlib raises RuntimeError instead."
  },
  {
   "property": "C95",
   "status": "partial",
   "theorems": [
    "until_converged_good",
    "until_converged_rule",
    "until_converged_budget_partial",
    "until_converged_budget_refuted"
   ],
   "note": "Stopping rule, history and result proved; the budget is exceeded by up to one batch when it is not a multiple of the batch size (witness)."
  },
  {
   "property": "C96",
   "status": "partial",
   "theorems": [
    "parallel_training",
    "pool_size",
    "round_robin",
    "shared_generator_partial",
    "shared_generator_refuted"
   ],
   "note": "Results are placed correctly for every completion order, and each component ends as by itself with the random numbers it received. Refuted: the threads share NumPy's global generator, so with two or more workers the same seed and call can return different hyperparameters than without threads; equal with one worker, or when the outcomes do not depend on the numbers."
  },
  {
   "property": "C97",
   "status": "partial",
   "theorems": [
    "devices_partial",
    "devices_refuted"
   ],
   "note": "compute_device stays gpu without a GPU if the caller sets all five device entries of args to cpu; everything else holds."
  },
  {
   "property": "C98",
   "status": "proved",
   "theorems": [
    "component_terminates",
    "component_arguments",
    "kernel_kept"
   ],
   "note": "gp_init_kwargs not containing the names of kernel, mean and noise."
  },
  {
   "property": "C99",
   "status": "proved",
   "theorems": [
    "energy_metric",
    "energy_moves"
   ],
   "note": "Over the reals, samples with equal numbers of columns. Separation is proved in every dimension (shares of points in the two samples)."
  }
 ]
}
