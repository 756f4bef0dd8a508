# Design

Formal model of `fvgp` (lbl-camera/fvGP, sources in /repo) in Coq 8.16.1.

## Layout

* `rocq/theories/Model/*.v` – executable model, one file per area, no proofs. Every definition cites the
  file and lines in /repo it follows; simplifications are named in the same comment or at the head of the file.
* `rocq/theories/Spec/*.v` (where a specification is more than a line) – small independent specifications and the
  contracts of external functions.
* `rocq/theories/Proofs/*.v` – lemmas.
* `rocq/theories/Props/*.v` – the property theorems (`exact lemma.` or short glue), `Print Assumptions` beneath,
  and an `Example` with a concrete non-trivial case beside them.
* `properties.jsonl` – the properties in words; `MANIFEST.json` maps them to theorem names. A property that the code
  violates is listed as `partial` with a theorem `..._refuted` (a concrete witness) and, where there is one, the
  strongest true part `..._partial`; the comment above it says what is missing.
* `seeded/LOG.jsonl` – edits of the model that mimic realistic bugs, and the theorems that stopped compiling.

## Modelling conventions

* Python exceptions are values (`res`: `Ok`/`Err`); a method that mutates `self` returns the new state also when
  it raises, so that partial mutation is visible.
* Data points, noise values, kernel values are of an arbitrary type or arbitrary ring/field unless the property
  is about their value; then `R` (Coq Reals) or a mathcomp `fieldType`/`rcfType` (`R` is an instance, Proofs/RealMx.v).
* Floating point round-off is not modelled, except in Model/Rounding.v, where every operation is rounded to the nearest
  double (Flocq's `round`, no overflow). Elsewhere numbers are exact; where NaN or infinities matter they are explicit
  constructors (Model/Ext.v).
* External calls (scipy/numpy solvers, optimizers, random numbers, dask scheduling, user functions) are Section
  variables, i.e. universally quantified; contracts they are assumed to satisfy are hypotheses of the theorem, and are
  shown to be satisfiable where that is not evident.
* Threads and processes are interleavings of atomic steps; loops of the code without a syntactic bound have fuel, and a
  theorem says how much suffices.

## Models and properties

What a model covers (files and lines of /repo) and what it leaves out is stated in the comment at its head.

| theorems | models | properties |
|---|---|---|
| `Props/ActorProps` | Actor | C24, C25 |
| `Props/ActorRunProps` | Actor | C212 |
| `Props/ActorStopProps` | Actor | C213 |
| `Props/AdamProps` | Adam | C30 |
| `Props/AdaptProps` | Adapt | C66 |
| `Props/AdaptRunProps` | Adapt, AdaptRun, MCMC | C155, C156 |
| `Props/AdaptedOpProps` | AdaptedOp, DeepKernel | C193 |
| `Props/AlignProps` | Align | C53, C92 |
| `Props/BODesignProps` | BO, BOWarn | C203, C205 |
| `Props/BOProps` | BO | C31, C32, C33, C34, C35, C72 |
| `Props/BOStartProps` | BO, BOStart | C210 |
| `Props/BOWarnProps` | BO, BOWarn | C151 |
| `Props/BlockCGProps` | BlockCG | C20, C139, C140 |
| `Props/CholProps` | CholUpdate | C06, C07, C08 |
| `Props/CopyingProps` | Copying | C178 |
| `Props/DataProps` | Data | C01, C02, C03, C60 |
| `Props/DeepKernelProps` | DeepKernel | C173, C174, C175 |
| `Props/DimsProps` | Dims | C172 |
| `Props/FiniteDiffProps` | FiniteDiff | C127, C132 |
| `Props/FormatsProps` | FiniteDiff, Formats | C169, C170, C171 |
| `Props/FvGPProps` | Data, FvGP | C46, C47, C48 |
| `Props/GGMPDensityProps` | GGMPDensity | C51, C52, C55, C90, C91 |
| `Props/GGMPFitProps` | GGMPFit | C105, C106, C107, C108, C109, C110 |
| `Props/GGMPPhasesProps` | GGMPPhases, Training | C134, C135, C136, C137, C138 |
| `Props/GGMPProps` | GGMP | C50, C56, C89 |
| `Props/GGMPTermsProps` | GGMPDensity, GGMPTerms | C194, C195 |
| `Props/GGMPTrainProps` | GGMPTrain | C94, C95, C96, C97, C98 |
| `Props/GPStateProps` | GPState | C04, C05 |
| `Props/GaussW2Props` | GaussW2 | C111, C112, C113, C114 |
| `Props/GmmCacheProps` | GmmCache | C54, C93 |
| `Props/Gp2ScaleProps` | Gp2Scale | C09, C10, C11, C12, C58 |
| `Props/GpuEngineProps` | GpuEngine, LinalgCfg | C141, C142 |
| `Props/GpuKernelProps` | DeepKernel, GpuKernel, Kernels, Rounding | C179 |
| `Props/GpuOpsProps` | CholUpdate, GpuOps | C143, C144, C145, C146 |
| `Props/GridProps` | Gp2Scale, Grid | C152, C153 |
| `Props/GuidanceProps` | Guidance, LinalgCfg | C204 |
| `Props/HistogramProps` | GGMPDensity, Histogram | C176, C177 |
| `Props/KernelsProps` | Kernels | C36, C37, C38, C39, C68, C69, C70, C71 |
| `Props/KrylovCacheProps` | KrylovCache | C87, C88 |
| `Props/KrylovProps` | Data, Krylov | C19, C21 |
| `Props/LandmarkProps` | Kernels | C192 |
| `Props/LaplaceProps` | Laplace | C122 |
| `Props/LargeGPProps` | GPState, Gp2Scale, LargeGP, LifeCycle, Likelihood, Posterior, Solvers | C191 |
| `Props/LargeTrainProps` | GPState, Gp2Scale, LargeGP, LargeTrain, LifeCycle, Likelihood, Posterior, Solvers | C214 |
| `Props/LifeCycleProps` | GPState, LifeCycle, Likelihood, Posterior, Solvers | C154 |
| `Props/LikelihoodProps` | Likelihood | C40, C73, C74 |
| `Props/LinOpProps` | LinOp | C215 |
| `Props/LinalgCfgProps` | LinalgCfg | C13, C14, C15, C16, C59 |
| `Props/LocalProps` | Kernels, Likelihood, Observations, Posterior | C189, C190 |
| `Props/LogdetVarProps` | LogdetVar | C148 |
| `Props/MCMCProps` | MCMC | C22, C23, C63, C64, C65 |
| `Props/MetricsProps` | Metrics | C45, C82, C83, C84, C85 |
| `Props/MixtureGPProps` | GGMPDensity, GPState, LifeCycle, Likelihood, MixtureGP, MixtureInit, Posterior, Solvers | C200 |
| `Props/MixtureInitProps` | GGMPDensity, MixtureInit | C199 |
| `Props/MixtureMVProps` | MixtureMV | C157 |
| `Props/MixtureRegProps` | GGMPDensity, GPState, LifeCycle, Likelihood, MixtureGP, MixtureInit, Posterior, Solvers | C201 |
| `Props/MixtureSplitProps` | GGMPDensity, GPState, LifeCycle, Likelihood, MixtureGP, MixtureInit, Posterior, Solvers | C209 |
| `Props/MixtureSymProps` | GGMPDensity, GPState, LifeCycle, Likelihood, MixtureGP, MixtureInit, Posterior, Solvers | C202 |
| `Props/MultiGPProps` | Data, FvGP, GPState, LifeCycle, Likelihood, MultiGP, Posterior, Solvers, TaskArray | C196 |
| `Props/MultiTrainProps` | BO, Data, FvGP, GPState, LifeCycle, Likelihood, MultiGP, MultiTrain, Posterior, Solvers, TaskArray, TrainBO, TrainSession, Training | C211 |
| `Props/ObsPlotProps` | GGMPTerms, ObsPlot | C197, C198 |
| `Props/ObservationsProps` | Likelihood, Observations, Posterior | C180, C181, C182, C183, C184 |
| `Props/PickleProps` | Pickle | C57 |
| `Props/PointGradProps` | FiniteDiff, PointGrad | C186 |
| `Props/PosteriorProps` | Likelihood, Posterior | C42, C43, C44, C75, C76, C77, C78, C79, C80, C81 |
| `Props/PrecondMxProps` | CholUpdate, PrecondMx | C61, C62 |
| `Props/PrecondProps` | Precond | C17, C18 |
| `Props/RegistryProps` | Registry | C49, C86 |
| `Props/RepeatProps` | Likelihood, Observations, Posterior | C188 |
| `Props/RoundingProps` | Rounding | C163, C164, C165, C166 |
| `Props/SampleDistProps` | Kernels, SampleDist, Training | C99, C100, C101, C102, C103, C104 |
| `Props/SeededProps` | BO, Kernels, Seeded, Surrogate | C185 |
| `Props/SetArgsProps` | GPState, LinalgCfg, SetArgs | C149, C150 |
| `Props/SharingProps` | Sharing | C167, C168 |
| `Props/SolverModeProps` | Solvers | C128 |
| `Props/SolverOptsProps` | LinalgCfg, SolverOpts | C147 |
| `Props/SolversProps` | CholUpdate, Solvers | C128, C129, C130, C131 |
| `Props/SpaiProps` | Spai | C161, C162 |
| `Props/SurrogateProps` | BO, Kernels, Surrogate | C115, C116, C117, C118, C119, C120, C121, C185 |
| `Props/TaskArrayProps` | TaskArray | C41 |
| `Props/ThreadPoolProps` | GGMPTrain, ThreadPool | C96 |
| `Props/TraceFilesProps` | MCMC, TraceFiles | C158, C159, C160 |
| `Props/TrainBOProps` | BO, GPState, LifeCycle, Likelihood, Posterior, Solvers, TrainBO, Training | C207 |
| `Props/TrainPlanProps` | TrainPlan, Training | C123, C124, C125, C126, C133 |
| `Props/TrainSessionProps` | BO, GPState, LifeCycle, Likelihood, Posterior, Solvers, TrainBO, TrainSession, Training | C208 |
| `Props/TrainingProps` | Adam, MCMC, Training | C26, C27, C28, C29, C67 |
| `Props/TransportProps` | GGMPDensity | C206 |
| `Props/UnitsProps` | AdaptRun, DefaultGP, DefaultTraining, FiniteDiff, Kernels, Likelihood, MCMC, Observations, PointGrad, Posterior, TrainPlan, Training | C187 |

## What each model covers

The head comments of `Model/*.v`: code modelled, and simplifications.

* **Actor** – gp_actor.py: the asynchronous optimizer actors as a transition system. Two threads share [running], [latest] and the lock: the caller (start, stop, get_latest) and the background thread. A step is one statement that reads or writes shared state, or one call of the user's objective. Everything the optimizer computes is an oracle: [out i] is the outcome of iteration i. Simplifications: the objective always returns or raises; start is called at most once (the training wrappers 358-371, 409-423, 461-473 of gp_training.py do so); dictionaries are values, except for the final writes of the Bayesian optimizer, which change the fresh dictionary key by key.
* **Adam** – gp_training.py adam_optimize 577-667, real arithmetic. The objective and its gradient are oracles; the stop signal is an arbitrary function of the iteration. The callback is recorded as the list of its arguments.
* **Adapt** – gp_mcmc.py ProposalDistribution._adapt 343-361. Simplifications: real arithmetic; positions restricted to the indices of the distribution are functions from 0..d-1; [None] stands for NaN (np.mean of nothing, np.cov of fewer than two samples).
* **AdaptRun** – gp_mcmc.py: the normal proposal distribution 308-361 and the default break condition 183-193, as used by the sampler of Model/MCMC.v. Simplifications: real arithmetic; [None] stands for NaN (np.mean of nothing, np.cov of fewer than two samples or of non-finite positions, np.log of a number that is not positive; one NaN makes the whole covariance NaN); K is positive; np.random.multivariate_normal is an arbitrary function [draw] of the covariance, the random source and the mean.
* **AdaptedOp** – The operator through which a preconditioner is applied. gp_lin_alg.py _build_dtype_adapted_operator 759-780 and its callers: native IC(0) 750, ILU 798, ilupp 838 and 859. Vectors are lists of reals, two-dimensional arrays lists of columns; float64 is exact. [solve] is the factor's solve or dot function. Simplification: a cast of a number outside the range of an integer type is not modelled (the witnesses stay in range). np.column_stack raises for an array without columns.
* **Align** – Model of the alignment of local mixtures. /repo/fvgp/ggmp.py: align_gmm_components_hungarian 1247-1284, align_local_gmms_sequence 1287-1351, _choose_mst_root 1354-1360, build_input_mst 1363-1433, align_local_gmms_mst 1438-1516, align_local_gmms 1519-1553. Inputs are numbered from 0; the input with number i is the vector [x i] of d reals. The metric is a parameter [w2], [lsa] stands for scipy.optimize.linear_sum_assignment (the assigned columns in the order of the rows) and [mst] for scipy.sparse.csgraph.minimum_spanning_tree converted to a dense matrix. A local mixture is its weights, means and covariances, each a list over the components; the shapes of the individual means and covariances are not modelled. Copies and the returned costs are left out.
* **BO** – gp_bo.py: the unit-cube transform 45-98, the design size 104-112, the search 529-871. Simplifications: exact real arithmetic; vectors have one entry per hyperparameter (a mismatch would be a numpy shape error); the surrogate fit, the acquisition maximizer and the surrogate's posterior mean are oracles that may raise; the objective and the noise function may depend on the number of the call; the printed messages, the Laplace approximation and the sensitivity readout 824-846 are left out.
* **BOStart** – The warning of a BO run that ends where it began. /repo/fvgp/gp_bo.py: bayesian_optimize 802-822. The run is that of BO.v up to the recommendation; only whether the warning is issued is modelled, not its text.
* **BOWarn** – The warnings before a Bayesian optimization, GP._warn_about_bo_suitability, /repo/fvgp/gp.py 1170-1232.
* **BlockCG** – Model of _block_conjugate_gradient, /repo/fvgp/gp_lin_alg.py 1024-1080, for at least two columns (a single column is handed to scipy's cg). Exact arithmetic. np.linalg.solve is a parameter that may fail (LinAlgError); the preconditioner is an arbitrary function.
* **CholUpdate** – Model of the dense factorization updates of /repo/fvgp/gp_lin_alg.py: cholesky_update_rank_1_numpy (1351-1382), cholesky_update_rank_n (1466-1477), update_Chol_factor (272-286), update_inv (1567-1578), update_logdet (1522-1531), calculate_Chol_solve (289-328), calculate_inv_from_chol (1558-1564), calculate_Chol_logdet (331-360). Numbers are elements of a real closed field (exact arithmetic; np.sqrt is the exact root). CPU branches only: the GPU branches call other libraries for the same formulae. scipy's solve_triangular(L, b, lower=True) and cho_solve((L, True), b) read the lower triangle of L only; they are modelled by the inverse of that triangle. This matters because cho_factor leaves unspecified values above the diagonal (calculate_Chol_factor, 245).
* **Copying** – Copies of a GGMP and of its helper objects: /repo/fvgp/ggmp.py GGMP.__getattr__ 125-128 (no __getstate__, __setstate__, __copy__, __deepcopy__ is defined), hyperparameters 781-859 and NormalLikelihood 862-902 (no __getattr__), under the protocols of the Python standard library: copy.copy, copy.deepcopy, pickle.dumps and pickle.loads (protocol 2 or later). The protocols, as in Lib/copy.py, Lib/pickle.py and Objects/typeobject.c: __copy__ is looked up in the class, __deepcopy__, __getstate__ and __setstate__ with getattr on the object, so that __getattr__ answers for them. From Python 3.11 on ([py311]) object has a method __getstate__. Simplifications: an object is its dictionary of fields; the attributes found in a class besides those of object are its methods, none of which has one of the names above; values are copied faithfully ([dup] for deepcopy and pickle). Printing of the message is left out.
* **Data** – Model of the data container: /repo/fvgp/gp_data.py and the argument handling of GP.update_gp_data (/repo/fvgp/gp.py 689-749).
* **DeepKernel** – The network of deep kernels: deep_kernel_network.py Network 5-37. Simplifications: a layer is its rows of weights and its biases; every arithmetic operation is exact, followed by a rounding [rnd] (the identity, or rounding to single precision as in torch.Tensor(x) and .float()); sums run from left to right; overflow left out. How a hyperparameter vector becomes weights and biases is up to the user's kernel; [unpack] is that of examples/MultiTaskTest.ipynb 850-868, in which indexing beyond the end raises. WarpNet 43-60 (no relu on the last layer) differs by [last].
* **DefaultGP** – Likelihood and predictions of a GP with the default kernel as functions of its hyperparameters: gp_prior.py _default_kernel 376-400, then Model/Observations.v; the y and x handed to train_mcmc of Model/DefaultTraining.v. Simplifications: those of Model/Observations.v and Model/Kernels.v; the likelihood of hyperparameters that are not all finite is NaN; a division by a length scale zero is zero.
* **DefaultTraining** – A GP left to its defaults: gp.py 499-501 (hyperparameters), _get_default_hyperparameter_bounds 752-774, train 1019-1036 with method "mcmc", gp_training.py 53-54, 146-161, gp_mcmc.py 69-93 (the proposal distribution made from the bounds), 280-319. Simplifications: those of Model/MCMC.v, Model/AdaptRun.v, Model/Training.v and Model/TrainPlan.v; the log likelihood is a function of the hyperparameters; [svd_draw] is np.random.multivariate_normal for a diagonal covariance only: NumPy multiplies independent standard normal numbers by the square roots of the singular values, which the singular value decomposition lists from the largest to the smallest, and turns the result back to the axes (signs +1).
* **Dims** – The number of input columns a GP remembers: gp_data.py 27-34 (set at construction), 93-103 (not touched by an overwrite); gp_posterior.py _perform_input_checks 576-583; gp_prior.py _default_kernel 383-400; gp.py _get_default_hyperparameter_bounds 752-774; gp.py update_gp_data 739-749 for append=False. Simplifications: Euclidean inputs given as lists of rows, all rows of an array having the same number of columns; one task; default kernel and hyperparameters. Only the parts of the state that depend on the columns are kept: points, hyperparameters, the remembered dimension and the covariance. Rows are at least one.
* **Ext** – IEEE-like extended numbers: exact reals with infinities and NaN. Simplifications: no round-off, no overflow of finite operations, one zero.
* **FiniteDiff** – Finite-difference derivatives with respect to hyperparameters: gp_prior.py _dkernel_dh 438-447, _kernel_gradient 411-415, _kernel_derivative 417-419, _finitediff_dm_dh 460-470; gp_likelihood.py _finitediff_dnoise_dh 123-133, _finitediff_dnoise_dh_econ 136-144; gp_marginal_likelihood.py test_log_likelihood_gradient 338-369. Simplifications: exact real arithmetic; an entry of the returned array is indexed by [T] (a point, or a pair of points); hyperparameter arrays are functions of the index together with the dtype of the array, because np.array(hps) keeps it and an assignment to an element of an integer array truncates towards zero.
* **Formats** – Array formats and dtypes on the way of the noise into covariances: gp_kv.py addKV 639-669; gp_posterior.py posterior_mean 139-146 and posterior_mean_grad 184-192 (explicit hyperparameters), add_noise 554-569; gp_likelihood.py calculate_V 89-94, _finitediff_dnoise_dh 123-133, _finitediff_dnoise_dh_econ 136-144; gp_marginal_likelihood.py neg_log_likelihood_gradient 242-253, 256-271, 290-304 (which formats are accepted). Simplifications: exact reals, with the dtype of an array because a write into an integer array truncates (FiniteDiff.store); square matrices; broadcasting of arrays of size one is included, a single data point with longer noise arrays is not. Under gp2Scale the covariance is a scipy sparse matrix, otherwise a dense array.
* **FvGP** – Model of the multi-task layer: /repo/fvgp/fvgp.py, __init__ 501-534, update_gp_data 595-623, _transform_index_set2 626-660; GPdata.set_fvgp_data, /repo/fvgp/gp_data.py 58-66. The base class is Data.v. Simplifications: arrays x of dimension other than two and y or noise of dimension above two are left out; an update that mixes an array with a stored list or the other way round is an error (the code may first add or stack them); noise given as a python list is rejected where it is indexed like an array; of GP.__init__ and GP.update_gp_data only the treatment of the data is included.
* **GGMP** – Model of the containers and the call order of the GGMP. /repo/fvgp/ggmp.py: class hyperparameters 781-859, class NormalLikelihood 862-902, GGMP.__init__ 104-123, __getattr__ 125-128, build_pairwise_data_generating_normals 130-145, initLikelihoods 147-222, initGPs 224-449, train 571-693, posterior_mean 695-724, posterior_variance 726-778. Simplifications: arrays are lists; what the methods do after their guards is reduced to whether it raises (an oracle) and to which of the attributes likelihoods, gps they assign, except for the first use of a missing attribute. Indices are not negative.
* **GGMPDensity** – Model of the numerical helpers of the GGMP. /repo/fvgp/ggmp.py: station moments in initLikelihoods 180-204, posterior_mean 719-724, posterior_variance 761-778, _normalize_pdf 933-950, optimize_weights_em_multivariate_samples 1584-1647, optimize_weights_em_density 2345-2399, bhattacharyya_distance 2402-2414, kl_divergence 2417-2427, wasserstein_1d 2430-2441. Numbers are real; None stands for nan or an infinity in a density. Arrays over the components are functions of the component, of which there are K; a station of the EM is the list of its grid points (or samples) with their weight and their component log densities. The conversions by asarray, float and int and the logging are left out.
* **GGMPFit** – Model of the mixture fits of one station. /repo/fvgp/ggmp.py: gaussian_pdf 924-930, fit_gmm_fixed_weights 967-1033, _as_2d 1036-1045, _covariances_to_full 1048-1080, fit_gmm_free_weights_multivariate 1083-1156, fit_local_gmms_multivariate 1159-1207. Real numbers stand for floats. [argsort] stands for np.argsort; [start] for the initial means found by k-means or, without scikit-learn, by quantiles (993-1004); [mixture] for GaussianMixture(...).fit, None if it raises. A component is a pair of mean and variance. Of the diagnostics (info) only the number of restarts is kept.
* **GGMPPhases** – What GGMP.train does to the component GPs, the mixture weights and the stored hyperparameters. /repo/fvgp/ggmp.py: _safe_set_hyperparameters 545-569, train 571-693 with the re-installation of the hyperparameters in prepare_station_terms_density 2314-2316 and 663-664. The component GPs are those of Model/Training.v. Simplifications: the reshaping of y_data 561-565 and the presence of GPs 621-622 (Model/GGMP.v) are left out; the weight optimizers are oracles that return as many weights as there are components or raise; the optimizer of a GP, the random draws and whether an asynchronous run can be submitted are oracles; the lengths of what is stored fit the container, whose checks are in Model/GGMP.v.
* **GGMPTerms** – The data terms the mixture weights of a GGMP are fitted to. /repo/fvgp/ggmp.py: prepare_station_terms_density 2301-2342, the terms of weight_method="samples" in train 658-688 with the data pass of optimize_weights_em_multivariate_samples 1609-1624, and both calls of the EM algorithm 643-688 (Model/GGMPDensity.v). [mu i k] and [v i k] are the posterior mean and variance of component GP k at station i, after its hyperparameters were set (Model/GGMPPhases.v); [lv k] the variances of component k at the stations. Numbers are real. Samples are scalars, as train builds covariances of one row; of two lists of different lengths zip drops the rest of the longer.
* **GGMPTrain** – Model of how the GGMP builds and trains its component GPs. /repo/fvgp/ggmp.py: _normalize_gp_kwargs 240-266, choice of the devices in initGPs 275-346, _safe_gp_init 356-379, _make_component_gp 384-436, _gpu_device 468-500, train_gp_mcmc_until_converged 2089-2148, train_component_gps_mcmc 2159-2298. The GP constructor, the training of a GP, the CUDA libraries and the body of a with statement are oracles; numbers are real, sizes integers. Logging, printing, the BLAS thread limits, the warning filters and the files with traces are left out.
* **GPState** – Model of the derived state of a GP (prior mean m, prior covariance K, noise V, factorization of K+V) under data updates and hyperparameter changes: /repo/fvgp/gp_prior.py 158-299, gp_likelihood.py 85-110, gp_kv.py 393-508 and 636-669, gp.py 672-749. Simplifications: dense, non-gp2Scale path (the gp2Scale assembly is in Gp2Scale.v); one output column; argument checking is in Data.v, so updates here carry well-typed data. Numbers are an arbitrary type [F] with an addition; np.mean and the default noise level are parameters. The kernel, mean and noise callables are black boxes on whole point sets, as in the code. A Cholesky factor or inverse is represented by the matrix it factors/inverts ("factored"): the algebraic fact that the rank-n update of a factor of A is a factor of A bordered by the new rows is C06/C07 (CholUpdate.v).
* **GaussW2** – Model of the distance between Gaussian components. /repo/fvgp/ggmp.py: _sym_psd 1210-1213, _sqrtm_psd 1216-1221, gaussian_w2_squared 1224-1244. Numbers are elements of a real closed field (exact arithmetic). [eigh] stands for np.linalg.eigh: eigenvalues and a matrix whose columns are eigenvectors. Vectors of means are columns; shapes agree (numpy would raise or broadcast otherwise).
* **GmmCache** – Model of the cache of station fits. /repo/fvgp/ggmp.py: _gmm_cache_path 1781-1803, _load_gmm_cache 1807-1824, _save_gmm_cache 1828-1844, fit_station_gmms_fixed_weights_cached 1849-1985. [Meta] is the dictionary the cache is keyed by (data file with size and time, K, iteration limit, tolerance), [path_of] the file name derived from its hash, [Series] the data of a station, [F] a row of fitted means and variances. [fit] stands for fit_gmm_fixed_weights with quantile initialization, None if it raises; [argsort] for np.argsort. A file is broken if np.load or the shape checks of _load_gmm_cache fail on it. The data file is assumed to exist and the numbers of series and of ids to agree; logging and creation of the directory are left out.
* **Gp2Scale** – Model of the distributed covariance assembly: /repo/fvgp/gp2Scale_covariance.py 48-446 and its callers in /repo/fvgp/gp_prior.py 96-97, 158-214, 267-290, 301-370. Values are an arbitrary type [F] with a zero and an addition (COO matrices add up duplicates). A sparse matrix is its shape and a list of triplets; conversions between COO, CSR and CSC keep its entries and are not modelled. The kernel is a black box on whole point sets that may raise and may return a dense or a sparse block; its arity and its args dictionary (evaluate_kernel, 120-133) are folded into it. The cluster is an oracle [cluster] that receives the list of task results and returns them in its own order of completion, possibly replacing some by failures (cancellation, lost worker). Point counts are [nat], array indices are [Z] with the wrap-around of the integer type chosen by index_dtype_for. Memory consumption and logging are not modelled, except that the sparsity log line divides by n1*n2 (430) and raises when that is zero.
* **GpuEngine** – Which GPU a linear-algebra call runs on. /repo/fvgp/gp_lin_alg.py: _normalize_args 65-66, _torch_gpu_device 69-100, _cupy_gpu_available and _cupy_device_count_positive 104-117, gpu_engine_unavailable_reason 124-145, get_gpu_engine 148-181; /repo/fvgp/gp_marginal_likelihood.py 274 and 300 (the calls of solve without args). Simplifications: the machine is a record of what the probed packages answer, and it does not change during a call. args["GPU_engine"] and args["GPU_device"] are strings (str() of them), GPU_device_index an integer. torch.device(s) is the parameter [parse]; torch.device("cuda:i") raises for i < 0. Importing torch succeeds if it is found.
* **GpuKernel** – The Wendland kernels on a GPU, in single precision: kernels.py _get_distance_matrix_gpu 531-536, wendland_anisotropic_gp2Scale_gpu 539-591 and _wendland_support_aware_gpu_triplets 741-824 with _whiten_gp2scale_points 642-646. Simplifications: one entry of the matrix, inputs with one column; torch and cupy compute the same; every operation is the exact one followed by rounding to nearest (single precision on the device, double precision on the host), without overflow; powers are rounded once; the signal variance of the sparse variant is not rounded by itself; a GPU is available. The neighbour search of cKDTree returns the pairs at (double precision) distance at most one; a pair that is not in the triplets is a zero of the matrix.
* **GpuOps** – The CPU and GPU branches of the dense linear algebra, /repo/fvgp/gp_lin_alg.py: calculate_Chol_factor 237-269, calculate_Chol_solve 289-328, calculate_Chol_logdet 331-360, cholesky_update_rank_1 1311-1348 with its numpy, torch and cupy versions 1351-1461, cholesky_update_rank_n 1466-1475, calculate_logdet 1484-1519, calculate_inv 1534-1555, calculate_inv_from_chol 1558-1564, solve 1581-1625, matmul 1629-1656, matmul3 1662-1698. Simplifications: exact arithmetic in a real closed field; [engine] is what get_gpu_engine returned (Model/GpuEngine.v); conversions between arrays and tensors keep the numbers (no float32, no NaN entries); warnings are left out. The factorizations and solvers of the three libraries are parameters that may raise. Triangular solves read one triangle and are modelled by its inverse, as in Model/CholUpdate.v.
* **Grid** – Prediction grids and the gp2Scale time estimate. /repo/fvgp/gp.py: make_2d_x_pred 2153-2176, make_1d_x_pred 2178-2197, get_gp2Scale_exec_time 2199-2219 (the tasks it speaks of are in Gp2Scale.v). Exact arithmetic.
* **Guidance** – What is tried and what is advised when a preconditioner cannot be built: the dispatch of calculate_sparse_preconditioner (/repo/fvgp/gp_lin_alg.py 898-923), sparse_preconditioner_failure_guidance (440-471) and the warning of _build_sparse_preconditioner_or_none (/repo/fvgp/gp_kv.py 339-353). Simplifications: of the warning only the specific sentence is kept (the general ones are the same for everybody); the builders are an oracle that may raise; args holds the values of LinalgCfg.v.
* **Histogram** – Model of the density of samples: /repo/fvgp/ggmp.py empirical_pdf_from_samples 954-964, on top of _normalize_pdf (Model/GGMPDensity.v). Numbers are real. np.histogram(y, bins=b, density=True) is its documentation: b bins of equal width between the smallest and the largest sample (half a unit below and above if those are equal; between 0 and 1 without samples, where density divides 0 by 0), every bin contains its left edge, the last one also its right edge. Samples that are nan or infinite (ValueError) are left out.
* **Kernels** – kernels.py 16-958 and the default kernel of gp_prior.py 376-442. Simplifications: exact real arithmetic, so the GPU variants (kernels.py 531-588, 741-840: the same formulas in single precision) are in Model/GpuKernel.v; a point set is the function giving coordinate i of a point, next to the number D of columns, and the hyperparameters are the function giving entry i, next to their number; everything is written for one entry of the matrices numpy builds by broadcasting; the neighbour search of scipy's cKDTree is an oracle. Sums over columns ([rsum], Spec/Sums.v) run upwards like the loops.
* **Krylov** – Model of the driver code around the iterative solvers, /repo/fvgp/gp_lin_alg.py 966-1002 (_normalize_rhs, _normalize_initial_guess, _column_initial_guess), 1184-1210 (MINRES driver) and 1213-1291 (CG driver). scipy's cg/minres and the block solver are parameters; block CG itself is modelled in BlockCG.v. Arrays are [mat]s (columns, list of rows) where shapes matter and lists of columns in the solve loops.
* **KrylovCache** – Model of the two caches of the preconditioned and warm-started Krylov modes. /repo/fvgp/gp_kv.py: refresh interval 195-207, signature 209-213, fingerprints and drift 215-257, maximal drift 285, _validated_warm_start 287-308, preconditioner cache 310-388, use of both in compute_new_KVinvY 510-557 and compute_new_KVlogdet_KVinvY 574-583, set_KV and update_KV 425-508; /repo/fvgp/gp_marginal_likelihood.py 92-134; /repo/fvgp/gp_posterior.py 40-41; __getstate__ gp_kv.py 735-736. Simplifications: the values in args are of a type with decidable equality; trace and Frobenius norm are rational or not finite (None: nan or an infinity; with such a value the quotient in the drift is nan); the column count of solutions is left out; a fingerprint is always computed (the code gives None if that raised); building a preconditioner and solving are oracles. Solutions carry the matrix they were computed for, which the code does not store.
* **Laplace** – gp_bo.py _laplace_posterior 397-435: a Gaussian approximation from the curvature of the surrogate's mean. Numbers are elements of a real closed field (exact arithmetic, so the test for finite entries 429 always passes and the inverse of a matrix with positive eigenvalues does not raise 432-434). [mean] stands for the posterior mean of the surrogate, [eigvalsh] for np.linalg.eigvalsh; points are columns.
* **LargeGP** – A GP object under gp2Scale as a whole. gp.py __init__ 483-560, set_hyperparameters 684-687, update_gp_data 689-749; gp_prior.py augment_state_data 158-166, update_state_data 168-179, update_state_hyperparameters 181-183, compute_data_cross_covariance 200-215, compute_covariances 217-225; gp_kv.py addKV 640-669 (sparse branch 644-657), _refresh 404-423; gp_posterior.py _dense 100-103, _dense_K 105-118, _cross_solve_product 120-136, posterior_mean 139-182, posterior_covariance 229-288. The covariance of the data is the sparse matrix the cluster assembles (Gp2Scale.v); K+V and the solver state are those of LifeCycle.v, computed from its entries. Each call that computes covariances meets a cluster of its own, given with the call. Simplifications: those of Gp2Scale.v and LifeCycle.v (except that gp2Scale is on); the mode is fixed (the automatic choice is LinalgMode.v); sparse matrices enter the solver through their entries; an operation that raises ends the history (C58 is about what happens afterwards); V is one-dimensional or sparse, so the assertion of line 649 holds.
* **LargeTrain** – A GP under gp2Scale over its whole life: updates and guarded trainings in any order, on clusters that may lose tasks. /repo/fvgp/gp.py train 1088-1116 with the guard _reject_if_not_improved 1144-1168, on the state of LargeGP.v. What the optimizer returns is arbitrary (None: it raised, for instance because a likelihood evaluation lost a task); its evaluations of the likelihood compute covariances of their own (gp_marginal_likelihood.py 70-72, gp_prior.py 185-198) and leave the state alone. Each set_hyperparameters meets a cluster of its own. Simplifications: those of LargeGP.v; exact modes, whose likelihood has no variance, so that the tolerance of the guard is 0; an exception ends the session.
* **LifeCycle** – gp.py __init__ 483-560, set_hyperparameters 684-687, update_gp_data 689-749 with what they drive: gp_prior.py, gp_likelihood.py, gp_kv.py _refresh 404-423 (GPState.v, Solvers.v); then gp_posterior.py posterior_mean 139-182, posterior_covariance 229-288, _cross_solve_product 120-136 and gp_marginal_likelihood.py log_likelihood 137-179 at the stored state (Posterior.v). The object as a whole: data, hyperparameters, prior, noise and the solver state of the mode in force, which predictions and log_likelihood() read. Simplifications: those of GPState.v, Solvers.v and Posterior.v; exact real arithmetic; one column of y; kernel, mean and noise callables act point by point; no gp2Scale; the product space of tasks is handled in TaskArray.v.
* **Likelihood** – gp_marginal_likelihood.py: log_likelihood 137-179, neg_log_likelihood 212-222, neg_log_likelihood_gradient 224-309, neg_log_likelihood_hessian 312-336; gp_likelihood.py: calculate_V_grad 96-99 (the two shapes of a noise gradient). Simplifications: exact real arithmetic; the solver returns the solution of the linear system and the log-determinant is the logarithm of the determinant (LinalgCfg.v, CholUpdate.v say when); kernel, noise, mean and their gradients are functions of the hyperparameters with values at the data points; the gp2Scale refusal 243 and the re-raised exceptions of failing gradient callables are left out.
* **LinOp** – Products of an operator with a block of columns in the block conjugate gradient method. /repo/fvgp/gp_lin_alg.py _apply_linear_operator 1006-1015, _apply_preconditioner 1018-1021. An operator has a method for blocks (matmat) or not, which may raise, and a product with one vector (@), which may raise. Simplifications: conversion to float64 is the identity; a product with one vector has the length of the vector; all exceptions are alike (the code catches Exception, so that KeyboardInterrupt is outside the model).
* **LinalgCfg** – Model of the linear-algebra configuration: the args dictionary, mode and preconditioner names, the automatic choice of solver, the temporary settings of a training run, the preconditioner cache and the warm start. /repo/fvgp/gp_lin_alg.py 65-66, 397-427, 474-505; /repo/fvgp/gp_kv.py 19-85, 105-113, 182-388, 517-518, 582-583; /repo/fvgp/gp_marginal_likelihood.py 91-133. Numbers are exact rationals: no rounding, no NaN, no infinity (np.inf, the distance of incomparable fingerprints, is [None]). Strings are ASCII. int() and float() of a string raise (python would parse a numeral).
* **LogdetVar** – The stochastic log-determinant and the variance reported with it. /repo/fvgp/gp_lin_alg.py: calculate_random_logdet 1103-1181; /repo/fvgp/gp_kv.py: _random_logdet 559-572; /repo/fvgp/gp_marginal_likelihood.py: the likelihood 178, log_likelihood_variance 182-204. imate's logdet(method="slq") is described by what its documentation says: probes are drawn one after the other, at least min_num_samples and at most max_num_samples; the first number of probes in this range at which [stop] holds of the samples is used, and the mean of the used samples is returned. [draws] are the samples all probes would give; they are finite, so the filter of 1166 keeps all.
* **MCMC** – gp_mcmc.py: the Metropolis sampler. Simplifications: the log likelihood and the prior are functions of the position (args fixed); randomness is an arbitrary oracle: [rnd i k] is what the k-th proposal of iteration i draws, its second component the uniform number; time stamps are left out; [run_in_every_iteration] has no effect on the sampler; numpy broadcasting of a one-element proposal to several indices is left out (it counts as a shape error).
* **Metrics** – gp.py: _crps_s 1755-1759, crps 1761-1782, rmse 1784-1805, nrmse 1807-1825, nlpd 1827-1852, r2 1854-1874, picp 1876-1908, coverage_curve 1910-1935, mpiw 1937-1958, interval_score 1960-1992, mae 1994-2014, mape 2017-2038, msll 2040-2071; gp_posterior.py: the shapes of m(x) and v(x) 163-182, 276-281. An array is its shape and its elements in row-major order. The predictions come as the list of posterior means and variances (Posterior.v); None is an AssertionError. Simplifications: exact real arithmetic, so that a variance of zero gives some real number instead of a division warning; the statistics of an empty array likewise; multi-task prediction (x_out) is left out.
* **MixtureGP** – A GGMP as a whole. /repo/fvgp/ggmp.py: initGPs 383-395 and 430-446 (one GP for each component, built from the means and variances of its likelihood object, the last hyperparameter replaced by the mean of the values), what train does to the components and weights (637-640, 663-664, 689-690), posterior_mean 719-724, posterior_variance 761-778, over the GP of LifeCycle.v. Simplifications: those of LifeCycle.v; no component is fitted with gp2Scale; all components use the same solver mode, as gp_init_kwargs is common to them; a call that raises ends the history; which hyperparameters and weights training finds is left open: training is any sequence of assignments of them.
* **MixtureInit** – The mixture a GGMP starts from. /repo/fvgp/ggmp.py: initLikelihoods 147-222, which also fixes the data of the component GPs, as only the weights are trained (680-689); NormalLikelihood 880-885. Numbers are real; arrays over the stations are lists. The moments of a station are those of Model/GGMPDensity.v. Simplifications: init_mean and init_std are lists of arrays or None (170-171), with one entry for each station; np.linspace(-1.0, 1.0, K) is exact.
* **MixtureMV** – ggmp.py: log likelihood of and sampling from a multivariate Gaussian mixture. _sym_psd 1210-1213, _log_mvn_density 1556-1581, loglik_multivariate_mixture_samples 1650-1671, sample_gmm_multivariate 1674-1700. Simplifications: real arithmetic; vectors and matrices are functions of their indices; a mixture is a list of (weight, (mean, covariance)), so the three arrays have equal lengths; [logpdf] stands for scipy's multivariate_normal.logpdf (None: the covariance is not positive definite, LinAlgError), [choose] for Generator.choice and [normals k] for the call of Generator.multivariate_normal made for component k.
* **MultiGP** – A multi-task GP as a whole. fvgp.py __init__ 501-534 and update_gp_data 595-623 (FvGP.v) over gp.py __init__ 483-560, set_hyperparameters 684-687, update_gp_data 739-749 (LifeCycle.v), which read the data object: gp_prior.py 158-179 and 256-299 the attributes x_new, x_data and y_data; gp_posterior.py posterior_mean 151-170 and posterior_covariance 229-288 with cartesian_product 586-606 and the reshapes (TaskArray.v). Entries of arrays are real numbers or NaN. A point of the single-task GP is a row with the task appended, or an object with its task. Simplifications: those of FvGP.v and LifeCycle.v; a call that raises ends the history (C48 is about what happens afterwards); predictions are made for integer tasks, x_out=None meaning all of them.
* **MultiTrain** – A multi-task GP over its whole life: updates and calls of train() in any order. /repo/fvgp/fvgp.py class fvGP 5-671 does not redefine train; /repo/fvgp/gp.py train 1075-1116 acts on the single-task state (TrainSession.v), the multi-task arrays of fvgp.py stay as they are; updates as in MultiGP.v. Simplifications: those of MultiGP.v and TrainSession.v.
* **ObsPlot** – gp.py plot_observed_vs_predicted 2105-2127 and gaussian_1d 2148-2150; gp_posterior.py, the shapes of m(x) and v(x) 163-182 and 264-281. Simplifications: matplotlib is installed (2096-2103 otherwise warn and return); what is drawn is the list of points with their error bars and the ends of the line y = x, without labels and colours; entries are real numbers, no NaN. matplotlib's errorbar refuses lists of different sizes, and error bars that do not broadcast to the size of the points.
* **Observations** – Predictions and likelihood as functions of the observations, defaults included: gp_prior.py _default_mean_function 449-458; gp_likelihood.py 24-52, calculate_V 89-94, _default_noise_function 102-104, _measured_noise_function 106-110; then gp_posterior.py posterior_mean 139-182 and posterior_covariance 229-288, 554-569 (Model/Posterior.v) and gp_marginal_likelihood.py log_likelihood 137-179 (Model/Likelihood.v) for a GP built from these observations. Simplifications: those of Posterior.v and Likelihood.v (exact real arithmetic, exact solves, stored hyperparameters); kernel, mean and noise callables act point by point; a noise function returns variances (a 1-d array).
* **Pickle** – Model of pickling a GP: __getstate__ and __setstate__ of GP (/repo/fvgp/gp.py 2253-2266), fvGP (fvgp.py 663-671), GPdata (gp_data.py 124-153), GPtraining (gp_training.py 675-691), GPprior (gp_prior.py 477-500), GPlikelihood (gp_likelihood.py 146-158), GPkv (gp_kv.py 718-765), GPMarginalLikelihood (gp_marginal_likelihood.py 370-384), GPposterior (gp_posterior.py 608-620). Objects live on a heap and have a class and a dictionary of attributes. The pickle library itself is not modelled but described: it follows the references in the states that __getstate__ returns, raises if one of them holds something that cannot be pickled, and otherwise builds a copy of the object graph, one new object per old one, on which __setstate__ is called.
* **PointGrad** – Derivatives of predictions with respect to the prediction points: gp_prior.py _d_kernel_dx 402-409; gp_posterior.py posterior_mean_grad 184-226, posterior_covariance_grad 291-328 (the entries of "dv/dx"), joint_gp_prior_grad 354-383. Simplifications: exact real arithmetic; one prediction point, a function of the column, next to the dtype of the array it is in; the data points [xs], the entries [w] of the selected column of KVinvY and the matrix [inv] with which KVsolve multiplies are given; None stands for the UFuncTypeError of an in-place addition of a float to a view of an integer array (an assignment x1[:, d] = ... truncates instead, [set_item]).
* **Posterior** – gp_posterior.py: _cross_solve_product 120-136, posterior_mean 139-182, posterior_mean_grad 184-226, posterior_covariance 229-288, posterior_covariance_grad 290-331, joint_gp_prior 334-355, joint_gp_prior_grad 356-383, entropy 387-390, gp_entropy 393-415, gp_entropy_grad 418-423, kl_div 427-441, gp_kl_div 444-457, mutual_information 460-461, gp_mutual_information 464-477, gp_total_correlation 480-496, gp_relative_information_entropy(_set) 499-526, posterior_probability 529-552, add_noise 554-569; gp_likelihood.py: _measured_noise_function 106-110; gp_prior.py: compute_covariances 217-225, _d_kernel_dx 402-409. Simplifications: exact real arithmetic; predictions with the stored hyperparameters (hyperparameters=None), which are therefore left out of the signatures; sparse and dense matrices are the same; [numpy.linalg] inverses, solutions and log|det| are the mathematical ones; the warnings are left out; the finite differences of kernel and mean in the input are functions [dk], [dkk], [dm] given to the model. The product space of points and tasks is handled in TaskArray.v; here a prediction point is a point of that space.
* **Precond** – Model of the block and shift machinery of the sparse preconditioners, /repo/fvgp/gp_lin_alg.py 514-588 and 802-827. Node numbers are nat; the CSR row [A.indices[indptr[u]:indptr[u+1]]] of the symmetrised matrix is the list [nbrs u]. Shifts and growth factors are exact rationals (no overflow).
* **PrecondMx** – Model of the native preconditioners of /repo/fvgp/gp_lin_alg.py as operators: the incomplete Cholesky factorization (_build_ic0_factor 655-756), the blockwise operator (_build_blockwise_operator 591-601). Exact arithmetic in a real closed field. Block selection and the shift loop are in Precond.v.
* **Prelude** – Common vocabulary of the model: results with exceptions as values.
* **Registry** – Model of the guard against two GPs on one Dask client: /repo/fvgp/gp.py, _GP_INSTANCES_PER_CLIENT 21, guard 456-478, registration 570-573; initialize_gp2Scale_dask_client 2237-2251. A construction is split into its part up to and including the guard and the rest, so that several may be under way at once. Objects are numbered in the order of their creation and are alive from their creation (python's __new__) until they are collected; a weak dictionary loses the entries of an object when it is collected. Simplifications: __init__ is called once per object; what else happens in the constructor is reduced to whether it raises.
* **Rounding** – Double precision where it decides the outcome: the steps of the finite differences gp_prior.py _d_kernel_dx 402-409, _dkernel_dh 438-447, _finitediff_dm_dh 460-470, gp_likelihood.py _finitediff_dnoise_dh 123-133, gp_posterior.py 203-208, 303-307, 367-373, gp_marginal_likelihood.py 330-335, 358-363; the linear dimensions of the unit-cube transform gp_bo.py 83-98; the 1e-9 on the diagonal gp_posterior.py 336, 353, 465-472; the retries with a shifted diagonal gp_lin_alg.py 514-531 and 800-827. Simplifications: every operation is the exact one followed by rounding to the nearest double, ties to even; overflow, infinities and NaN are not modelled. User functions are arbitrary functions of the doubles they receive. exp and log are not modelled (logarithmic dimensions are left out).
* **SampleDist** – Model of the distances between samples. /repo/fvgp/ggmp.py: _as_2d 1036-1045, energy_distance_multivariate 1703-1716, sliced_wasserstein_distance 1719-1740, mmd_rbf 1743-1777. A sample is a number of columns with a list of rows; a one-dimensional array counts as one column. Values are real numbers instead of floats. Columns are matched the way numpy broadcasts the difference of the rows: equal numbers, or one column repeated. The directions of the sliced distance are the draws of the generator; [w1] stands for scipy.stats.wasserstein_distance.
* **Seeded** – Random numbers of a seeded Bayesian optimization: gp_bo.py 575-772 with its generator np.random.default_rng(seed) 579 and the Sobol design of the same seed 634, and NumPy's global generator, which GP.train 1024-1036 asks for a start when the start it has lies outside the box -- for the run itself (train(method='bo')) and for every training of the surrogate (gp_bo.py 387-391). Simplifications: those of Model/BO.v; the state of the global generator is a value of an arbitrary type, of which the next numbers can be read and which a call moves on; the acquisition gets the state of the seeded generator and returns the next one; the local optimizer is a function of settings, data and start (L-BFGS-B is deterministic); the objective does not use the global generator.
* **SetArgs** – set_args and what reads args afterwards. /repo/fvgp/gp.py: args 617-623, set_args 650-669, set_hyperparameters 672-687, update_gp_data 689-749; gp_prior.py: compute_covariances 217-224, compute_mean 226-234; gp_likelihood.py 89-94; gp_posterior.py: posterior_mean 139-182, posterior_covariance 231-262; gp_kv.py: __init__ 113-118, _build 342. The state of the GP is that of GPState.v; the callables of the user take args as a further argument. args is one reference shared by all components (data.args), read when a callable is called. One output column, no x_out.
* **Sharing** – Which arrays a GP shares with its caller. gp_data.py 25, 37-39 (construction), 93-115 (update); gp_training.py 18; gp.py 576-645 (properties), 672-687 (set_hyperparameters), 739-749, 1093-1117 (train), 1297-1308 (get_prior_pdf); gp_prior.py 158-183, 248-299; gp_likelihood.py 85-108; gp_kv.py 404-417; gp_posterior.py 142-165 (posterior_mean). An array is an address in a heap; a variable of the calling program is bound to an address. GPdata keeps the arrays it is given (a 1-d y is kept as a reshaped view of the same memory), GPtraining keeps the hyperparameter array, the measured variances are returned as V as they are, and the properties hand out what is stored. np.vstack, np.append, np.block, arithmetic and the kernel, mean and noise functions make new arrays. Simplifications: Euclidean inputs and measured noise variances; no task axis; user callables return new arrays and do not write to their arguments; an array is written as a whole; a write keeps the shape (not checked). Exceptions are not modelled. The factorization of K+V, the solved right-hand side and the log-determinant are one value [W] which is not reachable from outside.
* **SolverOpts** – How the linear-algebra functions read their options from args. /repo/fvgp/gp_lin_alg.py: per-operation devices of calculate_Chol_factor 240, update_Chol_factor 272-286, calculate_Chol_solve 295, calculate_Chol_logdet 334; _resolve_krylov_mode 937-952, _resolve_krylov_maxiter 955-963, calculate_random_logdet 1128-1156, calculate_sparse_minres 1191-1197, calculate_sparse_conj_grad 1222-1245. Values as in Model/LinalgCfg.v; an option handed on unread is kept as the value it is.
* **Solvers** – gp_kv.py: the stored solver state of GPkv and the evaluations that bypass it. __init__ 144-147, _set_gp2Scale_mode 182-188, _refresh 404-423, set_KV 425-460, update_KV 462-508, compute_new_KVinvY 510-557, _random_logdet 559-572, compute_new_KVlogdet_KVinvY 574-632, solve 671-700, logdet 702-716; gp_lin_alg.py sparse LU 203-229, calculate_Chol_factor 237-269, update_Chol_factor 272-286, calculate_sparse_solve 1294-1303, calculate_logdet 1484-1519, calculate_inv 1534-1555, update_inv 1567-1578; gp_marginal_likelihood.py log_likelihood_variance 182-204. Simplifications: exact arithmetic in a real closed field; CPU; an n x n array is given by its entries and its size; sparse and dense storage of a matrix are not distinguished; an attribute that the mode in force never reads is left out, so the attributes form a sum type. scipy's and numpy's factorizations, the iterative solvers (with whatever preconditioner and starting guess they are given, Model/Krylov.v), the stochastic log-determinant and the user's callables are oracles; the number of earlier calls stands for the state of the random generator. [lg] is np.log of the absolute value.
* **Spai** – gp_lin_alg.py: spai 363-383, the sparse approximate inverse. Simplifications: exact arithmetic in a real field; a sparse matrix is its entries; [est] is what onenormest(A A^T) returned, a positive number. The quotient 0/0 of line 380 is NaN; scaling a matrix by it leaves an empty matrix empty and makes the result useless ([None]) otherwise: scipy's difference of two matrices stores no zeros.
* **Surrogate** – gp_bo.py 115-523: the surrogate of the search, its analytic derivatives, its least-squares mean, the settings it is trained with, the acquisition and its maximizer. (The Laplace approximation 397-435 is in Model/Laplace.v.) Simplifications: exact real arithmetic; a point is the function giving coordinate i, next to the number [D] of coordinates, and hyperparameters are the function giving entry i; everything is written for one entry of the arrays numpy builds by broadcasting; the data are n points and n values; the least-squares solver, the sorting permutation, scipy's minimizer and the normal distribution function are oracles; the training of the surrogate itself is GP.train (Model/Training.v), the result of which enters as [s_hps] and the stored inverse [s_inv].
* **TaskArray** – gp_posterior.py: the arrangement of multi-task predictions: cartesian_product 586-606 and the reshapes of posterior_mean 161, posterior_mean_grad 211 and 222, posterior_covariance 264-274, posterior_covariance_grad 309-311 and 328. An array is a function of the list of its indices, given together with its shape; only indices below the shape are meaningful. Simplifications: the values are of any type; the squeezing of arrays with one column is left out.
* **ThreadPool** – Training the components in threads that share NumPy's generator: ggmp.py train_component_gps_mcmc 2197-2289 (ThreadPoolExecutor, as_completed), with the draws of gp_mcmc.py 214, 339 and gp.py 1026, 1034 (np.random). Simplifications: a training is a program that ends with hyperparameters or an exception and in between draws numbers from the generator; one draw is one step (NumPy locks the generator), everything else a thread does is its own (its GP); the generator is a stream and the number of draws made. The pool starts tasks in the order of submission as soon as a worker is free, the scheduler picks any running thread. Gathering the results is train_components of Model/GGMPTrain.v.
* **TraceFiles** – ggmp.py: the trace files of MCMC training. _atomic_savez 2025-2029, _save_gp_mcmc_info 2032-2086, and the calls of it in train_component_gps_mcmc 2217-2266. Simplifications: the file gp{k:02d}_mcmc_trace{suffix}.npz of the run directory is named by the pair (k, suffix), so tags contain no path separator; of the payload x, f(x), the summary statistics (one value) and thin, k, tag of the meta data are kept (time stamps are treated like f(x)); writing an array file may fail and then leaves a broken file behind.
* **TrainBO** – GP.train(method="bo") as a whole, over the GP of LifeCycle.v: /repo/fvgp/gp.py train 1018-1036 (starting point), 1038-1067 (the negative log likelihood as objective, the estimator's noise reading), 1090-1111 (the run, then set_hyperparameters); gp_training.py 53-54 and the dispatch to bayesian_optimize of gp_bo.py (BO.v). Simplifications: those of LifeCycle.v, BO.v and Training.v; synchronous training with the default objective; the objective at some hyperparameters is evaluated as set_hyperparameters with them would leave it (that the likelihood recomputed for given hyperparameters and the stored one agree is C129); a likelihood that cannot be computed raises; the exact modes report no noise. The surrogate is an oracle.
* **TrainPlan** – gp.py train 990-1141: what a call of train() asks which optimizer to do; gp_training.py train 53-196 and train_async 226-271: what each optimizer is handed; stop_training 474-488, kill_client 492-506 with gp_actor.py AsyncOptimizer 246-256; gp.py _get_default_hyperparameter_bounds 752-774; gp_prior.py 44-52, 68-76, 236-240 and gp_likelihood.py 40-51, 96-99 with gp_marginal_likelihood.py 244-305: which derivative callables are called how. Simplifications: functions are opaque values of types [F], [Gr], [He]; warnings, logging and the settings passed through unchanged are left out; the starting point and the effect of the result are in Model/Training.v; HGDL's own methods are arguments; that gp2Scale sets a kernel is taken to hold for both compute devices.
* **TrainSession** – A GP over its whole life: data updates and calls of train() in any order. /repo/fvgp/gp.py train 1075-1116 with the guard _reject_if_not_improved 1144-1168 (methods local, hgdl, adam and callables) and method="bo" (TrainBO.v); updates as in LifeCycle.v. Simplifications: those of LifeCycle.v and TrainBO.v; exact modes, whose likelihood has no variance, so that the tolerance of the guard is 0; what an optimizer returns is arbitrary; an exception ends the session.
* **Training** – gp.py and gp_training.py: choice of the starting point, guarded training, polling. Simplifications: numpy broadcasting of one-element arrays against bounds is left out (counts as a shape error); the optimizers are oracles; warnings and logging are left out.

## Not modelled

* The GPU device itself: the float32 kernels of `kernels.py` are modelled with correctly rounded single-precision
  operations (Model/GpuKernel.v); the GPU branches of the dense linear algebra are modelled
  (Model/GpuOps.v) with exact arithmetic. `utils.py` (logging).
* `gp_lin_alg.py`: the solvers of scipy and imate themselves, AMG and ILU builders. imate's
  stochastic log-determinant is described by its documented stopping rule only (Model/LogdetVar.v).
* Third-party optimizers (scipy, hgdl) and dask beyond oracles; plotting, printing, logging, wall-clock time.
* `ggmp.py`: scikit-learn itself (GaussianMixture, KMeans) and scipy.stats.wasserstein_distance beyond oracles.

## Trusted base

* The Coq kernel (8.16.1); all files are compiled by `coqc` without plugins other than those of the standard
  distribution, mathcomp, Coquelicot and Flocq.
* The reading of the Python code recorded in `Model/` (definitions cite the lines), and the contracts of external
  functions recorded in `Spec/` and in the hypotheses of the theorems.
* The axioms below.

### Axioms per theorem

As printed by `Print Assumptions` (also beneath each theorem in the build log). All are axioms of the standard library: `sig_forall_dec`, `sig_not_dec` and `functional_extensionality_dep` are what the reals of the standard library are built on, `classic` is `Coq.Logic.Classical_Prop`, `epsilon_statement` is `Coq.Logic.Epsilon` (it makes R a choice type for the matrix library). The gate also lists constants of sealed modules of the standard library and mathcomp (`RbaseSymbolsImpl`, `BigOp`, …); these are opaque definitions, not axioms.

* **none (closed under the global context)**: stored_data_history, noise_alignment_refuted, noise_alignment_partial, rejected_update_unchanged_refuted, rejected_update_unchanged_partial, incremental_prior, incremental_factor_refuted, incremental_factor_partial, chol_update, block_inverse_update, logdet_update, chol_logdet_is_logdet, chol_solve_solves, ranges_partition, distributed_is_kernel_matrix, augmented_covariance, w2_couplings, w2_metric, w2_invariant, sqrtm_root, eigh_possible, w2_degenerate_partial, distributed_resources, laplace_general, laplace_quadratic, derivatives_belong_partial, train_dispatch, gradient_calls_partial, gradient_calls_refuted, solver_state, solver_accepts, solver_mode, cached_equals_fresh, settings_restored, variance_describes_last_partial, variance_describes_last_refuted, nonpd_rejected_partial, nonpd_rejected_refuted, kill_client_partial, kill_client_refuted, block_cg_energy_partial, block_cg_progress_partial, block_cg_energy_refuted, mode_resolution, preconditioner_names, block_cg_converges_partial, block_cg_converges_refuted, gpu_request_partial, gpu_engine_requested, gpu_request_refuted, gpu_device_obeyed_partial, gpu_device_obeyed_refuted, gpu_equals_cpu_partial, chol_logdet_value, gpu_equals_cpu_refuted, nonpd_error_partial, nonpd_error_cpu_partial, nonpd_error_refuted, gpu_fallback_partial, devices_respected, gpu_fallback_refuted, sparse_product_partial, dense_product, sparse_product_refuted, options_documented_partial, options_documented_refuted, set_args_consistent_partial, set_args_consistent_refuted, automatic_solver, named_preconditioner_partial, named_preconditioner_refuted, trace_file_safe_refuted, trace_file_safe_partial, preconditioner_reuse, training_files_refuted, training_files_partial, spai_converges, spai_positive_refuted, spai_positive_partial, sharing_args_refuted, sharing_args_partial, sharing_results_refuted, sharing_results_partial, graph_blocks_partition, deep_parameter_count, deep_unpack, ggmp_copies_refuted, ggmp_copies_partial, shifted_retries, guess_shape, block_cg_exit_code, guidance_refuted, guidance_partial, column_blocks, async_run, stopped_run, block_product, block_product_fails, poll_and_stop, bo_status, terminal_status_refuted, terminal_status_bo_refuted, terminal_status_partial, poll_safe, poll_empty, task_arrays_partial, task_gradients_partial, task_gradients_refuted, task_covariance_gradient_partial, task_covariance_gradient_refuted, flattening_exact, flattening_total, appended_observations_partial, appended_as_rebuilt_partial, append_order_refuted, rejected_fv_update_partial, rejected_fv_update_refuted, rejected_all_nan_refuted, one_gp_per_client, second_gp_raises, free_client_accepted, collecting_frees, failed_construction_keeps, hps_round_trip, vector_round_trip, bounds_round_trip, moments_round_trip, save_crash_safe, save_completes, cache_transparent_partial, plain_fits, cache_kept, other_settings_not_served, duplicate_ids_refuted, other_series_refuted, other_meta_refuted, call_order_partial, early_call_no_effect, guards_refuted, unpickled_reads_same_partial, unpickled_data_same_partial, unpickled_sharing_partial, unpickled_dropped, clean_gp_pickles_partial, sparse_lu_pickle_refuted, recovered_covariance_refuted, recovered_covariance_partial, warm_start_nearby_refuted, warm_start_nearby_partial, warm_start_opt_in, no_nan_stored_refuted, no_nan_stored_partial, block_preconditioner_spd, incomplete_cholesky, failed_set_atomic_partial, likelihood_hessian_refuted, posterior_probability_refuted, threads_share_client_refuted, threads_registry_partial, preconditioner_fresh, preconditioner_built_once, warm_start_first_refuted, warm_start_posterior_refuted, warm_start_near_partial, stored_vector_partial, set_longer_refuted, set_shorter_refuted, longer_bounds_refuted, concurrent_complete_partial, concurrent_refuted, gpu_device_partial, gpu_device_masks, gpu_device_refuted, parallel_training, pool_size, round_robin, shared_generator_partial, shared_generator_refuted, devices_partial, devices_refuted, component_terminates, component_arguments, kernel_kept
* **sig_forall_dec**: full_covariances_count, point_gradients_all, sequence_rejects
* **sig_forall_dec, functional_extensionality_dep**: free_fit, free_fit_rejects, full_covariances, local_fits, acquisition_maximum, acquisition_rejects, quadratic_mean, surrogate_scale, training_box_partial, training_box_refuted, default_bounds_partial, default_bounds_refuted, fd_integer_arrays_partial, safe_set_partial, safe_set_refuted, reported_variance_partial, reported_variance_refuted, grid_covers_partial, grid_covers_refuted, exec_time_partial, exec_time_refuted, default_break_finite, explicit_hps_refuted, explicit_hps_partial, int_noise_refuted, int_noise_partial, kv_dtype, noise_formats_refuted, noise_formats_partial, dims_refuted, dims_partial, deep_kernel_psd, deep_contains_plain_partial, deep_distinct_partial, empirical_pdf_density, empirical_pdf_units_refuted, empirical_pdf_units_partial, point_gradients_refuted, fitted_is_reported_refuted, fitted_is_reported_partial, transport_refuted, transport_partial, start_in_bounds, adam_average, mape_is_mean_relative_error, normalize_partial, normalize_refuted, mixture_variance, failed_set_atomic_refuted, kernel_arguments_refuted, wasserstein_refuted, wasserstein_partial, r2_bounds, station_moments_correct, station_moments_total, wasserstein_pseudometric, sequence_alignment
* **sig_forall_dec, epsilon_statement, functional_extensionality_dep**: order_of_observations_refuted, origin_and_unit_refuted, more_data_less_variance_refuted, outputs_independent_refuted, amplitude_bounds_all_outputs, unrelated_observations_refuted, posterior_variance_nonneg, likelihood_hessian_partial, variance_only_partial, variance_only_refuted, posterior_interpolates, posterior_mean_gradient, prediction_chunks
* **sig_forall_dec, sig_not_dec, functional_extensionality_dep**: columns_partial, columns_refuted, mmd_unbiased, units_partial, sliced_metric, fixed_fit, fixed_fit_rejects, fit_range_partial, weights_match_partial, init_kept_partial, init_kept_refuted, surrogate_post_refuted, ggmp_train_synced, failed_ggmp_train_partial, failed_ggmp_train_refuted, ggmp_never_worse_partial, ggmp_never_worse_refuted, ggmp_result_is_trained_partial, ggmp_result_is_trained_refuted, default_break_refuted, trace_file_pairs_partial, observed_vs_predicted, default_mixture_partial, default_mixture_refuted, mcmc_trace, mcmc_in_box, mcmc_best_partial, results_in_bounds_refuted, mcmc_result_in_bounds_partial, guarded_training, guarded_training_complete, adam_run, robust_reparametrization_partial, sparse_block_partial, sparse_block_refuted, mae_at_most_rmse, errors_zero_iff_perfect, nrmse_is_relative_to_range, tree_alignment_partial, coincident_refuted, visiting_order, metropolis_zero_likelihood, mcmc_nan_rejected_refuted, mcmc_nan_rejected_partial, mcmc_info_complete_refuted, mcmc_info_complete_partial, landmark_kernel_valid, inner_product_kernels_valid, wendland_valid_refuted, crps_of_unique, coverage_is_fraction_partial, coverage_of_columns_partial, coverage_of_column_partial, until_converged_good, until_converged_rule, until_converged_budget_partial, until_converged_budget_refuted
* **sig_forall_dec, sig_not_dec, classic, functional_extensionality_dep**: mmd_estimate, itself_partial, itself_refuted, units_refuted, fit_range_refuted, weights_match_refuted, surrogate_derivatives, surrogate_kernel_valid, surrogate_post_partial, nei_gains, nei_gradient, screening_partial, screening_refuted, acquisition_search, acquisition_direction, derivatives_belong_refuted, fd_gradients, fd_integer_arrays_refuted, bo_warning_exact, step_size_follows_rate_refuted, step_size_follows_rate_partial, scale_follows_rate, default_break_partial, mixture_likelihood_refuted, mixture_likelihood_partial, trace_file_pairs_refuted, fd_double_refuted, fd_double_partial, box_double_refuted, box_double_partial, jitter_double_refuted, jitter_double_partial, shift_retries_refuted, shift_retries_partial, deep_contains_plain_refuted, deep_distinct_refuted, gpu_kernel_refuted, gpu_kernel_partial, seeded_search_refuted, seeded_search_partial, seeded_states, point_gradients_partial, landmark_kernel_sight, operator_is_factor_partial, operator_is_factor_refuted, density_terms, density_terms_total, density_weights, sample_weights, gaussian_density, bo_design, bo_never_worse, bo_start_warning_refuted, bo_start_warning_partial, mcmc_best_refuted, bo_in_box_refuted, bo_in_box_partial, bo_budget_refuted, bo_budget_partial, bo_stop_refuted, bo_stop_partial, bo_recommendation, transform_round_trip, radial_kernels_partial, radial_kernels_refuted, robust_reparametrization_refuted, compact_support, default_gradient_is_derivative, non_stat_gradient_is_derivative, crps_lower_bound, interval_score_bound, mpiw_monotone, coverage_monotone, coverage_curve_monotone, normal_exists, em_on_simplex, em_stops, em_monotone, metropolis_rule, adapt_covariance_refuted, adapt_covariance_partial, distance_kernels_valid, default_kernel_valid, kernels_valid_refuted, sparse_kernel_valid_refuted, wendland_valid_partial, wendland_pairs_partial, kernel_arguments_partial, bo_converged, metrics_on_several_points_partial, metrics_on_one_point_refuted, crps_is_integral, nlpd_is_log_density, msll_is_relative, coverage_of_column_refuted, bhattacharyya_distance, kl_nonnegative, energy_metric, energy_moves
* **sig_forall_dec, sig_not_dec, epsilon_statement, functional_extensionality_dep**: w2_symmetry_refuted, w2_separation_refuted, more_data_less_variance_partial, variance_at_measured_point, posterior_below_prior, posterior_covariance_gradient_partial, posterior_covariance_gradient_refuted, noisy_prediction_partial, noisy_prediction_refuted
* **sig_forall_dec, sig_not_dec, classic, epsilon_statement, functional_extensionality_dep**: end_to_end, updates_succeed, order_of_observations_partial, origin_and_unit_partial, batches_chain_partial, batches_chain_refuted, outputs_independent_partial, input_units_partial, input_units_refuted, repeated_measurements_partial, repeated_measurements_training_partial, repeated_measurements_refuted, unrelated_observations_partial, far_observations_partial, large_end_to_end, large_updates_succeed, multi_task_end_to_end, mixture_end_to_end, mixture_succeeds, default_regression_partial, default_regression_refuted, mixture_relabelled, mixture_rescaled, mixture_widened, bo_training, training_session, mixture_split, multi_task_session, large_session, likelihood_gradient_partial, likelihood_gradient_disjoint, likelihood_gradient_refuted, likelihood_gradient_columns_refuted, kl_div_divergence, mutual_information_nonneg, total_correlation_nonneg, gp_divergences_nonneg, relative_information_set_entries, likelihood_is_gaussian, posterior_is_conditional, posterior_probability_partial, entropy_gradient
