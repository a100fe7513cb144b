# Formal model of runlmc: design

Target: `/repo` (vlad17/runlmc, Python), read as text only. Model and proofs:
Rocq/Coq 8.16.1 in `rocq/theories`, built with
`coq_makefile -f _CoqProject -o Makefile && make -j4`.

## Modelling decisions

* **Numbers.** numpy float64 is idealised by Coq's real numbers `R`. Rounding,
  overflow, NaN and infinities are out of scope everywhere; theorems are about
  exact arithmetic. `np.finfo('float64').eps` is the real number 2^-52.
* **Arrays.** A 1-D array is a `list R`; a 2-D array is a list of rows, with
  its shape stated by a predicate; an n-D array is a shape (`list nat`) with a
  function from multi-indices. Views and copies are not distinguished, except
  in C11 and C19 where memory layout or aliasing is the subject.
* **Exceptions** are values of a `result` type (`Ok`/`Err kind`), with the
  Python exception class as the kind.
* **Objects.** An instance of the abstract class `Matrix` is a record of its
  observable methods (`shape`, `matvec`, `matmat`, `as_numpy`). Every concrete
  class is a function building such a record from its constructor arguments,
  with the inherited default `matmat`/`as_numpy` unless the class overrides
  it. Instances for which a constructor raises do not exist.
* **FFT.** `numpy.fft.rfft/irfft/rfftn/irfftn` are modelled by the definition
  in the numpy manual (finite sums of complex exponentials, half spectrum,
  imaginary part of the zero and Nyquist bins ignored by the inverse). That
  numpy computes these sums is trusted; the convolution theorem is proved.
* **Sparse matrices.** CSR matrices are modelled with `indptr`, `indices`,
  `data`; scipy's `+`, `dot`, `vstack`, `transpose` are modelled by what they
  compute entrywise, `+` dropping zero results as scipy does.
* **External numerics** (Cholesky, MINRES/CG, random numbers, worker pools)
  are arguments of the model, constrained by their documented contract only
  where a theorem says so in its hypotheses.
* **paramz** (parameter linking, constraint transformations) is modelled only
  as far as a property needs: lists of linked parameters, assigned gradients.
* Not modelled at all: logging text, `__str__`, the text of progress lines
  (which iterations print one is C88), plotting (`examples`, and of
  `benchmarks/pictures` all but what C88, C93 and C98 state), GPy internals,
  climin's update rule.
  Of `benchmarks` and `data` the parts in the table below are modelled.

## Trusted base

* The Coq 8.16.1 kernel (and `coqchk` as run by the gate).
* The Coq standard library axioms that `Print Assumptions` lists: the
  classical reals (`ClassicalDedekindReals.sig_forall_dec`,
  `ClassicalDedekindReals.sig_not_dec`), `functional_extensionality_dep` and
  `Classical_Prop.classic`.  No axiom of our
  own is declared. Each `Properties_*.v` file prints the assumptions beneath
  every theorem; the final list is in the last section below.
* That the model matches the Python source (definition-by-definition citations).
* That numpy/scipy functions compute what their documentation says, as
  modelled in the definitions that carry an `np_`/`sp_` prefix or a comment.

## Which code is modelled where

| Coq file | Python code | Not modelled in it |
|---|---|---|
| `Model_Util.v` | `util/numpy_convenience.py`, `util/normalizer.py`, `util/inline_pool.py` and the order of pool results | process start-up |
| `Model_Fourier.v` | `numpy.fft.rfft/irfft/rfftn/irfftn` by their definitions | rounding |
| `Model_Linalg.v` | every class of `linalg/` (matrix, bttb, toeplitz, kronecker, block_diag, block_matrix, composition, diag, identity, numpy_matrix, sum_matrix, sparse wrapper, ski), eigenvalue bounds, pickling hook | `as_linear_operator` beyond its caching |
| `Model_Shur.v` | `linalg/shur.py` | the alternative slower paths of the tests |
| `Model_Interp.v` | `approx/interpolation.py` (`cubic_kernel`, `interp_cubic`, `interp_bicubic`, `multi_interpolant`, `autogrid` and helpers); scipy CSR construction, `+`, `dot`, `vstack` | float rounding in `floor`; index dtype |
| `Model_Kern.v` | `kern/` (rbf, matern32, std_periodic, identity, scaled, stationary_kern): `from_dist`, `kernel_gradient`, `update_gradient`, `to_gpy`, parameter linking | `ParamConcatenation` internals of paramz; `np.errstate` printing |
| `Model_FK.v` | `lmc/functional_kernel.py` (constructor, `set_input_dim`, dictionaries, evaluation, coregionalization matrices, `update_gradient`) | parameter names; `summary`-style printing; paramz shape checks on gradients |
| `Model_Grid.v` | `lmc/grid_kernel.py` (all), `models/interpolated_llgp.py` `_wrap`, `_generate_grids` | `np.repeat` broadcasting a single count; the grid attributes kept only for printing |
| `Model_Lik.v` | `lmc/likelihood.py` (all), `lmc/exact_deriv.py`, `lmc/stochastic_deriv.py`, `lmc/derivative.py`; scipy `cdist`, `cho_factor`, `cho_solve`; numpy `vstack`, `hstack`, `repeat`, `diag` | the metrics collected; the process pool (`starmap` is a sequential map); empty outputs inside `np.add.reduce` |
| `Model_GP.v` | `models/multigp.py` (`__init__`, `_validate_io`, `_pad_dims`, `predict`, `predict_quantiles`), `models/interpolated_llgp.py` (`__init__`, `parameters_changed`, `K`, `log_det_K`, `normal_quadratic`, `log_likelihood`, `_grid_alpha`, `_native_variance`, `_raw_predict`, the three variance modes) | caching (see `Model_State.v`), metrics, the process pool; `kernel is None` on the first prediction |
| `Model_State.v` | the state of `models/interpolated_llgp.py` objects: the four `lru_cache` caches of the class, `_clear_caches`, `kernel`, `parameters_changed` with its metrics, `optimize`'s reset of the metrics, assignments to `prediction`; `lmc/metrics.py`; the metrics of `stochastic_deriv.py` | `update_model(False)` of paramz; FunctionalKernel objects shared by several models |
| `Model_Opt.v` | `models/optimization.py` (`AdaDelta.opt`'s loop and settings), `approx/iterative.py` (all) | climin's update rule, printing; scipy's minres and cg (any trajectory) |
| `Model_Prior.v` | `parameterization/priors.py` (the four priors, `from_EV`, `lnpdf`, `lnpdf_grad`), `parameterization/model.py` (`log_prior`, `_log_prior_gradients`, `objective_function`, `objective_function_gradients`) | `__str__`; `domain` is in `Model_SetPrior.v` |
| `Model_Mean.v` | `mean/` (all) | `update_gradient` (an assignment to paramz's gradient) |
| `Model_Docs.v` | `util/docs.py` (all) | attributes with exotic descriptors |
| `Model_GPyLMC.v` | `models/gpy_lmc.py` (`predict`, `predict_quantiles`, `_construct_gpy`) | `optimize`, `log_likelihood`, the sparse flag (handed to GPy) |
| `Model_SetPrior.v` | `parameterization/priorizable.py` (all), `_CONSTRAIN_DOMAIN` of `parameterization/priors.py` | warnings printed; paramz's hierarchy (one flat array of values and leaves as index ranges) |
| `Model_Testing.v` | `util/testing_utils.py` (`poor_cond_toep`, `random_toep`, `exp_decr_toep`, `rand_pd`, `BasicModel`, `error_context`), `smallest_eig` of `util/numpy_convenience.py` | see `Model_Harness.v` |
| `Model_Bench.v` | `benchmarks/benchlib/standard_tester.py`: `filter_list`, `filter_nonempty_cols`, `filter_by_selection`, `smse`, `nlpd`; the split of one column in `foreign_exchange_2007` and of one sensor in `weather` | downloads and parsing, runs of other programs, printing; warnings. nan and infinities are `None` |
| `Model_Regex.v` | Python's `re.match` for the patterns used in `data/noaa/clean.py` and `standard_tester.py`: sequences of character classes, once, `+` or `*`, with greedy backtracking | other regular expressions; characters outside Latin-1 |
| `Model_Clean.v` | `data/noaa/clean.py:53-154` (cells, merge with the stations, dropping of rows, locations, limits and centre of the map) | download, reading of the files, drawing. Pandas is taken to be older than 2.0, where `str.replace` reads its pattern as a regular expression |
| `Model_Cogp.v` | `benchmarks/benchlib/standard_tester.py:322-330, 371-379, 494-502` (reading the output of COGP) | running Matlab |
| `Model_Table.v` | `benchmarks/benchlib/standard_tester.py:262-263, 392-441` (statistics of runs, LaTeX table) | number formatting is an argument (any text without a dollar sign) |
| `Model_BenchPy.v` | `benchmarks/benchlib/bench.py`: argument checks of `main`, `gen_kernels`, the choice of kernels, the relative errors | timing, printing; `int` and `float` of strings are arguments |
| `Model_Synth.v` | `data/synth/mkdata.py`; `synth`, `gen_random_k`, `synth_gen` of `benchmarks/benchlib/standard_tester.py` | drawing numbers (arguments); files (values); 10000 samples per output (any number); Matlab scripts |
| `Model_Report.v` | `benchmarks/benchlib/bench.py` lines 235-279 (`check_grads` and the summary) | timings; differences of arrays of different shapes are rejected instead of broadcast |
| `Model_Progress.v` | `models/optimization.py` `_print_update`; `benchmarks/pictures/fxmetrics.py` `moving_average`, `div_rolled_max` and the cut-off line; `models/interpolated_llgp.py` `_generate_pool`, `_check_omp` | the text of the lines; negative window lengths; the processes of the pool themselves |
| `Model_Harness.v` | the rest of `util/testing_utils.py`: `vectorize_inputs`, the seed of `RandomTest`, `run_main`, `check_np_lists`, `SingleGradOptimizer` | printing; `logdet` of the benchmark's objects, which calls a method that no class has; arrays of more dimensions in `check_np_lists`; texts in SEED that are not numbers |
| `Model_Heat.v` | `benchmarks/grad-grid/makepics.py` `printimg` | the script around it, fonts, positions, the colour bar, the file; values are positive |
| `Model_Run.v` | `benchmarks/benchlib/standard_tester.py` `slfm_gp`, `alvarez_and_lawrence_gp`, `bench_runlmc`; the `track_*` methods of `benchmarks/asv/fx2007/fx2007.py` and `benchmarks/asv/weather/weather.py` | files, printing, the timer (its result is arbitrary), `AdaDelta` (an arbitrary sequence of parameter values; see `Model_Opt.v`), `max_procs` and `metrics` among the keywords, `setup` |
| `Model_Pics.v` | `benchmarks/pictures/pics.py` lines 60-104 and 140-179: the contents of the panels | the training (`Model_Run.v` has the same steps), running COGP (its results are arbitrary), labels, colours, limits of the axes, files; matplotlib's `plot`, `scatter` and `fill_between` are modelled by their check of lengths and the pairs they show |
| `Model_Multi.v` | `parameterization/priors.py` (constructors, `lnpdf`, `lnpdf_grad`) with parameters of the model as parameters of priors, `parameterization/model.py` (`log_prior`, `_log_prior_gradients`, the objective) over them; the last cell of `examples/example.ipynb` | `link_parameter`; the other priors set in the notebook |
| `Model_Settings.v` | `models/optimization.py:14-32, 60-64`: settings of `AdaDelta`, what climin is given; `models/multigp.py:167-196`: options of `optimize` | settings of undocumented types; the keyword names of `climin.Adadelta` are trusted |
| `Model_Cmp.v` | `benchmarks/benchlib/inv-run.sh`, `benchmarks/representation-cmp/run.sh` (lines 85-140), lines printed by `run_kernel_benchmark` of `benchmarks/benchlib/bench.py` for 'inv' | the solves and their times (any numbers), SLURM, argument handling and validation of the scripts, rounding of printed digits, warnings at the end of a run's file |
| `Model_GradGrid.v` | `benchmarks/grad-grid/slurm-job.sh`, `benchmarks/grad-grid/run.sh` (lines 79-178) | bench.py's runs themselves (any output), warm-up runs, SLURM, argument handling and validation, digits, times of 0 |

Likelihood details: `cho_factor`/`cho_solve` are the textbook Cholesky
factorisation and triangular substitutions in exact arithmetic (`chol`,
`potrs`), standing in for LAPACK's potrf/potrs: a non-positive pivot is
`LinAlgError`. `np.random.randint(0, 2, (n_it, n))` is an argument (`bits`), and
the theorems range over every outcome. `Iterative.solve` is an argument
(`solve`), exact where a theorem says so. `Det.v` defines determinants by
Laplace expansion; `log_density` (`Spec_Lik.v`) is stated with it and with
`K a = y`, not with the factorisation. `K_ski` is the covariance of structured
kernel interpolation as documented, `K_op` the one gen_grid_kernel multiplies
by (they differ by `spurious`, see C23); C56 is about `K_op`. C57 shows that the
grids and interpolation matrices assumed in C26 and C56 are those that
`_generate_grids` builds.

Model details: a fitted model is one whose `parameters_changed` returned, for
any draw of the probes (`fitted`); `gp_ready` says it was built by the
constructor from valid data with as many outputs as the functional kernel has
(the constructor does not compare the two numbers). Solving with zero right
hand sides and the diagonal of a 0x0 matrix give empty arrays. `scipy.stats.
norm.ppf` is an argument, assumed increasing where C37 says so. The determinant
in `log_likelihood` is that of the exact covariance, while alpha solves the
system of the grid covariance; C53 states both, and on-grid data make them agree.

State details: a history is a list of events (constructions, assignments to
linked parameters, assignments to the unlinked scale of a `Scaled` kernel, starts
of `optimize`, queries) on any number of objects. paramz calls
`parameters_changed` once after a constructor returns and once per assignment to
linked parameters; the steps of an optimiser are such assignments. A cache of
`lru_cache(maxsize=1)` is one entry keyed by the object it was called on. Changes
made before an exception stay. The solver is a deterministic function of matrix
and right-hand side.

Optimiser details: `climin.Adadelta` is an infinite iterator whose n-th step
carries `n_iter = n` and some gradient, whatever the function does; the loop is
run with fuel and the theorem says how much is needed. minres/cg are described
by the iterates they would hand to a callback that never raises and by what they
return; the early-termination exception of the callback passes through them. No
Matrix class has a `preconditioner` attribute, so M is None.

Prior details: `scipy.special.gammaln` is an oracle; the theorems assume that it
is the logarithm of the Gamma integral (which is proved to converge). paramz's
dictionaries `priors` and `constraints` are lists in the order of iteration, and
the theorems hold for every order. The set comprehension of
`_log_prior_gradients` uses the loop variable left over from the loop above it;
this is modelled as python evaluates it. `objective_function_gradients` is in
the space of the parameters; paramz's chain rule into the space of the optimiser
is not modelled. `Logexp` of paramz is modelled for values up to its cut at 36.
`Priorizable.set_prior` works on paramz's `ParameterIndexOperations`, modelled as
a dictionary from objects to sorted index arrays as paramz documents it.
`_all_constraints` hands paramz a bound method (`_raveled_index`, uncalled); it
is no index, so `properties_for` yields nothing and the assertion that uses it
never fails.

Testing utilities details: random draws are arguments in [0, 1). The smallest
eigenvalue (`la.eigvalsh(...).min()`) is an oracle with the contract `min_eig`.
The loops run with fuel and the theorems say that enough exists.
`la.solve_toeplitz` is an oracle, exact where a theorem says so.

GPyLMC details: the wrapped GPy model is an oracle from the query matrix and
the output column to two arrays. GPy's `ICM` and `Coregionalize` are taken from
the GPy manual: the coregionalisation matrix is indexed by the integers in
column `input_dim`, the kernel reads its active column.

inherit_doc details: functions are heap objects with a `__doc__`; a base class
is the result of `getattr(parent, name, None)` for every name.

Kernel details: a python scalar argument and an array argument of `from_dist`
are different constructors (`PyNum`, `Arr`), because `Identity.from_dist` calls
a method of the argument. `StdPeriodic.from_dist` returns `np.nan` when
`ln T < -200`; this is the only nan in the model (`KNan`).
FunctionalKernel details: theorems are about every state in `reach` (`Spec_FK.v`):
built by the constructor, then any calls of `set_input_dim` and any change of
the linked parameters that keeps their shapes. The kernel objects of one
FunctionalKernel are assumed to be distinct objects.
GPy's kernels, used by `to_gpy`, are taken from the GPy manual (`gpy_at`).

## Plan per property

* **C01** (matvec agrees with the dense matrix for every nested operator): Object model of all `linalg` classes; relation `represents o r c F` (o computes with the matrix F); one lemma per class, and an inductive type of operator expressions for the closing theorem by nested induction.
* **C02** (matmat agrees with the dense matrix for every nested operator): Same induction; `represents` includes matmat for every right-hand side.
* **C03** (Toeplitz FFT product is the Toeplitz product): Exact DFT over complex numbers; convolution theorem proved from orthogonality of characters; Hermitian symmetry for rfft/irfft.
* **C04** (BTTB of any order multiplies by the pairwise-offset matrix): Multi-index version of C03 by induction over axes; `_cyclic_extend_n` modelled as array updates axis by axis; `_toep_replicate` by loops over blocks.
* **C05** (Toeplitz.upper_eig_bound bounds every eigenvalue): Gershgorin argument on any real eigenpair plus induction over the prefix-sum recurrence.
* **C06** (upper_eig_bound of composed matrices bounds every eigenvalue): Positive results: Diag, Identity, Sum; Kronecker and SymmSquareBlockMatrix under the conditions where the bound holds. Refutations with concrete matrices for the general claim; SKI raises AttributeError.
* **C07** (linalg constructors reject exactly the malformed inputs): Decision tables of the constructors, iff-statements against an independent validity predicate.
* **C08** (shur returns the Cholesky factor of a Toeplitz matrix): Loop invariant: displacement identity of the remaining generator; induction over steps.
* **C09** (tesselate splits without losing or reordering anything): List induction; iff for success.
* **C10** (search_descending returns the documented threshold index): searchsorted modelled as the binary-search contract position in the reversed list; characterisation by largest i.
* **C11** (map_entries applies f to each entry in place): Arrays with explicit strides (memory order); refuted for transposed layout, proved for C-contiguous arrays.
* **C12** (index helpers partition ranges and enumerate grids): List inductions.
* **C13** (interpolation rows are affine weights on in-range columns): Real-number model of interp_cubic with floor and clamping; CSR addition.
* **C14** (interpolation is exact on grid points and quadratics): Algebra on the four weights.
* **C15** (interpolation error is O(spacing^3)): Taylor-Lagrange (Coquelicot) at the sample.
* **C16** (bicubic interpolation is the tensor product in cartesian_product order): CSR product of ycsr and stacked xcsrs; flattening index arithmetic.
* **C17** (multi_interpolant is the block diagonal of the per-output interpolants): Pointer-list model; block-diagonal entry specification.
* **C18** (autogrid surrounds the data by two grid points on each side): Real arithmetic over the linspace; combined with C13's index computation.
* **C19** (autogrid does not modify its arguments): Heap cell for the caller's `m`: `np.asarray` aliases, `+=` mutates; refuted for arrays, proved for lists/None.
* **C20** (interp_cubic rejects the inputs its documentation lists): Decision model: 1-D and size checks proved, equispacing check refuted by a concrete grid.
* **C21** (FunctionalKernel construction follows its documentation): Constructor model with optional arguments; refuted for omitted LMC lists (TypeError), proved when the lists are given.
* **C22** (set_input_dim partitions kernels by active dimensions): Dictionary as association list; invariant over the loop; history of calls.
* **C23** (all grid representations represent the same covariance): Representation relation on the three grid constructions; refuted when a group lacks coregionalised or lacks diagonal kernels, proved otherwise; exact deviation (identity matrix) proved.
* **C24** (BTTB of grid distances is the kernel matrix of the grid): Grid distances in cartesian_product order and the BTTB entry formula.
* **C25** (exact likelihood kernel matrix is the LMC formula): Block scaling loops; entry formula via the owner output of a row.
* **C26** (the SKI operator is W K_UU W^T + noise and is symmetric PSD): Composition of C01 with C23; quadratic forms.
* **C27** (SKI is exact for data on the grid): C14 at grid points combined with C23/C24/C25.
* **C28** (exact gradients are the partial derivatives of the log likelihood): Derivative of log det (Jacobi) and of the inverse quadratic form along one parameter; matrices over R in mathcomp or by lists.
* **C29** (stochastic gradients are unbiased): Finite expectation over all sign vectors; linearity and E[r_i r_j] = delta_ij.
* **C30** (kernel_gradient is the derivative of from_dist): `derivable_pt_lim`/`is_derive` of each kernel formula.
* **C31** (kernel values are correlations): Real analysis on the formulas; refuted for periods below e^-200 (nan).
* **C32** (stationary kernels are positive semi-definite): RBF by the power series of exp (Schur products); StdPeriodic in one dimension as an RBF of (cos, sin); Matern32 in any dimension as an iterated limit of Gaussian mixtures; StdPeriodic refuted for every P >= 2 and all parameters.
* **C33** (prediction works for every supplied kernel): Argument type (python scalar or array) modelled explicitly; refuted for Identity.
* **C34** (prior variance matches the kernel diagonal): Algebra on lists.
* **C35** (predict returns one mean and variance per requested point, in order): Splitting model; locality of multi_interpolant rows and of K_test rows.
* **C36** (predicted variances are non-negative and shrink the prior): Clamp for non-negativity; PSD of K^-1 for the upper bound; Cholesky as oracle with its contract.
* **C37** (predict_quantiles agrees with predict): Model of predict_quantiles with abstract monotone ppf.
* **C38** (normalisation is invertible and standardises): Finite sums.
* **C39** (cached quantities are never stale): State machine with class-level single-entry caches keyed by instance; invariant over all histories.
* **C40** (metrics stay synchronised with optimisation): State machine over optimize/parameters_changed events.
* **C41** (AdaDelta stops exactly when documented): Loop over an arbitrary stream of gradient norms; characterisation of the stopping index.
* **C42** (Iterative.solve reports any residual above tolerance): Solver as an oracle producing iterates, calling the callback on each; postcondition for all behaviours.
* **C43** (MultiGP validates its data as documented): Decision model against an independent predicate; duplicate inputs refuted.
* **C44** (precompute prediction mode is available for unsplit kernels and rejects split ones cleanly): Decision model; KeyError witness refutes the clean-rejection half; exactness of nu by operator composition.
* **C45** (parallel and serial execution give the same results): Workers complete in any order (permutation of task indices); results placed by index.
* **C46** (prior gradients are derivatives of prior log densities): Derivatives of the log densities; from_EV algebra.
* **C47** (the objective gradient matches the objective): Model of priors/constraints as association lists with the Python scoping of the comprehension variable; refuted for two priors, proved for at most one.
* **C48** (every optimisable quantity is linked): Linked-parameter lists per kernel class; refuted for Scaled.
* **C49** (mean functions and their gradients agree): Lists.
* **C50** (GPyLMC routes every test point to its own output): Lists; wrapped model as oracle over rows.
* **C51** (inherit_doc fills in only missing documentation): Class dictionaries as association lists.
* **C52** (operators survive pickling): State machine over pickling and operator caching.
* **C53** (log_likelihood is the Gaussian log density): Triangular determinant; formula.
* **C54** (gradients are delivered to the parameters they belong to): zip over lists with shape facts.
* **C55** (the exact likelihood exists exactly for positive definite covariances): pivots of Cholesky against positive definiteness.
* **C56** (the approximate likelihood follows the gradient of its operator): `K_op` and its derivatives; mean over all draws.
* **C57** (a model's grids can be built from any spread-out data): composition of C12, C17, C18 per group. `C57_single_number`: one number as a bound or a number of points raises when some kernel acts on several dimensions.
* **C58** (predictive means): the row of the interpolation matrix of a point against the grid covariance; C27 for on-grid points.
* **C59** (building and fitting a model): composition of C43, C22, C57, C26 and C56.
* **C60** (covariance of GPyLMC): terms of the sum with their active columns against the LMC formula; refutations for two input columns and for short rank lists.
* **C61** (approximate solves): coercivity of the fitted covariance by its noise floor, Cauchy-Schwarz; every gradient slot is one bilinear estimate, so a perturbation of its solves is bounded.
* **C62** (variance of stochastic gradients): second moments of sign quadratic forms by induction on the dimension, independence by induction on the probes.
* **C63** (accuracy of the interpolation): Taylor with a Lipschitz second derivative on the four nodes of a cell (cubic weights reproduce quadratics and have absolute sum at most 2), one coordinate at a time for bicubic weights; Lipschitz constants kernel by kernel; then the perturbation of a system with floor `s`.
* **C64** (contents of the metrics): the value recorded by one update of a sound object, lifted to histories with the invariant of C39/C40.
* **C65** (units of the inputs): every function from the data to the prediction commutes with the change of units (grids move with the data, interpolation weights and kernel values stay); gradients by homogeneity of the derivative operators.
* **C66** (units of the outputs): mean and standard deviation of affine images; the fitted model only sees the normalised outputs.
* **C67** (setting priors): dictionaries as relations between indices and objects; invariants (no object twice, at most one prior per index) over all histories; refuted for the check against fixed parameters and for priors without a domain.
* **C68** (testing utilities): diagonal dominance, a square completed along the rows of a geometric Toeplitz matrix, termination because a large diagonal dominates; the gradient by the derivative rules of C27. Refuted: positive entries, the decay rate, the gradient of the jittered likelihood, assertions without a message.
* **C69** (scores): both scores in closed form by following the filters; units by factoring squares out of sums. With C66 the smse of a normalising model does not depend on units. Refuted: nlpd ignores test points with predictive variance 0, so certain and wrong predictions cost nothing. `C69_smse_undefined`, `C69_nlpd_negative`: when the scores are not numbers (the latter: as soon as one variance is negative).
* **C70** (splits): index sets of the filters; a partition by a boolean. Refuted: held-out days of the exchange rates without a value become nan test outputs.
* **C71** (order and amount of data): a map sends each sample to an equal one; both models have the same grids (their extremes agree), so one covariance is a reordering or a principal submatrix of the other. Solutions and determinants of reordered systems agree; c·K⁻¹c grows with the system. Not claimed: precomputed variances off the grid (their interpolation weights can be negative), and data that change the normalisation.
* **C72** (observed points): the covariance without noise is positive semidefinite; y = (C + N)a gives Σ(N a)²/N ≤ Σy²/N; for repeats the principal submatrix of C71 has a closed-form solution.
* **C73** (weather cells and rows): the stripping loop keeps digits and points only; the numeral of a digit list denotes its number; rows by induction over the join. Refuted: signs, rows of stations listed twice.
* **C74** (locations): `re_match` is sound and complete for a declarative matching relation, and greedy; readings in both directions. Refuted: decimal minutes, limits after an unreadable first location, centre of the map.
* **C75** (COGP output): the first occurrence of each label, then the first number after it. Partial: signs are lost (refuted).
* **C76** (LaTeX table): the text printed for a row, with the index of the first least mean; standard error against the usual estimate; for uncorrelated runs its square has expected value (n-1)/n times the variance of the mean (any expectation functional, as in C84).
* **C77** (inversion benchmark): argument checks, kernels, relative errors. Partial: the documented default of the test type never runs (refuted).
* **C78** (only covariances matter): a renumbering of outputs maps the grids, interpolation weights, fitted covariances and observations of one model onto those of the other; solutions of the two systems agree. Partial: needs the redundant identities of C23 in both or neither (refuted otherwise, with one SLFM kernel against the same kernel in two parts).
* **C79** (what predictions depend on): solutions of block systems agree on a group of outputs when no entry couples it to the rest; covariances of requests with other outputs vanish; hence means and variances of the group do not see the other outputs' data. With all outputs in the group: variances do not depend on values, means are linear in them. The grid is assumed the same (`within` both ways), as it is built from all inputs.
* **C80** (predictions do not jump): the cubic convolution kernel has slope at most 2 and vanishes beyond 2, so weights are Lipschitz across cell borders and where indices are clamped at the ends of the grid; kernels have bounded slopes and distances are Lipschitz; the explained variance is a fixed quadratic form in covariances, as solutions are a linear function of right-hand sides; clipping at zero does not expand. The distance of points is the sum over coordinates (`apart`).
* **C81** (synthetic benchmark data): the kernel built by the script is computed symbolically; the covariance is that of C25 plus 1/10 on the diagonal, hence positive definite and factored; the layout loop by induction over outputs; the split by induction over samples.
* **C82** (far from the data): past an end all four interpolation weights fall on the last grid point and sum to one; cross covariances vanish with the kernels, and explained variances are quadratic in them. The refutation computes the mean of a model whose samples lie on one grid point.
* **C83** (noise): the covariance of the noisier model exceeds the other by a nonnegative diagonal, so its inverse is smaller (two quadratic forms); the noise is a floor of the covariance, which bounds solutions by the right-hand side over s; determinants of a positive semidefinite matrix plus a diagonal are at least the product of the diagonal, by induction on Schur complements.
* **C84** (best linear prediction): `Spec_Best.v` says what an expected value is (a positive linear functional on some set of variables) and what random observations of a model are (first and second moments only, so not only Gaussian ones); the expected squared error of a guess with weights w is the predicted variance plus the quadratic form of the covariance at the difference to the best weights. That such variables exist is a theorem too (a finite space built from a Gram factor).
* **C85** (chain rule): the samples of the larger model are put in the order of the smaller with the extra one last (a bijection of indices from the permutations of the samples per output); the determinant then grows by the factor of the predicted variance and the quadratic form by the squared standardised error, by induction on Schur complements and by uniqueness of the solution.
* **C86** (data drawn from the model): an expectation is any positive linear functional with value 1 at 1 (as in C84). Score: the gradient is half of alpha' F alpha minus the trace of K^-1 F with alpha = K^-1 y, so its expectation is that of a quadratic form in y with second moments K. Maximum: the trace of K'^-1 K is at least n + ln det K - ln det K', by induction on Schur complements; each step adds a rank-one term, under which determinants grow strictly, and uses ln x <= x - 1; equality forces every pivot and column to agree. The stochastic likelihood likewise: over the values and over all draws of the probes its gradients average to zero, for values with the covariances that gen_grid_kernel multiplies by, on the grid or off it. Only the second moments of the values enter, not their law. The examples build random values for which every outcome is acceptable data (no output constant).
* **C87** (the report of the optimisation benchmark): gradients of a given shape, which those of C28 and C56 have. The stacked arrays are flattened into one vector; sums over it are sums over kernels, ranks, outputs and parameters. The count printed for the coregionalisation vectors counts vectors, not entries (refuted unless there is one output), and `np.hstack` of matrices with different numbers of rows raises (refuted for different ranks). Timings are not modelled.
* **C88** (progress lines and the plotted cut-off): the printed iterations are the multiples of the floored quotient among those of the run of C41. A full run prints from v to 2v - 1 lines, and v exactly when the remainder is less than the quotient (refuted otherwise). Entries of the moving average are averages of the last values, a window longer than the data raises. A norm is below the drawn line exactly when it is a drop in the sense of C41 for the ratio 0.2 (refuted for the default ratio 0.1).
* **C89** (worker processes): the number of workers and the warning as functions of the processors, the argument, the number of observations and whether the variable is set. Starting workers with the variable unset warns; the converse fails for fewer than 300 observations and for zero processes (refuted).
* **C90** (the other testing utilities): the system of a case is the sum of Kronecker products of `rand_pd` and generated Toeplitz matrices (positive semi-definite by C68) plus noise, as an operator on vectors and matrices; its dense form lacks the noise (refuted), and an object kept from an earlier case multiplies by the matrix of the current one, because the lambda looks the variable up late (refuted). Accepted arguments exactly. `check_np_lists` as a condition on entries, not symmetric (refuted). One step raises an objective by |gradient|^2/(2L) if its gradient is L-Lipschitz along segments; the default L = 1 can lower others (refuted). The smallest eigenvalue that C68 assumes is shown to exist for all symmetric matrices (`Proofs_MinEig.v`).
* **C91** (log likelihood of uncorrelated outputs): four models `g a b`, `a` choosing the data of the outputs in `S` and `b` those of the others; the difference between the two choices of `a` is the same for both choices of `b`. Uses that the determinant of a matrix without entries between two sets of indices is the product of two determinants, for sets that need not be contiguous (`det_blocks`), and C79's uniqueness of alpha on the outputs in `S`. Same grid in all four (`within`), exact solves.
* **C92** (limit of fine grids): `C92_likelihood` bounds the error of the log likelihood against `log_density` of the exact covariance; `C92_error` gives one constant `C` with `ski_error <= C / M^3` for all grids of at least `M` cells (`at_least`) over the same data and bounds; `C92_between` says that points between inputs and bounds are inside all of them; `C92_limit` puts these together with C63. Kernels without identities, groups without the superfluous identities of C23; means at points `between` inputs and bounds; variances for the on-the-fly mode. The example has a model for every number of cells.
* **C93** (heat maps): makepics.py, `printimg`, with pandas' `unique`, `set_index`/`unstack` (sorted levels, nan for missing pairs, ValueError for duplicates), numpy's `argsort`, `max`/`min`/`argmin`/`argmax` with nan, and Python's `max`/`min` of two numbers with nan. `C93_panels`, `C93_duplicates`; `C93_limits_partial` and `C93_marks_partial` need every pair of a kernel's `q` and `eps` to be there: run.sh skips pairs with failed runs, and then the limits are those of the kernels after the gap (`C93_limits_refuted`) and both numbers are nan (`C93_marks_refuted`). Only four kernels have axes (`C93_all_kernels_refuted`). Values are positive; nothing is said about fonts, positions and the colour bar.
* **C94** (switching the mode): the histories of C39/C40 have an event for `model.prediction = name` as pics.py has it; `C94_switch`, `C94_keeps`, `C94_state`. C39, C40 and the metrics (C64) hold over histories with switches as well. Names other than the three (which `__init__` refuses and an assignment does not) are not modelled.
* **C95** (gradients in the limit): the gradients that `parameters_changed` assigns converge, on average over the probes, to those of the exact log likelihood, with the cube of the number of cells and the residual of the solver; `C95_derivative`, `C95_rate`, `C95_limit`. `Proofs_GradSm.v` shows that the derivatives of the kernels in their parameters are smooth functions of the distance (in the period, up to a bounded distance), `Proofs_GradLim.v` carries this through interpolation and inverse. Single draws are the business of C61 and C62.
* **C96** (precomputed variances in the limit): precomputed variances converge to those of the exact Gaussian process with the cube of the number of cells and the residual of the solver, at points between inputs and bounds; `C96_rate`, `C96_limit`, and `C96_modes`: so do they and the variances computed on the fly to each other. With C92 all predictions of a fine grid are those of the exact process.
* **C97** (benchmark runs): the benchmark of the library completes for all draws and all paths of the optimiser, and what asv tracks is the mean and the standard error of the mean over the runs; `C97_completes`. Without runs everything is nan, or UnboundLocalError is raised; `C97_no_runs`. `C97_slfm_form` gives the covariance of the trained model: the part of each output's own keeps the amplitude 1, as the scale of a Scaled kernel is not linked, so that a model of data normalised to variance 1 always expects more than that. `C97_alvarez_form` gives that of the other model. `C97_return_lmc_refuted`: `return_lmc=False` returns the model all the same.
* **C98** (pictures): each panel shows the predictions, COGP's results, the training points and the held-out points of one and the same name; `C98_fx`, `C98_weather`. Held-out temperatures lie in the window shown; `C98_holdout_shown`. The bands of two standard deviations carry between 95 and 96 percent of the normal density, as an integral; `C98_band` (the bounds are proved with Taylor polynomials, in `Proofs_Mass.v`). `C98_days_refuted`: when no rate is given on the first days, the lines are for fewer days than COGP's results and there is no picture.
* **C99** (multilevel priors): priors are objects that may hold parameters of the model, and freeze their normalising factor when made. `C99_fresh`, `C99_value`: what the log prior is, at once and later. `C99_gradient`, `C99_missing`: what the gradient is and what exactly it lacks for a parameter of priors; `C99_never`: with inverse Gamma priors below it is wrong everywhere; `C99_ignores`: it does not depend on the level below. `C99_refuted`: in the notebook's setup the log prior is off by `ln shape` and the gradient for `shape` is that of neither objective.
* **C100** (quantiles and the log prior as densities): `C100_quantiles`: what `predict_quantiles` returns splits the normal density of `predict` in the ratio asked for, by integrals over the real line; `C100_interval`: in exact mode the default pair bounds 95 percent. The contract of `scipy.stats.norm.ppf` is the hypothesis `is_ppf`, which `C100_ppf` shows can be met. `C100_positive`, `C100_real`: integrating the exponential of the log prior over one parameter in the optimiser's coordinates leaves that of the log prior without its prior; the Jacobian terms of `log_prior` are what makes this true.
* **C101** (dimensions): the README's usage note on input dimensions. `C101_any`: any number of dimensions, kernels on any one or two. `C101_cap`: whatever the arguments, a model that was built has kernels on one or two existing dimensions only. `C101_three`: ValueError for kernels over all of three or more. `C101_note_refuted`: a model over three dimensions, against the note in the class's documentation.
* **C102** (settings of the optimiser): `C102_settings`, `C102_optimize` say what dictionary results from any keyword arguments; `C102_handed` what climin is given and when TypeError is raised; `C102_run` joins this with C41's loop, `C102_misspelt` with the run that raises. The names that `climin.Adadelta` accepts are trusted; settings of undocumented types are not modelled.
* **C103** (tables of the comparison of representations): output of bench.py's test 'inv', inv-run.sh and the loop of run.sh, by lines and fields. `C103_table`: the rows of results.tex. `C103_text`, `C103_text_refuted`: what is left in results.txt. `C103_accepted`: the arguments pass bench.py's checks (C77). The shell tools (`head`, `tail`, `cut`, `paste`, `awk`, `sort`, `tee`) are trusted to do what their definitions here say; digits are not modelled.
* **C104** (summary of the gradient benchmark): the jobs' files and the loop of run.sh that makes the table drawn in C93. `C104_summary`, `C104_count`: lines and averages. `C104_sizes_partial`, `C104_sizes_refuted`: the sizes shown are fixed in the script, right for the full benchmark only. `C104_nan_refuted`: bc takes `nan` and `inf` for variables of value 0. The shell tools are trusted to do what their definitions here say; digits are not modelled.

## Assumptions of each theorem

What `Print Assumptions` lists, by set of axioms (all from the standard library).

**None (closed under the global context)**: C51_inherit_partial, C51_returns, C51_property_refuted, C51_raises, C90_seed, C29_draws, C52_operator_history, C88_silent, C89_workers_partial, C89_warning_refuted, C102_optimize, C68_error_context_partial, C68_error_context_refuted, C09_tesselate_splits, C09_split_unique, C11_map_entries_c_order_partial, C11_map_entries_refuted, C12_begin_end_indices, C12_chunks, C12_symm_2d_list_map, C45_starmap_order_independent, C45_starmap_failure_reported.

**`ClassicalDedekindReals.sig_forall_dec`**: C06_ski_refuted, C06_ski_never_bounds, C07_sum_matrix, C07_numpy_matrix, C07_dimensions, C50_predict, C50_pointwise, C50_quantiles, C50_errors, C90_vectorize, C49_initial, C49_zero, C49_errors, C12_cartesian_product.

**`ClassicalDedekindReals.sig_forall_dec`, `functional_extensionality_dep`**: C69_smse, C69_smse_undefined, C70_fx_partial, C70_fx_refuted, C70_weather, C77_arguments_partial, C77_default_refuted, C73_cells, C73_sign_refuted, C73_table, C73_rows_refuted, C74_degrees, C74_only, C74_decimal_refuted, C74_map_partial, C74_map_refuted, C74_centre_refuted, C103_table, C103_text, C103_text_refuted, C103_accepted, C75_missing, C07_block_matrix, C07_diag, C21_accepts, C21_rejects, C21_coreg_forms, C21_omitted_lists_refuted, C21_index_refuted, C22_groups, C22_total_rank, C22_first_call, C22_later_calls, C54_update_gradient, C104_summary, C104_count, C104_sizes_partial, C104_sizes_refuted, C104_nan_refuted, C90_arguments, C90_check_lists_partial, C90_check_lists_refuted, C13_interp_rows, C13_cubic_kernel_domain, C14_exact_on_grid, C14_exact_quadratics, C16_bicubic, C17_multi_interpolant, C17_multi_interpolant_2d, C17_assemble_blocks, C18_autogrid, C18_training_data_exact, C18_constant_data_refuted, C19_arguments_kept_partial, C19_array_m_refuted, C20_rejects_partial, C20_not_equispaced_refuted, C20_empty_samples_refuted, C30_update_gradient, C29_unbiased, C49_constant, C99_gradient, C99_ignores, C41_stops_partial, C41_empty, C41_cap_refuted, C98_holdout_shown, C46_gaussian, C88_lines_partial, C88_lines_refuted, C88_moving_average, C88_rolled_max, C88_cutoff_partial, C88_cutoff_refuted, C67_set_prior_partial, C67_one_prior, C67_refuted, C102_settings, C102_handed, C102_run, C102_misspelt, C81_split, C76_table, C68_rand_pd_partial, C68_rand_pd_refuted, C68_random_toep, C68_poor_cond_toep, C10_search_descending.

**`ClassicalDedekindReals.sig_forall_dec`, `ClassicalDedekindReals.sig_not_dec`, `functional_extensionality_dep`**: C61_iterative, C64_solver, C77_errors, C101_cap, C101_three, C05_toeplitz_bound, C06_nested_abs_bound_partial, C06_nested_bound_partial, C06_kronecker_refuted, C06_block_matrix_refuted, C07_toeplitz, C07_bttb, C07_no_empty_matrix, C07_zero_dim_refuted, C07_bttb_no_sizes_refuted, C60_covariance_partial, C60_dims_refuted, C60_ranks_refuted, C57_generate_grids, C57_single_number, C23_selection, C31_to_gpy, C01_nested_matvec, C02_nested_matmat, C03_toeplitz_matvec, C03_toeplitz_defined, C04_bttb, C04_bttb_defined, C42_reports, C42_distance, C71_init, C43_validation_partial, C43_validation_refuted, C59_init_rejects, C87_report_partial, C87_count, C87_count_refuted, C87_ranks_raise, C87_ranks_refuted, C76_expected, C08_shur, C81_family, C76_stats, C76_stderr_below, C38_normalize_standardises, C38_inverse_mean_undoes_normalize, C38_inverse_variance_scales.

**`ClassicalDedekindReals.sig_forall_dec`, `ClassicalDedekindReals.sig_not_dec`, `Classical_Prop.classic`, `functional_extensionality_dep`**: C61_noise_floor, C61_predictions, C61_gradients, C61_expected, C78_same_covariance_partial, C78_same_covariance_refuted, C69_model_units, C69_nlpd_partial, C69_nlpd_negative, C69_nlpd_refuted, C77_kernels, C84_exact, C84_on_the_fly, C84_observations, C85_chain, C75_stats_partial, C75_sign_refuted, C75_signed_error, C79_separate, C79_linear, C101_any, C101_note_refuted, C82_edge, C82_prior_variance, C82_prior_mean_refuted, C27_exact_on_grid_partial, C27_exact_on_grid_refuted, C95_derivative, C95_rate, C95_limit, C23_same_covariance_partial, C23_slfm_deviation, C26_operator_partial, C26_symmetric_psd, C26_base_psd, C24_kernel_matrix, C23_same_covariance_refuted, C90_systems_partial, C68_oracle_exists, C90_dense_refuted, C90_kept_refuted, C90_step_partial, C90_step_refuted, C93_panels, C93_limits_partial, C93_marks_partial, C93_duplicates, C93_limits_refuted, C93_marks_refuted, C93_all_kernels_refuted, C15_third_order, C15_twice_differentiable_refuted, C30_kernel_gradient, C31_documented_formula, C31_correlation, C31_decreasing, C31_period, C31_tiny_period_refuted, C32_psd_partial, C32_std_periodic_2d_refuted, C48_linked_partial, C48_gradient_count_partial, C48_scaled_refuted, C25_exact_kernel, C25_kernel_from_indices, C55_exact_exists, C55_exact_succeeds, C28_exact_gradients, C54_exact_delivery, C29_mean_is_exact, C26_operator, C56_expected_gradients, C92_likelihood, C92_error, C92_between, C92_limit, C80_lipschitz, C49_gradient, C64_series, C64_update, C94_state, C94_switch, C94_keeps, C99_value, C99_fresh, C99_missing, C99_never, C99_refuted, C83_variance, C83_prior, C83_likelihood, C71_order, C71_more_data, C98_fx, C98_weather, C98_band, C98_days_refuted, C96_rate, C96_limit, C96_modes, C59_init, C59_fit, C34_native_variance, C33_predict_partial, C33_identity_fails, C35_pointwise_partial, C35_empty_fails, C36_nonnegative, C36_exact, C36_on_the_fly, C37_quantiles, C44_precompute_partial, C44_split_rejected, C44_subset_fails, C53_log_det, C53_log_likelihood, C53_on_grid, C58_mean, C58_on_grid, C33_predict_refuted, C35_pointwise_refuted, C44_precompute_refuted, C46_density, C46_normalised, C46_gradient, C46_from_EV, C47_gradient_partial, C47_off, C47_logexp, C47_refuted, C100_quantiles, C100_positive, C100_real, C100_interval, C97_completes, C97_no_runs, C97_slfm_form, C97_alvarez_form, C97_return_lmc_refuted, C91_separates, C63_smooth, C63_spacing, C63_inside, C63_covariance, C63_fit, C63_predictions, C39_fresh_partial, C39_sound, C39_stale_refuted, C40_series_partial, C40_sound, C40_none, C40_raising_refuted, C81_sampled, C81_layout, C68_exp_partial, C68_exp_rate, C68_exp_refuted, C68_basic_gradient_partial, C68_basic_gradient_refuted, C72_residuals, C72_observed, C86_score, C86_truth, C86_stochastic_score, C65_units, C65_translation, C66_units, C62_variance.
