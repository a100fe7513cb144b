{"id": "C01", "title": "matvec agrees with the dense matrix for every nested operator", "statement": "For any operator built from the linalg classes (Toeplitz, BTTB, Kronecker, SumMatrix, BlockDiag, Diag, SymmSquareBlockMatrix, Composition, NumpyMatrix, Identity, Matrix.wrap of a linear map, SKI), nested to any depth with compatible shapes, op.matvec(x) equals op.as_numpy().dot(x) (in exact arithmetic) for every x of length op.shape[1], and the shapes agree.", "quantifier": "all operator expressions of any nesting depth, all sizes >= 1 (rectangular where allowed), all real entries, all vectors x", "why_tests_cant": "tests fix a dozen small operators and one vector x = 1..n; nesting and sizes are unbounded", "anchors": ["runlmc/linalg/matrix.py:Matrix", "runlmc/linalg/kronecker.py:Kronecker.matvec", "runlmc/linalg/block_diag.py:BlockDiag.matvec", "runlmc/linalg/block_matrix.py:SymmSquareBlockMatrix.matvec", "runlmc/linalg/sum_matrix.py:SumMatrix.matvec", "runlmc/linalg/composition.py:Composition", "runlmc/approx/ski.py:SKI"]}
{"id": "C02", "title": "matmat agrees with the dense matrix for every nested operator", "statement": "For the same operators, op.matmat(X) equals op.as_numpy().dot(X) for every dense X with op.shape[1] rows and any number of columns, whether matmat is the inherited column-by-column default or an override.", "quantifier": "all operator expressions, all dense right-hand sides including zero columns", "why_tests_cant": "tests use one two-column X per example", "anchors": ["runlmc/linalg/matrix.py:Matrix.matmat", "runlmc/linalg/matrix.py:Matrix.as_numpy", "runlmc/linalg/diag.py:Diag.matmat", "runlmc/linalg/composition.py:Composition.matmat"]}
{"id": "C03", "title": "Toeplitz FFT product is the Toeplitz product", "statement": "Toeplitz(top).matvec(x), computed by circulant embedding and real FFTs, equals T x where T[i,j] = top[|i-j|], for every order n >= 1 including n = 1.", "quantifier": "all n >= 1, all top and x", "why_tests_cant": "the circulant embedding has size-dependent index boundaries (length 2n, reversed tail) that sampling sizes cannot settle", "anchors": ["runlmc/linalg/toeplitz.py:Toeplitz.matvec", "runlmc/linalg/toeplitz.py:Toeplitz._cyclic_extend"]}
{"id": "C04", "title": "BTTB of any order multiplies by the pairwise-offset matrix", "statement": "For any grid shape sizes (any number of dimensions, any positive extents) BTTB(top, sizes) represents the matrix whose entry at grid points i, j is top at the multi-index (|i_1-j_1|,...,|i_P-j_P|): both as_numpy() and matvec realise it.", "quantifier": "all P >= 1, all positive sizes, all top of length prod(sizes), all x", "why_tests_cant": "padding to powers of two and mirrored fills depend on every extent; tests cover six shapes", "anchors": ["runlmc/linalg/bttb.py:BTTB.matvec", "runlmc/linalg/bttb.py:BTTB.as_numpy", "runlmc/linalg/bttb.py:BTTB._cyclic_extend_n", "runlmc/linalg/bttb.py:BTTB._toep_replicate", "runlmc/linalg/bttb.py:_pow2"]}
{"id": "C05", "title": "Toeplitz.upper_eig_bound bounds every eigenvalue", "statement": "Toeplitz(top).upper_eig_bound() is at least |lambda| for every eigenvalue lambda of the matrix, and before the (1+EPS*n) safety factor it is exactly the largest absolute row sum.", "quantifier": "all n >= 1, all top, all real eigenpairs", "why_tests_cant": "the vectorised prefix-sum recurrence must agree with every row sum of every size", "anchors": ["runlmc/linalg/toeplitz.py:Toeplitz.upper_eig_bound"]}
{"id": "C06", "title": "upper_eig_bound of composed matrices bounds every eigenvalue", "statement": "upper_eig_bound() of Kronecker, SumMatrix, SymmSquareBlockMatrix, Diag, Identity and SKI is at least every eigenvalue of the represented symmetric matrix.", "quantifier": "all symmetric component matrices and all eigenpairs", "why_tests_cant": "eigenvalue bounds quantify over all matrices; tests have none for these classes", "anchors": ["runlmc/linalg/kronecker.py:Kronecker.upper_eig_bound", "runlmc/linalg/sum_matrix.py:SumMatrix.upper_eig_bound", "runlmc/linalg/block_matrix.py:SymmSquareBlockMatrix.upper_eig_bound", "runlmc/linalg/diag.py:Diag.upper_eig_bound", "runlmc/approx/ski.py:SKI.upper_eig_bound"]}
{"id": "C07", "title": "linalg constructors reject exactly the malformed inputs", "statement": "Matrix constructors raise ValueError exactly when documented (empty or non-1-D top, sizes whose product differs from len(top), no summands, differing summand shapes, uneven block grids, dimension < 1), and otherwise produce an object whose shape is the documented one.", "quantifier": "all argument shapes", "why_tests_cant": "finite examples cannot establish 'exactly when'", "anchors": ["runlmc/linalg/matrix.py:Matrix.__init__", "runlmc/linalg/toeplitz.py:Toeplitz.__init__", "runlmc/linalg/bttb.py:BTTB.__init__", "runlmc/linalg/sum_matrix.py:SumMatrix.__init__", "runlmc/linalg/block_matrix.py:SymmSquareBlockMatrix.__init__", "runlmc/linalg/diag.py:Diag.__init__", "runlmc/linalg/numpy_matrix.py:NumpyMatrix.__init__"]}
{"id": "C08", "title": "shur returns the Cholesky factor of a Toeplitz matrix", "statement": "When shur(top) runs through all n steps without reporting rank deficiency, it returns an upper-triangular C with C^T C equal to the Toeplitz matrix of top, with positive diagonal; it never divides by zero.", "quantifier": "all n >= 1 and all top with top[0] > 0", "why_tests_cant": "the generator recurrence must preserve the displacement identity at every step of every size; there are no tests at all", "anchors": ["runlmc/linalg/shur.py:shur"]}
{"id": "C09", "title": "tesselate splits without losing or reordering anything", "statement": "tesselate(a, lens) succeeds exactly when lens is non-empty and sums to len(a); the segments then have exactly the requested lengths and concatenate back to a in order; otherwise ValueError.", "quantifier": "all arrays, all lists of non-negative lengths", "why_tests_cant": "round trip over all length lists including zeros", "anchors": ["runlmc/util/numpy_convenience.py:tesselate"]}
{"id": "C10", "title": "search_descending returns the documented threshold index", "statement": "For a weakly decreasing xs, search_descending(x, xs, inclusive) is the largest i such that every element of xs[:i] is >= x (inclusive) or > x (exclusive); it raises ValueError exactly when xs is not weakly decreasing.", "quantifier": "all thresholds and all arrays (duplicates, empty)", "why_tests_cant": "off-by-one on ties needs a universally quantified statement", "anchors": ["runlmc/util/numpy_convenience.py:search_descending"]}
{"id": "C11", "title": "map_entries applies f to each entry in place", "statement": "map_entries(f, a) returns an array of the same shape whose entry at every index is f of a's entry at that index, whatever the memory layout of a.", "quantifier": "all f, shapes and strides (C order, Fortran order, transposed views)", "why_tests_cant": "tests only use freshly created C-ordered arrays", "anchors": ["runlmc/util/numpy_convenience.py:map_entries"]}
{"id": "C12", "title": "index helpers partition ranges and enumerate grids", "statement": "begin_end_indices(lens) gives contiguous disjoint [begin,end) ranges of the requested lengths covering [0,sum(lens)); chunks(l,n) concatenates back to l with all chunks of size n but possibly the last; cartesian_product enumerates every tuple exactly once with the last axis fastest; symm_2d_list_map is a pointwise map on symmetric input and always symmetric.", "quantifier": "all lengths, lists and grids", "why_tests_cant": "structural facts for every size", "anchors": ["runlmc/util/numpy_convenience.py:begin_end_indices", "runlmc/util/numpy_convenience.py:chunks", "runlmc/util/numpy_convenience.py:cartesian_product", "runlmc/util/numpy_convenience.py:symm_2d_list_map"]}
{"id": "C13", "title": "interpolation rows are affine weights on in-range columns", "statement": "For any equispaced grid of size >= 4 and any finite samples (also outside the grid), interp_cubic returns an n x m matrix with at most 4 nonzeros per row, every column index in range, and every row summing to 1; cubic_kernel never rejects the distances interp_cubic produces.", "quantifier": "all grids with positive spacing and size >= 4, all samples including extrapolation", "why_tests_cant": "clamping at both borders and floor boundaries cover a continuum of samples", "anchors": ["runlmc/approx/interpolation.py:interp_cubic", "runlmc/approx/interpolation.py:cubic_kernel"]}
{"id": "C14", "title": "interpolation is exact on grid points and quadratics", "statement": "interp_cubic reproduces the function value exactly at samples lying on interior grid points and reproduces every polynomial of degree <= 2 at every sample whose four neighbours are inside the grid.", "quantifier": "all grids, samples in the interior, all quadratics", "why_tests_cant": "a continuum of samples and polynomials", "anchors": ["runlmc/approx/interpolation.py:interp_cubic"]}
{"id": "C15", "title": "interpolation error is O(spacing^3)", "statement": "For a function with third derivative bounded by B on the grid range, the interpolated value at every interior sample differs from the true value by at most c * B * spacing^3 with c independent of the function, grid and sample.", "quantifier": "all thrice differentiable functions with bounded third derivative, all grids, all interior samples", "why_tests_cant": "an asymptotic rate over all functions", "anchors": ["runlmc/approx/interpolation.py:interp_cubic"]}
{"id": "C16", "title": "bicubic interpolation is the tensor product in cartesian_product order", "statement": "Row s of interp_bicubic(gridx, gridy, samples) has at column ix*len(gridy)+iy the product of the one-dimensional cubic weights for x and y (summed over clamped duplicates), rows sum to one, have at most 16 nonzeros, and M.dot(f(cartesian_product(gridx,gridy))) reproduces products of quadratics.", "quantifier": "all grids of size >= 4, all 2-D samples", "why_tests_cant": "index flattening must be right for every pair of grid sizes", "anchors": ["runlmc/approx/interpolation.py:interp_bicubic", "runlmc/util/numpy_convenience.py:cartesian_product"]}
{"id": "C17", "title": "multi_interpolant is the block diagonal of the per-output interpolants", "statement": "The CSR matrix assembled by multi_interpolant is a well-formed CSR matrix equal to the block-diagonal matrix of the individual interpolation matrices, also when some outputs have no points.", "quantifier": "all lists of per-output sparse matrices, any number of outputs, any row counts including zero", "why_tests_cant": "pointer arithmetic over arbitrary row/nnz lists", "anchors": ["runlmc/approx/interpolation.py:multi_interpolant"]}
{"id": "C18", "title": "autogrid surrounds the data by two grid points on each side", "statement": "The grid returned by autogrid is equispaced with m+4 points, spans the requested [lo,hi] and all data, and every data point has at least two grid points on each side, so that interpolating training data never clamps an index.", "quantifier": "all data sets with at least two distinct values per dimension, all optional lo, hi, m >= 1", "why_tests_cant": "boundary arithmetic for all reals", "anchors": ["runlmc/approx/interpolation.py:autogrid", "runlmc/models/interpolated_llgp.py:InterpolatedLLGP._generate_grids"]}
{"id": "C19", "title": "autogrid does not modify its arguments", "statement": "Calling autogrid leaves the caller's Xs, lo, hi and m arrays unchanged, so repeated calls with the same arguments return the same grid.", "quantifier": "all arguments, any number of repeated calls", "why_tests_cant": "aliasing: needs a statement about the heap before and after", "anchors": ["runlmc/approx/interpolation.py:autogrid"]}
{"id": "C20", "title": "interp_cubic rejects the inputs its documentation lists", "statement": "interp_cubic raises ValueError when grid or samples are not one-dimensional, when the grid has fewer than 4 points and when the grid is not equispaced.", "quantifier": "all grids and samples", "why_tests_cant": "a claim about all invalid inputs", "anchors": ["runlmc/approx/interpolation.py:interp_cubic"]}
{"id": "C21", "title": "FunctionalKernel construction follows its documentation", "statement": "FunctionalKernel accepts any combination of LMC, SLFM and independent kernels in which at least one list is non-empty (omitted lists default to empty), raises ValueError for missing D, no kernels, mismatched or non-positive ranks, mismatched index list; on success Q is the total number of kernels and B_q has the documented form: A^T A + diag(1) for LMC, a a^T for SLFM, e_d e_d^T for independent kernels.", "quantifier": "all kernel lists, ranks, index lists and initial random coregionalization vectors", "why_tests_cant": "combinatorial space of optional arguments", "anchors": ["runlmc/lmc/functional_kernel.py:FunctionalKernel.__init__", "runlmc/lmc/functional_kernel.py:FunctionalKernel._initialize_Aq", "runlmc/lmc/functional_kernel.py:FunctionalKernel._initialize_kq", "runlmc/lmc/functional_kernel.py:FunctionalKernel.coreg_mats"]}
{"id": "C22", "title": "set_input_dim partitions kernels by active dimensions", "statement": "After set_input_dim(P), every kernel index appears in exactly one active-dimension group, groups list indices in increasing order with all coregionalized kernels before independent ones, the per-group counts of LMC/SLFM/independent kernels add up, kernels without active_dims get all P dimensions; a second call with the same P changes nothing and with a different P raises ValueError.", "quantifier": "all kernel lists and active-dimension choices, all call histories of set_input_dim", "why_tests_cant": "dictionary bookkeeping over arbitrary histories", "anchors": ["runlmc/lmc/functional_kernel.py:FunctionalKernel.set_input_dim", "runlmc/lmc/functional_kernel.py:FunctionalKernel.filter_non_indep_idxs", "runlmc/lmc/functional_kernel.py:FunctionalKernel.total_rank"]}
{"id": "C23", "title": "all grid representations represent the same covariance", "statement": "Whichever representation gen_grid_kernel picks for a group ('sum', 'bt' or 'slfm'), the grid operator represents sum_q B_q (x) K_q over the kernels of that group, so the choice affects only speed.", "quantifier": "all D, kernel mixtures (LMC/SLFM/independent), ranks, grids and coregionalization values", "why_tests_cant": "tests only ever use LMC kernels with positive diagonals; the claim is over all mixtures", "anchors": ["runlmc/lmc/grid_kernel.py:GridKernel", "runlmc/lmc/grid_kernel.py:_gen_slfm_grid", "runlmc/lmc/grid_kernel.py:_gen_coreg_Ks", "runlmc/lmc/grid_kernel.py:_gen_diag_Ks", "runlmc/lmc/grid_kernel.py:_gen_bt_grid", "runlmc/lmc/grid_kernel.py:_gen_sum_grid", "runlmc/lmc/grid_kernel.py:gen_grid_kernel"]}
{"id": "C24", "title": "BTTB of grid distances is the kernel matrix of the grid", "statement": "For the inducing grid of any dimension, BTTB(k(dists).ravel(), dists.shape), with dists the distances to the first grid point, has at (i,j) the kernel value k(||u_i - u_j||) of the i-th and j-th grid points in cartesian_product order.", "quantifier": "all equispaced grids of any dimension and size, all stationary kernels", "why_tests_cant": "quantifies over dimensions and grid sizes", "anchors": ["runlmc/models/interpolated_llgp.py:InterpolatedLLGP._generate_grids", "runlmc/linalg/bttb.py:BTTB"]}
{"id": "C25", "title": "exact likelihood kernel matrix is the LMC formula", "statement": "ExactLMCLikelihood.K has at the rows/columns of point x_i of output a and x_j of output b the value sum_q B^q_ab k_q(||x_i - x_j||) over the kernel's active dimensions, plus noise_a on the diagonal only; kernel_from_indices gives the same cross-covariance for arbitrary test and training lists; K is symmetric.", "quantifier": "all numbers of outputs, points per output, kernels, active dims", "why_tests_cant": "block index arithmetic over arbitrary length lists", "anchors": ["runlmc/lmc/likelihood.py:ExactLMCLikelihood.__init__", "runlmc/lmc/likelihood.py:ExactLMCLikelihood._coreg_scale", "runlmc/lmc/likelihood.py:ExactLMCLikelihood.kernel_from_indices"]}
{"id": "C26", "title": "the SKI operator is W K_UU W^T + noise and is symmetric PSD", "statement": "The operator used for learning multiplies by sum over active-dimension groups of W (sum_q B_q (x) K_q) W^T + diag(noise); it is symmetric, and positive semi-definite whenever the base kernel grid matrices are PSD, diagonals and noise non-negative.", "quantifier": "all models", "why_tests_cant": "definiteness quantifies over all vectors", "anchors": ["runlmc/lmc/grid_kernel.py:gen_grid_kernel", "runlmc/approx/ski.py:SKI", "runlmc/linalg/sum_matrix.py:SumMatrix"]}
{"id": "C27", "title": "SKI is exact for data on the grid", "statement": "If every training input lies on an interior grid point, the SKI kernel operator equals the exact LMC kernel matrix of the data (same noise).", "quantifier": "all data sets on interior grid points, all kernels and coregionalizations", "why_tests_cant": "end-to-end equality over all sizes", "anchors": ["runlmc/lmc/grid_kernel.py:gen_grid_kernel", "runlmc/approx/interpolation.py:interp_cubic", "runlmc/lmc/likelihood.py:ExactLMCLikelihood"]}
{"id": "C28", "title": "exact gradients are the partial derivatives of the log likelihood", "statement": "coreg_vec_gradients, coreg_diags_gradients, kernel_gradients and noise_gradient of the exact likelihood are the partial derivatives of -1/2 (log det K + y^T K^-1 y + n log 2 pi) with respect to each coregionalization entry, diagonal entry, kernel parameter and noise level.", "quantifier": "all parameter values with K positive definite, all data", "why_tests_cant": "a derivative identity over a continuum; tests compare two implementations of the same formula", "anchors": ["runlmc/lmc/likelihood.py:LMCLikelihood", "runlmc/lmc/exact_deriv.py:ExactDeriv", "runlmc/lmc/derivative.py:Derivative"]}
{"id": "C29", "title": "stochastic gradients are unbiased", "statement": "With exact solves, the stochastic derivative averaged over all equally likely random sign vectors equals the exact derivative for every n_it >= 1 and every dK.", "quantifier": "all K, dK, y, n, and all 2^(n*n_it) sign draws", "why_tests_cant": "an expectation over exponentially many draws", "anchors": ["runlmc/lmc/stochastic_deriv.py:StochasticDeriv", "runlmc/lmc/stochastic_deriv.py:StochasticDerivService.generate"]}
{"id": "C30", "title": "kernel_gradient is the derivative of from_dist", "statement": "For RBF, Matern32, StdPeriodic, Identity and Scaled kernels, kernel_gradient(d)[j] is the partial derivative of from_dist(d) with respect to the j-th parameter, and update_gradient stores entry j into parameter j.", "quantifier": "all positive parameter values and distances", "why_tests_cant": "a continuum of parameters and distances", "anchors": ["runlmc/kern/rbf.py:RBF", "runlmc/kern/matern32.py:Matern32", "runlmc/kern/std_periodic.py:StdPeriodic", "runlmc/kern/scaled.py:Scaled", "runlmc/kern/identity.py:Identity"]}
{"id": "C31", "title": "kernel values are correlations", "statement": "For positive parameters every unscaled kernel satisfies k(0) = 1 and |k(r)| <= 1 for all r >= 0; RBF and Matern32 are strictly decreasing in r with values in (0,1]; StdPeriodic has period T; conversion to GPy parameters describes the same function.", "quantifier": "all parameters and distances", "why_tests_cant": "a continuum", "anchors": ["runlmc/kern/rbf.py:RBF.from_dist", "runlmc/kern/matern32.py:Matern32.from_dist", "runlmc/kern/std_periodic.py:StdPeriodic.from_dist", "runlmc/kern/rbf.py:RBF.to_gpy"]}
{"id": "C32", "title": "stationary kernels are positive semi-definite", "statement": "For every supplied kernel and every finite set of points, the matrix k(||x_i - x_j||) is positive semi-definite, as the StationaryKern documentation requires.", "quantifier": "all finite point sets in any input dimension, all parameters, all coefficient vectors", "why_tests_cant": "definiteness over all point sets", "anchors": ["runlmc/kern/stationary_kern.py:StationaryKern", "runlmc/kern/rbf.py:RBF", "runlmc/kern/matern32.py:Matern32", "runlmc/kern/std_periodic.py:StdPeriodic", "runlmc/kern/identity.py:Identity"]}
{"id": "C33", "title": "prediction works for every supplied kernel", "statement": "Once a model is built with any of the supplied kernels, predict(Xs) evaluates the prior variance of each output without raising.", "quantifier": "all supplied kernel classes in any mixture", "why_tests_cant": "dynamic typing: a code path per kernel class and argument type", "anchors": ["runlmc/models/interpolated_llgp.py:InterpolatedLLGP._native_variance", "runlmc/kern/identity.py:Identity.from_dist"]}
{"id": "C34", "title": "prior variance matches the kernel diagonal", "statement": "The native variance used by predict for output d is noise_d + sum_q B^q_dd k_q(0), i.e. the diagonal of the LMC kernel plus noise.", "quantifier": "all coregionalizations, kernels and outputs", "why_tests_cant": "algebra over all values", "anchors": ["runlmc/models/interpolated_llgp.py:InterpolatedLLGP._native_variance", "runlmc/lmc/functional_kernel.py:FunctionalKernel.coreg_mats"]}
{"id": "C35", "title": "predict returns one mean and variance per requested point, in order", "statement": "predict(Xs) returns lists of D arrays with len(Xs[d]) entries at index d; entry i of output d is the prediction for the i-th requested point of output d (empty requests give empty arrays), and predictions for one point do not depend on which other points are requested.", "quantifier": "all request lists including empty ones, all prediction modes", "why_tests_cant": "ragged splitting over arbitrary request lists", "anchors": ["runlmc/models/multigp.py:MultiGP.predict", "runlmc/models/interpolated_llgp.py:InterpolatedLLGP._raw_predict", "runlmc/approx/interpolation.py:multi_interpolant"]}
{"id": "C36", "title": "predicted variances are non-negative and shrink the prior", "statement": "Every predicted variance is >= 0; in exact mode it is at most the prior variance and equals the Gaussian conditional variance.", "quantifier": "all models and requests", "why_tests_cant": "inequalities over all inputs", "anchors": ["runlmc/models/interpolated_llgp.py:InterpolatedLLGP._raw_predict", "runlmc/models/interpolated_llgp.py:InterpolatedLLGP._var_predict_exact"]}
{"id": "C37", "title": "predict_quantiles agrees with predict", "statement": "Quantile q of predict_quantiles is mean + sqrt(variance) * ppf(q/100) for the mean and variance returned by predict (after un-normalisation), is increasing in q, and has one row per point and one column per quantile.", "quantifier": "all predictions, quantile tuples and normalisations", "why_tests_cant": "un-normalisation must commute with the quantile map for all values", "anchors": ["runlmc/models/multigp.py:MultiGP.predict_quantiles", "runlmc/util/normalizer.py:Norm"]}
{"id": "C38", "title": "normalisation is invertible and standardises", "statement": "For data accepted by MultiGP, normalised outputs have mean 0 and standard deviation 1, inverse_mean undoes normalize, and inverse_variance scales variances by the squared standard deviation.", "quantifier": "all outputs with non-zero standard deviation", "why_tests_cant": "over all data", "anchors": ["runlmc/util/normalizer.py:Norm", "runlmc/models/multigp.py:MultiGP.__init__"]}
{"id": "C39", "title": "cached quantities are never stale", "statement": "K(), log_det_K(), log_likelihood(), normal_quadratic() and predict() always reflect the current hyperparameters: for any number of model instances and any interleaving of parameter updates and queries, each query returns what a fresh computation with that instance's current parameters would.", "quantifier": "all histories of updates and queries over any number of instances", "why_tests_cant": "shared class-level caches over arbitrary interleavings", "anchors": ["runlmc/models/interpolated_llgp.py:InterpolatedLLGP._clear_caches", "runlmc/models/interpolated_llgp.py:InterpolatedLLGP._dense", "runlmc/models/interpolated_llgp.py:InterpolatedLLGP.parameters_changed"]}
{"id": "C40", "title": "metrics stay synchronised with optimisation", "statement": "With metrics enabled, after any history of optimisations and parameter updates the five metric series have equal length, equal to the number of parameter updates since the last call of optimize began.", "quantifier": "all histories of optimize calls and parameter updates", "why_tests_cant": "histories are unbounded", "anchors": ["runlmc/models/interpolated_llgp.py:InterpolatedLLGP.optimize", "runlmc/models/interpolated_llgp.py:InterpolatedLLGP.parameters_changed", "runlmc/lmc/stochastic_deriv.py:StochasticDerivService.generate", "runlmc/lmc/metrics.py:Metrics"]}
{"id": "C41", "title": "AdaDelta stops exactly when documented", "statement": "AdaDelta.opt performs at most max_it iterations, stops at the first iteration at which the iteration cap or the permitted number of gradient-norm drops below min_grad_ratio times the running maximum is reached, and invokes the callback exactly once per iteration.", "quantifier": "all sequences of gradient norms and all settings", "why_tests_cant": "all infinite gradient sequences", "anchors": ["runlmc/models/optimization.py:AdaDelta.opt"]}
{"id": "C42", "title": "Iterative.solve reports any residual above tolerance", "statement": "If Iterative.solve returns without logging a failure then the residual ||y - K x|| is at most tol; early termination only ever returns an iterate whose residual is below tol, and the reported iteration count is the number of solver iterations.", "quantifier": "all matrices, right-hand sides, and all behaviours of the underlying Krylov solver", "why_tests_cant": "quantifies over every solver trajectory", "anchors": ["runlmc/approx/iterative.py:Iterative.solve"]}
{"id": "C43", "title": "MultiGP validates its data as documented", "statement": "MultiGP raises ValueError exactly when there is no output, the numbers of inputs and outputs differ, lengths mismatch, an input is not 1-D/2-D, an output is not 1-D, input dimensions vary, an output has zero standard deviation, or an input list has repeated identical values.", "quantifier": "all Xs, Ys", "why_tests_cant": "'exactly when' over all inputs", "anchors": ["runlmc/models/multigp.py:MultiGP._validate_io", "runlmc/models/multigp.py:MultiGP._pad_dims"]}
{"id": "C44", "title": "precompute prediction mode is available for unsplit kernels and rejects split ones cleanly", "statement": "In 'precompute' mode, prediction works whenever all kernels share one set of active dimensions and raises ValueError otherwise; with exact solves the precomputed grid variances are the diagonal of K_UX K^-1 K_XU.", "quantifier": "all active-dimension assignments", "why_tests_cant": "combinatorial", "anchors": ["runlmc/models/interpolated_llgp.py:InterpolatedLLGP._precomputed_nu", "runlmc/models/interpolated_llgp.py:InterpolatedLLGP._var_predict_precompute", "runlmc/models/interpolated_llgp.py:InterpolatedLLGP._var_solve"]}
{"id": "C45", "title": "parallel and serial execution give the same results", "statement": "InlinePool.starmap(f, ls) returns [f(*x) for x in ls] in order, with or without a worker pool, for every scheduling of the workers.", "quantifier": "all task lists, all schedules, all worker counts", "why_tests_cant": "all interleavings", "anchors": ["runlmc/util/inline_pool.py:InlinePool.starmap", "runlmc/models/interpolated_llgp.py:InterpolatedLLGP._generate_pool"]}
{"id": "C46", "title": "prior gradients are derivatives of prior log densities", "statement": "For Gaussian, Gamma, InverseGamma and HalfLaplace, lnpdf_grad is the derivative of lnpdf on the prior's domain, and Gamma.from_EV(E,V) has shape and rate whose mean is E and variance V.", "quantifier": "all parameters and points of the domain", "why_tests_cant": "continuum", "anchors": ["runlmc/parameterization/priors.py:Gaussian", "runlmc/parameterization/priors.py:Gamma", "runlmc/parameterization/priors.py:InverseGamma", "runlmc/parameterization/priors.py:HalfLaplace"]}
{"id": "C47", "title": "the objective gradient matches the objective", "statement": "objective_function_gradients is the gradient of objective_function: the prior part adds, for every parameter with a prior, the derivative of the log prior density and, if the parameter is constrained, of the log Jacobian included in log_prior.", "quantifier": "all assignments of priors and constraints to parameters", "why_tests_cant": "all combinations of several priors and constraints", "anchors": ["runlmc/parameterization/model.py:Model.log_prior", "runlmc/parameterization/model.py:Model._log_prior_gradients", "runlmc/parameterization/model.py:Model.objective_function_gradients"]}
{"id": "C48", "title": "every optimisable quantity is linked", "statement": "Every parameter for which a kernel reports a gradient is a linked parameter of the model, so the gradient vector passed to update_gradient has one entry per linked parameter.", "quantifier": "all supplied kernels, nested scaling", "why_tests_cant": "structural over all kernel expressions", "anchors": ["runlmc/kern/scaled.py:Scaled", "runlmc/kern/stationary_kern.py:StationaryKern.update_gradient"]}
{"id": "C49", "title": "mean functions and their gradients agree", "statement": "Constant(c).f(Xs) is c_d on every point of output d, mean_gradient is its derivative with respect to each offset, Zero is identically zero; wrong numbers of outputs or non-1-D inputs raise ValueError.", "quantifier": "all inputs and offsets", "why_tests_cant": "all shapes", "anchors": ["runlmc/mean/constant.py:Constant", "runlmc/mean/zero.py:Zero", "runlmc/mean/mean_function.py:MeanFunction._validate_inputs"]}
{"id": "C50", "title": "GPyLMC routes every test point to its own output", "statement": "GPyLMC.predict and predict_quantiles query the wrapped model once per requested point with that point's coordinates and output index and return results grouped per output in request order.", "quantifier": "all request lists", "why_tests_cant": "ragged bookkeeping", "anchors": ["runlmc/models/gpy_lmc.py:GPyLMC.predict", "runlmc/models/gpy_lmc.py:GPyLMC.predict_quantiles"]}
{"id": "C51", "title": "inherit_doc fills in only missing documentation", "statement": "After inherit_doc(cls), a method or property that had documentation keeps it, one without takes the documentation of the first base class that provides documentation under that name, and nothing else changes.", "quantifier": "all classes and base-class lists", "why_tests_cant": "all class shapes", "anchors": ["runlmc/util/docs.py:inherit_doc"]}
{"id": "C52", "title": "operators survive pickling", "statement": "Serialising and restoring a Matrix (as the worker pool does) preserves its shape and its product with every vector; the cached LinearOperator is dropped and rebuilt, and as_linear_operator always multiplies like the matrix.", "quantifier": "all operators and call histories", "why_tests_cant": "histories of caching and pickling", "anchors": ["runlmc/linalg/matrix.py:Matrix.__getstate__", "runlmc/linalg/matrix.py:Matrix.__setstate__", "runlmc/linalg/matrix.py:Matrix.as_linear_operator"]}
{"id": "C53", "title": "log_likelihood is the Gaussian log density", "statement": "log_det_K() is log det of the dense kernel matrix (twice the sum of logs of the Cholesky diagonal) and log_likelihood() is -1/2 (log det K + y^T alpha + n log 2 pi).", "quantifier": "all positive definite kernel matrices", "why_tests_cant": "over all matrices", "anchors": ["runlmc/models/interpolated_llgp.py:InterpolatedLLGP.log_det_K", "runlmc/models/interpolated_llgp.py:InterpolatedLLGP.log_likelihood", "runlmc/models/interpolated_llgp.py:InterpolatedLLGP.normal_quadratic"]}
{"id": "C54", "title": "gradients are delivered to the parameters they belong to", "statement": "update_gradient assigns to the q-th coregionalization vector, diagonal and kernel exactly the gradients the likelihood computed for index q, and the gradient matrices have the shape of the parameters.", "quantifier": "all kernel mixtures", "why_tests_cant": "ordering over arbitrary mixtures", "anchors": ["runlmc/lmc/functional_kernel.py:FunctionalKernel.update_gradient", "runlmc/lmc/likelihood.py:LMCLikelihood"]}
{"id": "C55", "title": "the exact likelihood exists whenever the covariance is positive definite", "statement": "ExactLMCLikelihood's construction raises LinAlgError exactly when the noisy LMC covariance of the data is not positive definite, and never raises for positive noise, non-negative coregionalization diagonals, kernel parameters in range and periodic kernels on single active dimensions.", "quantifier": "all data sets (including repeated inputs), all kernels and coregionalizations", "why_tests_cant": "definiteness over all inputs; tests try a few random data sets", "anchors": ["runlmc/lmc/likelihood.py:ExactLMCLikelihood.__init__", "runlmc/lmc/exact_deriv.py:ExactDeriv.__init__"]}
{"id": "C56", "title": "the approximate likelihood follows the gradient of its own operator", "statement": "With exact linear solves, the mean over all Rademacher draws of every derivative reported by ApproxLMCLikelihood (coregionalization vectors and diagonals, kernel parameters, noise) is the partial derivative of the Gaussian log density of the observations under the covariance that the SKI operator of gen_grid_kernel multiplies by.", "quantifier": "all models, grids, interpolation matrices, numbers of trace samples, observations", "why_tests_cant": "an expectation over 2^(k n) draws of derivatives of a log determinant; tests compare a few random models with loose tolerances", "anchors": ["runlmc/lmc/likelihood.py:ApproxLMCLikelihood", "runlmc/lmc/likelihood.py:LMCLikelihood", "runlmc/lmc/stochastic_deriv.py:StochasticDeriv", "runlmc/lmc/grid_kernel.py:gen_grid_kernel"]}
{"id": "C57", "title": "a model's grids can be built from any spread-out data", "statement": "For every functional kernel and data set in which each active dimension has two different values (or bounds), _generate_grids succeeds and yields, for each set of active dimensions, an equispaced grid enclosing the data and bounds, the distances of its points to the first one, and an interpolation matrix (with its transpose) whose rows sum to one and involve only grid points of the observation's own output.", "quantifier": "all functional kernels with one or two active dimensions per kernel, all data sets, all admissible lo, hi, m", "why_tests_cant": "composition of several array routines over all shapes and values", "anchors": ["runlmc/models/interpolated_llgp.py:InterpolatedLLGP._generate_grids", "runlmc/models/interpolated_llgp.py:InterpolatedLLGP._wrap"]}
{"id": "C58", "title": "predictive means are the conditional means of the model's covariance", "statement": "With exact solves, the mean that predict returns for a point is, after un-normalisation, the interpolated cross-covariance of the point with the observations times the weights alpha solving K alpha = y for the covariance the model was fitted with; if the data and the requested point lie on the grid (and no group carries the extra identity block of C23) it is the exact conditional mean of the LMC Gaussian process.", "quantifier": "all fitted models, prediction modes, requests", "why_tests_cant": "tests compare predictions approximately on a few small models", "anchors": ["runlmc/models/interpolated_llgp.py:InterpolatedLLGP._raw_predict", "runlmc/models/interpolated_llgp.py:InterpolatedLLGP._grid_alpha"]}
{"id": "C59", "title": "a model can be built and fitted from any valid data", "statement": "InterpolatedLLGP accepts every valid data set with a functional kernel and a documented prediction mode, rejects the others with ValueError, and with exact solves parameters_changed succeeds for positive noise and assigns gradients whose mean over all probe draws is the gradient of the log density of the (normalised) observations under the covariance the model works with.", "quantifier": "all data sets, functional kernels, grids, probe draws", "why_tests_cant": "composition of data validation, grid generation, operators, solves and gradients over all shapes and values", "anchors": ["runlmc/models/interpolated_llgp.py:InterpolatedLLGP.__init__", "runlmc/models/interpolated_llgp.py:InterpolatedLLGP.parameters_changed"]}
{"id": "C60", "title": "GPyLMC's covariance is the linear model of coregionalisation", "statement": "The kernel that GPyLMC builds for GPy gives, at the rows GPyLMC queries it with, the covariance sum_q B_q[d,d'] k_q(x,x') of point x of output d and x' of output d', over all the kernels supplied, for every input dimension the model accepts.", "quantifier": "all kernel lists, ranks, coregionalisation matrices, pairs of points", "why_tests_cant": "tests fit one-dimensional toy problems; column bookkeeping for other dimensions and list lengths is never exercised", "anchors": ["runlmc/models/gpy_lmc.py:GPyLMC._construct_gpy", "runlmc/kern/stationary_kern.py:StationaryKern.to_gpy"]}
{"id": "C61", "title": "accuracy of results computed from approximate solves", "statement": "If every solve with the fitted covariance leaves a residual of at most eps and every noise is at least s > 0, predictive means are within |c| eps / s of the conditional means, variances computed on the fly within |c'| eps / s of the clipped conditional variances (both before un-normalisation), and each gradient assigned by parameters_changed, as well as its mean over the probes, is within M (eps/s) (|y|/s + eps/(2s) + sqrt(n)/2) of the one from exact solves, M bounding the derivative of the covariance; Iterative.solve leaves residuals within its tolerance whenever it logs nothing.", "quantifier": "all fitted models, solvers, residuals, noise floors, requests, probe draws", "why_tests_cant": "a worst-case bound over all solvers and all data; tests compare with dense solves on single instances", "anchors": ["runlmc/approx/iterative.py:Iterative.solve", "runlmc/models/interpolated_llgp.py:InterpolatedLLGP._raw_predict", "runlmc/lmc/likelihood.py:ApproxLMCLikelihood", "runlmc/lmc/stochastic_deriv.py:StochasticDerivService.generate"]}
{"id": "C62", "title": "the variance of the stochastic gradients falls as one over the number of probes", "statement": "With exact solves, over all draws of n_it random sign probes each gradient that parameters_changed assigns has variance V / n_it about the true gradient, V = 1/8 sum_{i<>j} (A_ij + A_ji)^2 for A = K^-1 dK/dp, so at most a fraction V / (n_it d^2) of the draws is off by d or more.", "quantifier": "all models, parameters, numbers of probes", "why_tests_cant": "tests compare one random estimate with a loose tolerance; the distribution over all draws is exponential in size", "anchors": ["runlmc/lmc/stochastic_deriv.py:StochasticDerivService.generate", "runlmc/lmc/stochastic_deriv.py:StochasticDeriv.d_logdet_K"]}
{"id": "C63", "title": "accuracy of structured kernel interpolation", "statement": "For points not in the outermost cells of the grids (all observations, everything between them and between the given bounds) the interpolated covariance is within sum_q |B_q(a,b)| 2 L_q sum_p h_qp^3 of the LMC covariance, h being the grid spacings ((y - x)(k + 4)/(k(k + 3)) for k cells over the range y - x) and L_q a Lipschitz constant of the second derivative of kernel q, finite for every kernel but the identity; hence predictive means and on-the-fly variances are within explicit multiples of E (the largest of these bounds) and of the solver residual of those of the exact Gaussian process.", "quantifier": "all models with kernels of one or two active dimensions, data, grid sizes, solvers, requests", "why_tests_cant": "a rate in the grid spacing for all kernels and points; tests compare a few points with a loose tolerance", "anchors": ["runlmc/approx/interpolation.py:cubic_kernel", "runlmc/approx/interpolation.py:interp_cubic", "runlmc/approx/interpolation.py:interp_bicubic", "runlmc/approx/interpolation.py:autogrid", "runlmc/models/interpolated_llgp.py:InterpolatedLLGP._raw_predict"]}
{"id": "C64", "title": "what the metrics hold", "statement": "With metrics enabled, in any history of sound objects the five series hold, for every parameter update since the last optimize in order: the mean iteration count and the mean error reported by the solves for the observations and the probes, the largest absolute gradient assigned to the parameters, its largest deviation from the exact gradient of the log density relative to the largest exact gradient, and the log likelihood at the new parameters.", "quantifier": "all histories of constructions, updates, optimize calls and queries on several models; all solve reports", "why_tests_cant": "histories are unbounded and metrics objects are shared by reference", "anchors": ["runlmc/models/interpolated_llgp.py:InterpolatedLLGP.parameters_changed", "runlmc/lmc/stochastic_deriv.py:StochasticDerivService.generate", "runlmc/lmc/metrics.py:Metrics"]}
{"id": "C65", "title": "units of the inputs do not matter", "statement": "Measuring the inputs in other units with another origin (x becomes a x + t, a > 0, with the grid bounds and the requested points) and the kernel parameters accordingly, construction, training and queries succeed or raise the same exceptions; gradients of coregionalisation and noise are the same, kernel gradients differ by the factor of the parameter, and means, variances, quantiles and the likelihood are the same. In particular moving everything changes nothing.", "quantifier": "all data, kernels, parameter values, modes, grids, solvers, draws and requests (periods on the same side of the code's cut-off exp(-200))", "why_tests_cant": "a relation between two runs on all data and all factors", "anchors": ["runlmc/models/interpolated_llgp.py:InterpolatedLLGP.__init__", "runlmc/approx/interpolation.py:autogrid", "runlmc/lmc/functional_kernel.py:FunctionalKernel", "runlmc/models/multigp.py:MultiGP.predict"]}
{"id": "C66", "title": "units of the outputs do not matter when normalising", "statement": "With normalize=True, measuring output d in other units (y becomes c_d y + b_d, c_d > 0) leaves training, gradients and the likelihood as they are; predicted means and quantiles are the old ones in the new units, variances are multiplied by c_d squared, and failures are the same.", "quantifier": "all data with no empty output, kernels, parameter values, modes, solvers, requests", "why_tests_cant": "a relation between two runs on all data and all factors", "anchors": ["runlmc/models/multigp.py:MultiGP.__init__", "runlmc/models/multigp.py:MultiGP.predict", "runlmc/models/multigp.py:MultiGP.predict_quantiles", "runlmc/util/normalizer.py:Norm"]}
{"id": "C67", "title": "setting a prior", "statement": "set_prior on a parameter leaf gives exactly its entries the new prior in place of earlier ones, constrains them to the prior's domain (changing signs of values where needed) and leaves all other entries alone; unset_prior removes exactly the leaf's priors; no entry ever has two priors; a parameter with a prior is not fixed.", "quantifier": "all histories of set_prior, unset_prior, fixing and constraining of leaves of any layout, all priors", "why_tests_cant": "histories and layouts are unbounded", "anchors": ["runlmc/parameterization/priorizable.py:PriorizableLeaf.set_prior", "runlmc/parameterization/priorizable.py:PriorizableLeaf._all_constraints", "runlmc/parameterization/priorizable.py:PriorizableLeaf.unset_prior", "runlmc/parameterization/priors.py:Prior._CONSTRAIN_DOMAIN"]}
{"id": "C68", "title": "the testing utilities generate what they promise", "statement": "rand_pd gives symmetric positive definite matrices with positive entries; exp_decr_toep, random_toep and poor_cond_toep end and give first rows of positive semi-definite Toeplitz matrices, the last two after the least number of increases of the first entry; BasicModel computes the gradient of its log likelihood; error_context adds to the message of failed assertions and lets everything else through.", "quantifier": "all sizes, all draws, all kernels and data", "why_tests_cant": "the tests trust these utilities; their loops have no bound", "anchors": ["runlmc/util/testing_utils.py:rand_pd", "runlmc/util/testing_utils.py:exp_decr_toep", "runlmc/util/testing_utils.py:random_toep", "runlmc/util/testing_utils.py:poor_cond_toep", "runlmc/util/testing_utils.py:BasicModel", "runlmc/util/testing_utils.py:error_context", "runlmc/util/numpy_convenience.py:smallest_eig"]}
{"id": "C69", "title": "the scores of the benchmarks", "statement": "smse is the average, over the outputs with test points, of the mean squared error divided by the mean squared deviation of the test outputs from the training mean; it is 0 only for perfect predictions, at least 0, 1 for predicting the training mean, and does not depend on the units of the outputs, also when the predictions come from a model that normalises its outputs; nlpd is the average negative log density of the test outputs under the predicted normal distributions.", "quantifier": "all numbers of outputs and test points (also none for an output), all predictions, all factors and offsets", "why_tests_cant": "real-valued identities over all data; the scores decide which model is called better", "anchors": ["benchmarks/benchlib/standard_tester.py:smse", "benchmarks/benchlib/standard_tester.py:nlpd", "benchmarks/benchlib/standard_tester.py:filter_nonempty_cols", "benchmarks/benchlib/standard_tester.py:filter_by_selection"]}
{"id": "C70", "title": "the data splits leak nothing", "statement": "The splits of the exchange rate and weather data put every usable sample into training or test data and none into both; the test samples are exactly those in the held-out range; no missing value is used as an output.", "quantifier": "all columns with missing values anywhere, all held-out ranges", "why_tests_cant": "overlap of index sets for all data and ranges", "anchors": ["benchmarks/benchlib/standard_tester.py:foreign_exchange_2007", "benchmarks/benchlib/standard_tester.py:weather"]}
{"id": "C71", "title": "the order of the samples does not matter, and more data never add uncertainty", "statement": "Two models built from the same samples in another order make the same predictions in every prediction mode and have the same log likelihood. With the same parameters, samples added within the range of the old ones never increase a predicted variance: anywhere for exact and on-the-fly predictions, on the grid for precomputed ones.", "quantifier": "all data, orders, added samples, parameters with positive noise, points, prediction modes", "why_tests_cant": "relates two executions, for all reorderings and all added data; grids, normalisation, sparse interpolation matrices and solves all depend on the data", "anchors": ["runlmc/models/interpolated_llgp.py:InterpolatedLLGP", "runlmc/models/multigp.py:MultiGP", "runlmc/approx/interpolation.py:autogrid"]}
{"id": "C72", "title": "predictions at observed points", "statement": "Asked for the training inputs, the model's squared residuals, each relative to the noise of its output, sum to no more than those of predicting the mean of each output, and each residual is the noise times an entry of the solution the model was fitted with. Where an output was observed c times, the predicted variance is at most its noise times 1 + 1/c: in exact mode always, on the fly for points of the grid.", "quantifier": "all data, parameters with positive noise, numbers of repetitions, prediction modes as stated", "why_tests_cant": "inequalities between quantities of all fitted models; they fail only for particular data", "anchors": ["runlmc/models/interpolated_llgp.py:InterpolatedLLGP._raw_predict", "runlmc/models/multigp.py:MultiGP.predict"]}
{"id": "C73", "title": "cleaning of the weather table", "statement": "Each cell of the climate table that holds one plain decimal number, whatever letters surround it, is read as that number; a cell without digits or point is missing; cells with two points, or with a point and no digits, make the program raise ValueError. The cleaned table is exactly the rows of the join of readings with stations of the same id that have no missing entry, in order. False: the sign of a number (it is always dropped), and one row per reading (a station listed twice doubles rows).", "quantifier": "all cell texts, tables, station lists", "why_tests_cant": "all strings and all tables; the examples in the data have no signs", "anchors": ["data/noaa/clean.py:53-72"]}
{"id": "C74", "title": "locations of weather stations", "statement": "A location given in degrees, minutes and seconds (or degrees and minutes) north or south, east or west, is read as the angle it denotes; any location read at all has one of these readings, and one that is not read has none. The limits of the map contain every located station with a margin of two degrees when the first station could be located. False: decimal minutes (the fraction is read as seconds), the limits when the first location is unreadable (all nan), the centre of the map (twice the middle).", "quantifier": "all location texts and lists", "why_tests_cant": "all strings; backtracking of regular expressions decides which reading is taken", "anchors": ["data/noaa/clean.py:73-154"]}
{"id": "C75", "title": "reading the statistics COGP prints", "statement": "From an output holding the three labelled blocks in order, the mean and standard error of times, SMSEs and NLPDs are read as printed; if a label is missing the program raises ValueError. False: negative means lose their sign (NLPDs are often negative).", "quantifier": "all outputs", "why_tests_cant": "all texts around and between the numbers", "anchors": ["benchmarks/benchlib/standard_tester.py:cogp_fx2007", "benchmarks/benchlib/standard_tester.py:cogp_weather"]}
{"id": "C76", "title": "the LaTeX table of results", "statement": "The table has one column per method and the three rows of seconds, SMSE and NLPD with the value and standard error of each method; in each row the first method with the least mean, and no other, is set in bold. The reported standard error is the root mean squared deviation over the square root of the number of runs, always below the usual estimate; over uncorrelated runs the square of it is on average (n-1)/n of the variance of the printed mean.", "quantifier": "all numbers of methods, results, number formats without dollar signs", "why_tests_cant": "all tables; the bold marks are placed by splitting the printed text", "anchors": ["benchmarks/benchlib/standard_tester.py:latex_table"]}
{"id": "C77", "title": "the inversion benchmark", "statement": "Given all arguments, the benchmark runs exactly for the values its usage message describes. Each kernel choice gives q kernels: of one kind with parameters in geometric progression from 1 to 10, or the three kinds in turn, all parameters between 1 and 10. The relative errors reported are 0 exactly when the vectors agree and do not depend on the unit. False: without the test type the benchmark never runs, though the usage gives a default.", "quantifier": "all argument lists, numbers of kernels, vectors", "why_tests_cant": "all argument lists; the default of an argument contradicts the check after it", "anchors": ["benchmarks/benchlib/bench.py:_main", "benchmarks/benchlib/bench.py:gen_kernels", "benchmarks/benchlib/bench.py:vector_errors"]}
{"id": "C78", "title": "only the covariance functions matter", "statement": "Two fitted models of the same data with the same covariance functions and noise make the same predictions and have the same log likelihood, in every mode, however the outputs are numbered, and whichever kernels, vectors and diagonals make the covariances up, in whichever order they are listed. False when the redundant identities of C23 appear in one model only: one SLFM kernel and the same kernel in two parts predict different means.", "quantifier": "all data, kernels, renumberings and decompositions, modes, requested points, fitted models with exact solves", "why_tests_cant": "all decompositions of a covariance and all renumberings; tests fix one", "anchors": ["runlmc/models/interpolated_llgp.py:_raw_predict", "runlmc/models/interpolated_llgp.py:log_likelihood", "runlmc/lmc/grid_kernel.py:gen_grid_kernel", "runlmc/lmc/functional_kernel.py:FunctionalKernel"]}
{"id": "C79", "title": "what predictions depend on", "statement": "Outputs that no kernel correlates are predicted separately: the means and variances of a group of outputs do not depend on the inputs, values or number of samples of outputs uncorrelated with them, as long as the grid stays the same. Variances do not depend on the observed values at all, except for the units of the normalisation. Without normalisation, means are linear in the observed values.", "quantifier": "all data, kernels, groups of outputs, modes, requested points, fitted models with exact solves; all linear combinations of values", "why_tests_cant": "relates predictions of pairs and triples of models over all data; tests compare single predictions to numbers", "anchors": ["runlmc/models/interpolated_llgp.py:_raw_predict", "runlmc/models/interpolated_llgp.py:_var_predict_on_the_fly", "runlmc/models/interpolated_llgp.py:_var_predict_precompute", "runlmc/models/interpolated_llgp.py:_var_predict_exact", "runlmc/lmc/grid_kernel.py:gen_grid_kernel"]}
{"id": "C80", "title": "predictions do not jump", "statement": "Predicted means and variances are Lipschitz functions of the requested point: they change by at most a constant (of the fitted model) times the distance of two points, inside and across grid cells, outside the grid and far from the data, in every mode, whatever else is requested. Predicted means are bounded over all of the input space.", "quantifier": "all data, kernels (without identity kernels, for which predict raises), modes, fitted models with exact solves; all pairs of requests and points", "why_tests_cant": "continuity across all cell borders and beyond the grid, over a continuum of points; tests evaluate finitely many", "anchors": ["runlmc/models/interpolated_llgp.py:_raw_predict", "runlmc/approx/interpolation.py:cubic_kernel", "runlmc/approx/interpolation.py:interp_cubic", "runlmc/approx/interpolation.py:interp_bicubic", "runlmc/models/interpolated_llgp.py:_var_predict_on_the_fly", "runlmc/models/interpolated_llgp.py:_var_predict_precompute", "runlmc/models/interpolated_llgp.py:_var_predict_exact"]}
{"id": "C81", "title": "synthetic benchmark data", "statement": "For all random draws the script that generates the synthetic data runs to its end; its values are standard normal draws times a lower triangular square root of the documented covariance (two mixed RBF processes, one RBF process per output, noise 1/10). The files for COGP list sample i of output a on line a N + i, with the value in column a only. The benchmark's split holds out exactly the samples of the last output in the upper right quadrant, keeps the others in order with their values, and scores the last output only. The models fitted can represent the distribution the data were drawn from.", "quantifier": "all draws, sample counts, coregionalization vectors and inputs; all five-output data for the split", "why_tests_cant": "no tests cover the script; claims are over all draws", "anchors": ["data/synth/mkdata.py", "benchmarks/benchlib/standard_tester.py:synth", "benchmarks/benchlib/standard_tester.py:gen_random_k", "benchmarks/benchlib/standard_tester.py:synth_gen", "runlmc/lmc/likelihood.py:kernel_from_indices"]}
{"id": "C82", "title": "far from the data", "statement": "Past the end of a grid (one spacing or more) predicted means are frozen at their value at the end, however far the requested point is, and so are the variances of the precompute mode. In the other modes, with kernels that tend to zero, variances come as close to the prior variance as one likes once, for each kernel, some coordinate it uses is large. Hence means do not return to the prior mean: for a model with one RBF kernel the mean stays at a nonzero constant while the variance is that of the prior.", "quantifier": "all data, kernels, modes, fitted models with exact solves, all requests; every tolerance", "why_tests_cant": "a limit at infinity over all points, kernels and data; the tests never predict outside the grid", "anchors": ["runlmc/approx/interpolation.py:interp_cubic", "runlmc/approx/interpolation.py:interp_bicubic", "runlmc/models/interpolated_llgp.py:_raw_predict", "runlmc/models/interpolated_llgp.py:_var_predict_on_the_fly", "runlmc/models/interpolated_llgp.py:_var_predict_precompute", "runlmc/models/interpolated_llgp.py:_var_predict_exact"]}
{"id": "C83", "title": "noise, predictions and the likelihood", "statement": "With all other parameters fixed, more noise on any outputs never lowers a predicted variance of any output, and a variance that is not cut off at zero grows by at least what the noise of its own output grows (precomputed variances: at grid points). With noise of at least s on every output, predicted means are within M/s of the output's mean and variances within M/s of the prior variance, M not depending on the noise. The log likelihood is at most that of pure noise at zero values, whatever the data and the other parameters, so it cannot diverge upwards while the noise is bounded below.", "quantifier": "all data, kernels, noise vectors, modes, requests, fitted models with exact solves", "why_tests_cant": "an inequality between two fitted models for every pair of noise vectors, a limit, and a bound over all parameters", "anchors": ["runlmc/models/interpolated_llgp.py:_raw_predict", "runlmc/models/interpolated_llgp.py:log_likelihood", "runlmc/lmc/functional_kernel.py:noise", "runlmc/models/interpolated_llgp.py:_var_predict_exact"]}
{"id": "C84", "title": "best linear prediction", "statement": "Take random observations with the model's covariance (the linear model of coregionalisation plus each observation's own noise) and a new noisy observation of any output at any point. The variance predicted in exact mode is the least expected squared error that any affine function of the observations can have as a prediction of the new one, attained by one choice of weights only; the predicted mean is linear in the data, so its error is never below the predicted variance, and it has exactly those best weights when data and request lie on the grid. On-the-fly predictions on the grid are best linear predictions as well.", "quantifier": "all data, kernels, parameters, outputs, points, probability spaces, affine predictors", "why_tests_cant": "optimality over all predictors and all distributions with the given second moments", "anchors": ["runlmc/models/interpolated_llgp.py:_raw_predict", "runlmc/models/interpolated_llgp.py:_var_predict_exact", "runlmc/models/interpolated_llgp.py:_var_predict_on_the_fly"]}
{"id": "C85", "title": "chain rule of the log likelihood", "statement": "Let one model have the samples of another and one more, the same parameters and the same normalisation, all samples on the grid. Then the log likelihoods differ by the log density that the smaller model predicts for the extra sample: the normal density with the predicted mean and variance, at the extra value, in normalised units. Holds for exact and on-the-fly predictions, for any output, any position of the extra sample in the data.", "quantifier": "all pairs of models with one sample more, all outputs, points, values, kernels and parameters", "why_tests_cant": "an identity between likelihoods of two fitted models and the predictions of one, for all data", "anchors": ["runlmc/models/interpolated_llgp.py:log_likelihood", "runlmc/models/interpolated_llgp.py:log_det_K", "runlmc/models/interpolated_llgp.py:normal_quadratic", "runlmc/models/interpolated_llgp.py:_raw_predict"]}
{"id": "C86", "title": "data drawn from the model", "statement": "Let the values be random with mean zero and the covariances of the model with parameters f. (a) Every entry of every gradient of the exact likelihood at f has expected value zero: at the true parameters the optimiser sees no drift; for the stochastic likelihood the same holds on average over its probes, the values having the covariances of its operator. (b) On the grid the expected log likelihood of the model with the true parameters is -(ln det K + n + n ln 2 pi)/2, no other parameters on the same inputs have a greater one, and only parameters with the same covariance matrix of the observations attain it.", "quantifier": "all expectation functionals, random values, inputs, kernels, ranks, noise levels, and all competing parameters", "why_tests_cant": "expected values over all data and a maximum over all parameters", "anchors": ["runlmc/lmc/likelihood.py:coreg_vec_gradients", "runlmc/lmc/likelihood.py:kernel_gradients", "runlmc/lmc/likelihood.py:noise_gradient", "runlmc/lmc/exact_deriv.py:derivative", "runlmc/models/interpolated_llgp.py:log_likelihood"]}
{"id": "C87", "title": "the report of the optimisation benchmark", "statement": "For any model, 'bench.py ... opt' prints for each kind of parameter the number of its partial derivatives, and in the summary their total number, the average absolute error and magnitude over all of them, and the ratio of the l1 and l2 norms of the errors to those of the exact gradients.", "quantifier": "all exact and approximate gradients of models with any numbers of kernels, outputs, ranks and kernel parameters", "why_tests_cant": "the count is right for one output, and the stacking works for equal ranks, which is all that the benchmark builds", "anchors": ["benchmarks/benchlib/bench.py:check_grads", "benchmarks/benchlib/bench.py:run_kernel_benchmark"]}
{"id": "C88", "title": "progress lines and the plotted cut-off", "statement": "With verbosity v AdaDelta prints v progress lines over a full run, at regular intervals, and none for v = 0; the moving averages of the metrics plot are averages of the last n values, and the line labelled 'min grad cutoff' is the one below which AdaDelta counts a gradient norm as a drop.", "quantifier": "all verbosities, iteration limits, sequences of gradients and window lengths", "why_tests_cant": "the interval comes from a floored quotient, so the number of lines depends on the remainder of the iteration limit; the line agrees with the stopping rule for one ratio only", "anchors": ["runlmc/models/optimization.py:AdaDelta._print_update", "benchmarks/pictures/fxmetrics.py:moving_average", "benchmarks/pictures/fxmetrics.py:div_rolled_max"]}
{"id": "C89", "title": "worker processes", "statement": "A model runs serially for one process or fewer than 300 observations and otherwise starts as many workers as asked for (by default one per processor); it warns about OMP threads exactly when it starts workers while OMP_NUM_THREADS is unset.", "quantifier": "all numbers of processors, requested processes and observations, with the variable set or not", "why_tests_cant": "depends on the machine and the environment, and the tests use few observations", "anchors": ["runlmc/models/interpolated_llgp.py:InterpolatedLLGP._generate_pool", "runlmc/models/interpolated_llgp.py:InterpolatedLLGP._check_omp"]}
{"id": "C90", "title": "the other testing utilities", "statement": "The systems that run_main hands to a benchmark are symmetric with smallest eigenvalue at least eps, in every form, and stay the same when kept; its arguments are checked as the usage says; a printed seed reproduces a run; check_np_lists is a symmetric comparison; a vectorised function is applied to rows; and one step of SingleGradOptimizer does not lower the objective.", "quantifier": "all sizes, draws, arguments, lists of arrays and objectives with a Lipschitz gradient", "why_tests_cant": "the utilities are what the tests rest on; nothing tests them", "anchors": ["runlmc/util/testing_utils.py:run_main", "runlmc/util/testing_utils.py:check_np_lists", "runlmc/util/testing_utils.py:SingleGradOptimizer", "runlmc/util/testing_utils.py:RandomTest", "runlmc/util/testing_utils.py:vectorize_inputs"]}
{"id": "C91", "title": "the log likelihood of uncorrelated outputs", "statement": "If no kernel correlates the outputs in a set with the others, the log likelihood is the sum of a part determined by the data of the outputs in the set and a part determined by the data of the others: replacing the samples of some outputs changes it by an amount that does not depend on the samples of outputs uncorrelated with them, as long as the grid stays the same.", "quantifier": "all models, all sets of outputs, any numbers of samples, inputs and values", "why_tests_cant": "compares four models at once, for all data sets", "anchors": ["runlmc/models/interpolated_llgp.py:InterpolatedLLGP.log_likelihood", "runlmc/models/interpolated_llgp.py:InterpolatedLLGP.log_det_K", "runlmc/models/interpolated_llgp.py:InterpolatedLLGP.normal_quadratic"]}
{"id": "C92", "title": "fine grids and accurate solves give the exact Gaussian process", "statement": "Over fixed data, bounds and parameters the interpolation error is at most a constant over the cube of the number of grid cells. The log likelihood differs from that of the exact Gaussian process by at most (|y| eps / s + n E |y|^2 / s^2) / 2 for residuals eps, interpolation error E and noise at least s. For every tolerance there are a number of cells and a residual from which on the log likelihood, the means at points between inputs and bounds, and the variances computed on the fly are within the tolerance of those of the exact Gaussian process, for all requests at once.", "quantifier": "all kernels without identities, parameters, data, bounds, tolerances, grids with enough cells, solvers with small enough residuals, requests", "why_tests_cant": "a limit over infinitely many grids and solvers, uniform over all predictions", "anchors": ["runlmc/models/interpolated_llgp.py:InterpolatedLLGP.log_likelihood", "runlmc/models/interpolated_llgp.py:InterpolatedLLGP._raw_predict", "runlmc/approx/interpolation.py:autogrid"]}
{"id": "C93", "title": "heat maps of the gradient benchmark", "statement": "printimg draws a panel for every kernel in the summary; each cell has the (negated) logarithm of the value in the row its labels name, labels descend in both directions, and a cell is empty exactly if there is no such row. The colours are scaled to the smallest range with zero and all cells in it, and the two numbers in a panel are its least and greatest value, on their cells. Two rows for the same kernel, q and eps are refused.", "quantifier": "all data frames with positive values", "why_tests_cant": "all sets of rows in all orders; whether incomplete runs spoil the picture is only seen on them", "anchors": ["benchmarks/grad-grid/makepics.py:printimg"]}
{"id": "C94", "title": "the mode of prediction can be switched on a fitted model", "statement": "Assigning another of the three names to the attribute prediction of a fitted model takes effect at once: every later question is answered as if the model had been built with that mode, whatever was asked and cached before and however many models share the caches. Covariance, log determinant, quadratic form, log likelihood and predicted means do not change, replies of other models do not change, and switching back restores all replies. More generally replies depend on the present parameters and modes only.", "quantifier": "all histories of any number of valid models, updates, queries, optimisations and switches", "why_tests_cant": "all interleavings; stale caches show only in some of them", "anchors": ["runlmc/models/interpolated_llgp.py:InterpolatedLLGP._raw_predict", "benchmarks/pictures/pics.py"]}
{"id": "C95", "title": "gradients converge to those of the exact log likelihood", "statement": "For fixed kernels, parameters, data and bounds there is one constant C such that, for every grid with at least M cells per dimension and every solver leaving residuals of at most eps <= 1, parameters_changed succeeds for all draws of the probes and, for every parameter (coregionalisation vectors, diagonals, kernel parameters, noises), the mean over the draws of the gradient it assigns is within C (1/M^3 + eps) of the derivative of the exact log likelihood in that parameter; the derivatives of the covariance itself are within C/M^3 entry by entry. Hence for every eta > 0 there are M and eps that make all gradients correct within eta.", "quantifier": "all kernels without identities, all data, bounds, grids, solvers, numbers of probes, parameters and eta > 0", "why_tests_cant": "The tests compare gradients on one grid size with tolerances; a limit statement over all grids and solvers with one constant cannot be sampled.", "anchors": ["runlmc/models/interpolated_llgp.py:InterpolatedLLGP.parameters_changed", "runlmc/lmc/likelihood.py:ApproxLMCLikelihood", "runlmc/kern/std_periodic.py:StdPeriodic.kernel_gradient"]}
{"id": "C96", "title": "precomputed variances converge to the exact ones", "statement": "For fixed kernels on all dimensions, parameters, data and bounds there is one constant C such that, for every grid with at least M cells per dimension and every solver leaving residuals of at most eps, predictions with precomputed variances succeed and, at every requested point between inputs and bounds, the variance is within C (1/M^3 + eps) of that of the exact Gaussian process. Hence for every eta > 0 there are M and eps that make all precomputed variances correct within eta, and within eta of the variances that the same model computes on the fly.", "quantifier": "all kernels without identities on all dimensions, all data, bounds, grids, solvers, requests of predictions and eta > 0", "why_tests_cant": "The tests compare the modes of prediction on single grids with tolerances; a rate over all grids, solvers and requests with one constant cannot be sampled.", "anchors": ["runlmc/models/interpolated_llgp.py:InterpolatedLLGP._var_predict_precompute", "runlmc/models/interpolated_llgp.py:InterpolatedLLGP._precomputed_nu"]}
{"id": "C97", "title": "the benchmark of the library completes and reports means and standard errors", "statement": "For valid data, kernels as the benchmarks generate them, any random draws and any parameters that the optimiser tries, bench_runlmc completes; each number that asv tracks is the mean, or the standard error of the mean, over the runs of the seconds, of the standardised mean squared error and of the average surprise over the test points with positive variance; variances are not negative, and positive in exact mode; return_lmc adds the model of the last run. The models that the FX and weather benchmarks train have the covariance of r shared parts and one part per output whose amplitude stays 1, and those of Alvarez and Lawrence have intrinsic coregionalization. With no runs all numbers are nan, or UnboundLocalError is raised. False: return_lmc=False does not return the model.", "quantifier": "all valid data, test data, grids, modes of prediction, numbers of runs, draws, solvers that return, and sequences of parameters", "why_tests_cant": "The benchmarks are not tested; a run takes minutes, its draws and the path of the optimiser are random, and what is reported is never compared with anything.", "anchors": ["benchmarks/benchlib/standard_tester.py:bench_runlmc", "benchmarks/benchlib/standard_tester.py:slfm_gp", "benchmarks/benchlib/standard_tester.py:alvarez_and_lawrence_gp", "benchmarks/asv/fx2007/fx2007.py", "benchmarks/asv/weather/weather.py"]}
{"id": "C98", "title": "what the pictures of the benchmarks show", "statement": "For a fitted model in one dimension, columns with distinct names and training inputs for each, the picture of the exchange rates has one panel for each of the first three names, in order; its lines run over every day from the first to the last training day, and show what the model predicts, with precomputed variances, for the output of that name, with two standard deviations on each side, never undefined; the other lines and points are COGP's results, the training points and the held-out points of the same name. The picture of the temperatures shows the same at the distinct training times of all sensors between 10 and 15, in increasing order, with the training points in that window; held-out points of intervals in that window lie in it. The bands carry between 95 and 96 percent of the normal distribution shown. If COGP's results are for another number of days or times, ValueError or IndexError is raised. False: there is a picture whenever COGP's results are for every day of the data.", "quantifier": "all fitted models, data, names, results of COGP, numbers of columns and days, solvers that return", "why_tests_cant": "The pictures are looked at, not tested; a panel that shows another output's points or a band of another width looks as plausible.", "anchors": ["benchmarks/pictures/pics.py", "benchmarks/benchlib/standard_tester.py:foreign_exchange_2007", "benchmarks/benchlib/standard_tester.py:weather"]}
{"id": "C99", "title": "multilevel priors", "statement": "A prior may have parameters of the model as its parameters. The log prior is then log p(theta | phi) as long as these have the values they had when the prior was made, and afterwards is off by the change of the normalising factors alone. The gradient reported for a parameter that is one of a prior's is that of a model where the prior has the current number in its place; it lacks exactly the derivatives of the log densities of the level below, both against the objective that is meant and against the one that is computed, and does not depend on the values on that level. With inverse Gamma priors below, as in the notebook, it is never the gradient of the objective that is computed. False: the model adds the missing log p(theta | phi) term and its derivative (docstring of Model, with the notebook's multilevel prior).", "quantifier": "all numbers of parameters, values, priors of the four kinds with numbers or parameters as their parameters, constraints, log likelihoods and their gradients", "why_tests_cant": "The tests only use priors with numbers; a wrong gradient for a hyperparameter only slows or misleads an optimiser.", "anchors": ["runlmc/parameterization/priors.py", "runlmc/parameterization/model.py:_log_prior_gradients", "examples/example.ipynb"]}
{"id": "C100", "title": "quantiles are quantiles, and the log prior is the logarithm of a density", "statement": "The density of the normal distribution that predict reports for a point integrates to q/100 below the entry predict_quantiles reports for the percentage q, and to the difference between the entries of two percentages; in exact mode, after a fit, the default pair therefore bounds exactly 95 percent, at every point of every output, normalised or not. The log prior is the logarithm of a density over the optimiser's coordinates: integrated over the free coordinate of a positive parameter with a Gamma, inverse Gamma or half Laplace prior, or over an unconstrained parameter with a Gaussian one, its exponential is that of the log prior with that prior unset, so that the whole integrates to one, the Jacobian terms included.", "quantifier": "all percentages strictly between 0 and 100, request points, trained models (exact mode for the interval); all numbers of parameters, values, priors and constraints", "why_tests_cant": "The tests compare quantiles with the same formula and log priors at a few points; neither integrates a density over the real line.", "anchors": ["runlmc/models/multigp.py:MultiGP.predict_quantiles", "runlmc/parameterization/model.py:log_prior", "runlmc/parameterization/priors.py"]}
{"id": "C101", "title": "dimensions of inputs and of kernels", "statement": "Inputs of any number of dimensions are accepted, with different kernels on different subsets of them, as long as each acts on one or two in which the inputs differ. No model can be built in which a kernel acts on none, on three or more, or on a dimension that the inputs lack; kernels over all of three or more dimensions raise ValueError. False: only one-dimensional input is supported (note in the class's documentation).", "quantifier": "all data sets, numbers of dimensions, functional kernels, grids, modes", "why_tests_cant": "The tests build a few models of one and two dimensions.", "anchors": ["README.md", "runlmc/models/interpolated_llgp.py:InterpolatedLLGP.__init__", "runlmc/models/interpolated_llgp.py:_generate_grids", "runlmc/approx/interpolation.py:multi_interpolant"]}
{"id": "C102", "title": "settings of the optimiser", "statement": "Every keyword argument of AdaDelta is used under its name and every one left out has the documented default; the settings of the step rule, and no others, are handed to climin; a name that is not understood raises TypeError at the run, before any iteration, and is never ignored. A run under given or default settings ends after at most max_it iterations (100 unless given, at least 1). Options of optimize are handed on, with defaults for the others.", "quantifier": "all dictionaries of keyword arguments, all gradients", "why_tests_cant": "The optimiser is marked as untested in the repository; tests could try only a few of the combinations of settings.", "anchors": ["runlmc/models/optimization.py:AdaDelta.__init__", "runlmc/models/optimization.py:AdaDelta._prepare_adadelta", "runlmc/models/optimization.py:AdaDelta.opt", "runlmc/models/multigp.py:MultiGP.optimize"]}
{"id": "C103", "title": "tables of the comparison of representations", "statement": "The script representation-cmp/run.sh makes, from any number of runs, a LaTeX table with one row for each of the three settings, showing D, R, Q and the average times of cholesky, sum, bt and slfm (minres) under that setting, the least in bold face. bench.py accepts the arguments of all three settings for 80 or more points. False: the human-readable results.txt shows the same for all settings (each tee overwrites it; only the averages of the last setting remain, without title).", "quantifier": "all numbers of runs, times, other output lines, matrix sizes", "why_tests_cant": "The scripts have no tests; their validation mode counts files and lines only.", "anchors": ["benchmarks/representation-cmp/run.sh", "benchmarks/benchlib/inv-run.sh", "benchmarks/benchlib/bench.py:run_kernel_benchmark"]}
{"id": "C104", "title": "summary of the gradient benchmark", "statement": "For any output of the runs, extracted_summary.csv goes through all combinations of Q, eps and kernel in order, with one line for each of which all five runs printed all errors and none for the others: the combination, the ratio of average times (cholesky to runlmc) and the averages over the five runs of the relative errors. If all runs succeed there are 60 lines, 16 in validation. n, d and r are those with which the benchmark was called: true of the full benchmark, false in validation. False: errors that are nan are not averaged as if they were 0.", "quantifier": "all outputs of bench.py, including runs that fail or print nan", "why_tests_cant": "The scripts have no tests; their validation counts files and lines only.", "anchors": ["benchmarks/grad-grid/run.sh", "benchmarks/grad-grid/slurm-job.sh"]}
