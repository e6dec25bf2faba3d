{"id": "C01", "title": "All methods compute the textbook biased squared distance covariance", "statement": "distance_covariance_sqr(x, y, exponent=e, method=m, compile_mode=c) returns (1/n^2) * sum_ij A_ij B_ij, where A and B are the double centred e-th power Euclidean distance matrices of the two samples, for every method and compile mode that accepts the input; hence any two accepted methods agree.", "quantifier": "all samples of any size n>=1 and any dimension, all exponents >0, all four methods, all compile modes, every tie-breaking of the sort and every content of uninitialised buffers", "why_tests_cant": "The fast algorithms (O(n log n)) index scratch buffers whose layout depends on n and on the rank permutation; tests only sample sizes up to 10 and a handful of seeds, while the claim ranges over all sizes, all permutations and all tie patterns.", "anchors": ["dcor/_dcor.py:distance_covariance_sqr", "dcor/_fast_dcov_avl.py:_distance_covariance_sqr_terms_avl", "dcor/_fast_dcov_mergesort.py:_distance_covariance_sqr_terms_mergesort", "dcor/_dcor_internals.py:_dcov_terms_naive", "dcor/_dcor_internals.py:_dcov_from_terms"]}
{"id": "C02", "title": "All methods compute the textbook unbiased squared distance covariance", "statement": "u_distance_covariance_sqr(x, y, ...) returns (1/(n(n-3))) * sum_{i<>j} A~_ij B~_ij with A~ and B~ the U-centred distance matrices, for every accepting method and compile mode, when n >= 4.", "quantifier": "all samples with n>=4, any dimension, all exponents >0, all methods and compile modes", "why_tests_cant": "Same as C01; additionally the code never builds the U-centred matrices but uses a closed form with n-1, n-2, n-3 denominators, whose equality to the definition is an identity for every n.", "anchors": ["dcor/_dcor.py:u_distance_covariance_sqr", "dcor/_dcor_internals.py:_dcov_from_terms"]}
{"id": "C03", "title": "Method/exponent/compile-mode acceptance table", "statement": "For samples of equal size, a call to distance_covariance_sqr or u_distance_covariance_sqr succeeds exactly on the documented combinations and otherwise raises the specific exception: exponent<>1 with a fast method raises ValueError, a multivariate sample with a fast method raises AssertionError, AVL with n<=3 raises AssertionError, an unsupported compile mode raises NotImplementedError, an integer sample with COMPILE_CPU raises TypeError.", "quantifier": "all inputs x all exponents x 4 methods x 4 compile modes x all dtypes", "why_tests_cant": "The product of input shapes, dtypes, exponents, methods and modes is unbounded and the order of the checks decides which exception is seen.", "anchors": ["dcor/_dcor.py:_dcov_terms_auto", "dcor/_dcor.py:_can_use_fast_algorithm", "dcor/_fast_dcov_avl.py:_distance_covariance_sqr_terms_avl", "dcor/_fast_dcov_mergesort.py:_distance_covariance_sqr_terms_mergesort", "dcor/_dcor_internals.py:_dcov_terms_naive"]}
{"id": "C04", "title": "AUTO never fails where NAIVE works", "statement": "With method AUTO and compile mode AUTO or NO_COMPILE, distance_covariance_sqr succeeds on every pair of samples of the same size and equals the NAIVE result.", "quantifier": "all samples with n>=1 observations, any dimension, dtype and exponent >0", "why_tests_cant": "AUTO picks AVL on a condition (shape, n>3, exponent) and AVL has its own assertions; that the condition always implies the assertions is a statement about all inputs.", "anchors": ["dcor/_dcor.py:_dcov_terms_auto", "dcor/_fast_dcov_avl.py:_get_impl_args"]}
{"id": "C05", "title": "The statistics bundle is consistent with the individual functions", "statement": "distance_stats_sqr(x,y) has covariance_xy = distance_covariance_sqr(x,y), correlation_xy = distance_correlation_sqr(x,y), variance_x = distance_covariance_sqr(x,x), variance_y = distance_covariance_sqr(y,y); same for u_distance_stats_sqr and, through the square root, distance_stats.", "quantifier": "all samples of equal size, every accepted method and compile mode", "why_tests_cant": "The fast methods compute the variances by a different formula (2 n^2 var) than the covariances; their equality is an algebraic identity over all samples.", "anchors": ["dcor/_dcor.py:distance_stats_sqr", "dcor/_dcor.py:u_distance_stats_sqr", "dcor/_dcor.py:distance_stats", "dcor/_fast_dcov_avl.py:_distance_covariance_sqr_terms_avl", "dcor/_fast_dcov_mergesort.py:_distance_covariance_sqr_terms_mergesort"]}
{"id": "C06", "title": "Squared distance covariance is never negative", "statement": "distance_covariance_sqr(x,y,exponent=e) >= 0 for 0 < e <= 2; therefore distance_covariance is its exact square root (the clamp of negative values never changes the exact value).", "quantifier": "all samples of any size and dimension, all exponents in (0,2]", "why_tests_cant": "It is a positive-definiteness statement about Euclidean distances raised to any power in (0,2]; no finite set of tests settles it.", "anchors": ["dcor/_dcor.py:distance_covariance_sqr", "dcor/_dcor.py:distance_covariance", "dcor/_utils.py:_sqrt"]}
{"id": "C07", "title": "Distance correlation lies in [0,1]", "statement": "0 <= distance_correlation_sqr(x,y) <= 1 and 0 <= distance_correlation(x,y) <= 1.", "quantifier": "all samples of any size n>=1 and dimension, exponents in (0,2], every accepted method", "why_tests_cant": "An inequality over all real inputs (Cauchy-Schwarz plus positive definiteness).", "anchors": ["dcor/_dcor.py:distance_correlation_sqr", "dcor/_dcor.py:distance_correlation", "dcor/_dcor.py:_DcovAlgorithmInternals.stats_sqr"]}
{"id": "C08", "title": "Bias-corrected distance correlation lies in [-1,1]", "statement": "-1 <= u_distance_correlation_sqr(x,y) <= 1 for n >= 4, and u_distance_covariance_sqr(x,x) >= 0.", "quantifier": "all samples with n>=4, any dimension and exponent >0, every accepted method", "why_tests_cant": "Inequality over all inputs; tests check sample values only.", "anchors": ["dcor/_dcor.py:u_distance_correlation_sqr", "dcor/_dcor.py:u_distance_stats_sqr"]}
{"id": "C09", "title": "Symmetry in the two samples", "statement": "Swapping the samples does not change distance_covariance_sqr, u_distance_covariance_sqr, distance_correlation_sqr, u_distance_correlation_sqr (the fast algorithms sort by the first sample only, yet the result is symmetric).", "quantifier": "all samples, every accepted method", "why_tests_cant": "The fast algorithms treat x and y asymmetrically, so symmetry is a global consequence, not visible in the code.", "anchors": ["dcor/_dcor.py:distance_covariance_sqr", "dcor/_fast_dcov_mergesort.py:_compute_aijbij_term", "dcor/_fast_dcov_avl.py:_partial_sum_2d"]}
{"id": "C10", "title": "Reordering the observations changes nothing", "statement": "Applying one permutation to the rows of both samples leaves every distance covariance/correlation statistic unchanged.", "quantifier": "all samples and all permutations of their rows", "why_tests_cant": "n! permutations for every n; the fast algorithms start by sorting, so the execution differs completely.", "anchors": ["dcor/_dcor.py:distance_covariance_sqr", "dcor/_dcor.py:distance_correlation_sqr", "dcor/_partial_dcor.py:partial_distance_covariance"]}
{"id": "C11", "title": "Translation and isometry invariance", "statement": "Replacing either sample by a translated, or more generally isometrically mapped (all pairwise distances preserved) sample, does not change any distance covariance/correlation statistic.", "quantifier": "all samples, all translation vectors, all isometries", "why_tests_cant": "Quantifies over all isometries of Euclidean spaces.", "anchors": ["dcor/_dcor.py:distance_covariance_sqr", "dcor/distances.py:pairwise_distances"]}
{"id": "C12", "title": "Scale equivariance", "statement": "distance_covariance_sqr(a*x, b*y, exponent=e) = |a|^e |b|^e distance_covariance_sqr(x,y,exponent=e); distance_correlation_sqr is unchanged for non-zero a, b; same for the unbiased versions.", "quantifier": "all samples, all scalars, exponents >0", "why_tests_cant": "Quantifies over all reals.", "anchors": ["dcor/_dcor.py:distance_covariance_sqr", "dcor/_dcor.py:distance_correlation_sqr"]}
{"id": "C13", "title": "Distance correlation one means proportional distances", "statement": "distance_correlation_sqr(x,y) = 1 if and only if neither sample is constant and the two distance matrices are proportional; in particular distance_correlation(x,x) = 1 for every non-constant x.", "quantifier": "all samples with n>=2, any dimensions and exponents in (0,2]", "why_tests_cant": "Equality case of an inequality over all inputs.", "anchors": ["dcor/_dcor.py:distance_correlation_sqr"]}
{"id": "C14", "title": "Zero distance variance means a constant sample", "statement": "distance_covariance_sqr(x,x) = 0 if and only if all the observations of x are equal; a constant sample has distance covariance and correlation 0 with everything (no division by zero).", "quantifier": "all samples, any dimension, exponents >0", "why_tests_cant": "If-and-only-if over all inputs, including all degenerate ones.", "anchors": ["dcor/_dcor.py:distance_covariance_sqr", "dcor/_dcor.py:_DcovAlgorithmInternals.stats_sqr"]}
{"id": "C15", "title": "Zero distance covariance characterises empirical independence", "statement": "For exponents in (0,2), distance_covariance_sqr(x,y) = 0 if and only if the empirical joint distribution of the pairs is the product of the empirical marginals.", "quantifier": "all samples of any size and any dimensions, all exponents in (0,2)", "why_tests_cant": "This is the defining property of distance covariance; it is an equivalence over all samples.", "anchors": ["dcor/_dcor.py:distance_covariance_sqr", "dcor/_dcor_internals.py:_check_valid_dcov_exponent"]}
{"id": "C16", "title": "Exponent 2 degenerates to ordinary covariance, and the warning is exact", "statement": "With exponent 2 the squared distance covariance of univariate samples is 4 cov(x,y)^2, so it does not characterise independence; the naive path emits the exponent warning exactly when the exponent is outside (0,2).", "quantifier": "all univariate samples; all exponents", "why_tests_cant": "Identity over all inputs, and an existence of counterexample; the warning condition ranges over all reals.", "anchors": ["dcor/_dcor_internals.py:_check_valid_dcov_exponent", "dcor/_dcor_internals.py:_compute_distances"]}
{"id": "C17", "title": "double_centered contract", "statement": "For a symmetric square matrix, double_centered returns the matrix with entries a_ij - row mean - column mean + grand mean; all its rows and columns sum to 0; applying it twice changes nothing. For a non symmetric matrix the documented formula does not hold.", "quantifier": "all square symmetric matrices of any size n>=1", "why_tests_cant": "All sizes and all entries.", "anchors": ["dcor/_dcor_internals.py:double_centered", "dcor/_dcor_internals.py:_symmetric_matrix_sums"]}
{"id": "C18", "title": "u_centered contract", "statement": "For a symmetric square matrix with zero diagonal and n>=3, u_centered returns the documented U-centred matrix: zero diagonal, rows and columns summing to 0, and applying it twice changes nothing.", "quantifier": "all symmetric hollow matrices of size n>=3", "why_tests_cant": "All sizes and all entries.", "anchors": ["dcor/_dcor_internals.py:u_centered"]}
{"id": "C19", "title": "The out parameter and aliasing", "statement": "double_centered(a, out=o) and u_centered(a, out=o) return o, leave every other array unchanged, and give the same values as with out=None, also when o is a itself; with out=None they return a new array and leave a unchanged.", "quantifier": "all matrices and every aliasing pattern between a and out", "why_tests_cant": "The order of in-place updates matters only under aliasing; all aliasing patterns and matrices must be covered.", "anchors": ["dcor/_dcor_internals.py:double_centered", "dcor/_dcor_internals.py:u_centered", "dcor/_dcor_internals.py:_float_copy_to_out"]}
{"id": "C20", "title": "mean_product and u_product of centred matrices are the two estimators", "statement": "mean_product(double_centered(a), double_centered(b)) and u_product(u_centered(a), u_centered(b)) equal the values distance_covariance_sqr and u_distance_covariance_sqr compute from uncentred sums, for the distance matrices a, b.", "quantifier": "all symmetric hollow matrices (in particular all distance matrices), n>=1 resp. n>=4", "why_tests_cant": "Algebraic identity over all matrices of all sizes.", "anchors": ["dcor/_dcor_internals.py:mean_product", "dcor/_dcor_internals.py:u_product", "dcor/_dcor_internals.py:_dcov_from_terms", "dcor/_dcor_internals.py:double_centered", "dcor/_dcor_internals.py:u_centered"]}
{"id": "C21", "title": "u_projection is the orthogonal projection", "statement": "For u_projection(c): the projection is linear, idempotent, fixes c, the remainder computed by u_complementary_projection is orthogonal to c under u_product, and projecting on the zero matrix gives zero.", "quantifier": "all square matrices of equal size n>=4", "why_tests_cant": "Universal algebraic laws.", "anchors": ["dcor/_dcor_internals.py:u_projection", "dcor/_dcor_internals.py:u_complementary_projection", "dcor/_dcor_internals.py:u_product"]}
{"id": "C22", "title": "Partial distance covariance closed form and degenerate cases", "statement": "partial_distance_covariance(x,y,z) = <a,b> - <a,c><b,c>/<c,c> (or <a,b> if <c,c>=0) with the bias-corrected inner products; it is symmetric in x,y and is 0 when x or y equals z; for a constant z it equals u_distance_covariance_sqr(x,y).", "quantifier": "all samples with n>=4 of the same size, any dimensions", "why_tests_cant": "Identity and equivalences over all inputs.", "anchors": ["dcor/_partial_dcor.py:partial_distance_covariance", "dcor/_dcor_internals.py:u_complementary_projection"]}
{"id": "C23", "title": "Partial distance correlation range and meaning", "statement": "partial_distance_correlation(x,y,z) lies in [-1,1], is symmetric in x and y, never divides by zero, and equals the cosine of the two residuals whose product partial_distance_covariance returns, whenever these are non-zero.", "quantifier": "all samples with n>=4 of the same size, any dimensions, including degenerate ones", "why_tests_cant": "Inequality over all inputs (Gram determinant).", "anchors": ["dcor/_partial_dcor.py:partial_distance_correlation", "dcor/_partial_dcor.py:partial_distance_covariance"]}
{"id": "C24", "title": "Energy distance is a non-negative symmetric quantity", "statement": "energy_distance(x,y,exponent=e) (V-statistic, mean) = 2 mean|x_i-y_j|^e - mean|x_i-x_j|^e - mean|y_i-y_j|^e, is >= 0 for 0<e<=2, is symmetric, and energy_distance(x,x) = 0.", "quantifier": "all pairs of samples of any sizes and common dimension, exponents in (0,2]", "why_tests_cant": "Positive definiteness over all inputs.", "anchors": ["dcor/_energy.py:energy_distance", "dcor/_energy.py:_energy_distance_from_distance_matrices"]}
{"id": "C25", "title": "Energy distance zero characterises equal empirical distributions", "statement": "For exponents in (0,2), energy_distance(x,y) = 0 if and only if every point has the same relative frequency in both samples.", "quantifier": "all pairs of samples, exponents in (0,2)", "why_tests_cant": "Equivalence over all inputs.", "anchors": ["dcor/_energy.py:energy_distance"]}
{"id": "C26", "title": "Energy distance invariances", "statement": "energy_distance is unchanged by reordering either sample and by applying a common isometry/translation to both, and scales by |a|^e when both samples are multiplied by a.", "quantifier": "all samples, permutations, translations and scalars", "why_tests_cant": "Quantifies over all permutations and isometries.", "anchors": ["dcor/_energy.py:energy_distance", "dcor/homogeneity.py:energy_test_statistic"]}
{"id": "C27", "title": "U-statistic energy distance and the estimation_stat parameter", "statement": "With estimation_stat=U the within-sample averages run over the pairs i<j only; strings are accepted case-insensitively as 'u', 'v', 'u_statistic', 'v_statistic' and every other string raises KeyError.", "quantifier": "all samples with at least two observations; all strings", "why_tests_cant": "All strings and all samples.", "anchors": ["dcor/_energy.py:EstimationStatistic.from_string", "dcor/_energy.py:_get_flat_upper_matrix"]}
{"id": "C28", "title": "The k-sample energy test statistic", "statement": "The statistic reported by energy_test on k samples is the sum over all pairs of samples of energy_test_statistic of the pair (n m/(n+m) times their energy distance); for two samples it equals energy_test_statistic(x,y); a single sample is rejected with an exception.", "quantifier": "all k>=2 and all sample sizes", "why_tests_cant": "Slicing of the pooled matrix by running offsets must be right for all numbers and sizes of samples.", "anchors": ["dcor/homogeneity.py:energy_test", "dcor/homogeneity.py:_energy_test_statistic_multivariate_from_distance_matrix", "dcor/homogeneity.py:energy_test_statistic"]}
{"id": "C29", "title": "Range and granularity of permutation p-values", "statement": "For num_resamples = B >= 0, the p-value of a permutation test is (1 + #{resampled statistics strictly greater than the observed})/(B+1): it lies in [1/(B+1), 1], and is exactly 1 for B=0. A negative num_resamples is not rejected and yields a p-value outside [0,1] or an exception.", "quantifier": "all data, all random states, all numbers of resamples", "why_tests_cant": "All random streams.", "anchors": ["dcor/_hypothesis.py:_permutation_test_with_sym_matrix"]}
{"id": "C30", "title": "Permuting the matrix is permuting the data", "statement": "Each resampled statistic of distance_covariance_test equals n times distance_covariance_sqr of (permuted x, y), and each resampled statistic of energy_test equals the statistic of the samples obtained by permuting the pooled data.", "quantifier": "all samples and all permutations", "why_tests_cant": "All permutations of all sizes; the code permutes rows and columns of a (centred) matrix instead of the data.", "anchors": ["dcor/_hypothesis.py:_permuted_statistic", "dcor/independence.py:distance_covariance_test", "dcor/homogeneity.py:energy_test"]}
{"id": "C31", "title": "Test results do not depend on the parallel schedule and are reproducible", "statement": "For a fixed random state the p-value, the statistic and the final state of the generator are the same for every n_jobs, every batching of the jobs and every order in which the parallel jobs complete; an exception is raised exactly when the sequential evaluation raises one. No schedule gets stuck or goes on for ever.", "quantifier": "all schedules of dispatch and completion events, all numbers of workers", "why_tests_cant": "All interleavings.", "anchors": ["dcor/_hypothesis.py:_permutation_test_with_sym_matrix"]}
{"id": "C32", "title": "Validity of permutation p-values", "statement": "Rearrange one sample of distance_covariance_test (or the pooled observations of energy_test) by a uniformly random permutation and let the test draw its B permutations uniformly and independently: among the runs whose B+1 statistics are pairwise distinct, at most a proportion t has a p-value <= t. With ties the strict comparison makes this false: a constant sample gets the smallest possible p-value 1/(B+1).", "quantifier": "all B, all thresholds t, all tie-free statistic vectors; existence of a violating input with ties", "why_tests_cant": "A statement about every possible position of the observed statistic.", "anchors": ["dcor/_hypothesis.py:_permutation_test_with_sym_matrix", "dcor/independence.py:distance_covariance_test"]}
{"id": "C33", "title": "Distance correlation t-test", "statement": "distance_correlation_t_statistic = sqrt(v-1) R / sqrt(1-R^2) with v = n(n-3)/2 and R the bias-corrected distance correlation: it has the sign of R, is strictly increasing in R on (-1,1), is +inf for R=1; the p-value 1 - cdf(t) is in [0,1] and non-increasing in R.", "quantifier": "all samples with n>=4", "why_tests_cant": "Monotonicity over all inputs.", "anchors": ["dcor/independence.py:distance_correlation_t_statistic", "dcor/independence.py:distance_correlation_t_test"]}
{"id": "C34", "title": "rowwise equals mapping", "statement": "rowwise(f, X, Y) in AUTO mode returns [f(X[0],Y[0]), f(X[1],Y[1]), ...] for each supported f (distance_covariance(_sqr), u_distance_covariance_sqr, distance_correlation(_sqr), u_distance_correlation_sqr) including degenerate (constant) rows and in arithmetic where 0/0 is NaN, whether or not the optimised path is taken.", "quantifier": "all lists of sample pairs of equal lengths and sizes", "why_tests_cant": "All numbers of rows and all samples, including constant rows where the optimised path goes through 0/0.", "anchors": ["dcor/_rowwise.py:rowwise", "dcor/_rowwise.py:_generate_rowwise_distance_correlation_sqr", "dcor/_fast_dcov_avl.py:_rowwise_distance_covariance_sqr_avl_generic"]}
{"id": "C35", "title": "rowwise corner cases", "statement": "The optimised path is taken exactly for univariate samples of at least four observations with exponent 1, method AUTO or AVL given as enum members and a compile mode other than NO_COMPILE; otherwise AUTO does what NAIVE does and OPTIMIZED raises NotImplementedError. In NAIVE mode rowwise pairs the samples up to the length of the shorter list. Outside the conditions of C34 the optimised path used by AUTO behaves differently from NAIVE: empty lists raise IndexError instead of giving an empty result; a second list with one sample is repeated; other different lengths raise ValueError; integer samples raise TypeError; correlations of samples of different shapes raise ValueError; COMPILE_PARALLEL works only on the optimised path.", "quantifier": "all lengths of the two lists, all modes", "why_tests_cant": "All lengths.", "anchors": ["dcor/_rowwise.py:rowwise", "dcor/_fast_dcov_avl.py:_rowwise_distance_covariance_sqr_avl_generic"]}
{"id": "C36", "title": "pairwise_distances returns entry (i,j) = |x_i - y_j|^e", "statement": "When both samples are numpy arrays of at most double precision floats or of signed integers, and the array namespace of numpy arrays is the numpy module itself, pairwise_distances(x, y, exponent=e) has shape (len(x), len(y)) and its (i,j) entry is the e-th power of the Euclidean distance of x[i] and y[j]. In every other case (other dtypes and libraries, or a compatibility namespace for numpy) this fails: the transpose is returned.", "quantifier": "all pairs of samples, all exponents >0, both code paths", "why_tests_cant": "The documentation example is a symmetric square matrix, so it cannot see a transposition.", "anchors": ["dcor/distances.py:pairwise_distances", "dcor/distances.py:_cdist_naive", "dcor/distances.py:_cdist_scipy", "dcor/_utils.py:_can_be_numpy_double"]}
{"id": "C37", "title": "One-sample distance matrix", "statement": "pairwise_distances(x) is symmetric with zero diagonal and non-negative entries, zero exactly for equal rows, satisfies the triangle inequality for exponents in (0,1] (and not for larger ones), is the same as pairwise_distances(x, x), and is the same on both code paths.", "quantifier": "all samples, all exponents", "why_tests_cant": "All samples; two code paths.", "anchors": ["dcor/distances.py:pairwise_distances", "dcor/distances.py:_pdist", "dcor/distances.py:_pdist_scipy"]}
{"id": "C38", "title": "Memory safety of the AVL scratch buffer", "statement": "Running the AVL method never indexes outside its scratch arrays (compiled code performs no bounds check), for every n >= 4 and every sample.", "quantifier": "all sizes n>=4, all rank permutations", "why_tests_cant": "An out-of-range index for one size would be silent memory corruption in compiled mode.", "anchors": ["dcor/_fast_dcov_avl.py:_dyad_update", "dcor/_fast_dcov_avl.py:_dyad_update_compiled_version", "dcor/_fast_dcov_avl.py:_get_impl_args"]}
{"id": "C39", "title": "Compiled and pure Python variants agree", "statement": "The compiled and the pure Python variant of the AVL inner loop, which are different programs, return the same array for every input, and so do the corresponding public calls with COMPILE_CPU and NO_COMPILE, whenever np.sum of numpy adds from left to right as the compiled one does, or the order of addition does not matter. In double precision numpy adds in another order and the two may differ in the last bits.", "quantifier": "all inputs", "why_tests_cant": "Two different loops over all sizes.", "anchors": ["dcor/_fast_dcov_avl.py:_dyad_update", "dcor/_fast_dcov_avl.py:_dyad_update_compiled_version"]}
{"id": "C40", "title": "Merge sort pass correctness", "statement": "The mergesort method's weighted inversion sums are sum of w_j over j before i (in x order) with y_j < y_i, for every size (not only powers of two) and every pattern of ties, with all index accesses in range.", "quantifier": "all sizes n>=1, all samples and weights", "why_tests_cant": "Ragged last blocks and ties depend on n and data.", "anchors": ["dcor/_fast_dcov_mergesort.py:_compute_weight_sums"]}
{"id": "C41", "title": "Tie-breaking does not matter", "statement": "The results of AVL and MERGESORT do not depend on how the (unstable) sort orders equal values, nor on the contents of uninitialised memory.", "quantifier": "all valid argsort results, all buffer contents", "why_tests_cant": "The sort is an external library routine; every admissible result must be covered.", "anchors": ["dcor/_fast_dcov_avl.py:_get_impl_args", "dcor/_fast_dcov_mergesort.py:_distance_covariance_sqr_terms_mergesort_impl"]}
{"id": "C42", "title": "A vector and a one-column matrix are the same sample", "statement": "Passing a univariate sample as a 1-d array or as an n x 1 array gives the same outcome in every function.", "quantifier": "all univariate samples, every function and method", "why_tests_cant": "All samples and all methods.", "anchors": ["dcor/_utils.py:_transform_to_1d", "dcor/_utils.py:_transform_to_2d", "dcor/_dcor.py:_is_random_variable"]}
{"id": "C43", "title": "Samples of different size", "statement": "With method AUTO, NAIVE or AVL every two-sample dependence function raises an exception when the samples have different numbers of observations. distance_covariance_test and the distance correlation t-test raise too, and so do the partial distance covariance, correlation and test unless one of the three samples has a single observation. Two cases fail: a single observation is broadcast against the other samples by the partial functions, which then return the unconditional value; with MERGESORT a longer y is silently cut to the size of x and a value is returned, and a shorter y is read out of range (unchecked memory access when compiled, IndexError otherwise).", "quantifier": "all pairs of sizes, all methods", "why_tests_cant": "All pairs of sizes.", "anchors": ["dcor/_dcor_internals.py:_check_same_n_elements", "dcor/_fast_dcov_avl.py:_get_impl_args", "dcor/_fast_dcov_mergesort.py:_distance_covariance_sqr_terms_mergesort_impl", "dcor/_dcor_internals.py:_dcov_terms_naive"]}
{"id": "C44", "title": "Affine invariance of the affinely invariant distance correlation", "statement": "distance_correlation_af_inv_sqr(x A + b, y C + d) = distance_correlation_af_inv_sqr(x, y) for all matrices A, C with linearly independent rows (for square matrices: invertible) and vectors b, d, when the eigenvalues and eigenvectors of the covariance matrices are correct; singular covariance matrices are allowed. For non-singular covariance matrices the value is the squared distance correlation of the Mahalanobis distances of the two samples.", "quantifier": "all samples, all injective linear maps, all translations, every correct eigendecomposition", "why_tests_cant": "Quantifies over all invertible matrices.", "anchors": ["dcor/_dcor.py:distance_correlation_af_inv_sqr", "dcor/_dcor_internals.py:_af_inv_scaled", "dcor/_dcor_internals.py:_mat_sqrt_inv", "dcor/_dcor_internals.py:_cov"]}
{"id": "C45", "title": "Unbiasedness of u_distance_covariance_sqr", "statement": "The expected value of u_distance_covariance_sqr over independent samples of size n>=4 from any finitely supported joint distribution equals the population squared distance covariance E|X-X'||Y-Y'| + E|X-X'|E|Y-Y'| - 2E|X-X'||Y-Y''|.", "quantifier": "all finitely supported joint distributions, all n>=4, all exponents", "why_tests_cant": "An expectation over all distributions; a test can only estimate it.", "anchors": ["dcor/_dcor.py:u_distance_covariance_sqr"]}
{"id": "C46", "title": "Unbiasedness of the U-statistic energy distance", "statement": "The expected value of energy_distance(..., estimation_stat='U') over independent samples from two finitely supported distributions is the population energy distance.", "quantifier": "all pairs of finitely supported distributions, all sample sizes >=2", "why_tests_cant": "An expectation over all distributions.", "anchors": ["dcor/_energy.py:energy_distance", "dcor/_energy.py:_get_flat_upper_matrix"]}
{"id": "C47", "title": "Energy distance is a distance covariance with the group label", "statement": "For two samples of sizes n, m, the squared distance covariance of the pooled sample with the 0/1 group label equals 2 (n m)^2/(n+m)^4 times the energy distance.", "quantifier": "all pairs of samples, all exponents >0", "why_tests_cant": "A cross-function identity over all inputs.", "anchors": ["dcor/_energy.py:energy_distance", "dcor/_dcor.py:distance_covariance_sqr"]}
{"id": "C48", "title": "Bias-corrected statistics need four observations", "statement": "For 1 <= n <= 3 finite observations the bias-corrected squared distance covariance and correlation are NaN with NAIVE and AUTO (0/0 or inf-inf), and NaN or an exception with every other method and compile mode (MERGESORT with three observations raises ZeroDivisionError): never a finite wrong number.", "quantifier": "all samples with at most three observations", "why_tests_cant": "All inputs of three sizes over the reals with IEEE special values.", "anchors": ["dcor/_dcor_internals.py:_dcov_from_terms", "dcor/_dcor.py:u_distance_covariance_sqr"]}
{"id": "C49", "title": "Integer inputs", "statement": "On samples of fixed width integers a covariance equals its value on the same numbers as floats whenever the sums fit: with AVL and AUTO on int64 samples, when the sum of products of distances and the sum of distances of each sample are below 2^63; with NAIVE (all six functions, any exponent, any signed or unsigned dtype not handed to scipy), when the squared distances between observations fit in the dtype. Outside that range no error is raised and the value is wrong: AVL and AUTO work modulo 2^64 and return a negative squared covariance for four int64 values, and NAIVE gives 0 for the uint8 sample 0, 16.", "quantifier": "all integer samples, for AVL and AUTO of int64, for NAIVE of any width; all accepted compile modes", "why_tests_cant": "Overflow only appears for large values or narrow dtypes; tests use small ones.", "anchors": ["dcor/distances.py:_cdist_naive", "dcor/_fast_dcov_avl.py:_get_impl_args", "dcor/_utils.py:_can_be_numpy_double"]}
{"id": "C50", "title": "Samples of different dimension are rejected by the energy functions", "statement": "energy_distance raises ValueError when the samples have different numbers of columns and either both are floating point numpy samples or neither has a single column. The remaining case fails: on the naive code path a sample with one column is broadcast against the other one and a number is returned.", "quantifier": "all pairs of column counts", "why_tests_cant": "All pairs of shapes.", "anchors": ["dcor/_energy.py:energy_distance", "dcor/distances.py:_cdist_naive"]}
{"id": "C51", "title": "Method names", "statement": "method='auto'|'naive'|'avl'|'mergesort' in any letter case selects the method of that name; every other string raises KeyError.", "quantifier": "all strings", "why_tests_cant": "All strings.", "anchors": ["dcor/_dcor.py:_to_algorithm", "dcor/_dcor.py:DistanceCovarianceMethod"]}
{"id": "C52", "title": "Finite samples give finite results", "statement": "In arithmetic with infinities and NaN (IEEE rules, no rounding or overflow) the six distance covariance/correlation functions, energy_distance, partial_distance_covariance and partial_distance_correlation return on finite samples with enough observations (4 for the bias-corrected ones, 2 per sample for U-statistics) the finite textbook number: the degenerate cases (constant samples, zero variances, zero denominators) never produce NaN or infinity.", "quantifier": "all finite samples of sufficient size, all exponents >0, all methods, compile modes and dtypes", "why_tests_cant": "Zero denominators occur on a measure-zero set of inputs that random tests never hit, and the claim is about all of them.", "anchors": ["dcor/_dcor.py:_DcovAlgorithmInternals", "dcor/_dcor.py:distance_correlation_sqr", "dcor/_partial_dcor.py:partial_distance_correlation", "dcor/_energy.py:energy_distance", "dcor/_utils.py:_sqrt"]}
{"id": "C53", "title": "Methods agree bit for bit on integer valued float64 samples", "statement": "For float64 numpy samples of n >= 4 integers of magnitude at most X and Y with 32 log2(n) n^2 X Y, 4 X^2 and 4 Y^2 at most 2^53, methods NAIVE, AVL and AUTO in every compile mode that runs return the same double (up to the sign of a zero) for distance_covariance, distance_covariance_sqr and u_distance_covariance_sqr, whatever the order in which np.sum and matrix products add and whether or not they use fused multiply-add. Without such a bound they do not: for five integers near 10^9 AVL returns a negative squared covariance and a squared correlation below -2, where NAIVE returns the correct value.", "quantifier": "all such samples, of any size; methods and compile modes; rounding of every operation to double precision", "why_tests_cant": "A statement about rounding in every intermediate operation, for all inputs and sizes.", "anchors": ["dcor/_fast_dcov_avl.py:_distance_covariance_sqr_terms_avl_impl", "dcor/_dcor_internals.py:_dcov_terms_naive", "dcor/_dcor.py:DistanceCovarianceMethod"]}
{"id": "C54", "title": "Accuracy of the covariances in double precision", "statement": "On the samples of the previous property the squared distance covariance computed in double precision, by NAIVE, AVL or AUTO, is finite and differs from the exact one by at most (n + 10) X Y / 2^48, and the bias-corrected one by at most (n + 10) X Y / 2^45.", "quantifier": "all such samples, of any size; methods and compile modes; every order of addition", "why_tests_cant": "An error bound for all inputs and all sizes.", "anchors": ["dcor/_dcor_internals.py:_dcov_from_terms", "dcor/_fast_dcov_avl.py:_distance_covariance_sqr_terms_avl_impl", "dcor/_dcor.py:distance_covariance_sqr", "dcor/_dcor.py:u_distance_covariance_sqr"]}
{"id": "C55", "title": "Accuracy of NAIVE on arbitrary doubles", "statement": "For float64 samples of n observations (4 <= n <= 2^18) with any numbers cx, cy of columns up to 2^30, whose entries are finite and whose coordinates are equal or differ by between 2^-100 and 2^100, distance_covariance_sqr with NAIVE and exponent 1 is finite and differs from the exact value by at most (2 n^2 + n + 2 (cx + cy) + 28) Dx Dy / 2^50, where Dx and Dy are the largest distances between observations; u_distance_covariance_sqr by at most the same number with 2^47. The bound involves the distances only, not the magnitude of the data: a large common offset does not spoil the result.", "quantifier": "all such samples; every double value, size and dimension in the range; compile modes AUTO and NO_COMPILE; array namespaces handled by scipy or by the array code; every order of addition", "why_tests_cant": "An error bound for all inputs and all sizes, over every rounding of every operation.", "anchors": ["dcor/_dcor_internals.py:_dcov_terms_naive", "dcor/_dcor_internals.py:_dcov_from_terms", "dcor/distances.py:_cdist_naive", "dcor/distances.py:_cdist_scipy", "dcor/_dcor.py:distance_covariance_sqr", "dcor/_dcor.py:u_distance_covariance_sqr"]}
{"id": "C56", "title": "Accuracy of AVL on arbitrary doubles", "statement": "For univariate float64 numpy samples of n finite observations (4 <= n <= 2^37) of magnitude at most X and Y, both between 2^-300 and 2^300, distance_covariance_sqr with AVL or AUTO and exponent 1 is finite and differs from the exact value by at most (4 n + L + 20) L X Y / 2^45, where L is the base 2 logarithm of n rounded up; u_distance_covariance_sqr by at most the same number with 2^42. Subnormal numbers, zeros of both signs and ties are covered. The bound cannot be in terms of the distances as for NAIVE: on a constant sample AVL returns a small number, possibly negative, where NAIVE returns 0.", "quantifier": "all such samples, every double value and size in the range; every compile mode that runs; every argsort that orders by value; every order of addition", "why_tests_cant": "An error bound for all inputs and all sizes, over every rounding of every operation.", "anchors": ["dcor/_fast_dcov_avl.py:_dyad_update", "dcor/_fast_dcov_avl.py:_partial_sum_2d", "dcor/_fast_dcov_avl.py:_get_impl_args", "dcor/_fast_dcov_avl.py:_distance_covariance_sqr_terms_avl_impl", "dcor/_dcor_internals.py:_dcov_from_terms", "dcor/_dcor.py:distance_covariance_sqr", "dcor/_dcor.py:u_distance_covariance_sqr"]}
{"id": "C57", "title": "NaN and infinities in the data are reported, not hidden", "statement": "If some sample contains a NaN or an infinity, whatever the six distance covariance and correlation functions, partial_distance_covariance, partial_distance_correlation, energy_distance and energy_test_statistic (average None) return is NaN, for every method and compile mode; NAIVE does return. The permutation tests then have a NaN statistic and, since a NaN is greater than nothing, the smallest p-value 1/(B+1): a test on corrupt data looks maximally significant. Two functions hide the problem: the affinely invariant correlations and, when optimised, the rowwise correlations return 0, as for independent samples; rowwise without optimisation returns NaN on the same rows.", "quantifier": "all samples with at least one NaN or infinity anywhere; all sizes, methods, modes, estimators, generators; extended reals (any positive exponent) and IEEE doubles (exponent 1, or any for which the power function keeps NaN, infinities and signs)", "why_tests_cant": "The position and number of the special values, and every branch taken because of comparisons with NaN, are unbounded.", "anchors": ["dcor/_dcor.py:distance_covariance_sqr", "dcor/_dcor.py:distance_correlation_sqr", "dcor/_dcor.py:distance_correlation_af_inv_sqr", "dcor/_partial_dcor.py:partial_distance_covariance", "dcor/_partial_dcor.py:partial_distance_correlation", "dcor/_energy.py:energy_distance", "dcor/_hypothesis.py:_permutation_test_with_sym_matrix", "dcor/_rowwise.py:rowwise", "dcor/_fast_dcov_avl.py:_distance_covariance_sqr_terms_avl_impl"]}
{"id": "C58", "title": "Accuracy of the correlations in double precision", "statement": "Under the hypotheses of the accuracy properties of NAIVE and AVL, let eps be the error bound of the (bias-corrected) squared distance covariance per unit of Dx Dy (NAIVE, largest distances) or X Y (AVL, largest magnitudes). If the exact distance variances lie between 2^-450 and 2^450 and eps Dx^2 <= rho vx, eps Dy^2 <= rho vy with rho <= 1/4, then distance_correlation_sqr and u_distance_correlation_sqr return a finite number within 3 rho + 2^-49 of the exact correlation, with NAIVE, AVL and AUTO. The square of what distance_correlation returns has the same error plus 2^-49.", "quantifier": "all such samples; every double value, size and dimension in the range; methods, compile modes; every order of addition", "why_tests_cant": "An error bound for all inputs and all sizes, over every rounding of every operation.", "anchors": ["dcor/_dcor.py:distance_correlation_sqr", "dcor/_dcor.py:u_distance_correlation_sqr", "dcor/_dcor.py:distance_correlation", "dcor/_dcor.py:_DcovAlgorithmInternals", "dcor/_fast_dcov_avl.py:_distance_covariance_sqr_terms_avl_impl", "dcor/_utils.py:_sqrt"]}
{"id": "C59", "title": "Self-correlation in double precision", "statement": "With NAIVE, whenever the (bias-corrected) distance variance that the library computes for a sample is between 2^-500 and 2^500, distance_correlation_sqr(x, x) (u_distance_correlation_sqr(x, x)) is exactly 1.0, for every exponent and order of addition; in particular whenever the exact variance is at least twice the rounding error. The bound 1 does not hold in double precision otherwise: on the samples (1,2,3,5,7) and (5,10,15,25,35) NAIVE returns a squared correlation above 1, and AVL does so for a sample and itself.", "quantifier": "all samples, exponents, orders of addition", "why_tests_cant": "Exactness of a composition of roundings, for every double.", "anchors": ["dcor/_dcor.py:distance_correlation_sqr", "dcor/_dcor.py:u_distance_correlation_sqr", "dcor/_utils.py:_sqrt", "dcor/_fast_dcov_avl.py:_distance_covariance_sqr_terms_avl_impl"]}
{"id": "C60", "title": "P-values and decisions in double precision", "statement": "The p-value of the three permutation tests is the double nearest to (k+1)/(B+1), where k of the B resampled statistics exceed the observed one, is positive and at most 1, and is 1 only if every resampled statistic exceeds the observed one. The statistic of a resample depends only on the permutation drawn, and the observed one is that of the identity. Comparing the p-value with a level i/d (such as 0.05 = 1/20) computed in double precision, with <= or <, gives the answer of exact arithmetic as long as (B+1) d <= 2^52.", "quantifier": "all samples, generators, numbers of resamples up to 2^53 - 1, levels", "why_tests_cant": "Rounding could turn a p-value of exactly 0.05 into a rejection or a non-rejection for some numbers of resamples.", "anchors": ["dcor/_hypothesis.py:_permutation_test_with_sym_matrix", "dcor/independence.py:distance_covariance_test", "dcor/independence.py:partial_distance_covariance_test", "dcor/homogeneity.py:energy_test"]}
{"id": "C61", "title": "The distance covariance test in double precision", "statement": "On float64 samples as in the accuracy property of NAIVE, distance_covariance_test with exponent 1 succeeds, its statistic is finite and differs from n times the exact squared distance covariance by at most an explicit error, and its p-value is the correctly rounded p-value of exact arithmetic whenever each drawn permutation is the identity or has an exact statistic that differs from the observed one by more than twice that error. With ties the p-value can be wrong: for (2,3,5,7,11) and (1,2,3,4,5) and the reversing permutation the exact statistics are equal and the p-value should be 1/2, but it is 1.", "quantifier": "all such samples, generators, numbers of resamples, orders of addition", "why_tests_cant": "A comparison of rounded numbers for every permutation and every sample.", "anchors": ["dcor/_hypothesis.py:_permutation_test_with_sym_matrix", "dcor/independence.py:distance_covariance_test", "dcor/_dcor_internals.py:double_centered", "dcor/_dcor_internals.py:mean_product"]}
{"id": "C62", "title": "Energy distance in double precision", "statement": "For float64 samples of n and m observations (at most 2^18 each; at least 1, or 2 for the U-statistic) in p <= 2^30 columns whose coordinates are equal or differ by between 2^-100 and 2^100, energy_distance with exponent 1 is finite and within (n^2 + m^2 + p + 10) D / 2^50 of the exact value, D being the largest distance. The V-statistic of a sample and itself is exactly 0 whenever it is finite (every exponent and average). On univariate integer-valued doubles whose sums of distances fit in 53 bits each of the three means is the exact mean correctly rounded; hence the result depends only on the two empirical distributions (and the sizes, for the U-statistic), not on the order of the observations or of the additions, and is exactly 0 for samples with the same distribution. Two properties of the exact distance fail: swapping the samples can change the last digit (even for integers), and the result can be negative: -1.4e-17 for (0.3, 0.1, 0.2) and (0.1, 0.3, 0.2).", "quantifier": "all such samples, of any size and dimension in the range; both estimators; scipy and array code; every order of addition", "why_tests_cant": "Bounds and exactness over every rounding of every operation, for all inputs.", "anchors": ["dcor/_energy.py:energy_distance", "dcor/_energy.py:_energy_distance_from_distance_matrices", "dcor/_energy.py:_get_flat_upper_matrix", "dcor/distances.py:_cdist_naive", "dcor/distances.py:_cdist_scipy"]}
{"id": "C63", "title": "The energy test in double precision", "statement": "On k >= 2 float64 samples with N observations in total (N <= 2^18, at least 1 each, or 2 for the U-statistic) in p <= 2^30 columns, whose coordinates are equal or differ by between 2^-100 and 2^100, energy_test with exponent 1 succeeds; its statistic is finite and within (2 N^2 + p + 20) k^2 N D / 2^52 of the exact k-sample statistic, D being the largest distance; and its p-value is the correctly rounded p-value of exact arithmetic whenever each drawn permutation of the pooled sample is the identity or has an exact statistic that differs from the observed one by more than twice that error. With ties the p-value can be wrong: for (0,0,1) and (0,1,3) and the reversing permutation, which exchanges the samples, the p-value should be 1/2, but it is 1.", "quantifier": "all such groups of samples, of any number, size and dimension in the range; both estimators; generators, numbers of resamples, orders of addition", "why_tests_cant": "A comparison of rounded numbers for every permutation and every group of samples.", "anchors": ["dcor/homogeneity.py:energy_test", "dcor/homogeneity.py:energy_test_statistic", "dcor/_hypothesis.py:_permutation_test_with_sym_matrix", "dcor/_energy.py:_energy_distance_from_distance_matrices"]}
{"id": "C64", "title": "Exact results on fractions", "statement": "On univariate numpy arrays of at least four Fraction objects in lowest terms, distance_covariance_sqr and u_distance_covariance_sqr with exponent 1, methods AUTO or AVL, and compile modes AUTO or NO_COMPILE, return the textbook value exactly, as a fraction in lowest terms: one and the same fraction whatever the method, compile mode and tie-breaking of argsort.", "quantifier": "all such arrays, of any size and with any values; every argsort that sorts", "why_tests_cant": "Exactness for all rational inputs of any size.", "anchors": ["dcor/_dcor.py:distance_covariance_sqr", "dcor/_dcor.py:u_distance_covariance_sqr", "dcor/_fast_dcov_avl.py:_distance_covariance_sqr_terms_avl_impl", "dcor/_dcor_internals.py:_dcov_from_terms", "dcor/_utils.py:_can_be_numpy_double"]}
{"id": "C65", "title": "Accuracy of MERGESORT on arbitrary doubles", "statement": "On the samples of the accuracy property of AVL, distance_covariance_sqr and u_distance_covariance_sqr with MERGESORT and exponent 1 are finite and within the same bound of the exact value, so the two fast methods agree up to twice that bound; the squared correlations with MERGESORT have the accuracy stated for AVL. The methods are not interchangeable to the last digit: on (3,1,9,4,5,2,7) and (1,2,3,7,15,9,4) NAIVE and AVL return the same double and MERGESORT a smaller one.", "quantifier": "all such samples, every double value and size in the range; every compile mode that runs; every argsort that orders by value; every order of addition", "why_tests_cant": "An error bound for all inputs and all sizes, over every rounding of every operation of an iterative merge.", "anchors": ["dcor/_fast_dcov_mergesort.py:_compute_weight_sums", "dcor/_fast_dcov_mergesort.py:_compute_aijbij_term", "dcor/_fast_dcov_mergesort.py:_compute_row_sums", "dcor/_fast_dcov_mergesort.py:_distance_covariance_sqr_terms_mergesort_impl", "dcor/_dcor_internals.py:_dcov_from_terms", "dcor/_dcor.py:distance_covariance_sqr", "dcor/_dcor.py:distance_correlation_sqr"]}
{"id": "C66", "title": "The fast methods take O(n log n) steps", "statement": "On two univariate samples of n observations AVL and MERGESORT (and AUTO, when it selects AVL) perform at most three, respectively two, sorts of n numbers and a number of further elementary steps bounded by a fixed multiple of n (log2 n + 1), in every compile mode and whether or not the call succeeds. NAIVE performs at most a fixed multiple of n^2 steps and, whenever it returns, at least 2 n^2. With a sort that takes O(n log n), the fast methods beat NAIVE by any given factor on all large enough samples.", "quantifier": "every pair of samples, function, compile mode, number type and sort cost", "why_tests_cant": "a benchmark measures some sizes on one machine; an asymptotic bound is a statement about every size and every order of the data", "anchors": ["dcor/_dcor.py:DistanceCovarianceMethod", "dcor/_dcor.py:_can_use_fast_algorithm", "dcor/_fast_dcov_avl.py:_distance_covariance_sqr_terms_avl_impl", "dcor/_fast_dcov_avl.py:_dyad_update", "dcor/_fast_dcov_mergesort.py:_compute_weight_sums"]}
{"id": "C67", "title": "Python sequences and mixed array libraries as arguments", "statement": "Arrays of one library go through unchanged and without a DeprecationWarning. Arrays of two libraries give the result of the numpy arrays with the same contents, and a DeprecationWarning; so the fast methods raise ValueError only if both samples come from another library. Functions that convert their samples (pairwise_distances, energy_distance, energy_test_statistic, energy_test, the affinely invariant correlation, the partial functions, distance_covariance_test) give the same result for a sequence as for the array and emit the warning. The covariance and correlation functions do not honour that: a sequence as first sample always raises (AttributeError wherever arrays have a value), a sequence as second sample works with NAIVE, AVL and MERGESORT but raises AttributeError with the default method when the first sample is univariate, and the t-test raises likewise; on arrays, and with a sequence beside an array of several columns, it returns what the arrays give.", "quantifier": "all array and sequence contents, number types, methods, compile modes, exponents and functions", "why_tests_cant": "Every combination of argument kind, position, method and function; the failing ones are exactly those nobody wrote a test for.", "anchors": ["dcor/_utils.py:array_namespace", "dcor/_utils.py:_transform_to_1d", "dcor/_utils.py:_transform_to_2d", "dcor/_dcor.py:_can_use_fast_algorithm", "dcor/_dcor.py:_is_random_variable", "dcor/_dcor.py:_DcovAlgorithmInternals.dcov_sqr", "dcor/_dcor.py:_DcovAlgorithmInternals.stats_sqr", "dcor/independence.py:distance_correlation_t_test"]}
{"id": "C68", "title": "Identities that survive rounding", "statement": "In floating point, and bit for bit: the covariance and the correlation of a statistics bundle are what the separate functions return, with the same warnings; with NAIVE its variances are the covariances of each sample with itself. The distance matrix is symmetric, for any exponent, with a zero diagonal on finite data. The products of centred matrices and the partial covariance and correlation do not depend on the order of the two samples. Negating coordinates of a sample changes no result of NAIVE, of the partial functions, of the tests or (negating the same coordinates of both samples) of the energy distance. If all the observations of one sample are equal, all six dependence measures with NAIVE are exactly zero in both orders, provided the squared distance variance of the other sample does not overflow. The distance covariance itself is not symmetric to the last bit: (0,1,3) and (1,2,7) give two different doubles.", "quantifier": "all double-precision samples of any size and number of columns, exponents, compile modes and signs; the bundle for every number type and method", "why_tests_cant": "Rounding breaks most algebraic identities; which ones survive depends on the order of every operation and has to hold for all doubles.", "anchors": ["dcor/_dcor.py:distance_stats_sqr", "dcor/_dcor.py:distance_stats", "dcor/_dcor.py:u_distance_stats_sqr", "dcor/_dcor.py:distance_covariance_sqr", "dcor/_dcor_internals.py:_dcov_from_terms", "dcor/_dcor_internals.py:u_product", "dcor/_dcor_internals.py:mean_product", "dcor/_partial_dcor.py:partial_distance_covariance", "dcor/_partial_dcor.py:partial_distance_correlation", "dcor/distances.py:pairwise_distances"]}
{"id": "C69", "title": "rowwise in double precision", "statement": "On numpy float64 rows the optimised rowwise covariances (distance_covariance, distance_covariance_sqr, u_distance_covariance_sqr, AUTO or AVL, exponent 1) are bit for bit those of the function called on each pair. The optimised correlations are computed by another formula: on rows whose values and variances are in a wide range each one is finite and within 3 rho + 2^-49 of the correlation of the data, rho being the relative error of the variances; the square of each distance_correlation is within 3 rho + 2^-48. They are not the doubles the function returns for each pair, and for a row of equal values the optimised squared correlation can be minus infinity.", "quantifier": "all lists of rows of any length and number of observations; every double value in the range; both rowwise modes that use the optimised path; every order of addition and argsort that orders by value", "why_tests_cant": "Equality of two implementations to the last bit, and an error bound, for every input; the failing rows are single points among all doubles.", "anchors": ["dcor/_rowwise.py:rowwise", "dcor/_rowwise.py:_generate_rowwise_distance_correlation_sqr", "dcor/_rowwise.py:_rowwise_distance_correlation", "dcor/_fast_dcov_avl.py:_rowwise_distance_covariance_sqr_avl_generic", "dcor/_fast_dcov_avl.py:_generate_rowwise_internal"]}
{"id": "C70", "title": "What the statistics are on average under chance", "statement": "Over all the n! orders of the observations of one sample the bias-corrected covariance and correlation, and the partial distance covariance given a third sample, average to exactly 0. The squared distance covariance averages to the product of the mean distances of the two samples divided by n-1, which is positive unless a sample is constant, and the statistic of distance_covariance_test to n times that. Over all the ways of dividing the pooled observations into samples of the same sizes the U-statistic of energy_test, and the energy distance of two samples, average to exactly 0; the V-statistic of energy_test averages to the number of pairs of samples times the mean distance of two different observations, and the V-statistic energy distance to (1/n + 1/m) times it.", "quantifier": "all samples of any size and dimension, numbers of samples, exponents, methods, compile modes, generators and numbers of resamples; all permutations", "why_tests_cant": "The average ranges over n! orders: already for 15 observations they cannot be enumerated, and the claim is for every data set.", "anchors": ["dcor/_dcor.py:u_distance_covariance_sqr", "dcor/_dcor.py:u_distance_correlation_sqr", "dcor/_dcor.py:distance_covariance_sqr", "dcor/_partial_dcor.py:partial_distance_covariance", "dcor/independence.py:distance_covariance_test", "dcor/homogeneity.py:energy_test", "dcor/_energy.py:energy_distance", "dcor/_hypothesis.py:_permutation_test_with_sym_matrix"]}
{"id": "C71", "title": "The V-statistics depend only on the empirical distribution", "statement": "distance_covariance, distance_correlation and their squares depend only on how often each pair of points occurs, relative to the number of observations: two paired samples, possibly of different sizes, with the same relative frequencies give the same result, whatever the method. In particular repeating every pair k times changes none of them, and multiplies the statistic of distance_covariance_test by k. The energy distance (V-statistic) depends only on the empirical distribution of each sample. The bias-corrected versions do not have this property: u_distance_covariance_sqr of (0,0,0,1) with itself is 0, and 1/7 when every observation is repeated.", "quantifier": "all pairs of samples with equal relative frequencies, of any sizes and dimensions; methods, compile modes, exponents; every repetition count", "why_tests_cant": "Equality between results on samples of different sizes, for every sample and repetition count.", "anchors": ["dcor/_dcor.py:distance_covariance_sqr", "dcor/_dcor.py:distance_correlation_sqr", "dcor/_dcor.py:u_distance_covariance_sqr", "dcor/_energy.py:energy_distance", "dcor/independence.py:distance_covariance_test"]}
{"id": "C72", "title": "Small changes of the data change the statistics little", "statement": "For exponents e at most 1: if every observation of x moves by at most dx and every observation of y by at most dy, the squared distance covariance changes by at most 8 (dx^e mean distance of y + dy^e mean distance of the moved x), its root by at most the root of that, the statistic of distance_covariance_test by at most n times that, and the bias-corrected version by the same expression with 8 (n-1)^2 / ((n-2)(n-3)) instead of 8 and means over pairs of different observations. The energy distance, with either estimator, changes by at most 4 times the sum of the mean displacements (to the power e) of the two samples. The correlations have no such bound: (0,0) with (0,1) has distance correlation 0, and (0,d) with (0,1) has 1, for every d > 0.", "quantifier": "all samples of any size and dimension, all displacements, exponents in (0, 1], methods and compile modes", "why_tests_cant": "A Lipschitz bound is a statement about every pair of neighbouring inputs.", "anchors": ["dcor/_dcor.py:distance_covariance_sqr", "dcor/_dcor.py:distance_covariance", "dcor/_dcor.py:u_distance_covariance_sqr", "dcor/_dcor.py:distance_correlation", "dcor/_energy.py:energy_distance", "dcor/independence.py:distance_covariance_test"]}
{"id": "C73", "title": "The t-test in double precision", "statement": "On float64 samples distance_correlation_t_statistic returns NaN only if the bias-corrected correlation that it is computed from is NaN; it is finite exactly if that correlation is strictly between -1 and 1, has its sign, does not decrease when it increases (for equal sample sizes), and is within a relative error 2^-49 / (1 - r^2) of its formula. With a t.cdf that is a non-decreasing function into [0, 1] the p-value of distance_correlation_t_test is a number in [0, 1], does not increase when the correlation increases, and is 0 when the correlation is 1 or more. Rounding can push the correlation beyond 1 ((1,2,3,5,7) with itself), where the statistic is still plus infinity, and can leave that of a sample with itself below 1 ((1,2,4,8,16)), where the statistic is finite.", "quantifier": "all samples whose correlation is computed, 4 to 2^100 observations (2^26 for the accuracy); every double value of the correlation; every order of addition", "why_tests_cant": "Monotonicity and absence of NaN for all doubles, including those beyond 1, zeros, subnormal numbers and infinities.", "anchors": ["dcor/independence.py:distance_correlation_t_statistic", "dcor/independence.py:distance_correlation_t_test", "dcor/_utils.py:_sqrt"]}
{"id": "C74", "title": "The statistics estimate the dependence of the distribution", "statement": "Draw n independent pairs from a distribution with finitely many possible pairs of points. The probability that distance_covariance_sqr is at least eps away from the distance covariance of the distribution is at most 144 (A B)^2 K / (n eps^2), where A and B bound the distances (to the power e) and K is the number of pairs. All six functions, biased or bias-corrected, with any method, converge in probability to the corresponding quantity of the distribution; for exponents strictly between 0 and 2 that quantity is never negative and is 0 exactly if the two components are independent. So each function tends to 0 if and only if the variables are independent. In the same way the energy distance of two independent samples converges, with either estimator, to the energy distance of their distributions, at the rate 32 M^2 (K/n + L/m) / eps^2, and tends to 0 exactly if the two distributions are the same. partial_distance_covariance and partial_distance_correlation converge to the quantities that the same formulas give for the distribution, also where a variance in them is 0.", "quantifier": "all distributions with finite support on points of any dimension, all sample sizes, exponents in (0, 2) (in (0, 2] for convergence), functions, methods and compile modes", "why_tests_cant": "Convergence in probability speaks about every sample size and every outcome; a simulation shows some sizes of some distributions.", "anchors": ["dcor/_dcor.py:distance_covariance_sqr", "dcor/_dcor.py:distance_covariance", "dcor/_dcor.py:distance_correlation", "dcor/_dcor.py:u_distance_covariance_sqr", "dcor/_dcor.py:u_distance_correlation_sqr", "dcor/_dcor.py:distance_correlation_sqr", "dcor/_energy.py:energy_distance", "dcor/_partial_dcor.py:partial_distance_covariance", "dcor/_partial_dcor.py:partial_distance_correlation"]}
{"id": "C75", "title": "The tests find every dependence and every difference", "statement": "Draw n independent pairs from a distribution (finitely many possible pairs of points) whose components are dependent, and run distance_covariance_test with b resamples whose orders are drawn fairly. Whatever b, the probability that the p-value is at most alpha, for any level alpha of 1/(b+1) or more, is at least 1 - 576 (A B)^2 K / (n V^2) - 2 b A B / ((n-1) V), V > 0 being the squared distance covariance of the distribution; so it tends to 1. Below 1/(b+1) the test never rejects. For two independent samples of sizes n and m from different distributions energy_test rejects with a probability of at least 1 - 128 M^2 (K/n + L/m) / D^2 - 2 b M (1/n + 1/m) / D with the V-statistic, and with a probability that tends to 1 with either estimator. The statistic of distance_correlation_t_test exceeds every threshold with a probability that tends to 1, and its p-value falls to any given level or below with a probability that tends to 1 (given that the tails of scipy's t distributions have a common bound).", "quantifier": "all dependent (different) distributions with finite support in any dimension, sample sizes, numbers of resamples, levels, exponents in (0, 2); the probability is over the draws and over all sequences of orders", "why_tests_cant": "The power is a statement about all samples and all n!^b sequences of resamples, for every n.", "anchors": ["dcor/independence.py:distance_covariance_test", "dcor/homogeneity.py:energy_test", "dcor/independence.py:distance_correlation_t_test", "dcor/_hypothesis.py:_permutation_test_with_sym_matrix"]}
{"id": "C76", "title": "The level of the permutation tests", "statement": "Draw n independent pairs from a distribution (finitely many possible pairs of points) whose components are independent, and run distance_covariance_test with b resamples whose orders are drawn fairly. The probability that the p-value is at most alpha and no two of the b + 1 statistics are equal is at most alpha times the probability that no two are equal; so the probability of a p-value of at most alpha is at most alpha plus the probability of ties. The same holds for energy_test with any number of samples of any sizes drawn from one distribution, any estimator and any average, in particular for two samples from distributions that are equal but given differently. Together with the power this separates independence from dependence: the hypotheses are complementary.", "quantifier": "all distributions with finite support in any dimension with independent components (equal distributions), sample sizes, numbers of samples and resamples, levels, positive exponents; the probability is over the draws and over all sequences of orders", "why_tests_cant": "The level is a statement about all samples and all n!^b sequences of resamples, for every n and b.", "anchors": ["dcor/independence.py:distance_covariance_test", "dcor/homogeneity.py:energy_test", "dcor/_hypothesis.py:_permutation_test_with_sym_matrix"]}
{"id": "C77", "title": "The partial functions in double precision", "statement": "On float64 samples partial_distance_correlation is a number whenever the six bias-corrected inner products it is computed from are finite (never NaN or infinite, even for constant samples and for z a multiple of x), of absolute value at most 2^55. If the rounding errors of the three distance variances are at most a fraction rho <= 1/4 of them and the squared correlations of x and y with z are at most 1 - d, it is within 16 (3 rho + 2^-49) / d of the exact partial correlation, and partial_distance_covariance is within ((n^2 + 4n + 2c + 28) / 2^44) Sx Sy + (3 rho + 2^-50)^2 sqrt(Vx Vy) of the exact one, Sx being the largest distance of x plus twice that of z times the ratio of standard deviations. Given x itself or y itself, both are exactly zero. Given a constant sample, the partial covariance is bit for bit the inner product of x and y. The range [-1, 1] of the exact partial correlation is lost: for x = (9,2,9,2,2), y = (6,0,3,0,0) and z = 3x, where the exact value is 0, the function returns -2.", "quantifier": "all float64 samples of 4 to 2^18 observations and up to 2^30 columns; the finiteness for all samples; every order of addition", "why_tests_cant": "A bound on the effect of rounding for every sample and every order of addition; the failure of the range was found with it.", "anchors": ["dcor/_partial_dcor.py:partial_distance_correlation", "dcor/_partial_dcor.py:partial_distance_covariance", "dcor/_dcor_internals.py:u_product", "dcor/_dcor_internals.py:u_complementary_projection", "dcor/_dcor_internals.py:u_distance_matrix"]}
{"id": "C78", "title": "The level of the permutation tests in double precision", "statement": "Draw samples of doubles (finite, infinite or NaN) from one distribution with finitely many possible points and run energy_test in double precision, with any number of samples, exponent, estimator and average function and b fairly drawn orders. The probability that the computed statistics have no ties (none is NaN, no two are equal) and the computed p-value is at most the double nearest to i/d is at most i/d times the probability that there are no ties: the rounding errors cost nothing, because the statistics of the resamples are exactly the statistics of the regrouped samples. For distance_covariance_test on independent components the same holds for the runs whose exact statistics differ from the observed one by more than twice the error bound. If all observations are equal the computed p-value is always 1/(b+1).", "quantifier": "all distributions with finite support on the doubles in any dimension, sample sizes, numbers of samples and resamples, levels i/d with (b+1) d <= 2^52, exponents, averages and library functions", "why_tests_cant": "The level is a statement about all samples and all n!^b sequences of resamples, here with every rounding and every order of addition.", "anchors": ["dcor/homogeneity.py:energy_test", "dcor/independence.py:distance_covariance_test", "dcor/_hypothesis.py:_permutation_test_with_sym_matrix"]}
{"id": "C79", "title": "Without ties the p-values are exactly uniform", "statement": "Among the equally likely runs of distance_covariance_test or energy_test (any assignment of the observations, any b orders) in which no two of the b + 1 statistics are equal, the proportion with a p-value of at most j/(b+1) is exactly j/(b+1), for every j from 0 to b+1; so the tests are not conservative. The same holds with probabilities for independent draws from a distribution with independent components (for energy_test: draws of all samples from one distribution), and for energy_test in double precision with the computed statistics, the computed p-value and the computed j/(b+1).", "quantifier": "all samples, exponents, estimators, averages, numbers of samples and resamples ((b+1)^2 <= 2^52 in double precision); all distributions with finite support", "why_tests_cant": "An equality about all n!^(b+1) runs; a simulation sees a few of them and cannot tell exact from approximate.", "anchors": ["dcor/independence.py:distance_covariance_test", "dcor/homogeneity.py:energy_test", "dcor/_hypothesis.py:_permutation_test_with_sym_matrix"]}
{"id": "C80", "title": "The test of homogeneity finds two different samples among many", "statement": "Run energy_test on any number of samples of which two are drawn independently from different distributions (finitely many possible points) and the others are arbitrary bounded data of two or more observations each, in any positions, with b fairly drawn orders. The probability of a p-value of at most alpha, for any level of 1/(b+1) or more, is at least 1 - 128 M^2 (K/n + L/m) / V^2 - b P M / h with h = (n m / (n + m)) V / 2 (minus 4 M P for the U-statistic), V > 0 being the energy distance of the two distributions, P the number of pairs of samples and M the largest distance; so it tends to 1 when the two samples grow, uniformly in the data of the other samples.", "quantifier": "all pairs of different distributions with finite support in any dimension, all other samples with bounded distances, numbers of samples and resamples, levels, both estimators, exponents in (0, 2)", "why_tests_cant": "The power is a statement about all samples and all N!^b sequences of resamples, for every n and m and all other data.", "anchors": ["dcor/homogeneity.py:energy_test", "dcor/homogeneity.py:_energy_test_statistic_multivariate_from_distance_matrix", "dcor/_hypothesis.py:_permutation_test_with_sym_matrix"]}
{"id": "C81", "title": "The energy distance is the square of a metric", "statement": "The square root of the energy distance satisfies the triangle inequality, for every exponent in (0, 2]. The energy distance of the pooled sample x and y (n and m observations) from z is n/(n+m) E(x,z) + m/(n+m) E(y,z) - n m/(n+m)^2 E(x,y), so it is at most the weighted mean of the two, and pooling m observations y into x gives a sample whose energy distance from x is (m/(n+m))^2 E(x,y).", "quantifier": "all triples of samples of any sizes and dimension; exponents in (0, 2] (all positive exponents for the identities)", "why_tests_cant": "A triangle inequality is a statement about all triples of samples.", "anchors": ["dcor/_energy.py:energy_distance", "docs/theory.rst"]}
{"id": "C82", "title": "Distance correlation one is similarity", "statement": "For samples with the same number p of coordinates distance_correlation is 1 exactly if x is not constant and y is the image of x under a similarity: there are a vector a, a positive factor b and an orthogonal matrix C with y_i = a + b C x_i for all observations (any b other than 0 suffices for the converse). With one coordinate this says that y is a linear function a + b x of x, with b not 0. The documentation promises the first half for random vectors.", "quantifier": "all samples of any size and dimension, positive exponents, methods and compile modes", "why_tests_cant": "The existence of the matrix has to be shown for every sample with correlation one, of any dimension; tests can only go from a chosen matrix to the correlation.", "anchors": ["dcor/_dcor.py:distance_correlation", "dcor/_dcor.py:distance_correlation_sqr", "docs/theory.rst"]}
{"id": "C83", "title": "Independent pairs add up", "statement": "For independent pairs (X1, Y1) and (X2, Y2) the distance covariance of (X1 + X2, Y1 + Y2) is at most the sum of their distance covariances, as the documentation states. For distance_covariance: if sx holds all sums of an observation of x1 and one of x2, and sy the corresponding sums of y1 and y2, then distance_covariance(sx, sy) <= distance_covariance(x1, y1) + distance_covariance(x2, y2). In particular independent noise, added to x while y stays, does not increase it.", "quantifier": "all pairs of samples of any sizes and dimensions, all distributions with finite support, exponents in (0, 2], methods and compile modes", "why_tests_cant": "An inequality about all pairs of samples and distributions.", "anchors": ["dcor/_dcor.py:distance_covariance", "docs/theory.rst"]}
{"id": "C84", "title": "Distances between distribution functions", "statement": "For samples of numbers and exponent 1 energy_distance(x, y) is twice the integral of (F - G)^2, F and G being the empirical distribution functions: the square of scipy.stats.energy_distance, and twice the Cramer-von Mises distance. distance_covariance_sqr(x, y) is four times the double integral of (H - F G)^2, H being the joint empirical distribution function. Both are also sums over the intervals of any grid that contains the observations.", "quantifier": "all samples of numbers of any sizes, any interval that contains the observations, any grid, methods and compile modes", "why_tests_cant": "An identity between a double sum and an integral for all samples.", "anchors": ["dcor/_energy.py:energy_distance", "dcor/_dcor.py:distance_covariance_sqr", "docs/theory.rst"]}
{"id": "C85", "title": "The definition by characteristic functions", "statement": "The documentation defines distance covariance and energy distance as weighted distances between characteristic functions. For samples of numbers and exponent 1 the functions return exactly these integrals of the empirical characteristic functions: distance_covariance_sqr(x, y) is the integral over s and t of |phi_xy(s,t) - phi_x(s) phi_y(t)|^2 / (pi s^2 pi t^2), and energy_distance(x, y) the integral over t of |phi_x(t) - phi_y(t)|^2 / (pi t^2); the improper integrals exist. For every exponent e in (0, 2) the same holds with a constant k(e) > 0, the same for both functions and all samples, in place of pi and |t|^(1+e) in place of t^2.", "quantifier": "all samples of numbers of any sizes, methods and compile modes, exponents in (0, 2); improper Riemann integrals over the line", "why_tests_cant": "An identity between a finite sum and an improper integral, for all samples.", "anchors": ["dcor/_energy.py:energy_distance", "dcor/_dcor.py:distance_covariance_sqr", "docs/theory.rst"]}
{"id": "C86", "title": "Noise brings samples closer", "statement": "Adding the same independent noise to both samples does not increase the energy distance: if sx holds all sums of an observation of x and one of z, and sy all sums of an observation of y and one of z, then energy_distance(sx, sy) <= energy_distance(x, y). For different additions the square roots of the energy distances add up at most: sqrt(E(x1+x2, y1+y2)) <= sqrt(E(x1, y1)) + sqrt(E(x2, y2)).", "quantifier": "all samples of any sizes and dimension, exponents in (0, 2]", "why_tests_cant": "An inequality about all samples.", "anchors": ["dcor/_energy.py:energy_distance"]}
{"id": "C87", "title": "Changing the unit by a power of two", "statement": "Take float64 samples of at most 2^18 observations and 2^30 columns whose values of a coordinate are equal or differ by between 2^-40 and 2^40, and multiply one by 2^k and the other by 2^l, with k and l between -40 and 40 (x * 2.0**k is exact unless a number leaves the range of doubles). Then, to the last digit, with NAIVE and exponent 1: every distance is multiplied by 2^k, distance_covariance_sqr and u_distance_covariance_sqr by 2^(k+l), and distance_correlation, distance_correlation_sqr and u_distance_correlation_sqr return the same numbers as before. With the same random_state the statistic of distance_covariance_test is multiplied by 2^(k+l) and its p-value is the same number. If x and y are both multiplied by 2^k, energy_distance (U or V statistic, average by mean) is multiplied by 2^k; x and y may then have different numbers of observations. If all samples of energy_test are multiplied by 2^k, its statistic is multiplied by 2^k and its p-value is the same number. On samples that the fast algorithms do not accept (more than one column, or arrays of another library) the default method does the same, and distance_correlation_t_test returns the same statistic and the same p-value. With AVL, and with the default method on numpy samples of one column, distance_covariance_sqr and u_distance_covariance_sqr are also multiplied by 2^(k+l) if every value is 0 or between 2^-40 and 2^40 in absolute value and np.argsort only compares (equal orders give equal permutations). There, with values 0 or between 2^-30 and 2^30 in absolute value and k and l between -18 and 18, distance_correlation, distance_correlation_sqr and u_distance_correlation_sqr return the same numbers, and so does distance_correlation_t_test. MERGESORT does the same as AVL, compiled or not: the covariances are multiplied by 2^(k+l) and the correlations are the same numbers, under the same conditions. With each of these methods distance_covariance is multiplied by 2^((k+l)/2) if k+l is even. No intermediate result overflows or underflows.", "quantifier": "all such samples, k and l, all orders of addition of np.sum and @ (with or without fused multiply-add)", "why_tests_cant": "A bitwise equality of two computations for all samples and all orders of addition; tests can only sample them.", "anchors": ["dcor/_dcor.py:distance_covariance_sqr", "dcor/_dcor.py:distance_correlation", "dcor/_dcor.py:u_distance_covariance_sqr", "dcor/distances.py:pairwise_distances", "dcor/independence.py:distance_covariance_test", "dcor/independence.py:distance_correlation_t_test", "dcor/_energy.py:energy_distance", "dcor/homogeneity.py:energy_test"]}
