# Formal model of vnmabus/dcor in Rocq (Coq 8.16.1)

Written before the proofs as a plan, and updated at every milestone.

## 1. What is modelled and how

The model is a set of total Gallina functions, one per Python function, each citing
the file and lines it models. It is *generic in the number type*: every function takes
a record `Num T` of the numpy scalar operations it uses (`+ - * / ** sqrt abs < <= ==
isnan`, integer literals). The same model text is then instantiated at

* `R` (Coq's reals): exact arithmetic. All the semantic theorems are about this instance.
* `xR` (reals extended with +inf, -inf, NaN and IEEE rules for the special values):
  for the claims about division by zero and NaN.
* `binary_float 53 1024` (Flocq's IEEE-754 double precision, with rounding, overflow and signed
  zeros; np.sum and `@` add in any order): for the claims about what survives in floating point (C53 on).
* `Q` (rationals): arrays of `Fraction` (C64); executable, so the doctests and unit test values of the repository are
  also replayed on it by `vm_compute` (these are sanity checks of the model, not theorems).
* integers of a fixed width that are promoted to floats as numpy does: for integer dtypes.

Theorems that do not depend on the arithmetic (exceptions, memory safety, agreement of compiled
and Python code, schedules) are stated for every number type.

Effects are explicit: a public function returns `list warning * (Ok value | Err exception)`.
In-place matrix operations (`out=`) run on an explicit store of arrays, with aliasing.
Scratch memory from `np.empty` starts with arbitrary contents. External routines are
parameters of the model with a stated contract, collected in a record `Env`:

| external | contract assumed (a premise of the theorems that need it) |
|---|---|
| `np.argsort` (unstable) | returns *some* permutation that sorts its argument |
| `np.empty` | returns *some* list of the right length |
| `np.linalg.eigh` | returns an orthogonal diagonalisation of a symmetric matrix |
| `scipy.stats.t.cdf` | non-decreasing, with values in [0,1]; for `C75_t_test` also: one bound on the upper tails for all degrees of freedom from 1 up (`common_tail`) |
| `RandomState.permutation(n)` | returns *some* permutation of 0..n-1 and a new state |
| joblib `Parallel` | draws the task arguments in dispatch order, returns results in task order; tasks complete in any order |
| `array_api_compat.array_namespace` on numpy arrays | may or may not return the object `numpy` itself (both cases covered) |

No axiom, Parameter or Hypothesis is declared; the contracts are ordinary premises, and
each has an instance (shown satisfiable by an Example).

## 2. What is not modelled

* Rounding, in the theorems about the instances `R`, `xR` and integers: there sums, products and
  square roots are exact. The theorems about doubles (C53 on) do model the rounding of each operation, with
  np.sum and `@` adding in an arbitrary order (a tree that depends on the number of elements only: numpy's pairwise summation,
  BLAS kernels with fused multiply-add), and numba's compiled np.sum adding from left to right.
  A dependence of the order on strides, axis or alignment is not modelled.
  `int(math.ceil(y / 2**l))` on integer-valued floats is exact integer arithmetic.
* The power function of the C library (exponents other than 1): an arbitrary function in the double
  precision instance.
* Arrays of more than two dimensions or 0-d arrays; array namespaces other than "numpy"
  are represented only by the dispatch they trigger. Broadcasting is modelled where a public function can reach it with valid
  argument types (columns in `_cdist_naive`, rows in `rowwise`, matrices in the products and projections of U-centred
  matrices), not elsewhere: `double_centered` of a matrix with one row is rejected.
* Calls whose arrays come from more than one library other than numpy, and mixed-library arguments of the partial functions.
  In a call that mixes numpy with one other library the distance matrix of each sample is computed by the routine chosen for
  that sample alone.
* numba's and joblib's internals, docstrings, plotting, packaging, deprecated aliases.
* Emission of numpy RuntimeWarnings (only dcor's own warnings are modelled).

## 3. File map (under rocq/theories)

Model (no proofs; every definition cites the lines it models):
* `Num`, `Numpy`: number records and instances, numpy array primitives on lists, exceptions, warnings.
* `MUtils`, `MDistances`, `MInternals`, `MMergesort`, `MAvl`, `MDcor`, `MPartial`, `MEnergy`, `MHypothesis`,
  `MHomogeneity`, `MIndependence`, `MRowwise`: one per Python module. `MParallel`: joblib's schedules as a
  transition system. `MInteger`: integer dtypes. `MFloat`: double precision. `MArgs`: arguments that are sequences or come from two
  libraries. `MCost`: the six distance covariance and correlation
  functions again, counting steps.
* `Sanity`: doctests of the repository replayed on the rational instance.

Vocabulary of the statements (no reference to the model's helpers):
* `Spec`: the textbook definitions. `Samples`: reading a sample off an array, contracts of external routines.
  `Api`: the six public scalar functions under one name, words such as "reordered" or "rotated".

Proofs:
* mathematics: `Sums`, `Centering`, `Tab`, `Psd`, `PowerKernel`, `Nonneg`, `Empirical`, `EnergyMath`, `Invariance`,
  `SpecFacts`, `Exchange`, `PermMean`, `AffInv`, `Expect`, `Consist`, `PopMath`, `PopIndep`, `Fejer`, `Stable`, `FloatError`, `FloatAccuracy`,
  `FloatNaive`, `FloatSum` (orders of addition); of AVL on doubles: `FloatAvlErr` (sums), `FloatAvlForm` (formula), `FloatAvlVar` (variances);
  of MERGESORT: `FloatMerge` (merge passes), `FloatMergeTerms`; `FloatExact` (opposites, zeros, finiteness: the lemmas of C68);
  of the correlations: `FloatCorr`, `FloatCorr2` and `RowSeq` (rowwise); of the t-statistic: `FloatTStat`; of the partial functions: `FloatPartial`; of centred matrices: `FloatCenter`; of energy distances: `FloatEnergy`; powers of two: `FloatScale`, `FloatScaleAvl`, `FloatScaleMerge`.
  NaN and infinities: `NanGeneric`, `NanMore`, `NanTest` (any number type), `NanInst` (extended reals and doubles qualify).
* refinement of the model to the definitions: `Ref*`, `Calls`, `*Generic` (for every number type), `Transfer*` (from `R`
  to `xR`), `Hom` (ring homomorphisms), `FloatAvl`, `FloatApi` (doubles), `CostFacts` (steps), `Witness`, `FloatEnv` (environments that meet
  the contracts).
* `P*`: the property theorems `Cnn_...`, with Examples showing that their hypotheses are met.

## 4. Plan per property

The theorems come in two layers: *refinement* (a model API call returns the value of the
textbook definition of `Spec.v`) and *mathematics* (facts about the textbook definition);
each property theorem is about the API call and combines the two.

| id | model | proof idea |
|---|---|---|
| C01, C02 | all paths of (u_)distance_covariance_sqr | naive: algebra of centring; AVL: invariant of the dyadic scratch array (a Fenwick-like tree) gives the dominance sums, then rank algebra; mergesort: loop invariants of the bottom-up merge give the inversion sums, then the identity sum|dx||dy| = 4 S - 2 n C |
| C03, C04, C47-like | dispatch with exceptions | case analysis for all inputs |
| C05 | stats functions | refinement + the identity sum_ij (x_i-x_j)^2 = 2 n^2 var |
| C06 | naive value | Gram matrices -> powers -> exp -> Gaussian kernel positive semidefinite; integral representation of x^b (0<b<1) by Coquelicot's RInt gives conditional negative definiteness of distances |
| C07, C08 | correlation functions | Cauchy-Schwarz on centred matrices + C06 |
| C09-C12 | API | refinement + invariance of the textbook value |
| C13, C14 | API | equality case of Cauchy-Schwarz; a_ij = A_ij - (A_ii + A_jj)/2 |
| C15, C25 | API | strictness in the integral representation, t -> infinity limit of the Gaussian forms |
| C16 | API with exponent 2 | algebra; explicit counterexample; warning decided by comparison |
| C17, C18, C19 | double_centered, u_centered on a store | store semantics + sums |
| C20 | products | algebra |
| C21-C23 | projections and partial functions | inner product space algebra, Gram determinant |
| C24, C26, C27 | energy distance | C06 machinery; string case analysis |
| C28 | k-sample statistic | induction over samples, offsets invariant |
| C29-C32 | permutation tests | counting; permutation of matrix = permutation of data; schedule state machine with invariant; counting argument for validity |
| C33 | t statistic | real analysis of R/sqrt(1-R^2); special values on xR |
| C34, C35 | rowwise | pointwise refinement, 0/0 on xR; witnesses for refuted parts |
| C36, C37 | distances | list algebra, Minkowski / subadditivity of powers; witness of transposition |
| C38 | AVL with bounds-checked accesses | index bounds from the dyadic layout |
| C39 | both dyad variants | both equal the dominance sum; sums from left to right assumed, otherwise refuted in doubles |
| C40, C41 | mergesort, argsort oracle | loop invariants; results independent of oracle |
| C42, C43, C50 | shape handling | case analysis; witnesses for refuted parts |
| C44 | af_inv | Mahalanobis distance from uniqueness of inverse |
| C45, C46 | expectation over finite product spaces | sums over tuples, linearity, marginalisation |
| C47 | energy vs dcov | algebra with label matrix |
| C48 | xR instance | case analysis of IEEE specials |
| C49 | integers modulo 2^k promoted to floats | ring homomorphism Z -> Z/2^64; no-overflow bound; witnesses |
| C51 | strings | case analysis |
| C52 | xR instance | simulation of the R instance on finite inputs |
| C53 | doubles | simulation: integers below 2^53 are exact, so all methods reach the same sums in any order of addition; witnesses by vm_compute |
| C54 | doubles | forward error analysis of the final formula from exact sums |
| C55 | doubles | relative error of each distance (difference, square, sum, square root), of the sums, then of the formula |
| C56 | doubles, AVL | simulation of the double run by the real run of the same algorithm with a depth (number of roundings) and a size for every array; a real environment that sorts like the double one |
| C57 | extended reals and doubles, special values | generic: a set of bad values closed under the operations, with bad sums and bad maxima (`special`), gives NaN in every term of every method; both number types are shown to qualify; refutations for rowwise and the affinely invariant correlation |
| C58 | doubles, correlations | error of the quotient by a square root from the errors of the three covariances; the variance terms of AVL (2 n^2 times numpy's variance) get their own error analysis |
| C59 | doubles, correlations | sqrt(fl(v*v)) rounds to v: the error of the square is less than half a unit after the root; refutations by vm_compute |
| C60 | doubles, permutation tests | the routine common to the three tests runs on a square matrix with one row per observation (proved for every call that returns); numerator and denominator are exact, the quotient is rounded once; distinct fractions with small denominators are further apart than a rounding |
| C61 | doubles, permutation tests | forward error analysis of the centred matrices and of the mean of their products; the order of two statistics is preserved when they are further apart than twice the error; the tie is a counterexample computed by vm_compute |
| C62 | doubles, energy distance | forward error analysis of the three means; self distance by 2a - a - a in IEEE arithmetic; exact sums of integers, so each mean is correctly rounded, and means depend on the distribution only; two counterexamples computed |
| C63 | doubles, energy test | forward error analysis of the k-sample statistic for every order of the pooled sample (the distances are those of the pooled sample, permuted); a p-value is then the exact count, rounded once; counterexample with a tie computed |
| C64 | rationals, AVL wrapper | Q to R is a homomorphism for every operation AVL and the final formula use (division by non-zero integers); the real result is C01/C02; lowest terms make the result unique |
| C65 | doubles, MERGESORT | as C56: loop invariants relate every array of the merge passes in the double run to the real run (`FloatMerge`), then the terms (`FloatMergeTerms`), the formula and the variances of C56/C58 |
| C66 | complexity | `MCost` is the model again with a step counter (`PCost` first proves that it returns the same for every input); bounds by induction over the loops: a merge of two blocks moves one index per iteration, a pass is linear, the block length doubles; each of the n elements touches log2 n levels of the dyadic tree. Two stated simplifications: a numpy call costs its number of elements, argsort costs an arbitrary function `sort` of the size |
| C67 | argument kinds | `MArgs` models what happens before there are arrays of one library (`array_namespace`, `asarray`, reads of `.shape`) for every public function; `PArgs` relates each call to the call on numpy arrays through a relation closed under sequencing. Refuted parts of the expectation (lists work like arrays) are theorems about the exceptions |
| C68 | identities in doubles | `FloatExact`: opposite operands give opposite results, signed zeros absorb finite factors in sums, dots (in any association, fused or not) and quotients; finiteness of a result implies finiteness of what it was computed from. `PExact`: the bundle by running the model with and without variances; symmetry and reflections by rewriting; constant samples by propagating zeros through `_dcov_from_terms`. The symmetry of the covariance is refuted with a witness |
| C69 | rowwise in doubles | `RowSeq` (any number type): the gufunc kernel of a row runs the compiled AVL terms and the same formula, so it returns what the function returns with compilation; the lists by induction. `FloatCorr2`: error of cov / sqrt vx / sqrt vy. `PRowFloat`: the covariances are identical, the correlations accurate (from C56); two refutations with witnesses. As in C39 the model uses one routine for `@` in compiled and in Python code |
| C70 | averages over all orders | `PermMean`: the sum over all permutations q of a matrix entry B(q_i, q_j) does not change when i and j are exchanged with other positions (composing with a transposition permutes the set of permutations), so it is the trace over n for i = j and the off-diagonal sum over n(n-1) otherwise. `PPermMean`: centred matrices have total 0 and the double-centred one trace -n times the mean distance; the statistics are linear in the permuted matrix, the variances do not change. The energy statistics are sums over blocks of the pooled distance matrix |
| C71 | dependence on the empirical distribution | `PEmpirical`: the average over a sample of any function of the observation is determined by the relative frequencies (`Empirical`), applied to the sample of joined pairs; the three averages in the expanded form of dcov^2 and the three in the energy distance are iterated averages of that kind. Repetition is an instance. The U-statistics are refuted on (0,0,0,1). |
| C72 | stability | `PStable`: d^e is a metric for e <= 1, so the distances change by at most the two displacements; centring is self-adjoint, so a change of a is multiplied with the centred b, whose entries sum to at most 4 times the sum of b in absolute value (4(n-1)/(n-2) for U-centring). The correlation is refuted on two points. |
| C73 | the t-test in double precision | `FloatTStat`: doubles other than NaN are placed on the real line (infinities at plus and minus 2^1024), where every operation used is rounding followed by clamping, both monotone and odd; the statistic is then an explicit function of the correlation. `PTFloat` reads off NaN, sign, order and finiteness, the p-value under a contract for t.cdf, and the accuracy by multiplying relative errors. Not claimed: the accuracy of the statistic as a function of the data (it is that of the correlation, C58, through the formula). |
| C74 | the statistics estimate the dependence of the distribution | `Consist`: probabilities over n draws, Chebyshev for the observed frequencies of the atoms, and bounds for linear, bilinear and quadratic forms of them. `PopMath`: the V-statistic of a drawn sample is the population quantity at the observed frequencies, so their distance is at most a multiple of the total difference of frequencies; the bias-corrected version is within 27AB/(n-3) of it. `PopIndep`: the population covariance is the energy of the signed measure (joint minus product of marginals), so it vanishes exactly under independence (strict negative definiteness, as in C06); the same for the energy distance. `PConsist`: convergence through continuous maps (square root, quotient, with the degenerate case apart). The distribution has finitely many atoms: the model has no measure theory, so continuous distributions are out of its reach. `PPartialLimit`: the partial functions, by continuity where the variance of the third variable is positive and by exact vanishing where it is 0. |
| C75 | the tests find every dependence and every difference | `PPower`: a p-value above 1/(b+1) needs a resampled statistic above the observed one. The resampled V-statistics are nonnegative and their mean over all orders is known (C70), so by Markov's inequality and the union bound over the b resamples that is unlikely once the observed statistic is at least half its population value, which C74 says is likely. The U-statistic of energy_test is below the V-statistic and close to it. The t-statistic: convergence of the correlation (C74) and the formula of C33. `PTPower`: the p-value of the t-test, from the statistic and the contract on the tails of `t.cdf`. |
| C76 | the level of the permutation tests on draws | `PLevel`: independent draws are exchangeable (redrawing two places in either order), so the expectation of a function of the data is the mean over all orders of the data; that mean is what C32 bounds, for every fixed sample. For a pair with independent components the joint draws may be replaced by separate draws of the two components (the signed measure of `PopIndep` vanishes), for equal distributions the second sample by draws from the first. |
| C77 | the partial functions in double precision | `FloatPartial`: clipping a correlation only brings it closer to the exact one; the quotient of the partial formula is a number because its denominator is a zero or at least 2^-54, and its error is at most 16 times that of the correlations over 1 - r^2. `PPartialFloat`: the inner products from the error bounds of u_centered and u_product (C55); for the covariance the residuals are compared with those for the *computed* coefficient, which orthogonality makes a second order effect. The counterexample to the range is evaluated in the kernel. |
| C78 | the level of the permutation tests in double precision | `PFloatLevel`: the matrix of the computed distances of regrouped observations is entry by entry the regrouped matrix, so the computed statistics of energy_test are exchangeable; the counting argument of C32 on the doubles (embedded in order into the reals), the comparison of computed p-value and level from C60, the draws as in C76. For distance_covariance_test the runs separated by more than the error bound of C61. |
| C79 | without ties the p-values are exactly uniform | `PUniform`: in a vector without ties every rank from 1 to b + 1 occurs once, so summing over the exchanges of the observed statistic with each resampled one counts exactly j (1 + b)-ths of the vectors; the vectors of statistics of all runs are closed under these exchanges (C32), also for draws (C76) and for the computed statistics (C78). |
| C80 | the power of energy_test with any number of samples | `PPowerMany`: the observed statistic is at least the term of the two drawn samples (the V-statistics of the other pairs are not negative, the U-statistics at least -4 M), the resampled statistics are at most their V-statistics, whose mean over the orders is the number of pairs times the mean distance (C70); then as C75. |
| C81 | the energy distance as a squared metric | `PMetric`: the mean distances of three samples as a form in weights a, b, c with a + b + c = 0, which is not positive (conditional negative definiteness); its discriminant is the triangle inequality of the roots. Pooling: splitting the double sums. |
| C82 | distance correlation one is similarity | `PSimilar`: C13 gives proportional distances; hence equal inner products after moving the first observation to 0 and scaling; vectors with equal inner products are mapped onto each other by a product of Householder reflections (induction on the number of vectors). |
| C83 | subadditivity for independent pairs | `PSubadd`: the squared distance covariance is a form, positive semidefinite on signed weights with vanishing margins (`PopIndep`), so its root is a seminorm; the signed weights of the sum are a mixture of translates of those of the two pairs. A sample is the distribution with equal weights. |
| C84 | distances between distribution functions | `PCdf`: the absolute difference of two points of a grid is a sum over the intervals of a squared difference of indicators; exchange of sums; Coquelicot's Riemann integral of a function that is constant on the intervals, over a grid that sorts the observations. |
| C85 | the definition by characteristic functions (docs/theory.rst) | `Fejer`: the integral of (1 - cos ut)/t^2 over the half line is pi abs(u)/2, by comparison with Fejer's kernel on (0, n pi), whose integral is elementary, and a bound of the tail. `PCharFun`: squared moduli as double sums of cosines with signed weights whose sums (margins) vanish; sums of improper integrals. `Stable`, `PCharExp`: exponents in (0, 2), the constant being the integral of (1 - cos t)/t^(1+e), which exists by monotone bounds. Not proved: more than one coordinate. |
| C86 | noise and the energy distance | `PNoise`: the energy distance as a form of signed weights; two translates of it with opposite signs give a form that is not positive, so the form between two translates is at most the energy distance; mean over the noise. The sums by the triangle inequality of C81. |
| C87 | powers of two in double precision | `FloatScale`: two doubles are related when one is exactly 2^k times the other; each operation keeps the relation as long as its exact result is 0 or far from the ends of the range, because rounding commutes with powers of two there. That is tracked by multiples of 2^-q (kept by sums and rounding) and upper bounds. `PFloatScale`: NAIVE step by step. `PFloatScaleTest`: the entries of the centred matrices and the statistic of each permutation are in the same relation, which keeps every comparison, so the p-value of `distance_covariance_test` does not change. `PFloatScaleEnergy`: likewise the means of distances within and between samples. `PFloatScaleEnergyTest`: the k-sample statistic of every permutation of the pooled sample. `PFloatScaleT`: where the fast algorithms do not apply the default method is NAIVE; the t-test is a function of the correlation (two zeros of different sign give the same p-value because the distribution function is monotone). `FloatScaleAvl`, `PFloatScaleAvl`: the AVL algorithm run on both samples side by side, weights 1, x, y and xy scaled by 2^0, 2^k, 2^l and 2^(k+l). `PFloatScaleAvlCor`: the correlations by AVL and the t-test on samples of one column; their variances go through `numpy.var`, whose roundings take more of the exponent range, so values are within 2^-30 and 2^30 and the factors within 2^-18 and 2^18. `FloatScaleMerge`, `PFloatScaleMerge`: the same for MERGESORT; the inversion sums of every merge pass are in the same relation, and the comparisons of the merge come out the same. `PFloatScaleRoot`: distance_covariance; the root of a nonzero double is a normal double. |

Properties found false of the code are kept, with a theorem `..._refuted` exhibiting a
concrete input, and a true weaker theorem next to it where there is one.

## 5. Trusted base

* Coq's kernel (8.16.1), including its virtual machine (`vm_compute` is used in examples and witnesses).
* The axioms of Coq's standard library that `Print Assumptions` lists: `ClassicalDedekindReals.sig_forall_dec`,
  `ClassicalDedekindReals.sig_not_dec`, `FunctionalExtensionality.functional_extensionality_dep` (the construction of the
  reals) and `Classical_Prop.classic`. ASSUMPTIONS.md (written by tools/assumptions.py) has the list of each theorem;
  about one in five is closed under the global context. No other axiom.
* The correspondence between the Python source and the model, as cited in the comments of the `M*` files: exactly the
  functions cited there are modelled; section 2 says what is not.
* The contracts of section 1, which are premises of the theorems.
* For doubles: that the hardware and Python follow IEEE-754 with rounding to nearest even (Flocq's definitions).

## 6. Tests of the theorems

`tools/mutate.py` seeds bugs into a scratch copy of the model (`seeded/mutants*.py`), rebuilds, and reports the theorems
that no longer prove. `seeded/LOG.jsonl` has one line per seeded bug.
