{"id": "C01", "title": "qis: population is exact", "statement": "Whenever qis(indices, marginals, skips) returns, the result has the shape implied by the marginals, every entry is a non-negative integer, and the entries sum to stats['pop'].", "quantifier": "all index lists, marginals (any number of dimensions and sizes) and skips for which qis returns", "why_tests_cant": "the sampler takes data-dependent paths through slices of every marginal; a test sees a handful of marginals, never all shapes and totals", "anchors": ["src/QIS.cpp:QIS::solve_m", "src/QIS.cpp:sample", "src/module.cpp:qis"]}
{"id": "C02", "title": "qis: conv is exactly 'all marginals are matched'", "statement": "Whenever qis returns, stats['conv'] is True if and only if, for every supplied marginal and every cell of it, summing the result over the other dimensions gives exactly that cell's value.", "quantifier": "all inputs for which qis returns, including inconsistent and overlapping marginals", "why_tests_cant": "conv is computed from a running sign test during sampling, not by comparing the result with the marginals; equivalence must hold for every sampling history", "anchors": ["src/QIS.cpp:QIS::solve_m", "src/QIS.h:conv"]}
{"id": "C03", "title": "qis: no cell is overfilled when conv is True", "statement": "If qis returns with conv True then every result entry is at most each of the marginal cells it contributes to; in particular states with a zero marginal are never occupied.", "quantifier": "all inputs for which qis returns with conv True, all cells, all marginals", "why_tests_cant": "zero cells interact with the quasirandom stream; a test can only sample streams", "anchors": ["src/QIS.cpp:pick", "src/QIS.cpp:QIS::solve_m"]}
{"id": "C04", "title": "qis: independent marginals always converge", "statement": "If no dimension appears in two marginals and the input passes validation, qis never raises a sampling error and always returns conv True.", "quantifier": "all validated inputs with pairwise disjoint index lists, all skips the generator can serve, total below 2^52 and within the generator's 2^32-1 points", "why_tests_cant": "every Sobol point scaled to every residual total must fall strictly inside the cumulative distribution, in floating point", "anchors": ["src/QIS.cpp:pick", "src/QIS.cpp:recursive_sample", "src/QIS.cpp:QIS::solve_m"]}
{"id": "C05", "title": "qis: marginals sharing at most one dimension with their predecessors always converge", "statement": "If every marginal shares at most one dimension with the union of the marginals listed before it and the input passes validation, qis never raises a sampling error and returns conv True.", "quantifier": "all validated inputs of that shape", "why_tests_cant": "needs the joint invariant that partial sums on shared dimensions stay equal over the whole sampling history", "anchors": ["src/QIS.cpp:sample", "src/QIS.cpp:recursive_sample", "src/Microsynthesis.h:createMappings"]}
{"id": "C06", "title": "qis: skips means what it says", "statement": "qis(indices, marginals, skips) skips the largest power of two smaller than skips points of the Sobol sequence, and skips=0 starts at the beginning of the sequence.", "quantifier": "all skips in [0, 2^32)", "why_tests_cant": "boundary values around powers of two and the 32-bit limit", "anchors": ["src/QIS.cpp:QIS::QIS", "src/SobolImpl.cpp:nlopt_sobol_skip", "src/docstr.inl"]}
{"id": "C07", "title": "qis: expectation reproduces the marginals", "statement": "The expected-occupancy array returned by qis has the supplied marginals (up to rounding).", "quantifier": "all validated marginals", "why_tests_cant": "depends on algebraic structure of the marginals (overlap), not on particular numbers", "anchors": ["src/QIS.cpp:QIS::QIS", "src/QIS.cpp:QIS::computeStateValues"]}
{"id": "C08", "title": "input validation is exact", "statement": "ipf, qis and qisi reject an (indices, marginals) pair exactly when: fewer than two marginals or list lengths differ, an index list's length differs from its marginal's dimension, a dimension is given two sizes, fewer than two dimensions, a negative marginal value, the dimensions used are not exactly 0..n-1, totals differ (after rounding), or 1-d partial sums on a shared dimension differ.", "quantifier": "all index lists and integer marginals", "why_tests_cant": "the acceptance condition is a conjunction over all marginals, dimensions and cells; a test cannot show the checks are jointly complete", "anchors": ["src/Microsynthesis.h:Microsynthesis", "src/Microsynthesis.h:createMappings"]}
{"id": "C09", "title": "qisi: population is exact", "statement": "Whenever qisi(seed, indices, marginals, skips) returns, the result has the seed's shape, is non-negative and sums to stats['pop'].", "quantifier": "all inputs for which qisi returns", "why_tests_cant": "the state distribution is recomputed by a nested floating point IPF at data-dependent moments", "anchors": ["src/QISI.cpp:QISI::solve", "src/module.cpp:qisi"]}
{"id": "C10", "title": "qisi: conv is exactly 'all marginals are matched'", "statement": "Whenever qisi returns, stats['conv'] is True iff the result's marginal sums equal every supplied marginal exactly.", "quantifier": "all inputs for which qisi returns", "why_tests_cant": "as C02, with sampling driven by a floating-point IPF solution", "anchors": ["src/QISI.cpp:QISI::solve"]}
{"id": "C11", "title": "qisi: skips selects the starting point of the Sobol sequence", "statement": "Calling qisi with different skips samples from different parts of the Sobol sequence (so skips can be used to generate alternative populations).", "quantifier": "all inputs and pairs of skips", "why_tests_cant": "a test only compares a few skips; here the parameter has no effect for any input", "anchors": ["src/QISI.cpp:QISI::QISI", "src/QISI.cpp:QISI::solve"]}
{"id": "C12", "title": "ipf: conv means the marginals are met", "statement": "If ipf returns conv True then every marginal sum of the returned array (as computed in the arithmetic used) is within 1e-8 of the supplied marginal, and maxError bounds every such difference.", "quantifier": "all seeds and marginals of any shape", "why_tests_cant": "depends on NaN/infinity propagation through a data-dependent number of sweeps", "anchors": ["src/IPF.h:computeErrors", "src/IPF.h:solve"]}
{"id": "C13", "title": "ipf: iteration accounting", "statement": "ipf performs between 1 and 1000 iterations; conv False implies exactly 1000 iterations; iterations < 1000 implies conv True; and the returned maxError is < 1e-8 exactly when conv is True.", "quantifier": "all inputs for which ipf returns", "why_tests_cant": "requires all reachable iteration counts", "anchors": ["src/IPF.h:solve"]}
{"id": "C14", "title": "ipf: terminates on every accepted input", "statement": "For every input that passes validation ipf (and qisi) returns or raises, i.e. no call runs forever.", "quantifier": "all validated inputs", "why_tests_cant": "non-termination cannot be observed by a test", "anchors": ["src/Microsynthesis.h:rScale", "src/Index.cpp:MappedIndex::operator++"]}
{"id": "C15", "title": "ipf: non-negativity and structural zeros", "statement": "With a non-negative seed every entry of the ipf result is non-negative, and entries that are zero in the seed stay zero.", "quantifier": "all non-negative seeds, all marginals, any number of sweeps", "why_tests_cant": "must hold through every sweep of every run, in floating point", "anchors": ["src/Microsynthesis.h:rScale"]}
{"id": "C16", "title": "ipf: a seed that already fits is returned unchanged", "statement": "If the seed's marginal sums already equal the marginals then ipf returns the seed bit-for-bit, with conv True after one iteration and maxError 0.", "quantifier": "all fitting non-negative finite seeds of any shape", "why_tests_cant": "bit-exactness of x*(m/m) must hold for every double and every marginal layout", "anchors": ["src/IPF.h:solve", "src/Microsynthesis.h:rScale"]}
{"id": "C17", "title": "ipf: interaction structure of the seed is preserved", "statement": "In exact arithmetic the ipf result is the seed multiplied by one factor per marginal cell (so odds ratios of the seed are preserved), and after each sweep the last marginal is matched exactly. In doubles, after n sweeps with K marginals, every state that stays in the normal range (at least 2^-1021) is its seed value times one factor per marginal cell within n*K relative errors of 2^-52, the odds ratios of the seed are kept within a relative error of n*K*2^-49, and the last marginal is matched within a relative error of (number of states + 2)*2^-51.", "quantifier": "all seeds, marginals and numbers of sweeps", "why_tests_cant": "an algebraic identity over all seeds", "anchors": ["src/Microsynthesis.h:rScale"]}
{"id": "C18", "title": "caller's arrays are not modified", "statement": "ipf, qis, qisi, integerise and flatten leave the arrays passed by the caller unchanged, even though qis and qisi decrement their marginals while sampling.", "quantifier": "all calls, including when the arrays passed need no dtype conversion and so are shared", "why_tests_cant": "depends on which buffers are aliased, for every combination of argument dtypes", "anchors": ["src/module.cpp:toNDArray", "src/module.cpp:asNDArray", "src/module.cpp:qis"]}
{"id": "C19", "title": "integerise(frac, pop): frequencies sum to pop", "statement": "integerise(frac, pop) terminates and returns non-negative integers whose sum is exactly pop, for any non-negative finite frac with a positive sum.", "quantifier": "all non-negative fraction vectors and populations (length up to 2^20, pop < 2^31, no overflow of the sum)", "why_tests_cant": "truncation, normalisation and repeated remainder correction in floating point over every vector", "anchors": ["src/Integerise.cpp:integeriseMarginalDistribution", "src/module.cpp:integerise1d"]}
{"id": "C20", "title": "integerise: frequencies are the closest integers", "statement": "The returned frequencies differ from the scaled values by less than one each and minimise the sum of squared differences among all integer vectors with the same total.", "quantifier": "all inputs as in C19 and all competing integer vectors", "why_tests_cant": "optimality quantifies over all alternative integer vectors", "anchors": ["src/Integerise.cpp:integeriseMarginalDistribution"]}
{"id": "C21", "title": "integerise: reported rmse is the distance of the answer", "statement": "stats['rmse'] of integerise(frac, pop) is the root mean square of the differences between the scaled fractions and the returned frequencies (in the arithmetic used).", "quantifier": "all inputs as in C19", "why_tests_cant": "requires the running remainders to track the result through all corrections", "anchors": ["src/Integerise.cpp:integeriseMarginalDistribution"]}
{"id": "C22", "title": "integerise (n-d): conv means marginals are preserved", "statement": "integerise(a) on an array with two or more dimensions returns conv True if and only if, for every dimension, the 1-d sums of the result equal the rounded 1-d sums of a; converged or not, the result is non-negative, sums to the rounded total, and its rmse is the one reported; the call returns or throws.", "quantifier": "all arrays with at most 2^40 non-negative finite cells and a total below 2^50; the claim about the rounded total where some dimension has at most 8192 entries and cells times total is at most 2^48 (otherwise the sum of the rounded 1-d sums)", "why_tests_cant": "inherits the sampling histories of qisi", "anchors": ["src/Integerise.cpp:Integeriser::Integeriser"]}
{"id": "C23", "title": "integerise (1-d, no pop): result sums to the rounded total", "statement": "integerise(a) for a 1-d array accepted as having an integral total returns integers that sum to that (rounded) total.", "quantifier": "all 1-d arrays accepted by the integrality check", "why_tests_cant": "totals infinitesimally below an integer arise from rounding and are invisible to hand-written tests", "anchors": ["src/Integerise.cpp:Integeriser::Integeriser", "src/Integerise.cpp:checked_round"]}
{"id": "C24", "title": "SobolSequence: values lie strictly inside (0,1)", "statement": "Every coordinate of every point produced by SobolSequence(dim, skips) is strictly between 0 and 1.", "quantifier": "all dims 1..1111, all 2^32-1 points, all skips", "why_tests_cant": "2^32 points times 1111 dimensions cannot be enumerated", "anchors": ["src/SobolImpl.cpp:sobol_gen", "src/docstr.inl"]}
{"id": "C25", "title": "SobolSequence: every aligned block is perfectly stratified", "statement": "In each dimension, for every k<=32, any aligned block of 2^k consecutive points (counting the implicit all-zero point as number 0) has exactly one point in each interval [t/2^k,(t+1)/2^k).", "quantifier": "all dims, all k, all aligned blocks", "why_tests_cant": "quantifies over all blocks of a 2^32-long sequence in 1111 dimensions", "anchors": ["src/SobolImpl.cpp:sobol_gen", "src/SobolImpl.cpp:sobol_init", "src/SobolData.h"]}
{"id": "C26", "title": "SobolSequence: no coordinate value repeats", "statement": "In each dimension the 2^32-1 values produced before exhaustion are pairwise distinct.", "quantifier": "all dims, all pairs of draws", "why_tests_cant": "pairs of 2^32 draws", "anchors": ["src/SobolImpl.cpp:sobol_gen"]}
{"id": "C27", "title": "SobolSequence: exhaustion ends iteration", "statement": "After 2^32-1 points the generator stops iteration (StopIteration), as an iterator must.", "quantifier": "all dims; the state after 2^32-1 draws", "why_tests_cant": "reaching the end takes 2^32 draws", "anchors": ["src/module.cpp:SobolGenerator::next", "src/Sobol.cpp:buf"]}
{"id": "C28", "title": "SobolSequence: skips", "statement": "SobolSequence(dim, n) skips exactly the largest power of two smaller than n points (none for n=0) and construction always terminates.", "quantifier": "all 32-bit n", "why_tests_cant": "the 32-bit wrap at the top of the range is never exercised", "anchors": ["src/SobolImpl.cpp:nlopt_sobol_skip", "src/Sobol.cpp:Sobol"]}
{"id": "C29", "title": "SobolSequence: the n-th point is a pure function of n", "statement": "The n-th point is the XOR of the direction numbers selected by the Gray code of n, so skipping then drawing gives the same points as drawing and discarding, and dimension i does not depend on how many dimensions were requested.", "quantifier": "all dims, all n < 2^32, all interleavings of skip and draw", "why_tests_cant": "the generator state is incremental with a moving binary point", "anchors": ["src/SobolImpl.cpp:sobol_gen"]}
{"id": "C30", "title": "Sobol direction numbers are valid", "statement": "For every one of the 1111 dimensions the generated direction number j is odd and below 2^(j+1), and every tabulated polynomial is primitive, with no polynomial used twice.", "quantifier": "all 1111 dimensions, all 32 direction numbers", "why_tests_cant": "a single wrong table entry among 15,000 only degrades uniformity and is never caught by a test", "anchors": ["src/SobolData.h:sobol_a", "src/SobolData.h:sobol_minit", "src/SobolImpl.cpp:sobol_init"]}
{"id": "C31", "title": "flatten: exact expansion", "statement": "For an array of non-negative counts flatten returns one column per dimension and sum(pop) rows; each state appears exactly as many times as its count, rows being in lexicographic order of states.", "quantifier": "all shapes and all non-negative counts", "why_tests_cant": "all shapes and counts", "anchors": ["src/NDArrayUtils.h:listify", "src/module.cpp:flatten"]}
{"id": "C32", "title": "flatten: total on integer arrays", "statement": "flatten on any integer array either returns or raises; it never writes outside its buffers.", "quantifier": "all integer arrays, including ones with negative entries or empty dimensions", "why_tests_cant": "memory errors may pass silently in a test", "anchors": ["src/NDArrayUtils.h:listify", "src/module.cpp:flatten"]}
{"id": "C33", "title": "array indexing and iteration", "statement": "Distinct valid indices address distinct in-bounds storage slots covering all storage (row-major), and iterating an array visits every index exactly once in row-major order and then stops.", "quantifier": "all shapes of any dimensionality with positive sizes", "why_tests_cant": "all shapes", "anchors": ["src/NDArray.h:offset", "src/NDArray.h:computeOffsets", "src/Index.cpp:Index::operator++"]}
{"id": "C34", "title": "marginal reduction", "statement": "Reducing an array onto any list of dimensions gives, in each cell, the sum of the entries projecting onto it; the total is preserved; and 1-d reduction agrees with n-d reduction.", "quantifier": "all shapes, dimension lists and integer contents", "why_tests_cant": "all shapes and dimension subsets", "anchors": ["src/NDArrayUtils.h:reduce"]}
{"id": "C35", "title": "slicing", "statement": "Fixing any set of dimensions at valid positions yields the array of the remaining dimensions with the corresponding entries; out-of-range requests raise.", "quantifier": "all shapes, all sets of fixed dimensions (not all of them)", "why_tests_cant": "all shapes and subsets", "anchors": ["src/NDArrayUtils.h:slice", "src/Index.cpp:FixedIndex"]}
{"id": "C36", "title": "R: column-major conversion keeps indices", "statement": "The array handed over from R has the same value at each multi-index as the R array, for any dimensions.", "quantifier": "all shapes", "why_tests_cant": "all shapes", "anchors": ["src/rcpp_api.cpp:convertArray", "src/Index.cpp:TransposedIndex::operator++"]}
{"id": "C37", "title": "R: qis results satisfy the R-side marginals", "statement": "If R's qis returns conv TRUE then summing the returned (column-major) array over the dimensions not listed in indices[[k]] gives marginals[[k]], with R's 1-based dimension numbering.", "quantifier": "all R inputs for which qis returns", "why_tests_cant": "dimension order is reversed twice on the way in and out; every permutation of dimensions must work", "anchors": ["src/rcpp_api.cpp:qis", "src/rcpp_api.cpp:getDimension"]}
{"id": "C38", "title": "numpy layout independence", "statement": "The functions see the same element at each index as numpy does, whatever the memory layout of the array passed.", "quantifier": "all shapes and strides", "why_tests_cant": "layouts (transposes, slices, Fortran order) are unbounded", "anchors": ["src/module.cpp:asNDArray", "src/module.cpp:toNDArray"]}
{"id": "C39", "title": "argument buffers outlive their use", "statement": "No call reads a marginal after its numpy buffer has been released.", "quantifier": "all combinations of argument dtypes (converted or not)", "why_tests_cant": "use-after-free often reads the old value in a test", "anchors": ["src/module.cpp:ipf", "src/module.cpp:asNDArray"]}
{"id": "C40", "title": "array storage ownership", "statement": "Over any history of constructions, moves, resizes, copies, releases and destructions of arrays, every buffer is freed at most once, never used after being freed, is large enough for its array, and is freed by the time all arrays are destroyed unless released.", "quantifier": "all operation histories", "why_tests_cant": "histories are unbounded", "anchors": ["src/NDArray.h:resize", "src/NDArray.h:NDArray(NDArray&&)", "src/NDArray.h:~NDArray"]}
{"id": "C41", "title": "qis is memory safe", "statement": "qis on any marginals with positive sizes, total below 2^52 and fewer than 2^60 states either returns or raises; it never has undefined behaviour.", "quantifier": "all index lists and integer marginals in range, including inconsistent ones, duplicated dimensions and out-of-range dimension numbers", "why_tests_cant": "absence of out-of-bounds access for every input", "anchors": ["src/QIS.cpp", "src/Index.cpp", "src/NDArray.h"]}
{"id": "C42", "title": "p-value reflects the fit", "statement": "The p-value reported by qis/qisi is never larger for a much worse chi-squared statistic; in particular an enormous chi-squared does not yield p-value 1.", "quantifier": "all chi-squared values and degrees of freedom", "why_tests_cant": "the failing range starts beyond what tests use", "anchors": ["src/StatFuncs.cpp:pValue", "src/StatFuncs.cpp:gamain"]}
{"id": "C43", "title": "chi-squared is a number", "statement": "The chi-squared statistic reported by qis is a number (not NaN) and non-negative for every population it returns.", "quantifier": "all validated marginals, including ones with zero cells", "why_tests_cant": "zero cells with zero expectation", "anchors": ["src/StatFuncs.h:chiSq", "src/QIS.cpp:QIS::solve_m"]}
{"id": "C44", "title": "degeneracy is the multinomial count", "statement": "The degeneracy reported is S!/prod(a_k!) for the population a with S individuals.", "quantifier": "all population arrays", "why_tests_cant": "a formula over all arrays", "anchors": ["src/StatFuncs.cpp:degeneracy"]}
{"id": "C45", "title": "Sobol scalar access and reset", "statement": "Drawing scalars one at a time yields the coordinates of successive points in order; after reset the sequence restarts from its first point.", "quantifier": "all histories of scalar draws, vector draws, skips and resets", "why_tests_cant": "histories are unbounded", "anchors": ["src/Sobol.cpp:operator()", "src/Sobol.cpp:reset"]}
{"id": "C46", "title": "degenerate shapes are rejected cleanly", "statement": "Arrays with a zero-length dimension or with no dimensions raise an error rather than crash.", "quantifier": "all shapes containing a zero, and the 0-d shape", "why_tests_cant": "the crash is in undefined behaviour", "anchors": ["src/NDArray.h:computeOffsets", "src/NDArray.h:resize"]}
{"id": "C47", "title": "sampling without replacement", "statement": "Drawing from a without-replacement distribution until it is depleted returns each state exactly as many times as its frequency, then reports depletion, whatever the random stream.", "quantifier": "all frequency vectors with a total below 2^32 (the type of the running sum) and all streams of 32-bit variates", "why_tests_cant": "all streams", "anchors": ["src/DDWR.h:discrete_distribution_without_replacement"]}
{"id": "C48", "title": "portable bit trick", "statement": "The non-GNU fallback for locating the rightmost zero bit agrees with the builtin for every 32-bit value that has one.", "quantifier": "all 2^32-1 values", "why_tests_cant": "only one of the two branches is ever compiled", "anchors": ["src/SobolImpl.cpp:rightzero32"]}
{"id": "C49", "title": "qisi returns on valid input", "statement": "For valid marginals and a non-negative seed of the implied shape, qisi returns a population (with conv False if it could not be fitted) rather than raising an error about the marginals.", "quantifier": "all valid marginals and seeds", "why_tests_cant": "the failure needs a seed whose zeros make the marginals unattainable and an unlucky order of draws", "anchors": ["src/QISI.cpp:QISI::solve", "src/QISI.cpp:QISI::recomputeIPF"]}
{"id": "C50", "title": "qisi is memory safe and terminates", "statement": "For index lists that neither repeat a dimension nor name all of them, any marginals within the range of the integer types and any seed, qisi returns or raises: it has no undefined behaviour and does not hang.", "quantifier": "all index lists, marginals and seeds in range, including inconsistent ones and seeds holding NaN, infinities or negative values", "why_tests_cant": "absence of out-of-bounds access and of hangs for every input", "anchors": ["src/QISI.cpp:QISI::solve", "src/QISI.cpp:getIndex", "src/Microsynthesis.h:rScale"]}
{"id": "C51", "title": "prob2IntFreq (R): frequencies sum to pop and are closest", "statement": "prob2IntFreq(p, pop) either rejects the probabilities as not summing to one or returns non-negative frequencies that sum to pop, lie within one of p*pop, minimise the sum of squared differences among integer vectors with that total, and have the reported rmse.", "quantifier": "all non-negative finite vectors of at most 2^20 entries and all populations below 2^31", "why_tests_cant": "the acceptance tolerance interacts with rounding of every vector and population", "anchors": ["src/rcpp_api.cpp:prob2IntFreq", "src/Integerise.cpp:integeriseMarginalDistribution"]}
{"id": "C52", "title": "prob2IntFreq (R): NaN probabilities are rejected", "statement": "prob2IntFreq throws if one of the probabilities is NaN.", "quantifier": "all vectors with a NaN and all populations below 2^31", "why_tests_cant": "the result of the undefined conversion depends on compiler and platform", "anchors": ["src/rcpp_api.cpp:prob2IntFreq"]}
{"id": "C53", "title": "integerise(frac, pop): unusable fractions are rejected", "statement": "integerise(frac, pop) throws if the fractions are all zero or one of them is negative.", "quantifier": "all such vectors and populations", "why_tests_cant": "the result of the undefined conversion depends on compiler and platform", "anchors": ["src/module.cpp:integerise1d", "src/Integerise.cpp:integeriseMarginalDistribution"]}
{"id": "C54", "title": "constrained sampling never returns a forbidden state", "statement": "constrainedSample(r, firstForbiddenState) returns a state below firstForbiddenState with individuals left and removes one of them, or returns invalid_state and changes nothing if there is no such state.", "quantifier": "all frequency vectors with a total below 2^32, all variates and all values of firstForbiddenState", "why_tests_cant": "the search loop checks the bound only after its first step, which shows for one value of the argument", "anchors": ["src/DDWR.h:constrainedSample"]}
{"id": "C55", "title": "R: an index vector too short for its marginal is reported", "statement": "R's qis, qisi and ipf raise an error if an index vector has fewer entries than its marginal has dimensions.", "quantifier": "all index vectors, marginals and seeds", "why_tests_cant": "reading past the end of an R vector usually returns some number instead of failing", "anchors": ["src/rcpp_api.cpp:getDimension"]}
{"id": "C56", "title": "R: seeds of the wrong shape or with negative values are rejected", "statement": "R's qisi and ipf raise an error if the dimensions of the seed are not those implied by the marginals, or if the seed has a negative value.", "quantifier": "all seeds and all valid constraints", "why_tests_cant": "reading past the end of a std::vector usually returns some number instead of failing", "anchors": ["src/rcpp_api.cpp:checkSeed"]}
{"id": "C57", "title": "R: qisi and ipf results satisfy the R-side marginals", "statement": "If R's qisi returns conv TRUE, summing the returned column-major array over the dimensions not in indices[[k]] gives marginals[[k]], with R's 1-based numbering; for ipf the sums differ by less than 1e-8 and no cell is negative. The result has the dimensions of the seed.", "quantifier": "all R inputs for which qisi or ipf returns", "why_tests_cant": "dimension order is reversed twice on the way in and out; every permutation of dimensions must work", "anchors": ["src/rcpp_api.cpp:qisi", "src/rcpp_api.cpp:ipf"]}
{"id": "C58", "title": "R: integerise agrees with Python's on the transposed array", "statement": "R's integerise of an array gives the transpose of what Python's integerise gives for the transposed array, and the same conv and rmse.", "quantifier": "all arrays of two or more dimensions with finite non-negative cells", "why_tests_cant": "agreement of two bindings on every input", "anchors": ["src/rcpp_api.cpp:integerise", "src/module.cpp:integerise2d"]}
{"id": "C59", "title": "R: sobolSequence returns consecutive Sobol points strictly inside (0,1)", "statement": "R's sobolSequence(dim, n, skip) returns an n by dim matrix whose row j holds the coordinates of point k+j of the sequence divided by 2^32, all strictly between 0 and 1, where k is the largest power of two less than skip (0 when skip is 0). Asking for more rows leaves the first rows unchanged. Numbers of dimensions outside 1..1111 raise an error. The call always returns or raises.", "quantifier": "all dim, n and skip that fit an int, with n*dim below 2^31", "why_tests_cant": "the coordinates are consumed one scalar at a time across rows, and skip is converted from signed to unsigned; both have to work for every combination of arguments", "anchors": ["src/rcpp_api.cpp:sobolSequence", "src/Sobol.cpp:operator()", "src/Sobol.cpp:skip"]}
{"id": "C60", "title": "min and max of an array", "statement": "min returns the smallest and max the largest element of an array.", "quantifier": "all arrays of at least one dimension without empty dimensions, of 64-bit integers or of finite doubles", "why_tests_cant": "any element of an array of any shape can be the extreme one; max has no test at all", "anchors": ["src/NDArrayUtils.h:min", "src/NDArrayUtils.h:max"]}
{"id": "C61", "title": "qis samples by conditional quantiles", "statement": "qis builds the population one individual at a time from consecutive Sobol points. The coordinate belonging to a dimension selects that dimension's value as the quantile of the distribution of what the earlier individuals left of the marginal, conditional on the values already selected; the returned array counts these individuals.", "quantifier": "all valid marginals without repeated dimensions in an index list, all skips, all populations up to 2^21", "why_tests_cant": "the result is a deterministic function of the whole history of draws; tests compare totals, not which state each point selects", "anchors": ["src/QIS.cpp:pick", "src/QIS.cpp:recursive_sample", "src/QIS.cpp:sample", "src/QIS.cpp:QIS::solve_m"]}
{"id": "C62", "title": "Structural zeros are kept by qisi and integerise", "statement": "qisi puts no individual in a state whose seed entry is zero, nor in a state whose cell of some marginal is zero, whether the fit converges or not; integerise of an array with two or more dimensions returns zero wherever its argument is zero.", "quantifier": "all non-negative seeds, marginals, index lists that neither repeat a dimension nor name all of them, and arrays", "why_tests_cant": "the last draw compares rounded running sums with a rounded threshold, and the fit is recomputed from what is left after each overdrawn cell; a test sees only a few draws of a few seeds", "anchors": ["src/QISI.cpp:pick", "src/QISI.cpp:getIndex", "src/QISI.cpp:QISI::solve", "src/QISI.cpp:QISI::recomputeIPF", "src/IPF.h:solve", "src/Integerise.cpp:Integeriser"]}
{"id": "C63", "title": "ipf converges on feasible problems", "statement": "If some non-negative table that is zero wherever the seed is zero has all the given marginals, then in exact arithmetic the iteration of ipf converges: from some number of iterations on, a call with that limit returns conv = True and every marginal sum is within the tolerance. The limit of 1000 iterations in the code is not always enough.", "quantifier": "all non-negative seeds, any number of marginals of any dimensions (index lists that neither repeat a dimension nor name all of them), all feasible tables", "why_tests_cant": "convergence is a statement about an unbounded iteration over all tables; tests only see the few problems they run, and those that converge quickly", "anchors": ["src/IPF.h:solve", "src/IPF.h:rScale", "src/IPF.h:computeErrors", "src/IPF.h:s_MAXITER"]}
{"id": "C64", "title": "ipf in doubles is the textbook iteration, rounding included", "statement": "The table ipf returns is the seed after n rounds of scaling to each marginal in turn, computed in doubles cell by cell in row-major order, where n is the reported number of iterations; n is the first round at which no marginal error reaches 1e-8, or 1000; conv, maxError and pop are the corresponding functions of that table and of the marginals.", "quantifier": "all seeds of doubles (NaN and infinities included), any number of marginals of any dimensions (index lists that neither repeat a dimension nor name all of them)", "why_tests_cant": "tests compare results with tolerances on a few inputs; they do not determine the order of operations, the treatment of zero sums or the round at which the iteration stops", "anchors": ["src/IPF.h:solve", "src/IPF.h:rScale", "src/IPF.h:rDiff", "src/IPF.h:computeErrors"]}
{"id": "C65", "title": "the reported statistics belong to the returned arrays", "statement": "chiSq is Pearson's statistic (the sum over the cells, in row-major order and in doubles, of (n-e)^2/e) of the population array returned against the expectation array returned; pValue is pValue(d, chiSq) with d the product over the dimensions of (size - 1); degeneracy is the product of (N - k) / tgamma(n_k + 2) over the N cells of the population returned.", "quantifier": "all mathematical libraries, all valid and invalid inputs of qis and qisi for which they return, all skips", "why_tests_cant": "tests check the statistics, if at all, against stored values for a few inputs", "anchors": ["src/QIS.cpp:solve", "src/QISI.cpp:solve", "src/StatFuncs.h:chiSq", "src/StatFuncs.cpp:dof", "src/StatFuncs.cpp:pValue", "src/StatFuncs.cpp:degeneracy"]}
{"id": "C66", "title": "qisi samples the individuals the fitted table prescribes", "statement": "The expectation qisi returns is the seed fitted to the marginals (the iteration of C64). The population returned counts the individuals obtained one after the other from consecutive Sobol points: coordinate by coordinate, from the last dimension to the first, the first value whose cumulative weight in the current table, given the values already selected, exceeds the fraction of the total; the table is lowered by one at the state selected and, when that makes it negative, replaced by the seed fitted to what is left of the marginals, none of which may be negative.", "quantifier": "all seeds and marginals for which qisi returns (index lists that neither repeat a dimension nor name all of them), all mathematical libraries, all skips", "why_tests_cant": "the population is the outcome of thousands of dependent roundings and refits; tests compare totals, not the individuals", "anchors": ["src/QISI.cpp:solve", "src/QISI.cpp:getIndex", "src/QISI.cpp:pick", "src/QISI.cpp:recomputeIPF"]}
{"id": "C67", "title": "The p-value is the upper tail of the chi-squared distribution", "statement": "Computed without rounding, pValue(dof, x) for up to 20000 degrees of freedom is the probability that a chi-squared variable with dof degrees of freedom exceeds x, to within 1e-8 (even dof) or 7e-8 (odd dof) times x times the density at x, and the accuracy flag is true; only where that product is below 1e-37 the result is 1 with the flag false. Both the series and the continued fraction branch always stop within their 10000 iterations.", "quantifier": "for every dof from 1 to 20000 and every real x >= 0, with the code's constants", "why_tests_cant": "The unit tests compare a few p-values with tabulated ones to 1e-10 or so; they do not visit the boundary between the two branches, the rescaling at 1e37 or the stopping tests for other arguments.", "anchors": ["src/StatFuncs.cpp:63-207", "src/StatFuncs.cpp:334-341", "tests/TestStatFuncs.cpp"]}
{"id": "C68", "title": "Sampling with replacement selects states by their frequency", "statement": "operator() of discrete_distribution_with_replacement returns, for every variate, the index of a state with positive frequency; for integer frequencies of total up to 2^21 it is the state whose interval of cumulative frequencies contains the scaled variate, so the share of the 2^32 variates that select a state is its frequency over the total to less than one variate. Frequencies that are all zero are handled.", "quantifier": "for all non-empty vectors of frequencies (uint32_t with a total below 2^32, or non-negative doubles) and all 32-bit variates", "why_tests_cant": "The search has no bounds check and relies on the rounded product staying below the total; tests sample a few vectors and variates.", "anchors": ["src/DDWR.h:12-59"]}
{"id": "C69", "title": "The normal distribution function and its inverse accept and return what they should", "statement": "cumNorm maps every number into [0,1], preserves the order and maps NaN to NaN; invCumNorm raises exactly for arguments outside [0,1] (up to the tolerance of the code: 2^-52 below, 2^-50 above) and otherwise returns a number.", "quantifier": "for all doubles, and all erf that map numbers into [-1,1], NaN to NaN and are non-decreasing, all exp with exp(inf) = inf, all log and atan", "why_tests_cant": "The interesting arguments are a handful of doubles around 0 and 1; the unit tests for 0 and 1 are commented out.", "anchors": ["src/StatFuncs.cpp:209-313", "src/TestStatFuncs.cpp:43-45"]}
{"id": "C70", "title": "Cholesky accepts correlations in [-1,1] and maps pairs of variates to pairs of variates", "statement": "The constructor of Cholesky raises exactly when |rho| > 1, and otherwise stores rho and a number in [0,1] whose squares add up to one to within 2^-51; operator() maps every pair of 32-bit variates to a pair of 32-bit variates.", "quantifier": "for all doubles rho, all stored pairs, all pairs of 32-bit variates, and all erf and exp as in C69", "why_tests_cant": "The conversion back to uint32_t is undefined for NaN and for a probability rounded to one; tests use a few Sobol points, none with a zero.", "anchors": ["src/StatFuncs.cpp:315-332", "src/StatFuncs.h:20-35"]}
{"id": "C71", "title": "ipf returns the table of least divergence from the seed", "statement": "In exact arithmetic, of all non-negative tables that have the marginals of the table ipf returns and are zero where the seed is zero, the returned table is the only one of least Kullback-Leibler divergence from the seed; for a seed of ones it is the only one of greatest entropy.", "quantifier": "for all dimensions, sizes, seeds without negative entries, index lists and marginals the constructor accepts, and all competing tables of reals", "why_tests_cant": "The competing tables form a continuum; tests compare the result with a few reference tables.", "anchors": ["src/IPF.h:solve", "src/IPF.h:rScale", "src/Microsynthesis.h:Microsynthesis"]}
{"id": "C72", "title": "SobolSequence points are spread evenly over multi-dimensional boxes", "statement": "For any choice of coordinates and any dyadic box over them, an aligned block of 2^m points has exactly 2^(m - bits) points in the box, where bits is log2 of the inverse volume, provided m is at least the sum of the sides' bit counts, each rounded up to a multiple of the degree of the coordinate's polynomial. In particular the quality parameter of a set of coordinates is the sum of the degrees less one (0 for the first two, 1 for the first three). For the first d <= 32 coordinates, every aligned block of 2^d points has one point in each of the 2^d half-boxes.", "quantifier": "for all dimensions 1..1111, all sets of coordinates, all dyadic boxes, all block sizes up to 2^32 and all aligned blocks of the sequence", "why_tests_cant": "There are 2^1111 sets of coordinates and up to 2^32 points per sequence; tests look at a few low-dimensional projections of short prefixes.", "anchors": ["src/SobolImpl.cpp:sobol_gen", "src/SobolImpl.cpp:sobol_init", "src/SobolData.h:sobol_a", "src/SobolData.h:sobol_minit"]}
{"id": "C73", "title": "exceptions say what is wrong", "statement": "Log.h's operator% and to_string_impl build the messages of the Microsynthesis constructor, the Sobol constructor and the seed-shape checks. With integer marginals (totals below 2^52), every message of the Microsynthesis constructor states something that is wrong with the constraints, in the place and with the values it names: the list that is too short, two sizes given to one dimension and the marginal that redefines it, the first negative marginal and its minimum, the smallest undefined dimension, the first marginal whose total differs and both totals, two axes of a dimension whose partial sums differ and both vectors. Every such statement contradicts validity, the numbers can be read back from the text, and apart from the text the constructor behaves as in the other theorems. The index in the partial-sum message is the position among the axes of the dimension, not the number of a marginal.", "quantifier": "all lists of index vectors and integer marginals in range; all dimension numbers; all shapes", "why_tests_cant": "a wrong message only shows when somebody reads it; tests compare at most a few texts", "anchors": ["src/Log.h:operator%", "src/Log.h:to_string_impl", "src/Microsynthesis.h:Microsynthesis", "src/Microsynthesis.h:createMappings", "src/Sobol.cpp:Sobol", "src/IPF.h:solve"]}
{"id": "C74", "title": "qis finds a population whenever one exists", "statement": "If some table has all the marginals, qis returns conv True. This holds when the marginals are listed so that the dimensions each one shares with those before it all belong to a single one of these (a decomposable list; C05 is a special case): then qis returns conv True exactly if such a table exists, and agreement of the marginals pairwise on the dimensions they share is enough. For a ring of three two-dimensional marginals, or for a decomposable set listed in another order, it fails.", "quantifier": "all decomposable lists of valid marginals; all skips up to 2^31; all totals the generator can serve", "why_tests_cant": "feasibility of constraints and success of sampling are related for all inputs; tests try a few", "anchors": ["src/QIS.cpp:solve_m", "src/QIS.cpp:sample", "src/QIS.cpp:recursive_sample", "src/Microsynthesis.h:createMappings"]}
{"id": "C75", "title": "ipf: which real-valued marginals are accepted", "statement": "For marginals of arbitrary doubles whose totals fit in an int64, ipf returns exactly if no entry is below zero, all totals (added in row-major order, one half added, truncated) give the same integer, and for every dimension the sums along each further axis are within 1e-8 of those along the first one; otherwise it throws. Marginals whose exact sums agree are accepted, with the population the total rounded to nearest, if total times cells is at most 2^23 and the total is 2^-27 away from a half-integer. Both bounds are needed, and totals that differ by up to one are accepted.", "quantifier": "all lists of double marginals with convertible totals; all seeds; all numbers of cells up to 2^51", "why_tests_cant": "the checks round: whether agreement in exact arithmetic survives depends on magnitudes and on the order of summation, for all inputs", "anchors": ["src/Microsynthesis.h:Microsynthesis", "src/Microsynthesis.h:createMappings", "src/IPF.h:solve", "src/NDArrayUtils.h:reduce"]}
{"id": "C76", "title": "the array helper functions compute what their names say", "statement": "sum, product and marginalProduct return the sum, the product and the product of one entry per row exactly if every partial result is a 64-bit integer, and are undefined behaviour otherwise (also for an index outside its row). isZero is true exactly if all entries are zero. allclose is equality for integers and, for finite doubles, the same length and distances of at most 1e-8 up to one rounding; a NaN is close to everything. diff is the entrywise difference for arrays of the same shape, and reads beyond the end of a shorter second array.", "quantifier": "all vectors of integers or doubles of any length; all arrays of any shape with fewer than 2^60 cells", "why_tests_cant": "overflow on the way, NaN and mismatched shapes are rare inputs, and the claims are about every length and shape", "anchors": ["src/NDArrayUtils.h:sum", "src/NDArrayUtils.h:product", "src/NDArrayUtils.h:marginalProduct", "src/NDArrayUtils.h:isZero", "src/NDArrayUtils.h:allclose", "src/NDArrayUtils.h:diff"]}
{"id": "C77", "title": "the frequencies of a distribution without replacement can be edited through operator[]", "statement": "After frequencies were changed through the non-const operator[], the distribution behaves as one constructed from the new frequencies. True if the total is kept; false otherwise, as the stored total is not updated: after any frequency is lowered the largest variate makes operator() read beyond the frequencies, and after one is raised the distribution counts as depleted with as many units left as were added, for every sequence of variates. An index outside the frequencies is undefined behaviour.", "quantifier": "all frequency vectors with a total below 2^32, all positions and new values, all sequences of variates", "why_tests_cant": "the out-of-bounds read needs the top of the range of the generator, and depletion needs a full run", "anchors": ["src/DDWR.h:operator[]", "src/DDWR.h:operator()"]}
{"id": "C78", "title": "ipf on a unit seed with independent marginals gives the table of independence in one round", "statement": "If two or more integer marginals with the same population pop share no dimension, ipf started from a table of ones returns the table of independence: each state holds pop times the product of its shares in the marginals, and convergence is reported after one round. This holds for K marginals over N states whenever pop*K*(2N+K+1) <= 2*10^7, each state being within K*(2N+K+1) relative errors of 2^-52 of its exact value; without a bound on the population it fails (83 million people in a 2x2 table: 1000 rounds, not converged).", "quantifier": "all lists of disjoint index vectors and non-negative integer marginals of any number, rank and size with a common positive total", "why_tests_cant": "tests fix a few shapes and compare to 1e-8; the bound depends on shape, number of marginals and population, and the failing populations are a small fraction of large ones", "anchors": ["src/IPF.h:solve", "src/Microsynthesis.h:Microsynthesis", "src/NDArrayUtils.h:reduce"]}
{"id": "C79", "title": "ipf and qisi depend on the seed only through its proportions", "statement": "Multiplying the seed by a power of two leaves the outcome of ipf and of qisi unchanged bit for bit: the table or population, the expectation, every statistic, and an error if one is raised. This holds for factors from 2^-200 to 2^200 when the non-zero entries of the seed (and, for ipf, of the first marginal) lie between 2^-200 and 2^200; in exact arithmetic for every non-zero factor. In doubles it fails for other factors (three times a seed gives another last bit) and for powers of two that overflow the sums (a seed of 2^1023 gives a table of zeros).", "quantifier": "all seeds, index lists and marginals of any rank and size within the stated ranges, all factors", "why_tests_cant": "a test compares a seed with one or two multiples; the property relates two runs of up to 1000 rounds, and for qisi any number of refits, for every input", "anchors": ["src/IPF.h:solve", "src/NDArrayUtils.h:reduce", "src/Microsynthesis.h:rScale", "src/QISI.cpp:recomputeIPF"]}
{"id": "C80", "title": "With two marginals, more rounds of ipf never fit worse", "statement": "In exact arithmetic, with two marginals and a non-negative seed, the total over all marginal cells of |sum in the table - value asked for| never rises from one round to the next, and the result fits no worse than the seed. Nor do the ratios of the first marginal spread: if after some round no cell exceeds q times (or none falls below q times) the value asked for, that stays so. With three marginals the total can rise from a round to the next; with two the largest error, the one reported as maxError, can rise.", "quantifier": "all non-negative seeds and marginals of any rank and size, with two marginals; every number of rounds; every q >= 0", "why_tests_cant": "the claim compares the states after any two numbers of rounds for every input; maxError, the only measure a caller sees, is not monotone, so a test on it either fails by accident or is too weak", "anchors": ["src/IPF.h:solve", "src/Microsynthesis.h:rScale", "src/Microsynthesis.h:rDiff"]}
{"id": "C81", "title": "ipf does not depend on the names of dimensions and categories", "statement": "Permuting the categories of each dimension in seed and marginals, or renumbering the dimensions (transposing the seed and changing the index lists accordingly), permutes the table ipf returns and changes neither conv, nor the population, nor the number of iterations, nor maxError, when both calls return: this holds in exact arithmetic, for any renaming of cells under which the marginals correspond. In doubles, giving a marginal with its dimensions in another order (transposed, with the index list permuted) changes no bit of the table, conv, iterations or maxError; permuting categories can change last bits, because the sums are taken in another order.", "quantifier": "all seeds, index lists and marginals of any rank and size; all permutations of categories and dimensions", "why_tests_cant": "a test can permute a few inputs; whether the mapped indices treat every dimension and category alike is a statement about all permutations of all shapes", "anchors": ["src/IPF.h:solve", "src/Microsynthesis.h:rScale", "src/Microsynthesis.h:createMappings", "src/Index.cpp:MappedIndex", "src/NDArrayUtils.h:reduce"]}
{"id": "C82", "title": "ipf: the seed and the reached marginals determine the table", "statement": "Two calls of ipf with the same seed (no negative values) whose results have the same marginals, on the dimensions both calls constrain, return the same table: the order in which the marginals are listed has no other influence, and starting the second call from the table of an earlier call instead of from the seed (a warm start) has none either. In exact arithmetic. The order of the marginals is not without effect on results that meet the marginals only to the tolerance of 1e-8.", "quantifier": "all seeds without negative values, index lists and marginals of any rank and size, and all orders of the marginals", "why_tests_cant": "a test can compare a few orders to a tolerance; that nothing but the seed's interaction and the reached marginals survives in the result is a statement about all inputs and all numbers of rounds", "anchors": ["src/IPF.h:solve", "src/Microsynthesis.h:rScale", "src/module.cpp:ipf"]}
{"id": "C83", "title": "qisi: conv is False only if a fit overshoots", "statement": "If qisi returns with conv False, one of the tables fitted on the way, with at least one more individual to sample, has a cell that is negative, infinite or not a number, or asks, in some cell of a marginal, for a whole individual more than is left there. If the number of states times the population does not exceed 2^50, that fit has therefore given up after 1000 rounds (or has such a cell). In particular qisi with a seed of ones and independent marginals of moderate population returns conv True, whenever it returns.", "quantifier": "all seeds, index lists, marginals and skips in range; all populations for the first claim", "why_tests_cant": "the claim is about every table fitted during the sampling of every population; the tests only check conv of a handful of problems", "anchors": ["src/QISI.cpp:solve", "src/QISI.cpp:recomputeIPF", "src/QISI.cpp:getIndex", "src/module.cpp:qisi"]}
{"id": "C84", "title": "integerise (n-d) is qisi on the rounded one-dimensional sums", "statement": "integerise of an array with two or more dimensions raises exactly because its total or one of its one-dimensional sums is not within the tolerance of an integer, or is qisi with the array as its seed and the rounded one-dimensional sums as its marginals: the same table, flag and exception. So conv is False only if one of the fits overshoots. It returns, with conv True, whenever a table of whole numbers with the same one-dimensional sums, empty where the array is zero, exists.", "quantifier": "all arrays of two or more dimensions with finite non-negative cells", "why_tests_cant": "that two functions agree on every array, exceptions included, and that the search never misses an existing solution, cannot be seen on samples", "anchors": ["src/Integerise.cpp:Integeriser::Integeriser", "src/Integerise.cpp:checked_round", "src/QISI.cpp:solve", "src/QISI.cpp:pick", "src/module.cpp:integerise2d"]}
{"id": "C85", "title": "the reported chi-squared statistic is accurate", "statement": "The chi-squared statistic qis and qisi report is Pearson's statistic (computed without rounding) of the population array returned against the expectation array returned, to within N + 4 relative errors of 2^-52 for N states, and it is zero exactly if every count is its expected value. This holds if every expected value is between 2^-400 and 2^400, in particular for qis with up to ten marginals without zeros. It fails for qisi with a structural zero: every call that returns then reports NaN, and the p-value 1, whatever the population.", "quantifier": "all inputs, skips and mathematical libraries for which qis or qisi returns, with up to 2^50 states", "why_tests_cant": "Tests compare the statistic with a tolerance on a few tables; they say nothing about cancellation in n - e, underflow of small expected values or the error growing with the number of states, and no test looks at the statistic of qisi with zeros in the seed, where it is always NaN.", "anchors": ["src/StatFuncs.h:chiSq", "src/QIS.cpp:solve_m", "src/QISI.cpp:solve"]}
{"id": "C86", "title": "SobolSequence has low discrepancy", "statement": "Of the first n points of SobolSequence(dim), the number with one coordinate below x differs from n x by at most log2(n + 1) + 2, for every coordinate and every x; and the number with s given coordinates below given thresholds differs from n times the volume of that box by at most 1 + 2^D (log2(n + 1) + 1)^s, where D is the sum of the degrees of the coordinates' primitive polynomials.", "quantifier": "all 1111 dimensions, all n below 2^32, all choices of coordinates and of 32-bit thresholds", "why_tests_cant": "The claim is about every prefix length, not only powers of two, every box and every set of coordinates; a test can count points in a few boxes but cannot bound the worst case.", "anchors": ["src/SobolImpl.cpp:sobol_gen", "src/Sobol.cpp:Sobol::buf", "src/SobolData.h"]}
{"id": "C87", "title": "qis: a marginal without a new dimension has no influence on the population", "statement": "If every dimension of a marginal already occurs in the marginals listed before it, adding that marginal to a call of qis does not change the population returned; it only decides whether conv is true. Likewise a marginal with at most one dimension that does not occur before it may be given in any orientation (its index list and array transposed together) without changing the population. The expectation does not depend on the orientation of any marginal, bit for bit. The population does depend on the orientation of a marginal that brings two new dimensions.", "quantifier": "all marginals in range whose totals agree, all positions and numbers of such extra or transposed marginals, all skips for which the shorter call returns", "why_tests_cant": "The claim compares two runs of the whole population loop for every list of marginals; tests compare a few lists, and every such list in the test suite converges, which hides that the extra marginal was never sampled from.", "anchors": ["src/QIS.cpp:sample", "src/QIS.cpp:QIS::solve", "src/QIS.cpp:QIS::computeStateValues"]}
{"id": "C88", "title": "qis: the order of the marginals", "statement": "Listing the marginals of a call of qis in another order gives the same population, conv and degeneracy if the order is reached by exchanging neighbours whose common dimensions all occur in a marginal before them; in particular marginals that share no dimension may be listed in any order. If two marginals share a dimension not seen before, exchanging them can change the population even though both orders converge.", "quantifier": "all marginals in range, all reorderings of the stated kind, all skips for which the first call returns", "why_tests_cant": "The claim compares two runs of the whole population loop for every list of marginals and every reordering; the individual draws happen in a different order, so that the results agree has to follow from what each draw reads and writes.", "anchors": ["src/QIS.cpp:sample", "src/QIS.cpp:recursive_sample", "src/QIS.cpp:QIS::solve"]}
{"id": "C89", "title": "ipf: the population reported for whole-number marginals", "statement": "Whenever ipf returns for marginals of whole numbers, the population reported is the total of every marginal, as long as it is at most 2^52, or even and below 2^53. For every odd total between 2^52 and 2^53 it is one more than the total, and marginals whose totals differ by one are accepted.", "quantifier": "all seeds, all integer-valued marginals whose entries add up to at most 2^53, all calls that return", "why_tests_cant": "The claim covers every total up to 2^53 and every shape; the reported number is computed by adding one half in doubles and truncating, which is exact for every total a test would use.", "anchors": ["src/Microsynthesis.h:Microsynthesis", "src/module.cpp:ipf"]}
{"id": "C90", "title": "integerise: a fair division of the population", "statement": "integerise(frac, pop) gives a category with a greater scaled share at least as many individuals; fractions listed in decreasing order give frequencies in decreasing order; wherever it is listed, a category gets at most one more than another with at least its fraction; and a share that is a whole number is given exactly. Equal fractions of n categories give pop div n each, and one more to the first pop mod n. The first four statements hold for prob2IntFreq in R. Between fractions that differ in the last bit the smaller may get more if it is listed first, and raising the population by one can take an individual from a category (the Alabama paradox).", "quantifier": "all admissible fractions, all populations below 2^31, all pairs of categories", "why_tests_cant": "The claim compares any two categories for every list of fractions and every population, in double arithmetic; violations need ties or collisions in the last bit.", "anchors": ["src/Integerise.cpp:integeriseMarginalDistribution", "src/module.cpp:integerise1d", "src/rcpp_api.cpp:prob2IntFreq"]}
{"id": "C91", "title": "qis: further attributes for the same people", "statement": "Appending further marginals, over new dimensions and perhaps old ones, to the lists of a call of qis leaves the people as they were: if the longer call returns, the shorter one returns, with the same population size, and its population array is the longer call's summed over the new dimensions; if the longer call converges so does the shorter one. Putting the further marginals in front instead can change the population over the old dimensions even though both calls converge. In R the claim fails even for marginals appended at the end, since the R binding passes lists and dimensions in reverse order.", "quantifier": "all marginals in range whose shorter list names dimensions 0..n-1 (n at least two, at least two marginals), all further marginals in range, all skips for which the longer call returns", "why_tests_cant": "The claim compares two runs of the whole population loop over state spaces of different dimension for every list of marginals and every extension; it rests on what each draw reads and writes and on the columns of the Sobol generator not depending on its dimension.", "anchors": ["src/QIS.cpp:sample", "src/QIS.cpp:recursive_sample", "src/QIS.cpp:QIS::solve", "src/Sobol.cpp:Sobol::buf", "src/rcpp_api.cpp:qis"]}
{"id": "C92", "title": "R: qis, qisi and ipf are Python's on the reversed lists", "statement": "qis(indices, marginals, skips) in R equals Python's qis on the marginals in reverse list order with dimension d of n numbered n-d, in population (converted to int), expectation, conv, pop, chi-squared, p-value and degeneracy, and raises or hangs exactly when that does. qisi and ipf, when they return in R, give what Python's give on the reversed lists and the transposed seed. Hence in R new dimensions numbered first, with their marginals listed first, leave the people's old attributes as they were. In R, as in Python, marginals that share no dimension may be listed in any order. Given the same marginals in the same order R and Python draw different populations.", "quantifier": "all integer marginals in range whose index vectors name dimensions 1..n, all skips; for the extension, populations below 2^31 and calls that return", "why_tests_cant": "The claim is an equation between two programs over every list of arrays of every shape; a test compares two numbers for a few of them.", "anchors": ["src/rcpp_api.cpp:qis", "src/rcpp_api.cpp:getDimension", "src/module.cpp:qis", "src/QIS.cpp:QIS::solve", "src/rcpp_api.cpp:qisi", "src/rcpp_api.cpp:ipf"]}
{"id": "C93", "title": "flatten turns a synthesised population into individuals who match the marginals", "statement": "flatten applied to the result of qis or qisi returns one column per dimension and one row per person: exactly pop rows, each a cell of the table. conv is True exactly if, for every marginal and every cell of it, the number of rows with those categories in the marginal's dimensions is the marginal's entry. The same holds in R, with categories numbered from 1. Appending marginals over new dimensions to a call of qis appends columns to the table of individuals and leaves the columns of the old dimensions as they were, row by row.", "quantifier": "all calls of qis and qisi in range that return, all seeds and skips, with dimensions of at most 2^31 categories and fewer than 2^61 people (in R both below 2^31)", "why_tests_cant": "The claim counts rows over every cell of every marginal for every population the two functions can return, and compares whole tables of two calls; tests count a few.", "anchors": ["src/module.cpp:flatten", "src/NDArrayUtils.h:listify", "src/QIS.cpp:QIS::solve", "src/QISI.cpp:QISI::solve", "src/rcpp_api.cpp:flatten"]}
{"id": "C94", "title": "integerise of a converged ipf table keeps ipf's marginals", "statement": "If ipf converges on marginals that include a whole-number marginal over each single dimension, and its table is passed to integerise, then integerise's conv is True exactly if the integer table has those marginals, exactly. Unless the table's total is too far from an integer, integerise gives what qisi gives with the fitted table as seed and ipf's marginals; the total is near enough if some dimension has at most 1024 categories and the number of cells times one more than its marginal's total is at most 2^36. flatten of the integer table lists as many people as ipf's marginals have, and conv is True exactly if every category has as many of them as its marginal says. A converged table of ipf need not be integerised successfully: integerise can return conv False or raise 'pick failed'.", "quantifier": "all seeds, all lists of marginals in range that include whole-number one-dimensional ones up to 2^53, all results of ipf with at least two dimensions, at most 2^40 cells and finite non-negative entries summing to less than 2^50", "why_tests_cant": "The claim composes two iterative floating-point programs over all arrays; it depends on the tolerance of the one lying within the tolerance of the other with every rounding counted.", "anchors": ["src/IPF.h:IPF::solve", "src/Integerise.cpp:Integeriser::Integeriser", "src/module.cpp:integerise", "src/module.cpp:ipf"]}
