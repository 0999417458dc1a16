{
 "claims": [
  {
   "property": "C01",
   "status": "proved",
   "theorems": [
    "C01_population"
   ],
   "note": "in_range only: non-empty marginals, < 2^60 cells/states, marginal totals < 2^62 in absolute value."
  },
  {
   "property": "C02",
   "status": "proved",
   "theorems": [
    "C02_conv"
   ],
   "note": "in_range only: non-empty marginals, < 2^60 cells/states, marginal totals < 2^62 in absolute value."
  },
  {
   "property": "C03",
   "status": "proved",
   "theorems": [
    "C03_not_overfilled"
   ],
   "note": "in_range only: non-empty marginals, < 2^60 cells/states, marginal totals < 2^62 in absolute value."
  },
  {
   "property": "C04",
   "status": "proved",
   "theorems": [
    "C04_disjoint",
    "C04_repeated_dimension_refuted"
   ],
   "note": "Proved when no index list repeats a dimension, for at most 1111 dimensions and a total the generator can serve. Validation also accepts an index list with a repeated dimension; there the claim is false (witness)."
  },
  {
   "property": "C05",
   "status": "proved",
   "theorems": [
    "C05_share_at_most_one"
   ],
   "note": "Under the same limits as C04 (no repeated dimension inside one index list)."
  },
  {
   "property": "C06",
   "status": "proved",
   "theorems": [
    "C06_skips",
    "C06_zero_refuted",
    "C06_hang_refuted"
   ],
   "note": "The power of two rule is proved for 3 <= skips <= 2^31; the rest of the claim is false: skips=0 skips one point, and skips above 2^31 hang on every valid input."
  },
  {
   "property": "C07",
   "status": "proved",
   "theorems": [
    "C07_disjoint",
    "C07_rounded",
    "C07_overlap_refuted",
    "C07_many_refuted"
   ],
   "note": "False as stated: overlapping marginals (witness), and so many marginals that the products of cells overflow (64, witness). Proved for disjoint marginals: C07_rounded for any population and up to 31 marginals, with an error bound that grows with the number of states; C07_disjoint with a fixed bound when pop^(number of marginals) <= 2^53."
  },
  {
   "property": "C08",
   "status": "proved",
   "theorems": [
    "C08_validation",
    "C08_qis_rejects",
    "C08_ipf_validation",
    "C08_ipf_rejects",
    "C08_ipf_accepts",
    "C08_qisi_rejects",
    "C08_qisi_seed",
    "C08_qisi_validation"
   ],
   "note": "qis, ipf (integer-valued marginals) and qisi"
  },
  {
   "property": "C09",
   "status": "proved",
   "theorems": [
    "C09_population"
   ],
   "note": "any fuel, any seed; holds also for index lists with repeated dimensions"
  },
  {
   "property": "C10",
   "status": "proved",
   "theorems": [
    "C10_conv"
   ],
   "note": ""
  },
  {
   "property": "C11",
   "status": "proved",
   "theorems": [
    "C11_refuted"
   ],
   "note": "False: the generator that skips moves is never read, so skips has no effect on any call."
  },
  {
   "property": "C12",
   "status": "proved",
   "theorems": [
    "C12_conv",
    "C12_conv_finite",
    "C12_refuted"
   ],
   "note": "False as stated: with NaN in the array conv is True (witness). Proved for every marginal sum that is not NaN, so in full whenever the returned array is finite."
  },
  {
   "property": "C13",
   "status": "proved",
   "theorems": [
    "C13_iterations"
   ],
   "note": "For all inputs, no hypotheses."
  },
  {
   "property": "C14",
   "status": "proved",
   "theorems": [
    "C14_returns_or_raises",
    "C14_covering_diverges",
    "C14_refuted",
    "C14_qisi_covering_diverges",
    "C50_returns_or_raises"
   ],
   "note": "False for ipf and qisi alike: an accepted marginal on all dimensions makes rScale loop forever. True for index lists that leave a dimension out."
  },
  {
   "property": "C15",
   "status": "proved",
   "theorems": [
    "C15_nonnegative",
    "C15_zeros_or_nan",
    "C15_zeros_refuted"
   ],
   "note": "Non-negativity is proved (NaN is not below zero). A zero of the seed stays zero or becomes NaN, and the NaN case occurs (witness)."
  },
  {
   "property": "C16",
   "status": "proved",
   "theorems": [
    "C16_fitting_seed",
    "C16_negative_zero_refuted"
   ],
   "note": "True bit for bit for seeds without negative zeros; a negative zero in a row without individuals becomes a positive zero (witness)."
  },
  {
   "property": "C17",
   "status": "proved",
   "theorems": [
    "C17_product_form",
    "C17_odds_ratios",
    "C17_last_marginal",
    "C17_last_marginal_positive",
    "C17_product_rounded",
    "C17_odds_rounded",
    "C17_last_rounded"
   ],
   "note": "The same model instantiated with exact rationals, and with doubles. In doubles the statements are about cells that do not fall below 2^-1021 in any of the scalings; below that a product may lose all its digits."
  },
  {
   "property": "C18",
   "status": "proved",
   "theorems": [
    "C18_qis",
    "C18_qisi",
    "C18_ipf",
    "C18_integerise",
    "C18_flatten"
   ],
   "note": "For every combination of shared and converted arguments, including one buffer passed several times; calls that return or raise."
  },
  {
   "property": "C19",
   "status": "proved",
   "theorems": [
    "C19_sum_to_pop"
   ],
   "note": "termination is part of the statement: the loop needs fewer steps than there are entries"
  },
  {
   "property": "C20",
   "status": "proved",
   "theorems": [
    "C20_closest",
    "C20_scaled_accuracy"
   ],
   "note": "closest to the scaled fractions as computed in double arithmetic; the second theorem bounds their distance from the exact proportions"
  },
  {
   "property": "C21",
   "status": "proved",
   "theorems": [
    "C21_rmse"
   ],
   "note": ""
  },
  {
   "property": "C22",
   "status": "proved",
   "theorems": [
    "C22_conv",
    "C22_total",
    "C22_safe"
   ],
   "note": "the rounded total is kept where rounding cannot add up to one (some dimension of at most 8192 entries, cells times total at most 2^48); without that bound it is the sum of the rounded 1-d sums"
  },
  {
   "property": "C23",
   "status": "proved",
   "theorems": [
    "C23_refuted",
    "C23_above"
   ],
   "note": "false as stated: totals just below an integer are truncated instead of rounded (ten times 0.3 gives 2; ten times 0.1 is undefined behaviour). Holds for totals at or just above an integer (C23_above)."
  },
  {
   "property": "C24",
   "status": "proved",
   "theorems": [
    "C24_unit_interval",
    "C24_value"
   ],
   "note": "For every state a Python program can reach."
  },
  {
   "property": "C25",
   "status": "proved",
   "theorems": [
    "C25_stratified"
   ],
   "note": ""
  },
  {
   "property": "C26",
   "status": "proved",
   "theorems": [
    "C26_no_repeats"
   ],
   "note": ""
  },
  {
   "property": "C27",
   "status": "proved",
   "theorems": [
    "C27_exhaustion_refuted"
   ],
   "note": "False in the code: after 2^32-1 points IndexError is raised, not StopIteration (for every dimension)."
  },
  {
   "property": "C28",
   "status": "proved",
   "theorems": [
    "C28_skips",
    "C28_termination_refuted"
   ],
   "note": "Exact skip count up to 2^31; above that the constructor never returns (refuted)."
  },
  {
   "property": "C29",
   "status": "proved",
   "theorems": [
    "C29_gray_code"
   ],
   "note": ""
  },
  {
   "property": "C30",
   "status": "proved",
   "theorems": [
    "C30_directions",
    "C30_polynomials"
   ],
   "note": ""
  },
  {
   "property": "C31",
   "status": "proved",
   "theorems": [
    "C31_flatten",
    "C31_r_flatten"
   ],
   "note": "Non-negative counts, total < 2^61, sizes <= 2^31 (32-bit columns)."
  },
  {
   "property": "C32",
   "status": "proved",
   "theorems": [
    "C32_flatten_total_refuted",
    "C32_outcomes",
    "C32_negative_refuted"
   ],
   "note": "false in the code: a negative count makes flatten write outside its columns. C32_outcomes gives every outcome for every array of integers: std::length_error if the sum of the entries modulo 2^64 is at least 2^61, an out-of-bounds write if it is less than the number of rows to be written, otherwise the rows followed by zeros. C32_negative_refuted: with a negative entry it is undefined behaviour exactly if the sum is not negative"
  },
  {
   "property": "C33",
   "status": "proved",
   "theorems": [
    "C33_offsets",
    "C33_iteration"
   ],
   "note": ""
  },
  {
   "property": "C34",
   "status": "proved",
   "theorems": [
    "C34_reduce",
    "C34_reduce1"
   ],
   "note": "Integer arrays whose absolute total fits in int64."
  },
  {
   "property": "C35",
   "status": "proved",
   "theorems": [
    "C35_slice",
    "C35_slice_nothing",
    "C35_slice_raises",
    "C35_negative_index_refuted"
   ],
   "note": "Holds for valid positions and for out-of-range dimensions or too large indices; the negative-index part is false and refuted."
  },
  {
   "property": "C36",
   "status": "proved",
   "theorems": [
    "C36_convert"
   ],
   "note": ""
  },
  {
   "property": "C37",
   "status": "proved",
   "theorems": [
    "C37_conv",
    "C37_population",
    "C37_returns_or_raises"
   ],
   "note": "for index vectors, marginals and results of R integers (below 2^31 individuals conv holds exactly if the marginals are met; above, counts wrap to int)"
  },
  {
   "property": "C38",
   "status": "proved",
   "theorems": [
    "C38_contiguous",
    "C38_layout_refuted"
   ],
   "note": "Holds for C-contiguous arrays, false for other layouts (refuted with witnesses)."
  },
  {
   "property": "C39",
   "status": "proved",
   "theorems": [
    "C39_qis",
    "C39_qisi",
    "C39_integerise",
    "C39_flatten",
    "C39_ipf_shared",
    "C39_ipf_refuted"
   ],
   "note": "False for ipf: any marginal that needs conversion to float64 is read after its temporary is freed. True for ipf with float64 marginals and for the other entry points."
  },
  {
   "property": "C40",
   "status": "proved",
   "theorems": [
    "C40_history",
    "C40_no_leak",
    "C40_refuted"
   ],
   "note": "True for all histories in which no resize runs out of memory (legal_history in StorageSpec.v). False otherwise: resize deletes the old block before allocating, so a growing resize that throws bad_alloc leads to a double free."
  },
  {
   "property": "C41",
   "status": "proved",
   "theorems": [
    "C41_no_undefined_behaviour",
    "C41_returns_or_raises"
   ],
   "note": "Above 2^31 skips it does not return (C06_hang_refuted); it still has no undefined behaviour."
  },
  {
   "property": "C42",
   "status": "proved",
   "theorems": [
    "C42_refuted",
    "C42_qisi_refuted"
   ],
   "note": "The property is false: for any mathematical library within one of the true log, every qis or qisi call with at least 1 degree of freedom d and finite chi-squared of at least 2000 d + 1000 (for qisi also NaN) reports p-value 1 (gamain returns 0 on underflow and pValue ignores the fault)."
  },
  {
   "property": "C43",
   "status": "proved",
   "theorems": [
    "C43_refuted",
    "C43_positive_marginals"
   ],
   "note": "The property is false: every converged call with a zero marginal entry reports NaN (0/0) and p-value 1. It holds when all marginal entries are positive (up to 28 marginals), which is proved; with 64 marginals it can fail (C07_many_refuted)."
  },
  {
   "property": "C44",
   "status": "proved",
   "theorems": [
    "C44_refuted",
    "C44_value",
    "C44_small_refuted",
    "C44_overflow_refuted"
   ],
   "note": "false: 1.5 is reported where the count is 24 (C44_refuted). C44_value: what is reported is N!/prod((a_k+1)!) with N the number of cells, up to rounding, as long as nothing overflows or is subnormal. C44_small_refuted: so in every call with at least as many individuals as cells less than the count is reported, by a factor of at least 2/3 of the population plus one. C44_overflow_refuted: zero or NaN is reported as soon as tgamma overflows for one cell (from 170 individuals)"
  },
  {
   "property": "C45",
   "status": "proved",
   "theorems": [
    "C45_histories",
    "C45_scalars",
    "C45_reset_points",
    "C45_reset_scalar_refuted"
   ],
   "note": "Point draws restart at the first point after a reset; scalar draws do not (refuted)."
  },
  {
   "property": "C46",
   "status": "proved",
   "theorems": [
    "C46_degenerate_shapes_refuted"
   ],
   "note": "False in the code; every degenerate shape is undefined behaviour."
  },
  {
   "property": "C47",
   "status": "proved",
   "theorems": [
    "C47_deplete",
    "C47_prefix",
    "C47_wrap"
   ],
   "note": "C47_wrap shows that the bound 2^32 on the total is needed."
  },
  {
   "property": "C48",
   "status": "proved",
   "theorems": [
    "C48_rightzero"
   ],
   "note": ""
  },
  {
   "property": "C49",
   "status": "proved",
   "theorems": [
    "C49_refuted",
    "C49_pick_refuted"
   ],
   "note": "False: a recomputation validates the decremented marginals and raises when one has been overdrawn."
  },
  {
   "property": "C50",
   "status": "proved",
   "theorems": [
    "C50_returns_or_raises"
   ],
   "note": ""
  },
  {
   "property": "C51",
   "status": "proved",
   "theorems": [
    "C51_prob2IntFreq"
   ],
   "note": ""
  },
  {
   "property": "C52",
   "status": "proved",
   "theorems": [
    "C52_refuted"
   ],
   "note": "false: the comparison with the tolerance is false for NaN, whose conversion to int is undefined"
  },
  {
   "property": "C53",
   "status": "proved",
   "theorems": [
    "C53_refuted"
   ],
   "note": "false: all-zero fractions lead to the conversion of NaN to int, negative fractions to negative frequencies"
  },
  {
   "property": "C54",
   "status": "proved",
   "theorems": [
    "C54_refuted",
    "C54_allowed"
   ],
   "note": "Refuted: with firstForbiddenState = 0 state 0 is returned. Holds for firstForbiddenState >= 1."
  },
  {
   "property": "C55",
   "status": "proved",
   "theorems": [
    "C55_refuted",
    "C55_ipf_refuted"
   ],
   "note": "false: the vector is read past its end (undefined behaviour) for every such call"
  },
  {
   "property": "C56",
   "status": "proved",
   "theorems": [
    "C56_refuted",
    "C56_ipf_refuted",
    "C56_rejects",
    "C56_negative",
    "C56_ipf_rejects",
    "C56_ipf_negative"
   ],
   "note": "false for seeds with more dimensions than implied (checkSeed reads past the end of impliedDim); holds for qisi and ipf and all other seeds (for ipf where the sums of the marginals convert to int64_t)"
  },
  {
   "property": "C57",
   "status": "proved",
   "theorems": [
    "C57_qisi",
    "C57_qisi_returns_or_raises",
    "C57_ipf"
   ],
   "note": "ipf: for sums that are not NaN, index vectors that do not repeat or name all dimensions"
  },
  {
   "property": "C58",
   "status": "proved",
   "theorems": [
    "C58_integerise"
   ],
   "note": "cells are converted to int by R; for the arrays of C22 (at most 2^40 cells, total below 2^50)"
  },
  {
   "property": "C59",
   "status": "proved",
   "theorems": [
    "C59_matrix",
    "C59_prefix",
    "C59_dimensions",
    "C59_negative_skip_refuted"
   ],
   "note": "True for skip >= 0. False for negative skips other than -2^31: the call never returns. For skip = 1 one point is skipped although no power of two is below 1."
  },
  {
   "property": "C60",
   "status": "proved",
   "theorems": [
    "C60_min_int",
    "C60_min_double",
    "C60_max_refuted"
   ],
   "note": "True for min. False for max, whose body is that of min; nothing calls it."
  },
  {
   "property": "C61",
   "status": "proved",
   "theorems": [
    "C61_individuals",
    "C61_determined",
    "C61_quantile",
    "C61_large_refuted"
   ],
   "note": "For populations up to 2^21 = 2097152, above which the product of variate and total can be rounded across a boundary (C61_large_refuted). Index lists must not repeat a dimension."
  },
  {
   "property": "C62",
   "status": "proved",
   "theorems": [
    "C62_qisi",
    "C62_integerise"
   ],
   "note": "Seeds may contain NaN but no negative number. qisi may raise instead of returning (C50)."
  },
  {
   "property": "C63",
   "status": "proved",
   "theorems": [
    "C63_converges",
    "C63_code",
    "C63_limit_refuted",
    "C63_double_refuted"
   ],
   "note": "C63_converges is about the model over the rationals with a parameter for the limit; C63_code says that with 1000 it is the model of the code over the rationals. C63_limit_refuted: a feasible 2x2 problem on which 1000 iterations do not converge, in exact arithmetic; C63_double_refuted: the same call in doubles. Rounding is not covered by C63_converges."
  },
  {
   "property": "C64",
   "status": "proved",
   "theorems": [
    "C64_iteration"
   ],
   "note": "an exact functional description: the specification is on functions of the cell index and uses no helper of the model except the arithmetic of doubles"
  },
  {
   "property": "C65",
   "status": "proved",
   "theorems": [
    "C65_qis",
    "C65_qisi"
   ],
   "note": "degeneracy for arrays of at most 2^53 cells (beyond that the running count is rounded). That the degeneracy is not the multinomial coefficient, and that pValue is 1 for huge statistics, are C44 and C42."
  },
  {
   "property": "C66",
   "status": "proved",
   "theorems": [
    "C66_individuals",
    "C66_determined"
   ],
   "note": "an exact functional description, rounding included; C66_determined says that the relation has at most one solution"
  },
  {
   "property": "C67",
   "status": "proved",
   "theorems": [
    "C67_doubles",
    "C67_tail_even_dof",
    "C67_tail_odd_dof",
    "C67_factor",
    "C67_tail_start",
    "C67_tail_derivative",
    "C67_chi_exists",
    "C67_chi_unique",
    "C67_chi_even"
   ],
   "note": "The code's text is repeated over a record of operations; with the operations of doubles it is the model used everywhere else (C67_doubles), with those of the reals it is what the code computes without rounding. Rounding error is not bounded. Even dof: the tail is an explicit finite sum. Odd dof: the tail is the function with minus the density as derivative, 1 at 0 and 0 at infinity, and gamma(dof/2) is the constant that makes this possible; both exist and are unique (C67_chi_exists, C67_chi_unique), and the same description fits the even case (C67_chi_even). lgamma is assumed right at the one argument used."
  },
  {
   "property": "C68",
   "status": "proved",
   "theorems": [
    "C68_integers",
    "C68_shares",
    "C68_empty_refuted",
    "C68_doubles",
    "C68_tiny_refuted"
   ],
   "note": "False for frequencies that are all zero and for doubles with a subnormal total: the search reads past the end of the vector. The class has no caller in the repository; the theorems cover the value types uint32_t and double."
  },
  {
   "property": "C69",
   "status": "proved",
   "theorems": [
    "C69_cumulative",
    "C69_rejects",
    "C69_recovery_refuted"
   ],
   "note": "The last part is false: at 0, at 1, and for every argument accepted outside (0,1) the value is NaN. The accuracy of invCumNorm inside (0,1) is not part of the claim. No caller outside the unit tests."
  },
  {
   "property": "C70",
   "status": "proved",
   "theorems": [
    "C70_factor",
    "C70_pair",
    "C70_zero_refuted"
   ],
   "note": "The last part is false: a variate of zero always gives undefined behaviour. C70_pair characterises when the call is defined and what it returns. A rho that is NaN is accepted (C70_factor lists the arguments that are refused). No caller outside the unit tests."
  },
  {
   "property": "C71",
   "status": "proved",
   "theorems": [
    "C71_least_divergence",
    "C71_greatest_entropy"
   ],
   "note": "For the model over the rationals (no rounding). Convergence is not assumed: the comparison is with tables that have the marginals of the result itself, which are the ones asked for up to the tolerance when it reports convergence."
  },
  {
   "property": "C72",
   "status": "proved",
   "theorems": [
    "C72_net",
    "C72_quality",
    "C72_halves",
    "C72_small_blocks"
   ],
   "note": "Follows from the recurrence, the primitivity and distinctness of the 1110 polynomials (C30) and linear algebra over GF(2). C72_small_blocks: without the size condition the even share fails, for quarter-boxes of seven coordinates and blocks of 2^14."
  },
  {
   "property": "C73",
   "status": "proved",
   "theorems": [
    "C73_same",
    "C73_true",
    "C73_offence_invalid",
    "C73_readable",
    "C73_partial_index_refuted",
    "C73_sobol",
    "C73_seed"
   ],
   "note": "std::to_string of an integer is taken to be its decimal text. C73_partial_index_refuted records that the index of the partial-sum message is not a marginal number."
  },
  {
   "property": "C74",
   "status": "proved",
   "theorems": [
    "C74_exists",
    "C74_pairwise",
    "C74_includes_C05",
    "C74_ring_refuted",
    "C74_order_refuted"
   ],
   "note": "False for arbitrary lists (ring; order), with witnesses; proved for decomposable lists. Same limits as C05 (no repeated dimension inside one index list, at most 1111 dimensions)."
  },
  {
   "property": "C75",
   "status": "proved",
   "theorems": [
    "C75_validation",
    "C75_agreeing_accepted",
    "C75_totals_refuted",
    "C75_half_refuted",
    "C75_size_refuted"
   ],
   "note": "The naive claim (accepted exactly if the exact sums agree) is false in both directions, with witnesses. Index lists without repeated dimensions that leave one out, as in C14."
  },
  {
   "property": "C76",
   "status": "proved",
   "theorems": [
    "C76_sum",
    "C76_product",
    "C76_marginal_product",
    "C76_marginal_product_outside",
    "C76_is_zero",
    "C76_allclose",
    "C76_allclose_nan_refuted",
    "C76_diff",
    "C76_diff_refuted"
   ],
   "note": "product, marginalProduct and isZero have no caller in the library."
  },
  {
   "property": "C77",
   "status": "proved",
   "theorems": [
    "C77_balanced",
    "C77_read",
    "C77_outside",
    "C77_lower_refuted",
    "C77_raise_refuted"
   ],
   "note": "The class is used by src/TestSobol.cpp only."
  },
  {
   "property": "C78",
   "status": "proved",
   "theorems": [
    "C78_one_round",
    "C78_large_refuted"
   ],
   "note": "The absolute tolerance of 1e-8 is below the spacing of doubles from 2^26 (67 million) on, so large independent tables may never be reported as converged."
  },
  {
   "property": "C79",
   "status": "proved",
   "theorems": [
    "C79_ipf",
    "C79_qisi",
    "C79_exact",
    "C79_thrice_refuted",
    "C79_overflow_refuted"
   ],
   "note": "The proof shows that the first scaling gives the same table for both seeds."
  },
  {
   "property": "C80",
   "status": "proved",
   "theorems": [
    "C80_total",
    "C80_code",
    "C80_ratio",
    "C80_three_refuted",
    "C80_largest_refuted"
   ],
   "note": "Fitting one marginal lowers its own error by exactly the distance it moves the table, and another marginal's error can rise by no more than that. py_ipf_exact_limit n is the model with n in place of the limit of 1000."
  },
  {
   "property": "C81",
   "status": "proved",
   "theorems": [
    "C81_cells",
    "C81_categories",
    "C81_dimensions",
    "C81_orientation",
    "C81_doubles_refuted"
   ],
   "note": "Both calls are assumed to return; which calls are accepted is C08 and C75."
  },
  {
   "property": "C82",
   "status": "proved",
   "theorems": [
    "C82_determined",
    "C82_order",
    "C82_restart",
    "C82_order_refuted"
   ],
   "note": "About the model over the rationals. For a warm start the marginals of the earlier call's dimensions must agree as well. C82_order_refuted: on a positive 2x2 seed both orders converge, after 5 and 4 rounds, to different tables."
  },
  {
   "property": "C83",
   "status": "proved",
   "theorems": [
    "C83_overshoots",
    "C83_gives_up",
    "C83_independent"
   ],
   "note": "The individuals and tables are those of C66. C83_independent: K marginals over N states with pop * K * (2N + K + 1) <= 2 * 10^7, as in C78. That qisi returns at all is not claimed (C49)."
  },
  {
   "property": "C84",
   "status": "proved",
   "theorems": [
    "C84_qisi",
    "C84_overshoots",
    "C84_whole_refuted"
   ],
   "note": "The last sentence of the statement is false and refuted: halves of shape (2,2,2) for which a whole table exists make integerise raise \"pick failed\", or return conv False. The README only says that it attempts to find one. nd_range: at most 2^40 cells, sum below 2^50."
  },
  {
   "property": "C85",
   "status": "proved",
   "theorems": [
    "C85_qis",
    "C85_positive",
    "C85_qisi",
    "C85_zero_refuted"
   ],
   "note": "accurate, pearsonR and moderate are in ChiSpec.v. The statistic is compared with the exact statistic of the arrays returned, so the rounding of the expectation itself is not part of the claim (C07, C64). C85_zero_refuted covers zeros of the seed and of the marginals."
  },
  {
   "property": "C86",
   "status": "proved",
   "theorems": [
    "C86_one_coordinate",
    "C86_low_discrepancy"
   ],
   "note": "hits, volume, degrees and off_by are in DiscSpec.v. Values are compared as the raw 32-bit integers; C24_value says the doubles are these divided by 2^32. The bound is the classical one for Sobol sequences; for many coordinates 2^D exceeds n and the bound is true but says nothing."
  },
  {
   "property": "C87",
   "status": "proved",
   "theorems": [
    "C87_population",
    "C87_expectation",
    "C87_orientation_refuted"
   ],
   "note": "C87_population: both kinds of change at once, at any places of the list; the longer call is proved to return whenever the shorter one does. Assumes fuel >= 32, that the longer list is valid, implies the same shape and has the same totals. C87_orientation_refuted: witness for a marginal with two new dimensions."
  },
  {
   "property": "C88",
   "status": "proved",
   "theorems": [
    "C88_reordered",
    "C88_independent",
    "C88_shared_refuted"
   ],
   "note": "C88_reordered: the second call is proved to return whenever the first does (fuel >= 32). The expectation is not claimed: with three or more marginals its products are taken in another order. C88_shared_refuted: two marginals sharing one new dimension."
  },
  {
   "property": "C89",
   "status": "proved",
   "theorems": [
    "C89_population",
    "C89_even",
    "C89_odd_refuted",
    "C89_mismatch_refuted"
   ],
   "note": "Completes C08 (ipf) for totals from 2^52 to 2^53. C89_odd_refuted is about every returning call with such a total; C89_odd_ex is one."
  },
  {
   "property": "C90",
   "status": "proved",
   "theorems": [
    "C90_order",
    "C90_first",
    "C90_within_one",
    "C90_whole",
    "C90_order_R",
    "C90_strict_refuted",
    "C90_growth_refuted",
    "C90_first_R",
    "C90_within_one_R",
    "C90_whole_R",
    "C90_equal"
   ],
   "note": "Scaled shares are the doubles the code computes (accuracy: C20). C90_strict_refuted: three fractions of 53 bits, pop 2. C90_growth_refuted: shares of 6, 6 and 2 in 10 and in 11."
  },
  {
   "property": "C91",
   "status": "proved",
   "theorems": [
    "C91_extended",
    "C91_front_refuted",
    "C91_R_refuted"
   ],
   "note": "C91_extended: fuel >= 32, as in the other theorems about whole calls. The converse is not claimed: the longer call may stop with a sampling error. C91_front_refuted: a marginal over (1, 3) in front of marginals over (0, 1) and (1, 2). C91_R_refuted: the same marginals given to R."
  },
  {
   "property": "C92",
   "status": "proved",
   "theorems": [
    "C92_python",
    "C92_extended",
    "C92_same_refuted",
    "C92_qisi",
    "C92_ipf",
    "C92_independent"
   ],
   "note": "C92_python needs equally long lists and index vectors that fit their marginals (implied); otherwise see C55. C92_extended is C91_extended carried over by C92_python. C92_same_refuted: marginals over dimensions (1,2) and (2,3). C92_qisi and C92_ipf are about calls that return in R (C56 has the seeds that read out of bounds there); C92_ipf needs fuel above the number of cells and r_proper as C57 does."
  },
  {
   "property": "C93",
   "status": "proved",
   "theorems": [
    "C93_qis",
    "C93_qisi",
    "C93_r_qis",
    "C93_r_qisi",
    "C93_extended"
   ],
   "note": "Rests on the models of flatten (C31) and of qis and qisi (C01, C02, C09, C10, C37, C57, C91). The bound on the number of categories is flatten's: it stores categories as int."
  },
  {
   "property": "C94",
   "status": "proved",
   "theorems": [
    "C94_conv",
    "C94_qisi",
    "C94_same",
    "C94_people",
    "C94_refuted"
   ],
   "note": "C94_refuted: two tables of halves that ipf returns unchanged. Rests on C12, C16, C22 and C84. The refuted part is the last sentence of the statement."
  }
 ]
}