# A Rocq (Coq 8.16.1) model of humanleague

The development is in `rocq/theories` (logical name `Verif`). It is a hand-written model of
the C++ in `/repo/src`: nothing here is generated from the C++, so the tie between theorem and code is the
reading of the source recorded in the citation (`file:lines`) above each model definition.

## Modelling decisions

* **Outcomes.** Every C++ function becomes a total Gallina function into
  `outcome A = Ok a | Throw exn | UB why | Diverge`. Undefined behaviour (out of bounds access, division by
  zero, signed overflow, float-to-int conversion out of range, read of an uninitialised cell, use after free)
  is the distinct outcome `UB`, an infinite loop is `Diverge` (or "out of fuel for every fuel").
* **Configuration.** Release build (`NDEBUG`, as both setuptools and R CMD build do): `assert` is a no-op, the
  `#ifndef NDEBUG` branch of `rScale` is the `#else` branch. `VERBOSE` and `USE_STATE_SAMPLING` undefined.
  64-bit `size_t`/`int64_t`, 32-bit `int`.
* **Integers.** Unbounded `Z` with an explicit range check (signed: `UB` on overflow) or an explicit `mod 2^w`
  (unsigned), wherever the C++ type can overflow.
* **Floating point.** `double` is IEEE binary64 as formalised by Flocq (`BinarySingleNaN.binary_float 53 1024`),
  round to nearest even, one rounding per C++ operation (no FMA contraction, no extended precision). libm's
  `log`, `exp`, `lgamma`, `tgamma` are parameters of the functions that use them, never axioms.
* **Exact-arithmetic instances.** IPF and expectation are written once over a record of arithmetic operations, and
  instantiated at binary64 (the code) and at `Qc` (exact rationals) for the algebraic properties.
* **Pointers.** `MappedIndex`/`FixedIndex` hold pointers into a shared `Index`; the model threads the shared
  index vector and the list of positions pointed to, so aliasing (e.g. duplicated dimensions) is modelled.

## Plan per property

| id | what is modelled | how it is proved |
|----|------------------|------------------|
| C01 C02 C03 | `Microsynthesis` ctor, `QIS` ctor/`solve_m`/`sample`/`recursive_sample`/`pick` | loop invariant "result projected + remaining marginal = original", induction over the population loop |
| C04 C05 | as C01 plus floating-point `pick` | Flocq: scaled variate is strictly below the total; joint invariant on shared partial sums |
| C06 C28 | `nlopt_sobol_skip`, constructors | loop characterisation; refutation for 0 and divergence above 2^31 |
| C07 | `computeStateValues`, scaling | exact instance for disjoint marginals; binary64 witness refuting the overlapping case |
| C08 | ctor and `createMappings` | equivalence with a declarative predicate |
| C09 C10 C11 | `QISI::solve`, `getIndex`, `recomputeIPF` | as C01/C02; skips shown to be ignored |
| C12 C13 C15 C16 | `IPF::solve`, `rScale`, `rDiff`, `computeErrors` in binary64 | invariants; NaN witness refuting the unconditional claim |
| C14 | `rScale` loops via `MappedIndex` | termination for proper sub-marginals, divergence proof for a marginal over all dimensions |
| C17 | `rScale` over `Qc` | invariant "array = seed * product of factors" |
| C18 C39 | Python binding: buffers with reference counts and aliasing | heap model, invariants over the call |
| C19 C20 C21 | `integeriseMarginalDistribution`, `integerise1d` | Flocq exactness of remainders, exchange argument for optimality, error analysis of the normalisation |
| C22 C23 | `Integeriser` | from C10; binary64 witness for the truncated 1-d total |
| C24 C25 C26 C29 C30 C45 C48 | `SobolImpl.cpp`, `Sobol.cpp`, the full table `SobolData.h` | Gray-code invariant; triangularity of direction matrices; the recurrence in general (`SobolInit.v`), with finite checks of the table of polynomials and initial numbers by `vm_compute` (`SobolTableProofs.v`, `Primitive.v`) |
| C27 | `SobolGenerator::next`, exception classes | the thrown class is not a `runtime_error` |
| C31 C32 | `listify`, `flatten` | fold invariant; witness with a negative count |
| C33 C34 C35 C36 | `NDArray`, `Index`, `TransposedIndex`, `MappedIndex`, `FixedIndex`, `reduce`, `slice`, `convertArray` | position arithmetic, odometer lemma, refinement to functions on indices |
| C37 | `rcpp_api.cpp` qis path | index reversal lemma on top of C02 |
| C38 | strided numpy view vs `asNDArray` | equality for C-contiguous layouts, witness otherwise |
| C40 | `NDArray` lifetime operations on a heap | invariant over all operation histories |
| C41 | everything qis uses | no `UB` outcome |
| C42 C43 C44 | `gamain`, `pValue`, `chiSq`, `degeneracy` with libm as parameters | case analysis; witnesses |
| C46 | `NDArray` constructor | direct |
| C47 | `DDWR.h` | induction over draws |

## Trusted base

* Coq 8.16.1's kernel, including its virtual machine (`vm_compute` is used for finite checks over the Sobol table
  and for evaluating witnesses; `native_compute` is not used). No plugin, no extraction, no OCaml code.
* Flocq 4 (`BinarySingleNaN`) as the definition of binary64 arithmetic. It is a library of definitions and proved
  lemmas; it adds no axioms beyond those of the standard library's real numbers.
* The axioms listed under "Assumptions of the theorems": four axioms of the standard library, which come in with
  the classical real numbers `R` that Flocq's correctness lemmas are stated in. The development declares no axiom,
  parameter, section-less variable or hypothesis of its own.
* The reading of the C++. Each model definition carries the file and lines it stands for, and its simplifications
  where it makes any. Nothing connects the model mechanically to the source: the sandbox has no compiler
  dependencies, so the code was read and not run.
* The specification files (`Spec.v`, `SynthSpec.v`, `RealSpec.v`, `IpfSpec.v`, `IntegeriseSpec.v`, `SobolSpec.v`,
  `StatSpec.v`, `RSpec.v`, `LifetimeSpec.v`, `StorageSpec.v`, `QuantSpec.v`, `IpfFitSpec.v`, `SynthiSpec.v`, `TailSpec.v`, `TailOddSpec.v`, `NormSpec.v`, `EntropySpec.v`, `NetSpec.v`, `IpfRoundSpec.v`, `MsgSpec.v`, `DecompSpec.v`, `RealMargSpec.v`, `DegSpec.v`, `HelperSpec.v`, `IndepSpec.v`, `SeedSpec.v`, `MisfitSpec.v`, `RenameSpec.v`, `OrderSpec.v`, `CoverSpec.v`, `IntQisiSpec.v`, `ChiSpec.v`, `DiscSpec.v`, `PadSpec.v`, `ReorderSpec.v`), which give the vocabulary of the theorem statements
  independently of the model functions.

Assumptions about the world outside the modelled code, all of them visible in definitions or hypotheses:

* IEEE binary64 evaluation of every C++ `double` operation, round to nearest even, no contraction (Float64.v).
* libm functions are arbitrary functions (a record parameter `L`); where a theorem needs something of them it says so
  (C42 needs `log` within 1 of the true logarithm, nothing else needs anything).
* `new[]` of a trivially constructed type gives uninitialised cells; a failed allocation throws `bad_alloc`
  (C40 only; elsewhere allocation succeeds, so "returns or raises" is up to memory).
* pybind11 and Rcpp behave as documented: `array_t<T>` arguments are shared when the dtype and flags fit and converted
  to a temporary otherwise, casts of list elements likewise, C++ exceptions become Python/R errors,
  `py::stop_iteration` ends iteration (Bind.v, Lifetime.v, RApi.v, Sobol.v).
* Integer ranges. Theorems carry bounds such as "fewer than 2^60 cells" or "marginal totals below 2^62". They exclude
  only arrays that cannot be allocated or totals for which the integer type itself overflows; they are hypotheses, not
  modelling choices. The bounds that are narrower than that are listed in the notes of `MANIFEST.json`.

## What is modelled

| source | modelled | in | not modelled |
|--------|----------|----|--------------|
| `NDArray.h` | storage, sizes, offsets, element access, assign, constructors, moves, resize, release, destruction | NDArray.v, Storage.v | `const`/mutable overload pairs are one function |
| `Index.h/.cpp` | `Index`, `TransposedIndex`, `MappedIndex`, `FixedIndex` incl. their pointers into a shared index | NDArray.v, ArrayOps.v | |
| `NDArrayUtils.h` | `sum`, `product`, `min`, `max`, `diff`, `isZero`, `marginalProduct`, `reduce` (both), `slice` (both), `allclose`, `listify` | ArrayOps.v, Bind.v, Helpers.v | `print` |
| `Sobol*.cpp/.h`, `SobolData.h` | all of it, with the complete table of 1111 dimensions | Sobol.v, SobolTable.v | `malloc` failure, `free` |
| `Microsynthesis.h` | constructor, `createMappings`, `checkSeed`, `rScale`, `rDiff`, accessors | Micro.v | debug (`!NDEBUG`) branches, printing |
| `QIS.h/.cpp` | constructor, `solve_m`, `sample`, `recursive_sample`, `pick`, `computeStateValues`, `expectation`, statistics | Qis.v | `USE_STATE_SAMPLING` code (compiled out) |
| `QISI.h/.cpp` | constructor, `solve`, `getIndex`, `recomputeIPF`, statistics | Qisi.v | printing |
| `IPF.h` | constructor, `solve` (both), `computeErrors`, accessors | Ipf.v | printing |
| `Integerise.h/.cpp` | `integeriseMarginalDistribution`, `Integeriser`, accessors | Integerise.v | |
| `StatFuncs.h/.cpp` | everything: `gamain`, `pValue`, `chiSq`, `dof`, `degeneracy`; `cumNorm`, `invCumNorm`, `tail_value`, `Cholesky` (no caller outside the unit tests) | Stat.v, GammaGen.v, Normal.v | the library functions `lgamma`, `tgamma`, `log`, `exp`, `erf`, `atan` are parameters |
| `DDWR.h` | `discrete_distribution_without_replacement`: constructor, `operator()`, `constrainedSample`, `empty`, `operator[]`; `discrete_distribution_with_replacement`: constructor, `operator()` | Ddwr.v, Replace.v, Helpers.v | the const `operator[]` of the one with replacement (no caller) |
| `module.cpp` | `flatten`, `integerise` (both), `ipf`, `qis`, `qisi`, `SobolGenerator`, argument buffers and their lifetimes | Bind.v, Lifetime.v, Strides.v, Sobol.v | docstrings, the module table, `_unittest`, the GIL |
| `rcpp_api.cpp` | `ipf`, `qis`, `qisi`, `prob2IntFreq`, `integerise`, `flatten`, `sobolSequence`, array conversion | RArray.v, RApi.v, Integerise.v, RSobol.v | `unitTest` |
| `RcppExports.cpp`, `humanleague_init.c` | | | generated glue |
| `Log.h` | `operator%`, `to_string_impl` for integers and vectors; with them the message texts of `Microsynthesis.h`, `Sobol.cpp`, `IPF.h:39-46`, `QISI.cpp:79-86` | Msg.v | `to_string` of pointers; of doubles only as a parameter; other messages are abbreviated |
| `Global.h`, `UnitTester.*`, `Test*.cpp` | | | tests and logging |

Threads, the GIL, signals, and running out of memory (except C40) are not modelled. The Python wrapper package adds no
logic to these functions.

## Where the code and the claims disagree

Each line is a theorem with a concrete witness, or a whole class of inputs, in the named `Prop*.v` file.

| claim | what happens instead | theorem |
|-------|----------------------|---------|
| C04 | an index list may repeat a dimension; such input passes validation and qis then need not converge | `C04_repeated_dimension_refuted` |
| C06 | skips=0 skips one point; skips above 2^31 never return | `C06_zero_refuted`, `C06_hang_refuted` |
| C07 | with overlapping marginals the expectation does not have the marginals | `C07_overlap_refuted` |
| C07 C43 | 64 marginals of one cell and 65536 individuals: the products overflow, expectation and chi-squared are NaN | `C07_many_refuted` |
| C11 | qisi ignores skips altogether | `C11_refuted` |
| C12 | conv True with an array of NaN, maxError -DBL_MAX | `C12_refuted` |
| C14 | ipf and qisi loop forever if an accepted marginal is on all dimensions | `C14_covering_diverges`, `C14_qisi_covering_diverges` |
| C15 | a zero of the seed can become NaN | `C15_zeros_refuted` |
| C16 | a negative zero in an empty row becomes a positive zero | `C16_negative_zero_refuted` |
| C23 | ten times 0.3 integerises to a vector with sum 2; ten times 0.1 is undefined behaviour | `C23_refuted` |
| C27 | an exhausted generator raises IndexError instead of StopIteration | `C27_exhaustion_refuted` |
| C28 | construction with skips above 2^31 never returns | `C28_termination_refuted` |
| C32 | flatten of an array with a negative count has undefined behaviour | `C32_flatten_total_refuted` |
| C35 | a negative index passes the bounds check of slice | `C35_negative_index_refuted` |
| C38 | non-contiguous numpy arrays are read in the wrong order or out of bounds | `C38_layout_refuted` |
| C39 | ipf reads a marginal that needed conversion after its temporary was freed | `C39_ipf_refuted` |
| C40 | resize that runs out of memory leaves a freed pointer that is freed again | `C40_refuted` |
| C42 | a huge chi-squared is reported with p-value 1 | `C42_refuted`, `C42_qisi_refuted` |
| C43 | a zero marginal entry makes chi-squared NaN on every converged call | `C43_refuted` |
| C44 | the degeneracy is not the multinomial count | `C44_refuted` |
| C45 | reset does not reset the position inside the current point for scalar draws | `C45_reset_scalar_refuted` |
| C46 | empty dimensions and 0-d arrays have undefined behaviour | `C46_degenerate_shapes_refuted` |
| C49 | qisi raises on valid input when a recomputation sees an overdrawn marginal, or when no cell is left to select | `C49_refuted`, `C49_pick_refuted` |
| C52 C53 | NaN probabilities, zero or negative fractions are not rejected | `C52_refuted`, `C53_refuted` |
| C54 | constrainedSample with firstForbiddenState 0 returns state 0 | `C54_refuted` |
| C55 | R: a short index vector is read past its end | `C55_refuted`, `C55_ipf_refuted` |
| C56 | R: a seed with more dimensions than implied makes checkSeed read past the end | `C56_refuted`, `C56_ipf_refuted` |
| C59 | R: sobolSequence with a negative skip never returns | `C59_negative_skip_refuted` |
| C60 | max returns the smallest element | `C60_max_refuted` |
| C61 | with more than 2^21 people the variate times the total can be rounded up to the next boundary, so the next value is taken | `C61_large_refuted` |
| C63 | `conv` is False after 1000 iterations on a 2x2 problem that has a solution: seed [[1,1],[0,1]], both marginals [1,1]. The error falls only like 1/(2n). | `C63_limit_refuted`, `C63_double_refuted` |
| C68 | with frequencies that are all zero, or doubles with a subnormal total, the search runs off the end of the vector | `C68_empty_refuted`, `C68_tiny_refuted` |
| C69 | invCumNorm of 0, of 1 and of every value the code recovers from is NaN, not the largest double | `C69_recovery_refuted` |
| C70 | Cholesky::operator() converts NaN to uint32_t when a variate is zero | `C70_zero_refuted` |
| C73 | the index in the message "marginal partial sum mismatch" is the position in the list of axes that have the dimension, not the number of a marginal (src/Microsynthesis.h:235 prints `i`, not `mi[i].first`) | `C73_partial_index_refuted` |
| C74 | qis can miss a population that exists: three marginals in a ring, or a chain of marginals not listed along the chain. Reordering the list is enough in the second case. Validation only compares 1-d sums, so it accepts marginals that differ on two shared dimensions, which nothing can meet | `C74_ring_refuted`, `C74_order_refuted`, `C74_ex` |
| C75 | ipf accepts marginals with totals 10.25 and 9.5 (both round to 10) and then spends all 1000 rounds without converging; it rejects marginals that agree exactly when the total is a half-integer that the sum misses by one unit, or when a partial sum above 2^26 is off by one unit (the tolerance 1e-8 is absolute) | `C75_totals_refuted`, `C75_half_refuted`, `C75_size_refuted` |
| C44 | the reported degeneracy is N!/prod((a_k+1)!) with N the number of cells: too small whenever the population is at least N, and zero or NaN from 170 individuals in a cell | `C44_small_refuted`, `C44_overflow_refuted` |
| C32 | flatten with a negative entry: out-of-bounds write if the sum is not negative, std::length_error if it is | `C32_negative_refuted` |
| C76 | allclose accepts NaN as close to every number; diff does not compare sizes (a TODO in the source) and reads out of bounds | `C76_allclose_nan_refuted`, `C76_diff_refuted` |
| C77 | lowering a frequency through operator[] leaves the stored total too high, so that a draw can read out of bounds; raising one leaves units that are never drawn | `C77_lower_refuted`, `C77_raise_refuted` |
| C78 | two independent marginals of 83 million people and a unit seed: ipf runs 1000 rounds and reports that it has not converged, although the first round already gives the table of independence up to rounding (the tolerance of 1e-8 is absolute) | `C78_large_refuted` |
| C79 | ipf given a seed of all 2^1023 returns a table of zeros (the row sums overflow to infinity), although the seed is proportional to all ones; no error is raised and conv is False | `C79_overflow_refuted` |
| C80 | maxError can rise from one iteration of ipf to the next (4 x 2 table, all entries positive, two marginals), and with three marginals so can the total misfit; stopping at the iteration limit does not return the best table seen | `C80_largest_refuted`, `C80_three_refuted` |
| C81 | reversing the categories of one dimension of a 3 x 2 table changes the last bit of a cell of the result of ipf (summation order) | `C81_doubles_refuted` |
| C82 | the order of the marginals changes the result: on a positive 2x2 seed both orders converge, after 5 and 4 rounds, to tables that differ | `C82_order_refuted` |
| C84 | integerise finds a table of whole numbers with the array's one-dimensional sums whenever one exists. It draws individuals one after another without looking ahead, and may be left with sums that no table with the array's zeros has; then it raises "pick failed" or returns conv False. (An unverified simulation found 3x3 arrays with the same outcome.) | `C84_whole_refuted` |
| C85 | qisi with a zero in the seed or in a marginal always reports chi-squared NaN and p-value 1 | `C85_zero_refuted` |
| C87 | the order in which one marginal's dimensions are listed should not matter: with two new dimensions it changes the population | `C87_orientation_refuted` |
| C88 | the order of the list should not matter: exchanging two marginals that share a dimension gives another population, although both converge | `C88_shared_refuted` |
| C89 | the population should be the total of the marginals: one more is reported for every odd total between 2^52 and 2^53 | `C89_odd_refuted`, `C89_mismatch_refuted` |
| C90 | a smaller fraction should not get more: it can if it is listed first and differs in the last bit only | `C90_strict_refuted` |
| C90 | a larger population should leave nobody with fewer: 6, 6, 2 get 4, 4, 2 of 10 and 5, 5, 1 of 11 | `C90_growth_refuted` |
| C91 | further marginals should not change the people wherever they are listed: one listed first, sharing a dimension, gives another population over the old dimensions | `C91_front_refuted` |
| C91 | the same in R: appending a marginal over a new last dimension changes the people, because rcpp_api.cpp reverses the dimensions and the new one takes the first Sobol column | `C91_R_refuted` |
| C92 | the two bindings should give the same population for the same marginals: R reverses lists and dimensions, and draws another one | `C92_same_refuted` |
| C94 | a table that ipf has fitted to whole-number marginals should be integerised successfully: tables of halves give conv False or `pick failed` | `C94_refuted` |

## How to read seeded/LOG.jsonl

Each line is one edit of a definition in a scratch copy, followed by a rebuild.

- `failed`: theorems that no longer build, because their own proof or a lemma they rest on is rejected with an error. That
  a proof is rejected shows that the theorem depends on the edited text; it does not by itself show that the edited
  statement is false.
- `inconclusive`: theorems reached only by proofs that ran out of time or memory in the mutated copy. They are not counted
  as failures. The first version of the log did not make this distinction and listed `C49_refuted` as failed for M62, M63,
  M64, M66, M69, M70 and M71 on the strength of a memory crash; these lines have been corrected.

## Assumptions of the theorems

`Print Assumptions` follows every theorem in the `Prop*.v` files, so a build prints it. The results fall into these groups.

Closed under the global context (65 theorems):

`C17_product_form`, `C17_odds_ratios`, `C17_last_marginal`, `C17_last_marginal_positive`, `C18_flatten`,
`C25_stratified`, `C26_no_repeats`, `C28_termination_refuted`, `C29_gray_code`, `C30_directions`,
`C30_polynomials`, `C31_flatten`, `C31_r_flatten`, `C32_flatten_total_refuted`, `C32_outcomes`,
`C32_negative_refuted`, `C33_offsets`, `C33_iteration`, `C34_reduce`, `C34_reduce1`, `C35_slice`,
`C35_slice_nothing`, `C35_slice_raises`, `C35_negative_index_refuted`, `C36_convert`, `C38_contiguous`,
`C38_layout_refuted`, `C39_flatten`, `C40_history`, `C40_no_leak`, `C40_refuted`, `C45_histories`, `C45_scalars`,
`C45_reset_points`, `C45_reset_scalar_refuted`, `C46_degenerate_shapes_refuted`, `C48_rightzero`, `C60_min_int`,
`C60_max_refuted`, `C61_determined`, `C61_quantile`, `C63_code`, `C63_limit_refuted`, `C72_net`, `C72_quality`,
`C72_halves`, `C72_small_blocks`, `C73_same`, `C73_offence_invalid`, `C73_readable`, `C73_sobol`, `C73_seed`,
`C74_includes_C05`, `C76_sum`, `C76_product`, `C76_marginal_product`, `C76_marginal_product_outside`, `C76_diff`,
`C76_diff_refuted`, `C77_balanced`, `C77_read`, `C77_outside`, `C79_exact`, `C86_one_coordinate`,
`C86_low_discrepancy`

Axioms `ClassicalDedekindReals.sig_forall_dec`, `FunctionalExtensionality.functional_extensionality_dep` (9 theorems):

`C80_total`, `C80_code`, `C80_ratio`, `C80_three_refuted`, `C80_largest_refuted`, `C81_cells`, `C81_categories`,
`C81_dimensions`, `C82_order_refuted`

Axioms `ClassicalDedekindReals.sig_forall_dec`, `ClassicalDedekindReals.sig_not_dec`, `FunctionalExtensionality.functional_extensionality_dep` (3 theorems):

`C67_factor`, `C67_tail_start`, `C67_tail_derivative`

Axioms `ClassicalDedekindReals.sig_forall_dec`, `ClassicalDedekindReals.sig_not_dec`, `Classical_Prop.classic`, `FunctionalExtensionality.functional_extensionality_dep` (210 theorems):

`C01_population`, `C02_conv`, `C03_not_overfilled`, `C04_disjoint`, `C04_repeated_dimension_refuted`,
`C05_share_at_most_one`, `C06_skips`, `C06_zero_refuted`, `C06_hang_refuted`, `C07_disjoint`, `C07_rounded`,
`C07_overlap_refuted`, `C07_many_refuted`, `C08_validation`, `C08_qis_rejects`, `C08_ipf_validation`,
`C08_ipf_rejects`, `C08_ipf_accepts`, `C08_qisi_rejects`, `C08_qisi_seed`, `C08_qisi_validation`,
`C09_population`, `C10_conv`, `C11_refuted`, `C12_conv`, `C12_conv_finite`, `C12_refuted`, `C13_iterations`,
`C14_returns_or_raises`, `C14_covering_diverges`, `C14_refuted`, `C14_qisi_covering_diverges`,
`C50_returns_or_raises`, `C15_nonnegative`, `C15_zeros_or_nan`, `C15_zeros_refuted`, `C16_fitting_seed`,
`C16_negative_zero_refuted`, `C17_product_rounded`, `C17_odds_rounded`, `C17_last_rounded`, `C18_qis`,
`C18_qisi`, `C18_ipf`, `C18_integerise`, `C19_sum_to_pop`, `C20_closest`, `C20_scaled_accuracy`, `C21_rmse`,
`C22_conv`, `C22_total`, `C22_safe`, `C23_refuted`, `C23_above`, `C24_unit_interval`, `C24_value`,
`C27_exhaustion_refuted`, `C28_skips`, `C37_conv`, `C37_population`, `C37_returns_or_raises`, `C39_qis`,
`C39_qisi`, `C39_integerise`, `C39_ipf_shared`, `C39_ipf_refuted`, `C41_no_undefined_behaviour`,
`C41_returns_or_raises`, `C42_refuted`, `C42_qisi_refuted`, `C43_refuted`, `C43_positive_marginals`,
`C44_refuted`, `C44_value`, `C44_small_refuted`, `C44_overflow_refuted`, `C47_deplete`, `C47_prefix`, `C47_wrap`,
`C49_refuted`, `C49_pick_refuted`, `C51_prob2IntFreq`, `C52_refuted`, `C53_refuted`, `C54_refuted`,
`C54_allowed`, `C55_refuted`, `C55_ipf_refuted`, `C56_refuted`, `C56_ipf_refuted`, `C56_rejects`, `C56_negative`,
`C56_ipf_rejects`, `C56_ipf_negative`, `C57_qisi`, `C57_qisi_returns_or_raises`, `C57_ipf`, `C58_integerise`,
`C59_matrix`, `C59_prefix`, `C59_dimensions`, `C59_negative_skip_refuted`, `C60_min_double`, `C61_individuals`,
`C61_large_refuted`, `C62_qisi`, `C62_integerise`, `C63_converges`, `C63_double_refuted`, `C64_iteration`,
`C65_qis`, `C65_qisi`, `C66_individuals`, `C66_determined`, `C67_doubles`, `C67_tail_even_dof`,
`C67_tail_odd_dof`, `C67_chi_exists`, `C67_chi_unique`, `C67_chi_even`, `C68_integers`, `C68_shares`,
`C68_empty_refuted`, `C68_doubles`, `C68_tiny_refuted`, `C69_cumulative`, `C69_rejects`, `C69_recovery_refuted`,
`C70_factor`, `C70_pair`, `C70_zero_refuted`, `C71_least_divergence`, `C71_greatest_entropy`, `C73_true`,
`C73_partial_index_refuted`, `C74_exists`, `C74_pairwise`, `C74_ring_refuted`, `C74_order_refuted`,
`C75_validation`, `C75_agreeing_accepted`, `C75_totals_refuted`, `C75_half_refuted`, `C75_size_refuted`,
`C76_is_zero`, `C76_allclose`, `C76_allclose_nan_refuted`, `C77_lower_refuted`, `C77_raise_refuted`,
`C78_one_round`, `C78_large_refuted`, `C79_ipf`, `C79_qisi`, `C79_thrice_refuted`, `C79_overflow_refuted`,
`C81_orientation`, `C81_doubles_refuted`, `C82_determined`, `C82_order`, `C82_restart`, `C83_overshoots`,
`C83_gives_up`, `C83_independent`, `C84_qisi`, `C84_overshoots`, `C84_whole_refuted`, `C85_qis`, `C85_positive`,
`C85_qisi`, `C85_zero_refuted`, `C87_population`, `C87_expectation`, `C87_orientation_refuted`, `C88_reordered`,
`C88_independent`, `C88_shared_refuted`, `C89_population`, `C89_even`, `C89_odd_refuted`, `C89_mismatch_refuted`,
`C90_order`, `C90_first`, `C90_within_one`, `C90_whole`, `C90_order_R`, `C90_strict_refuted`,
`C90_growth_refuted`, `C90_first_R`, `C90_within_one_R`, `C90_whole_R`, `C90_equal`, `C91_extended`,
`C91_front_refuted`, `C91_R_refuted`, `C92_python`, `C92_extended`, `C92_same_refuted`, `C92_qisi`, `C92_ipf`,
`C92_independent`, `C93_qis`, `C93_qisi`, `C93_r_qis`, `C93_r_qisi`, `C93_extended`, `C94_conv`, `C94_qisi`,
`C94_same`, `C94_people`, `C94_refuted`
