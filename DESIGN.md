# Design: a Rocq model of BaumEvA (DateOrMage/BaumEvolutionAlgorithms)

The Python package in `/repo/baumeva` is modelled function by function as executable
Gallina in `rocq/theories/`. Properties are in `properties.jsonl`; `MANIFEST.json` maps
each property to its theorems; `seeded/LOG.jsonl` records the wrong programs the theorems
were tried against.

## 1. Trusted base

* **Coq 8.16.1's kernel** (vcheck also runs `coqchk`). No plugins, no kernel flag is
  changed, no `Admitted`, no axioms of our own, no functors or module types.
* **`Print Assumptions`.** Every theorem of the `Prop*.v` files prints
  *Closed under the global context*, except the following ones in `PropFloat.v`,
  `PropDoubleCoding.v`, `PropDoubleRun.v`, `PropDoubleConverge.v` and `PropDoubleMulti.v`, which use Flocq's theory of rounding and therefore the standard library's real numbers:

  | theorem | axioms |
  |---|---|
  | `C41_double_range`, `C41_double_monotone`, `C41_double_no_target`, `C36_double`, `C37_double`, `C05_double`, `C54_double`, `C55_double`, `C04_double`, `C06_double`, `C70_binary_calls`, `C70_binary_safe`, `C70_combinatory_calls`, `C70_combinatory_safe`, `C70_categorical_calls`, `C70_categorical_safe`, all theorems of C87, and all theorems of C89 but `C89_ffga_refuted` | `ClassicalDedekindReals.sig_not_dec`, `ClassicalDedekindReals.sig_forall_dec`, `FunctionalExtensionality.functional_extensionality_dep`, `Classical_Prop.classic` |
  | `C41_double_off_target`, `C41_double_overflow`, `C05_double_exceeds`, `C08_double`, `C89_ffga_refuted` | none |

  All four are axioms of Coq's standard library; Flocq adds none. (The gate's list of
  library axioms is longer because `coqchk` reports every axiom of every *loaded* library
  file, such as the sealed `RbaseSymbolsImpl` constants.)
* **The model's fidelity to the Python source.** The correspondence between `/repo` and the
  model files is by reading; each definition cites file and lines. Section 3 lists what
  is modelled, section 4 the simplifications.
* **The specification side**: `Spec.v` and the statements in the `Prop*.v` files.

## 2. How the code is modelled

* **State** (`State.v`). Individuals are Python dicts that are *shared* between lists
  (elites are not copied; `add_best` may put one dict into the population twice), so an
  individual is a reference into a heap, and populations are lists of references. The state
  also holds the state of the global random generator, the operating-system entropy that
  `seed(None)` uses, `generator.rnd_seed`, and a ghost log of the objective calls.
* **Execution.** `outcome A = Ok a s | Err e | NoFuel`: Python exceptions are values
  (`exn`). Every `for` loop is structural recursion. The two unbounded `while` loops
  (second parent of tournament and of balanced selection) run on fuel; theorems hold for
  every fuel value, and divergence is stated as *no fuel suffices* (C26).
* **Randomness.** The generator state is an arbitrary infinite tape of integers; each
  primitive (`randint`, `sample`, `choice`, `randrange`, `random`) consumes raw values and
  maps them onto its documented range, every documented outcome being produced by some
  tape (`Rnd.v`). Theorems quantify over all tapes, so they hold for every behaviour of
  Mersenne Twister, and *exact outcome set* theorems show that no possible outcome is
  excluded. `seed(z)` replaces the tape by `prng z` for an arbitrary function `prng`.
  Probability statements use `Chance.v`: the mean of a function of the outcome over the draws,
  each draw below k uniform on its k values and independent of the others (C73-C76).
  `ChanceRun.v` does the same for whole runs and for loops of unbounded length: a run is a
  tree of draws, and a bound is stated about every mean that the tree admits (C82-C86).
* **Numbers** (`Num.v`). The model is parametric in a record `NumOps` of the numeric
  operations the code performs. `Qops` is exact rational arithmetic. `Fops` (`Float.v`) is IEEE
  binary64 by the executable specification `Coq.Floats.SpecFloat`. Control-flow theorems
  hold for every `NumOps` (or every one whose `<` is a strict weak order on the scores that
  occur, `NumOrder`); arithmetic theorems are about `Qops`; `PropFloat.v`, `PropDoubleCoding.v`,
  `PropDoubleRun.v`, `PropDoubleConverge.v` and `PropDoubleMulti.v` give double versions and exhibit where doubles behave differently.
* **Objective function.** An arbitrary function of the number of earlier calls and of the
  point, possibly raising: noisy, stateful and failing objectives are covered.

## 3. What is modelled

| Python file | model | parts left out |
|---|---|---|
| `global_generator.py` | `State.v` (`rnd_seed`, `do_seed`) | |
| `ga/populations/base_population.py` | `Population.v` | abstract method, type annotations |
| `ga/populations/binary_population.py`, `binary_gray_population.py` | `Binary.v`, `Population.v`, `Refill.v` (a second `fill`) | |
| `ga/populations/cat_population.py`, `order_cat_population.py` | `Population.v`, `Refill.v` (a second `fill`) | |
| `ga/crossovers/*` | `Crossover.v`; `num_offsprings` set to another value than the constructor's 1 in `Offsprings.v`, with the mutation of the list that the two children of a uniform crossover then share | - |
| `ga/mutations/*` | `Mutation.v` | |
| `ga/selections/*` | `Selection.v` | |
| `ga/penalties/*` | `Penalty.v` | |
| `ga/fitness/*` | `Fitness.v` | |
| `ga/new_generation.py`, `multi_new_generation.py` | `NewGeneration.v` | |
| `ga/ga_data.py`, `multi_ga_data.py` | `GaData.v`, `Report.v` | how Python writes the printed values as text (the lines of `print_best_solution` and their values are modelled) |
| `binary_ga.py`, `combinatory_ga.py`, `categorical_ga.py`, `vega.py`, `ffga.py`, `collector_ga.py` | `Driver.v`, `Report.v` | |

Not modelled: `__init__.py` re-exports, `README.md`, `setup.py`, `tests/`, warnings,
typing, memory limits, recursion limits, interruption, and use of the objects from several
threads.

## 4. Simplifications

Each is also stated at the definition it concerns.

* Within one run all numbers live in one type; Python ints used in arithmetic are converted
  (`nofZ`). CPython does the same in `int op float`, except that it compares ints with floats
  exactly and raises `OverflowError` for huge ints.
* Running `CategoricalMutation` on a binary population (possible through `CollectorGA`): the triples of
  the specification are taken to hold floats; with three ints Python would write ints into the
  genotype and raise when decoding.
* `parents` and `children` are `[]` instead of `None` before the first selection.
* A genotype that is `None` (a child before the crossover fills it) is the empty list.
* An exponent `alpha`, `betta` of a penalty is given by the function x -> x ** e, which may raise; natural
  exponents are repeated products (in doubles the C function `pow` may differ in the last digit for exponents
  above 2). A power that is a complex number (a negative number to a fractional power) is not followed.
* `sum` adds from left to right. CPython does so up to 3.11; since 3.12 it compensates the rounding of floats, which
  can change the last digits of the total in balanced selection (`C89_ffga_refuted` does not depend on it: there the
  total is exact). In exact arithmetic there is no difference.
* Decoding a binary genotype that holds strings other than `'0'` and `'1'` is not followed; no operator makes one.
* The objective does not modify its argument and returns a number or a tuple of numbers.
* `==` between Python dicts and lists starts with identity; the model compares values, which differs
  only for NaN objects (`ind_eqb`, used by `MultiGaData.update`).
* Wrong argument types that Python would only discover deep inside (say a string for
  `num_individ`) are not represented: the model's arguments are typed. Where the code itself
  tests types (`mutation_lvl`, gene specifications, `conditions`) the alternatives are modelled.

## 5. Files

Model: `Num State Binary Population GaData Crossover Mutation Selection Penalty Fitness
NewGeneration Driver Float Offsprings`. Specification vocabulary: `Spec.v`, `Laws.v`, `Chance.v`, `ChanceRun.v`. Proof support: `*Proofs.v`,
`ListLemmas Rnd Exec Runs MultiRuns MultiAny Fuelless FloatDecode FloatEncode TourLuck TourSteps TourPaths TourRun`. Statements with examples and
`Print Assumptions`: `Prop*.v`. `Demo.v` holds the small concrete worlds used by the examples.

## 6. Findings about the code

Facts that surprised us, each of them proved (property in brackets).

* A real gene can decode above its upper bound by rounding: gene `(-0.2, 0.1, 0.1)`, bits `11` [C05].
* Floats do not round-trip: with that gene the input `0.0` decodes to about 2.8e-17 [C04, C70]. A NaN
  passes the range check of input individuals and raises `ValueError` later [C06].
* Reversed bounds are accepted and decode outside the interval [C08].
* `mutation_lvl = 0` still mutates with probability 1/1000 per draw [C21].
* The default string level of `CategoricalGA` makes it impossible to construct [C22].
* `add_best` can put one dict into the population twice; tournament selection on a
  population of one distinct individual never ends, and such a state is reachable [C26].
* Balanced selection misbehaves on non-positive scores: `HyperbolaFitness` without target
  yields such scores [C28]. With doubles it can also raise `IndexError` [C27], in whole runs of FFGA too, for the largest random numbers [C89].
* Ranked selection ranks by position in the population, so on an unsorted population the
  first individual gets rank 1 and the smallest share regardless of its score [C60]; it overwrites `rank`.
* Only the last objective contributes in the balanced and ranked VEGA selections [C30].
* `historical_*`: `no_improve` is not incremented by the first update [C38]; with
  `early_stop=None` `CollectorGA` raises `TypeError` [C39].
* User supplied categorical and ordered individuals are not checked [C44].
* `conditions` is consumed: the caller's list is modified, a second run with it fails [C47].
* The static penalty raises on every conditional problem it was documented for [C51].
* Survivors keep the penalty of their birth generation [C52].
* Ranking evaluates the objective n(n-1) additional times per generation [C53]; with
  `input_data` it raises for two-argument objectives [C48].
* FFGA scores of survivors are stale [C56]; its population may exceed `num_individ` [C55].
* In conditional multi-objective tasks the objective values are stored in reverse [C57].
* `get_empty_copy` constructs a new population object and so re-seeds the global generator at every
  selection and every crossover: with a fixed `rnd_seed` all generations use the same draws [C59]. A seeded run
  that comes back to a population therefore goes round for ever; this happens after two generations in a small example [C94].
* `CombinatoryGA` never tries an element missing from the initial tours [C63].
* A `CollectorGA` that stopped early makes one new generation per further call of `optimize` [C65].
* Level 'strong' with at most three bits always complements the string [C66].
* Adaptive penalties with VEGA or FFGA raise `KeyError` after the first generation; VEGA needs four
  individuals, FFGA with random transfer more than ten [C68].
* VEGA can report a point dominated by one it evaluated earlier; FFGA never does [C72].
* With `transfer_parents='best'` there are valid configurations in which the search for a second parent never
  ends with a positive probability; with 'random', or as many children as individuals, a run ends with probability one [C83].
* `CombinatoryGA` does not converge: there are populations that no offspring can displace although
  better tours exist, and elements may be missing from all tours [C84]. On full tours it does converge
  when a generation has at least as many children as a tournament has competitors [C86].
* VEGA calls the objective on a list of zeros, which may lie outside the box [C69].

## 7. Per property

`any` = for every `NumOps`; `order` = for every `NumOps` whose `<` is a strict weak order on
the occurring scores; `Q` = exact rationals; `double` = IEEE binary64. No property is
left partial.

| id | property | how proved | theorems |
|---|---|---|---|
| C01 | Bit allocation is minimal and sufficient | Z; the while loop by induction on fuel, minimality from 2^n | PropCoding: `C01_bit_allocation` |
| C02 | Index to bit-string coding is exact width, injective and never truncates | Z; induction on the width | PropCoding: `C02_index_to_binary`, `C02_injective` |
| C03 | Gray coding is a width-preserving bijection with unit steps | Z/lists; induction on the bits | PropCoding: `C03_gray` |
| C04 | Real to binary to real round trip stays within half a grid step | Q; encode then decode; double: within half a grid step plus a rounding slack (PropDoubleCoding.v) | PropCoding: `C04_round_trip`; PropDoubleCoding: `C04_double` |
| C05 | Every genotype decodes inside the declared bounds | Q; exact grid. double: error bound by Flocq for moderate genes, and a counterexample to the strict bound | PropCoding: `C05_decode_in_bounds`, `C05_bounds_on_grid`; PropFloat: `C05_double`, `C05_double_exceeds` |
| C06 | Input individuals out of range or of the wrong length are rejected | Q; the two checks of the encoder; double: same, NaN included (PropDoubleCoding.v) | PropCoding: `C06_input_checked`; PropDoubleCoding: `C06_double` |
| C07 | Requested precision is honoured when the step divides the range | Q; and a refutation of the unconditional claim | PropCoding: `C07_precision`, `C07_coarser_refuted` |
| C08 | Degenerate gene specifications are rejected, reversed bounds are not | Q; constructor of the gene parameters | PropCoding: `C08_unusable_rejected`, `C08_reversed_decodes_outside`, `C08_reversed_input_rejected`; PropDoubleCoding: `C08_double` |
| C09 | fill() creates exactly num_individ individuals, user individuals first | any; monadic fill over all tapes | PropPopulation: `C09_set_params`, `C09_fill`, `C09_copied`, `C09_coded`, `C09_never_raises` |
| C10 | Generated genotypes lie in the declared gene domain and cover it | any; exact outcome sets | PropPopulation: `C10_categorical`, `C10_ordered`, `C10_binary`, `C10_unusable` |
| C11 | One-point crossover exchanges tails at one interior cut | any; exact outcome set | PropCrossover: `C11_one_point`, `C11_too_short`, `C11_inheritance` |
| C12 | Two-point crossover exchanges one interior segment | any; exact outcome set | PropCrossover: `C12_two_point`, `C12_too_short`, `C12_inheritance` |
| C13 | Uniform crossover picks every gene from one parent independently | any; exact outcome set | PropCrossover: `C13_uniform`, `C13_short_parent` |
| C14 | Order crossover keeps duplicate-free tours duplicate-free and of the same length | any; exact outcome set, then NoDup/length | PropCrossover: `C14_order`, `C14_tours`, `C14_too_short` |
| C15 | Crossover produces one fresh unscored child per pair and leaves parents and population alone | any; heap frame of crossover_execute | PropCrossover: `C15_children`, `C15_no_exception` |
| C16 | Combinatorial mutations only permute the genotype | any; Permutation, and execute frame | PropMutation: `C16_permutes`, `C16_execute` |
| C17 | Each combinatorial mutation performs exactly its documented move | any; exact outcome sets | PropMutation: `C17_movement`, `C17_swap`, `C17_inversion`, `C17_shift`, `C17_too_short` |
| C18 | A performed combinatorial mutation really changes a duplicate-free genotype | any; list reasoning from C17 | PropMutation: `C18_changes` |
| C19 | Bit mutation flips an arbitrary subset of bits and nothing else | any; draws decide, every subset reachable, frame | PropMutation: `C19_draws_decide`, `C19_every_subset`, `C19_only_children` |
| C20 | Categorical mutation stays in the gene's domain and really changes the gene | any; exact sets of new values | PropMutation: `C20_domain`, `C20_list_values`, `C20_range_values`, `C20_single_valued`, `C20_all_equal_raises`, `C20_raises`, `C20_too_long`, `C20_only_children` |
| C21 | Mutation probability is (floor(1000*level)+1)/1000, so level 0 does not switch mutation off | Q; counting of the 1000 values of randint | PropMutation: `C21_probability`, `C21_level_one`, `C21_level_zero` |
| C22 | Mutation levels are validated, and string levels map as documented | any; constructors | PropMutation: `C22_combinatory`, `C22_bit_string`, `C22_bit_string_execute`, `C22_categorical`, `C22_categorical_ga_cannot_run` |
| C23 | Tournament selection returns the promised number of parents in pairs of different individuals | any; all tapes, all fuel | PropSelection: `C23_pairs`, `C23_sizes` |
| C24 | A tournament winner beats its tournament | order; winner of every tournament, exact set of possible winners | PropSelection: `C24_selected`, `C24_worst_never`, `C24_can_be` |
| C25 | Selection never alters genotypes, phenotypes, scores or membership of the population | any; heap frame of all six selections | PropSelection: `C25_frame` |
| C26 | Tournament selection can always finish on a population of distinct individuals, but can hang after elitism aliased one | any; a tape that finishes; a reachable state where no fuel suffices | PropSelection: `C26_can_finish`, `C26_can_always_finish_pair`, `C26_hangs`, `C26_hang_reachable` |
| C27 | Balanced selection is exact roulette for positive scores | Q; cumulative intervals; double: IndexError witness | PropProportional: `C27_roulette`, `C27_intervals`, `C27_operator`, `C27_float_index_error` |
| C28 | Balanced selection misbehaves when scores are not positive | Q; negative, zero-sum and zero scores | PropProportional: `C28_negative`, `C28_zero_sum`, `C28_zero_sum_execute`, `C28_zero_score` |
| C29 | Ranked selection assigns mid-ranks | Q; mid-ranks of ties | PropProportional: `C29_midranks`, `C29_operator`, `C29_minus_one` |
| C30 | VEGA selection: every objective contributes its share of parents (tournament only) | any; parents split into blocks / only the last pass | PropProportional: `C30_tournament_blocks`, `C30_balanced_last`, `C30_ranked_last` |
| C31 | Size of the next generation | any; arithmetic of slices | PropNewGeneration: `C31_size`, `C31_no_children` |
| C32 | Elitism: the best individual always survives unchanged | order; the maximum survives with unchanged fields | PropNewGeneration: `C32_elitism` |
| C33 | transfer_parents=best keeps the top individuals and replaces at most one duplicate | any; exact content of the elite part | PropNewGeneration: `C33_best`, `C33_any_replacement` |
| C34 | transfer_parents validation and random transfer | any; validation and exact outcome set of sample | PropNewGeneration: `C34_validation`, `C34_random`, `C34_no_children` |
| C35 | update() records the maximum, the median element and the minimum of the generation | order; sorted list | PropUpdate: `C35_update`, `C35_total` |
| C36 | The best score never decreases during a run | order; invariant over generations; double instance | PropRun: `C36_best_never_decreases`, `C36_optimize`; PropFloat: `C36_double` |
| C37 | best_solution is the best point ever evaluated | order, Q; invariant relating the log to best_solution; double instance | PropBest: `C37_best_of_all`, `C37_best_point`; PropFloat: `C37_double` |
| C38 | best_solution's generation index and the no-improvement counter agree | order; counter of updates since the last strict improvement | PropRun: `C38_counter`, `C38_run` |
| C39 | Stopping: generation count and early stop | any; number of generations executed | PropRun: `C39_stopping`, `C39_collector_none`, `C39_none_never_stops` |
| C40 | Scored individuals are immutable | any; heap invariant over generations | PropRun: `C40_immutable` |
| C41 | Hyperbola fitness: range and monotonicity | Q; double: monotone and within [0,1], strictness fails | PropFitness: `C41_range`, `C41_decreasing`, `C41_no_target`, `C41_vega`; PropFloat: `C41_double_range`, `C41_double_monotone`, `C41_double_no_target`, `C41_double_off_target`, `C41_double_overflow` |
| C42 | The feasible flag is exact | Q; feasibility iff all conditions hold | PropBest: `C42_evaluation`, `C42_run`, `C42_meaning`; PropDoubleConditional: `C42_double_meaning` |
| C43 | The objective is called exactly once per new individual, always on the decoded phenotype | any; the log | PropRun: `C43_run_calls`, `C43_run_count`, `C43_pass`, `C43_optimize_count` |
| C44 | The objective only ever sees points of the search space | Q; domain invariant for each ready-made class | PropDomain: `C44_run`, `C44_binary`, `C44_combinatory`, `C44_categorical`, `C44_input_unchecked_refuted` |
| C45 | Valid configurations never raise | Q; no Err outcome from valid configurations | PropDomain: `C45_binary`, `C45_combinatory`, `C45_categorical` |
| C46 | Interpretation of the objective's return value | any; case analysis of check_input | PropFitness: `C46_plain`, `C46_conditional` |
| C47 | Reusing a conditional configuration: the caller's conditions list is consumed | any; the list after the call | PropFitness: `C47_removed`, `C47_multi`, `C47_second_run` |
| C48 | input_data is passed exactly when it is truthy | any; arity mismatch cases | PropFitness: `C48_evaluation`, `C48_run`, `C48_mismatch_run`, `C48_ranking`, `C48_ranking_two_args` |
| C49 | Dynamic penalty: zero on the feasible region, positive and growing with the generation outside | Q; closed form and monotonicity | PropPenalty: `C49_value`, `C49_natural`, `C49_rejected`, `C49_sign`, `C49_monotone`, `C49_excess_order`; PropOverflow: `C49_overflow`, `C49_raises` |
| C50 | Adaptive penalty: coefficient depends only on the last best's feasibility | Q; closed form | PropPenalty: `C50_constructor`, `C50_value`, `C50_rejected`, `C50_stronger`; PropOverflow: `C50_overflow` |
| C51 | Static penalty is unusable as documented | any; exceptions | PropPenalty: `C51_constructor`, `C51_raises`, `C51_inequality_raises`, `C51_equality_raises`, `C51_value`, `C51_equality_free` |
| C52 | Survivors are never re-penalised | any; score fixed at birth over runs | PropSurvivor: `C52_birth`, `C52_first_generation` |
| C53 | Pareto ranks count dominators | order; rank = 1 + number of dominators; call counts | PropMulti: `C53_ranks`, `C53_multiplicity`, `C53_calls`, `C53_first_front`, `C53_strict_order`, `C53_exact` |
| C54 | The reported Pareto set is exactly the non-dominated part of the current generation | order; prefix of the sorted population; double instance | PropPareto: `C54_update`, `C54_pareto_set`, `C54_counter`, `C54_reported`; PropFloat: `C54_double` |
| C55 | FFGA elitism keeps the whole Pareto front | order; elites = front; double instance | PropPareto: `C55_population`, `C55_elitism`, `C55_random`; PropFloat: `C55_double` |
| C56 | FFGA scores are 1/(1+rank at first evaluation) | Q; scores at birth | PropFfga: `C56_scores`, `C56_first`, `C56_exact`, `C56_bound`, `C56_stale_score` |
| C57 | Order of objective values in conditional multi-objective tasks | any; order of pop | PropFfga: `C57_conditional`, `C57_plain` |
| C58 | A fixed rnd_seed makes runs reproducible | any; two runs in lockstep | PropSeed: `C58_reproducible`, `C58_collector` |
| C59 | A fixed rnd_seed replays the same random draws in every generation | any; draws as functions of prng | PropSeed: `C59_selection`, `C59_crossover`, `C59_generation`, `C59_positions`, `C59_sorted_positions` |
| C60 | Ranked selection ranks by position, not by score | Q; rank depends on position; invariant of the ranking loop over maximal runs, and the whole operator as a roulette on them (`PropVegaRanked.v`) | PropProportional: `C60_rank_is_position`; PropVegaRanked: `C60_runs`, `C60_vega_roulette`, `C60_positions` |
| C61 | A run depends on the objective only through its order | Q; simulation relation between two runs (RelProofs.v), scores related by order | PropInvariance: `C61_order_only`, `C61_optimize`, `C61_increasing`, `C61_distance`, `C61_vega`, `C61_ffga`, `C61_components` |
| C62 | With a fixed seed nothing that happened before the run matters | any; the same simulation with equal values and other addresses, with C58 | PropInvariance: `C62_no_history`, `C62_reproducible` |
| C63 | The combinatorial operators invent no genes | any, Q; invariant: genotypes stay inside the initial gene pool (ClosureProofs.v) | PropClosure: `C63_run`, `C63_combinatory`, `C63_unexplored` |
| C64 | Only the search for a second parent can run forever | any; results are monotone in the bound of the one unbounded loop (FuelProofs.v) | PropFuel: `C64_bound`, `C64_one_result`, `C64_collector`, `C64_second_parent` |
| C65 | CollectorGA.optimize called again continues the same search | any order; invariant kept across calls of the main loop (PropResume.v) | PropResume: `C65_calls`, `C65_further_call`, `C65_stopped` |
| C66 | Every point of the search space stays reachable in every generation | Q arithmetic; draws of one generation constructed explicitly, selection kept (ReachProofs.v, PropReach.v) | PropReach: `C66_binary`, `C66_categorical`, `C66_strong_refuted` |
| C67 | Valid conditional tasks never raise | Q; every evaluation succeeds (PropConditional.v), then the safety proof of C45 | PropConditional: `C67_binary`, `C67_combinatory`, `C67_categorical` |
| C68 | Valid VEGA and FFGA configurations never raise | Q; every evaluation, selection and replacement succeeds at every generation reached (MultiSafetyProofs.v, PropMultiSafe.v), on top of the run invariant of the multi-objective loop | PropMultiSafe: `C68_vega`, `C68_ffga` |
| C69 | VEGA and FFGA call the objective only inside the declared box, but for VEGA's zero list | any arithmetic for the generic loop (C69_run), Q for the two classes; invariant of the multi-objective run: genotypes stay in the domain (PropMultiDomain.v) | PropMultiDomain: `C69_run`, `C69_ffga`, `C69_vega` |
| C70 | In IEEE doubles too, valid configurations never raise and the objective is only called in the space | double; error analysis by Flocq of the coding (FloatEncode.v), then the generic whole-run lemmas (OptimizeProofs.v) with the order of non-NaN doubles | PropDoubleRun: `C70_binary_calls`, `C70_binary_safe`, `C70_combinatory_calls`, `C70_combinatory_safe`, `C70_categorical_calls`, `C70_categorical_safe` |
| C71 | get_avg_score is the mean of the scores | Q; every outcome of `get_avg_score`, then the invariant of the population at each generation | PropAverage: `C71_average`, `C71_between`, `C71_run` |
| C72 | FFGA never loses a good point, VEGA does | N (every `NumOrder`); invariant over generations: every logged point is covered by a member, the front is transferred whole; VEGA refuted by a computed run | PropArchive: `C72_front`, `C72_ffga`, `C72_vega_refuted` |
| C73 | With an ideal generator, individuals, cuts and moves are drawn uniformly | expectation of an outcome over the draws as an inductive relation (`averages`, Chance.v); `even m l`; bijections between draws and results | PropChance: `C73_unique`, `C73_share`, `C73_binary`, `C73_ordered`, `C73_categorical`, `C73_one_point`, `C73_two_point`, `C73_order`, `C73_uniform`, `C73_child`, `C73_swap`, `C73_inversion`, `C73_movement`, `C73_shift` |
| C74 | The probability with which each member is selected | tournament: order (every `NumOrder`), counting of arrangements; roulette: Q, counting of the drawn values in an interval | PropSelChance: `C74_tournament_key`, `C74_tournament_member`, `C74_tournament_best`, `C74_tournament_order`, `C74_roulette` |
| C75 | The loops for the second parent end with probability one | geometric law by induction on the fuel; p < 1 by counting arrangements; Bernoulli's inequality; roulette in Q | PropSelChance: `C75_second_parent`, `C75_ends`, `C75_second_index`, `C75_roulette` |
| C76 | Genes mutate independently with the probability of the gate | any `NumOps`; the mean of a product (sum) over independently drawn genes is the product (sum) of the means, by induction on the genotype; levels in Q via C21 | PropMutChance: `C76_gate`, `C76_bits`, `C76_flips`, `C76_category`, `C76_categorical`, `C76_permutation`, `C76_level`, `C76_normal` |
| C77 | Static penalty: exact amount or exception for every configuration | any `NumOps`; inductive rules for the amount, proved deterministic and total; the code's loop gives o iff the rules give o, by induction on the conditions | PropStatic: `C77_rules`, `C77_penalty` |
| C78 | What misuse raises | any `NumOps` (bit counts: legal gene specifications over Q); the model is evaluated from the misuse, for every state and draw | PropMisuse: `C78_not_a_bit`, `C78_ranking`, `C78_scalar_objective`, `C78_vega_tournament`, `C78_vega_weight`, `C78_print`, `C78_empty`, `C78_no_phenotype`, `C78_multi_categorical`, `C78_missing_entry`, `C78_swap`, `C78_more_objectives`, `C78_vega_target`, `C78_proportional`, `C78_odd_parents`, `C78_no_rank`, `C78_tournament_position`, `C78_component_rank`, `C78_extra_genes`, `C78_length` |
| C79 | Bookkeeping of the shared data: who changes what, and how histories grow | any `NumOps`; inversion of each component's code, then induction over the main loop | PropBookkeeping: `C79_selection`, `C79_crossover`, `C79_new_generation`, `C79_update`, `C79_step`, `C79_loop` |
| C80 | sort_by_dict is the stable sort, on numbers and on lists | any `NumOps` with the order laws; insertion sort on pairs tagged with their position gives a strictly sorted list; uniqueness by asymmetry | PropSort: `C80_sort`, `C80_unique`, `C80_missing`, `C80_mixed`, `C80_short` |
| C81 | Crossovers that keep both children (num_offsprings other than 1) | `Offsprings.v`; possible outcomes of C11 to C14 as pairs; induction over pairs of parents | PropOffsprings: `C81_twins`, `C81_children`, `C81_no_exception`, `C81_complementary` |
| C82 | Probability that a run misses a point; convergence to the optimum | `ChanceRun.v` (means over draws and seedings); per generation the chance of hitting by mutation of the first child, potential argument over the loop (`ConvergeProofs.v`); waiting for second parents under no duplicates; limits from powers of a number below 1 | PropConverge: `C82_binary`, `C82_binary_ends`, `C82_categorical`, `C82_categorical_ends`, `C82_binary_best`, `C82_categorical_best`, `C82_binary_limit`, `C82_categorical_limit`, `C82_probability` |
| C83 | Runs end with probability one, unless an individual is carried over twice | each search fails with probability at most (t/n)^k when the members are different (`apart` is invariant, `ConvergeProofs.v`); union over pairs and generations; comparison of means on the same draws (`CompareProofs.v`) for monotonicity and for the witness, where one individual fills all but one position | PropTermination: `C83_binary`, `C83_categorical`, `C83_combinatory`, `C83_binary_almost_surely`, `C83_categorical_almost_surely`, `C83_combinatory_almost_surely`, `C83_twins_refuted`, `C83_larger_bound` |
| C84 | CombinatoryGA does not converge: populations that trap it and elements that are never drawn | invariant `trap` over generations (`TrapProofs.v`): children hold fewer positions than a tournament has participants, so every winner is an initial tour; probability of drawing the initial tours is positive and does not depend on N (`PropTrap.v`); (3) from C63 | PropTrap: `C84_combinatory`, `C84_no_convergence`, `C84_missing_element`, `C84_convergence_refuted` |
| C85 | VEGA and FFGA reach every grid point; FFGA reports a set that covers the whole grid | one generation and the main loop over computation trees (`MultiConvergeProofs.v`); invariant `even_state` bounds the roulette shares by 3/4; C72 gives coverage, a union bound over the grid the rest (`PropMultiConverge.v`) | PropMultiConverge: `C85_ffga`, `C85_vega`, `C85_ffga_front`, `C85_ffga_ends`, `C85_ffga_front_ends`, `C85_ffga_covers`, `C85_ffga_covers_ends`, `C85_ffga_limit` |
| C86 | CombinatoryGA on full tours converges when it makes at least as many children as a tournament has competitors | `lucky` computations (`LuckProofs.v`): a tournament pair, crossover and mutation with a given result (`TourLuck.v`), one generation (`TourSteps.v`), paths of moves between tours (`TourPaths.v`), blocks of T generations in the main loop (`TourRun.v`), the run (`PropTour.v`) | PropTour: `C86_combinatory`, `C86_chance_positive`, `C86_combinatory_ends`, `C86_combinatory_best`, `C86_combinatory_limit` |
| C87 | Ending and convergence hold for the computation in double precision | the arguments of C82, C83 and C86 for any ordered numbers (`AnyRunProofs.v`), instantiated with doubles through Flocq: which levels leave both outcomes of the comparison possible, codes of the points, comparison of the reported values (`PropDoubleConverge.v`) | PropDoubleConverge: `C87_binary`, `C87_categorical`, `C87_combinatory`, `C87_ends`, `C87_binary_best`, `C87_categorical_best`, `C87_combinatory_best`, `C87_binary_limit`, `C87_binary_near`, `C87_categorical_limit`, `C87_combinatory_limit` |
| C88 | A faulty configuration is rejected before anything is evaluated, in a fixed order | an inductive list of faults in the order in which they are noticed, shown to cover all configurations and to determine the exception; the constructors of `Driver.v` one by one (`PropSetup.v`) | PropSetup: `C88_binary`, `C88_combinatory`, `C88_categorical`, `C88_ffga`, `C88_vega`, `C88_accepted`, `C88_vega_accepted` |
| C89 | Multi-objective runs in double precision: VEGA never fails, FFGA can | the stage-wise argument of C58/C59 generalised to a set of permitted exceptions (`MultiSafetyProofs.v`, `MultiAny.v`), Flocq's relative rounding error for the running sum of the shares; the failing run by computation (`PropDoubleMulti.v`) | PropDoubleMulti: `C89_roulette`, `C89_vega_safe`, `C89_ffga_only`, `C89_selection`, `C89_ffga_calls`, `C89_vega_calls`, `C89_ffga_refuted` |
| C90 | A run consults its penalty only in its own generations | a relational argument: every stage keeps the generation counter, so that the loop asks the penalty only below N (`AgreeProofs.v`, `PropAgree.v`) | PropAgree: `C90_same_run`, `C90_dynamic` |
| C91 | Conditional tasks in double precision never raise within stated bounds | rounded sums and products bounded with Flocq; the penalty is cut off outside the generations of the run by C90; then the stage-wise argument of C70 (`PropDoubleConditional.v`) | PropDoubleConditional: `C91_binary_calls`, `C91_binary_safe`, `C91_combinatory_calls`, `C91_combinatory_safe`, `C91_categorical_calls`, `C91_categorical_safe` |
| C92 | Uniform crossover that keeps both children yields identical twins, mutated twice | the two references of a pair are updated together; induction over the pairs; the draws of a pair of bit strings decide the result (`PropShared.v`) | PropShared: `C92_twice`, `C92_inversion`, `C92_full_level`, `C92_draws`, `C92_no_exception`, `C92_level`, `C92_pairs` |
| C93 | Filling a population again appends members and gene parameters | `Refill.v` models fill on a population that has members and parameters; invariant: the parameters are a k-fold repetition of the prepared ones; decoding and coding read the first copy only (`PropRefill.v`) | PropRefill: `C93_parameters`, `C93_decoding`, `C93_coding`, `C93_fill_more`, `C93_never_raises`, `C93_first`, `C93_level`, `C93_stale` |
| C94 | A seeded run that repeats a population goes round for ever | a generation commutes with renaming of references, does not look at the records (`CycleProofs.v`) and restarts the random generator from the seed (C59), so one generation carries a repetition to the next; induction on i; strong induction on the generation for the points; C36 and periodicity for best_solution (`PropCycle.v`) | PropCycle: `C94_cycle`, `C94_never_ends`, `C94_no_new_points`, `C94_no_improvement`, `C94_stuck` |
| C95 | A seeded run on a finite search space ends in a cycle within a computable number of generations | a dict is determined by its genotype (C44, C48 and the evaluation behind every member), its number (below N, kept by every component: `PeriodProofs.v`) and the absence of a rank; the population is a word of length at most N over genotype, number and first position of the reference; enumeration of these words and the pigeonhole principle give a repetition, C94 the rest (`PropPeriod.v`) | PropPeriod: `C95_repeats`, `C95_periodic`, `C95_never_fails`, `C95_enough`, `C95_decided`, `C95_collector`, `C95_case` |
| C96 | A multi-objective collector called again continues the same search and ranks its population once more | sessions of `PropResume.v` on the multi-objective invariant of `MultiProofs.v`: sorting an ascending list changes nothing, ranking a ranked population gives the same ranks, and the front is determined by the population; then induction over calls and generations (`PropMultiResume.v`) | PropMultiResume: `C96_calls`, `C96_further_call`, `C96_repeated`, `C96_stopped`, `C96_elitism` |
| C97 | The printed report is complete, shows the right generations and pairs every point with its own values | the printed lines are modelled in `Report.v` (values, not their text); the record of best_solution from C37, C38, C42 and C54 plus an invariant that every member and every recorded individual was evaluated at its phenotype with the recorded objective scores (`PropReport.v`) | PropReport: `C97_exception`, `C97_before`, `C97_single`, `C97_conditional`, `C97_multi`, `C97_kept`, `C97_broken`, `C97_ready` |
| C98 | A CollectorGA built from a ready-made class's parts makes the same run, and printing does not influence the result | the collector and the classes share `run_loop` (their loops are textually the same) but set up, order constructors and print differently; equality of the outcomes by cases, the kind of record a run leaves by induction over the generations, the report from C97 (`PropAssemble.v`) | PropAssemble: `C98_same`, `C98_quiet`, `C98_single`, `C98_multi`, `C98_fronts`, `C98_optimize` |
| C99 | FFGA depends only on the dominance between objective values: order, repetition and superfluous criteria do not matter | two executions side by side (`RelProofs.v`, whose relation between the objective values is a parameter): equality and the elementwise maximum of tuples commute with the rearrangement; a tuple equals the maximum of itself and another exactly when the other is nowhere larger; the scores are functions of the ranks; the VEGA counterexample is a concrete run (`PropCriteria.v`) | PropCriteria: `C99_ffga`, `C99_recorded`, `C99_order`, `C99_repeated`, `C99_dominance`, `C99_superfluous`, `C99_vega_refuted` |
