{"id": "C01", "title": "Bit allocation is minimal and sufficient", "statement": "For a gene with any number of requested points, the library reserves the least number n of bits with 2**n - 1 >= num_points, reports exactly 2**n - 1 as the largest index, and the search loop terminates.", "quantifier": "every requested number of points (unbounded integers)", "why_tests_cant": "the search loop runs for unboundedly many sizes; minimality is a claim about all smaller n", "anchors": ["baumeva/ga/populations/binary_population.py:BinaryPopulation.get_real_number_of_points"]}
{"id": "C02", "title": "Index to bit-string coding is exact width, injective and never truncates", "statement": "For num_bits at least 1, index_to_binary(value, num_bits) returns exactly num_bits characters whose base-2 reading is value, for every non-negative value that fits in num_bits bits, and raises for every value that does not fit; it never drops high bits.", "quantifier": "all indices and all bit widths", "why_tests_cant": "unbounded integers and widths", "anchors": ["baumeva/ga/populations/binary_population.py:BinaryPopulation.index_to_binary"]}
{"id": "C03", "title": "Gray coding is a width-preserving bijection with unit steps", "statement": "For every non-negative integer, decoding its Gray code returns the integer; encoding a decoded code returns the code; the code needs no more bits than the value; and codes of consecutive indices differ in exactly one bit position.", "quantifier": "all non-negative integers of any size", "why_tests_cant": "infinitely many integers and bit widths", "anchors": ["baumeva/ga/populations/binary_gray_population.py:BinaryGrayPopulation.get_gray_value", "baumeva/ga/populations/binary_gray_population.py:BinaryGrayPopulation.get_index_from_gray"]}
{"id": "C04", "title": "Real to binary to real round trip stays within half a grid step", "statement": "For every legal gene specification and every in-range input vector, encoding to a genotype succeeds, the genotype has the total number of bits, and decoding it gives for each gene the grid point nearest to the input (error at most half the effective step, ties going to the even index); vectors on the grid round-trip exactly. Holds for plain and Gray coding.", "quantifier": "all gene specifications with lo < hi and step not above the range, all vectors in range, both codings (exact arithmetic)", "why_tests_cant": "a continuum of inputs and all widths", "anchors": ["baumeva/ga/populations/binary_population.py:BinaryPopulation.float_individ_to_binary", "baumeva/ga/populations/binary_population.py:BinaryPopulation.binary_individ_to_float", "baumeva/ga/populations/binary_gray_population.py:BinaryGrayPopulation.binary_individ_to_float"]}
{"id": "C05", "title": "Every genotype decodes inside the declared bounds", "statement": "Every bit string of the right length decodes, gene by gene, to a point lo + i*(hi-lo)/(2**n-1) with 0 <= i <= 2**n-1, hence inside [lo, hi]; all grid points including both bounds are reached. With IEEE doubles the upper bound can be exceeded by rounding, which is exhibited.", "quantifier": "all gene specifications with lo < hi, all bit strings, both codings", "why_tests_cant": "exponentially many genotypes per specification, unboundedly many specifications", "anchors": ["baumeva/ga/populations/binary_population.py:BinaryPopulation.binary_individ_to_float", "baumeva/ga/populations/binary_population.py:BinaryPopulation.get_gens_params"]}
{"id": "C06", "title": "Input individuals out of range or of the wrong length are rejected", "statement": "Encoding a user-supplied individual raises when its length differs from the number of genes or any coordinate is below the lower or above the upper bound, and it never raises otherwise.", "quantifier": "all input vectors and all legal gene specifications", "why_tests_cant": "rejection must be exact on a continuum", "anchors": ["baumeva/ga/populations/binary_population.py:BinaryPopulation.float_individ_to_binary"]}
{"id": "C07", "title": "Requested precision is honoured when the step divides the range", "statement": "If (hi-lo)/step is an integer the effective grid step is not larger than the requested one; if it is not an integer the effective step may be larger than the requested one (exhibited) but is always smaller than twice the requested one.", "quantifier": "all lo, hi, step with step > 0 and step <= |hi-lo|", "why_tests_cant": "quantifies over all rationals", "anchors": ["baumeva/ga/populations/binary_population.py:BinaryPopulation.get_gens_params"]}
{"id": "C08", "title": "Degenerate gene specifications are rejected, reversed bounds are not", "statement": "A gene whose step is zero, negative or larger than the distance between its bounds makes fill() raise ZeroDivisionError; a gene with lo > hi is accepted, decodes to values above lo (outside the interval for every non-zero index), and every input individual for it is rejected. In doubles, the first gene with an infinite range raises OverflowError, with a NaN or both bounds the same infinity ValueError.", "quantifier": "all gene specifications", "why_tests_cant": "all specifications", "anchors": ["baumeva/ga/populations/binary_population.py:BinaryPopulation.get_gens_params", "baumeva/ga/populations/binary_population.py:BinaryPopulation.float_individ_to_binary"]}
{"id": "C09", "title": "fill() creates exactly num_individ individuals, user individuals first", "statement": "After set_params and fill on a fresh population there are exactly num_individ individuals, pairwise distinct objects; the first ones are the user's input individuals in order (encoded or copied), the rest are generated; each is unscored, feasible and numbered by its position. An input population larger than num_individ is rejected by set_params.", "quantifier": "all population kinds, sizes, input populations, random draws", "why_tests_cant": "all sizes and all random outcomes", "anchors": ["baumeva/ga/populations/base_population.py:BasePopulation.add_dict", "baumeva/ga/populations/base_population.py:BasePopulation.reset_idx_individ", "baumeva/ga/populations/cat_population.py:CatPopulation.fill", "baumeva/ga/populations/binary_population.py:BinaryPopulation.fill", "baumeva/ga/populations/cat_population.py:CatPopulation.set_params"]}
{"id": "C10", "title": "Generated genotypes lie in the declared gene domain and cover it", "statement": "A generated categorical individual takes each gene from its list or range; a generated ordered individual has exactly the requested number of pairwise distinct values from first..last; a generated binary individual has the declared number of bits. Conversely every such genotype can be produced by some random draws.", "quantifier": "all gene specifications and all random draws", "why_tests_cant": "support of a random generator: all draws, all specifications", "anchors": ["baumeva/ga/populations/cat_population.py:CatPopulation.get_generated_individ", "baumeva/ga/populations/order_cat_population.py:OrderCatPopulation.get_generated_individ", "baumeva/ga/populations/binary_population.py:BinaryPopulation.get_generated_individ"]}
{"id": "C11", "title": "One-point crossover exchanges tails at one interior cut", "statement": "The possible offspring pairs of one-point crossover are exactly head(p1)+tail(p2) and head(p2)+tail(p1) for a common cut 1 <= k <= len-1; length is preserved, each position of each child comes from the same position of a parent and at every position the two children together carry both parents' genes; genotypes shorter than 2 raise.", "quantifier": "all parents of equal length, all random draws", "why_tests_cant": "all lengths, all cut points", "anchors": ["baumeva/ga/crossovers/one_point_crossover.py:OnePointCrossover.crossover"]}
{"id": "C12", "title": "Two-point crossover exchanges one interior segment", "statement": "The possible offspring pairs of two-point crossover are exactly those that exchange positions i..j-1 for some 1 <= i < j <= len-1; length and position-wise inheritance are preserved; genotypes shorter than 3 raise.", "quantifier": "all parents of equal length, all random draws", "why_tests_cant": "all lengths, all pairs of cut points", "anchors": ["baumeva/ga/crossovers/two_point_crossover.py:TwoPointCrossover.crossover"]}
{"id": "C13", "title": "Uniform crossover picks every gene from one parent independently", "statement": "The possible offspring of uniform crossover are exactly the lists whose i-th gene is the i-th gene of one of the parents, any combination being possible; both returned children are equal; a parent shorter than the population's genotype length can raise.", "quantifier": "all parents, all random draws", "why_tests_cant": "exponentially many outcomes for each length", "anchors": ["baumeva/ga/crossovers/uniform_crossover.py:UniformCrossover.crossover"]}
{"id": "C14", "title": "Order crossover keeps duplicate-free tours duplicate-free and of the same length", "statement": "For duplicate-free parents of equal length n >= 3 each child has length n, no duplicates, only genes of its parents, keeps a segment i..j-1 of one parent in place, and read cyclically from position j carries the other parent's remaining genes in that parent's order; if the parents are permutations of each other so is the child; n < 3 raises.", "quantifier": "all duplicate-free parents, all random draws", "why_tests_cant": "factorially many tours for each length", "anchors": ["baumeva/ga/crossovers/order_crossover.py:OrderCrossover.crossover"]}
{"id": "C15", "title": "Crossover produces one fresh unscored child per pair and leaves parents and population alone", "statement": "Executing any crossover on 2m parents appends exactly m new individuals, each feasible, unscored, without index, its phenotype and rank keys present but empty exactly when the population's first member has them, with the genotype of one of the two possible offspring of its pair, and modifies no existing individual.", "quantifier": "all crossovers, all populations, all random draws", "why_tests_cant": "frame condition over the whole heap for all schedules", "anchors": ["baumeva/ga/crossovers/base_crossover.py:BaseCrossover.get_children", "baumeva/ga/crossovers/base_crossover.py:BaseCrossover.execute"]}
{"id": "C16", "title": "Combinatorial mutations only permute the genotype", "statement": "Inversion, swap, movement and shift mutation always leave a permutation of the genotype they were given: same length, same multiset of genes.", "quantifier": "all genotypes and all random draws", "why_tests_cant": "all lengths, all index draws", "anchors": ["baumeva/ga/mutations/inversion_mutation.py:InversionMutation.get_mutation", "baumeva/ga/mutations/swap_mutation.py:SwapMutation.get_mutation", "baumeva/ga/mutations/movement_mutation.py:MovementMutation.get_mutation", "baumeva/ga/mutations/shift_mutation.py:ShiftMutation.get_mutation"]}
{"id": "C17", "title": "Each combinatorial mutation performs exactly its documented move", "statement": "The possible results are exactly: reversal of a segment i..j with i<j (inversion), exchange of two distinct positions (swap), removal of one gene and reinsertion at a different index (movement), removal of a proper chain and reinsertion at a different index (shift); too short genotypes raise.", "quantifier": "all genotypes and all random draws", "why_tests_cant": "set of outcomes must be exact for all lengths", "anchors": ["baumeva/ga/mutations/inversion_mutation.py", "baumeva/ga/mutations/swap_mutation.py", "baumeva/ga/mutations/movement_mutation.py", "baumeva/ga/mutations/shift_mutation.py"]}
{"id": "C18", "title": "A performed combinatorial mutation really changes a duplicate-free genotype", "statement": "For a genotype without repeated genes, inversion, swap, movement and shift never return the same genotype.", "quantifier": "all duplicate-free genotypes and all random draws", "why_tests_cant": "all lengths and draws", "anchors": ["baumeva/ga/mutations/inversion_mutation.py", "baumeva/ga/mutations/swap_mutation.py", "baumeva/ga/mutations/movement_mutation.py", "baumeva/ga/mutations/shift_mutation.py"]}
{"id": "C19", "title": "Bit mutation flips an arbitrary subset of bits and nothing else", "statement": "Bit-string mutation keeps the length, flips exactly the positions whose draw fires and keeps the others; with a level that fires sometimes every subset of positions is a possible result; only children are modified.", "quantifier": "all bit strings, all levels, all random draws", "why_tests_cant": "2**n outcomes for each n", "anchors": ["baumeva/ga/mutations/bin_string_mutation.py:BinStringMutation.get_mutation"]}
{"id": "C20", "title": "Categorical mutation stays in the gene's domain and really changes the gene", "statement": "Every mutated gene is a member of its declared list or range and differs from the previous value; unmutated genes are kept; single-valued genes are never changed; a list whose entries all equal the current value raises IndexError.", "quantifier": "all gene pools, all genotypes, all random draws", "why_tests_cant": "all pools and draws", "anchors": ["baumeva/ga/mutations/categorical_mutation.py:CategoricalMutation.get_mutation"]}
{"id": "C21", "title": "Mutation probability is (floor(1000*level)+1)/1000, so level 0 does not switch mutation off", "statement": "Out of the 1000 equally likely draws exactly min(1000, floor(1000*level)+1) trigger a mutation for every level in [0,1]; hence level 1.0 always mutates, but level 0.0 still mutates on one draw in a thousand.", "quantifier": "all levels in [0,1]", "why_tests_cant": "counting claim for a continuum of levels", "anchors": ["baumeva/ga/mutations/base_combinatory_mutation.py:BaseCombinatoryMutation.determines_mutation", "baumeva/ga/mutations/bin_string_mutation.py:BinStringMutation.determines_mutation"]}
{"id": "C22", "title": "Mutation levels are validated, and string levels map as documented", "statement": "A level is accepted exactly when it is one of weak/normal/strong or a float in [0,1]; integers are rejected; combinatorial string levels map to 0.03/0.1/0.3 and bit-string levels to 0.3/len, 1/len, 3/len. Categorical mutation accepts no string level at all: the constructor raises AttributeError, so CategoricalGA with its default arguments cannot run.", "quantifier": "all level values", "why_tests_cant": "all strings and all floats", "anchors": ["baumeva/ga/mutations/base_combinatory_mutation.py:BaseCombinatoryMutation.check_mutation", "baumeva/ga/mutations/bin_string_mutation.py:BinStringMutation.check_mutation", "baumeva/ga/mutations/categorical_mutation.py:CategoricalMutation.check_mutation", "baumeva/categorical_ga.py:CategoricalGA"]}
{"id": "C23", "title": "Tournament selection returns the promised number of parents in pairs of different individuals", "statement": "Tournament selection returns exactly 2*int(children_percent*num_individ) parents; each is an independent copy of a member of the population, and the two members of each consecutive pair are different individuals; sizes below 2 or not below num_individ raise.", "quantifier": "all populations, scores, sizes and random draws", "why_tests_cant": "all populations and draws", "anchors": ["baumeva/ga/selections/tournament_selection.py:TournamentSelection.tournament", "baumeva/ga/selections/tournament_selection.py:TournamentSelection.check_tournament_size"]}
{"id": "C24", "title": "A tournament winner beats its tournament", "statement": "Every selected parent has a score not below that of tournament_size different positions of the population (counting itself), so with distinct scores the tournament_size-1 worst individuals are never selected, and any other individual can be.", "quantifier": "all populations, tournament sizes and random draws", "why_tests_cant": "all populations and draws", "anchors": ["baumeva/ga/selections/tournament_selection.py:TournamentSelection.get_best"]}
{"id": "C25", "title": "Selection never alters genotypes, phenotypes, scores or membership of the population", "statement": "Any selection operator leaves the population's members, their order, genotypes, phenotypes, scores, objective scores and feasibility untouched (only numbering and rank annotations are written); later changes to parents cannot reach the population.", "quantifier": "all selection operators, populations, random draws", "why_tests_cant": "frame condition over all states", "anchors": ["baumeva/ga/selections/base_selection.py:BaseSelection.execute", "baumeva/ga/selections/tournament_selection.py:TournamentSelection", "baumeva/ga/selections/balanced_selection.py:BalancedSelection", "baumeva/ga/selections/ranked_selection.py:RankedSelection"]}
{"id": "C26", "title": "Tournament selection can always finish on a population of distinct individuals, but can hang after elitism aliased one", "statement": "If the population's individuals are distinct objects, then for every legal tournament size some continuation of the random draws completes the selection; but there are runs reaching a generation in which the same individual object fills all but fewer than tournament_size positions and no sequence of draws can ever complete the selection.", "quantifier": "all populations of distinct individuals; existence of a reachable state for the hang", "why_tests_cant": "termination over infinite random sequences", "anchors": ["baumeva/ga/selections/tournament_selection.py:TournamentSelection.tournament", "baumeva/ga/new_generation.py:NewGeneration.add_best"]}
{"id": "C27", "title": "Balanced selection is exact roulette for positive scores", "statement": "If all scores are positive then for every random value r in [0,1) the index chosen is the unique i with c_i <= r < c_(i+1), where c is the cumulative share of the scores (exact arithmetic): each individual is chosen on an interval whose length is its share. With IEEE doubles the chosen index can be one past the end and raise IndexError (exhibited).", "quantifier": "all positive score vectors and all random values", "why_tests_cant": "continuum of scores and random values", "anchors": ["baumeva/ga/selections/balanced_selection.py:BalancedSelection.add_probabilities", "baumeva/ga/selections/balanced_selection.py:BalancedSelection.get_index"]}
{"id": "C28", "title": "Balanced selection misbehaves when scores are not positive", "statement": "When obj_value is None scores are negated objectives: if all are negative the share of an individual grows as its score gets worse, so the best is the least likely; if they sum to zero selection raises ZeroDivisionError; a zero-score individual can be selected.", "quantifier": "all negative score vectors; witnesses for the other cases", "why_tests_cant": "claims over all score vectors", "anchors": ["baumeva/ga/selections/balanced_selection.py:BalancedSelection.add_probabilities", "baumeva/ga/fitness/hyperbola_fitness.py:HyperbolaFitness.get_fitness_score"]}
{"id": "C29", "title": "Ranked selection assigns mid-ranks", "statement": "On a population of distinct individuals sorted by score whose first score is not -1, every individual gets the average of the 1-based positions of the individuals with its score, so tied individuals get equal ranks, better ones get larger ranks and the ranks sum to n(n+1)/2; if the first score is -1 the ranks are wrong (exhibited).", "quantifier": "all sorted populations", "why_tests_cant": "all sizes and tie patterns", "anchors": ["baumeva/ga/selections/ranked_selection.py:RankedSelection.add_probabilities"]}
{"id": "C30", "title": "VEGA selection: every objective contributes its share of parents (tournament only)", "statement": "VEGA tournament selection returns num_objectives blocks of 2*int(children_percent*num_individ/num_objectives) parents, the k-th block won on objective k; VEGA balanced and ranked selection keep only the parents of the last objective.", "quantifier": "all populations, numbers of objectives, random draws", "why_tests_cant": "all populations and draws", "anchors": ["baumeva/ga/selections/vega_tournament_selection.py:VEGATournamentSelection.tournament", "baumeva/ga/selections/vega_balanced_selection.py:VEGABalancedSelection.execute"]}
{"id": "C31", "title": "Size of the next generation", "statement": "With c >= 1 children and num_individ = n the next generation always has max(n, c) + 1 individuals for both transfer strategies (one more than num_individ promises), and the size attribute stays n.", "quantifier": "all populations, children, transfer strategies, random draws", "why_tests_cant": "all sizes and draws", "anchors": ["baumeva/ga/new_generation.py:NewGeneration.execute", "baumeva/ga/new_generation.py:NewGeneration.add_parents", "baumeva/ga/new_generation.py:NewGeneration.add_best"]}
{"id": "C32", "title": "Elitism: the best individual always survives unchanged", "statement": "For both transfer strategies and any number of children the individual with the highest score of the old population is a member of the new population, unchanged; all children are members too; every other member comes from the old population.", "quantifier": "all populations and random draws", "why_tests_cant": "all populations and draws", "anchors": ["baumeva/ga/new_generation.py:NewGeneration.execute"]}
{"id": "C33", "title": "transfer_parents=best keeps the top individuals and replaces at most one duplicate", "statement": "Without equal genotypes among the k+1 best individuals exactly those survive; otherwise exactly one duplicate (never the best) is replaced by a random member, so duplicates can remain and the random member can itself be a duplicate, even the same object (exhibited).", "quantifier": "all populations and random draws", "why_tests_cant": "all duplicate patterns", "anchors": ["baumeva/ga/new_generation.py:NewGeneration.add_best", "baumeva/ga/populations/base_population.py:BasePopulation.is_duplicate"]}
{"id": "C34", "title": "transfer_parents validation and random transfer", "statement": "Only best and random are accepted; random transfer takes num_elites members at distinct positions other than the best plus the best; with no children in the first generation random transfer raises ValueError.", "quantifier": "all strings, populations and random draws", "why_tests_cant": "all populations and draws", "anchors": ["baumeva/ga/new_generation.py:NewGeneration.check_transfer_parent", "baumeva/ga/new_generation.py:NewGeneration.add_parents"]}
{"id": "C35", "title": "update() records the maximum, the median element and the minimum of the generation", "statement": "After update the population is a stably sorted permutation by score; the recorded best, mediocre and worst entries are the maximum, the element of rank floor(n/2) and the minimum of the scores of the generation (mediocre is the upper median, not the average).", "quantifier": "all populations with comparable scores", "why_tests_cant": "all sizes and orders", "anchors": ["baumeva/ga/ga_data.py:GaData.update", "baumeva/ga/populations/base_population.py:BasePopulation.sort_by_dict"]}
{"id": "C36", "title": "The best score never decreases during a run", "statement": "In any run of a single-objective algorithm (any selection, crossover, mutation and transfer strategy, with or without penalties) the recorded best scores are non-decreasing from generation to generation and best_solution's score equals the last one.", "quantifier": "all runs: all configurations, objective functions and random draws", "why_tests_cant": "all histories of unbounded length", "anchors": ["baumeva/ga/ga_data.py:GaData.update", "baumeva/ga/new_generation.py:NewGeneration.execute", "baumeva/collector_ga.py:CollectorGA.optimize"]}
{"id": "C37", "title": "best_solution is the best point ever evaluated", "statement": "Without penalties, best_solution is a point at which the objective function was called during the run, its recorded objective value is the value the function returned there, and no call during the run returned a better value (smaller when obj_value is None, closer to obj_value otherwise).", "quantifier": "all runs: all configurations, objective functions and random draws", "why_tests_cant": "all histories", "anchors": ["baumeva/ga/ga_data.py:GaData.update", "baumeva/ga/fitness/base_fitness.py:BaseFitness.execute", "baumeva/ga/fitness/hyperbola_fitness.py:HyperbolaFitness.get_fitness_score"]}
{"id": "C38", "title": "best_solution's generation index and the no-improvement counter agree", "statement": "At every moment after update, num_generation_no_improve equals idx_generation-1 minus best_solution's idx_generation, which is the first generation whose best score equals the final best score; the histories have idx_generation entries each.", "quantifier": "all histories of score vectors", "why_tests_cant": "all histories of unbounded length", "anchors": ["baumeva/ga/ga_data.py:GaData.update"]}
{"id": "C39", "title": "Stopping: generation count and early stop", "statement": "A run performs at least 1 and at most max(1, num_generations) generations; it stops before num_generations exactly when the best score has not improved for more than early_stop generations in a row (early_stop+1, one more than documented); early_stop=None in the ready-made classes never stops early.", "quantifier": "all runs and all parameter values", "why_tests_cant": "all histories", "anchors": ["baumeva/binary_ga.py:BinaryGA.optimize", "baumeva/combinatory_ga.py:CombinatoryGA.optimize", "baumeva/categorical_ga.py:CategoricalGA.optimize", "baumeva/collector_ga.py:CollectorGA.optimize"]}
{"id": "C40", "title": "Scored individuals are immutable", "statement": "Once an individual has a score, its genotype, phenotype, score, objective score and feasibility never change in the rest of the run, although individuals are shared between generations; best_solution is a snapshot.", "quantifier": "all runs", "why_tests_cant": "aliasing across all generations", "anchors": ["baumeva/ga/new_generation.py:NewGeneration", "baumeva/ga/mutations/base_mutation.py", "baumeva/ga/fitness/base_fitness.py:BaseFitness.execute", "baumeva/ga/ga_data.py:GaData.update"]}
{"id": "C41", "title": "Hyperbola fitness: range and monotonicity", "statement": "With a target value the score lies in (0,1], equals 1 exactly at the target with zero penalty, and strictly decreases with |target - objective| + penalty; without a target the score is minus (objective + penalty), so higher score means smaller objective. With IEEE doubles the score stays in [0,1] and is still monotone.", "quantifier": "all targets, objective values and non-negative penalties", "why_tests_cant": "continuum", "anchors": ["baumeva/ga/fitness/hyperbola_fitness.py:HyperbolaFitness.get_fitness_score"]}
{"id": "C42", "title": "The feasible flag is exact", "statement": "For conditional tasks an evaluated individual is marked feasible if and only if every value whose condition is <= is at most 0 and every other condition value equals 0.", "quantifier": "all condition lists and all objective values", "why_tests_cant": "all lengths and values", "anchors": ["baumeva/ga/fitness/base_fitness.py:BaseFitness.execute"]}
{"id": "C43", "title": "The objective is called exactly once per new individual, always on the decoded phenotype", "statement": "Fitness evaluation calls the objective once for each unscored individual and for no other, on the decoded real vector (or on the genotype for non-binary populations), even when the population contains the same individual object several times; afterwards genotype and phenotype are back in place and the phenotype is the decoding of the genotype. A full single-objective run makes exactly n + (G-1)*c calls.", "quantifier": "all populations reachable in a run", "why_tests_cant": "aliasing and in-place swaps over all histories", "anchors": ["baumeva/ga/fitness/base_fitness.py:BaseFitness.execute", "baumeva/ga/populations/binary_population.py:BinaryPopulation.swap", "baumeva/ga/populations/binary_population.py:BinaryPopulation.get_phenotype"]}
{"id": "C44", "title": "The objective only ever sees points of the search space", "statement": "In any run, BinaryGA calls the objective only on vectors inside the declared bounds, CombinatoryGA only on duplicate-free lists of the declared length over first..last, CategoricalGA only on lists taking each gene from its declared pool, provided user-supplied individuals do.", "quantifier": "all runs: all configurations, objective functions and random draws", "why_tests_cant": "closure over unboundedly many generations", "anchors": ["baumeva/binary_ga.py:BinaryGA.optimize", "baumeva/combinatory_ga.py:CombinatoryGA.optimize", "baumeva/categorical_ga.py:CategoricalGA.optimize"]}
{"id": "C45", "title": "Valid configurations never raise", "statement": "With valid parameters and a total scalar objective, no run of BinaryGA, CombinatoryGA or CategoricalGA raises, whatever the random draws.", "quantifier": "all valid configurations and all random draws", "why_tests_cant": "all histories", "anchors": ["baumeva/binary_ga.py:BinaryGA.optimize", "baumeva/combinatory_ga.py:CombinatoryGA.optimize", "baumeva/categorical_ga.py:CategoricalGA.optimize"]}
{"id": "C46", "title": "Interpretation of the objective's return value", "statement": "Without penalty only a scalar return value is usable: tuples of length above 1 raise, a tuple of length 1 is turned into None and the score computation raises TypeError; with penalty the number of values must equal the number of conditions; the value at the position of optimize becomes the objective score and the others, in order, are checked against the remaining conditions.", "quantifier": "all return values and condition lists", "why_tests_cant": "all lengths", "anchors": ["baumeva/ga/fitness/base_fitness.py:BaseFitness.check_input", "baumeva/ga/fitness/base_fitness.py:BaseFitness.set_obj_score", "baumeva/ga/fitness/base_fitness.py:BaseFitness.check_task"]}
{"id": "C47", "title": "Reusing a conditional configuration: the caller's conditions list is consumed", "statement": "Constructing a single-objective fitness with a penalty and at least two conditions removes the first optimize from the caller's list; so calling optimize() a second time on the same BinaryGA/CombinatoryGA/CategoricalGA raises; multi-objective fitness leaves the caller's list unchanged.", "quantifier": "all condition lists with exactly one optimize", "why_tests_cant": "all lists; cross-call state", "anchors": ["baumeva/ga/fitness/base_fitness.py:BaseFitness.set_opt_value", "baumeva/ga/fitness/multi_fitness.py:MultiFitness.set_opt_value"]}
{"id": "C48", "title": "input_data is passed exactly when it is truthy", "statement": "The objective is called with (input_data, genotype) when input_data is truthy and with (genotype) alone otherwise, so a two-argument objective with falsy input_data raises TypeError; the multi-objective ranking always calls it with one argument.", "quantifier": "all objectives and input_data values", "why_tests_cant": "all values", "anchors": ["baumeva/ga/fitness/base_fitness.py:BaseFitness.calc_obj_func", "baumeva/ga/fitness/multi_fitness.py:MultiFitness.inferior"]}
{"id": "C49", "title": "Dynamic penalty: zero on the feasible region, positive and growing with the generation outside", "statement": "For positive parameters the dynamic penalty is never negative, is zero when all conditions hold or in generation 0, is positive when a condition is violated in a later generation, and is monotone in every violation and in the generation index; wrong lengths and unknown signs raise. The exponents may be any numbers whose powers of non-negative numbers behave like powers (non-negative, not decreasing); an exponent that raises (a negative one on 0) makes the penalty raise the first such exception. Where numbers have a range (doubles), it raises OverflowError exactly when a power of a finite amount of violation or of a finite c * generation is out of range.", "quantifier": "all condition lists, values, generations and positive parameters", "why_tests_cant": "continuum and unbounded lists", "anchors": ["baumeva/ga/penalties/dynamic_penalty.py:DynamicPenalty.execute", "baumeva/ga/penalties/base_penalty.py:BasePenalty.execute"]}
{"id": "C50", "title": "Adaptive penalty: coefficient depends only on the last best's feasibility", "statement": "The coefficient is 0 in generation 0, 10/betta_1 when the best solution is feasible and 10*betta_2 otherwise, so infeasible points are penalised more strongly while the best solution is infeasible; betta_1 or betta_2 not above 1, or equal, are rejected; with multi-objective storage the penalty raises KeyError after generation 0.", "quantifier": "all parameters, values and generations", "why_tests_cant": "continuum", "anchors": ["baumeva/ga/penalties/adaptive_penalty.py:AdaptivePenalty"]}
{"id": "C51", "title": "Static penalty is unusable as documented", "statement": "A violated equality is never penalised; a violated inequality whose interval list has two or more disjoint intervals always raises, as does a satisfied equality with positive intervals; mismatched dictionary sizes are rejected.", "quantifier": "all configurations with at least two disjoint intervals, all values", "why_tests_cant": "continuum", "anchors": ["baumeva/ga/penalties/static_penalty.py:StaticPenalty.get_sum_conditional_func"]}
{"id": "C52", "title": "Survivors are never re-penalised", "statement": "A score computed in an earlier generation is never recomputed, so with dynamic or adaptive penalty an infeasible individual of generation 0 carries no penalty for the rest of the run and can remain best_solution although feasible better-penalised individuals exist (exhibited).", "quantifier": "all runs; existence of the witness run", "why_tests_cant": "history-dependent", "anchors": ["baumeva/ga/fitness/base_fitness.py:BaseFitness.execute", "baumeva/ga/penalties/dynamic_penalty.py:DynamicPenalty.execute"]}
{"id": "C53", "title": "Pareto ranks count dominators", "statement": "After ranking a population of distinct individuals, each individual's rank is 1 plus the number of individuals that Pareto-dominate it (all returned values minimised); rank 1 means non-dominated, equal points do not dominate each other, and a non-empty population has a rank-1 individual.", "quantifier": "all populations and objective functions with comparable values", "why_tests_cant": "all sizes and dominance patterns", "anchors": ["baumeva/ga/fitness/multi_fitness.py:MultiFitness.inferior", "baumeva/ga/fitness/multi_fitness.py:MultiFitness.assign_ranks"]}
{"id": "C54", "title": "The reported Pareto set is exactly the non-dominated part of the current generation", "statement": "After a multi-objective update best_solution's pareto_set consists of snapshots of exactly the rank-1 individuals of the current population, the counter of generations without improvement is reset exactly when the set changed, and all of them come first in the population order.", "quantifier": "all populations", "why_tests_cant": "all sizes and orders", "anchors": ["baumeva/ga/multi_ga_data.py:MultiGaData.update"]}
{"id": "C55", "title": "FFGA elitism keeps the whole Pareto front", "statement": "With transfer_parents=best the next population is all children followed by all rank-1 individuals, so every point of a front is weakly dominated by a point of every later front; the population size is not bounded by num_individ; with random transfer the kept last individual is a worst-ranked one.", "quantifier": "all runs", "why_tests_cant": "all histories", "anchors": ["baumeva/ga/multi_new_generation.py:MultiNewGeneration"]}
{"id": "C56", "title": "FFGA scores are 1/(1+rank at first evaluation)", "statement": "A newly evaluated individual gets 1/(1+rank), hence at most 1/2; surviving individuals keep the score of their first evaluation although their rank is updated, so a dominated survivor can keep the best score (exhibited).", "quantifier": "all populations; witness run", "why_tests_cant": "history-dependent", "anchors": ["baumeva/ga/fitness/ffga_fitness.py:FFGAFitness.get_fitness_score", "baumeva/ga/fitness/base_fitness.py:BaseFitness.execute"]}
{"id": "C57", "title": "Order of objective values in conditional multi-objective tasks", "statement": "With a penalty the recorded objective scores are the values at the optimize positions in reverse order, so VEGA compares target i with objective m-1-i; without a penalty they are in the returned order.", "quantifier": "all condition lists and values", "why_tests_cant": "all lengths", "anchors": ["baumeva/ga/fitness/multi_fitness.py:MultiFitness.set_opt_value", "baumeva/ga/fitness/multi_fitness.py:MultiFitness.set_obj_score", "baumeva/ga/fitness/vega_hyperbola_fitness.py:VEGAHyperbolaFitness.get_fitness_score"]}
{"id": "C58", "title": "A fixed rnd_seed makes runs reproducible", "statement": "With rnd_seed set, the result of a run is a function of the configuration and the seed only: it does not depend on the state of the random generator before the run nor on operating-system entropy.", "quantifier": "all configurations, seeds and prior generator states", "why_tests_cant": "all prior states and all histories", "anchors": ["baumeva/global_generator.py:GlobalGenerator", "baumeva/ga/populations/base_population.py:BasePopulation.__init__"]}
{"id": "C59", "title": "A fixed rnd_seed replays the same random draws in every generation", "statement": "With rnd_seed set every selection and every crossover restarts the generator from the seed, so its result does not depend on any earlier draw, and on populations of the same size with distinct individuals and distinct scores tournament selection picks the same sorted positions in every generation.", "quantifier": "all populations and seeds", "why_tests_cant": "all histories", "anchors": ["baumeva/ga/populations/base_population.py:BasePopulation.__init__", "baumeva/ga/populations/binary_population.py:BinaryPopulation.get_empty_copy", "baumeva/ga/selections/base_selection.py:BaseSelection.execute"]}
{"id": "C60", "title": "Ranked selection ranks by position, not by score", "statement": "On a list of distinct individuals whose neighbours have different scores and whose first score is not -1, ranked selection gives the j-th individual rank j+1 whatever the scores are; equal neighbours share the mean of the positions of their run. VEGA ranked selection is a roulette on these ranks for the last objective; since VEGA populations are not sorted by any single objective, VEGA ranked selection can give the best individual of an objective the lowest rank (exhibited).", "quantifier": "all populations and score vectors; witness", "why_tests_cant": "all orders of scores", "anchors": ["baumeva/ga/selections/ranked_selection.py:RankedSelection.add_probabilities", "baumeva/ga/selections/vega_ranked_selection.py:VEGARankedSelection.add_probabilities"]}
{"id": "C61", "title": "A run depends on the objective only through its order", "statement": "Two objectives that fail alike and order any two calls alike (towards the minimum or towards their targets) make an unpenalised BinaryGA, CombinatoryGA or CategoricalGA visit the same points in the same order with the same generations, counter and best individual; in particular a strictly increasing transformation of the objective changes nothing, and a target v is the same as minimising the distance to v. VEGA without target and FFGA depend on the order in each component only.", "quantifier": "all pairs of objectives, configurations and random streams", "why_tests_cant": "relation between two whole executions", "anchors": ["baumeva/ga/fitness/hyperbola_fitness.py:HyperbolaFitness.get_fitness_score", "baumeva/ga/selections/tournament_selection.py:TournamentSelection", "baumeva/binary_ga.py:BinaryGA.optimize", "baumeva/vega.py:VEGA.optimize", "baumeva/ffga.py:FFGA.optimize"]}
{"id": "C62", "title": "With a fixed seed nothing that happened before the run matters", "statement": "For an objective that gives the same answer to the same call, any of the five algorithms started with the same rnd_seed in two processes with arbitrary histories (other individuals in memory, other earlier calls of the objective, other generator state, other entropy) makes the same calls and returns the same populations, parents, children, Pareto sets, counters and best solution.", "quantifier": "all pairs of prior states, configurations and seeds", "why_tests_cant": "relation between two whole executions from arbitrary states", "anchors": ["baumeva/global_generator.py:GlobalGenerator", "baumeva/binary_ga.py:BinaryGA.optimize", "baumeva/combinatory_ga.py:CombinatoryGA.optimize", "baumeva/categorical_ga.py:CategoricalGA.optimize", "baumeva/vega.py:VEGA.optimize", "baumeva/ffga.py:FFGA.optimize"]}
{"id": "C63", "title": "The combinatorial operators invent no genes", "statement": "With a combinatorial mutation and any crossover every gene of every individual of every generation is a gene of some initial individual; so every element of every tour CombinatoryGA evaluates occurs in one of its first num_individ tours, and when num_individ tours of length k cannot cover the range, some element of the range is never tried in the whole run, however long it is.", "quantifier": "all configurations, random streams and numbers of generations", "why_tests_cant": "never-visited points of unbounded runs", "anchors": ["baumeva/ga/mutations/base_combinatory_mutation.py:BaseCombinatoryMutation", "baumeva/ga/crossovers/order_crossover.py:OrderCrossover", "baumeva/combinatory_ga.py:CombinatoryGA.optimize"]}
{"id": "C64", "title": "Only the search for a second parent can run forever", "statement": "The only loop of the library without a bound is the one that redraws the second parent: if every such loop of an execution ends within some number of draws, the execution ends with one and the same result for every larger bound, and if an execution does not end within a bound it is because one single pair drew that many second parents in a row that were the first parent itself.", "quantifier": "all configurations and infinite random streams", "why_tests_cant": "non-termination and all bounds", "anchors": ["baumeva/ga/selections/tournament_selection.py:TournamentSelection.execute", "baumeva/ga/selections/balanced_selection.py:BalancedSelection.execute", "baumeva/ga/selections/ranked_selection.py:RankedSelection.execute", "baumeva/collector_ga.py:CollectorGA.optimize"]}
{"id": "C65", "title": "CollectorGA.optimize called again continues the same search", "statement": "A further call of CollectorGA.optimize first records the last generation once more, evaluating nothing and changing no individual, then makes up to num_generations-1 generations; over any number of calls the recorded best scores never decrease, best_solution carries the last of them, the counter is the number of recorded generations since the last improvement across calls, and the objective was called once per initial individual and once per child. So a collector that stopped early makes one new generation per further call unless that generation improves.", "quantifier": "all numbers of calls, single-objective components, populations and random streams", "why_tests_cant": "unbounded sequences of calls on one object", "anchors": ["baumeva/collector_ga.py:CollectorGA.optimize", "baumeva/ga/ga_data.py:GaData.update", "baumeva/ga/fitness/base_fitness.py:BaseFitness.execute"]}
{"id": "C66", "title": "Every point of the search space stays reachable in every generation", "statement": "In an unseeded valid BinaryGA or CategoricalGA run, at every generation from which a next generation can be made at all, and for every point of the search space (every point of the binary grid; every choice of elements, up to Python equality), some random values make the next generation call the objective on exactly that point, whatever the population has become. It needs a mutation level between 0 and 0.999; with at most three bits the level 'strong' is 3/n >= 1 and mutation can only complement the string.", "quantifier": "all valid configurations, generations, populations reached, and points of the space", "why_tests_cant": "the event has probability of the order of 1000^-n; no test run waits for it", "anchors": ["baumeva/ga/mutations/bin_string_mutation.py:BinStringMutation.determines_mutation", "baumeva/ga/mutations/bin_string_mutation.py:BinStringMutation", "baumeva/ga/mutations/categorical_mutation.py:CategoricalMutation", "baumeva/binary_ga.py:BinaryGA", "baumeva/categorical_ga.py:CategoricalGA"]}
{"id": "C67", "title": "Valid conditional tasks never raise", "statement": "With one 'optimize' among conditions that are all '<=' or '!=', a dynamic penalty with non-negative factors or an adaptive penalty accepted by its constructor (exponents not below 0), an objective that returns one number per condition on every point of the space, and otherwise valid parameters, optimize of BinaryGA, CombinatoryGA and CategoricalGA raises no exception in any generation, whatever is drawn.", "quantifier": "all such configurations, objectives, populations, random streams and numbers of generations", "why_tests_cant": "an exception may need a rare combination of generation, feasibility of the best and random draws", "anchors": ["baumeva/ga/fitness/base_fitness.py:BaseFitness.execute", "baumeva/ga/penalties/dynamic_penalty.py:DynamicPenalty", "baumeva/ga/penalties/adaptive_penalty.py:AdaptivePenalty", "baumeva/binary_ga.py:BinaryGA", "baumeva/combinatory_ga.py:CombinatoryGA", "baumeva/categorical_ga.py:CategoricalGA"]}
{"id": "C68", "title": "Valid VEGA and FFGA configurations never raise", "statement": "With an objective that returns the same n numbers whenever it is called on a point of the space, no penalty or a dynamic one with non-negative factors and '<=' or '!=' conditions, a 'best' or 'random' transfer, at least four individuals for VEGA (at least eleven for FFGA with 'random'), enough children per selection round and otherwise valid parameters, optimize of VEGA and of FFGA raises no exception in any generation, whatever is drawn.", "quantifier": "all such configurations, objectives, populations, random streams and numbers of generations", "why_tests_cant": "an exception may need a rare combination of fronts, ranks and random draws, such as a roulette over too few individuals", "anchors": ["baumeva/vega.py:VEGA.optimize", "baumeva/ffga.py:FFGA.optimize", "baumeva/ga/selections/balanced_selection.py:BalancedSelection", "baumeva/ga/fitness/base_fitness.py:BaseFitness.execute"]}
{"id": "C69", "title": "VEGA and FFGA call the objective only inside the declared box, but for VEGA's zero list", "statement": "In any completed run of VEGA or FFGA with legal genes and a deterministic objective, every call of the objective, for the fronts as for the scores, is on a grid point of the declared box, except one: without conditions VEGA first calls it on a list of zeros, which need not lie in the box.", "quantifier": "all legal genes, deterministic objectives, configurations, random streams and completed runs", "why_tests_cant": "a stray call needs particular bits; a test with a total objective never notices a call outside the box", "anchors": ["baumeva/vega.py:VEGA.optimize", "baumeva/ffga.py:FFGA.optimize", "baumeva/ga/populations/binary_population.py:BinaryPopulation", "baumeva/ga/multi_ga_data.py:MultiGaData"]}
{"id": "C70", "title": "In IEEE doubles too, valid configurations never raise and the objective is only called in the space", "statement": "With binary64 arithmetic, BinaryGA, CombinatoryGA and CategoricalGA with a valid configuration raise no exception, whatever the random draws; every call of the objective is on a point of the declared space (for BinaryGA: each coordinate is a grid point up to rounding, at least the lower bound and at most the upper bound plus 16 units in the last place of the bounds). The objective may return infinities, but not NaN.", "quantifier": "all genes whose bounds are at most 2^1000 and whose range holds between 1 and 2^48 steps of at least 2^-900, all configurations, objectives, random streams and run lengths", "why_tests_cant": "overflow, division by zero and an index one past the end depend on the last bits of the bounds", "anchors": ["baumeva/binary_ga.py:BinaryGA", "baumeva/combinatory_ga.py:CombinatoryGA", "baumeva/categorical_ga.py:CategoricalGA", "baumeva/ga/populations/binary_population.py:BinaryPopulation", "baumeva/ga/fitness/hyperbola_fitness.py:HyperbolaFitness"]}
{"id": "C71", "title": "get_avg_score is the mean of the scores", "statement": "GaData.get_avg_score and MultiGaData.get_avg_score return the arithmetic mean of the members' scores and change nothing; they raise ZeroDivisionError exactly on an empty population and TypeError exactly when some member is unscored or has a list of scores. The mean lies between any bounds of the scores and equals the upper one only if all scores do; at every generation of a single-objective run it is defined, at least the worst member's score and at most the last recorded best score.", "quantifier": "all populations and heaps; all single-objective runs, all random streams", "why_tests_cant": "an equality about an unbounded sum and an invariant of all generations", "anchors": ["baumeva/ga/ga_data.py:GaData.get_avg_score", "baumeva/ga/multi_ga_data.py:MultiGaData.get_avg_score"]}
{"id": "C72", "title": "FFGA never loses a good point, VEGA does", "statement": "In a multi-objective run with MultiNewGeneration, transfer_parents='best' and a selection that leaves the ranks alone, at every generation every point on which the objective was ever called (by the ranking or by the evaluation) is matched or dominated by a member of the current Pareto front. FFGA.optimize on an unconditional task therefore reports a set whose recorded objective values are those of its points and are not bettered by any value the objective ever returned. VEGA.optimize has no such guarantee: a run reports a point dominated by one it had evaluated earlier.", "quantifier": "all objectives with a fixed number of comparable values, all configurations, generations and random streams; for VEGA one concrete run", "why_tests_cant": "a statement about the whole call history at every generation", "anchors": ["baumeva/ga/multi_new_generation.py:MultiNewGeneration.add_best", "baumeva/ga/fitness/ffga_fitness.py:FFGAFitness", "baumeva/ga/multi_ga_data.py:MultiGaData.update", "baumeva/ffga.py:FFGA", "baumeva/vega.py:VEGA"]}
{"id": "C73", "title": "With an ideal generator, individuals, cuts and moves are drawn uniformly", "statement": "If every raw draw below k is uniform on 0..k-1 and independent, then: every bit string of a binary (also Gray) population is generated with the same probability; so is every arrangement of k values of an ordinal population and every tuple of pool entries of a categorical one; one-point, two-point, order and uniform crossover pick every cut point, pair of cut points and choice of parents with the same probability, and get_children keeps either child with probability 1/2; swap, inversion and movement pick every pair of positions with the same probability, and shift picks length, start and target uniformly in turn. The probability of an event of the result is determined by the computation.", "quantifier": "all populations, parents, genotypes, states", "why_tests_cant": "exact probabilities over all random streams; a test sees finitely many samples", "anchors": ["baumeva/ga/populations/binary_population.py:BinaryPopulation.get_generated_individ", "baumeva/ga/populations/cat_population.py:CatPopulation", "baumeva/ga/populations/order_cat_population.py:OrderCatPopulation", "baumeva/ga/crossovers/base_crossover.py:BaseCrossover.get_children", "baumeva/ga/crossovers/order_crossover.py:OrderCrossover", "baumeva/ga/mutations/shift_mutation.py:ShiftMutation"]}
{"id": "C74", "title": "The probability with which each member is selected", "statement": "With an ideal generator, a tournament of t among n members is won by one whose key is at most x with probability c(c-1)..(c-t+1)/n(n-1)..(n-t+1), c being the number of keys at most x; with distinct keys a member better than b others wins with probability t b(b-1)..(b-t+2)/n(n-1)..(n-t+1), the best with t/n, and a better member is never less likely to win than a worse one. Proportional selection with positive weights draws position i with the exact share of the 2^53 values of random() in its interval, within 2^-53 of w_i/W.", "quantifier": "all populations, tournament sizes, keys (also VEGA's per objective), weights, states", "why_tests_cant": "exact probabilities over all random streams", "anchors": ["baumeva/ga/selections/tournament_selection.py:TournamentSelection.get_best", "baumeva/ga/selections/vega_tournament_selection.py:VEGATournamentSelection", "baumeva/ga/selections/balanced_selection.py:BalancedSelection.get_index"]}
{"id": "C75", "title": "The loops for the second parent end with probability one", "statement": "The probability that the while loop of tournament selection is still running after f tries is p^f, p being the probability that a tournament is won by the first parent, and the second parent is another member with the probabilities renormalised to those who are not the first. If at least t members are not the first parent, the loop ends with probability one. The loop of proportional selection ends with probability one unless the first position's share of the weights exceeds 1 - 2^-53; then it never ends.", "quantifier": "all populations, sizes, keys, positive weights, states, numbers of tries", "why_tests_cant": "termination of an unbounded loop is a limit over all random streams", "anchors": ["baumeva/ga/selections/tournament_selection.py:TournamentSelection.tournament", "baumeva/ga/selections/balanced_selection.py:BalancedSelection.balanced_selection"]}
{"id": "C76", "title": "Genes mutate independently with the probability of the gate", "statement": "With an ideal generator the gate of a mutation passes with probability p = (number of k in 0..999 with k <= 1000*level)/1000, for rational levels min(1000, floor(1000*level)+1)/1000, above the level by at most a thousandth. Bit strings: every result c has probability p^d (1-p)^(n-d), d being the number of differing bits; the mean number of flips is n*p, for the level normal more than 1 and at most 1 + n/1000. Categorical: each gene, independently, stays with probability 1-p and otherwise becomes one of the pool's entries that differ from it, evenly. Permutations: one gate for the whole genotype.", "quantifier": "all levels, genotypes, pools, targets, states", "why_tests_cant": "joint probabilities over all random streams", "anchors": ["baumeva/ga/mutations/bin_string_mutation.py:BinStringMutation", "baumeva/ga/mutations/categorical_mutation.py:CategoricalMutation", "baumeva/ga/mutations/base_combinatory_mutation.py:BaseCombinatoryMutation.determines_mutation"]}
{"id": "C77", "title": "Static penalty: exact amount or exception for every configuration", "statement": "The static penalty, for every table of intervals and coefficients, is decided condition by condition: an equality with a non-zero value and an inequality with a value at most 0 add nothing; otherwise every interval listed for the condition must contain the value, and the amount is the last such interval's entry of the equality coefficients times |value| (max(0, value)), squared; with an empty interval list the previous condition's amount is added again, UnboundLocalError when there is none; missing tables raise KeyError, missing coefficients IndexError, an interval not containing the value or an unknown sign Exception. Each configuration has exactly one outcome under these rules and the code computes it.", "quantifier": "all tables, conditions, values, number types", "why_tests_cant": "exact outcome including a local variable carried between conditions, for all tables", "anchors": ["baumeva/ga/penalties/static_penalty.py:StaticPenalty.get_sum_conditional_func", "baumeva/ga/penalties/static_penalty.py:StaticPenalty.execute"]}
{"id": "C78", "title": "What misuse raises", "statement": "A binary genotype with an entry that is a number: decoding raises TypeError. A bit string of another length than the genes' total: ValueError exactly when nothing is left for the last gene, surplus bits are not read. VEGA and FFGA fitness with an objective returning a number, on a fresh decoded population: TypeError. VEGA's tournament and roulette weights on scores that are not lists: TypeError. VEGA or FFGA on individuals without a phenotype entry: KeyError. Exchanging genotypes and phenotypes (swap) of a binary population one of whose individuals has no phenotype entry: KeyError. Comparing two individuals of which the second has more objectives: IndexError. VEGA with one number as target: TypeError. Single-objective roulette when some score is not a number: TypeError. Crossover on an empty population or an odd number of parents: IndexError. FFGA's score of an individual without a rank: KeyError, with a list as rank TypeError. VEGA's ranking by one criterion of individuals without a list of ranks: KeyError (none), TypeError (one number), IndexError (too short). A tournament over a position that does not exist: IndexError. print_best_solution: TypeError without a solution, KeyError exactly when an entry it prints is missing.", "quantifier": "all genotypes, populations, states and draws", "why_tests_cant": "all states; the exception class is part of the outcome", "anchors": ["baumeva/ga/populations/binary_population.py:BinaryPopulation", "baumeva/ga/fitness/multi_fitness.py", "baumeva/ga/selections/vega_tournament_selection.py", "baumeva/ga/selections/vega_balanced_selection.py", "baumeva/ga/ga_data.py"]}
{"id": "C79", "title": "Bookkeeping of the shared data: who changes what, and how histories grow", "statement": "Selection writes the parents and nothing else of the shared data; crossover the children and nothing else; the new-generation step the members, which the children then are, keeping parents, settings and results; update adds one to the generation counter and exactly one entry to each history of its kind (best, mediocre and worst, or Pareto fronts), none to the others, and at most reorders the members. An iteration and the whole main loop keep all settings, record exactly as many entries as iterations were made, at most the number asked for, and end with the children equal to the members up to order.", "quantifier": "all components, populations, streams, numbers of generations", "why_tests_cant": "frame conditions over the whole data object for all runs", "anchors": ["baumeva/ga/ga_data.py", "baumeva/ga/multi_ga_data.py", "baumeva/ga/new_generation.py", "baumeva/ga/selections/base_selection.py", "baumeva/ga/crossovers/base_crossover.py"]}
{"id": "C80", "title": "sort_by_dict is the stable sort, on numbers and on lists", "statement": "When all keys are numbers, or all are lists of numbers, sort_by_dict returns the stable sort of the individuals: an arrangement in which of any two the earlier has the smaller key, or a key not larger and came first before; lists are compared by the first difference, a proper prefix being smaller. There is only one such arrangement. A missing key raises KeyError, keys of mixed kinds or None raise TypeError, lists of at most one individual are returned as they are.", "quantifier": "all lists, keys, states; numbers that are totally preordered (rationals, doubles other than NaN)", "why_tests_cant": "all lengths and all orders; uniqueness", "anchors": ["baumeva/ga/populations/base_population.py:BasePopulation.sort_by_dict"]}
{"id": "C81", "title": "Crossovers that keep both children (num_offsprings other than 1)", "statement": "With num_offsprings set to another value than 1, a crossover yields as many children as there are parents: fresh individuals, two per consecutive pair of parents, each with the keys of an empty copy, and nothing else changes. The two children of a pair come from the same cut: exchanged roles for one-point, two-point and order crossover (exactly these pairs of children are possible), equal genotypes for uniform crossover. One- and two-point twins hold together exactly the genes of both parents, at each position the two genes of that position. No exception occurs when the parents come in pairs and the genotypes are long enough.", "quantifier": "all parents, lengths, random draws, four crossovers", "why_tests_cant": "all cuts, lengths and lists of parents; exact set of children; no code of the package sets the attribute", "anchors": ["baumeva/ga/crossovers/base_crossover.py:BaseCrossover.get_children", "baumeva/ga/crossovers/base_crossover.py:BaseCrossover.execute"]}
{"id": "C82", "title": "Probability that a run misses a point; convergence to the optimum", "statement": "Assume the draws are uniform and independent and seed(None) starts a fresh independent sequence. Let N be the number of generations, with early stop not set or at least N - 1. A run of BinaryGA that returns has evaluated a given point of the grid except with probability at most (1 - d)^(N-1), where d is min(gate, 1 - gate) to the power of the genotype length and gate = (floor(1000 level) + 1)/1000; for CategoricalGA d is the product over genes of min(1 - gate, gate/size of pool). So without penalty the reported best is worse than the value of any given point with at most that probability. With transfer random, or at least as many children as individuals, also the event that the run does not return is covered: the bound grows by (N - 1) m (t/n)^k, where k limits the draws of a second parent. Hence for any risk there is a number of generations, depending only on the grid (BinaryGA) or the pools and level (CategoricalGA), after which the best reported is as good as the optimum except with that risk. Every event of a run has exactly one probability, between 0 and 1.", "quantifier": "all valid configurations, objectives, points of the search space, starting states, numbers of generations, risks", "why_tests_cant": "probabilities of whole runs of any length; a limit", "anchors": ["baumeva/binary_ga.py:BinaryGA.optimize", "baumeva/categorical_ga.py:CategoricalGA.optimize", "baumeva/ga/mutations/bin_string_mutation.py:BinStringMutation", "baumeva/ga/mutations/categorical_mutation.py:CategoricalMutation", "baumeva/ga/populations/base_population.py:BasePopulation"]}
{"id": "C83", "title": "Runs end with probability one, unless an individual is carried over twice", "statement": "Assume the draws are uniform and independent. Let m children be made per generation from n individuals with tournaments of size t. For a valid configuration with transfer random, or with at least as many children as individuals, the probability that a run of BinaryGA, CategoricalGA or CombinatoryGA does not return when every search for a second parent may use k draws is at most max(0, N - 1) m (t/n)^k, for any objective and early stop; so it tends to 0 and the run returns with probability 1. The probability never grows with k. Without that condition it need not tend to 0: there is a valid configuration with transfer best for which it stays above a fixed positive number whatever k.", "quantifier": "all valid configurations, objectives, starting states, bounds k; the exception is shown by a witness", "why_tests_cant": "probability of endless loops; no test can run forever or see all draws", "anchors": ["baumeva/binary_ga.py:BinaryGA.optimize", "baumeva/categorical_ga.py:CategoricalGA.optimize", "baumeva/combinatory_ga.py:CombinatoryGA.optimize", "baumeva/ga/selections/tournament_selection.py:TournamentSelection", "baumeva/ga/new_generation.py:NewGeneration.add_best"]}
{"id": "C84", "title": "CombinatoryGA does not converge: populations that trap it and elements that are never drawn", "statement": "Assume the draws are uniform and independent. (1) Call a population of different tours isolated when every tour that order crossover and a movement can make of two of them, other than these tours themselves, is worse than all of them. With transfer best and fewer children than the size of a tournament, a run of CombinatoryGA started on an isolated population calls the objective only on these tours and such offspring, and reports one of the tours it started with. (2) If the user's tours can be completed to an isolated population by drawing, and z is better than all of it, then there is p0 > 0 such that for any number of generations the probability of a report as good as z is at most 1 - p0; there is a valid configuration with no tours supplied for which z is the optimum, so the counterpart of C82 for CombinatoryGA is false. (3) If tours are shorter than the number of elements and none supplied contains the element e, there is p0 > 0 such that, whatever the settings and the number of generations, the probability that a tour containing e is ever evaluated is at most 1 - p0.", "quantifier": "all valid configurations with the named shape, objectives, isolated populations, numbers of generations, draws", "why_tests_cant": "absence of a behaviour in runs of any length, and probabilities of it", "anchors": ["baumeva/combinatory_ga.py:CombinatoryGA.optimize", "baumeva/ga/selections/tournament_selection.py:TournamentSelection", "baumeva/ga/new_generation.py:NewGeneration.add_best"]}
{"id": "C85", "title": "VEGA and FFGA reach every grid point; FFGA reports a set that covers the whole grid", "statement": "Assume the draws are uniform and independent, the objective returns the tuple F(pt) whenever it returns one, every generation makes at least one child, and the stopping rule cannot cut the run short. (1) For each point y of the grid, the probability that VEGA or FFGA returns after N generations without having evaluated y is at most (1 - d^bits)^(N-1), d being the smaller of the chances that mutation flips or keeps a bit. (2) FFGA with transfer best and at least two individuals also ends: no exception, and the searches for a second parent exceed a given number of tries with probability at most (N-1) * children * (3/4)^tries, because every Fonseca-Fleming score lies between 1/(P+2) and 1/2. (3) Without a penalty, the probability that some point of the grid is not matched by a reported individual that is at most as large in every value is at most 2^bits times the bounds of (1) and (2); hence for every eps there is a number of generations, depending on the grid alone, after which the reported set covers the whole grid with probability above 1 - eps. (For VEGA the last claim fails: C72.)", "quantifier": "all legal grids, objectives, mutation levels, population sizes, numbers of generations and of objectives, input populations, Gray or plain code", "why_tests_cant": "probabilities of events over runs of any length, and a limit", "anchors": ["baumeva/ffga.py:FFGA.optimize", "baumeva/vega.py:VEGA.optimize", "baumeva/ga/selections/balanced_selection.py:BalancedSelection", "baumeva/ga/mutations/bin_string_mutation.py:BinStringMutation", "baumeva/ga/fitness/ffga_fitness.py"]}
{"id": "C86", "title": "CombinatoryGA on full tours converges when it makes at least as many children as a tournament has competitors", "statement": "Assume the draws are uniform and independent, tours contain every element of a..b (k = b-a+1 >= 3), the objective (plain or penalised) answers the same tour alike at every call, each generation makes at least tournament_size children and the stopping rule cannot cut the run short. (1) For every tour z, the probability that CombinatoryGA returns without having evaluated z is at most (1 - d^T)^floor((N-1)/T) with T = 2k+1 and an explicit d, positive for the levels weak, normal, strong and every number in [0, 0.999): from any population, T consecutive lucky generations lead to z, each turning the winners of the previous one into copies of one neighbouring tour. (2) With transfer random or at least num_individ children the run also ends, except for the probability of C83. (3) Without a penalty the reported best is worse than z with at most these probabilities; hence for every eps there is a number of generations, depending only on the population size, tournament size, number of children and k, after which the reported best is optimal with probability above 1 - eps. (With fewer children than competitors, or with partial tours, this fails: C84.)", "quantifier": "all objectives, tours, levels, population sizes, tournament sizes, numbers of children and generations, transfers, penalties and input populations", "why_tests_cant": "a bound for runs of any length over all populations and a limit; a run can stay in the same few tours for any tested number of generations", "anchors": ["baumeva/combinatory_ga.py:CombinatoryGA.optimize", "baumeva/ga/crossovers/order_crossover.py", "baumeva/ga/mutations/base_combinatory_mutation.py", "baumeva/ga/selections/tournament_selection.py", "baumeva/ga/new_generation.py"]}
{"id": "C87", "title": "Ending and convergence hold for the computation in double precision", "statement": "With Python floats (IEEE double arithmetic in place of exact numbers), uniform independent draws, one objective without penalty whose answers are numbers (finite for (3)), and a stopping rule that cannot cut the run short: (1) with transfer random or at least num_individ children, BinaryGA (at least two bits, moderate ranges), CategoricalGA (good pools without nan) and CombinatoryGA fail to end with probability at most (N-1) m (t/n)^fuel, which vanishes as fuel grows; (2) the probability that a run returns without having evaluated a given point is at most (1 - c^L)^(N-1) for a point with a code of L bits, (1 - product over genes)^(N-1) for a categorical point, and (1 - d^T)^floor((N-1)/T) for a full tour when there are at least tournament_size children, where c counts the outcomes k/1000 of the comparison with the level as computed in doubles; (3) the reported best, as a double compared exactly or by its computed score, is less good than that point with at most these probabilities, so that for every eps a number of generations suffices, for every finite level in [0, 0.998] and the named levels; every vector between the bounds has a point of the space within half a grid step of it, up to rounding.", "quantifier": "all double-precision configurations of this kind, genes, pools, tours, levels, objectives, targets, input populations and numbers of generations", "why_tests_cant": "bounds on probabilities for runs of any length, and rounding in every comparison and decoding; no finite set of runs covers them", "anchors": ["baumeva/binary_ga.py:BinaryGA.optimize", "baumeva/categorical_ga.py:CategoricalGA.optimize", "baumeva/combinatory_ga.py:CombinatoryGA.optimize", "baumeva/ga/mutations/bin_string_mutation.py", "baumeva/ga/mutations/categorical_mutation.py", "baumeva/ga/selections/tournament_selection.py", "baumeva/ga/ga_data.py"]}
{"id": "C88", "title": "A faulty configuration is rejected before anything is evaluated, in a fixed order", "statement": "optimize of the ready-made classes checks, in this order: more input individuals than num_individ (Exception about the size), a penalty that is not a penalty object (Exception), for one objective a penalised task with at least two conditions none of which is optimize (ValueError), an unaccepted mutation level (Exception; for CategoricalGA AttributeError for every string), a transfer_parents other than best or random (Exception). The first fault decides: every run raises exactly that exception, whatever the random numbers, before the objective is called; only VEGA without conditions calls the objective first, on a list of zeros, and what that call raises comes first. A configuration without these faults goes on to create the first generation and to run the generations.", "quantifier": "all configurations of the five classes, all genes, objectives and random states", "why_tests_cant": "combinations of faults over unbounded configurations; that the objective was not called is a statement about all objectives", "anchors": ["baumeva/binary_ga.py:BinaryGA.optimize", "baumeva/categorical_ga.py:CategoricalGA.optimize", "baumeva/combinatory_ga.py:CombinatoryGA.optimize", "baumeva/vega.py:VEGA.optimize", "baumeva/ffga.py:FFGA.optimize", "baumeva/ga/fitness/base_fitness.py", "baumeva/ga/new_generation.py"]}
{"id": "C89", "title": "Multi-objective runs in double precision: VEGA never fails, FFGA can", "statement": "In IEEE double precision: (1) VEGA on an unconditional task with finite real objective values, fine genes, inputs in the box and a population of at least four never raises. (2) FFGA on such a task raises nothing but IndexError. (3) It does raise IndexError: the shares of the roulette are summed with rounding, so the last one can stay below one, and a random number that is not below it yields an index one past the end (ten individuals of equal rank and the largest random number suffice). (4) Only the largest random numbers can do so: with n individuals, every draw k / 2^53 with k < 2^53 - (2n+1) selects one of the n individuals, so a selection all of whose draws are of this kind does not raise. (5) Every call of the objective, but the first call of VEGA on zeros, is on grid points of the box.", "quantifier": "all doubles, configurations, populations of any size, random states and lengths of runs", "why_tests_cant": "the failing draws have probability about n / 2^53 per selection, so no test meets them; the bound of (4) is about rounding errors of sums of any length", "anchors": ["baumeva/ga/selections/balanced_selection.py", "baumeva/ga/fitness/ffga_fitness.py", "baumeva/ga/fitness/vega_hyperbola_fitness.py", "baumeva/vega.py:VEGA.optimize", "baumeva/ffga.py:FFGA.optimize"]}
{"id": "C90", "title": "A run consults its penalty only in its own generations", "statement": "A run of at most N generations (N at least 1) on a conditional task is the same - same outcome, same calls, same random draws, same collected results, at every amount of fuel - under any two penalties that agree in the generations 0 to N-1, for every best solution, all conditions and all values. In particular two dynamic penalties with the same delta, C and betta whose exponents alpha agree on C * 0, ..., C * (N-1) give the same run.", "quantifier": "all configurations, penalties, number types, random states, fuels and lengths of runs", "why_tests_cant": "it compares two executions of every configuration; a test compares a few", "anchors": ["baumeva/ga/penalties/dynamic_penalty.py", "baumeva/ga/penalties/adaptive_penalty.py", "baumeva/ga/fitness/base_fitness.py", "baumeva/ga/ga_data.py", "baumeva/binary_ga.py:BinaryGA.optimize"]}
{"id": "C91", "title": "Conditional tasks in double precision never raise within stated bounds", "statement": "In IEEE double precision, BinaryGA, CombinatoryGA and CategoricalGA on a conditional task never raise, and call the objective only on grid points of the box (arrangements, listed values), when: the penalty is dynamic or adaptive with delta, C and b2 between 0 and 2^100, and exponents whose powers stay up to 2^400 (for instance x ** n for violations up to 2^b with b * n <= 400; alpha on the numbers up to 2^200); the objective returns a tuple as long as the conditions (at most 2^20), any double but NaN (infinities included) at the place of \"optimize\" and constraint values between -2^b and 2^b elsewhere; the target is absent or finite; the run has at most 2^53 generations. A violation of 2^512 with exponent 2 makes a run raise OverflowError.", "quantifier": "all doubles within the bounds, configurations, exponents, populations, random states and lengths of runs", "why_tests_cant": "it bounds the rounding errors of sums of up to a million powers in every generation of every run", "anchors": ["baumeva/ga/penalties/dynamic_penalty.py", "baumeva/ga/penalties/adaptive_penalty.py", "baumeva/ga/fitness/hyperbola_fitness.py", "baumeva/ga/fitness/base_fitness.py", "baumeva/binary_ga.py:BinaryGA.optimize"]}
{"id": "C92", "title": "Uniform crossover that keeps both children yields identical twins, mutated twice", "statement": "With num_offsprings other than 1, the two children of a uniform crossover hold one and the same list of genes. A bit-string, categorical, movement, swap or shift mutation therefore mutates the list of each pair twice, and both children end with the same, twice mutated genes: m pairs of parents give at most m different genotypes. A bit is inverted exactly when one of its two gates opens and the other does not; at a level at which every gate opens, the mutation changes nothing. Inversion gives each child a list of its own. The level of a bit-string mutation becomes a number as in C22, and on a population that is not binary it raises AttributeError. Scores, members, parents and the call log stay as they were, and no exception occurs for long enough permutations and pools with another value to choose.", "quantifier": "all parents, pools, levels, draws and numbers of children", "why_tests_cant": "the effect exists only for shared lists and looks like ordinary random variation", "anchors": ["baumeva/ga/crossovers/uniform_crossover.py:UniformCrossover.crossover", "baumeva/ga/crossovers/base_crossover.py:BaseCrossover.get_children", "baumeva/ga/mutations/bin_string_mutation.py", "baumeva/ga/mutations/inversion_mutation.py"]}
{"id": "C93", "title": "Filling a population again appends members and gene parameters", "statement": "A second fill of a population object appends max(num_individ, number of inputs) new members, made as by a first fill, behind the old ones; the old members keep everything but their numbers, and undecoded ones are decoded. The gene parameters are appended once more, so that after k fills they are the k-fold repetition of the first ones; coding and decoding are unchanged, while a bit-string mutation level given as text is divided by k times the number of bits. is_sorted stays set, so the next update of a single-criterion collector takes the last new member for the best and can miss a better one. No exception occurs where the first fill had none and the old members are decoded; on an empty population the operation is the ordinary fill.", "quantifier": "all population kinds, specifications, inputs, members, draws and numbers of earlier fills", "why_tests_cant": "the extra parameters are ignored by decoding and show only in the mutation rate; the stale flag shows only for some draws", "anchors": ["baumeva/ga/populations/binary_population.py:BinaryPopulation.fill", "baumeva/ga/populations/binary_population.py:BinaryPopulation.get_gens_params", "baumeva/ga/populations/cat_population.py:CatPopulation.fill", "baumeva/ga/ga_data.py:GaData.update"]}
{"id": "C94", "title": "A seeded run that repeats a population goes round for ever", "statement": "In a single-criterion run without conditions, with tournament, balanced or ranked selection, a fixed random seed and an objective depending on its argument only: if the population after generation j + p (j >= 1) holds the same dicts in the same order, shared in the same way, as the population after generation j, then generation j + p + i has the population of generation j + i for every i and the same points are evaluated on the way. If p >= 1, no generation raises an exception, no point is ever evaluated that was not evaluated in the first j + p generations, best_solution never changes after generation j, and num_generation_no_improve grows by one per generation. There is a categorical run that settles in this way after two generations and never evaluates the optimum.", "quantifier": "all numbers of generations, populations, component parameters, seeds, random generators, objectives and number types with an ordering", "why_tests_cant": "a test sees a bounded number of generations and cannot tell slow progress from none", "anchors": ["baumeva/ga/selections/base_selection.py:BaseSelection.execute", "baumeva/ga/crossovers/base_crossover.py:BaseCrossover.execute", "baumeva/binary_ga.py:BinaryGA.optimize", "baumeva/ga/ga_data.py:GaData.update"]}
{"id": "C95", "title": "A seeded run on a finite search space ends in a cycle within a computable number of generations", "statement": "In a single-criterion run without conditions, with tournament or balanced selection, a fixed random seed, an objective depending on its argument only, and operators belonging to the search space (bit strings, categorical or permutation): let D be the number of genotypes of the space, N a bound on the population size (one more than the larger of num_individ and the number of children) and B = 1 + a + ... + a^N with a = D (N + 1) N. If generation B + 1 is reached, two of the generations 1 to B + 1 have the same population (same dicts, shared in the same way), generation j + p + i has the population of generation j + i for every i from there on, no generation raises an exception, no point is evaluated after generation B + 1 that was not evaluated before, and best_solution does not change any more. So a run is either stopped by an exception or an endless loop within B + 1 generations, or never, and then it is periodic.", "quantifier": "all search spaces, population sizes, component parameters, seeds, random generators, objectives and number types with an ordering; any number of generations", "why_tests_cant": "the bound is astronomically larger than any run that can be made", "anchors": ["baumeva/ga/selections/base_selection.py:BaseSelection.execute", "baumeva/ga/populations/base_population.py:BasePopulation.reset_idx_individ", "baumeva/ga/new_generation.py:NewGeneration.execute", "baumeva/binary_ga.py:BinaryGA.optimize"]}
{"id": "C96", "title": "A multi-objective collector called again continues the same search and ranks its population once more", "statement": "A further call of CollectorGA.optimize with multi-objective components first ranks the current population again: n (n - 1) calls of the objective on the points of members, no individual and no rank changes, the population keeps its order, and the same front is appended to historical_best. Where every number equals itself best_solution stays and the counter grows by one. Then come up to num_generations - 1 generations, so a collector that stopped early makes one new generation per call unless that generation changes the front. After any number of calls the reported Pareto set is the non-dominated part of the current population, and with FFGA's transfer every member of the population after a call is matched or beaten by a member of the front after any later call.", "quantifier": "all numbers of calls, multi-objective components with a steady objective, populations, random streams and number types with an ordering", "why_tests_cant": "a test repeats optimize a few times on one task; the claim is about every number of calls and every stop in between", "anchors": ["baumeva/collector_ga.py:CollectorGA.optimize", "baumeva/ga/fitness/multi_fitness.py:MultiFitness.assign_ranks", "baumeva/ga/multi_ga_data.py:MultiGaData.update"]}
{"id": "C97", "title": "The printed report is complete, shows the right generations and pairs every point with its own values", "statement": "print_best_solution of a data object that has seen no generation prints three lines with generation index -1 and raises TypeError. After any single-objective run it prints the full report without exception: the index of the last generation, the first generation that reached the best score, the genotype, a phenotype line exactly for binary populations and then with the decoded genotype, the score, the objective score the objective returned on the shown point during the run (no call led to a higher score), and, with conditions, feasible region True exactly if the returned values meet all of them. After a multi-objective run with a non-empty population it prints the last generation, the generation since which the set has not changed (the counter is their difference) and the Pareto set of the current population as two lists of equal length whose j-th entries belong together. The ready-made classes print this when is_print is set and nothing otherwise; the exceptions of printing are those the run ends with. An empty Pareto set raises KeyError after three lines.", "quantifier": "all runs, generations, populations, objectives, conditions and number types with an ordering", "why_tests_cant": "the printed text is what users read; tests do not look at it, and a pairing or index error shows only for particular runs", "anchors": ["baumeva/ga/ga_data.py:GaData.print_best_solution", "baumeva/ga/multi_ga_data.py:MultiGaData.print_best_solution", "baumeva/ga/multi_ga_data.py:MultiGaData.print_list"]}
{"id": "C98", "title": "A CollectorGA built from a ready-made class's parts makes the same run, and printing does not influence the result", "statement": "CollectorGA with the components, storage and population parameters a ready-made class creates has, from every state, the same outcome as optimize of that class with is_print: the same data, the same draws and calls of the objective, the same exception. Switching is_print on changes nothing for one objective. For several objectives the printing run is the silent run followed by the report; the only possible difference is a KeyError at the very end, and it appears exactly when no front was ever recorded (an empty population) or a member of the recorded front has no phenotype. On binary populations, so in VEGA and FFGA, it appears exactly when every front of the run was empty.", "quantifier": "all configurations, populations, components, states, objectives and number types", "why_tests_cant": "the loop is written six times in the code; that the copies agree in every draw, on every exception and with printing on or off cannot be sampled", "anchors": ["baumeva/collector_ga.py:CollectorGA.optimize", "baumeva/collector_ga.py:CollectorGA.set_population", "baumeva/binary_ga.py:BinaryGA.optimize", "baumeva/vega.py:VEGA.optimize", "baumeva/ffga.py:FFGA.optimize"]}
{"id": "C99", "title": "FFGA depends only on the dominance between objective values: order, repetition and superfluous criteria do not matter", "statement": "Two objectives with tuples of fixed (possibly different) lengths that fail alike and agree, for any two results, on whether the first is nowhere larger than the second, make an unpenalised FFGA run the same from the same state; in particular a further criterion that never decreases when none of the others does (a sum, a maximum, a constant) is superfluous. Let the objective return tuples of n criteria, and let a second objective list the same criteria in another order, or some of them several times (every criterion at least once). Without penalties, FFGA makes the same run with both, from the same state: the same points, scores and ranks in the population, the parents, the children and every recorded front, the same calls and draws, the same generation and counter, the same exception; the objective values stored in the population and in the result are the rearranged ones. This is false for VEGA: there is a run in which swapping two criteria changes the recorded fronts.", "quantifier": "all configurations without penalties, genes, orders, objectives (also ones with state or exceptions), numbers of criteria and states; number type Q", "why_tests_cant": "the order of the criteria enters every comparison of two individuals in every generation; a test compares a few runs", "anchors": ["baumeva/ga/fitness/multi_fitness.py:MultiFitness.inferior", "baumeva/ga/fitness/ffga_fitness.py:FFGAFitness.get_fitness_score", "baumeva/ffga.py:FFGA.optimize", "baumeva/ga/selections/vega_tournament_selection.py:VEGATournamentSelection.tournament"]}
