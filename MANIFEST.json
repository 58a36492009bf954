{
 "claims": [
  {
   "property": "C01",
   "status": "proved",
   "theorems": [
    "C01_bit_allocation"
   ],
   "note": ""
  },
  {
   "property": "C02",
   "status": "proved",
   "theorems": [
    "C02_index_to_binary",
    "C02_injective"
   ],
   "note": ""
  },
  {
   "property": "C03",
   "status": "proved",
   "theorems": [
    "C03_gray"
   ],
   "note": ""
  },
  {
   "property": "C04",
   "status": "proved",
   "theorems": [
    "C04_round_trip",
    "C04_double"
   ],
   "note": ""
  },
  {
   "property": "C05",
   "status": "proved",
   "theorems": [
    "C05_decode_in_bounds",
    "C05_bounds_on_grid",
    "C05_double",
    "C05_double_exceeds"
   ],
   "note": ""
  },
  {
   "property": "C06",
   "status": "proved",
   "theorems": [
    "C06_input_checked",
    "C06_double"
   ],
   "note": ""
  },
  {
   "property": "C07",
   "status": "proved",
   "theorems": [
    "C07_precision",
    "C07_coarser_refuted"
   ],
   "note": ""
  },
  {
   "property": "C08",
   "status": "proved",
   "theorems": [
    "C08_unusable_rejected",
    "C08_reversed_decodes_outside",
    "C08_reversed_input_rejected",
    "C08_double"
   ],
   "note": ""
  },
  {
   "property": "C09",
   "status": "proved",
   "theorems": [
    "C09_set_params",
    "C09_fill",
    "C09_copied",
    "C09_coded",
    "C09_never_raises"
   ],
   "note": ""
  },
  {
   "property": "C10",
   "status": "proved",
   "theorems": [
    "C10_categorical",
    "C10_ordered",
    "C10_binary",
    "C10_unusable"
   ],
   "note": ""
  },
  {
   "property": "C11",
   "status": "proved",
   "theorems": [
    "C11_one_point",
    "C11_too_short",
    "C11_inheritance"
   ],
   "note": ""
  },
  {
   "property": "C12",
   "status": "proved",
   "theorems": [
    "C12_two_point",
    "C12_too_short",
    "C12_inheritance"
   ],
   "note": ""
  },
  {
   "property": "C13",
   "status": "proved",
   "theorems": [
    "C13_uniform",
    "C13_short_parent"
   ],
   "note": ""
  },
  {
   "property": "C14",
   "status": "proved",
   "theorems": [
    "C14_order",
    "C14_tours",
    "C14_too_short"
   ],
   "note": ""
  },
  {
   "property": "C15",
   "status": "proved",
   "theorems": [
    "C15_children",
    "C15_no_exception"
   ],
   "note": ""
  },
  {
   "property": "C16",
   "status": "proved",
   "theorems": [
    "C16_permutes",
    "C16_execute"
   ],
   "note": ""
  },
  {
   "property": "C17",
   "status": "proved",
   "theorems": [
    "C17_movement",
    "C17_swap",
    "C17_inversion",
    "C17_shift",
    "C17_too_short"
   ],
   "note": ""
  },
  {
   "property": "C18",
   "status": "proved",
   "theorems": [
    "C18_changes"
   ],
   "note": ""
  },
  {
   "property": "C19",
   "status": "proved",
   "theorems": [
    "C19_draws_decide",
    "C19_every_subset",
    "C19_only_children"
   ],
   "note": ""
  },
  {
   "property": "C20",
   "status": "proved",
   "theorems": [
    "C20_domain",
    "C20_list_values",
    "C20_range_values",
    "C20_single_valued",
    "C20_all_equal_raises",
    "C20_raises",
    "C20_too_long",
    "C20_only_children"
   ],
   "note": ""
  },
  {
   "property": "C21",
   "status": "proved",
   "theorems": [
    "C21_probability",
    "C21_level_one",
    "C21_level_zero"
   ],
   "note": ""
  },
  {
   "property": "C22",
   "status": "proved",
   "theorems": [
    "C22_combinatory",
    "C22_bit_string",
    "C22_bit_string_execute",
    "C22_categorical",
    "C22_categorical_ga_cannot_run"
   ],
   "note": ""
  },
  {
   "property": "C23",
   "status": "proved",
   "theorems": [
    "C23_pairs",
    "C23_sizes"
   ],
   "note": ""
  },
  {
   "property": "C24",
   "status": "proved",
   "theorems": [
    "C24_selected",
    "C24_worst_never",
    "C24_can_be"
   ],
   "note": ""
  },
  {
   "property": "C25",
   "status": "proved",
   "theorems": [
    "C25_frame"
   ],
   "note": ""
  },
  {
   "property": "C26",
   "status": "proved",
   "theorems": [
    "C26_can_finish",
    "C26_can_always_finish_pair",
    "C26_hangs",
    "C26_hang_reachable"
   ],
   "note": ""
  },
  {
   "property": "C27",
   "status": "proved",
   "theorems": [
    "C27_roulette",
    "C27_intervals",
    "C27_operator",
    "C27_float_index_error"
   ],
   "note": ""
  },
  {
   "property": "C28",
   "status": "proved",
   "theorems": [
    "C28_negative",
    "C28_zero_sum",
    "C28_zero_sum_execute",
    "C28_zero_score"
   ],
   "note": ""
  },
  {
   "property": "C29",
   "status": "proved",
   "theorems": [
    "C29_midranks",
    "C29_operator",
    "C29_minus_one"
   ],
   "note": ""
  },
  {
   "property": "C30",
   "status": "proved",
   "theorems": [
    "C30_tournament_blocks",
    "C30_balanced_last",
    "C30_ranked_last"
   ],
   "note": ""
  },
  {
   "property": "C31",
   "status": "proved",
   "theorems": [
    "C31_size",
    "C31_no_children"
   ],
   "note": ""
  },
  {
   "property": "C32",
   "status": "proved",
   "theorems": [
    "C32_elitism"
   ],
   "note": ""
  },
  {
   "property": "C33",
   "status": "proved",
   "theorems": [
    "C33_best",
    "C33_any_replacement"
   ],
   "note": ""
  },
  {
   "property": "C34",
   "status": "proved",
   "theorems": [
    "C34_validation",
    "C34_random",
    "C34_no_children"
   ],
   "note": ""
  },
  {
   "property": "C35",
   "status": "proved",
   "theorems": [
    "C35_update",
    "C35_total"
   ],
   "note": ""
  },
  {
   "property": "C36",
   "status": "proved",
   "theorems": [
    "C36_best_never_decreases",
    "C36_optimize",
    "C36_double"
   ],
   "note": ""
  },
  {
   "property": "C37",
   "status": "proved",
   "theorems": [
    "C37_best_of_all",
    "C37_best_point",
    "C37_double"
   ],
   "note": ""
  },
  {
   "property": "C38",
   "status": "proved",
   "theorems": [
    "C38_counter",
    "C38_run"
   ],
   "note": ""
  },
  {
   "property": "C39",
   "status": "proved",
   "theorems": [
    "C39_stopping",
    "C39_collector_none",
    "C39_none_never_stops"
   ],
   "note": ""
  },
  {
   "property": "C40",
   "status": "proved",
   "theorems": [
    "C40_immutable"
   ],
   "note": ""
  },
  {
   "property": "C41",
   "status": "proved",
   "theorems": [
    "C41_range",
    "C41_decreasing",
    "C41_no_target",
    "C41_vega",
    "C41_double_range",
    "C41_double_monotone",
    "C41_double_no_target",
    "C41_double_off_target",
    "C41_double_overflow"
   ],
   "note": ""
  },
  {
   "property": "C42",
   "status": "proved",
   "theorems": [
    "C42_evaluation",
    "C42_run",
    "C42_meaning",
    "C42_double_meaning"
   ],
   "note": ""
  },
  {
   "property": "C43",
   "status": "proved",
   "theorems": [
    "C43_run_calls",
    "C43_run_count",
    "C43_pass",
    "C43_optimize_count"
   ],
   "note": ""
  },
  {
   "property": "C44",
   "status": "proved",
   "theorems": [
    "C44_run",
    "C44_binary",
    "C44_combinatory",
    "C44_categorical",
    "C44_input_unchecked_refuted"
   ],
   "note": ""
  },
  {
   "property": "C45",
   "status": "proved",
   "theorems": [
    "C45_binary",
    "C45_combinatory",
    "C45_categorical"
   ],
   "note": ""
  },
  {
   "property": "C46",
   "status": "proved",
   "theorems": [
    "C46_plain",
    "C46_conditional"
   ],
   "note": ""
  },
  {
   "property": "C47",
   "status": "proved",
   "theorems": [
    "C47_removed",
    "C47_multi",
    "C47_second_run"
   ],
   "note": ""
  },
  {
   "property": "C48",
   "status": "proved",
   "theorems": [
    "C48_evaluation",
    "C48_run",
    "C48_mismatch_run",
    "C48_ranking",
    "C48_ranking_two_args"
   ],
   "note": ""
  },
  {
   "property": "C49",
   "status": "proved",
   "theorems": [
    "C49_value",
    "C49_natural",
    "C49_rejected",
    "C49_sign",
    "C49_monotone",
    "C49_excess_order",
    "C49_overflow",
    "C49_raises"
   ],
   "note": ""
  },
  {
   "property": "C50",
   "status": "proved",
   "theorems": [
    "C50_constructor",
    "C50_value",
    "C50_rejected",
    "C50_stronger",
    "C50_overflow"
   ],
   "note": ""
  },
  {
   "property": "C51",
   "status": "proved",
   "theorems": [
    "C51_constructor",
    "C51_raises",
    "C51_inequality_raises",
    "C51_equality_raises",
    "C51_value",
    "C51_equality_free"
   ],
   "note": ""
  },
  {
   "property": "C52",
   "status": "proved",
   "theorems": [
    "C52_birth",
    "C52_first_generation"
   ],
   "note": ""
  },
  {
   "property": "C53",
   "status": "proved",
   "theorems": [
    "C53_ranks",
    "C53_multiplicity",
    "C53_calls",
    "C53_first_front",
    "C53_strict_order",
    "C53_exact"
   ],
   "note": ""
  },
  {
   "property": "C54",
   "status": "proved",
   "theorems": [
    "C54_update",
    "C54_pareto_set",
    "C54_counter",
    "C54_reported",
    "C54_double"
   ],
   "note": ""
  },
  {
   "property": "C55",
   "status": "proved",
   "theorems": [
    "C55_population",
    "C55_elitism",
    "C55_random",
    "C55_double"
   ],
   "note": ""
  },
  {
   "property": "C56",
   "status": "proved",
   "theorems": [
    "C56_scores",
    "C56_first",
    "C56_exact",
    "C56_bound",
    "C56_stale_score"
   ],
   "note": ""
  },
  {
   "property": "C57",
   "status": "proved",
   "theorems": [
    "C57_conditional",
    "C57_plain"
   ],
   "note": ""
  },
  {
   "property": "C58",
   "status": "proved",
   "theorems": [
    "C58_reproducible",
    "C58_collector"
   ],
   "note": ""
  },
  {
   "property": "C59",
   "status": "proved",
   "theorems": [
    "C59_selection",
    "C59_crossover",
    "C59_generation",
    "C59_positions",
    "C59_sorted_positions"
   ],
   "note": ""
  },
  {
   "property": "C60",
   "status": "proved",
   "theorems": [
    "C60_rank_is_position",
    "C60_runs",
    "C60_vega_roulette",
    "C60_positions"
   ],
   "note": ""
  },
  {
   "property": "C61",
   "status": "proved",
   "theorems": [
    "C61_order_only",
    "C61_optimize",
    "C61_increasing",
    "C61_distance",
    "C61_vega",
    "C61_ffga",
    "C61_components"
   ],
   "note": ""
  },
  {
   "property": "C62",
   "status": "proved",
   "theorems": [
    "C62_no_history",
    "C62_reproducible"
   ],
   "note": ""
  },
  {
   "property": "C63",
   "status": "proved",
   "theorems": [
    "C63_run",
    "C63_combinatory",
    "C63_unexplored"
   ],
   "note": ""
  },
  {
   "property": "C64",
   "status": "proved",
   "theorems": [
    "C64_bound",
    "C64_one_result",
    "C64_collector",
    "C64_second_parent"
   ],
   "note": ""
  },
  {
   "property": "C65",
   "status": "proved",
   "theorems": [
    "C65_calls",
    "C65_further_call",
    "C65_stopped"
   ],
   "note": ""
  },
  {
   "property": "C66",
   "status": "proved",
   "theorems": [
    "C66_binary",
    "C66_categorical",
    "C66_strong_refuted"
   ],
   "note": ""
  },
  {
   "property": "C67",
   "status": "proved",
   "theorems": [
    "C67_binary",
    "C67_combinatory",
    "C67_categorical"
   ],
   "note": ""
  },
  {
   "property": "C68",
   "status": "proved",
   "theorems": [
    "C68_vega",
    "C68_ffga"
   ],
   "note": ""
  },
  {
   "property": "C69",
   "status": "proved",
   "theorems": [
    "C69_run",
    "C69_ffga",
    "C69_vega"
   ],
   "note": ""
  },
  {
   "property": "C70",
   "status": "proved",
   "theorems": [
    "C70_binary_calls",
    "C70_binary_safe",
    "C70_combinatory_calls",
    "C70_combinatory_safe",
    "C70_categorical_calls",
    "C70_categorical_safe"
   ],
   "note": ""
  },
  {
   "property": "C71",
   "status": "proved",
   "theorems": [
    "C71_average",
    "C71_between",
    "C71_run"
   ],
   "note": ""
  },
  {
   "property": "C72",
   "status": "proved",
   "theorems": [
    "C72_front",
    "C72_ffga",
    "C72_vega_refuted"
   ],
   "note": ""
  },
  {
   "property": "C73",
   "status": "proved",
   "theorems": [
    "C73_unique",
    "C73_share",
    "C73_binary",
    "C73_ordered",
    "C73_categorical",
    "C73_one_point",
    "C73_two_point",
    "C73_order",
    "C73_uniform",
    "C73_child",
    "C73_swap",
    "C73_inversion",
    "C73_movement",
    "C73_shift"
   ],
   "note": ""
  },
  {
   "property": "C74",
   "status": "proved",
   "theorems": [
    "C74_tournament_key",
    "C74_tournament_member",
    "C74_tournament_best",
    "C74_tournament_order",
    "C74_roulette"
   ],
   "note": ""
  },
  {
   "property": "C75",
   "status": "proved",
   "theorems": [
    "C75_second_parent",
    "C75_ends",
    "C75_second_index",
    "C75_roulette"
   ],
   "note": ""
  },
  {
   "property": "C76",
   "status": "proved",
   "theorems": [
    "C76_gate",
    "C76_bits",
    "C76_flips",
    "C76_category",
    "C76_categorical",
    "C76_permutation",
    "C76_level",
    "C76_normal"
   ],
   "note": ""
  },
  {
   "property": "C77",
   "status": "proved",
   "theorems": [
    "C77_rules",
    "C77_penalty"
   ],
   "note": ""
  },
  {
   "property": "C78",
   "status": "proved",
   "theorems": [
    "C78_not_a_bit",
    "C78_ranking",
    "C78_scalar_objective",
    "C78_vega_tournament",
    "C78_vega_weight",
    "C78_print",
    "C78_empty",
    "C78_no_phenotype",
    "C78_multi_categorical",
    "C78_missing_entry",
    "C78_swap",
    "C78_more_objectives",
    "C78_vega_target",
    "C78_proportional",
    "C78_odd_parents",
    "C78_no_rank",
    "C78_tournament_position",
    "C78_component_rank",
    "C78_extra_genes",
    "C78_length"
   ],
   "note": ""
  },
  {
   "property": "C79",
   "status": "proved",
   "theorems": [
    "C79_selection",
    "C79_crossover",
    "C79_new_generation",
    "C79_update",
    "C79_step",
    "C79_loop"
   ],
   "note": ""
  },
  {
   "property": "C80",
   "status": "proved",
   "theorems": [
    "C80_sort",
    "C80_unique",
    "C80_missing",
    "C80_mixed",
    "C80_short"
   ],
   "note": ""
  },
  {
   "property": "C81",
   "status": "proved",
   "theorems": [
    "C81_twins",
    "C81_children",
    "C81_no_exception",
    "C81_complementary"
   ],
   "note": ""
  },
  {
   "property": "C82",
   "status": "proved",
   "theorems": [
    "C82_binary",
    "C82_binary_ends",
    "C82_categorical",
    "C82_categorical_ends",
    "C82_binary_best",
    "C82_categorical_best",
    "C82_binary_limit",
    "C82_categorical_limit",
    "C82_probability"
   ],
   "note": ""
  },
  {
   "property": "C83",
   "status": "proved",
   "theorems": [
    "C83_binary",
    "C83_categorical",
    "C83_combinatory",
    "C83_binary_almost_surely",
    "C83_categorical_almost_surely",
    "C83_combinatory_almost_surely",
    "C83_twins_refuted",
    "C83_larger_bound"
   ],
   "note": ""
  },
  {
   "property": "C84",
   "status": "proved",
   "theorems": [
    "C84_combinatory",
    "C84_no_convergence",
    "C84_missing_element",
    "C84_convergence_refuted"
   ],
   "note": ""
  },
  {
   "property": "C85",
   "status": "proved",
   "theorems": [
    "C85_ffga",
    "C85_vega",
    "C85_ffga_front",
    "C85_ffga_ends",
    "C85_ffga_front_ends",
    "C85_ffga_covers",
    "C85_ffga_covers_ends",
    "C85_ffga_limit"
   ],
   "note": ""
  },
  {
   "property": "C86",
   "status": "proved",
   "theorems": [
    "C86_combinatory",
    "C86_chance_positive",
    "C86_combinatory_ends",
    "C86_combinatory_best",
    "C86_combinatory_limit"
   ],
   "note": ""
  },
  {
   "property": "C87",
   "status": "proved",
   "theorems": [
    "C87_binary",
    "C87_categorical",
    "C87_combinatory",
    "C87_ends",
    "C87_binary_best",
    "C87_categorical_best",
    "C87_combinatory_best",
    "C87_binary_limit",
    "C87_binary_near",
    "C87_categorical_limit",
    "C87_combinatory_limit"
   ],
   "note": ""
  },
  {
   "property": "C88",
   "status": "proved",
   "theorems": [
    "C88_binary",
    "C88_combinatory",
    "C88_categorical",
    "C88_ffga",
    "C88_vega",
    "C88_accepted",
    "C88_vega_accepted"
   ],
   "note": ""
  },
  {
   "property": "C89",
   "status": "proved",
   "theorems": [
    "C89_roulette",
    "C89_vega_safe",
    "C89_ffga_only",
    "C89_selection",
    "C89_ffga_calls",
    "C89_vega_calls",
    "C89_ffga_refuted"
   ],
   "note": ""
  },
  {
   "property": "C90",
   "status": "proved",
   "theorems": [
    "C90_same_run",
    "C90_dynamic"
   ],
   "note": ""
  },
  {
   "property": "C91",
   "status": "proved",
   "theorems": [
    "C91_binary_calls",
    "C91_binary_safe",
    "C91_combinatory_calls",
    "C91_combinatory_safe",
    "C91_categorical_calls",
    "C91_categorical_safe"
   ],
   "note": ""
  },
  {
   "property": "C92",
   "status": "proved",
   "theorems": [
    "C92_twice",
    "C92_inversion",
    "C92_full_level",
    "C92_draws",
    "C92_no_exception",
    "C92_level",
    "C92_pairs"
   ],
   "note": ""
  },
  {
   "property": "C93",
   "status": "proved",
   "theorems": [
    "C93_parameters",
    "C93_decoding",
    "C93_coding",
    "C93_fill_more",
    "C93_never_raises",
    "C93_first",
    "C93_level",
    "C93_stale"
   ],
   "note": ""
  },
  {
   "property": "C94",
   "status": "proved",
   "theorems": [
    "C94_cycle",
    "C94_never_ends",
    "C94_no_new_points",
    "C94_no_improvement",
    "C94_stuck"
   ],
   "note": ""
  },
  {
   "property": "C95",
   "status": "proved",
   "theorems": [
    "C95_repeats",
    "C95_periodic",
    "C95_never_fails",
    "C95_enough",
    "C95_decided",
    "C95_collector",
    "C95_case"
   ],
   "note": ""
  },
  {
   "property": "C96",
   "status": "proved",
   "theorems": [
    "C96_calls",
    "C96_further_call",
    "C96_repeated",
    "C96_stopped",
    "C96_elitism"
   ],
   "note": ""
  },
  {
   "property": "C97",
   "status": "proved",
   "theorems": [
    "C97_exception",
    "C97_before",
    "C97_single",
    "C97_conditional",
    "C97_multi",
    "C97_kept",
    "C97_broken",
    "C97_ready"
   ],
   "note": ""
  },
  {
   "property": "C98",
   "status": "proved",
   "theorems": [
    "C98_same",
    "C98_quiet",
    "C98_single",
    "C98_multi",
    "C98_fronts",
    "C98_optimize"
   ],
   "note": ""
  },
  {
   "property": "C99",
   "status": "proved",
   "theorems": [
    "C99_ffga",
    "C99_recorded",
    "C99_order",
    "C99_repeated",
    "C99_dominance",
    "C99_superfluous",
    "C99_vega_refuted"
   ],
   "note": ""
  }
 ]
}