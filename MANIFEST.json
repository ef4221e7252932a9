{
 "claims": [
  {
   "property": "C01",
   "status": "proved",
   "theorems": [
    "c01_intersection_is_cell_count",
    "c01_cell_count_unique",
    "c01_area_is_cell_count_iff",
    "c01_generic_code_at_u32"
   ],
   "note": "Proved for all inputs of the model."
  },
  {
   "property": "C02",
   "status": "proved",
   "theorems": [
    "c02_union_is_cell_count"
   ],
   "note": "Proved for all inputs of the model."
  },
  {
   "property": "C03",
   "status": "proved",
   "theorems": [
    "c03_intersection_symmetric",
    "c03_other_document",
    "c03_bounds"
   ],
   "note": "Proved for all inputs of the model."
  },
  {
   "property": "C04",
   "status": "proved",
   "theorems": [
    "c04_area_refuted",
    "c04_intersection_refuted",
    "c04_overflow_intersects_nothing"
   ],
   "note": "Refuted in part: see c04_area_refuted, c04_intersection_refuted."
  },
  {
   "property": "C05",
   "status": "proved",
   "theorems": [
    "c05_signed_intersection",
    "c05_signed_undefined_iff",
    "c05_negative_size"
   ],
   "note": "Proved for all inputs of the model."
  },
  {
   "property": "C06",
   "status": "proved",
   "theorems": [
    "c06_box_total_order",
    "c06_box_lexicographic",
    "c06_string_total_order",
    "c06_string_lexicographic",
    "c06_docbox_total_order",
    "c06_docbox_lexicographic",
    "c06_event_total_order",
    "c06_event_lexicographic",
    "c06_derived_operators",
    "c06_sort_deterministic",
    "c06_contract_satisfiable"
   ],
   "note": "Proved for all inputs of the model."
  },
  {
   "property": "C07",
   "status": "proved",
   "theorems": [
    "c07_scored_strict_weak_order",
    "c07_scored_order",
    "c07_scored_ties",
    "c07_scored_operators",
    "c07_nan_breaks_order"
   ],
   "note": "Proved for all inputs of the model."
  },
  {
   "property": "C08",
   "status": "proved",
   "theorems": [
    "c08_scored_le_refuted",
    "c08_scored_le_right_iff_equal"
   ],
   "note": "Refuted in part: see c08_scored_le_refuted."
  },
  {
   "property": "C09",
   "status": "proved",
   "theorems": [
    "c09_generic_size",
    "c09_generic_find",
    "c09_generic_range"
   ],
   "note": "Proved for all inputs of the model."
  },
  {
   "property": "C10",
   "status": "proved",
   "theorems": [
    "c10_docbox_size",
    "c10_docbox_membership"
   ],
   "note": "Proved for all inputs of the model."
  },
  {
   "property": "C11",
   "status": "proved",
   "theorems": [
    "c11_find_overlapping",
    "c11_order_determines"
   ],
   "note": "Proved for all inputs of the model."
  },
  {
   "property": "C12",
   "status": "proved",
   "theorems": [
    "c12_range_size_undefined",
    "c12_range_size_refuted"
   ],
   "note": "Refuted in part: see c12_range_size_refuted."
  },
  {
   "property": "C13",
   "status": "proved",
   "theorems": [
    "c13_programs_run",
    "c13_live_has_value",
    "c13_copy_construct",
    "c13_assign_other",
    "c13_move_assign",
    "c13_self_assign_loses",
    "c13_assign_leaks",
    "c13_leaks_forever",
    "c13_no_leak_without_assign",
    "c13_self_assign_refuted"
   ],
   "note": "Refuted in part: see c13_self_assign_refuted."
  },
  {
   "property": "C14",
   "status": "proved",
   "theorems": [
    "c14_match_eq_equivalence",
    "c14_match_ne_never_returns",
    "c14_match_ne_refuted"
   ],
   "note": "Refuted in part: see c14_match_ne_refuted."
  },
  {
   "property": "C15",
   "status": "proved",
   "theorems": [
    "c15_outcomes",
    "c15_accepted_is_one_reference",
    "c15_nh_zero",
    "c15_nr_zero",
    "c15_never_both_zero",
    "c15_at_most_one"
   ],
   "note": "Proved for all inputs of the model."
  },
  {
   "property": "C16",
   "status": "proved",
   "theorems": [
    "c16_half_is_accepted",
    "c16_other_query_rejected",
    "c16_empty_rejected",
    "c16_exact_rule",
    "c16_any_threshold",
    "c16_rounding_bound",
    "c16_large_areas_refuted"
   ],
   "note": "Refuted in part: see c16_large_areas_refuted."
  },
  {
   "property": "C17",
   "status": "proved",
   "theorems": [
    "c17_any_threshold",
    "c17_half",
    "c17_symmetric"
   ],
   "note": "Proved for all inputs of the model."
  },
  {
   "property": "C18",
   "status": "proved",
   "theorems": [
    "c18_fractions",
    "c18_other_query",
    "c18_nothing_shared",
    "c18_identical",
    "c18_exact_extremes",
    "c18_counts",
    "c18_counts_refuted"
   ],
   "note": "Refuted in part: see c18_counts_refuted."
  },
  {
   "property": "C19",
   "status": "proved",
   "theorems": [
    "c19_equality"
   ],
   "note": "Proved for all inputs of the model."
  },
  {
   "property": "C20",
   "status": "proved",
   "theorems": [
    "c20_generic_set_searches",
    "c20_box_set_searches",
    "c20_pairs",
    "c20_reference_once",
    "c20_hypothesis_once"
   ],
   "note": "Proved for all inputs of the model."
  },
  {
   "property": "C21",
   "status": "proved",
   "theorems": [
    "c21_references"
   ],
   "note": "Proved for all inputs of the model."
  },
  {
   "property": "C22",
   "status": "proved",
   "theorems": [
    "c22_greedy",
    "c22_each_hypothesis"
   ],
   "note": "Proved for all inputs of the model."
  },
  {
   "property": "C23",
   "status": "proved",
   "theorems": [
    "c23_reference_count",
    "c23_hypothesis_count"
   ],
   "note": "Proved for all inputs of the model."
  },
  {
   "property": "C24",
   "status": "proved",
   "theorems": [
    "c24_first_free",
    "c24_largest_overlap"
   ],
   "note": "Proved for all inputs of the model."
  },
  {
   "property": "C25",
   "status": "proved",
   "theorems": [
    "c25_reuse"
   ],
   "note": "Proved for all inputs of the model."
  },
  {
   "property": "C26",
   "status": "proved",
   "theorems": [
    "c26_reference_order"
   ],
   "note": "Proved for all inputs of the model."
  },
  {
   "property": "C27",
   "status": "proved",
   "theorems": [
    "c27_prefix_stable"
   ],
   "note": "Proved for all inputs of the model."
  },
  {
   "property": "C28",
   "status": "proved",
   "theorems": [
    "c28_log"
   ],
   "note": "Proved for all inputs of the model."
  },
  {
   "property": "C29",
   "status": "proved",
   "theorems": [
    "c29_groups",
    "c29_partition",
    "c29_no_event"
   ],
   "note": "Proved for all inputs of the model."
  },
  {
   "property": "C30",
   "status": "proved",
   "theorems": [
    "c30_points",
    "c30_totals",
    "c30_distinct"
   ],
   "note": "Proved for all inputs of the model."
  },
  {
   "property": "C31",
   "status": "proved",
   "theorems": [
    "c31_points",
    "c31_metrics",
    "c31_no_collapse_refuted"
   ],
   "note": "Refuted in part: see c31_no_collapse_refuted."
  },
  {
   "property": "C32",
   "status": "proved",
   "theorems": [
    "c32_values",
    "c32_bounds"
   ],
   "note": "Proved for all inputs of the model."
  },
  {
   "property": "C33",
   "status": "proved",
   "theorems": [
    "c33_interpolation"
   ],
   "note": "Proved for all inputs of the model."
  },
  {
   "property": "C34",
   "status": "proved",
   "theorems": [
    "c34_area",
    "c34_bounds",
    "c34_lengths"
   ],
   "note": "Proved for all inputs of the model."
  },
  {
   "property": "C35",
   "status": "proved",
   "theorems": [
    "c35_textbook"
   ],
   "note": "Proved for all inputs of the model."
  },
  {
   "property": "C36",
   "status": "proved",
   "theorems": [
    "c36_agree",
    "c36_soft_refuted"
   ],
   "note": "Refuted in part: see c36_soft_refuted."
  },
  {
   "property": "C37",
   "status": "proved",
   "theorems": [
    "c37_perfect"
   ],
   "note": "Proved for all inputs of the model."
  },
  {
   "property": "C38",
   "status": "proved",
   "theorems": [
    "c38_no_refs",
    "c38_no_hits",
    "c38_long_run_refuted",
    "c38_ndcg_no_refs",
    "c38_ndcg_no_hyps",
    "c38_ndcg_no_hits"
   ],
   "note": "Refuted in part: see c38_long_run_refuted."
  },
  {
   "property": "C39",
   "status": "proved",
   "theorems": [
    "c39_textbook",
    "c39_bounds",
    "c39_bounds_collapsed",
    "c39_perfect",
    "c39_pure_ties"
   ],
   "note": "Proved for all inputs of the model."
  },
  {
   "property": "C40",
   "status": "proved",
   "theorems": [
    "c40_mean_ap",
    "c40_mean_ndcg",
    "c40_between",
    "c40_unique",
    "c40_no_groups",
    "c40_ap_order",
    "c40_ndcg_order",
    "c40_map_01"
   ],
   "note": "Proved for all inputs of the model."
  },
  {
   "property": "C41",
   "status": "proved",
   "theorems": [
    "c41_metrics",
    "c41_pipeline"
   ],
   "note": "Proved for all inputs of the model."
  },
  {
   "property": "C42",
   "status": "proved",
   "theorems": [
    "c42_sample",
    "c42_line",
    "c42_range",
    "c42_hits",
    "c42_best",
    "c42_order_refuted"
   ],
   "note": "Refuted in part: see c42_order_refuted."
  },
  {
   "property": "C43",
   "status": "proved",
   "theorems": [
    "c43_even",
    "c43_increasing",
    "c43_ends"
   ],
   "note": "Proved for all inputs of the model."
  },
  {
   "property": "C44",
   "status": "proved",
   "theorems": [
    "c44_mean_curve",
    "c44_bounds",
    "c44_no_groups_refuted"
   ],
   "note": "Refuted in part: see c44_no_groups_refuted."
  },
  {
   "property": "C45",
   "status": "proved",
   "theorems": [
    "c45_comparator",
    "c45_sort",
    "c45_matcher",
    "c45_nan_refuted"
   ],
   "note": "Refuted in part: see c45_nan_refuted."
  },
  {
   "property": "C46",
   "status": "proved",
   "theorems": [
    "c46_bounds",
    "c46_error"
   ],
   "note": "Proved for all inputs of the model."
  },
  {
   "property": "C47",
   "status": "proved",
   "theorems": [
    "c47_error",
    "c47_mean_error",
    "c47_at_most_one_refuted",
    "c47_perfect_is_one_refuted"
   ],
   "note": "Refuted in part: see c47_at_most_one_refuted, c47_perfect_is_one_refuted."
  },
  {
   "property": "C48",
   "status": "proved",
   "theorems": [
    "c48_sound",
    "c48_complete",
    "c48_draws"
   ],
   "note": "Proved for all inputs of the model."
  },
  {
   "property": "C49",
   "status": "proved",
   "theorems": [
    "c49_shape",
    "c49_size_refuted",
    "c49_hits_refuted"
   ],
   "note": "Refuted in part: see c49_size_refuted, c49_hits_refuted."
  },
  {
   "property": "C50",
   "status": "proved",
   "theorems": [
    "c50_definition",
    "c50_indices",
    "c50_safe",
    "c50_unsafe",
    "c50_order"
   ],
   "note": "Proved for all inputs of the model."
  },
  {
   "property": "C51",
   "status": "proved",
   "theorems": [
    "c51_same",
    "c51_ascending_refuted",
    "c51_no_collapse_refuted"
   ],
   "note": "Refuted in part: see c51_ascending_refuted, c51_no_collapse_refuted."
  },
  {
   "property": "C52",
   "status": "proved",
   "theorems": [
    "c52_answers",
    "c52_seen",
    "c52_faithful"
   ],
   "note": "Proved for all inputs of the model."
  },
  {
   "property": "C53",
   "status": "proved",
   "theorems": [
    "c53_capacity_refuted"
   ],
   "note": "Refuted in part: see c53_capacity_refuted."
  },
  {
   "property": "C54",
   "status": "proved",
   "theorems": [
    "c54_given_table",
    "c54_necessary",
    "c54_given_table_refuted"
   ],
   "note": "Refuted in part: see c54_given_table_refuted."
  },
  {
   "property": "C55",
   "status": "proved",
   "theorems": [
    "c55_runs",
    "c55_no_leak",
    "c55_assign_refuted",
    "c55_copy_outlives_refuted"
   ],
   "note": "Refuted in part: see c55_assign_refuted, c55_copy_outlives_refuted."
  },
  {
   "property": "C56",
   "status": "proved",
   "theorems": [
    "c56_numbering",
    "c56_equal",
    "c56_total"
   ],
   "note": "Proved for all inputs of the model."
  },
  {
   "property": "C57",
   "status": "proved",
   "theorems": [
    "c57_shaped",
    "c57_strings",
    "c57_necessary"
   ],
   "note": "Proved for all inputs of the model."
  },
  {
   "property": "C58",
   "status": "proved",
   "theorems": [
    "c58_layout",
    "c58_last_newline"
   ],
   "note": "Proved for all inputs of the model."
  },
  {
   "property": "C59",
   "status": "proved",
   "theorems": [
    "c59_result",
    "c59_every_file",
    "c59_success",
    "c59_unopened_refuted"
   ],
   "note": "Refuted in part: see c59_unopened_refuted."
  },
  {
   "property": "C60",
   "status": "proved",
   "theorems": [
    "c60_value",
    "c60_monotone",
    "c60_too_large",
    "c60_events"
   ],
   "note": "Proved for all inputs of the model."
  },
  {
   "property": "C61",
   "status": "proved",
   "theorems": [
    "c61_hash_refuted",
    "c61_hash_strings_refuted"
   ],
   "note": "Refuted in part: see c61_hash_refuted, c61_hash_strings_refuted."
  },
  {
   "property": "C62",
   "status": "proved",
   "theorems": [
    "c62_grammar",
    "c62_missing",
    "c62_too_many",
    "c62_bad_positional",
    "c62_value",
    "c62_order"
   ],
   "note": "Proved for all inputs of the model."
  },
  {
   "property": "C63",
   "status": "proved",
   "theorems": [
    "c63_unmentioned",
    "c63_last"
   ],
   "note": "Proved for all inputs of the model."
  },
  {
   "property": "C64",
   "status": "proved",
   "theorems": [
    "c64_integers",
    "c64_doubles",
    "c64_in_range",
    "c64_garbage",
    "c64_validated_refuted",
    "c64_doubles_refuted"
   ],
   "note": "Refuted in part: see c64_validated_refuted, c64_doubles_refuted."
  },
  {
   "property": "C65",
   "status": "proved",
   "theorems": [
    "c65_help",
    "c65_unknown",
    "c65_invalid"
   ],
   "note": "Proved for all inputs of the model."
  },
  {
   "property": "C66",
   "status": "proved",
   "theorems": [
    "c66_two_dashes_refuted",
    "c66_negative_refuted"
   ],
   "note": "Refuted in part: see c66_two_dashes_refuted, c66_negative_refuted."
  },
  {
   "property": "C67",
   "status": "proved",
   "theorems": [
    "c67_register",
    "c67_sorted",
    "c67_help",
    "c67_arguments",
    "c67_options"
   ],
   "note": "Proved for all inputs of the model."
  },
  {
   "property": "C68",
   "status": "proved",
   "theorems": [
    "c68_icdar17",
    "c68_simple",
    "c68_success"
   ],
   "note": "Proved for all inputs of the model."
  },
  {
   "property": "C69",
   "status": "proved",
   "theorems": [
    "c69_icdar17",
    "c69_simple",
    "c69_listed",
    "c69_lists",
    "c69_supersedes",
    "c69_empty_refuted"
   ],
   "note": "Refuted in part: see c69_empty_refuted."
  },
  {
   "property": "C70",
   "status": "proved",
   "theorems": [
    "c70_last_line",
    "c70_broken",
    "c70_groups",
    "c70_groups_simple"
   ],
   "note": "Proved for all inputs of the model."
  },
  {
   "property": "C71",
   "status": "proved",
   "theorems": [
    "c71_icdar17",
    "c71_printed",
    "c71_dump_refuted",
    "c71_simple_refuted"
   ],
   "note": "Refuted in part: see c71_dump_refuted, c71_simple_refuted."
  },
  {
   "property": "C72",
   "status": "proved",
   "theorems": [
    "c72_icdar17",
    "c72_simple",
    "c72_bootstrap_refuted"
   ],
   "note": "Refuted in part: see c72_bootstrap_refuted."
  },
  {
   "property": "C73",
   "status": "proved",
   "theorems": [
    "c73_icdar17",
    "c73_simple",
    "c73_double",
    "c73_defaults",
    "c73_shipped"
   ],
   "note": "Proved for all inputs of the model."
  },
  {
   "property": "C74",
   "status": "proved",
   "theorems": [
    "c74_simple"
   ],
   "note": "Proved for all inputs of the model."
  },
  {
   "property": "C75",
   "status": "proved",
   "theorems": [
    "c75_write",
    "c75_icdar17",
    "c75_simple",
    "c75_lines",
    "c75_double_x",
    "c75_no_matches_refuted"
   ],
   "note": "Refuted in part: see c75_no_matches_refuted."
  },
  {
   "property": "C76",
   "status": "proved",
   "theorems": [
    "c76_icdar17",
    "c76_simple"
   ],
   "note": "Proved for all inputs of the model."
  },
  {
   "property": "C77",
   "status": "proved",
   "theorems": [
    "c77_accepted",
    "c77_help",
    "c77_rejected",
    "c77_command"
   ],
   "note": "Proved for all inputs of the model."
  },
  {
   "property": "C78",
   "status": "proved",
   "theorems": [
    "c78_short",
    "c78_score",
    "c78_scientific",
    "c78_unique",
    "c78_decimal",
    "c78_equal",
    "c78_monotone",
    "c78_exact",
    "c78_error",
    "c78_score_kept",
    "c78_score_again"
   ],
   "note": "Proved for all inputs of the model."
  },
  {
   "property": "C79",
   "status": "proved",
   "theorems": [
    "c79_shaped",
    "c79_ids",
    "c79_unambiguous",
    "c79_recover",
    "c79_icdar17",
    "c79_simple"
   ],
   "note": "Proved for all inputs of the model."
  },
  {
   "property": "C80",
   "status": "proved",
   "theorems": [
    "c80_lines",
    "c80_points",
    "c80_icdar17",
    "c80_simple",
    "c80_close",
    "c80_shipped",
    "c80_curves",
    "c80_curves_simple"
   ],
   "note": "Proved for all inputs of the model."
  },
  {
   "property": "C81",
   "status": "proved",
   "theorems": [
    "c81_icdar17",
    "c81_simple",
    "c81_newline_refuted",
    "c81_stdin_refuted"
   ],
   "note": "Refuted in part: see c81_newline_refuted, c81_stdin_refuted."
  },
  {
   "property": "C82",
   "status": "proved",
   "theorems": [
    "c82_icdar17",
    "c82_simple"
   ],
   "note": "Proved for all inputs of the model."
  },
  {
   "property": "C83",
   "status": "proved",
   "theorems": [
    "c83_global",
    "c83_finite",
    "c83_mean",
    "c83_icdar17",
    "c83_simple"
   ],
   "note": "Proved under the hypothesis that exp2 and log2 are accurate to 2^-52 (Spec/Libm.v), which a correctly rounding library meets."
  },
  {
   "property": "C84",
   "status": "proved",
   "theorems": [
    "c84_icdar17",
    "c84_simple",
    "c84_undefined",
    "c84_simple_undefined"
   ],
   "note": "Proved under the hypothesis that exp2 and log2 are accurate to 2^-52 (Spec/Libm.v); memory exhaustion by large numbers of samples is not modelled."
  },
  {
   "property": "C85",
   "status": "proved",
   "theorems": [
    "c85_period",
    "c85_draw",
    "c85_fair",
    "c85_samples",
    "c85_seed"
   ],
   "note": "Proved for all states, seeds and ranges below 2^31 - 1, for the engine of libstdc++."
  },
  {
   "property": "C86",
   "status": "proved",
   "theorems": [
    "c86_icdar17",
    "c86_simple",
    "c86_unused"
   ],
   "note": "Proved for all inputs of the model."
  },
  {
   "property": "C87",
   "status": "proved",
   "theorems": [
    "c87_errors",
    "c87_counts",
    "c87_compatible",
    "c87_commutative",
    "c87_text"
   ],
   "note": "Proved for all records."
  },
  {
   "property": "C88",
   "status": "proved",
   "theorems": [
    "c88_simple",
    "c88_real",
    "c88_mean_refuted"
   ],
   "note": "Refuted in part: see c88_mean_refuted."
  },
  {
   "property": "C89",
   "status": "proved",
   "theorems": [
    "c89_icdar17",
    "c89_simple",
    "c89_single",
    "c89_real",
    "c89_simple_real"
   ],
   "note": "Proved for all inputs of the model."
  },
  {
   "property": "C90",
   "status": "proved",
   "theorems": [
    "c90_icdar17",
    "c90_simple",
    "c90_icdar17_double",
    "c90_simple_double"
   ],
   "note": "Proved for all inputs of the model."
  },
  {
   "property": "C91",
   "status": "proved",
   "theorems": [
    "c91_better",
    "c91_strict",
    "c91_simple",
    "c91_collapse_refuted",
    "c91_icdar17_refuted"
   ],
   "note": "Refuted in part: see c91_collapse_refuted, c91_icdar17_refuted."
  },
  {
   "property": "C92",
   "status": "proved",
   "theorems": [
    "c92_hit",
    "c92_alarm",
    "c92_simple",
    "c92_ndcg_refuted"
   ],
   "note": "Refuted in part: see c92_ndcg_refuted."
  },
  {
   "property": "C93",
   "status": "proved",
   "theorems": [
    "c93_alarm",
    "c93_hit",
    "c93_icdar17_rejected",
    "c93_icdar17_wrong",
    "c93_icdar17_accepted",
    "c93_icdar17_right",
    "c93_simple_wrong",
    "c93_simple_right"
   ],
   "note": "Proved for all inputs of the model."
  },
  {
   "property": "C94",
   "status": "proved",
   "theorems": [
    "c94_simple",
    "c94_real"
   ],
   "note": "Proved for all inputs of the model."
  },
  {
   "property": "C95",
   "status": "proved",
   "theorems": [
    "c95_icdar17_rejecting",
    "c95_icdar17",
    "c95_simple"
   ],
   "note": "Proved for all inputs of the model."
  },
  {
   "property": "C96",
   "status": "proved",
   "theorems": [
    "c96_ap",
    "c96_ndcg",
    "c96_simple",
    "c96_icdar17_accepting",
    "c96_icdar17"
   ],
   "note": "Proved for all inputs of the model."
  },
  {
   "property": "C97",
   "status": "proved",
   "theorems": [
    "c97_icdar17_accepting",
    "c97_icdar17",
    "c97_simple",
    "c97_printed"
   ],
   "note": "Proved for all inputs of the model."
  },
  {
   "property": "C98",
   "status": "proved",
   "theorems": [
    "c98_simple",
    "c98_icdar17",
    "c98_printed",
    "c98_order_refuted"
   ],
   "note": "Refuted in part: see c98_order_refuted."
  },
  {
   "property": "C99",
   "status": "proved",
   "theorems": [
    "c99_files",
    "c99_places"
   ],
   "note": "Proved for all inputs of the model."
  },
  {
   "property": "C100",
   "status": "proved",
   "theorems": [
    "c100_icdar17",
    "c100_printed",
    "c100_large_refuted"
   ],
   "note": "Refuted in part: see c100_large_refuted."
  },
  {
   "property": "C101",
   "status": "proved",
   "theorems": [
    "c101_worst_order",
    "c101_gain_order",
    "c101_icdar17",
    "c101_simple",
    "c101_trapezoids_refuted",
    "c101_plain_refuted"
   ],
   "note": "Refuted in part: see c101_trapezoids_refuted, c101_plain_refuted."
  },
  {
   "property": "C102",
   "status": "proved",
   "theorems": [
    "c102_simple",
    "c102_icdar17_found",
    "c102_icdar17",
    "c102_nested_refuted"
   ],
   "note": "Refuted in part: see c102_nested_refuted."
  },
  {
   "property": "C103",
   "status": "proved",
   "theorems": [
    "c103_icdar17",
    "c103_simple",
    "c103_partition",
    "c103_filtered",
    "c103_all",
    "c103_global"
   ],
   "note": "Proved for all inputs of the model."
  },
  {
   "property": "C104",
   "status": "proved",
   "theorems": [
    "c104_nested_icdar17",
    "c104_nested_simple",
    "c104_range_icdar17",
    "c104_range_simple",
    "c104_perfect_icdar17",
    "c104_perfect_simple",
    "c104_inside_refuted"
   ],
   "note": "Refuted in part: see c104_inside_refuted."
  },
  {
   "property": "C105",
   "status": "proved",
   "theorems": [
    "c105_bounds",
    "c105_error",
    "c105_ap_error",
    "c105_errors_error",
    "c105_at_most_one_refuted",
    "c105_perfect_is_one_refuted"
   ],
   "note": "Refuted in part: see c105_at_most_one_refuted, c105_perfect_is_one_refuted."
  },
  {
   "property": "C106",
   "status": "proved",
   "theorems": [
    "c106_icdar17_rejected",
    "c106_icdar17_wrong",
    "c106_simple_ascending"
   ],
   "note": "Proved for all inputs of the model."
  },
  {
   "property": "C107",
   "status": "proved",
   "theorems": [
    "c107_icdar17_accepted",
    "c107_icdar17_right",
    "c107_simple_ascending"
   ],
   "note": "Proved for all inputs of the model."
  },
  {
   "property": "C108",
   "status": "proved",
   "theorems": [
    "c108_icdar17",
    "c108_simple",
    "c108_trapezoid_refuted"
   ],
   "note": "Refuted in part: see c108_trapezoid_refuted."
  },
  {
   "property": "C109",
   "status": "proved",
   "theorems": [
    "c109_icdar17",
    "c109_simple"
   ],
   "note": "Proved for all inputs of the model."
  },
  {
   "property": "C110",
   "status": "proved",
   "theorems": [
    "c110_icdar17",
    "c110_simple",
    "c110_icdar17_double",
    "c110_simple_double"
   ],
   "note": "Proved for all inputs of the model."
  },
  {
   "property": "C111",
   "status": "proved",
   "theorems": [
    "c111_icdar17",
    "c111_simple"
   ],
   "note": "Proved for all inputs of the model."
  },
  {
   "property": "C112",
   "status": "proved",
   "theorems": [
    "c112_better",
    "c112_simple",
    "c112_collapse_refuted",
    "c112_icdar17_refuted"
   ],
   "note": "Refuted in part: see c112_collapse_refuted, c112_icdar17_refuted."
  }
 ]
}