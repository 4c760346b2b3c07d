{
 "claims": [
  {
   "property": "C01",
   "status": "proved",
   "theorems": [
    "C01_depth_per_node"
   ],
   "note": ""
  },
  {
   "property": "C02",
   "status": "proved",
   "theorems": [
    "C02_calc_depth_for_forest"
   ],
   "note": ""
  },
  {
   "property": "C03",
   "status": "proved",
   "theorems": [
    "C03_create_decision_per_leafs"
   ],
   "note": ""
  },
  {
   "property": "C04",
   "status": "proved",
   "theorems": [
    "C04_depth_dist_leaves"
   ],
   "note": ""
  },
  {
   "property": "C05",
   "status": "proved",
   "theorems": [
    "C05_depth_dist_triangle",
    "C05_min_dist_triangle_refuted"
   ],
   "note": ""
  },
  {
   "property": "C06",
   "status": "proved",
   "theorems": [
    "C06_impurity_dist_leaves"
   ],
   "note": ""
  },
  {
   "property": "C07",
   "status": "proved",
   "theorems": [
    "C07_Gamma_eta_tree"
   ],
   "note": ""
  },
  {
   "property": "C08",
   "status": "proved",
   "theorems": [
    "C08_row_sums",
    "C08_parents_all_cumulative"
   ],
   "note": ""
  },
  {
   "property": "C09",
   "status": "proved",
   "theorems": [
    "C09_Gamma_eta_forest"
   ],
   "note": ""
  },
  {
   "property": "C10",
   "status": "proved",
   "theorems": [
    "C10_ancestor_columns"
   ],
   "note": ""
  },
  {
   "property": "C11",
   "status": "proved",
   "theorems": [
    "C11_sanity_identity",
    "C11_impurity_ties_refuted"
   ],
   "note": ""
  },
  {
   "property": "C12",
   "status": "proved",
   "theorems": [
    "C12_class_start",
    "C12_class_not_identity",
    "C12_class_eps_zero"
   ],
   "note": ""
  },
  {
   "property": "C13",
   "status": "proved",
   "theorems": [
    "C13_range",
    "C13_mean_range"
   ],
   "note": ""
  },
  {
   "property": "C14",
   "status": "proved",
   "theorems": [
    "C14_values_scale",
    "C14_cost_scale"
   ],
   "note": ""
  },
  {
   "property": "C15",
   "status": "proved",
   "theorems": [
    "C15_class_distribution"
   ],
   "note": ""
  },
  {
   "property": "C16",
   "status": "proved",
   "theorems": [
    "C16_structure"
   ],
   "note": ""
  },
  {
   "property": "C17",
   "status": "proved",
   "theorems": [
    "C17_sgd_trajectory",
    "C17_best_not_worse",
    "C17_constrained_total"
   ],
   "note": ""
  },
  {
   "property": "C18",
   "status": "proved",
   "theorems": [
    "C18_nonnegative_iterates"
   ],
   "note": ""
  },
  {
   "property": "C19",
   "status": "proved",
   "theorems": [
    "C19_all_trees"
   ],
   "note": ""
  },
  {
   "property": "C20",
   "status": "proved",
   "theorems": [
    "C20_prox_projection_sorted"
   ],
   "note": ""
  },
  {
   "property": "C21",
   "status": "proved",
   "theorems": [
    "C21_prox_general",
    "C21_prox_small",
    "C21_not_on_simplex_refuted"
   ],
   "note": ""
  },
  {
   "property": "C22",
   "status": "proved",
   "theorems": [
    "C22_prox_ce_always_fails",
    "C22_sgd_ce_never_returns",
    "C22_sgd_ce_assertion",
    "C22_smooth_ce_never_returns",
    "C22_smooth_ce_assertion"
   ],
   "note": ""
  },
  {
   "property": "C23",
   "status": "proved",
   "theorems": [
    "C23_take_gradient"
   ],
   "note": ""
  },
  {
   "property": "C24",
   "status": "proved",
   "theorems": [
    "C24_take_gradient_ce"
   ],
   "note": ""
  },
  {
   "property": "C25",
   "status": "proved",
   "theorems": [
    "C25_adam_history",
    "C25_published_when_equal",
    "C25_differs_otherwise",
    "C25_default_first_step",
    "C25_nameerror"
   ],
   "note": ""
  },
  {
   "property": "C26",
   "status": "proved",
   "theorems": [
    "C26_leaf_loss",
    "C26_returned"
   ],
   "note": ""
  },
  {
   "property": "C27",
   "status": "proved",
   "theorems": [
    "C27_shapes",
    "C27_leaf_weights"
   ],
   "note": ""
  },
  {
   "property": "C28",
   "status": "proved",
   "theorems": [
    "C28_flatten",
    "C28_unflatten"
   ],
   "note": ""
  },
  {
   "property": "C29",
   "status": "proved",
   "theorems": [
    "C29_second_forest",
    "C29_single_tree",
    "C29_two_trees_refuted"
   ],
   "note": ""
  },
  {
   "property": "C30",
   "status": "proved",
   "theorems": [
    "C30_sgd_typeerror",
    "C30_smooth_argument_errors",
    "C30_sgd_ce_typeerror"
   ],
   "note": ""
  },
  {
   "property": "C31",
   "status": "proved",
   "theorems": [
    "C31_missing_class"
   ],
   "note": ""
  },
  {
   "property": "C32",
   "status": "proved",
   "theorems": [
    "C32_oob_info",
    "C32_errors"
   ],
   "note": ""
  },
  {
   "property": "C33",
   "status": "proved",
   "theorems": [
    "C33_prediction",
    "C33_cost",
    "C33_forest"
   ],
   "note": ""
  },
  {
   "property": "C34",
   "status": "proved",
   "theorems": [
    "C34_code",
    "C34_derivative",
    "C34_error",
    "C34_agrees",
    "C34_refuted"
   ],
   "note": ""
  },
  {
   "property": "C35",
   "status": "proved",
   "theorems": [
    "C35_trajectory",
    "C35_no_steps",
    "C35_smooth_unchanged",
    "C35_refuted"
   ],
   "note": ""
  },
  {
   "property": "C36",
   "status": "proved",
   "theorems": [
    "C36_power_of_two",
    "C36_never",
    "C36_small",
    "C36_dropped",
    "C36_close",
    "C36_tolerance"
   ],
   "note": ""
  },
  {
   "property": "C37",
   "status": "proved",
   "theorems": [
    "C37_truncated_values",
    "C37_cut_unique",
    "C37_shallow_leaf"
   ],
   "note": ""
  },
  {
   "property": "C38",
   "status": "proved",
   "theorems": [
    "C38_best_depth",
    "C38_never_full",
    "C38_full_better_refuted",
    "C38_single_leaf_raises",
    "C38_missing_training",
    "C38_not_a_forest",
    "C38_no_observations",
    "C38_single_error"
   ],
   "note": ""
  },
  {
   "property": "C39",
   "status": "proved",
   "theorems": [
    "C39_leaf_values_only"
   ],
   "note": ""
  },
  {
   "property": "C40",
   "status": "proved",
   "theorems": [
    "C40_calc_parent"
   ],
   "note": ""
  },
  {
   "property": "C41",
   "status": "proved",
   "theorems": [
    "C41_initial_table"
   ],
   "note": ""
  },
  {
   "property": "C42",
   "status": "proved",
   "theorems": [
    "C42_reachable_describes"
   ],
   "note": ""
  },
  {
   "property": "C43",
   "status": "proved",
   "theorems": [
    "C43_rejects",
    "C43_succeeds"
   ],
   "note": ""
  },
  {
   "property": "C44",
   "status": "proved",
   "theorems": [
    "C44_stale_g1",
    "C44_weakest_link_stuck"
   ],
   "note": ""
  },
  {
   "property": "C45",
   "status": "proved",
   "theorems": [
    "C45_absorb",
    "C45_absorb_succeeds",
    "C45_commute"
   ],
   "note": ""
  },
  {
   "property": "C46",
   "status": "proved",
   "theorems": [
    "C46_monotone",
    "C46_class_risk"
   ],
   "note": ""
  },
  {
   "property": "C47",
   "status": "proved",
   "theorems": [
    "C47_class_risk",
    "C47_other"
   ],
   "note": ""
  },
  {
   "property": "C48",
   "status": "proved",
   "theorems": [
    "C48_prune_tree",
    "C48_never_returns"
   ],
   "note": ""
  },
  {
   "property": "C49",
   "status": "proved",
   "theorems": [
    "C49_boxes",
    "C49_contains",
    "C49_only_inside",
    "C49_centers",
    "C49_center_forest",
    "C49_errors"
   ],
   "note": ""
  },
  {
   "property": "C50",
   "status": "proved",
   "theorems": [
    "C50_parent_matrix"
   ],
   "note": ""
  },
  {
   "property": "C51",
   "status": "proved",
   "theorems": [
    "C51_more_per",
    "C51_reach",
    "C51_more",
    "C51_min_refuted"
   ],
   "note": ""
  },
  {
   "property": "C52",
   "status": "proved",
   "theorems": [
    "C52_forest_more",
    "C52_padding_iff",
    "C52_padding_refuted"
   ],
   "note": ""
  },
  {
   "property": "C53",
   "status": "proved",
   "theorems": [
    "C53_same",
    "C53_entries"
   ],
   "note": ""
  },
  {
   "property": "C54",
   "status": "proved",
   "theorems": [
    "C54_expand",
    "C54_refuses",
    "C54_symmetric",
    "C54_arguments"
   ],
   "note": ""
  },
  {
   "property": "C55",
   "status": "proved",
   "theorems": [
    "C55_kernel",
    "C55_psd",
    "C55_dist",
    "C55_standard",
    "C55_max_depth_refuted",
    "C55_errors"
   ],
   "note": ""
  },
  {
   "property": "C56",
   "status": "proved",
   "theorems": [
    "C56_values",
    "C56_range",
    "C56_constant",
    "C56_sanity",
    "C56_default_refuted"
   ],
   "note": ""
  },
  {
   "property": "C57",
   "status": "proved",
   "theorems": [
    "C57_attributes",
    "C57_shapes"
   ],
   "note": ""
  },
  {
   "property": "C58",
   "status": "proved",
   "theorems": [
    "C58_lift",
    "C58_terminates"
   ],
   "note": ""
  },
  {
   "property": "C59",
   "status": "proved",
   "theorems": [
    "C59_forward",
    "C59_order",
    "C59_init"
   ],
   "note": ""
  },
  {
   "property": "C60",
   "status": "proved",
   "theorems": [
    "C60_dataset",
    "C60_items",
    "C60_partition"
   ],
   "note": ""
  },
  {
   "property": "C61",
   "status": "proved",
   "theorems": [
    "C61_tuning",
    "C61_tuning_data_ignored",
    "C61_params_min",
    "C61_params_min_refuted"
   ],
   "note": ""
  },
  {
   "property": "C62",
   "status": "proved",
   "theorems": [
    "C62_mismatch",
    "C62_mismatch_weights",
    "C62_weighted",
    "C62_weighted_value",
    "C62_l2",
    "C62_acc",
    "C62_cost"
   ],
   "note": ""
  },
  {
   "property": "C63",
   "status": "proved",
   "theorems": [
    "C63_rows",
    "C63_radius",
    "C63_apart",
    "C63_errors"
   ],
   "note": ""
  },
  {
   "property": "C64",
   "status": "proved",
   "theorems": [
    "C64_levels_monotone",
    "C64_level_zero",
    "C64_negative_boundaries_refuted"
   ],
   "note": ""
  },
  {
   "property": "C65",
   "status": "proved",
   "theorems": [
    "C65_smooth_returns"
   ],
   "note": ""
  },
  {
   "property": "C66",
   "status": "proved",
   "theorems": [
    "C66_no_worse"
   ],
   "note": ""
  },
  {
   "property": "C67",
   "status": "proved",
   "theorems": [
    "C67_g1_scale",
    "C67_weakest_link_refuted"
   ],
   "note": ""
  },
  {
   "property": "C68",
   "status": "proved",
   "theorems": [
    "C68_forest",
    "C68_weights",
    "C68_returns",
    "C68_kind",
    "C68_errors",
    "C68_start_refused",
    "C68_start_taken",
    "C68_lengths",
    "C68_extra"
   ],
   "note": ""
  },
  {
   "property": "C69",
   "status": "proved",
   "theorems": [
    "C69_levels",
    "C69_one_tree",
    "C69_missing_depths",
    "C69_partners",
    "C69_no_observations"
   ],
   "note": ""
  },
  {
   "property": "C70",
   "status": "proved",
   "theorems": [
    "C70_optimal",
    "C70_inverse"
   ],
   "note": ""
  },
  {
   "property": "C71",
   "status": "proved",
   "theorems": [
    "C71_is_pos_def"
   ],
   "note": ""
  },
  {
   "property": "C72",
   "status": "proved",
   "theorems": [
    "C72_returns"
   ],
   "note": ""
  },
  {
   "property": "C73",
   "status": "proved",
   "theorems": [
    "C73_loss",
    "C73_best",
    "C73_pairs",
    "C73_documented_refuted"
   ],
   "note": ""
  },
  {
   "property": "C74",
   "status": "proved",
   "theorems": [
    "C74_outcome",
    "C74_no_start",
    "C74_default_with_centers",
    "C74_attributes_swapped"
   ],
   "note": ""
  },
  {
   "property": "C75",
   "status": "proved",
   "theorems": [
    "C75_update_rf",
    "C75_not_a_forest",
    "C75_forest",
    "C75_range",
    "C75_class"
   ],
   "note": ""
  },
  {
   "property": "C76",
   "status": "proved",
   "theorems": [
    "C76_prep",
    "C76_errors"
   ],
   "note": ""
  },
  {
   "property": "C77",
   "status": "proved",
   "theorems": [
    "C77_overwrite",
    "C77_spatial"
   ],
   "note": ""
  },
  {
   "property": "C78",
   "status": "proved",
   "theorems": [
    "C78_data",
    "C78_sizes",
    "C78_points"
   ],
   "note": ""
  },
  {
   "property": "C79",
   "status": "proved",
   "theorems": [
    "C79_knn",
    "C79_errors"
   ],
   "note": ""
  },
  {
   "property": "C80",
   "status": "proved",
   "theorems": [
    "C80_returns",
    "C80_not_joined",
    "C80_regression",
    "C80_regression_diluted",
    "C80_classification",
    "C80_accuracy_not_error",
    "C80_missing_class_raises",
    "C80_shifted_refuted",
    "C80_errors"
   ],
   "note": ""
  },
  {
   "property": "C81",
   "status": "proved",
   "theorems": [
    "C81_answer",
    "C81_regular_false",
    "C81_zero_refuted",
    "C81_positive_definite",
    "C81_smooth_all",
    "C81_tol_pow",
    "C81_length"
   ],
   "note": ""
  },
  {
   "property": "C82",
   "status": "proved",
   "theorems": [
    "C82_refused",
    "C82_same",
    "C82_bad_tol"
   ],
   "note": ""
  },
  {
   "property": "C83",
   "status": "proved",
   "theorems": [
    "C83_units",
    "C83_impurity_refuted"
   ],
   "note": ""
  },
  {
   "property": "C84",
   "status": "proved",
   "theorems": [
    "C84_gradient_orthogonal",
    "C84_descent_keeps_weights",
    "C84_descent_norm",
    "C84_smooth_keeps_weights",
    "C84_smooth_norm",
    "C84_range",
    "C84_class_distribution",
    "C84_children_only_refuted"
   ],
   "note": ""
  },
  {
   "property": "C85",
   "status": "proved",
   "theorems": [
    "C85_tune_order",
    "C85_sample_order"
   ],
   "note": ""
  },
  {
   "property": "C86",
   "status": "proved",
   "theorems": [
    "C86_features"
   ],
   "note": ""
  },
  {
   "property": "C87",
   "status": "proved",
   "theorems": [
    "C87_training_rows",
    "C87_inner_nodes"
   ],
   "note": ""
  },
  {
   "property": "C88",
   "status": "proved",
   "theorems": [
    "C88_weight_units",
    "C88_mass_kept",
    "C88_children_only_refuted"
   ],
   "note": ""
  },
  {
   "property": "C89",
   "status": "proved",
   "theorems": [
    "C89_origin",
    "C89_parents_all",
    "C89_children_only_refuted"
   ],
   "note": ""
  },
  {
   "property": "C90",
   "status": "proved",
   "theorems": [
    "C90_tree_order",
    "C90_second_forest_refuted",
    "C90_impurity_refuted"
   ],
   "note": ""
  },
  {
   "property": "C91",
   "status": "proved",
   "theorems": [
    "C91_small_steps_help",
    "C91_no_pull_no_change"
   ],
   "note": ""
  },
  {
   "property": "C92",
   "status": "proved",
   "theorems": [
    "C92_copies",
    "C92_copies_at_once",
    "C92_same_step_refuted"
   ],
   "note": ""
  },
  {
   "property": "C93",
   "status": "proved",
   "theorems": [
    "C93_search",
    "C93_smallest",
    "C93_unknown"
   ],
   "note": ""
  },
  {
   "property": "C94",
   "status": "proved",
   "theorems": [
    "C94_table",
    "C94_range",
    "C94_band_reversed",
    "C94_standard_error"
   ],
   "note": ""
  },
  {
   "property": "C95",
   "status": "proved",
   "theorems": [
    "C95_table",
    "C95_default",
    "C95_default_fails"
   ],
   "note": ""
  },
  {
   "property": "C96",
   "status": "proved",
   "theorems": [
    "C96_average_depth",
    "C96_no_data",
    "C96_falls",
    "C96_smooth",
    "C96_other_smoothers"
   ],
   "note": ""
  },
  {
   "property": "C97",
   "status": "proved",
   "theorems": [
    "C97_element_based",
    "C97_returns",
    "C97_level_base",
    "C97_unknown_options",
    "C97_oracle_class_fails",
    "C97_loss_ignored",
    "C97_loss_refuted"
   ],
   "note": ""
  },
  {
   "property": "C98",
   "status": "proved",
   "theorems": [
    "C98_never_finishes",
    "C98_value_error",
    "C98_other_kind"
   ],
   "note": ""
  },
  {
   "property": "C99",
   "status": "proved",
   "theorems": [
    "C99_names",
    "C99_stored",
    "C99_call",
    "C99_min"
   ],
   "note": ""
  },
  {
   "property": "C100",
   "status": "proved",
   "theorems": [
    "C100_names",
    "C100_stored",
    "C100_call"
   ],
   "note": ""
  },
  {
   "property": "C101",
   "status": "proved",
   "theorems": [
    "C101_clean_class",
    "C101_old_class",
    "C101_no_levels"
   ],
   "note": ""
  },
  {
   "property": "C102",
   "status": "proved",
   "theorems": [
    "C102_no_effect",
    "C102_base"
   ],
   "note": ""
  },
  {
   "property": "C103",
   "status": "proved",
   "theorems": [
    "C103_parents_unused"
   ],
   "note": ""
  },
  {
   "property": "C104",
   "status": "proved",
   "theorems": [
    "C104_mean",
    "C104_range",
    "C104_parents_all",
    "C104_children_only_refuted",
    "C104_same_leaves",
    "C104_clean"
   ],
   "note": ""
  },
  {
   "property": "C105",
   "status": "proved",
   "theorems": [
    "C105_original",
    "C105_smoothed",
    "C105_parents_all",
    "C105_children_only_refuted",
    "C105_label"
   ],
   "note": ""
  },
  {
   "property": "C106",
   "status": "proved",
   "theorems": [
    "C106_sanity",
    "C106_default_refuted"
   ],
   "note": ""
  },
  {
   "property": "C107",
   "status": "proved",
   "theorems": [
    "C107_returns",
    "C107_regression",
    "C107_classification",
    "C107_other",
    "C107_trees_and_forest",
    "C107_tree_errors",
    "C107_forest_error",
    "C107_one_tree",
    "C107_forest_worse_refuted",
    "C107_more_steps"
   ],
   "note": ""
  },
  {
   "property": "C108",
   "status": "proved",
   "theorems": [
    "C108_units",
    "C108_origin",
    "C108_features",
    "C108_order",
    "C108_copies"
   ],
   "note": ""
  },
  {
   "property": "C109",
   "status": "proved",
   "theorems": [
    "C109_example_stops"
   ],
   "note": ""
  },
  {
   "property": "C110",
   "status": "proved",
   "theorems": [
    "C110_numbering",
    "C110_predictions",
    "C110_second_forest_refuted"
   ],
   "note": ""
  },
  {
   "property": "C111",
   "status": "proved",
   "theorems": [
    "C111_class_order",
    "C111_predictions"
   ],
   "note": ""
  },
  {
   "property": "C112",
   "status": "proved",
   "theorems": [
    "C112_feature_order",
    "C112_predictions"
   ],
   "note": ""
  },
  {
   "property": "C113",
   "status": "proved",
   "theorems": [
    "C113_tune",
    "C113_sample"
   ],
   "note": ""
  },
  {
   "property": "C114",
   "status": "proved",
   "theorems": [
    "C114_tune",
    "C114_sample",
    "C114_units",
    "C114_origin",
    "C114_features"
   ],
   "note": ""
  },
  {
   "property": "C115",
   "status": "proved",
   "theorems": [
    "C115_trees"
   ],
   "note": ""
  },
  {
   "property": "C116",
   "status": "proved",
   "theorems": [
    "C116_scores",
    "C116_refused",
    "C116_table",
    "C116_band_inverted"
   ],
   "note": ""
  },
  {
   "property": "C117",
   "status": "proved",
   "theorems": [
    "C117_files",
    "C117_own",
    "C117_same_table",
    "C117_300_trees_refuted",
    "C117_tania_fails",
    "C117_base_name",
    "C117_same_names"
   ],
   "note": ""
  },
  {
   "property": "C118",
   "status": "proved",
   "theorems": [
    "C118_file_ignored",
    "C118_splice_is_microsoft",
    "C118_made_ignored",
    "C118_spiral_leak",
    "C118_spiral_perfect"
   ],
   "note": ""
  },
  {
   "property": "C119",
   "status": "proved",
   "theorems": [
    "C119_binding",
    "C119_accepted",
    "C119_stale",
    "C119_needed"
   ],
   "note": ""
  },
  {
   "property": "C120",
   "status": "proved",
   "theorems": [
    "C120_quantiles",
    "C120_quantiles_facts",
    "C120_levels",
    "C120_int",
    "C120_own",
    "C120_one_leaf",
    "C120_forest",
    "C120_smooth_levels",
    "C120_close",
    "C120_same_levels_refuted"
   ],
   "note": ""
  },
  {
   "property": "C121",
   "status": "proved",
   "theorems": [
    "C121_files",
    "C121_old_element_based",
    "C121_class_element_based",
    "C121_inner_ignored",
    "C121_loss_ignored",
    "C121_tuning_unchecked",
    "C121_too_few",
    "C121_unknown",
    "C121_unknown_data",
    "C121_names",
    "C121_distinct",
    "C121_numbers",
    "C121_too_few_element",
    "C121_unknown_element"
   ],
   "note": ""
  },
  {
   "property": "C122",
   "status": "proved",
   "theorems": [
    "C122_clean",
    "C122_old",
    "C122_finishes",
    "C122_class",
    "C122_no_levels",
    "C122_errors",
    "C122_request",
    "C122_names"
   ],
   "note": ""
  },
  {
   "property": "C123",
   "status": "proved",
   "theorems": [
    "C123_found",
    "C123_class",
    "C123_reg",
    "C123_prgeng",
    "C123_meant"
   ],
   "note": ""
  },
  {
   "property": "C124",
   "status": "proved",
   "theorems": [
    "C124_clean",
    "C124_all",
    "C124_torch",
    "C124_smooth",
    "C124_rescaled",
    "C124_columns",
    "C124_centers_refuted"
   ],
   "note": ""
  },
  {
   "property": "C125",
   "status": "proved",
   "theorems": [
    "C125_same",
    "C125_order",
    "C125_unused",
    "C125_units_refuted"
   ],
   "note": ""
  },
  {
   "property": "C126",
   "status": "proved",
   "theorems": [
    "C126_differences",
    "C126_parent_rows",
    "C126_child_risk",
    "C126_both_refuted"
   ],
   "note": ""
  },
  {
   "property": "C127",
   "status": "proved",
   "theorems": [
    "C127_same",
    "C127_tune",
    "C127_sample",
    "C127_trees"
   ],
   "note": ""
  },
  {
   "property": "C128",
   "status": "proved",
   "theorems": [
    "C128_exact",
    "C128_solvers",
    "C128_copies",
    "C128_units"
   ],
   "note": ""
  },
  {
   "property": "C129",
   "status": "proved",
   "theorems": [
    "C129_reg",
    "C129_class",
    "C129_unknown",
    "C129_never",
    "C129_errors",
    "C129_fits"
   ],
   "note": ""
  },
  {
   "property": "C130",
   "status": "proved",
   "theorems": [
    "C130_rows",
    "C130_rows_impurity",
    "C130_precomputed",
    "C130_some_leaves",
    "C130_calls",
    "C130_outcome",
    "C130_outcome_impurity",
    "C130_unknown",
    "C130_default",
    "C130_values_depth",
    "C130_values_impurity",
    "C130_levels",
    "C130_wrong_names"
   ],
   "note": ""
  },
  {
   "property": "C131",
   "status": "proved",
   "theorems": [
    "C131_given",
    "C131_mass",
    "C131_own",
    "C131_own_levels",
    "C131_errors"
   ],
   "note": ""
  },
  {
   "property": "C132",
   "status": "proved",
   "theorems": [
    "C132_default",
    "C132_draws",
    "C132_close",
    "C132_clean",
    "C132_one_column",
    "C132_seeded_refuted",
    "C132_class_refuted",
    "C132_twice",
    "C132_class_default_refuted",
    "C132_suggested_power",
    "C132_suggested"
   ],
   "note": ""
  },
  {
   "property": "C133",
   "status": "proved",
   "theorems": [
    "C133_same",
    "C133_returns",
    "C133_theta",
    "C133_inside",
    "C133_nonfinite",
    "C133_large",
    "C133_total_refuted"
   ],
   "note": ""
  }
 ]
}