{
 "claims": [
  {
   "property": "C01",
   "status": "proved",
   "theorems": [
    "C01_comparisons_in_unit_interval",
    "C01_connectives_in_unit_interval",
    "C01_all_any_in_unit_interval",
    "C01_infinite_operands"
   ],
   "note": ""
  },
  {
   "property": "C02",
   "status": "proved",
   "theorems": [
    "C02_crisp_connectives",
    "C02_crisp_all_any",
    "C02_exact_connectives",
    "C02_lattice_laws",
    "C02_de_morgan_all"
   ],
   "note": ""
  },
  {
   "property": "C03",
   "status": "proved",
   "theorems": [
    "C03_threshold_recovers_strict_comparison",
    "C03_greater_less_sum_to_one",
    "C03_exact_comparison"
   ],
   "note": ""
  },
  {
   "property": "C04",
   "status": "proved",
   "theorems": [
    "C04_nonstrict_disagrees_only_at_equality"
   ],
   "note": ""
  },
  {
   "property": "C05",
   "status": "proved",
   "theorems": [
    "C05_hard_sigmoid_becomes_exact",
    "C05_sigmoid_converges"
   ],
   "note": ""
  },
  {
   "property": "C06",
   "status": "proved",
   "theorems": [
    "C06_is_true_is_false"
   ],
   "note": ""
  },
  {
   "property": "C07",
   "status": "proved",
   "theorems": [
    "C07_logic_functions_honour_approx",
    "C07_geometry_honours_approx",
    "C07_scene_honours_approx",
    "C07_grids_honour_approx"
   ],
   "note": ""
  },
  {
   "property": "C08",
   "status": "proved",
   "theorems": [
    "C08_enable_approx_restores",
    "C08_same_value_before_and_after",
    "C08_single_thread_refines_spec",
    "C08_disable_is_enable_not"
   ],
   "note": ""
  },
  {
   "property": "C09",
   "status": "proved",
   "theorems": [
    "C09_blocks_are_isolated"
   ],
   "note": ""
  },
  {
   "property": "C10",
   "status": "proved",
   "theorems": [
    "C10_restore_refuted_across_threads",
    "C10_no_deadlock"
   ],
   "note": ""
  },
  {
   "property": "C11",
   "status": "proved",
   "theorems": [
    "C11_explicit_approx_always_followed",
    "C11_first_call_freezes",
    "C11_uncached_call_follows_switch",
    "C11_constant_switch",
    "C11_consistent_mode_refuted",
    "C11_clearing_outer_cache_refuted"
   ],
   "note": ""
  },
  {
   "property": "C12",
   "status": "proved",
   "theorems": [
    "C12_exact_crossing_condition",
    "C12_zero_tolerance_is_common_point"
   ],
   "note": ""
  },
  {
   "property": "C13",
   "status": "proved",
   "theorems": [
    "C13_parallel_never_intersect",
    "C13_zero_length_is_parallel",
    "C13_zero_slope_gives_nan",
    "C13_no_nan_escapes"
   ],
   "note": ""
  },
  {
   "property": "C14",
   "status": "proved",
   "theorems": [
    "C14_symmetry"
   ],
   "note": ""
  },
  {
   "property": "C15",
   "status": "proved",
   "theorems": [
    "C15_threshold_agrees_off_boundary"
   ],
   "note": ""
  },
  {
   "property": "C16",
   "status": "proved",
   "theorems": [
    "C16_length_error_bound",
    "C16_length_nonnegative_and_translation_invariant",
    "C16_length_at_least_distance",
    "C16_zero_length"
   ],
   "note": ""
  },
  {
   "property": "C17",
   "status": "proved",
   "theorems": [
    "C17_normalize"
   ],
   "note": ""
  },
  {
   "property": "C18",
   "status": "proved",
   "theorems": [
    "C18_closest_point_is_first_nearest",
    "C18_closest_point_of_nothing_fails",
    "C18_closest_transmitter",
    "C18_closest_receiver"
   ],
   "note": ""
  },
  {
   "property": "C19",
   "status": "proved",
   "theorems": [
    "C19_image_is_mirror",
    "C19_zero_length_wall"
   ],
   "note": ""
  },
  {
   "property": "C20",
   "status": "proved",
   "theorems": [
    "C20_coordinates_inverse_and_projection",
    "C20_endpoints",
    "C20_zero_length_wall_parameter"
   ],
   "note": ""
  },
  {
   "property": "C21",
   "status": "proved",
   "theorems": [
    "C21_contains_exact",
    "C21_samples_are_on_the_object"
   ],
   "note": ""
  },
  {
   "property": "C22",
   "status": "proved",
   "theorems": [
    "C22_score_range",
    "C22_score_zero_iff_specular",
    "C22_score_four_iff_opposite",
    "C22_score_invariant_by_reversal"
   ],
   "note": ""
  },
  {
   "property": "C23",
   "status": "proved",
   "theorems": [
    "C23_ris_score_formula",
    "C23_ris_angle_exists",
    "C23_ris_zero_iff_angle",
    "C23_ris_range_periodic_and_ignores_incidence"
   ],
   "note": ""
  },
  {
   "property": "C24",
   "status": "proved",
   "theorems": [
    "C24_paths_through_vertices",
    "C24_vertices_of_a_wall",
    "C24_valid_paths_through_vertices",
    "C24_a_wall_stops_the_rays_to_its_own_ends",
    "C24_no_valid_path_bends_at_the_end_of_a_wall",
    "C24_vertices_never_obstruct_and_accept",
    "C24_vertices_do_not_affect_validity"
   ],
   "note": ""
  },
  {
   "property": "C25",
   "status": "proved",
   "theorems": [
    "C25_what_rotate_computes",
    "C25_rotate_correct_iff",
    "C25_rotate_refuted"
   ],
   "note": ""
  },
  {
   "property": "C26",
   "status": "proved",
   "theorems": [
    "C26_unstack_stack",
    "C26_stack_accepts_exactly_one_class",
    "C26_mixed_classes_rejected",
    "C26_scene_stacking_round_trip",
    "C26_from_walls_array",
    "C26_nothing_to_stack"
   ],
   "note": ""
  },
  {
   "property": "C27",
   "status": "proved",
   "theorems": [
    "C27_point_and_object_boxes_tight",
    "C27_path_box_tight",
    "C27_scene_box_tight"
   ],
   "note": ""
  },
  {
   "property": "C28",
   "status": "proved",
   "theorems": [
    "C28_locations_inside_box",
    "C28_compass",
    "C28_grid",
    "C28_square_grid_by_default",
    "C28_default_grid"
   ],
   "note": ""
  },
  {
   "property": "C29",
   "status": "proved",
   "theorems": [
    "C29_endpoints_and_length",
    "C29_constructors_succeed",
    "C29_path_visits_the_middle_of_each_object",
    "C29_image_path_errors"
   ],
   "note": ""
  },
  {
   "property": "C30",
   "status": "proved",
   "theorems": [
    "C30_points_on_objects_in_order",
    "C30_each_parameter_used_once",
    "C30_solver_paths_on_objects"
   ],
   "note": ""
  },
  {
   "property": "C31",
   "status": "proved",
   "theorems": [
    "C31_image_points_on_walls_and_image_lines"
   ],
   "note": ""
  },
  {
   "property": "C32",
   "status": "proved",
   "theorems": [
    "C32_loss_is_four_times_the_number_of_crossed_walls",
    "C32_loss_test_is_true_reflection_test"
   ],
   "note": ""
  },
  {
   "property": "C33",
   "status": "proved",
   "theorems": [
    "C33_true_reflections_give_the_shortest_path",
    "C33_shortest_path_is_unique"
   ],
   "note": ""
  },
  {
   "property": "C34",
   "status": "proved",
   "theorems": [
    "C34_image_path_reciprocity",
    "C34_validity_reciprocity"
   ],
   "note": ""
  },
  {
   "property": "C35",
   "status": "proved",
   "theorems": [
    "C35_degenerate_step_repeats_the_next_point",
    "C35_degenerate_step_costs_one_or_collapses",
    "C35_degenerate_paths_are_rejected",
    "C35_collapse_has_no_loss"
   ],
   "note": ""
  },
  {
   "property": "C36",
   "status": "proved",
   "theorems": [
    "C36_on_objects_is_projection_test",
    "C36_does_not_imply_on_the_wall"
   ],
   "note": ""
  },
  {
   "property": "C37",
   "status": "proved",
   "theorems": [
    "C37_intersects_iff_obstructed",
    "C37_short_candidate_fails"
   ],
   "note": ""
  },
  {
   "property": "C38",
   "status": "proved",
   "theorems": [
    "C38_exact_validity",
    "C38_default_arguments"
   ],
   "note": ""
  },
  {
   "property": "C39",
   "status": "proved",
   "theorems": [
    "C39_smoothed_validity_in_unit_interval",
    "C39_is_valid_never_fails"
   ],
   "note": ""
  },
  {
   "property": "C40",
   "status": "proved",
   "theorems": [
    "C40_smoothed_validity_characterised",
    "C40_smoothed_implies_exact_and_conversely_off_wall_ends"
   ],
   "note": ""
  },
  {
   "property": "C41",
   "status": "proved",
   "theorems": [
    "C41_exact_validity_antitone",
    "C41_smoothed_score_antitone"
   ],
   "note": ""
  },
  {
   "property": "C42",
   "status": "proved",
   "theorems": [
    "C42_wall_behind_receiver_blocks",
    "C42_only_within_half_percent"
   ],
   "note": ""
  },
  {
   "property": "C43",
   "status": "proved",
   "theorems": [
    "C43_minimize_returns_last_iterate_and_previous_loss",
    "C43_zero_steps_fails",
    "C43_reported_loss_is_not_at_the_returned_point"
   ],
   "note": ""
  },
  {
   "property": "C44",
   "status": "proved",
   "theorems": [
    "C44_best_trial",
    "C44_single_trial_uses_the_key_itself"
   ],
   "note": ""
  },
  {
   "property": "C45",
   "status": "proved",
   "theorems": [
    "C45_exactly_the_admissible_sequences",
    "C45_no_duplicates_sorted",
    "C45_order_is_min_and_max",
    "C45_count",
    "C45_default_orders",
    "C45_closed_under_reversal"
   ],
   "note": ""
  },
  {
   "property": "C46",
   "status": "proved",
   "theorems": [
    "C46_filter_objects_restricts_candidates",
    "C46_accepting_filter_changes_nothing",
    "C46_filter_keeps_paths_and_validity"
   ],
   "note": ""
  },
  {
   "property": "C47",
   "status": "proved",
   "theorems": [
    "C47_objects_at_the_indices",
    "C47_candidates_never_fail",
    "C47_negative_index",
    "C47_too_large_index"
   ],
   "note": ""
  },
  {
   "property": "C48",
   "status": "proved",
   "theorems": [
    "C48_from_mapping_is_faithful",
    "C48_mismatched_lengths_rejected",
    "C48_one_meaning"
   ],
   "note": ""
  },
  {
   "property": "C49",
   "status": "proved",
   "theorems": [
    "C49_with_transmitters",
    "C49_with_receivers",
    "C49_update_transmitters_is_union",
    "C49_update_receivers_is_union",
    "C49_object_updates",
    "C49_reachable_scenes_have_distinct_names"
   ],
   "note": ""
  },
  {
   "property": "C50",
   "status": "proved",
   "theorems": [
    "C50_rename_transmitters",
    "C50_rename_receivers",
    "C50_unknown_names_ignored"
   ],
   "note": ""
  },
  {
   "property": "C51",
   "status": "proved",
   "theorems": [
    "C51_all_paths_in_order",
    "C51_each_once",
    "C51_order_of_triples",
    "C51_never_fails",
    "C51_default_arguments"
   ],
   "note": ""
  },
  {
   "property": "C52",
   "status": "proved",
   "theorems": [
    "C52_valid_paths_are_the_filtered_paths"
   ],
   "note": ""
  },
  {
   "property": "C53",
   "status": "proved",
   "theorems": [
    "C53_sums_per_pair",
    "C53_no_candidate_yields_nothing",
    "C53_reduce_all_is_the_total"
   ],
   "note": ""
  },
  {
   "property": "C54",
   "status": "proved",
   "theorems": [
    "C54_receivers_grid_is_pointwise",
    "C54_transmitters_grid_is_pointwise",
    "C54_receivers_grid_entries",
    "C54_transmitters_grid_entries",
    "C54_own_nodes_irrelevant",
    "C54_shapes_must_agree",
    "C54_failures_are_raised"
   ],
   "note": ""
  },
  {
   "property": "C55",
   "status": "proved",
   "theorems": [
    "C55_receivers_grid_reduction",
    "C55_transmitters_grid_reduction",
    "C55_mode_precedence"
   ],
   "note": ""
  },
  {
   "property": "C56",
   "status": "proved",
   "theorems": [
    "C56_every_point_used_once",
    "C56_index_names_distinct"
   ],
   "note": ""
  },
  {
   "property": "C57",
   "status": "proved",
   "theorems": [
    "C57_walls_and_nodes",
    "C57_closed_ring_has_a_zero_length_wall",
    "C57_no_features_member",
    "C57_default_corners",
    "C57_altitudes_are_rejected"
   ],
   "note": ""
  },
  {
   "property": "C58",
   "status": "proved",
   "theorems": [
    "C58_point_feature_is_an_error",
    "C58_empty_coordinates",
    "C58_missing_coordinates",
    "C58_other_geometries_are_ignored",
    "C58_not_an_object",
    "C58_coordinates_of_another_shape"
   ],
   "note": ""
  },
  {
   "property": "C59",
   "status": "proved",
   "theorems": [
    "C59_square_scene",
    "C59_square_scene_with_wall",
    "C59_square_scene_with_obstacle",
    "C59_basic_scene",
    "C59_default_nodes_are_in_the_room"
   ],
   "note": ""
  },
  {
   "property": "C60",
   "status": "proved",
   "theorems": [
    "C60_bounds_of_the_power",
    "C60_longer_paths_and_more_interactions_bring_less",
    "C60_strictly_less",
    "C60_depends_on_the_points_only",
    "C60_default_at_most_P0",
    "C60_default_value",
    "C60_without_height"
   ],
   "note": ""
  },
  {
   "property": "C61",
   "status": "proved",
   "theorems": [
    "C61_rotations_and_translations_are_direct",
    "C61_image_path_moves_with_the_scene",
    "C61_all_classes_move_with_the_scene",
    "C61_tests_are_invariant",
    "C61_single_segments",
    "C61_enumeration_moves_with_the_scene",
    "C61_valid_paths_move_with_the_scene",
    "C61_accumulation_is_invariant",
    "C61_received_power_is_invariant",
    "C61_a_mirrored_RIS_is_another_surface",
    "C61_epsilon_breaks_rotations"
   ],
   "note": ""
  },
  {
   "property": "C62",
   "status": "proved",
   "theorems": [
    "C62_finite_and_non_negative",
    "C62_total_finite_and_non_negative",
    "C62_exact_mode_sums_the_valid_paths",
    "C62_more_orders_never_less"
   ],
   "note": ""
  },
  {
   "property": "C63",
   "status": "proved",
   "theorems": [
    "C63_valid_image_paths_are_physical"
   ],
   "note": ""
  },
  {
   "property": "C64",
   "status": "proved",
   "theorems": [
    "C64_valid_paths_are_exactly_the_specular_paths",
    "C64_exact_values_sum_over_the_specular_paths",
    "C64_every_specular_polyline_is_the_image_path"
   ],
   "note": ""
  },
  {
   "property": "C65",
   "status": "proved",
   "theorems": [
    "C65_comparisons_are_lipschitz",
    "C65_connectives_do_not_amplify",
    "C65_all_and_any_do_not_amplify",
    "C65_constant_is_attained"
   ],
   "note": ""
  },
  {
   "property": "C66",
   "status": "proved",
   "theorems": [
    "C66_segments_intersect_is_continuous",
    "C66_overlapping_segments_jump"
   ],
   "note": ""
  },
  {
   "property": "C67",
   "status": "proved",
   "theorems": [
    "C67_validity_is_continuous"
   ],
   "note": ""
  },
  {
   "property": "C68",
   "status": "proved",
   "theorems": [
    "C68_image_path_is_continuous",
    "C68_parallel_configurations_run_away"
   ],
   "note": ""
  },
  {
   "property": "C69",
   "status": "proved",
   "theorems": [
    "C69_accumulated_values_are_continuous",
    "C69_reduced_value_is_continuous",
    "C69_received_power_is_continuous",
    "C69_candidates_without_filter",
    "C69_exact_values_jump"
   ],
   "note": ""
  },
  {
   "property": "C70",
   "status": "proved",
   "theorems": [
    "C70_plot_draws_the_whole_scene",
    "C70_a_general_colour_is_rejected",
    "C70_point_ray_and_path_are_one_call",
    "C70_a_label_is_put_at_its_offset",
    "C70_default_arguments",
    "C70_plotting_only_adds"
   ],
   "note": ""
  },
  {
   "property": "C71",
   "status": "proved",
   "theorems": [
    "C71_smoothed_values_in_range",
    "C71_finite_comparisons_are_not_nan"
   ],
   "note": ""
  },
  {
   "property": "C72",
   "status": "proved",
   "theorems": [
    "C72_comparison_is_monotone",
    "C72_exact_saturation",
    "C72_answers_agree_with_the_order",
    "C72_dead_zone",
    "C72_the_other_comparisons"
   ],
   "note": ""
  },
  {
   "property": "C73",
   "status": "proved",
   "theorems": [
    "C73_de_morgan_is_exact",
    "C73_double_negation",
    "C73_double_negation_loses_small_values"
   ],
   "note": ""
  },
  {
   "property": "C74",
   "status": "proved",
   "theorems": [
    "C74_validity_score_in_range",
    "C74_nan_paths_are_invalid"
   ],
   "note": ""
  },
  {
   "property": "C75",
   "status": "proved",
   "theorems": [
    "C75_path_length_accuracy",
    "C75_received_power_accuracy",
    "C75_accumulation_accuracy",
    "C75_path_length_bounds",
    "C75_received_power_bounds",
    "C75_accumulation_only_grows"
   ],
   "note": ""
  },
  {
   "property": "C76",
   "status": "proved",
   "theorems": [
    "C76_comparison_accuracy",
    "C76_default_arguments",
    "C76_overflow_breaks_accuracy"
   ],
   "note": ""
  },
  {
   "property": "C77",
   "status": "proved",
   "theorems": [
    "C77_segments_anywhere",
    "C77_segments_on_a_grid",
    "C77_a_crossing_can_be_missed"
   ],
   "note": ""
  },
  {
   "property": "C78",
   "status": "proved",
   "theorems": [
    "C78_gradient_descent_rate",
    "C78_the_gradient_exists",
    "C78_gradient_descent_converges",
    "C78_descent_path_tends_to_image_path",
    "C78_descent_validity_tends_to_image_validity",
    "C78_one_reflection_is_found",
    "C78_fermat_objective_is_convex",
    "C78_local_minima_are_global",
    "C78_image_path_minimises_fermat_objective",
    "C78_converged_fermat_path_is_shortest",
    "C78_converged_fermat_path_is_the_image_path"
   ],
   "note": ""
  },
  {
   "property": "C79",
   "status": "proved",
   "theorems": [
    "C79_min_objective_is_nonnegative",
    "C79_image_path_minimises_min_objective",
    "C79_zero_objective_is_the_image_path",
    "C79_fermat_path_reports_its_own_loss",
    "C79_min_path_reports_the_previous_loss",
    "C79_valid_min_path_may_break_the_reflection_law"
   ],
   "note": ""
  },
  {
   "property": "C80",
   "status": "proved",
   "theorems": [
    "C80_reverse_mode_computes_the_derivative",
    "C80_gradients_are_finite_without_infinite_slopes",
    "C80_gradients_are_unique",
    "C80_unselected_branches_count"
   ],
   "note": ""
  },
  {
   "property": "C81",
   "status": "proved",
   "theorems": [
    "C81_length_gradient_is_right",
    "C81_repeated_points_are_fine",
    "C81_length_gradient_fails_only_there"
   ],
   "note": ""
  },
  {
   "property": "C82",
   "status": "proved",
   "theorems": [
    "C82_normalize_gradient_is_right",
    "C82_normalize_gradient_fails_at_zero",
    "C82_evaluate_gradient_is_right",
    "C82_evaluate_gradient_fails_on_repeated_points",
    "C82_ris_evaluate_gradient_is_right",
    "C82_ris_evaluate_gradient_fails_on_repeated_points"
   ],
   "note": ""
  },
  {
   "property": "C83",
   "status": "proved",
   "theorems": [
    "C83_crossing_gradient_is_always_finite",
    "C83_crossing_gradient_is_zero_away_from_the_ends",
    "C83_crossing_gradient_in_a_transition"
   ],
   "note": ""
  },
  {
   "property": "C84",
   "status": "proved",
   "theorems": [
    "C84_parameter_gradient_is_right",
    "C84_image_gradient_is_right",
    "C84_backward_gradient_is_right",
    "C84_backward_gradient_fails_when_parallel"
   ],
   "note": ""
  },
  {
   "property": "C85",
   "status": "proved",
   "theorems": [
    "C85_trace_is_the_code",
    "C85_receiver_gradient_is_finite_iff",
    "C85_transmitter_gradient_is_finite_iff",
    "C85_receiver_gradient_is_right",
    "C85_transmitter_gradient_is_right",
    "C85_nan_gradient_of_a_smooth_accumulation",
    "C85_zero_length_walls_break_gradients",
    "C85_receiver_gradient_in_transitions",
    "C85_transmitter_gradient_in_transitions",
    "C85_settled_paths_are_decided"
   ],
   "note": ""
  },
  {
   "property": "C86",
   "status": "proved",
   "theorems": [
    "C86_hard_score_is_capped",
    "C86_sigmoid_score_is_capped",
    "C86_default_score_is_at_most_two_thirds",
    "C86_free_space_gets_two_thirds",
    "C86_accumulated_value_is_at_most_two_thirds"
   ],
   "note": ""
  },
  {
   "property": "C87",
   "status": "proved",
   "theorems": [
    "C87_trace_is_the_code",
    "C87_receiver_gradient_is_finite_iff",
    "C87_transmitter_gradient_is_finite_iff",
    "C87_gradient_sums_over_the_valid_candidates",
    "C87_receiver_gradient_is_right",
    "C87_transmitter_gradient_is_right",
    "C87_an_invalid_candidate_can_make_the_gradient_nan"
   ],
   "note": ""
  },
  {
   "property": "C88",
   "status": "proved",
   "theorems": [
    "C88_connectives_are_element_wise",
    "C88_comparisons_are_element_wise",
    "C88_one_operand_functions_are_element_wise",
    "C88_other_operands_are_refused",
    "C88_axis_0_combines_the_arguments",
    "C88_default_axis_refuses_arrays",
    "C88_other_axes",
    "C88_other_calls",
    "C88_arguments_of_several_shapes_are_refused",
    "C88_several_shapes_without_jit",
    "C88_no_argument"
   ],
   "note": ""
  },
  {
   "property": "C89",
   "status": "proved",
   "theorems": [
    "C89_exact_validity_anywhere",
    "C89_exact_validity_on_a_grid"
   ],
   "note": ""
  },
  {
   "property": "C90",
   "status": "proved",
   "theorems": [
    "C90_score_never_contradicts",
    "C90_score_decides_moderate_scenes",
    "C90_overflow_rejects_a_valid_path"
   ],
   "note": ""
  },
  {
   "property": "C91",
   "status": "proved",
   "theorems": [
    "C91_scalings_are_similarities",
    "C91_motions_are_similarities",
    "C91_paths_scale_with_the_scene",
    "C91_tests_have_no_unit",
    "C91_enumeration_scales_with_the_scene",
    "C91_valid_paths_scale_with_the_scene",
    "C91_lengths_scale",
    "C91_received_power_scales",
    "C91_epsilon_has_a_unit"
   ],
   "note": ""
  },
  {
   "property": "C92",
   "status": "proved",
   "theorems": [
    "C92_listing_order_same_paths",
    "C92_wall_direction_same_paths",
    "C92_same_scenery_same_values",
    "C92_same_scenery_same_maps",
    "C92_ris_direction_matters"
   ],
   "note": ""
  },
  {
   "property": "C93",
   "status": "proved",
   "theorems": [
    "C93_image_path_backwards",
    "C93_valid_paths",
    "C93_accumulated_values",
    "C93_transmitter_map_is_receiver_map",
    "C93_received_power",
    "C93_step_breaks_received_power",
    "C93_ris_works_one_way"
   ],
   "note": ""
  },
  {
   "property": "C94",
   "status": "proved",
   "theorems": [
    "C94_no_leg_goes_through",
    "C94_other_paths_stay",
    "C94_size_of_the_leak",
    "C94_smoothed_validity_through_walls",
    "C94_smoothed_total_through_walls",
    "C94_smoothed_maps_through_walls",
    "C94_steep_smoothing_seals_the_room",
    "C94_default_smoothing_leaks",
    "C94_valid_path_stays",
    "C94_valid_paths_of_a_scene_stay",
    "C94_smoothed_valid_paths_stay",
    "C94_nothing_gets_through",
    "C94_maps_stop_at_the_walls",
    "C94_rectangles",
    "C94_built_in_rooms",
    "C94_default_receiver_in_the_obstacle",
    "C94_paths_exist_inside",
    "C94_entrance_lets_paths_through"
   ],
   "note": ""
  },
  {
   "property": "C95",
   "status": "proved",
   "theorems": [
    "C95_text_or_file",
    "C95_read_exactly_once",
    "C95_refused",
    "C95_names_and_nodes",
    "C95_ratio",
    "C95_unknown_name"
   ],
   "note": ""
  },
  {
   "property": "C96",
   "status": "proved",
   "theorems": [
    "C96_images_are_exact",
    "C96_reflection_points",
    "C96_loss_is_small",
    "C96_verdict",
    "C96_default_tolerance",
    "C96_oblique_images_are_not_exact",
    "C96_corner_points_are_not_exact",
    "C96_images_anywhere",
    "C96_one_reflection_anywhere",
    "C96_verdict_anywhere",
    "C96_scene_anywhere",
    "C96_default_tolerance_anywhere",
    "C96_no_reflection_on_a_wall_between_the_nodes",
    "C96_power_of_a_scene",
    "C96_a_scene_has_a_power"
   ],
   "note": ""
  },
  {
   "property": "C97",
   "status": "proved",
   "theorems": [
    "C97_steps_of_the_default_optimizer",
    "C97_bounded_travel",
    "C97_reach_of_the_solver_paths",
    "C97_first_step",
    "C97_stationary_points_are_kept",
    "C97_constant_gradient",
    "C97_moves_against_the_gradient",
    "C97_default_arguments",
    "C97_descent_refuted",
    "C97_finite_runs",
    "C97_nan_gradient_is_final",
    "C97_a_nan_trial_wins",
    "C97_best_trial_refuted_with_nan"
   ],
   "note": ""
  },
  {
   "property": "C98",
   "status": "proved",
   "theorems": [
    "C98_hard_score_is_the_margin",
    "C98_sigmoid_score_is_the_margin",
    "C98_settled_paths_score_close_to_exact",
    "C98_borderline_paths_score_one_half",
    "C98_larger_alpha_is_sharper",
    "C98_accumulated_values_approach_the_exact_ones",
    "C98_accumulated_values_converge"
   ],
   "note": ""
  },
  {
   "property": "C99",
   "status": "proved",
   "theorems": [
    "C99_orders_add",
    "C99_sum_of_single_orders",
    "C99_receivers_grid_orders_add",
    "C99_transmitters_grid_orders_add",
    "C99_transmitters_add",
    "C99_receivers_add",
    "C99_linear_in_the_function",
    "C99_grids_add_in_the_function"
   ],
   "note": ""
  }
 ]
}