Closed under the global context  (129 theorems)
   C01_toggle_same_graph C01_toggle_defined_iff C02_transpose C02_switch C02_switch_is_toggle_then_transpose C02_toggle_twice C02_transpose_twice C03_toggle_row C03_toggle_twice_stable_sort C03_toggle_twice_sorted_id C04_remove_double_counting C04_sum C04_idempotent C05_history C05_no_undefined_call C05_constructors C05_constructed C06_set_weights C06_set_neighbours C06_set_neighbours_const C06_push_back C06_clear C07_n_edges_exact C07_n_edges_general C07_row C07_invariant C07_n_edges_refuted C08_partition C08_partition_wf C09_components_strongly_connected C10_maximal_undirected C10_maximal_refuted C11_one_component_strongly_connected C12_draw_unique C12_draw_surplus C12_is_the_sample C13_k_distinct C13_too_many_is_ub C13_zero_keeps_buffer C15_n_connections C15_too_many_connections C16_rows_are_normalised_draws C16_fully_connected_rows C17_fully_connected C17_fully_connected_random C18_lattice C18_symmetric C18_distinct C19_network_file_round_trip C19_network_file_written C20_network_file_graph C20_outgoing_network_refuted C21_simple_agents C21_activity_agents C21_inertial_agents C21_vector_agents C21_empty_vector_refuted C21_agents_written C22_parse_list C22_middle_entries_refuted C23_comments_ignored_network C23_comments_ignored_agents C23_empty_line_ends_network_file C23_empty_line_ends_agent_file C23_one_agent_per_line C23_first_column_unused_file C23_reading_terminates C24_dot_file C24_agent_without_neighbours_refuted C25_synchronous_step C25_constructor C28_before_first_iteration C29_iteration_is_n_encounters C30_selection C30_selection_without_network C30_selection_with_network C30_no_neighbour_is_ub C35_encounter C35_rule C35_iteration_is_n_encounters C35_run C35_initial_vectors C36_counts C36_metric C36_positions C38_activity_bots_constant C38_inertial_bots_constant C38_bot_activities C38_too_many_bots C39_total C39_rk4_step C42_contact_graph C42_simple_graph C42_contacts_per_agent C42_too_many_contacts C44_zero_contacts_repeats C45_activity_weights C45_inertial_weights C50_inertial_total C50_inertial_step C52_common C52_degroot C52_deffuant C52_activity C52_inertial C52_accepted C52_rejected C52_other_entries_ignored C54_schedule C54_opinions_files C54_network_files C54_no_file_twice C54_zero_interval C55_exactly_the_limit C55_run_again C55_no_limit_never_stops C55_degroot_at_most_the_limit C55_degroot_run_again_refuted C56_wrong_number_of_agents_is_undefined C56_right_number_of_agents_needed C58_low_activities_ignored C63_arrangements C65_agent_file C65_network_file C69_activity_columns C69_inertial_columns C69_simple_columns C70_history C101_any_arithmetic
ClassicalDedekindReals.sig_forall_dec, FunctionalExtensionality.functional_extensionality_dep  (61 theorems)
   C16_row_stochastic C16_row_sums_to_one C26_range_kept C26_consensus_fixed C27_without_self_interaction_refuted C28_finished_after_iteration C31_mean_conserved C32_range_kept_real C33_groups_never_interact C34_encounter_dispersion C34_dispersion_never_grows C39_slope_formula C40_step C40_run C40_probabilistic_run C41_mirror C41_zero_stays C41_mirror_inertial C43_never_reciprocated_real C43_always_reciprocated_real C44_zero_contacts_contacts_nobody_refuted C45_weight_formula C49_outside C49_at_one C50_velocity_implicit C50_position C50_isolated_at_rest C50_rest_stays C57_agent_zero_never_convinced C70_large_encounters C71_mu_one_refuted C74_stops_within C75_weighted_mean_kept C81_rate C87_every_selection_is_equally_likely C87_expectation C87_every_network_is_equally_likely C88_pair_without_network C88_larger_first_never C88_pair_with_network C89_expected_dispersion C89_expected_opinion C90_vector_encounter C90_first_prevails C90_second_prevails C90_neither_is_favoured_refuted C91_every_population_is_equally_likely C92_no_network_drift C92_no_network_unbiased_refuted C100_linear C100_order_preserving C100_non_expansive C100_scale_and_shift C100_order_with_negative_weights_refuted C101_numbering_is_irrelevant C104_rescaled C105_activity C105_inertial C106_law C106_vector_law C112_initial_agents
ClassicalDedekindReals.sig_forall_dec, ClassicalDedekindReals.sig_not_dec, FunctionalExtensionality.functional_extensionality_dep  (24 theorems)
   C27_converges_to_consensus C27_run_stops C27_no_warning_then_stops C60_unique C75_influence C75_consensus_value C75_mean C76_isolated_step C76_isolated_run C76_exponential_decay C76_large_time_step_diverges C76_silent_population C79_stationary C81_energy_step C81_energy_run C81_frictionless C81_comes_to_rest C81_silent_population C92_balanced_network C92_lattice C92_no_network_mu_zero C93_run C93_bounded_for_ever C106_vector_without_network_refuted
ClassicalDedekindReals.sig_forall_dec, ClassicalDedekindReals.sig_not_dec, Classical_Prop.classic, FunctionalExtensionality.functional_extensionality_dep  (152 theorems)
   C14_zero_weight_never_sampled C14_two_zero_weights_refuted C28_zero_tolerance_never_stops C28_nan_reported_as_converged_refuted C32_range_kept_float C32_rounding_breaks_hull_refuted C37_square_population C37_non_square_throws C37_without_network C40_in_degree C42_no_self_contact C43_never_reciprocated_double C43_always_reciprocated_double C45_shares_sum_to_one C45_self_weight_zero C46_bounds C46_two_contacts C46_weights_above_one C46_probabilities_refuted C47_inverse_cdf C47_cdf_of_documented_density C47_draw_in_range C47_initial_agents C48_pdf_refuted C48_mean_refuted C48_mean_above_one C49_inside C51_validated_iff_in_range C51_no_nan C51_validated_is_usable_refuted C51_defaults_valid C53_never_incompatible C53_right_model C53_wrong_agent_type_refused C54_zero_interval_accepted_refuted C55_program_performs_the_limit C55_program_never_stops C56_network_file_used C56_saved_network_used C56_network_settings_overridden C56_unreadable_network_file C56_agent_file_used C56_unreadable_agent_file C56_lattice_ignores_network_file_refuted C56_mean_weights_ignores_network_file_refuted C57_agent_zero_never_convinced_float C59_runs_to_the_end C60_weight_proportional C60_two_leading_zeros_refuted C61_same_law_as_top_k C61_top_k C62_single_contact_law C63_successive_sampling C63_expectation C64_contacts_law C66_Erf_is_erf C66_erfinv_inverts_erf C66_erfinv_inverts_erf_ext C67_normal_cdf C67_inverse_cdf C67_inverse_cdf_always C67_pdf C67_draw C68_covariance C68_initial_agents C69_program_columns C71_converges C71_run_converges C72_network_law C73_restart_continues C73_restart_runs C73_network_kept_refuted C74_opinions_converge C74_program_stops C76_bounded_for_every_time_step_refuted C77_step C77_run C77_bots_move_within_an_iteration C77_one_bot C77_bots_fixed_within_iteration_refuted C78_step C78_run C78_neutral_consensus C78_settings C79_values C79_attracting C79_converges C79_even_population C79_two_agents C80_step C80_never_neutral C80_approach C80_even_population C80_test_formula_refuted C81_bounded_for_every_time_step_refuted C82_follows_oscillator C82_closed_form C83_run C83_one_bot C83_bots_at_rest_refuted C83_bots_fixed_within_iteration_refuted C84_mean_drift C84_exactly_conserved_refuted C85_run C85_normalised C85_agreement_kept_refuted C86_iteration C86_run C86_run_weights C86_every_time_step_refuted C86_mean_field_refuted C94_same_result C94_same_files C94_writing_nothing C95_longer_run_extends C95_files_agree C96_seed_given C96_degroot_deterministic C97_other_sections C97_other_model_ignored C98_follows_the_equation C98_mean_field C99_follows_the_equations C99_mean_field C101_double_any_listing_refuted C102_fourth_order C102_mean_field C102_bots_first_order C102_second_order_with_bots_refuted C103_second_order C103_mean_field C104_mirror_double C104_shift_double_refuted C105_double_refuted C107_inertial_run_law C107_network_law C107_run_law C108_run_law C109_edge_probability C109_closer_more_often C109_no_homophily C109_mean_field_one_contact C109_mean_field_two_contacts_refuted C110_run_law C111_expected_contacts C111_expected_contacts_one_way C111_contacts_bounds C111_expected_edges C111_mean_field_contacts_at_most C112_activity_distribution C112_activity_law C112_mean_activity
