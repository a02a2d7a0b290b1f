{
 "claims": [
  {
   "property": "C01",
   "status": "proved",
   "theorems": [
    "C01_toggle_same_graph",
    "C01_toggle_defined_iff"
   ],
   "note": "Exact definedness condition (iff) and graph preservation for every well-formed network."
  },
  {
   "property": "C02",
   "status": "proved",
   "theorems": [
    "C02_transpose",
    "C02_switch",
    "C02_switch_is_toggle_then_transpose",
    "C02_toggle_twice",
    "C02_transpose_twice"
   ],
   "note": "All moves of the table, for every well-formed network."
  },
  {
   "property": "C03",
   "status": "proved",
   "theorems": [
    "C03_toggle_row",
    "C03_toggle_twice_stable_sort",
    "C03_toggle_twice_sorted_id"
   ],
   "note": "Exact row contents after toggle; double toggle = stable sort; identity on sorted rows."
  },
  {
   "property": "C04",
   "status": "proved",
   "theorems": [
    "C04_remove_double_counting",
    "C04_sum",
    "C04_idempotent"
   ],
   "note": "For any std::sort behaviour on ties; the kept weight is the sum in some order for any addition (so also for doubles) and in stored order for an associative-commutative one."
  },
  {
   "property": "C05",
   "status": "proved",
   "theorems": [
    "C05_history",
    "C05_no_undefined_call",
    "C05_constructors",
    "C05_constructed"
   ],
   "note": "Induction over arbitrary call sequences."
  },
  {
   "property": "C06",
   "status": "proved",
   "theorems": [
    "C06_set_weights",
    "C06_set_neighbours",
    "C06_set_neighbours_const",
    "C06_push_back",
    "C06_clear"
   ],
   "note": "Exact after-state of each setter, throwing calls included."
  },
  {
   "property": "C07",
   "status": "proved",
   "theorems": [
    "C07_n_edges_exact",
    "C07_n_edges_general",
    "C07_row",
    "C07_invariant",
    "C07_n_edges_refuted"
   ],
   "note": "n_edges() accumulates in int: the true count reduced to 32 bits (C07_n_edges_general), exact below 2^31 edges, wrong at 2^32 edges (C07_n_edges_refuted)."
  },
  {
   "property": "C08",
   "status": "proved",
   "theorems": [
    "C08_partition",
    "C08_partition_wf"
   ],
   "note": "Termination (fuel n+1 always suffices), no UB, partition."
  },
  {
   "property": "C09",
   "status": "proved",
   "theorems": [
    "C09_components_strongly_connected"
   ],
   "note": "All graphs with in-range indices."
  },
  {
   "property": "C10",
   "status": "proved",
   "theorems": [
    "C10_maximal_undirected",
    "C10_maximal_refuted"
   ],
   "note": "Proved for networks with symmetric edges; that it fails for directed networks is C10_maximal_refuted."
  },
  {
   "property": "C11",
   "status": "proved",
   "theorems": [
    "C11_one_component_strongly_connected"
   ],
   "note": "Follows for every graph although C10 fails."
  },
  {
   "property": "C12",
   "status": "proved",
   "theorems": [
    "C12_draw_unique",
    "C12_draw_surplus",
    "C12_is_the_sample"
   ],
   "note": "For every generator meeting std::sample's contract; the surplus case k > population is characterised exactly."
  },
  {
   "property": "C13",
   "status": "proved",
   "theorems": [
    "C13_k_distinct",
    "C13_too_many_is_ub",
    "C13_zero_keeps_buffer"
   ],
   "note": "For every arithmetic, math library, generator, weight callback and priority queue satisfying the bag laws."
  },
  {
   "property": "C14",
   "status": "proved",
   "theorems": [
    "C14_zero_weight_never_sampled",
    "C14_two_zero_weights_refuted"
   ],
   "note": "Extended reals (IEEE infinities, no rounding), draws strictly in (0,1); two zero weights refute it (C14_two_zero_weights_refuted)."
  },
  {
   "property": "C15",
   "status": "proved",
   "theorems": [
    "C15_n_connections",
    "C15_too_many_connections"
   ],
   "note": "k < n_agents; the unvalidated case k >= n_agents is characterised exactly (padding with agent 0)."
  },
  {
   "property": "C16",
   "status": "proved",
   "theorems": [
    "C16_rows_are_normalised_draws",
    "C16_fully_connected_rows",
    "C16_row_stochastic",
    "C16_row_sums_to_one"
   ],
   "note": "Row = successive draws divided by their sum for any arithmetic; row sums to one in exact arithmetic."
  },
  {
   "property": "C17",
   "status": "proved",
   "theorems": [
    "C17_fully_connected",
    "C17_fully_connected_random"
   ],
   "note": "Both overloads, any arithmetic."
  },
  {
   "property": "C18",
   "status": "proved",
   "theorems": [
    "C18_lattice",
    "C18_symmetric",
    "C18_distinct"
   ],
   "note": "Every edge length that fits an int."
  },
  {
   "property": "C19",
   "status": "proved",
   "theorems": [
    "C19_network_file_round_trip",
    "C19_network_file_written"
   ],
   "note": "std::stod / fmt round trip of each weight is the hypothesis 'printable' (std contract, shown satisfiable)"
  },
  {
   "property": "C20",
   "status": "proved",
   "theorems": [
    "C20_network_file_graph",
    "C20_outgoing_network_refuted"
   ],
   "note": "positive for Incoming, exact transpose for Outgoing (refuted as stated)"
  },
  {
   "property": "C21",
   "status": "proved",
   "theorems": [
    "C21_simple_agents",
    "C21_activity_agents",
    "C21_inertial_agents",
    "C21_vector_agents",
    "C21_empty_vector_refuted",
    "C21_agents_written"
   ],
   "note": "four agent kinds; empty discrete vector refuted"
  },
  {
   "property": "C22",
   "status": "proved",
   "theorems": [
    "C22_parse_list",
    "C22_middle_entries_refuted"
   ],
   "note": "exact description; documented contract refuted for every middle entry"
  },
  {
   "property": "C23",
   "status": "proved",
   "theorems": [
    "C23_comments_ignored_network",
    "C23_comments_ignored_agents",
    "C23_empty_line_ends_network_file",
    "C23_empty_line_ends_agent_file",
    "C23_one_agent_per_line",
    "C23_first_column_unused_file",
    "C23_reading_terminates"
   ],
   "note": ""
  },
  {
   "property": "C24",
   "status": "proved",
   "theorems": [
    "C24_dot_file",
    "C24_agent_without_neighbours_refuted"
   ],
   "note": "refuted in general: UB whenever an agent has no neighbours; exact contents otherwise"
  },
  {
   "property": "C25",
   "status": "proved",
   "theorems": [
    "C25_synchronous_step",
    "C25_constructor"
   ],
   "note": "any arithmetic; constructor included"
  },
  {
   "property": "C26",
   "status": "proved",
   "theorems": [
    "C26_range_kept",
    "C26_consensus_fixed"
   ],
   "note": "exact reals"
  },
  {
   "property": "C27",
   "status": "proved",
   "theorems": [
    "C27_converges_to_consensus",
    "C27_run_stops",
    "C27_no_warning_then_stops",
    "C27_without_self_interaction_refuted"
   ],
   "note": "exact reals; also: without self-interaction it is false (refuted theorem)"
  },
  {
   "property": "C28",
   "status": "proved",
   "theorems": [
    "C28_finished_after_iteration",
    "C28_before_first_iteration",
    "C28_zero_tolerance_never_stops",
    "C28_nan_reported_as_converged_refuted"
   ],
   "note": "exact reals for the criterion; zero tolerance in real, extended and IEEE arithmetic; NaN finding"
  },
  {
   "property": "C29",
   "status": "proved",
   "theorems": [
    "C29_iteration_is_n_encounters"
   ],
   "note": "any arithmetic, any generator meeting the std contracts"
  },
  {
   "property": "C30",
   "status": "proved",
   "theorems": [
    "C30_selection",
    "C30_selection_without_network",
    "C30_selection_with_network",
    "C30_no_neighbour_is_ub"
   ],
   "note": "basic and network mode; UB characterised for an agent without neighbours"
  },
  {
   "property": "C31",
   "status": "proved",
   "theorems": [
    "C31_mean_conserved"
   ],
   "note": "exact reals"
  },
  {
   "property": "C32",
   "status": "proved",
   "theorems": [
    "C32_range_kept_real",
    "C32_range_kept_float",
    "C32_rounding_breaks_hull_refuted"
   ],
   "note": "exact reals for 0<=mu<=1; IEEE binary64 for 0<=mu<=1/2; mu=1 with rounding refuted by a concrete run"
  },
  {
   "property": "C33",
   "status": "proved",
   "theorems": [
    "C33_groups_never_interact"
   ],
   "note": "exact reals"
  },
  {
   "property": "C34",
   "status": "proved",
   "theorems": [
    "C34_encounter_dispersion",
    "C34_dispersion_never_grows"
   ],
   "note": "exact reals"
  },
  {
   "property": "C35",
   "status": "proved",
   "theorems": [
    "C35_encounter",
    "C35_rule",
    "C35_iteration_is_n_encounters",
    "C35_run",
    "C35_initial_vectors"
   ],
   "note": "any arithmetic; runs of any length; dimension below 2^31"
  },
  {
   "property": "C36",
   "status": "proved",
   "theorems": [
    "C36_counts",
    "C36_metric",
    "C36_positions"
   ],
   "note": "length below 2^31 (int counter)"
  },
  {
   "property": "C37",
   "status": "proved",
   "theorems": [
    "C37_square_population",
    "C37_non_square_throws",
    "C37_without_network"
   ],
   "note": "population at most 2^53 agents (exact double conversion), IEEE sqrt"
  },
  {
   "property": "C38",
   "status": "proved",
   "theorems": [
    "C38_activity_bots_constant",
    "C38_inertial_bots_constant",
    "C38_bot_activities",
    "C38_too_many_bots"
   ],
   "note": "activity-driven and inertial, any arithmetic, runs of any length; n_bots above the number of agents is undefined behaviour"
  },
  {
   "property": "C39",
   "status": "proved",
   "theorems": [
    "C39_total",
    "C39_rk4_step",
    "C39_slope_formula"
   ],
   "note": "any arithmetic; total for usable settings"
  },
  {
   "property": "C40",
   "status": "proved",
   "theorems": [
    "C40_step",
    "C40_run",
    "C40_probabilistic_run",
    "C40_in_degree"
   ],
   "note": "exact reals; in-degree bound for the probabilistic network"
  },
  {
   "property": "C41",
   "status": "proved",
   "theorems": [
    "C41_mirror",
    "C41_zero_stays",
    "C41_mirror_inertial"
   ],
   "note": "exact reals; whole runs including the network draws; activity-driven and inertial"
  },
  {
   "property": "C42",
   "status": "proved",
   "theorems": [
    "C42_contact_graph",
    "C42_simple_graph",
    "C42_contacts_per_agent",
    "C42_too_many_contacts",
    "C42_no_self_contact"
   ],
   "note": "any arithmetic; no self contact in extended-real arithmetic; more contacts than agents is undefined behaviour"
  },
  {
   "property": "C43",
   "status": "proved",
   "theorems": [
    "C43_never_reciprocated_real",
    "C43_always_reciprocated_real",
    "C43_never_reciprocated_double",
    "C43_always_reciprocated_double"
   ],
   "note": "exact reals and binary64"
  },
  {
   "property": "C44",
   "status": "proved",
   "theorems": [
    "C44_zero_contacts_repeats",
    "C44_zero_contacts_contacts_nobody_refuted"
   ],
   "note": "the stated claim is false: refuted by a concrete run, and the actual behaviour (previous contacts reused) is proved in general"
  },
  {
   "property": "C45",
   "status": "proved",
   "theorems": [
    "C45_activity_weights",
    "C45_inertial_weights",
    "C45_weight_formula",
    "C45_shares_sum_to_one",
    "C45_self_weight_zero"
   ],
   "note": "any arithmetic for the weights, exact reals for the sums"
  },
  {
   "property": "C46",
   "status": "proved",
   "theorems": [
    "C46_bounds",
    "C46_two_contacts",
    "C46_weights_above_one",
    "C46_probabilities_refuted"
   ],
   "note": "the stated claim is false in general: refuted by a concrete run; bounds proved, and the claim for at most two contacts"
  },
  {
   "property": "C47",
   "status": "proved",
   "theorems": [
    "C47_inverse_cdf",
    "C47_cdf_of_documented_density",
    "C47_draw_in_range",
    "C47_initial_agents"
   ],
   "note": "exact reals, gamma > 1"
  },
  {
   "property": "C48",
   "status": "proved",
   "theorems": [
    "C48_pdf_refuted",
    "C48_mean_refuted",
    "C48_mean_above_one"
   ],
   "note": "the stated claim is false: both refuted for all parameters (pdf at every point of (0,1), mean by an explicit positive gap)"
  },
  {
   "property": "C49",
   "status": "proved",
   "theorems": [
    "C49_outside",
    "C49_at_one",
    "C49_inside"
   ],
   "note": "extended reals with exact sqrt and log1p; accuracy of the approximation is not claimed"
  },
  {
   "property": "C50",
   "status": "proved",
   "theorems": [
    "C50_inertial_total",
    "C50_inertial_step",
    "C50_velocity_implicit",
    "C50_position",
    "C50_isolated_at_rest",
    "C50_rest_stays"
   ],
   "note": "any arithmetic for the step; exact reals for the implicit equation and rest states"
  },
  {
   "property": "C51",
   "status": "proved",
   "theorems": [
    "C51_validated_iff_in_range",
    "C51_no_nan",
    "C51_validated_is_usable_refuted",
    "C51_defaults_valid"
   ],
   "note": "validate_settings on doubles (Flocq binary64): accepts iff in range, throws otherwise, never accepts NaN; defaults valid; unchecked combinations refuted"
  },
  {
   "property": "C52",
   "status": "proved",
   "theorems": [
    "C52_common",
    "C52_degroot",
    "C52_deffuant",
    "C52_activity",
    "C52_inertial",
    "C52_accepted",
    "C52_rejected",
    "C52_other_entries_ignored"
   ],
   "note": "every option of every model, exact acceptance condition, unknown entries ignored; toml++ value<T> conversions are a modelled contract"
  },
  {
   "property": "C53",
   "status": "proved",
   "theorems": [
    "C53_never_incompatible",
    "C53_right_model",
    "C53_wrong_agent_type_refused"
   ],
   "note": "Incompatible-type and bad-variant exceptions unreachable from main for every configuration, file contents and random stream (assuming stod/file reading throw only their documented exceptions); the model created has the configured parameters."
  },
  {
   "property": "C54",
   "status": "proved",
   "theorems": [
    "C54_schedule",
    "C54_opinions_files",
    "C54_network_files",
    "C54_no_file_twice",
    "C54_zero_interval",
    "C54_zero_interval_accepted_refuted"
   ],
   "note": "Exact list of files, in order, with contents; zero intervals refuted (accepted by validation, then modulo by zero)."
  },
  {
   "property": "C55",
   "status": "proved",
   "theorems": [
    "C55_exactly_the_limit",
    "C55_run_again",
    "C55_no_limit_never_stops",
    "C55_degroot_at_most_the_limit",
    "C55_degroot_run_again_refuted",
    "C55_program_performs_the_limit",
    "C55_program_never_stops"
   ],
   "note": "Exactly the limit for counting models, at most for DeGroot; no limit or a negative limit never stops; a converged DeGroot model does nothing when run again (refuted)."
  },
  {
   "property": "C56",
   "status": "proved",
   "theorems": [
    "C56_network_file_used",
    "C56_saved_network_used",
    "C56_network_settings_overridden",
    "C56_unreadable_network_file",
    "C56_agent_file_used",
    "C56_unreadable_agent_file",
    "C56_lattice_ignores_network_file_refuted",
    "C56_mean_weights_ignores_network_file_refuted",
    "C56_wrong_number_of_agents_is_undefined",
    "C56_right_number_of_agents_needed"
   ],
   "note": "Files used as stated, including the two cases in which the network file is overridden (refuted theorems) and the unchecked agent count."
  },
  {
   "property": "C57",
   "status": "proved",
   "theorems": [
    "C57_agent_zero_never_convinced",
    "C57_agent_zero_never_convinced_float"
   ],
   "note": "exact reals for mu>=1, binary64 for mu=1.0"
  },
  {
   "property": "C58",
   "status": "proved",
   "theorems": [
    "C58_low_activities_ignored"
   ],
   "note": "any arithmetic"
  },
  {
   "property": "C59",
   "status": "proved",
   "theorems": [
    "C59_runs_to_the_end"
   ],
   "note": "For every generator satisfying the sampling/range contracts."
  },
  {
   "property": "C60",
   "status": "proved",
   "theorems": [
    "C60_weight_proportional",
    "C60_unique",
    "C60_two_leading_zeros_refuted"
   ],
   "note": "Exact probability as an iterated integral over the uniform variates, exact extended-real arithmetic; refuted when the first two weights are zero (always the last index)."
  },
  {
   "property": "C61",
   "status": "proved",
   "theorems": [
    "C61_same_law_as_top_k",
    "C61_top_k"
   ],
   "note": "Every function of the drawn list has the expectation it has under A-Res whenever the latter exists as an iterated integral; A-Res shown to select the top k keys."
  },
  {
   "property": "C62",
   "status": "proved",
   "theorems": [
    "C62_single_contact_law"
   ],
   "note": "One probabilistic contact step with m=1, exact arithmetic."
  },
  {
   "property": "C63",
   "status": "proved",
   "theorems": [
    "C63_successive_sampling",
    "C63_expectation",
    "C63_arrangements"
   ],
   "note": "Any k, any sequence; also the expectation of every function of the output."
  },
  {
   "property": "C64",
   "status": "proved",
   "theorems": [
    "C64_contacts_law"
   ],
   "note": "One probabilistic contact step, any m < n, exact arithmetic."
  },
  {
   "property": "C65",
   "status": "proved",
   "theorems": [
    "C65_agent_file",
    "C65_network_file"
   ],
   "note": "Exact text; number formatting of doubles is a parameter."
  },
  {
   "property": "C66",
   "status": "proved",
   "theorems": [
    "C66_Erf_is_erf",
    "C66_erfinv_inverts_erf",
    "C66_erfinv_inverts_erf_ext"
   ],
   "note": "Exact arithmetic; the C library functions sqrt and log1p are assumed exact (math_libm). Erf is defined as the integral and C66_Erf_is_erf shows it is the error function."
  },
  {
   "property": "C67",
   "status": "proved",
   "theorems": [
    "C67_normal_cdf",
    "C67_inverse_cdf",
    "C67_inverse_cdf_always",
    "C67_pdf",
    "C67_draw"
   ],
   "note": "Exact arithmetic, C library functions exact (math_libm). The 1e-9 relative bound needs the probabilities involved to be at least 1e-250; C67_inverse_cdf_always has no such restriction."
  },
  {
   "property": "C68",
   "status": "proved",
   "theorems": [
    "C68_covariance",
    "C68_initial_agents"
   ],
   "note": "Exact arithmetic, C library functions exact (math_libm). C68_covariance is for any expectation operator under which the two normal variates are standard and uncorrelated."
  },
  {
   "property": "C69",
   "status": "proved",
   "theorems": [
    "C69_activity_columns",
    "C69_inertial_columns",
    "C69_simple_columns",
    "C69_program_columns"
   ],
   "note": "Files whose numbers are readable back (printable); inertial rows shorter than 2^31 characters. C69_program_columns is the statement about the agents the program creates."
  },
  {
   "property": "C70",
   "status": "proved",
   "theorems": [
    "C70_history",
    "C70_large_encounters"
   ],
   "note": "encounter-indexed infinite histories, which exist for every run (C70_history); exact arithmetic"
  },
  {
   "property": "C71",
   "status": "proved",
   "theorems": [
    "C71_converges",
    "C71_run_converges",
    "C71_mu_one_refuted"
   ],
   "note": "exact arithmetic; C71_run_converges is the per-iteration view; C71_mu_one_refuted shows that mu < 1 is needed although the settings accept mu = 1"
  },
  {
   "property": "C72",
   "status": "proved",
   "theorems": [
    "C72_network_law"
   ],
   "note": "exact (extended real) arithmetic with exact pow and log; uniform variates independent on (0,1); 1 <= m < n for every agent (for m = 0 the sampler reuses the previous agent's contacts and for m = n it selects the agent itself, see DESIGN section 3)"
  },
  {
   "property": "C73",
   "status": "proved",
   "theorems": [
    "C73_restart_continues",
    "C73_restart_runs",
    "C73_network_kept_refuted"
   ],
   "note": "complete statement, for the models that draw no random numbers while running; hypotheses: doubles in the two files read back, sizes as in C59, limits below 2^31 / 2^64"
  },
  {
   "property": "C74",
   "status": "proved",
   "theorems": [
    "C74_stops_within",
    "C74_opinions_converge",
    "C74_program_stops"
   ],
   "note": "exact real arithmetic; no connectivity assumed; for the program the uniform variates are assumed bounded away from 0 (a zero own weight would break self-interaction)"
  },
  {
   "property": "C75",
   "status": "proved",
   "theorems": [
    "C75_weighted_mean_kept",
    "C75_influence",
    "C75_consensus_value",
    "C75_mean"
   ],
   "note": "exact real arithmetic"
  },
  {
   "property": "C76",
   "status": "proved",
   "theorems": [
    "C76_isolated_step",
    "C76_isolated_run",
    "C76_exponential_decay",
    "C76_large_time_step_diverges",
    "C76_silent_population",
    "C76_bounded_for_every_time_step_refuted"
   ],
   "note": "step, run, exponential error bound, silent populations; divergence for dt >= 3; exact real arithmetic"
  },
  {
   "property": "C77",
   "status": "proved",
   "theorems": [
    "C77_step",
    "C77_run",
    "C77_bots_move_within_an_iteration",
    "C77_one_bot",
    "C77_bots_fixed_within_iteration_refuted"
   ],
   "note": "explicit first-order error bound; the stronger 'bots are fixed within an iteration' is refuted"
  },
  {
   "property": "C78",
   "status": "proved",
   "theorems": [
    "C78_step",
    "C78_run",
    "C78_neutral_consensus",
    "C78_settings"
   ],
   "note": "conditional on a bound of the coupling along the run; C78_settings discharges it from the settings"
  },
  {
   "property": "C79",
   "status": "proved",
   "theorems": [
    "C79_values",
    "C79_stationary",
    "C79_attracting",
    "C79_converges",
    "C79_even_population",
    "C79_two_agents"
   ],
   "note": "values, stationarity, attraction; evenly coupled runs shown to exist for mean-field populations"
  },
  {
   "property": "C80",
   "status": "proved",
   "theorems": [
    "C80_step",
    "C80_never_neutral",
    "C80_approach",
    "C80_even_population",
    "C80_test_formula_refuted"
   ],
   "note": "invariant and geometric approach; the formula of the project's test is refuted"
  },
  {
   "property": "C81",
   "status": "proved",
   "theorems": [
    "C81_energy_step",
    "C81_rate",
    "C81_energy_run",
    "C81_frictionless",
    "C81_comes_to_rest",
    "C81_silent_population",
    "C81_bounded_for_every_time_step_refuted"
   ],
   "note": "exact balance, geometric decay, limit; boundedness for every time step is refuted (dt = 3)"
  },
  {
   "property": "C82",
   "status": "proved",
   "theorems": [
    "C82_follows_oscillator",
    "C82_closed_form"
   ],
   "note": "second-order bound, closed forms, uniqueness"
  },
  {
   "property": "C83",
   "status": "proved",
   "theorems": [
    "C83_run",
    "C83_one_bot",
    "C83_bots_at_rest_refuted",
    "C83_bots_fixed_within_iteration_refuted"
   ],
   "note": "explicit first-order error bound; 'bots stay at rest' and 'bots are fixed within an iteration' are refuted"
  },
  {
   "property": "C84",
   "status": "proved",
   "theorems": [
    "C84_mean_drift",
    "C84_exactly_conserved_refuted"
   ],
   "note": "IEEE binary64, run with abstract generator"
  },
  {
   "property": "C85",
   "status": "proved",
   "theorems": [
    "C85_run",
    "C85_normalised",
    "C85_agreement_kept_refuted"
   ],
   "note": "IEEE binary64 against exact_degroot"
  },
  {
   "property": "C86",
   "status": "proved",
   "theorems": [
    "C86_iteration",
    "C86_run",
    "C86_run_weights",
    "C86_every_time_step_refuted",
    "C86_mean_field_refuted"
   ],
   "note": "IEEE binary64; contract on tanh; probabilistic mode unconditional in the networks, general mode for given weights"
  },
  {
   "property": "C87",
   "status": "proved",
   "theorems": [
    "C87_every_selection_is_equally_likely",
    "C87_expectation",
    "C87_every_network_is_equally_likely"
   ],
   "note": "exact probabilities; all draws computed from one tape of independent uniform variates (std::sample as selection sampling)"
  },
  {
   "property": "C88",
   "status": "proved",
   "theorems": [
    "C88_pair_without_network",
    "C88_larger_first_never",
    "C88_pair_with_network"
   ],
   "note": "exact probabilities; all draws computed from one tape of independent uniform variates (std::sample as selection sampling)"
  },
  {
   "property": "C89",
   "status": "proved",
   "theorems": [
    "C89_expected_dispersion",
    "C89_expected_opinion"
   ],
   "note": "exact probabilities; all draws computed from one tape of independent uniform variates (std::sample as selection sampling)"
  },
  {
   "property": "C90",
   "status": "proved",
   "theorems": [
    "C90_vector_encounter",
    "C90_first_prevails",
    "C90_second_prevails",
    "C90_neither_is_favoured_refuted"
   ],
   "note": "exact probabilities; all draws computed from one tape of independent uniform variates (std::sample as selection sampling)"
  },
  {
   "property": "C91",
   "status": "proved",
   "theorems": [
    "C91_every_population_is_equally_likely"
   ],
   "note": "exact probabilities; all draws computed from one tape of independent uniform variates (std::sample as selection sampling)"
  },
  {
   "property": "C92",
   "status": "proved",
   "theorems": [
    "C92_balanced_network",
    "C92_lattice",
    "C92_no_network_mu_zero",
    "C92_no_network_drift",
    "C92_no_network_unbiased_refuted"
   ],
   "note": "exact expectations; all draws computed from one tape of independent uniform variates (std::sample as selection sampling)"
  },
  {
   "property": "C93",
   "status": "proved",
   "theorems": [
    "C93_run",
    "C93_bounded_for_ever"
   ],
   "note": "exact arithmetic; friction > 0, dt in (0,1], dt * friction < 4"
  },
  {
   "property": "C94",
   "status": "proved",
   "theorems": [
    "C94_same_result",
    "C94_same_files",
    "C94_writing_nothing"
   ],
   "note": "all models, arbitrary arithmetic"
  },
  {
   "property": "C95",
   "status": "proved",
   "theorems": [
    "C95_longer_run_extends",
    "C95_files_agree"
   ],
   "note": "all models, arbitrary arithmetic"
  },
  {
   "property": "C96",
   "status": "proved",
   "theorems": [
    "C96_seed_given",
    "C96_degroot_deterministic"
   ],
   "note": "arbitrary arithmetic"
  },
  {
   "property": "C97",
   "status": "proved",
   "theorems": [
    "C97_other_sections",
    "C97_other_model_ignored"
   ],
   "note": "arbitrary arithmetic"
  },
  {
   "property": "C98",
   "status": "proved",
   "theorems": [
    "C98_follows_the_equation",
    "C98_mean_field"
   ],
   "note": "C98_follows_the_equation for any constant network (bots included), C98_mean_field for the mean-field mode without homophily; first order in dt"
  },
  {
   "property": "C99",
   "status": "proved",
   "theorems": [
    "C99_follows_the_equations",
    "C99_mean_field"
   ],
   "note": "C99_follows_the_equations for any constant network (bots included), C99_mean_field for the mean-field mode without homophily; first order in dt"
  },
  {
   "property": "C100",
   "status": "proved",
   "theorems": [
    "C100_linear",
    "C100_order_preserving",
    "C100_non_expansive",
    "C100_scale_and_shift",
    "C100_order_with_negative_weights_refuted"
   ],
   "note": "linearity, order, non-expansion, scaling in exact arithmetic; order refuted with negative weights"
  },
  {
   "property": "C101",
   "status": "proved",
   "theorems": [
    "C101_numbering_is_irrelevant",
    "C101_any_arithmetic",
    "C101_double_any_listing_refuted"
   ],
   "note": "exact arithmetic for any listing; every arithmetic for the corresponding listing; refuted for other listings in doubles"
  },
  {
   "property": "C102",
   "status": "proved",
   "theorems": [
    "C102_fourth_order",
    "C102_mean_field",
    "C102_bots_first_order",
    "C102_second_order_with_bots_refuted"
   ],
   "note": "Fourth order on any constant network without bots, for every solution of the equation and with a constant independent of the time step and the run; mean-field corollary with existence of the run; with a bot an explicit first-order lower bound, and second order refuted."
  },
  {
   "property": "C103",
   "status": "proved",
   "theorems": [
    "C103_second_order",
    "C103_mean_field"
   ],
   "note": "Second order of opinions and velocities on any constant network without bots, constant independent of time step and run; mean-field corollary with existence of the run; instance with the closed-form damped oscillation."
  },
  {
   "property": "C104",
   "status": "proved",
   "theorems": [
    "C104_rescaled",
    "C104_mirror_double",
    "C104_shift_double_refuted"
   ],
   "note": "Affine equivariance of whole runs in exact arithmetic, mirror symmetry in double precision for all values including overflow and NaN; shift invariance in doubles refuted."
  },
  {
   "property": "C105",
   "status": "proved",
   "theorems": [
    "C105_activity",
    "C105_inertial",
    "C105_double_refuted"
   ],
   "note": "any libm, any number of iterations, activity-driven and inertial; runs exist and do not touch the generator; agents, contact rows and stopping decision are renumbered. The same claim in double precision is refuted."
  },
  {
   "property": "C106",
   "status": "proved",
   "theorems": [
    "C106_law",
    "C106_vector_law",
    "C106_vector_without_network_refuted"
   ],
   "note": "basic model with and without network, binary vectors on a network; the same claim for binary vectors without a network is refuted."
  },
  {
   "property": "C107",
   "status": "proved",
   "theorems": [
    "C107_inertial_run_law",
    "C107_network_law",
    "C107_run_law"
   ],
   "note": "Equality of the laws of one update of the probabilistic contact network, and of the opinions after any number of iterations, under any renumbering of agents and bots."
  },
  {
   "property": "C108",
   "status": "proved",
   "theorems": [
    "C108_run_law"
   ],
   "note": "Exact law of the opinions after any number of iterations as an explicit Markov chain."
  },
  {
   "property": "C109",
   "status": "proved",
   "theorems": [
    "C109_edge_probability",
    "C109_closer_more_often",
    "C109_no_homophily",
    "C109_mean_field_one_contact",
    "C109_mean_field_two_contacts_refuted"
   ],
   "note": "edge probabilities of the stochastic network in closed form; relation to the mean-field weights (equal for one contact and activity 1, refuted for two contacts)"
  },
  {
   "property": "C110",
   "status": "proved",
   "theorems": [
    "C110_run_law"
   ],
   "note": "exact law of a run of the inertial model with probabilistic contacts, in extended reals with finite values; independent of the numbering (C107_inertial_run_law)"
  },
  {
   "property": "C111",
   "status": "proved",
   "theorems": [
    "C111_expected_contacts",
    "C111_expected_contacts_one_way",
    "C111_contacts_bounds",
    "C111_expected_edges",
    "C111_mean_field_contacts_at_most"
   ],
   "note": "expected number of contacts and edges of the stochastic network in closed form, bounds; the mean-field contact probabilities of an agent add up to at most its number of contacts"
  },
  {
   "property": "C112",
   "status": "proved",
   "theorems": [
    "C112_activity_distribution",
    "C112_activity_law",
    "C112_mean_activity",
    "C112_initial_agents"
   ],
   "note": "exact law of the initial activities (power law on [eps,1]) over the normal number they are computed from, mean activity in closed form, link to the constructor; exact real arithmetic and exact erf/sqrt/pow"
  }
 ]
}