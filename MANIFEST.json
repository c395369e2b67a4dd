{
 "claims": [
  {
   "property": "C01",
   "status": "proved",
   "theorems": [
    "C01_site_index_bijection",
    "C01_volume_is_product_of_extents",
    "C01_even_sites_first",
    "C01_site_loop_visits_each_site_once",
    "C01_coordinates_invert_site_index"
   ],
   "note": ""
  },
  {
   "property": "C02",
   "status": "proved",
   "theorems": [
    "C02_every_site_has_exactly_one_owner",
    "C02_ranks_hold_only_lattice_sites"
   ],
   "note": ""
  },
  {
   "property": "C03",
   "status": "proved",
   "theorems": [
    "C03_block_remap_is_a_permutation",
    "C03_blocked_layout_is_valid",
    "C03_trivial_layout_is_valid"
   ],
   "note": ""
  },
  {
   "property": "C04",
   "status": "proved",
   "theorems": [
    "C04_neighbour_read_after_gather",
    "C04_gather_only_fills_its_halo",
    "C04_messages_match",
    "C04_every_send_has_a_receiver",
    "C04_neighbour_index_in_range"
   ],
   "note": ""
  },
  {
   "property": "C05",
   "status": "proved",
   "theorems": [
    "C05_neighbour_reads_are_never_stale",
    "C05_final_contents",
    "C05_no_undefined_behaviour",
    "C05_matched_waits_never_exit",
    "C05_no_deadlock",
    "C05_every_schedule_is_finite",
    "C05_every_message_received_exactly_once",
    "C05_unmatched_wait_exits_refuted"
   ],
   "note": ""
  },
  {
   "property": "C06",
   "status": "proved",
   "theorems": [
    "C06_stale_read_on_odd_lattice",
    "C06_reads_never_stale_refuted"
   ],
   "note": ""
  },
  {
   "property": "C07",
   "status": "proved",
   "theorems": [
    "C07_every_site_processed_exactly_once",
    "C07_sites_needing_halo_come_after_wait",
    "C07_waits_once_if_started",
    "C07_sites_before_wait_read_current_values"
   ],
   "note": ""
  },
  {
   "property": "C08",
   "status": "proved",
   "theorems": [
    "C08_opposite_direction",
    "C08_add_then_subtract_direction",
    "C08_periodic_modulo",
    "C08_neighbour_is_periodic_step",
    "C08_step_forth_and_back",
    "C08_step_flips_parity",
    "C08_periodic_step_flips_parity_on_even_lattices",
    "C08_odd_size_wrap_keeps_parity_refuted"
   ],
   "note": ""
  },
  {
   "property": "C09",
   "status": "proved",
   "theorems": [
    "C09_blocked_lattice_is_valid",
    "C09_blocked_site_on_same_rank",
    "C09_rank_holds_blocked_site_iff_parent_site",
    "C09_block_from_copies_subsampled_field",
    "C09_unblock_to_writes_exactly_blocked_sites",
    "C09_block_then_unblock_is_identity"
   ],
   "note": ""
  },
  {
   "property": "C10",
   "status": "proved",
   "theorems": [
    "C10_blocking_follows_the_chain",
    "C10_unblock_undoes_block",
    "C10_unblock_undoes_block_refuted",
    "C10_block_by_one_then_unblock_refuted"
   ],
   "note": ""
  },
  {
   "property": "C11",
   "status": "proved",
   "theorems": [
    "C11_accepted_layout_is_valid",
    "C11_boxes_tile_the_lattice",
    "C11_slicing_never_gets_stuck",
    "C11_two_sites_in_every_direction_refuted"
   ],
   "note": ""
  },
  {
   "property": "C12",
   "status": "proved",
   "theorems": [
    "C12_done_after_two_turns_or_never",
    "C12_terminates_if_ranks_divide_volume",
    "C12_terminates_refuted"
   ],
   "note": ""
  },
  {
   "property": "C13",
   "status": "proved",
   "theorems": [
    "C13_element_operations",
    "C13_set_then_get"
   ],
   "note": ""
  },
  {
   "property": "C14",
   "status": "proved",
   "theorems": [
    "C14_gather_in_list_order",
    "C14_scatter_to_distinct_sites",
    "C14_scatter_last_value_wins",
    "C14_set_elements_then_get_elements"
   ],
   "note": ""
  },
  {
   "property": "C15",
   "status": "proved",
   "theorems": [
    "C15_file_contents",
    "C15_independent_of_ranks_and_buffer",
    "C15_round_trip",
    "C15_round_trip_of_several_fields",
    "C15_truncated_file_is_noticed",
    "C15_element_larger_than_buffer_refuted"
   ],
   "note": ""
  },
  {
   "property": "C16",
   "status": "proved",
   "theorems": [
    "C16_replicated",
    "C16_covered_sites_set_others_unwritten",
    "C16_every_site_set_refuted",
    "C16_larger_configuration_refuted"
   ],
   "note": ""
  },
  {
   "property": "C17",
   "status": "proved",
   "theorems": [
    "C17_shift_all",
    "C17_shift_of_one_parity",
    "C17_shifts_compose",
    "C17_shift_back",
    "C17_one_parity_on_odd_lattice_refuted"
   ],
   "note": ""
  },
  {
   "property": "C18",
   "status": "proved",
   "theorems": [
    "C18_reductions",
    "C18_independent_of_the_division"
   ],
   "note": ""
  },
  {
   "property": "C19",
   "status": "proved",
   "theorems": [
    "C19_histories",
    "C19_assign_accumulate_read",
    "C19_delayed_after_read_refuted",
    "C19_assigned_value_on_other_ranks_refuted",
    "C19_plus_outside_loops_delayed_refuted",
    "C19_delayed_switched_off_refuted"
   ],
   "note": ""
  },
  {
   "property": "C20",
   "status": "proved",
   "theorems": [
    "C20_histories",
    "C20_delayed_product_refuted",
    "C20_assignment_while_delayed_refuted"
   ],
   "note": ""
  },
  {
   "property": "C21",
   "status": "proved",
   "theorems": [
    "C21_minmax",
    "C21_value",
    "C21_nothing_beyond_the_initial_value",
    "C21_negative_maximum_refuted",
    "C21_location_of_the_limit_refuted"
   ],
   "note": ""
  },
  {
   "property": "C22",
   "status": "proved",
   "theorems": [
    "C22_right_message",
    "C22_every_message",
    "C22_tags"
   ],
   "note": ""
  },
  {
   "property": "C23",
   "status": "proved",
   "theorems": [
    "C23_histories",
    "C23_bad_free_stops",
    "C23_purge_without_gpu_refuted"
   ],
   "note": ""
  },
  {
   "property": "C24",
   "status": "proved",
   "theorems": [
    "C24_sites",
    "C24_sites_and_values",
    "C24_first_value_stays",
    "C24_select_twice_refuted",
    "C24_lowered_maximum_refuted"
   ],
   "note": ""
  },
  {
   "property": "C25",
   "status": "proved",
   "theorems": [
    "C25_labels",
    "C25_components"
   ],
   "note": ""
  },
  {
   "property": "C26",
   "status": "proved",
   "theorems": [
    "C26_list",
    "C26_clusters"
   ],
   "note": ""
  },
  {
   "property": "C27",
   "status": "proved",
   "theorems": [
    "C27_encoding",
    "C27_type_out_of_range_refuted"
   ],
   "note": ""
  },
  {
   "property": "C28",
   "status": "proved",
   "theorems": [
    "C28_values",
    "C28_flag_words",
    "C28_accepted",
    "C28_unknown_words",
    "C28_wrong_number",
    "C28_missing_arguments_refuted",
    "C28_missing_arguments_by_name_refuted",
    "C28_undeclared_refuted"
   ],
   "note": ""
  },
  {
   "property": "C29",
   "status": "proved",
   "theorems": [
    "C29_permutation",
    "C29_reachable",
    "C29_directions_and_parities",
    "C29_directions"
   ],
   "note": ""
  },
  {
   "property": "C30",
   "status": "proved",
   "theorems": [
    "C30_single",
    "C30_partitions",
    "C30_clock_partitions_refuted"
   ],
   "note": ""
  },
  {
   "property": "C31",
   "status": "proved",
   "theorems": [
    "C31_transform",
    "C31_identity",
    "C31_columns",
    "C31_sections",
    "C31_no_direction_refuted",
    "C31_empty_rank_refuted"
   ],
   "note": ""
  },
  {
   "property": "C32",
   "status": "proved",
   "theorems": [
    "C32_reflect",
    "C32_odd_refuted"
   ],
   "note": ""
  },
  {
   "property": "C33",
   "status": "proved",
   "theorems": [
    "C33_modes",
    "C33_symmetrised",
    "C33_symmetric_unchanged",
    "C33_reflected_field",
    "C33_odd_sizes_refuted"
   ],
   "note": ""
  },
  {
   "property": "C34",
   "status": "proved",
   "theorems": [
    "C34_add",
    "C34_sum",
    "C34_sum_from_zero",
    "C34_order",
    "C34_add_variables",
    "C34_equal",
    "C34_multiply",
    "C34_multiply_large_refuted",
    "C34_multiply_smallest_refuted",
    "C34_unsigned_minus_refuted"
   ],
   "note": ""
  },
  {
   "property": "C35",
   "status": "proved",
   "theorems": [
    "C35_allocated",
    "C35_places",
    "C35_set_element",
    "C35_get_vector",
    "C35_set_vector",
    "C35_gather",
    "C35_place",
    "C35_whole_vectors",
    "C35_halo",
    "C35_double_and_float"
   ],
   "note": ""
  },
  {
   "property": "C36",
   "status": "proved",
   "theorems": [
    "C36_edits",
    "C36_dump",
    "C36_original",
    "C36_dump_refuted"
   ],
   "note": ""
  },
  {
   "property": "C37",
   "status": "proved",
   "theorems": [
    "C37_characters",
    "C37_find_word",
    "C37_find_word_refuted",
    "C37_find_first_refuted",
    "C37_contains",
    "C37_contains_words",
    "C37_contains_refuted",
    "C37_whitespace",
    "C37_lines",
    "C37_clean_name",
    "C37_clean_name_refuted",
    "C37_remove_X",
    "C37_remove_X_refuted"
   ],
   "note": ""
  },
  {
   "property": "C38",
   "status": "proved",
   "theorems": [
    "C38_rearranged",
    "C38_no_loss",
    "C38_stops"
   ],
   "note": ""
  },
  {
   "property": "C39",
   "status": "proved",
   "theorems": [
    "C39_bin",
    "C39_one_bin",
    "C39_hits"
   ],
   "note": ""
  },
  {
   "property": "C40",
   "status": "proved",
   "theorems": [
    "C40_centre",
    "C40_centre_refuted",
    "C40_linear",
    "C40_outside",
    "C40_defined",
    "C40_accept"
   ],
   "note": ""
  },
  {
   "property": "C41",
   "status": "proved",
   "theorems": [
    "C41_round_trip",
    "C41_centres",
    "C41_exact_refuted",
    "C41_header_needed"
   ],
   "note": ""
  },
  {
   "property": "C42",
   "status": "proved",
   "theorems": [
    "C42_direct",
    "C42_smooth",
    "C42_histories",
    "C42_direct_single",
    "C42_direct_single_refuted",
    "C42_canonical",
    "C42_canonical_refuted"
   ],
   "note": ""
  },
  {
   "property": "C43",
   "status": "proved",
   "theorems": [
    "C43_newest_survives",
    "C43_crash_point",
    "C43_restart",
    "C43_restart_matches",
    "C43_restart_refuted",
    "C43_resume_refuted",
    "C43_fresh_refuted",
    "C43_no_save_refuted"
   ],
   "note": ""
  },
  {
   "property": "C44",
   "status": "proved",
   "theorems": [
    "C44_answers",
    "C44_sums",
    "C44_limits",
    "C44_k_max",
    "C44_stale_refuted",
    "C44_range_refuted",
    "C44_width_refuted",
    "C44_conversion_refuted"
   ],
   "note": ""
  },
  {
   "property": "C45",
   "status": "proved",
   "theorems": [
    "C45_table",
    "C45_sign",
    "C45_sign_identity"
   ],
   "note": ""
  },
  {
   "property": "C46",
   "status": "proved",
   "theorems": [
    "C46_reversible",
    "C46_momentum_flip",
    "C46_time",
    "C46_forces",
    "C46_time_refuted"
   ],
   "note": ""
  },
  {
   "property": "C47",
   "status": "proved",
   "theorems": [
    "C47_residual",
    "C47_undefined",
    "C47_exact_guess_refuted",
    "C47_zero_source_refuted",
    "C47_converges"
   ],
   "note": ""
  },
  {
   "property": "C48",
   "status": "proved",
   "theorems": [
    "C48_complex",
    "C48_plaquette",
    "C48_measure_plaq",
    "C48_staplesum",
    "C48_staples_covariant",
    "C48_staples_trace",
    "C48_hmc_staples",
    "C48_odd_size_refuted",
    "C48_polyakov",
    "C48_hmc_polyakov",
    "C48_hmc_polyakov_refuted"
   ],
   "note": ""
  },
  {
   "property": "C49",
   "status": "proved",
   "theorems": [
    "C49_complex",
    "C49_adjoint",
    "C49_apply",
    "C49_eta_refuted",
    "C49_evenodd_adjoint",
    "C49_evenodd_apply",
    "C49_evenodd_refuted"
   ],
   "note": ""
  },
  {
   "property": "C50",
   "status": "proved",
   "theorems": [
    "C50_partitions",
    "C50_not_divisible",
    "C50_many_partitions_refuted"
   ],
   "note": ""
  },
  {
   "property": "C51",
   "status": "proved",
   "theorems": [
    "C51_read_after_unblock_on_ranks_with_blocked_sites",
    "C51_read_after_unblock_refuted"
   ],
   "note": ""
  },
  {
   "property": "C52",
   "status": "proved",
   "theorems": [
    "C52_area"
   ],
   "note": ""
  },
  {
   "property": "C53",
   "status": "proved",
   "theorems": [
    "C53_links",
    "C53_no_links_between_refuted"
   ],
   "note": ""
  },
  {
   "property": "C55",
   "status": "proved",
   "theorems": [
    "C55_standard",
    "C55_standard_refuted",
    "C55_version",
    "C55_newest_refuted"
   ],
   "note": ""
  },
  {
   "property": "C56",
   "status": "proved",
   "theorems": [
    "C56_direct_sample",
    "C56_single",
    "C56_smooth",
    "C56_finish"
   ],
   "note": ""
  },
  {
   "property": "C57",
   "status": "proved",
   "theorems": [
    "C57_canonical",
    "C57_canonical_refuted"
   ],
   "note": ""
  },
  {
   "property": "C58",
   "status": "proved",
   "theorems": [
    "C58_rejected",
    "C58_accepted",
    "C58_reversible",
    "C58_length"
   ],
   "note": ""
  },
  {
   "property": "C59",
   "status": "proved",
   "theorems": [
    "C59_laplace",
    "C59_lu",
    "C59_det"
   ],
   "note": ""
  },
  {
   "property": "C60",
   "status": "proved",
   "theorems": [
    "C60_factors",
    "C60_solve",
    "C60_invert",
    "C60_singular_refuted"
   ],
   "note": ""
  },
  {
   "property": "C61",
   "status": "proved",
   "theorems": [
    "C61_vector_index_bijection",
    "C61_vector_coordinates_invert_index",
    "C61_vectors_and_lanes"
   ],
   "note": ""
  },
  {
   "property": "C62",
   "status": "proved",
   "theorems": [
    "C62_vector_halo"
   ],
   "note": ""
  },
  {
   "property": "C63",
   "status": "proved",
   "theorems": [
    "C63_antiperiodic_without_permutation",
    "C63_antiperiodic_refuted"
   ],
   "note": ""
  },
  {
   "property": "C64",
   "status": "proved",
   "theorems": [
    "C64_accepted_layout_is_valid",
    "C64_lane_division_ends",
    "C64_done_after_two_turns_or_never",
    "C64_ends_if_virtual_nodes_divide_volume",
    "C64_terminates_refuted",
    "C64_impossible_exit_refuted",
    "C64_accepted_layout_indexes_all_sites"
   ],
   "note": ""
  },
  {
   "property": "C65",
   "status": "proved",
   "theorems": [
    "C65_product",
    "C65_product_to",
    "C65_numbers",
    "C65_assign_product",
    "C65_dagger",
    "C65_trace",
    "C65_block",
    "C65_permute",
    "C65_product_to_first_factor_refuted",
    "C65_product_to_second_factor_refuted",
    "C65_add_product_to_factor_refuted",
    "C65_add_own_element_refuted",
    "C65_product_with_own_element_refuted"
   ],
   "note": ""
  },
  {
   "property": "C66",
   "status": "proved",
   "theorems": [
    "C66_pow",
    "C66_pow_in_range",
    "C66_pow_large_refuted",
    "C66_exp",
    "C66_altexp",
    "C66_altexp_close_refuted",
    "C66_mult_exp"
   ],
   "note": ""
  },
  {
   "property": "C67",
   "status": "proved",
   "theorems": [
    "C67_exponential",
    "C67_halving",
    "C67_iterations_refuted",
    "C67_one_by_one_outside"
   ],
   "note": ""
  },
  {
   "property": "C68",
   "status": "proved",
   "theorems": [
    "C68_permutation",
    "C68_sorted",
    "C68_unique"
   ],
   "note": ""
  },
  {
   "property": "C69",
   "status": "proved",
   "theorems": [
    "C69_eigenvalues",
    "C69_residual",
    "C69_one_by_one_refuted"
   ],
   "note": ""
  },
  {
   "property": "C70",
   "status": "proved",
   "theorems": [
    "C70_columns",
    "C70_decomposition",
    "C70_singular_refuted",
    "C70_one_by_one_refuted"
   ],
   "note": ""
  },
  {
   "property": "C71",
   "status": "proved",
   "theorems": [
    "C71_columns",
    "C71_converged",
    "C71_decomposition",
    "C71_uninitialised_refuted"
   ],
   "note": ""
  },
  {
   "property": "C72",
   "status": "proved",
   "theorems": [
    "C72_make_unitary",
    "C72_unique",
    "C72_unitary_unchanged",
    "C72_fix_det",
    "C72_reunitarize",
    "C72_random"
   ],
   "note": ""
  },
  {
   "property": "C73",
   "status": "proved",
   "theorems": [
    "C73_generators",
    "C73_expand",
    "C73_project",
    "C73_norm",
    "C73_inverse",
    "C73_dot",
    "C73_conjugation"
   ],
   "note": ""
  },
  {
   "property": "C74",
   "status": "proved",
   "theorems": [
    "C74_products",
    "C74_reuse_refuted",
    "C74_bilinear",
    "C74_array",
    "C74_array_comment_refuted"
   ],
   "note": ""
  },
  {
   "property": "C75",
   "status": "proved",
   "theorems": [
    "C75_operators",
    "C75_numbers",
    "C75_normalize",
    "C75_all",
    "C75_subgroup",
    "C75_algebra",
    "C75_conjugation",
    "C75_sun"
   ],
   "note": ""
  },
  {
   "property": "C76",
   "status": "proved",
   "theorems": [
    "C76_exp",
    "C76_steps",
    "C76_log",
    "C76_log_refuted",
    "C76_su2_exp_refuted"
   ],
   "note": ""
  },
  {
   "property": "C77",
   "status": "proved",
   "theorems": [
    "C77_overrelax",
    "C77_twice",
    "C77_su2",
    "C77_defined_refuted"
   ],
   "note": ""
  },
  {
   "property": "C78",
   "status": "proved",
   "theorems": [
    "C78_max",
    "C78_max_su2",
    "C78_max_refuted",
    "C78_update",
    "C78_update_su2",
    "C78_same_su2"
   ],
   "note": ""
  },
  {
   "property": "C79",
   "status": "proved",
   "theorems": [
    "C79_link",
    "C79_rate",
    "C79_su2",
    "C79_sampling",
    "C79_link_refuted",
    "C79_defined_refuted"
   ],
   "note": ""
  },
  {
   "property": "C80",
   "status": "proved",
   "theorems": [
    "C80_layout",
    "C80_ends",
    "C80_file",
    "C80_integer",
    "C80_integer_refuted",
    "C80_complex",
    "C80_complex_refuted",
    "C80_quoted",
    "C80_quoted_refuted",
    "C80_reopen",
    "C80_reopen_refuted"
   ],
   "note": ""
  },
  {
   "property": "C81",
   "status": "proved",
   "theorems": [
    "C81_run",
    "C81_first_file",
    "C81_continuation_refuted",
    "C81_unread_refuted"
   ],
   "note": ""
  },
  {
   "property": "C82",
   "status": "proved",
   "theorems": [
    "C82_choice",
    "C82_integer_refuted"
   ],
   "note": ""
  },
  {
   "property": "C83",
   "status": "proved",
   "theorems": [
    "C83_format",
    "C83_invalid",
    "C83_range",
    "C83_format_refuted",
    "C83_check",
    "C83_margin",
    "C83_stays",
    "C83_no_limit",
    "C83_start_refuted"
   ],
   "note": ""
  },
  {
   "property": "C84",
   "status": "proved",
   "theorems": [
    "C84_copy",
    "C84_set",
    "C84_round_trip",
    "C84_halo",
    "C84_halo_exact",
    "C84_halo_refuted",
    "C84_subvolume",
    "C84_slice"
   ],
   "note": ""
  },
  {
   "property": "C85",
   "status": "proved",
   "theorems": [
    "C85_action",
    "C85_force",
    "C85_energy"
   ],
   "note": ""
  },
  {
   "property": "C86",
   "status": "proved",
   "theorems": [
    "C86_line",
    "C86_line_refuted",
    "C86_force",
    "C86_given_line"
   ],
   "note": ""
  },
  {
   "property": "C87",
   "status": "proved",
   "theorems": [
    "C87_action",
    "C87_force",
    "C87_energy"
   ],
   "note": ""
  },
  {
   "property": "C88",
   "status": "proved",
   "theorems": [
    "C88_action",
    "C88_force"
   ],
   "note": ""
  },
  {
   "property": "C89",
   "status": "proved",
   "theorems": [
    "C89_block_gauge",
    "C89_in_place",
    "C89_large_factor",
    "C89_paths",
    "C89_covariant"
   ],
   "note": ""
  },
  {
   "property": "C90",
   "status": "proved",
   "theorems": [
    "C90_violation",
    "C90_covariant",
    "C90_step",
    "C90_degauss",
    "C90_quality_refuted",
    "C90_four_refuted"
   ],
   "note": ""
  },
  {
   "property": "C91",
   "status": "proved",
   "theorems": [
    "C91_update_U",
    "C91_update_E",
    "C91_trajectory",
    "C91_after_degauss",
    "C91_one_dimension"
   ],
   "note": ""
  },
  {
   "property": "C92",
   "status": "proved",
   "theorems": [
    "C92_decrease",
    "C92_zeuthen_decrease",
    "C92_stationary",
    "C92_covariant",
    "C92_zeuthen_covariant_refuted"
   ],
   "note": ""
  },
  {
   "property": "C93",
   "status": "proved",
   "theorems": [
    "C93_plaquette",
    "C93_clover",
    "C93_clover_derivative",
    "C93_invariant",
    "C93_dimensions"
   ],
   "note": ""
  },
  {
   "property": "C94",
   "status": "proved",
   "theorems": [
    "C94_steps",
    "C94_covariant",
    "C94_force",
    "C94_order"
   ],
   "note": ""
  },
  {
   "property": "C95",
   "status": "proved",
   "theorems": [
    "C95_smear",
    "C95_list",
    "C95_covariant",
    "C95_action",
    "C95_staples"
   ],
   "note": ""
  },
  {
   "property": "C96",
   "status": "proved",
   "theorems": [
    "C96_force",
    "C96_plaquette",
    "C96_range"
   ],
   "note": ""
  },
  {
   "property": "C97",
   "status": "proved",
   "theorems": [
    "C97_smear",
    "C97_force",
    "C97_energy",
    "C97_energy_impr"
   ],
   "note": ""
  },
  {
   "property": "C98",
   "status": "proved",
   "theorems": [
    "C98_site",
    "C98_index",
    "C98_injective",
    "C98_volume_needed"
   ],
   "note": ""
  },
  {
   "property": "C99",
   "status": "proved",
   "theorems": [
    "C99_operators",
    "C99_conjugate",
    "C99_division",
    "C99_assign",
    "C99_assign_real",
    "C99_div_real_refuted",
    "C99_compare"
   ],
   "note": ""
  },
  {
   "property": "C54",
   "status": "proved",
   "theorems": [
    "C54_replace",
    "C54_replace_all",
    "C54_unique",
    "C54_number_refuted",
    "C54_comment_refuted"
   ],
   "note": ""
  }
 ]
}