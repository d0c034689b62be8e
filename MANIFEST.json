{
 "claims": [
  {
   "property": "C01",
   "status": "proved",
   "theorems": [
    "C01_spinStatesCanCouple_iff_triangle",
    "C01_getSpinRange_endpoints",
    "C01_projection_check"
   ],
   "note": "exact characterisation over all integers"
  },
  {
   "property": "C02",
   "status": "proved",
   "theorems": [
    "C02_restricted_loop_exact",
    "C02_restricted_range_valid_flag",
    "C02_negative_spin_empty_loop"
   ],
   "note": ""
  },
  {
   "property": "C03",
   "status": "proved",
   "theorems": [
    "C03_particle_exotic_exact",
    "C03_jpc_exotic_iff_not_quark_model",
    "C03_igjp_exotic_iff_not_quark_model",
    "C03_undefined_never_exotic"
   ],
   "note": ""
  },
  {
   "property": "C04",
   "status": "proved",
   "theorems": [
    "C04_cache_transparent_for_every_history",
    "C04_abort_only_for_large_spins",
    "C04_cache_cells_in_bounds_and_distinct"
   ],
   "note": ""
  },
  {
   "property": "C05",
   "status": "proved",
   "theorems": [
    "C05_selection_rules",
    "C05_spinStatesCanCouple_with_projections"
   ],
   "note": ""
  },
  {
   "property": "C06",
   "status": "proved",
   "theorems": [
    "C06_nmbElements_is_product",
    "C06_indices_to_offset_row_major",
    "C06_offset_to_indices_inverse",
    "C06_overflowing_offset_gives_out_of_range_first_index",
    "C06_zero_dimensions_undefined"
   ],
   "note": ""
  },
  {
   "property": "C07",
   "status": "proved",
   "theorems": [
    "C07_directory_and_file_name",
    "C07_extension_split",
    "C07_no_dot_extension_is_whole_name",
    "C07_change_extension",
    "C07_remove_extension"
   ],
   "note": ""
  },
  {
   "property": "C08",
   "status": "proved",
   "theorems": [
    "C08_cascaded_sum_exact",
    "C08_cascaded_sum_overflow_undefined",
    "C08_cascaded_sum_no_sample",
    "C08_compensated_sum_exact"
   ],
   "note": ""
  },
  {
   "property": "C09",
   "status": "proved",
   "theorems": [
    "C09_cache_on_transparent",
    "C09_off_before_first_use_transparent",
    "C09_toggling_refuted",
    "C09_illegal_arguments_abort",
    "C09_parity_mismatch_poisons_cache_refuted",
    "C09_angle_inversion"
   ],
   "note": ""
  },
  {
   "property": "C10",
   "status": "proved",
   "theorems": [
    "C10_reflectivity_factor_value",
    "C10_is_a_sign_and_flips",
    "C10_inadmissible_arguments_give_zero"
   ],
   "note": ""
  },
  {
   "property": "C11",
   "status": "proved",
   "theorems": [
    "C11_is_blatt_weisskopf",
    "C11_normalised_monotone_bounded",
    "C11_s_wave_and_unsupported"
   ],
   "note": ""
  },
  {
   "property": "C12",
   "status": "proved",
   "theorems": [
    "C12_breit_wigner_equation_and_unitarity",
    "C12_rescaled_modulus_at_most_one",
    "C12_value_at_resonance",
    "C12_modulus_at_most_one_refuted",
    "C12_degenerate_cases"
   ],
   "note": ""
  },
  {
   "property": "C13",
   "status": "proved",
   "theorems": [
    "C13_from_integers",
    "C13_from_integers_total",
    "C13_product",
    "C13_sum",
    "C13_flip_sign",
    "C13_absolute_value",
    "C13_inverse",
    "C13_every_computation",
    "C13_double_value",
    "C13_greater",
    "C13_square_root",
    "C13_square_root_failure",
    "C13_sum_of_signed_roots",
    "C13_factorial_quotient",
    "C13_c_sub_ell",
    "C13_cm0_sub_ell",
    "C13_cm0_sub_ell_2",
    "C13_am0_to_J",
    "C13_quotient_of_integers_extended",
    "C13_product_extended",
    "C13_inverse_extended",
    "C13_sign"
   ],
   "note": ""
  },
  {
   "property": "C14",
   "status": "proved",
   "theorems": [
    "C14_equal_means_equal_value",
    "C14_equality_is_equivalence",
    "C14_equality_exact_for_integer_quotients",
    "C14_equality_misses_equal_values_defect",
    "C14_value_cache_ignores_flag_defect",
    "C14_cached_root_breaks_sum_defect",
    "C14_infinity_plus_finite_defect",
    "C14_special_products"
   ],
   "note": ""
  },
  {
   "property": "C15",
   "status": "proved",
   "theorems": [
    "C15_primality_test",
    "C15_primality_test_one_defect",
    "C15_generation_terminates",
    "C15_generated_cache",
    "C15_generated_cache_unique",
    "C15_every_history_returns_the_right_prime",
    "C15_abort_condition",
    "C15_read_then_available",
    "C15_second_read_refused",
    "C15_failed_read_poisons_cache_defect"
   ],
   "note": ""
  },
  {
   "property": "C16",
   "status": "proved",
   "theorems": [
    "C16_index_in_range",
    "C16_index_injective",
    "C16_index_surjective",
    "C16_calculation_uses_the_same_index",
    "C16_box_returns_the_table_asked_for"
   ],
   "note": ""
  },
  {
   "property": "C17",
   "status": "proved",
   "theorems": [
    "C17_charge_round_trip_exact",
    "C17_parse_undefined_exact",
    "C17_no_suffix_is_neutral",
    "C17_parsed_charge_is_storable"
   ],
   "note": ""
  },
  {
   "property": "C18",
   "status": "proved",
   "theorems": [
    "C18_conjugation_flips_charges",
    "C18_conjugation_is_an_involution",
    "C18_undefined_without_antiparticle_name",
    "C18_conjugation_with_decays_is_an_involution"
   ],
   "note": ""
  },
  {
   "property": "C19",
   "status": "proved",
   "theorems": [
    "C19_refl",
    "C19_sym",
    "C19_meaning",
    "C19_not_transitive",
    "C19_transitive_if_specified",
    "C19_hasDecay_exact"
   ],
   "note": ""
  },
  {
   "property": "C20",
   "status": "proved",
   "theorems": [
    "C20_first_definition_wins",
    "C20_isInTable_exact",
    "C20_duplicates_refused",
    "C20_table_in_name_order",
    "C20_fill_by_name"
   ],
   "note": ""
  },
  {
   "property": "C21",
   "status": "proved",
   "theorems": [
    "C21_dump_shifts_fields",
    "C21_dump_is_not_readable",
    "C21_dump_rejected_for_fractional_width",
    "C21_line_without_mass2_round_trips"
   ],
   "note": ""
  },
  {
   "property": "C22",
   "status": "proved",
   "theorems": [
    "C22_sum_of_outer_products",
    "C22_hermitian",
    "C22_positive_semidefinite",
    "C22_diagonal_real_nonnegative",
    "C22_integrated_matrix_positive_semidefinite"
   ],
   "note": ""
  },
  {
   "property": "C23",
   "status": "proved",
   "theorems": [
    "C23_failure_changes_nothing",
    "C23_success_counts_one_event",
    "C23_addEvent_always_defined"
   ],
   "note": ""
  },
  {
   "property": "C24",
   "status": "proved",
   "theorems": [
    "C24_sum_is_by_wave_name",
    "C24_order_of_right_hand_side_irrelevant",
    "C24_subtraction_undoes_addition"
   ],
   "note": ""
  },
  {
   "property": "C25",
   "status": "proved",
   "theorems": [
    "C25_written_file_is_not_read_back",
    "C25_round_trip_with_names_in_stream",
    "C25_round_trip_without_waves"
   ],
   "note": ""
  },
  {
   "property": "C26",
   "status": "proved",
   "theorems": [
    "C26_without_weights",
    "C26_kth_accepted_event_takes_kth_weight",
    "C26_own_weights_without_rejection",
    "C26_rejected_event_shifts_weights"
   ],
   "note": ""
  },
  {
   "property": "C27",
   "status": "proved",
   "theorems": [
    "C27_merge_success",
    "C27_no_double_counting",
    "C27_failure_may_modify",
    "C27_different_waves_abort"
   ],
   "note": ""
  },
  {
   "property": "C28",
   "status": "proved",
   "theorems": [
    "C28_cauchy_schwarz",
    "C28_coherence_in_unit_interval",
    "C28_closed_form",
    "C28_always_defined",
    "C28_block_diagonal",
    "C28_hermitian",
    "C28_positive_semidefinite",
    "C28_diagonal_real"
   ],
   "note": ""
  },
  {
   "property": "C29",
   "status": "proved",
   "theorems": [
    "C29_intensity_is_double_sum",
    "C29_sum_of_intensities_and_overlaps",
    "C29_additivity",
    "C29_intensity_not_negative",
    "C29_total_intensity"
   ],
   "note": ""
  },
  {
   "property": "C30",
   "status": "proved",
   "theorems": [
    "C30_stripped_copy",
    "C30_fresh_fill_stores_exactly",
    "C30_waves_of_all_fills_survive",
    "C30_old_index_entries_survive",
    "C30_reset_then_fill_is_fresh_fill",
    "C30_copy_identical",
    "C30_copy_hessian_flag",
    "C30_copy_loses_hessian_flag",
    "C30_copy_rebuilds_waves",
    "C30_refill_shifts_wave_indices"
   ],
   "note": ""
  },
  {
   "property": "C31",
   "status": "proved",
   "theorems": [
    "C31_round_trip",
    "C31_flat_wave",
    "C31_names_unique",
    "C31_malformed_names"
   ],
   "note": ""
  },
  {
   "property": "C32",
   "status": "proved",
   "theorems": [
    "C32_other_wave_selected",
    "C32_spin_density_diagonal_not_real",
    "C32_selection_is_by_substring",
    "C32_own_amplitudes_found"
   ],
   "note": ""
  },
  {
   "property": "C33",
   "status": "proved",
   "theorems": [
    "C33_escape_closed_form",
    "C33_unescape_closed_form",
    "C33_unescape_inverts_escape",
    "C33_escape_idempotent",
    "C33_escaped_pattern_matches_literally",
    "C33_forgotten_alternation"
   ],
   "note": ""
  },
  {
   "property": "C34",
   "status": "proved",
   "theorems": [
    "C34_only_best",
    "C34_all_results",
    "C34_input_order_irrelevant",
    "C34_best_result_does_not_depend_on_order",
    "C34_nan_comes_first_refuted"
   ],
   "note": ""
  },
  {
   "property": "C35",
   "status": "proved",
   "theorems": [
    "C35_equality_square",
    "C35_different_dimensions",
    "C35_equality_non_square_undefined",
    "C35_equal_to_precision",
    "C35_transpose",
    "C35_dagger_is_conjugate",
    "C35_dagger_adjoint_iff_symmetric",
    "C35_dagger_refuted",
    "C35_product",
    "C35_product_associative",
    "C35_transpose_of_product",
    "C35_dagger_of_product",
    "C35_sum_and_difference",
    "C35_storage_round_trip",
    "C35_no_double_delete",
    "C35_copy_after_write_refuted",
    "C35_determinant_not_square"
   ],
   "note": ""
  },
  {
   "property": "C36",
   "status": "proved",
   "theorems": [
    "C36_loop_visits_every_amplitude_once",
    "C36_number_of_parameters",
    "C36_parameters_one_to_one",
    "C36_amplitudes_from_parameters",
    "C36_short_array",
    "C36_round_trip_parameters",
    "C36_round_trip_amplitudes",
    "C36_parameter_names_unique",
    "C36_production_amplitude_arrays"
   ],
   "note": ""
  },
  {
   "property": "C37",
   "status": "proved",
   "theorems": [
    "C37_FdF_agrees",
    "C37_gradient_is_derivative",
    "C37_gradient_finite_flat_prior",
    "C37_gradient_finite_half_cauchy",
    "C37_gradient_half_cauchy_refuted"
   ],
   "note": ""
  },
  {
   "property": "C38",
   "status": "proved",
   "theorems": [
    "C38_init_pairs",
    "C38_hessian_is_derivative",
    "C38_symmetric",
    "C38_fixed_rows_zero",
    "C38_inside_matrix"
   ],
   "note": ""
  },
  {
   "property": "C39",
   "status": "proved",
   "theorems": [
    "C39_cached_derivative",
    "C39_fresh_cache_refuted",
    "C39_setter_keeps_cache_refuted"
   ],
   "note": ""
  },
  {
   "property": "C40",
   "status": "proved",
   "theorems": [
    "C40_signs_corrected",
    "C40_rank_too_large"
   ],
   "note": ""
  },
  {
   "property": "C41",
   "status": "proved",
   "theorems": [
    "C41_reduced_hessian",
    "C41_counter_too_large",
    "C41_expanded",
    "C41_covariance",
    "C41_no_covariance",
    "C41_eigenvector",
    "C41_what_is_fixed",
    "C41_counter_history",
    "C41_covariance_history",
    "C41_parts_fixed_together",
    "C41_counter_refuted",
    "C41_counter_after_init"
   ],
   "note": ""
  },
  {
   "property": "C42",
   "status": "proved",
   "theorems": [
    "C42_norm_needs_init",
    "C42_acc_needs_norm",
    "C42_amp_needs_acc",
    "C42_finish_iff",
    "C42_init_twice",
    "C42_finish_without_init_refuted",
    "C42_amp_after_finish_refuted",
    "C42_acc_twice_refuted",
    "C42_acc_again"
   ],
   "note": ""
  },
  {
   "property": "C43",
   "status": "proved",
   "theorems": [
    "C43_congruence",
    "C43_hermitian",
    "C43_phase_space",
    "C43_same_fit",
    "C43_finish_twice_refuted"
   ],
   "note": ""
  },
  {
   "property": "C44",
   "status": "proved",
   "theorems": [
    "C44_hash_iff",
    "C44_recalculated_hash",
    "C44_merge_iff",
    "C44_merge_events",
    "C44_merge_bins",
    "C44_merged_bin_contains",
    "C44_merge_aux_values",
    "C44_merge_in_two_steps",
    "C44_type_refuted",
    "C44_bin_order_refuted"
   ],
   "note": ""
  },
  {
   "property": "C45",
   "status": "proved",
   "theorems": [
    "C45_inBin",
    "C45_inBoundaries",
    "C45_at_most_one",
    "C45_sub_bin",
    "C45_sub_bin_events",
    "C45_centers",
    "C45_grid_partition"
   ],
   "note": ""
  },
  {
   "property": "C46",
   "status": "proved",
   "theorems": [
    "C46_lt",
    "C46_strict_weak_order",
    "C46_total",
    "C46_sorted",
    "C46_bin_numbers",
    "C46_gt_refuted",
    "C46_mixed_variables_refuted"
   ],
   "note": ""
  },
  {
   "property": "C47",
   "status": "proved",
   "theorems": [
    "C47_overlap",
    "C47_overlap_sym",
    "C47_overlap_event",
    "C47_contains",
    "C47_contains_order",
    "C47_contains_events"
   ],
   "note": ""
  },
  {
   "property": "C48",
   "status": "proved",
   "theorems": [
    "C48_round_trip",
    "C48_unique",
    "C48_names_refuted",
    "C48_unreadable_refuted"
   ],
   "note": ""
  },
  {
   "property": "C49",
   "status": "proved",
   "theorems": [
    "C49_merged",
    "C49_path",
    "C49_names",
    "C49_same_file",
    "C49_own_file",
    "C49_integral_names",
    "C49_integral_files",
    "C49_integral_exists",
    "C49_pairs_for_wave",
    "C49_tag_refuted"
   ],
   "note": ""
  },
  {
   "property": "C50",
   "status": "proved",
   "theorems": [
    "C50_selected",
    "C50_no_file_missed",
    "C50_files_in_bin",
    "C50_default_bins",
    "C50_touching_refuted"
   ],
   "note": ""
  },
  {
   "property": "C51",
   "status": "proved",
   "theorems": [
    "C51_bose_symmetrization",
    "C51_group_permutations"
   ],
   "note": ""
  },
  {
   "property": "C52",
   "status": "proved",
   "theorems": [
    "C52_check_exact",
    "C52_accepted",
    "C52_kaon_pair_refuted",
    "C52_calc_parent"
   ],
   "note": ""
  },
  {
   "property": "C53",
   "status": "proved",
   "theorems": [
    "C53_set_exact",
    "C53_last_write"
   ],
   "note": ""
  },
  {
   "property": "C54",
   "status": "proved",
   "theorems": [
    "C54_reflectivity_of_names",
    "C54_same_for_production_amplitude",
    "C54_flat_wave"
   ],
   "note": ""
  },
  {
   "property": "C55",
   "status": "proved",
   "theorems": [
    "C55_waves_exact",
    "C55_each_wave_once",
    "C55_never_aborts",
    "C55_final_step",
    "C55_wave_set",
    "C55_vertices_consistent",
    "C55_vertices_pass_check",
    "C55_half_integer_L_refuted",
    "C55_negative_M_refuted",
    "C55_identical_final_state_refuted"
   ],
   "note": "soundness and completeness of the generated wave set against an inductive specification of the waves of a template; uniqueness; absence of aborts; every vertex passes C52's check. Three departures from the English claim are proved as _refuted theorems (half-integer lower bound of the L range, negative M for half-integer J with reflectivity, identical final-state particles escape the Bose rule because their indices differ). Not modelled: removal of Bose duplicates and of decays with equal wave names at the end of generateWaveSet."
  },
  {
   "property": "C56",
   "status": "proved",
   "theorems": [
    "C56_factorial_cache_transparent"
   ],
   "note": ""
  },
  {
   "property": "C57",
   "status": "proved",
   "theorems": [
    "C57_breakup_momentum_conserves_energy",
    "C57_below_threshold_aborts",
    "C57_complex_breakup_momentum"
   ],
   "note": ""
  },
  {
   "property": "C58",
   "status": "proved",
   "theorems": [
    "C58_selector_meaning",
    "C58_allQn_checks_everything",
    "C58_matching_entries_exact"
   ],
   "note": ""
  },
  {
   "property": "C59",
   "status": "proved",
   "theorems": [
    "C59_malformed_line_is_undefined",
    "C59_good_file_adds_pairs"
   ],
   "note": ""
  },
  {
   "property": "C60",
   "status": "proved",
   "theorems": [
    "C60_renormalisation_keeps_elements"
   ],
   "note": ""
  },
  {
   "property": "C61",
   "status": "proved",
   "theorems": [
    "C61_equality_is_by_wave_name",
    "C61_not_reflexive_with_duplicate_names",
    "C61_wave_names_set_once"
   ],
   "note": ""
  },
  {
   "property": "C62",
   "status": "proved",
   "theorems": [
    "C62_amplitude_covariance",
    "C62_spin_density_jacobian",
    "C62_amplitude_covariance_psd",
    "C62_variance_not_negative",
    "C62_phase_jacobian",
    "C62_overlap_jacobian",
    "C62_intensity_jacobian",
    "C62_coherence_jacobian_lacks_normalisation",
    "C62_coherence_jacobian_lacks_normalisation_B",
    "C62_coherence_demo"
   ],
   "note": ""
  },
  {
   "property": "C63",
   "status": "proved",
   "theorems": [
    "C63_events_of_the_bin",
    "C63_recorded_entries",
    "C63_unknown_file_refuted"
   ],
   "note": ""
  },
  {
   "property": "C64",
   "status": "proved",
   "theorems": [
    "C64_grid",
    "C64_equidistant",
    "C64_zero_edge_refuted",
    "C64_list"
   ],
   "note": ""
  },
  {
   "property": "C65",
   "status": "proved",
   "theorems": [
    "C65_cache_transparent",
    "C65_history_free",
    "C65_parameter_layout",
    "C65_two_functions_one_thread_refuted"
   ],
   "note": ""
  },
  {
   "property": "C66",
   "status": "proved",
   "theorems": [
    "C66_exchange_invariance"
   ],
   "note": ""
  },
  {
   "property": "C67",
   "status": "proved",
   "theorems": [
    "C67_parameter_by_name",
    "C67_flat_parameter",
    "C67_unknown_parameter",
    "C67_norm_integral",
    "C67_flat_norm_integral",
    "C67_flat_isobar_refuted"
   ],
   "note": ""
  },
  {
   "property": "C68",
   "status": "proved",
   "theorems": [
    "C68_matrices_by_name",
    "C68_flat_row"
   ],
   "note": ""
  },
  {
   "property": "C69",
   "status": "proved",
   "theorems": [
    "C69_every_answer_is_CG",
    "C69_lowering_ladder",
    "C69_raising_ladder",
    "C69_condon_shortley",
    "C69_orthonormal",
    "C69_complete",
    "C69_CG_is_the_coupling",
    "C69_no_other_coefficients",
    "C69_exchange",
    "C69_reversal"
   ],
   "note": ""
  },
  {
   "property": "C70",
   "status": "proved",
   "theorems": [
    "C70_table_size",
    "C70_every_entry_is_the_coefficient",
    "C70_every_entry_is_the_signed_square",
    "C70_box_answers",
    "C70_box_agrees_with_clebschGordanCoeff"
   ],
   "note": ""
  },
  {
   "property": "C71",
   "status": "proved",
   "theorems": [
    "C71_gpu_function_value",
    "C71_gpu_gradient",
    "C71_second_likelihood_replaces_amplitudes",
    "C71_two_likelihoods_refuted",
    "C71_four_gigabytes_refuted",
    "C71_not_initialised_undefined"
   ],
   "note": ""
  },
  {
   "property": "C72",
   "status": "proved",
   "theorems": [
    "C72_generate_decay",
    "C72_below_threshold",
    "C72_generate_accepted",
    "C72_low_level",
    "C72_max_weight_observed",
    "C72_weight_is_phase_space",
    "C72_nuphaz_mass_distribution",
    "C72_weight_type_after_setDecay_refuted",
    "C72_massless_pair_at_threshold_refuted",
    "C72_angles_uniform",
    "C72_direction"
   ],
   "note": ""
  },
  {
   "property": "C73",
   "status": "proved",
   "theorems": [
    "C73_gottfried_jackson_frame",
    "C73_gottfried_jackson_frame_beam_along_z",
    "C73_helicity_frame",
    "C73_gottfried_jackson_frame_unique",
    "C73_gottfried_jackson_momenta_invariant",
    "C73_rotation_invariant",
    "C73_rest_frame",
    "C73_space_inversion",
    "C73_reflection",
    "C73_space_inversion_keeps_event",
    "C73_reflection_keeps_event",
    "C73_helicity_frame_along_z_refuted",
    "C73_collinear_beam_refuted",
    "C73_beam_along_minus_z_refuted"
   ],
   "note": ""
  },
  {
   "property": "C74",
   "status": "proved",
   "theorems": [
    "C74_momenta",
    "C74_rest_frames",
    "C74_masses",
    "C74_massive_final_state",
    "C74_coherent_sum",
    "C74_amplitude",
    "C74_modified_event",
    "C74_rotation_invariant"
   ],
   "note": ""
  },
  {
   "property": "C75",
   "status": "proved",
   "theorems": [
    "C75_space_inversion_canonical",
    "C75_space_inversion_helicity",
    "C75_reflection"
   ],
   "note": ""
  },
  {
   "property": "C76",
   "status": "proved",
   "theorems": [
    "C76_what_is_read_back",
    "C76_round_trip_exact",
    "C76_round_trip",
    "C76_amplitude_options",
    "C76_daughter_order_refuted",
    "C76_X_mass_dependence_refuted",
    "C76_glass_refuted",
    "C76_palano_limit_refuted",
    "C76_lepton_recoil_refuted",
    "C76_nameless_isobar_refuted",
    "C76_S_without_L_refuted"
   ],
   "note": ""
  },
  {
   "property": "C77",
   "status": "proved",
   "theorems": [
    "C77_name_identifies_wave",
    "C77_no_parentheses",
    "C77_name_after_key_file",
    "C77_name_after_key_file_refuted",
    "C77_glass_parameters_refuted",
    "C77_X_mass_dependence_refuted",
    "C77_unknown_parity_refuted"
   ],
   "note": ""
  },
  {
   "property": "C78",
   "status": "proved",
   "theorems": [
    "C78_one_wave_per_combination",
    "C78_no_wave_twice",
    "C78_without_binning",
    "C78_nothing_left",
    "C78_bins_cover",
    "C78_mass_bins",
    "C78_no_edges_refuted",
    "C78_integer_edge_refuted",
    "C78_unknown_type"
   ],
   "note": ""
  },
  {
   "property": "C79",
   "status": "proved",
   "theorems": [
    "C79_constant_width",
    "C79_relativistic_breit_wigner",
    "C79_no_amplitude_below_threshold",
    "C79_rho",
    "C79_f0980",
    "C79_f0980_undefined_at_threshold",
    "C79_flatte_below_KK",
    "C79_flatte_above_KK",
    "C79_pipi_S_wave",
    "C79_pipi_S_wave_formula",
    "C79_function_of_the_event_refuted",
    "C79_ves_removes_f0",
    "C79_GLASS",
    "C79_GLASS_outside",
    "C79_rho_prime",
    "C79_palano_above_Keta",
    "C79_palano_below_Keta",
    "C79_palano_undefined_at_pole",
    "C79_palano_outside",
    "C79_bins_partition_unity",
    "C79_equal_mass_dependences_same_amplitude_refuted"
   ],
   "note": ""
  },
  {
   "property": "C80",
   "status": "proved",
   "theorems": [
    "C80_tprime",
    "C80_outgoing_system",
    "C80_azimuth",
    "C80_tprime_above_maximum_refuted",
    "C80_event",
    "C80_below_threshold_refuted",
    "C80_attempt",
    "C80_slices",
    "C80_stale_weights_refuted"
   ],
   "note": ""
  },
  {
   "property": "C81",
   "status": "proved",
   "theorems": [
    "C81_simple",
    "C81_from_momenta",
    "C81_correct",
    "C81_correct_backward_refuted",
    "C81_inclinations",
    "C81_sequential",
    "C81_randomized_start",
    "C81_random_number_one_refuted",
    "C81_empty_file_refuted",
    "C81_load",
    "C81_missing_branch_refuted",
    "C81_late_correction_refuted"
   ],
   "note": ""
  },
  {
   "property": "C82",
   "status": "proved",
   "theorems": [
    "C82_init",
    "C82_one_exponential",
    "C82_several_exponentials",
    "C82_mass",
    "C82_initialised",
    "C82_uniform",
    "C82_polynomial",
    "C82_polynomial_negative_refuted",
    "C82_first_mass_refuted",
    "C82_lengths_refuted",
    "C82_negative_limit_refuted",
    "C82_far_range_refuted",
    "C82_failed_init_refuted",
    "C82_integer_slope_refuted",
    "C82_missing_limits"
   ],
   "note": ""
  },
  {
   "property": "C83",
   "status": "proved",
   "theorems": [
    "C83_flat_refuted",
    "C83_rank_refuted",
    "C83_intensity",
    "C83_defined",
    "C83_add",
    "C83_load",
    "C83_load_defined",
    "C83_initialise",
    "C83_variants",
    "C83_reinitialise_refuted",
    "C83_fit_intensity"
   ],
   "note": ""
  },
  {
   "property": "C84",
   "status": "proved",
   "theorems": [
    "C84_prior",
    "C84_parameters",
    "C84_point",
    "C84_stored_event",
    "C84_same_amplitude",
    "C84_file",
    "C84_threshold_refuted",
    "C84_beam_energy_refuted",
    "C84_failed_initialisation_refuted"
   ],
   "note": ""
  },
  {
   "property": "C85",
   "status": "proved",
   "theorems": [
    "C85_same_call_same_answer_refuted",
    "C85_other_resonance_refuted",
    "C85_two_processes_refuted",
    "C85_changed_vertex_refuted",
    "C85_upper_bound_refuted",
    "C85_low_bound_refuted",
    "C85_crash_refuted",
    "C85_crash_first_call_refuted",
    "C85_statistics",
    "C85_interpolation",
    "C85_tables",
    "C85_memory_is_file",
    "C85_answer",
    "C85_domain",
    "C85_peak",
    "C85_width",
    "C85_total",
    "C85_new_table",
    "C85_same_answer",
    "C85_known_after_call",
    "C85_persistent",
    "C85_points_kept",
    "C85_graphs",
    "C85_written"
   ],
   "note": ""
  },
  {
   "property": "C86",
   "status": "proved",
   "theorems": [
    "C86_chi_square",
    "C86_zero_iff",
    "C86_phase",
    "C86_rescale",
    "C86_limits",
    "C86_points",
    "C86_points_refuted",
    "C86_below_refuted",
    "C86_zero_wave_refuted",
    "C86_above_refuted"
   ],
   "note": ""
  },
  {
   "property": "C87",
   "status": "proved",
   "theorems": [
    "C87_chi_square",
    "C87_zero_iff",
    "C87_model_phase",
    "C87_points",
    "C87_anchor_range_refuted",
    "C87_model_anchor_zero_refuted",
    "C87_negative_anchor_refuted",
    "C87_real_wave_refuted"
   ],
   "note": ""
  },
  {
   "property": "C88",
   "status": "proved",
   "theorems": [
    "C88_round_trip",
    "C88_constructed",
    "C88_no_fsmd_refuted",
    "C88_branching_bins_refuted",
    "C88_shared_coupling_refuted",
    "C88_coupling_errors_refuted"
   ],
   "note": ""
  },
  {
   "property": "C89",
   "status": "proved",
   "theorems": [
    "C89_selection",
    "C89_weight",
    "C89_parts",
    "C89_files",
    "C89_expected",
    "C89_prod_branches",
    "C89_prod_branches_refuted",
    "C89_fixed_parts",
    "C89_covariance",
    "C89_uncorrelated",
    "C89_samples_refuted"
   ],
   "note": ""
  },
  {
   "property": "C90",
   "status": "proved",
   "theorems": [
    "C90_labels",
    "C90_define",
    "C90_set",
    "C90_sum",
    "C90_group",
    "C90_scale",
    "C90_stored",
    "C90_equal",
    "C90_equal_refuted",
    "C90_equal_labels_refuted",
    "C90_no_labels_refuted"
   ],
   "note": ""
  },
  {
   "property": "C91",
   "status": "proved",
   "theorems": [
    "C91_variables",
    "C91_couplings",
    "C91_branchings",
    "C91_parameters",
    "C91_fsmd",
    "C91_anchor",
    "C91_start",
    "C91_hesse_first",
    "C91_steps",
    "C91_rest",
    "C91_quality",
    "C91_fixed",
    "C91_ndf_refuted",
    "C91_release_refuted"
   ],
   "note": ""
  },
  {
   "property": "C92",
   "status": "proved",
   "theorems": [
    "C92_geant",
    "C92_read",
    "C92_max",
    "C92_ends",
    "C92_cut_refuted",
    "C92_target_refuted",
    "C92_roundtrip",
    "C92_rewrite",
    "C92_unknown_refuted",
    "C92_process",
    "C92_process_refuted",
    "C92_open_one",
    "C92_open_two_refuted"
   ],
   "note": ""
  },
  {
   "property": "C93",
   "status": "proved",
   "theorems": [
    "C93_added",
    "C93_existing_kept",
    "C93_bad_wave",
    "C93_strip",
    "C93_as_fitted",
    "C93_second_acceptance_refuted",
    "C93_last_wave_refuted"
   ],
   "note": ""
  },
  {
   "property": "C94",
   "status": "proved",
   "theorems": [
    "C94_continued_fit",
    "C94_hessian_flag_refuted",
    "C94_covariance_of_flipped_signs_refuted",
    "C94_random_start_values",
    "C94_start_values_from_result",
    "C94_nearest_result",
    "C94_nearest_result_refuted",
    "C94_no_file",
    "C94_result_contents",
    "C94_converged",
    "C94_value_changed",
    "C94_reproducible"
   ],
   "note": ""
  },
  {
   "property": "C95",
   "status": "proved",
   "theorems": [
    "C95_no_start_file",
    "C95_result",
    "C95_hessian_flag_refuted",
    "C95_objective",
    "C95_objective_mismatch",
    "C95_gradient",
    "C95_start_values",
    "C95_fits_do_not_interfere",
    "C95_larger_fit_refuted"
   ],
   "note": ""
  }
 ]
}