# Output of Print Assumptions for every theorem of the manifest

Generated by tools/assumptions.py. Every axiom listed belongs to Coq's standard library.

## Set 0: closed under the global context (no axioms) - 129 theorems

C01_getSpinRange_endpoints, C01_projection_check, C01_spinStatesCanCouple_iff_triangle, C02_negative_spin_empty_loop, C02_restricted_loop_exact, C02_restricted_range_valid_flag, C03_igjp_exotic_iff_not_quark_model, C03_jpc_exotic_iff_not_quark_model, C03_undefined_never_exotic, C04_abort_only_for_large_spins, C04_cache_cells_in_bounds_and_distinct, C04_cache_transparent_for_every_history, C05_selection_rules, C05_spinStatesCanCouple_with_projections, C06_indices_to_offset_row_major, C06_nmbElements_is_product, C06_offset_to_indices_inverse, C06_overflowing_offset_gives_out_of_range_first_index, C06_zero_dimensions_undefined, C07_change_extension, C07_directory_and_file_name, C07_extension_split, C07_no_dot_extension_is_whole_name, C07_remove_extension, C08_cascaded_sum_exact, C08_cascaded_sum_no_sample, C08_cascaded_sum_overflow_undefined, C08_compensated_sum_exact, C10_inadmissible_arguments_give_zero, C10_is_a_sign_and_flips, C10_reflectivity_factor_value, C13_from_integers_total, C14_equality_is_equivalence, C14_special_products, C14_value_cache_ignores_flag_defect, C15_abort_condition, C15_every_history_returns_the_right_prime, C15_failed_read_poisons_cache_defect, C15_generated_cache, C15_generated_cache_unique, C15_generation_terminates, C15_primality_test, C15_primality_test_one_defect, C15_read_then_available, C15_second_read_refused, C16_box_returns_the_table_asked_for, C16_calculation_uses_the_same_index, C16_index_in_range, C16_index_injective, C16_index_surjective, C17_charge_round_trip_exact, C17_no_suffix_is_neutral, C17_parse_undefined_exact, C17_parsed_charge_is_storable, C19_hasDecay_exact, C19_meaning, C19_not_transitive, C19_refl, C19_sym, C19_transitive_if_specified, C20_duplicates_refused, C20_fill_by_name, C20_first_definition_wins, C20_isInTable_exact, C20_table_in_name_order, C26_own_weights_without_rejection, C31_flat_wave, C31_malformed_names, C31_names_unique, C31_round_trip, C32_own_amplitudes_found, C32_selection_is_by_substring, C33_escape_closed_form, C33_escape_idempotent, C33_escaped_pattern_matches_literally, C33_forgotten_alternation, C33_unescape_closed_form, C33_unescape_inverts_escape, C35_copy_after_write_refuted, C35_no_double_delete, C36_loop_visits_every_amplitude_once, C36_number_of_parameters, C44_hash_iff, C44_recalculated_hash, C48_names_refuted, C48_round_trip, C48_unique, C48_unreadable_refuted, C49_integral_names, C49_merged, C49_names, C49_own_file, C49_pairs_for_wave, C49_path, C49_same_file, C51_group_permutations, C52_accepted, C52_calc_parent, C52_check_exact, C54_flat_wave, C54_reflectivity_of_names, C54_same_for_production_amplitude, C56_factorial_cache_transparent, C58_allQn_checks_everything, C58_selector_meaning, C77_name_identifies_wave, C77_no_parentheses, C78_integer_edge_refuted, C78_no_edges_refuted, C78_nothing_left, C78_one_wave_per_combination, C78_unknown_type, C78_without_binning, C88_branching_bins_refuted, C88_constructed, C88_coupling_errors_refuted, C88_no_fsmd_refuted, C88_round_trip, C88_shared_coupling_refuted, C90_set, C92_cut_refuted, C92_ends, C92_geant, C92_max, C92_open_one, C92_open_two_refuted, C92_process, C92_process_refuted, C92_read

## Set 1: `ClassicalDedekindReals.sig_forall_dec` - 53 theorems

C03_particle_exotic_exact, C18_conjugation_flips_charges, C18_conjugation_is_an_involution, C18_conjugation_with_decays_is_an_involution, C18_undefined_without_antiparticle_name, C21_dump_is_not_readable, C21_dump_rejected_for_fractional_width, C21_dump_shifts_fields, C21_line_without_mass2_round_trips, C24_order_of_right_hand_side_irrelevant, C24_sum_is_by_wave_name, C25_round_trip_with_names_in_stream, C25_round_trip_without_waves, C25_written_file_is_not_read_back, C30_copy_hessian_flag, C30_copy_identical, C30_copy_loses_hessian_flag, C30_copy_rebuilds_waves, C30_fresh_fill_stores_exactly, C30_old_index_entries_survive, C30_refill_shifts_wave_indices, C30_reset_then_fill_is_fresh_fill, C30_stripped_copy, C30_waves_of_all_fills_survive, C32_other_wave_selected, C35_dagger_is_conjugate, C35_determinant_not_square, C35_product, C35_storage_round_trip, C35_sum_and_difference, C35_transpose, C36_short_array, C41_counter_too_large, C41_expanded, C41_reduced_hessian, C49_tag_refuted, C52_kaon_pair_refuted, C59_good_file_adds_pairs, C59_malformed_line_is_undefined, C61_wave_names_set_once, C62_amplitude_covariance, C67_flat_isobar_refuted, C67_flat_norm_integral, C67_flat_parameter, C67_norm_integral, C67_parameter_by_name, C67_unknown_parameter, C76_lepton_recoil_refuted, C90_define, C90_no_labels_refuted, C93_strip, C95_objective, C95_objective_mismatch

## Set 2: `FunctionalExtensionality.functional_extensionality_dep` - 1 theorems

C53_set_exact

## Set 3: `ClassicalDedekindReals.sig_forall_dec`, `Classical_Prop.classic` - 1 theorems

C55_vertices_consistent

## Set 4: `ClassicalDedekindReals.sig_forall_dec`, `FunctionalExtensionality.functional_extensionality_dep` - 195 theorems

C11_is_blatt_weisskopf, C11_normalised_monotone_bounded, C11_s_wave_and_unsupported, C12_breit_wigner_equation_and_unitarity, C12_degenerate_cases, C12_modulus_at_most_one_refuted, C12_rescaled_modulus_at_most_one, C12_value_at_resonance, C13_square_root_failure, C14_equal_means_equal_value, C14_equality_misses_equal_values_defect, C14_infinity_plus_finite_defect, C22_diagonal_real_nonnegative, C22_hermitian, C22_integrated_matrix_positive_semidefinite, C22_positive_semidefinite, C22_sum_of_outer_products, C23_addEvent_always_defined, C23_failure_changes_nothing, C23_success_counts_one_event, C24_subtraction_undoes_addition, C26_kth_accepted_event_takes_kth_weight, C26_rejected_event_shifts_weights, C26_without_weights, C27_different_waves_abort, C27_failure_may_modify, C27_merge_success, C27_no_double_counting, C28_always_defined, C28_block_diagonal, C28_cauchy_schwarz, C28_closed_form, C28_diagonal_real, C28_hermitian, C28_positive_semidefinite, C29_additivity, C29_intensity_is_double_sum, C29_intensity_not_negative, C29_sum_of_intensities_and_overlaps, C29_total_intensity, C32_spin_density_diagonal_not_real, C34_best_result_does_not_depend_on_order, C34_input_order_irrelevant, C34_nan_comes_first_refuted, C34_only_best, C35_dagger_adjoint_iff_symmetric, C35_dagger_of_product, C35_dagger_refuted, C35_different_dimensions, C35_equal_to_precision, C35_equality_non_square_undefined, C35_equality_square, C35_product_associative, C35_transpose_of_product, C36_amplitudes_from_parameters, C36_parameter_names_unique, C36_parameters_one_to_one, C36_production_amplitude_arrays, C36_round_trip_amplitudes, C36_round_trip_parameters, C38_init_pairs, C40_rank_too_large, C41_counter_after_init, C41_covariance, C41_eigenvector, C41_no_covariance, C42_acc_again, C42_acc_twice_refuted, C44_bin_order_refuted, C44_merge_aux_values, C44_merge_bins, C44_merge_events, C44_merge_iff, C44_merge_in_two_steps, C44_merged_bin_contains, C44_type_refuted, C45_at_most_one, C45_centers, C45_grid_partition, C45_inBin, C45_inBoundaries, C45_sub_bin, C45_sub_bin_events, C46_bin_numbers, C46_gt_refuted, C46_lt, C46_mixed_variables_refuted, C46_sorted, C46_strict_weak_order, C46_total, C47_contains, C47_contains_events, C47_contains_order, C47_overlap, C47_overlap_event, C47_overlap_sym, C49_integral_exists, C49_integral_files, C50_default_bins, C50_files_in_bin, C50_no_file_missed, C50_selected, C50_touching_refuted, C53_last_write, C55_half_integer_L_refuted, C55_negative_M_refuted, C58_matching_entries_exact, C60_renormalisation_keeps_elements, C61_equality_is_by_wave_name, C61_not_reflexive_with_duplicate_names, C62_amplitude_covariance_psd, C62_intensity_jacobian, C62_overlap_jacobian, C62_spin_density_jacobian, C62_variance_not_negative, C64_equidistant, C64_grid, C64_list, C64_zero_edge_refuted, C65_cache_transparent, C65_history_free, C65_parameter_layout, C65_two_functions_one_thread_refuted, C76_S_without_L_refuted, C76_X_mass_dependence_refuted, C76_amplitude_options, C76_daughter_order_refuted, C76_glass_refuted, C76_nameless_isobar_refuted, C76_palano_limit_refuted, C76_round_trip, C76_round_trip_exact, C76_what_is_read_back, C77_X_mass_dependence_refuted, C77_glass_parameters_refuted, C77_name_after_key_file, C77_name_after_key_file_refuted, C77_unknown_parity_refuted, C78_bins_cover, C78_mass_bins, C78_no_wave_twice, C79_bins_partition_unity, C79_equal_mass_dependences_same_amplitude_refuted, C81_missing_branch_refuted, C82_failed_init_refuted, C82_init, C82_integer_slope_refuted, C82_missing_limits, C82_uniform, C85_domain, C85_graphs, C85_interpolation, C85_peak, C86_above_refuted, C86_below_refuted, C86_chi_square, C86_limits, C86_phase, C86_points, C86_points_refuted, C86_rescale, C86_zero_iff, C86_zero_wave_refuted, C87_points, C89_covariance, C89_fixed_parts, C89_samples_refuted, C89_uncorrelated, C90_equal, C90_equal_labels_refuted, C90_equal_refuted, C90_group, C90_labels, C90_scale, C90_stored, C90_sum, C91_anchor, C91_branchings, C91_couplings, C91_fixed, C91_fsmd, C91_hesse_first, C91_ndf_refuted, C91_parameters, C91_quality, C91_release_refuted, C91_rest, C91_start, C91_steps, C91_variables, C94_nearest_result, C94_nearest_result_refuted, C94_no_file, C95_gradient, C95_larger_fit_refuted

## Set 5: `ClassicalDedekindReals.sig_forall_dec`, `ClassicalDedekindReals.sig_not_dec`, `FunctionalExtensionality.functional_extensionality_dep` - 165 theorems

C09_angle_inversion, C09_cache_on_transparent, C09_illegal_arguments_abort, C09_off_before_first_use_transparent, C09_parity_mismatch_poisons_cache_refuted, C09_toggling_refuted, C13_absolute_value, C13_am0_to_J, C13_c_sub_ell, C13_cm0_sub_ell, C13_cm0_sub_ell_2, C13_double_value, C13_every_computation, C13_factorial_quotient, C13_flip_sign, C13_from_integers, C13_greater, C13_inverse, C13_inverse_extended, C13_product, C13_product_extended, C13_quotient_of_integers_extended, C13_sign, C13_square_root, C13_sum, C13_sum_of_signed_roots, C14_cached_root_breaks_sum_defect, C14_equality_exact_for_integer_quotients, C28_coherence_in_unit_interval, C38_fixed_rows_zero, C38_inside_matrix, C38_symmetric, C41_counter_history, C41_counter_refuted, C41_covariance_history, C41_parts_fixed_together, C41_what_is_fixed, C42_acc_needs_norm, C42_amp_after_finish_refuted, C42_amp_needs_acc, C42_finish_iff, C42_finish_without_init_refuted, C42_init_twice, C42_norm_needs_init, C43_congruence, C43_finish_twice_refuted, C43_hermitian, C43_phase_space, C51_bose_symmetrization, C57_below_threshold_aborts, C57_breakup_momentum_conserves_energy, C57_complex_breakup_momentum, C62_coherence_demo, C63_events_of_the_bin, C63_recorded_entries, C63_unknown_file_refuted, C66_exchange_invariance, C68_flat_row, C68_matrices_by_name, C69_CG_is_the_coupling, C69_complete, C69_condon_shortley, C69_every_answer_is_CG, C69_exchange, C69_lowering_ladder, C69_no_other_coefficients, C69_orthonormal, C69_raising_ladder, C69_reversal, C70_box_agrees_with_clebschGordanCoeff, C70_box_answers, C70_every_entry_is_the_coefficient, C70_every_entry_is_the_signed_square, C70_table_size, C71_gpu_gradient, C73_gottfried_jackson_frame_unique, C73_gottfried_jackson_momenta_invariant, C73_rotation_invariant, C74_massive_final_state, C79_constant_width, C79_f0980, C79_f0980_undefined_at_threshold, C79_flatte_above_KK, C79_flatte_below_KK, C79_function_of_the_event_refuted, C79_no_amplitude_below_threshold, C79_palano_above_Keta, C79_palano_below_Keta, C79_palano_outside, C79_palano_undefined_at_pole, C79_pipi_S_wave, C79_pipi_S_wave_formula, C79_relativistic_breit_wigner, C79_rho, C79_rho_prime, C79_ves_removes_f0, C80_azimuth, C80_outgoing_system, C80_tprime, C83_add, C83_defined, C83_fit_intensity, C83_flat_refuted, C83_initialise, C83_intensity, C83_load, C83_load_defined, C83_rank_refuted, C83_reinitialise_refuted, C83_variants, C84_parameters, C85_answer, C85_changed_vertex_refuted, C85_crash_first_call_refuted, C85_crash_refuted, C85_known_after_call, C85_low_bound_refuted, C85_memory_is_file, C85_new_table, C85_other_resonance_refuted, C85_persistent, C85_points_kept, C85_same_answer, C85_same_call_same_answer_refuted, C85_statistics, C85_tables, C85_total, C85_two_processes_refuted, C85_upper_bound_refuted, C85_width, C85_written, C87_model_phase, C87_negative_anchor_refuted, C87_real_wave_refuted, C89_expected, C89_files, C89_parts, C89_prod_branches, C89_prod_branches_refuted, C89_selection, C89_weight, C92_rewrite, C92_roundtrip, C92_target_refuted, C92_unknown_refuted, C93_added, C93_as_fitted, C93_bad_wave, C93_existing_kept, C93_last_wave_refuted, C93_second_acceptance_refuted, C94_continued_fit, C94_converged, C94_covariance_of_flipped_signs_refuted, C94_hessian_flag_refuted, C94_random_start_values, C94_reproducible, C94_result_contents, C94_start_values_from_result, C94_value_changed, C95_fits_do_not_interfere, C95_hessian_flag_refuted, C95_no_start_file, C95_result, C95_start_values

## Set 6: `ClassicalDedekindReals.sig_forall_dec`, `Classical_Prop.classic`, `FunctionalExtensionality.functional_extensionality_dep` - 8 theorems

C34_all_results, C55_each_wave_once, C55_final_step, C55_identical_final_state_refuted, C55_never_aborts, C55_vertices_pass_check, C55_wave_set, C55_waves_exact

## Set 7: `ClassicalDedekindReals.sig_forall_dec`, `ClassicalDedekindReals.sig_not_dec`, `Classical_Prop.classic`, `FunctionalExtensionality.functional_extensionality_dep` - 92 theorems

C37_FdF_agrees, C37_gradient_finite_flat_prior, C37_gradient_finite_half_cauchy, C37_gradient_half_cauchy_refuted, C37_gradient_is_derivative, C38_hessian_is_derivative, C39_cached_derivative, C39_fresh_cache_refuted, C39_setter_keeps_cache_refuted, C40_signs_corrected, C43_same_fit, C62_coherence_jacobian_lacks_normalisation, C62_coherence_jacobian_lacks_normalisation_B, C62_phase_jacobian, C71_four_gigabytes_refuted, C71_gpu_function_value, C71_not_initialised_undefined, C71_second_likelihood_replaces_amplitudes, C71_two_likelihoods_refuted, C72_angles_uniform, C72_below_threshold, C72_direction, C72_generate_accepted, C72_generate_decay, C72_low_level, C72_massless_pair_at_threshold_refuted, C72_max_weight_observed, C72_nuphaz_mass_distribution, C72_weight_is_phase_space, C72_weight_type_after_setDecay_refuted, C73_beam_along_minus_z_refuted, C73_collinear_beam_refuted, C73_gottfried_jackson_frame, C73_gottfried_jackson_frame_beam_along_z, C73_helicity_frame, C73_helicity_frame_along_z_refuted, C73_reflection, C73_reflection_keeps_event, C73_rest_frame, C73_space_inversion, C73_space_inversion_keeps_event, C74_amplitude, C74_coherent_sum, C74_masses, C74_modified_event, C74_momenta, C74_rest_frames, C74_rotation_invariant, C75_reflection, C75_space_inversion_canonical, C75_space_inversion_helicity, C79_GLASS, C79_GLASS_outside, C80_attempt, C80_below_threshold_refuted, C80_event, C80_slices, C80_stale_weights_refuted, C80_tprime_above_maximum_refuted, C81_correct, C81_correct_backward_refuted, C81_empty_file_refuted, C81_from_momenta, C81_inclinations, C81_late_correction_refuted, C81_load, C81_random_number_one_refuted, C81_randomized_start, C81_sequential, C81_simple, C82_far_range_refuted, C82_first_mass_refuted, C82_initialised, C82_lengths_refuted, C82_mass, C82_negative_limit_refuted, C82_one_exponential, C82_polynomial, C82_polynomial_negative_refuted, C82_several_exponentials, C84_beam_energy_refuted, C84_failed_initialisation_refuted, C84_file, C84_point, C84_prior, C84_same_amplitude, C84_stored_event, C84_threshold_refuted, C87_anchor_range_refuted, C87_chi_square, C87_model_anchor_zero_refuted, C87_zero_iff

