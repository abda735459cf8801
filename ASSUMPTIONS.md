# Print Assumptions of every theorem

Generated by `tools/gen_assumptions.py` from the output of `Print Assumptions`.

## Closed under the global context

`C01_contents`, `C01_total`, `C02_determinant`, `C02_determinant_defined`, `C03_inverse`, `C04_ratio`, `C04_all_ratios`, `C05_reject`, `C06_insert_k`, `C06_insert_order`, `C06_remove_k`, `C07_normal_order_preserves_action`, `C08_expressions_denote_their_linear_maps`, `C08_algebra_laws_on_stored_operators`, `C09_c_c_anticommute`, `C09_cdag_cdag_anticommute`, `C09_c_cdag_anticommute_to_delta`, `C10_equality_decides_equality_of_maps`, `C10_monomial_constructor_refuted`, `C11_dagger_is_the_adjoint`, `C11_dagger_of_products_and_sums`, `C12_addition_exact`, `C12_addition_with_tolerance`, `C12_addition_associative_double_refuted`, `C13_self_addition`, `C13_self_subtraction_refuted`, `C13_self_addition_double_refuted`, `C14_linear_index_is_a_bijection`, `C14_positions_follow_insertion_order`, `C14_positions_never_move`, `C15_h5_round_trip`, `C15_wide_integers_refuted`, `C15_nul_characters_refuted`, `C16_full_space_action`, `C16_subspace_action`, `C16_mapped_subspace_action`, `C16_unknown_index_throws`, `C16_raw_monomial_refuted`, `C17_beyond_17_orbitals_refuted`, `C17_low_occupations_partial`, `C18_full_space_index_bijection`, `C18_31_orbitals_refuted`, `C18_fock_state_of_a_set_of_indices`, `C18_fock_state_of_orbital_31_refuted`, `C18_subspace_index_bijection`, `C18_duplicate_insertion_refuted`, `C19_addition`, `C19_subtraction`, `C19_scaling`, `C19_dot_product`, `C19_projection`, `C19_projection_to_smaller_full_space_refuted`, `C20_same_subspace_iff_connected`, `C20_numbering`, `C20_of_operator`, `C20_stored_elements`, `C20_elements_with_hybridization_refuted`, `C21_merge`, `C22_merge_exact`, `C22_one_to_one_partial`, `C22_one_to_one_refuted`, `C22_find_mappings_exact`, `C23_flat_numbering`, `C24_blocks_aligned_and_sorted`, `C30_measures_follow_registry`, `C30_accumulate_once_in_name_order`, `C30_duplicate_names_throw`, `C32_buffered_function_is_the_stream`, `C32_calls_return_consecutive_values`, `C32_buffer_of_size_0_refuted`, `C33_time_pt_add_is_circle_addition`, `C33_time_pt_sub_is_circle_subtraction`, `C33_time_pt_group_laws`, `C33_time_pt_neg_is_circle_negation`, `C33_time_pt_neg_is_zero_minus_refuted`, `C33_time_pt_mult_exact_without_wrap`, `C33_time_pt_mult_is_repeated_addition_refuted`, `C33_time_pt_division_is_floor`, `C33_time_pt_random_between_in_interval`, `C34_frequency_group_laws`, `C35_imfreq_index_bijection`, `C35_imfreq_size`, `C35_imfreq_iteration`, `C35_imfreq_symmetric`, `C35_imfreq_h5_round_trip`, `C37_cyclic_index_bijection`, `C37_cyclic_valid_indices`, `C37_index_modulo_unique_representative`, `C37_cyclic_evaluation`, `C37_mesh_point_arithmetic`, `C37_mesh_iteration`, `C38_equal_meshes_compare_equal_partial`, `C38_equality_identifies_mesh_refuted`, `C38_equality_identifies_size_refuted`, `C40_product_index_bijection`, `C40_product_iteration`, `C40_product_evaluation_on_mesh_point`, `C41_bins_are_block_means`, `C41_single_bin`, `C41_switched_off`, `C41_at_most_max_bins`, `C41_compress_capacity`, `C41_automatic_capacity`, `C42_levels`, `C42_errors`, `C42_errors_mpi`, `C42_level_31_refuted`, `C43_documented_estimators`, `C43_linear`, `C43_quadratic`, `C44_single_rank`, `C44_f_of_averages`, `C44_as_if_delivered_partial`, `C44_average_refuted`, `C44_estimate_refuted`, `C45_mean`, `C45_mean_and_err`, `C45_single_datum`, `C45_order_independent`, `C45_mpi`, `C45_merge`, `C46_every_sample_recorded`, `C46_one_nearest_bin`, `C46_addition`, `C46_addition_throws`, `C46_mpi_reduce`, `C46_pdf`, `C46_cdf`, `C46_pdf_defined`, `C46_clear`, `C46_integer_bins`, `C46_empty_range_throws`, `C46_no_bins_refuted`, `C47_interpolates`, `C47_rejects`, `C47_after_truncation_refuted`, `C48_h_dict`, `C48_U_dict2`, `C48_U_dict4`, `C48_dict_to_matrix`, `C48_filter_op`, `C48_block_of_op`, `C48_op_of_block`, `C48_block_rejects_refuted`, `C50_grid_visits`, `C50_empty_grid_refuted`, `C51_value`, `C51_real_flag`, `C51_tests`, `C52_signals_conserved`, `C52_most_recent_first`, `C52_start_stop`, `C52_handlers_stay_installed`, `C52_only_between_start_and_stop_refuted`, `C53_make_hermitian`, `C53_is_gf_hermitian`, `C53_hermitian_after`, `C53_real_in_tau`, `C53_hermitian_tau`, `C53_from_real`, `C53_positive_freq_view`, `C53_replace_by_tail`, `C53_restricted_view`, `C54_round_trip`, `C54_round_trip_back`, `C54_elements`, `C54_order`, `C54_order_refuted`, `C54_empty_dimension`, `C56_slices_partition`, `C56_slice_array`, `C57_sites`, `C57_builds`, `C57_dependent`, `C57_negative_unit_refuted`, `C57_user_sites`, `C57_automatic_proper`, `C57_coordinates`, `C57_SL_to_L_refuted`, `C57_sites_outside_refuted`, `C57_pack`, `C57_unpack`, `C57_fold`, `C57_each_hopping_once`, `C57_remove_internal_refuted`, `C58_returns_solution`, `C58_always_returns`, `C58_failure`, `C58_exact_solution_refuted`, `C62_reads_back`, `C62_continues`, `C62_continues_refuted`, `C63_auto_constructor`, `C63_hybridization_constructor`, `C63_filter_constructor`, `C63_negative_minimum_refuted`, `C64_no_element_lost_iff`, `C65_vacuum`, `C67_matrix_element_of_monomial`, `C67_products_have_single_targets`, `C67_get_op_mat`, `C67_act`, `C67_component_numbers`, `C67_trace_rho_op`, `C67_trace_rho_op_size_mismatch`, `C67_quantum_number_eigenvalues`, `C68_labels`, `C68_labels_of_a_map`, `C68_map_lookup`, `C68_labels_refused`, `C70_t2g_eg_names`, `C71_diagonal_part`, `C77_one_point`, `C82_quantum_numbers`, `C82_additive`, `C82_strict_order`, `C82_mixed_refused`, `C82_complex_refused`, `C82_not_conserved_refuted`, `C82_aligned_refuted`, `C83_round_trip_real`, `C83_round_trip_complex`, `C83_round_trip_real_or_complex`, `C83_real_as_complex`, `C83_complex_as_real`, `C83_long_monomials_refused`, `C83_with_operator_set`, `C83_outside_refused`, `C83_make_fundamental_operator_set`, `C83_read_into_operator`, `C83_read_replaces_refuted`, `C83_record_format`, `C84_round_trip`, `C84_read_into_object_partial`, `C84_constructed_regular`, `C84_short_rows_undefined`, `C84_long_hamiltonian_refused`, `C84_missing_datasets`, `C84_read_replaces_refuted`, `C87_assign`, `C87_old_data_irrelevant`, `C87_incompatible`, `C87_inplace_product_refuted`, `C87_product_with_descriptor_refuted`, `C87_copy_from_refuted`, `C89_blockwise`, `C89_names`, `C89_dyson`, `C89_dyson_arguments`, `C89_sumk`, `C89_sumk_in_place_refuted`, `C89_lazy_refuted`, `C89_left_product_refuted`, `C95_run`, `C95_all_points`, `C95_none_ignored_refuted`, `C97_clip`, `C97_generator_refuted`

## `ClassicalDedekindReals.sig_forall_dec`

`C35_imfreq_eval_on_mesh`, `C53_boson_refuted`, `C72_one_mesh_of_a_product`

## `ClassicalDedekindReals.sig_forall_dec`, `FunctionalExtensionality.functional_extensionality_dep`

`C27_run_structure_and_status`, `C27_run_numbers`, `C27_run_terminates`, `C27_run_safe`, `C27_run_returns`, `C27_warmup_and_accumulate`, `C27_status_0_means_complete_refuted`, `C27_exception_reported_without_mpi_refuted`, `C27_more_than_int_max_cycles_refuted`, `C28_sign_is_running_product`, `C28_infinite_ratios`, `C28_nested_move_set`, `C28_sign_of_tiny_ratio_refuted`, `C29_selected_iff_in_interval`, `C29_interval_is_weight`, `C29_always_selects`, `C29_always_selects_with_rounding`, `C29_statistics`, `C29_acceptance_rate`, `C36_linear_mesh_values`, `C36_closest_point_is_nearest`, `C36_closest_point_of_mesh_point`, `C36_evaluation_interpolates`, `C36_evaluation_exact_on_mesh_points`, `C36_evaluation_exact_on_affine_functions`, `C36_imtime_mesh_values`, `C36_evaluation_outside`, `C36_linear_h5_round_trip`, `C36_closest_point_always_defined_refuted`, `C40_product_evaluation`, `C55_legendre_generator`, `C55_legendre_generator_at_one_and_parity`, `C60_metropolis_rule`, `C66_patch_points`, `C66_dos_patch`, `C68_complex_matrix_refused`, `C69_more_than_two_spins_refused`, `C70_U_J_round_trip`, `C70_reduced_kanamori`, `C70_reduced_symmetric`, `C75_matsubara`, `C75_matsubara_round_trip`, `C77_means`, `C77_bins`, `C77_same_mesh`, `C77_constant`, `C77_constant_finer_refuted`, `C85_bounds`, `C85_first_bounds`, `C85_solves`, `C85_flat_start`, `C85_flat_start_refuted`, `C86_density`, `C86_monotone`, `C86_below_grid_refuted`, `C86_nonuniform_refuted`, `C86_from_function`, `C86_weights`, `C86_weights_any_grid`, `C86_trapezoid_refuted`, `C86_hilbert`, `C90_path_units`, `C91_inversion`, `C91_gamma`, `C91_open_zone_refuted`, `C91_patch_refuted`, `C94_write`, `C94_round_trip`, `C94_wide_refuted`, `C94_single_point_refuted`, `C96_triangles`, `C96_weight`, `C96_weight_refuted`

## `ClassicalDedekindReals.sig_forall_dec`, `ClassicalDedekindReals.sig_not_dec`, `FunctionalExtensionality.functional_extensionality_dep`

`C25_partition_function`, `C25_density_matrix`, `C25_thermal_average`, `C26_lehmann`, `C26_both_ways`, `C26_sum_rule`, `C26_real_frequency`, `C26_hermitian`, `C26_spectral_function`, `C28_ratio_is_modulus_times_sign`, `C34_sum_of_frequencies`, `C34_difference_of_frequencies`, `C34_negated_frequency`, `C34_frequency_determined_by_value`, `C34_kronecker_same_statistic`, `C34_kronecker_is_equality_refuted`, `C34_quotient_of_frequencies_refuted`, `C35_imfreq_positive_half`, `C35_imfreq_window_covers_refuted`, `C39_interpolation_periodic`, `C39_interpolation_exact_on_mesh`, `C39_mesh_points_distinct_refuted`, `C39_interpolation_weights`, `C49_fourier`, `C49_hermitian`, `C49_hermitian_exact`, `C49_periodic`, `C49_accepted`, `C49_holds`, `C49_array`, `C49_mesh`, `C49_repeated_displacement_refuted`, `C55_lattice_coordinates_round_trip`, `C55_lattice_to_real_is_combination_of_units`, `C55_completed_basis_independent`, `C55_reciprocal_vectors_dual`, `C55_reciprocal_coordinates_round_trip`, `C55_zero_unit_vector_rejected_refuted`, `C55_legendre_tail_coefficients`, `C59_closest_point_in_mesh`, `C59_closest_point_of_mesh_point`, `C59_closest_point_is_nearest_orthogonal_partial`, `C59_closest_point_is_nearest_refuted`, `C66_bands`, `C66_dos`, `C66_flat_band`, `C68_slater_formula`, `C68_density_formula`, `C68_kanamori_formula`, `C68_hermitian`, `C68_conserves_particle_number`, `C68_kanamori_is_slater`, `C68_density_is_diagonal_slater`, `C69_number`, `C69_spin`, `C69_orbital_matrix`, `C69_orbital`, `C69_spin_orbit`, `C69_slater_rotation`, `C69_slater_spin_rotation`, `C69_kanamori_spin_rotation`, `C69_conserves_Sz`, `C70_symmetries`, `C70_real`, `C70_conserves_m`, `C70_mean_is_U`, `C70_cubic_harmonics_unitary`, `C70_cubic_harmonics_unitary_s_shell_refuted`, `C70_named_harmonics`, `C70_named_harmonics_wien2k_refuted`, `C70_clebsch_gordan_sign`, `C70_clebsch_gordan_refuted`, `C71_real_imag`, `C71_make_operator_real`, `C72_r_to_k`, `C72_k_to_r`, `C72_round_trip_r`, `C72_round_trip_k`, `C72_smaller_mesh_rejected_refuted`, `C72_other_shape_rejected_refuted`, `C73_direct`, `C73_inverse`, `C73_round_trip`, `C73_tail_values`, `C73_window`, `C73_tail_moments`, `C73_rejects`, `C74_inverse`, `C74_tail_moments`, `C74_default`, `C74_noise`, `C74_default_noisy`, `C74_fit`, `C74_fitted`, `C74_inverse_rejects`, `C74_direct_rejects`, `C74_few_points_refuted`, `C74_temperatures_compared_refuted`, `C75_real`, `C75_real_twice`, `C75_real_zero`, `C75_lattice`, `C75_brillouin_zone`, `C76_fitted`, `C76_no_moments`, `C76_refused`, `C76_not_square`, `C76_real`, `C76_real_limit`, `C76_zero_temperature`, `C76_zero_temperature_deviation`, `C76_trapezoid_refuted`, `C76_zero_temperature_range`, `C78_to_imtime`, `C78_evaluate`, `C78_from_imtime`, `C78_from_imtime_limit`, `C78_to_imfreq`, `C78_from_imfreq`, `C78_from_imfreq_refused`, `C79_zeroth_moment_refuted`, `C79_zeroth_row`, `C79_bosonic_moment_refuted`, `C79_discontinuity`, `C79_smallest_change`, `C79_idempotent`, `C79_rest_unchanged`, `C79_density`, `C79_density_convention_refuted`, `C80_window`, `C80_symmetric_window_refuted`, `C81_tail_eval`, `C81_replace`, `C81_replace_window`, `C81_replace_symmetric_refuted`, `C86_causal`, `C88_semicircular`, `C88_tail`, `C88_real`, `C88_real_matrix_refuted`, `C88_zero_frequency_refuted`, `C90_pythtb_partial`, `C90_pythtb_dimension_refuted`, `C90_wannier`, `C90_wannier_transposed_refuted`, `C90_path`, `C90_path_monotone`, `C91_grid`, `C91_refuses`, `C91_local_level`, `C91_copy`, `C91_copy_refuted`, `C91_shift_refuted`, `C92_frequency`, `C92_time`, `C92_hermitian`, `C92_positive`, `C92_blocks`, `C92_refuses`, `C92_list_refuted`, `C93_arithmetic`, `C93_frequencies`, `C93_raises`, `C93_mixed_refuted`, `C93_mixed_temperatures_refuted`

## `ClassicalDedekindReals.sig_forall_dec`, `ClassicalDedekindReals.sig_not_dec`, `Classical_Prop.classic`, `FunctionalExtensionality.functional_extensionality_dep`

`C26_imaginary_time`, `C26_matsubara`, `C26_legendre`, `C31_random_integers_in_range`, `C31_random_integers_reached`, `C61_random_real_below_bound`, `C61_random_real_between`, `C61_random_real_below_b_refuted`, `C73_tail_integral`, `C74_direct`, `C74_round_trip`, `C74_limit`, `C74_tail_integral`, `C74_exact_for_the_tail`, `C76_limit`, `C76_exact_for_the_tail`, `C76_minus_G_beta`, `C76_hermitian`, `C76_lower_triangle`, `C78_orthogonality`, `C78_round_trip`, `C78_bosonic_imfreq_refuted`, `C79_moments`, `C79_exact_expansion`, `C79_imfreq_expansion`, `C80_history`, `C80_best`, `C80_hermitian`, `C80_recovers`, `C80_recovers_hermitian`, `C80_succeeds`, `C80_order`, `C80_largest_order`, `C80_columns_exist`, `C80_all_known`, `C80_refused`, `C80_given_order_refuted`, `C80_many_known_refuted`, `C81_on_mesh`, `C81_positive_mesh`, `C81_outside`, `C81_outside_exact`, `C81_window`, `C81_bosonic_window_refuted`, `C88_assign`, `C88_flat`, `C88_flat_real`, `C92_no_overflow`, `C92_fourier`

