# Print Assumptions, per theorem

Generated by tools/assumptions.py from a complete build.  Every name below is an
axiom of Coq's standard library; nothing else is assumed.

## Closed under the global context (no axioms)

70 theorems: `C01_layout_bijection`, `C01_reachable_valid`, `C02_history_refines_map`, `C02_last_write_wins`, `C03_element_bounds`, `C03_rejected_write_no_change`, `C04_column_read`, `C04_row_read`, `C04_column_write`, `C04_row_write`, `C04_row_self_assign`, `C05_truncation`, `C05_negative_stop_refuted`, `C06_window`, `C06_window_length_one`, `C07_angular_power`, `C08_binary_modewise`, `C08_number_modewise`, `C08_number_left_modewise`, `C08_other_operand`, `C09_mismatch_iff_sizes_differ`, `C09_shape_check_refuted`, `C10_scalar_coefs_div_zero`, `C10_vector_coefs_div_zero`, `C10_scalar_patt_div_zero`, `C10_vector_patt_div_zero`, `C11_no_monopole`, `C11_monopole_access_rejected`, `C12_pair_write`, `C12_other_writes_rejected`, `C12_reads_componentwise`, `C12_truncation_componentwise`, `C13_modewise`, `C13_number_modewise`, `C13_size_mismatch`, `C13_size_check_refuted`, `C14_factory_errors`, `C14_zeros_ones`, `C14_random`, `C15_array_2d`, `C16_pretty`, `C17_too_few_rows`, `C18_float_pole_refuted`, `C19_scalar_binary`, `C19_scalar_number`, `C19_vector_binary`, `C20_vector_phi_ignored`, `C21_factory_errors`, `C21_constant_factories`, `C34_factorisation`, `C35_FindQ_least_smooth`, `C35_FindQ_nonpositive_diverges`, `C35_kiss_zero_diverges`, `C35_nonpositive_diverges`, `C36_length_admissible`, `C37_negative_zero_refuted`, `C37_infinite_refuted`, `C38_tiny_pole_refuted`, `C40_interrupted_header`, `C40_truncated_number_refuted`, `C62_repr_identifies`, `C62_str_lines`, `C62_str_identifies`, `C62_vector_repr`, `C62_pattern_repr`, `C62_labels`, `C62_picture_rows`, `C62_picture`, `C63_FindQ_range`, `C63_next_fast_size_range`

## `Classical_Prop.classic`

2 theorems: `C35_kiss_next_fast_size`, `C35_search_least`

## `ClassicalDedekindReals.sig_forall_dec`, `FunctionalExtensionality.functional_extensionality_dep`

1 theorems: `C44_loop_convergent`

## `ClassicalDedekindReals.sig_forall_dec`, `ClassicalDedekindReals.sig_not_dec`, `FunctionalExtensionality.functional_extensionality_dep`

170 theorems: `C07_power_total`, `C07_power_modes`, `C17_scalar_constructor_symmetric`, `C17_vector_constructor_antisymmetric`, `C17_idempotent`, `C17_odd_columns_refuted`, `C18_scalar_data_returned`, `C18_vector_data_returned`, `C19_vector_linear_antisym`, `C19_product_antisym_refuted`, `C19_add_number_antisym_refuted`, `C20_single_val_is_largest_deviation`, `C20_is_symmetric_iff`, `C20_vector_is_symmetric_iff`, `C20_vector_decides_refuted`, `C21_zeros_vector_antisym`, `C21_ones_vector_refuted`, `C21_random`, `C22_abs_mag_scalar`, `C22_mag_patterns`, `C22_mag_vector_coefs`, `C22_mag2_scalar_coefs_is_mag`, `C22_mag2_scalar_coefs_refuted`, `C22_L2_coef`, `C22_L2_vector_coefs_exact`, `C22_L2_vector_coefs_refuted`, `C22_L2_patt`, `C22_LInf`, `C22_compare_relative`, `C25_either_backend`, `C25_projection`, `C25_spht_inverts_ispht`, `C25_round_trip_identity`, `C26_either_backend`, `C26_vspht_inverts_vispht`, `C26_round_trip_identity`, `C27_spht_linear`, `C27_ispht_linear`, `C27_vspht_linear`, `C27_vispht_linear`, `C28_either_backend`, `C28_ispht_symmetric`, `C28_vispht_antisymmetric`, `C29_spht_guard`, `C29_vspht_guard`, `C29_defaults`, `C29_vdefaults`, `C29_given_mmax_ignored_refuted`, `C29_wide_pattern_rejected`, `C29_spht_slow_guard`, `C30_vispht_guard`, `C30_ispht_guard`, `C30_defaults`, `C30_ispht_slow_guard`, `C31_ynnm_equal`, `C31_ynunm_equal`, `C31_fc_to_sc_equal`, `C31_sc_to_fc_equal`, `C31_spht_equal`, `C31_spht_is_spht_slow`, `C31_vspht_equal`, `C31_ispht_equal`, `C31_ispht_is_ispht_slow`, `C31_vispht_equal`, `C32_fc_to_sc_in_bounds`, `C32_sc_to_fc_in_bounds`, `C32_spht_in_bounds`, `C32_vspht_in_bounds`, `C32_ispht_in_bounds`, `C32_vispht_in_bounds`, `C32_ispht_single_row_out_of_bounds`, `C33_kiss_fft_is_dft`, `C33_in_place_is_dft`, `C33_kiss_fft_contiguous`, `C33_roundtrip`, `C36_no_aliasing`, `C36_spht_data`, `C36_vspht_data`, `C42_values`, `C42_errors`, `C43_recurrence`, `C43_errors`, `C43_cross_product_test`, `C44_convergent_error`, `C45_hankel`, `C45_arrays`, `C46_calls_compute_on_values`, `C46_new_object_isolated`, `C46_writes_to_new_object_stay_inside`, `C46_separation`, `C46_value_semantics`, `C46_scalar_copy_equal`, `C46_vector_copy`, `C47_references_track`, `C47_scalarcoefs_is_reference`, `C47_writes_visible_both_ways`, `C47_column_is_view`, `C47_row_is_snapshot`, `C47_vectorcoefs_is_reference`, `C47_vectorcoefs_clears_callers_arrays`, `C47_vectorcoefs_rejected_untouched`, `C47_same_array_twice`, `C47_window_by_own_column_refuted`, `C47_monopole_through_scoef1_refuted`, `C47_write_to_cdata_refuted`, `C48_spht`, `C48_vspht`, `C48_ispht`, `C48_vispht`, `C48_slow`, `C48_result_and_argument_independent`, `C49_wide_raises`, `C50_switch`, `C50_False_string_selects_C_refuted`, `C50_spht_independent_of_switch`, `C50_vspht_independent_of_switch`, `C50_ispht_independent_of_switch`, `C50_vispht_independent_of_switch`, `C51_sin_fc`, `C51_divsin_inverts`, `C56_conjugate`, `C56_real_data`, `C56_rotation`, `C56_phi_reflection`, `C56_theta_reflection`, `C56_constructed_patterns`, `C57_verify_spht`, `C57_verify_spht_zero`, `C57_verify_spht_own_output`, `C57_verify_vspht`, `C57_verify_vspht_linf_zero`, `C57_L2_blind_refuted`, `C57_verify_vispht`, `C57_verify_fdata_short_out_of_bounds`, `C58_plot_mag_on_sphere`, `C58_geometry`, `C58_plot_sphere_mag_scalar`, `C58_plot_sphere_mag_transverse`, `C58_plot_sphere_mag_errors`, `C58_pcolor_coefs`, `C58_plot_coefs`, `C58_vector_coefs_rejected`, `C58_no_matplotlib`, `C61_rotation`, `C61_conjugate`, `C61_real_data`, `C61_phi_reflection`, `C61_theta_reflection`, `C61_duality`, `C61_constructed_patterns`, `C61_real_arrays`, `C63_ispht_no_overflow`, `C63_ispht_overflow`, `C63_vispht_no_overflow`, `C63_vispht_overflow`, `C64_well_typed`, `C64_accepted_closed`, `C64_ispht_accepted`, `C64_ispht_rejected`, `C64_ispht_abs_refuted`, `C64_spht_numpy_int_refuted`, `C64_write_element`, `C64_write_column`, `C64_window`, `C64_vispht_python`, `C64_vispht_int_truncates`, `C64_vispht_int_refuted`, `C64_vispht_accepted`, `C64_vispht_rejected`, `C71_value`

## `ClassicalDedekindReals.sig_forall_dec`, `ClassicalDedekindReals.sig_not_dec`, `Classical_Prop.classic`, `FunctionalExtensionality.functional_extensionality_dep`

108 theorems: `C23_ynunm_is_harmonic_table`, `C24_either_backend`, `C24_ispht_evaluates_series`, `C30_ispht_short_grid_refuted`, `C37_coef_roundtrip`, `C38_raw_data_roundtrip`, `C38_load_patt_roundtrip`, `C38_load_vpatt`, `C39_text_identifies_double`, `C39_float_is_nearest`, `C40_interrupted_save`, `C40_extra_lines`, `C40_interrupted_pattern_save`, `C41_load_vcoef`, `C42_solves_equation`, `C43_accuracy_small_arguments`, `C43_accuracy`, `C44_loop_terminates_accurate`, `C44_target_is_bessel`, `C49_values`, `C49_correct_for_50`, `C49_agrees_with_ispht`, `C49_other_columns_refuted`, `C51_dtheta_fc`, `C51_dphi_fc`, `C51_L_operators`, `C52_grids_agree`, `C53_either_backend`, `C53_vispht_evaluates_series`, `C54_spht_inner_products`, `C54_harmonics_orthonormal`, `C54_any_pattern`, `C55_power_is_energy`, `C55_least_squares`, `C56_real_synthesis`, `C56_constant`, `C57_verify_ispht`, `C57_verify_ispht_zero`, `C57_verify_fdata`, `C57_saved_coefficients`, `C57_saved_vector_coefficients`, `C58_synthesis_plot`, `C58_simple_plot`, `C59_vspht_inner_products`, `C59_any_pattern`, `C59_vector_harmonics_orthonormal`, `C60_power_is_energy`, `C60_least_squares`, `C63_spht_no_overflow`, `C63_spht_overflow`, `C63_vspht_no_overflow`, `C63_vspht_overflow`, `C63_floor_sqrt`, `C63_kf_factor`, `C63_kiss_fft`, `C63_kiss_fft_prime_overflow`, `C64_spht_accepted`, `C65_same_table`, `C65_accurate`, `C65_wrong_from_1076`, `C65_table_nan`, `C65_spht_nan`, `C65_spht_nan_c`, `C65_ispht_nan`, `C65_ispht_nan_c`, `C66_sbesselj_accurate`, `C66_sbesselj_small`, `C66_sbesselj_garbage`, `C66_sbesselj_terminates`, `C66_sbessely_accurate`, `C66_sbessely_nan`, `C66_hankel`, `C66_hankel_nan`, `C67_table_accurate`, `C67_table_accurate_c`, `C67_size`, `C67_tolerance`, `C68_pattern_bound`, `C68_stable`, `C68_attained`, `C69_spht_accurate`, `C69_spht_accurate_c`, `C69_spht_vs_exact`, `C69_spht_vs_exact_c`, `C69_bound_size`, `C70_ispht_accurate`, `C70_ispht_accurate_c`, `C70_ispht_vs_exact`, `C71_sum_rule`, `C71_no_false_alarm`, `C71_small_arguments`, `C72_fft_accurate`, `C72_in_place_accurate`, `C72_fast_sizes`, `C72_size_360`, `C72_roundtrip`, `C73_spht_c_accurate`, `C74_ispht_accurate`, `C75_spht_accurate`, `C76_round_trip_accurate`, `C76_round_trip_sizes`, `C77_ispht_accurate`, `C77_backends_agree`, `C78_spht_python_accurate`, `C79_spht_accurate`, `C79_backends_agree`, `C80_round_trip_accurate`, `C80_round_trip_sizes`
