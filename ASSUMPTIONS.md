# Print Assumptions of every property theorem

(generated by tools/assumptions.py)

## `ClassicalDedekindReals.sig_forall_dec`, `FunctionalExtensionality.functional_extensionality_dep`

C01_interp_on_polyline, C02_interp_no_overshoot, C03_choose_max_after_step, C03_choose_min_before_step, C04_segment_search, C05_segments_before, C06_between_tiles, C07_empty_interval_refuted, C07_empty_interval_value, C11_layers_roundtrip, C12_argument_after, C12_force_strictly_increasing, C12_points_hardly_move, C12_returns_iff_monotone, C13_force_non_decreasing, C14_classification, C15_initially_increasing, C15_initially_increasing_refuted, C16_monotone_parts, C17_has_steps, C17_non_decreasing, C17_non_increasing, C17_strictly_decreasing, C17_strictly_increasing, C18_mesh, C18_mesh_errors, C21_symmetry_refuted, C36_wall_pressure, C38_spacing_to_radius, C38_square_exceeds_triangle, C39_av_inverse, C41_constant, C42_darcy, C46_first, C46_fixed_point, C46_not_converged, C47_failures, C47_first_roots, C47_one_root_terminates, C47_root_zero_refuted, C47_same_root_refuted, C47_search, C47_start_at_root_refuted, C47_terminates, C48_affine, C48_caller_array_kept_refuted, C48_geometric, C48_geometric_negative, C48_no_acceleration, C48_tail, C48_three_terms, C48_total, C52_x_limits, C55_below_60_refuted, C55_hms, C56_bad_factor, C56_extremes, C56_shade, C56_tint, C59_lengths, C59_nested, C59_one_dict_refuted, C60_levels, C61_subdivide, C62_layer_boundary, C62_layer_extrapolation, C62_layer_interp, C63_layer_boundaries, C69_make_x_common, C72_k_linear, C74_k_overlapping_linear, C76_drain_eta, C86_accuracy, C86_converges, C86_fails, C86_result, C86_vector, C86_zero_fixed_point_refuted, C87_always_an_estimate_refuted, C87_epsilon_rule, C87_extend, C87_geometric, C87_idempotent, C87_shape, C87_too_short, C87_transform, C88_arrays, C88_inside, C88_linear, C88_orders, C88_positive, C88_reversed, C88_shapes, C88_shared_limit, C89_arrays, C89_estimate, C89_inside, C89_orders, C91_guarantees, C91_idempotent, C91_loads, C115_witness, C116_witness, C144_breaks, C144_negative_index, C146_independent, C147_normalise_refuted, C147_one_row, C147_physical_x, C147_rows, C152_assigned_length_refuted, C152_backwards_refuted, C152_constructor, C152_constructor_errors, C152_convert, C152_convert_errors, C152_defaults, C152_loads, C152_passing, C152_passing_beam, C152_positions, C152_start_time_refuted, C152_witness, C165_default_water_table, C165_grid, C165_grid_points, C165_hydrostatic, C171_first_guess, C171_largest, C172_late_start_refuted, C172_scaled, C173_answer, C173_big_answer_refuted, C173_clock, C173_ends, C173_example, C173_in_time, C173_killed_child_refuted, C173_unpicklable_refuted

## `ClassicalDedekindReals.sig_forall_dec`, `ClassicalDedekindReals.sig_not_dec`, `Classical_Prop.classic`, `FunctionalExtensionality.functional_extensionality_dep`

C07_integral, C08_additive, C09_average, C10_product_integral, C22_superposition, C22_superposition_plain, C23_af_linear, C24_D_aDf_linear, C24_D_aDf_strong_form, C25_ab_linear, C26_abc_linear, C27_abf_linear, C28_a_linear_between, C28_avg_between, C29_Eload_linear, C29_doubled_point_refuted, C30_EDload_linear, C31_basis_modes, C32_initial_pressure, C32_terzaghi_solves, C33_doc_is_mean, C33_flowrate_is_gradient, C34_mu_constant, C34_mu_ideal, C34_no_smear, C35_mu_piecewise_constant, C35_one_zone_is_mu_constant, C35_outer_radius, C35_splitting_a_zone, C35_splitting_the_first_zone, C36_u_constant, C36_u_ideal, C36_u_linear, C36_u_parabolic, C36_u_piecewise_constant, C36_u_piecewise_linear, C37_mean_over_depth, C38_area_of_cell, C39_cccr_curve, C39_cccr_stress, C39_cccr_void_ratio, C40_av_slope, C40_cccr_corner, C40_cccr_slope, C40_cccr_slope_virgin, C41_ck_curve, C41_ck_inverse, C42_drain_strain_rate, C42_inverse, C42_law, C42_odd_increasing_continuous, C42_reduces_to_darcy, C43_darcy_positive, C43_darcy_refuted, C43_derivative_positive, C43_derivative_zero, C43_linear_at_zero_refuted, C43_negative_refuted, C44_true_area, C62_layer_integral, C64_DD_abDDf_linear, C65_D_aDb_linear, C65_D_aDb_strong_form, C66_sine_modes_orthogonal, C71_product_of_lines, C72_mu_linear, C73_mu_parabolic, C73_nan_refuted, C74_mu_overlapping_linear, C74_touching_refuted, C75_mu_piecewise_linear, C75_single_zone, C75_validation, C76_mu_constant_monotone, C76_mu_linear_monotone, C76_mu_piecewise_constant_monotone, C76_outer_radius_u, C77_degree_of_consolidation, C77_truncation_error, C78_pwise_normally_consolidated, C78_pwise_on_curve, C78_pwise_preconsolidated, C79_pwise_ends_refuted, C79_pwise_slope, C80_pwise_permeability, C80_pwise_permeability_on_curve, C81_accepted_is_consistent, C81_any_three_parameters, C81_darcy_reduction, C81_darcy_reduction_refuted, C81_iterated_exponent, C81_wrong_parameters, C82_centroid, C82_facing_y_refuted, C82_level_refuted, C82_plane_polygon, C83_second_moment, C88_near_best, C88_polynomial, C88_sum_intervals, C89_estimate_small, C89_near_best, C89_polynomial, C89_sum_intervals, C93_Eload_coslinear, C94_EDload_coslinear, C95_Eload_sinlinear, C97_DD_abDDf, C97_D_aDb, C97_D_aDf, C97_a_between, C97_ab, C97_abc, C97_abf, C97_af, C98_EDload, C98_Eload, C98_after_table_refuted, C99_average, C99_integral, C100_consolidation, C101_drain, C101_drain_refuted, C101_solution, C102_column_refuted, C102_solution, C103_fredlund_xing_curve, C104_pham_fredlund_curve, C104_residual_suction, C105_fx_relative_permeability, C105_fx_scale_free, C105_pf_relative_permeability, C106_below_the_curve_refuted, C106_discrete_relative_permeability, C107_air_permeability, C108_four_boundary_loads_refuted, C108_unsaturated, C108_water_settlement_refuted, C109_large_strain, C109_pressure_degree, C109_witness, C110_position, C110_settlement, C111_initial_state, C112_soil_velocity, C112_water_velocity_drained, C112_water_velocity_refuted, C112_water_velocity_sealed, C113_stresses_refuted, C113_total_pore_pressure, C114_time_from_degree, C115_gaps_refuted, C115_rejects, C115_varying_drain, C116_constant_capacity_refuted, C116_drain_and_soil, C117_pressures, C118_best, C118_equation, C119_average_and_settlement, C120_settlement_table_refuted, C121_integer_depths_refuted, C121_pressures, C121_witness, C122_average_and_settlement, C123_defaults_refuted, C123_pressures, C123_same_permeability_refuted, C123_witness, C124_average_and_settlement, C125_midpoint_rule, C126_waves, C126_witness, C127_exact_zeros, C127_pressures, C127_rates, C128_degree, C128_rejects, C128_settlement, C129_holds_somewhere, C129_unsaturated, C130_dies, C130_final, C132_best, C132_equation, C132_pressures, C133_average_and_settlement, C134_equation, C134_no_drain, C135_settlement_table_refuted, C135_straight_refuted, C136_any_two, C136_consistent, C136_count, C136_no_creep, C136_reference, C137_creep_refuted, C137_determined, C137_history, C137_reset, C137_restart_refuted, C138_inverse, C138_inverse_back, C138_monotone, C138_state_kept, C139_constant_rate, C139_methods_agree, C139_origin_refuted, C139_put_back, C139_strain_odeint, C139_strain_rate, C139_stress_rate, C139_twice_refuted, C139_varying_refuted, C140_stress, C140_void, C141_instant, C141_rate, C141_unloading_refuted, C142_sign_refuted, C143_together_refuted, C143_value, C144_value, C144_vectorised, C145_galerkin, C146_error, C146_exact, C147_clamped_modes, C147_free_modes, C148_decays, C148_point_load, C148_shape, C149_dies_out, C149_factor, C149_physical, C149_static_factor, C150_inverse, C150_position_refuted, C150_through, C150_transition, C151_between, C151_circles, C151_continuous, C151_errors, C151_jump_refuted, C151_middle, C151_monotone, C151_outside, C151_swap, C153_galerkin, C153_witness, C155_witness, C157_derivative, C157_derivative_refuted, C158_group, C158_hysteresis, C158_indexes, C158_no_hysteresis, C158_spacing, C159_fill, C159_history, C159_reference, C159_saturation, C159_thresholds, C160_saturated, C161_drying, C161_unloading, C161_wetting, C162_rerun, C163_bad_values, C163_defaults_refuted, C163_example, C163_geometric, C163_points, C163_runs, C164_agree, C164_bounds_refuted, C164_drying, C164_drying_refuted, C164_saturation, C164_wetting, C165_calc, C165_lawful, C165_nonconvergence_refuted, C165_physical, C165_point_path, C165_refine_refuted, C166_indexes, C166_paths, C166_profile_kept, C166_profile_refuted, C166_water_table_refuted, C167_air, C167_water, C168_Eload_linear, C168_Eload_sinlinear, C168_example, C169_example, C169_motion, C170_after_table_refuted, C170_agrees, C170_example, C170_runs, C171_example, C171_functions, C171_only, C171_refused, C171_spacing, C171_unreachable_refuted, C172_accuracy, C176_g, C176_rejects, C176_slope_limit, C177_beta_u, C177_constant, C177_example, C177_ideal, C177_outer, C177_rejects, C177_returns, C177_u_outside, C178_example, C178_flow, C178_rejects

## Closed under the global context

C12_argument_mutated_refuted, C14_classification_refuted, C22_single_tuple_refuted, C41_constant_plot_refuted, C47_none, C49_accepts_exactly, C49_attribute_whitelist_refuted, C49_checked_before_running, C49_eval_refuted, C49_no_dangerous_calls, C49_no_dunder_attributes, C49_no_imports, C49_only_listed_functions, C49_refusal, C49_remembers, C49_reuse, C49_unchecked_refuted, C50_fresh, C50_history, C50_increment_zero_refuted, C50_missing_folder, C50_number, C50_overwrite_refuted, C51_directory_removed, C51_nested, C51_restored, C52_array_refuted, C52_combinations, C52_force_list, C52_is_list, C52_pairs, C52_same_len, C52_same_len_succeeds, C53_copied, C53_initialized, C54_directory_files, C54_every_file, C54_in_its_directory, C54_level_refuted, C54_named_files, C54_once_each, C54_one_file, C54_twice_refuted, C54_uninterrupted, C54_usage_errors, C57_identity, C57_involution, C57_map, C57_permutation, C57_step_refuted, C58_caller_refuted, C58_files, C58_same_name_refuted, C85_raises, C90_bad_text, C90_constructed, C90_no_text, C91_tables, C92_figures, C92_nothing_lost, C92_single_figure_refuted, C156_accepted, C156_combine, C156_missing, C156_steps, C156_unnamed_refuted, C174_apply, C174_calls, C174_example, C174_split, C174_too_many, C175_all, C175_empty_list_refuted, C175_example, C175_styles

## `PrimFloat.add`, `PrimFloat.div`, `PrimFloat.eqb`, `PrimFloat.float`, `PrimFloat.leb`, `PrimFloat.ltb`, `PrimFloat.mul`, `PrimFloat.of_uint63`, `PrimFloat.opp`, `PrimFloat.sub`, `PrimInt63.int`, `PrimInt63.lor`, `PrimInt63.lsl`, `PrimInt63.sub`

C12_force_strictly_increasing_refuted

## `ClassicalDedekindReals.sig_forall_dec`, `ClassicalDedekindReals.sig_not_dec`, `FunctionalExtensionality.functional_extensionality_dep`

C19_operands_unchanged, C19_results, C19_shift_overwrites, C19_shift_refuted, C20_representations_agree, C20_stale_layers_refuted, C21_equality, C22_lengths, C23_implementations_agree, C23_symmetric, C24_implementations_agree, C24_symmetric, C25_implementations_agree, C26_implementations_agree, C27_implementations_agree, C27_symmetric, C31_all_roots, C31_eigenvalues, C31_rejects_other_boundaries, C37_shape, C44_area, C44_area_vector, C44_clockwise_refuted, C44_facing_y_refuted, C44_shoelace, C44_start_and_position, C45_plane, C45_reversed, C64_implementations_agree, C65_implementations_agree, C67_Eload_EDload_consistent, C68_remove_superfluous, C70_sum_object, C70_sum_of_lines, C73_k_parabolic, C84_additive, C84_orientation, C84_tetrahedron, C84_translation, C84_volume, C85_parallelepiped, C96_cos_consistent, C96_cos_zero, C99_pressure, C99_short_modulations_refuted, C100_exact, C101_exact, C102_exact, C108_exact, C117_sizes, C120_conditions, C120_conditions_refuted, C120_depths, C120_impervious_top_refuted, C120_lengths, C120_tables, C125_linear, C125_mpmath, C125_real, C125_shift, C125_time_scaling, C125_vectorized, C125_witness, C125_zero_time, C126_no_effect_refuted, C126_time_zero, C129_drainage, C129_rejects, C129_singular, C130_holds_somewhere, C131_any_eigenvectors, C131_holds_somewhere, C135_conditions, C135_depths, C135_lengths, C135_tables, C142_complex, C142_imag, C142_imag_refuted, C142_parity_refuted, C142_real, C142_whole, C143_extrapolated, C143_extrapolated_from_end, C143_iterated, C143_negative_index, C143_orders, C143_points, C143_pointwise, C143_product, C144_cut_refuted, C144_extrapolated, C144_start_refuted, C145_given_times, C145_times, C145_times_witness, C146_points, C147_constructor_refuted, C147_free_first_refuted, C147_no_quadrature_refuted, C147_unknown_ends, C148_superposition, C149_static, C149_witness, C149_witness_static, C153_k3bar_refuted, C153_phase_refuted, C153_start_time_refuted, C154_dropped_refuted, C154_errors, C154_normalised, C154_physical, C154_units, C154_witness, C154_zero_refuted, C155_output, C155_stale_refuted, C155_wofx, C169_stored, C170_field, C172_example, C172_gives, C172_read, C172_refused

## `ClassicalDedekindReals.sig_forall_dec`

C85_closed, C85_faces
