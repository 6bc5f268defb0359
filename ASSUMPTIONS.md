# Axioms used by each theorem

Generated by tools/mkassumptions.py from the output of `Print Assumptions` in the Props files.
All are axioms of Coq's standard library: `sig_forall_dec`, `sig_not_dec` (Coq.Reals.ClassicalDedekindReals),
`functional_extensionality_dep` (Coq.Logic.FunctionalExtensionality), `classic` (Coq.Logic.Classical_Prop),
`constructive_indefinite_description` (Coq.Logic.ClassicalEpsilon).

## none (closed under the global context)

C01_schedule_defined, C01_schedule_valid, C02_thomas_solves, C02_unique, C03_pcr_solves, C04_hybrid_solves, C04_hybrid_split, C05_strategies_agree, C05_dense_solves, C06_thomas_reusable, C06_pcr_reuse_refuted, C06_hybrid_reuse_refuted, C07_forward_is_dense, C07_dense_entries, C07_inverse_undoes_forward, C08_to_dense, C08_coo, C09_csr_shape_partial, C09_csr_shape_refuted, C13_solver_choice, C23_exact_after_j_updates, C24_zero_guess, C24_previous_guess, C24_unknown_guess, C27_adjoint_block_independent, C28_gradient_slots, C29_accepted_options, C36_values, C70_load_results, C70_unknown_raises, C71_codes_of_names, C71_type_noise, C72_same_sites, C72_default_suffixes, C72_extra_params, C72_extra_params_before, C72_guide_stable, C72_distinct_names_refuted, C72_class_attributes_not_sampled, C72_method_name_refuted, C75_empty_forcing_refuted, C76_rhs_kept, C76_rhs_kept_refuted, C78_frozen_parameter_breaks_backward, C94_parameters_in_order, C94_missing_parameter, C94_repeated_name, C128_linear, C128_sum_over_tests

## functional_extensionality_dep

C128_selection, C128_silent_tests, C128_unseen_rows, C132_backward

## sig_forall_dec

C34_rate_form, C65_relaxation_partial, C65_no_hold_raises, C71_default_weights, C71_custom_weights, C71_unknown_type, C85_add_id, C102_noise_of_own_type, C103_noise_of_own_type, C131_every_perceptron

## functional_extensionality_dep, sig_forall_dec

C10_bounded_work, C10_success_is_convergence, C10_converged_start_kept, C11_nan_reported_as_success_refuted, C11_nan_start_always_ok, C12_raise_rule_partial, C12_no_throw_same_value, C12_converged_at_miter_raises_refuted, C13_newton_raphson, C14_backtracking, C14_all_gt_meaning, C15_newton_overwrites_x0_refuted, C15_chunk_overwrites_x0_refuted, C15_caller_holds_result, C16_affine_one_update, C17_gmres, C18_fills_every_time_once, C18_uninitialised_storage_invisible, C18_always_terminates, C24_previous_guess_refuted, C30_interpolant_determined, C30_piecewise_linear, C30_piecewise_linear_1d, C30_data_at_nodes, C31_out_of_range_raises, C31_one_dimensional_refuted, C32_precached, C32_one_shot_batch, C32_one_shot_single, C32_all_agree, C33_entry_zero, C33_same_bracket, C34_jacobians, C35_rate_form, C35_stress_and_history_rows, C35_damage_row_partial, C35_damage_row_error, C36_silent_solve, C36_exact_solve, C36_strain_rate_row, C36_jacobian_partial, C36_history_row_error, C37_dispatch, C37_independent, C39_same_rates, C39_no_damage_history, C43_superimposed_blocks, C43_superimposed_derivatives, C44_lambda_zero, C44_homogeneous, C44_rate_independent_at_rest, C44_derivatives, C44_rate_law, C47_voce, C47_theta0voce, C48_none, C48_frederick_armstrong_norecovery, C48_chaboche, C48_superimposed, C48_superimposed_blocks, C49_theta0voce_is_voce, C49_chaboche_is_superimposed_fa, C50_voce_saturates, C50_voce_approaches, C50_voce_step_exists, C50_chaboche_bounded, C50_frederick_armstrong_bounded, C51_none, C51_constant, C52_history, C53_bounded_clamped, C53_bounded_unclamped, C55_simple_inverts, C56_bounded_scale_mean, C56_bounded_stat, C57_bounded_scale_function, C57_bound_factor, C57_bound_factor_min, C57_constant_parameter, C58_polyval, C59_piecewise_interpolates, C59_control_points, C59_out_of_range_raises, C60_rate_sensitivity_clipped, C63_columnwise_partial, C63_dispatch, C63_columnwise_refuted, C64_cycle_maximum_partial, C64_gap_raises, C64_own_cycle_refuted, C65_own_hold_refuted, C66_abstract_tensile, C67_tension_tests, C67_sample_tension, C69_shape, C69_times, C69_strains, C69_landmarks, C69_periodic, C73_macaulay_heaviside, C74_affine_exact, C74_flat_exact, C74_differentiate_partial, C74_differentiate_refuted, C75_state_jacobian, C77_preconditioner_reuse, C77_history_threads, C77_reuse_rule, C80_left_of_range_refuted, C81_documented_backstress_rate_refuted, C87_voce, C87_theta0voce, C87_chaboche, C87_frederick_armstrong_norecovery, C87_superimposed_pair, C89_constant_and_none, C91_elastic, C91_elastic_to_tolerance, C108_R_is_max_over_min_refuted, C109_band_covers, C109_mean_line, C109_small_batches_refuted, C110_times_increase, C110_zero_hold_refuted, C132_at_a_block_end, C139_elastic_lag

## functional_extensionality_dep, sig_forall_dec, sig_not_dec

C57_clamp_helpers_outside, C57_clamp_helpers, C62_shear_exp

## classic, constructive_indefinite_description, functional_extensionality_dep, sig_forall_dec

C22_assembly_is_jacobian, C25_adjoint_backward_euler, C26_gradient_of_inexact_run, C26_adjoint_forward_euler, C137_training_steps

## classic, functional_extensionality_dep, sig_forall_dec, sig_not_dec

C35_damage_row_refuted, C36_jacobian_refuted, C40_perfect_value, C40_perfect_derivatives, C40_perfect_shape, C41_isokin_derivatives, C41_voce_chaboche_derivatives, C42_elastic_range, C42_flow_outside, C42_direction, C42_history, C45_first, C45_second, C45_rejects, C45_faster_stays_first, C45_derivatives, C45_regime_law, C46_convex_combination, C46_weight_monotone, C46_derivatives, C46_rejects, C46_blend_law, C47_theta0recovery, C48_frederick_armstrong, C48_chaboche_recovery, C49_recovery_off, C49_fa_default, C49_chaboche_recovery_off, C50_chaboche_recovery_bounded, C51_larson_miller_partial, C51_larson_miller_no_offset, C51_hayhurst_true, C51_hayhurst_exact_iff, C51_hayhurst_refuted, C52_rates_nonnegative, C52_models_never_heal, C54_log_clamped, C54_log_unclamped, C56_log_stat, C56_log_scale_mean_refuted, C56_log_normal_mean, C60_viscosity, C60_viscosity_inconsistent_refuted, C61_arrhenius_bounds, C61_arrhenius_monotone, C61_arrhenius_law, C62_mts_bounds, C62_mts_monotone, C62_mts_law, C62_mts_above_is_nan, C68_creep_tests_partial, C68_increasing_refuted, C74_mean_value, C81_actual_backstress_rate, C82_scaled_modulus_refuted, C82_unscaled_modulus, C83_documented_damaged_form_refuted, C84_hold_duration_refuted, C87_theta0recovery, C87_chaboche_recovery, C87_frederick_armstrong, C88_voce_chaboche_model, C88_law_determines_rates, C89_hayhurst, C89_larson_miller, C91_steady_creep, C91_steady_creep_to_tolerance, C102_joint_density, C102_penalised_least_squares, C102_truth_maximises_likelihood, C102_repeated_name, C103_loss_is_weighted_posterior, C103_unweighted_measurements_ignored, C103_penalised_least_squares, C103_first_evaluation, C103_other_number_of_tests_raises, C103_single_test_parameters_shared, C103_densities, C108_random_tension, C108_random_cycle, C114_models_at_rest, C121_derivative_refuted, C121_outside_partial, C124_library, C126_library, C130_hayhurst_does_not_convert, C139_steady_creep

## classic, constructive_indefinite_description, functional_extensionality_dep, sig_forall_dec, sig_not_dec

C19_backward_euler_to_tolerance, C19_unwarned_block, C20_forward_euler_to_tolerance, C21_forward_euler_any_block, C21_backward_euler_any_two_blocks, C23_forward_euler_never_fails, C25_gradient_of_solution_map, C25_gradient_of_inexact_run, C25_residuals_of_a_run, C38_increment_and_temperature_honoured, C38_elastic_tracks_strain, C38_elastic_always_solved, C38_increment_to_tolerance, C38_elastic_to_tolerance, C79_linear_ode_always_solved, C79_linear_ode_block_independent, C86_flow_stress_saturates, C86_holds_relax, C86_block_independent, C86_linear_viscosity_always_solved, C86_saturates_to_tolerance, C86_runs_agree_to_tolerance, C90_all_strain, C90_all_stress, C91_stress_control, C91_always_solved, C91_stress_control_damaged, C91_stress_control_to_tolerance, C92_strain_entries, C92_stress_entries, C92_other_entries, C92_strain_entries_unaffected, C92_strain_entries_to_tolerance, C92_stress_entries_to_tolerance, C92_other_entries_to_tolerance, C93_actual_increment, C93_elastic_lag, C93_elastic_tracks_refuted, C95_elastic_tests, C95_synthetic_data_reproduced, C95_elastic_tests_to_tolerance, C95_synthetic_data_to_tolerance, C96_creep_tests_to_tolerance, C96_creep_tests, C96_relaxation_tests, C96_relaxation_tests_to_tolerance, C97_residual_bound, C97_optimal, C98_exact_preconditioner, C98_lu_gmres, C98_jacobi_gmres, C99_one_iteration, C99_n_iterations_refuted, C99_enough_iterations, C99_exact_arithmetic, C100_solved_entry_refuted, C101_backward_euler_within_tolerance, C101_forward_euler_within_tolerance, C101_forward_euler_exact, C101_backward_euler_exact, C101_tolerance_is_needed, C102_mean_is_deterministic_model, C104_backward_euler_error, C104_forward_euler_error, C104_convergence, C104_strain_control_error, C104_viscoplastic_stress_error, C105_newton_raphson_converges, C106_small_steps_never_fail, C106_converges, C107_stagnation, C107_refinement_converges_refuted, C110_peak_of_own_cycle, C110_elastic_generated, C110_viscoplastic_generated, C110_elastic_generated_to_tolerance, C110_viscoplastic_generated_to_tolerance, C111_internal_variables_bounded, C111_stress_bounded, C111_internal_variables_bounded_to_tolerance, C111_stress_bounded_to_tolerance, C112_work_at_least_stored_energy, C112_virgin_material_absorbs_work, C112_work_at_least_stored_energy_to_tolerance, C113_damage_never_decreases, C113_damage_never_decreases_to_tolerance, C114_elastic_range_always_solved, C114_elastic_range_exact, C115_exact_runs_agree, C115_exactly_one_history, C116_gradient_of_exact_simulations, C116_gradient_of_runs, C117_tension_curve, C117_relaxation_curve, C117_tension_curve_to_tolerance, C117_relaxation_curve_to_tolerance, C117_creep_curve, C118_near_the_exact_history, C118_runs_agree_to_tolerance, C118_tighter_tolerance_converges, C119_exact_histories, C119_runs_to_tolerance, C119_reversed_loading, C120_mixed_control, C120_strain_control, C120_no_fixed_limit, C121_elastic_step_refuted, C122_strain, C122_both, C122_stress, C122_truncated, C122_blocks_needed, C123_strain, C123_both, C123_stress, C124_strain, C124_both, C124_stress, C125_strain, C125_both, C125_stress, C126_backward, C126_uniform, C126_uniform_needed, C127_exactly_one_history, C127_runs_return_it, C127_gradient_of_exact_simulations, C127_gradient_of_runs, C129_gradient_is_continuous, C129_gradient_near_the_exact_history, C129_gradient_of_runs_to_tolerance, C130_strain_control, C130_unit_of_time, C130_tolerance_conversion_needed, C131_exactly_one_history, C131_runs_near_the_history, C131_training_gradient, C131_perceptron, C132_anywhere, C132_previous_guess, C133_gathered_history, C133_same_response, C133_simulations_agree, C133_larger_models_fit_as_well, C133_perfect_viscoplasticity, C134_more_strain, C134_tension, C134_creep, C135_small_steps_decrease_the_loss, C135_zero_gradient_at_a_minimum, C135_true_parameters, C135_steps_from_converged_runs, C136_short_steps_relax, C136_long_steps_oscillate, C136_silent, C137_training_gradient, C137_neural, C137_hardening, C137_kinematic, C138_approach_to_saturation, C138_short_steps_keep_the_bounds, C138_long_steps_overshoot, C138_short_steps_calibrate, C139_stress_control, C139_stress_control_damaged, C139_mixed_strain, C139_mixed_stress, C139_mixed_other, C139_always_solved, C139_does_not_track, C140_explicit_error, C140_viscoplastic_stress_error, C140_maxwell_error, C140_maxwell_converges, C140_lag_is_sharp, C141_exactly_one_history, C141_gradient_of_exact_simulations, C141_gradient_of_runs, C142_true_parameters, C142_perfect_viscoplasticity, C142_mixed_batches, C142_neural, C142_perceptron, C143_runs_near_the_exact_history, C143_gradient_of_runs_to_tolerance, C143_steps_from_converged_runs, C143_training_always_works, C144_gradient_near_the_exact_history, C144_steps_near_the_exact_history, C145_runs_near_the_exact_history, C145_gradient_of_runs_to_tolerance, C145_steps_from_converged_runs, C146_exactly_one_history, C146_runs_return_it, C146_runs_near_the_exact_history, C146_gradient_of_exact_simulations, C146_gradient_of_runs, C146_gradient_of_runs_to_tolerance, C146_steps_from_converged_runs, C147_exactly_one_history, C147_runs_return_it, C147_creep_runs, C147_gradient_of_exact_simulations, C147_creep_calibration, C148_runs_near_the_exact_history, C148_gradient_of_runs_to_tolerance, C148_training_goes_downhill, C148_steps_from_converged_runs, C148_creep_training_always_works, C149_slow_creep_is_lost, C149_exact_in_company, C149_own_result_refuted, C149_company_changes_little, C149_block_size_refuted
