{
 "claims": [
  {
   "property": "C01",
   "status": "proved",
   "theorems": [
    "C01_schedule_defined",
    "C01_schedule_valid"
   ],
   "note": ""
  },
  {
   "property": "C02",
   "status": "proved",
   "theorems": [
    "C02_thomas_solves",
    "C02_unique"
   ],
   "note": ""
  },
  {
   "property": "C03",
   "status": "proved",
   "theorems": [
    "C03_pcr_solves"
   ],
   "note": ""
  },
  {
   "property": "C04",
   "status": "proved",
   "theorems": [
    "C04_hybrid_solves",
    "C04_hybrid_split"
   ],
   "note": ""
  },
  {
   "property": "C05",
   "status": "proved",
   "theorems": [
    "C05_strategies_agree",
    "C05_dense_solves"
   ],
   "note": ""
  },
  {
   "property": "C06",
   "status": "partial",
   "theorems": [
    "C06_thomas_reusable",
    "C06_pcr_reuse_refuted",
    "C06_hybrid_reuse_refuted"
   ],
   "note": "Thomas proved for every sequence of right-hand sides; PCR and hybrid refuted: matvec leaves self.B overwritten (chunktime.py 223-242, 352-388), so a second application of the same object is wrong."
  },
  {
   "property": "C07",
   "status": "proved",
   "theorems": [
    "C07_forward_is_dense",
    "C07_dense_entries",
    "C07_inverse_undoes_forward"
   ],
   "note": ""
  },
  {
   "property": "C08",
   "status": "proved",
   "theorems": [
    "C08_to_dense",
    "C08_coo"
   ],
   "note": ""
  },
  {
   "property": "C09",
   "status": "partial",
   "theorems": [
    "C09_csr_shape_partial",
    "C09_csr_shape_refuted"
   ],
   "note": "Proved when the main diagonal is present; refuted in general: to_unrolled_csr gives no size, torch infers it from the largest index."
  },
  {
   "property": "C10",
   "status": "proved",
   "theorems": [
    "C10_bounded_work",
    "C10_success_is_convergence",
    "C10_converged_start_kept"
   ],
   "note": ""
  },
  {
   "property": "C11",
   "status": "partial",
   "theorems": [
    "C11_nan_reported_as_success_refuted",
    "C11_nan_start_always_ok"
   ],
   "note": "Refuted: comparisons with NaN are False, so the while loop ends with i < miter and the solve is reported as a success."
  },
  {
   "property": "C12",
   "status": "partial",
   "theorems": [
    "C12_raise_rule_partial",
    "C12_no_throw_same_value",
    "C12_converged_at_miter_raises_refuted"
   ],
   "note": "Exact rule proved (raises iff none of the first miter iterates meets the tolerances); the stated rule is refuted: an iterate that meets them after exactly miter updates still raises."
  },
  {
   "property": "C13",
   "status": "proved",
   "theorems": [
    "C13_newton_raphson",
    "C13_solver_choice"
   ],
   "note": ""
  },
  {
   "property": "C14",
   "status": "proved",
   "theorems": [
    "C14_backtracking",
    "C14_all_gt_meaning"
   ],
   "note": ""
  },
  {
   "property": "C15",
   "status": "partial",
   "theorems": [
    "C15_newton_overwrites_x0_refuted",
    "C15_chunk_overwrites_x0_refuted",
    "C15_caller_holds_result"
   ],
   "note": "Proved for newton_raphson_bt (res_caller r = x0 in C14_backtracking); refuted for newton_raphson and newton_raphson_chunk, which run x -= dx on the caller's tensor."
  },
  {
   "property": "C16",
   "status": "proved",
   "theorems": [
    "C16_affine_one_update"
   ],
   "note": ""
  },
  {
   "property": "C17",
   "status": "proved",
   "theorems": [
    "C17_gmres"
   ],
   "note": ""
  },
  {
   "property": "C18",
   "status": "proved",
   "theorems": [
    "C18_fills_every_time_once",
    "C18_uninitialised_storage_invisible",
    "C18_always_terminates"
   ],
   "note": ""
  },
  {
   "property": "C19",
   "status": "proved",
   "theorems": [
    "C19_backward_euler_to_tolerance",
    "C19_unwarned_block"
   ],
   "note": ""
  },
  {
   "property": "C20",
   "status": "proved",
   "theorems": [
    "C20_forward_euler_to_tolerance"
   ],
   "note": ""
  },
  {
   "property": "C21",
   "status": "proved",
   "theorems": [
    "C21_forward_euler_any_block",
    "C21_backward_euler_any_two_blocks"
   ],
   "note": ""
  },
  {
   "property": "C22",
   "status": "proved",
   "theorems": [
    "C22_assembly_is_jacobian"
   ],
   "note": ""
  },
  {
   "property": "C23",
   "status": "proved",
   "theorems": [
    "C23_exact_after_j_updates",
    "C23_forward_euler_never_fails"
   ],
   "note": ""
  },
  {
   "property": "C24",
   "status": "partial",
   "theorems": [
    "C24_zero_guess",
    "C24_previous_guess",
    "C24_unknown_guess",
    "C24_previous_guess_refuted"
   ],
   "note": "Size and content proved for 'zero' always and for 'previous' whenever block_size < number of times; refuted for 'previous' with block_size >= number of times: the guess is too short and the solve raises (ode.py 395-418)."
  },
  {
   "property": "C25",
   "status": "proved",
   "theorems": [
    "C25_gradient_of_solution_map",
    "C25_gradient_of_inexact_run",
    "C25_residuals_of_a_run",
    "C25_adjoint_backward_euler"
   ],
   "note": "C25_adjoint_backward_euler: for any differentiable family of exact histories. C25_gradient_of_solution_map: the family need not be given: with a continuously differentiable rate and invertible step matrices the exact histories near the given one form a unique differentiable family, and the adjoint pass returns the derivative of its loss. C25_gradient_of_inexact_run: for a history that is not an exact solution (a run stopped at the solver tolerances), the adjoint pass returns the exact gradient of the loss over the unique nearby family of histories that leave the same residuals in the update equations; C25_residuals_of_a_run: those residuals are within the tolerance."
  },
  {
   "property": "C26",
   "status": "proved",
   "theorems": [
    "C26_gradient_of_inexact_run",
    "C26_adjoint_forward_euler"
   ],
   "note": "C26_gradient_of_inexact_run: also for a history that is not an exact solution: the gradient over the unique family of histories leaving the same residuals."
  },
  {
   "property": "C27",
   "status": "proved",
   "theorems": [
    "C27_adjoint_block_independent"
   ],
   "note": ""
  },
  {
   "property": "C28",
   "status": "proved",
   "theorems": [
    "C28_gradient_slots"
   ],
   "note": ""
  },
  {
   "property": "C29",
   "status": "proved",
   "theorems": [
    "C29_accepted_options"
   ],
   "note": ""
  },
  {
   "property": "C30",
   "status": "proved",
   "theorems": [
    "C30_interpolant_determined",
    "C30_piecewise_linear",
    "C30_piecewise_linear_1d",
    "C30_data_at_nodes"
   ],
   "note": "Proved for one- and two-dimensional queries (torch.Tensor.t() rejects more); for a batch of one a one-dimensional query returns a 0-d tensor."
  },
  {
   "property": "C31",
   "status": "partial",
   "theorems": [
    "C31_out_of_range_raises",
    "C31_one_dimensional_refuted"
   ],
   "note": "Proved for two-dimensional queries; refuted for one-dimensional ones, where a tensor shorter than the batch is returned (utility.py 342-343)."
  },
  {
   "property": "C32",
   "status": "proved",
   "theorems": [
    "C32_precached",
    "C32_one_shot_batch",
    "C32_one_shot_single",
    "C32_all_agree"
   ],
   "note": ""
  },
  {
   "property": "C33",
   "status": "proved",
   "theorems": [
    "C33_entry_zero",
    "C33_same_bracket"
   ],
   "note": ""
  },
  {
   "property": "C34",
   "status": "proved",
   "theorems": [
    "C34_rate_form",
    "C34_jacobians"
   ],
   "note": ""
  },
  {
   "property": "C35",
   "status": "partial",
   "theorems": [
    "C35_rate_form",
    "C35_stress_and_history_rows",
    "C35_damage_row_partial",
    "C35_damage_row_error",
    "C35_damage_row_refuted"
   ],
   "note": "Rates and all Jacobian rows except the damage row are exact for every exact flow rule. The (damage, damage) entry lacks d_s*s/(1-d)^2 (models.py 265): C35_damage_row_error gives the exact discrepancy, C35_damage_row_refuted a witness, _partial the case where it is exact."
  },
  {
   "property": "C36",
   "status": "partial",
   "theorems": [
    "C36_silent_solve",
    "C36_exact_solve",
    "C36_values",
    "C36_strain_rate_row",
    "C36_jacobian_partial",
    "C36_history_row_error",
    "C36_jacobian_refuted"
   ],
   "note": "Values, inner solve and first row proved in general; the full Jacobian is exact for every base model whose flow does not depend on the strain rate. For rate-dependent histories each history row lacks (d hrate/d erate)*(d erate/dy) (C36_history_row_error, refuted by the rate-independent wrapper). C36_strain_rate_row takes the differentiability of the implicit strain rate as a hypothesis."
  },
  {
   "property": "C37",
   "status": "proved",
   "theorems": [
    "C37_dispatch",
    "C37_independent"
   ],
   "note": ""
  },
  {
   "property": "C38",
   "status": "proved",
   "theorems": [
    "C38_increment_and_temperature_honoured",
    "C38_elastic_tracks_strain",
    "C38_elastic_always_solved",
    "C38_increment_to_tolerance",
    "C38_elastic_to_tolerance"
   ],
   "note": "solve_strain put together from rate table, interpolation, constitutive model and block integrator over the reals. The general theorem is for runs that end with no Newton warning at zero tolerance (exact solves); the elastic case is shown to always reach such a run. Floats and autograd not modelled. With the tolerances in force: C38_increment_to_tolerance, C38_elastic_to_tolerance (at most one tolerance lost per step)."
  },
  {
   "property": "C39",
   "status": "proved",
   "theorems": [
    "C39_same_rates",
    "C39_no_damage_history"
   ],
   "note": ""
  },
  {
   "property": "C40",
   "status": "proved",
   "theorems": [
    "C40_perfect_value",
    "C40_perfect_derivatives",
    "C40_perfect_shape"
   ],
   "note": ""
  },
  {
   "property": "C41",
   "status": "proved",
   "theorems": [
    "C41_isokin_derivatives",
    "C41_voce_chaboche_derivatives"
   ],
   "note": "Exact for n > 1, eta > 0, everywhere except s = x with a negative yield stress s0 + k < 0, where the flow itself jumps."
  },
  {
   "property": "C42",
   "status": "proved",
   "theorems": [
    "C42_elastic_range",
    "C42_flow_outside",
    "C42_direction",
    "C42_history"
   ],
   "note": ""
  },
  {
   "property": "C43",
   "status": "proved",
   "theorems": [
    "C43_superimposed_blocks",
    "C43_superimposed_derivatives"
   ],
   "note": ""
  },
  {
   "property": "C44",
   "status": "proved",
   "theorems": [
    "C44_lambda_zero",
    "C44_homogeneous",
    "C44_rate_independent_at_rest",
    "C44_derivatives",
    "C44_rate_law"
   ],
   "note": ""
  },
  {
   "property": "C45",
   "status": "proved",
   "theorems": [
    "C45_first",
    "C45_second",
    "C45_rejects",
    "C45_faster_stays_first",
    "C45_derivatives",
    "C45_regime_law"
   ],
   "note": ""
  },
  {
   "property": "C46",
   "status": "proved",
   "theorems": [
    "C46_convex_combination",
    "C46_weight_monotone",
    "C46_derivatives",
    "C46_rejects",
    "C46_blend_law"
   ],
   "note": "The docstring's formula f M1 + (1-f) M2 has the weights exchanged; the code (and the theorem) use (1-f) M1 + f M2, consistent with the docstring's text."
  },
  {
   "property": "C47",
   "status": "proved",
   "theorems": [
    "C47_voce",
    "C47_theta0voce",
    "C47_theta0recovery"
   ],
   "note": ""
  },
  {
   "property": "C48",
   "status": "proved",
   "theorems": [
    "C48_none",
    "C48_frederick_armstrong",
    "C48_frederick_armstrong_norecovery",
    "C48_chaboche",
    "C48_chaboche_recovery",
    "C48_superimposed",
    "C48_superimposed_blocks"
   ],
   "note": ""
  },
  {
   "property": "C49",
   "status": "proved",
   "theorems": [
    "C49_theta0voce_is_voce",
    "C49_recovery_off",
    "C49_fa_default",
    "C49_chaboche_is_superimposed_fa",
    "C49_chaboche_recovery_off"
   ],
   "note": ""
  },
  {
   "property": "C50",
   "status": "proved",
   "theorems": [
    "C50_voce_saturates",
    "C50_voce_approaches",
    "C50_voce_step_exists",
    "C50_chaboche_bounded",
    "C50_frederick_armstrong_bounded",
    "C50_chaboche_recovery_bounded"
   ],
   "note": ""
  },
  {
   "property": "C51",
   "status": "partial",
   "theorems": [
    "C51_none",
    "C51_constant",
    "C51_larson_miller_partial",
    "C51_larson_miller_no_offset",
    "C51_hayhurst_true",
    "C51_hayhurst_exact_iff",
    "C51_hayhurst_refuted"
   ],
   "note": "NoDamage/ConstantDamage exact. Hayhurst-Leckie's derivatives miss the factors xi/A and (xi-phi): exact iff xi=A and xi-phi=1 (C51_hayhurst_exact_iff). Larson-Miller's stress derivative is off by |s|/(|s|+eps) with eps=1e-10, exact for eps=0."
  },
  {
   "property": "C52",
   "status": "proved",
   "theorems": [
    "C52_rates_nonnegative",
    "C52_history",
    "C52_models_never_heal"
   ],
   "note": ""
  },
  {
   "property": "C53",
   "status": "proved",
   "theorems": [
    "C53_bounded_clamped",
    "C53_bounded_unclamped"
   ],
   "note": ""
  },
  {
   "property": "C54",
   "status": "proved",
   "theorems": [
    "C54_log_clamped",
    "C54_log_unclamped"
   ],
   "note": ""
  },
  {
   "property": "C55",
   "status": "proved",
   "theorems": [
    "C55_simple_inverts"
   ],
   "note": ""
  },
  {
   "property": "C56",
   "status": "partial",
   "theorems": [
    "C56_bounded_scale_mean",
    "C56_bounded_stat",
    "C56_log_stat",
    "C56_log_scale_mean_refuted",
    "C56_log_normal_mean"
   ],
   "note": "Proved for simple and bounded scaling; refuted for log-bounded: scale_mean returns log(scale(loc)), always below scale(loc)."
  },
  {
   "property": "C57",
   "status": "proved",
   "theorems": [
    "C57_bounded_scale_function",
    "C57_bound_factor",
    "C57_bound_factor_min",
    "C57_clamp_helpers_outside",
    "C57_clamp_helpers",
    "C57_constant_parameter"
   ],
   "note": ""
  },
  {
   "property": "C58",
   "status": "proved",
   "theorems": [
    "C58_polyval"
   ],
   "note": ""
  },
  {
   "property": "C59",
   "status": "proved",
   "theorems": [
    "C59_piecewise_interpolates",
    "C59_control_points",
    "C59_out_of_range_raises"
   ],
   "note": ""
  },
  {
   "property": "C60",
   "status": "partial",
   "theorems": [
    "C60_rate_sensitivity_clipped",
    "C60_viscosity",
    "C60_viscosity_inconsistent_refuted"
   ],
   "note": "Clipping proved; viscosity consistent with the default rate sensitivity exactly when -mu b^3/(kTA) <= 20; refuted beyond, where KMViscosityScaling uses cutoff 1000 and the reported n uses 20."
  },
  {
   "property": "C61",
   "status": "proved",
   "theorems": [
    "C61_arrhenius_bounds",
    "C61_arrhenius_monotone",
    "C61_arrhenius_law"
   ],
   "note": ""
  },
  {
   "property": "C62",
   "status": "proved",
   "theorems": [
    "C62_shear_exp",
    "C62_mts_bounds",
    "C62_mts_monotone",
    "C62_mts_law",
    "C62_mts_above_is_nan"
   ],
   "note": ""
  },
  {
   "property": "C63",
   "status": "partial",
   "theorems": [
    "C63_columnwise_partial",
    "C63_dispatch",
    "C63_columnwise_refuted"
   ],
   "note": "Exact column-wise behaviour iff experiments of one relaxation/creep/cyclic type share their cycle column (the code reads column 0 of the group, experiments.py 267, 297); refuted otherwise. Unknown type codes return uninitialised memory (C63_dispatch, last case)."
  },
  {
   "property": "C64",
   "status": "partial",
   "theorems": [
    "C64_cycle_maximum_partial",
    "C64_gap_raises",
    "C64_own_cycle_refuted"
   ],
   "note": "Proved for groups sharing the cycle column, numbered without gaps; gaps raise; refuted for groups with different cycle columns."
  },
  {
   "property": "C65",
   "status": "partial",
   "theorems": [
    "C65_relaxation_partial",
    "C65_no_hold_raises",
    "C65_own_hold_refuted"
   ],
   "note": "Proved for groups sharing the cycle column with at least one flagged time; no flag raises; refuted for groups with different cycle columns."
  },
  {
   "property": "C66",
   "status": "proved",
   "theorems": [
    "C66_abstract_tensile"
   ],
   "note": ""
  },
  {
   "property": "C67",
   "status": "proved",
   "theorems": [
    "C67_tension_tests",
    "C67_sample_tension"
   ],
   "note": ""
  },
  {
   "property": "C68",
   "status": "partial",
   "theorems": [
    "C68_creep_tests_partial",
    "C68_increasing_refuted"
   ],
   "note": "Increasing times need load time < hold_time because hold_times is used as the absolute end time; refuted otherwise."
  },
  {
   "property": "C69",
   "status": "proved",
   "theorems": [
    "C69_shape",
    "C69_times",
    "C69_strains",
    "C69_landmarks",
    "C69_periodic"
   ],
   "note": ""
  },
  {
   "property": "C70",
   "status": "proved",
   "theorems": [
    "C70_load_results",
    "C70_unknown_raises"
   ],
   "note": ""
  },
  {
   "property": "C71",
   "status": "proved",
   "theorems": [
    "C71_codes_of_names",
    "C71_default_weights",
    "C71_custom_weights",
    "C71_unknown_type",
    "C71_type_noise"
   ],
   "note": "Both directions: default and custom dictionaries, unknown names are KeyErrors; type noise needs at least seven entries, unknown codes keep uninitialised memory."
  },
  {
   "property": "C72",
   "status": "partial",
   "theorems": [
    "C72_same_sites",
    "C72_default_suffixes",
    "C72_extra_params",
    "C72_extra_params_before",
    "C72_guide_stable",
    "C72_distinct_names_refuted",
    "C72_class_attributes_not_sampled",
    "C72_method_name_refuted"
   ],
   "note": "Proved (sites, plates, event dimensions and order) whenever all derived site names are distinct, which default suffixes guarantee when no name ends in _loc or _scale; refuted for merely distinct names (x, x_loc) and for a parameter named like a method (C72_method_name_refuted: the guide fits it, the model never samples it; C72_class_attributes_not_sampled in general). Pyro's own handlers are modelled: samples cached per call, duplicate sites refused, param store."
  },
  {
   "property": "C73",
   "status": "proved",
   "theorems": [
    "C73_macaulay_heaviside"
   ],
   "note": ""
  },
  {
   "property": "C74",
   "status": "partial",
   "theorems": [
    "C74_affine_exact",
    "C74_flat_exact",
    "C74_mean_value",
    "C74_differentiate_partial",
    "C74_differentiate_refuted"
   ],
   "note": "new_differentiate and batch_differentiate exact on every affine function and mean-value bounded for differentiable ones; the old differentiate is refuted at x = 0 and for vector inputs (division by the zero entries of dx). Inputs/outputs of rank at most one past the batch."
  },
  {
   "property": "C75",
   "status": "partial",
   "theorems": [
    "C75_state_jacobian",
    "C75_empty_forcing_refuted"
   ],
   "note": "Holds for forcing size s >= 1; refuted for s = 0 (the slice [:-0] is empty). functorch.jacrev is a parameter assumed to return the exact Jacobian of the network."
  },
  {
   "property": "C76",
   "status": "partial",
   "theorems": [
    "C76_rhs_kept",
    "C76_rhs_kept_refuted"
   ],
   "note": "Proved for batch and block counts above one; refuted for batch size one, where .contiguous() does not copy and the solve overwrites the caller's tensor."
  },
  {
   "property": "C77",
   "status": "proved",
   "theorems": [
    "C77_preconditioner_reuse",
    "C77_history_threads",
    "C77_reuse_rule"
   ],
   "note": ""
  },
  {
   "property": "C78",
   "status": "proved",
   "theorems": [
    "C78_frozen_parameter_breaks_backward"
   ],
   "note": ""
  },
  {
   "property": "C79",
   "status": "proved",
   "theorems": [
    "C79_linear_ode_always_solved",
    "C79_linear_ode_block_independent"
   ],
   "note": ""
  },
  {
   "property": "C80",
   "status": "partial",
   "theorems": [
    "C80_left_of_range_refuted"
   ],
   "note": "Refuted: the index wraps to -1, so the last segment (precached) or the chord between last and first point (one-shot) is continued to the left."
  },
  {
   "property": "C81",
   "status": "partial",
   "theorems": [
    "C81_documented_backstress_rate_refuted",
    "C81_actual_backstress_rate"
   ],
   "note": "Refuted: the code uses C, not 2/3 C; the actual law is proved."
  },
  {
   "property": "C82",
   "status": "partial",
   "theorems": [
    "C82_scaled_modulus_refuted",
    "C82_unscaled_modulus"
   ],
   "note": "Refuted: mu.value(T) bypasses the scaling (flowrules.py 207, 472); proved for the identity scaling."
  },
  {
   "property": "C83",
   "status": "partial",
   "theorems": [
    "C83_documented_damaged_form_refuted"
   ],
   "note": "Refuted: the code computes (1-d) E (de/dt - de_in/dt); C35_rate_form states what it does compute."
  },
  {
   "property": "C84",
   "status": "partial",
   "theorems": [
    "C84_hold_duration_refuted"
   ],
   "note": "Refuted: hold_times is the end time of the test, so the hold lasts hold_time - stress/rate."
  },
  {
   "property": "C85",
   "status": "proved",
   "theorems": [
    "C85_add_id"
   ],
   "note": ""
  },
  {
   "property": "C86",
   "status": "proved",
   "theorems": [
    "C86_flow_stress_saturates",
    "C86_holds_relax",
    "C86_block_independent",
    "C86_linear_viscosity_always_solved",
    "C86_saturates_to_tolerance",
    "C86_runs_agree_to_tolerance"
   ],
   "note": "Exact (zero tolerance, no warning) runs; the n=1 case is shown to always produce such a run. With the tolerances in force: C86_saturates_to_tolerance, C86_runs_agree_to_tolerance."
  },
  {
   "property": "C87",
   "status": "proved",
   "theorems": [
    "C87_voce",
    "C87_theta0voce",
    "C87_theta0recovery",
    "C87_chaboche",
    "C87_chaboche_recovery",
    "C87_frederick_armstrong",
    "C87_frederick_armstrong_norecovery",
    "C87_superimposed_pair"
   ],
   "note": "Each law written out in the theorem; powers are specified by power_of, which leaves 0^negative (inf in torch) unspecified."
  },
  {
   "property": "C88",
   "status": "proved",
   "theorems": [
    "C88_voce_chaboche_model",
    "C88_law_determines_rates"
   ],
   "note": "voce_chaboche_law is the written-out system; C88_law_determines_rates shows it pins the rates."
  },
  {
   "property": "C89",
   "status": "proved",
   "theorems": [
    "C89_hayhurst",
    "C89_larson_miller",
    "C89_constant_and_none"
   ],
   "note": "Powers specified by power_of as in C87; derivative claims are in C51."
  },
  {
   "property": "C90",
   "status": "proved",
   "theorems": [
    "C90_all_strain",
    "C90_all_stress"
   ],
   "note": "Equality of the whole outcome of the modelled pipeline, for both schemes."
  },
  {
   "property": "C91",
   "status": "proved",
   "theorems": [
    "C91_stress_control",
    "C91_elastic",
    "C91_steady_creep",
    "C91_always_solved",
    "C91_stress_control_damaged",
    "C91_stress_control_to_tolerance",
    "C91_elastic_to_tolerance",
    "C91_steady_creep_to_tolerance"
   ],
   "note": "Backward Euler, exact outer runs (zero tolerance, no warning); the inner strain-rate solve keeps its 1e-6/1e-10 tolerances. DamagedInelasticModel covered while damage is not exactly 1. With the tolerances in force: C91_*_to_tolerance."
  },
  {
   "property": "C92",
   "status": "proved",
   "theorems": [
    "C92_strain_entries",
    "C92_stress_entries",
    "C92_other_entries",
    "C92_strain_entries_unaffected",
    "C92_strain_entries_to_tolerance",
    "C92_stress_entries_to_tolerance",
    "C92_other_entries_to_tolerance"
   ],
   "note": "Backward Euler, exact outer runs. With the tolerances in force: C92_*_to_tolerance."
  },
  {
   "property": "C93",
   "status": "partial",
   "theorems": [
    "C93_actual_increment",
    "C93_elastic_lag",
    "C93_elastic_tracks_refuted"
   ],
   "note": "Refuted for the code as it stands: forward Euler evaluates the strain rate at the start of the step, where the interpolator returns the rate of the previous interval (zero for the first). C93_actual_increment states what the code does for every model; C93_elastic_lag that an elastic stress lags one step; C93_elastic_tracks_refuted refutes the claim."
  },
  {
   "property": "C94",
   "status": "proved",
   "theorems": [
    "C94_parameters_in_order",
    "C94_missing_parameter",
    "C94_repeated_name"
   ],
   "note": "Parameter store modelled as the attribute map of the module; values are opaque."
  },
  {
   "property": "C95",
   "status": "proved",
   "theorems": [
    "C95_elastic_tests",
    "C95_synthetic_data_reproduced",
    "C95_elastic_tests_to_tolerance",
    "C95_synthetic_data_to_tolerance"
   ],
   "note": "Partial scope: tests whose result is returned as simulated (tensile, direct_data) and integration without warnings, exact (zero tolerances) or to an absolute tolerance (C95_*_to_tolerance, rtol 0); the synthetic-data theorems are for PerfectViscoplasticity. Format functions for the other test types are C70-C74."
  },
  {
   "property": "C96",
   "status": "proved",
   "theorems": [
    "C96_creep_tests_to_tolerance",
    "C96_creep_tests",
    "C96_relaxation_tests",
    "C96_relaxation_tests_to_tolerance"
   ],
   "note": "Exact outer integration (zero tolerances, no warnings), for creep also to an absolute tolerance (C96_creep_tests_to_tolerance); the inner stress solve has its own tolerance, hence the error bound 1e-10/E per unit time. Requires tests of the same held type to share their cycle counts (without it the code uses the first test's: C65_own_hold_refuted). C96_relaxation_tests_to_tolerance: with an absolute tolerance the relaxation of a hold may move back, but by at most one tolerance per step of the hold."
  },
  {
   "property": "C97",
   "status": "proved",
   "theorems": [
    "C97_residual_bound",
    "C97_optimal"
   ],
   "note": "Props_Gmres.v; model Gmres.v of the Arnoldi process with the eps-shifted subdiagonal, preconditioned basis, projected least-squares problem and candidate. torch.linalg.lstsq is any function returning a minimiser (existence: best_ok). The optimality hypotheses (linear independence) are stated on the Krylov vectors, not on the computed basis."
  },
  {
   "property": "C98",
   "status": "proved",
   "theorems": [
    "C98_exact_preconditioner",
    "C98_lu_gmres",
    "C98_jacobi_gmres"
   ],
   "note": "Props_Gmres.v. Exact residual factor eps^2/(1+eps^2), caused by the eps added to the Arnoldi subdiagonal."
  },
  {
   "property": "C99",
   "status": "partial",
   "theorems": [
    "C99_one_iteration",
    "C99_n_iterations_refuted",
    "C99_enough_iterations",
    "C99_exact_arithmetic"
   ],
   "note": "Refuted as stated: the check of iteration k uses only the first k columns (lines 362-367), so maxiter = 1 returns x0 (C99_one_iteration) and maxiter = n can leave the residual unreduced (C99_n_iterations_refuted: exchange matrix, any eps/lstsq/check). What holds: maxiter >= n+1 suffices for all small enough eps > 0, any check, any batch with nonzero initial residuals and nonsingular matrix preconditioner (C99_enough_iterations); with eps = 0, check = 1, one system, at most n+1 iterations (C99_exact_arithmetic)."
  },
  {
   "property": "C100",
   "status": "partial",
   "theorems": [
    "C100_solved_entry_refuted"
   ],
   "note": "Refuted: r / norm(r) is 0/0 for an entry with zero initial residual; it comes back NaN and, since NaN < tol is False, the whole batch runs all maxiter iterations (C100_solved_entry_refuted, for every batch). Entries with nonzero initial residual stay finite: C97_residual_bound."
  },
  {
   "property": "C101",
   "status": "proved",
   "theorems": [
    "C101_backward_euler_within_tolerance",
    "C101_forward_euler_within_tolerance",
    "C101_forward_euler_exact",
    "C101_backward_euler_exact",
    "C101_tolerance_is_needed"
   ],
   "note": "Up to tolerance for both schemes; exactly with zero tolerances. With a non-zero absolute tolerance exact independence fails and C101_tolerance_is_needed shows it; the English claim is 'up to the tolerances', so it is proved."
  },
  {
   "property": "C102",
   "status": "proved",
   "theorems": [
    "C102_joint_density",
    "C102_noise_of_own_type",
    "C102_penalised_least_squares",
    "C102_truth_maximises_likelihood",
    "C102_repeated_name",
    "C102_mean_is_deterministic_model"
   ],
   "note": "Scalar parameters. Densities are torch.distributions' formulas over the reals; sampling is not modelled."
  },
  {
   "property": "C103",
   "status": "proved",
   "theorems": [
    "C103_loss_is_weighted_posterior",
    "C103_unweighted_measurements_ignored",
    "C103_penalised_least_squares",
    "C103_first_evaluation",
    "C103_noise_of_own_type",
    "C103_other_number_of_tests_raises",
    "C103_single_test_parameters_shared",
    "C103_densities"
   ],
   "note": "Tensor parameters; loc and scale of one shape. The guide's Delta sites contribute log density 0. Weights scale the per-test parameter prior as well as the measurements: this is what the code does and what the theorem says."
  },
  {
   "property": "C104",
   "status": "proved",
   "theorems": [
    "C104_backward_euler_error",
    "C104_forward_euler_error",
    "C104_convergence",
    "C104_strain_control_error",
    "C104_viscoplastic_stress_error"
   ],
   "note": "Exact real arithmetic; the exact solution and its smoothness are hypotheses (existence of solutions is not proved). Error bounds for any unwarned run, an epsilon-delta convergence theorem, and the strain-controlled pipeline."
  },
  {
   "property": "C105",
   "status": "proved",
   "theorems": [
    "C105_newton_raphson_converges"
   ],
   "note": "Exact real arithmetic; hypotheses are Newton-Kantorovich type. newton_raphson with linsolver 'lu' and the n = 1 diagonal shortcut. C105_ex: sqrt 2 from 1.5 with the default tolerances, at most four iterations."
  },
  {
   "property": "C106",
   "status": "proved",
   "theorems": [
    "C106_small_steps_never_fail",
    "C106_converges"
   ],
   "note": "Backward Euler with the zero guess. C106_small_steps_never_fail gives explicit bounds on the steps, C106_converges the rate C (1/N + N atol). The N atol term cannot be removed: see C107."
  },
  {
   "property": "C107",
   "status": "partial",
   "theorems": [
    "C107_stagnation",
    "C107_refinement_converges_refuted"
   ],
   "note": "Refuted: C107_stagnation: when h |f(y0)| is at most atol / block size the zero guess is accepted in every block and the initial state is returned at every time, without a warning. For y' = 1 with any positive absolute tolerance the result at time 1 is 0 on every sufficiently fine grid (default 1e-8: from 10^8 steps on), while ten steps are accurate to 1e-6. The true statement is C106_converges with its N atol term."
  },
  {
   "property": "C108",
   "status": "partial",
   "theorems": [
    "C108_random_tension",
    "C108_random_cycle",
    "C108_R_is_max_over_min_refuted"
   ],
   "note": "C108_random_tension, C108_random_cycle: every draw, ranges given in either order. C108_R_is_max_over_min_refuted: the docstring of random_cycle calls R the ratio max over min, the generated history has min over max = R."
  },
  {
   "property": "C109",
   "status": "partial",
   "theorems": [
    "C109_band_covers",
    "C109_mean_line",
    "C109_small_batches_refuted"
   ],
   "note": "C109_band_covers holds when n alpha >= 1 and alpha <= 1/2. C109_small_batches_refuted: for n alpha < 1 (fewer than 20 curves with the default alpha) int(n alpha) = 0 and kthvalue raises for every batch."
  },
  {
   "property": "C110",
   "status": "partial",
   "theorems": [
    "C110_peak_of_own_cycle",
    "C110_elastic_generated",
    "C110_viscoplastic_generated",
    "C110_times_increase",
    "C110_zero_hold_refuted",
    "C110_elastic_generated_to_tolerance",
    "C110_viscoplastic_generated_to_tolerance"
   ],
   "note": "C110_zero_hold_refuted: with a zero tension hold (the usual fatigue test) and any samples in it (nhold defaults to 10) the generated times repeat, for every such cycle, so the history has steps of length zero (strain rate 0/0 in the code). C110_times_increase gives the condition under which times increase; C110_peak_of_own_cycle, C110_elastic_generated, C110_viscoplastic_generated are the end-to-end statements (exact solves); C110_elastic_generated_to_tolerance and C110_viscoplastic_generated_to_tolerance are the same for a maker with an absolute tolerance and rtol 0, within one tolerance per time step; all of them for tests of the same type sharing their cycle column (without it: C63_columnwise_refuted, C64_own_cycle_refuted)."
  },
  {
   "property": "C111",
   "status": "proved",
   "theorems": [
    "C111_internal_variables_bounded",
    "C111_stress_bounded",
    "C111_internal_variables_bounded_to_tolerance",
    "C111_stress_bounded_to_tolerance"
   ],
   "note": ""
  },
  {
   "property": "C112",
   "status": "proved",
   "theorems": [
    "C112_work_at_least_stored_energy",
    "C112_virgin_material_absorbs_work",
    "C112_work_at_least_stored_energy_to_tolerance"
   ],
   "note": ""
  },
  {
   "property": "C113",
   "status": "proved",
   "theorems": [
    "C113_damage_never_decreases",
    "C113_damage_never_decreases_to_tolerance"
   ],
   "note": ""
  },
  {
   "property": "C114",
   "status": "proved",
   "theorems": [
    "C114_elastic_range_always_solved",
    "C114_elastic_range_exact",
    "C114_models_at_rest"
   ],
   "note": ""
  },
  {
   "property": "C115",
   "status": "proved",
   "theorems": [
    "C115_exact_runs_agree",
    "C115_exactly_one_history"
   ],
   "note": "Exact (zero-tolerance, warning-free) runs; parameters E > 0, n > 0, eta > 0, s0, Rs, d, C >= 0, g > 0 along the test and saturation values Rs and C/g non-decreasing from time to time (isothermal tests always qualify). Strains of stress-controlled entries agree up to the hard-coded tolerance of the inner strain-rate solve."
  },
  {
   "property": "C116",
   "status": "proved",
   "theorems": [
    "C116_gradient_of_exact_simulations",
    "C116_gradient_of_runs"
   ],
   "note": "The model's rates are shown continuously differentiable in state and parameters, also where the flow switches on (exponent above one); the step matrices are shown invertible on the reachable states; exact histories are unique (C115). With C25's implicit function argument the adjoint gradient is the derivative of the loss. The parameter derivatives of the rates are an argument specified to be the derivative wherever it exists (autograd)."
  },
  {
   "property": "C117",
   "status": "proved",
   "theorems": [
    "C117_tension_curve",
    "C117_relaxation_curve",
    "C117_tension_curve_to_tolerance",
    "C117_relaxation_curve_to_tolerance",
    "C117_creep_curve"
   ],
   "note": "VCShape (order arguments on one step and along the history), Props_Shape. Tension and relaxation: for the exact history and, through C118, for every converged run up to the distance C118 allows; examples far beyond the elastic range. Creep: runs converged exactly."
  },
  {
   "property": "C118",
   "status": "proved",
   "theorems": [
    "C118_near_the_exact_history",
    "C118_runs_agree_to_tolerance",
    "C118_tighter_tolerance_converges"
   ],
   "note": "VCClose: a larger flow needs a larger driving stress, so plastic increments of two steps differ by at most distance/E; updates do not expand start values and are Lipschitz in the increment. Props_Close: the bound, agreement of two runs, convergence as the tolerance is tightened. Strain controlled entries of solve_both batches (solve_strain is the all-strain case, C90)."
  },
  {
   "property": "C119",
   "status": "proved",
   "theorems": [
    "C119_exact_histories",
    "C119_runs_to_tolerance",
    "C119_reversed_loading"
   ],
   "note": "VCSym: the image of a step under reversal and change of units is a step of the rescaled material; uniqueness (C115) identifies the exact histories, C118 carries it to simulations to tolerance."
  },
  {
   "property": "C120",
   "status": "proved",
   "theorems": [
    "C120_mixed_control",
    "C120_strain_control",
    "C120_no_fixed_limit"
   ],
   "note": "Global convergence of the blocked Newton iteration for power-law viscosity (n >= 1), real arithmetic; C120_no_fixed_limit shows the iteration limit cannot be chosen once for all tests."
  },
  {
   "property": "C121",
   "status": "partial",
   "theorems": [
    "C121_derivative_refuted",
    "C121_elastic_step_refuted",
    "C121_outside_partial"
   ],
   "note": "Refuted: torch evaluates 0**0 as 1, so inside the yield surface the returned derivative is 1/eta instead of 0 (C121_derivative_refuted, every state strictly inside the surface); the Newton error of an elastic step then shrinks only by K/(1+K), K = E dt/eta, per iteration and with everyday numbers and the default settings the run raises (C121_elastic_step_refuted, C121_ex). Proved: strictly outside the yield surface the derivatives are exact for n = 1 (C121_outside_partial; C41 covers every exponent there)."
  },
  {
   "property": "C122",
   "status": "proved",
   "theorems": [
    "C122_strain",
    "C122_both",
    "C122_stress",
    "C122_truncated",
    "C122_blocks_needed"
   ],
   "note": "C122_strain/both/stress: agreement up to the end of any block for any two continuations; C122_truncated: errors of the cut-off test are errors of the whole test and rows agree; C122_blocks_needed: for every absolute tolerance a linear elastic test whose second row is 0 when cut off inside a block and a otherwise, so the restriction to whole blocks cannot be dropped. Strictly increasing times are assumed (the interpolation and the rate table need them)."
  },
  {
   "property": "C123",
   "status": "proved",
   "theorems": [
    "C123_strain",
    "C123_both",
    "C123_stress"
   ],
   "note": "C123_strain, C123_both, C123_stress. That the map must reach every test of the old batch cannot be dropped: C101_tolerance_is_needed shows that leaving a companion out can change an entry (within the tolerance)."
  },
  {
   "property": "C124",
   "status": "proved",
   "theorems": [
    "C124_strain",
    "C124_both",
    "C124_stress",
    "C124_library"
   ],
   "note": "C124_strain/both/stress for every autonomous material; C124_library: every material of the inductive family Symmetry.any_model (all classes of hardening.py, flowrules.py, damage.py, models.py) is autonomous."
  },
  {
   "property": "C125",
   "status": "proved",
   "theorems": [
    "C125_strain",
    "C125_both",
    "C125_stress"
   ],
   "note": "C125_strain/both/stress for the inductive family Symmetry.library_model, which records which components change sign. C119 proves the corresponding statement for converged runs up to the tolerance and with other symmetric data; here it is exact because the two runs take the same decisions."
  },
  {
   "property": "C126",
   "status": "proved",
   "theorems": [
    "C126_backward",
    "C126_uniform",
    "C126_library",
    "C126_uniform_needed"
   ],
   "note": "C126_backward (any re-timing), C126_uniform (either scheme, uniform factor), C126_library (the materials). C126_uniform_needed: with forward Euler, which uses the previous step's strain rate (C93), an elastic bar strained 0, 1, 2 at the times 0, 1, 1 + r ends at stress r, so the uniformity cannot be dropped. Stress control is not covered: the inner Newton solve stops at an absolute tolerance on the stress rate, which is not invariant."
  },
  {
   "property": "C127",
   "status": "proved",
   "theorems": [
    "C127_exactly_one_history",
    "C127_runs_return_it",
    "C127_gradient_of_exact_simulations",
    "C127_gradient_of_runs"
   ],
   "note": "autograd is modelled by its contract: the derivative of a call with respect to the parameters wherever that derivative exists. The two provisos (strain moves / moves faster than the inner tolerance in each step) are needed because the inner solve accepts its zero guess when every residual is below its tolerance."
  },
  {
   "property": "C128",
   "status": "proved",
   "theorems": [
    "C128_linear",
    "C128_sum_over_tests",
    "C128_selection",
    "C128_silent_tests",
    "C128_unseen_rows"
   ],
   "note": "Right-hand sides evaluated pointwise (all but the stress-controlled model, whose inner solve couples the points of a call; see C127). Solvable: the matrices 1 - dt J of the backward Euler steps are invertible."
  },
  {
   "property": "C129",
   "status": "proved",
   "theorems": [
    "C129_gradient_is_continuous",
    "C129_gradient_near_the_exact_history",
    "C129_gradient_of_runs_to_tolerance"
   ],
   "note": "Continuity of the adjoint pass for both schemes and any continuously differentiable rate; combined with C116 and C118 for strain-controlled hardening materials. Squared-error losses are shown to satisfy the hypotheses, and an example run with a positive tolerance exists. Stress control is not covered."
  },
  {
   "property": "C130",
   "status": "proved",
   "theorems": [
    "C130_strain_control",
    "C130_unit_of_time",
    "C130_tolerance_conversion_needed",
    "C130_hayhurst_does_not_convert"
   ],
   "note": "Proved in exact arithmetic for strain control. model_units lists the conversion of every class; runs are proportional entry by entry with equal warnings/errors. C130_tolerance_conversion_needed shows atol must be converted; C130_hayhurst_does_not_convert explains the one exclusion (its stress derivative is not that of its rate, see C51). Stress control is not covered: the inner strain-rate solver has hard-coded absolute tolerances."
  },
  {
   "property": "C131",
   "status": "proved",
   "theorems": [
    "C131_exactly_one_history",
    "C131_runs_near_the_history",
    "C131_training_gradient",
    "C131_perceptron",
    "C131_every_perceptron"
   ],
   "note": "C131_exactly_one_history and C131_runs_near_the_history for any rate that is Lipschitz in the state; C131_training_gradient for the code's NeuralODE (network and its autograd Jacobian are parameters: continuously differentiable network, derivative as autograd returns it); C131_perceptron discharges every hypothesis for a one-hidden-layer perceptron, C131_every_perceptron shows that every such perceptron is one of the family's vectors, and C131_ex is a concrete one."
  },
  {
   "property": "C132",
   "status": "proved",
   "theorems": [
    "C132_at_a_block_end",
    "C132_backward",
    "C132_anywhere",
    "C132_previous_guess"
   ],
   "note": "C132_at_a_block_end and C132_backward over an arbitrary field; C132_anywhere over the reals for backward Euler with a Lipschitz rate and 2 h L <= 1; C132_previous_guess shows the restriction to the default guess is needed; C132_ex meets the hypotheses."
  },
  {
   "property": "C133",
   "status": "proved",
   "theorems": [
    "C133_gathered_history",
    "C133_same_response",
    "C133_simulations_agree",
    "C133_larger_models_fit_as_well",
    "C133_perfect_viscoplasticity"
   ],
   "note": "Exact histories (C115) of the two models are compared; C133_simulations_agree carries the statement over to converged runs through C118. C133_ex: moduli 60, 40, 0 against 100."
  },
  {
   "property": "C134",
   "status": "proved",
   "theorems": [
    "C134_more_strain",
    "C134_tension",
    "C134_creep"
   ],
   "note": "More strain (any loading), tension with rate/strength/temperature, and creep; each up to (number of steps) x (sum of the two runs' tolerances), plus the 1e-10 rate tolerance of the stress-control scalar solve for creep. Runs are the model's solve_strain/solve_stress, any batch/solver/block size."
  },
  {
   "property": "C135",
   "status": "proved",
   "theorems": [
    "C135_small_steps_decrease_the_loss",
    "C135_zero_gradient_at_a_minimum",
    "C135_true_parameters",
    "C135_steps_from_converged_runs"
   ],
   "note": "Descent directions, zero gradient at local minima and at the parameters that generated the data, and descent with gradients of runs converged to tolerance; built on C116/C129. The optimizer itself (torch.optim) is outside the repository; a step is p + lr q."
  },
  {
   "property": "C136",
   "status": "proved",
   "theorems": [
    "C136_short_steps_relax",
    "C136_long_steps_oscillate",
    "C136_silent"
   ],
   "note": "Runs of the model's solve_strain with ForwardEuler at zero tolerance (any block size and solver); C136_silent exhibits always-successful runs with unbounded stress (block size 1)."
  },
  {
   "property": "C137",
   "status": "proved",
   "theorems": [
    "C137_training_gradient",
    "C137_training_steps",
    "C137_neural",
    "C137_hardening",
    "C137_kinematic"
   ],
   "note": "explicit_result, gradients_exact and explicit_simulation are stated in terms of odeint's model (integrate, rewind, solve_strain). C137_neural and C137_kinematic discharge the differentiability hypothesis of C137_training_gradient; C137_hardening leaves only that the simulated isotropic hardening is non-negative."
  },
  {
   "property": "C138",
   "status": "proved",
   "theorems": [
    "C138_approach_to_saturation",
    "C138_short_steps_keep_the_bounds",
    "C138_long_steps_overshoot",
    "C138_short_steps_calibrate"
   ],
   "note": "plastic_step and flow_at are written with the flow rule's own rate. C138_ex runs a concrete test whose hardening ends at dd: within bounds for dd <= 1, beyond saturation for dd > 1."
  },
  {
   "property": "C139",
   "status": "proved",
   "theorems": [
    "C139_stress_control",
    "C139_stress_control_damaged",
    "C139_mixed_strain",
    "C139_mixed_stress",
    "C139_mixed_other",
    "C139_elastic_lag",
    "C139_steady_creep",
    "C139_always_solved",
    "C139_does_not_track"
   ],
   "note": "Forward-Euler counterpart of C91/C92; the lag is the explicit counterpart of C93. C139_does_not_track shows that the implicit law of C91 (elastic strain = stress change over E) fails for this scheme. C139_ex: a perfectly viscoplastic bar under a dead load runs and creeps at (1/2)^5 per unit time."
  },
  {
   "property": "C140",
   "status": "proved",
   "theorems": [
    "C140_explicit_error",
    "C140_viscoplastic_stress_error",
    "C140_maxwell_error",
    "C140_maxwell_converges",
    "C140_lag_is_sharp"
   ],
   "note": "Complements C93 (the lag itself) and C104 (convergence of forward Euler on ordinary differential equations and of backward Euler under strain control). strain_rate and rate_variation are the separate specification of V. C140_lag_is_sharp: the elastic test attains the lag term. C140_ex: runs exist for every step and block size below the iteration limit."
  },
  {
   "property": "C141",
   "status": "proved",
   "theorems": [
    "C141_exactly_one_history",
    "C141_gradient_of_exact_simulations",
    "C141_gradient_of_runs"
   ],
   "note": "pv_rate/pv_jac are the strain-controlled rate and Jacobian the solver uses, with the parameters made explicit; dp stands for what autograd computes (the derivative of the rate with respect to the parameters wherever it exists, which it does here). rate sensitivity exactly 1 is covered by the uniqueness and existence statement but not by the gradient statement (the one-sided powers need an exponent above one)."
  },
  {
   "property": "C142",
   "status": "proved",
   "theorems": [
    "C142_true_parameters",
    "C142_perfect_viscoplasticity",
    "C142_mixed_batches",
    "C142_neural",
    "C142_perceptron"
   ],
   "note": "Real arithmetic. Mixed batches: the stress-controlled entries are given by the exact inner solution, every converged step active (the condition of C127). Perfectly viscoplastic materials: rate sensitivity above one near the parameters. Neural ODEs: 2 h L <= 1. The histories are exact (zero tolerance) ones; C129 and C131 bound the effect of a tolerance on the gradients."
  },
  {
   "property": "C143",
   "status": "proved",
   "theorems": [
    "C143_runs_near_the_exact_history",
    "C143_gradient_of_runs_to_tolerance",
    "C143_steps_from_converged_runs",
    "C143_training_always_works"
   ],
   "note": "Real arithmetic. The tolerance in force is the larger of atol and rtol times the block's initial residual norm; the last theorem takes rtol = 0. The first bound also covers rate sensitivities between zero and one and zero modulus."
  },
  {
   "property": "C144",
   "status": "proved",
   "theorems": [
    "C144_gradient_near_the_exact_history",
    "C144_steps_near_the_exact_history"
   ],
   "note": "Near the exact history the derivative of every call's rates is that of the continuous problem (mixed_rewind), so the generic continuity lemma near_core of C143 applies. That solve_both's runs to tolerance fall within the required accuracy is C145."
  },
  {
   "property": "C145",
   "status": "proved",
   "theorems": [
    "C145_runs_near_the_exact_history",
    "C145_gradient_of_runs_to_tolerance",
    "C145_steps_from_converged_runs"
   ],
   "note": "run_to collects what a successful run to tolerance is (no warning, tol_boundG as in C92/C118). Stress-controlled tests: the flow rule is continuous but not Lipschitz, so the closeness of a step is a statement about each exact step (StressClose.creep_close) and the threshold comes from induction over the steps; a run whose inner solve never acts is excluded because the exact history strains (arith_gap)."
  },
  {
   "property": "C146",
   "status": "proved",
   "theorems": [
    "C146_exactly_one_history",
    "C146_runs_return_it",
    "C146_runs_near_the_exact_history",
    "C146_gradient_of_exact_simulations",
    "C146_gradient_of_runs",
    "C146_gradient_of_runs_to_tolerance",
    "C146_steps_from_converged_runs"
   ],
   "note": "Stated for solve_stress and its own block function (StressBasedModel.forward), with a separate specification of the history; obtained from the mixed-batch theorems C127/C144/C145 through the proved identity of solve_both with all flags 1 and solve_stress. Runs at positive tolerance and gradients need every step to strain some test faster than the inner tolerance 1e-10, as for mixed batches. C146_ex gives two slow creep specimens with runs at every positive tolerance."
  },
  {
   "property": "C147",
   "status": "proved",
   "theorems": [
    "C147_exactly_one_history",
    "C147_runs_return_it",
    "C147_creep_runs",
    "C147_gradient_of_exact_simulations",
    "C147_creep_calibration"
   ],
   "note": "Zero-tolerance runs. The activity hypothesis is needed because a strain-rate solve whose iterates all start converged is returned after its first check; C147_creep_runs derives success from C91. C147_ex: two creep specimens under a stress ramp, all three constants calibrated together, every hypothesis discharged."
  },
  {
   "property": "C148",
   "status": "proved",
   "theorems": [
    "C148_runs_near_the_exact_history",
    "C148_gradient_of_runs_to_tolerance",
    "C148_training_goes_downhill",
    "C148_steps_from_converged_runs",
    "C148_creep_training_always_works"
   ],
   "note": "C148_runs_near_the_exact_history gives the explicit error bound; C148_gradient_of_runs_to_tolerance, C148_training_goes_downhill and C148_steps_from_converged_runs follow; C148_creep_training_always_works derives success from C91. C148_ex: one creep specimen, the loss shown not stationary, every hypothesis discharged."
  },
  {
   "property": "C149",
   "status": "partial",
   "theorems": [
    "C149_slow_creep_is_lost",
    "C149_exact_in_company",
    "C149_own_result_refuted",
    "C149_company_changes_little",
    "C149_block_size_refuted"
   ],
   "note": "The full statement is refuted (C149_own_result_refuted, C149_block_size_refuted). Proved instead: slow creep is lost (C149_slow_creep_is_lost), exact in company of a faster test (C149_exact_in_company), and the bound on what company changes (C149_company_changes_little). Backward Euler, zero outer tolerances, guess \"zero\"; the inner solve with its own 1e-6/1e-10."
  }
 ]
}