# Print Assumptions of every property theorem

Generated by tools/genassume.py.

## Closed under the global context

117 theorems: C01_counter_never_wraps, C01_other_dtypes_rejected, C01_safe_int32_increment, C03_chain_builds, C03_chain_is_a_pipeline, C03_chain_of_one, C03_each_slot_own_state, C03_identity_is_neutral, C03_nesting_is_irrelevant, C03_wrong_state_length_raises, C05_below_unchanged, C06_any_arithmetic, C06_params_required, C06_unsupported_rank_raises, C07_params_required, C08_zero_nans, C08_zero_nans_init, C09_apply_updates, C09_structure_mismatch_raises, C105_periodic, C106_cosine_any_arithmetic, C106_softmax_any_arithmetic, C11_periodic_update, C12_accumulator, C13_accumulator, C13_ema_no_debias_emits_raw_updates, C22_scale, C22_scale_by_schedule, C23_add_decayed_weights, C23_add_decayed_weights_needs_params, C24_any_arithmetic, C24_params_required, C25_keys, C25_run, C27_any_arithmetic, C28_sm3_scalar_raises, C29_leafless, C29_mixed, C29_roundtrip, C29_transparent, C30_filtered, C30_total, C30_trace, C31_blocks, C31_elementwise, C31_total, C32_instances, C32_raises, C33_all_false, C33_elementwise, C33_falsy_params, C33_mismatch, C33_run, C33_total, C34_always_never, C34_total, C34_trace, C35_fast_ok, C35_period, C36_bools, C36_params, C36_params_leafwise, C36_plain_params, C38_any_arithmetic, C38_errors, C38_keys, C40_negative_factor, C41_exponential_degenerate, C42_cosine_raises, C43_raises, C44_raises, C45_join, C45_sgdr, C46_inject, C46_reads, C46_static_check, C48_errors, C48_smooth_any_arithmetic, C49_not_broadcastable, C50_errors, C53_rejects, C53_terminates, C54_terminates, C56_set_diags, C56_set_diags_errors, C56_set_diags_matrix, C56_tile_scalar, C60_decomposition, C62_dpsgd, C63_chain, C63_demanding_aliases, C63_ignored, C63_ignoring_aliases, C63_required, C63_wrappers, C64_aliases, C64_dpsgd, C64_noisy_sgd, C64_param_aliases, C64_sm3, C65_apply_if_finite, C65_apply_if_finite_total, C65_maybe_update, C65_maybe_update_total, C65_multi_steps, C65_multi_steps_total, C65_signed, C66_element_independence, C66_zero_nans_element_independence, C87_never_raises, C87_resume, C87_training, C92_draws, C94_elementwise, C96_unscale, C97_l2, C97_optimisers

## ClassicalDedekindReals.sig_forall_dec, FunctionalExtensionality.functional_extensionality_dep

1 theorems: C47_huber_shape

## ClassicalDedekindReals.sig_forall_dec, ClassicalDedekindReals.sig_not_dec, FunctionalExtensionality.functional_extensionality_dep

5 theorems: C02_derivative, C28_sm3_dominates, C37_clip, C51_range, C99_cannot_settle

## ClassicalDedekindReals.sig_forall_dec, ClassicalDedekindReals.sig_not_dec, Classical_Prop.classic, FunctionalExtensionality.functional_extensionality_dep

283 theorems: C02_gradient, C02_naive, C02_negative_min, C02_safe_norm_value, C04_clip, C04_clip_idempotent, C05_clip_by_global_norm, C05_mixed_dtypes_promoted_refuted, C05_zero_max_norm_refuted, C06_adaptive_grad_clip, C07_formats, C07_ieee, C07_ieee_arithmetic, C07_negative_params_not_always_zeroed_refuted, C07_params_become_max_0, C09_broadcasting_update_changes_the_shape_refuted, C100_eps_root, C100_optimisers, C100_rules, C100_training, C101_convex, C101_fixed_points, C101_order, C101_smooth, C102_clip_compose, C102_compose, C102_nearest, C102_nonexpansive, C102_robust, C103_aliases, C103_budget, C103_converge, C103_cosine, C103_exponential, C103_freeze, C104_adam_coasts, C104_adam_runaway, C104_momentum_coasts, C104_stops_at_once, C104_unused, C104_weight_decay, C104_yogi_drifts, C105_converges, C105_guarded, C105_jensen, C105_lag, C106_cosine_overflow, C106_masked_logit_nan, C106_softmax_ieee, C10_incremental_update, C10_polyak_average, C12_accumulator_exact, C12_trace_bounded, C12_trace_closed_form, C13_ema_debiased_in_range, C13_ema_debiased_weighted_mean, C13_ema_without_debias_is_not_an_average_refuted, C14_rss_accumulator_monotone, C14_rss_closed_form, C15_rms_closed_form, C15_rms_eps_zero_nan_refuted, C16_stddev_centred_moment_nonneg, C17_adam_closed_form, C18_adam_constant_gradients, C18_adam_scale_invariance, C18_adam_step_bound, C19_belief_closed_form, C20_yogi_as_implemented, C20_yogi_is_not_the_papers_rule_refuted, C21_radam_beyond_2_30, C21_radam_rectified, C24_overflow_ieee, C24_scale_by_trust_ratio, C25_formula, C25_keys_exist, C26_apply_every, C26_apply_every_nan_never_clears_refuted, C26_apply_every_total, C27_centralize, C27_idempotent, C28_sm3, C28_sm3_bounded, C28_sm3_half_precision, C30_what_is_finite, C31_mean, C35_loop, C36_nan_survives, C36_nonfinite_update, C36_reset, C37_aggregate, C37_sensitivity, C37_zero_example, C38_formula, C39_linear, C39_polynomial_degenerate, C39_polynomial_monotone, C39_polynomial_values, C40_docstring_refuted, C40_piecewise_constant, C40_piecewise_constant_order, C41_exponential_monotone, C41_exponential_values, C42_cosine, C43_between, C43_interpolate, C43_zero_boundary_nan, C44_cosine_onecycle, C44_linear_onecycle, C44_short_cycle_nan, C45_warmup_cosine, C45_warmup_edge_cases, C45_warmup_exponential, C47_huber_loss, C47_l2_loss, C47_targets_default, C48_distributions, C48_one_hot, C48_smooth_labels, C49_nonnegative_symmetric, C49_sigmoid_bce, C50_one_logit_class, C50_shape, C50_softmax_cross_entropy, C51_cosine_similarity, C51_zero_vector, C52_global_norm_value, C52_homogeneous, C52_independent_of_nesting, C52_triangle, C52_zero_iff, C53_bounds, C53_converges, C53_eigenvector, C53_kernel, C53_symmetric, C53_value, C54_converges, C54_defaults, C54_gives_up, C54_one_by_one, C54_p3_is_wrong, C54_residual, C55_errors, C55_fisher_diag, C55_hessian_diag, C55_hvp, C56_tile, C57_affine, C57_constant, C57_errors, C57_jacobians, C57_mean, C57_std, C58_algebra, C58_baseline_no_effect, C58_baseline_score, C58_baseline_update, C58_coefficients, C58_delta, C58_delta_exact, C58_delta_expected, C58_delta_pathwise, C58_double_debias, C58_mean_unchanged, C58_optimal, C59_parameters, C59_sgd, C60_adamw, C60_closed_forms, C60_rmsprop, C61_no_blow_up, C61_step, C61_training, C62_dpsgd_closed_form, C62_noisy_sgd, C63_radam_b2, C67_bce_gradient, C67_huber_gradient, C67_l2_gradient, C67_softmax_ce_gradient, C68_log_prob, C68_pathwise, C68_sample, C68_score, C69_clip_ieee, C70_adam_defaults_never_nan, C70_adam_frozen_by_overflow, C70_adam_never_nan, C70_rms_frozen_by_overflow, C70_rms_never_nan, C70_rss_never_nan, C71_adam_float16_zero_gradient_nan, C71_b2_is_one_in_bfloat16, C71_bfloat16_second_moment_never_decays, C71_eps_vanishes_in_float16, C72_cosine_ieee, C72_exponential_ieee, C72_linear_monotone_ieee, C72_linear_start_lost, C72_piecewise_constant_ieee, C72_polynomial_end_ieee, C73_apply_updates_ieee, C73_small_updates_are_lost, C74_bce_ieee, C74_bce_infinite_logit, C74_error_nan, C74_l2_huber_ieee, C74_smooth_labels_ieee, C75_elements_bounded_ieee, C75_overflow_zeroes_update, C76_stddev_cancellation_nan, C77_momentum_error_uniform, C78_adagrad, C78_convex, C78_sgd_identity, C78_smooth, C79_laws, C79_measure_mean, C79_measure_scale, C79_pathwise, C79_score, C80_accumulation, C80_aliases, C80_commute, C80_every_step, C80_fusion, C80_neutral, C80_not_interchangeable, C81_dpsgd, C81_dpsgd_session, C81_expectations, C81_generators, C81_privacy, C81_removal, C81_session, C82_convex, C82_regret, C82_smooth, C83_adam_diverges, C84_adam_speed, C84_adamw_bounded, C85_nesterov, C85_sgd, C86_contrast, C86_cycles, C88_adam, C88_global_norm, C88_global_norm_range, C88_momentum, C88_sgd, C89_adagrad, C89_rmsprop, C90_adam, C91_clipped_sgd, C91_plain_sgd_explodes, C92_average, C92_decay, C92_strongly_convex, C93_convex, C93_quadratic, C93_strongly_convex, C94_large_batch, C95_exact_operations, C95_no_rounding, C95_rounded_once, C95_special_values, C96_adagrad_units, C96_adam_units, C96_float_loss_scaling, C96_loss_scaling, C96_radam_not_invariant, C96_rmsprop_units, C96_sgd_units, C97_adam_l2, C97_adamw_decay, C98_generalisation, C98_initialisation, C98_stability, C98_stable_generalises, C98_weight_decay, C99_lamb, C99_layers, C99_relative
