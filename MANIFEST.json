{
 "claims": [
  {
   "property": "C01",
   "status": "proved",
   "theorems": [
    "C01_safe_int32_increment",
    "C01_counter_never_wraps",
    "C01_other_dtypes_rejected"
   ],
   "note": ""
  },
  {
   "property": "C02",
   "status": "proved",
   "theorems": [
    "C02_gradient",
    "C02_derivative",
    "C02_naive",
    "C02_negative_min",
    "C02_safe_norm_value"
   ],
   "note": ""
  },
  {
   "property": "C03",
   "status": "proved",
   "theorems": [
    "C03_chain_is_a_pipeline",
    "C03_chain_of_one",
    "C03_nesting_is_irrelevant",
    "C03_identity_is_neutral",
    "C03_each_slot_own_state",
    "C03_chain_builds",
    "C03_wrong_state_length_raises"
   ],
   "note": ""
  },
  {
   "property": "C04",
   "status": "proved",
   "theorems": [
    "C04_clip",
    "C04_clip_idempotent"
   ],
   "note": ""
  },
  {
   "property": "C05",
   "status": "proved",
   "theorems": [
    "C05_clip_by_global_norm",
    "C05_below_unchanged",
    "C05_zero_max_norm_refuted",
    "C05_mixed_dtypes_promoted_refuted"
   ],
   "note": ""
  },
  {
   "property": "C06",
   "status": "proved",
   "theorems": [
    "C06_any_arithmetic",
    "C06_adaptive_grad_clip",
    "C06_unsupported_rank_raises",
    "C06_params_required"
   ],
   "note": ""
  },
  {
   "property": "C07",
   "status": "proved",
   "theorems": [
    "C07_params_become_max_0",
    "C07_params_required",
    "C07_negative_params_not_always_zeroed_refuted",
    "C07_formats",
    "C07_ieee_arithmetic",
    "C07_ieee"
   ],
   "note": ""
  },
  {
   "property": "C08",
   "status": "proved",
   "theorems": [
    "C08_zero_nans",
    "C08_zero_nans_init"
   ],
   "note": ""
  },
  {
   "property": "C09",
   "status": "proved",
   "theorems": [
    "C09_apply_updates",
    "C09_structure_mismatch_raises",
    "C09_broadcasting_update_changes_the_shape_refuted"
   ],
   "note": ""
  },
  {
   "property": "C10",
   "status": "proved",
   "theorems": [
    "C10_incremental_update",
    "C10_polyak_average"
   ],
   "note": ""
  },
  {
   "property": "C11",
   "status": "proved",
   "theorems": [
    "C11_periodic_update"
   ],
   "note": ""
  },
  {
   "property": "C12",
   "status": "proved",
   "theorems": [
    "C12_accumulator",
    "C12_accumulator_exact",
    "C12_trace_closed_form",
    "C12_trace_bounded"
   ],
   "note": ""
  },
  {
   "property": "C13",
   "status": "proved",
   "theorems": [
    "C13_accumulator",
    "C13_ema_debiased_weighted_mean",
    "C13_ema_debiased_in_range",
    "C13_ema_no_debias_emits_raw_updates",
    "C13_ema_without_debias_is_not_an_average_refuted"
   ],
   "note": ""
  },
  {
   "property": "C14",
   "status": "proved",
   "theorems": [
    "C14_rss_closed_form",
    "C14_rss_accumulator_monotone"
   ],
   "note": ""
  },
  {
   "property": "C15",
   "status": "proved",
   "theorems": [
    "C15_rms_closed_form",
    "C15_rms_eps_zero_nan_refuted"
   ],
   "note": ""
  },
  {
   "property": "C16",
   "status": "proved",
   "theorems": [
    "C16_stddev_centred_moment_nonneg"
   ],
   "note": ""
  },
  {
   "property": "C17",
   "status": "proved",
   "theorems": [
    "C17_adam_closed_form"
   ],
   "note": ""
  },
  {
   "property": "C18",
   "status": "proved",
   "theorems": [
    "C18_adam_constant_gradients",
    "C18_adam_step_bound",
    "C18_adam_scale_invariance"
   ],
   "note": ""
  },
  {
   "property": "C19",
   "status": "proved",
   "theorems": [
    "C19_belief_closed_form"
   ],
   "note": ""
  },
  {
   "property": "C20",
   "status": "proved",
   "theorems": [
    "C20_yogi_as_implemented",
    "C20_yogi_is_not_the_papers_rule_refuted"
   ],
   "note": ""
  },
  {
   "property": "C21",
   "status": "proved",
   "theorems": [
    "C21_radam_rectified",
    "C21_radam_beyond_2_30"
   ],
   "note": ""
  },
  {
   "property": "C22",
   "status": "proved",
   "theorems": [
    "C22_scale",
    "C22_scale_by_schedule"
   ],
   "note": ""
  },
  {
   "property": "C23",
   "status": "proved",
   "theorems": [
    "C23_add_decayed_weights",
    "C23_add_decayed_weights_needs_params"
   ],
   "note": ""
  },
  {
   "property": "C24",
   "status": "proved",
   "theorems": [
    "C24_scale_by_trust_ratio",
    "C24_params_required",
    "C24_any_arithmetic",
    "C24_overflow_ieee"
   ],
   "note": ""
  },
  {
   "property": "C25",
   "status": "proved",
   "theorems": [
    "C25_keys",
    "C25_keys_exist",
    "C25_run",
    "C25_formula"
   ],
   "note": ""
  },
  {
   "property": "C26",
   "status": "proved",
   "theorems": [
    "C26_apply_every",
    "C26_apply_every_total",
    "C26_apply_every_nan_never_clears_refuted"
   ],
   "note": ""
  },
  {
   "property": "C27",
   "status": "proved",
   "theorems": [
    "C27_centralize",
    "C27_any_arithmetic",
    "C27_idempotent"
   ],
   "note": ""
  },
  {
   "property": "C28",
   "status": "proved",
   "theorems": [
    "C28_sm3",
    "C28_sm3_dominates",
    "C28_sm3_bounded",
    "C28_sm3_scalar_raises",
    "C28_sm3_half_precision"
   ],
   "note": ""
  },
  {
   "property": "C29",
   "status": "proved",
   "theorems": [
    "C29_roundtrip",
    "C29_transparent",
    "C29_leafless",
    "C29_mixed"
   ],
   "note": ""
  },
  {
   "property": "C30",
   "status": "proved",
   "theorems": [
    "C30_what_is_finite",
    "C30_trace",
    "C30_total",
    "C30_filtered"
   ],
   "note": ""
  },
  {
   "property": "C31",
   "status": "proved",
   "theorems": [
    "C31_blocks",
    "C31_total",
    "C31_mean",
    "C31_elementwise"
   ],
   "note": ""
  },
  {
   "property": "C32",
   "status": "proved",
   "theorems": [
    "C32_raises",
    "C32_instances"
   ],
   "note": ""
  },
  {
   "property": "C33",
   "status": "proved",
   "theorems": [
    "C33_run",
    "C33_mismatch",
    "C33_all_false",
    "C33_falsy_params",
    "C33_total",
    "C33_elementwise"
   ],
   "note": ""
  },
  {
   "property": "C34",
   "status": "proved",
   "theorems": [
    "C34_trace",
    "C34_total",
    "C34_always_never"
   ],
   "note": ""
  },
  {
   "property": "C35",
   "status": "proved",
   "theorems": [
    "C35_period",
    "C35_loop",
    "C35_fast_ok"
   ],
   "note": ""
  },
  {
   "property": "C36",
   "status": "proved",
   "theorems": [
    "C36_reset",
    "C36_nan_survives",
    "C36_bools",
    "C36_nonfinite_update",
    "C36_params",
    "C36_params_leafwise",
    "C36_plain_params"
   ],
   "note": ""
  },
  {
   "property": "C37",
   "status": "proved",
   "theorems": [
    "C37_clip",
    "C37_aggregate",
    "C37_sensitivity",
    "C37_zero_example"
   ],
   "note": ""
  },
  {
   "property": "C38",
   "status": "proved",
   "theorems": [
    "C38_keys",
    "C38_formula",
    "C38_errors",
    "C38_any_arithmetic"
   ],
   "note": ""
  },
  {
   "property": "C39",
   "status": "proved",
   "theorems": [
    "C39_polynomial_values",
    "C39_polynomial_monotone",
    "C39_polynomial_degenerate",
    "C39_linear"
   ],
   "note": ""
  },
  {
   "property": "C40",
   "status": "proved",
   "theorems": [
    "C40_piecewise_constant",
    "C40_piecewise_constant_order",
    "C40_negative_factor",
    "C40_docstring_refuted"
   ],
   "note": ""
  },
  {
   "property": "C41",
   "status": "proved",
   "theorems": [
    "C41_exponential_values",
    "C41_exponential_monotone",
    "C41_exponential_degenerate"
   ],
   "note": ""
  },
  {
   "property": "C42",
   "status": "proved",
   "theorems": [
    "C42_cosine",
    "C42_cosine_raises"
   ],
   "note": ""
  },
  {
   "property": "C43",
   "status": "proved",
   "theorems": [
    "C43_interpolate",
    "C43_between",
    "C43_raises",
    "C43_zero_boundary_nan"
   ],
   "note": ""
  },
  {
   "property": "C44",
   "status": "proved",
   "theorems": [
    "C44_linear_onecycle",
    "C44_cosine_onecycle",
    "C44_raises",
    "C44_short_cycle_nan"
   ],
   "note": ""
  },
  {
   "property": "C45",
   "status": "proved",
   "theorems": [
    "C45_join",
    "C45_warmup_cosine",
    "C45_warmup_edge_cases",
    "C45_warmup_exponential",
    "C45_sgdr"
   ],
   "note": ""
  },
  {
   "property": "C46",
   "status": "proved",
   "theorems": [
    "C46_inject",
    "C46_reads",
    "C46_static_check"
   ],
   "note": ""
  },
  {
   "property": "C47",
   "status": "proved",
   "theorems": [
    "C47_l2_loss",
    "C47_targets_default",
    "C47_huber_loss",
    "C47_huber_shape"
   ],
   "note": ""
  },
  {
   "property": "C48",
   "status": "proved",
   "theorems": [
    "C48_smooth_any_arithmetic",
    "C48_smooth_labels",
    "C48_distributions",
    "C48_one_hot",
    "C48_errors"
   ],
   "note": ""
  },
  {
   "property": "C49",
   "status": "proved",
   "theorems": [
    "C49_sigmoid_bce",
    "C49_nonnegative_symmetric",
    "C49_not_broadcastable"
   ],
   "note": ""
  },
  {
   "property": "C50",
   "status": "proved",
   "theorems": [
    "C50_softmax_cross_entropy",
    "C50_shape",
    "C50_errors",
    "C50_one_logit_class"
   ],
   "note": ""
  },
  {
   "property": "C51",
   "status": "proved",
   "theorems": [
    "C51_cosine_similarity",
    "C51_range",
    "C51_zero_vector"
   ],
   "note": ""
  },
  {
   "property": "C52",
   "status": "proved",
   "theorems": [
    "C52_global_norm_value",
    "C52_zero_iff",
    "C52_homogeneous",
    "C52_triangle",
    "C52_independent_of_nesting"
   ],
   "note": ""
  },
  {
   "property": "C53",
   "status": "proved",
   "theorems": [
    "C53_terminates",
    "C53_rejects",
    "C53_value",
    "C53_symmetric",
    "C53_bounds",
    "C53_converges",
    "C53_eigenvector",
    "C53_kernel"
   ],
   "note": ""
  },
  {
   "property": "C54",
   "status": "proved",
   "theorems": [
    "C54_residual",
    "C54_one_by_one",
    "C54_p3_is_wrong",
    "C54_terminates",
    "C54_converges",
    "C54_defaults",
    "C54_gives_up"
   ],
   "note": ""
  },
  {
   "property": "C55",
   "status": "proved",
   "theorems": [
    "C55_hvp",
    "C55_hessian_diag",
    "C55_fisher_diag",
    "C55_errors"
   ],
   "note": ""
  },
  {
   "property": "C56",
   "status": "proved",
   "theorems": [
    "C56_set_diags",
    "C56_set_diags_matrix",
    "C56_set_diags_errors",
    "C56_tile",
    "C56_tile_scalar"
   ],
   "note": ""
  },
  {
   "property": "C57",
   "status": "proved",
   "theorems": [
    "C57_mean",
    "C57_std",
    "C57_jacobians",
    "C57_constant",
    "C57_affine",
    "C57_errors"
   ],
   "note": ""
  },
  {
   "property": "C58",
   "status": "proved",
   "theorems": [
    "C58_algebra",
    "C58_coefficients",
    "C58_optimal",
    "C58_baseline_update",
    "C58_double_debias",
    "C58_baseline_score",
    "C58_baseline_no_effect",
    "C58_delta",
    "C58_delta_expected",
    "C58_delta_pathwise",
    "C58_delta_exact",
    "C58_mean_unchanged"
   ],
   "note": ""
  },
  {
   "property": "C59",
   "status": "proved",
   "theorems": [
    "C59_sgd",
    "C59_parameters"
   ],
   "note": ""
  },
  {
   "property": "C60",
   "status": "proved",
   "theorems": [
    "C60_decomposition",
    "C60_closed_forms",
    "C60_adamw",
    "C60_rmsprop"
   ],
   "note": ""
  },
  {
   "property": "C61",
   "status": "proved",
   "theorems": [
    "C61_step",
    "C61_no_blow_up",
    "C61_training"
   ],
   "note": ""
  },
  {
   "property": "C62",
   "status": "proved",
   "theorems": [
    "C62_noisy_sgd",
    "C62_dpsgd",
    "C62_dpsgd_closed_form"
   ],
   "note": ""
  },
  {
   "property": "C63",
   "status": "proved",
   "theorems": [
    "C63_radam_b2",
    "C63_required",
    "C63_ignored",
    "C63_wrappers",
    "C63_ignoring_aliases",
    "C63_chain",
    "C63_demanding_aliases"
   ],
   "note": ""
  },
  {
   "property": "C64",
   "status": "proved",
   "theorems": [
    "C64_aliases",
    "C64_param_aliases",
    "C64_noisy_sgd",
    "C64_sm3",
    "C64_dpsgd"
   ],
   "note": ""
  },
  {
   "property": "C65",
   "status": "proved",
   "theorems": [
    "C65_signed",
    "C65_maybe_update",
    "C65_maybe_update_total",
    "C65_apply_if_finite",
    "C65_apply_if_finite_total",
    "C65_multi_steps",
    "C65_multi_steps_total"
   ],
   "note": ""
  },
  {
   "property": "C66",
   "status": "proved",
   "theorems": [
    "C66_element_independence",
    "C66_zero_nans_element_independence"
   ],
   "note": ""
  },
  {
   "property": "C67",
   "status": "proved",
   "theorems": [
    "C67_l2_gradient",
    "C67_huber_gradient",
    "C67_bce_gradient",
    "C67_softmax_ce_gradient"
   ],
   "note": ""
  },
  {
   "property": "C68",
   "status": "proved",
   "theorems": [
    "C68_pathwise",
    "C68_score",
    "C68_log_prob",
    "C68_sample"
   ],
   "note": ""
  },
  {
   "property": "C69",
   "status": "proved",
   "theorems": [
    "C69_clip_ieee"
   ],
   "note": ""
  },
  {
   "property": "C70",
   "status": "proved",
   "theorems": [
    "C70_rms_never_nan",
    "C70_rss_never_nan",
    "C70_rms_frozen_by_overflow",
    "C70_adam_never_nan",
    "C70_adam_frozen_by_overflow",
    "C70_adam_defaults_never_nan"
   ],
   "note": ""
  },
  {
   "property": "C73",
   "status": "proved",
   "theorems": [
    "C73_apply_updates_ieee",
    "C73_small_updates_are_lost"
   ],
   "note": ""
  },
  {
   "property": "C71",
   "status": "proved",
   "theorems": [
    "C71_eps_vanishes_in_float16",
    "C71_b2_is_one_in_bfloat16",
    "C71_adam_float16_zero_gradient_nan",
    "C71_bfloat16_second_moment_never_decays"
   ],
   "note": ""
  },
  {
   "property": "C76",
   "status": "proved",
   "theorems": [
    "C76_stddev_cancellation_nan"
   ],
   "note": ""
  },
  {
   "property": "C72",
   "status": "proved",
   "theorems": [
    "C72_exponential_ieee",
    "C72_cosine_ieee",
    "C72_polynomial_end_ieee",
    "C72_linear_monotone_ieee",
    "C72_linear_start_lost",
    "C72_piecewise_constant_ieee"
   ],
   "note": ""
  },
  {
   "property": "C75",
   "status": "proved",
   "theorems": [
    "C75_elements_bounded_ieee",
    "C75_overflow_zeroes_update"
   ],
   "note": ""
  },
  {
   "property": "C74",
   "status": "proved",
   "theorems": [
    "C74_smooth_labels_ieee",
    "C74_l2_huber_ieee",
    "C74_error_nan",
    "C74_bce_ieee",
    "C74_bce_infinite_logit"
   ],
   "note": ""
  },
  {
   "property": "C77",
   "status": "proved",
   "theorems": [
    "C77_momentum_error_uniform"
   ],
   "note": ""
  },
  {
   "property": "C78",
   "status": "proved",
   "theorems": [
    "C78_sgd_identity",
    "C78_convex",
    "C78_smooth",
    "C78_adagrad"
   ],
   "note": ""
  },
  {
   "property": "C79",
   "status": "proved",
   "theorems": [
    "C79_laws",
    "C79_score",
    "C79_pathwise",
    "C79_measure_mean",
    "C79_measure_scale"
   ],
   "note": ""
  },
  {
   "property": "C80",
   "status": "proved",
   "theorems": [
    "C80_neutral",
    "C80_fusion",
    "C80_commute",
    "C80_aliases",
    "C80_accumulation",
    "C80_every_step",
    "C80_not_interchangeable"
   ],
   "note": ""
  },
  {
   "property": "C81",
   "status": "proved",
   "theorems": [
    "C81_session",
    "C81_privacy",
    "C81_removal",
    "C81_generators",
    "C81_expectations",
    "C81_dpsgd_session",
    "C81_dpsgd"
   ],
   "note": ""
  },
  {
   "property": "C82",
   "status": "proved",
   "theorems": [
    "C82_regret",
    "C82_convex",
    "C82_smooth"
   ],
   "note": ""
  },
  {
   "property": "C83",
   "status": "proved",
   "theorems": [
    "C83_adam_diverges"
   ],
   "note": ""
  },
  {
   "property": "C84",
   "status": "proved",
   "theorems": [
    "C84_adam_speed",
    "C84_adamw_bounded"
   ],
   "note": ""
  },
  {
   "property": "C85",
   "status": "proved",
   "theorems": [
    "C85_sgd",
    "C85_nesterov"
   ],
   "note": ""
  },
  {
   "property": "C86",
   "status": "proved",
   "theorems": [
    "C86_cycles",
    "C86_contrast"
   ],
   "note": ""
  },
  {
   "property": "C87",
   "status": "proved",
   "theorems": [
    "C87_never_raises",
    "C87_resume",
    "C87_training"
   ],
   "note": ""
  },
  {
   "property": "C88",
   "status": "proved",
   "theorems": [
    "C88_sgd",
    "C88_momentum",
    "C88_adam",
    "C88_global_norm_range",
    "C88_global_norm"
   ],
   "note": ""
  },
  {
   "property": "C89",
   "status": "proved",
   "theorems": [
    "C89_adagrad",
    "C89_rmsprop"
   ],
   "note": ""
  },
  {
   "property": "C90",
   "status": "proved",
   "theorems": [
    "C90_adam"
   ],
   "note": ""
  },
  {
   "property": "C91",
   "status": "proved",
   "theorems": [
    "C91_clipped_sgd",
    "C91_plain_sgd_explodes"
   ],
   "note": ""
  },
  {
   "property": "C92",
   "status": "proved",
   "theorems": [
    "C92_draws",
    "C92_average",
    "C92_strongly_convex",
    "C92_decay"
   ],
   "note": ""
  },
  {
   "property": "C93",
   "status": "proved",
   "theorems": [
    "C93_convex",
    "C93_strongly_convex",
    "C93_quadratic"
   ],
   "note": ""
  },
  {
   "property": "C94",
   "status": "proved",
   "theorems": [
    "C94_large_batch",
    "C94_elementwise"
   ],
   "note": ""
  },
  {
   "property": "C95",
   "status": "proved",
   "theorems": [
    "C95_rounded_once",
    "C95_exact_operations",
    "C95_no_rounding",
    "C95_special_values"
   ],
   "note": ""
  },
  {
   "property": "C96",
   "status": "proved",
   "theorems": [
    "C96_unscale",
    "C96_loss_scaling",
    "C96_float_loss_scaling",
    "C96_adam_units",
    "C96_adagrad_units",
    "C96_rmsprop_units",
    "C96_sgd_units",
    "C96_radam_not_invariant"
   ],
   "note": ""
  },
  {
   "property": "C97",
   "status": "proved",
   "theorems": [
    "C97_l2",
    "C97_optimisers",
    "C97_adam_l2",
    "C97_adamw_decay"
   ],
   "note": ""
  },
  {
   "property": "C98",
   "status": "proved",
   "theorems": [
    "C98_stability",
    "C98_initialisation",
    "C98_weight_decay",
    "C98_stable_generalises",
    "C98_generalisation"
   ],
   "note": ""
  },
  {
   "property": "C99",
   "status": "proved",
   "theorems": [
    "C99_layers",
    "C99_lamb",
    "C99_relative",
    "C99_cannot_settle"
   ],
   "note": ""
  },
  {
   "property": "C100",
   "status": "proved",
   "theorems": [
    "C100_rules",
    "C100_training",
    "C100_optimisers",
    "C100_eps_root"
   ],
   "note": ""
  },
  {
   "property": "C101",
   "status": "proved",
   "theorems": [
    "C101_convex",
    "C101_smooth",
    "C101_fixed_points",
    "C101_order"
   ],
   "note": ""
  },
  {
   "property": "C102",
   "status": "proved",
   "theorems": [
    "C102_nearest",
    "C102_nonexpansive",
    "C102_compose",
    "C102_clip_compose",
    "C102_robust"
   ],
   "note": ""
  },
  {
   "property": "C103",
   "status": "proved",
   "theorems": [
    "C103_budget",
    "C103_freeze",
    "C103_converge",
    "C103_exponential",
    "C103_cosine",
    "C103_aliases"
   ],
   "note": ""
  },
  {
   "property": "C104",
   "status": "proved",
   "theorems": [
    "C104_unused",
    "C104_weight_decay",
    "C104_yogi_drifts",
    "C104_stops_at_once",
    "C104_momentum_coasts",
    "C104_adam_coasts",
    "C104_adam_runaway"
   ],
   "note": ""
  },
  {
   "property": "C105",
   "status": "proved",
   "theorems": [
    "C105_lag",
    "C105_converges",
    "C105_jensen",
    "C105_periodic",
    "C105_guarded"
   ],
   "note": ""
  },
  {
   "property": "C106",
   "status": "proved",
   "theorems": [
    "C106_softmax_any_arithmetic",
    "C106_cosine_any_arithmetic",
    "C106_softmax_ieee",
    "C106_masked_logit_nan",
    "C106_cosine_overflow"
   ],
   "note": ""
  }
 ]
}