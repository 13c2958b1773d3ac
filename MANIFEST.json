{
 "claims": [
  {
   "property": "C01",
   "status": "proved",
   "theorems": [
    "C01_mul",
    "C01_div",
    "C01_pow"
   ],
   "note": ""
  },
  {
   "property": "C02",
   "status": "proved",
   "theorems": [
    "C02_mulC",
    "C02_mulA",
    "C02_unit",
    "C02_mulK",
    "C02_divK",
    "C02_divV",
    "C02_pow_add",
    "C02_pow_mul",
    "C02_mul_pow",
    "C02_pow0",
    "C02_pow1",
    "C02_operands"
   ],
   "note": ""
  },
  {
   "property": "C03",
   "status": "proved",
   "theorems": [
    "C03_round_trip"
   ],
   "note": ""
  },
  {
   "property": "C04",
   "status": "proved",
   "theorems": [
    "C04_reads_stable",
    "C04_mixed_unstable",
    "C04_value"
   ],
   "note": ""
  },
  {
   "property": "C05",
   "status": "proved",
   "theorems": [
    "C05_copy",
    "C05_value"
   ],
   "note": ""
  },
  {
   "property": "C06",
   "status": "proved",
   "theorems": [
    "C06_refl",
    "C06_not_sym",
    "C06_not_trans"
   ],
   "note": ""
  },
  {
   "property": "C07",
   "status": "proved",
   "theorems": [
    "C07_validate",
    "C07_factor"
   ],
   "note": ""
  },
  {
   "property": "C08",
   "status": "proved",
   "theorems": [
    "C08_symmetrize"
   ],
   "note": ""
  },
  {
   "property": "C09",
   "status": "proved",
   "theorems": [
    "C09_outcome"
   ],
   "note": ""
  },
  {
   "property": "C10",
   "status": "proved",
   "theorems": [
    "C10_validated",
    "C10_negative"
   ],
   "note": ""
  },
  {
   "property": "C11",
   "status": "proved",
   "theorems": [
    "C11_points",
    "C11_zero"
   ],
   "note": ""
  },
  {
   "property": "C12",
   "status": "proved",
   "theorems": [
    "C12_affine",
    "C12_quadrature"
   ],
   "note": ""
  },
  {
   "property": "C13",
   "status": "proved",
   "theorems": [
    "C13_moments",
    "C13_psd",
    "C13_batch_single_input",
    "C13_batch_single_output"
   ],
   "note": ""
  },
  {
   "property": "C14",
   "status": "proved",
   "theorems": [
    "C14_moments",
    "C14_affine",
    "C14_draws"
   ],
   "note": ""
  },
  {
   "property": "C15",
   "status": "proved",
   "theorems": [
    "C15_unscented_exact",
    "C15_taylor_exact",
    "C15_predict"
   ],
   "note": ""
  },
  {
   "property": "C16",
   "status": "proved",
   "theorems": [
    "C16_bayes",
    "C16_scalar"
   ],
   "note": ""
  },
  {
   "property": "C17",
   "status": "proved",
   "theorems": [
    "C17_shape",
    "C17_rejected"
   ],
   "note": ""
  },
  {
   "property": "C18",
   "status": "proved",
   "theorems": [
    "C18_smooth"
   ],
   "note": ""
  },
  {
   "property": "C19",
   "status": "proved",
   "theorems": [
    "C19_branches"
   ],
   "note": ""
  },
  {
   "property": "C20",
   "status": "proved",
   "theorems": [
    "C20_build",
    "C20_small"
   ],
   "note": ""
  },
  {
   "property": "C21",
   "status": "proved",
   "theorems": [
    "C21_assign"
   ],
   "note": ""
  },
  {
   "property": "C22",
   "status": "proved",
   "theorems": [
    "C22_last_wins"
   ],
   "note": ""
  },
  {
   "property": "C23",
   "status": "proved",
   "theorems": [
    "C23_atomic"
   ],
   "note": ""
  },
  {
   "property": "C24",
   "status": "proved",
   "theorems": [
    "C24_validated",
    "C24_fresh"
   ],
   "note": ""
  },
  {
   "property": "C25",
   "status": "proved",
   "theorems": [
    "C25_invariant",
    "C25_unscented",
    "C25_taylor"
   ],
   "note": ""
  },
  {
   "property": "C26",
   "status": "proved",
   "theorems": [
    "C26_damped",
    "C26_posdef"
   ],
   "note": ""
  },
  {
   "property": "C27",
   "status": "proved",
   "theorems": [
    "C27_sweep",
    "C27_prefix",
    "C27_last_back"
   ],
   "note": ""
  },
  {
   "property": "C28",
   "status": "proved",
   "theorems": [
    "C28_forward",
    "C28_sweep",
    "C28_kalman",
    "C28_unscented",
    "C28_posterior"
   ],
   "note": ""
  },
  {
   "property": "C29",
   "status": "proved",
   "theorems": [
    "C29_fixed_point",
    "C29_unscented"
   ],
   "note": ""
  },
  {
   "property": "C30",
   "status": "proved",
   "theorems": [
    "C30_filter",
    "C30_smoother",
    "C30_empty",
    "C30_last"
   ],
   "note": ""
  },
  {
   "property": "C31",
   "status": "proved",
   "theorems": [
    "C31_restart",
    "C31_causal"
   ],
   "note": ""
  },
  {
   "property": "C32",
   "status": "proved",
   "theorems": [
    "C32_times"
   ],
   "note": ""
  },
  {
   "property": "C33",
   "status": "proved",
   "theorems": [
    "C33_filter",
    "C33_spec_unique"
   ],
   "note": ""
  },
  {
   "property": "C34",
   "status": "proved",
   "theorems": [
    "C34_smoother"
   ],
   "note": ""
  },
  {
   "property": "C35",
   "status": "proved",
   "theorems": [
    "C35_correct",
    "C35_smooth",
    "C35_run"
   ],
   "note": ""
  },
  {
   "property": "C36",
   "status": "proved",
   "theorems": [
    "C36_zero",
    "C36_one",
    "C36_fixpoint",
    "C36_iterates",
    "C36_even",
    "C36_growth",
    "C36_run_one"
   ],
   "note": ""
  },
  {
   "property": "C37",
   "status": "proved",
   "theorems": [
    "C37_affine"
   ],
   "note": ""
  },
  {
   "property": "C38",
   "status": "proved",
   "theorems": [
    "C38_call",
    "C38_history",
    "C38_fresh",
    "C38_reuse_differs"
   ],
   "note": ""
  },
  {
   "property": "C39",
   "status": "proved",
   "theorems": [
    "C39_recurrence",
    "C39_untouched",
    "C39_initial",
    "C39_leak",
    "C39_scalar",
    "C39_walk"
   ],
   "note": ""
  },
  {
   "property": "C40",
   "status": "proved",
   "theorems": [
    "C40_step",
    "C40_bounded",
    "C40_absorbed",
    "C40_measure"
   ],
   "note": ""
  },
  {
   "property": "C41",
   "status": "proved",
   "theorems": [
    "C41_linear",
    "C41_flow",
    "C41_straight",
    "C41_noise_pd",
    "C41_noise_split",
    "C41_bearing",
    "C41_bearing_unique",
    "C41_locate",
    "C41_none"
   ],
   "note": ""
  },
  {
   "property": "C42",
   "status": "proved",
   "theorems": [
    "C42_defined",
    "C42_turn",
    "C42_flow",
    "C42_period",
    "C42_zero",
    "C42_noise_pd",
    "C42_locate"
   ],
   "note": ""
  },
  {
   "property": "C43",
   "status": "proved",
   "theorems": [
    "C43_mirror",
    "C43_vector",
    "C43_differs",
    "C43_shift",
    "C43_rows",
    "C43_energy",
    "C43_fixed",
    "C43_measure",
    "C43_never_built",
    "C43_poisoned",
    "C43_loaded"
   ],
   "note": ""
  },
  {
   "property": "C44",
   "status": "proved",
   "theorems": [
    "C44_mean",
    "C44_zero",
    "C44_simulate",
    "C44_simulate_meas",
    "C44_system"
   ],
   "note": ""
  },
  {
   "property": "C45",
   "status": "proved",
   "theorems": [
    "C45_unique",
    "C45_first",
    "C45_new",
    "C45_columns",
    "C45_columns_only",
    "C45_wrong_size"
   ],
   "note": ""
  },
  {
   "property": "C46",
   "status": "proved",
   "theorems": [
    "C46_log",
    "C46_rows",
    "C46_count",
    "C46_appended",
    "C46_silent",
    "C46_create",
    "C46_create_open"
   ],
   "note": ""
  },
  {
   "property": "C47",
   "status": "proved",
   "theorems": [
    "C47_resume",
    "C47_resume_random",
    "C47_resume_short",
    "C47_kept",
    "C47_unique",
    "C47_uncommitted",
    "C47_completes",
    "C47_resume_long_refuted",
    "C47_resume_skip_refuted"
   ],
   "note": ""
  },
  {
   "property": "C48",
   "status": "proved",
   "theorems": [
    "C48_rmse",
    "C48_zero",
    "C48_prefix",
    "C48_empty",
    "C48_column",
    "C48_nll",
    "C48_node_metrics",
    "C48_parts",
    "C48_components",
    "C48_flat_truth"
   ],
   "note": ""
  },
  {
   "property": "C49",
   "status": "proved",
   "theorems": [
    "C49_stale",
    "C49_fresh",
    "C49_stale_chol",
    "C49_fresh_chol",
    "C49_stale_natural",
    "C49_fresh_natural"
   ],
   "note": ""
  },
  {
   "property": "C50",
   "status": "proved",
   "theorems": [
    "C50_psd"
   ],
   "note": ""
  },
  {
   "property": "C51",
   "status": "proved",
   "theorems": [
    "C51_extended"
   ],
   "note": ""
  },
  {
   "property": "C52",
   "status": "proved",
   "theorems": [
    "C52_transform",
    "C52_sweep"
   ],
   "note": ""
  },
  {
   "property": "C53",
   "status": "proved",
   "theorems": [
    "C53_forward",
    "C53_unscented",
    "C53_montecarlo",
    "C53_aborts",
    "C53_unscented_aborts"
   ],
   "note": ""
  },
  {
   "property": "C54",
   "status": "proved",
   "theorems": [
    "C54_log",
    "C54_complete",
    "C54_silent",
    "C54_power_sweep",
    "C54_attempts",
    "C54_skips",
    "C54_rerun",
    "C54_completes"
   ],
   "note": ""
  },
  {
   "property": "C55",
   "status": "proved",
   "theorems": [
    "C55_first",
    "C55_stuck",
    "C55_error",
    "C55_once"
   ],
   "note": ""
  },
  {
   "property": "C56",
   "status": "proved",
   "theorems": [
    "C56_ungm",
    "C56_l96",
    "C56_bott",
    "C56_ungm_rows",
    "C56_l96_rows",
    "C56_bott_rows"
   ],
   "note": ""
  },
  {
   "property": "C57",
   "status": "proved",
   "theorems": [
    "C57_affine",
    "C57_error",
    "C57_row",
    "C57_number",
    "C57_lorenz",
    "C57_scalar",
    "C57_calls",
    "C57_taylor",
    "C57_taylor_row"
   ],
   "note": ""
  },
  {
   "property": "C58",
   "status": "proved",
   "theorems": [
    "C58_table",
    "C58_seeds",
    "C58_sample",
    "C58_unswept",
    "C58_report",
    "C58_null",
    "C58_absent",
    "C58_l96",
    "C58_l96_other",
    "C58_ieks_ungm",
    "C58_ieks_l96",
    "C58_ieks_bott"
   ],
   "note": ""
  },
  {
   "property": "C59",
   "status": "proved",
   "theorems": [
    "C59_taylor_rows",
    "C59_taylor_stops",
    "C59_default",
    "C59_unscented_rows",
    "C59_unscented_stops",
    "C59_smoother_rows",
    "C59_smoother_first"
   ],
   "note": ""
  },
  {
   "property": "C60",
   "status": "proved",
   "theorems": [
    "C60_belief_propagation",
    "C60_power_free",
    "C60_undamped",
    "C60_precision",
    "C60_fixed_point",
    "C60_power_one"
   ],
   "note": ""
  },
  {
   "property": "C61",
   "status": "proved",
   "theorems": [
    "C61_any_order",
    "C61_sweeps",
    "C61_updates",
    "C61_update_exact",
    "C61_update_horizon"
   ],
   "note": ""
  },
  {
   "property": "C62",
   "status": "proved",
   "theorems": [
    "C62_kept",
    "C62_rule",
    "C62_affine",
    "C62_order",
    "C62_short",
    "C62_given",
    "C62_pair"
   ],
   "note": ""
  },
  {
   "property": "C63",
   "status": "proved",
   "theorems": [
    "C63_growth",
    "C63_straight",
    "C63_straight_variance",
    "C63_turn_accepts",
    "C63_turn_square",
    "C63_turn_deviation",
    "C63_turn",
    "C63_turn_process",
    "C63_slow_turn",
    "C63_sees",
    "C63_moves",
    "C63_test"
   ],
   "note": ""
  },
  {
   "property": "C64",
   "status": "proved",
   "theorems": [
    "C64_figure",
    "C64_least",
    "C64_reach",
    "C64_pair",
    "C64_flat",
    "C64_affine",
    "C64_order"
   ],
   "note": ""
  },
  {
   "property": "C65",
   "status": "proved",
   "theorems": [
    "C65_nodes",
    "C65_truth",
    "C65_states",
    "C65_empty"
   ],
   "note": ""
  },
  {
   "property": "C66",
   "status": "proved",
   "theorems": [
    "C66_symmetric",
    "C66_commute",
    "C66_first_power",
    "C66_divide_flat",
    "C66_divide_self",
    "C66_multiply_flat",
    "C66_forward",
    "C66_exact_visit",
    "C66_visit",
    "C66_damped_visit",
    "C66_forward_marginal",
    "C66_undo",
    "C66_undo_refuted"
   ],
   "note": "C66_undo_refuted is the witness that quotients do not undo products in doubles."
  },
  {
   "property": "C67",
   "status": "proved",
   "theorems": [
    "C67_nodes",
    "C67_exact",
    "C67_smoother",
    "C67_smoother_refuted",
    "C67_unit",
    "C67_stuck",
    "C67_forward",
    "C67_drift"
   ],
   "note": "C67_smoother_refuted is the witness for dt = 0.1."
  },
  {
   "property": "C68",
   "status": "proved",
   "theorems": [
    "C68_aligned",
    "C68_index",
    "C68_seeds",
    "C68_all_seeds",
    "C68_found_seeds",
    "C68_drawn",
    "C68_sweep",
    "C68_short",
    "C68_small",
    "C68_history_refuted"
   ],
   "note": "C68_history_refuted: without the hypothesis that the table is new, C68_sweep is false for rows in the order of storage. The order in which sqlite returns rows is a parameter; C68_aligned, C68_short, C68_small and C68_found_seeds hold for every order."
  },
  {
   "property": "C69",
   "status": "proved",
   "theorems": [
    "C69_index",
    "C69_control",
    "C69_single_row",
    "C69_no_seeds",
    "C69_first_mean",
    "C69_first_missing",
    "C69_free",
    "C69_permute",
    "C69_sweep",
    "C69_single",
    "C69_many"
   ],
   "note": "Runs of different lengths for different seeds are outside (numpy's treatment of ragged arrays depends on its version)."
  },
  {
   "property": "C70",
   "status": "proved",
   "theorems": [
    "C70_nonneg",
    "C70_zero",
    "C70_empty",
    "C70_symmetric",
    "C70_monotone",
    "C70_accurate",
    "C70_finite",
    "C70_builds",
    "C70_separates_refuted",
    "C70_ordinary_refuted"
   ],
   "note": "The exact counterpart is C48. C70_separates_refuted and C70_ordinary_refuted show where underflow and overflow break the natural claims."
  },
  {
   "property": "C71",
   "status": "proved",
   "theorems": [
    "C71_values",
    "C71_queries",
    "C71_later"
   ],
   "note": "Assigning to attributes is excluded here; C49 says what it does. The values are those of the exact layer, whose operators C01 relates to densities."
  },
  {
   "property": "C72",
   "status": "proved",
   "theorems": [
    "C72_rotation",
    "C72_rows",
    "C72_local",
    "C72_nan_near",
    "C72_nan_all",
    "C72_lost",
    "C72_rest",
    "C72_uniform",
    "C72_finite",
    "C72_three",
    "C72_accurate",
    "C72_step",
    "C72_sign",
    "C72_measure",
    "C72_square"
   ],
   "note": "The exact counterpart is C43. Orbits are without noise."
  },
  {
   "property": "C73",
   "status": "proved",
   "theorems": [
    "C73_posterior",
    "C73_variance",
    "C73_sharper",
    "C73_sweep"
   ],
   "note": "Completes C28, whose exact posteriors need flat marginals assigned by the user."
  }
 ]
}