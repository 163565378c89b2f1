{
 "claims": [
  {
   "property": "C01",
   "status": "proved",
   "theorems": [
    "C01_tau_generator",
    "C01_half_even_unique"
   ],
   "note": ""
  },
  {
   "property": "C02",
   "status": "proved",
   "theorems": [
    "C02_tau_generator",
    "C02_deviations",
    "C02_gcodev"
   ],
   "note": ""
  },
  {
   "property": "C03",
   "status": "proved",
   "theorems": [
    "C03_all",
    "C03_octave",
    "C03_decade",
    "C03_log10",
    "C03_log10_factors",
    "C03_rate_independent"
   ],
   "note": ""
  },
  {
   "property": "C04",
   "status": "proved",
   "theorems": [
    "C04_idempotent"
   ],
   "note": ""
  },
  {
   "property": "C05",
   "status": "proved",
   "theorems": [
    "C05_rate_zero_phase",
    "C05_rate_zero_freq",
    "C05_bad_data_type",
    "C05_bad_keyword",
    "C05_empty_record",
    "C05_no_usable_tau",
    "C05_gcodev",
    "C05_gcodev_no_usable_tau"
   ],
   "note": ""
  },
  {
   "property": "C06",
   "status": "proved",
   "theorems": [
    "C06_theo1",
    "C06_mtotdev",
    "C06_ttotdev",
    "C06_htotdev",
    "C06_third_limit"
   ],
   "note": ""
  },
  {
   "property": "C07",
   "status": "proved",
   "theorems": [
    "C07_rows",
    "C07_rows_two_errors",
    "C07_columns",
    "C07_misuse"
   ],
   "note": ""
  },
  {
   "property": "C08",
   "status": "proved",
   "theorems": [
    "C08_shape",
    "C08_gcodev_shape",
    "C08_rows",
    "C08_theo1_tierms"
   ],
   "note": ""
  },
  {
   "property": "C09",
   "status": "proved",
   "theorems": [
    "C09_full_list",
    "C09_any_list",
    "C09_sparse_list_refuted"
   ],
   "note": ""
  },
  {
   "property": "C10",
   "status": "proved",
   "theorems": [
    "C10_trim_data"
   ],
   "note": ""
  },
  {
   "property": "C11",
   "status": "proved",
   "theorems": [
    "C11_freq_roundtrip",
    "C11_phase_values",
    "C11_phase_roundtrip"
   ],
   "note": ""
  },
  {
   "property": "C12",
   "status": "proved",
   "theorems": [
    "C12_trend_blind",
    "C12_mtie_refuted",
    "C12_tierms_refuted"
   ],
   "note": ""
  },
  {
   "property": "C13",
   "status": "proved",
   "theorems": [
    "C13_given",
    "C13_default",
    "C13_zero_mean",
    "C13_radians"
   ],
   "note": ""
  },
  {
   "property": "C14",
   "status": "proved",
   "theorems": [
    "C14_admissible_exists",
    "C14_adev",
    "C14_count"
   ],
   "note": ""
  },
  {
   "property": "C15",
   "status": "proved",
   "theorems": [
    "C15_oadev"
   ],
   "note": ""
  },
  {
   "property": "C16",
   "status": "proved",
   "theorems": [
    "C16_hdev",
    "C16_count"
   ],
   "note": ""
  },
  {
   "property": "C17",
   "status": "proved",
   "theorems": [
    "C17_ohdev"
   ],
   "note": ""
  },
  {
   "property": "C18",
   "status": "proved",
   "theorems": [
    "C18_mdev",
    "C18_kept"
   ],
   "note": ""
  },
  {
   "property": "C19",
   "status": "proved",
   "theorems": [
    "C19_rows",
    "C19_tdev"
   ],
   "note": ""
  },
  {
   "property": "C20",
   "status": "proved",
   "theorems": [
    "C20_pdev"
   ],
   "note": ""
  },
  {
   "property": "C21",
   "status": "proved",
   "theorems": [
    "C21_totdev",
    "C21_short"
   ],
   "note": ""
  },
  {
   "property": "C22",
   "status": "proved",
   "theorems": [
    "C22_mtotdev"
   ],
   "note": ""
  },
  {
   "property": "C23",
   "status": "proved",
   "theorems": [
    "C23_rows",
    "C23_ttotdev"
   ],
   "note": ""
  },
  {
   "property": "C24",
   "status": "proved",
   "theorems": [
    "C24_htotdev",
    "C24_htotdev_freq"
   ],
   "note": ""
  },
  {
   "property": "C25",
   "status": "proved",
   "theorems": [
    "C25_theo1"
   ],
   "note": ""
  },
  {
   "property": "C26",
   "status": "proved",
   "theorems": [
    "C26_tierms"
   ],
   "note": ""
  },
  {
   "property": "C27",
   "status": "proved",
   "theorems": [
    "C27_mtie",
    "C27_unique",
    "C27_no_fallback",
    "C27_fallback_low",
    "C27_fallback_refuted"
   ],
   "note": ""
  },
  {
   "property": "C28",
   "status": "proved",
   "theorems": [
    "C28_gcodev",
    "C28_unequal"
   ],
   "note": ""
  },
  {
   "property": "C29",
   "status": "proved",
   "theorems": [
    "C29_gradev",
    "C29_triples",
    "C29_triples_nodup",
    "C29_no_gaps"
   ],
   "note": ""
  },
  {
   "property": "C30",
   "status": "proved",
   "theorems": [
    "C30_mtie_phase_fast",
    "C30_first_row",
    "C30_tau_label_refuted",
    "C30_short"
   ],
   "note": ""
  },
  {
   "property": "C31",
   "status": "proved",
   "theorems": [
    "C31_line",
    "C31_constant",
    "C31_ramp_refuted"
   ],
   "note": ""
  },
  {
   "property": "C32",
   "status": "proved",
   "theorems": [
    "C32_hadamard",
    "C32_oadev_drift"
   ],
   "note": ""
  },
  {
   "property": "C33",
   "status": "proved",
   "theorems": [
    "C33_homogeneous",
    "C33_gcodev"
   ],
   "note": ""
  },
  {
   "property": "C34",
   "status": "proved",
   "theorems": [
    "C34_frequency_type",
    "C34_time_type"
   ],
   "note": ""
  },
  {
   "property": "C35",
   "status": "proved",
   "theorems": [
    "C35_reversal",
    "C35_adev_refuted",
    "C35_hdev_refuted",
    "C35_pdev_refuted"
   ],
   "note": ""
  },
  {
   "property": "C36",
   "status": "proved",
   "theorems": [
    "C36_any_arithmetic",
    "C36_exact"
   ],
   "note": ""
  },
  {
   "property": "C37",
   "status": "proved",
   "theorems": [
    "C37_mtie_monotone",
    "C37_tierms_le_mtie",
    "C37_mtie_le_peak_to_peak"
   ],
   "note": ""
  },
  {
   "property": "C38",
   "status": "proved",
   "theorems": [
    "C38_nonnegative",
    "C38_oadev_zero",
    "C38_ohdev_zero",
    "C38_mtie_zero"
   ],
   "note": ""
  },
  {
   "property": "C39",
   "status": "proved",
   "theorems": [
    "C39_symmetric",
    "C39_self",
    "C39_cauchy_schwarz",
    "C39_sign_lost"
   ],
   "note": ""
  },
  {
   "property": "C40",
   "status": "proved",
   "theorems": [
    "C40_general",
    "C40_inverts",
    "C40_unequal_lengths"
   ],
   "note": ""
  },
  {
   "property": "C41",
   "status": "proved",
   "theorems": [
    "C41_closed_loop",
    "C41_equals_gcodev"
   ],
   "note": ""
  },
  {
   "property": "C42",
   "status": "proved",
   "theorems": [
    "C42_levels",
    "C42_upper",
    "C42_same_interval",
    "C42_coverage_refuted",
    "C42_covers"
   ],
   "note": ""
  },
  {
   "property": "C43",
   "status": "proved",
   "theorems": [
    "C43_ordered",
    "C43_homogeneous",
    "C43_brackets",
    "C43_nested"
   ],
   "note": ""
  },
  {
   "property": "C44",
   "status": "proved",
   "theorems": [
    "C44_error_columns",
    "C44_tails",
    "C44_nan",
    "C44_noisetypes",
    "C44_contract_refuted"
   ],
   "note": ""
  },
  {
   "property": "C45",
   "status": "proved",
   "theorems": [
    "C45_positive",
    "C45_logs",
    "C45_raises"
   ],
   "note": ""
  },
  {
   "property": "C46",
   "status": "proved",
   "theorems": [
    "C46_totdev",
    "C46_totdev_other",
    "C46_mtotdev",
    "C46_mtotdev_other"
   ],
   "note": ""
  },
  {
   "property": "C47",
   "status": "proved",
   "theorems": [
    "C47_sw_even",
    "C47_sx_even",
    "C47_sz_even",
    "C47_domain",
    "C47_white_pm_support"
   ],
   "note": ""
  },
  {
   "property": "C48",
   "status": "proved",
   "theorems": [
    "C48_table1",
    "C48_table2",
    "C48_assertion",
    "C48_placeholder_refuted"
   ],
   "note": ""
  },
  {
   "property": "C49",
   "status": "proved",
   "theorems": [
    "C49_counts",
    "C49_bounds",
    "C49_negative_refuted",
    "C49_zero",
    "C49_white_pm",
    "C49_alpha_high",
    "C49_alpha_high_modified",
    "C49_divergent",
    "C49_errors",
    "C49_simple",
    "C49_simple_full",
    "C49_simple_errors"
   ],
   "note": ""
  },
  {
   "property": "C50",
   "status": "proved",
   "theorems": [
    "C50_series",
    "C50_af0",
    "C50_stops",
    "C50_short",
    "C50_rounding",
    "C50_constant"
   ],
   "note": ""
  },
  {
   "property": "C51",
   "status": "proved",
   "theorems": [
    "C51_bounded",
    "C51_affine",
    "C51_reverse",
    "C51_value",
    "C51_empty"
   ],
   "note": ""
  },
  {
   "property": "C52",
   "status": "proved",
   "theorems": [
    "C52_rn",
    "C52_b1",
    "C52_rate1",
    "C52_rate_refuted"
   ],
   "note": ""
  },
  {
   "property": "C53",
   "status": "proved",
   "theorems": [
    "C53_b_to_mu",
    "C53_b1_formula",
    "C53_b1_flicker",
    "C53_b1_positive",
    "C53_white_fm",
    "C53_b1_boundary",
    "C53_b1_boundary_outside",
    "C53_rn_theory",
    "C53_rn_boundary"
   ],
   "note": ""
  },
  {
   "property": "C54",
   "status": "proved",
   "theorems": [
    "C54_interval",
    "C54_unknown",
    "C54_usable"
   ],
   "note": ""
  },
  {
   "property": "C55",
   "status": "proved",
   "theorems": [
    "C55_stream",
    "C55_batch"
   ],
   "note": ""
  },
  {
   "property": "C56",
   "status": "proved",
   "theorems": [
    "C56_stream",
    "C56_batch",
    "C56_auto",
    "C56_dense_refuted"
   ],
   "note": ""
  },
  {
   "property": "C57",
   "status": "proved",
   "theorems": [
    "C57_stream",
    "C57_mdev",
    "C57_batch"
   ],
   "note": ""
  },
  {
   "property": "C58",
   "status": "proved",
   "theorems": [
    "C58_oadev_auto",
    "C58_short",
    "C58_never_above",
    "C58_tdev_auto",
    "C58_batch_refuted"
   ],
   "note": ""
  },
  {
   "property": "C59",
   "status": "proved",
   "theorems": [
    "C59_stream",
    "C59_batch"
   ],
   "note": ""
  },
  {
   "property": "C60",
   "status": "proved",
   "theorems": [
    "C60_extra_zeros",
    "C60_empty_list"
   ],
   "note": ""
  },
  {
   "property": "C61",
   "status": "proved",
   "theorems": [
    "C61_compute",
    "C61_history"
   ],
   "note": ""
  },
  {
   "property": "C62",
   "status": "proved",
   "theorems": [
    "C62_filter",
    "C62_module"
   ],
   "note": ""
  },
  {
   "property": "C63",
   "status": "proved",
   "theorems": [
    "C63_before_compute",
    "C63_two_errors",
    "C63_two_errors_exact",
    "C63_file",
    "C63_af_column",
    "C63_binary64_refuted"
   ],
   "note": ""
  },
  {
   "property": "C64",
   "status": "proved",
   "theorems": [
    "C64_prc_tdev",
    "C64_prc_mtie",
    "C64_eprtc_tdev",
    "C64_eprtc_mtie",
    "C64_prtc_tdev",
    "C64_prtc_mtie",
    "C64_positive",
    "C64_monotone",
    "C64_continuous",
    "C64_monotone_refuted",
    "C64_continuous_refuted",
    "C64_binary64_refuted"
   ],
   "note": ""
  },
  {
   "property": "C65",
   "status": "proved",
   "theorems": [
    "C65_value",
    "C65_running_sum",
    "C65_total",
    "C65_depth0",
    "C65_one_slot",
    "C65_frozen",
    "C65_replaced",
    "C65_binary64_refuted"
   ],
   "note": ""
  },
  {
   "property": "C66",
   "status": "proved",
   "theorems": [
    "C66_white",
    "C66_brown",
    "C66_brown_errors",
    "C66_violet",
    "C66_violet_error"
   ],
   "note": ""
  },
  {
   "property": "C67",
   "status": "proved",
   "theorems": [
    "C67_convolution",
    "C67_nr0",
    "C67_white_pm",
    "C67_white_fm",
    "C67_random_walk_fm"
   ],
   "note": ""
  },
  {
   "property": "C68",
   "status": "proved",
   "theorems": [
    "C68_adev",
    "C68_mdev",
    "C68_psd",
    "C68_exponent",
    "C68_other",
    "C68_mdev_le_adev",
    "C68_pdev",
    "C68_scale"
   ],
   "note": ""
  },
  {
   "property": "C69",
   "status": "proved",
   "theorems": [
    "C69_segment",
    "C69_hole",
    "C69_lengths",
    "C69_n",
    "C69_rejected",
    "C69_zero_mean",
    "C69_grid",
    "C69_hermitian",
    "C69_five_refuted"
   ],
   "note": ""
  },
  {
   "property": "C70",
   "status": "proved",
   "theorems": [
    "C70_value",
    "C70_vector",
    "C70_type_errors",
    "C70_kind_errors",
    "C70_short",
    "C70_scale",
    "C70_modified_le",
    "C70_additive",
    "C70_taus",
    "C70_factors",
    "C70_octave_refuted",
    "C70_binary64_refuted",
    "C70_reals_fit"
   ],
   "note": ""
  },
  {
   "property": "C71",
   "status": "proved",
   "theorems": [
    "C71_shape",
    "C71_range_error",
    "C71_invalid",
    "C71_interpolates",
    "C71_jump",
    "C71_powerlaw",
    "C71_roundtrip",
    "C71_roundtrip_nodes_refuted",
    "C71_index",
    "C71_timmer_koenig_refuted",
    "C71_range_refuted"
   ],
   "note": ""
  },
  {
   "property": "C72",
   "status": "proved",
   "theorems": [
    "C72_pdev_last_sample",
    "C72_not_all_windows_refuted"
   ],
   "note": ""
  },
  {
   "property": "C73",
   "status": "proved",
   "theorems": [
    "C73_zero_division"
   ],
   "note": ""
  },
  {
   "property": "C74",
   "status": "proved",
   "theorems": [
    "C74_anticorrelated"
   ],
   "note": ""
  },
  {
   "property": "C75",
   "status": "proved",
   "theorems": [
    "C75_distinct",
    "C75_duplicates"
   ],
   "note": ""
  },
  {
   "property": "C76",
   "status": "proved",
   "theorems": [
    "C76_axis_even",
    "C76_axis_odd",
    "C76_parseval_even",
    "C76_parseval_odd",
    "C76_total"
   ],
   "note": ""
  },
  {
   "property": "C77",
   "status": "proved",
   "theorems": [
    "C77_compose",
    "C77_integrate"
   ],
   "note": ""
  },
  {
   "property": "C78",
   "status": "proved",
   "theorems": [
    "C78_white_pm",
    "C78_white_fm",
    "C78_random_walk_fm",
    "C78_overlap_unbiased",
    "C78_exact_refuted",
    "C78_inputs_exist"
   ],
   "note": ""
  },
  {
   "property": "C79",
   "status": "proved",
   "theorems": [
    "C79_convergence",
    "C79_substitution",
    "C79_to_adev",
    "C79_endpoints_refuted",
    "C79_value_bounds",
    "C79_truncation",
    "C79_powerlaw",
    "C79_roundtrip_refuted"
   ],
   "note": ""
  },
  {
   "property": "C80",
   "status": "proved",
   "theorems": [
    "C80_idempotent",
    "C80_keywords",
    "C80_explicit",
    "C80_explicit_ties_refuted",
    "C80_tiny_rate_refuted"
   ],
   "note": ""
  },
  {
   "property": "C81",
   "status": "proved",
   "theorems": [
    "C81_accuracy",
    "C81_any_order",
    "C81_offset_refuted"
   ],
   "note": ""
  },
  {
   "property": "C82",
   "status": "proved",
   "theorems": [
    "C82_white_pm",
    "C82_white_pm_domain",
    "C82_white_pm_mdev",
    "C82_simple_mdev",
    "C82_white_fm_refuted",
    "C82_unique",
    "C82_inputs_exist",
    "C82_white_pm_tdev",
    "C82_white_pm_mod"
   ],
   "note": ""
  },
  {
   "property": "C83",
   "status": "proved",
   "theorems": [
    "C83_mtie",
    "C83_monotone"
   ],
   "note": ""
  },
  {
   "property": "C84",
   "status": "proved",
   "theorems": [
    "C84_accuracy",
    "C84_any_order",
    "C84_drift"
   ],
   "note": ""
  },
  {
   "property": "C85",
   "status": "proved",
   "theorems": [
    "C85_oadev",
    "C85_ohdev",
    "C85_hdev",
    "C85_pdev",
    "C85_totdev",
    "C85_totdev_rw",
    "C85_theo1",
    "C85_theo1_effective",
    "C85_tierms",
    "C85_unbiased_refuted"
   ],
   "note": ""
  },
  {
   "property": "C86",
   "status": "proved",
   "theorems": [
    "C86_rate",
    "C86_edf",
    "C86_consistent"
   ],
   "note": ""
  },
  {
   "property": "C87",
   "status": "proved",
   "theorems": [
    "C87_gradev_freq",
    "C87_ignored",
    "C87_gap_resistant_refuted"
   ],
   "note": ""
  },
  {
   "property": "C88",
   "status": "proved",
   "theorems": [
    "C88_reaches",
    "C88_unaffected",
    "C88_exactly",
    "C88_freq",
    "C88_htotdev_freq",
    "C88_binary64",
    "C88_extended"
   ],
   "note": ""
  },
  {
   "property": "C89",
   "status": "proved",
   "theorems": [
    "C89_sign",
    "C89_sign_gcodev",
    "C89_sign_gradev",
    "C89_sign_mtie",
    "C89_sign_realtime",
    "C89_scale",
    "C89_scale_two",
    "C89_scale_binary",
    "C89_scale_refuted"
   ],
   "note": ""
  },
  {
   "property": "C90",
   "status": "proved",
   "theorems": [
    "C90_triangle",
    "C90_distance",
    "C90_resolution",
    "C90_sharp"
   ],
   "note": ""
  },
  {
   "property": "C91",
   "status": "proved",
   "theorems": [
    "C91_figure",
    "C91_raise",
    "C91_missing",
    "C91_save",
    "C91_save_own",
    "C91_show",
    "C91_quiet",
    "C91_save_refuted",
    "C91_bars",
    "C91_gradev_bars_refuted"
   ],
   "note": ""
  },
  {
   "property": "C92",
   "status": "proved",
   "theorems": [
    "C92_periodogram",
    "C92_expected",
    "C92_shift",
    "C92_lowest_bin",
    "C92_target_refuted",
    "C92_covariance"
   ],
   "note": ""
  },
  {
   "property": "C93",
   "status": "proved",
   "theorems": [
    "C93_odd_coef",
    "C93_limit",
    "C93_even",
    "C93_simple",
    "C93_even_coef"
   ],
   "note": ""
  },
  {
   "property": "C94",
   "status": "proved",
   "theorems": [
    "C94_white",
    "C94_brown",
    "C94_violet",
    "C94_psd_white",
    "C94_psd_brown",
    "C94_psd_violet",
    "C94_psd_brown_refuted",
    "C94_psd_violet_floor",
    "C94_psd_violet_refuted"
   ],
   "note": ""
  },
  {
   "property": "C95",
   "status": "proved",
   "theorems": [
    "C95_true",
    "C95_exact",
    "C95_table",
    "C95_small",
    "C95_resampled",
    "C95_all"
   ],
   "note": ""
  },
  {
   "property": "C96",
   "status": "proved",
   "theorems": [
    "C96_value",
    "C96_errors",
    "C96_affine",
    "C96_parseval",
    "C96_white",
    "C96_violet",
    "C96_brown"
   ],
   "note": ""
  },
  {
   "property": "C97",
   "status": "proved",
   "theorems": [
    "C97_phase",
    "C97_freq_white",
    "C97_freq_brown",
    "C97_freq_violet",
    "C97_consistent"
   ],
   "note": ""
  },
  {
   "property": "C98",
   "status": "proved",
   "theorems": [
    "C98_interval",
    "C98_white_phase",
    "C98_white_frequency"
   ],
   "note": ""
  },
  {
   "property": "C99",
   "status": "proved",
   "theorems": [
    "C99_phase",
    "C99_freq",
    "C99_sharp"
   ],
   "note": ""
  },
  {
   "property": "C100",
   "status": "proved",
   "theorems": [
    "C100_any_mean",
    "C100_accuracy"
   ],
   "note": ""
  },
  {
   "property": "C101",
   "status": "proved",
   "theorems": [
    "C101_unbiased",
    "C101_rate",
    "C101_consistent"
   ],
   "note": ""
  },
  {
   "property": "C102",
   "status": "proved",
   "theorems": [
    "C102_unbiased",
    "C102_accuracy",
    "C102_consistent"
   ],
   "note": ""
  },
  {
   "property": "C103",
   "status": "proved",
   "theorems": [
    "C103_accuracy",
    "C103_any_order"
   ],
   "note": ""
  },
  {
   "property": "C104",
   "status": "proved",
   "theorems": [
    "C104_oadev",
    "C104_ohdev",
    "C104_tdev",
    "C104_mdev",
    "C104_drift"
   ],
   "note": ""
  },
  {
   "property": "C105",
   "status": "proved",
   "theorems": [
    "C105_covariance",
    "C105_far",
    "C105_floor",
    "C105_tail",
    "C105_floor_refuted",
    "C105_psd",
    "C105_psd_refuted"
   ],
   "note": ""
  },
  {
   "property": "C106",
   "status": "proved",
   "theorems": [
    "C106_unaffected",
    "C106_reaches",
    "C106_mdev",
    "C106_frequency",
    "C106_forever"
   ],
   "note": ""
  },
  {
   "property": "C107",
   "status": "proved",
   "theorems": [
    "C107_drift",
    "C107_offset",
    "C107_line",
    "C107_added_line",
    "C107_averaged_out"
   ],
   "note": ""
  },
  {
   "property": "C108",
   "status": "proved",
   "theorems": [
    "C108_accuracy",
    "C108_any_order"
   ],
   "note": ""
  },
  {
   "property": "C109",
   "status": "proved",
   "theorems": [
    "C109_flicker_phase",
    "C109_flicker_frequency",
    "C109_adev_fpm",
    "C109_adev_ffm",
    "C109_mdev_fpm",
    "C109_mdev_ffm",
    "C109_mdev_rwfm",
    "C109_mdev_ffm_refuted"
   ],
   "note": ""
  },
  {
   "property": "C110",
   "status": "proved",
   "theorems": [
    "C110_pdev_flicker",
    "C110_pdev_white",
    "C110_pdev_rwfm",
    "C110_pdev_ffm",
    "C110_pdev_fpm",
    "C110_pdev_fpm_refuted"
   ],
   "note": ""
  },
  {
   "property": "C111",
   "status": "proved",
   "theorems": [
    "C111_rules",
    "C111_infinite",
    "C111_invalid",
    "C111_binary64",
    "C111_extended"
   ],
   "note": ""
  },
  {
   "property": "C112",
   "status": "proved",
   "theorems": [
    "C112_decimate",
    "C112_average",
    "C112_interleave",
    "C112_smooth",
    "C112_mtie",
    "C112_overlap_refuted"
   ],
   "note": ""
  },
  {
   "property": "C113",
   "status": "proved",
   "theorems": [
    "C113_growth",
    "C113_mtie_growth",
    "C113_kinds",
    "C113_mtie_kinds",
    "C113_split",
    "C113_extend",
    "C113_mtie_split"
   ],
   "note": ""
  },
  {
   "property": "C114",
   "status": "proved",
   "theorems": [
    "C114_limit",
    "C114_white_adev",
    "C114_white_mdev",
    "C114_white_phase"
   ],
   "note": ""
  },
  {
   "property": "C115",
   "status": "proved",
   "theorems": [
    "C115_phase",
    "C115_freq",
    "C115_times"
   ],
   "note": ""
  },
  {
   "property": "C116",
   "status": "proved",
   "theorems": [
    "C116_gcodev",
    "C116_relative_refuted"
   ],
   "note": ""
  },
  {
   "property": "C117",
   "status": "proved",
   "theorems": [
    "C117_any_function",
    "C117_hat",
    "C117_relative_refuted"
   ],
   "note": ""
  },
  {
   "property": "C118",
   "status": "proved",
   "theorems": [
    "C118_gradev"
   ],
   "note": ""
  },
  {
   "property": "C119",
   "status": "proved",
   "theorems": [
    "C119_outlier",
    "C119_phase_step",
    "C119_frequency_step",
    "C119_tierms",
    "C119_mtie"
   ],
   "note": ""
  },
  {
   "property": "C120",
   "status": "proved",
   "theorems": [
    "C120_b1_white_pm",
    "C120_b1_white_fm",
    "C120_b1_random_walk_fm",
    "C120_b1_sides",
    "C120_b1_sides_refuted",
    "C120_rn_white_pm",
    "C120_rn_white_fm",
    "C120_rn_white_fm_side"
   ],
   "note": ""
  },
  {
   "property": "C121",
   "status": "proved",
   "theorems": [
    "C121_pink",
    "C121_recovers_refuted"
   ],
   "note": ""
  },
  {
   "property": "C122",
   "status": "proved",
   "theorems": [
    "C122_infinite",
    "C122_mdev",
    "C122_forever"
   ],
   "note": ""
  },
  {
   "property": "C123",
   "status": "proved",
   "theorems": [
    "C123_join",
    "C123_parts",
    "C123_piece",
    "C123_adev",
    "C123_hdev",
    "C123_rows",
    "C123_gap"
   ],
   "note": ""
  },
  {
   "property": "C124",
   "status": "proved",
   "theorems": [
    "C124_value",
    "C124_right",
    "C124_wrong",
    "C124_size",
    "C124_freq",
    "C124_refuted",
    "C124_tierms",
    "C124_tierms_right",
    "C124_tierms_wrong",
    "C124_tierms_refuted"
   ],
   "note": ""
  },
  {
   "property": "C125",
   "status": "proved",
   "theorems": [
    "C125_value",
    "C125_right",
    "C125_wrong",
    "C125_refuted",
    "C125_freq"
   ],
   "note": ""
  }
 ]
}