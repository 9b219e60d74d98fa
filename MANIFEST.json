{
 "claims": [
  {
   "property": "C01",
   "status": "proved",
   "theorems": [
    "C01_stream_round_trip",
    "C01_failure_domain",
    "C01_short_sample",
    "C01_round_trip_every_M_refuted"
   ],
   "note": "Round trip proved on the exact domain where the encoder does not raise; the unconditional round trip is refuted (M=16, 40, 100)."
  },
  {
   "property": "C02",
   "status": "proved",
   "theorems": [
    "C02_word_shape",
    "C02_injective",
    "C02_decode_shape",
    "C02_decode_then_encode"
   ],
   "note": ""
  },
  {
   "property": "C03",
   "status": "proved",
   "theorems": [
    "C03_file_round_trip"
   ],
   "note": ""
  },
  {
   "property": "C04",
   "status": "proved",
   "theorems": [
    "C04_read_many",
    "C04_only_first_file_decoded"
   ],
   "note": ""
  },
  {
   "property": "C05",
   "status": "proved",
   "theorems": [
    "C05_split",
    "C05_zero_words_never_terminates"
   ],
   "note": ""
  },
  {
   "property": "C06",
   "status": "proved",
   "theorems": [
    "C06_show_status",
    "C06_iterator_to_numpy_array"
   ],
   "note": ""
  },
  {
   "property": "C07",
   "status": "proved",
   "theorems": [
    "C07_csv_first_bad_line",
    "C07_csv_reversed_round_trip"
   ],
   "note": ""
  },
  {
   "property": "C08",
   "status": "proved",
   "theorems": [
    "C08_conversions",
    "C08_float_round_trip",
    "C08_fixed_round_trip",
    "C08_monotone_odd",
    "C08_full_scale_fits_word_refuted"
   ],
   "note": ""
  },
  {
   "property": "C09",
   "status": "proved",
   "theorems": [
    "C09_integer_round_trip_refuted",
    "C09_full_scale_round_trip_refuted",
    "C09_power_of_two_exact"
   ],
   "note": ""
  },
  {
   "property": "C10",
   "status": "proved",
   "theorems": [
    "C10_history",
    "C10_short_observation",
    "C10_constructor"
   ],
   "note": ""
  },
  {
   "property": "C11",
   "status": "proved",
   "theorems": [
    "C11_contribution",
    "C11_default_is_sign",
    "C11_impulse_response"
   ],
   "note": ""
  },
  {
   "property": "C12",
   "status": "proved",
   "theorems": [
    "C12_live_view",
    "C12_frozen_after_reset",
    "C12_views_are_history_refuted"
   ],
   "note": ""
  },
  {
   "property": "C13",
   "status": "proved",
   "theorems": [
    "C13_other_phases_stay_zero"
   ],
   "note": ""
  },
  {
   "property": "C14",
   "status": "proved",
   "theorems": [
    "C14_quantiser",
    "C14_monotone",
    "C14_odd",
    "C14_error",
    "C14_history",
    "C14_constructor"
   ],
   "note": ""
  },
  {
   "property": "C15",
   "status": "proved",
   "theorems": [
    "C15_offsets_ignored",
    "C15_decision_includes_offset_refuted"
   ],
   "note": ""
  },
  {
   "property": "C16",
   "status": "proved",
   "theorems": [
    "C16_history",
    "C16_shares_wrapped_control",
    "C16_rows_visited"
   ],
   "note": ""
  },
  {
   "property": "C17",
   "status": "proved",
   "theorems": [
    "C17_unit_element_set",
    "C17_default_candidates",
    "C17_default_succeeds_iff",
    "C17_leading_zero_empty"
   ],
   "note": ""
  },
  {
   "property": "C18",
   "status": "proved",
   "theorems": [
    "C18_constructor",
    "C18_waveform",
    "C18_full_duty_cycle_rejected",
    "C18_flat_level_exceeds_max_value"
   ],
   "note": ""
  },
  {
   "property": "C19",
   "status": "proved",
   "theorems": [
    "C19_next_tick",
    "C19_fast_clock_stuck",
    "C19_reaches_edge_refuted",
    "C19_delay_clock"
   ],
   "note": ""
  },
  {
   "property": "C20",
   "status": "proved",
   "theorems": [
    "C20_algebra",
    "C20_zero_order_hold_operand",
    "C20_sum_of_signals_evaluates_refuted"
   ],
   "note": ""
  },
  {
   "property": "C21",
   "status": "proved",
   "theorems": [
    "C21_zero_order_hold",
    "C21_zero_order_hold_periodic",
    "C21_ramp",
    "C21_ramp_amplitude_refuted",
    "C21_dac_waveforms"
   ],
   "note": ""
  },
  {
   "property": "C22",
   "status": "proved",
   "theorems": [
    "C22_batch_closed_form"
   ],
   "note": ""
  },
  {
   "property": "C23",
   "status": "proved",
   "theorems": [
    "C23_fir_closed_form"
   ],
   "note": ""
  },
  {
   "property": "C24",
   "status": "proved",
   "theorems": [
    "C24_iir_closed_form",
    "C24_iir_minus_fir_is_tail",
    "C24_iir_no_lookahead_fails"
   ],
   "note": ""
  },
  {
   "property": "C25",
   "status": "proved",
   "theorems": [
    "C25_batch_one_is_iir"
   ],
   "note": ""
  },
  {
   "property": "C26",
   "status": "proved",
   "theorems": [
    "C26_truth_values",
    "C26_same_as_batch",
    "C26_half_refuted"
   ],
   "note": ""
  },
  {
   "property": "C27",
   "status": "proved",
   "theorems": [
    "C27_batch_output_count",
    "C27_limit_is_output_count_refuted"
   ],
   "note": "The naive reading (limit = number of estimates) is refuted."
  },
  {
   "property": "C28",
   "status": "proved",
   "theorems": [
    "C28_fir_output_count",
    "C28_iir_output_count",
    "C28_fir_downsample_beyond_window"
   ],
   "note": ""
  },
  {
   "property": "C29",
   "status": "proved",
   "theorems": [
    "C29_batch_end_of_stream"
   ],
   "note": ""
  },
  {
   "property": "C30",
   "status": "proved",
   "theorems": [
    "C30_batch_no_overrun"
   ],
   "note": "For arbitrary sources, also with wrong-length samples."
  },
  {
   "property": "C31",
   "status": "proved",
   "theorems": [
    "C31_constructor_raises_iff",
    "C31_fixed_point_result",
    "C31_error_bound"
   ],
   "note": ""
  },
  {
   "property": "C32",
   "status": "proved",
   "theorems": [
    "C32_counts_positive",
    "C32_counts_nonzero_refuted"
   ],
   "note": ""
  },
  {
   "property": "C33",
   "status": "proved",
   "theorems": [
    "C33_export_parses_back"
   ],
   "note": ""
  },
  {
   "property": "C34",
   "status": "proved",
   "theorems": [
    "C34_convolve",
    "C34_pmul_is_polynomial_product"
   ],
   "note": ""
  },
  {
   "property": "C35",
   "status": "proved",
   "theorems": [
    "C35_exact",
    "C35_solution_unique",
    "C35_same_as_full",
    "C35_superposition",
    "C35_hold_refuted",
    "C35_delay_refuted",
    "C35_output_refuted"
   ],
   "note": ""
  },
  {
   "property": "C36",
   "status": "proved",
   "theorems": [
    "C36_states_bounded",
    "C36_any_chain"
   ],
   "note": ""
  },
  {
   "property": "C37",
   "status": "proved",
   "theorems": [
    "C37_accepts",
    "C37_stores",
    "C37_derivative"
   ],
   "note": ""
  },
  {
   "property": "C38",
   "status": "proved",
   "theorems": [
    "C38_state_only",
    "C38_full",
    "C38_input_without_control_raises",
    "C38_partial_arguments_refuted"
   ],
   "note": ""
  },
  {
   "property": "C39",
   "status": "proved",
   "theorems": [
    "C39_chain_is_series",
    "C39_mismatch_raises",
    "C39_nonsquare_first_refuted"
   ],
   "note": ""
  },
  {
   "property": "C40",
   "status": "proved",
   "theorems": [
    "C40_stack_is_parallel",
    "C40_observation_iff"
   ],
   "note": ""
  },
  {
   "property": "C41",
   "status": "proved",
   "theorems": [
    "C41_accepts",
    "C41_shapes",
    "C41_steady_states",
    "C41_transfer_function"
   ],
   "note": ""
  },
  {
   "property": "C42",
   "status": "proved",
   "theorems": [
    "C42_realises",
    "C42_accepts_real",
    "C42_close_real_poles",
    "C42_gain_sign_refuted"
   ],
   "note": ""
  },
  {
   "property": "C43",
   "status": "proved",
   "theorems": [
    "C43_chain",
    "C43_leap_frog",
    "C43_length_checked_refuted",
    "C43_broadcast"
   ],
   "note": ""
  },
  {
   "property": "C44",
   "status": "proved",
   "theorems": [
    "C44_poles",
    "C44_in_band"
   ],
   "note": ""
  },
  {
   "property": "C45",
   "status": "proved",
   "theorems": [
    "C45_chain_osr",
    "C45_chain_period",
    "C45_chain_snr",
    "C45_excess_delay_ignored",
    "C45_switched_capacitor",
    "C45_leap_frog",
    "C45_leap_frog_osr",
    "C45_leap_frog_period",
    "C45_leap_frog_period_refuted"
   ],
   "note": ""
  },
  {
   "property": "C46",
   "status": "proved",
   "theorems": [
    "C46_import",
    "C46_diagonal_refuted",
    "C46_names_collide",
    "C46_every_order_refuted",
    "C46_errors"
   ],
   "note": ""
  },
  {
   "property": "C47",
   "status": "proved",
   "theorems": [
    "C47_enob_inverse",
    "C47_dB_inverse",
    "C47_increasing",
    "C47_bits",
    "C47_FoM_S",
    "C47_FoM_W",
    "C47_jitter"
   ],
   "note": ""
  },
  {
   "property": "C48",
   "status": "proved",
   "theorems": [
    "C48_nets",
    "C48_emitted",
    "C48_net_name",
    "C48_merge_moves",
    "C48_merge_refuted",
    "C48_same_name_refuted",
    "C48_ground_refuted",
    "C48_generated"
   ],
   "note": ""
  },
  {
   "property": "C49",
   "status": "proved",
   "theorems": [
    "C49_appends",
    "C49_lookup",
    "C49_insert_refuted"
   ],
   "note": ""
  },
  {
   "property": "C50",
   "status": "proved",
   "theorems": [
    "C50_first_of_its_name",
    "C50_one_per_name",
    "C50_order",
    "C50_parameters_refuted"
   ],
   "note": ""
  },
  {
   "property": "C51",
   "status": "proved",
   "theorems": [
    "C51_ideal",
    "C51_finite",
    "C51_names",
    "C51_errors"
   ],
   "note": ""
  },
  {
   "property": "C52",
   "status": "proved",
   "theorems": [
    "C52_state",
    "C52_max",
    "C52_dc_gain",
    "C52_errors",
    "C52_names",
    "C52_dc_gain_refuted"
   ],
   "note": ""
  },
  {
   "property": "C53",
   "status": "proved",
   "theorems": [
    "C53_capacitors",
    "C53_inductors",
    "C53_passive",
    "C53_netlist",
    "C53_netlist_refuted"
   ],
   "note": ""
  },
  {
   "property": "C54",
   "status": "proved",
   "theorems": [
    "C54_input",
    "C54_exact",
    "C54_rails",
    "C54_errors",
    "C54_offset_refuted",
    "C54_phase_refuted"
   ],
   "note": ""
  },
  {
   "property": "C55",
   "status": "proved",
   "theorems": [
    "C55_rows",
    "C55_count",
    "C55_ternary",
    "C55_nearest_refuted",
    "C55_edge_refuted",
    "C55_errors"
   ],
   "note": ""
  },
  {
   "property": "C56",
   "status": "proved",
   "theorems": [
    "C56_rls_minimises",
    "C56_rls_continues"
   ],
   "note": ""
  },
  {
   "property": "C57",
   "status": "proved",
   "theorems": [
    "C57_windows",
    "C57_short",
    "C57_one_window_dropped",
    "C57_square_refuted",
    "C57_pairing",
    "C57_bad_delay"
   ],
   "note": ""
  },
  {
   "property": "C58",
   "status": "proved",
   "theorems": [
    "C58_gradient",
    "C58_descent"
   ],
   "note": ""
  },
  {
   "property": "C59",
   "status": "proved",
   "theorems": [
    "C59_init",
    "C59_rotation",
    "C59_pairs_refuted",
    "C59_observation",
    "C59_downmodulation",
    "C59_control",
    "C59_amplitude",
    "C59_errors",
    "C59_buffer",
    "C59_control_refuted",
    "C59_alias_refuted"
   ],
   "note": ""
  },
  {
   "property": "C60",
   "status": "proved",
   "theorems": [
    "C60_mask",
    "C60_one",
    "C60_total",
    "C60_peak_refuted",
    "C60_dist_refuted"
   ],
   "note": ""
  },
  {
   "property": "C61",
   "status": "proved",
   "theorems": [
    "C61_high",
    "C61_ngspice",
    "C61_delay_refuted",
    "C61_spectre"
   ],
   "note": ""
  },
  {
   "property": "C62",
   "status": "proved",
   "theorems": [
    "C62_raises",
    "C62_row_frequency",
    "C62_superposition_refuted"
   ],
   "note": ""
  },
  {
   "property": "C63",
   "status": "proved",
   "theorems": [
    "C63_multilevel_binary_after_reset",
    "C63_dither_off_after_reset"
   ],
   "note": ""
  },
  {
   "property": "C64",
   "status": "proved",
   "theorems": [
    "C64_dither_delay_raises"
   ],
   "note": ""
  },
  {
   "property": "C65",
   "status": "proved",
   "theorems": [
    "C65_sos",
    "C65_accepts"
   ],
   "note": ""
  },
  {
   "property": "C66",
   "status": "proved",
   "theorems": [
    "C66_euler",
    "C66_exact_refuted"
   ],
   "note": ""
  },
  {
   "property": "C67",
   "status": "proved",
   "theorems": [
    "C67_lstsq_minimises",
    "C67_lstsq_conjugate",
    "C67_complex_fit_refuted"
   ],
   "note": ""
  },
  {
   "property": "C68",
   "status": "proved",
   "theorems": [
    "C68_call_raises",
    "C68_call_square",
    "C68_rls_raises",
    "C68_lms_raises",
    "C68_offset_refuted"
   ],
   "note": ""
  },
  {
   "property": "C69",
   "status": "proved",
   "theorems": [
    "C69_call",
    "C69_rls_raises",
    "C69_lms_raises",
    "C69_get_offset"
   ],
   "note": ""
  },
  {
   "property": "C70",
   "status": "proved",
   "theorems": [
    "C70_iir_recursion"
   ],
   "note": ""
  },
  {
   "property": "C71",
   "status": "proved",
   "theorems": [
    "C71_check",
    "C71_stale_refuted",
    "C71_siblings_refuted"
   ],
   "note": ""
  },
  {
   "property": "C72",
   "status": "proved",
   "theorems": [
    "C72_definitions",
    "C72_order"
   ],
   "note": ""
  },
  {
   "property": "C73",
   "status": "proved",
   "theorems": [
    "C73_snr",
    "C73_invariant",
    "C73_extended",
    "C73_default_refuted"
   ],
   "note": ""
  },
  {
   "property": "C74",
   "status": "proved",
   "theorems": [
    "C74_numpy_coefficients",
    "C74_batch_is_continuous_filter"
   ],
   "note": ""
  },
  {
   "property": "C75",
   "status": "proved",
   "theorems": [
    "C75_mpmath_coefficients",
    "C75_mpmath_late_waveform_refuted",
    "C75_sympy_coefficients",
    "C75_sympy_decaying_waveform_refuted",
    "C75_numpy_midpoint_forward",
    "C75_numpy_midpoint_backward_refuted"
   ],
   "note": ""
  },
  {
   "property": "C76",
   "status": "proved",
   "theorems": [
    "C76_frequency_response",
    "C76_noise_response",
    "C76_signal_response",
    "C76_direct_term_refuted"
   ],
   "note": ""
  },
  {
   "property": "C77",
   "status": "proved",
   "theorems": [
    "C77_transfer_function",
    "C77_general_response",
    "C77_noise_transfer",
    "C77_signal_transfer",
    "C77_one_input",
    "C77_half_at_bandwidth",
    "C77_control_shape",
    "C77_control_without_gamma",
    "C77_control_all_states",
    "C77_control_output_matrix_refuted",
    "C77_general_one_output",
    "C77_general_two_outputs_refuted"
   ],
   "note": ""
  },
  {
   "property": "C78",
   "status": "proved",
   "theorems": [
    "C78_sensitivities_balanced",
    "C78_sensitivities_spectrum",
    "C78_noise_grid",
    "C78_target_snr_refuted",
    "C78_balance_shape",
    "C78_balance_square_refuted",
    "C78_harmonics",
    "C78_harmonics_total_refuted",
    "C78_harmonics_grid_refuted"
   ],
   "note": ""
  },
  {
   "property": "C79",
   "status": "proved",
   "theorems": [
    "C79_batch_estimates_optimal"
   ],
   "note": ""
  },
  {
   "property": "C80",
   "status": "proved",
   "theorems": [
    "C80_accepts",
    "C80_envelope",
    "C80_alignment",
    "C80_poles",
    "C80_scalar_input",
    "C80_control",
    "C80_keeps_control_refuted",
    "C80_zero_carrier_refuted",
    "C80_gains_refuted",
    "C80_direct_path_refuted"
   ],
   "note": ""
  },
  {
   "property": "C81",
   "status": "proved",
   "theorems": [
    "C81_synthesis",
    "C81_enob_refused",
    "C81_unusable",
    "C81_simulable_refuted"
   ],
   "note": ""
  },
  {
   "property": "C82",
   "status": "proved",
   "theorems": [
    "C82_widths",
    "C82_default_widths",
    "C82_dynamics",
    "C82_poles_three",
    "C82_poles_four",
    "C82_resonance_refuted"
   ],
   "note": ""
  },
  {
   "property": "C83",
   "status": "proved",
   "theorems": [
    "C83_nuv_estimates",
    "C83_nuv_start",
    "C83_estimates_are_the_input_refuted"
   ],
   "note": ""
  },
  {
   "property": "C84",
   "status": "proved",
   "theorems": [
    "C84_passes_improve"
   ],
   "note": ""
  },
  {
   "property": "C85",
   "status": "proved",
   "theorems": [
    "C85_carried_over",
    "C85_single_sample_batches",
    "C85_prior_of_the_next_batch_refuted"
   ],
   "note": ""
  },
  {
   "property": "C86",
   "status": "proved",
   "theorems": [
    "C86_arguments",
    "C86_no_iterator",
    "C86_rectangular_outputs",
    "C86_oversampling",
    "C86_end_of_source",
    "C86_samples_suffice_refuted"
   ],
   "note": ""
  },
  {
   "property": "C87",
   "status": "proved",
   "theorems": [
    "C87_frontend",
    "C87_energy",
    "C87_least_energy",
    "C87_decision",
    "C87_arguments",
    "C87_phase_refuted"
   ],
   "note": ""
  },
  {
   "property": "C88",
   "status": "proved",
   "theorems": [
    "C88_inverse",
    "C88_full_turn"
   ],
   "note": ""
  },
  {
   "property": "C89",
   "status": "proved",
   "theorems": [
    "C89_butterworth",
    "C89_half_power",
    "C89_transfer_function"
   ],
   "note": ""
  },
  {
   "property": "C90",
   "status": "proved",
   "theorems": [
    "C90_chebyshev1",
    "C90_ripple",
    "C90_transfer_function"
   ],
   "note": ""
  },
  {
   "property": "C91",
   "status": "proved",
   "theorems": [
    "C91_chebyshev2",
    "C91_stopband",
    "C91_transfer_function"
   ],
   "note": ""
  },
  {
   "property": "C92",
   "status": "proved",
   "theorems": [
    "C92_cauer",
    "C92_iirdesign",
    "C92_gain_sign_refuted"
   ],
   "note": ""
  },
  {
   "property": "C93",
   "status": "proved",
   "theorems": [
    "C93_decision",
    "C93_sign",
    "C93_exists"
   ],
   "note": ""
  },
  {
   "property": "C94",
   "status": "proved",
   "theorems": [
    "C94_delayed",
    "C94_exists"
   ],
   "note": ""
  },
  {
   "property": "C95",
   "status": "proved",
   "theorems": [
    "C95_deterministic",
    "C95_multi_phase",
    "C95_random",
    "C95_shared",
    "C95_timing",
    "C95_timing_all",
    "C95_independent_refuted"
   ],
   "note": ""
  },
  {
   "property": "C96",
   "status": "proved",
   "theorems": [
    "C96_differential",
    "C96_single_refuted"
   ],
   "note": ""
  },
  {
   "property": "C97",
   "status": "proved",
   "theorems": [
    "C97_pair",
    "C97_offset_refuted",
    "C97_phase_refuted",
    "C97_modulator",
    "C97_modulator_refuted"
   ],
   "note": ""
  },
  {
   "property": "C98",
   "status": "proved",
   "theorems": [
    "C98_evaluate",
    "C98_mpmath",
    "C98_symbolic_refuted"
   ],
   "note": ""
  },
  {
   "property": "C99",
   "status": "proved",
   "theorems": [
    "C99_held",
    "C99_rate",
    "C99_drift_refuted",
    "C99_uniform",
    "C99_tick",
    "C99_values",
    "C99_combined"
   ],
   "note": ""
  },
  {
   "property": "C100",
   "status": "proved",
   "theorems": [
    "C100_last",
    "C100_vector",
    "C100_first",
    "C100_first_refuted"
   ],
   "note": ""
  },
  {
   "property": "C101",
   "status": "proved",
   "theorems": [
    "C101_rows",
    "C101_iter_refuted"
   ],
   "note": ""
  },
  {
   "property": "C102",
   "status": "proved",
   "theorems": [
    "C102_opamp",
    "C102_gmc",
    "C102_unique",
    "C102_scale",
    "C102_reproduces"
   ],
   "note": ""
  },
  {
   "property": "C103",
   "status": "proved",
   "theorems": [
    "C103_size",
    "C103_size_errors",
    "C103_once",
    "C103_retry",
    "C103_reparse_refuted",
    "C103_opamp",
    "C103_gmc",
    "C103_reproduces",
    "C103_states"
   ],
   "note": ""
  },
  {
   "property": "C104",
   "status": "proved",
   "theorems": [
    "C104_analytic",
    "C104_unsolvable_refuted",
    "C104_order_refuted",
    "C104_numpy",
    "C104_filters_stable",
    "C104_forgets"
   ],
   "note": ""
  },
  {
   "property": "C105",
   "status": "proved",
   "theorems": [
    "C105_result",
    "C105_drift",
    "C105_terminates",
    "C105_time_limit",
    "C105_solution_kept",
    "C105_far_refuted",
    "C105_choice"
   ],
   "note": ""
  },
  {
   "property": "C106",
   "status": "proved",
   "theorems": [
    "C106_agree",
    "C106_any_accuracy",
    "C106_local",
    "C106_taps"
   ],
   "note": ""
  },
  {
   "property": "C107",
   "status": "proved",
   "theorems": [
    "C107_construct",
    "C107_fir",
    "C107_iir",
    "C107_batch",
    "C107_aligned_refuted",
    "C107_downsample_refuted",
    "C107_samples",
    "C107_again",
    "C107_exhausted",
    "C107_no_iterator",
    "C107_switch_fir",
    "C107_switch_iir",
    "C107_switch_batch",
    "C107_resume_refuted",
    "C107_batch_stopped"
   ],
   "note": ""
  },
  {
   "property": "C108",
   "status": "proved",
   "theorems": [
    "C108_select",
    "C108_tiles",
    "C108_missing",
    "C108_everything_refuted",
    "C108_groups",
    "C108_groups_content",
    "C108_architectures",
    "C108_walden_envelope",
    "C108_schreier_envelope",
    "C108_jitter"
   ],
   "note": ""
  },
  {
   "property": "C109",
   "status": "proved",
   "theorems": [
    "C109_estimate_is_error_difference",
    "C109_conversion_error",
    "C109_same_input"
   ],
   "note": ""
  },
  {
   "property": "C110",
   "status": "proved",
   "theorems": [
    "C110_sinusoids",
    "C110_signal_transfer"
   ],
   "note": ""
  },
  {
   "property": "C111",
   "status": "proved",
   "theorems": [
    "C111_end_to_end"
   ],
   "note": ""
  },
  {
   "property": "C112",
   "status": "proved",
   "theorems": [
    "C112_bins",
    "C112_shape_refuted",
    "C112_inverse",
    "C112_sinusoid",
    "C112_periodic",
    "C112_direction_refuted"
   ],
   "note": ""
  },
  {
   "property": "C113",
   "status": "proved",
   "theorems": [
    "C113_summer",
    "C113_summer_lengths",
    "C113_summer_inactive",
    "C113_summer_refuted",
    "C113_integrator",
    "C113_integrator_initial",
    "C113_unique",
    "C113_offset_refuted"
   ],
   "note": ""
  },
  {
   "property": "C114",
   "status": "proved",
   "theorems": [
    "C114_name",
    "C114_name_refuted",
    "C114_distinct",
    "C114_new",
    "C114_replace",
    "C114_replace_raises",
    "C114_replace_names",
    "C114_replace_short_refuted",
    "C114_letter_refuted",
    "C114_passive"
   ],
   "note": ""
  },
  {
   "property": "C115",
   "status": "proved",
   "theorems": [
    "C115_states_bounded",
    "C115_oversampling",
    "C115_any_levels",
    "C115_full_scale_refuted"
   ],
   "note": ""
  },
  {
   "property": "C116",
   "status": "proved",
   "theorems": [
    "C116_end_to_end"
   ],
   "note": ""
  },
  {
   "property": "C117",
   "status": "proved",
   "theorems": [
    "C117_result",
    "C117_errors",
    "C117_offset_gain",
    "C117_snr_offset_gain",
    "C117_total_power",
    "C117_sinusoids",
    "C117_noiseless",
    "C117_four_bins_refuted",
    "C117_column"
   ],
   "note": ""
  },
  {
   "property": "C118",
   "status": "proved",
   "theorems": [
    "C118_measured_snr"
   ],
   "note": ""
  },
  {
   "property": "C119",
   "status": "proved",
   "theorems": [
    "C119_scale",
    "C119_sinusoids",
    "C119_rms_refuted"
   ],
   "note": ""
  },
  {
   "property": "C120",
   "status": "proved",
   "theorems": [
    "C120_outcome",
    "C120_identity",
    "C120_mean",
    "C120_sinusoids",
    "C120_samples",
    "C120_spacing_refuted",
    "C120_channels"
   ],
   "note": ""
  },
  {
   "property": "C121",
   "status": "proved",
   "theorems": [
    "C121_round_trip",
    "C121_status_ignored",
    "C121_error_page_refuted",
    "C121_broken",
    "C121_pieces",
    "C121_body_refuted"
   ],
   "note": ""
  },
  {
   "property": "C122",
   "status": "proved",
   "theorems": [
    "C122_equations",
    "C122_no_gamma",
    "C122_superposition",
    "C122_functions_refuted"
   ],
   "note": ""
  },
  {
   "property": "C123",
   "status": "proved",
   "theorems": [
    "C123_outcome",
    "C123_samples",
    "C123_few",
    "C123_first",
    "C123_linear",
    "C123_hold",
    "C123_periodic_refuted",
    "C123_continuous_refuted",
    "C123_cosine_refuted"
   ],
   "note": ""
  },
  {
   "property": "C124",
   "status": "proved",
   "theorems": [
    "C124_batch_other_exception",
    "C124_fir_other_exception",
    "C124_iir_other_exception",
    "C124_batch_from_file",
    "C124_fir_from_file",
    "C124_iir_from_file",
    "C124_fir_file_with_limit",
    "C124_batch_from_urls",
    "C124_fir_iir_from_urls",
    "C124_stored_loop_ends_refuted"
   ],
   "note": ""
  },
  {
   "property": "C125",
   "status": "proved",
   "theorems": [
    "C125_summer_init",
    "C125_differential_init",
    "C125_dimensions_refuted",
    "C125_summer_agrees",
    "C125_summer_fits",
    "C125_differential_ngspice",
    "C125_differential_fits",
    "C125_differential_refuted"
   ],
   "note": ""
  },
  {
   "property": "C126",
   "status": "proved",
   "theorems": [
    "C126_fir_downsample",
    "C126_iir_downsample",
    "C126_same_instant_refuted",
    "C126_fir_segment",
    "C126_iir_segment_refuted",
    "C126_short_segment_refuted",
    "C126_complement_fir",
    "C126_complement_iir",
    "C126_complement_batch",
    "C126_offset_refuted"
   ],
   "note": ""
  }
 ]
}