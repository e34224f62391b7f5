{
 "claims": [
  {
   "property": "C01",
   "status": "proved",
   "theorems": [
    "C01_stack_is_bounded_lifo"
   ],
   "note": ""
  },
  {
   "property": "C02",
   "status": "proved",
   "theorems": [
    "C02_deque_is_bounded_deque"
   ],
   "note": ""
  },
  {
   "property": "C03",
   "status": "proved",
   "theorems": [
    "C03_delay_is_exact_delay"
   ],
   "note": ""
  },
  {
   "property": "C04",
   "status": "proved",
   "theorems": [
    "C04_bip_buffer_is_contiguous_window",
    "C04_bip_buffer_peek"
   ],
   "note": ""
  },
  {
   "property": "C05",
   "status": "proved",
   "theorems": [
    "C05_swa_reduces_window"
   ],
   "note": ""
  },
  {
   "property": "C06",
   "status": "proved",
   "theorems": [
    "C06_swa_no_drift",
    "C06_sma4_no_drift"
   ],
   "note": ""
  },
  {
   "property": "C07",
   "status": "proved",
   "theorems": [
    "C07_movext_is_window_extremum",
    "C07_movext_is_window_extremum_fresh_init",
    "C07_movmin_int",
    "C07_movmax_int"
   ],
   "note": ""
  },
  {
   "property": "C08",
   "status": "proved",
   "theorems": [
    "C08_movext_arbitrary_init_refuted",
    "C08_movmax_float_min_refuted",
    "C07_movext_is_window_extremum_fresh_init"
   ],
   "note": "the property as stated is false; the negation is proved by a witness, and the case in which an arbitrary init is harmless is proved"
  },
  {
   "property": "C09",
   "status": "proved",
   "theorems": [
    "C09_sma1_mean_and_abs_dev",
    "C09_sma2_mean",
    "C09_sma3_mean",
    "C09_sma4_mean"
   ],
   "note": ""
  },
  {
   "property": "C10",
   "status": "proved",
   "theorems": [
    "C10_sma2_unsigned_wrapping",
    "C10_sma2_signed_wrapping",
    "C10_sma2_int_exact",
    "C10_sma2_int_difference_overflow_refuted"
   ],
   "note": ""
  },
  {
   "property": "C100",
   "status": "proved",
   "theorems": [
    "C100_ema",
    "C100_ema_cascade",
    "C100_blockdc",
    "C100_biquad",
    "C100_biquad_cascade",
    "C100_calculus",
    "C100_kahan",
    "C100_hilbert_cdc",
    "C100_sma",
    "C100_ema_stays",
    "C100_blockdc_stays",
    "C100_cascade_stays",
    "C100_biquad_stays",
    "C100_overflow_refuted"
   ],
   "note": "The divisor of the moving averages is VALUE(NUM). One NaN (Flocq BinarySingleNaN), round to nearest even; the compiler is assumed to follow IEEE 754 without contraction."
  },
  {
   "property": "C101",
   "status": "proved",
   "theorems": [
    "C101_counts_movext",
    "C101_counts_swa",
    "C101_counts_fft",
    "C101_movext_amortised",
    "C101_movext_call",
    "C101_movext_every_call_constant_refuted",
    "C101_swa",
    "C101_fft",
    "C101_fft_power_of_two"
   ],
   "note": "Counted are comparisons, stack operations and applications of OP, for the FFT the arithmetic of value_type (a complex product 6, a complex sum 2). Constants evaluated at compile time and the table of twiddle factors are not counted."
  },
  {
   "property": "C102",
   "status": "proved",
   "theorems": [
    "C102_kaiser_strictly_falling",
    "C102_window_off_centre",
    "C102_linear_phase_refuted",
    "C102_symmetric"
   ],
   "note": "Exact arithmetic. C102_linear_phase_refuted proves that the desirable claim (linear phase for every OVER) is false of the code."
  },
  {
   "property": "C103",
   "status": "proved",
   "theorems": [
    "C103_i0",
    "C103_sqrt_argument",
    "C103_kaiser",
    "C103_kaiser_float",
    "C103_kaiser_double",
    "C103_converged",
    "C103_iterations_refuted"
   ],
   "note": "Overflow is not modelled in the error bounds; all values stay below 2e9. The iteration counts in the comment (25 for float, 35 for double) are refuted in IEEE arithmetic; the error bound holds for the 34 iterations of the code and for every earlier exit."
  },
  {
   "property": "C104",
   "status": "proved",
   "theorems": [
    "C104_hilbert",
    "C104_hilbert_float"
   ],
   "note": "Overflow is not modelled; the inputs are numbers of the format."
  },
  {
   "property": "C105",
   "status": "proved",
   "theorems": [
    "C105_float",
    "C105_double",
    "C105_float_highpass_refuted",
    "C105_float_lowpass_refuted"
   ],
   "note": "The recursion itself is exact here (its rounding is C81); overflow is not modelled; Q of notch, bandpass and allpass is the value after idecibel."
  },
  {
   "property": "C106",
   "status": "proved",
   "theorems": [
    "C106_angle",
    "C106_sine"
   ],
   "note": "No overflow and no underflow; arg of the C++ library is a parameter with an assumed error."
  },
  {
   "property": "C107",
   "status": "proved",
   "theorems": [
    "C107_unit",
    "C107_alpha",
    "C107_error",
    "C107_positive",
    "C107_filter",
    "C107_float_frozen",
    "C107_float_cutoff_refuted"
   ],
   "note": "Refutation: float EMA with cutoff(1, 48000) is frozen."
  },
  {
   "property": "C108",
   "status": "proved",
   "theorems": [
    "C108_slope"
   ],
   "note": "The intercepts are not covered: they are extrapolated by slope * avgX."
  },
  {
   "property": "C109",
   "status": "proved",
   "theorems": [
    "C109_error",
    "C109_binary64",
    "C109_binary32"
   ],
   "note": "No overflow is assumed. For float INPUT has to be below 2^24."
  },
  {
   "property": "C11",
   "status": "proved",
   "theorems": [
    "C11_kahan_exact",
    "C11_kahan_sum_exact",
    "C11_kahan_same",
    "C11_kahan_float_error"
   ],
   "note": ""
  },
  {
   "property": "C110",
   "status": "proved",
   "theorems": [
    "C110_phase",
    "C110_small_difference_refuted"
   ],
   "note": "The values returned are not compared here, only their number and position. sin in the constructor is any function."
  },
  {
   "property": "C111",
   "status": "proved",
   "theorems": [
    "C111_overflow_spoils",
    "C111_normal_power",
    "C111_first_sample",
    "C111_finite_refuted",
    "C111_complex_overflow_spoils",
    "C111_complex_bad_sample",
    "C111_complex_first_sample",
    "C111_complex_finite_refuted"
   ],
   "note": "Refutation: a tiny first sample makes NLMS useless for ever. One NaN (Flocq BinarySingleNaN), round to nearest even."
  },
  {
   "property": "C112",
   "status": "proved",
   "theorems": [
    "C112_cdc",
    "C112_coefficients",
    "C112_constructed",
    "C112_real_part"
   ],
   "note": "C112_cdc holds for arbitrary coefficients and roundings; C112_constructed adds the rounding errors of the constructor. Overflow is not modelled."
  },
  {
   "property": "C12",
   "status": "proved",
   "theorems": [
    "C12_quick_sort_sorts"
   ],
   "note": ""
  },
  {
   "property": "C13",
   "status": "proved",
   "theorems": [
    "C13_quick_select_kth_smallest",
    "C13_kth_smallest_is_sorted_kth",
    "C13_quick_select_asserts"
   ],
   "note": ""
  },
  {
   "property": "C14",
   "status": "proved",
   "theorems": [
    "C14_sort_and_select_safe_for_any_comparison"
   ],
   "note": ""
  },
  {
   "property": "C15",
   "status": "proved",
   "theorems": [
    "C15_median_of_five",
    "C15_partition_three_way_and_balanced"
   ],
   "note": ""
  },
  {
   "property": "C16",
   "status": "proved",
   "theorems": [
    "C16_header_roundtrip",
    "C16_wide_block_align_refuted"
   ],
   "note": "holds for frames of at most 32767 bytes; beyond that the block align field is misread (refuted by example)"
  },
  {
   "property": "C17",
   "status": "proved",
   "theorems": [
    "C17_codes_survive",
    "C17_codes_survive_single",
    "C17_quantisation",
    "C17_float_bits_survive",
    "C17_data_survives",
    "C17_write_then_read"
   ],
   "note": ""
  },
  {
   "property": "C18",
   "status": "proved",
   "theorems": [
    "C18_every_crash_point_readable",
    "C18_writes_are_prefix"
   ],
   "note": ""
  },
  {
   "property": "C19",
   "status": "proved",
   "theorems": [
    "C19_end_of_file_observable",
    "C19_exact_reads_good",
    "C19_failure_is_permanent"
   ],
   "note": ""
  },
  {
   "property": "C20",
   "status": "proved",
   "theorems": [
    "C20_terminates",
    "C20_undefined_iff",
    "C20_accepts_iff",
    "C20_accepted_good",
    "C20_accepted_is_complete",
    "C20_open_defined",
    "C20_zero_channels_refuted",
    "C20_short_file_refuted",
    "C20_rejection_invisible_refuted"
   ],
   "note": "exact characterisation of accepted and undefined files; the stronger wish (never undefined, rejection visible through good()) is false and refuted by the last three"
  },
  {
   "property": "C21",
   "status": "proved",
   "theorems": [
    "C21_read_cells",
    "C21_write_emits",
    "C21_silence_is_zero",
    "C21_skip_is_discard",
    "C17_write_then_read"
   ],
   "note": ""
  },
  {
   "property": "C22",
   "status": "proved",
   "theorems": [
    "C22_header_roundtrip",
    "C22_negative_refuted"
   ],
   "note": "non-negative values; a negative dimension is not read back (refuted by example)"
  },
  {
   "property": "C23",
   "status": "proved",
   "theorems": [
    "C23_codes_survive",
    "C23_codes_survive_inexact",
    "C23_srgb_monotone",
    "C23_srgb_clamps",
    "C23_srgb_range",
    "C23_image_roundtrip",
    "C23_read_cells",
    "C23_large_maxval_monotone_refuted"
   ],
   "note": "curve in real arithmetic with a relative error margin for the decoded value; maxval up to 255 as in the file format the code supports"
  },
  {
   "property": "C24",
   "status": "proved",
   "theorems": [
    "C24_terminates",
    "C24_undefined_iff",
    "C24_accepts_exactly_headers",
    "C24_rejects_leave_fields_unset",
    "C24_comment_invisible",
    "C24_rejection_invisible_refuted",
    "C24_comment_after_blank_line_refuted",
    "C24_overflow_refuted"
   ],
   "note": "exact characterisation; the refutations show that a rejection is not visible through good(), that a comment after a blank line is not recognised, and that overflow occurs"
  },
  {
   "property": "C25",
   "status": "proved",
   "theorems": [
    "C25_complex_field",
    "C25_division_inverts_multiplication",
    "C25_norm_and_abs",
    "C25_compound_assignments",
    "C25_equality",
    "C25_polar"
   ],
   "note": "exact real arithmetic; compound assignments and comparison for any arithmetic"
  },
  {
   "property": "C26",
   "status": "proved",
   "theorems": [
    "C26_fft_is_dft"
   ],
   "note": "exact real arithmetic and exact sines and cosines"
  },
  {
   "property": "C27",
   "status": "proved",
   "theorems": [
    "C27_roundtrip",
    "C27_parseval"
   ],
   "note": "exact real arithmetic and exact sines and cosines"
  },
  {
   "property": "C28",
   "status": "proved",
   "theorems": [
    "C28_fft_stays_inside"
   ],
   "note": "any arithmetic"
  },
  {
   "property": "C29",
   "status": "proved",
   "theorems": [
    "C29_split",
    "C29_instantiates_iff_smooth"
   ],
   "note": "all positive sizes; a missing template specialisation is modelled as Undefined"
  },
  {
   "property": "C30",
   "status": "proved",
   "theorems": [
    "C30_real_to_half_complex"
   ],
   "note": "exact real arithmetic and exact sines and cosines"
  },
  {
   "property": "C31",
   "status": "proved",
   "theorems": [
    "C31_interpolates",
    "C31_polynomial_unique",
    "C31_real_and_samples"
   ],
   "note": "exact real arithmetic and exact sines and cosines; every call history"
  },
  {
   "property": "C32",
   "status": "proved",
   "theorems": [
    "C32_odd_refuted",
    "C32_small_ratio_refuted"
   ],
   "note": "the property is false in the code; counterexamples proved"
  },
  {
   "property": "C33",
   "status": "proved",
   "theorems": [
    "C33_accuracy",
    "C33_reduction_exact"
   ],
   "note": "exact real arithmetic; the reduction holds in any arithmetic"
  },
  {
   "property": "C34",
   "status": "proved",
   "theorems": [
    "C34_even_odd",
    "C34_even_at_ties_refuted",
    "C34_pythagoras",
    "C34_quarters"
   ],
   "note": "symmetry holds away from the odd eighths of a turn; the unrestricted symmetry is refuted"
  },
  {
   "property": "C35",
   "status": "proved",
   "theorems": [
    "C35_atan",
    "C35_atan2",
    "C35_sign_and_odd",
    "C35_signed_zero"
   ],
   "note": "exact real arithmetic; the sign bit of y is a separate argument"
  },
  {
   "property": "C36",
   "status": "proved",
   "theorems": [
    "C36_underflow_refuted"
   ],
   "note": "the property is false in the code; binary32 counterexample proved"
  },
  {
   "property": "C37",
   "status": "proved",
   "theorems": [
    "C37_safe",
    "C37_full8",
    "C37_full16",
    "C37_full_exact",
    "C37_any_rounding8",
    "C37_any_rounding16"
   ],
   "note": "Stronger than stated: without modulo for rounding to nearest of vectors within 2^-18 of the exact ones, and modulo a turn for every integer vector within 1 of the exact one in each component, whatever the rounding. Shift of a negative int doubles it."
  },
  {
   "property": "C38",
   "status": "proved",
   "theorems": [
    "C38_ldexp",
    "C38_ldexp_undefined"
   ],
   "note": "exact real arithmetic"
  },
  {
   "property": "C39",
   "status": "proved",
   "theorems": [
    "C39_exp10",
    "C39_idecibel",
    "C39_exp10_range"
   ],
   "note": "exact real arithmetic, |x| <= 76.9; beyond 77.1 undefined behaviour is proved"
  },
  {
   "property": "C40",
   "status": "proved",
   "theorems": [
    "C40_shape",
    "C40_accuracy"
   ],
   "note": "exact real arithmetic"
  },
  {
   "property": "C41",
   "status": "proved",
   "theorems": [
    "C41_constants"
   ],
   "note": "the decimal literals; their conversion to T is a rounding"
  },
  {
   "property": "C42",
   "status": "proved",
   "theorems": [
    "C42_equation",
    "C42_difference_equation",
    "C42_linear",
    "C42_time_invariant",
    "C42_cascade",
    "C42_components",
    "C42_initial"
   ],
   "note": "equation, cascade and components in any arithmetic; linearity in exact arithmetic"
  },
  {
   "property": "C43",
   "status": "proved",
   "theorems": [
    "C43_lowpass",
    "C43_highpass",
    "C43_half_power",
    "C43_notch",
    "C43_bandpass",
    "C43_allpass",
    "C43_quality"
   ],
   "note": "exact arithmetic and trigonometry; gains stated as the eventual answer to complex exponentials from every state"
  },
  {
   "property": "C44",
   "status": "proved",
   "theorems": [
    "C44_poles",
    "C44_unit_circle",
    "C44_bounded",
    "C44_cascade_bounded",
    "C44_constant"
   ],
   "note": "exact arithmetic; poles also for the values UnitCircle computes"
  },
  {
   "property": "C45",
   "status": "proved",
   "theorems": [
    "C45_constant",
    "C45_gains",
    "C45_bounded",
    "C45_equation"
   ],
   "note": "exact arithmetic; the equation in any arithmetic"
  },
  {
   "property": "C46",
   "status": "proved",
   "theorems": [
    "C46_between",
    "C46_convex",
    "C46_closed_form",
    "C46_cascade",
    "C46_constant"
   ],
   "note": "exact arithmetic; the cascade decomposition in any arithmetic"
  },
  {
   "property": "C47",
   "status": "proved",
   "theorems": [
    "C47_alpha",
    "C47_half_power",
    "C47_gain",
    "C47_factor",
    "C47_factor_1"
   ],
   "note": "exact arithmetic and trigonometry"
  },
  {
   "property": "C48",
   "status": "proved",
   "theorems": [
    "C48_sum",
    "C48_difference",
    "C48_inverse",
    "C48_unsigned"
   ],
   "note": "any group; unsigned integers of any width"
  },
  {
   "property": "C49",
   "status": "proved",
   "theorems": [
    "C49_rotation",
    "C49_omega",
    "C49_freq",
    "C49_no_drift"
   ],
   "note": "exact arithmetic, and a drift bound in rounded arithmetic"
  },
  {
   "property": "C50",
   "status": "proved",
   "theorems": [
    "C50_any",
    "C50_cdc",
    "C50_safe"
   ],
   "note": "exact arithmetic, constants and trigonometry; memory safety in any arithmetic"
  },
  {
   "property": "C51",
   "status": "proved",
   "theorems": [
    "C51_hilbert",
    "C51_safe"
   ],
   "note": "exact arithmetic and constants; memory safety in any arithmetic"
  },
  {
   "property": "C52",
   "status": "proved",
   "theorems": [
    "C52_frequency",
    "C52_sine",
    "C52_tone",
    "C52_bounded"
   ],
   "note": "exact arithmetic, constants and argument function"
  },
  {
   "property": "C53",
   "status": "proved",
   "theorems": [
    "C53_envelope",
    "C53_output",
    "C53_constant",
    "C53_index",
    "C53_peak"
   ],
   "note": "exact arithmetic"
  },
  {
   "property": "C54",
   "status": "proved",
   "theorems": [
    "C54_bounded",
    "C54_iq",
    "C54_iq_independent"
   ],
   "note": "exact arithmetic"
  },
  {
   "property": "C55",
   "status": "proved",
   "theorems": [
    "C55_table",
    "C55_product",
    "C55_normalize",
    "C55_constructor"
   ],
   "note": "tables in any arithmetic; normalisation in exact arithmetic, real coefficients"
  },
  {
   "property": "C56",
   "status": "proved",
   "theorems": [
    "C56_rect",
    "C56_hann",
    "C56_hann_ends",
    "C56_hamming",
    "C56_lanczos",
    "C56_blackman_exact",
    "C56_blackman",
    "C56_gauss",
    "C56_kaiser",
    "C56_kaiser_bessel",
    "C56_kaiser_domain",
    "C56_unit_circle",
    "C56_rect_outside",
    "C56_kaiser_overflow"
   ],
   "note": "exact arithmetic and trigonometry; Blackman(a) for 0 <= a <= 1/4, for larger a the window has negative values (example)"
  },
  {
   "property": "C57",
   "status": "proved",
   "theorems": [
    "C57_ratio",
    "C57_formula",
    "C57_unit_circle"
   ],
   "note": "exact constants and trigonometry; the accuracy with the library's own UnitCircle is a separate theorem"
  },
  {
   "property": "C58",
   "status": "proved",
   "theorems": [
    "C58_symmetric",
    "C58_symmetric2",
    "C58_hilbert",
    "C58_complementary"
   ],
   "note": "exact constants and trigonometry"
  },
  {
   "property": "C59",
   "status": "proved",
   "theorems": [
    "C59_minimises",
    "C59_collinear",
    "C59_xint",
    "C59_grid"
   ],
   "note": "exact arithmetic"
  },
  {
   "property": "C60",
   "status": "proved",
   "theorems": [
    "C60_median",
    "C60_exact_slope",
    "C60_breakdown",
    "C60_safe"
   ],
   "note": "exact arithmetic; safety for any arithmetic"
  },
  {
   "property": "C61",
   "status": "proved",
   "theorems": [
    "C61_medians",
    "C61_breakdown"
   ],
   "note": "exact arithmetic; the proved condition 2m > LEN+1 is weaker than more than LEN/2+1 points"
  },
  {
   "property": "C62",
   "status": "proved",
   "theorems": [
    "C62_safe_without_nan",
    "C62_refuted"
   ],
   "note": "holds for all data without NaN abscissas; the general claim is refuted: a NaN abscissa in a full-size data set overruns inner_"
  },
  {
   "property": "C63",
   "status": "proved",
   "theorems": [
    "C63_natural",
    "C63_natural_x",
    "C63_knots",
    "C63_linear",
    "C63_complex",
    "C63_safe"
   ],
   "note": "Exact arithmetic for the curve; array safety for any arithmetic. KNOTS = 2 included. Values x whose knot index does not fit int are undefined behaviour (C63_range)."
  },
  {
   "property": "C64",
   "status": "proved",
   "theorems": [
    "C64_hermite",
    "C64_hermite_linear",
    "C64_uniform",
    "C64_uniform_x",
    "C64_uniform_linear",
    "C64_complex",
    "C64_safe"
   ],
   "note": "n = 2 reads out of bounds (C64_two_points_refuted). Exact arithmetic for the curve; array safety for any arithmetic."
  },
  {
   "property": "C65",
   "status": "proved",
   "theorems": [
    "C65_values",
    "C65_once",
    "C65_safe",
    "C65_identity"
   ],
   "note": "Positions i*rate/(rate+diff) beyond the range of int are undefined behaviour (C65_overflow_refuted). input and output are different arrays. Values in exact arithmetic; buffer safety in any arithmetic."
  },
  {
   "property": "C66",
   "status": "proved",
   "theorems": [
    "C66_stream",
    "C66_rate",
    "C66_diverges"
   ],
   "note": "Exact arithmetic. diff may change from call to call."
  },
  {
   "property": "C67",
   "status": "proved",
   "theorems": [
    "C67_call",
    "C67_distance",
    "C67_history"
   ],
   "note": "exact arithmetic"
  },
  {
   "property": "C68",
   "status": "proved",
   "theorems": [
    "C68_call",
    "C68_distance",
    "C68_history"
   ],
   "note": "exact arithmetic"
  },
  {
   "property": "C69",
   "status": "proved",
   "theorems": [
    "C69_schmitt",
    "C69_inside"
   ],
   "note": "any value type and comparison"
  },
  {
   "property": "C70",
   "status": "proved",
   "theorems": [
    "C70_edges",
    "C70_alternate"
   ],
   "note": ""
  },
  {
   "property": "C71",
   "status": "proved",
   "theorems": [
    "C71_clamp",
    "C71_lerp",
    "C71_signum",
    "C71_sinc",
    "C71_delta",
    "C71_normal_pdf"
   ],
   "note": "exact arithmetic and constants"
  },
  {
   "property": "C72",
   "status": "proved",
   "theorems": [
    "C72_end_of_image_observable"
   ],
   "note": ""
  },
  {
   "property": "C73",
   "status": "proved",
   "theorems": [
    "C73_butterworth",
    "C73_tangent_form",
    "C73_half_power"
   ],
   "note": "exact arithmetic and trigonometry"
  },
  {
   "property": "C74",
   "status": "proved",
   "theorems": [
    "C74_bound16",
    "C74_bound8"
   ],
   "note": "Short vectors are far off (C74_short_refuted) and atan2(0,0) is not 0 (C74_zero_refuted)."
  },
  {
   "property": "C75",
   "status": "proved",
   "theorems": [
    "C75_rounded_accuracy",
    "C75_binary64",
    "C75_binary32"
   ],
   "note": "Overflow is not modelled (no value exceeds 2*pi*2^31)."
  },
  {
   "property": "C76",
   "status": "proved",
   "theorems": [
    "C76_rounding_error",
    "C76_binary64",
    "C76_binary32"
   ],
   "note": "Overflow to infinity is not modelled; underflow is (absolute error e). The bound is relative to the largest possible modulus BINS*X of a result, not to the result itself."
  },
  {
   "property": "C77",
   "status": "proved",
   "theorems": [
    "C77_phase_error",
    "C77_omega"
   ],
   "note": "Overflow not modelled. 0<=u<=1/100, eta<=1/20."
  },
  {
   "property": "C78",
   "status": "proved",
   "theorems": [
    "C78_sma4_error",
    "C78_sma1_error",
    "C78_sma2_error",
    "C78_sma2_no_drift_refuted",
    "C78_sma3_no_drift_refuted"
   ],
   "note": "Inputs finite and without overflow; the divisor NUM is taken as exact. The refutations use IEEE binary64 (primitive floats)."
  },
  {
   "property": "C79",
   "status": "proved",
   "theorems": [
    "C79_convolution",
    "C79_linear_convolution",
    "C79_shift"
   ],
   "note": "Exact arithmetic."
  },
  {
   "property": "C80",
   "status": "proved",
   "theorems": [
    "C80_minimal_curvature",
    "C80_unique"
   ],
   "note": "Exact arithmetic; competing functions need derivatives on both sides of the end knots."
  },
  {
   "property": "C81",
   "status": "proved",
   "theorems": [
    "C81_biquad",
    "C81_cascade",
    "C81_ema",
    "C81_blockdc",
    "C81_integrator_stops_refuted"
   ],
   "note": "The coefficients are the same in both computations (their own rounding is not compared). Overflow not modelled; underflow is (absolute error e)."
  },
  {
   "property": "C82",
   "status": "proved",
   "theorems": [
    "C82_quadrature",
    "C82_cdc_is_hilbert",
    "C82_33_taps"
   ],
   "note": "Exact arithmetic and constants; 16*TAPS fits int."
  },
  {
   "property": "C83",
   "status": "proved",
   "theorems": [
    "C83_product",
    "C83_quotient",
    "C83_abs",
    "C83_componentwise_refuted",
    "C83_range_refuted"
   ],
   "note": "u<=1/100; the quotient and abs bounds assume no underflow (e=0) and no overflow; the refutations use IEEE binary64 (primitive floats)."
  },
  {
   "property": "C84",
   "status": "proved",
   "theorems": [
    "C84_ema_response",
    "C84_cascade_response",
    "C84_half_power",
    "C84_half_at_n_refuted",
    "C84_wrap_refuted"
   ],
   "note": "Exact arithmetic and trigonometry; nearbyint rounds to nearest even."
  },
  {
   "property": "C85",
   "status": "proved",
   "theorems": [
    "C85_fresh_ema",
    "C85_fresh_ema_complex",
    "C85_fresh_biquad",
    "C85_fresh_biquad_complex",
    "C85_infinity_refuted",
    "C85_fresh_blockdc",
    "C85_fresh_phasor",
    "C85_setters",
    "C85_fresh_kahan",
    "C85_fresh_amd",
    "C85_missing_pnm",
    "C85_missing_wav_refuted"
   ],
   "note": "BlockDC, Phasor and AMD1 in exact arithmetic."
  },
  {
   "property": "C86",
   "status": "proved",
   "theorems": [
    "C86_theil_sen_order",
    "C86_repeated_median_order",
    "C86_ieee_symmetric",
    "C86_two_points_refuted",
    "C86_theil_sen_affine",
    "C86_repeated_median_affine",
    "C86_shift_refuted",
    "C86_flip_refuted"
   ],
   "note": "Order independence for LEN_MAX >= 3 in Theil-Sen; the affine parts in exact arithmetic; refutations in binary64 with exactly representable data."
  },
  {
   "property": "C87",
   "status": "proved",
   "theorems": [
    "C87_rounding_error",
    "C87_round_trip",
    "C87_binary64",
    "C87_binary32",
    "C87_single_bin_refuted"
   ],
   "note": "No overflow in the rounding model; gradual underflow included."
  },
  {
   "property": "C88",
   "status": "proved",
   "theorems": [
    "C88_ema_rests",
    "C88_cascade_rests",
    "C88_rest_point",
    "C88_never_zero",
    "C88_reaches_zero",
    "C88_blockdc",
    "C88_samples",
    "C88_rest_at_input_refuted",
    "C88_constant_removed_refuted",
    "C88_float_constant_stays",
    "C88_samples_bound_refuted",
    "C88_small_alpha_refuted"
   ],
   "note": "Format without overflow; zero is unsigned in the rounding model, the refutations use machine numbers."
  },
  {
   "property": "C89",
   "status": "proved",
   "theorems": [
    "C89_nclms_converges",
    "C89_nlms_converges",
    "C89_error_energy",
    "C89_unexcited_refuted",
    "C89_mu_two_refuted"
   ],
   "note": "Exact arithmetic."
  },
  {
   "property": "C90",
   "status": "proved",
   "theorems": [
    "C90_decibel",
    "C90_decibel_binary64",
    "C90_decibel_binary32",
    "C90_relative_refuted",
    "C90_exp10",
    "C90_exp10_binary64",
    "C90_exp10_binary32",
    "C90_idecibel",
    "C90_idecibel_binary64",
    "C90_idecibel_binary32"
   ],
   "note": "Rounding model without overflow; exp10 assumes that integers, powers of two and 24-bit numbers are representable (proved for both formats)."
  },
  {
   "property": "C91",
   "status": "proved",
   "theorems": [
    "C91_atan",
    "C91_atan2",
    "C91_atan2_binary64",
    "C91_atan2_binary32"
   ],
   "note": "Rounding model without overflow."
  },
  {
   "property": "C92",
   "status": "proved",
   "theorems": [
    "C92_deque_test",
    "C92_deque_main",
    "C92_movext_test",
    "C92_quick_sort_test",
    "C92_quick_select_test",
    "C92_kahan_test_double",
    "C92_cordic_test",
    "C92_atan2_test_float",
    "C92_atan2_test_double",
    "C92_atan2_test_checks",
    "C92_cordic_test_checks",
    "C92_all_checked"
   ],
   "note": "kahan_test<float> and unit_circle_test are not covered (the proved bound of UnitCircle, C75, is larger than the tolerance of the latter). The floating-point arithmetic of cordic_test and atan2_test is the rounding model without overflow. The random generator is an arbitrary sequence of its results."
  },
  {
   "property": "C93",
   "status": "proved",
   "theorems": [
    "C93_constants",
    "C93_conversions",
    "C93_unit_circle",
    "C93_atan2",
    "C93_decibel",
    "C93_cascade_factor",
    "C93_windows",
    "C93_cordic_digits",
    "C93_cordic_table"
   ],
   "note": "long double is the x87 format (64 bits of precision). FLT_EVAL_METHOD is 0: constants are of their type."
  },
  {
   "property": "C94",
   "status": "proved",
   "theorems": [
    "C94_unit_circle",
    "C94_unit_circle_binary64",
    "C94_atan2_binary64",
    "C94_atan2_binary32",
    "C94_atan2_finite",
    "C94_atan2_minus_zero",
    "C94_atan",
    "C94_atan2_infinite_refuted"
   ],
   "note": "IEEE arithmetic is that of Flocq (BinarySingleNaN), round to nearest even."
  },
  {
   "property": "C95",
   "status": "proved",
   "theorems": [
    "C95_fft_binary64",
    "C95_fft_binary32"
   ],
   "note": "Proved by parametricity of the FFT model in its number type, once with the relation \"finite implies equal to the rounded value\" and once with magnitude bounds."
  },
  {
   "property": "C96",
   "status": "proved",
   "theorems": [
    "C96_memory_safe",
    "C96_rounding_error",
    "C96_rhct_binary64",
    "C96_rhct_binary32"
   ],
   "note": "The structural lemma rhct_gen holds in every arithmetic; the same parametricity as in C95 is used for the IEEE formats."
  },
  {
   "property": "C97",
   "status": "proved",
   "theorems": [
    "C97_natural",
    "C97_converges",
    "C97_hermite",
    "C97_uniform"
   ],
   "note": "Exact real arithmetic. Uses the characterisations C63 and C64; the second derivative of the natural spline is bounded by 3 B through the diagonally dominant system."
  },
  {
   "property": "C98",
   "status": "proved",
   "theorems": [
    "C98_counts_quick_sort",
    "C98_counts_quick_select",
    "C98_sort",
    "C98_select",
    "C98_sort_worst",
    "C98_select_worst",
    "C98_median",
    "C98_partition"
   ],
   "note": "Model/QuickCost.v is Model/Quick.v with a counter; C98_counts_* shows that dropping the counter gives it back. The worst case is built backwards, partition by partition."
  },
  {
   "property": "C99",
   "status": "proved",
   "theorems": [
    "C99_movmin_without_nan",
    "C99_movmax_without_nan",
    "C99_limits",
    "C99_movmin_after_nan_refuted",
    "C99_movmax_after_nan_refuted",
    "C99_movext_any_comparison",
    "C99_ema",
    "C99_ema_cascade",
    "C99_blockdc",
    "C99_biquad",
    "C99_biquad_cascade",
    "C99_integrator",
    "C99_kahan",
    "C99_normalize_sine",
    "C99_sma2",
    "C99_sma3",
    "C99_nlms",
    "C99_am_demodulator",
    "C99_schmitt_trigger",
    "C99_differentiator_recovers",
    "C99_fm_demodulators_recover",
    "C99_hilbert_recovers",
    "C99_cdc_recovers",
    "C99_sma1_recovers"
   ],
   "note": "movext.hh with NaN is a defect of the code: NaN != NaN, so the dispenser is never emptied again. SMA4 recovers by C06. The compiler is assumed to follow IEEE 754 (no -ffast-math)."
  }
 ]
}