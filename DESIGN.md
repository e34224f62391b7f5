# Formal model of aicodix/dsp in Rocq (Coq 8.16.1)

## 1. Approach

* The sources in `/repo` are header-only C++ templates.  Each class / function template is modelled by a computable
  Gallina definition, function by function, in `rocq/theories/Model/*.v`.  Every definition carries a comment with the
  file and lines it models and any simplification made.
* `rocq/theories/Spec/*.v` holds small independent specifications (sliding window of a history, DFT sum, convolution,
  abstract list machines, order statistics ...).  They never mention model helpers.
* `rocq/theories/Proofs/*.v` holds lemmas, `rocq/theories/Props/*.v` the property theorems with short proofs, their
  concrete cases (`Example`) and `Print Assumptions`.
* `properties.jsonl` is the list of properties, `MANIFEST.json` says which theorems prove each, `seeded/LOG.jsonl` logs
  the deliberate bugs put into copies of the model and which theorems noticed.
* A name ending in `_refuted` is a theorem that the natural-language expectation is *false* for the code, by a concrete
  counterexample; a name ending in `_partial` would be a theorem weaker than its property.  There are none of the latter.

### Semantic conventions

* **Undefined behaviour is an outcome.**  `outcome A = Ok a | AssertFail | Undefined | NoFuel`.  Reading or writing outside
  an array, reading an uninitialised cell, signed overflow where the code can reach it, division of ints by zero and
  over-long shifts yield `Undefined`; a failing `assert` yields `AssertFail`.  `NoFuel` is "not finished within the fuel
  of the model" for loops and recursions without structural bound; theorems state `= Ok ...`, so termination is part of them.
* **Arrays** are lists accessed through bounds-checked `get`/`set` with `Z` indices (the C++ `int`).  Arrays whose cells are
  not initialised by the constructor hold `option` cells (`geti`), or have arbitrary initial contents over which the theorem
  quantifies (robust line estimators).
* **Ints** are `Z`.  Where the code can overflow an `int` the operation goes through `ichk` (`Undefined` on overflow) or the
  theorem has the range as hypothesis.  `int` is 32 bit two's complement, bytes are 8 bit.
* **Numbers.**  `TYPE` is a template parameter.  Container code is modelled for an arbitrary type.  Numeric code is a
  function of a record `num T` of operations (`Model/Num.v`), used with
  `Rn` (exact real arithmetic),
  `Fn rnd` (every operation, literal and int conversion exact and then rounded by `rnd`; 0, 1, negation, absolute value and
  comparisons exact; no overflow, underflow through an absolute error term or Flocq's FLT format),
  `Bn prec emax` (`Model/NumIeee.v`: Flocq's IEEE binary formats with infinities, NaN and signed zeros, for all numbers of the format),
  and `Dn` (IEEE binary64 as Coq primitive floats, including NaN and infinities, for concrete cases).
  Group-like code (moving sums, Kahan) takes its operations as parameters, so it also covers wrapping machine integers.
* **Sample-by-sample objects** are step functions; `run` feeds a list, `state_at`/`out` (total) and `ostate_at`/`oout`
  (may fail) feed an infinite signal.  Theorems quantify over all histories.
* `-ffast-math` reassociation, contraction to fused multiply-add, the compiler and the machine are outside of the model.

## 2. Trusted base

1. Coq's kernel, including `vm_compute`, primitive 63-bit integers and primitive floats.
2. The axioms listed by `Print Assumptions` beneath each theorem; section 5 lists them per theorem.  All come from Coq's
   standard library: the construction of the real numbers (`ClassicalDedekindReals.sig_forall_dec`,
   `ClassicalDedekindReals.sig_not_dec`), `functional_extensionality_dep`, `Classical_Prop.classic`, and where the Interval
   tactic, primitive-integer scans or primitive floats are used the standard library's specification axioms of those
   primitives (`Uint63.*_spec`, `FloatAxioms.*_spec` and the primitive operations themselves).  No axiom of our own, no
   `Admitted`, no kernel check switched off.  Flocq, Coquelicot and Interval are used as libraries; they add no axioms.
3. The reading of the C++ source documented in the model comments and below.

## 3. What is modelled, header by header

Every header of `/repo` is modelled; `/repo/tests` (the test programs) is modelled except `unit_circle_test.cc`, the instance `kahan_test<float>` and the printing to stderr.

| header | model | not modelled / simplified |
|---|---|---|
| stack.hh, deque.hh | Stack.v, Deque.v | all operations; cells uninitialised until written |
| delay.hh, bip_buffer.hh | Delay.v, BipBuffer.v | complete |
| swa.hh, movext.hh | Swa.v, MovExt.v; with step counters StreamCost.v | arbitrary TYPE and OP / comparison |
| kahan.hh | Kahan.v | `kahan_sum` on a list instead of an iterator range |
| sma.hh | Sma.v | arbitrary operations; divisor `VALUE(NUM)` as a function, in the rounding theorems NUM itself (representable) |
| quick.hh | Quick.v; with comparison counter QuickCost.v | `>` is `<` swapped; index arithmetic stays in [0,n]; `quick_select` does not check k and theorems require 0<=k<n |
| wav.hh, pcm.hh | Wav.v, Stream.v | virtual dispatch; `-1 << n` on EOF in `readLE` evaluated as on two's complement machines (undefined in strict C++17); NaN samples (float to int conversion undefined) excluded by modelling samples as reals |
| netpbm.hh, pel.hh | Netpbm.v, Stream.v | maxval above 255 is written like the code does (one byte); `pow`, `nearbyint` are the mathematical functions |
| complex.hh | Complex.v | the functions `atan2`, `cos`, `sin` found by name lookup are parameters |
| fft.hh | Fft.v; with operation counter FftCost.v | sizes without supported radix (a C++ compile error) are `Undefined`; tables of the odd kernels transcribed by a script |
| fdzp.hh | Fdzp.v | complete |
| unit_circle.hh | UnitCircle.v | `8*n` must be an int; `uc_trig` reads an undefined value as 0, which theorems exclude |
| atan2.hh | Atan2.v | sign bit of a zero argument as a separate boolean |
| cordic.hh | Cordic.v | left shift of a negative int doubles it, right shift is arithmetic, conversion to TYPE wraps; the table is the exact real rounded (no intermediate long double rounding); the rounding of the input vector is arbitrary in the `any_rounding` theorems |
| exp.hh, decibel.hh, const.hh | Exp.v, Const.v | `1 << 31` is INT_MIN; the literals are real numbers rounded once to the type (C93: the same as the two conversions of C++, Literals.v) |
| biquad.hh, ema.hh, blockdc.hh, calculus.hh | Biquad.v, Ema.v | trigonometry is a parameter (exact or UnitCircle); `EMACascade::cutoff` as written, so that the pre-warped ratio may exceed its range |
| phasor.hh, normalize.hh, amd.hh, fmd.hh | Phasor.v, Normalize.v, Demod.v | `std::arg`/`atan2` exact in the real instances |
| cdc.hh, hilbert.hh | Cdc.v | TAPS is an int |
| coeffs.hh, window.hh, filter.hh | Coeffs.v, WinFun.v, FirFun.v | window of length 1 divides by zero in the code; the theorems need N>1 there; Kaiser's Bessel loop with fuel |
| regression.hh, theil_sen.hh, repeated_median.hh | Regression.v, RobustLine.v | member arrays have arbitrary initial contents |
| spline.hh | Spline.v | coefficient arrays as an array of records; `std::lower_bound` as the usual binary search; conversion to int truncates, `Undefined` out of range |
| resampler.hh | Resampler.v | TYPE=double exact; input and output arrays not aliased; fuel for the inner loop of Resampler2 (shown sufficient) |
| lms.hh | Lms.v | complete, exact arithmetic |
| trigger.hh, utils.hh | Trigger.v, Utils.v | complete |
| tests/*.cc | TestPrograms.v | the random generator is an arbitrary sequence; the containers of the standard library are lists; rounding model for cordic_test and atan2_test, binary64 for kahan_test |

Streams (`Model/Stream.v`) model the standard library: an input stream is the bytes of the file, a position and the two state
bits used; a failed open is a stream with failbit.  An output stream is the sequence of (position, byte) puts in program order;
writing never fails, and a crash is a prefix of that sequence (byte-granular, in order).  A negative seek fails, a seek past the
end succeeds and the next `get` meets the end of file.

## 4. Properties and how they are proved

| id | statement about | proof idea |
|----|----------|-----------|
| C01, C02 | Stack, Deque | abstraction to a list, simulation per operation, induction over operation sequences |
| C03, C04 | Delay, BipBuffer | ring-buffer invariant = window of the history |
| C05, C06 | SWA | heap invariant `tree[p]=op(tree[2p],tree[2p+1])`; frontier argument; for arbitrary op the state is a function of window and phase |
| C07, C08 | MovExt | two-stack queue invariant; refutations for arbitrary initial values |
| C09, C10, C78 | SMA1-4 | window sums over any group; checked ints; Flocq rounding of the tree, of the array sum and of the running sum; drift refutations by primitive floats |
| C11 | Kahan | exact: low=0; floating point: error-free transformation and error bound |
| C12-C15 | quick.hh | loop invariants, permutation as multiset, induction on range size |
| C16-C21 | wav.hh | byte arithmetic, induction over samples; crash = prefix of the byte-write trace; C20 characterises exactly the accepted and the undefined byte sequences |
| C22-C24, C72 | netpbm.hh | decimal digits induction, analysis of the transfer curve; C24 characterises exactly the accepted byte sequences and overflow |
| C25, C83 | complex.hh | comparison with Coquelicot's `C`; forward error analysis, Cauchy-Schwarz |
| C26-C30, C79 | fft.hh | decimation in time, induction on BINS; kernels by root-of-unity tables; convolution and shift theorems |
| C76 | rounding error of fft.hh | error propagation through kernels and twiddles, (1+h)^(11 m) growth |
| C31, C32 | fdzp.hh | bin bookkeeping on top of C26; refutations for odd and small ratios |
| C33, C34, C75 | unit_circle.hh | octant case analysis + Interval for the kernels; forward error analysis |
| C35, C36 | atan2.hh | Interval, case analysis; primitive floats for the underflow refutation |
| C37, C74 | cordic.hh | exhaustive scan in 63-bit machine ints of the directions, convexity and interval arithmetic in between |
| C38-C41 | exp.hh, decibel.hh, const.hh | algebra, Interval, series remainders |
| C42-C47, C73, C81, C84 | biquad.hh, blockdc.hh, ema.hh | difference equations, transfer functions at e^{iw}, Schur-Cohn stability, product of sections; contraction of the error recursion; response 1/(1+(sin/sin)^2) and its monotonicity |
| C48-C54, C77, C82 | calculus, phasor, cdc, hilbert, fmd, amd, normalize | induction over histories; phase error by renormalisation argument; antisymmetric kernel, its response enclosed by Horner and Interval |
| C55-C58 | coeffs, window, filter | trigonometric identities |
| C59-C62 | regression, theil_sen, repeated_median | algebra; rank counting on top of C13 |
| C63, C64, C80 | spline.hh | tridiagonal elimination invariants; polynomial algebra; integration by parts for minimal curvature |
| C65, C66 | resampler.hh | index bounds; phase invariant.  Resampler's ratio rate/(rate+diff) and Resampler2's step 1-diff/rate agree to first order only |
| C67, C68 | lms.hh | inner-product algebra |
| C69-C71 | trigger.hh, utils.hh | case analysis, induction |
| C85 | constructors, failed opens | induction over the history; computation |
| C86 | order of points, change of coordinates in line fits | uniqueness of ranks, invariance under permutation and increasing maps |
| C87 | Euclidean norm error of the FFT, round trip | Minkowski and Parseval; induction over the recursive decimation |
| C88 | floating point filters come to rest | monotone iteration on a grid; half-ulp argument at the smallest numbers |
| C89 | convergence of NLMS and NCLMS under persistent excitation, with noise | projection estimate over blocks of L samples |
| C90 | rounding errors of decibel, idecibel, exp10 | error terms u*t with bounded t, interval arithmetic for the constants |
| C91 | rounding errors of atan and atan2 | error terms u*t through the rational function, argument reductions, mean value theorem |
| C92 | test programs | reference containers of the standard library as lists; the random generator as an arbitrary sequence; loop invariants |
| C93 | literals | values of all literals in three formats; a record of operations with the two-step conversion; generated lemmas |
| C94 | IEEE formats | an operation record over Flocq binary floats; the same generic models of UnitCircle and atan2 are instantiated with it |
| C95 | FFT in IEEE formats | relational parametricity of the whole transform; arithmetic of magnitudes |
| C96 | RealToHalfComplexTransform in floating point | structure in any arithmetic, rounding error of the recombination, parametricity |
| C97 | Splines reproduce smooth functions | second derivative of the natural spline at most 3 B by diagonal dominance, Hermite form of a cubic, Taylor bounds |
| C98 | Comparisons and recursion depth of quick_sort and quick_select | counting monad, potential n (3 d + 16), adversary built backwards through the partition of positions |
| C99 | NaN and infinities: which objects break, which never recover, which forget | order embedding of the non-NaN values and extensionality of MovExt; absorbing predicates as invariants; explicit finite memory |
| C100 | the filters in the IEEE formats | parametricity of the models in the number type: "finite implies equal" is respected by every operation; overflow excluded by magnitude arithmetic along the run |
| C101 | Costs of movext.hh, swa.hh, fft.hh | counting models, erasure to the models; potential 2 size(refill) for the amortised bound; exact count by recursion on split, radix by radix interval bounds |
| C102 | Symmetry of the resampler filter | strict monotonicity of the Bessel sum; mirrored natural spline and uniqueness (C80) |
| C103 | Kaiser window in floating point | rounding analysis of the products, C11 invariant for the Kahan sum, early exit implies a negligible tail, I0 as a function of x^2 is Lipschitz relative to itself |
| C104 | Hilbert transformer in floating point | C103 for the window, error of quotient and products, left to right summation (1+u)^K |
| C105 | Biquad coefficients in floating point | error of cos, sin (C75) and of six more operations keeps (a1, a2) inside the stability triangle; the float coefficients of highpass(1, 48000) computed exactly, partial fraction of the recursion |
| C106 | FM demodulators in floating point | error of product and quotient (C83) turned into an angle by a perturbation lemma, branch of the wrap-around by a margin |
| C107 | EMA::cutoff in floating point | cosine kernel at most 1 by monotone rounding, radicand by the gaps of the format next to 1 and 3, error by the square root difference |
| C108 | slope of the grid regression in floating point | summation error with three roundings per term, perturbed quotient, sum of distances against sum of squares on the centred grid |
| C109 | zero padding in floating point | the forward and backward bounds of C87, Parseval for the padded spectrum (the halved bin stored twice does not increase the norm) |
| C110 | phase of Resampler2 in floating point | Sterbenz for the exact wrap-around, half-ulp errors of the increments, absorption at 1/4 |
| C111 | NLMS, overflow of mu / power in floating point | non-finite coefficients absorb; the first window contains one sample |
| C112 | CDC in floating point | closed form of the state for any arithmetic, left-to-right summation error; constructor: exact sines of quarter turns, error of the Kaiser window, folding to the half-band filter |

## 5. What Print Assumptions lists

Every theorem of `Props/` is followed by `Print Assumptions`.  Only axioms of Coq's standard library occur:

* `sig_forall_dec`, `sig_not_dec` (ClassicalDedekindReals), `functional_extensionality_dep`: the classical real numbers of the standard library;
* `classic` (Classical_Prop): excluded middle, through Coquelicot and Flocq;
* the primitive 63-bit integers and binary64 floats of the kernel (`Uint63`, `PrimInt63`, `PrimFloat`: the types, the operations) and the standard library's
  specifications of them (`Uint63.*_spec`, `FloatAxioms.*`): in theorems about primitive floats, and wherever the tactic `interval` computed an enclosure.

The theorems by set of axioms:

* **none (closed under the global context)**: C16_header_roundtrip, C16_wide_block_align_refuted, C17_write_then_read, C18_every_crash_point_readable, C18_writes_are_prefix, C19_end_of_file_observable, C19_exact_reads_good, C19_failure_is_permanent, C20_zero_channels_refuted, C20_short_file_refuted, C20_rejection_invisible_refuted, C20_terminates, C20_undefined_iff, C20_accepts_iff, C20_accepted_good, C20_open_defined, C20_accepted_is_complete, C21_read_cells, C21_write_emits, C21_skip_is_discard, C69_schmitt, C69_inside, C70_edges, C70_alternate, C42_equation, C42_cascade, C42_components, C65_once, C65_safe, C45_equation, C46_cascade, C48_sum, C48_difference, C48_inverse, C48_unsigned, C60_safe, C62_safe_without_nan, C62_refuted, C25_compound_assignments, C25_equality, C28_fft_stays_inside, C29_split, C22_header_roundtrip, C22_negative_refuted, C23_read_cells, C24_terminates, C24_undefined_iff, C24_accepts_exactly_headers, C24_rejects_leave_fields_unset, C24_comment_invisible, C24_rejection_invisible_refuted, C24_comment_after_blank_line_refuted, C24_overflow_refuted, C72_end_of_image_observable, C05_swa_reduces_window, C06_swa_no_drift, C07_movext_is_window_extremum, C07_movext_is_window_extremum_fresh_init, C07_movmin_int, C07_movmax_int, C08_movext_arbitrary_init_refuted, C08_movmax_float_min_refuted, C06_sma4_no_drift, C10_sma2_unsigned_wrapping, C10_sma2_signed_wrapping, C10_sma2_int_exact, C10_sma2_int_difference_overflow_refuted, C11_kahan_same, C55_table, C55_product, C63_safe, C85_fresh_kahan, C85_missing_pnm, C85_missing_wav_refuted, C50_safe, C51_safe, C12_quick_sort_sorts, C13_quick_select_kth_smallest, C13_kth_smallest_is_sorted_kth, C13_quick_select_asserts, C14_sort_and_select_safe_for_any_comparison, C15_median_of_five, C15_partition_three_way_and_balanced, C37_safe, C74_zero_refuted, C01_stack_is_bounded_lifo, C02_deque_is_bounded_deque, C03_delay_is_exact_delay, C04_bip_buffer_is_contiguous_window, C04_bip_buffer_peek, C92_deque_test, C92_deque_main, C92_movext_test, C92_quick_sort_test, C92_quick_select_test, C98_counts_quick_sort, C98_counts_quick_select, C98_sort, C98_select, C98_sort_worst, C98_select_worst, C99_movmin_after_nan_refuted, C99_movext_any_comparison, C99_differentiator_recovers, C99_hilbert_recovers, C99_cdc_recovers, C99_sma1_recovers, C101_counts_movext, C101_counts_swa, C101_counts_fft, C101_movext_amortised, C101_movext_call, C101_movext_every_call_constant_refuted, C101_swa, C101_fft_power_of_two, C98_median, C98_partition, C92_all_checked, C54_iq_independent, C56_rect_outside
* **`classic`**: C29_instantiates_iff_smooth
* **`sig_forall_dec`, `functional_extensionality_dep`**: C17_codes_survive, C17_quantisation, C17_data_survives, C09_sma1_mean_and_abs_dev, C09_sma2_mean, C09_sma3_mean, C09_sma4_mean, C11_kahan_exact, C11_kahan_sum_exact, C64_safe, C33_reduction_exact, C96_memory_safe, C99_fm_demodulators_recover, C103_converged, C56_kaiser_overflow
* **`sig_forall_dec`, `sig_not_dec`, `functional_extensionality_dep`**: C53_envelope, C53_output, C53_constant, C53_index, C53_peak, C54_bounded, C54_iq, C52_frequency, C52_sine, C52_tone, C52_bounded, C42_difference_equation, C42_linear, C42_time_invariant, C42_initial, C43_lowpass, C43_highpass, C43_half_power, C43_notch, C43_bandpass, C43_allpass, C44_poles, C44_bounded, C44_cascade_bounded, C44_constant, C73_butterworth, C73_tangent_form, C73_half_power, C66_diverges, C45_constant, C45_gains, C45_bounded, C46_between, C46_convex, C46_closed_form, C46_constant, C47_alpha, C47_half_power, C47_gain, C49_rotation, C49_omega, C49_freq, C49_no_drift, C60_median, C60_exact_slope, C60_breakdown, C61_medians, C61_breakdown, C84_ema_response, C84_cascade_response, C82_quadrature, C82_cdc_is_hilbert, C25_complex_field, C25_division_inverts_multiplication, C25_norm_and_abs, C25_polar, C26_fft_is_dft, C27_roundtrip, C27_parseval, C30_real_to_half_complex, C56_rect, C56_hann, C56_hann_ends, C56_hamming, C56_blackman_exact, C56_blackman, C56_kaiser, C56_kaiser_domain, C71_clamp, C71_lerp, C71_signum, C71_delta, C57_ratio, C57_formula, C58_symmetric, C58_symmetric2, C58_hilbert, C58_complementary, C55_normalize, C55_constructor, C67_call, C67_distance, C67_history, C68_call, C68_distance, C68_history, C63_linear, C64_hermite_linear, C64_uniform_linear, C85_fresh_ema, C85_fresh_ema_complex, C85_fresh_biquad, C85_fresh_biquad_complex, C85_fresh_blockdc, C85_fresh_phasor, C85_setters, C85_fresh_amd, C31_interpolates, C31_polynomial_unique, C31_real_and_samples, C32_odd_refuted, C32_small_ratio_refuted, C76_rounding_error, C50_any, C50_cdc, C51_hilbert, C34_even_odd, C34_quarters, C79_convolution, C79_linear_convolution, C79_shift, C59_minimises, C59_collinear, C59_xint, C59_grid, C38_ldexp, C38_ldexp_undefined, C39_exp10_range, C81_biquad, C81_cascade, C81_ema, C81_blockdc, C77_phase_error, C83_product, C83_quotient, C83_abs, C86_theil_sen_order, C86_repeated_median_order, C86_theil_sen_affine, C86_repeated_median_affine, C87_rounding_error, C87_round_trip, C89_nclms_converges, C89_nlms_converges, C89_error_energy, C89_unexcited_refuted, C89_mu_two_refuted, C96_rounding_error, C92_atan2_test_checks, C92_cordic_test_checks, C109_error, C112_cdc, C112_coefficients
* **`sig_forall_dec`, `sig_not_dec`, `functional_extensionality_dep`**: C102_kaiser_strictly_falling, C102_window_off_centre, C102_linear_phase_refuted
* **`sig_forall_dec`, `sig_not_dec`, `classic`, `functional_extensionality_dep`**: C17_codes_survive_single, C17_float_bits_survive, C21_silence_is_zero, C65_values, C65_identity, C66_stream, C66_rate, C47_factor_1, C78_sma4_error, C78_sma1_error, C78_sma2_error, C56_lanczos, C56_gauss, C71_sinc, C71_normal_pdf, C23_srgb_clamps, C11_kahan_float_error, C63_natural, C63_natural_x, C63_knots, C63_complex, C64_hermite, C64_uniform, C64_uniform_x, C64_complex, C40_shape, C80_minimal_curvature, C80_unique, C36_underflow_refuted, C81_integrator_stops_refuted, C86_ieee_symmetric, C88_ema_rests, C88_cascade_rests, C88_rest_point, C88_never_zero, C88_reaches_zero, C88_blockdc, C88_samples, C90_relative_refuted, C93_conversions, C93_unit_circle, C93_atan2, C93_decibel, C93_cascade_factor, C93_windows, C93_cordic_table, C94_atan2_finite, C94_atan2_infinite_refuted, C97_natural, C97_converges, C97_hermite, C97_uniform, C99_movmin_without_nan, C99_movmax_without_nan, C99_limits, C99_movmax_after_nan_refuted, C99_ema, C99_ema_cascade, C99_blockdc, C99_biquad, C99_biquad_cascade, C99_integrator, C99_kahan, C99_normalize_sine, C99_sma2, C99_sma3, C99_nlms, C99_am_demodulator, C99_schmitt_trigger, C100_ema, C100_ema_cascade, C100_blockdc, C100_biquad, C100_biquad_cascade, C100_calculus, C100_kahan, C100_hilbert_cdc, C100_sma, C100_ema_stays, C100_blockdc_stays, C100_cascade_stays, C100_biquad_stays, C100_overflow_refuted, C108_slope, C88_float_constant_stays, C88_samples_bound_refuted, C111_overflow_spoils, C111_normal_power, C111_first_sample, C111_finite_refuted, C111_complex_overflow_spoils, C111_complex_bad_sample, C111_complex_first_sample, C111_complex_finite_refuted
* **`sig_forall_dec`, `sig_not_dec`, `classic`, `functional_extensionality_dep`**: C102_symmetric
* **`PrimFloat.float`, `add`, `div`, `sub`**: C78_sma2_no_drift_refuted
* **`PrimFloat.float`, `add`, `div`, `opp`, `sub`**: C78_sma3_no_drift_refuted
* **16 primitives and specifications (set P16 below)**: C88_rest_at_input_refuted, C88_small_alpha_refuted, C92_kahan_test_double
* **16 primitives and specifications (set P16 below)**: C83_range_refuted, C86_two_points_refuted, C86_shift_refuted, C86_flip_refuted
* **`sig_forall_dec`, `functional_extensionality_dep`, and 16 primitives and specifications (set P16 below)**: C88_constant_removed_refuted
* **`sig_forall_dec`, `sig_not_dec`, `functional_extensionality_dep`, and 16 primitives and specifications (set P16 below)**: C87_single_bin_refuted
* **`sig_forall_dec`, `sig_not_dec`, `functional_extensionality_dep`, and 21 primitives and specifications (set P21 below)**: C83_componentwise_refuted
* **25 primitives and specifications (set P25 below)**: C85_infinity_refuted
* **`sig_forall_dec`, `sig_not_dec`, `classic`, `functional_extensionality_dep`, and 51 primitives and specifications (set P51 below)**: C47_factor, C23_srgb_monotone, C23_large_maxval_monotone_refuted, C23_srgb_range, C34_even_at_ties_refuted, C41_constants, C37_full8, C35_signed_zero, C93_constants, C93_cordic_digits
* **`sig_forall_dec`, `sig_not_dec`, `classic`, `functional_extensionality_dep`, and 57 primitives and specifications (set P57 below)**: C37_any_rounding8, C37_any_rounding16
* **`sig_forall_dec`, `sig_not_dec`, `classic`, `functional_extensionality_dep`, and 59 primitives and specifications (set P59 below)**: C84_half_at_n_refuted, C84_wrap_refuted, C82_33_taps, C56_kaiser_bessel, C74_short_refuted, C101_fft, C103_i0, C103_sqrt_argument, C105_float_highpass_refuted, C103_iterations_refuted, C105_float_lowpass_refuted, C107_float_frozen, C107_float_cutoff_refuted, C110_phase, C110_small_difference_refuted
* **`sig_forall_dec`, `sig_not_dec`, `classic`, `functional_extensionality_dep`, and 89 primitives and specifications (set P89 below)**: C43_quality, C44_unit_circle, C84_half_power, C56_unit_circle, C23_codes_survive, C23_codes_survive_inexact, C23_image_roundtrip, C57_unit_circle, C75_rounded_accuracy, C75_binary64, C75_binary32, C76_binary64, C76_binary32, C33_accuracy, C34_pythagoras, C74_bound16, C74_bound8, C39_exp10, C39_idecibel, C40_accuracy, C35_atan, C35_atan2, C35_sign_and_odd, C77_omega, C90_decibel, C90_decibel_binary64, C90_decibel_binary32, C90_exp10, C90_exp10_binary64, C90_exp10_binary32, C90_idecibel, C90_idecibel_binary64, C90_idecibel_binary32, C91_atan, C91_atan2, C91_atan2_binary64, C91_atan2_binary32, C94_unit_circle, C94_unit_circle_binary64, C94_atan2_binary64, C94_atan2_binary32, C94_atan2_minus_zero, C94_atan, C95_fft_binary64, C95_fft_binary32, C96_rhct_binary64, C96_rhct_binary32, C103_kaiser, C103_kaiser_float, C103_kaiser_double, C104_hilbert, C104_hilbert_float, C105_float, C105_double, C106_angle, C106_sine, C107_unit, C107_alpha, C107_error, C107_positive, C109_binary64, C109_binary32, C107_filter, C112_constructed, C112_real_part
* **`sig_forall_dec`, `sig_not_dec`, `classic`, `functional_extensionality_dep`, and 89 primitives and specifications (set P89 below)**: C87_binary64, C87_binary32, C92_atan2_test_float, C92_atan2_test_double
* **`sig_forall_dec`, `sig_not_dec`, `classic`, `functional_extensionality_dep`, and 95 primitives and specifications (set P95 below)**: C37_full16, C37_full_exact
* **`sig_forall_dec`, `sig_not_dec`, `classic`, `functional_extensionality_dep`, and 95 primitives and specifications (set P95 below)**: C92_cordic_test

Set P16: PrimFloat.eqb, PrimFloat.float, PrimFloat.leb, PrimInt63.int, PrimInt63.lor, PrimInt63.lsl, PrimInt63.sub, abs, add, div, ltb, mul, of_uint63, opp, sqrt, sub.

Set P16: PrimFloat.eqb, PrimFloat.float, PrimFloat.leb, PrimFloat.sqrt, PrimInt63.int, PrimInt63.lor, PrimInt63.lsl, PrimInt63.sub, abs, add, div, ltb, mul, of_uint63, opp, sub.

Set P21: PrimFloat.eqb, PrimFloat.float, PrimFloat.leb, PrimInt63.eqb, PrimInt63.int, PrimInt63.land, PrimInt63.lor, PrimInt63.lsl, PrimInt63.lsr, PrimInt63.sub, abs, add, div, frshiftexp, ltb, mul, normfr_mantissa, of_uint63, opp, sqrt, sub.

Set P25: PrimFloat.abs, PrimFloat.eqb, PrimFloat.leb, PrimFloat.opp, PrimInt63.eqb, PrimInt63.int, PrimInt63.land, PrimInt63.lor, PrimInt63.lsl, PrimInt63.lsr, PrimInt63.sub, SF2Prim_Prim2SF, add, add_spec, div, float, frshiftexp, ldshiftexp, ltb, mul, normfr_mantissa, of_uint63, sqrt, sub, sub_spec.

Set P51: PrimInt63.add, PrimInt63.addc, PrimInt63.addcarryc, PrimInt63.addmuldiv, PrimInt63.compare, PrimInt63.div, PrimInt63.diveucl, PrimInt63.diveucl_21, PrimInt63.eqb, PrimInt63.head0, PrimInt63.int, PrimInt63.land, PrimInt63.leb, PrimInt63.lor, PrimInt63.lsl, PrimInt63.lsr, PrimInt63.ltb, PrimInt63.lxor, PrimInt63.mod, PrimInt63.mul, PrimInt63.mulc, PrimInt63.sub, PrimInt63.subc, PrimInt63.subcarryc, PrimInt63.tail0, Uint63.add_spec, Uint63.addc_def_spec, Uint63.addcarryc_def_spec, Uint63.addmuldiv_def_spec, Uint63.compare_def_spec, Uint63.div_spec, Uint63.diveucl_21_spec, Uint63.diveucl_def_spec, Uint63.eqb_correct, Uint63.eqb_refl, Uint63.head0_spec, Uint63.land_spec, Uint63.leb_spec, Uint63.lor_spec, Uint63.lsl_spec, Uint63.lsr_spec, Uint63.ltb_spec, Uint63.lxor_spec, Uint63.mod_spec, Uint63.mul_spec, Uint63.mulc_spec, Uint63.of_to_Z, Uint63.sub_spec, Uint63.subc_def_spec, Uint63.subcarryc_def_spec, Uint63.tail0_spec.

Set P57: PrimInt63.add, PrimInt63.addc, PrimInt63.addcarryc, PrimInt63.addmuldiv, PrimInt63.asr, PrimInt63.compare, PrimInt63.div, PrimInt63.diveucl, PrimInt63.diveucl_21, PrimInt63.eqb, PrimInt63.head0, PrimInt63.int, PrimInt63.land, PrimInt63.leb, PrimInt63.lesb, PrimInt63.lor, PrimInt63.lsl, PrimInt63.lsr, PrimInt63.ltb, PrimInt63.ltsb, PrimInt63.lxor, PrimInt63.mod, PrimInt63.mul, PrimInt63.mulc, PrimInt63.sub, PrimInt63.subc, PrimInt63.subcarryc, PrimInt63.tail0, Sint63.asr_spec, Sint63.leb_spec, Sint63.ltb_spec, Uint63.add_spec, Uint63.addc_def_spec, Uint63.addcarryc_def_spec, Uint63.addmuldiv_def_spec, Uint63.compare_def_spec, Uint63.div_spec, Uint63.diveucl_21_spec, Uint63.diveucl_def_spec, Uint63.eqb_correct, Uint63.eqb_refl, Uint63.head0_spec, Uint63.land_spec, Uint63.leb_spec, Uint63.lor_spec, Uint63.lsl_spec, Uint63.lsr_spec, Uint63.ltb_spec, Uint63.lxor_spec, Uint63.mod_spec, Uint63.mul_spec, Uint63.mulc_spec, Uint63.of_to_Z, Uint63.sub_spec, Uint63.subc_def_spec, Uint63.subcarryc_def_spec, Uint63.tail0_spec.

Set P59: FloatAxioms.Prim2SF_SF2Prim, FloatAxioms.Prim2SF_valid, FloatAxioms.SF2Prim_Prim2SF, FloatAxioms.abs_spec, FloatAxioms.add_spec, FloatAxioms.classify_spec, FloatAxioms.compare_spec, FloatAxioms.div_spec, FloatAxioms.eqb_spec, FloatAxioms.frshiftexp_spec, FloatAxioms.ldshiftexp_spec, FloatAxioms.ltb_spec, FloatAxioms.mul_spec, FloatAxioms.next_down_spec, FloatAxioms.next_up_spec, FloatAxioms.normfr_mantissa_spec, FloatAxioms.of_uint63_spec, FloatAxioms.opp_spec, FloatAxioms.sqrt_spec, FloatAxioms.sub_spec, PrimFloat.abs, PrimFloat.add, PrimFloat.classify, PrimFloat.compare, PrimFloat.div, PrimFloat.eqb, PrimFloat.float, PrimFloat.frshiftexp, PrimFloat.ldshiftexp, PrimFloat.ltb, PrimFloat.mul, PrimFloat.next_down, PrimFloat.next_up, PrimFloat.normfr_mantissa, PrimFloat.of_uint63, PrimFloat.opp, PrimFloat.sqrt, PrimFloat.sub, PrimInt63.add, PrimInt63.eqb, PrimInt63.int, PrimInt63.land, PrimInt63.leb, PrimInt63.lor, PrimInt63.lsl, PrimInt63.lsr, PrimInt63.ltb, PrimInt63.sub, Uint63.add_spec, Uint63.eqb_correct, Uint63.eqb_refl, Uint63.land_spec, Uint63.leb_spec, Uint63.lor_spec, Uint63.lsl_spec, Uint63.lsr_spec, Uint63.ltb_spec, Uint63.of_to_Z, Uint63.sub_spec.

Set P89: FloatAxioms.Prim2SF_SF2Prim, FloatAxioms.Prim2SF_valid, FloatAxioms.SF2Prim_Prim2SF, FloatAxioms.abs_spec, FloatAxioms.add_spec, FloatAxioms.classify_spec, FloatAxioms.compare_spec, FloatAxioms.div_spec, FloatAxioms.eqb_spec, FloatAxioms.frshiftexp_spec, FloatAxioms.ldshiftexp_spec, FloatAxioms.ltb_spec, FloatAxioms.mul_spec, FloatAxioms.next_down_spec, FloatAxioms.next_up_spec, FloatAxioms.normfr_mantissa_spec, FloatAxioms.of_uint63_spec, FloatAxioms.opp_spec, FloatAxioms.sqrt_spec, FloatAxioms.sub_spec, PrimFloat.abs, PrimFloat.add, PrimFloat.classify, PrimFloat.compare, PrimFloat.div, PrimFloat.eqb, PrimFloat.float, PrimFloat.frshiftexp, PrimFloat.ldshiftexp, PrimFloat.ltb, PrimFloat.mul, PrimFloat.next_down, PrimFloat.next_up, PrimFloat.normfr_mantissa, PrimFloat.of_uint63, PrimFloat.opp, PrimFloat.sqrt, PrimFloat.sub, PrimInt63.add, PrimInt63.addc, PrimInt63.addcarryc, PrimInt63.addmuldiv, PrimInt63.compare, PrimInt63.div, PrimInt63.diveucl, PrimInt63.diveucl_21, PrimInt63.eqb, PrimInt63.head0, PrimInt63.int, PrimInt63.land, PrimInt63.leb, PrimInt63.lor, PrimInt63.lsl, PrimInt63.lsr, PrimInt63.ltb, PrimInt63.lxor, PrimInt63.mod, PrimInt63.mul, PrimInt63.mulc, PrimInt63.sub, PrimInt63.subc, PrimInt63.subcarryc, PrimInt63.tail0, Uint63.add_spec, Uint63.addc_def_spec, Uint63.addcarryc_def_spec, Uint63.addmuldiv_def_spec, Uint63.compare_def_spec, Uint63.div_spec, Uint63.diveucl_21_spec, Uint63.diveucl_def_spec, Uint63.eqb_correct, Uint63.eqb_refl, Uint63.head0_spec, Uint63.land_spec, Uint63.leb_spec, Uint63.lor_spec, Uint63.lsl_spec, Uint63.lsr_spec, Uint63.ltb_spec, Uint63.lxor_spec, Uint63.mod_spec, Uint63.mul_spec, Uint63.mulc_spec, Uint63.of_to_Z, Uint63.sub_spec, Uint63.subc_def_spec, Uint63.subcarryc_def_spec, Uint63.tail0_spec.

Set P89: FloatAxioms.compare_spec, FloatAxioms.eqb_spec, Prim2SF_SF2Prim, Prim2SF_valid, PrimFloat.eqb, PrimFloat.float, PrimFloat.sqrt, PrimInt63.add, PrimInt63.addc, PrimInt63.addcarryc, PrimInt63.addmuldiv, PrimInt63.compare, PrimInt63.div, PrimInt63.diveucl, PrimInt63.diveucl_21, PrimInt63.eqb, PrimInt63.head0, PrimInt63.int, PrimInt63.land, PrimInt63.leb, PrimInt63.lor, PrimInt63.lsl, PrimInt63.lsr, PrimInt63.ltb, PrimInt63.lxor, PrimInt63.mod, PrimInt63.mul, PrimInt63.mulc, PrimInt63.sub, PrimInt63.subc, PrimInt63.subcarryc, PrimInt63.tail0, SF2Prim_Prim2SF, Uint63.add_spec, Uint63.addc_def_spec, Uint63.addcarryc_def_spec, Uint63.addmuldiv_def_spec, Uint63.compare_def_spec, Uint63.div_spec, Uint63.diveucl_21_spec, Uint63.diveucl_def_spec, Uint63.eqb_correct, Uint63.eqb_refl, Uint63.head0_spec, Uint63.land_spec, Uint63.leb_spec, Uint63.lor_spec, Uint63.lsl_spec, Uint63.lsr_spec, Uint63.ltb_spec, Uint63.lxor_spec, Uint63.mod_spec, Uint63.mul_spec, Uint63.mulc_spec, Uint63.of_to_Z, Uint63.sub_spec, Uint63.subc_def_spec, Uint63.subcarryc_def_spec, Uint63.tail0_spec, abs, abs_spec, add, add_spec, classify, classify_spec, compare, div, div_spec, frshiftexp, frshiftexp_spec, ldshiftexp, ldshiftexp_spec, ltb, ltb_spec, mul, mul_spec, next_down, next_down_spec, next_up, next_up_spec, normfr_mantissa, normfr_mantissa_spec, of_uint63, of_uint63_spec, opp, opp_spec, sqrt_spec, sub, sub_spec.

Set P95: FloatAxioms.Prim2SF_SF2Prim, FloatAxioms.Prim2SF_valid, FloatAxioms.SF2Prim_Prim2SF, FloatAxioms.abs_spec, FloatAxioms.add_spec, FloatAxioms.classify_spec, FloatAxioms.compare_spec, FloatAxioms.div_spec, FloatAxioms.eqb_spec, FloatAxioms.frshiftexp_spec, FloatAxioms.ldshiftexp_spec, FloatAxioms.ltb_spec, FloatAxioms.mul_spec, FloatAxioms.next_down_spec, FloatAxioms.next_up_spec, FloatAxioms.normfr_mantissa_spec, FloatAxioms.of_uint63_spec, FloatAxioms.opp_spec, FloatAxioms.sqrt_spec, FloatAxioms.sub_spec, PrimFloat.abs, PrimFloat.add, PrimFloat.classify, PrimFloat.compare, PrimFloat.div, PrimFloat.eqb, PrimFloat.float, PrimFloat.frshiftexp, PrimFloat.ldshiftexp, PrimFloat.ltb, PrimFloat.mul, PrimFloat.next_down, PrimFloat.next_up, PrimFloat.normfr_mantissa, PrimFloat.of_uint63, PrimFloat.opp, PrimFloat.sqrt, PrimFloat.sub, PrimInt63.add, PrimInt63.addc, PrimInt63.addcarryc, PrimInt63.addmuldiv, PrimInt63.asr, PrimInt63.compare, PrimInt63.div, PrimInt63.diveucl, PrimInt63.diveucl_21, PrimInt63.eqb, PrimInt63.head0, PrimInt63.int, PrimInt63.land, PrimInt63.leb, PrimInt63.lesb, PrimInt63.lor, PrimInt63.lsl, PrimInt63.lsr, PrimInt63.ltb, PrimInt63.ltsb, PrimInt63.lxor, PrimInt63.mod, PrimInt63.mul, PrimInt63.mulc, PrimInt63.sub, PrimInt63.subc, PrimInt63.subcarryc, PrimInt63.tail0, Sint63.asr_spec, Sint63.leb_spec, Sint63.ltb_spec, Uint63.add_spec, Uint63.addc_def_spec, Uint63.addcarryc_def_spec, Uint63.addmuldiv_def_spec, Uint63.compare_def_spec, Uint63.div_spec, Uint63.diveucl_21_spec, Uint63.diveucl_def_spec, Uint63.eqb_correct, Uint63.eqb_refl, Uint63.head0_spec, Uint63.land_spec, Uint63.leb_spec, Uint63.lor_spec, Uint63.lsl_spec, Uint63.lsr_spec, Uint63.ltb_spec, Uint63.lxor_spec, Uint63.mod_spec, Uint63.mul_spec, Uint63.mulc_spec, Uint63.of_to_Z, Uint63.sub_spec, Uint63.subc_def_spec, Uint63.subcarryc_def_spec, Uint63.tail0_spec.

Set P95: FloatAxioms.compare_spec, FloatAxioms.eqb_spec, Prim2SF_SF2Prim, Prim2SF_valid, PrimFloat.eqb, PrimFloat.float, PrimFloat.sqrt, PrimInt63.add, PrimInt63.addc, PrimInt63.addcarryc, PrimInt63.addmuldiv, PrimInt63.asr, PrimInt63.compare, PrimInt63.div, PrimInt63.diveucl, PrimInt63.diveucl_21, PrimInt63.eqb, PrimInt63.head0, PrimInt63.int, PrimInt63.land, PrimInt63.leb, PrimInt63.lesb, PrimInt63.lor, PrimInt63.lsl, PrimInt63.lsr, PrimInt63.ltb, PrimInt63.ltsb, PrimInt63.lxor, PrimInt63.mod, PrimInt63.mul, PrimInt63.mulc, PrimInt63.sub, PrimInt63.subc, PrimInt63.subcarryc, PrimInt63.tail0, SF2Prim_Prim2SF, Sint63.asr_spec, Sint63.leb_spec, Sint63.ltb_spec, Uint63.add_spec, Uint63.addc_def_spec, Uint63.addcarryc_def_spec, Uint63.addmuldiv_def_spec, Uint63.compare_def_spec, Uint63.div_spec, Uint63.diveucl_21_spec, Uint63.diveucl_def_spec, Uint63.eqb_correct, Uint63.eqb_refl, Uint63.head0_spec, Uint63.land_spec, Uint63.leb_spec, Uint63.lor_spec, Uint63.lsl_spec, Uint63.lsr_spec, Uint63.ltb_spec, Uint63.lxor_spec, Uint63.mod_spec, Uint63.mul_spec, Uint63.mulc_spec, Uint63.of_to_Z, Uint63.sub_spec, Uint63.subc_def_spec, Uint63.subcarryc_def_spec, Uint63.tail0_spec, abs, abs_spec, add, add_spec, classify, classify_spec, compare, div, div_spec, frshiftexp, frshiftexp_spec, ldshiftexp, ldshiftexp_spec, ltb, ltb_spec, mul, mul_spec, next_down, next_down_spec, next_up, next_up_spec, normfr_mantissa, normfr_mantissa_spec, of_uint63, of_uint63_spec, opp, opp_spec, sqrt_spec, sub, sub_spec.

