{
 "claims": [
  {
   "property": "C01",
   "status": "proved",
   "theorems": [
    "C01_median_total_order",
    "C01_median_real",
    "C01_median_real_total",
    "C01_median_float"
   ],
   "note": "any total order; textbook definition over R; IEEE floats without NaN by rank"
  },
  {
   "property": "C02",
   "status": "proved",
   "theorems": [
    "C02_median_returns",
    "C02_median_returns_float"
   ],
   "note": "any float format, NaN included"
  },
  {
   "property": "C03",
   "status": "proved",
   "theorems": [
    "C03_median_perm",
    "C03_median_perm_real",
    "C03_median_perm_int"
   ],
   "note": ""
  },
  {
   "property": "C04",
   "status": "partial",
   "theorems": [
    "C04_median_int_partial",
    "C04_median_int_exactly",
    "C04_median_int_refuted"
   ],
   "note": "settled: false as stated (sum of the two middles overflows); proved for odd lengths and whenever no sum of two samples overflows; the result and the panics for even lengths are determined exactly (C04_median_int_exactly)"
  },
  {
   "property": "C05",
   "status": "proved",
   "theorems": [
    "C05_mean",
    "C05_mean_perm",
    "C05_mean_bounds",
    "C05_mean_affine"
   ],
   "note": "exact arithmetic"
  },
  {
   "property": "C06",
   "status": "proved",
   "theorems": [
    "C06_variance",
    "C06_variance_affine",
    "C06_empty"
   ],
   "note": "exact arithmetic"
  },
  {
   "property": "C07",
   "status": "proved",
   "theorems": [
    "C07_zscore"
   ],
   "note": "exact arithmetic"
  },
  {
   "property": "C08",
   "status": "proved",
   "theorems": [
    "C08_mad",
    "C08_mad_nonneg",
    "C08_mad_affine",
    "C08_mod_zscore",
    "C08_mod_zscore_affine"
   ],
   "note": "exact arithmetic; mod_zscore needs MAD <> 0"
  },
  {
   "property": "C09",
   "status": "proved",
   "theorems": [
    "C09_autocorr"
   ],
   "note": "exact arithmetic"
  },
  {
   "property": "C10",
   "status": "partial",
   "theorems": [
    "C10_autocorr_fast32_partial",
    "C10_autocorr_fast32_refuted"
   ],
   "note": "settled: false as stated (terms beyond the last full tile of 4 are dropped); exact characterisation proved, and the stated sum whenever 4 divides N-h; panic condition proved"
  },
  {
   "property": "C11",
   "status": "proved",
   "theorems": [
    "C11_rms"
   ],
   "note": "exact arithmetic"
  },
  {
   "property": "C12",
   "status": "proved",
   "theorems": [
    "C12_lag_diff"
   ],
   "note": "exact arithmetic for the telescoping sum"
  },
  {
   "property": "C13",
   "status": "proved",
   "theorems": [
    "C13_factorial",
    "C13_factorial_wrapping"
   ],
   "note": "all 12 integer types, all pointer widths, both overflow modes"
  },
  {
   "property": "C14",
   "status": "proved",
   "theorems": [
    "C14_factorial2"
   ],
   "note": "all 12 integer types"
  },
  {
   "property": "C15",
   "status": "partial",
   "theorems": [
    "C15_factorialk_partial",
    "C15_factorialk_refuted",
    "C15_factorialk_release_diverges",
    "C15_k1_is_factorial"
   ],
   "note": "settled: false as stated (the loop counter n+k overflows although the value fits; in release builds it can loop for ever); exact domain of correctness and of panics proved"
  },
  {
   "property": "C16",
   "status": "partial",
   "theorems": [
    "C16_comb_partial",
    "C16_comb_refuted"
   ],
   "note": "settled: false as stated (intermediate product overflows); exact domain of correctness and of panics proved"
  },
  {
   "property": "C17",
   "status": "partial",
   "theorems": [
    "C17_comb_rep_partial",
    "C17_comb_rep_doc_refuted",
    "C17_comb_rep_refuted",
    "C17_comb_rep_negative_refuted"
   ],
   "note": "settled: false as stated; the exact set of arguments giving the right value or panicking is proved, including the underflow of n+k for negative arguments; documented 'n<k gives 0' refuted"
  },
  {
   "property": "C18",
   "status": "partial",
   "theorems": [
    "C18_perm_partial",
    "C18_perm_refuted"
   ],
   "note": "settled: false as stated (n = MAX, and 128-bit n beyond usize); exact domain proved"
  },
  {
   "property": "C19",
   "status": "proved",
   "theorems": [
    "C19_stirling2",
    "C19_falling_powers"
   ],
   "note": "specified by counting surjections; both overflow modes"
  },
  {
   "property": "C20",
   "status": "partial",
   "theorems": [
    "C20_chbevl_partial",
    "C20_chbevl_refuted",
    "C20_chebT_is_cos"
   ],
   "note": "settled: false as stated (the first coefficient is processed twice); exact value and an error bound proved"
  },
  {
   "property": "C21",
   "status": "proved",
   "theorems": [
    "C21_even",
    "C21_abs_opp_real",
    "C21_abs_opp_float",
    "C21_scaling",
    "C21_scaling_small",
    "C21_elementwise"
   ],
   "note": "parity bit-exact for IEEE formats; scaling in exact arithmetic"
  },
  {
   "property": "C22",
   "status": "proved",
   "theorems": [
    "C22_companion_eigen",
    "C22_real_field"
   ],
   "note": "any field"
  },
  {
   "property": "C23",
   "status": "partial",
   "theorems": [
    "C23_companion_memory_partial",
    "C23_companion_memory_refuted"
   ],
   "note": "settled: false as stated (an iterator longer than m writes out of bounds); exact conditions for panic, out-of-bounds write and safe return proved"
  },
  {
   "property": "C24",
   "status": "proved",
   "theorems": [
    "C24_sosfilt_resume",
    "C24_sosfilt_blocks"
   ],
   "note": "any number type, bit-exact"
  },
  {
   "property": "C25",
   "status": "proved",
   "theorems": [
    "C25_sosfilt_variants",
    "C25_sosfilt_integer_variant"
   ],
   "note": "any number type, bit-exact"
  },
  {
   "property": "C26",
   "status": "partial",
   "theorems": [
    "C26_difference_equation_partial",
    "C26_difference_equation_exactly",
    "C26_difference_equation_refuted"
   ],
   "note": "settled: proved with uniqueness for a0 = 1; false for general a0 (the code ignores a0): right exactly if a0 = 1 or the output is all zeros"
  },
  {
   "property": "C27",
   "status": "proved",
   "theorems": [
    "C27_cascade",
    "C27_linear",
    "C27_shift_invariant",
    "C27_causal"
   ],
   "note": ""
  },
  {
   "property": "C28",
   "status": "proved",
   "theorems": [
    "C28_lfilter_zi",
    "C28_refusals",
    "C28_leading_zeros"
   ],
   "note": "exact arithmetic; the refusals in any arithmetic"
  },
  {
   "property": "C29",
   "status": "proved",
   "theorems": [
    "C29_sosfilt_zi"
   ],
   "note": "exact arithmetic"
  },
  {
   "property": "C30",
   "status": "proved",
   "theorems": [
    "C30_odd_ext_rows",
    "C30_odd_ext_cols",
    "C30_odd_ext_edge_cases"
   ],
   "note": "any number type, bit-exact; Ok excludes out-of-bounds accesses"
  },
  {
   "property": "C31",
   "status": "partial",
   "theorems": [
    "C31_pad_partial",
    "C31_pad_refuted"
   ],
   "note": "settled: false as stated (Even and Constant always panic when there is something to pad); everything else proved"
  },
  {
   "property": "C32",
   "status": "proved",
   "theorems": [
    "C32_sosfiltfilt_length",
    "C32_sosfiltfilt_ignores_state"
   ],
   "note": "any number type"
  },
  {
   "property": "C33",
   "status": "proved",
   "theorems": [
    "C33_sosfiltfilt_constant",
    "C33_sosfiltfilt_linear"
   ],
   "note": "exact arithmetic"
  },
  {
   "property": "C34",
   "status": "proved",
   "theorems": [
    "C34_from_scipy"
   ],
   "note": "any number type"
  },
  {
   "property": "C35",
   "status": "proved",
   "theorems": [
    "C35_savgol_panics",
    "C35_savgol_fir",
    "C35_savgol_returns",
    "C35_defaults"
   ],
   "note": "any number type, any solver"
  },
  {
   "property": "C36",
   "status": "partial",
   "theorems": [
    "C36_savgol_poly_partial",
    "C36_pderiv_is_derivative",
    "C36_system_consistent",
    "C36_coeff_moments",
    "C36_high_derivative_zero",
    "C36_savgol_poly_refuted"
   ],
   "note": "settled: proved whenever deriv! fits in usize; false for deriv >= 21 on 64 bit (usize factorial overflows). The external solver enters as a contract on this one system"
  },
  {
   "property": "C37",
   "status": "proved",
   "theorems": [
    "C37_convolve_full",
    "C37_convolve_empty_panics"
   ],
   "note": "exact arithmetic; FFT crate enters as the DFT contract is_fft/is_ifft"
  },
  {
   "property": "C38",
   "status": "partial",
   "theorems": [
    "C38_convolve_valid_same_partial",
    "C38_convolve_valid_shorter_refuted",
    "C38_convolve_empty_second_panics"
   ],
   "note": "settled: Same proved for every pair, Valid proved when in2 is not longer; false when in1 is shorter (returns nothing)"
  },
  {
   "property": "C39",
   "status": "proved",
   "theorems": [
    "C39_correlate_full"
   ],
   "note": "exact arithmetic; DFT contract"
  },
  {
   "property": "C40",
   "status": "partial",
   "theorems": [
    "C40_resample_length_and_even_identity_partial",
    "C40_resample_odd_exact",
    "C40_resample_same_length_refuted"
   ],
   "note": "settled: length always; identity for even lengths; false for odd lengths, where the exact result is proved"
  },
  {
   "property": "C41",
   "status": "partial",
   "theorems": [
    "C41_resample_constant_and_upsampling_partial",
    "C41_resample_one_bin_refuted",
    "C41_resample_odd_upsampling_refuted",
    "C41_resample_odd_upsampling_exact"
   ],
   "note": "settled: constants for two or more bins, upsampling for even lengths; false otherwise, with witnesses and the exact result for odd lengths"
  },
  {
   "property": "C42",
   "status": "partial",
   "theorems": [
    "C42_square_exact_partial",
    "C42_square_duty_panics",
    "C42_square_values",
    "C42_square_f64_refuted"
   ],
   "note": "settled: proved in exact arithmetic; false in f64 for tiny negative t with duty 1"
  },
  {
   "property": "C43",
   "status": "proved",
   "theorems": [
    "C43_poly"
   ],
   "note": "exact arithmetic; slice sort enters as the contract is_sort"
  },
  {
   "property": "C44",
   "status": "partial",
   "theorems": [
    "C44_zpk2tf_partial",
    "C44_zpk2tf_exactly",
    "C44_zpk2tf_refuted"
   ],
   "note": "settled: b and a are the two products times powers of x from zero padding on the right; ratio right exactly if there are as many zeros as poles"
  },
  {
   "property": "C45",
   "status": "partial",
   "theorems": [
    "C45_zpk2sos_digital_partial",
    "C45_near_real_refuted"
   ],
   "note": "settled: proved for every filter whose zeros and poles are real or clear of the real axis by the code's tolerance; within the tolerance the code panics"
  },
  {
   "property": "C46",
   "status": "partial",
   "theorems": [
    "C46_zpk2sos_analog_partial",
    "C46_result_law",
    "C46_fewer_zeros_refuted",
    "C46_odd_zero_free_refuted",
    "C46_odd_no_real_zero_refuted",
    "C46_odd_complex_zeros_refuted"
   ],
   "note": "settled: equal numbers of zeros and poles, and even order or one real pole or real zeros: proved; every outcome is a panic or sections for H(s) s^(#p-#z) (C46_result_law), so with fewer zeros than poles the result is wrong (refuted); odd without a real zero always panics (refuted); odd with several real poles and complex zeros can panic (refuted)"
  },
  {
   "property": "C47",
   "status": "proved",
   "theorems": [
    "C47_bilinear"
   ],
   "note": "exact arithmetic"
  },
  {
   "property": "C48",
   "status": "proved",
   "theorems": [
    "C48_lp2lp"
   ],
   "note": "exact arithmetic"
  },
  {
   "property": "C49",
   "status": "partial",
   "theorems": [
    "C49_lp2hp_partial",
    "C49_lp2hp_exactly",
    "C49_lp2hp_refuted"
   ],
   "note": "settled: proved for filters without zeros (all that iirfilter_dyn passes for Butterworth and Chebyshev I); false for every filter with a zero (C49_lp2hp_exactly: neither zeros nor poles at 0, gain not 0)"
  },
  {
   "property": "C50",
   "status": "proved",
   "theorems": [
    "C50_lp2bp"
   ],
   "note": "exact arithmetic"
  },
  {
   "property": "C51",
   "status": "partial",
   "theorems": [
    "C51_lp2bs_partial",
    "C51_lp2bs_exactly",
    "C51_lp2bs_refuted"
   ],
   "note": "settled: proved for filters without zeros; false for every filter with a zero (C51_lp2bs_exactly)"
  },
  {
   "property": "C52",
   "status": "proved",
   "theorems": [
    "C52_butter_prototype"
   ],
   "note": "exact arithmetic, N >= 1"
  },
  {
   "property": "C53",
   "status": "proved",
   "theorems": [
    "C53_cheb1ap"
   ],
   "note": "exact arithmetic"
  },
  {
   "property": "C54",
   "status": "proved",
   "theorems": [
    "C54_cheb2ap"
   ],
   "note": "exact arithmetic, N >= 1"
  },
  {
   "property": "C55",
   "status": "partial",
   "theorems": [
    "C55_iirfilter_panics_partial",
    "C55_iirfilter_sos_partial",
    "C55_iirfilter_bad_panics_sos",
    "C55_iirfilter_cheby2_refuted",
    "C55_iirfilter_cheby2_no_rp",
    "C55_sos_analog_refuted"
   ],
   "note": "settled: exact condition proved for Ba and Zpk output and for the sections of digital Butterworth and Chebyshev I designs (zeros and poles clear of the tolerance); false for Chebyshev II (rp is checked instead of rs) and for analog sections (odd orders panic)"
  },
  {
   "property": "C56",
   "status": "partial",
   "theorems": [
    "C56_cheby2_always_panics_refuted"
   ],
   "note": "settled: false; cheby2_dyn panics for every argument"
  },
  {
   "property": "C57",
   "status": "proved",
   "theorems": [
    "C57_butter_digital",
    "C57_band_ratio_defined",
    "C57_band_ratio_tan"
   ],
   "note": "exact arithmetic, N >= 1"
  },
  {
   "property": "C58",
   "status": "proved",
   "theorems": [
    "C58_butter_stable"
   ],
   "note": "exact arithmetic"
  },
  {
   "property": "C59",
   "status": "partial",
   "theorems": [
    "C59_representation_partial",
    "C59_cheby1_default_refuted"
   ],
   "note": "settled: representation and butter_dyn default proved; cheby1_dyn defaults to band-pass"
  },
  {
   "property": "C60",
   "status": "partial",
   "theorems": [
    "C60_mean_int_partial",
    "C60_mean_int_exactly",
    "C60_mean_int_refuted"
   ],
   "note": "settled: false as stated (sum overflow; count does not fit the type); proved when prefix sums and count fit; results and panics determined exactly in both overflow modes"
  },
  {
   "property": "C61",
   "status": "proved",
   "theorems": [
    "C61_cascade_transfer"
   ],
   "note": "exact arithmetic"
  },
  {
   "property": "C62",
   "status": "proved",
   "theorems": [
    "C62_i0e_series",
    "C62_i0e_at_zero",
    "C62_i0e_branches_meet",
    "C62_f32_tables"
   ],
   "note": "exact arithmetic"
  },
  {
   "property": "C63",
   "status": "proved",
   "theorems": [
    "C63_resample_closed_form",
    "C63_resample_linear"
   ],
   "note": "exact arithmetic; DFT contract"
  },
  {
   "property": "C64",
   "status": "proved",
   "theorems": [
    "C64_cheby1_digital"
   ],
   "note": "exact arithmetic, N >= 1"
  },
  {
   "property": "C65",
   "status": "proved",
   "theorems": [
    "C65_ba_output"
   ],
   "note": "exact arithmetic"
  },
  {
   "property": "C66",
   "status": "proved",
   "theorems": [
    "C66_butter_analog"
   ],
   "note": "exact arithmetic, N >= 1"
  },
  {
   "property": "C67",
   "status": "proved",
   "theorems": [
    "C67_sos_output"
   ],
   "note": "exact arithmetic"
  },
  {
   "property": "C68",
   "status": "partial",
   "theorems": [
    "C68_analog_sos_refuted"
   ],
   "note": "settled: false for every order (extra factor s^N for even, panic for odd orders)"
  },
  {
   "property": "C69",
   "status": "proved",
   "theorems": [
    "C69_bounded_output",
    "C69_fading_memory"
   ],
   "note": "exact arithmetic"
  },
  {
   "property": "C70",
   "status": "proved",
   "theorems": [
    "C70_frequency_response"
   ],
   "note": "exact arithmetic"
  },
  {
   "property": "C71",
   "status": "proved",
   "theorems": [
    "C71_butter_filters",
    "C71_cheby1_filters"
   ],
   "note": "exact arithmetic; is_sort contract"
  },
  {
   "property": "C72",
   "status": "proved",
   "theorems": [
    "C72_i0_accuracy",
    "C72_I0_defined"
   ],
   "note": "exact arithmetic; rounding of the evaluation itself not bounded"
  },
  {
   "property": "C73",
   "status": "proved",
   "theorems": [
    "C73_mean_rounding"
   ],
   "note": "any binary format; sample count up to 2^prec"
  },
  {
   "property": "C74",
   "status": "proved",
   "theorems": [
    "C74_variance_rounding",
    "C74_stdev_rounding"
   ],
   "note": "any binary format; no overflow hypothesis 256 n B^2 <= largest float"
  },
  {
   "property": "C75",
   "status": "proved",
   "theorems": [
    "C75_median_rounding",
    "C75_median_overflow_refuted"
   ],
   "note": "the magnitude hypothesis is needed: C75_median_overflow_refuted"
  },
  {
   "property": "C76",
   "status": "partial",
   "theorems": [
    "C76_exact_facts_partial",
    "C76_mean_range_refuted",
    "C76_variance_zero_refuted"
   ],
   "note": "false at f64 in general (three or six times 0.1); proved for integer-valued samples whose sum is exact"
  },
  {
   "property": "C77",
   "status": "proved",
   "theorems": [
    "C77_filter_rounding",
    "C77_section_rounding"
   ],
   "note": "compares with sosfilt_dyn in real arithmetic on the same float coefficients, samples and delay values"
  },
  {
   "property": "C78",
   "status": "partial",
   "theorems": [
    "C78_cheby2_digital_partial",
    "C78_cheby2_highpass_refuted",
    "C78_cheby2_highpass_all_refuted",
    "C78_cheby2_bandstop_refuted"
   ],
   "note": "proved for low-pass and band-pass; false for high-pass (36 times the promised gain at DC for order 2; wrong for every order above 1 and every edge) and band-stop (the zero filter for every order above 1), see the two _refuted theorems; so nothing is missing but the code is wrong there. The sos part assumes the roots are separated by the pairing tolerance"
  },
  {
   "property": "C79",
   "status": "proved",
   "theorems": [
    "C79_i0e_rounding",
    "C79_i0e_f64_f32",
    "C79_i0_rounding",
    "C79_i0e_special"
   ],
   "note": "the exponential used by i0 is a hypothesis (Rust does not specify its accuracy); everything else is rounded as IEEE 754 does"
  },
  {
   "property": "C80",
   "status": "proved",
   "theorems": [
    "C80_zero_phase",
    "C80_butter_zero_phase"
   ],
   "note": "exact arithmetic; the Butterworth corollary assumes the roots are separated by the pairing tolerance, as C67 does"
  },
  {
   "property": "C81",
   "status": "proved",
   "theorems": [
    "C81_nearest_pairing",
    "C81_worst_last",
    "C81_minimal_pairing",
    "C81_analog_worst_last"
   ],
   "note": "digital filters, and analog ones with an even number of poles and as many zeros (for the rest see C46). Roots are separated by the tolerance, as in C45"
  },
  {
   "property": "C82",
   "status": "proved",
   "theorems": [
    "C82_butter_clear",
    "C82_cheby1_clear",
    "C82_butter_sections",
    "C82_cheby1_sections"
   ],
   "note": "exact arithmetic with the tolerance of the code; discharges the separation hypothesis of C67, C71 and C80 from the arguments alone"
  },
  {
   "property": "C83",
   "status": "proved",
   "theorems": [
    "C83_convolve_rounding",
    "C83_correlate_rounding"
   ],
   "note": "the FFT is a parameter with an accuracy contract (S_FloatFft.v), which the correctly rounded transform meets (C83_contract_met)"
  },
  {
   "property": "C84",
   "status": "partial",
   "theorems": [
    "C84_resample_rounding",
    "C84_resample_empty_refuted"
   ],
   "note": "proved for every non-empty signal; for an empty one the results are not finite (refuted). Same FFT contract as C83"
  },
  {
   "property": "C85",
   "status": "proved",
   "theorems": [
    "C85_rms_rounding",
    "C85_lag_diff_rounding",
    "C85_rmssd_rounding",
    "C85_stdev_rounding",
    "C85_autocorr_rounding",
    "C85_autocorr_lag0_exact",
    "C85_zscore_rounding"
   ],
   "note": "error terms in S_FloatStats.v"
  },
  {
   "property": "C86",
   "status": "proved",
   "theorems": [
    "C86_mad_rounding",
    "C86_mod_zscore_rounding"
   ],
   "note": "error terms in S_FloatStats.v"
  },
  {
   "property": "C87",
   "status": "proved",
   "theorems": [
    "C87_savgol_rounding",
    "C87_savgol_poly_rounding"
   ],
   "note": "the least-squares solver is an argument of the model, as in C35 and C36; its error enters as delta"
  },
  {
   "property": "C88",
   "status": "proved",
   "theorems": [
    "C88_cheby1_analog"
   ],
   "note": "exact arithmetic"
  },
  {
   "property": "C89",
   "status": "proved",
   "theorems": [
    "C89_butter_monotone",
    "C89_cheby1_shape",
    "C89_band_onto"
   ],
   "note": "exact arithmetic"
  },
  {
   "property": "C90",
   "status": "proved",
   "theorems": [
    "C90_butter_zero_phase",
    "C90_cheby1_zero_phase"
   ],
   "note": "exact arithmetic; is_sort contract"
  },
  {
   "property": "C91",
   "status": "proved",
   "theorems": [
    "C91_cheby2_analog",
    "C91_cheby2_shape"
   ],
   "note": "exact arithmetic; high-pass and band-stop are refuted in C78"
  },
  {
   "property": "C92",
   "status": "proved",
   "theorems": [
    "C92_filtfilt_rounding"
   ],
   "note": "IEEE 754 round to nearest even; coefficients represented exactly, with respect to which the real result is taken"
  },
  {
   "property": "C93",
   "status": "proved",
   "theorems": [
    "C93_zi_rounding"
   ],
   "note": "IEEE 754 round to nearest even"
  },
  {
   "property": "C94",
   "status": "proved",
   "theorems": [
    "C94_zpk2tf_rounding",
    "C94_section_rounding"
   ],
   "note": "IEEE 754 round to nearest even; K does not depend on the format, the order or the sorting function"
  },
  {
   "property": "C95",
   "status": "proved",
   "theorems": [
    "C95_bilinear_rounding",
    "C95_lp2lp_rounding",
    "C95_lp2hp_rounding"
   ],
   "note": "IEEE 754 round to nearest even; powi is modelled as repeated multiplication. lp2bp and lp2bs take complex square roots, whose rounding depends on library functions: see C106 and C112"
  },
  {
   "property": "C96",
   "status": "proved",
   "theorems": [
    "C96_resample_sinusoid",
    "C96_resample_bandlimited",
    "C96_round_trip",
    "C96_nyquist_round_trip_halves"
   ],
   "note": "exact arithmetic; the FFT crate is assumed to compute the DFT, as in C63"
  },
  {
   "property": "C97",
   "status": "proved",
   "theorems": [
    "C97_mean_minimises",
    "C97_median_minimises",
    "C97_mean_median_stdev",
    "C97_zscore_bound",
    "C97_rms_mean_variance",
    "C97_median_robust",
    "C97_median_affine",
    "C97_median_monotone"
   ],
   "note": "exact arithmetic"
  },
  {
   "property": "C98",
   "status": "proved",
   "theorems": [
    "C98_filter_is_convolution",
    "C98_fir_section"
   ],
   "note": "exact arithmetic; the FFT crate is assumed to compute the DFT, as in C37"
  },
  {
   "property": "C99",
   "status": "proved",
   "theorems": [
    "C99_commutative",
    "C99_associative",
    "C99_identity_and_delay",
    "C99_linear",
    "C99_sum",
    "C99_correlate_reversed",
    "C99_autocorr_correlate"
   ],
   "note": "exact arithmetic; the FFT crate is assumed to compute the DFT, as in C37"
  },
  {
   "property": "C100",
   "status": "partial",
   "theorems": [
    "C100_split_partial",
    "C100_tolerance_refuted"
   ],
   "note": "exact arithmetic. C100_split_partial covers lists closed under exact conjugation, at every tolerance; for elements that pair only within the tolerance the property fails (C100_tolerance_refuted)"
  },
  {
   "property": "C101",
   "status": "proved",
   "theorems": [
    "C101_sorted",
    "C101_sorted_real",
    "C101_real_coefficients"
   ],
   "note": "floats at every format, roots finite"
  },
  {
   "property": "C102",
   "status": "proved",
   "theorems": [
    "C102_butter_rounding",
    "C102_cheby1_rounding"
   ],
   "note": "takes the accuracy of the library of elementary functions as a hypothesis, which a library rounding the exact values meets (rounding_library_accurate). Low-pass and high-pass designs with zeros-poles-gain or coefficient output; band-pass and band-stop designs, and sections, are in C106-C108 and C112"
  },
  {
   "property": "C103",
   "status": "proved",
   "theorems": [
    "C103_butter_response",
    "C103_cheby1_response"
   ],
   "note": "as C102: the accuracy of the library of elementary functions is a hypothesis; low-pass and high-pass, zeros-poles-gain and coefficient output"
  },
  {
   "property": "C104",
   "status": "proved",
   "theorems": [
    "C104_savgol_is_local_fit",
    "C104_fit_exists",
    "C104_savgol_symmetric",
    "C104_savgol_noise_gain"
   ],
   "note": "exact arithmetic; the least-norm property of the external solver is a hypothesis; derivative orders whose factorial fits in usize (C36)"
  },
  {
   "property": "C105",
   "status": "proved",
   "theorems": [
    "C105_power_complementary",
    "C105_mirrored",
    "C105_order_monotone"
   ],
   "note": "exact arithmetic"
  },
  {
   "property": "C106",
   "status": "proved",
   "theorems": [
    "C106_butter_band_rounding",
    "C106_cheby1_band_rounding"
   ],
   "note": "Zpk and Ba outputs; library of elementary functions accurate to E unit roundoffs (accurate_trans); the exact double pole is excluded by hypothesis, odd orders only"
  },
  {
   "property": "C107",
   "status": "proved",
   "theorems": [
    "C107_butter_band_response",
    "C107_cheby1_band_response"
   ],
   "note": "as C106; digital filters"
  },
  {
   "property": "C108",
   "status": "proved",
   "theorems": [
    "C108_butter_sos_rounding",
    "C108_cheby1_sos_rounding"
   ],
   "note": "library of elementary functions accurate to E unit roundoffs and symmetric (symmetric_trans); digital low-pass and high-pass; Chebyshev of order at least 1"
  },
  {
   "property": "C109",
   "status": "proved",
   "theorems": [
    "C109_butter_filter",
    "C109_cheby1_filter"
   ],
   "note": "as C108; filtering from rest"
  },
  {
   "property": "C110",
   "status": "proved",
   "theorems": [
    "C110_transfer_is_behaviour",
    "C110_section_order",
    "C110_realisations_agree",
    "C110_zero_phase"
   ],
   "note": "exact arithmetic"
  },
  {
   "property": "C111",
   "status": "proved",
   "theorems": [
    "C111_remainder_exact",
    "C111_square_float",
    "C111_square_f64_f32",
    "C111_square_not_finite"
   ],
   "note": "the exact constants of f32 and f64 meet the hypothesis (C111_two_pi_f32, C111_two_pi_f64)"
  },
  {
   "property": "C112",
   "status": "proved",
   "theorems": [
    "C112_butter_band_sos",
    "C112_cheby1_band_sos",
    "C112_butter_band_filter",
    "C112_cheby1_band_filter"
   ],
   "note": "as C106 and C108: the band edges give no double pole (odd orders), library accurate and symmetric; digital; Chebyshev of order at least 1"
  },
  {
   "property": "C113",
   "status": "proved",
   "theorems": [
    "C113_butter_filtfilt",
    "C113_cheby1_filtfilt",
    "C113_butter_band_filtfilt",
    "C113_cheby1_band_filtfilt"
   ],
   "note": "order at least 1; library accurate and symmetric; band edges without a double pole (odd orders)"
  },
  {
   "property": "C114",
   "status": "proved",
   "theorems": [
    "C114_butter_tone",
    "C114_cheby1_tone",
    "C114_butter_band_tone",
    "C114_cheby1_band_tone"
   ],
   "note": "order at least 1; library accurate and symmetric; band edges without a double pole (odd orders)"
  },
  {
   "property": "C115",
   "status": "proved",
   "theorems": [
    "C115_cheby2_rounding",
    "C115_cheby2_response",
    "C115_cheby2_sections",
    "C115_cheby2_filter",
    "C115_cheby2_tone",
    "C115_cheby2_filtfilt"
   ],
   "note": "low-pass, order at least 1; library accurate, and symmetric for sections"
  },
  {
   "property": "C116",
   "status": "proved",
   "theorems": [
    "C116_butter_zero_phase",
    "C116_cheby1_zero_phase",
    "C116_butter_band_zero_phase",
    "C116_cheby1_band_zero_phase",
    "C116_cheby2_zero_phase"
   ],
   "note": "order at least 1; library accurate and symmetric; band edges without a double pole (odd orders)"
  },
  {
   "property": "C117",
   "status": "proved",
   "theorems": [
    "C117_butter_analog_sections",
    "C117_cheby1_analog_sections",
    "C117_analog_sections_refuted"
   ],
   "note": "says what the code returns for each band type; for low-pass and band-pass that is not the filter asked for (C117_analog_sections_refuted, see also C68). C117_low_order and C117_band_order5 show the condition is met"
  },
  {
   "property": "C118",
   "status": "proved",
   "theorems": [
    "C118_cheby2_clear",
    "C118_cheby2_sections"
   ],
   "note": "low-pass and band-pass (the other two band types are wrong, see C78); C118_lowpass_ex and C118_bandpass_ex show the condition is met"
  },
  {
   "property": "C119",
   "status": "proved",
   "theorems": [
    "C119_cheby2_band_rounding",
    "C119_cheby2_band_response",
    "C119_cheby2_band_sections",
    "C119_cheby2_band_filter",
    "C119_cheby2_band_tone",
    "C119_cheby2_band_filtfilt",
    "C119_cheby2_band_zero_phase"
   ],
   "note": "order at least 1; library accurate, and symmetric for sections; band edges without a double pole (odd orders)"
  },
  {
   "property": "C120",
   "status": "proved",
   "theorems": [
    "C120_butter_mixture",
    "C120_cheby1_mixture",
    "C120_butter_band_mixture",
    "C120_cheby1_band_mixture",
    "C120_cheby2_mixture",
    "C120_cheby2_band_mixture",
    "C120_butter_zero_phase_mixture",
    "C120_cheby1_zero_phase_mixture",
    "C120_butter_band_zero_phase_mixture",
    "C120_cheby1_band_zero_phase_mixture",
    "C120_cheby2_zero_phase_mixture",
    "C120_cheby2_band_zero_phase_mixture"
   ],
   "note": "order at least 1; library accurate and symmetric; band edges without a double pole (odd orders)"
  },
  {
   "property": "C121",
   "status": "proved",
   "theorems": [
    "C121_energy_and_gain",
    "C121_butter_energy",
    "C121_cheby1_energy",
    "C121_cheby2_energy",
    "C121_butter_energy_in_floats",
    "C121_cheby1_energy_in_floats",
    "C121_butter_band_energy_in_floats",
    "C121_cheby1_band_energy_in_floats",
    "C121_cheby2_energy_in_floats",
    "C121_cheby2_band_energy_in_floats"
   ],
   "note": "order at least 1; exact designs clear of the tolerance of the section conversion (C82, C118); in floats library accurate and symmetric, band edges without a double pole (odd orders)"
  },
  {
   "property": "C122",
   "status": "proved",
   "theorems": [
    "C122_sosfilt_never_recovers",
    "C122_sosfilt_nan",
    "C122_sosfiltfilt_all_lost",
    "C122_statistics",
    "C122_savgol",
    "C122_nan_edge_accepted"
   ],
   "note": "every binary format; the NaN edge for Butterworth low-pass and high-pass designs in zeros-poles form, with a tangent that maps NaN to NaN"
  },
  {
   "property": "C123",
   "status": "proved",
   "theorems": [
    "C123_peak_and_impulse_response",
    "C123_peak_gain",
    "C123_peak_above_response",
    "C123_bounded_only_if_cancelled",
    "C123_bounded_iff_stable",
    "C123_peak_in_floats"
   ],
   "note": "exact arithmetic except for C123_peak_in_floats, which compares the float run with the exact one through C77"
  },
  {
   "property": "C124",
   "status": "proved",
   "theorems": [
    "C124_zero_phase_kernel",
    "C124_reversal",
    "C124_kernel_in_floats"
   ],
   "note": "exact arithmetic except for C124_kernel_in_floats, which goes through C92"
  },
  {
   "property": "C125",
   "status": "proved",
   "theorems": [
    "C125_cheby2_analog_sections"
   ],
   "note": "exact arithmetic; the statement says exactly when the output is right"
  },
  {
   "property": "C126",
   "status": "proved",
   "theorems": [
    "C126_rounding_follows_signal",
    "C126_section_follows_signal",
    "C126_dies_out",
    "C126_limit_cycle_bound",
    "C126_silence_not_reached"
   ],
   "note": "C126_silence_not_reached shows that exact zero need not be reached, so the limit cycle bound is of the right order"
  },
  {
   "property": "C127",
   "status": "proved",
   "theorems": [
    "C127_sosfilt_mirror",
    "C127_sosfiltfilt_mirror",
    "C127_stats_mirror",
    "C127_autocorr_mirror"
   ],
   "note": "no hypotheses on the floats"
  },
  {
   "property": "C128",
   "status": "proved",
   "theorems": [
    "C128_delay"
   ],
   "note": ""
  },
  {
   "property": "C129",
   "status": "proved",
   "theorems": [
    "C129_not_above_le",
    "C129_mean_monotone",
    "C129_mean_monotone_finite",
    "C129_median_monotone",
    "C129_rms_monotone",
    "C129_zscore_order",
    "C129_mod_zscore_order",
    "C129_sosfilt_monotone"
   ],
   "note": "C129_sign_needed: without the signs of the coefficients the order is not kept"
  },
  {
   "property": "C130",
   "status": "proved",
   "theorems": [
    "C130_order_pairs",
    "C130_reversal",
    "C130_mirror"
   ],
   "note": "the first two in exact arithmetic, for a solver that returns the least-norm solution"
  },
  {
   "property": "C131",
   "status": "proved",
   "theorems": [
    "C131_two_steps",
    "C131_up_and_back",
    "C131_mean_kept"
   ],
   "note": "exact arithmetic, given an FFT that computes the DFT"
  },
  {
   "property": "C132",
   "status": "proved",
   "theorems": [
    "C132_scale",
    "C132_unit_free",
    "C132_savgol"
   ],
   "note": "C132_underflow_ex: below the range the mean is not scaled exactly"
  },
  {
   "property": "C133",
   "status": "proved",
   "theorems": [
    "C133_filter_exact",
    "C133_fir_exact",
    "C133_mean_nearest",
    "C133_mean_order",
    "C133_lag_diff_exact"
   ],
   "note": "C133_limit_ex: beyond 2^53 a running sum of f64 rounds"
  },
  {
   "property": "C134",
   "status": "proved",
   "theorems": [
    "C134_ratio",
    "C134_default",
    "C134_ratio_floats",
    "C134_default_floats"
   ],
   "note": "about iirfilter_dyn; butter_dyn, cheby1_dyn and cheby2_dyn call it with fixed family"
  },
  {
   "property": "C135",
   "status": "proved",
   "theorems": [
    "C135_odd_ext_rows",
    "C135_odd_ext_cols",
    "C135_companion"
   ],
   "note": "C135_overflow_ex: beyond the bound the extension is infinite"
  },
  {
   "property": "C136",
   "status": "proved",
   "theorems": [
    "C136_turned",
    "C136_backwards",
    "C136_exchange",
    "C136_power"
   ],
   "note": "exact arithmetic, given an FFT that computes the DFT"
  },
  {
   "property": "C137",
   "status": "proved",
   "theorems": [
    "C137_bounded",
    "C137_delay_found",
    "C137_delay_noise",
    "C137_delay_floats"
   ],
   "note": "the first three in exact arithmetic, given an FFT that computes the DFT; in floats an FFT with the accuracy contract of C83; C137_zero_ex: a pulse of zeros has no place"
  },
  {
   "property": "C138",
   "status": "proved",
   "theorems": [
    "C138_product",
    "C138_correlate",
    "C138_sizes"
   ],
   "note": "exact arithmetic, given an FFT that computes the DFT"
  },
  {
   "property": "C139",
   "status": "proved",
   "theorems": [
    "C139_savgol_convolve"
   ],
   "note": "exact arithmetic, given an FFT that computes the DFT"
  },
  {
   "property": "C140",
   "status": "proved",
   "theorems": [
    "C140_cascade"
   ],
   "note": "exact arithmetic, given an FFT that computes the DFT and a sort that sorts"
  },
  {
   "property": "C141",
   "status": "proved",
   "theorems": [
    "C141_mean_join",
    "C141_variance_join",
    "C141_median_join",
    "C141_mad_robust",
    "C141_outlier"
   ],
   "note": "exact arithmetic"
  },
  {
   "property": "C142",
   "status": "proved",
   "theorems": [
    "C142_symmetry",
    "C142_pascal",
    "C142_perm_comb",
    "C142_comb_rep",
    "C142_stirling"
   ],
   "note": "machine integers, overflow checks on"
  },
  {
   "property": "C143",
   "status": "proved",
   "theorems": [
    "C143_differences",
    "C143_autocorr",
    "C143_rms"
   ],
   "note": "exact arithmetic, given an FFT that computes the DFT"
  },
  {
   "property": "C144",
   "status": "proved",
   "theorems": [
    "C144_sections"
   ],
   "note": "exact arithmetic; filters within the tolerance of the real axis panic (C45)"
  },
  {
   "property": "C145",
   "status": "proved",
   "theorems": [
    "C145_ba_run"
   ],
   "note": "exact arithmetic"
  },
  {
   "property": "C146",
   "status": "proved",
   "theorems": [
    "C146_mad_stdev",
    "C146_mad_stdev_sharp",
    "C146_range",
    "C146_zscore_count",
    "C146_rmssd"
   ],
   "note": "exact arithmetic"
  },
  {
   "property": "C147",
   "status": "proved",
   "theorems": [
    "C147_peak",
    "C147_mass",
    "C147_energy",
    "C147_average"
   ],
   "note": "exact arithmetic; rustfft replaced by its contract"
  },
  {
   "property": "C148",
   "status": "proved",
   "theorems": [
    "C148_moving_average",
    "C148_no_overshoot",
    "C148_slope"
   ],
   "note": "exact arithmetic; lstsq replaced by its contract"
  },
  {
   "property": "C149",
   "status": "proved",
   "theorems": [
    "C149_binomial",
    "C149_row",
    "C149_row_returns",
    "C149_hockey_stick"
   ],
   "note": "machine integers"
  }
 ]
}