{
 "claims": [
  {
   "property": "C01",
   "status": "proved",
   "theorems": [
    "C01_partition_loop_tiles",
    "C01_partition_loop_rejects"
   ],
   "note": ""
  },
  {
   "property": "C02",
   "status": "proved",
   "theorems": [
    "C02_map_reduce_serial",
    "C02_map_reduce_safe"
   ],
   "note": "Interleaving model of the OpenMP region; OpenMP runtime trusted."
  },
  {
   "property": "C03",
   "status": "proved",
   "theorems": [
    "C03_host_loop_indices",
    "C03_grid_loop_indices",
    "C03_host_loop_refuted"
   ],
   "note": "The 2^31 wrap-around is proved as a refutation."
  },
  {
   "property": "C17",
   "status": "proved",
   "theorems": [
    "C17_counts_invariant",
    "C17_valid_invariant",
    "C17_frame",
    "C17_set_counts_refuted",
    "C17_negative_shift_refuted"
   ],
   "note": "Invariant over arbitrary operation lists; refuted outside the range conditions (negative counts, negative shift)."
  },
  {
   "property": "C18",
   "status": "proved",
   "theorems": [
    "C18_low",
    "C18_high",
    "C18_low_high_determine"
   ],
   "note": "All n, including negative and past the end."
  },
  {
   "property": "C19",
   "status": "proved",
   "theorems": [
    "C19_set_known",
    "C19_reduce_known",
    "C19_set_scalar",
    "C19_assign",
    "C19_copy"
   ],
   "note": "Exact results and exact throw conditions."
  },
  {
   "property": "C20",
   "status": "proved",
   "theorems": [
    "C20_shifted_add",
    "C20_shifted_add_rejects"
   ],
   "note": "All six public forms."
  },
  {
   "property": "C21",
   "status": "proved",
   "theorems": [
    "C21_mul",
    "C21_sqr",
    "C21_mul_known_zero_refuted",
    "C21_fft_kernel"
   ],
   "note": "For any kernel meeting kernel_ok; the known-zero case throws."
  },
  {
   "property": "C22",
   "status": "proved",
   "theorems": [
    "C22_mul1p",
    "C22_mul1p_rejects",
    "C22_mul1p_known_zero_refuted"
   ],
   "note": "For any kernel meeting kernel_ok."
  },
  {
   "property": "C23",
   "status": "proved",
   "theorems": [
    "C23_elementwise",
    "C23_integral_derivative"
   ],
   "note": ""
  },
  {
   "property": "C25",
   "status": "proved",
   "theorems": [
    "C25_newton_schedule",
    "C25_newton_rejects"
   ],
   "note": "Full call trace of newton_iterate and minimality of the number of steps."
  },
  {
   "property": "C26",
   "status": "proved",
   "theorems": [
    "C26_inv"
   ],
   "note": "Any kernel_ok kernel, any bases_ok base cases."
  },
  {
   "property": "C27",
   "status": "proved",
   "theorems": [
    "C27_inv1p",
    "C27_inv1p_rejects",
    "C27_inv1p_known_zero_refuted"
   ],
   "note": ""
  },
  {
   "property": "C28",
   "status": "proved",
   "theorems": [
    "C28_div",
    "C28_div_known_zero_refuted"
   ],
   "note": ""
  },
  {
   "property": "C29",
   "status": "proved",
   "theorems": [
    "C29_div1p",
    "C29_div1p_rejects"
   ],
   "note": ""
  },
  {
   "property": "C30",
   "status": "proved",
   "theorems": [
    "C30_log",
    "C30_log_rejects"
   ],
   "note": ""
  },
  {
   "property": "C31",
   "status": "proved",
   "theorems": [
    "C31_log1p",
    "C31_log1p_rejects"
   ],
   "note": ""
  },
  {
   "property": "C32",
   "status": "proved",
   "theorems": [
    "C32_exp",
    "C32_exp_rejects"
   ],
   "note": ""
  },
  {
   "property": "C33",
   "status": "proved",
   "theorems": [
    "C33_expm1",
    "C33_expm1_rejects"
   ],
   "note": ""
  },
  {
   "property": "C34",
   "status": "proved",
   "theorems": [
    "C34_log1p_exp",
    "C34_log1p_exp_rejects"
   ],
   "note": ""
  },
  {
   "property": "C62",
   "status": "proved",
   "theorems": [
    "C62_inv_base",
    "C62_exp_base",
    "C62_bases_meet_spec",
    "C62_mul_base",
    "C62_sqr_base",
    "C62_product_in_place",
    "C62_aliasing_refuted",
    "C62_longer_refuted"
   ],
   "note": "All four base-case codelets; the generator's product is modelled as it runs, writing over its operand."
  },
  {
   "property": "C35",
   "status": "proved",
   "theorems": [
    "C35_implicit"
   ],
   "note": "Exact scalars; residual and directional derivative modulo the stated order."
  },
  {
   "property": "C36",
   "status": "proved",
   "theorems": [
    "C36_bottcher_step"
   ],
   "note": "Exact scalars; the area checks are an arbitrary acceptance test."
  },
  {
   "property": "C37",
   "status": "proved",
   "theorems": [
    "C37_iterates",
    "C37_any_check",
    "C37_stable"
   ],
   "note": "k <= 28; uniqueness and stability across kernels and base cases."
  },
  {
   "property": "C39",
   "status": "proved",
   "theorems": [
    "C39_powers",
    "C39_others_throw",
    "C39_zero_refuted"
   ],
   "note": "Count 0 is undefined behaviour; the most negative count is accepted as k = 63."
  },
  {
   "property": "C04",
   "status": "proved",
   "theorems": [
    "C04_bitrev",
    "C04_length_one_undefined"
   ],
   "note": ""
  },
  {
   "property": "C05",
   "status": "proved",
   "theorems": [
    "C05_round_trips",
    "C05_natural_order"
   ],
   "note": ""
  },
  {
   "property": "C06",
   "status": "proved",
   "theorems": [
    "C06_twiddles",
    "C06_real_twiddles"
   ],
   "note": "Table entries are the exact roots; rounding of the entries is C52."
  },
  {
   "property": "C07",
   "status": "proved",
   "theorems": [
    "C07_fft",
    "C07_fft_throws",
    "C07_one_refuted"
   ],
   "note": "2 <= n <= 2^29; n = 1 is undefined behaviour."
  },
  {
   "property": "C08",
   "status": "proved",
   "theorems": [
    "C08_ifft",
    "C08_round_trip"
   ],
   "note": "2 <= n <= 2^29."
  },
  {
   "property": "C09",
   "status": "proved",
   "theorems": [
    "C09_rfft",
    "C09_rfft_throws",
    "C09_two_refuted"
   ],
   "note": "4 <= n <= 2^30; n = 2 is undefined behaviour."
  },
  {
   "property": "C10",
   "status": "proved",
   "theorems": [
    "C10_round_trip",
    "C10_irfft",
    "C10_two_refuted"
   ],
   "note": "4 <= n <= 2^30; n = 2 is undefined behaviour."
  },
  {
   "property": "C11",
   "status": "proved",
   "theorems": [
    "C11_srfft",
    "C11_srfft_throws",
    "C11_two_refuted"
   ],
   "note": "4 <= n <= 2^29; n = 2 is undefined behaviour."
  },
  {
   "property": "C12",
   "status": "proved",
   "theorems": [
    "C12_round_trip",
    "C12_isrfft",
    "C12_accumulate",
    "C12_two_refuted"
   ],
   "note": "4 <= n <= 2^29; n = 2 is undefined behaviour."
  },
  {
   "property": "C13",
   "status": "proved",
   "theorems": [
    "C13_fft_mul",
    "C13_fft_mul_wide",
    "C13_fft_mul_throws",
    "C13_wrap_refuted"
   ],
   "note": "Over one memory, with any overlap of x, y and z."
  },
  {
   "property": "C14",
   "status": "proved",
   "theorems": [
    "C14_fft_addmul",
    "C14_fft_addmul_throws"
   ],
   "note": "Over one memory, with any overlap and any effect of the callback."
  },
  {
   "property": "C15",
   "status": "proved",
   "theorems": [
    "C15_fft_sqr",
    "C15_fft_sqr_throws"
   ],
   "note": "Over one memory, with any overlap."
  },
  {
   "property": "C16",
   "status": "proved",
   "theorems": [
    "C16_in_bounds",
    "C16_out_of_bounds",
    "C16_lookup"
   ],
   "note": ""
  },
  {
   "property": "C53",
   "status": "proved",
   "theorems": [
    "C53_fp_ops",
    "C53_pow",
    "C53_pow_one_refuted",
    "C53_sig_ops",
    "C53_sig_int",
    "C53_unsmall"
   ],
   "note": "pow needs p > 1."
  },
  {
   "property": "C54",
   "status": "proved",
   "theorems": [
    "C54_inv",
    "C54_inv_prime",
    "C54_sig_inv"
   ],
   "note": ""
  },
  {
   "property": "C55",
   "status": "proved",
   "theorems": [
    "C55_has_sqrt",
    "C55_sqrt",
    "C55_sqrt_deterministic",
    "C55_sqrt_draw"
   ],
   "note": "Random draws are an arbitrary list; termination needs one suitable draw, which exists."
  },
  {
   "property": "C56",
   "status": "proved",
   "theorems": [
    "C56_is_prime_sound",
    "C56_is_prime_prime",
    "C56_large_primes",
    "C56_all_primes_refuted"
   ],
   "note": "Primes above 7 that divide a base (13, 19, 73, ...) are rejected."
  },
  {
   "property": "C57",
   "status": "proved",
   "theorems": [
    "C57_operators",
    "C57_div",
    "C57_sum",
    "C57_signatures",
    "C57_div_zero"
   ],
   "note": "Value part assumes no signature collision among the expressions offered to the CSE table; int literals exclude INT_MIN."
  },
  {
   "property": "C58",
   "status": "proved",
   "theorems": [
    "C58_history",
    "C58_sharing",
    "C58_inexact_refuted"
   ],
   "note": "Inexact mode conflates +, - and * of the same operands."
  },
  {
   "property": "C59",
   "status": "proved",
   "theorems": [
    "C59_block",
    "C59_total",
    "C59_no_count_refuted"
   ],
   "note": "Total when equal signatures mean equal expressions; an assertion failure is exhibited otherwise."
  },
  {
   "property": "C60",
   "status": "proved",
   "theorems": [
    "C60_show",
    "C60_constructors",
    "C60_block",
    "C60_int_division_refuted"
   ],
   "note": "Excludes arithmetic on two literals and division of a literal (printed as int arithmetic)."
  },
  {
   "property": "C45",
   "status": "proved",
   "theorems": [
    "C45_two_sum",
    "C45_two_sum_range",
    "C45_two_prod",
    "C45_underflow_refuted"
   ],
   "note": "two_prod needs a product that is zero or at least 2^-969 in magnitude."
  },
  {
   "property": "C46",
   "status": "proved",
   "theorems": [
    "C46_add",
    "C46_range",
    "C46_add2",
    "C46_sub",
    "C46_add_zero",
    "C46_sub_self",
    "C46_add_zero_eq_refuted"
   ],
   "note": "x + 0 keeps the value; componentwise equality is refuted for (1, 2^-52)."
  },
  {
   "property": "C47",
   "status": "proved",
   "theorems": [
    "C47_total",
    "C47_mul",
    "C47_mul2_terms",
    "C47_mul2"
   ],
   "note": "Any n; explicit constant for n = 2."
  },
  {
   "property": "C48",
   "status": "proved",
   "theorems": [
    "C48_sign",
    "C48_neg",
    "C48_abs",
    "C48_half",
    "C48_twice",
    "C48_ldexp",
    "C48_bool",
    "C48_eq",
    "C48_eq_int",
    "C48_double",
    "C48_sign_invalid_refuted"
   ],
   "note": ""
  },
  {
   "property": "C49",
   "status": "proved",
   "theorems": [
    "C49_exact",
    "C49_top_refuted"
   ],
   "note": ""
  },
  {
   "property": "C50",
   "status": "proved",
   "theorems": [
    "C50_safe",
    "C50_total",
    "C50_list_form"
   ],
   "note": "strtod and printf enter through their round-trip contract."
  },
  {
   "property": "C40",
   "status": "proved",
   "theorems": [
    "C40_resume",
    "C40_bottcher"
   ],
   "note": "Any step that depends on the content of g only; instantiated with the Bottcher step over exact scalars. Scalars must survive printing and parsing (C50)."
  },
  {
   "property": "C41",
   "status": "proved",
   "theorems": [
    "C41_round_trip",
    "C41_reserved_refuted"
   ],
   "note": "Scalar printing and parsing enter through their contract (C50); any batch size, thread count and schedule."
  },
  {
   "property": "C42",
   "status": "proved",
   "theorems": [
    "C42_cut_numbers",
    "C42_cut_lines",
    "C42_cut_header",
    "C42_cut_early",
    "C42_undetected_refuted"
   ],
   "note": "Every character position."
  },
  {
   "property": "C43",
   "status": "proved",
   "theorems": [
    "C43_returns",
    "C43_no_ub",
    "C43_rejects",
    "C43_restart_refuted"
   ],
   "note": "A comment after the header restarts the numbers."
  },
  {
   "property": "C44",
   "status": "proved",
   "theorems": [
    "C44_header",
    "C44_fits",
    "C44_series",
    "C44_narrow_refuted"
   ],
   "note": "Against a separate npy reader; shapes are narrowed to int from 2^31 terms on."
  },
  {
   "property": "C69",
   "status": "proved",
   "theorems": [
    "C69_convert",
    "C69_refuses"
   ],
   "note": ""
  },
  {
   "property": "C38",
   "status": "proved",
   "theorems": [
    "C38_area",
    "C38_threads",
    "C38_decreases",
    "C38_result_decreases"
   ],
   "note": "Arb enters through its enclosure contract; finite results."
  },
  {
   "property": "C51",
   "status": "proved",
   "theorems": [
    "C51_nearest",
    "C51_precisions",
    "C51_stops",
    "C51_returns",
    "C51_unique",
    "C51_accuracy",
    "C51_pi",
    "C51_sqrt",
    "C51_twiddle",
    "C51_unbounded_refuted"
   ],
   "note": "Arb enters through its enclosure contract, met by an interval instance. An enclosure without a finite lower end returns minus infinity."
  },
  {
   "property": "C52",
   "status": "proved",
   "theorems": [
    "C52_twiddles",
    "C52_defined",
    "C52_cover",
    "C52_empty_refuted"
   ],
   "note": "Tables of 1 to 2^31-1 entries; size 0 divides by zero."
  },
  {
   "property": "C67",
   "status": "proved",
   "theorems": [
    "C67_over_valid",
    "C67_over_alpha",
    "C67_over_between",
    "C67_clear",
    "C67_opaque",
    "C67_assoc",
    "C67_average_valid",
    "C67_average_between",
    "C67_average_repeat",
    "C67_average_order"
   ],
   "note": "Exact arithmetic."
  },
  {
   "property": "C68",
   "status": "proved",
   "theorems": [
    "C68_index",
    "C68_samples",
    "C68_canvas",
    "C68_points",
    "C68_render",
    "C68_circle",
    "C68_border",
    "C68_write",
    "C68_bytes",
    "C68_saturates",
    "C68_uninit_refuted",
    "C68_far_refuted"
   ],
   "note": "Exact arithmetic for coordinates. Needs written colours and boxes within reach of an int; both refuted otherwise."
  },
  {
   "property": "C63",
   "status": "proved",
   "theorems": [
    "C63_intersect",
    "C63_inv",
    "C63_div",
    "C63_empty",
    "C63_contract"
   ],
   "note": "For every ball arithmetic meeting the contract poly_ok; C63_contract shows that one exists over the reals."
  },
  {
   "property": "C64",
   "status": "proved",
   "theorems": [
    "C64_log",
    "C64_log_formal",
    "C64_log1p",
    "C64_log1p_shift",
    "C64_exp_mean",
    "C64_box_exp_ok",
    "C64_exp_refuted"
   ],
   "note": "The logarithms are sound. The exponential is sound under a mean-value condition and refuted without it."
  },
  {
   "property": "C65",
   "status": "proved",
   "theorems": [
    "C65_shift",
    "C65_encloses"
   ],
   "note": "Needs s >= 0."
  },
  {
   "property": "C66",
   "status": "proved",
   "theorems": [
    "C66_schedule",
    "C66_zero_refuted"
   ],
   "note": "n0 >= 1; from n0 = 0 the loop never ends."
  },
  {
   "property": "C24",
   "status": "proved",
   "theorems": [
    "C24_mul",
    "C24_sqr",
    "C24_mul1p",
    "C24_elementwise",
    "C24_shifted_view_refuted",
    "C24_self_assignment_refuted",
    "C24_alias_exact",
    "C24_rejects",
    "C24_separate"
   ],
   "note": "mul and sqr for any overlap; the loops for the same start in any order, or any view in ascending order. C24_separate covers every algorithm with its temporaries."
  },
  {
   "property": "C61",
   "status": "proved",
   "theorems": [
    "C61_gradient",
    "C61_real",
    "C61_inputs_move",
    "C61_transpose",
    "C61_unreached",
    "C61_sizes",
    "C61_repeated_output_refuted",
    "C61_nested_output_refuted",
    "C61_shared_signature_refuted"
   ],
   "note": "Any polynomial circuit, not only linear ones; inputs are variables or fields of complex variables; calls and fields may occur where they do not involve the input."
  },
  {
   "property": "C70",
   "status": "proved",
   "theorems": [
    "C70_forward_s",
    "C70_forward_first",
    "C70_backward_s",
    "C70_backward_first",
    "C70_constant_twiddle_refuted"
   ],
   "note": "Exact real arithmetic. The circuit conditions of the backward theorems are decidable (GenCheck.v) and hold for every codelet."
  },
  {
   "property": "C71",
   "status": "proved",
   "theorems": [
    "C71_body_s",
    "C71_body_is",
    "C71_body_first",
    "C71_body_last",
    "C71_srfft",
    "C71_isrfft"
   ],
   "note": "Exact real arithmetic; integers of the loop bodies are unbounded. The conditions on the generator's run are decidable (GenFast.v) and hold for all twelve codelets with the example signatures."
  },
  {
   "property": "C72",
   "status": "proved",
   "theorems": [
    "C72_add",
    "C72_sub",
    "C72_mul",
    "C72_add_error",
    "C72_sub_error",
    "C72_mul_error",
    "C72_neg_sub_refuted"
   ],
   "note": "IEEE doubles with every rounding. The condition on signatures is decidable and shown to hold for n = 2, 3, 4 with a hash."
  },
  {
   "property": "C73",
   "status": "proved",
   "theorems": [
    "C73_mul",
    "C73_sqr"
   ],
   "note": "Exact arithmetic in any field. The condition on signatures is decidable and shown to hold for n = 8 with the example signatures."
  },
  {
   "property": "C74",
   "status": "proved",
   "theorems": [
    "C74_exp",
    "C74_safe",
    "C74_rejects",
    "C74_short_refuted"
   ],
   "note": "Exact arithmetic. The case nonzero < known is refuted: the program throws."
  },
  {
   "property": "C75",
   "status": "proved",
   "theorems": [
    "C75_inv",
    "C75_exp",
    "C75_bases",
    "C75_series"
   ],
   "note": "Exact arithmetic in any field of characteristic zero. The condition on signatures is decidable and shown to hold with the example signatures."
  },
  {
   "property": "C76",
   "status": "proved",
   "theorems": [
    "C76_mul",
    "C76_addmul",
    "C76_sqr",
    "C76_kernel",
    "C76_bottcher"
   ],
   "note": "Real arithmetic; the arrays of one call are separate. One set of generated programs is shown to meet all hypotheses."
  },
  {
   "property": "C77",
   "status": "proved",
   "theorems": [
    "C77_inv_total",
    "C77_div_total",
    "C77_inv",
    "C77_div",
    "C77_div_abs",
    "C77_div_int",
    "C77_div_zero",
    "C77_range_refuted"
   ],
   "note": "Error bounds for two components, away from overflow and underflow of the operands; totality for any number."
  },
  {
   "property": "C78",
   "status": "proved",
   "theorems": [
    "C78_fields",
    "C78_prime",
    "C78_largest",
    "C78_ends",
    "C78_complex",
    "C78_sig_inv",
    "C78_separates"
   ],
   "note": "The whole search modelled, with the draws a parameter; primality by Pocklington certificates checked in Coq. The fairness hypothesis of C78_ends is shown satisfiable; that mt19937 with seed 7 meets it is not modelled."
  },
  {
   "property": "C79",
   "status": "proved",
   "theorems": [
    "C79_fft",
    "C79_ifft",
    "C79_round_trip",
    "C79_fft_bounded",
    "C79_overflow_refuted"
   ],
   "note": "IEEE doubles of Flocq without contraction of a*b+c to fused operations; overflow excluded by a bound on the inputs, underflow included."
  },
  {
   "property": "C80",
   "status": "proved",
   "theorems": [
    "C80_solution",
    "C80_areas",
    "C80_areas_skip",
    "C80_total",
    "C80_expm1",
    "C80_log1p_exp",
    "C80_no_ub",
    "C80_rejects",
    "C80_contract"
   ],
   "note": "For skip_refine = false, the value in poly.cc, the enclosure is conditional on the two refined exponential functions enclosing (exp_sound, lpe_sound); for true it is unconditional from the contract. One ball arithmetic is shown to meet the hypotheses of each theorem, for either value of the switch."
  },
  {
   "property": "C81",
   "status": "proved",
   "theorems": [
    "C81_measures",
    "C81_zero",
    "C81_symmetric",
    "C81_known",
    "C81_list",
    "C81_poly",
    "C81_tolerance",
    "C81_exact",
    "C81_nan_refuted",
    "C81_infinite_refuted"
   ],
   "note": "IEEE doubles of Flocq; NaN payloads are not distinguished. The midpoints of a Poly enter as the doubles arf_get_d returns. The refuted statements show that finiteness is needed."
  },
  {
   "property": "C82",
   "status": "proved",
   "theorems": [
    "C82_log",
    "C82_header",
    "C82_touches",
    "C82_refused",
    "C82_status",
    "C82_k",
    "C82_retry_refuted"
   ],
   "note": "The computations are lists of actions with an ending; path names are compared as strings; argparse, failures of the streams and BREAK_ON_ASSERT are outside. Hypotheses on the start: nothing shown yet, nothing exists below a path that does not exist, and files can be created in a new directory."
  },
  {
   "property": "C83",
   "status": "proved",
   "theorems": [
    "C83_status",
    "C83_total",
    "C83_leaves",
    "C83_unknown_refuted",
    "C83_assert_throw",
    "C83_assert"
   ],
   "note": "What is printed is kept as data without texts, colours and times; on_shutdown functions are not modelled."
  },
  {
   "property": "C84",
   "status": "proved",
   "theorems": [
    "C84_mul",
    "C84_sqr",
    "C84_mul_exact",
    "C84_sqr_exact",
    "C84_same_refuted"
   ],
   "note": "The text that the generator of C73 writes for n = 8, run by a machine whose operations round. C84_mul, C84_sqr: error bound, finiteness and frame. C84_mul_exact, C84_sqr_exact: no error on integers. C84_same_refuted: sqr_base(x) and mul_base(x, x) differ in the last bit. Assumes the text is the one written without accidental signature collisions."
  },
  {
   "property": "C85",
   "status": "proved",
   "theorems": [
    "C85_cache",
    "C85_once",
    "C85_each_level_once",
    "C85_safe",
    "C85_shutdown",
    "C85_dangling_refuted",
    "C85_big30_refuted"
   ],
   "note": "The values of the roots are a parameter with the contract `twiddles` (symmetries of the circle, the tables hold the values); q_twiddles shows that exact angles meet it. One thread, one scalar type, one heap for both memories."
  },
  {
   "property": "C86",
   "status": "proved",
   "theorems": [
    "C86_values",
    "C86_one_owner",
    "C86_leaks",
    "C86_print_refuted",
    "C86_self_move_refuted"
   ],
   "note": "One model for the six classes, which differ only in the library called; FLINT's init, clear, set, swap and zero are modelled with at most one block per struct."
  },
  {
   "property": "C87",
   "status": "proved",
   "theorems": [
    "C87_series",
    "C87_one_owner",
    "C87_no_leak",
    "C87_in_room",
    "C87_dangling_refuted",
    "C87_overrun_refuted",
    "C87_self_assign_refuted"
   ],
   "note": "Series on the host with trivially destructible elements; allocations do not fail. The arithmetic on series is modelled elsewhere (SeriesModel.v, AliasModel.v)."
  }
 ]
}