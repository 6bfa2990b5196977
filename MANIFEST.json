{
 "claims": [
  {
   "property": "C01",
   "status": "proved",
   "theorems": [
    "C01_int_bits_int",
    "C01_bits_int_bits",
    "C01_orders_are_reversals",
    "C01_bit_values"
   ],
   "note": ""
  },
  {
   "property": "C02",
   "status": "proved",
   "theorems": [
    "C02_unary_round_trip",
    "C02_unary_inverse",
    "C02_unary_accepts_iff"
   ],
   "note": ""
  },
  {
   "property": "C03",
   "status": "proved",
   "theorems": [
    "C03_fibonacci_round_trip",
    "C03_fibonacci_inverse",
    "C03_codeword_shape"
   ],
   "note": ""
  },
  {
   "property": "C04",
   "status": "proved",
   "theorems": [
    "C04_is_prefix_free"
   ],
   "note": ""
  },
  {
   "property": "C05",
   "status": "proved",
   "theorems": [
    "C05_sardinas_patterson",
    "C05_terminates",
    "C05_mcmillan",
    "C05_empty_codeword_refuted"
   ],
   "note": "For lists of non-empty words, as the property states. C05_empty_codeword_refuted records that the constructor also accepts empty codewords, for which the answer is wrong."
  },
  {
   "property": "C06",
   "status": "proved",
   "theorems": [
    "C06_from_lengths",
    "C06_symbols_round_trip",
    "C06_integer_round_trip",
    "C06_infer_block_size"
   ],
   "note": ""
  },
  {
   "property": "C07",
   "status": "proved",
   "theorems": [
    "C07_f2v_round_trip",
    "C07_f2v_decode_sound"
   ],
   "note": ""
  },
  {
   "property": "C08",
   "status": "proved",
   "theorems": [
    "C08_v2f_round_trip"
   ],
   "note": ""
  },
  {
   "property": "C09",
   "status": "proved",
   "theorems": [
    "C09_is_fully_covering",
    "C09_terminates"
   ],
   "note": ""
  },
  {
   "property": "C10",
   "status": "proved",
   "theorems": [
    "C10_huffman_complete",
    "C10_huffman_round_trip"
   ],
   "note": ""
  },
  {
   "property": "C11",
   "status": "proved",
   "theorems": [
    "C11_huffman_optimal",
    "C11_huffman_optimal_prefix_free"
   ],
   "note": ""
  },
  {
   "property": "C12",
   "status": "proved",
   "theorems": [
    "C12_fano",
    "C12_shannon",
    "C12_shannon_tolerance_refuted"
   ],
   "note": ""
  },
  {
   "property": "C13",
   "status": "proved",
   "theorems": [
    "C13_default_block_size",
    "C13_tunstall",
    "C13_pop_exists",
    "C13_not_maximal_refuted"
   ],
   "note": ""
  },
  {
   "property": "C14",
   "status": "proved",
   "theorems": [
    "C14_float_width",
    "C14_float_example",
    "C14_lz78_round_trip_float",
    "C14_lz78_round_trip",
    "C14_lz78_tokens_round_trip"
   ],
   "note": ""
  },
  {
   "property": "C15",
   "status": "proved",
   "theorems": [
    "C15_lzw_round_trip_float",
    "C15_lzw_round_trip"
   ],
   "note": ""
  },
  {
   "property": "C16",
   "status": "proved",
   "theorems": [
    "C16_lz77_round_trip_float",
    "C16_constructor",
    "C16_lz77_round_trip",
    "C16_large_alphabet_refuted",
    "C16_longest_match"
   ],
   "note": ""
  },
  {
   "property": "C17",
   "status": "proved",
   "theorems": [
    "C17_lzss_round_trip_float",
    "C17_lzss_round_trip",
    "C17_large_alphabet_refuted"
   ],
   "note": ""
  },
  {
   "property": "C18",
   "status": "proved",
   "theorems": [
    "C18_ring_laws",
    "C18_addition_coefficients",
    "C18_convolution",
    "C18_degree",
    "C18_power"
   ],
   "note": ""
  },
  {
   "property": "C19",
   "status": "proved",
   "theorems": [
    "C19_divmod",
    "C19_by_zero_raises"
   ],
   "note": ""
  },
  {
   "property": "C20",
   "status": "proved",
   "theorems": [
    "C20_gcd",
    "C20_gcd_list",
    "C20_xgcd"
   ],
   "note": ""
  },
  {
   "property": "C21",
   "status": "proved",
   "theorems": [
    "C21_domain_lcm",
    "C21_lcm_two",
    "C21_lcm_common_multiple",
    "C21_lcm_one_refuted",
    "C21_lcm_three_refuted",
    "C21_lcm_raises",
    "C21_lcm_characterisation"
   ],
   "note": "The documented property (lcm is always the least common multiple) is FALSE of the code (C21_lcm_one_refuted, C21_lcm_three_refuted: product // gcd is not the lcm); C21_lcm_characterisation states exactly when it holds."
  },
  {
   "property": "C22",
   "status": "proved",
   "theorems": [
    "C22_is_irreducible",
    "C22_is_primitive",
    "C22_prime_factors"
   ],
   "note": ""
  },
  {
   "property": "C23",
   "status": "proved",
   "theorems": [
    "C23_default_primitive",
    "C23_outside_raises"
   ],
   "note": ""
  },
  {
   "property": "C24",
   "status": "proved",
   "theorems": [
    "C24_construct",
    "C24_zero_denominator_raises",
    "C24_closed",
    "C24_canonical",
    "C24_value",
    "C24_field_laws"
   ],
   "note": ""
  },
  {
   "property": "C25",
   "status": "proved",
   "theorems": [
    "C25_closed",
    "C25_ring_laws",
    "C25_inverse",
    "C25_zero_inverse_raises",
    "C25_division",
    "C25_power",
    "C25_power_negative",
    "C25_fermat",
    "C25_constructor",
    "C25_constructor_default",
    "C25_logarithm",
    "C25_products_reduced",
    "C25_one_neutral_iff_reduced",
    "C25_unreduced_refuted"
   ],
   "note": ""
  },
  {
   "property": "C26",
   "status": "proved",
   "theorems": [
    "C26_find_roots",
    "C26_minimal_polynomial",
    "C26_conjugates"
   ],
   "note": ""
  },
  {
   "property": "C27",
   "status": "proved",
   "theorems": [
    "C27_rref_is_reduced",
    "C27_rref_row_space",
    "C27_xrref",
    "C27_rank"
   ],
   "note": ""
  },
  {
   "property": "C28",
   "status": "proved",
   "theorems": [
    "C28_right_inverse",
    "C28_generalised_inverse",
    "C28_null_matrix",
    "C28_null_matrix_rejects"
   ],
   "note": ""
  },
  {
   "property": "C29",
   "status": "proved",
   "theorems": [
    "C29_generator_constructor",
    "C29_check_constructor",
    "C29_generator_rejects",
    "C29_round_trip",
    "C29_inverse_encode_rejects",
    "C29_linear_injective"
   ],
   "note": ""
  },
  {
   "property": "C30",
   "status": "proved",
   "theorems": [
    "C30_codewords",
    "C30_weight_distribution",
    "C30_minimum_distance"
   ],
   "note": ""
  },
  {
   "property": "C31",
   "status": "proved",
   "theorems": [
    "C31_coset_leaders",
    "C31_coset_leader_weights",
    "C31_packing_radius",
    "C31_covering_radius",
    "C31_no_checks_refuted"
   ],
   "note": ""
  },
  {
   "property": "C32",
   "status": "proved",
   "theorems": [
    "C32_minimum_distance_decoding",
    "C32_corrects"
   ],
   "note": ""
  },
  {
   "property": "C33",
   "status": "proved",
   "theorems": [
    "C33_hard",
    "C33_hard_corrects",
    "C33_soft"
   ],
   "note": ""
  },
  {
   "property": "C34",
   "status": "proved",
   "theorems": [
    "C34_valid",
    "C34_constructor",
    "C34_left_right_good",
    "C34_validation_refuted"
   ],
   "note": ""
  },
  {
   "property": "C35",
   "status": "proved",
   "theorems": [
    "C35_constructor",
    "C35_cyclic",
    "C35_systematic",
    "C35_nonsystematic",
    "C35_nonsystematic_syndrome_refuted",
    "C35_no_redundancy_refuted"
   ],
   "note": ""
  },
  {
   "property": "C36",
   "status": "proved",
   "theorems": [
    "C36_hamming",
    "C36_extended_hamming",
    "C36_simplex",
    "C36_extended_simplex"
   ],
   "note": ""
  },
  {
   "property": "C37",
   "status": "proved",
   "theorems": [
    "C37_repetition",
    "C37_repetition_1",
    "C37_single_parity_check",
    "C37_single_parity_check_1_refuted",
    "C37_cordaro_wagner",
    "C37_cordaro_wagner_distance"
   ],
   "note": ""
  },
  {
   "property": "C38",
   "status": "proved",
   "theorems": [
    "C38_golay",
    "C38_extended_golay"
   ],
   "note": ""
  },
  {
   "property": "C39",
   "status": "proved",
   "theorems": [
    "C39_lexicode",
    "C39_rejects"
   ],
   "note": ""
  },
  {
   "property": "C40",
   "status": "proved",
   "theorems": [
    "C40_reed_muller",
    "C40_rejected"
   ],
   "note": ""
  },
  {
   "property": "C41",
   "status": "proved",
   "theorems": [
    "C41_hard",
    "C41_hard_unique",
    "C41_soft",
    "C41_soft_noiseless"
   ],
   "note": ""
  },
  {
   "property": "C42",
   "status": "proved",
   "theorems": [
    "C42_polar_code",
    "C42_rejected",
    "C42_boxplus",
    "C42_sc_terminates",
    "C42_sc_noiseless"
   ],
   "note": ""
  },
  {
   "property": "C43",
   "status": "proved",
   "theorems": [
    "C43_constructor",
    "C43_parameters",
    "C43_generator",
    "C43_codewords",
    "C43_nested",
    "C43_minimum_distance",
    "C43_syndrome",
    "C43_set_order",
    "C43_hamming",
    "C43_repetition"
   ],
   "note": ""
  },
  {
   "property": "C44",
   "status": "proved",
   "theorems": [
    "C44_corrects",
    "C44_total",
    "C44_unique"
   ],
   "note": ""
  },
  {
   "property": "C45",
   "status": "proved",
   "theorems": [
    "C45_wagner"
   ],
   "note": ""
  },
  {
   "property": "C46",
   "status": "proved",
   "theorems": [
    "C46_mealy_streaming",
    "C46_mealy_run",
    "C46_output_alphabet",
    "C46_moore_streaming",
    "C46_moore_as_mealy"
   ],
   "note": ""
  },
  {
   "property": "C47",
   "status": "proved",
   "theorems": [
    "C47_rational_metrics",
    "C47_edges",
    "C47_edge_matrices",
    "C47_viterbi",
    "C47_metrics",
    "C47_parallel_refuted"
   ],
   "note": ""
  },
  {
   "property": "C48",
   "status": "proved",
   "theorems": [
    "C48_streaming",
    "C48_decisions",
    "C48_best_path_refuted",
    "C48_initial_state_refuted"
   ],
   "note": ""
  },
  {
   "property": "C49",
   "status": "proved",
   "theorems": [
    "C49_shapes",
    "C49_state_space",
    "C49_machine",
    "C49_linear",
    "C49_streaming",
    "C49_division",
    "C49_transfer",
    "C49_feedforward",
    "C49_low_rate",
    "C49_high_rate",
    "C49_even_feedback_accepted"
   ],
   "note": ""
  },
  {
   "property": "C50",
   "status": "proved",
   "theorems": [
    "C50_zero_termination",
    "C50_zero_termination_classes",
    "C50_memoryless",
    "C50_direct",
    "C50_tail_biting",
    "C50_tail_biting_feedforward",
    "C50_tail_biting_refuted",
    "C50_block_code",
    "C50_injective"
   ],
   "note": ""
  },
  {
   "property": "C51",
   "status": "proved",
   "theorems": [
    "C51_free_distance"
   ],
   "note": ""
  },
  {
   "property": "C52",
   "status": "proved",
   "theorems": [
    "C52_table",
    "C52_validation",
    "C52_indices_bits",
    "C52_bits_indices",
    "C52_positive",
    "C52_rejects",
    "C52_zero_bits"
   ],
   "note": ""
  },
  {
   "property": "C53",
   "status": "proved",
   "theorems": [
    "C53_gray",
    "C53_rectangular"
   ],
   "note": ""
  },
  {
   "property": "C54",
   "status": "proved",
   "theorems": [
    "C54_accepts",
    "C54_shape",
    "C54_orthogonal",
    "C54_sequency",
    "C54_same_set",
    "C54_bits_polar"
   ],
   "note": ""
  },
  {
   "property": "C55",
   "status": "proved",
   "theorems": [
    "C55_accepts",
    "C55_recurrence",
    "C55_even_feedback",
    "C55_maximal",
    "C55_balance",
    "C55_autocorrelation",
    "C55_maximum_length_sequence",
    "C55_maximum_length_sequence_raises"
   ],
   "note": ""
  },
  {
   "property": "C56",
   "status": "proved",
   "theorems": [
    "C56_accepts",
    "C56_digitize",
    "C56_monotone",
    "C56_fixed",
    "C56_idempotent",
    "C56_uniform_accepts",
    "C56_uniform_nearest",
    "C56_uniform_levels",
    "C56_uniform_error",
    "C56_mid_riser",
    "C56_mid_tread"
   ],
   "note": ""
  },
  {
   "property": "C57",
   "status": "proved",
   "theorems": [
    "C57_accepts",
    "C57_accessible",
    "C57_classes",
    "C57_irreducible",
    "C57_transient",
    "C57_absorbing",
    "C57_absorbing_tolerance_refuted",
    "C57_recurrence"
   ],
   "note": ""
  },
  {
   "property": "C58",
   "status": "proved",
   "theorems": [
    "C58_period",
    "C58_class"
   ],
   "note": ""
  },
  {
   "property": "C59",
   "status": "proved",
   "theorems": [
    "C59_accepts",
    "C59_expand",
    "C59_compress",
    "C59_round_trip",
    "C59_energy"
   ],
   "note": ""
  },
  {
   "property": "C60",
   "status": "proved",
   "theorems": [
    "C60_nearest",
    "C60_first",
    "C60_sequence",
    "C60_length",
    "C60_noiseless",
    "C60_separated",
    "C60_negative_amplitude_refuted"
   ],
   "note": "For positive amplitudes (and any non-zero spacing for PAM, QAM, ASK). C60_negative_amplitude_refuted records that negative amplitudes are accepted and decided wrongly."
  },
  {
   "property": "C61",
   "status": "proved",
   "theorems": [
    "C61_bsc",
    "C61_bec",
    "C61_z",
    "C61_dmc",
    "C61_dmc_support",
    "C61_matrices",
    "C61_source",
    "C61_uniform"
   ],
   "note": ""
  },
  {
   "property": "C62",
   "status": "proved",
   "theorems": [
    "C62_formula",
    "C62_shifts",
    "C62_laws",
    "C62_normalized",
    "C62_integer"
   ],
   "note": ""
  },
  {
   "property": "C63",
   "status": "proved",
   "theorems": [
    "C63_prime_factors",
    "C63_prime_factors_small",
    "C63_determinant_integer",
    "C63_determinant_polynomial",
    "C63_scalar",
    "C63_determinant_rejects"
   ],
   "note": ""
  },
  {
   "property": "C64",
   "status": "proved",
   "theorems": [
    "C64_array"
   ],
   "note": ""
  },
  {
   "property": "C65",
   "status": "proved",
   "theorems": [
    "C65_posteriors",
    "C65_parallel_refuted"
   ],
   "note": ""
  },
  {
   "property": "C66",
   "status": "proved",
   "theorems": [
    "C66_truncation_hard",
    "C66_zero_termination_hard",
    "C66_truncation_soft",
    "C66_zero_termination_soft",
    "C66_corrects",
    "C66_classes",
    "C66_low_rate",
    "C66_unequal_memory_refuted",
    "C66_memoryless_row_refuted"
   ],
   "note": "As stated for equal positive memories. C66_unequal_memory_refuted and C66_memoryless_row_refuted record that the decoder is wrong for rows of different memory (zero termination) and for rows without memory."
  },
  {
   "property": "C67",
   "status": "proved",
   "theorems": [
    "C67_barker"
   ],
   "note": ""
  },
  {
   "property": "C68",
   "status": "proved",
   "theorems": [
    "C68_accepts",
    "C68_amplitude",
    "C68_autocorrelation",
    "C68_not_coprime",
    "C68_crosscorrelation"
   ],
   "note": ""
  },
  {
   "property": "C69",
   "status": "proved",
   "theorems": [
    "C69_lloyd_max",
    "C69_digitize"
   ],
   "note": ""
  },
  {
   "property": "C70",
   "status": "proved",
   "theorems": [
    "C70_generic",
    "C70_pam",
    "C70_qam",
    "C70_ask",
    "C70_psk",
    "C70_apsk",
    "C70_cross",
    "C70_orthogonal",
    "C70_simplex",
    "C70_biorthogonal",
    "C70_qam_single_axis_refuted",
    "C70_psk_one_refuted",
    "C70_qam_square",
    "C70_qam_square_example"
   ],
   "note": "For orders of at least two (per axis / ring), as the definitions require. C70_qam_single_axis_refuted and C70_psk_one_refuted record the degenerate cases where the code's answer is wrong."
  },
  {
   "property": "C71",
   "status": "proved",
   "theorems": [
    "C71_bayes",
    "C71_default",
    "C71_distribution",
    "C71_uniform_map",
    "C71_noise_kinds"
   ],
   "note": ""
  },
  {
   "property": "C72",
   "status": "proved",
   "theorems": [
    "C72_regular",
    "C72_index",
    "C72_wielandt"
   ],
   "note": ""
  },
  {
   "property": "C73",
   "status": "proved",
   "theorems": [
    "C73_stationary",
    "C73_refuses"
   ],
   "note": ""
  },
  {
   "property": "C74",
   "status": "proved",
   "theorems": [
    "C74_states",
    "C74_visits",
    "C74_time",
    "C74_absorption",
    "C74_refuses"
   ],
   "note": ""
  },
  {
   "property": "C75",
   "status": "proved",
   "theorems": [
    "C75_choice",
    "C75_simulate",
    "C75_until",
    "C75_until_refuses"
   ],
   "note": ""
  },
  {
   "property": "C76",
   "status": "proved",
   "theorems": [
    "C76_entropy",
    "C76_entropy_rejects",
    "C76_entropy_bounds",
    "C76_entropy_product",
    "C76_binary_entropy",
    "C76_binary_entropy_increasing",
    "C76_binary_entropy_inv",
    "C76_binary_entropy_inv_diverges",
    "C76_binary_entropy_inv_rejects",
    "C76_relative_entropy",
    "C76_relative_entropy_accepts",
    "C76_entropy_accepts"
   ],
   "note": ""
  },
  {
   "property": "C77",
   "status": "proved",
   "theorems": [
    "C77_mutual_information",
    "C77_bounds",
    "C77_bsc",
    "C77_bec",
    "C77_z",
    "C77_length_refuted",
    "C77_accepts",
    "C77_tolerance_refuted"
   ],
   "note": ""
  },
  {
   "property": "C78",
   "status": "proved",
   "theorems": [
    "C78_bsc",
    "C78_bec",
    "C78_z",
    "C78_unique"
   ],
   "note": ""
  },
  {
   "property": "C79",
   "status": "proved",
   "theorems": [
    "C79_monotone",
    "C79_capacity",
    "C79_capacity_error"
   ],
   "note": ""
  },
  {
   "property": "C80",
   "status": "proved",
   "theorems": [
    "C80_rate",
    "C80_rate_order_refuted",
    "C80_entropy_bound",
    "C80_kraft_parameter",
    "C80_huffman_rate",
    "C80_shannon_rate"
   ],
   "note": "As stated for mappings whose keys are in lexicographic order (all named constructors). C80_rate_order_refuted records that from_enc_mapping / __init__ with keys in another order makes rate() wrong."
  },
  {
   "property": "C81",
   "status": "proved",
   "theorems": [
    "C81_rate",
    "C81_entropy_bound",
    "C81_tunstall_optimal",
    "C81_tunstall_rate"
   ],
   "note": "Optimality among all dictionaries with at most 2^n words holds unless card-1 divides 2^n-1, where the code stops one expansion early (C13_not_maximal_refuted)."
  },
  {
   "property": "C82",
   "status": "proved",
   "theorems": [
    "C82_generator",
    "C82_sound",
    "C82_raises",
    "C82_rate_one",
    "C82_low_rate",
    "C82_high_rate",
    "C82_factors",
    "C82_factors_reject",
    "C82_massey_sain",
    "C82_refuted_false",
    "C82_refuted_factors"
   ],
   "note": "As stated. With two or more inputs the answer False can be wrong: C82_refuted_false (diag(1+D, D) and a rate 2/3 encoder are catastrophic, the code answers False) and C82_refuted_factors (the returned factors need not divide each other)."
  },
  {
   "property": "C83",
   "status": "proved",
   "theorems": [
    "C83_any_lvalues",
    "C83_truncation",
    "C83_zero_termination",
    "C83_one_input_truncation",
    "C83_one_input_zero_termination",
    "C83_low_rate",
    "C83_tail_biting",
    "C83_block_order_refuted"
   ],
   "note": "As stated. C83_block_order_refuted records that for two input bits the decoder returns the bits of each block in reverse order, so the most likely message is not returned."
  },
  {
   "property": "C84",
   "status": "proved",
   "theorems": [
    "C84_marginalize",
    "C84_finite",
    "C84_product"
   ],
   "note": ""
  },
  {
   "property": "C85",
   "status": "proved",
   "theorems": [
    "C85_rectangular_waveform",
    "C85_rectangular",
    "C85_manchester_waveform",
    "C85_manchester"
   ],
   "note": ""
  },
  {
   "property": "C86",
   "status": "proved",
   "theorems": [
    "C86_constructors",
    "C86_sinc_waveform",
    "C86_raised_cosine_waveform",
    "C86_beaulieu_waveform",
    "C86_sinc_energy",
    "C86_raised_cosine_energy",
    "C86_beaulieu_energy"
   ],
   "note": ""
  },
  {
   "property": "C87",
   "status": "proved",
   "theorems": [
    "C87_sinc",
    "C87_raised_cosine",
    "C87_beaulieu"
   ],
   "note": ""
  },
  {
   "property": "C88",
   "status": "proved",
   "theorems": [
    "C88_root_raised_cosine",
    "C88_root_sinc",
    "C88_root_beaulieu",
    "C88_root_spectrum",
    "C88_root_spectrum_met"
   ],
   "note": ""
  },
  {
   "property": "C89",
   "status": "proved",
   "theorems": [
    "C89_constructor",
    "C89_gaussian",
    "C89_half_power"
   ],
   "note": ""
  },
  {
   "property": "C90",
   "status": "proved",
   "theorems": [
    "C90_taps",
    "C90_taps_default",
    "C90_default_span_covers",
    "C90_default_span_cuts",
    "C90_nyquist_taps"
   ],
   "note": ""
  },
  {
   "property": "C91",
   "status": "proved",
   "theorems": [
    "C91_gaussian_q",
    "C91_shape",
    "C91_inverse",
    "C91_inverse_exists",
    "C91_logcosh"
   ],
   "note": ""
  },
  {
   "property": "C92",
   "status": "proved",
   "theorems": [
    "C92_domain",
    "C92_defined",
    "C92_error",
    "C92_accurate",
    "C92_early_stop_refuted",
    "C92_large_order_ignores_a",
    "C92_large_order_refuted"
   ],
   "note": "As stated. Outside the stated region the value can be grossly wrong: C92_early_stop_refuted (marcum_q(1, 20, 10) is below 1e-16 although the true value exceeds 0.8, because the loop stops at the first small term) and C92_large_order_refuted (for m >= 100 the parameter a is ignored)."
  },
  {
   "property": "C93",
   "status": "proved",
   "theorems": [
    "C93_scalar_ordered",
    "C93_uniform_ordered",
    "C93_lloyd_max_ordered",
    "C93_mse_limit",
    "C93_mse_error",
    "C93_uniform_exact",
    "C93_uniform_mse",
    "C93_mse_nonneg",
    "C93_range_refuted"
   ],
   "note": "As stated. C93_range_refuted: if the density does not vanish outside the given range and a threshold lies outside it, the returned 'mean squared error' can be negative."
  },
  {
   "property": "C94",
   "status": "proved",
   "theorems": [
    "C94_apply_along_axis",
    "C94_blockwise_vectorize",
    "C94_blockwise_rows",
    "C94_rejects",
    "C94_encode",
    "C94_check",
    "C94_inverse_encode",
    "C94_round_trip",
    "C94_syndrome_decode",
    "C94_exhaustive",
    "C94_empty"
   ],
   "note": ""
  },
  {
   "property": "C95",
   "status": "proved",
   "theorems": [
    "C95_compress",
    "C95_expand",
    "C95_round_trip",
    "C95_rejects"
   ],
   "note": ""
  },
  {
   "property": "C96",
   "status": "proved",
   "theorems": [
    "C96_dtypes",
    "C96_signals",
    "C96_lines",
    "C96_commutative",
    "C96_associative",
    "C96_rejects"
   ],
   "note": ""
  },
  {
   "property": "C97",
   "status": "proved",
   "theorems": [
    "C97_transform",
    "C97_frequencies",
    "C97_inverse",
    "C97_parseval",
    "C97_real_symmetry",
    "C97_convolution",
    "C97_rejects"
   ],
   "note": ""
  },
  {
   "property": "C98",
   "status": "proved",
   "theorems": [
    "C98_rings",
    "C98_horner",
    "C98_power",
    "C98_evaluate",
    "C98_homomorphism",
    "C98_characteristic",
    "C98_evaluate_at_X",
    "C98_integers_not_homomorphism",
    "C98_root_iff_minimal_polynomial_divides",
    "C98_fraction_power"
   ],
   "note": ""
  },
  {
   "property": "C99",
   "status": "proved",
   "theorems": [
    "C99_coefficients",
    "C99_from_coefficients",
    "C99_coefficients_round_trip",
    "C99_truncation",
    "C99_round_trip_array",
    "C99_exponents",
    "C99_from_exponents",
    "C99_from_exponents_raises",
    "C99_reciprocal",
    "C99_reciprocal_width",
    "C99_reciprocal_involution",
    "C99_reciprocal_multiplicative",
    "C99_shifts",
    "C99_shifts_raise"
   ],
   "note": ""
  },
  {
   "property": "C100",
   "status": "proved",
   "theorems": [
    "C100_divmod",
    "C100_by_zero_raises",
    "C100_gcd",
    "C100_xgcd",
    "C100_lcm"
   ],
   "note": ""
  },
  {
   "property": "C101",
   "status": "proved",
   "theorems": [
    "C101_answers",
    "C101_decoders",
    "C101_new_decoder",
    "C101_codes_valid",
    "C101_no_writes",
    "C101_new_results",
    "C101_argument_alias_refuted",
    "C101_table_alias_refuted"
   ],
   "note": ""
  },
  {
   "property": "C102",
   "status": "proved",
   "theorems": [
    "C102_indices_to_bits",
    "C102_bits_to_indices",
    "C102_marginalize",
    "C102_labels_round_trip",
    "C102_indices_to_symbols",
    "C102_symbols_1d",
    "C102_negative_index",
    "C102_closest_indices",
    "C102_closest_symbols",
    "C102_posteriors",
    "C102_scalar",
    "C102_empty_axis",
    "C102_example",
    "C102_constellation_example"
   ],
   "note": ""
  },
  {
   "property": "C103",
   "status": "proved",
   "theorems": [
    "C103_constructors",
    "C103_bsc",
    "C103_bec",
    "C103_z",
    "C103_extremes",
    "C103_dmc",
    "C103_dmc_raises",
    "C103_emit",
    "C103_emit_raises",
    "C103_simulate",
    "C103_selected",
    "C103_tolerance_refuted",
    "C103_gaussian_real",
    "C103_gaussian_complex",
    "C103_gaussian_power",
    "C103_gaussian_power_complex",
    "C103_gaussian_power_example",
    "C103_gaussian_silent",
    "C103_stream"
   ],
   "note": ""
  },
  {
   "property": "C104",
   "status": "proved",
   "theorems": [
    "C104_replay",
    "C104_isolated",
    "C104_reproducible",
    "C104_late_set",
    "C104_sound",
    "C104_example"
   ],
   "note": ""
  },
  {
   "property": "C105",
   "status": "proved",
   "theorems": [
    "C105_exact",
    "C105_one_word",
    "C105_bits_to_int",
    "C105_int_to_bits",
    "C105_round_trip_bits",
    "C105_round_trip_ints",
    "C105_round_trip_range",
    "C105_wide_refuted",
    "C105_example"
   ],
   "note": "As stated. C105_wide_refuted: with words of 64 bits or more in an array with several axes, bits_to_int returns negative numbers or raises depending on the first row."
  },
  {
   "property": "C106",
   "status": "proved",
   "theorems": [
    "C106_partial_functions",
    "C106_reed",
    "C106_reed_recovers",
    "C106_berlekamp",
    "C106_syndrome_table",
    "C106_exhaustive",
    "C106_wagner",
    "C106_successive_cancellation",
    "C106_convolutional",
    "C106_convolutional_recovers",
    "C106_low_rate",
    "C106_tail_biting",
    "C106_example",
    "C106_convolutional_example"
   ],
   "note": ""
  },
  {
   "property": "C107",
   "status": "proved",
   "theorems": [
    "C107_pieces",
    "C107_corrects",
    "C107_corrects_soft",
    "C107_recovers",
    "C107_feedforward",
    "C107_high_rate",
    "C107_low_rate",
    "C107_catastrophic_refuted",
    "C107_satisfiable",
    "C107_soft_satisfiable"
   ],
   "note": "As stated. C107_catastrophic_refuted: for the catastrophic code (1+D, 1+D) a single wrong bit at the beginning of the stream makes every decision wrong."
  },
  {
   "property": "C108",
   "status": "proved",
   "theorems": [
    "C108_f2v_constructor",
    "C108_v2f_constructor",
    "C108_from_enc_mapping",
    "C108_from_dec_mapping",
    "C108_from_codewords",
    "C108_from_codewords_encodes",
    "C108_from_sourcewords",
    "C108_from_sourcewords_blocks",
    "C108_from_lengths",
    "C108_enc_mapping_round_trip",
    "C108_enc_mapping_smaller",
    "C108_empty_codeword",
    "C108_satisfiable"
   ],
   "note": "As stated; symbols are non-negative integers in the model. C108_empty_codeword: from_enc_mapping refuses the empty codeword that the class constructor accepts."
  },
  {
   "property": "C109",
   "status": "proved",
   "theorems": [
    "C109_channel_current",
    "C109_methods",
    "C109_channel_matrix",
    "C109_channel_consistent_iff",
    "C109_channel_consistent",
    "C109_stale_matrix_refuted",
    "C109_unchecked_assignment",
    "C109_quantizer_arrays",
    "C109_quantizer_consistent",
    "C109_quantizer_mixed_refuted",
    "C109_satisfiable"
   ],
   "note": "As stated. C109_stale_matrix_refuted, C109_unchecked_assignment and C109_quantizer_mixed_refuted record the consequences: a stale transition_matrix, no validation at assignment, and a quantizer that mixes the levels of one step with the thresholds of another."
  },
  {
   "property": "C110",
   "status": "proved",
   "theorems": [
    "C110_metric_laws",
    "C110_hard_block",
    "C110_hard_optimal",
    "C110_hard_stream",
    "C110_stream_corrects",
    "C110_near_optimal",
    "C110_soft_truncation",
    "C110_soft_zero_termination",
    "C110_dot",
    "C110_satisfiable"
   ],
   "note": "As stated. The soft statements hold for any float64 metric within e of the exact dot product (np.dot does not promise an order of summation); C110_dot gives e for left-to-right summation. No NaN; sums below -2^1024 do not occur under the hypotheses."
  },
  {
   "property": "C111",
   "status": "proved",
   "theorems": [
    "C111_evaluates_back",
    "C111_injective",
    "C111_exceptions_fail",
    "C111_well_formed",
    "C111_prints",
    "C111_numbers",
    "C111_texts",
    "C111_nested",
    "C111_lz_buffer_lost",
    "C111_lz_buffer_example",
    "C111_product_lost",
    "C111_product_text",
    "C111_large_field",
    "C111_both_polynomials",
    "C111_polar_lost",
    "C111_empty_matrix",
    "C111_polar_constructor",
    "C111_polar_sorted",
    "C111_accepts",
    "C111_defaults",
    "C111_keywords",
    "C111_accepts_labeling",
    "C111_accepts_labeling_example"
   ],
   "note": "As stated, over the 38 classes of Repr_Model (those whose attributes are not floating-point). The six exceptions are deviations of the code, each with a witness. Arrays hold integers, int64 limits are not modelled, and only literals, containers and calls of Python's expression syntax are read."
  },
  {
   "property": "C112",
   "status": "proved",
   "theorems": [
    "C112_equality",
    "C112_equivalence",
    "C112_hashable",
    "C112_element_hash",
    "C112_hash_contract",
    "C112_hash_contract_fails",
    "C112_set_of_polynomials",
    "C112_set_of_elements",
    "C112_int_among_polynomials",
    "C112_clash_example"
   ],
   "note": "As stated, with CPython's 64-bit hash rules."
  },
  {
   "property": "C113",
   "status": "proved",
   "theorems": [
    "C113_log2_hypothesis_met",
    "C113_length_error",
    "C113_length_exact",
    "C113_accepts",
    "C113_sound",
    "C113_accepts_met",
    "C113_exact_sum_rejected"
   ],
   "note": "As stated; real arithmetic rounded by Flocq's binary64 model (no overflow: probabilities of at least 2^-1000). C113_exact_sum_rejected is the refutation named in the statement."
  },
  {
   "property": "C114",
   "status": "proved",
   "theorems": [
    "C114_huffman",
    "C114_huffman_exact",
    "C114_huffman_optimal",
    "C114_huffman_optimal_met",
    "C114_fano",
    "C114_fano_met",
    "C114_tunstall",
    "C114_tunstall_met",
    "C114_tunstall_weights"
   ],
   "note": "As stated; real arithmetic rounded by Flocq's binary64 model, no overflow. NumPy's summation order and heapq's order are parameters."
  },
  {
   "property": "C115",
   "status": "proved",
   "theorems": [
    "C115_bit_errors",
    "C115_recovers",
    "C115_minimum_distance",
    "C115_gray_pam",
    "C115_gray_qam",
    "C115_gray_psk",
    "C115_steps",
    "C115_coded",
    "C115_coded_gray_pam",
    "C115_source",
    "C115_case"
   ],
   "note": "As stated; constellations in exact real arithmetic. The chains are compositions of modelled methods (Chain_Spec)."
  },
  {
   "property": "C116",
   "status": "proved",
   "theorems": [
    "C116_llr",
    "C116_default_priors",
    "C116_antipodal",
    "C116_qpsk",
    "C116_exhaustive",
    "C116_wagner",
    "C116_viterbi_truncation",
    "C116_viterbi_zero_termination",
    "C116_guarantee",
    "C116_modulate",
    "C116_lvalues",
    "C116_chain",
    "C116_bcjr",
    "C116_case"
   ],
   "note": "As stated; constellations in exact real arithmetic, the decoders on rational L-values (C116_lvalues links the two)."
  },
  {
   "property": "C117",
   "status": "proved",
   "theorems": [
    "C117_pam_decides",
    "C117_pam_nearest",
    "C117_pam_monotone",
    "C117_pam_points",
    "C117_pam_roundtrip",
    "C117_pam_overflow_refuted",
    "C117_qam_decides",
    "C117_qam_nearest",
    "C117_qam_monotone",
    "C117_qam_roundtrip",
    "C117_ask",
    "C117_ask_overflow_refuted",
    "C117_uniform_accepted",
    "C117_uniform_quantizes",
    "C117_uniform_nearest",
    "C117_uniform_error",
    "C117_uniform_agrees",
    "C117_uniform_symmetric",
    "C117_uniform_mid",
    "C117_met"
   ],
   "note": "As stated; real arithmetic rounded by Flocq's binary64 model, no overflow, no NaN; phase offset 0 for QAM and ASK. C117_pam_overflow_refuted and C117_ask_overflow_refuted: the range hypothesis is needed."
  },
  {
   "property": "C118",
   "status": "proved",
   "theorems": [
    "C118_sum_error",
    "C118_sum_exact",
    "C118_left_to_right",
    "C118_exhaustive",
    "C118_exhaustive_margin",
    "C118_exhaustive_signs",
    "C118_exhaustive_fixed_point",
    "C118_wagner",
    "C118_reed",
    "C118_reed_noiseless",
    "C118_sc_terminates",
    "C118_sc_clear",
    "C118_rounded_library",
    "C118_sc_weak_refuted",
    "C118_satisfiable"
   ],
   "note": "As stated; real arithmetic rounded by Flocq's binary64 model, no overflow, no NaN; exp and log1p of the C library and numpy's order of summation are parameters. C118_sc_weak_refuted is the refutation named in the statement."
  },
  {
   "property": "C119",
   "status": "proved",
   "theorems": [
    "C119_rounded_library",
    "C119_psk_points",
    "C119_psk_decides",
    "C119_psk_nearest",
    "C119_psk_roundtrip",
    "C119_psk_tiny_refuted",
    "C119_search",
    "C119_search_half",
    "C119_apsk",
    "C119_satisfiable"
   ],
   "note": "As stated; real arithmetic rounded by Flocq's binary64 model, no overflow, no NaN; cos, sin, atan2, hypot, the complex product and numpy's order of summation are parameters with stated accuracies. C119_psk_tiny_refuted proves the last sentence: minimum_distance still reports 2 A sin(pi/M)."
  },
  {
   "property": "C120",
   "status": "proved",
   "theorems": [
    "C120_binary_entropy",
    "C120_binary_entropy_exact",
    "C120_binary_entropy_satisfiable",
    "C120_relative_entropy",
    "C120_relative_entropy_equal",
    "C120_rounded_logs",
    "C120_relative_entropy_satisfiable",
    "C120_entropy",
    "C120_entropy_deterministic",
    "C120_entropy_dyadic",
    "C120_kraft",
    "C120_kraft_exact",
    "C120_rate",
    "C120_rate_dyadic",
    "C120_rate_is_entropy",
    "C120_v2f_rate",
    "C120_v2f_satisfiable",
    "C120_fused_dot",
    "C120_plain_product",
    "C120_rounded_library",
    "C120_kraft_refuted",
    "C120_entropy_overflow_refuted",
    "C120_satisfiable"
   ],
   "note": "As stated; real arithmetic rounded by Flocq's binary64 model, no overflow, no NaN; log, log2 and pow of the C library (accurate_logs, accurate_logs_everywhere for the relative entropy, where a zero in the second pmf gives infinity: C76) and numpy's orders of summation are parameters with stated accuracies. C120_kraft_refuted and C120_entropy_overflow_refuted prove the last sentence."
  },
  {
   "property": "C121",
   "status": "proved",
   "theorems": [
    "C121_sc_exact",
    "C121_evidence",
    "C121_first_bit",
    "C121_satisfiable",
    "C121_erasures",
    "C121_erasures_example",
    "C121_erasures_sharp",
    "C121_erasures_sharp_example"
   ],
   "note": "As stated; the decoder in exact real arithmetic (its rounding: C118)."
  }
 ]
}