# Assumptions of every theorem

Output of `Print Assumptions` for the 763 theorems of MANIFEST.json, grouped (by tools/audit.py).

## Closed under the global context

433 theorems: C01_int_bits_int, C01_bits_int_bits, C01_orders_are_reversals, C01_bit_values, C02_unary_round_trip, C02_unary_inverse, C02_unary_accepts_iff, C03_fibonacci_round_trip, C03_fibonacci_inverse, C03_codeword_shape, C04_is_prefix_free, C05_sardinas_patterson, C05_terminates, C05_mcmillan, C05_empty_codeword_refuted, C06_from_lengths, C06_symbols_round_trip, C06_integer_round_trip, C06_infer_block_size, C07_f2v_round_trip, C07_f2v_decode_sound, C08_v2f_round_trip, C09_is_fully_covering, C09_terminates, C10_huffman_complete, C10_huffman_round_trip, C11_huffman_optimal, C11_huffman_optimal_prefix_free, C12_fano, C12_shannon, C12_shannon_tolerance_refuted, C13_tunstall, C13_pop_exists, C13_not_maximal_refuted, C14_lz78_round_trip, C14_lz78_tokens_round_trip, C15_lzw_round_trip, C16_constructor, C16_lz77_round_trip, C16_large_alphabet_refuted, C16_longest_match, C17_lzss_round_trip, C17_large_alphabet_refuted, C18_ring_laws, C18_addition_coefficients, C18_convolution, C18_degree, C18_power, C19_divmod, C19_by_zero_raises, C20_gcd, C20_gcd_list, C20_xgcd, C21_domain_lcm, C21_lcm_two, C21_lcm_common_multiple, C21_lcm_one_refuted, C21_lcm_three_refuted, C21_lcm_raises, C21_lcm_characterisation, C22_is_irreducible, C22_is_primitive, C22_prime_factors, C23_default_primitive, C23_outside_raises, C24_construct, C24_zero_denominator_raises, C24_closed, C24_canonical, C24_value, C24_field_laws, C25_closed, C25_ring_laws, C25_inverse, C25_zero_inverse_raises, C25_division, C25_power, C25_power_negative, C25_fermat, C25_constructor, C25_constructor_default, C25_logarithm, C25_products_reduced, C25_one_neutral_iff_reduced, C25_unreduced_refuted, C26_find_roots, C26_minimal_polynomial, C26_conjugates, C27_rref_is_reduced, C27_rref_row_space, C27_xrref, C27_rank, C28_right_inverse, C28_generalised_inverse, C28_null_matrix, C28_null_matrix_rejects, C29_generator_constructor, C29_check_constructor, C29_generator_rejects, C29_round_trip, C29_inverse_encode_rejects, C29_linear_injective, C30_codewords, C30_weight_distribution, C30_minimum_distance, C31_coset_leaders, C31_coset_leader_weights, C31_packing_radius, C31_covering_radius, C31_no_checks_refuted, C32_minimum_distance_decoding, C32_corrects, C33_hard, C33_hard_corrects, C33_soft, C34_valid, C34_constructor, C34_left_right_good, C34_validation_refuted, C35_constructor, C35_cyclic, C35_systematic, C35_nonsystematic, C35_nonsystematic_syndrome_refuted, C35_no_redundancy_refuted, C36_hamming, C36_extended_hamming, C36_simplex, C36_extended_simplex, C37_repetition, C37_repetition_1, C37_single_parity_check, C37_single_parity_check_1_refuted, C37_cordaro_wagner, C37_cordaro_wagner_distance, C38_golay, C38_extended_golay, C39_lexicode, C39_rejects, C40_reed_muller, C40_rejected, C41_hard, C41_hard_unique, C41_soft, C41_soft_noiseless, C42_polar_code, C42_rejected, C43_constructor, C43_parameters, C43_generator, C43_codewords, C43_nested, C43_minimum_distance, C43_syndrome, C43_set_order, C43_hamming, C43_repetition, C44_corrects, C44_total, C44_unique, C45_wagner, C46_mealy_streaming, C46_mealy_run, C46_output_alphabet, C46_moore_streaming, C46_moore_as_mealy, C47_rational_metrics, C47_edges, C47_edge_matrices, C47_viterbi, C47_metrics, C47_parallel_refuted, C48_streaming, C48_decisions, C48_best_path_refuted, C48_initial_state_refuted, C49_shapes, C49_state_space, C49_machine, C49_linear, C49_streaming, C49_division, C49_transfer, C49_feedforward, C49_low_rate, C49_high_rate, C49_even_feedback_accepted, C50_zero_termination, C50_zero_termination_classes, C50_memoryless, C50_direct, C50_tail_biting, C50_tail_biting_feedforward, C50_tail_biting_refuted, C50_block_code, C50_injective, C51_free_distance, C52_table, C52_validation, C52_indices_bits, C52_bits_indices, C52_positive, C52_rejects, C52_zero_bits, C53_gray, C53_rectangular, C54_accepts, C54_shape, C54_orthogonal, C54_sequency, C54_same_set, C54_bits_polar, C55_accepts, C55_recurrence, C55_even_feedback, C55_maximal, C55_balance, C55_autocorrelation, C55_maximum_length_sequence, C55_maximum_length_sequence_raises, C57_accepts, C57_accessible, C57_classes, C57_irreducible, C57_transient, C57_absorbing, C57_absorbing_tolerance_refuted, C57_recurrence, C58_period, C58_class, C59_accepts, C59_expand, C59_compress, C59_round_trip, C59_energy, C60_length, C61_bsc, C61_bec, C61_z, C61_dmc, C61_dmc_support, C61_matrices, C61_source, C61_uniform, C63_prime_factors, C63_prime_factors_small, C63_determinant_integer, C63_determinant_polynomial, C63_scalar, C63_determinant_rejects, C64_array, C66_truncation_hard, C66_zero_termination_hard, C66_truncation_soft, C66_zero_termination_soft, C66_corrects, C66_classes, C66_low_rate, C66_unequal_memory_refuted, C66_memoryless_row_refuted, C72_regular, C72_index, C72_wielandt, C73_stationary, C73_refuses, C74_states, C74_visits, C74_time, C74_absorption, C74_refuses, C75_choice, C75_simulate, C75_until, C75_until_refuses, C80_rate_order_refuted, C80_kraft_parameter, C82_generator, C82_sound, C82_raises, C82_rate_one, C82_low_rate, C82_high_rate, C82_factors, C82_factors_reject, C82_massey_sain, C82_refuted_false, C82_refuted_factors, C94_apply_along_axis, C94_blockwise_vectorize, C94_blockwise_rows, C94_rejects, C94_encode, C94_check, C94_inverse_encode, C94_round_trip, C94_syndrome_decode, C94_exhaustive, C94_empty, C95_compress, C95_expand, C95_round_trip, C95_rejects, C96_signals, C96_lines, C96_commutative, C96_associative, C96_rejects, C98_rings, C98_horner, C98_power, C98_evaluate, C98_homomorphism, C98_characteristic, C98_evaluate_at_X, C98_integers_not_homomorphism, C98_root_iff_minimal_polynomial_divides, C98_fraction_power, C99_coefficients, C99_from_coefficients, C99_coefficients_round_trip, C99_truncation, C99_round_trip_array, C99_exponents, C99_from_exponents, C99_from_exponents_raises, C99_reciprocal, C99_reciprocal_width, C99_reciprocal_involution, C99_reciprocal_multiplicative, C99_shifts, C99_shifts_raise, C100_divmod, C100_by_zero_raises, C100_gcd, C100_xgcd, C100_lcm, C101_answers, C101_decoders, C101_new_decoder, C101_codes_valid, C101_no_writes, C101_new_results, C101_argument_alias_refuted, C101_table_alias_refuted, C102_indices_to_bits, C102_bits_to_indices, C102_labels_round_trip, C102_symbols_1d, C102_negative_index, C102_scalar, C102_empty_axis, C102_example, C105_exact, C105_one_word, C105_bits_to_int, C105_int_to_bits, C105_round_trip_bits, C105_round_trip_ints, C105_round_trip_range, C105_wide_refuted, C105_example, C106_partial_functions, C106_reed, C106_reed_recovers, C106_berlekamp, C106_syndrome_table, C106_exhaustive, C106_wagner, C106_low_rate, C106_example, C107_pieces, C107_corrects, C107_corrects_soft, C107_recovers, C107_feedforward, C107_high_rate, C107_low_rate, C107_catastrophic_refuted, C107_satisfiable, C107_soft_satisfiable, C108_f2v_constructor, C108_v2f_constructor, C108_from_enc_mapping, C108_from_dec_mapping, C108_from_codewords, C108_from_codewords_encodes, C108_from_sourcewords, C108_from_sourcewords_blocks, C108_from_lengths, C108_enc_mapping_round_trip, C108_enc_mapping_smaller, C108_empty_codeword, C108_satisfiable, C111_evaluates_back, C111_injective, C111_exceptions_fail, C111_well_formed, C111_prints, C111_numbers, C111_texts, C111_nested, C111_lz_buffer_lost, C111_lz_buffer_example, C111_product_lost, C111_product_text, C111_large_field, C111_both_polynomials, C111_polar_lost, C111_empty_matrix, C111_polar_constructor, C111_polar_sorted, C111_accepts, C111_defaults, C111_keywords, C111_accepts_labeling, C111_accepts_labeling_example, C112_equality, C112_equivalence, C112_hashable, C112_element_hash, C112_hash_contract, C112_hash_contract_fails, C112_set_of_polynomials, C112_set_of_elements, C112_int_among_polynomials, C112_clash_example, C114_tunstall_met, C116_exhaustive, C116_wagner, C116_viterbi_truncation, C116_viterbi_zero_termination, C116_guarantee, C121_erasures_sharp_example

## `ClassicalDedekindReals.sig_forall_dec`, `FunctionalExtensionality.functional_extensionality_dep`

45 theorems: C56_accepts, C56_digitize, C56_monotone, C56_fixed, C56_idempotent, C56_uniform_accepts, C56_uniform_nearest, C56_uniform_levels, C56_uniform_error, C56_mid_riser, C56_mid_tread, C62_formula, C62_integer, C67_barker, C69_lloyd_max, C69_digitize, C80_rate, C90_taps, C90_nyquist_taps, C93_scalar_ordered, C93_uniform_ordered, C93_lloyd_max_ordered, C93_uniform_exact, C93_mse_nonneg, C93_range_refuted, C96_dtypes, C103_constructors, C103_bsc, C103_bec, C103_z, C103_extremes, C103_dmc, C103_dmc_raises, C103_emit, C103_emit_raises, C103_simulate, C103_selected, C103_gaussian_power_example, C109_quantizer_arrays, C109_quantizer_consistent, C109_quantizer_mixed_refuted, C109_satisfiable, C115_steps, C116_modulate, C121_erasures_example

## `ClassicalDedekindReals.sig_forall_dec`, `ClassicalDedekindReals.sig_not_dec`, `FunctionalExtensionality.functional_extensionality_dep`

54 theorems: C60_first, C60_negative_amplitude_refuted, C62_shifts, C62_laws, C62_normalized, C68_accepts, C68_amplitude, C68_autocorrelation, C68_not_coprime, C68_crosscorrelation, C70_generic, C70_pam, C70_qam, C70_ask, C70_apsk, C70_cross, C70_orthogonal, C70_simplex, C70_biorthogonal, C70_qam_single_axis_refuted, C70_qam_square, C70_qam_square_example, C85_rectangular_waveform, C85_manchester_waveform, C87_sinc, C87_raised_cosine, C88_root_spectrum, C88_root_spectrum_met, C90_default_span_covers, C90_default_span_cuts, C92_domain, C92_large_order_ignores_a, C97_transform, C97_frequencies, C97_inverse, C97_parseval, C97_real_symmetry, C97_convolution, C97_rejects, C103_tolerance_refuted, C103_gaussian_real, C103_gaussian_complex, C103_gaussian_power, C103_gaussian_power_complex, C103_gaussian_silent, C103_stream, C104_replay, C104_isolated, C104_reproducible, C104_late_set, C104_sound, C104_example, C115_minimum_distance, C121_evidence

## `ClassicalDedekindReals.sig_forall_dec`, `ClassicalDedekindReals.sig_not_dec`, `Classical_Prop.classic`, `FunctionalExtensionality.functional_extensionality_dep`

231 theorems: C13_default_block_size, C14_float_width, C14_float_example, C14_lz78_round_trip_float, C15_lzw_round_trip_float, C16_lz77_round_trip_float, C17_lzss_round_trip_float, C42_boxplus, C42_sc_terminates, C42_sc_noiseless, C60_nearest, C60_sequence, C60_noiseless, C60_separated, C65_posteriors, C65_parallel_refuted, C70_psk, C70_psk_one_refuted, C71_bayes, C71_default, C71_distribution, C71_uniform_map, C71_noise_kinds, C76_entropy, C76_entropy_rejects, C76_entropy_bounds, C76_entropy_product, C76_binary_entropy, C76_binary_entropy_increasing, C76_binary_entropy_inv, C76_binary_entropy_inv_diverges, C76_binary_entropy_inv_rejects, C76_relative_entropy, C76_relative_entropy_accepts, C76_entropy_accepts, C77_mutual_information, C77_bounds, C77_bsc, C77_bec, C77_z, C77_length_refuted, C77_accepts, C77_tolerance_refuted, C78_bsc, C78_bec, C78_z, C78_unique, C79_monotone, C79_capacity, C79_capacity_error, C80_entropy_bound, C80_huffman_rate, C80_shannon_rate, C81_rate, C81_entropy_bound, C81_tunstall_optimal, C81_tunstall_rate, C83_any_lvalues, C83_truncation, C83_zero_termination, C83_one_input_truncation, C83_one_input_zero_termination, C83_low_rate, C83_tail_biting, C83_block_order_refuted, C84_marginalize, C84_finite, C84_product, C85_rectangular, C85_manchester, C86_constructors, C86_sinc_waveform, C86_raised_cosine_waveform, C86_beaulieu_waveform, C86_sinc_energy, C86_raised_cosine_energy, C86_beaulieu_energy, C87_beaulieu, C88_root_raised_cosine, C88_root_sinc, C88_root_beaulieu, C89_constructor, C89_gaussian, C89_half_power, C90_taps_default, C91_gaussian_q, C91_shape, C91_inverse, C91_inverse_exists, C91_logcosh, C92_defined, C92_error, C92_accurate, C92_early_stop_refuted, C92_large_order_refuted, C93_mse_limit, C93_mse_error, C93_uniform_mse, C102_marginalize, C102_indices_to_symbols, C102_closest_indices, C102_closest_symbols, C102_posteriors, C102_constellation_example, C106_successive_cancellation, C106_convolutional, C106_convolutional_recovers, C106_tail_biting, C106_convolutional_example, C109_channel_current, C109_methods, C109_channel_matrix, C109_channel_consistent_iff, C109_channel_consistent, C109_stale_matrix_refuted, C109_unchecked_assignment, C110_metric_laws, C110_hard_block, C110_hard_optimal, C110_hard_stream, C110_stream_corrects, C110_near_optimal, C110_soft_truncation, C110_soft_zero_termination, C110_dot, C110_satisfiable, C113_log2_hypothesis_met, C113_length_error, C113_length_exact, C113_accepts, C113_sound, C113_accepts_met, C113_exact_sum_rejected, C114_huffman, C114_huffman_exact, C114_huffman_optimal, C114_huffman_optimal_met, C114_fano, C114_fano_met, C114_tunstall, C114_tunstall_weights, C115_bit_errors, C115_recovers, C115_gray_pam, C115_gray_qam, C115_gray_psk, C115_coded, C115_coded_gray_pam, C115_source, C115_case, C116_llr, C116_default_priors, C116_antipodal, C116_qpsk, C116_lvalues, C116_chain, C116_bcjr, C116_case, C117_pam_decides, C117_pam_nearest, C117_pam_monotone, C117_pam_points, C117_pam_roundtrip, C117_pam_overflow_refuted, C117_qam_decides, C117_qam_nearest, C117_qam_monotone, C117_qam_roundtrip, C117_ask, C117_ask_overflow_refuted, C117_uniform_accepted, C117_uniform_quantizes, C117_uniform_nearest, C117_uniform_error, C117_uniform_agrees, C117_uniform_symmetric, C117_uniform_mid, C117_met, C118_sum_error, C118_sum_exact, C118_left_to_right, C118_exhaustive, C118_exhaustive_margin, C118_exhaustive_signs, C118_exhaustive_fixed_point, C118_wagner, C118_reed, C118_reed_noiseless, C118_sc_terminates, C118_sc_clear, C118_rounded_library, C118_sc_weak_refuted, C118_satisfiable, C119_rounded_library, C119_psk_points, C119_psk_decides, C119_psk_nearest, C119_psk_roundtrip, C119_psk_tiny_refuted, C119_search, C119_search_half, C119_apsk, C119_satisfiable, C120_binary_entropy, C120_binary_entropy_exact, C120_binary_entropy_satisfiable, C120_relative_entropy, C120_relative_entropy_equal, C120_rounded_logs, C120_relative_entropy_satisfiable, C120_entropy, C120_entropy_deterministic, C120_entropy_dyadic, C120_kraft, C120_kraft_exact, C120_rate, C120_rate_dyadic, C120_rate_is_entropy, C120_v2f_rate, C120_v2f_satisfiable, C120_fused_dot, C120_plain_product, C120_rounded_library, C120_kraft_refuted, C120_entropy_overflow_refuted, C120_satisfiable, C121_sc_exact, C121_first_bit, C121_satisfiable, C121_erasures, C121_erasures_sharp
