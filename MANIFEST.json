{
 "claims": [
  {
   "property": "C01",
   "status": "proved",
   "theorems": [
    "C01_gcd_int"
   ],
   "note": ""
  },
  {
   "property": "C02",
   "status": "proved",
   "theorems": [
    "C02_extended_euclid_int"
   ],
   "note": ""
  },
  {
   "property": "C03",
   "status": "proved",
   "theorems": [
    "C03_euclid_poly"
   ],
   "note": ""
  },
  {
   "property": "C04",
   "status": "proved",
   "theorems": [
    "C04_operations_agree_with_integers",
    "C04_canonical_unique",
    "C04_equality_is_congruence",
    "C04_commutative_ring",
    "C04_field_division",
    "C04_iteration",
    "C04_divmod"
   ],
   "note": ""
  },
  {
   "property": "C05",
   "status": "proved",
   "theorems": [
    "C05_inverse",
    "C05_inverse_prime"
   ],
   "note": ""
  },
  {
   "property": "C06",
   "status": "proved",
   "theorems": [
    "C06_pow",
    "C06_pow_modp",
    "C06_pow_poly",
    "C06_pow_negative",
    "C06_pow_negative_is_inverse_refuted"
   ],
   "note": "the statement records deviations of the code; the theorems named *_refuted give the witness against the intended behaviour"
  },
  {
   "property": "C07",
   "status": "proved",
   "theorems": [
    "C07_bytes_roundtrip",
    "C07_decoding",
    "C07_overflow",
    "C07_bytes_constructor_canonical_refuted",
    "C07_bytes_equality_refuted"
   ],
   "note": "the statement records deviations of the code; the theorems named *_refuted give the witness against the intended behaviour"
  },
  {
   "property": "C08",
   "status": "proved",
   "theorems": [
    "C08_arithmetic",
    "C08_inverse",
    "C08_division_and_power",
    "C08_constructor"
   ],
   "note": ""
  },
  {
   "property": "C09",
   "status": "proved",
   "theorems": [
    "C09_zero_denominators_accepted",
    "C09_zero_over_zero_equals_everything",
    "C09_eq_not_transitive",
    "C09_add_raises",
    "C09_ne_raises",
    "C09_modulus_zero"
   ],
   "note": ""
  },
  {
   "property": "C10",
   "status": "proved",
   "theorems": [
    "C10_normal_form",
    "C10_equality",
    "C10_degree"
   ],
   "note": ""
  },
  {
   "property": "C11",
   "status": "proved",
   "theorems": [
    "C11_ring_operations",
    "C11_product_coefficients"
   ],
   "note": ""
  },
  {
   "property": "C12",
   "status": "proved",
   "theorems": [
    "C12_divmod",
    "C12_divmod_unique",
    "C12_zero_divisor"
   ],
   "note": ""
  },
  {
   "property": "C13",
   "status": "proved",
   "theorems": [
    "C13_evaluation",
    "C13_evaluation_homomorphism"
   ],
   "note": ""
  },
  {
   "property": "C14",
   "status": "proved",
   "theorems": [
    "C14_powmod",
    "C14_powmod_small_exponents",
    "C14_powmod_zero_modulus",
    "C14_powmod_always_reduced_refuted"
   ],
   "note": "the statement records deviations of the code; the theorems named *_refuted give the witness against the intended behaviour"
  },
  {
   "property": "C15",
   "status": "proved",
   "theorems": [
    "C15_from_bytes",
    "C15_bad_length",
    "C15_roundtrip",
    "C15_to_bytes_broken"
   ],
   "note": ""
  },
  {
   "property": "C16",
   "status": "proved",
   "theorems": [
    "C16_is_irreducible_decides",
    "C16_constants_accepted"
   ],
   "note": ""
  },
  {
   "property": "C17",
   "status": "proved",
   "theorems": [
    "C17_is_primitive_decides",
    "C17_X_accepted",
    "C17_degree_zero"
   ],
   "note": ""
  },
  {
   "property": "C18",
   "status": "proved",
   "theorems": [
    "C18_generated_valid",
    "C18_generated_primitive",
    "C18_all_can_be_generated",
    "C18_first_irreducible",
    "C18_first_primitive",
    "C18_is_monic"
   ],
   "note": ""
  },
  {
   "property": "C19",
   "status": "proved",
   "theorems": [
    "C19_field_of_p_m_elements",
    "C19_count",
    "C19_arithmetic_modulo",
    "C19_divmod"
   ],
   "note": ""
  },
  {
   "property": "C20",
   "status": "proved",
   "theorems": [
    "C20_inverse",
    "C20_inverse_of_zero",
    "C20_division"
   ],
   "note": ""
  },
  {
   "property": "C21",
   "status": "proved",
   "theorems": [
    "C21_power",
    "C21_negative_exponent_recurses_forever"
   ],
   "note": ""
  },
  {
   "property": "C22",
   "status": "proved",
   "theorems": [
    "C22_LT",
    "C22_order_is_total"
   ],
   "note": ""
  },
  {
   "property": "C23",
   "status": "proved",
   "theorems": [
    "C23_regular_addition",
    "C23_regular_addition_no_overflow"
   ],
   "note": ""
  },
  {
   "property": "C24",
   "status": "proved",
   "theorems": [
    "C24_two_pow_value",
    "C24_two_pow_refuted",
    "C24_two_pow_digits"
   ],
   "note": "the statement records deviations of the code; the theorems named *_refuted give the witness against the intended behaviour"
  },
  {
   "property": "C25",
   "status": "proved",
   "theorems": [
    "C25_memoize_history",
    "C25_memoize_fresh",
    "C25_memoize_transparent"
   ],
   "note": ""
  },
  {
   "property": "C26",
   "status": "proved",
   "theorems": [
    "C26_memoize_keyword_collision",
    "C26_memoize_positional_collision"
   ],
   "note": ""
  },
  {
   "property": "C27",
   "status": "proved",
   "theorems": [
    "C27_zpoly"
   ],
   "note": ""
  },
  {
   "property": "C28",
   "status": "proved",
   "theorems": [
    "C28_multi_inv",
    "C28_zero_to_zero_refuted"
   ],
   "note": "the statement records deviations of the code; the theorems named *_refuted give the witness against the intended behaviour"
  },
  {
   "property": "C29",
   "status": "proved",
   "theorems": [
    "C29_interpolates",
    "C29_unique",
    "C29_length_mismatch"
   ],
   "note": ""
  },
  {
   "property": "C30",
   "status": "proved",
   "theorems": [
    "C30_interp_2",
    "C30_interp_4",
    "C30_multi_interp_4",
    "C30_repeated_points_raise",
    "C30_interp_2_short"
   ],
   "note": ""
  },
  {
   "property": "C31",
   "status": "proved",
   "theorems": [
    "C31_never_raises",
    "C31_repeated_points_refuted",
    "C31_formula",
    "C31_values",
    "C31_interpolates_iff"
   ],
   "note": "the statement records deviations of the code; the theorems named *_refuted give the witness against the intended behaviour"
  },
  {
   "property": "C32",
   "status": "proved",
   "theorems": [
    "C32_affine_space",
    "C32_field_iteration"
   ],
   "note": ""
  },
  {
   "property": "C33",
   "status": "proved",
   "theorems": [
    "C33_affine_vanishing"
   ],
   "note": ""
  },
  {
   "property": "C34",
   "status": "proved",
   "theorems": [
    "C34_fft_is_evaluation"
   ],
   "note": ""
  },
  {
   "property": "C35",
   "status": "proved",
   "theorems": [
    "C35_inverse_of_fft",
    "C35_fft_of_inverse"
   ],
   "note": ""
  },
  {
   "property": "C36",
   "status": "proved",
   "theorems": [
    "C36_mul_polys",
    "C36_product_refuted",
    "C36_short_large",
    "C36_unsupported_order",
    "C36_zero_root_diverges"
   ],
   "note": "the statement records deviations of the code; the theorems named *_refuted give the witness against the intended behaviour"
  },
  {
   "property": "C37",
   "status": "proved",
   "theorems": [
    "C37_unsupported_order",
    "C37_zero_root_diverges",
    "C37_large_degree_refuted",
    "C37_short_large",
    "C37_medium_large",
    "C37_long_large",
    "C37_very_large"
   ],
   "note": "the statement records deviations of the code; the theorems named *_refuted give the witness against the intended behaviour"
  },
  {
   "property": "C38",
   "status": "proved",
   "theorems": [
    "C38_power_cycle",
    "C38_infinite_order_diverges",
    "C38_finite_field"
   ],
   "note": ""
  },
  {
   "property": "C39",
   "status": "proved",
   "theorems": [
    "C39_indices_in_range",
    "C39_indices_exclude",
    "C39_sample_map_bijective",
    "C39_indices_exact",
    "C39_rejected_arguments"
   ],
   "note": ""
  },
  {
   "property": "C40",
   "status": "proved",
   "theorems": [
    "C40_is_a_power_of_2",
    "C40_zero_never_returns"
   ],
   "note": ""
  },
  {
   "property": "C41",
   "status": "proved",
   "theorems": [
    "C41_constructor",
    "C41_ring_operations",
    "C41_power",
    "C41_eq",
    "C41_order_irrelevant",
    "C41_degree",
    "C41_mixed_lengths_refuted",
    "C41_add_power_tuples"
   ],
   "note": "the statement records deviations of the code; the theorems named *_refuted give the witness against the intended behaviour"
  },
  {
   "property": "C42",
   "status": "proved",
   "theorems": [
    "C42_call",
    "C42_compose",
    "C42_call_poly",
    "C42_generators"
   ],
   "note": ""
  },
  {
   "property": "C43",
   "status": "proved",
   "theorems": [
    "C43_dirac_delta",
    "C43_too_many_values",
    "C43_degree"
   ],
   "note": ""
  },
  {
   "property": "C44",
   "status": "proved",
   "theorems": [
    "C44_general_value",
    "C44_univariate_modp",
    "C44_first_coordinate_only",
    "C44_two_variables_refuted",
    "C44_degree",
    "C44_univariate_unique"
   ],
   "note": "the statement records deviations of the code; the theorems named *_refuted give the witness against the intended behaviour"
  },
  {
   "property": "C45",
   "status": "proved",
   "theorems": [
    "C45_make_multivar",
    "C45_project_to_univariate"
   ],
   "note": ""
  },
  {
   "property": "C46",
   "status": "proved",
   "theorems": [
    "C46_trace",
    "C46_errors"
   ],
   "note": ""
  },
  {
   "property": "C47",
   "status": "proved",
   "theorems": [
    "C47_constraint_polynomials",
    "C47_circuit_iff_valid",
    "C47_generated_trace_accepted"
   ],
   "note": ""
  },
  {
   "property": "C48",
   "status": "proved",
   "theorems": [
    "C48_only_511_steps",
    "C48_constructor",
    "C48_no_registers",
    "C48_witness",
    "C48_boundary",
    "C48_get_degree"
   ],
   "note": ""
  },
  {
   "property": "C49",
   "status": "proved",
   "theorems": [
    "C49_trace_polynomials"
   ],
   "note": ""
  },
  {
   "property": "C50",
   "status": "proved",
   "theorems": [
    "C50_quotient_iff_valid",
    "C50_empty_step_refuted"
   ],
   "note": "the statement records deviations of the code; the theorems named *_refuted give the witness against the intended behaviour"
  },
  {
   "property": "C51",
   "status": "proved",
   "theorems": [
    "C51_boundary_quotient",
    "C51_zero_output_refuted",
    "C51_wrong_input"
   ],
   "note": "the statement records deviations of the code; the theorems named *_refuted give the witness against the intended behaviour"
  },
  {
   "property": "C52",
   "status": "proved",
   "theorems": [
    "C52_spot_checks",
    "C52_completeness"
   ],
   "note": ""
  },
  {
   "property": "C53",
   "status": "proved",
   "theorems": [
    "C53_permute4_is_permutation",
    "C53_index_in_permuted",
    "C53_drops_tail",
    "C53_index_short"
   ],
   "note": ""
  },
  {
   "property": "C54",
   "status": "proved",
   "theorems": [
    "C54_leaf_bytes",
    "C54_merkle_completeness"
   ],
   "note": ""
  },
  {
   "property": "C55",
   "status": "proved",
   "theorems": [
    "C55_merkle_binding",
    "C55_merkle_binding_tree"
   ],
   "note": ""
  },
  {
   "property": "C56",
   "status": "proved",
   "theorems": [
    "C56_merkle_malleable",
    "C56_forged_leaf"
   ],
   "note": ""
  },
  {
   "property": "C57",
   "status": "proved",
   "theorems": [
    "C57_unpack_concat",
    "C57_packed_round_trip"
   ],
   "note": ""
  },
  {
   "property": "C58",
   "status": "proved",
   "theorems": [
    "C58_compress_branches_round_trip",
    "C58_compress_branches_sound",
    "C58_delimiter_rejected"
   ],
   "note": ""
  },
  {
   "property": "C59",
   "status": "proved",
   "theorems": [
    "C59_compress_fri_round_trip",
    "C59_compress_fri_sound",
    "C59_bin_length"
   ],
   "note": ""
  },
  {
   "property": "C60",
   "status": "proved",
   "theorems": [
    "C60_valid_proof_iff",
    "C60_valid_chain_iff",
    "C60_valid_chain_total",
    "C60_histories_valid",
    "C60_indices",
    "C60_proof_of_work_least",
    "C60_proof_of_work_found"
   ],
   "note": ""
  },
  {
   "property": "C61",
   "status": "proved",
   "theorems": [
    "C61_conservation",
    "C61_returned_index",
    "C61_conservation_with_resolve_refuted"
   ],
   "note": "the statement records deviations of the code; the theorems named *_refuted give the witness against the intended behaviour"
  },
  {
   "property": "C62",
   "status": "proved",
   "theorems": [
    "C62_resolve_spec",
    "C62_honest_neighbours",
    "C62_longest_chain_wins_refuted",
    "C62_empty_chain_raises"
   ],
   "note": "the statement records deviations of the code; the theorems named *_refuted give the witness against the intended behaviour"
  },
  {
   "property": "C63",
   "status": "proved",
   "theorems": [
    "C63_bit_correct",
    "C63_generated_secret",
    "C63_int_correct",
    "C63_int_truncates",
    "C63_int_errors",
    "C63_decode_not_a_bit"
   ],
   "note": ""
  },
  {
   "property": "C64",
   "status": "proved",
   "theorems": [
    "C64_bit_verify_iff",
    "C64_bit_binding",
    "C64_int_verify_iff",
    "C64_empty_opening_accepted",
    "C64_bbs_binding_refuted"
   ],
   "note": "the statement records deviations of the code; the theorems named *_refuted give the witness against the intended behaviour"
  },
  {
   "property": "C65",
   "status": "proved",
   "theorems": [
    "C65_completeness",
    "C65_completeness_no_isolated",
    "C65_completeness_isolated_refuted",
    "C65_constructor_errors",
    "C65_answer_outside"
   ],
   "note": "the statement records deviations of the code; the theorems named *_refuted give the witness against the intended behaviour"
  },
  {
   "property": "C66",
   "status": "proved",
   "theorems": [
    "C66_special_soundness",
    "C66_soundness_refuted",
    "C66_edge_count"
   ],
   "note": "the statement records deviations of the code; the theorems named *_refuted give the witness against the intended behaviour"
  },
  {
   "property": "C67",
   "status": "proved",
   "theorems": [
    "C67_no_false_negatives",
    "C67_false_means_composite",
    "C67_miller_rabin",
    "C67_composite_has_witness",
    "C67_decompose"
   ],
   "note": ""
  },
  {
   "property": "C68",
   "status": "proved",
   "theorems": [
    "C68_accept_iff",
    "C68_honest_run",
    "C68_completeness",
    "C68_four_colours_accepted",
    "C68_soundness_refuted",
    "C68_reveal",
    "C68_commit_errors"
   ],
   "note": "the statement records deviations of the code; the theorems named *_refuted give the witness against the intended behaviour"
  },
  {
   "property": "C69",
   "status": "proved",
   "theorems": [
    "C69_fp_eq_only_z",
    "C69_sum_congruence_refuted"
   ],
   "note": "the statement records deviations of the code; the theorems named *_refuted give the witness against the intended behaviour"
  },
  {
   "property": "C70",
   "status": "proved",
   "theorems": [
    "C70_sub_mutates",
    "C70_sub_self"
   ],
   "note": ""
  },
  {
   "property": "C71",
   "status": "proved",
   "theorems": [
    "C71_inner_node_accepted_as_leaf"
   ],
   "note": ""
  },
  {
   "property": "C72",
   "status": "proved",
   "theorems": [
    "C72_index_alias",
    "C72_every_index",
    "C72_honest_index",
    "C72_mk_branch"
   ],
   "note": ""
  },
  {
   "property": "C73",
   "status": "proved",
   "theorems": [
    "C73_twelve_leaves_refuted",
    "C73_not_power_of_two_refuted"
   ],
   "note": "the statement records deviations of the code; the theorems named *_refuted give the witness against the intended behaviour"
  },
  {
   "property": "C74",
   "status": "proved",
   "theorems": [
    "C74_modulus_is_prime"
   ],
   "note": ""
  },
  {
   "property": "C75",
   "status": "proved",
   "theorems": [
    "C75_mimc_total",
    "C75_mimc_injective",
    "C75_mimc_surjective",
    "C75_mimc_step",
    "C75_mimc_edges"
   ],
   "note": ""
  },
  {
   "property": "C76",
   "status": "proved",
   "theorems": [
    "C76_modulus_check",
    "C76_degree_not_checked",
    "C76_constant_modulus_accepted"
   ],
   "note": ""
  },
  {
   "property": "C77",
   "status": "proved",
   "theorems": [
    "C77_rational_bytes_roundtrip",
    "C77_any_bytes"
   ],
   "note": ""
  },
  {
   "property": "C78",
   "status": "proved",
   "theorems": [
    "C78_fp_add_full",
    "C78_fp_add_value",
    "C78_fp_add_total",
    "C78_fp_add_equal_exponents",
    "C78_fp_sub_is_add_up_to_sign",
    "C78_fp_add_value_refuted"
   ],
   "note": "the statement records deviations of the code; the theorems named *_refuted give the witness against the intended behaviour"
  },
  {
   "property": "C79",
   "status": "proved",
   "theorems": [
    "C79_fp_mul_commutes_iff",
    "C79_binary_list",
    "C79_fp_mul",
    "C79_fp_mul_commutative_refuted"
   ],
   "note": "the statement records deviations of the code; the theorems named *_refuted give the witness against the intended behaviour"
  },
  {
   "property": "C80",
   "status": "proved",
   "theorems": [
    "C80_fp_pow_full",
    "C80_fp_pow",
    "C80_float_to_fix"
   ],
   "note": ""
  },
  {
   "property": "C81",
   "status": "proved",
   "theorems": [
    "C81_fp_div_full",
    "C81_fp_div"
   ],
   "note": ""
  },
  {
   "property": "C82",
   "status": "proved",
   "theorems": [
    "C82_proof_concatenation_ambiguous",
    "C82_distinct_pairs_same_verdict",
    "C82_last_block_unconstrained"
   ],
   "note": ""
  },
  {
   "property": "C83",
   "status": "proved",
   "theorems": [
    "C83_simulated_map_direction",
    "C83_simulated_transcripts_accepted_refuted",
    "C83_accepted_iff",
    "C83_inverse_would_be_accepted"
   ],
   "note": "the statement records deviations of the code; the theorems named *_refuted give the witness against the intended behaviour"
  },
  {
   "property": "C84",
   "status": "proved",
   "theorems": [
    "C84_bbs_permutes_residues",
    "C84_bbs_not_injective",
    "C84_make_modulus",
    "C84_parity"
   ],
   "note": ""
  },
  {
   "property": "C85",
   "status": "proved",
   "theorems": [
    "C85_liars_at_most_half",
    "C85_error_bound"
   ],
   "note": ""
  },
  {
   "property": "C86",
   "status": "proved",
   "theorems": [
    "C86_linear_combination",
    "C86_wide",
    "C86_one_point"
   ],
   "note": ""
  },
  {
   "property": "C87",
   "status": "proved",
   "theorems": [
    "C87_degree",
    "C87_announced_combination_refuted"
   ],
   "note": "the statement records deviations of the code; the theorems named *_refuted give the witness against the intended behaviour"
  },
  {
   "property": "C88",
   "status": "proved",
   "theorems": [
    "C88_soundness_refuted"
   ],
   "note": "the statement records deviations of the code; the theorems named *_refuted give the witness against the intended behaviour"
  },
  {
   "property": "C89",
   "status": "proved",
   "theorems": [
    "C89_samples_refuted",
    "C89_extension_one",
    "C89_constructor_errors",
    "C89_position_arguments",
    "C89_no_registers"
   ],
   "note": "the statement records deviations of the code; the theorems named *_refuted give the witness against the intended behaviour"
  },
  {
   "property": "C90",
   "status": "proved",
   "theorems": [
    "C90_int_operand",
    "C90_poly_operand",
    "C90_left_class",
    "C90_commutative_refuted",
    "C90_eq_symmetric_refuted",
    "C90_uncastable",
    "C90_truncated",
    "C90_foreign_element",
    "C90_foreign_polynomial",
    "C90_division",
    "C90_no_method"
   ],
   "note": "the statement records deviations of the code; the theorems named *_refuted give the witness against the intended behaviour"
  },
  {
   "property": "C91",
   "status": "proved",
   "theorems": [
    "C91_bin_string",
    "C91_taylor_base",
    "C91_taylor_expansion_four",
    "C91_taylor_expansion_large_refuted"
   ],
   "note": "the statement records deviations of the code; the theorems named *_refuted give the witness against the intended behaviour"
  },
  {
   "property": "C92",
   "status": "proved",
   "theorems": [
    "C92_adfft_one",
    "C92_adfft_two",
    "C92_adfft_evaluates_refuted",
    "C92_adfft_large",
    "C92_inverse_two_points",
    "C92_inverse_ignores_values",
    "C92_inverse_four_points"
   ],
   "note": "the statement records deviations of the code; the theorems named *_refuted give the witness against the intended behaviour"
  },
  {
   "property": "C93",
   "status": "proved",
   "theorems": [
    "C93_Z_boundaries",
    "C93_per_register_refuted",
    "C93_Eps_boundaries",
    "C93_air_boundaries"
   ],
   "note": "the statement records deviations of the code; the theorems named *_refuted give the witness against the intended behaviour"
  },
  {
   "property": "C94",
   "status": "proved",
   "theorems": [
    "C94_witness_is_zero",
    "C94_short_trace",
    "C94_zero_degree",
    "C94_constructor"
   ],
   "note": ""
  },
  {
   "property": "C95",
   "status": "proved",
   "theorems": [
    "C95_H",
    "C95_H_split",
    "C95_L",
    "C95_length",
    "C95_neighbors"
   ],
   "note": ""
  },
  {
   "property": "C96",
   "status": "proved",
   "theorems": [
    "C96_tilde_expansion_refuted",
    "C96_tilde_expansion",
    "C96_missing_register"
   ],
   "note": "the statement records deviations of the code; the theorems named *_refuted give the witness against the intended behaviour"
  },
  {
   "property": "C97",
   "status": "proved",
   "theorems": [
    "C97_sum_of_terms",
    "C97_last_term",
    "C97_constant",
    "C97_repeated_monomial_refuted",
    "C97_large_index"
   ],
   "note": "the statement records deviations of the code; the theorems named *_refuted give the witness against the intended behaviour"
  },
  {
   "property": "C98",
   "status": "proved",
   "theorems": [
    "C98_separator_ignored",
    "C98_minus_refuted"
   ],
   "note": "the statement records deviations of the code; the theorems named *_refuted give the witness against the intended behaviour"
  },
  {
   "property": "C99",
   "status": "proved",
   "theorems": [
    "C99_repr_not_parsed",
    "C99_constant_round_trip",
    "C99_size_p"
   ],
   "note": ""
  },
  {
   "property": "C100",
   "status": "proved",
   "theorems": [
    "C100_truediv",
    "C100_division",
    "C100_quotient_refuted",
    "C100_div_remainder"
   ],
   "note": "the statement records deviations of the code; the theorems named *_refuted give the witness against the intended behaviour"
  },
  {
   "property": "C101",
   "status": "proved",
   "theorems": [
    "C101_check_for_div",
    "C101_poly_to_multi"
   ],
   "note": ""
  },
  {
   "property": "C102",
   "status": "proved",
   "theorems": [
    "C102_is_permutation",
    "C102_uniform"
   ],
   "note": ""
  },
  {
   "property": "C103",
   "status": "proved",
   "theorems": [
    "C103_rounds",
    "C103_degenerate_tolerance",
    "C103_honest",
    "C103_wrong_isomorphism"
   ],
   "note": ""
  },
  {
   "property": "C104",
   "status": "proved",
   "theorems": [
    "C104_transcript",
    "C104_simulation"
   ],
   "note": ""
  },
  {
   "property": "C105",
   "status": "proved",
   "theorems": [
    "C105_hextobin",
    "C105_select_random",
    "C105_trailing_zero_bits",
    "C105_prime_field"
   ],
   "note": ""
  },
  {
   "property": "C106",
   "status": "proved",
   "theorems": [
    "C106_select_subspace",
    "C106_subspace_contained",
    "C106_vanishing",
    "C106_vanishing_additive",
    "C106_next_domain"
   ],
   "note": ""
  },
  {
   "property": "C107",
   "status": "proved",
   "theorems": [
    "C107_commit_rate",
    "C107_commit_too_long",
    "C107_commit_no_round",
    "C107_commit_one_round",
    "C107_commit_values",
    "C107_commit_float",
    "C107_commit_more_rounds"
   ],
   "note": ""
  },
  {
   "property": "C108",
   "status": "proved",
   "theorems": [
    "C108_query_no_proof",
    "C108_query_no_round",
    "C108_query_more_rounds",
    "C108_query_codeword",
    "C108_query_pair",
    "C108_completeness_refuted",
    "C108_query_draw"
   ],
   "note": "the statement records deviations of the code; the theorems named *_refuted give the witness against the intended behaviour"
  },
  {
   "property": "C109",
   "status": "proved",
   "theorems": [
    "C109_gauss_constants",
    "C109_gauss_polynomial_refuted",
    "C109_gauss_polynomial_rhs",
    "C109_gauss_triangular",
    "C109_gauss_triangular_solves"
   ],
   "note": "the statement records deviations of the code; the theorems named *_refuted give the witness against the intended behaviour"
  },
  {
   "property": "C110",
   "status": "proved",
   "theorems": [
    "C110_moore_degree",
    "C110_moore_one",
    "C110_moore_two"
   ],
   "note": ""
  },
  {
   "property": "C111",
   "status": "proved",
   "theorems": [
    "C111_register_node",
    "C111_histories",
    "C111_array",
    "C111_failed_request_unchanged_refuted",
    "C111_single_address",
    "C111_other_bodies",
    "C111_status_400",
    "C111_other_values"
   ],
   "note": "the statement records deviations of the code; the theorems named *_refuted give the witness against the intended behaviour"
  },
  {
   "property": "C112",
   "status": "proved",
   "theorems": [
    "C112_chains_valid",
    "C112_lengths_grow",
    "C112_consensus",
    "C112_unreachable_neighbour",
    "C112_round",
    "C112_fork_persists",
    "C112_agreement_refuted"
   ],
   "note": "the statement records deviations of the code; the theorems named *_refuted give the witness against the intended behaviour"
  },
  {
   "property": "C113",
   "status": "proved",
   "theorems": [
    "C113_second_constraints",
    "C113_all_constraints",
    "C113_construction_returns",
    "C113_construction_fails",
    "C113_documented_constraints_refuted"
   ],
   "note": "the statement records deviations of the code; the theorems named *_refuted give the witness against the intended behaviour"
  },
  {
   "property": "C114",
   "status": "proved",
   "theorems": [
    "C114_random_constraint",
    "C114_after_apr",
    "C114_documented_sum_refuted",
    "C114_no_proof"
   ],
   "note": "the statement records deviations of the code; the theorems named *_refuted give the witness against the intended behaviour"
  },
  {
   "property": "C115",
   "status": "proved",
   "theorems": [
    "C115_bit_history",
    "C115_bits_linkable",
    "C115_secret_used_once_refuted",
    "C115_generate_secret",
    "C115_int_history",
    "C115_ints_linkable",
    "C115_stale_secret",
    "C115_base_class",
    "C115_member_index"
   ],
   "note": "the statement records deviations of the code; the theorems named *_refuted give the witness against the intended behaviour"
  },
  {
   "property": "C116",
   "status": "proved",
   "theorems": [
    "C116_repeated_queries",
    "C116_other_queries"
   ],
   "note": ""
  },
  {
   "property": "C117",
   "status": "proved",
   "theorems": [
    "C117_tree_fails",
    "C117_tree_plain",
    "C117_extension_elements",
    "C117_field_elements_refuted",
    "C117_evaluations",
    "C117_bytes_evaluations",
    "C117_int_evaluations"
   ],
   "note": "the statement records deviations of the code; the theorems named *_refuted give the witness against the intended behaviour"
  },
  {
   "property": "C118",
   "status": "proved",
   "theorems": [
    "C118_positional_modulus",
    "C118_keyword_modulus",
    "C118_keyword_parameters",
    "C118_first_modulus",
    "C118_default_modulus",
    "C118_integers",
    "C118_body",
    "C118_irreducible_modulus_refuted",
    "C118_wrong_calls",
    "C118_integers_wrong_calls",
    "C118_degree_one"
   ],
   "note": "the statement records deviations of the code; the theorems named *_refuted give the witness against the intended behaviour"
  },
  {
   "property": "C119",
   "status": "proved",
   "theorems": [
    "C119_total",
    "C119_bad_subscript",
    "C119_numeral",
    "C119_not_numeral",
    "C119_first_character",
    "C119_check_for_div"
   ],
   "note": ""
  },
  {
   "property": "C120",
   "status": "proved",
   "theorems": [
    "C120_as_it_stands",
    "C120_one_empty_list",
    "C120_never_returns",
    "C120_collected_bits",
    "C120_zero_flag_refuted"
   ],
   "note": "the statement records deviations of the code; the theorems named *_refuted give the witness against the intended behaviour"
  },
  {
   "property": "C121",
   "status": "proved",
   "theorems": [
    "C121_power_of_size",
    "C121_fermat",
    "C121_inverse_is_power",
    "C121_frobenius",
    "C121_elements_form_field",
    "C121_interpolation"
   ],
   "note": ""
  },
  {
   "property": "C122",
   "status": "proved",
   "theorems": [
    "C122_polynomial",
    "C122_field_element",
    "C122_polynomial_over_extension",
    "C122_multivariate",
    "C122_numbers",
    "C122_round_trip",
    "C122_equal_rationals_refuted",
    "C122_equal_multivariate_refuted",
    "C122_same_text_same_product_refuted"
   ],
   "note": "the statement records deviations of the code; the theorems named *_refuted give the witness against the intended behaviour"
  },
  {
   "property": "C123",
   "status": "proved",
   "theorems": [
    "C123_gauss_formula",
    "C123_success_probability",
    "C123_degree_many_refuted",
    "C123_rounds",
    "C123_uniform",
    "C123_primitive_count",
    "C123_generators_can_return"
   ],
   "note": "the statement records deviations of the code; the theorems named *_refuted give the witness against the intended behaviour"
  },
  {
   "property": "C124",
   "status": "proved",
   "theorems": [
    "C124_modp_gcd",
    "C124_modp_eea",
    "C124_modp_mixed",
    "C124_modp_agree",
    "C124_ints",
    "C124_poly_eea",
    "C124_fq"
   ],
   "note": ""
  },
  {
   "property": "C125",
   "status": "proved",
   "theorems": [
    "C125_liars_at_most_quarter",
    "C125_error_bound"
   ],
   "note": ""
  },
  {
   "property": "C126",
   "status": "proved",
   "theorems": [
    "C126_lame",
    "C126_lame_sharp",
    "C126_256_bits",
    "C126_coefficients",
    "C126_divides",
    "C126_poly_degrees",
    "C126_poly_steps"
   ],
   "note": ""
  },
  {
   "property": "C127",
   "status": "proved",
   "theorems": [
    "C127_branches_written",
    "C127_fri_written",
    "C127_branches_iff",
    "C127_fri_iff",
    "C127_branches_errors",
    "C127_fri_errors",
    "C127_decompress_branches",
    "C127_decompress_fri",
    "C127_canonical_refuted"
   ],
   "note": "the statement records deviations of the code; the theorems named *_refuted give the witness against the intended behaviour"
  },
  {
   "property": "C128",
   "status": "proved",
   "theorems": [
    "C128_root_binds",
    "C128_sizes_refuted",
    "C128_bytes_only",
    "C128_objects",
    "C128_object_raises",
    "C128_tail_ignored",
    "C128_inner_nodes_as_leaves"
   ],
   "note": "the statement records deviations of the code; the theorems named *_refuted give the witness against the intended behaviour"
  },
  {
   "property": "C129",
   "status": "proved",
   "theorems": [
    "C129_independent",
    "C129_fair",
    "C129_missing"
   ],
   "note": ""
  },
  {
   "property": "C130",
   "status": "proved",
   "theorems": [
    "C130_points",
    "C130_soundness",
    "C130_roots"
   ],
   "note": ""
  },
  {
   "property": "C131",
   "status": "proved",
   "theorems": [
    "C131_len",
    "C131_len_operations",
    "C131_degree_operations",
    "C131_degree_sub",
    "C131_degree_pow",
    "C131_compose_degree",
    "C131_call_poly_degree"
   ],
   "note": ""
  },
  {
   "property": "C132",
   "status": "proved",
   "theorems": [
    "C132_constructor",
    "C132_factory",
    "C132_factory_result"
   ],
   "note": ""
  },
  {
   "property": "C133",
   "status": "proved",
   "theorems": [
    "C133_zeros",
    "C133_identity",
    "C133_identity_reduced",
    "C133_identity_large_degree_refuted"
   ],
   "note": "the statement records deviations of the code; the theorems named *_refuted give the witness against the intended behaviour"
  },
  {
   "property": "C134",
   "status": "proved",
   "theorems": [
    "C134_agreement",
    "C134_agreement_attained",
    "C134_unique_decoding",
    "C134_erasures",
    "C134_error_detection"
   ],
   "note": ""
  }
 ]
}