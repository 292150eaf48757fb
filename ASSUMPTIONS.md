# What Print Assumptions prints

For every property theorem, grouped by the printed list.

## Closed under the global context

C01_unreduced_ratio_refuted C02_cancel C02_cancel_sharp C08_eq_returns C19_constructors C19_from_rationals C19_gauss_ops C19_int_ops C19_prims C19_qint_int_ops C19_qint_new C19_qint_ops C19_qint_unary C19_ratio_ops C19_reduced C19_reduced_refuted C19_rounding C19_surd_ops C19_unary C24_left_panics C24_rational_right C26_eq_transfer C28_big_coeffs C28_coeffs C28_coeffs_unsigned C28_fixed_width_refuted C28_generalized C28_into_coeffs_exact C28_into_coeffs_partial C28_into_coeffs_refuted C29_neighbours C30_returns C31_malformed_refuted C31_period_panics C31_period_returns C31_prefix_panics C31_prefix_returns C31_zero_panics C31_zero_period_panics C31_zero_period_returns C31_zero_returns C31_zero_zero C34_err C34_hang_refuted C34_rational_refuted C35_panic_refuted C37_below C37_fixed_width_refuted C37_returns C38_big_sized C38_to_integer_returns C39_cf C39_not_normal_refuted C39_returns C39_surd C40_fits C40_returns C44_any_x_partial C44_hang_refuted C44_product_refuted C45_returns C46_items C47_items C49_back_and_forth C49_exact C49_forth_and_back C49_kept C49_no_silent_change_partial C49_signed_refuted C49_unsigned_refuted C52_refuted C56_total C57_choice C57_fixed_width_refuted C57_hang_refuted C61_div_zero C62_div C62_mod4 C63_check_integer_none C63_checked_gmove C63_checked_rmove C63_gmove_primitive C64_rmove_returns C65_cf C68_cf C68_qint C68_qint_refuted C68_reflexive C68_refuted C68_symmetric C69_add_sub_mul C69_eq C69_gauss C69_gauss_div_rem C69_int_operand C69_new C69_qint_add_sub C69_qint_conj_neg C69_qint_div_rem C69_qint_int_operand C69_qint_mul C69_query C69_ratio_operand C69_recip C69_sharp C70_decimals_refuted C70_zero C71_big C71_cf C71_combinators C71_gauss C71_items C71_qint C71_surd_new C71_surd_ops C71_surd_queries C72_add_sub_mul C72_eq C72_gauss C72_gauss_div_rem C72_int_operand C72_new C72_qint_add_sub C72_qint_conj_neg C72_qint_div_rem C72_qint_int_operand C72_qint_mul C72_query C72_ratio_operand C72_recip C75_approximated C75_approximated_log C75_approximated_tight C76_gcd_refuted C76_mul_div_refuted C78_qint_int C78_surd_int C78_surd_ratio C81_any C82_bihomo C82_decimals C82_decimals_endless C82_decimals_ends C82_homo C82_list_begins C82_same_beginning C82_simplify C82_value_refuted C83_adaptors C83_bihomo_refuted C83_coefficients C83_convergents_partial C83_decimals_partial C83_overflow_refuted C84_approximated C84_bihomo C84_convergents C84_decimals C84_generalize C84_homo C84_items C84_simplify C84_simplify_items C84_sources C84_stored C84_take C86_one_sign C86_one_sign_homo C89_choice_partial C96_approximated_partial C96_approximated_refuted C96_conversions C96_iterators C97_quadint_gauss_refuted

## `ClassicalDedekindReals.sig_forall_dec`, `FunctionalExtensionality.functional_extensionality_dep`

C110_unique C29_convergents C29_fixed_width C29_fixed_width_refuted C31_returns_partial C31_signed_period_returns_partial C31_signed_returns_partial C31_steep_returns C32_returns C32_returns_partial C33_not_turned C38_to_rational_infinite C40_end C40_quotient C40_recurrences C40_value C41_finite C41_never_stops C41_returns C41_simplify C41_unique C42_affine_partial C42_homo_partial C43_decimals C43_returns C44_bihomo_partial C45_partial_sum C48_auxiliary C48_returns C48_value C50_exact C50_partial C50_value C57_error_partial C57_exact C57_returns C61_returns C62_div_int C62_rem_int C63_check_integer C63_gmove C63_reduce_mul C63_reduce_recip C63_rmove C64_check_integer C64_reduce_recip C64_rmove_down C64_rmove_right_partial C64_rmove_right_refuted C75_denominators C79_coefficients_determine C79_coefficients_exist C80_homo C80_homo_chained C80_one_sign C80_positive C80_simplify C80_simplify_chained C81_progress C81_rule C84_stored_approximated C86_homo C86_positive C86_simplify C88_closer C88_collect_returns C88_next C88_sides C89_general_refuted C92_returns

## `ClassicalDedekindReals.sig_forall_dec`, `ClassicalDedekindReals.sig_not_dec`, `FunctionalExtensionality.functional_extensionality_dep`

C01_normal_form C02_from_coeffs C02_from_coeffs_returns C02_from_rationals C02_from_rationals_returns C02_new C02_new_returns C03_add C03_add_sub_int C03_add_sub_ratio C03_sub C04_mul_imaginary C04_mul_partial C04_mul_ratio_int C04_refuted C05_div_imaginary C05_div_partial C05_div_ratio_int C05_recip C05_refuted C05_zero_refuted C06_div_iff C06_panics C06_pure_mul_div C06_refuted C06_same_field_partial C07_conj C07_conj_conj C07_neg C07_numer_denom C07_returns C07_trace_norm_rational C08_eq_partial C08_eq_same_root C08_refuted C09_is_negative C09_is_positive C09_returns C100_any_surd C100_bounds C100_coefficient C100_far C100_golden C100_surd C100_three C100_two C101_difference C101_equal C101_order C101_place C101_surds C102_agrees C102_loop C102_returns C102_right C103_back_and_there C103_returns C103_right C103_there_and_back C104_decides C104_loop_hangs C104_loop_returns C104_loop_right C104_returns C104_right C105_exact C105_panics C105_rebase C105_rebase_returns C105_returns C106_back_and_there C106_calc C106_calc_returns C106_convert C106_held C106_order C106_order_returns C106_return C106_there_and_back C107_div C107_exact C107_mul C107_panics C107_rebase C107_rebase_returns C107_returns C108_decides C108_equivalence C108_returns C108_right C109_ceil C109_fract C109_returns C109_round C109_trunc C10_floor C10_returns C110_complete C110_err C110_returns C110_right C111_returns C111_right C11_refuted C11_returns C11_trunc_complex C11_trunc_real_partial C12_trunc_fract C13_returns C13_to_integer_approx_iff C13_to_integer_approx_partial C13_to_integer_complete C13_to_integer_exact C13_to_primitive C13_to_rational_approx_partial C13_to_rational_complete C13_to_rational_exact C13_to_rational_larger C13_to_rational_refuted C14_larger_root C14_none C14_root C15_complete C15_sqrt_int C15_sqrt_int_err C15_sqrt_ratio C15_sqrt_ratio_err C16_complete C16_err C16_principal_iff C16_principal_partial C16_rational_part C16_refuted C16_returns C16_square C17_no_small_squares C17_refuted C17_returns_partial C17_value C18_alg_integer C18_gauss C18_gaussint_exact C18_is_complex C18_is_gaussint_partial C18_is_gaussint_refuted C18_is_integer C18_is_pure C18_is_quadint C18_is_quadint_partial C18_is_quadint_refuted C18_is_rational C18_is_zero_one C18_quadint_exact C19_sqrt C20_from_coeffs_partial C20_new_partial C20_new_refuted C20_new_square C20_returns C20_well_formed C21_add_sub_mul C21_bigint_total C21_incompatible_roots C21_with_int C22_conj C22_conj_complex C22_norm C22_norm_multiplicative C23_div C23_div_int C23_returns C23_unique C24_euclidean_int C24_euclidean_partial C24_plain_integer_refuted C24_returns C24_roots_exact C25_identity_int C25_identity_partial C25_plain_integer_refuted C25_rational_exact C25_stored_root_exact C25_stored_root_refuted C25_stored_root_returns C26_eq_partial C26_eq_refuted C26_is_one_partial C26_is_one_refuted C26_is_pure_partial C26_is_pure_refuted C26_is_rational C26_is_zero C27_bigint_total C27_div C27_div_rem C27_euclidean C27_norm C27_ring C29_alternating C29_limit C30_of_int C30_of_ratio C30_round_trip C30_unique C31_magnitude C31_new_partial C31_panic_refuted C31_period_exact C31_periodic_refuted C31_prefix_sign C31_refuted C31_signed_partial C31_signed_period_partial C31_steep_iff C31_zero_period_exact C31_zero_sign C32_add_partial C32_exact C32_periodic_refuted C32_refuted C32_same_sign C32_sub_exact C32_sub_partial C33_add_partial C33_add_ratio_partial C33_any C33_between_panics C33_between_returns_partial C33_between_settles C33_big_sized C33_conjugate_refuted C33_div_int_partial C33_div_partial C33_div_ratio_partial C33_finite_right_returns C33_finite_right_settles C33_int_any C33_mul_int_partial C33_mul_partial C33_mul_ratio_partial C33_ratio_any C33_rational_refuted C33_returns_partial C33_settles C33_sub_partial C33_sub_ratio_partial C34_exact_partial C34_hang_above_refuted C34_hang_family C34_hangs_iff C34_rational_panics C34_refuted C34_returns_iff C34_returns_or_hangs C34_returns_partial C34_sign_refuted C34_value C35_exact C35_outcome C35_returns_partial C35_returns_unless C35_squarefree C36_any C36_back_any C36_back_partial C36_finite_never C36_refuted C36_returns_partial C36_round_trip_partial C37_approximated_partial C37_below_refuted C37_refuted C37_surd_partial C38_neg C38_to_integer C38_to_rational_finite C42_affine_returns_partial C42_coefficients C42_refuted C42_returns_partial C42_stored_partial C43_stored C44_sum_refuted C44_value_refuted C45_limit C50_refuted C51_exact C51_hash_partial C51_refuted C52_fract_iff C52_scalar_ops C52_total_partial C56_value C57_refuted C58_periodic C58_rational C58_refuted C58_shortest C58_sound C58_surds_partial C59_collect_partial C59_constants C59_is_integer C59_is_one_partial C59_is_one_refuted C59_is_rational C59_is_zero C60_gaussint_approx C60_gaussint_exact_partial C60_gaussint_refuted C60_gaussint_returns C60_quadint_approx C60_quadint_exact C60_quadint_refuted C60_quadint_returns C60_quadint_when C61_add C61_conj C61_div C61_div_nonsquare C61_div_square_refuted C61_int C61_mul C61_norm C61_ratio C61_sub C62_conj C62_div_rem C62_linear C62_mul C62_norm C62_returns C65_surd C66_approximated C66_convergents C66_legendre C66_nearest C66_surd C67_add_laws C67_closed C67_conj_laws C67_eq_add C67_eq_mul C67_mul_laws C67_order C67_unique C68_transitive_iff C68_transitive_partial C69_div C70_simplify_refuted C71_silent C72_div C73_palindrome C73_pure C73_pure_value C73_reverse C73_square_root C73_square_root_returns C74_negative C74_returns C74_smallest C74_solutions C75_ratio_length C75_reduced C75_surd_approximated C75_surd_period C75_surd_returns C75_surd_start C76_exact_partial C76_gauss_divides C76_gauss_exact C76_gauss_gcd C76_gauss_gcd_returns C76_gauss_mul_div C76_gauss_units C76_gcd C76_gcd_returns C76_mul_div_partial C76_mul_rem_partial C76_units C77_arithmetic C77_bound_refuted C77_canonical C77_eq C77_idempotent C77_squarefree C78_cf_add_exact C78_cf_add_refuted C78_cf_int_partial C78_cf_ratio C78_qint_rem_refuted C79_coefficients_converge C79_homo C79_homo_stored C79_simplify C80_one_number C81_outside C81_spells C81_true_digits C85_approximated C85_approximated_returns C85_coefficients C85_to_cf C85_to_cf_exact C86_again_refuted C86_converges C87_approximated C87_by_hand C87_by_hand_returns C87_by_hand_right C87_decimals C87_homo C87_narrow_refuted C87_ratio C87_simplify C88_collect C89_exact_partial C89_inclusive_refuted C89_monotone C89_surd C90_add_iff C90_div C90_mul C90_of_square C90_returns C90_square C91_floor_add C91_floor_floor C91_floor_mono C91_floor_neg C91_trunc_neg C91_trunc_trunc C92_collect C92_last C92_prefix C93_cf C93_cf_returns C93_surd C93_surd_returns C93_through C94_returns C94_step C95_back C95_back_returns C95_formula C95_product_partial C95_product_refuted C95_vieta C96_involution C96_of_ratio C96_of_surd_partial C96_of_surd_refuted C96_recip C97_closed C97_conj C97_gauss_partial C97_gauss_refuted C97_quadint_gauss_partial C97_quadint_partial C97_quadint_refuted C98_all C98_negative C98_norm C98_powers C98_returns C98_units C99_fractions C99_homo C99_homo_stored C99_operations C99_surds

## `ClassicalDedekindReals.sig_forall_dec`, `ClassicalDedekindReals.sig_not_dec`, `Classical_Prop.classic`, `FunctionalExtensionality.functional_extensionality_dep`

C46_convergents C46_decimals C46_decimals_returns C46_limit C46_simplify C46_simplify_returns C47_digits C47_homo C47_limit C48_constant C48_limit C48_rate C53_cancellation_refuted C53_error C53_none C53_primitive C53_range_refuted C53_rational C53_relative C53_root C54_error C54_real C54_single C54_single_range C55_e C55_pi C70_decimals_partial C70_decimals_returns C70_irrational C70_returns C70_same_as_E C70_simplify_partial C80_exp C80_exp_homo C81_exp C86_generalize_again_refuted C88_e C88_exp C88_pi C88_pi_approximated C88_pi_sides C89_pi
