{
 "claims": [
  {
   "property": "C01",
   "status": "proved",
   "theorems": [
    "C01_normal_form",
    "C01_unreduced_ratio_refuted"
   ],
   "note": "Ratio arguments in lowest terms, as quantified. C01_unreduced_ratio_refuted: to_rational hands out a Ratio not in lowest terms and From<Ratio> trusts it."
  },
  {
   "property": "C02",
   "status": "proved",
   "theorems": [
    "C02_new",
    "C02_from_coeffs",
    "C02_from_rationals",
    "C02_new_returns",
    "C02_from_coeffs_returns",
    "C02_from_rationals_returns",
    "C02_cancel",
    "C02_cancel_sharp"
   ],
   "note": "Value for every type; exact return condition over BigInt; which common factors are cancelled (C02_cancel, C02_cancel_sharp)."
  },
  {
   "property": "C03",
   "status": "proved",
   "theorems": [
    "C03_add",
    "C03_sub",
    "C03_add_sub_ratio",
    "C03_add_sub_int"
   ],
   "note": ""
  },
  {
   "property": "C04",
   "status": "partial",
   "theorems": [
    "C04_mul_partial",
    "C04_mul_imaginary",
    "C04_refuted",
    "C04_mul_ratio_int"
   ],
   "note": "False for two purely imaginary factors: the result has the wrong sign (i*i = 1). Exact otherwise; the wrong value is characterised too."
  },
  {
   "property": "C05",
   "status": "partial",
   "theorems": [
    "C05_div_partial",
    "C05_div_imaginary",
    "C05_recip",
    "C05_div_ratio_int",
    "C05_refuted",
    "C05_zero_refuted"
   ],
   "note": "False for two purely imaginary operands (i/i = -1) and 0/sqrt 2 panics. Exact otherwise."
  },
  {
   "property": "C06",
   "status": "partial",
   "theorems": [
    "C06_same_field_partial",
    "C06_pure_mul_div",
    "C06_panics",
    "C06_div_iff",
    "C06_refuted"
   ],
   "note": "False for commensurable roots none of which is a square multiple of the other (sqrt 8 + sqrt 18 panics) and for 0/irrational. Proved when one root is a square times the other, and for mul/div of pure surds; in all other cases the call panics (C06_panics, C06_div_iff), so the domain is exact."
  },
  {
   "property": "C07",
   "status": "proved",
   "theorems": [
    "C07_neg",
    "C07_conj",
    "C07_conj_conj",
    "C07_trace_norm_rational",
    "C07_numer_denom",
    "C07_returns"
   ],
   "note": ""
  },
  {
   "property": "C08",
   "status": "partial",
   "theorems": [
    "C08_eq_partial",
    "C08_eq_same_root",
    "C08_eq_returns",
    "C08_refuted"
   ],
   "note": "False: sqrt 8 == -2 sqrt 2, the sign of b is ignored across different roots. The exact meaning of == is proved."
  },
  {
   "property": "C09",
   "status": "proved",
   "theorems": [
    "C09_is_positive",
    "C09_is_negative",
    "C09_returns"
   ],
   "note": ""
  },
  {
   "property": "C10",
   "status": "proved",
   "theorems": [
    "C10_floor",
    "C10_returns"
   ],
   "note": ""
  },
  {
   "property": "C11",
   "status": "partial",
   "theorems": [
    "C11_trunc_complex",
    "C11_trunc_real_partial",
    "C11_returns",
    "C11_refuted"
   ],
   "note": "False for real surds where b and the number have opposite signs: trunc(2 - sqrt 2) = 1. The exact domain of correctness is proved; complex surds fully."
  },
  {
   "property": "C12",
   "status": "proved",
   "theorems": [
    "C12_trunc_fract"
   ],
   "note": ""
  },
  {
   "property": "C13",
   "status": "partial",
   "theorems": [
    "C13_to_integer_approx_iff",
    "C13_to_integer_exact",
    "C13_to_integer_complete",
    "C13_to_integer_approx_partial",
    "C13_to_rational_exact",
    "C13_to_rational_complete",
    "C13_to_rational_approx_partial",
    "C13_to_rational_larger",
    "C13_to_rational_refuted",
    "C13_to_primitive",
    "C13_returns"
   ],
   "note": "Exactness proved in both directions. Approximated to_integer inherits trunc (exactly when it is right is C13_to_integer_approx_partial and C13_to_integer_approx_iff); Approximated to_rational ignores the sign of b (-sqrt 2 gives 1/1); proved for b > 0, and for either sign of b the rational is within 1/c below the number with |b| (C13_to_rational_larger)."
  },
  {
   "property": "C14",
   "status": "proved",
   "theorems": [
    "C14_root",
    "C14_larger_root",
    "C14_none"
   ],
   "note": ""
  },
  {
   "property": "C15",
   "status": "proved",
   "theorems": [
    "C15_sqrt_int",
    "C15_sqrt_int_err",
    "C15_sqrt_ratio",
    "C15_sqrt_ratio_err",
    "C15_complete"
   ],
   "note": ""
  },
  {
   "property": "C16",
   "status": "partial",
   "theorems": [
    "C16_rational_part",
    "C16_principal_iff",
    "C16_square",
    "C16_complete",
    "C16_err",
    "C16_returns",
    "C16_principal_partial",
    "C16_refuted"
   ],
   "note": "y^2 = x, completeness and error kinds proved. The root need not be principal: from_sqrt(3-2 sqrt 2) = 1 - sqrt 2. Principal for rational, complex and b > 0; in general exactly when the principal root has a positive rational part (C16_principal_iff)."
  },
  {
   "property": "C17",
   "status": "partial",
   "theorems": [
    "C17_value",
    "C17_no_small_squares",
    "C17_returns_partial",
    "C17_refuted"
   ],
   "note": "Value and absence of small square factors proved; always returns for irrational surds. Rational surds: the loop never ends."
  },
  {
   "property": "C18",
   "status": "partial",
   "theorems": [
    "C18_is_quadint",
    "C18_alg_integer",
    "C18_quadint_exact",
    "C18_gauss",
    "C18_gaussint_exact",
    "C18_is_rational",
    "C18_is_integer",
    "C18_is_complex",
    "C18_is_pure",
    "C18_is_zero_one",
    "C18_is_gaussint_partial",
    "C18_is_gaussint_refuted",
    "C18_is_quadint_partial",
    "C18_is_quadint_refuted"
   ],
   "note": "is_rational, is_integer, is_complex, is_pure, is_zero, is_one proved. is_gaussint accepts sqrt(-5), is_quadint rejects (1+sqrt 5)/2. Proved what both decide (an integer plus an integer multiple of the stored root), which surds are Gaussian and algebraic integers, and exactly when the two answers are right (is_quadint: over square-free roots)."
  },
  {
   "property": "C19",
   "status": "proved",
   "theorems": [
    "C19_constructors",
    "C19_from_rationals",
    "C19_unary",
    "C19_int_ops",
    "C19_ratio_ops",
    "C19_surd_ops",
    "C19_rounding",
    "C19_qint_new",
    "C19_qint_unary",
    "C19_qint_int_ops",
    "C19_qint_ops",
    "C19_gauss_ops",
    "C19_prims",
    "C19_sqrt",
    "C19_reduced",
    "C19_reduced_refuted"
   ],
   "note": "Every arithmetic and conversion function of surds, quadratic and Gaussian integers; reduced() is the exception, as stated in the property (C19_reduced_refuted)."
  },
  {
   "property": "C20",
   "status": "partial",
   "theorems": [
    "C20_well_formed",
    "C20_new_partial",
    "C20_from_coeffs_partial",
    "C20_new_refuted",
    "C20_new_square",
    "C20_returns"
   ],
   "note": "False for odd square factors: new(0,1,9) = 5. Exact for non-square roots; what square roots give is characterised; exact return condition over BigInt; every reachable value is well-formed."
  },
  {
   "property": "C21",
   "status": "proved",
   "theorems": [
    "C21_add_sub_mul",
    "C21_with_int",
    "C21_bigint_total",
    "C21_incompatible_roots"
   ],
   "note": "Commensurable roots where neither is a square times the other panic (C21_incompatible_roots), outside the quantifier."
  },
  {
   "property": "C22",
   "status": "proved",
   "theorems": [
    "C22_conj",
    "C22_conj_complex",
    "C22_norm",
    "C22_norm_multiplicative"
   ],
   "note": ""
  },
  {
   "property": "C23",
   "status": "proved",
   "theorems": [
    "C23_div",
    "C23_div_int",
    "C23_unique",
    "C23_returns"
   ],
   "note": ""
  },
  {
   "property": "C24",
   "status": "partial",
   "theorems": [
    "C24_rational_right",
    "C24_euclidean_partial",
    "C24_euclidean_int",
    "C24_plain_integer_refuted",
    "C24_left_panics",
    "C24_returns",
    "C24_roots_exact"
   ],
   "note": "False for a rational right operand (% returns the quotient: C24_rational_right) and integers on the left panic. Proved for irrational right operands and for % with a plain integer type; C24_roots_exact shows the list of seven roots is complete (every other root has operands where the remainder is not smaller)."
  },
  {
   "property": "C25",
   "status": "partial",
   "theorems": [
    "C25_rational_exact",
    "C25_identity_partial",
    "C25_identity_int",
    "C25_plain_integer_refuted",
    "C25_stored_root_refuted",
    "C25_stored_root_exact",
    "C25_stored_root_returns"
   ],
   "note": "False for a rational right operand except in the cases of C25_rational_exact, and for an integer stored over another root except in the cases of C25_stored_root_exact (C25_stored_root_returns says when % returns there). Proved otherwise and for plain integer right operands, so that it is settled for all inputs where the identity holds."
  },
  {
   "property": "C26",
   "status": "partial",
   "theorems": [
    "C26_eq_partial",
    "C26_eq_transfer",
    "C26_eq_refuted",
    "C26_is_rational",
    "C26_is_zero",
    "C26_is_one_partial",
    "C26_is_one_refuted",
    "C26_is_pure_partial",
    "C26_is_pure_refuted"
   ],
   "note": "== ignores the sign of b across roots, and never equates root 0 with other roots; is_pure is wrong for roots 2, 3 mod 4; is_one misses 1 stored over a root. Exact meaning of all of them proved; is_rational, is_zero right."
  },
  {
   "property": "C27",
   "status": "proved",
   "theorems": [
    "C27_ring",
    "C27_norm",
    "C27_div",
    "C27_div_rem",
    "C27_euclidean",
    "C27_bigint_total"
   ],
   "note": ""
  },
  {
   "property": "C28",
   "status": "partial",
   "theorems": [
    "C28_coeffs_unsigned",
    "C28_coeffs",
    "C28_generalized",
    "C28_into_coeffs_partial",
    "C28_big_coeffs",
    "C28_into_coeffs_refuted",
    "C28_fixed_width_refuted",
    "C28_into_coeffs_exact"
   ],
   "note": "into_coeffs() never advances inside the period: it repeats the period's first coefficient and is right exactly if the others are the same (C28_into_coeffs_exact). The other three iterators are right for every fraction (at fixed width: coefficients that fit the signed type)."
  },
  {
   "property": "C29",
   "status": "proved",
   "theorems": [
    "C29_convergents",
    "C29_fixed_width",
    "C29_neighbours",
    "C29_limit",
    "C29_alternating",
    "C29_fixed_width_refuted"
   ],
   "note": "At fixed width the convergents wrap silently once they do not fit (C29_fixed_width_refuted), outside the quantifier."
  },
  {
   "property": "C30",
   "status": "proved",
   "theorems": [
    "C30_of_ratio",
    "C30_returns",
    "C30_of_int",
    "C30_round_trip",
    "C30_unique"
   ],
   "note": ""
  },
  {
   "property": "C31",
   "status": "partial",
   "theorems": [
    "C31_new_partial",
    "C31_returns_partial",
    "C31_signed_partial",
    "C31_signed_returns_partial",
    "C31_signed_period_partial",
    "C31_signed_period_returns_partial",
    "C31_magnitude",
    "C31_refuted",
    "C31_periodic_refuted",
    "C31_panic_refuted",
    "C31_steep_iff",
    "C31_steep_returns",
    "C31_prefix_sign",
    "C31_prefix_returns",
    "C31_prefix_panics",
    "C31_zero_sign",
    "C31_zero_returns",
    "C31_zero_panics",
    "C31_zero_zero",
    "C31_period_exact",
    "C31_period_returns",
    "C31_period_panics",
    "C31_zero_period_exact",
    "C31_zero_period_returns",
    "C31_zero_period_panics",
    "C31_malformed_refuted"
   ],
   "note": "False: new([-1,3]) = +2/3, new([-3],[2]) has the wrong sign, new([1,0,-3]) panics. Proved for non-negative coefficients after the first (zeros allowed), for finite lists of any sign with absolute values >= 2 after the first, and for those followed by a period exactly when the last coefficient before it is positive; for every finite list with a value the result is right up to its sign whenever the call returns (C31_magnitude). For finite lists of any sign no proper beginning of which is zero, exactly when the call returns and when the sign is right is C31_prefix_returns and C31_prefix_sign; likewise for lists that start with 0 and a coefficient that is not 0 (C31_zero_returns, C31_zero_sign); two zeros in front change nothing (C31_zero_zero). For the same lists followed by a positive period, exactly when the call returns, when the result is canonical, and when its magnitude and its sign are right is C31_period_exact, C31_period_returns and C31_zero_period_exact, C31_zero_period_returns. Lists with a later beginning of value zero are settled up to the sign only. For finite lists with absolute values >= 2 after the first the exact condition is C31_steep_iff. new([1,0]), which has no value, returns a fraction without coefficients (C31_malformed_refuted)."
  },
  {
   "property": "C32",
   "status": "partial",
   "theorems": [
    "C32_add_partial",
    "C32_sub_partial",
    "C32_returns_partial",
    "C32_same_sign",
    "C32_refuted",
    "C32_periodic_refuted",
    "C32_exact",
    "C32_sub_exact",
    "C32_returns"
   ],
   "note": "False for some sign changes: 1/3 + (-1) = +2/3, sqrt 2 - 3 = -(1+sqrt 2). Proved: the call always returns, exactly when the value is right and the result canonical, and what comes out otherwise."
  },
  {
   "property": "C33",
   "status": "partial",
   "theorems": [
    "C33_mul_int_partial",
    "C33_div_int_partial",
    "C33_add_ratio_partial",
    "C33_sub_ratio_partial",
    "C33_mul_ratio_partial",
    "C33_div_ratio_partial",
    "C33_add_partial",
    "C33_sub_partial",
    "C33_mul_partial",
    "C33_div_partial",
    "C33_big_sized",
    "C33_returns_partial",
    "C33_rational_refuted",
    "C33_conjugate_refuted",
    "C33_finite_right_returns",
    "C33_between_returns_partial",
    "C33_between_panics",
    "C33_int_any",
    "C33_ratio_any",
    "C33_any",
    "C33_not_turned",
    "C33_settles",
    "C33_finite_right_settles",
    "C33_between_settles"
   ],
   "note": "Inherits C34: rational results of infinite operands panic, and results between 0 and their conjugate can be wrong. Proved for finite operands and for all results in cf_wide (irrational, not between 0 and the conjugate); for every other result, that what is returned is the number, its conjugate or its opposite (C33_any, C33_ratio_any, C33_int_any). At arbitrary precision: return in cf_domain, return or loop for every irrational result, panic for every rational one (C33_settles, C33_between_settles), and exactly when the roots of the operands are incompatible (C33_between_panics)."
  },
  {
   "property": "C34",
   "status": "partial",
   "theorems": [
    "C34_err",
    "C34_value",
    "C34_returns_or_hangs",
    "C34_exact_partial",
    "C34_sign_refuted",
    "C34_returns_partial",
    "C34_refuted",
    "C34_hang_refuted",
    "C34_rational_refuted",
    "C34_hangs_iff",
    "C34_returns_iff",
    "C34_rational_panics",
    "C34_hang_family",
    "C34_hang_above_refuted"
   ],
   "note": "False: (3-sqrt 2)/2 gives the fraction of (3+sqrt 2)/2, -6+4 sqrt 2 loses its sign, 2-sqrt 2 never returns, rational surds panic. Proved: the exact value returned for every irrational real surd (C34_value), exactness whenever the number is not between 0 and its conjugate, termination (Lagrange) when the conjugate is below, exactly which irrational surds never return (C34_hangs_iff, C34_returns_iff; k - sqrt(n^2+1) and (3+sqrt 2)/7 among them), a panic for every rational surd (C34_rational_panics), Err exactly for complex."
  },
  {
   "property": "C35",
   "status": "partial",
   "theorems": [
    "C35_outcome",
    "C35_returns_unless",
    "C35_squarefree",
    "C35_exact",
    "C35_returns_partial",
    "C35_panic_refuted"
   ],
   "note": "Exact whenever it returns. Can panic for more than two coefficients before a period (C35_panic_refuted). Over arbitrary precision it returns or panics because of unlike roots (C35_outcome), the latter only if two coprime squares divide the discriminant of the period (C35_returns_unless); which of these fractions panic depends on the common factors that happen to be cancelled."
  },
  {
   "property": "C36",
   "status": "partial",
   "theorems": [
    "C36_round_trip_partial",
    "C36_returns_partial",
    "C36_back_partial",
    "C36_refuted",
    "C36_any",
    "C36_back_any",
    "C36_finite_never"
   ],
   "note": "False for numbers between 0 and their conjugate ((3-sqrt 2)/2 comes back as (3+sqrt 2)/2); proved in cf_wide, with termination in cf_domain; outside, what comes back is the number, its conjugate or its opposite (C36_any, C36_back_any), and finite fractions never make the round trip (C36_finite_never)."
  },
  {
   "property": "C37",
   "status": "partial",
   "theorems": [
    "C37_approximated_partial",
    "C37_returns",
    "C37_surd_partial",
    "C37_refuted",
    "C37_fixed_width_refuted",
    "C37_below",
    "C37_below_refuted"
   ],
   "note": "The documented bound 1/limit^2 is false (sqrt 2, limit 169); the bound 1/(q*limit), exactness and termination proved. At fixed width it can claim Exact wrongly. With a limit below 1 it returns the first coefficient without the sign (C37_below)."
  },
  {
   "property": "C38",
   "status": "proved",
   "theorems": [
    "C38_to_integer",
    "C38_to_integer_returns",
    "C38_to_rational_finite",
    "C38_to_rational_infinite",
    "C38_big_sized",
    "C38_neg"
   ],
   "note": ""
  },
  {
   "property": "C39",
   "status": "proved",
   "theorems": [
    "C39_surd",
    "C39_cf",
    "C39_returns",
    "C39_not_normal_refuted"
   ],
   "note": ""
  },
  {
   "property": "C40",
   "status": "proved",
   "theorems": [
    "C40_value",
    "C40_recurrences",
    "C40_quotient",
    "C40_returns",
    "C40_fits",
    "C40_end"
   ],
   "note": "For every type; with a first numerator 1, as the documentation asks for. At fixed width an item is produced whenever the type holds the numbers of the recurrences (C40_fits)."
  },
  {
   "property": "C41",
   "status": "proved",
   "theorems": [
    "C41_never_stops",
    "C41_simplify",
    "C41_finite",
    "C41_returns",
    "C41_unique"
   ],
   "note": "For every type and every source with positive terms; every coefficient of an irrational number is produced with arbitrary precision, and simplify() never stops on an irrational limit whatever the signs of the terms (C41_never_stops). For finite sources the items are right but trailing ones can be missing (C41_case_finite)."
  },
  {
   "property": "C42",
   "status": "partial",
   "theorems": [
    "C42_homo_partial",
    "C42_affine_partial",
    "C42_returns_partial",
    "C42_affine_returns_partial",
    "C42_stored_partial",
    "C42_coefficients",
    "C42_refuted"
   ],
   "note": "False when c x + d changes sign on the way: homo(5,-11,1,-2) on sqrt 2 answers 5 instead of 6 (the fraction 5, 0, 1, 1, 2, ... still converges to the right number: C79). Proved, with termination, when it does not (c, d of the same sign as x's coefficients require, in particular all affine maps)."
  },
  {
   "property": "C43",
   "status": "proved",
   "theorems": [
    "C43_decimals",
    "C43_returns",
    "C43_stored"
   ],
   "note": "For every type; every digit of an irrational number is produced with arbitrary precision."
  },
  {
   "property": "C44",
   "status": "partial",
   "theorems": [
    "C44_bihomo_partial",
    "C44_any_x_partial",
    "C44_sum_refuted",
    "C44_product_refuted",
    "C44_value_refuted",
    "C44_hang_refuted"
   ],
   "note": "False: x+y and x*y panic with a division by zero for x = y = sqrt 2, other maps give wrong coefficients or never answer (update_right drops a value, the two flags are swapped, zero denominators are not guarded). Proved for what is produced before x is looked at."
  },
  {
   "property": "C45",
   "status": "proved",
   "theorems": [
    "C45_partial_sum",
    "C45_returns",
    "C45_limit"
   ],
   "note": "The n-th convergent is the partial sum at every width; every convergent is produced with arbitrary precision."
  },
  {
   "property": "C46",
   "status": "proved",
   "theorems": [
    "C46_items",
    "C46_limit",
    "C46_convergents",
    "C46_simplify",
    "C46_simplify_returns",
    "C46_decimals",
    "C46_decimals_returns"
   ],
   "note": "Also simplify() and decimals() on Pi, with termination (pi is proved irrational)."
  },
  {
   "property": "C47",
   "status": "proved",
   "theorems": [
    "C47_items",
    "C47_limit",
    "C47_digits",
    "C47_homo"
   ],
   "note": "Also that the items are the coefficients of e, and homo() on E."
  },
  {
   "property": "C48",
   "status": "proved",
   "theorems": [
    "C48_constant",
    "C48_value",
    "C48_returns",
    "C48_limit",
    "C48_rate",
    "C48_auxiliary"
   ],
   "note": "The truncations to integers are shown to be exact; the error bound 10/sqrt(n+1) is explicit."
  },
  {
   "property": "C49",
   "status": "partial",
   "theorems": [
    "C49_exact",
    "C49_kept",
    "C49_back_and_forth",
    "C49_forth_and_back",
    "C49_no_silent_change_partial",
    "C49_unsigned_refuted",
    "C49_signed_refuted"
   ],
   "note": "The round trips and the conversions of representable values are proved at every width. The last part is false: the fixed-width casts wrap silently (C49_unsigned_refuted, C49_signed_refuted; exactly what comes out is C49_exact); BigInt panics instead of wrapping."
  },
  {
   "property": "C50",
   "status": "partial",
   "theorems": [
    "C50_exact",
    "C50_refuted",
    "C50_partial",
    "C50_value"
   ],
   "note": "False: generalize() yields (v, 1) instead of (1, v), so the convergents differ (C50_refuted). They are the same exactly as long as all coefficients are 1 (C50_partial, C50_exact); what the convergents are in general is C50_value."
  },
  {
   "property": "C51",
   "status": "partial",
   "theorems": [
    "C51_exact",
    "C51_hash_partial",
    "C51_refuted"
   ],
   "note": "False for different roots (sqrt 8 and 2 sqrt 2 are == but hash differently). Proved: surds that are == hash equally exactly if their roots are the same."
  },
  {
   "property": "C52",
   "status": "partial",
   "theorems": [
    "C52_fract_iff",
    "C52_total_partial",
    "C52_scalar_ops",
    "C52_refuted"
   ],
   "note": "False for fract of complex surds, which can panic. Proved: everything else, and exactly when fract returns (C52_fract_iff)."
  },
  {
   "property": "C53",
   "status": "proved",
   "theorems": [
    "C53_none",
    "C53_error",
    "C53_relative",
    "C53_primitive",
    "C53_rational",
    "C53_root",
    "C53_cancellation_refuted",
    "C53_range_refuted"
   ],
   "note": "The relative error is unbounded under cancellation (131836323 - 93222358 sqrt 2 becomes 0) and integers beyond the f64 range give NaN; both are outside the statement and shown by C53_cancellation_refuted and C53_range_refuted."
  },
  {
   "property": "C54",
   "status": "proved",
   "theorems": [
    "C54_real",
    "C54_error",
    "C54_single",
    "C54_single_range"
   ],
   "note": ""
  },
  {
   "property": "C55",
   "status": "proved",
   "theorems": [
    "C55_e",
    "C55_pi"
   ],
   "note": ""
  },
  {
   "property": "C56",
   "status": "proved",
   "theorems": [
    "C56_value",
    "C56_total"
   ],
   "note": "Ratio::<i64>::from_f64 belongs to num-rational; its answer is an argument of the model."
  },
  {
   "property": "C57",
   "status": "partial",
   "theorems": [
    "C57_choice",
    "C57_error_partial",
    "C57_returns",
    "C57_exact",
    "C57_refuted",
    "C57_fixed_width_refuted",
    "C57_hang_refuted"
   ],
   "note": "The documented bound 1/limit^2 is false (C57_refuted). Choice of the convergent, denominators within the limit, the error below the distance to the next convergent, exactness and termination (arbitrary precision, denominators unbounded) proved. Not every source lets it end: C57_hang_refuted."
  },
  {
   "property": "C58",
   "status": "partial",
   "theorems": [
    "C58_sound",
    "C58_rational",
    "C58_surds_partial",
    "C58_shortest",
    "C58_periodic",
    "C58_refuted"
   ],
   "note": "False for fractions built from given coefficients: [1; (2)], [1, 2; (2)] and [1; (2, 2)] are all sqrt 2. Proved: sound always; right when one side is rational; equal surds give identical fractions (the shortest ones); for equal lengths right for all periodic fractions."
  },
  {
   "property": "C59",
   "status": "partial",
   "theorems": [
    "C59_constants",
    "C59_is_zero",
    "C59_is_one_partial",
    "C59_is_rational",
    "C59_is_integer",
    "C59_is_one_refuted",
    "C59_collect_partial"
   ],
   "note": "False for is_one: it ignores the sign, -1 is called one. Everything else is right; collect() on the domain of C31."
  },
  {
   "property": "C60",
   "status": "partial",
   "theorems": [
    "C60_quadint_exact",
    "C60_quadint_approx",
    "C60_quadint_returns",
    "C60_quadint_when",
    "C60_quadint_refuted",
    "C60_gaussint_exact_partial",
    "C60_gaussint_approx",
    "C60_gaussint_refuted",
    "C60_gaussint_returns"
   ],
   "note": "False: to_quadint panics on every rational surd and for negative roots divisible by 4, and approximates (1+sqrt 5)/2; to_gaussint answers Exact for sqrt 2. Exact meaning of all answers and exact domain of return proved."
  },
  {
   "property": "C61",
   "status": "proved",
   "theorems": [
    "C61_add",
    "C61_sub",
    "C61_mul",
    "C61_div",
    "C61_div_nonsquare",
    "C61_div_zero",
    "C61_conj",
    "C61_norm",
    "C61_ratio",
    "C61_int",
    "C61_returns",
    "C61_div_square_refuted"
   ],
   "note": "C61_div_square_refuted shows that over a square root the condition on the conjugate cannot be dropped."
  },
  {
   "property": "C62",
   "status": "proved",
   "theorems": [
    "C62_linear",
    "C62_mul",
    "C62_conj",
    "C62_norm",
    "C62_div_int",
    "C62_rem_int",
    "C62_div_rem",
    "C62_div",
    "C62_returns",
    "C62_mod4"
   ],
   "note": ""
  },
  {
   "property": "C63",
   "status": "proved",
   "theorems": [
    "C63_rmove",
    "C63_gmove",
    "C63_checked_rmove",
    "C63_checked_gmove",
    "C63_check_integer",
    "C63_check_integer_none",
    "C63_reduce_recip",
    "C63_reduce_mul",
    "C63_gmove_primitive"
   ],
   "note": "gmove() leaves no common factor in the block (C63_gmove_primitive)."
  },
  {
   "property": "C64",
   "status": "partial",
   "theorems": [
    "C64_rmove_down",
    "C64_rmove_right_partial",
    "C64_rmove_right_refuted",
    "C64_rmove_returns",
    "C64_check_integer",
    "C64_reduce_recip"
   ],
   "note": "False for rmove_right: update_right stores qm22 back into itself and drops the new denominator (C64_rmove_right_refuted); the exact deviation is C64_rmove_right_partial. Everything else proved."
  },
  {
   "property": "C65",
   "status": "proved",
   "theorems": [
    "C65_surd",
    "C65_cf"
   ],
   "note": ""
  },
  {
   "property": "C66",
   "status": "proved",
   "theorems": [
    "C66_convergents",
    "C66_approximated",
    "C66_nearest",
    "C66_surd",
    "C66_legendre"
   ],
   "note": "For limit = 1 the answer is the floor, which need not be the nearest integer; C66_nearest therefore asks for limit >= 2."
  },
  {
   "property": "C67",
   "status": "proved",
   "theorems": [
    "C67_closed",
    "C67_unique",
    "C67_add_laws",
    "C67_mul_laws",
    "C67_conj_laws",
    "C67_eq_add",
    "C67_eq_mul",
    "C67_order"
   ],
   "note": "Multiplicative laws for positive roots: products of complex surds are wrong (C04_refuted)."
  },
  {
   "property": "C68",
   "status": "partial",
   "theorems": [
    "C68_transitive_iff",
    "C68_reflexive",
    "C68_symmetric",
    "C68_transitive_partial",
    "C68_refuted",
    "C68_cf",
    "C68_qint",
    "C68_qint_refuted"
   ],
   "note": "False: 2 sqrt 2 == sqrt 8 and sqrt 8 == -2 sqrt 2, yet 2 sqrt 2 != -2 sqrt 2 (C68_refuted); likewise for quadratic integers. Reflexivity, symmetry, and exactly when transitivity holds (C68_transitive_iff) proved; continued fractions have no such problem."
  },
  {
   "property": "C69",
   "status": "proved",
   "theorems": [
    "C69_new",
    "C69_add_sub_mul",
    "C69_recip",
    "C69_div",
    "C69_int_operand",
    "C69_ratio_operand",
    "C69_query",
    "C69_eq",
    "C69_qint_add_sub",
    "C69_qint_mul",
    "C69_qint_div_rem",
    "C69_qint_int_operand",
    "C69_qint_conj_neg",
    "C69_gauss",
    "C69_gauss_div_rem",
    "C69_sharp"
   ],
   "note": "For quadratic integers: operands over one root, or one of them a plain integer. C69_sharp: for i64 sums are safe up to 55108 and overflow at 55110."
  },
  {
   "property": "C70",
   "status": "partial",
   "theorems": [
    "C70_simplify_partial",
    "C70_same_as_E",
    "C70_returns",
    "C70_zero",
    "C70_decimals_partial",
    "C70_decimals_returns",
    "C70_irrational",
    "C70_simplify_refuted",
    "C70_decimals_refuted"
   ],
   "note": "False, e.g. for x = 2 and 3: exp(3).simplify() starts with 19 although e^3 > 20, exp(2).decimals() yields the character ':' at position 4 and exp(3).decimals() starts with 'C' (C70_simplify_refuted, C70_decimals_refuted). simplify proved for x <= 1 (for x = 1 the items are exactly those of E), decimals for x <= 0; decimals for x = 1 open: whether it is right depends on runs of 0 and 9 in the digits of e. For all x <> 0 the items of simplify() still spell e^x (C80_exp)."
  },
  {
   "property": "C71",
   "status": "proved",
   "theorems": [
    "C71_surd_new",
    "C71_surd_ops",
    "C71_surd_queries",
    "C71_qint",
    "C71_gauss",
    "C71_cf",
    "C71_items",
    "C71_combinators",
    "C71_big",
    "C71_silent"
   ],
   "note": "agree m m': same outcome unless the debug run panics with an overflow or a failed debug_assert!. The condition is needed: C71_silent. Over BigInt the profiles coincide (C71_big)."
  },
  {
   "property": "C72",
   "status": "proved",
   "theorems": [
    "C72_new",
    "C72_add_sub_mul",
    "C72_recip",
    "C72_div",
    "C72_int_operand",
    "C72_ratio_operand",
    "C72_query",
    "C72_eq",
    "C72_qint_add_sub",
    "C72_qint_mul",
    "C72_qint_div_rem",
    "C72_qint_int_operand",
    "C72_qint_conj_neg",
    "C72_gauss",
    "C72_gauss_div_rem"
   ],
   "note": "Same bounds as C69, for the release profile, where exceeding them is not even reported (C71_silent)."
  },
  {
   "property": "C73",
   "status": "proved",
   "theorems": [
    "C73_square_root",
    "C73_square_root_returns",
    "C73_palindrome",
    "C73_pure",
    "C73_pure_value",
    "C73_reverse"
   ],
   "note": ""
  },
  {
   "property": "C74",
   "status": "proved",
   "theorems": [
    "C74_solutions",
    "C74_smallest",
    "C74_negative",
    "C74_returns"
   ],
   "note": ""
  },
  {
   "property": "C75",
   "status": "proved",
   "theorems": [
    "C75_denominators",
    "C75_ratio_length",
    "C75_approximated",
    "C75_approximated_log",
    "C75_approximated_tight",
    "C75_surd_period",
    "C75_surd_start",
    "C75_surd_returns",
    "C75_surd_approximated",
    "C75_reduced"
   ],
   "note": "Rounds are counted by the fuel argument of the model's loops: with that much fuel the loop ends."
  },
  {
   "property": "C76",
   "status": "partial",
   "theorems": [
    "C76_gauss_exact",
    "C76_gauss_mul_div",
    "C76_gauss_divides",
    "C76_gauss_units",
    "C76_gauss_gcd",
    "C76_gauss_gcd_returns",
    "C76_exact_partial",
    "C76_mul_div_partial",
    "C76_mul_rem_partial",
    "C76_mul_div_refuted",
    "C76_units",
    "C76_gcd",
    "C76_gcd_returns",
    "C76_gcd_refuted"
   ],
   "note": "Proved for Gaussian integers. For quadratic integers false: (sqrt 2 * sqrt 18) / sqrt 18 is 0, ((5 + sqrt 2) * 2) % 2 is 5 + sqrt 2 and (sqrt 2 * sqrt 2) % sqrt 2 panics (C76_mul_div_refuted); Euclid's algorithm with % runs for ever on 5 and 3, panics on 10 + 4 sqrt 2 and 4, and gives 4 for 7 and 2 (C76_gcd_refuted). Proved over one root: exact division, units, and Euclid's algorithm with x - (x / y) * y in place of %."
  },
  {
   "property": "C77",
   "status": "proved",
   "theorems": [
    "C77_squarefree",
    "C77_canonical",
    "C77_eq",
    "C77_arithmetic",
    "C77_idempotent",
    "C77_bound_refuted"
   ],
   "note": "The bound 257^2 is part of the property; C77_bound_refuted shows that it is sharp. reduced() tries the primes up to 251 only."
  },
  {
   "property": "C78",
   "status": "partial",
   "theorems": [
    "C78_surd_ratio",
    "C78_surd_int",
    "C78_cf_ratio",
    "C78_cf_int_partial",
    "C78_cf_add_refuted",
    "C78_qint_int",
    "C78_qint_rem_refuted",
    "C78_cf_add_exact"
   ],
   "note": "Proved for surds, for quadratic integers except %, and for continued fractions with a Ratio or another fraction; with an integer, for * and / of continued fractions. False of + with an integer: 1/3 + (-1) is 2/3 as an integer and -2/3 as a Ratio (C78_cf_add_refuted); C78_cf_add_exact says exactly when they agree. The remainder of quadratic integers, which the statement leaves out, differs too: with a plain integer as a QuadraticInt it is the quotient (C78_qint_rem_refuted)."
  },
  {
   "property": "C79",
   "status": "proved",
   "theorems": [
    "C79_homo",
    "C79_homo_stored",
    "C79_simplify",
    "C79_coefficients_converge",
    "C79_coefficients_exist",
    "C79_coefficients_determine"
   ],
   "note": "Covers the maps for which single items of homo() are not the usual coefficients (C42_refuted): the fraction still converges to the right number, and its items are usual from some point on."
  },
  {
   "property": "C80",
   "status": "proved",
   "theorems": [
    "C80_simplify",
    "C80_homo",
    "C80_simplify_chained",
    "C80_homo_chained",
    "C80_exp",
    "C80_exp_homo",
    "C80_one_number",
    "C80_positive",
    "C80_one_sign"
   ],
   "note": "Holds whatever the signs of the terms, also where single items are not the usual coefficients (C70_simplify_refuted, C42_refuted). The convergents are those of the fundamental recurrences, so that finitely many vanishing denominators do no harm."
  },
  {
   "property": "C81",
   "status": "proved",
   "theorems": [
    "C81_spells",
    "C81_rule",
    "C81_progress",
    "C81_true_digits",
    "C81_outside",
    "C81_any",
    "C81_exp"
   ],
   "note": "Says what decimals() does outside the domain of C43 and C70 (positive terms, values in [0,10)), where characters such as ':' come out (C70_decimals_refuted) or the call panics."
  },
  {
   "property": "C82",
   "status": "proved",
   "theorems": [
    "C82_homo",
    "C82_simplify",
    "C82_decimals",
    "C82_decimals_endless",
    "C82_same_beginning",
    "C82_bihomo",
    "C82_list_begins",
    "C82_value_refuted",
    "C82_decimals_ends"
   ],
   "note": "The items say only what every continuation has in common, so that the rest of a number that ends is lost (C82_value_refuted shows the stronger property, that the value is kept, to be false). A numerator 0 is excluded for decimals() with reason (C82_decimals_endless). C82_decimals_ends: every call of decimals() on such a source answers, and after finitely many digits with None or with the panic for an integer part that is not a character."
  },
  {
   "property": "C83",
   "status": "partial",
   "theorems": [
    "C83_coefficients",
    "C83_convergents_partial",
    "C83_adaptors",
    "C83_decimals_partial",
    "C83_overflow_refuted",
    "C83_bihomo_refuted"
   ],
   "note": "Proved for the coefficient iterators and for homo(), simplify() and generalize() at any width, and for convergents() and decimals() over arbitrary precision. False at a fixed width, where an overflow is reported as the end but later calls yield again, and of bihomo() (C83_overflow_refuted, C83_bihomo_refuted)."
  },
  {
   "property": "C84",
   "status": "proved",
   "theorems": [
    "C84_homo",
    "C84_simplify",
    "C84_generalize",
    "C84_items",
    "C84_simplify_items",
    "C84_bihomo",
    "C84_convergents",
    "C84_decimals",
    "C84_take",
    "C84_approximated",
    "C84_sources",
    "C84_stored",
    "C84_stored_approximated"
   ],
   "note": "Compares answers that do come; at a fixed width a call may instead panic on overflow, and convergents() and decimals() may end early (C57_fixed_width_refuted). C19 is the like for surds."
  },
  {
   "property": "C85",
   "status": "proved",
   "theorems": [
    "C85_to_cf",
    "C85_to_cf_exact",
    "C85_approximated",
    "C85_approximated_returns",
    "C85_coefficients"
   ],
   "note": "The bound on the components is sufficient; C85_case shows a surd over i16 just above it (components up to 9) that overflows. The domain is that of C34: numbers whose conjugate lies below the integer part."
  },
  {
   "property": "C86",
   "status": "partial",
   "theorems": [
    "C86_simplify",
    "C86_homo",
    "C86_converges",
    "C86_one_sign",
    "C86_one_sign_homo",
    "C86_positive",
    "C86_again_refuted",
    "C86_generalize_again_refuted"
   ],
   "note": "Proved on fractions with numerators 1 or -1 and denominators of absolute value at least 2 after the first pair. The sentence in the documentation that a second simplify() ensures positive coefficients is false in general: C86_again_refuted shows a fraction with terms 1 and -1 whose second pass still has an item 0, and C86_generalize_again_refuted that the one way the library offers to simplify a result again, generalize(), does not keep the number (see C50). When each of the two passes suffices for other fractions is not characterized."
  },
  {
   "property": "C87",
   "status": "proved",
   "theorems": [
    "C87_by_hand",
    "C87_narrow_refuted",
    "C87_by_hand_right",
    "C87_by_hand_returns",
    "C87_homo",
    "C87_ratio",
    "C87_simplify",
    "C87_decimals",
    "C87_approximated"
   ],
   "note": "Where the conversion is involved, for the surds it is right for; C87_narrow_refuted shows that the condition is needed."
  },
  {
   "property": "C88",
   "status": "proved",
   "theorems": [
    "C88_sides",
    "C88_next",
    "C88_closer",
    "C88_pi",
    "C88_pi_sides",
    "C88_pi_approximated",
    "C88_exp",
    "C88_collect",
    "C88_collect_returns",
    "C88_e"
   ],
   "note": "The last condition of C88_collect and C88_e, that the items fit the type, is met by every value of the type. E itself has no convergents(): generalize() mixes up the pairs (C50), so its items are collected into a ContinuedFraction."
  },
  {
   "property": "C89",
   "status": "partial",
   "theorems": [
    "C89_choice_partial",
    "C89_monotone",
    "C89_exact_partial",
    "C89_inclusive_refuted",
    "C89_surd",
    "C89_pi",
    "C89_general_refuted"
   ],
   "note": "False as documented: the limit is called the maximum of the denominator but a convergent whose denominator equals it is not taken (C89_inclusive_refuted, 22/7 with the limit 7 gives Approximated 3). Proved with the limit excluded: C89_choice_partial, C89_exact_partial. Monotonicity in the limit holds in full for ContinuedFraction, QuadraticSurd and Pi (C89_monotone, C89_surd, C89_pi); for other generalized fractions it is false (C89_general_refuted)."
  },
  {
   "property": "C90",
   "status": "proved",
   "theorems": [
    "C90_mul",
    "C90_div",
    "C90_returns",
    "C90_square",
    "C90_of_square",
    "C90_add_iff"
   ],
   "note": "Negative ratios are left out: with complex numbers the product of two imaginary roots has the wrong sign (C04)."
  },
  {
   "property": "C91",
   "status": "proved",
   "theorems": [
    "C91_floor_add",
    "C91_floor_floor",
    "C91_floor_neg",
    "C91_floor_mono",
    "C91_trunc_neg",
    "C91_trunc_trunc"
   ],
   "note": "The laws of trunc() also hold where trunc() does not round toward zero (C11)."
  },
  {
   "property": "C92",
   "status": "proved",
   "theorems": [
    "C92_prefix",
    "C92_returns",
    "C92_collect",
    "C92_last"
   ],
   "note": ""
  },
  {
   "property": "C93",
   "status": "proved",
   "theorems": [
    "C93_surd",
    "C93_surd_returns",
    "C93_cf",
    "C93_cf_returns",
    "C93_through"
   ],
   "note": ""
  },
  {
   "property": "C94",
   "status": "proved",
   "theorems": [
    "C94_step",
    "C94_returns"
   ],
   "note": "The conversions are right exactly where C34 says."
  },
  {
   "property": "C95",
   "status": "partial",
   "theorems": [
    "C95_formula",
    "C95_vieta",
    "C95_product_partial",
    "C95_product_refuted",
    "C95_back",
    "C95_back_returns"
   ],
   "note": "Formula, sum, second root and way back hold for all inputs. The product as the library computes it has the wrong sign when both roots are imaginary (C95_product_refuted, the defect of C04); C95_product_partial says exactly what comes out in every case."
  },
  {
   "property": "C96",
   "status": "partial",
   "theorems": [
    "C96_involution",
    "C96_recip",
    "C96_iterators",
    "C96_conversions",
    "C96_approximated_partial",
    "C96_approximated_refuted",
    "C96_of_ratio",
    "C96_of_surd_partial",
    "C96_of_surd_refuted"
   ],
   "note": "Everything holds for all inputs except approximated(limit) with limit < 1, which loses the sign (C96_approximated_refuted), and the conversion of surds that lie between 0 and their conjugate (C96_of_surd_refuted, the defect of C34)."
  },
  {
   "property": "C97",
   "status": "partial",
   "theorems": [
    "C97_closed",
    "C97_quadint_partial",
    "C97_conj",
    "C97_quadint_refuted",
    "C97_gauss_partial",
    "C97_gauss_refuted",
    "C97_quadint_gauss_partial",
    "C97_quadint_gauss_refuted"
   ],
   "note": "Closure and conjugation hold for all inputs. The product of two imaginary surds has the wrong sign (C04), so there the types disagree (C97_quadint_refuted, C97_gauss_refuted: i * i is 1 for surds); and QuadraticInt % by a plain integer divides (C24), so it disagrees with GaussianInt (C97_quadint_gauss_refuted). The _partial theorems cover everything else."
  },
  {
   "property": "C98",
   "status": "proved",
   "theorems": [
    "C98_units",
    "C98_norm",
    "C98_powers",
    "C98_returns",
    "C98_all",
    "C98_negative"
   ],
   "note": "For n = 1 mod 4 the ring is that of (1 + sqrt n)/2, as in QuadraticInt."
  },
  {
   "property": "C99",
   "status": "proved",
   "theorems": [
    "C99_fractions",
    "C99_surds",
    "C99_operations",
    "C99_homo",
    "C99_homo_stored"
   ],
   "note": "For surds the fractions must be the right ones, so both values lie in the domain of C34 where the conversion also gives the shortest fraction (C58_shortest)."
  },
  {
   "property": "C100",
   "status": "proved",
   "theorems": [
    "C100_bounds",
    "C100_coefficient",
    "C100_two",
    "C100_three",
    "C100_golden",
    "C100_far",
    "C100_surd",
    "C100_any_surd"
   ],
   "note": "C100_surd is for the domain of C34, where the converted fraction is the right one; C100_any_surd is for all real irrational surds."
  },
  {
   "property": "C101",
   "status": "proved",
   "theorems": [
    "C101_order",
    "C101_equal",
    "C101_place",
    "C101_surds",
    "C101_difference"
   ],
   "note": "For surds the fraction must be that of the number, so both values are not between 0 and their conjugate (C34_value)."
  },
  {
   "property": "C102",
   "status": "proved",
   "theorems": [
    "C102_right",
    "C102_returns",
    "C102_agrees",
    "C102_loop"
   ],
   "note": "The program is the definition convert_any of SpecRecipe.v, written with the modelled functions of the library only; coefficients are carried over to the signed type with a check."
  },
  {
   "property": "C103",
   "status": "proved",
   "theorems": [
    "C103_right",
    "C103_returns",
    "C103_there_and_back",
    "C103_back_and_there"
   ],
   "note": "The program is the definition return_any of SpecReturn.v, written with the modelled functions of the library only. At a fixed width the continuant of the period must be held by the type, since the conversion casts it without a check (C35)."
  },
  {
   "property": "C104",
   "status": "proved",
   "theorems": [
    "C104_right",
    "C104_returns",
    "C104_decides",
    "C104_loop_right",
    "C104_loop_returns",
    "C104_loop_hangs"
   ],
   "note": "The programs are the definitions order_surds and compare_surds of SpecCompare.v, written with the modelled functions of the library only; the library itself offers no order."
  },
  {
   "property": "C105",
   "status": "proved",
   "theorems": [
    "C105_rebase",
    "C105_rebase_returns",
    "C105_exact",
    "C105_returns",
    "C105_panics"
   ],
   "note": "The programs are the definitions rebase, add_any, sub_any, mul_any and div_any of SpecRebase.v, written with the modelled functions of the library only. Real fields only: for two imaginary numbers the library's own product and quotient have the wrong sign (C04, C05)."
  },
  {
   "property": "C106",
   "status": "proved",
   "theorems": [
    "C106_convert",
    "C106_return",
    "C106_there_and_back",
    "C106_back_and_there",
    "C106_calc",
    "C106_calc_returns",
    "C106_order",
    "C106_order_returns",
    "C106_held"
   ],
   "note": "The programs are the definitions convert_all, return_all, calc and order_fractions of SpecCalc.v, made of the programs of C102 to C105 and the conversions through Ratio. At a fixed width the type must hold the rational number, or the continuant of the period (`held`), since the conversion casts without a check (C35)."
  },
  {
   "property": "C107",
   "status": "proved",
   "theorems": [
    "C107_mul",
    "C107_div",
    "C107_rebase",
    "C107_rebase_returns",
    "C107_exact",
    "C107_returns",
    "C107_panics"
   ],
   "note": "The programs are the definitions mul_fixed, div_fixed, rebase_fixed, add_all, sub_all, mul_all and div_all of SpecFixed.v, written with the modelled functions of the library only. They go round the wrong sign of C04 and C05, the panic of 0 / x (C05) and the panic for roots that are not nested (C06)."
  },
  {
   "property": "C108",
   "status": "proved",
   "theorems": [
    "C108_right",
    "C108_returns",
    "C108_decides",
    "C108_equivalence"
   ],
   "note": "The program is the definition equal_fixed of SpecEqual.v, written with the modelled functions of the library and div_fixed of C107. It goes round the wrong answer of C08."
  },
  {
   "property": "C109",
   "status": "proved",
   "theorems": [
    "C109_ceil",
    "C109_trunc",
    "C109_fract",
    "C109_round",
    "C109_returns"
   ],
   "note": "The programs are the definitions ceil_fixed, trunc_fixed, fract_fixed and round_fixed of SpecEqual.v, written with the modelled functions of the library only. They go round the wrong results of trunc() (C11)."
  },
  {
   "property": "C110",
   "status": "proved",
   "theorems": [
    "C110_right",
    "C110_unique",
    "C110_complete",
    "C110_err",
    "C110_returns"
   ],
   "note": "The program is the definition principal_root of SpecPlaces.v, written with the modelled functions of the library only. It goes round the sign of C16."
  },
  {
   "property": "C111",
   "status": "proved",
   "theorems": [
    "C111_right",
    "C111_returns"
   ],
   "note": "The program is the definition digits of SpecPlaces.v, written with the modelled functions of the library only; digits_val is the number a list of digits spells."
  }
 ]
}
