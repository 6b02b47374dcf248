{
 "claims": [
  {
   "property": "C01",
   "status": "partial",
   "theorems": [
    "C01_gcd_is_greatest_common_divisor",
    "C01_lcm_is_least_common_multiple",
    "C01_gcd_times_lcm_partial",
    "C01_documented_product_refuted",
    "C01_documented_product"
   ],
   "note": "gcd/lcm characterisation and gcd*lcm=|a*b| proved for all integers; the documented gcd*lcm=a*b holds exactly when a*b is not negative and is refuted for operands of opposite sign."
  },
  {
   "property": "C02",
   "status": "proved",
   "theorems": [
    "C02_extended_gcd_bezout",
    "C02_extended_gcd_lcm"
   ],
   "note": "Bezout identity and termination of the extended Euclid loop for all integers."
  },
  {
   "property": "C03",
   "status": "partial",
   "theorems": [
    "C03_ratio_gcd_lcm_partial",
    "C03_ratio_extended_gcd",
    "C03_nonnegative_refuted",
    "C03_negative"
   ],
   "note": "Everything proved except non-negativity of gcd, which fails exactly when one operand is zero and the other negative."
  },
  {
   "property": "C04",
   "status": "partial",
   "theorems": [
    "C04_bigint_nearest_exactly_when",
    "C04_bigint_none_iff_zero",
    "C04_bigint_nearest_refuted",
    "C04_int_nearest_partial",
    "C04_int_identity",
    "C04_int_nearest_refuted",
    "C04_int_spurious_none_refuted",
    "C04_int_nearest_exactly_when",
    "C04_int_none_exactly_when",
    "C04_uint_rounds_down",
    "C04_ratio_exact"
   ],
   "note": "Refuted for BigInt and for signed fixed-width types; for both, theorems say for exactly which pairs the result is a nearest one. None-ness at fixed width, unsigned types and rationals proved."
  },
  {
   "property": "C05",
   "status": "proved",
   "theorems": [
    "C05_floor_log2",
    "C05_ceil_log2",
    "C05_prim_logs_agree",
    "C05_trailing_zeros",
    "C05_prim_trailing_zeros"
   ],
   "note": "floor_log2, ceil_log2 and trailing_zeros for all integers."
  },
  {
   "property": "C06",
   "status": "proved",
   "theorems": [
    "C06_bigint_checked_exact_div",
    "C06_bigint_exact_div",
    "C06_bigint_checked_exact_div_assign",
    "C06_int_checked_exact_div",
    "C06_int_exact_div",
    "C06_ratio_checked_exact_div"
   ],
   "note": "checked_exact_div/exact_div for big, fixed-width and rational numbers."
  },
  {
   "property": "C07",
   "status": "proved",
   "theorems": [
    "C07_is_prime_u32",
    "C07_table_is_the_primes_below_2_16",
    "C07_small_divisors_sound"
   ],
   "note": "All u32; the table is proved to be exactly the primes below 2^16."
  },
  {
   "property": "C08",
   "status": "partial",
   "theorems": [
    "C08_prev_prime_u32",
    "C08_prev_prime_i32",
    "C08_next_prime_u32_partial",
    "C08_next_prime_i32_partial",
    "C08_next_prime_refuted"
   ],
   "note": "prev_prime proved for all u32/i32; next_prime proved for v>=2, refuted at 0 (and 1): the prime 2 is skipped."
  },
  {
   "property": "C09",
   "status": "partial",
   "theorems": [
    "C09_subsets_partial",
    "C09_empty_range",
    "C09_empty_range_refuted"
   ],
   "note": "Proved for every non-empty range and every callback; refuted for the empty subset of an empty range (never visited)."
  },
  {
   "property": "C10",
   "status": "proved",
   "theorems": [
    "C10_modular_arithmetic",
    "C10_new_reduces",
    "C10_results_canonical",
    "C10_mul_by_usize",
    "C10_zero_one",
    "C10_zero_modulus_refuted",
    "C10_negative_modulus_refuted"
   ],
   "note": "Ring operations, reduction and canonical results for every positive modulus, fixed-width and big integers; the non-positive moduli the constructor accepts are refuted separately."
  },
  {
   "property": "C11",
   "status": "partial",
   "theorems": [
    "C11_modulus_one",
    "C11_checked_inverse_partial",
    "C11_division_partial",
    "C11_mismatched_moduli_fail",
    "C11_mismatched_division_fails",
    "C11_modulus_one_refuted"
   ],
   "note": "Inverse and division characterised for every modulus above 1, incl. no overflow of the fixed-width Euclid loop and failure on mismatched moduli; refuted for modulus 1, where the inverse of 0 is never found."
  },
  {
   "property": "C12",
   "status": "partial",
   "theorems": [
    "C12_pow",
    "C12_negative_exponent",
    "C12_pow_partial",
    "C12_pow_modular_integer_partial",
    "C12_modulus_one_refuted"
   ],
   "note": "Proved for every exponent and modulus except exponent 0 modulo 1 in machine integer types, which gives 1 (exactly characterised). Negative exponents are refused by big integers and lose their sign in machine integer types."
  },
  {
   "property": "C13",
   "status": "proved",
   "theorems": [
    "C13_coefficients_int",
    "C13_coefficients_rational",
    "C13_coefficients_mod_prime",
    "C13_coefficients_mod",
    "C13_coefficients_nested",
    "C13_constructors",
    "C13_equality",
    "C13_accessors",
    "C13_complete"
   ],
   "note": "Every constructor gives normal form, accessors and equality agree with the polynomial denoted; for integer, rational, modular and nested coefficients."
  },
  {
   "property": "C14",
   "status": "proved",
   "theorems": [
    "C14_add_sub_neg"
   ],
   "note": "For every coefficient type."
  },
  {
   "property": "C15",
   "status": "partial",
   "theorems": [
    "C15_single_no_divisor_partial",
    "C15_rational_refuted",
    "C15_integral_partial"
   ],
   "note": "Proved for coefficient types without denominators and for rational polynomials and constants that are integers; refuted for other rationals."
  },
  {
   "property": "C16",
   "status": "proved",
   "theorems": [
    "C16_mul",
    "C16_mul_single"
   ],
   "note": "Product and scalar product, every coefficient type."
  },
  {
   "property": "C17",
   "status": "proved",
   "theorems": [
    "C17_pow",
    "C17_pow_defined"
   ],
   "note": "Value and exact domain of definition, all exponents."
  },
  {
   "property": "C18",
   "status": "proved",
   "theorems": [
    "C18_eval",
    "C18_eval_generic",
    "C18_derivative"
   ],
   "note": "Evaluation (same type and generic) and derivative."
  },
  {
   "property": "C19",
   "status": "proved",
   "theorems": [
    "C19_pseudo_div"
   ],
   "note": "Identity, degree bound and exact factor; fails exactly for the zero divisor."
  },
  {
   "property": "C20",
   "status": "proved",
   "theorems": [
    "C20_field_division",
    "C20_domain_division"
   ],
   "note": "Over fields; and over domains the failure is characterised."
  },
  {
   "property": "C21",
   "status": "proved",
   "theorems": [
    "C21_exact_div",
    "C21_div_single"
   ],
   "note": "Exact division by polynomials and coefficients succeeds exactly when a quotient exists."
  },
  {
   "property": "C22",
   "status": "partial",
   "theorems": [
    "C22_div_assign_poly_partial",
    "C22_div_assign_single_partial",
    "C22_div_assign_single_refuted"
   ],
   "note": "Proved for division by polynomials; refuted for division by a coefficient."
  },
  {
   "property": "C23",
   "status": "proved",
   "theorems": [
    "C23_powmod"
   ],
   "note": "Congruence, degree bound and domain of definition."
  },
  {
   "property": "C24",
   "status": "proved",
   "theorems": [
    "C24_coefficients_rational",
    "C24_coefficients_mod_prime",
    "C24_gcd_lcm",
    "C24_monic",
    "C24_subresultant_gcd"
   ],
   "note": "For every coefficient type read as a field (rationals and integers modulo a prime are instances), with the monic normalisation; the zero cases are included."
  },
  {
   "property": "C25",
   "status": "proved",
   "theorems": [
    "C25_extended_gcd"
   ],
   "note": "Bezout identity, monic gcd and matching lcm, over any such field."
  },
  {
   "property": "C26",
   "status": "proved",
   "theorems": [
    "C26_resultant"
   ],
   "note": "Equal to the Sylvester determinant over every integral coefficient domain (integers, rationals, integers modulo a prime, nested polynomials), zero exactly when there is a common factor."
  },
  {
   "property": "C27",
   "status": "proved",
   "theorems": [
    "C27_integer",
    "C27_rational",
    "C27_zero"
   ],
   "note": "Integers and rationals, including the sign convention."
  },
  {
   "property": "C28",
   "status": "proved",
   "theorems": [
    "C28_primitive_sturm_integer",
    "C28_primitive_sturm_rational",
    "C28_sturm_rational"
   ],
   "note": "Generic (rational) and primitive (integer, rational) sequences, roots counted in any real closed field; end points may even be roots when the polynomial is square-free."
  },
  {
   "property": "C29",
   "status": "proved",
   "theorems": [
    "C29_square_free_factorization",
    "C29_is_square_free_rational",
    "C29_is_square_free_mod_prime"
   ],
   "note": "Exact product, square-free and pairwise coprime primitive factors for all rational polynomials; the square-free test is exact over the rationals and prime fields for non-zero polynomials."
  },
  {
   "property": "C30",
   "status": "proved",
   "theorems": [
    "C30_factor",
    "C30_factors_distinct"
   ],
   "note": "For every stream and every integer polynomial (zero included): whatever is returned is such a factorisation, and the only panic is the documented one (no usable prime below 2^31). Running out of fuel (unlucky random streams) is the remaining outcome."
  },
  {
   "property": "C31",
   "status": "partial",
   "theorems": [
    "C31_irreducible_refuted",
    "C31_irreducible_monic_partial"
   ],
   "note": "Proved for multiples of monic polynomials: the factors are monic and irreducible over the rationals (Hensel lifting, coefficient bound and subset search). Refuted for other leading coefficients: a reducible polynomial is returned as a single factor."
  },
  {
   "property": "C32",
   "status": "proved",
   "theorems": [
    "C32_distinct_degree"
   ],
   "note": "Every prime field, every square-free polynomial."
  },
  {
   "property": "C33",
   "status": "proved",
   "theorems": [
    "C33_same_degree"
   ],
   "note": "Every odd prime field and every stream; no panic."
  },
  {
   "property": "C34",
   "status": "proved",
   "theorems": [
    "C34_max_norm_integer",
    "C34_max_norm_rational",
    "C34_manhattan_norm_integer",
    "C34_manhattan_norm_rational"
   ],
   "note": "Integer and rational polynomials."
  },
  {
   "property": "C35",
   "status": "proved",
   "theorems": [
    "C35_lift_step",
    "C35_lift"
   ],
   "note": "One step and the whole loop, for every consistent factor tree and every target precision; no panic."
  },
  {
   "property": "C36",
   "status": "proved",
   "theorems": [
    "C36_from_ratio",
    "C36_from_ratio_range",
    "C36_from_int",
    "C36_from_int_range",
    "C36_convert",
    "C36_convert_up_exact",
    "C36_constants",
    "C36_bounds",
    "C36_new",
    "C36_set_lower_bound",
    "C36_set_upper_bound",
    "C36_set_lower_bound_to_zero",
    "C36_set_upper_bound_to_zero"
   ],
   "note": "Constructors and conversions give the tightest enclosing dyadic interval, for all rationals, ranges and precisions."
  },
  {
   "property": "C37",
   "status": "proved",
   "theorems": [
    "C37_add_sub",
    "C37_enclosure",
    "C37_neg_exact",
    "C37_int_scalars_exact",
    "C37_ratio_scalars",
    "C37_ratio_scalars_tight"
   ],
   "note": "Exact on bounds for intervals and integer scalars, tightest for rational scalars."
  },
  {
   "property": "C38",
   "status": "proved",
   "theorems": [
    "C38_mul",
    "C38_mul_tight",
    "C38_square",
    "C38_square_tight",
    "C38_scalars",
    "C38_ratio_tight",
    "C38_int_exact"
   ],
   "note": "Enclosure and tightness of product, square and scalar products."
  },
  {
   "property": "C39",
   "status": "proved",
   "theorems": [
    "C39_div",
    "C39_recip_tight",
    "C39_scalars",
    "C39_int_tight",
    "C39_ratio_tight",
    "C39_div_near"
   ],
   "note": "Enclosure, tightness of the reciprocal, and panic exactly when the divisor contains zero."
  },
  {
   "property": "C40",
   "status": "proved",
   "theorems": [
    "C40_sqrt",
    "C40_enclosure"
   ],
   "note": "Tightest enclosure of the square root; panic exactly for negative lower bounds."
  },
  {
   "property": "C41",
   "status": "proved",
   "theorems": [
    "C41_abs",
    "C41_union",
    "C41_floor_ceil",
    "C41_floor_ceil_exact",
    "C41_contains_zero",
    "C41_set_to_bounds",
    "C41_is_same"
   ],
   "note": "abs is the exact image, union the hull, floor/ceil exact on bounds, zero test exact."
  },
  {
   "property": "C42",
   "status": "partial",
   "theorems": [
    "C42_pow_partial",
    "C42_straddling_refuted",
    "C42_negative_point_refuted",
    "C42_straddling",
    "C42_negative_point",
    "C42_integer_bounds"
   ],
   "note": "Enclosure proved for even exponents, exponents -1..1, non-negative intervals, proper non-positive intervals and intervals with integer bounds. For the other odd powers (intervals around zero, negative points) C42_straddling and C42_negative_point say exactly when it holds: when the power of the bound nearer to zero is representable; it is refuted otherwise."
  },
  {
   "property": "C43",
   "status": "proved",
   "theorems": [
    "C43_log",
    "C43_ln2_available"
   ],
   "note": "For every positive interval and every value of ln 2 the cache may return (C46)."
  },
  {
   "property": "C44",
   "status": "partial",
   "theorems": [
    "C44_exp_partial",
    "C44_total_refuted",
    "C44_enclosure_refuted"
   ],
   "note": "When exp returns, the enclosure is proved up to 2^-26 units in the last place (exactly, for lower bounds of non-negative intervals); totality is refuted (internal assertion fails on the point 1/2^41) and so is exact enclosure (both bounds, for negative intervals)."
  },
  {
   "property": "C45",
   "status": "proved",
   "theorems": [
    "C45_agm",
    "C45_agm_limit_exists"
   ],
   "note": "Termination and enclosure of the limit; the limit is proved to exist."
  },
  {
   "property": "C46",
   "status": "proved",
   "theorems": [
    "C46_index_defined",
    "C46_index_monotone",
    "C46_ln2_floating",
    "C46_sqrt2_floating",
    "C46_ln2_every_schedule",
    "C46_sqrt2_every_schedule",
    "C46_cache_never_shrinks",
    "C46_cache_entries_precise",
    "C46_no_deadlock"
   ],
   "note": "All schedules of any number of threads; the precision-to-index function is a monotone parameter, and shown to be monotone for the binary64 formula of the code with any monotone log2."
  },
  {
   "property": "C47",
   "status": "proved",
   "theorems": [
    "C47_denotes_one",
    "C47_from_integer",
    "C47_from_rational",
    "C47_to_rational",
    "C47_is_rational",
    "C47_to_integer",
    "C47_is_integer",
    "C47_is_zero",
    "C47_is_one",
    "C47_is_negative_one"
   ],
   "note": "Embedding and recovering integers and rationals, for every valid value (including irrational ones)."
  },
  {
   "property": "C48",
   "status": "proved",
   "theorems": [
    "C48_refine",
    "C48_exact",
    "C48_no_panic"
   ],
   "note": "Any number of refinement steps on any valid value."
  },
  {
   "property": "C49",
   "status": "proved",
   "theorems": [
    "C49_cmp_with_zero",
    "C49_is_positive",
    "C49_is_negative",
    "C49_signum"
   ],
   "note": "Every valid value, including intervals around zero."
  },
  {
   "property": "C50",
   "status": "proved",
   "theorems": [
    "C50_floor",
    "C50_ceil",
    "C50_trunc"
   ],
   "note": "Result and termination for every valid value."
  },
  {
   "property": "C51",
   "status": "partial",
   "theorems": [
    "C51_fract_refuted",
    "C51_fract_irrational_partial",
    "C51_fract_rational_partial"
   ],
   "note": "Proved for irrational and for non-negative rational numbers (when the factoring step returns); refuted for negative rationals."
  },
  {
   "property": "C52",
   "status": "proved",
   "theorems": [
    "C52_neg",
    "C52_abs"
   ],
   "note": "Every valid value."
  },
  {
   "property": "C53",
   "status": "partial",
   "theorems": [
    "C53_recip_partial",
    "C53_isolating",
    "C53_recip_of_zero_panics",
    "C53_recip_refuted"
   ],
   "note": "Polynomial, enclosure and the None case are proved; that the new interval still isolates is refuted for irrational numbers."
  },
  {
   "property": "C54",
   "status": "partial",
   "theorems": [
    "C54_sum_integers_partial",
    "C54_difference_integers_partial",
    "C54_sum_partial",
    "C54_sum_rational",
    "C54_difference_partial",
    "C54_difference_rational",
    "C54_add_refuted"
   ],
   "note": "Proved (value, termination, no panic, canonical result) when one operand is rational, and in general when no other conjugate gives a rational sum within the intervals and the factor found is irreducible; for algebraic integers the latter is proved. Refuted in general, starting from integers: (2^(1/2)).recip() doubled is 0."
  },
  {
   "property": "C55",
   "status": "partial",
   "theorems": [
    "C55_product_integers_partial",
    "C55_product_partial",
    "C55_product_rational",
    "C55_division_by_zero",
    "C55_quotient_partial",
    "C55_quotient_rational",
    "C55_mul_refuted",
    "C55_div_refuted"
   ],
   "note": "As C54 for products; quotients when the reciprocal is a valid value (C53); division by zero fails. Refuted in general: a square is -1/2; a quotient is not a valid number."
  },
  {
   "property": "C56",
   "status": "partial",
   "theorems": [
    "C56_equality_integers_partial",
    "C56_order_integers_partial",
    "C56_equality_partial",
    "C56_order_partial",
    "C56_abs_sub_partial",
    "C56_eq_refuted"
   ],
   "note": "Equality, order and abs_sub agree with the reals for equal numbers with any intervals, when one number is rational, and in general under the hypothesis of C54. Refuted in general: a number compares equal to its negation."
  },
  {
   "property": "C57",
   "status": "partial",
   "theorems": [
    "C57_sound_integers_partial",
    "C57_none",
    "C57_operator",
    "C57_special",
    "C57_rational",
    "C57_too_large",
    "C57_sound_partial",
    "C57_returns_partial",
    "C57_rational_isolates",
    "C57_interval_precision",
    "C57_precise_isolates",
    "C57_pow_refuted"
   ],
   "note": "None exactly where undefined; bases 0, 1, -1, exponents 0 and 1, and rational bases with integer exponents are settled, as is the panic on exponents beyond usize. In general the returned number denotes the power provided the reciprocal (negative exponents) is valid, the factor is irreducible and the intervals through log and exp contain the power (C44). Under the same provisos the search returns once a refinement separates the power from the other roots of the resultant; this holds at once for roots of rationals, and the intervals are shown to come within an explicit distance, linear in the width of the base interval, of the power. Refuted: (5 + sqrt 2)^(-1)."
  },
  {
   "property": "C58",
   "status": "proved",
   "theorems": [
    "C58_floor_log2",
    "C58_ceil_log2",
    "C58_none"
   ],
   "note": "Result and termination for every valid value; None exactly for x <= 0."
  },
  {
   "property": "C59",
   "status": "partial",
   "theorems": [
    "C59_remainder_partial",
    "C59_range"
   ],
   "note": "Proved when one operand is rational and the reciprocal of the divisor is valid; range and sign proved for all. Refuted in general: 1 % (5 + sqrt 2) panics."
  },
  {
   "property": "C60",
   "status": "partial",
   "theorems": [
    "C60_recip_refuted",
    "C60_unique",
    "C60_minimal",
    "C60_degree",
    "C60_made_partial"
   ],
   "note": "The polynomial is the minimal polynomial (elementary definition, unique) of every value in the inductive closure of the operations. Integers, rationals, negation, absolute value, signum, sums, differences, products, fractional parts and remainders of canonical numbers are canonical (under the hypotheses of C54, C55, C59); refuted for reciprocals."
  },
  {
   "property": "C61",
   "status": "partial",
   "theorems": [
    "C61_grid",
    "C61_positions",
    "C61_elements",
    "C61_index",
    "C61_from_array",
    "C61_ranges",
    "C61_slice_rejects",
    "C61_slice_partial",
    "C61_slice_owned_partial",
    "C61_slice_refuted",
    "C61_set",
    "C61_slice_mut",
    "C61_swap",
    "C61_new",
    "C61_to_owned"
   ],
   "note": "Enumeration of positions and elements under every next/next_back history, indexing, assignment, swapping, construction, copying and nested slicing proved for every array obtainable from the constructors and slicing. slice proved for every valid selection that starts inside the array or at the origin; for owned arrays exactly the valid selections starting past the last column and below the first row panic (refuted), all others are right."
  },
  {
   "property": "C62",
   "status": "proved",
   "theorems": [
    "C62_gram_schmidt",
    "C62_gram_schmidt_unique",
    "C62_reduce",
    "C62_reduce_no_panic",
    "C62_reduce_ends",
    "C62_reduce_default"
   ],
   "note": "Gram-Schmidt is total and correct for every family of integer vectors; LLL returns a reduced basis of the same lattice whenever it returns, never panics and ends on independent vectors (delta at most 1). Dependent vectors, which form no basis, make it panic (example)."
  },
  {
   "property": "C63",
   "status": "proved",
   "theorems": [
    "C63_add",
    "C63_sub",
    "C63_mul",
    "C63_truediv",
    "C63_recip",
    "C63_pow",
    "C63_pow_irrational",
    "C63_pow_modulus",
    "C63_log2",
    "C63_compare",
    "C63_compare_reflected",
    "C63_compare_rust",
    "C63_not_a_number",
    "C63_new",
    "C63_neg_abs",
    "C63_rounding",
    "C63_to_rational",
    "C63_to_integer",
    "C63_tests",
    "C63_minimal_polynomial",
    "C63_degree"
   ],
   "note": "All methods of the class (__repr__ in C72), with the dispatch of pyo3 and the interpreter around them. The values of the Rust operations are the subject of C47-C60; C63_compare carries the conditions of C56."
  },
  {
   "property": "C64",
   "status": "partial",
   "theorems": [
    "C64_cmp_partial",
    "C64_cmp_ratio_partial",
    "C64_eq_partial",
    "C64_eq_ratio_partial",
    "C64_recip_refuted"
   ],
   "note": "Proved for every number built by the constructors, negation, absolute value, signum, sums and differences, against numbers and fractions. Refuted for results of checked_recip, which can have a negative denominator."
  },
  {
   "property": "C65",
   "status": "proved",
   "theorems": [
    "C65_sign_of_number",
    "C65_sign_algebra",
    "C65_sign_bits",
    "C65_sign_bool"
   ],
   "note": "Sign algebra."
  },
  {
   "property": "C66",
   "status": "proved",
   "theorems": [
    "C66_variable_names"
   ],
   "note": "Total and injective."
  },
  {
   "property": "C67",
   "status": "partial",
   "theorems": [
    "C67_owned_partial",
    "C67_sound_partial",
    "C67_slices_refuted"
   ],
   "note": "Proved for owned arrays; arrays and slices that compare equal always have the same size and elements; the converse is refuted for slices, which compare the whole underlying tail."
  },
  {
   "property": "C68",
   "status": "partial",
   "theorems": [
    "C68_new",
    "C68_constants",
    "C68_from",
    "C68_to_integer",
    "C68_to_ratio",
    "C68_sign",
    "C68_add_partial",
    "C68_add_refuted",
    "C68_add_error_refuted",
    "C68_recip_partial",
    "C68_recip_refuted",
    "C68_recip_panic_refuted",
    "C68_sqrts_partial",
    "C68_sqrts_refuted",
    "C68_sqrts_second"
   ],
   "note": "Construction, conversions, signs, negation, absolute value proved; sums and differences proved with a rational operand, reciprocals (value) for rationals. The helper for sums of two square roots gives the right polynomials, and errors only for sums that are not quadratic or if the second radicand is a square (refuted there). Refuted for two irrational operands (panic, or an error although the sum is quadratic) and for reciprocals (non-canonical or panic)."
  },
  {
   "property": "C69",
   "status": "partial",
   "theorems": [
    "C69_true_is_prime",
    "C69_small_partial",
    "C69_false_refuted",
    "C69_large_never_prime"
   ],
   "note": "Numbers reported prime are prime; below 541^2 the test returns and is exact. Refuted above: no prime from 541^2 on is reported prime (292703 is reported composite, for others the test panics)."
  },
  {
   "property": "C70",
   "status": "partial",
   "theorems": [
    "C70_base_partial",
    "C70_error",
    "C70_complete_partial",
    "C70_exactly_when_partial",
    "C70_other_partial",
    "C70_exponent_refuted",
    "C70_returns_refuted"
   ],
   "note": "A reported base is prime and the number is a power of it; an error is returned exactly for numbers below 2 (other numbers that are no prime power panic); of the prime powers exactly p^(2^j) with a prime p up to 541 are reported correctly, and every number above 1 that is no power of a prime up to 541 panics. Refuted: 27 is reported as 3^5, and 8 fails an assertion."
  },
  {
   "property": "C71",
   "status": "proved",
   "theorems": [
    "C71_int_value",
    "C71_ratio_value",
    "C71_int",
    "C71_ratio",
    "C71_mod_int",
    "C71_factor"
   ],
   "note": "Value and injectivity for nested polynomials of any depth over integers and rationals, injectivity over modular integers and for factors."
  },
  {
   "property": "C72",
   "status": "proved",
   "theorems": [
    "C72_interval",
    "C72_interval_debug",
    "C72_number",
    "C72_repr"
   ],
   "note": "Both text forms of intervals; debug text and Python repr of every valid algebraic number."
  },
  {
   "property": "C73",
   "status": "proved",
   "theorems": [
    "C73_by_reference",
    "C73_owned"
   ],
   "note": "Every history of next and next_back calls, for any coefficient type."
  },
  {
   "property": "C74",
   "status": "proved",
   "theorems": [
    "C74_to",
    "C74_from"
   ],
   "note": "BigInt coefficients and any integer range containing zero."
  },
  {
   "property": "C75",
   "status": "proved",
   "theorems": [
    "C75_factor_can_finish",
    "C75_same_degree_can_finish"
   ],
   "note": "For every prefix of the random stream there is a continuation with which same-degree factorisation returns, and with which integer factorisation returns or reports that no prime can be used."
  },
  {
   "property": "C76",
   "status": "partial",
   "theorems": [
    "C76_log_precision_partial",
    "C76_log_ln2_loss",
    "C76_log_precision_refuted"
   ],
   "note": "Full precision for intervals between 3/2 2^s and 3 2^s, which covers all points; a loss of at most ln 2 for all others. Refuted in general: intervals containing 3 2^k lose a constant at every precision."
  },
  {
   "property": "C77",
   "status": "partial",
   "theorems": [
    "C77_exp_precision_partial",
    "C77_exp_factor_two",
    "C77_exp_precision_refuted",
    "C77_exp_returns"
   ],
   "note": "Returns with full precision for intervals between k ln 2 and (k+1) ln 2, |k| <= 2^30, with the panicking points characterised exactly; returns on every proper interval no wider than 1/2 within 2^20 of zero; at most a factor of two lost otherwise. Refuted in general: intervals around 0 lose a constant at every precision (totality is refuted in C44)."
  },
  {
   "property": "C78",
   "status": "proved",
   "theorems": [
    "C78_meaning",
    "C78_value",
    "C78_zero_denominator",
    "C78_zero_panics",
    "C78_same_power",
    "C78_power",
    "C78_none",
    "C78_integer"
   ],
   "note": "Every form of exponent, both forms of the power. A Ratio made by Ratio::new_raw that is not in lowest terms is outside the claim (example C78_raw_ex)."
  },
  {
   "property": "C79",
   "status": "proved",
   "theorems": [
    "C79_static",
    "C79_sound",
    "C79_known_prime",
    "C79_known_odd"
   ],
   "note": "Built-in moduli (both directions) and all nestings of the wrappers."
  },
  {
   "property": "C80",
   "status": "proved",
   "theorems": [
    "C80_power",
    "C80_negative",
    "C80_error"
   ],
   "note": "All intervals and exponents, including the odd powers of intervals around zero for which the rounding is not outward (C42)."
  },
  {
   "property": "C81",
   "status": "proved",
   "theorems": [
    "C81_near",
    "C81_points"
   ],
   "note": "All intervals with lower bounds of at least 1, also with different denominators."
  },
  {
   "property": "C82",
   "status": "proved",
   "theorems": [
    "C82_readable",
    "C82_lines",
    "C82_line",
    "C82_empty"
   ],
   "note": "Texts of one-byte characters; the code measures bytes and pads characters, so that columns with other characters are wider than needed."
  },
  {
   "property": "C83",
   "status": "proved",
   "theorems": [
    "C83_readable",
    "C83_inorder",
    "C83_writer"
   ],
   "note": "All trees and writers. A leaf with no lines and one with one empty line are printed alike, as the code intends."
  },
  {
   "property": "C84",
   "status": "partial",
   "theorems": [
    "C84_ratio",
    "C84_roots_partial",
    "C84_relative_partial",
    "C84_ratio_large",
    "C84_roots_large_partial",
    "C84_relative_large_partial",
    "C84_refuted",
    "C84_huge_refuted"
   ],
   "note": "Rationals below 2^53: rounded once. Rationals with integers up to 2^400: relative error at most 2^-51. Irrational numbers with coefficients up to 2^24 (up to 2^400): the error is at most 2^-51 (2^-50) of the larger root, and relative if the linear term is not positive. Refuted in general: cancellation gives 0.0 for a number that is not zero, and integers beyond the range of f64 give a NaN."
  },
  {
   "property": "C85",
   "status": "proved",
   "theorems": [
    "C85_computed",
    "C85_stored"
   ],
   "note": "For every monotone f64 log2 which is right up to 2^-40, every schedule and every precision of 64 bits."
  },
  {
   "property": "C86",
   "status": "proved",
   "theorems": [
    "C86_polynomials",
    "C86_coefficients",
    "C86_quadratic",
    "C86_data",
    "C86_data_prefix_free"
   ],
   "note": "Polynomials over every modelled coefficient type, quadratic numbers by value, data of algebraic numbers by its own equality. RealAlgebraicNumber itself implements no Hash."
  },
  {
   "property": "C87",
   "status": "proved",
   "theorems": [
    "C87_reduced",
    "C87_primitive_gcd",
    "C87_greatest"
   ],
   "note": "All integer polynomials, with the calls integers support: the traits GCD and ExtendedGCD need AlwaysExactDivAssign, which integers do not implement."
  }
 ]
}