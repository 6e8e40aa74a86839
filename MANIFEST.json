{
 "claims": [
  {
   "property": "C01",
   "status": "proved",
   "theorems": [
    "C01_new_strips_leading_zeros",
    "C01_new_keeps_coefficients"
   ],
   "note": "For every coefficient type; coefficients under lawful."
  },
  {
   "property": "C02",
   "status": "proved",
   "theorems": [
    "C02_dense_degree",
    "C02_dense_is_zero",
    "C02_sparse_degree",
    "C02_fixed_degree",
    "C02_fixed_is_zero"
   ],
   "note": "All representations."
  },
  {
   "property": "C03",
   "status": "proved",
   "theorems": [
    "C03_dense_listing",
    "C03_sparse_listing",
    "C03_dense_sparse_listing",
    "C03_fixed_listing"
   ],
   "note": "All representations except ArrayPolynomial, whose listing is wrong for SIZE other than 2: see C54."
  },
  {
   "property": "C04",
   "status": "proved",
   "theorems": [
    "C04_dense_term_with_degree",
    "C04_sparse_term_with_degree",
    "C04_fixed_term_with_degree"
   ],
   "note": "All representations."
  },
  {
   "property": "C05",
   "status": "proved",
   "theorems": [
    "C05_dense_eq",
    "C05_sparse_eq",
    "C05_fixed_eq"
   ],
   "note": "All representations."
  },
  {
   "property": "C06",
   "status": "proved",
   "theorems": [
    "C06_dense_add",
    "C06_dense_add_trimmed",
    "C06_dense_add_returns",
    "C06_dense_add_int_checked",
    "C06_dense_add_int_wrapping"
   ],
   "note": "Coefficientwise sum and exact return condition, with the integer instances spelled out."
  },
  {
   "property": "C07",
   "status": "proved",
   "theorems": [
    "C07_dense_sub",
    "C07_dense_sub_returns",
    "C07_dense_sub_ref_same",
    "C07_dense_neg",
    "C07_dense_neg_returns",
    "C07_dense_sub_int_checked",
    "C07_dense_sub_int_wrapping"
   ],
   "note": "Subtraction by value and by reference, negation, return conditions."
  },
  {
   "property": "C08",
   "status": "proved",
   "theorems": [
    "C08_dense_mul",
    "C08_dense_mul_returns",
    "C08_dense_mul_int_checked_returns",
    "C08_dense_mul_int_nonneg_returns",
    "C08_dense_mul_int_wrapping"
   ],
   "note": "Cauchy product; return conditions for total arithmetic and overflow-checked integers."
  },
  {
   "property": "C09",
   "status": "partial",
   "theorems": [
    "C09_zero_times_nonzero_partial",
    "C09_zero_times_zero_panics",
    "C09_zero_times_zero_refuted"
   ],
   "note": "REFUTED: zero * zero panics for every coefficient type (C09_zero_times_zero_panics, _refuted); zero * non-zero is zero."
  },
  {
   "property": "C10",
   "status": "proved",
   "theorems": [
    "C10_dense_pow",
    "C10_dense_pow_terminates",
    "C10_dense_pow_returns",
    "C10_dense_pow_zero_panics",
    "C10_sparse_pow",
    "C10_sparse_pow_terminates",
    "C10_sparse_pow_int_wrapping"
   ],
   "note": "Dense and sparse: equals the n-fold product whenever it returns; recursion terminates."
  },
  {
   "property": "C11",
   "status": "proved",
   "theorems": [
    "C11_dense_scale",
    "C11_dense_scale_returns",
    "C11_dense_div_scalar",
    "C11_dense_div_scalar_op",
    "C11_dense_div_scalar_exact",
    "C11_dense_div_scalar_by_zero",
    "C11_sparse_scale",
    "C11_sparse_scale_returns",
    "C11_sparse_div",
    "C11_sparse_div_exact",
    "C11_fixed_scale",
    "C11_fixed_scale_returns",
    "C11_fixed_div_scalar",
    "C11_int_quotient_meaning",
    "C11_dense_div_int",
    "C11_sparse_div_int",
    "C11_fixed_div_int"
   ],
   "note": "All representations. For the built-in integers, in both overflow modes, division by a scalar gives the quotient truncated toward zero of every coefficient and panics exactly for a zero divisor or for the least value divided by -1."
  },
  {
   "property": "C12",
   "status": "proved",
   "theorems": [
    "C12_dense_eval",
    "C12_dense_eval_returns",
    "C12_dense_eval_at_zero",
    "C12_dense_eval_hom",
    "C12_dense_eval_int_wrapping",
    "C12_sparse_eval",
    "C12_sparse_eval_int_wrapping",
    "C12_dense_sparse_eval_agree",
    "C12_fixed_eval",
    "C12_fixed_eval_returns"
   ],
   "note": "All representations; per-term exponents below 2^32 for Monomial and SparsePolynomial (beyond: C51)."
  },
  {
   "property": "C13",
   "status": "proved",
   "theorems": [
    "C13_dense_derivative",
    "C13_dense_derivative_returns",
    "C13_dense_derivative_int_checked_returns",
    "C13_sparse_derivative",
    "C13_sparse_derivative_returns",
    "C13_fixed_derivative",
    "C13_fixed_derivative_int_returns"
   ],
   "note": "All representations."
  },
  {
   "property": "C14",
   "status": "proved",
   "theorems": [
    "C14_dense_integral",
    "C14_dense_integral_exact",
    "C14_dense_integral_int",
    "C14_sparse_integral_exact",
    "C14_sparse_integral_int",
    "C14_fixed_integral",
    "C14_fixed_integral_exact",
    "C14_fixed_integral_int",
    "C14_eval_difference",
    "C14_eval_returns",
    "C14_eval_additive",
    "C14_replace_c",
    "C14_replace_c_returns",
    "C14_constant_of_integration"
   ],
   "note": "Integral coefficients, their exactness over fields, integer truncation; Integral::eval is the difference of the values at the bounds (additive, antisymmetric); replace_c adds to the constant coefficient only and leaves the derivative and all definite integrals unchanged."
  },
  {
   "property": "C15",
   "status": "proved",
   "theorems": [
    "C15_dense_shift",
    "C15_dense_shift_assign_returns",
    "C15_dense_shl_shr",
    "C15_sparse_shift",
    "C15_sparse_shift_returns",
    "C15_mono_shift",
    "C15_mono_shift_returns",
    "C15_sparse_shl_shr",
    "C15_mono_shl_shr"
   ],
   "note": "All representations that have shifts; degrees must stay within usize when built without overflow checks (C52). Binomial and trinomial >> are in C50."
  },
  {
   "property": "C16",
   "status": "partial",
   "theorems": [
    "C16_dense_shr_characterisation",
    "C16_dense_shr_trimmed_partial",
    "C16_dense_shr_refuted"
   ],
   "note": "REFUTED for >> on polynomials with leading zeros, exact characterisation given; true for >>= and for trimmed polynomials."
  },
  {
   "property": "C17",
   "status": "partial",
   "theorems": [
    "C17_dense_shift_min",
    "C17_shift_min_refuted",
    "C17_shift_other_partial",
    "C17_sparse_shift_min",
    "C17_mono_shift_min"
   ],
   "note": "REFUTED: shifting by i32::MIN panics (checked) or recurses forever (unchecked) for every polynomial (dense, sparse, monomial); every other amount is fine."
  },
  {
   "property": "C18",
   "status": "proved",
   "theorems": [
    "C18_dense_div_mod",
    "C18_dense_div_mod_int_checked",
    "C18_dense_div_mod_int_wrapping",
    "C18_dense_div_mod_unique",
    "C18_dense_div_mod_field",
    "C18_dense_floor_div",
    "C18_dense_div_mod_rounds"
   ],
   "note": "Euclidean division whenever it returns; termination over fields, with the number of rounds (C18_dense_div_mod_rounds); uniqueness over domains."
  },
  {
   "property": "C19",
   "status": "partial",
   "theorems": [
    "C19_dense_div_mod_diverges",
    "C19_dense_div_mod_refuted",
    "C19_dense_div_mod_terminates_partial"
   ],
   "note": "REFUTED: diverges whenever the leading coefficient is smaller than the divisor's; terminates whenever a quotient and remainder exist over Z."
  },
  {
   "property": "C20",
   "status": "partial",
   "theorems": [
    "C20_dense_rem_assign",
    "C20_dense_rem_assign_field",
    "C20_dense_rem_small_partial",
    "C20_dense_rem_never",
    "C20_dense_rem_refuted"
   ],
   "note": "REFUTED for %: never returns when deg p >= deg d, for every coefficient type; %= is correct."
  },
  {
   "property": "C21",
   "status": "proved",
   "theorems": [
    "C21_dense_zero_divisor",
    "C21_dense_only_zero_divisor",
    "C21_sparse_zero_divisor",
    "C21_sparse_only_zero_divisor"
   ],
   "note": "Dense and sparse."
  },
  {
   "property": "C22",
   "status": "partial",
   "theorems": [
    "C22_sparse_div_mod_partial",
    "C22_sparse_rem_partial",
    "C22_sparse_div_mod_returns_iff",
    "C22_sparse_never",
    "C22_sparse_div_mod_refuted"
   ],
   "note": "REFUTED: sparse div_mod never returns when deg p > deg d; exact characterisation of when it returns, and correctness when it does."
  },
  {
   "property": "C23",
   "status": "proved",
   "theorems": [
    "C23_sparse_add",
    "C23_sparse_sub",
    "C23_sparse_neg",
    "C23_sparse_sub_dense",
    "C23_sparse_returns",
    "C23_sparse_int_wrapping"
   ],
   "note": "Coefficientwise, with integer instances."
  },
  {
   "property": "C24",
   "status": "proved",
   "theorems": [
    "C24_sparse_mul",
    "C24_dense_sparse_agree",
    "C24_sparse_mul_returns",
    "C24_sparse_mul_int_wrapping"
   ],
   "note": "Cauchy product when degrees fit in usize; agrees with dense product."
  },
  {
   "property": "C25",
   "status": "proved",
   "theorems": [
    "C25_from_vec",
    "C25_from_terms",
    "C25_from_terms_returns"
   ],
   "note": "Construction from vectors and term lists agree."
  },
  {
   "property": "C26",
   "status": "proved",
   "theorems": [
    "C26_dense_history",
    "C26_sparse_history",
    "C26_fixed_history",
    "C26_last_reset",
    "C26_net_sum",
    "C26_err_unchanged",
    "C26_signed_never_errs",
    "C26_dense_returns",
    "C26_sparse_returns"
   ],
   "note": "Any history on all six representations equals replaying the successful calls; net-sum and last-reset reading of the replay; errors change nothing; exact condition for each call to return."
  },
  {
   "property": "C27",
   "status": "proved",
   "theorems": [
    "C27_mono_term_update",
    "C27_bino_term_update",
    "C27_trino_term_update",
    "C27_array_term_update",
    "C27_fixed_term_update_returns"
   ],
   "note": "Effect, atomicity and exact return condition for all four fixed shapes."
  },
  {
   "property": "C28",
   "status": "partial",
   "theorems": [
    "C28_zero_term_partial",
    "C28_zero_term_refuted"
   ],
   "note": "REFUTED for the fixed-size types and for subtracting zero beyond the length of an unsigned Polynomial; proved for SparsePolynomial and for Polynomial otherwise."
  },
  {
   "property": "C29",
   "status": "partial",
   "theorems": [
    "C29_unsigned_missing_partial",
    "C29_unsigned_stored_refuted"
   ],
   "note": "REFUTED: with a smaller coefficient stored at that degree the call panics (overflow checks) or wraps and reports Ok; proved when no coefficient is stored there."
  },
  {
   "property": "C30",
   "status": "proved",
   "theorems": [
    "C30_sinks",
    "C30_add_sub_poly",
    "C30_add_polynomial",
    "C30_mul_poly_vec",
    "C30_macros_into",
    "C30_macros_errors",
    "C30_poly_add_never_errs",
    "C30_poly_add_sum",
    "C30_poly_add_total"
   ],
   "note": "For every sink satisfying the term-update laws, which all six types do; includes the effect on error and the macros."
  },
  {
   "property": "C31",
   "status": "partial",
   "theorems": [
    "C31_poly_sub_signed_partial",
    "C31_poly_sub_unsigned_refuted"
   ],
   "note": "REFUTED for unsigned types: an operand of higher degree is silently dropped; proved for types that can be negated."
  },
  {
   "property": "C32",
   "status": "proved",
   "theorems": [
    "C32_dense_round_trip",
    "C32_sparse_round_trip",
    "C32_linear_quadratic_round_trip",
    "C32_mono_round_trip"
   ],
   "note": "All five printable types, all integer types, both build modes; hypothesis: the minimum of a signed type occurs only as leading coefficient (see C33). Dense and sparse also carry their representation invariants (length and degrees the type can hold)."
  },
  {
   "property": "C33",
   "status": "partial",
   "theorems": [
    "C33_checked_panics_refuted",
    "C33_wrapping_unreadable_refuted"
   ],
   "note": "REFUTED: whenever a non-leading coefficient is the minimum of a signed type, formatting panics with overflow checks, and without them prints text that the same type rejects. C32 is the true part."
  },
  {
   "property": "C34",
   "status": "proved",
   "theorems": [
    "C34_tokens_partition",
    "C34_tokens_unique",
    "C34_byte_ranges"
   ],
   "note": "Ranges are a chain from 0 to the byte length of the UTF-8 encoding; slicing at them always succeeds and cuts the bytes of the string into the bytes of the tokens; the tokens satisfy a declarative description that determines them uniquely."
  },
  {
   "property": "C35",
   "status": "proved",
   "theorems": [
    "C35_parsed_sum",
    "C35_errors",
    "C35_succeeds",
    "C35_order_irrelevant"
   ],
   "note": "Value of the result, meaning of each error, exact success condition (iff), order irrelevance for dense and sparse. Monomial is order dependent (example)."
  },
  {
   "property": "C36",
   "status": "proved",
   "theorems": [
    "C36_separators_ignored",
    "C36_term_language",
    "C36_integer_text",
    "C36_integer_text_only"
   ],
   "note": "Exact accepted language (iff) with meaning, separators ignored anywhere, integer text grammar (iff)."
  },
  {
   "property": "C37",
   "status": "partial",
   "theorems": [
    "C37_no_caret_refuted",
    "C37_degree_error_never"
   ],
   "note": "REFUTED: digits directly after x are read as the exponent, digits around the caret are concatenated; DegreeCouldNotBeParsed is never reported."
  },
  {
   "property": "C38",
   "status": "partial",
   "theorems": [
    "C38_no_panic_partial",
    "C38_no_panic_checked_partial",
    "C38_dense_refuted"
   ],
   "note": "REFUTED for Polynomial: x^d panics for every d the vector cannot hold. Proved for the other types up to coefficient overflow (suffix _partial)."
  },
  {
   "property": "C39",
   "status": "proved",
   "theorems": [
    "C39_discriminant",
    "C39_real_roots",
    "C39_complex_roots"
   ],
   "note": "Exact real arithmetic (the reals of the standard library); sqrt is the real square root. Rounding of f64 is not covered."
  },
  {
   "property": "C40",
   "status": "partial",
   "theorems": [
    "C40_order_partial",
    "C40_negative_leading",
    "C40_order_refuted"
   ],
   "note": "REFUTED for a < 0 (C40_order_refuted, C40_negative_leading: the smallest root comes first, for every such quadratic); proved for a > 0 (C40_order_partial). Exact real arithmetic."
  },
  {
   "property": "C41",
   "status": "partial",
   "theorems": [
    "C41_even_sum_partial",
    "C41_odd_sum_wrong",
    "C41_refuted",
    "C41_zero_leading_panics"
   ],
   "note": "REFUTED: two integer roots with an odd sum are never returned (C41_odd_sum_wrong, C41_refuted). Proved when the sum is even and nothing overflows, for every signed type with From<u8>, both build modes. A zero leading coefficient panics."
  },
  {
   "property": "C42",
   "status": "partial",
   "theorems": [
    "C42_real_factors",
    "C42_complex_factors_real_partial",
    "C42_complex_factors_nonreal",
    "C42_complex_factors_refuted"
   ],
   "note": "REFUTED for complex_factors with negative discriminant and b non-zero (C42_complex_factors_nonreal characterises what it multiplies to); real_factors and the real-root case of complex_factors proved. Exact real arithmetic."
  },
  {
   "property": "C43",
   "status": "proved",
   "theorems": [
    "C43_linear",
    "C43_linear_int",
    "C43_monomial"
   ],
   "note": "Generic classification with exact division; integer instance; monomials."
  },
  {
   "property": "C44",
   "status": "partial",
   "theorems": [
    "C44_cubic_roots_partial",
    "C44_cubic_wrong",
    "C44_three_distinct_roots_refuted"
   ],
   "note": "REFUTED for every cubic with three distinct real roots whose inflection point is not a root (C44_three_distinct_roots_refuted, C44_cubic_wrong); proved otherwise (C44_cubic_roots_partial). Exact real arithmetic with an exact cube root."
  },
  {
   "property": "C45",
   "status": "proved",
   "theorems": [
    "C45_classify",
    "C45_formula",
    "C45_never_unreachable",
    "C45_float_returns"
   ],
   "note": "Dense and sparse, every coefficient type with exact arithmetic; the term-list patterns are exhaustive (C45_never_unreachable). C45_float_returns: over f32/f64, for degree at most 3, roots() always returns, for every behaviour of sqrt, cbrt and rounding."
  },
  {
   "property": "C46",
   "status": "partial",
   "theorems": [
    "C46_terminates",
    "C46_sound",
    "C46_real",
    "C46_sparse_huge_degree_panics",
    "C46_float_returns_or_hangs",
    "C46_float_deflation_ends_iff",
    "C46_float_deflation_bounded",
    "C46_float_nonfinite_leading_hangs",
    "C46_float_termination_refuted"
   ],
   "note": "REFUTED for f64 termination: deflation loops forever when synthetic division meets an infinite or NaN coefficient (C46_float_deflation_ends_iff, C46_float_nonfinite_leading_hangs, C46_float_termination_refuted); otherwise the f32/f64 loop ends within deg p passes (C46_float_returns_or_hangs, C46_float_deflation_bounded). Exact arithmetic: termination for every solver and soundness with multiplicity proved (C46_terminates, C46_sound, C46_real). Sparse degrees above the vector limit panic. The Sturm solver is an external crate and an arbitrary function here."
  },
  {
   "property": "C47",
   "status": "proved",
   "theorems": [
    "C47_unsigned",
    "C47_signed",
    "C47_signed_min_checked"
   ],
   "note": "Every unsigned width in both build modes: abs_sqrt returns (67 loop rounds are enough for all widths), never overflows, and is the floor square root. Signed: the floor square root of |n|, except that the minimum panics when overflow checks are on (C47_signed_min_checked)."
  },
  {
   "property": "C48",
   "status": "partial",
   "theorems": [
    "C48_integers",
    "C48_float_cont",
    "C48_f32_limit_tight",
    "C48_float_exact_partial",
    "C48_float_exact_refuted"
   ],
   "note": "Integers: exact and accepted iff in range. f32/f64 cont: accepted iff at most 2^24 / 2^52, exact, and so is every smaller number. f32/f64 exact: correct below usize::MAX (C48_float_exact_partial); REFUTED at usize::MAX, where 2^64 is returned for 2^64-1 (C48_float_exact_refuted)."
  },
  {
   "property": "C49",
   "status": "proved",
   "theorems": [
    "C49_value",
    "C49_equality",
    "C49_dense",
    "C49_sparse",
    "C49_fixed"
   ],
   "note": "All 41 pairs of the upcast table; integers, integers to floats, f32 to f64 (infinities and NaN included). Coefficient values, degree, term listing and equality of all five containers are preserved."
  },
  {
   "property": "C50",
   "status": "proved",
   "theorems": [
    "C50_mono_arith",
    "C50_bino_arith",
    "C50_trino_arith",
    "C50_fixed_arith_returns"
   ],
   "note": "Effect and return conditions."
  },
  {
   "property": "C51",
   "status": "partial",
   "theorems": [
    "C51_sparse_eval_truncates",
    "C51_sparse_eval_refuted",
    "C51_mono_truncates",
    "C51_mono_refuted"
   ],
   "note": "REFUTED: SparsePolynomial::eval, Monomial::eval and Monomial::pow truncate the exponent to 32 bits; exact characterisation given."
  },
  {
   "property": "C52",
   "status": "partial",
   "theorems": [
    "C52_sparse_checked",
    "C52_sparse_shift_checked",
    "C52_sparse_wraps_refuted",
    "C52_mono_checked",
    "C52_mono_wraps_refuted"
   ],
   "note": "REFUTED without overflow checks (product, shift, power); true with them."
  },
  {
   "property": "C53",
   "status": "proved",
   "theorems": [
    "C53_integral_display",
    "C53_only_zero_prints_C"
   ],
   "note": "C exactly for the zero polynomial, else the polynomial's text followed by ' + C'."
  },
  {
   "property": "C54",
   "status": "partial",
   "theorems": [
    "C54_array_listing_partial",
    "C54_array_listing_wrong",
    "C54_array_listing_refuted"
   ],
   "note": "REFUTED for every SIZE other than 2 and every non-zero polynomial; true for SIZE 2."
  },
  {
   "property": "C55",
   "status": "partial",
   "theorems": [
    "C55_nontermination_refuted",
    "C55_quotient_overwritten_refuted",
    "C55_monic_partial",
    "C55_half_power_partial",
    "C55_underflow_refuted"
   ],
   "note": "REFUTED as stated: C55_nontermination_refuted shows 1.0x / 49.0x never returns for any fuel, C55_quotient_overwritten_refuted shows 3.0x / 47.0x returns a quotient below 1e-16 with remainder 0, C55_underflow_refuted shows that the smallest f64 times x divided by 2x never returns (div_mod and %=). C55_monic_partial and C55_half_power_partial prove termination, finiteness and the degree bound for divisors with leading coefficient 1, or plus or minus a negative power of two, and bounded coefficients (f32 and f64). Missing: other divisors (false in general)."
  },
  {
   "property": "C56",
   "status": "partial",
   "theorems": [
    "C56_derivative_panics_early_refuted",
    "C56_derivative_partial"
   ],
   "note": "REFUTED: i8 polynomial of degree 127 panics; returns whenever degree + 1 is representable."
  },
  {
   "property": "C57",
   "status": "proved",
   "theorems": [
    "C57_inputs",
    "C57_dense",
    "C57_sparse",
    "C57_fixed",
    "C57_int_division",
    "C57_float_source_refuted",
    "C57_release_source_refuted",
    "C57_float_division_refuted"
   ],
   "note": "All 30+ modelled operations per shape, integer sources; refutations show that float sources, release sources and float targets of division must be excluded."
  },
  {
   "property": "C58",
   "status": "proved",
   "theorems": [
    "C58_dense",
    "C58_sparse",
    "C58_fixed",
    "C58_text",
    "C58_roots",
    "C58_converse_refuted",
    "C58_poly_math",
    "C58_rest"
   ],
   "note": "Every modelled operation of all shapes, text and root finding (for any solver and square/cube roots); the converse is refuted."
  },
  {
   "property": "C59",
   "status": "proved",
   "theorems": [
    "C59_dense_linear",
    "C59_dense_mul",
    "C59_dense_pow",
    "C59_eval",
    "C59_dense_derivative",
    "C59_sparse_linear",
    "C59_sparse_mul",
    "C59_sparse_pow",
    "C59_sparse_derivative",
    "C59_range_refuted"
   ],
   "note": "Polynomial, SparsePolynomial, and evaluation of LinearBinomial, QuadraticTrinomial and ArrayPolynomial; the bound is shown tight by a refutation beyond it."
  },
  {
   "property": "C60",
   "status": "proved",
   "theorems": [
    "C60_display",
    "C60_parse",
    "C60_narrower_refuted"
   ],
   "note": "Display for all shapes; FromStr for all shapes (for Polynomial the larger coefficients may exceed the address space); the converse is refuted."
  },
  {
   "property": "C61",
   "status": "proved",
   "theorems": [
    "C61_mul",
    "C61_pow",
    "C61_eval",
    "C61_eval_nonneg",
    "C61_converse_refuted"
   ],
   "note": "Multiplication, powers and evaluation of all shapes with checked integers; Monomial::pow exactly; the converse is refuted."
  },
  {
   "property": "C62",
   "status": "proved",
   "theorems": [
    "C62_dense_program",
    "C62_sparse_program",
    "C62_dense_sparse_agree",
    "C62_same_meaning_equal",
    "C62_laws",
    "C62_int_laws",
    "C62_int_wrapping_program"
   ],
   "note": "Dense and sparse programs; laws of rings, powers, derivatives and shifts; wrapping integers. Rounding types are excluded (they obey no ring laws)."
  },
  {
   "property": "C63",
   "status": "proved",
   "theorems": [
    "C63_eval_program",
    "C63_eval_sparse_program",
    "C63_eval_int_wrapping"
   ],
   "note": "Dense (any lawful type), sparse (checked), wrapping integers."
  },
  {
   "property": "C64",
   "status": "proved",
   "theorems": [
    "C64_dense_add",
    "C64_dense_add_assign",
    "C64_dense_sub",
    "C64_dense_neg",
    "C64_dense_scale",
    "C64_dense_derivative",
    "C64_dense_integral",
    "C64_sparse",
    "C64_dense_rounded",
    "C64_dense_scalar_rounded",
    "C64_dense_calculus_rounded"
   ],
   "note": "Dense: all operations named; sparse: add, sub, neg, scalar product and quotient. Each both as an IEEE operation and as a correctly rounded real."
  },
  {
   "property": "C65",
   "status": "proved",
   "theorems": [
    "C65_error",
    "C65_error_gamma",
    "C65_finite",
    "C65_binomial",
    "C65_trinomial"
   ],
   "note": "Dense polynomials, binomials, trinomials. Monomial and SparsePolynomial evaluation goes through powi: see C84 and C91."
  },
  {
   "property": "C66",
   "status": "proved",
   "theorems": [
    "C66_dense_mul",
    "C66_sparse_mul",
    "C66_dense_mul_returns"
   ],
   "note": "Dense (both operator variants) and sparse."
  },
  {
   "property": "C67",
   "status": "partial",
   "theorems": [
    "C67_dense_add_comm",
    "C67_sparse_add_comm",
    "C67_mul_comm_bound",
    "C67_mul_comm_refuted",
    "C67_add_assoc_refuted",
    "C67_distr_refuted",
    "C67_eval_sum_refuted"
   ],
   "note": "Addition commutes exactly (proved) and products commute up to the rounding bound (proved). REFUTED: exact commutativity of products, associativity, distributivity, additivity of evaluation."
  },
  {
   "property": "C68",
   "status": "proved",
   "theorems": [
    "C68_linear_root",
    "C68_no_leading"
   ],
   "note": "Round to nearest even of the exact quotient; any finite coefficients whose quotient is within the largest finite float."
  },
  {
   "property": "C69",
   "status": "proved",
   "theorems": [
    "C69_classification",
    "C69_whole_roots",
    "C69_distinct"
   ],
   "note": "The square root is assumed correctly rounded, as IEEE 754 prescribes."
  },
  {
   "property": "C70",
   "status": "partial",
   "theorems": [
    "C70_residual",
    "C70_polynomial",
    "C70_relative_accuracy_refuted",
    "C70_overflow_refuted",
    "C70_sparse_polynomial"
   ],
   "note": "Residual bound and classification proved for the stated exponent range. REFUTED: relative accuracy (cancellation) and freedom from overflow outside the range. The square root is assumed correctly rounded, as IEEE 754 prescribes."
  },
  {
   "property": "C71",
   "status": "proved",
   "theorems": [
    "C71_derivative_is_slope",
    "C71_integral_is_area",
    "C71_calculus_returns"
   ],
   "note": "Exact real arithmetic; sparse and monomial exponents below 2^32, as in C12."
  },
  {
   "property": "C72",
   "status": "proved",
   "theorems": [
    "C72_degree",
    "C72_terms",
    "C72_coefficient",
    "C72_coefficients_kept",
    "C72_equality",
    "C72_float",
    "C72_trim"
   ],
   "note": "For every coefficient type with is_zero(zero()); sparse/fixed equality also needs that == agrees with is_zero, which C72_float shows of f32 and f64. A shift is covered whenever it returns (C15 - C17 say when)."
  },
  {
   "property": "C73",
   "status": "partial",
   "theorems": [
    "C73_equivalence",
    "C73_int",
    "C73_float_partial",
    "C73_reflexive_refuted"
   ],
   "note": "REFUTED for floats (C73_reflexive_refuted: NaN); symmetric and transitive there, reflexive iff no NaN (C73_float_partial). Proved for all integer types (C73_int) and for every type whose coefficients have an equivalence (C73_equivalence)."
  },
  {
   "property": "C74",
   "status": "partial",
   "theorems": [
    "C74_dense_product",
    "C74_dense_sum",
    "C74_dense_calculus",
    "C74_sparse",
    "C74_int_checked",
    "C74_wrapping_refuted",
    "C74_float_refuted",
    "C74_sparse_scale"
   ],
   "note": "REFUTED for products of wrapping integers and of floats (C74_wrapping_refuted, C74_float_refuted). Proved for every coefficient domain incl. integers with overflow checks; sums, negation and shifts for every ring."
  },
  {
   "property": "C75",
   "status": "proved",
   "theorems": [
    "C75_remainder",
    "C75_factor",
    "C75_returns"
   ],
   "note": "For every lawful coefficient type; C75_returns covers fields and, for checked integers, termination."
  },
  {
   "property": "C76",
   "status": "partial",
   "theorems": [
    "C76_dense",
    "C76_sparse",
    "C76_root_count",
    "C76_wrapping_refuted"
   ],
   "note": "REFUTED for wrapping integers of every type (C76_wrapping_refuted). Proved for every coefficient domain incl. integers with overflow checks."
  },
  {
   "property": "C77",
   "status": "partial",
   "theorems": [
    "C77_dense",
    "C77_sparse",
    "C77_linear",
    "C77_quadratic",
    "C77_mono",
    "C77_nonfinite_refuted"
   ],
   "note": "Proved for all finite coefficients and every Display that meets core's contract (float_display, inhabited by show_exact). REFUTED for infinities and NaN: C77_nonfinite_refuted shows their text is never accepted."
  },
  {
   "property": "C78",
   "status": "partial",
   "theorems": [
    "C78_nearest",
    "C78_sum",
    "C78_finite_refuted",
    "C78_monomial"
   ],
   "note": "Correct rounding, accepted literals and left-to-right sums proved for all five parsable types. REFUTED part: a successful parse may return an infinite coefficient (C78_finite_refuted)."
  },
  {
   "property": "C79",
   "status": "partial",
   "theorems": [
    "C79_term_error",
    "C79_error_tells",
    "C79_messages",
    "C79_polynomial_error",
    "C79_exponent_refuted"
   ],
   "note": "C79_term_error characterises, for every text, number parser and error, when from_str returns that error, by an inductive specification of the faults (term_error); C79_error_tells draws out what the user learns; C79_polynomial_error lifts it to polynomials. REFUTED part: an unreadable exponent is reported as CoeffCouldNotBeParsed although the coefficient is fine, and DegreeCouldNotBeParsed is never returned (C79_exponent_refuted)."
  },
  {
   "property": "C80",
   "status": "partial",
   "theorems": [
    "C80_small_partial",
    "C80_large",
    "C80_multiple_zero_refuted"
   ],
   "note": "Exact real arithmetic. C80_small_partial: degrees 1 to 3 for dense and sparse polynomials, except c x^2 and c x^3 and the cubics for which the cubic formula is wrong (C44); C80_large: from degree 4 on, for every solver that returns distinct roots, an answer ManyRealRoots is complete with multiplicity. REFUTED for c x^k, k > 1: the root 0 of multiplicity k is listed once (C80_multiple_zero_refuted, for all c and k). Rounding is not covered here; C46 has the statements about partial answers."
  },
  {
   "property": "C81",
   "status": "proved",
   "theorems": [
    "C81_history",
    "C81_fixed",
    "C81_monomial",
    "C81_representations_agree"
   ],
   "note": "All representations; dense exactly, sparse and monomial up to the sign of a zero. Exponents at most what a Vec of that float type can hold (dense)."
  },
  {
   "property": "C82",
   "status": "proved",
   "theorems": [
    "C82_constant",
    "C82_types",
    "C82_value"
   ],
   "note": "Lawless constructor part; C82_types discharges the hypotheses for all integer types and floats. The float value part assumes only powi(x,0)=1."
  },
  {
   "property": "C83",
   "status": "partial",
   "theorems": [
    "C83_sparse_calculus",
    "C83_agree",
    "C83_mul_bound",
    "C83_mul_refuted",
    "C83_scale_refuted"
   ],
   "note": "REFUTED in part: C83_mul_refuted (products of the same polynomial differ in the last bits between the representations) and C83_scale_refuted (times infinity the dense zeros become NaN). C83_agree proves agreement for all other operations, C83_mul_bound bounds the difference of products."
  },
  {
   "property": "C84",
   "status": "partial",
   "theorems": [
    "C84_sparse",
    "C84_monomial",
    "C84_agree",
    "C84_exponent",
    "C84_exponent_refuted"
   ],
   "note": "REFUTED for exponents of 2^31 and more (C84_exponent_refuted: the exponent is cast to i32 and becomes negative). Below 2^31 the bound is proved relative to an accuracy of powi, which Rust does not specify; with that hypothesis C84_sparse, C84_monomial and C84_agree hold for all inputs."
  },
  {
   "property": "C85",
   "status": "proved",
   "theorems": [
    "C85_dense",
    "C85_sparse",
    "C85_value",
    "C85_conj",
    "C85_div_mod",
    "C85_types",
    "C85_degree",
    "C85_remainder",
    "C85_real",
    "C85_returns",
    "C85_sparse_power",
    "C85_sparse_degree",
    "C85_sparse_div_mod"
   ],
   "note": "num::Complex is an external crate: its operators are modelled by the usual formulas, division by multiplying with the conjugate. Methods whose trait bounds have no impl for complex numbers (derivative, sparse eval, Display, try_sub_term) are outside."
  },
  {
   "property": "C86",
   "status": "partial",
   "theorems": [
    "C86_exact",
    "C86_sparse_exact",
    "C86_sub_self",
    "C86_sub_self_refuted",
    "C86_power_of_two",
    "C86_sparse_power_of_two",
    "C86_scale",
    "C86_sparse_scale",
    "C86_add_sub",
    "C86_sparse_add_sub",
    "C86_integral_derivative",
    "C86_sparse_integral_derivative",
    "C86_undo_refuted"
   ],
   "note": "REFUTED in part: C86_undo_refuted (p / c * c, (p + q) - q and the derivative of the integral are not exact) and C86_sub_self_refuted (p - p is not zero with infinite coefficients). The exact round trips are proved, the others bounded."
  },
  {
   "property": "C87",
   "status": "partial",
   "theorems": [
    "C87_small_partial",
    "C87_real_partial",
    "C87_cubic_refuted"
   ],
   "note": "Proved for degrees 1 and 2, for the cubics where the formula of the code is right, and for any degree when the result is a list of real roots found by a solver that returns exact roots. REFUTED for the other cubics (C87_cubic_refuted): one of the reported roots does not evaluate to zero."
  },
  {
   "property": "C88",
   "status": "proved",
   "theorems": [
    "C88_recombine",
    "C88_rem_assign",
    "C88_undone",
    "C88_whole",
    "C88_whole_unique",
    "C88_monic"
   ],
   "note": "Divisors whose leading coefficient cannot be divided out without loss are excluded: for those the loop can overwrite quotient coefficients or not return at all (C55)."
  },
  {
   "property": "C89",
   "status": "proved",
   "theorems": [
    "C89_integral",
    "C89_slope",
    "C89_array",
    "C89_binomial",
    "C89_trinomial"
   ],
   "note": "Polynomial, arrays, binomials and trinomials; sparse polynomials and monomials are in C94. Area is the Riemann integral and slope the limit of the standard library; finite result assumed, no other condition."
  },
  {
   "property": "C90",
   "status": "proved",
   "theorems": [
    "C90_sign",
    "C90_bracket",
    "C90_count"
   ],
   "note": "For Polynomial and ArrayPolynomial (same evaluation). The error bound is a real number computed from the polynomial with absolute coefficients."
  },
  {
   "property": "C91",
   "status": "proved",
   "theorems": [
    "C91_powi",
    "C91_sparse",
    "C91_monomial",
    "C91_powi_whole",
    "C91_whole"
   ],
   "note": "rt_powi models the square-and-multiply loop of the Rust runtime library (compiler-builtins float/pow.rs), which is outside /repo; C84 holds for any power function with a given accuracy, and C91 discharges that accuracy for this loop"
  },
  {
   "property": "C92",
   "status": "partial",
   "theorems": [
    "C92_float_eval_refuted",
    "C92_trim",
    "C92_canonical",
    "C92_dense",
    "C92_dense_division",
    "C92_dense_sums",
    "C92_dense_eval",
    "C92_int_zero_returns",
    "C92_sparse_values",
    "C92_sparse_sums",
    "C92_sparse_eval_wrapping",
    "C92_sparse_eval_refuted",
    "C92_sparse_mul_refuted",
    "C92_sparse_integral_refuted"
   ],
   "note": "REFUTED for sparse polynomials: the entry 0 x^2 kept by (x^2+1)-x^2 makes evaluation panic for every checked integer type (C92_sparse_eval_refuted) and return NaN for f64 (C92_float_eval_refuted), although the polynomial == 1; likewise products (C92_sparse_mul_refuted: x^M - x^M times x panics, x times it does not) and integrals (C92_sparse_integral_refuted). Proved for all dense and fixed-size operations and for the sparse operations that only look at values. dense Rem (%) is left out: it loops on most inputs (see C20)"
  },
  {
   "property": "C93",
   "status": "partial",
   "theorems": [
    "C93_spaces",
    "C93_separators",
    "C93_leading_separator",
    "C93_separators_refuted",
    "C93_alphabet",
    "C93_leading_plus"
   ],
   "note": "REFUTED for commas and underscores in front of the first sign, where the text is rejected; everything else proved for every text that is not blank."
  },
  {
   "property": "C94",
   "status": "proved",
   "theorems": [
    "C94_integral",
    "C94_slope",
    "C94_monomial_slope",
    "C94_monomial_integral"
   ],
   "note": "Sparse polynomials and monomials; the bound uses the modelled powi loop of the runtime library."
  },
  {
   "property": "C95",
   "status": "proved",
   "theorems": [
    "C95_text",
    "C95_integers",
    "C95_floats",
    "C95_equal_text"
   ],
   "note": "C95_text holds for any coefficient type whose text is plain (no blank, no x, injective); C95_integers and C95_floats are the instances. C95_equal_text relates it to ==."
  },
  {
   "property": "C96",
   "status": "partial",
   "theorems": [
    "C96_small",
    "C96_large",
    "C96_equal",
    "C96_underflow",
    "C96_lossless",
    "C96_equal_refuted"
   ],
   "note": "REFUTED: div_mod does not return when the dividend has the larger degree (C96_large, all inputs) and for some equal degrees (C96_equal gives the exact condition, C96_underflow and C96_equal_refuted instances). C96_small and C96_lossless give the results where it returns at once."
  },
  {
   "property": "C97",
   "status": "partial",
   "theorems": [
    "C97_real",
    "C97_complex",
    "C97_refuted"
   ],
   "note": "REFUTED (C97_refuted). C97_real and C97_complex characterise exactly when the factors multiply back. With overflow checks a discriminant equal to the type's minimum panics and is excluded."
  },
  {
   "property": "C98",
   "status": "partial",
   "theorems": [
    "C98_none",
    "C98_whole_roots",
    "C98_rounded",
    "C98_complex_wrong",
    "C98_pure",
    "C98_refuted"
   ],
   "note": "REFUTED for complex factors with b non-zero (C98_complex_wrong for all finite coefficients). The real factors bounded, whole roots and a(x^2+w^2) proved exact."
  },
  {
   "property": "C99",
   "status": "partial",
   "theorems": [
    "C99_float",
    "C99_int",
    "C99_refuted"
   ],
   "note": "REFUTED for a negative leading coefficient, where the order is always the other one. C40 is the statement in exact arithmetic."
  },
  {
   "property": "C100",
   "status": "proved",
   "theorems": [
    "C100_congruence",
    "C100_linear",
    "C100_product",
    "C100_multiple_value",
    "C100_field",
    "C100_gcd"
   ],
   "note": "Exact arithmetic without zero divisors; Euclid is caller code over the API."
  },
  {
   "property": "C101",
   "status": "proved",
   "theorems": [
    "C101_formula",
    "C101_evaluation",
    "C101_exact",
    "C101_float"
   ],
   "note": "From degree 4 on for f32/f64 only when the evaluations agree: Horner and powi may round differently (C84)."
  },
  {
   "property": "C102",
   "status": "proved",
   "theorems": [
    "C102_power",
    "C102_integers",
    "C102_positive",
    "C102_spacing_needed",
    "C102_sparse",
    "C102_two_terms",
    "C102_finite"
   ],
   "note": "C102_power and C102_sparse are the bounds, C102_two_terms, C102_integers and C102_positive special cases, C102_finite excludes overflow. C102_spacing_needed shows that the condition on the spacing cannot be dropped."
  },
  {
   "property": "C103",
   "status": "proved",
   "theorems": [
    "C103_dense",
    "C103_division",
    "C103_even_odd",
    "C103_quadratic_roots",
    "C103_sparse",
    "C103_sparse_eval",
    "C103_sparse_division",
    "C103_powi",
    "C103_sparse_even_odd"
   ],
   "note": "Sparse evaluation is stated for powers that follow the sign of the base; C103_powi shows that Rust's runtime loop does. Sparse division is covered for negated operands only."
  },
  {
   "property": "C104",
   "status": "proved",
   "theorems": [
    "C104_arithmetic",
    "C104_division",
    "C104_power",
    "C104_derivative"
   ],
   "note": "Limits are literals, independent of the model's width table. Added after a mutation of that table survived all other theorems."
  },
  {
   "property": "C105",
   "status": "proved",
   "theorems": [
    "C105_slope",
    "C105_repeated",
    "C105_multiplicity"
   ],
   "note": "Generic over lawful coefficient types."
  },
  {
   "property": "C106",
   "status": "proved",
   "theorems": [
    "C106_difference",
    "C106_integers",
    "C106_integers_wrapping"
   ],
   "note": "Generic over lawful coefficient types, with integer corollaries for both build profiles."
  },
  {
   "property": "C107",
   "status": "proved",
   "theorems": [
    "C107_eval",
    "C107_monotone",
    "C107_arithmetic",
    "C107_scalar",
    "C107_calculus",
    "C107_multiply",
    "C107_power",
    "C107_sparse",
    "C107_sparse_eval"
   ],
   "note": "Proved for dense vectors: values, sums, differences, negations, multiples, quotients by a number, derivatives, integrals, products and powers; for maps: sums, differences, negations, multiples, quotients, and values with the square-and-multiply powers of Rust's runtime library and exponents below 2^31. Products and powers assume that both calls return (two zero polynomials panic, C09)."
  },
  {
   "property": "C108",
   "status": "proved",
   "theorems": [
    "C108_error",
    "C108_sign",
    "C108_root",
    "C108_no_root"
   ],
   "note": "The error radius and the underflow term are explicit real numbers; computing them in floats is up to the caller. Roots are real numbers, by the intermediate value theorem."
  },
  {
   "property": "C109",
   "status": "proved",
   "theorems": [
    "C109_tangent",
    "C109_newton",
    "C109_newton_wrapping"
   ],
   "note": "Generic over the ring laws, then for the twelve integer types in both builds. Sparse evaluation needs exponents below 2^32 (C51)."
  },
  {
   "property": "C110",
   "status": "proved",
   "theorems": [
    "C110_sum",
    "C110_operators",
    "C110_macros",
    "C110_product",
    "C110_multiply",
    "C110_sparse_multiply"
   ],
   "note": "add_poly, sub_poly, mul_poly_vec, poly_add! and poly_sub! over floats: each coefficient as an explicit chain of rounded operations, for every source that lists its non-zero terms, into dense and sparse sinks; the agreement with the operators +, - and *; and the order in which sparse products are added up, which is that of the dense product with the operands exchanged (cf. C83_mul_refuted)."
  },
  {
   "property": "C111",
   "status": "proved",
   "theorems": [
    "C111_sign",
    "C111_enclosure",
    "C111_bracket",
    "C111_lowest"
   ],
   "note": "Real roots are roots of the coefficients read as real numbers (C111_enclosure, C111_bracket); the other two theorems are about what eval returns. Sparse exponents below 2^32, as for C12."
  },
  {
   "property": "C112",
   "status": "proved",
   "theorems": [
    "C112_expansion",
    "C112_slope",
    "C112_int",
    "C112_int_wrapping"
   ],
   "note": "Dense polynomials only: sparse div_mod does not return for such chains (C22)."
  },
  {
   "property": "C113",
   "status": "proved",
   "theorems": [
    "C113_differences",
    "C113_int",
    "C113_int_wrapping"
   ],
   "note": "Sparse exponents below 2^32, as for C12."
  },
  {
   "property": "C114",
   "status": "proved",
   "theorems": [
    "C114_coefficients",
    "C114_int",
    "C114_int_wrapping"
   ],
   "note": "The statement on degrees is for debug builds; C114_wrapping_case shows that release builds need the restriction."
  }
 ]
}