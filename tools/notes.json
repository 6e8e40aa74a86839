{
 "C01": {
  "status": "proved",
  "note": "For every coefficient type; coefficients under lawful."
 },
 "C02": {
  "status": "proved",
  "note": "All representations."
 },
 "C03": {
  "status": "proved",
  "note": "All representations except ArrayPolynomial, whose listing is wrong for SIZE other than 2: see C54."
 },
 "C04": {
  "status": "proved",
  "note": "All representations."
 },
 "C05": {
  "status": "proved",
  "note": "All representations."
 },
 "C06": {
  "status": "proved",
  "note": "Coefficientwise sum and exact return condition, with the integer instances spelled out."
 },
 "C07": {
  "status": "proved",
  "note": "Subtraction by value and by reference, negation, return conditions."
 },
 "C08": {
  "status": "proved",
  "note": "Cauchy product; return conditions for total arithmetic and overflow-checked integers."
 },
 "C09": {
  "status": "partial",
  "note": "REFUTED: zero * zero panics for every coefficient type (C09_zero_times_zero_panics, _refuted); zero * non-zero is zero."
 },
 "C10": {
  "status": "proved",
  "note": "Dense and sparse: equals the n-fold product whenever it returns; recursion terminates."
 },
 "C100": {
  "status": "proved",
  "note": "Exact arithmetic without zero divisors; Euclid is caller code over the API."
 },
 "C101": {
  "status": "proved",
  "note": "From degree 4 on for f32/f64 only when the evaluations agree: Horner and powi may round differently (C84)."
 },
 "C102": {
  "status": "proved",
  "note": "C102_power and C102_sparse are the bounds, C102_two_terms, C102_integers and C102_positive special cases, C102_finite excludes overflow. C102_spacing_needed shows that the condition on the spacing cannot be dropped."
 },
 "C103": {
  "status": "proved",
  "note": "Sparse evaluation is stated for powers that follow the sign of the base; C103_powi shows that Rust's runtime loop does. Sparse division is covered for negated operands only."
 },
 "C104": {
  "status": "proved",
  "note": "Limits are literals, independent of the model's width table. Added after a mutation of that table survived all other theorems."
 },
 "C105": {
  "status": "proved",
  "note": "Generic over lawful coefficient types."
 },
 "C106": {
  "status": "proved",
  "note": "Generic over lawful coefficient types, with integer corollaries for both build profiles."
 },
 "C107": {
  "status": "proved",
  "note": "Proved for dense vectors: values, sums, differences, negations, multiples, quotients by a number, derivatives, integrals, products and powers; for maps: sums, differences, negations, multiples, quotients, and values with the square-and-multiply powers of Rust's runtime library and exponents below 2^31. Products and powers assume that both calls return (two zero polynomials panic, C09)."
 },
 "C108": {
  "status": "proved",
  "note": "The error radius and the underflow term are explicit real numbers; computing them in floats is up to the caller. Roots are real numbers, by the intermediate value theorem."
 },
 "C109": {
  "status": "proved",
  "note": "Generic over the ring laws, then for the twelve integer types in both builds. Sparse evaluation needs exponents below 2^32 (C51)."
 },
 "C11": {
  "status": "proved",
  "note": "All representations. For the built-in integers, in both overflow modes, division by a scalar gives the quotient truncated toward zero of every coefficient and panics exactly for a zero divisor or for the least value divided by -1."
 },
 "C110": {
  "status": "proved",
  "note": "add_poly, sub_poly, mul_poly_vec, poly_add! and poly_sub! over floats: each coefficient as an explicit chain of rounded operations, for every source that lists its non-zero terms, into dense and sparse sinks; the agreement with the operators +, - and *; and the order in which sparse products are added up, which is that of the dense product with the operands exchanged (cf. C83_mul_refuted)."
 },
 "C111": {
  "status": "proved",
  "note": "Real roots are roots of the coefficients read as real numbers (C111_enclosure, C111_bracket); the other two theorems are about what eval returns. Sparse exponents below 2^32, as for C12."
 },
 "C112": {
  "status": "proved",
  "note": "Dense polynomials only: sparse div_mod does not return for such chains (C22)."
 },
 "C113": {
  "status": "proved",
  "note": "Sparse exponents below 2^32, as for C12."
 },
 "C114": {
  "status": "proved",
  "note": "The statement on degrees is for debug builds; C114_wrapping_case shows that release builds need the restriction."
 },
 "C12": {
  "status": "proved",
  "note": "All representations; per-term exponents below 2^32 for Monomial and SparsePolynomial (beyond: C51)."
 },
 "C13": {
  "status": "proved",
  "note": "All representations."
 },
 "C14": {
  "status": "proved",
  "note": "Integral coefficients, their exactness over fields, integer truncation; Integral::eval is the difference of the values at the bounds (additive, antisymmetric); replace_c adds to the constant coefficient only and leaves the derivative and all definite integrals unchanged."
 },
 "C15": {
  "status": "proved",
  "note": "All representations that have shifts; degrees must stay within usize when built without overflow checks (C52). Binomial and trinomial >> are in C50."
 },
 "C16": {
  "status": "partial",
  "note": "REFUTED for >> on polynomials with leading zeros, exact characterisation given; true for >>= and for trimmed polynomials."
 },
 "C17": {
  "status": "partial",
  "note": "REFUTED: shifting by i32::MIN panics (checked) or recurses forever (unchecked) for every polynomial (dense, sparse, monomial); every other amount is fine."
 },
 "C18": {
  "status": "proved",
  "note": "Euclidean division whenever it returns; termination over fields, with the number of rounds (C18_dense_div_mod_rounds); uniqueness over domains."
 },
 "C19": {
  "status": "partial",
  "note": "REFUTED: diverges whenever the leading coefficient is smaller than the divisor's; terminates whenever a quotient and remainder exist over Z."
 },
 "C20": {
  "status": "partial",
  "note": "REFUTED for %: never returns when deg p >= deg d, for every coefficient type; %= is correct."
 },
 "C21": {
  "status": "proved",
  "note": "Dense and sparse."
 },
 "C22": {
  "status": "partial",
  "note": "REFUTED: sparse div_mod never returns when deg p > deg d; exact characterisation of when it returns, and correctness when it does."
 },
 "C23": {
  "status": "proved",
  "note": "Coefficientwise, with integer instances."
 },
 "C24": {
  "status": "proved",
  "note": "Cauchy product when degrees fit in usize; agrees with dense product."
 },
 "C25": {
  "status": "proved",
  "note": "Construction from vectors and term lists agree."
 },
 "C26": {
  "status": "proved",
  "note": "Any history on all six representations equals replaying the successful calls; net-sum and last-reset reading of the replay; errors change nothing; exact condition for each call to return."
 },
 "C27": {
  "status": "proved",
  "note": "Effect, atomicity and exact return condition for all four fixed shapes."
 },
 "C28": {
  "status": "partial",
  "note": "REFUTED for the fixed-size types and for subtracting zero beyond the length of an unsigned Polynomial; proved for SparsePolynomial and for Polynomial otherwise."
 },
 "C29": {
  "status": "partial",
  "note": "REFUTED: with a smaller coefficient stored at that degree the call panics (overflow checks) or wraps and reports Ok; proved when no coefficient is stored there."
 },
 "C30": {
  "status": "proved",
  "note": "For every sink satisfying the term-update laws, which all six types do; includes the effect on error and the macros."
 },
 "C31": {
  "status": "partial",
  "note": "REFUTED for unsigned types: an operand of higher degree is silently dropped; proved for types that can be negated."
 },
 "C32": {
  "status": "proved",
  "note": "All five printable types, all integer types, both build modes; hypothesis: the minimum of a signed type occurs only as leading coefficient (see C33). Dense and sparse also carry their representation invariants (length and degrees the type can hold)."
 },
 "C33": {
  "status": "partial",
  "note": "REFUTED: whenever a non-leading coefficient is the minimum of a signed type, formatting panics with overflow checks, and without them prints text that the same type rejects. C32 is the true part."
 },
 "C34": {
  "status": "proved",
  "note": "Ranges are a chain from 0 to the byte length of the UTF-8 encoding; slicing at them always succeeds and cuts the bytes of the string into the bytes of the tokens; the tokens satisfy a declarative description that determines them uniquely."
 },
 "C35": {
  "status": "proved",
  "note": "Value of the result, meaning of each error, exact success condition (iff), order irrelevance for dense and sparse. Monomial is order dependent (example)."
 },
 "C36": {
  "status": "proved",
  "note": "Exact accepted language (iff) with meaning, separators ignored anywhere, integer text grammar (iff)."
 },
 "C37": {
  "status": "partial",
  "note": "REFUTED: digits directly after x are read as the exponent, digits around the caret are concatenated; DegreeCouldNotBeParsed is never reported."
 },
 "C38": {
  "status": "partial",
  "note": "REFUTED for Polynomial: x^d panics for every d the vector cannot hold. Proved for the other types up to coefficient overflow (suffix _partial)."
 },
 "C39": {
  "status": "proved",
  "note": "Exact real arithmetic (the reals of the standard library); sqrt is the real square root. Rounding of f64 is not covered."
 },
 "C40": {
  "status": "partial",
  "note": "REFUTED for a < 0 (C40_order_refuted, C40_negative_leading: the smallest root comes first, for every such quadratic); proved for a > 0 (C40_order_partial). Exact real arithmetic."
 },
 "C41": {
  "status": "partial",
  "note": "REFUTED: two integer roots with an odd sum are never returned (C41_odd_sum_wrong, C41_refuted). Proved when the sum is even and nothing overflows, for every signed type with From<u8>, both build modes. A zero leading coefficient panics."
 },
 "C42": {
  "status": "partial",
  "note": "REFUTED for complex_factors with negative discriminant and b non-zero (C42_complex_factors_nonreal characterises what it multiplies to); real_factors and the real-root case of complex_factors proved. Exact real arithmetic."
 },
 "C43": {
  "status": "proved",
  "note": "Generic classification with exact division; integer instance; monomials."
 },
 "C44": {
  "status": "partial",
  "note": "REFUTED for every cubic with three distinct real roots whose inflection point is not a root (C44_three_distinct_roots_refuted, C44_cubic_wrong); proved otherwise (C44_cubic_roots_partial). Exact real arithmetic with an exact cube root."
 },
 "C45": {
  "status": "proved",
  "note": "Dense and sparse, every coefficient type with exact arithmetic; the term-list patterns are exhaustive (C45_never_unreachable). C45_float_returns: over f32/f64, for degree at most 3, roots() always returns, for every behaviour of sqrt, cbrt and rounding."
 },
 "C46": {
  "status": "partial",
  "note": "REFUTED for f64 termination: deflation loops forever when synthetic division meets an infinite or NaN coefficient (C46_float_deflation_ends_iff, C46_float_nonfinite_leading_hangs, C46_float_termination_refuted); otherwise the f32/f64 loop ends within deg p passes (C46_float_returns_or_hangs, C46_float_deflation_bounded). Exact arithmetic: termination for every solver and soundness with multiplicity proved (C46_terminates, C46_sound, C46_real). Sparse degrees above the vector limit panic. The Sturm solver is an external crate and an arbitrary function here."
 },
 "C47": {
  "status": "proved",
  "note": "Every unsigned width in both build modes: abs_sqrt returns (67 loop rounds are enough for all widths), never overflows, and is the floor square root. Signed: the floor square root of |n|, except that the minimum panics when overflow checks are on (C47_signed_min_checked)."
 },
 "C48": {
  "status": "partial",
  "note": "Integers: exact and accepted iff in range. f32/f64 cont: accepted iff at most 2^24 / 2^52, exact, and so is every smaller number. f32/f64 exact: correct below usize::MAX (C48_float_exact_partial); REFUTED at usize::MAX, where 2^64 is returned for 2^64-1 (C48_float_exact_refuted)."
 },
 "C49": {
  "status": "proved",
  "note": "All 41 pairs of the upcast table; integers, integers to floats, f32 to f64 (infinities and NaN included). Coefficient values, degree, term listing and equality of all five containers are preserved."
 },
 "C50": {
  "status": "proved",
  "note": "Effect and return conditions."
 },
 "C51": {
  "status": "partial",
  "note": "REFUTED: SparsePolynomial::eval, Monomial::eval and Monomial::pow truncate the exponent to 32 bits; exact characterisation given."
 },
 "C52": {
  "status": "partial",
  "note": "REFUTED without overflow checks (product, shift, power); true with them."
 },
 "C53": {
  "status": "proved",
  "note": "C exactly for the zero polynomial, else the polynomial's text followed by ' + C'."
 },
 "C54": {
  "status": "partial",
  "note": "REFUTED for every SIZE other than 2 and every non-zero polynomial; true for SIZE 2."
 },
 "C55": {
  "status": "partial",
  "note": "REFUTED as stated: C55_nontermination_refuted shows 1.0x / 49.0x never returns for any fuel, C55_quotient_overwritten_refuted shows 3.0x / 47.0x returns a quotient below 1e-16 with remainder 0, C55_underflow_refuted shows that the smallest f64 times x divided by 2x never returns (div_mod and %=). C55_monic_partial and C55_half_power_partial prove termination, finiteness and the degree bound for divisors with leading coefficient 1, or plus or minus a negative power of two, and bounded coefficients (f32 and f64). Missing: other divisors (false in general)."
 },
 "C56": {
  "status": "partial",
  "note": "REFUTED: i8 polynomial of degree 127 panics; returns whenever degree + 1 is representable."
 },
 "C57": {
  "status": "proved",
  "note": "All 30+ modelled operations per shape, integer sources; refutations show that float sources, release sources and float targets of division must be excluded."
 },
 "C58": {
  "status": "proved",
  "note": "Every modelled operation of all shapes, text and root finding (for any solver and square/cube roots); the converse is refuted."
 },
 "C59": {
  "status": "proved",
  "note": "Polynomial, SparsePolynomial, and evaluation of LinearBinomial, QuadraticTrinomial and ArrayPolynomial; the bound is shown tight by a refutation beyond it."
 },
 "C60": {
  "status": "proved",
  "note": "Display for all shapes; FromStr for all shapes (for Polynomial the larger coefficients may exceed the address space); the converse is refuted."
 },
 "C61": {
  "status": "proved",
  "note": "Multiplication, powers and evaluation of all shapes with checked integers; Monomial::pow exactly; the converse is refuted."
 },
 "C62": {
  "status": "proved",
  "note": "Dense and sparse programs; laws of rings, powers, derivatives and shifts; wrapping integers. Rounding types are excluded (they obey no ring laws)."
 },
 "C63": {
  "status": "proved",
  "note": "Dense (any lawful type), sparse (checked), wrapping integers."
 },
 "C64": {
  "status": "proved",
  "note": "Dense: all operations named; sparse: add, sub, neg, scalar product and quotient. Each both as an IEEE operation and as a correctly rounded real."
 },
 "C65": {
  "status": "proved",
  "note": "Dense polynomials, binomials, trinomials. Monomial and SparsePolynomial evaluation goes through powi: see C84 and C91."
 },
 "C66": {
  "status": "proved",
  "note": "Dense (both operator variants) and sparse."
 },
 "C67": {
  "status": "partial",
  "note": "Addition commutes exactly (proved) and products commute up to the rounding bound (proved). REFUTED: exact commutativity of products, associativity, distributivity, additivity of evaluation."
 },
 "C68": {
  "status": "proved",
  "note": "Round to nearest even of the exact quotient; any finite coefficients whose quotient is within the largest finite float."
 },
 "C69": {
  "status": "proved",
  "note": "The square root is assumed correctly rounded, as IEEE 754 prescribes."
 },
 "C70": {
  "status": "partial",
  "note": "Residual bound and classification proved for the stated exponent range. REFUTED: relative accuracy (cancellation) and freedom from overflow outside the range. The square root is assumed correctly rounded, as IEEE 754 prescribes."
 },
 "C71": {
  "status": "proved",
  "note": "Exact real arithmetic; sparse and monomial exponents below 2^32, as in C12."
 },
 "C72": {
  "status": "proved",
  "note": "For every coefficient type with is_zero(zero()); sparse/fixed equality also needs that == agrees with is_zero, which C72_float shows of f32 and f64. A shift is covered whenever it returns (C15 - C17 say when)."
 },
 "C73": {
  "status": "partial",
  "note": "REFUTED for floats (C73_reflexive_refuted: NaN); symmetric and transitive there, reflexive iff no NaN (C73_float_partial). Proved for all integer types (C73_int) and for every type whose coefficients have an equivalence (C73_equivalence)."
 },
 "C74": {
  "status": "partial",
  "note": "REFUTED for products of wrapping integers and of floats (C74_wrapping_refuted, C74_float_refuted). Proved for every coefficient domain incl. integers with overflow checks; sums, negation and shifts for every ring."
 },
 "C75": {
  "status": "proved",
  "note": "For every lawful coefficient type; C75_returns covers fields and, for checked integers, termination."
 },
 "C76": {
  "status": "partial",
  "note": "REFUTED for wrapping integers of every type (C76_wrapping_refuted). Proved for every coefficient domain incl. integers with overflow checks."
 },
 "C77": {
  "status": "partial",
  "note": "Proved for all finite coefficients and every Display that meets core's contract (float_display, inhabited by show_exact). REFUTED for infinities and NaN: C77_nonfinite_refuted shows their text is never accepted."
 },
 "C78": {
  "status": "partial",
  "note": "Correct rounding, accepted literals and left-to-right sums proved for all five parsable types. REFUTED part: a successful parse may return an infinite coefficient (C78_finite_refuted)."
 },
 "C79": {
  "status": "partial",
  "note": "C79_term_error characterises, for every text, number parser and error, when from_str returns that error, by an inductive specification of the faults (term_error); C79_error_tells draws out what the user learns; C79_polynomial_error lifts it to polynomials. REFUTED part: an unreadable exponent is reported as CoeffCouldNotBeParsed although the coefficient is fine, and DegreeCouldNotBeParsed is never returned (C79_exponent_refuted)."
 },
 "C80": {
  "status": "partial",
  "note": "Exact real arithmetic. C80_small_partial: degrees 1 to 3 for dense and sparse polynomials, except c x^2 and c x^3 and the cubics for which the cubic formula is wrong (C44); C80_large: from degree 4 on, for every solver that returns distinct roots, an answer ManyRealRoots is complete with multiplicity. REFUTED for c x^k, k > 1: the root 0 of multiplicity k is listed once (C80_multiple_zero_refuted, for all c and k). Rounding is not covered here; C46 has the statements about partial answers."
 },
 "C81": {
  "status": "proved",
  "note": "All representations; dense exactly, sparse and monomial up to the sign of a zero. Exponents at most what a Vec of that float type can hold (dense)."
 },
 "C82": {
  "status": "proved",
  "note": "Lawless constructor part; C82_types discharges the hypotheses for all integer types and floats. The float value part assumes only powi(x,0)=1."
 },
 "C83": {
  "status": "partial",
  "note": "REFUTED in part: C83_mul_refuted (products of the same polynomial differ in the last bits between the representations) and C83_scale_refuted (times infinity the dense zeros become NaN). C83_agree proves agreement for all other operations, C83_mul_bound bounds the difference of products."
 },
 "C84": {
  "status": "partial",
  "note": "REFUTED for exponents of 2^31 and more (C84_exponent_refuted: the exponent is cast to i32 and becomes negative). Below 2^31 the bound is proved relative to an accuracy of powi, which Rust does not specify; with that hypothesis C84_sparse, C84_monomial and C84_agree hold for all inputs."
 },
 "C85": {
  "status": "proved",
  "note": "num::Complex is an external crate: its operators are modelled by the usual formulas, division by multiplying with the conjugate. Methods whose trait bounds have no impl for complex numbers (derivative, sparse eval, Display, try_sub_term) are outside."
 },
 "C86": {
  "status": "partial",
  "note": "REFUTED in part: C86_undo_refuted (p / c * c, (p + q) - q and the derivative of the integral are not exact) and C86_sub_self_refuted (p - p is not zero with infinite coefficients). The exact round trips are proved, the others bounded."
 },
 "C87": {
  "status": "partial",
  "note": "Proved for degrees 1 and 2, for the cubics where the formula of the code is right, and for any degree when the result is a list of real roots found by a solver that returns exact roots. REFUTED for the other cubics (C87_cubic_refuted): one of the reported roots does not evaluate to zero."
 },
 "C88": {
  "status": "proved",
  "note": "Divisors whose leading coefficient cannot be divided out without loss are excluded: for those the loop can overwrite quotient coefficients or not return at all (C55)."
 },
 "C89": {
  "status": "proved",
  "note": "Polynomial, arrays, binomials and trinomials; sparse polynomials and monomials are in C94. Area is the Riemann integral and slope the limit of the standard library; finite result assumed, no other condition."
 },
 "C90": {
  "status": "proved",
  "note": "For Polynomial and ArrayPolynomial (same evaluation). The error bound is a real number computed from the polynomial with absolute coefficients."
 },
 "C91": {
  "status": "proved",
  "note": "rt_powi models the square-and-multiply loop of the Rust runtime library (compiler-builtins float/pow.rs), which is outside /repo; C84 holds for any power function with a given accuracy, and C91 discharges that accuracy for this loop"
 },
 "C92": {
  "status": "partial",
  "note": "REFUTED for sparse polynomials: the entry 0 x^2 kept by (x^2+1)-x^2 makes evaluation panic for every checked integer type (C92_sparse_eval_refuted) and return NaN for f64 (C92_float_eval_refuted), although the polynomial == 1; likewise products (C92_sparse_mul_refuted: x^M - x^M times x panics, x times it does not) and integrals (C92_sparse_integral_refuted). Proved for all dense and fixed-size operations and for the sparse operations that only look at values. dense Rem (%) is left out: it loops on most inputs (see C20)"
 },
 "C93": {
  "status": "partial",
  "note": "REFUTED for commas and underscores in front of the first sign, where the text is rejected; everything else proved for every text that is not blank."
 },
 "C94": {
  "status": "proved",
  "note": "Sparse polynomials and monomials; the bound uses the modelled powi loop of the runtime library."
 },
 "C95": {
  "status": "proved",
  "note": "C95_text holds for any coefficient type whose text is plain (no blank, no x, injective); C95_integers and C95_floats are the instances. C95_equal_text relates it to ==."
 },
 "C96": {
  "status": "partial",
  "note": "REFUTED: div_mod does not return when the dividend has the larger degree (C96_large, all inputs) and for some equal degrees (C96_equal gives the exact condition, C96_underflow and C96_equal_refuted instances). C96_small and C96_lossless give the results where it returns at once."
 },
 "C97": {
  "status": "partial",
  "note": "REFUTED (C97_refuted). C97_real and C97_complex characterise exactly when the factors multiply back. With overflow checks a discriminant equal to the type's minimum panics and is excluded."
 },
 "C98": {
  "status": "partial",
  "note": "REFUTED for complex factors with b non-zero (C98_complex_wrong for all finite coefficients). The real factors bounded, whole roots and a(x^2+w^2) proved exact."
 },
 "C99": {
  "status": "partial",
  "note": "REFUTED for a negative leading coefficient, where the order is always the other one. C40 is the statement in exact arithmetic."
 }
}